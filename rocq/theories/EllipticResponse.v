(** The exact elliptic filter: its denominator and the two ripple bands (used by C61). *)
From Coq Require Import Reals Lra Lia ZArith List Bool Psatz Permutation.
From Coquelicot Require Import Rcomplements.
From Verif Require Import Base BaseFacts Complex ConvModel ConvProofs PolyModel PolyProofs RootModel RootProofs DesignProofs ChebyProofs EllipticSpec JacobiReal JacobiComplex PolyRoots EllipticRational EllipticProto EllipticTransform UniformLimit.
Import ListNotations.
Open Scope R_scope.

(** ** Complex polynomials of bounded degree and their roots *)
Fixpoint isPC (d : nat) (p : C -> C) : Prop :=
  match d with
  | O => exists c, forall x, p x = c
  | S d => exists c q, isPC d q /\ forall x, p x = (c + x * q x)%Cx
  end.
Lemma isPC_ext d p q : (forall x, p x = q x) -> isPC d p -> isPC d q.
Proof. destruct d; intros E; [intros [c H]; exists c|intros (c & r & H & F); exists c, r; split; [exact H|]]; intros x; now rewrite <- E. Qed.
Lemma isPC_scale d : forall p c, isPC d p -> isPC d (fun x => c * p x)%Cx.
Proof. induction d as [|d IH]; intros p c; [intros [a H]; exists (c * a)%Cx; intros x; now rewrite H|]. intros (a & q & H & E). exists (c * a)%Cx, (fun x => c * q x)%Cx. split; [now apply IH|]. intros x. rewrite E. ring. Qed.
Lemma isPC_add d : forall p q, isPC d p -> isPC d q -> isPC d (fun x => p x + q x)%Cx.
Proof. induction d as [|d IH]; intros p q; [intros [a H] [b G]; exists (a + b)%Cx; intros x; now rewrite H, G|]. intros (a & p' & H & E) (b & q' & G & F). exists (a + b)%Cx, (fun x => p' x + q' x)%Cx. split; [now apply IH|]. intros x. rewrite E, F. ring. Qed.
Lemma isPC_S d : forall p, isPC d p -> isPC (S d) p.
Proof. induction d as [|d IH]; intros p H; [destruct H as [c H]; exists c, (fun _ => C0); split; [now exists C0|intros; rewrite H; ring]|]. destruct H as (c & q & H & E). exists c, q. split; [now apply IH|exact E]. Qed.
Lemma isPC_x d p : isPC d p -> isPC (S d) (fun x => x * p x)%Cx.
Proof. intros H. exists C0, p. split; [exact H|]. intros; ring. Qed.
Lemma isPC_quad d p a b : isPC d p -> isPC (S (S d)) (fun x => (a + b * (x * x)) * p x)%Cx.
Proof. intros H. apply (isPC_ext _ (fun x => a * p x + b * (x * (x * p x)))%Cx); [intros; ring|]. apply isPC_add; apply isPC_scale; [now do 2 apply isPC_S|now do 2 apply isPC_x]. Qed.
Lemma isPC_prod {A} (l : list A) (a b : A -> C) : isPC (length l + length l) (fun x => prodC (fun r => a r + b r * (x * x))%Cx l).
Proof.
  induction l as [|r l IH]; [now exists C1|]. cbn [length]. replace (S (length l) + S (length l))%nat with (S (S (length l + length l))) by lia.
  apply (isPC_ext _ (fun x => (a r + b r * (x * x)) * prodC (fun r => a r + b r * (x * x))%Cx l)%Cx); [reflexivity|]. now apply isPC_quad.
Qed.
Lemma isPC_div d : forall p r, isPC (S d) p -> exists q, isPC d q /\ forall x, p x = (p r + (x - r) * q x)%Cx.
Proof.
  induction d as [|d IH]; intros p r (c & q & H & E).
  - destruct H as [a H]. exists (fun _ => a). split; [now exists a|]. intros x. rewrite !E, !H. ring.
  - destruct (IH q r H) as (q2 & G & F). exists (fun x => q r + x * q2 x)%Cx. split; [now exists (q r), q2|]. intros x. rewrite !E. rewrite (F x) at 1. ring.
Qed.
Lemma isPC_root d p r : isPC (S d) p -> p r = C0 -> exists q, isPC d q /\ forall x, p x = ((x - r) * q x)%Cx.
Proof. intros H Z. destruct (isPC_div d p r H) as (q & G & E). exists q. split; [exact G|]. intros x. rewrite E, Z. ring. Qed.
Lemma pnode_cons a l z : pnode (a :: l) z = ((z - a) * pnode l z)%Cx. Proof. reflexivity. Qed.
Lemma C_sub0 (a b : C) : (a - b)%Cx = C0 -> a = b. Proof. intros E. transitivity ((a - b) + b)%Cx; [ring|]. rewrite E. ring. Qed.
Lemma roots_simpleC rs : forall p, NoDup rs -> isPC (length rs) p -> (forall r, In r rs -> p r = C0) -> exists c, forall x, p x = (c * pnode rs x)%Cx.
Proof.
  induction rs as [|r rs IH]; intros p N H Z; cbn [length] in H.
  - destruct H as [c H]. exists c. intros x. rewrite H. change (pnode [] x) with C1. ring.
  - destruct (isPC_root _ p r H) as (q & G & E); [apply Z; now left|]. inversion N as [|? ? Nr Nrs]; subst. destruct (IH q Nrs G) as (c & E').
    { intros s Hs. specialize (Z s (or_intror Hs)). rewrite E in Z. apply Cmul_0_eq in Z as [Z|Z]; [exfalso; apply Nr; rewrite <- (C_sub0 _ _ Z); exact Hs|exact Z]. }
    exists c. intros x. rewrite E, E', pnode_cons. ring.
Qed.
Lemma RtoC_prod {A} (f : A -> R) l : RtoC (fold_right Rmult 1 (map f l)) = prodC (fun a => RtoC (f a)) l.
Proof. induction l as [|a l IH]; [reflexivity|]. cbn [map fold_right]. change (prodC (fun a => RtoC (f a)) (a :: l)) with (RtoC (f a) * prodC (fun a => RtoC (f a)) l)%Cx. rewrite <- IH. apply C_ext; cbn; ring. Qed.
Lemma RtoC_iprod f l : RtoC (iprod l f) = prodC (fun a => RtoC (f a)) l. Proof. apply RtoC_prod. Qed.
Lemma prodC_map {A B} (f : B -> C) (g : A -> B) l : prodC f (map g l) = prodC (fun a => f (g a)) l. Proof. exact (prodK_map (K := Cring) f g l). Qed.
Lemma prodC_ext {A} (f g : A -> C) l : (forall a, In a l -> f a = g a) -> prodC f l = prodC g l. Proof. exact (prodK_ext (K := Cring) f g l). Qed.
Lemma prodC_perm {A} (f : A -> C) l m : Permutation l m -> prodC f l = prodC f m. Proof. exact (prodK_perm (K := Cring) f l m). Qed.
Lemma prodC_cons {A} (f : A -> C) a l : prodC f (a :: l) = (f a * prodC f l)%Cx. Proof. reflexivity. Qed.
Lemma rev_seq0 d : Permutation (map (fun i => (d - i)%nat) (seq 0 (S d))) (seq 0 (S d)).
Proof.
  apply NoDup_Permutation_bis; [|rewrite map_length, !seq_length; lia|].
  - apply NoDup_map_in; [|apply seq_NoDup]. intros x y Hx Hy E. apply in_seq in Hx, Hy. lia.
  - intros x Hx. apply in_map_iff in Hx as (i & <- & Hi). apply in_seq in Hi. apply in_seq. lia.
Qed.

Section Response.
Variable k : R.
Hypothesis Hk : 0 < k < 1.
Variable d : nat.
Notation n := (S d).
Notation K := (legendre_K k).
Notation pt := (pt k d).
Notation ms := (seq 0 (S d)).
Notation P := (P k d).
Notation Q := (Q k d).
Notation T := (T k d).
Notation B := (B k d).
Notation Fp := (Fp k d).
Lemma k00 : 0 <= k < 1. Proof. lra. Qed.
(** the points (2 m - d) K / n *)
Definition tt (m : nat) : R := pt (2 * m) - pt d.
Definition ss (m : nat) : R := sn k (tt m) * sn k (tt m).
Definition N2 (q : R) : R := iprod ms (fun m => q - ss m).
Definition D2 (q : R) : R := iprod ms (fun m => 1 - k * k * ss m * q).
Lemma tt_rev m : (m <= d)%nat -> tt (d - m) = - tt m.
Proof. intros H. unfold tt. assert (E : pt (2 * (d - m)) + pt (2 * m) = pt d + pt d) by (rewrite <- !pt_add by exact Hk; f_equal; lia). lra. Qed.
Lemma tt_range m : (m <= d)%nat -> - K < tt m < K.
Proof.
  intros H. unfold tt. pose proof (pt_n k d) as En. pose proof (pt_lt k Hk d 0 n ltac:(lia)) as L0. pose proof (pt_lt k Hk d d n ltac:(lia)) as L1. rewrite (pt_0 k d) in L0. assert (L2 : pt (2 * m) < pt (d + n)) by (apply pt_lt; [exact Hk|lia]). rewrite pt_add in L2. assert (L3 : 0 <= pt (2 * m)). { destruct m; [cbn [Nat.mul Nat.add]; rewrite (pt_0 k d); lra|]. rewrite <- (pt_0 k d). left. apply pt_lt; [exact Hk|lia]. } rewrite En in *. lra.
Qed.
Lemma ms_cons : ms = 0%nat :: seq 1 d. Proof. reflexivity. Qed.
Lemma Fp_ms x : Fp x = iprod ms (fun m => sn k (x + pt (2 * m))).
Proof. rewrite ms_cons, iprod_cons. unfold EllipticRational.Fp. cbn [Nat.mul Nat.add]. rewrite (pt_0 k d), Rplus_0_r. reflexivity. Qed.
Lemma N2_eq x : N2 (sn k x * sn k x) = T (x - pt d) * D2 (sn k x * sn k x).
Proof.
  unfold N2, D2, EllipticRational.T. rewrite !Fp_ms. rewrite <- (iprod_perm _ _ (fun m => sn k (x - pt d + pt (2 * m))) (rev_seq0 d)) at 1. rewrite iprod_map, <- !iprod_mul. apply iprod_ext. intros m Hm. apply in_seq in Hm.
  pose proof (sn_prod k k00 x (tt m)) as E. replace (x - pt d + pt (2 * (d - m))) with (x + tt (d - m)) by (unfold tt; ring). rewrite tt_rev by lia. replace (x - pt d + pt (2 * m)) with (x + tt m) by (unfold tt; ring). unfold ss. rewrite <- E. unfold den. replace (x + - tt m) with (x - tt m) by ring. ring.
Qed.
Lemma ss_range m : (m <= d)%nat -> 0 <= ss m < 1.
Proof. intros H. pose proof (sn_lt1 k k00 (tt m) (tt_range m H)) as S. unfold ss. nra. Qed.
Lemma ss_rev m : (m <= d)%nat -> ss (d - m) = ss m.
Proof. intros H. unfold ss. rewrite tt_rev by exact H. rewrite (sn_neg k k00). ring. Qed.
(** even multiplicities: squares up to sign *)
Lemma D2_pos q : k * k * q <= 1 -> 0 < D2 q.
Proof.
  intros H. unfold D2. apply iprod_pos. intros m Hm. apply in_seq in Hm. pose proof (ss_range m ltac:(lia)) as S. assert (k * k * ss m * q <= 0 \/ 0 < q) as [E|E] by (destruct (Rlt_dec 0 q); [right; assumption|left]; assert (0 <= k * k * ss m) by (apply Rmult_le_pos; nra); nra); [lra|]. assert (0 < k * k * q) by (repeat apply Rmult_lt_0_compat; lra). nra.
Qed.
Lemma T_range x : 0 <= T x <= B.
Proof.
  assert (S : 0 <= sn k x * sn k x <= 1) by (pose proof (sc k x); pose proof (Rle_0_sqr (sn k x)) as A; pose proof (Rle_0_sqr (cn k x)) as A'; unfold Rsqr in *; lra). pose proof (P_range_ k Hk d _ S) as R. pose proof (q_lt_ k Hk d x) as L. pose proof (Q_pos k Hk d _ L) as Qp. rewrite T_eq by exact Hk. split; [apply Rle_div_r; lra|apply Rle_div_l; lra].
Qed.
Lemma pass_band w : -1 <= w <= 1 -> 0 <= N2 (w * w) <= B * D2 (w * w).
Proof.
  intros H. destruct (sn_onto k k00 w H) as (x & _ & <-). rewrite N2_eq. pose proof (T_range (x - pt d)) as R. pose proof (q_lt_ k Hk d x). assert (0 < D2 (sn k x * sn k x)) by (apply D2_pos; lra). nra.
Qed.
Lemma N2_refl q : q <> 0 -> (k * k * q) ^ n * N2 (/ (k * k * q)) = D2 q.
Proof.
  intros H. assert (K2 : k * k <> 0) by nra. unfold N2, D2. replace n with (length ms) at 1 by apply seq_length. rewrite <- iprod_const, <- iprod_mul. apply iprod_ext. intros m _. field. split; [exact H|lra].
Qed.
Lemma D2_refl q : q <> 0 -> q ^ n * D2 (/ (k * k * q)) = N2 q.
Proof.
  intros H. assert (K2 : k * k <> 0) by nra. unfold N2, D2. replace n with (length ms) at 1 by apply seq_length. rewrite <- iprod_const, <- iprod_mul. apply iprod_ext. intros m _. field. split; [exact H|lra].
Qed.
(** beyond 1/k *)
Lemma stop_band w : 1 <= k * k * (w * w) -> 0 < N2 (w * w) /\ 0 <= D2 (w * w) <= B * (k * k) ^ n * N2 (w * w).
Proof.
  intros H. assert (Kp : 0 < k * k) by nra. assert (W0 : 0 < w * w) by (destruct (Req_dec w 0) as [->|]; [lra|nra]). assert (Wn : w <> 0) by (intros ->; lra). set (v := / (k * w)). assert (Hv : v * v = / (k * k * (w * w))) by (unfold v; field; split; lra || nra). assert (V1 : v * v <= 1) by (rewrite Hv; rewrite <- Rinv_1; apply Rinv_le_contravar; lra). assert (V2 : -1 <= v <= 1) by nra. pose proof (pass_band v V2) as R. rewrite Hv in R. assert (Dp : 0 < D2 (/ (k * k * (w * w)))) by (apply D2_pos; rewrite <- Hv; nra).
  rewrite <- (N2_refl (w * w)), <- (D2_refl (w * w)) by lra. pose proof (pow_lt (w * w) n W0) as Wp. pose proof (pow_lt (k * k * (w * w)) n ltac:(lra)) as Wp'. split; [now apply Rmult_lt_0_compat|]. split; [apply Rmult_le_pos; lra|]. replace (B * (k * k) ^ n * ((w * w) ^ n * D2 (/ (k * k * (w * w))))) with ((k * k * (w * w)) ^ n * (B * D2 (/ (k * k * (w * w))))) by (rewrite (Rpow_mult_distr (k * k)); ring). apply Rmult_le_compat_l; lra.
Qed.
(** at frequency zero *)
Lemma D2_0 : D2 0 = 1.
Proof. unfold D2. rewrite (iprod_ext _ _ (fun _ => 1)) by (intros; ring). rewrite iprod_const. apply pow1. Qed.
Lemma N2_0 : N2 0 = if Nat.even d then 0 else B.
Proof.
  pose proof (N2_eq 0) as E. rewrite (sn_0 k k00) in E. rewrite Rmult_0_l in E. rewrite E, D2_0, Rmult_1_r. replace (0 - pt d) with (- pt d) by ring. rewrite T_neg by exact Hk. destruct (Nat.even d) eqn:Ev.
  - apply Nat.even_spec in Ev as [j ->]. rewrite <- (Rplus_0_l (EllipticRational.pt k (2 * j) (2 * j))). rewrite T_shift_n by exact Hk. now apply T_0.
  - assert (O : Nat.odd d = true) by (unfold Nat.odd; now rewrite Ev). apply Nat.odd_spec in O as [j Ej]. rewrite Ej. rewrite (Nat.add_comm (2 * j) 1), pt_add, T_shift_n by exact Hk. reflexivity.
Qed.
(** ** Off the real axis *)
Section Depth.
Variable y : R.
Hypothesis Hy : 0 < y < legendre_K (compl k).
Notation kc := (compl k).
Notation kk := (RtoC (k * k)).
Lemma cy : 0 < cn kc y. Proof. apply (cn_n0 k Hk). lra. Qed.
Lemma sy : 0 < sn kc y. Proof. apply sn_pos; [exact (Hc k Hk)|]. lra. Qed.
Lemma cy0 : cn (kq k) y <> 0. Proof. change (kq k) with kc. pose proof cy. lra. Qed.
Lemma sy0 : sn (kq k) y <> 0. Proof. change (kq k) with kc. pose proof sy. lra. Qed.
Definition FC (x : R) : C := prodC (fun m => snC k (x + pt (2 * m)) y) ms.
Lemma FC_shift x : FC (x + pt 2) = (- FC x)%Cx.
Proof.
  unfold FC. rewrite (prodC_ext _ (fun m => snC k (x + pt (2 * S m)) y)). 2:{ intros m _. f_equal. replace (2 * S m)%nat with (2 + 2 * m)%nat by lia. rewrite pt_add. ring. }
  rewrite <- (prodC_map (fun m => snC k (x + pt (2 * m)) y) S), seq_shift. set (f := fun m => snC k (x + pt (2 * m)) y) in *.
  assert (L : f (S d) = (- f 0%nat)%Cx). { unfold f. rewrite (pt_2n k d). cbn [Nat.mul Nat.add]. rewrite (pt_0 k d), Rplus_0_r. exact (snC_2K k Hk y cy0 x). }
  rewrite ms_cons, seq_S, (prodK_app (K := Cring)). cbn [rmul Cring]. replace (prodC f [(1 + d)%nat]) with (f (S d)) by (rewrite prodC_cons; change (prodC f []) with C1; cbn [Nat.add]; ring). rewrite L, prodC_cons. ring.
Qed.
Lemma FC_shift_n i x : (FC (x - pt (2 * i)) * FC (x - pt (2 * i)) = FC x * FC x)%Cx.
Proof.
  induction i as [|i IH]; [cbn [Nat.mul Nat.add]; rewrite (pt_0 k d), Rminus_0_r; reflexivity|]. rewrite <- IH. replace (x - pt (2 * i)) with (x - pt (2 * S i) + pt 2) by (replace (2 * S i)%nat with (2 + 2 * i)%nat by lia; rewrite pt_add; ring). rewrite FC_shift. ring.
Qed.
Definition N2C (w : C) : C := prodC (fun m => w * w - RtoC (ss m))%Cx ms.
Definition D2C (w : C) : C := prodC (fun m => C1 - kk * RtoC (ss m) * (w * w))%Cx ms.
Lemma RsR x : (rs k x * rs k x = RtoC (sn k x * sn k x))%Cx. Proof. unfold rs. apply C_ext; cbn; ring. Qed.
Lemma N2C_eq x : (N2C (snC k x y) = FC (x - pt d) * FC (x - pt d) * D2C (snC k x y))%Cx.
Proof.
  unfold N2C, D2C, FC. rewrite <- (prodC_perm (fun m => snC k (x - pt d + pt (2 * m)) y) _ _ (rev_seq0 d)) at 1. rewrite prodC_map, <- !prodC_mul. apply prodC_ext. intros m Hm. apply in_seq in Hm.
  pose proof (snC_prod k Hk y cy0 x (tt m)) as E. replace (x - pt d + pt (2 * (d - m))) with (x + tt (d - m)) by (unfold tt; ring). rewrite tt_rev by lia. replace (x - pt d + pt (2 * m)) with (x + tt m) by (unfold tt; ring). unfold denC in E. rewrite RsR in E. fold (ss m) in E. rewrite <- E. replace (x + - tt m)%R with (x - tt m)%R by ring. ring.
Qed.
Lemma FC0 : (FC 0 * FC 0 = RtoC (- V k d y))%Cx.
Proof.
  pose proof cy0 as C0'. set (q := - (tg k y * tg k y)). assert (Qp : 0 < Q q) by (apply Q_pos; [exact Hk|]; unfold q; assert (0 <= tg k y * tg k y) by exact (Rle_0_sqr _); nra).
  assert (Iq : (iS k y * iS k y = RtoC q)%Cx) by (unfold iS, q, tg; apply C_ext; cbn; change (kq k) with kc; ring).
  assert (E : (FC 0 * FC 0 * RtoC (Q q) = RtoC (P q))%Cx).
  { unfold FC. rewrite ms_cons, prodC_cons. change (2 * 0)%nat with 0%nat. rewrite (pt_0 k d), Rplus_0_r, (snC_0 k Hk y C0'). set (G := prodC (fun m => snC k (0 + pt (2 * m)) y) (seq 1 d)).
    transitivity (RtoC q * (G * G * RtoC (Q q)))%Cx; [rewrite <- Iq; ring|]. unfold EllipticRational.P. transitivity (RtoC q * RtoC (iprod (seq 1 d) (fun i => sg k d i - q)%R))%Cx; [|apply C_ext; cbn; ring]. f_equal. unfold EllipticRational.Q. rewrite !RtoC_iprod. unfold G.
    rewrite <- (prodC_perm (fun m => snC k (0 + pt (2 * m)) y) _ _ (rev_seq d)) at 1. rewrite prodC_map, <- !prodC_mul. apply prodC_ext. intros m Hm. apply in_seq in Hm. rewrite (pt_rev k d m ltac:(lia)).
    replace (0 + (2 * K - pt (2 * m))) with (0 - pt (2 * m) + 2 * K) by ring. rewrite (snC_2K k Hk y C0'). pose proof (snC_prod k Hk y C0' 0 (pt (2 * m))) as E. unfold denC in E. rewrite RsR, (snC_0 k Hk y C0'), Iq in E. fold (sg k d m) in E.
    transitivity (- (snC k (0 + pt (2 * m)) y * snC k (0 - pt (2 * m)) y * (C1 - kk * RtoC (sg k d m) * RtoC q)))%Cx; [replace (RtoC (1 - k * k * sg k d m * q)) with (C1 - kk * RtoC (sg k d m) * RtoC q)%Cx by (apply C_ext; cbn; ring); ring|]. rewrite E. apply C_ext; cbn; ring. }
  unfold V. fold q. apply (C_cancel _ _ (RtoC (Q q))); [intros Z; apply (f_equal re) in Z; cbn in Z; lra|]. rewrite E. apply C_ext; cbn; field; lra.
Qed.
(** the denominator of the squared magnitude *)
Variable e2 : R.
Hypothesis He2 : 0 < e2.
Hypothesis Hd : V k d y / B = / e2.
Definition GG (w : R) : R := B * D2 (w * w) + e2 * N2 (w * w).
Definition GC (w : C) : C := (RtoC B * D2C w + RtoC e2 * N2C w)%Cx.
Definition om (m : nat) : C := snC k (tt m) y.
Lemma GC_real w : GC (RtoC w) = RtoC (GG w).
Proof.
  unfold GC, GG, D2C, N2C. transitivity (RtoC B * RtoC (D2 (w * w)) + RtoC e2 * RtoC (N2 (w * w)))%Cx; [|apply C_ext; cbn; ring]. unfold D2, N2. rewrite !RtoC_iprod. f_equal; f_equal; apply prodC_ext; intros m _; apply C_ext; cbn; ring.
Qed.
Lemma GC_conj w : GC (Cconj w) = Cconj (GC w).
Proof.
  unfold GC, D2C, N2C. rewrite Cconj_add, !Cconj_mul, !Cconj_prod, !Cconj_R. f_equal; f_equal; apply prodC_ext; intros m _; apply C_ext; cbn; ring.
Qed.
Lemma GC_om m : (m <= d)%nat -> GC (om m) = C0.
Proof.
  intros Hm. unfold GC, om. rewrite N2C_eq. replace (tt m - pt d) with (0 - pt (2 * (d - m))) by (unfold tt; assert (E : pt (2 * (d - m)) + pt (2 * m) = pt d + pt d) by (rewrite <- !pt_add by exact Hk; f_equal; lia); lra). rewrite FC_shift_n, FC0. pose proof (B_pos_ k Hk d) as Bp.
  assert (E : V k d y = B / e2) by (apply (Rmult_eq_reg_r (/ B)); [|apply Rinv_neq_0_compat; lra]; change (V k d y * / B) with (V k d y / B); rewrite Hd; field; lra). rewrite E. transitivity ((RtoC B - RtoC e2 * RtoC (B / e2)) * D2C (snC k (tt m) y))%Cx; [transitivity ((RtoC B + RtoC e2 * RtoC (- (B / e2))) * D2C (snC k (tt m) y))%Cx; [ring|f_equal; apply C_ext; cbn; field; lra]|]. replace (RtoC B - RtoC e2 * RtoC (B / e2))%Cx with C0 by (apply C_ext; cbn; field; lra). ring.
Qed.
Lemma om_im m : (m <= d)%nat -> 0 < im (om m).
Proof.
  intros Hm. unfold om, snC. cbn [im]. pose proof (qd_pos k (tt m) y cy0) as Qp. apply Rdiv_lt_0_compat; [|exact Qp]. pose proof cy. pose proof sy. change (kq k) with kc. pose proof (cn_pos k k00 (tt m) (tt_range m Hm)). pose proof (dn_pos k k00 (tt m)). repeat apply Rmult_lt_0_compat; assumption.
Qed.
Lemma om_inj i j : (i <= d)%nat -> (j <= d)%nat -> om i = om j -> i = j.
Proof.
  intros Hi Hj E. destruct (Nat.eq_dec i j) as [|Ne]; [assumption|]. exfalso. revert E. apply (snC_inj k Hk y cy0 _ _ sy0). unfold tt. assert (X : forall a b, (a < b)%nat -> (b <= d)%nat -> 0 < sn k ((pt (2 * b) - pt (2 * a)) / 2)). { intros a b Hab Hb. replace ((pt (2 * b) - pt (2 * a)) / 2) with (pt (b - a)). - apply sn_pos; [exact k00|]. rewrite <- (pt_0 k d), <- (pt_n k d). split; [apply pt_lt; [exact Hk|lia]|left; apply pt_lt; [exact Hk|lia]]. - replace (2 * b)%nat with ((b - a) + (b - a) + 2 * a)%nat by lia. rewrite !pt_add. field. }
  destruct (Nat.lt_total i j) as [L|[L|L]]; [|lia|]; specialize (X _ _ L ltac:(assumption)).
  - replace ((pt (2 * i) - pt d - (pt (2 * j) - pt d)) / 2) with (- ((pt (2 * j) - pt (2 * i)) / 2)) by field. rewrite (sn_neg k k00). lra.
  - replace ((pt (2 * i) - pt d - (pt (2 * j) - pt d)) / 2) with ((pt (2 * i) - pt (2 * j)) / 2) by field. lra.
Qed.
Definition oms : list C := map om ms.
Lemma oms_nodup : NoDup (oms ++ map Cconj oms).
Proof.
  assert (N : NoDup oms). { apply NoDup_map_in; [|apply seq_NoDup]. intros a b Ha Hb. apply in_seq in Ha, Hb. apply om_inj; lia. }
  apply NoDup_app_in'; [exact N|apply NoDup_map_in; [|exact N]; intros a b _ _ E; rewrite <- (Cconj_conj a), E; apply Cconj_conj|]. intros z H1 H2. unfold oms in *. apply in_map_iff in H1 as (a & <- & Ha). rewrite map_map in H2. apply in_map_iff in H2 as (b & E & Hb). apply in_seq in Ha, Hb. pose proof (om_im a ltac:(lia)). pose proof (om_im b ltac:(lia)). assert (X : - im (om b) = im (om a)) by (rewrite <- E; reflexivity). clear - H H0 X. lra.
Qed.
Lemma isPC_GC : isPC (length (oms ++ map Cconj oms)) GC.
Proof.
  unfold oms. rewrite app_length, !map_length. unfold GC. apply isPC_add; apply isPC_scale.
  - apply (isPC_ext _ (fun w => prodC (fun m => C1 + - (kk * RtoC (ss m)) * (w * w))%Cx ms)); [intros w; apply prodC_ext; intros m _; ring|]. apply isPC_prod.
  - apply (isPC_ext _ (fun w => prodC (fun m => - RtoC (ss m) + C1 * (w * w))%Cx ms)); [intros w; apply prodC_ext; intros m _; ring|]. apply isPC_prod.
Qed.
(** the denominator is, up to a factor, the product of the squared distances from the poles *)
Lemma GG_form : exists c, c <> 0 /\ forall w, GG w = c * prodR (fun m => Cnorm2 (RtoC w - om m)%Cx) ms.
Proof.
  destruct (roots_simpleC _ GC oms_nodup isPC_GC) as [c E].
  { intros r Hr. apply in_app_iff in Hr as [Hr|Hr]; unfold oms in Hr; [|rewrite map_map in Hr]; apply in_map_iff in Hr as (m & <- & Hm); apply in_seq in Hm; [apply GC_om; lia|]. rewrite GC_conj, GC_om by lia. apply C_ext; cbn; ring. }
  assert (F : forall w, RtoC (GG w) = (c * RtoC (prodR (fun m => Cnorm2 (RtoC w - om m)%Cx) ms))%Cx).
  { intros w. rewrite <- GC_real, E. f_equal. unfold pnode. rewrite (prodK_app (K := Cring)). cbn [rmul Cring]. unfold oms. rewrite map_map, !prodC_map. rewrite <- norm_prodC. set (f := fun m => (RtoC w - om m)%Cx). rewrite (prodC_ext (fun a => (RtoC w - Cconj (om a))%Cx) (fun a => Cconj (f a))) by (intros m _; unfold f; apply C_ext; cbn; ring). rewrite <- Cconj_prod. fold f. change (prodC (fun a => (RtoC w - om a)%Cx) ms) with (prodC f ms). generalize (prodC f ms : C). intros z. apply C_ext; cbn; unfold Cnorm2; ring. }
  exists (re c). assert (G0 : 0 < GG 0). { unfold GG. rewrite Rmult_0_l, D2_0. pose proof (B_pos_ k Hk d). pose proof (pass_band 0 ltac:(lra)) as R. rewrite Rmult_0_l in R. nra. }
  assert (R : forall w, GG w = re c * prodR (fun m => Cnorm2 (RtoC w - om m)%Cx) ms) by (intros w; pose proof (F w) as X; apply (f_equal re) in X; cbn [re im RtoC Cmul] in X; lra). split; [|exact R]. intros Z. rewrite (R 0), Z in G0. lra.
Qed.
(** ** The two bands *)
Definition response (w : R) : R := B * D2 (w * w) / GG w.
Lemma pass_response w : -1 <= w <= 1 -> 1 / (1 + e2) <= response w <= 1.
Proof.
  intros H. pose proof (B_pos_ k Hk d) as Bp. pose proof (pass_band w H) as R. assert (Kw : k * k * (w * w) <= 1) by (assert (w * w <= 1) by nra; nra). pose proof (D2_pos (w * w) Kw) as Dp. unfold response, GG. set (D := D2 (w * w)) in *. set (N := N2 (w * w)) in *. assert (BD : 0 < B * D) by (now apply Rmult_lt_0_compat). assert (E : 0 <= e2 * N <= e2 * (B * D)) by (split; [apply Rmult_le_pos|apply Rmult_le_compat_l]; lra).
  assert (G0 : 0 < B * D + e2 * N) by lra. split; [|apply Rle_div_l; lra]. apply (proj1 (Rle_div_r _ _ _ G0)). unfold Rdiv. rewrite Rmult_1_l, Rmult_comm. apply (Rmult_le_reg_r (1 + e2)); [lra|]. rewrite Rmult_assoc, Rinv_l by lra. lra.
Qed.
Lemma stop_response w : 1 <= k * k * (w * w) -> 0 <= response w <= kap k d / (kap k d + e2).
Proof.
  intros H. pose proof (B_pos_ k Hk d) as Bp. pose proof (kap_pos_ k Hk d) as Kp. destruct (stop_band w H) as (Np & D0 & D1). unfold response, GG. set (D := D2 (w * w)) in *. set (N := N2 (w * w)) in *. assert (L : B * D <= kap k d * N). { unfold kap. replace (B * B * (k * k) ^ n * N) with (B * (B * (k * k) ^ n * N)) by ring. apply Rmult_le_compat_l; lra. } assert (EN : 0 < e2 * N) by (now apply Rmult_lt_0_compat). assert (BD : 0 <= B * D) by (apply Rmult_le_pos; lra).
  split; [apply Rle_mult_inv_pos; lra|]. apply Rle_div_l; [lra|]. unfold Rdiv. rewrite Rmult_assoc, (Rmult_comm (/ _)), <- Rmult_assoc. assert (G0 : 0 < kap k d + e2) by lra. apply (proj1 (Rle_div_r _ _ _ G0)). nra.
Qed.
(** ** In terms of the poles and zeros of one half *)
Variables (h o : nat).
Hypothesis Hn : n = (2 * h + o)%nat.
Hypothesis Ho : (o <= 1)%nat.
Lemma iprod_seq f a c : iprod (seq a c) f = iprod (seq 0 c) (fun j => f (a + j)%nat).
Proof.
  rewrite <- (iprod_map (seq 0 c) (fun j => (a + j)%nat) f). f_equal. clear. revert a. induction c as [|c IH]; intros a; [reflexivity|]. cbn [seq map]. rewrite Nat.add_0_r. f_equal. rewrite (IH (S a)). rewrite <- seq_shift, map_map. apply map_ext. intros j. lia.
Qed.
Lemma split_half f : iprod ms f = iprod (seq 0 o) (fun _ => f h) * iprod (seq 0 h) (fun j => f (h + o + j)%nat * f (d - (h + o + j))%nat).
Proof.
  rewrite Hn. replace (2 * h + o)%nat with (h + (o + h))%nat by lia. rewrite seq_app, seq_app, !iprod_app. rewrite (iprod_seq f (0 + h + o) h), (iprod_seq f (0 + h) o). rewrite iprod_mul. cbn [Nat.add]. assert (E : iprod (seq 0 h) f = iprod (seq 0 h) (fun j => f (d - (h + o + j))%nat)).
  { destruct h as [|h']; [reflexivity|]. rewrite <- (iprod_perm _ _ f (rev_seq0 h')). rewrite iprod_map. apply iprod_ext. intros j Hj. apply in_seq in Hj. f_equal. lia. }
  rewrite E. rewrite (iprod_ext (seq 0 o) (fun j => f (h + j)%nat) (fun _ => f h)). - ring. - intros j Hj. apply in_seq in Hj. f_equal. lia.
Qed.
Definition half (j : nat) : nat := (h + o + j)%nat.
Lemma half_le j : (j < h)%nat -> (half j <= d)%nat. Proof. unfold half. lia. Qed.
Lemma tt_half j : tt (half j) = pt (2 * j + 1 + o).
Proof. unfold tt, half. assert (E : pt (2 * (h + o + j)) = pt (2 * j + 1 + o) + pt d) by (rewrite <- pt_add; f_equal; lia). lra. Qed.
Lemma tt_mid : o = 1%nat -> tt h = 0. Proof. intros E. unfold tt. replace (2 * h)%nat with d by lia. ring. Qed.
Lemma D2_half q : D2 q = iprod (seq 0 h) (fun j => (1 - k * k * ss (half j) * q) * (1 - k * k * ss (half j) * q)).
Proof.
  unfold D2. rewrite split_half. rewrite (iprod_ext (seq 0 o) _ (fun _ => 1)). 2:{ intros j Hj. apply in_seq in Hj. unfold ss. rewrite tt_mid by lia. rewrite (sn_0 k k00). ring. } rewrite iprod_const, pow1, Rmult_1_l. apply iprod_ext. intros j Hj. apply in_seq in Hj. pose proof (half_le j ltac:(lia)) as L. fold (half j). rewrite ss_rev by exact L. reflexivity.
Qed.
Lemma om_rev m : (m <= d)%nat -> om (d - m) = (- Cconj (om m))%Cx.
Proof. intros H. unfold om. rewrite tt_rev by exact H. apply snC_neg; [exact Hk|exact cy0]. Qed.
Lemma om_mid : o = 1%nat -> om h = mkC 0 (tg k y). Proof. intros E. unfold om. rewrite tt_mid by exact E. rewrite snC_0 by (exact Hk || exact cy0). reflexivity. Qed.
Lemma prodR_iprod f l : prodR f l = iprod l f. Proof. induction l as [|a l IH]; [reflexivity|]. rewrite iprod_cons, <- IH. reflexivity. Qed.
Definition m2 (j : nat) : R := Cnorm2 (om (half j)).
Definition s4 (j : nat) : R := 4 * (im (om (half j)) * im (om (half j))).
Lemma poles_half w : prodR (fun m => Cnorm2 (RtoC w - om m)%Cx) ms = iprod (seq 0 o) (fun _ => tg k y * tg k y + w * w) * iprod (seq 0 h) (fun j => (m2 j - w * w) * (m2 j - w * w) + s4 j * (w * w)).
Proof.
  rewrite prodR_iprod, split_half. f_equal; apply iprod_ext; intros j Hj; apply in_seq in Hj.
  - rewrite om_mid by lia. unfold Cnorm2. cbn. ring.
  - pose proof (half_le j ltac:(lia)) as L. fold (half j). rewrite om_rev by exact L. unfold m2, s4. destruct (om (half j)) as [a b]. unfold Cnorm2. cbn. ring.
Qed.
Lemma tg_pos : 0 < tg k y. Proof. unfold tg. apply Rdiv_lt_0_compat; [exact sy|exact cy]. Qed.
Lemma s4_pos j : (j < h)%nat -> 0 < s4 j. Proof. intros H. unfold s4. pose proof (om_im (half j) (half_le j H)). nra. Qed.
Lemma m2_pos j : (j < h)%nat -> 0 < m2 j. Proof. intros H. unfold m2, Cnorm2. pose proof (om_im (half j) (half_le j H)). nra. Qed.
Lemma iprod_div l f g : (forall i, In i l -> g i <> 0) -> iprod l (fun i => f i / g i) = iprod l f / iprod l g.
Proof.
  induction l as [|a l IH]; intros H; [rewrite !iprod_nil; field|]. rewrite !iprod_cons, IH by (intros i Hi; apply H; now right). assert (g a <> 0) by (apply H; now left). assert (iprod l g <> 0) by (apply iprod_n0; intros i Hi; apply H; now right). field. now split.
Qed.
Definition dc2 : R := if Nat.eqb o 0 then 1 / (1 + e2) else 1.
Lemma GG_0 : B = dc2 * GG 0.
Proof.
  unfold GG, dc2. rewrite Rmult_0_l, D2_0, N2_0. destruct (Nat.eqb_spec o 0) as [E|E].
  - replace (Nat.even d) with false; [field; lra|]. symmetry. assert (O : Nat.odd d = true) by (apply Nat.odd_spec; exists (h - 1)%nat; lia). unfold Nat.odd in O. now destruct (Nat.even d).
  - replace (Nat.even d) with true; [ring|]. symmetry. apply Nat.even_spec. exists h. lia.
Qed.
Lemma response_half w : response w = dc2 * iprod (seq 0 o) (fun _ => single_gain (tg k y * tg k y) (w * w)) * iprod (seq 0 h) (fun j => pair_gain (k * k * ss (half j)) (m2 j) (s4 j) (w * w)).
Proof.
  pose proof tg_pos as Tp. assert (T2 : 0 < tg k y * tg k y) by nra. assert (W2 : 0 <= w * w) by exact (Rle_0_sqr w). destruct GG_form as (c & Hc & G). pose proof GG_0 as G0. unfold response. rewrite G0 at 1. rewrite (G w), (G 0), !poles_half. unfold single_gain, pair_gain.
  assert (PD : forall w, forall i, In i (seq 0 h) -> 0 < (m2 i - w * w) * (m2 i - w * w) + s4 i * (w * w)). { intros v i Hi. apply in_seq in Hi. pose proof (m2_pos i ltac:(lia)). pose proof (s4_pos i ltac:(lia)). assert (0 <= v * v) by exact (Rle_0_sqr v). assert (0 <= (m2 i - v * v) * (m2 i - v * v)) by exact (Rle_0_sqr _). destruct (Req_dec (v * v) 0) as [->|]; nra. }
  rewrite !iprod_div. 2:{ intros i Hi. pose proof (PD w i Hi). lra. } 2:{ intros i Hi. lra. } rewrite (iprod_mul (seq 0 h) (fun j => (1 - k * k * ss (half j) * (w * w)) * (1 - k * k * ss (half j) * (w * w))) (fun j => m2 j * m2 j)), <- D2_half. rewrite (iprod_ext (seq 0 o) (fun _ => tg k y * tg k y + 0 * 0) (fun _ => tg k y * tg k y)) by (intros; ring). rewrite (iprod_ext (seq 0 h) (fun j => (m2 j - 0 * 0) * (m2 j - 0 * 0) + s4 j * (0 * 0)) (fun j => m2 j * m2 j)) by (intros; ring).
  assert (A : iprod (seq 0 h) (fun j => (m2 j - w * w) * (m2 j - w * w) + s4 j * (w * w)) <> 0) by (apply iprod_n0; intros i Hi; pose proof (PD w i Hi); lra). assert (A' : iprod (seq 0 o) (fun _ => tg k y * tg k y + w * w) <> 0) by (apply iprod_n0; intros i Hi; lra). field. repeat split; assumption.
Qed.
End Depth.
End Response.
