(** Uniform limits of families of functions on the half line, along a filter of parameters (used by C61). *)
From Coq Require Import Reals Lra Lia List.
From Coquelicot Require Import Rcomplements Hierarchy Continuity.
Import ListNotations.
Open Scope R_scope.

Section Uniform.
Context {X : Type} (F : (X -> Prop) -> Prop) {FF : Filter F}.
Definition ucv (f : X -> R -> R) (g : R -> R) : Prop := forall d, 0 < d -> F (fun x => forall q, 0 <= q -> Rabs (f x q - g q) < d).
Definition cv (c : X -> R) (l : R) : Prop := ucv (fun x _ => c x) (fun _ => l).
Definition bounded (g : R -> R) : Prop := exists M, 0 < M /\ forall q, 0 <= q -> Rabs (g q) <= M.
Lemma cv_at c l : cv c l -> forall d, 0 < d -> F (fun x => Rabs (c x - l) < d).
Proof. intros H d Hd. apply (filter_imp _ _ (fun x (G : forall q, 0 <= q -> Rabs (c x - l) < d) => G 0 (Rle_refl 0))). now apply H. Qed.
Lemma cv_of c l : (forall d, 0 < d -> F (fun x => Rabs (c x - l) < d)) -> cv c l.
Proof. intros H d Hd. apply (filter_imp (fun x => Rabs (c x - l) < d)); [auto|now apply H]. Qed.
Lemma bounded_const c : bounded (fun _ => c). Proof. exists (Rabs c + 1). pose proof (Rabs_pos c). split; [lra|]. intros; lra. Qed.
Lemma bounded_add f g : bounded f -> bounded g -> bounded (fun q => f q + g q).
Proof. intros (M & M0 & H) (N & N0 & G). exists (M + N). split; [lra|]. intros q Hq. specialize (H q Hq). specialize (G q Hq). pose proof (Rabs_triang (f q) (g q)). lra. Qed.
Lemma bounded_mul f g : bounded f -> bounded g -> bounded (fun q => f q * g q).
Proof. intros (M & M0 & H) (N & N0 & G). exists (M * N). split; [nra|]. intros q Hq. specialize (H q Hq). specialize (G q Hq). rewrite Rabs_mult. apply Rmult_le_compat; try apply Rabs_pos; assumption. Qed.
Lemma bounded_inv f c : 0 < c -> (forall q, 0 <= q -> c <= f q) -> bounded (fun q => / f q).
Proof. intros H G. exists (/ c). split; [now apply Rinv_0_lt_compat|]. intros q Hq. specialize (G q Hq). rewrite Rabs_pos_eq by (left; apply Rinv_0_lt_compat; lra). apply Rinv_le_contravar; lra. Qed.
Lemma ucv_fixed g : ucv (fun _ => g) g.
Proof. intros d Hd. apply filter_forall. intros x q Hq. rewrite Rminus_diag_eq, Rabs_R0 by reflexivity. exact Hd. Qed.
Lemma ucv_add f1 f2 g1 g2 : ucv f1 g1 -> ucv f2 g2 -> ucv (fun x q => f1 x q + f2 x q) (fun q => g1 q + g2 q).
Proof.
  intros H G d Hd. generalize (filter_and (F := F) _ _ (H (d / 2) ltac:(lra)) (G (d / 2) ltac:(lra))). apply filter_imp. intros x [A B] q Hq. specialize (A q Hq). specialize (B q Hq). pose proof (Rabs_triang (f1 x q - g1 q) (f2 x q - g2 q)). replace (f1 x q + f2 x q - (g1 q + g2 q)) with (f1 x q - g1 q + (f2 x q - g2 q)) by ring. lra.
Qed.
Lemma ucv_mul f1 f2 g1 g2 : bounded g1 -> bounded g2 -> ucv f1 g1 -> ucv f2 g2 -> ucv (fun x q => f1 x q * f2 x q) (fun q => g1 q * g2 q).
Proof.
  intros (M & M0 & HM) (N & N0 & HN) H G d Hd. set (e := Rmin 1 (d / (M + N + 1))). assert (Q0 : 0 < d / (M + N + 1)) by (apply Rdiv_lt_0_compat; lra). assert (E0 : 0 < e) by (apply Rmin_glb_lt; lra). assert (E1 : e <= 1) by apply Rmin_l. assert (E2 : e * (M + N + 1) <= d). { apply Rle_div_r; [lra|]. apply Rmin_r. }
  generalize (filter_and (F := F) _ _ (H e E0) (G e E0)). apply filter_imp. intros x [A B] q Hq. specialize (A q Hq). specialize (B q Hq). specialize (HM q Hq). specialize (HN q Hq).
  replace (f1 x q * f2 x q - g1 q * g2 q) with ((f1 x q - g1 q) * (f2 x q - g2 q) + ((f1 x q - g1 q) * g2 q + g1 q * (f2 x q - g2 q))) by ring.
  eapply Rle_lt_trans; [apply Rabs_triang|]. eapply Rle_lt_trans; [apply Rplus_le_compat_l, Rabs_triang|]. rewrite !Rabs_mult. set (a := Rabs (f1 x q - g1 q)) in *. set (b := Rabs (f2 x q - g2 q)) in *. assert (0 <= a) by apply Rabs_pos. assert (0 <= b) by apply Rabs_pos.
  assert (a * b <= e * b) by (apply Rmult_le_compat_r; lra). assert (e * b <= b) by nra. assert (a * Rabs (g2 q) <= e * N) by (apply Rmult_le_compat; try lra; apply Rabs_pos). assert (Rabs (g1 q) * b <= M * e) by (apply Rmult_le_compat; try lra; apply Rabs_pos). nra.
Qed.
Lemma ucv_inv f g c : 0 < c -> (forall q, 0 <= q -> c <= g q) -> ucv f g -> ucv (fun x q => / f x q) (fun q => / g q).
Proof.
  intros Hc Hg H d Hd. set (e := Rmin (c / 2) (d * (c * c) / 4)). assert (E0 : 0 < e). { apply Rmin_glb_lt; [lra|]. apply Rdiv_lt_0_compat; [|lra]. apply Rmult_lt_0_compat; [lra|nra]. } assert (E1 : e <= c / 2) by apply Rmin_l. assert (E2 : e <= d * (c * c) / 4) by apply Rmin_r.
  generalize (H e E0). apply filter_imp. intros x A q Hq. specialize (A q Hq). specialize (Hg q Hq). apply Rabs_lt_between in A as A'. assert (P : c / 2 < f x q) by lra. replace (/ f x q - / g q) with ((g q - f x q) * / (f x q * g q)) by (field; lra). rewrite Rabs_mult, Rabs_minus_sym. assert (P2 : c * c / 2 < f x q * g q) by nra. rewrite (Rabs_pos_eq (/ _)) by (left; apply Rinv_0_lt_compat; nra).
  apply Rle_lt_trans with (Rabs (f x q - g q) * / (c * c / 2)); [apply Rmult_le_compat_l; [apply Rabs_pos|]; apply Rinv_le_contravar; nra|]. apply Rlt_div_l; [nra|]. nra.
Qed.
Lemma ucv_ext f f' g g' : (forall x q, 0 <= q -> f x q = f' x q) -> (forall q, 0 <= q -> g q = g' q) -> ucv f g -> ucv f' g'.
Proof. intros E1 E2 H d Hd. generalize (H d Hd). apply filter_imp. intros x A q Hq. rewrite <- E1, <- E2 by exact Hq. now apply A. Qed.
Lemma ucv_coef c l h : bounded h -> cv c l -> ucv (fun x q => c x * h q) (fun q => l * h q).
Proof. intros B H. apply (ucv_mul (fun x _ => c x) (fun _ => h) (fun _ => l) h); [apply bounded_const|exact B|exact H|apply ucv_fixed]. Qed.
Lemma ucv_lprod {A} (l : list A) (f : A -> X -> R -> R) (g : A -> R -> R) : (forall a, In a l -> ucv (f a) (g a) /\ bounded (g a)) ->
  ucv (fun x q => fold_right Rmult 1 (map (fun a => f a x q) l)) (fun q => fold_right Rmult 1 (map (fun a => g a q) l)) /\ bounded (fun q => fold_right Rmult 1 (map (fun a => g a q) l)).
Proof.
  induction l as [|a l IH]; intros H.
  - split; [exact (ucv_fixed (fun _ => 1))|exact (bounded_const 1)].
  - destruct IH as [I1 I2]; [intros b Hb; apply H; now right|]. destruct (H a (or_introl eq_refl)) as [H1 H2]. split; [exact (ucv_mul _ _ _ _ H2 I2 H1 I1)|exact (bounded_mul _ _ H2 I2)].
Qed.
(** limits of numbers *)
Lemma cv_const l : cv (fun _ => l) l. Proof. exact (ucv_fixed (fun _ => l)). Qed.
Lemma cv_add a b la lb : cv a la -> cv b lb -> cv (fun x => a x + b x) (la + lb). Proof. intros H G. exact (ucv_add _ _ _ _ H G). Qed.
Lemma cv_mul a b la lb : cv a la -> cv b lb -> cv (fun x => a x * b x) (la * lb). Proof. intros H G. exact (ucv_mul _ _ _ _ (bounded_const _) (bounded_const _) H G). Qed.
Lemma cv_opp a la : cv a la -> cv (fun x => - a x) (- la).
Proof. intros H. apply (ucv_ext (fun x _ => -1 * a x) _ (fun _ => -1 * la)); [intros; ring|intros; ring|]. exact (cv_mul _ _ _ _ (cv_const (-1)) H). Qed.
Lemma cv_sub a b la lb : cv a la -> cv b lb -> cv (fun x => a x - b x) (la - lb). Proof. intros H G. exact (cv_add _ _ _ _ H (cv_opp _ _ G)). Qed.
Lemma cv_comp a la (f : R -> R) : cv a la -> continuity_pt f la -> cv (fun x => f (a x)) (f la).
Proof.
  intros H C. apply cv_of. intros d Hd. destruct (C d Hd) as (e & E0 & E). generalize (cv_at _ _ H e E0). apply filter_imp. intros x A. destruct (Req_dec (a x) la) as [->|N]; [rewrite Rminus_diag_eq, Rabs_R0 by reflexivity; exact Hd|]. apply (E (a x)). split; [split; [exact I|intros Z; apply N; now rewrite Z]|exact A].
Qed.
Lemma cv_inv a la : la <> 0 -> cv a la -> cv (fun x => / a x) (/ la).
Proof. intros N H. apply (cv_comp a la (fun x => / x) H). apply continuity_pt_inv; [apply derivable_continuous_pt, derivable_pt_id|exact N]. Qed.
Lemma cv_div a b la lb : lb <> 0 -> cv a la -> cv b lb -> cv (fun x => a x / b x) (la / lb). Proof. intros N H G. exact (cv_mul _ _ _ _ H (cv_inv _ _ N G)). Qed.
(** ** The two kinds of factors of a squared magnitude *)
Definition h1 (q : R) : R := / (1 + q).
Definition h2 (q : R) : R := q * / (1 + q).
Lemma h_facts q : 0 <= q -> 0 <= h1 q /\ 0 <= h2 q /\ h1 q + h2 q = 1.
Proof. intros H. assert (P : 0 < / (1 + q)) by (apply Rinv_0_lt_compat; lra). unfold h1, h2. split; [lra|]. split; [nra|]. field. lra. Qed.
Lemma h1_bounded : bounded h1. Proof. exists 1. split; [lra|]. intros q Hq. destruct (h_facts q Hq) as (A & B & C). rewrite Rabs_pos_eq; lra. Qed.
Lemma h2_bounded : bounded h2. Proof. exists 1. split; [lra|]. intros q Hq. destruct (h_facts q Hq) as (A & B & C). rewrite Rabs_pos_eq; lra. Qed.
Definition pair_gain (z m s q : R) : R := (1 - z * q) * (1 - z * q) * (m * m) / ((m - q) * (m - q) + s * q).
Definition single_gain (r q : R) : R := r / (r + q).
Lemma pair_low m s a b : 0 < m -> 0 < s -> 0 <= a -> 0 <= b -> a + b = 1 -> Rmin (Rmin ((m / (2 + m)) * (m / (2 + m))) ((m / (1 + 2 * m)) * (m / (1 + 2 * m)))) (s * m / 2 * ((/ (1 + 2 * m)) * (/ (1 + 2 * m)))) <= (m * a - b) * (m * a - b) + s * (a * b).
Proof.
  intros Hm Hs Ha Hb Hab. destruct (Rle_dec b (m * a / 2)) as [L|L].
  - eapply Rle_trans; [eapply Rle_trans; [apply Rmin_l|apply Rmin_l]|]. assert (A : m / (2 + m) <= m * a - b). { apply Rle_div_l; [lra|]. nra. } assert (0 < m / (2 + m)) by (apply Rdiv_lt_0_compat; lra). assert (0 <= s * (a * b)) by (apply Rmult_le_pos; nra). nra.
  - destruct (Rle_dec (2 * m * a) b) as [G|G].
    + eapply Rle_trans; [eapply Rle_trans; [apply Rmin_l|apply Rmin_r]|]. assert (A : m / (1 + 2 * m) <= b - m * a). { apply Rle_div_l; [lra|]. nra. } assert (0 < m / (1 + 2 * m)) by (apply Rdiv_lt_0_compat; lra). assert (0 <= s * (a * b)) by (apply Rmult_le_pos; nra). nra.
    + eapply Rle_trans; [apply Rmin_r|]. assert (A : / (1 + 2 * m) <= a). { rewrite <- (Rmult_1_l (/ _)). apply Rle_div_l; [lra|]. nra. } assert (0 < / (1 + 2 * m)) by (apply Rinv_0_lt_compat; lra). set (i := / (1 + 2 * m)) in *. assert (i * i <= a * a) by nra. assert (m / 2 * (i * i) <= a * b) by nra. assert (0 <= (m * a - b) * (m * a - b)) by exact (Rle_0_sqr _). nra.
Qed.
Lemma pair_form z m s q : 0 < m -> 0 < s -> 0 <= q -> pair_gain z m s q = (m * h1 q + - (z * m) * h2 q) * (m * h1 q + - (z * m) * h2 q) * / (m * m * (h1 q * h1 q) + (s - 2 * m) * (h1 q * h2 q) + h2 q * h2 q).
Proof.
  intros Hm Hs Hq. destruct (h_facts q Hq) as (A & B & C). pose proof (pair_low m s _ _ Hm Hs A B C) as L. assert (D : 0 < (m - q) * (m - q) + s * q). { destruct (Req_dec q 0) as [->|]; [nra|]. assert (0 <= (m - q) * (m - q)) by exact (Rle_0_sqr _). nra. } unfold pair_gain, h1, h2. field. repeat split; lra.
Qed.
Lemma pair_ucv z m s lz lm ls : 0 < lm -> 0 < ls -> cv z lz -> cv m lm -> cv s ls -> ucv (fun x => pair_gain (z x) (m x) (s x)) (pair_gain lz lm ls) /\ bounded (pair_gain lz lm ls).
Proof.
  intros Hm Hs Cz Cm Cs. set (f := fun a b c q => (b * h1 q + - (a * b) * h2 q) * (b * h1 q + - (a * b) * h2 q) * / (b * b * (h1 q * h1 q) + (c - 2 * b) * (h1 q * h2 q) + h2 q * h2 q)).
  assert (B11 : bounded (fun q => h1 q * h1 q)) by (apply bounded_mul; apply h1_bounded). assert (B12 : bounded (fun q => h1 q * h2 q)) by (apply bounded_mul; [apply h1_bounded|apply h2_bounded]). assert (B22 : bounded (fun q => h2 q * h2 q)) by (apply bounded_mul; apply h2_bounded).
  assert (Bc : forall c h, bounded h -> bounded (fun q => c * h q)) by (intros c h Hh; apply (bounded_mul (fun _ => c)); [apply bounded_const|exact Hh]).
  assert (BN : bounded (fun q => lm * h1 q + - (lz * lm) * h2 q)) by (apply bounded_add; apply Bc; [apply h1_bounded|apply h2_bounded]).
  set (c0 := Rmin (Rmin ((lm / (2 + lm)) * (lm / (2 + lm))) ((lm / (1 + 2 * lm)) * (lm / (1 + 2 * lm)))) (ls * lm / 2 * ((/ (1 + 2 * lm)) * (/ (1 + 2 * lm))))).
  assert (C0 : 0 < c0). { unfold c0. assert (0 < lm / (2 + lm)) by (apply Rdiv_lt_0_compat; lra). assert (0 < lm / (1 + 2 * lm)) by (apply Rdiv_lt_0_compat; lra). assert (0 < / (1 + 2 * lm)) by (apply Rinv_0_lt_compat; lra). apply Rmin_glb_lt; [apply Rmin_glb_lt; nra|]. assert (0 < ls * lm) by nra. apply Rmult_lt_0_compat; nra. }
  assert (Lo : forall q, 0 <= q -> c0 <= lm * lm * (h1 q * h1 q) + (ls - 2 * lm) * (h1 q * h2 q) + h2 q * h2 q). { intros q Hq. destruct (h_facts q Hq) as (A & B & C). pose proof (pair_low lm ls _ _ Hm Hs A B C) as L. fold c0 in L. eapply Rle_trans; [exact L|]. right. ring. }
  assert (UN : ucv (fun x q => m x * h1 q + - (z x * m x) * h2 q) (fun q => lm * h1 q + - (lz * lm) * h2 q)). { apply ucv_add; [apply (ucv_coef m); [apply h1_bounded|exact Cm]|apply (ucv_coef (fun x => - (z x * m x))); [apply h2_bounded|]]. apply cv_opp. now apply cv_mul. }
  assert (UD : ucv (fun x q => m x * m x * (h1 q * h1 q) + (s x - 2 * m x) * (h1 q * h2 q) + h2 q * h2 q) (fun q => lm * lm * (h1 q * h1 q) + (ls - 2 * lm) * (h1 q * h2 q) + h2 q * h2 q)).
  { apply ucv_add; [apply ucv_add|apply ucv_fixed]; [apply (ucv_coef (fun x => m x * m x)); [exact B11|now apply cv_mul]|apply (ucv_coef (fun x => s x - 2 * m x)); [exact B12|]]. apply cv_sub; [exact Cs|]. apply cv_mul; [apply cv_const|exact Cm]. }
  assert (BD : bounded (fun q => / (lm * lm * (h1 q * h1 q) + (ls - 2 * lm) * (h1 q * h2 q) + h2 q * h2 q))) by (exact (bounded_inv _ c0 C0 Lo)).
  assert (BNN : bounded (fun q => (lm * h1 q + - (lz * lm) * h2 q) * (lm * h1 q + - (lz * lm) * h2 q))) by (now apply bounded_mul).
  assert (U : ucv (fun x q => f (z x) (m x) (s x) q) (fun q => f lz lm ls q)). { unfold f. apply ucv_mul; [exact BNN|exact BD|now apply ucv_mul|]. apply (ucv_inv _ _ c0 C0 Lo UD). }
  split.
  - intros d Hd. generalize (filter_and (F := F) _ _ (U d Hd) (filter_and (F := F) _ _ (cv_at _ _ Cm (lm / 2) ltac:(lra)) (cv_at _ _ Cs (ls / 2) ltac:(lra)))). apply filter_imp. intros x (A & Mx & Sx) q Hq. apply Rabs_lt_between in Mx, Sx. rewrite !pair_form by lra. now apply A.
  - destruct (bounded_mul _ _ BNN BD) as (M & M0 & HM). exists M. split; [exact M0|]. intros q Hq. rewrite pair_form by lra. now apply HM.
Qed.
Lemma single_ucv r lr : 0 < lr -> cv r lr -> ucv (fun x => single_gain (r x)) (single_gain lr) /\ bounded (single_gain lr).
Proof.
  intros Hr Cr. set (c0 := Rmin lr 1). assert (C0 : 0 < c0) by (apply Rmin_glb_lt; lra). assert (C1 : c0 <= lr) by apply Rmin_l. assert (C2 : c0 <= 1) by apply Rmin_r.
  assert (Lo : forall q, 0 <= q -> c0 <= lr * h1 q + h2 q). { intros q Hq. destruct (h_facts q Hq) as (A & B & C). nra. }
  assert (Fo : forall r q, 0 < r -> 0 <= q -> single_gain r q = r * h1 q * / (r * h1 q + h2 q)). { intros t q Ht Hq. unfold single_gain, h1, h2. field. repeat split; lra. }
  assert (BN : bounded (fun q => lr * h1 q)) by (apply (bounded_mul (fun _ => lr)); [apply bounded_const|apply h1_bounded]). assert (BD : bounded (fun q => / (lr * h1 q + h2 q))) by (exact (bounded_inv _ c0 C0 Lo)).
  assert (UN : ucv (fun x q => r x * h1 q) (fun q => lr * h1 q)) by (apply ucv_coef; [apply h1_bounded|exact Cr]). assert (U : ucv (fun x q => r x * h1 q * / (r x * h1 q + h2 q)) (fun q => lr * h1 q * / (lr * h1 q + h2 q))). { apply ucv_mul; [exact BN|exact BD|exact UN|]. apply (ucv_inv _ _ c0 C0 Lo). apply ucv_add; [exact UN|apply ucv_fixed]. }
  split.
  - intros d Hd. generalize (filter_and (F := F) _ _ (U d Hd) (cv_at _ _ Cr (lr / 2) ltac:(lra))). apply filter_imp. intros x (A & Rx) q Hq. apply Rabs_lt_between in Rx. rewrite !Fo by lra. now apply A.
  - destruct (bounded_mul _ _ BN BD) as (M & M0 & HM). exists M. split; [exact M0|]. intros q Hq. rewrite Fo by lra. now apply HM.
Qed.
End Uniform.
