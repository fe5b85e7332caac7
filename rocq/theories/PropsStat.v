(** C43: statistics. *)
From Coq Require Import ZArith List Bool Lia Reals Lra.
From Verif Require Import Base BaseFacts Complex KernelModel KernelProofs ConvProofs PolyphaseModel PolyphaseProofs PropsPolyphase PropsFirBand WindowModel StatModel LsqFacts.
From Coq Require Import ZifyBool ZifyNat.
Import ListNotations.
Open Scope Z_scope.

(** ** Specification *)
(** arithmetic mean of F 0, ..., F (n - 1); the signal's mean; its k-th moment about c; its central moments *)
Definition mean_of (n : Z) (F : Z -> R) : R := (sumR 0 n F / IZR n)%R.
Definition avg (x : list R) : R := mean_of (lenZ x) (atR x).
Definition moment (x : list R) (k : nat) (c : R) : R := mean_of (lenZ x) (fun i => (atR x i - c) ^ k)%R.
Definition central (x : list R) (k : nat) : R := moment x k (avg x).
Definition joint (x y : list R) : R := mean_of (lenZ x) (fun i => (atR x i - avg x) * (atR y i - avg y))%R.

Ltac rr := match goal with |- ?l = ?r => change (@eq R l r) end.
Lemma fold_sumR (l : list R) : fold_left Rplus l 0%R = sumR 0 (lenZ l) (atR l).
Proof. exact (suml_sumZ (K := Rring) l). Qed.
Lemma at_map (f : R -> R) l i : 0 <= i < lenZ l -> atR (map f l) i = f (atR l i).
Proof. intros Hi. transitivity (atR (map f (tab (lenZ l) (atR l))) i); [f_equal; f_equal; exact (tab_at0 (K := Rring) l)|]. rewrite map_tab. now rewrite (at0_tab (K := Rring)) by exact Hi. Qed.
Lemma at_map2 (f : R -> R -> R) a b i : lenZ a = lenZ b -> 0 <= i < lenZ a -> atR (map2 f a b) i = f (atR a i) (atR b i).
Proof.
  intros Hl Hi. transitivity (atR (map2 f (tab (lenZ a) (atR a)) (tab (lenZ a) (atR b))) i); [f_equal; f_equal; [exact (tab_at0 (K := Rring) a)|rewrite Hl; exact (tab_at0 (K := Rring) b)]|]. rewrite map2_tab. now rewrite (at0_tab (K := Rring)) by exact Hi.
Qed.
(** the real instances of the model's functions, written out *)
Lemma Mean_eq W vec x : Mean W vec x = if negb (lenZ x =? 0) then do s <- Sum (K := Rring) W vec x; div_ s (IZR (lenZ x)) else Ok 0%R.
Proof. reflexivity. Qed.
Lemma MeanSquare_eq W vec x : MeanSquare W vec x = if negb (lenZ x =? 0) then do s <- SumSquare W vec x; div_ s (IZR (lenZ x)) else Ok 0%R.
Proof. reflexivity. Qed.
Lemma RootMeanSquare_eq W vec x : RootMeanSquare W vec x = do s <- MeanSquare W vec x; Ok (sqrt s).
Proof. reflexivity. Qed.
Lemma Norm_eq W vec x : Norm W vec x = do s <- SumSquare W vec x; Ok (sqrt s).
Proof. reflexivity. Qed.
Lemma CentralMoment_mean_eq W vec signal k mean : CentralMoment_mean W vec signal k mean =
  let m2 a := let d := (a - mean)%R in (d * d)%R in
  let m3 a := let d := (a - mean)%R in (d * d * d)%R in
  let m4 a := let d := (a - mean)%R in (d * d * d * d)%R in
  let mg a := let d := (a - mean)%R in (d * Rabs d ^ (k - 1))%R in
  let den := IZR (lenZ signal) in
  let red f := do s <- TransformReduce W vec (Plain Rplus) f signal 0%R; div_ s den in
  match k with 0%nat => Ok 0%R | 1%nat => Ok 0%R | 2%nat => red m2 | 3%nat => red m3 | 4%nat => red m4 | _ => red mg end.
Proof. reflexivity. Qed.
Lemma Covariance_mean_eq W vec a b amean bmean : Covariance_mean W vec a b amean bmean =
  assert_ (lenZ a =? lenZ b)
  (do s <- InnerProduct W vec (Plain Rplus) (fun a b => (a - amean) * (b - bmean))%R a b 0%R; div_ s (IZR (lenZ a))).
Proof. reflexivity. Qed.
Section Reductions.
Variables (W : Z) (vec : bool).
Hypothesis HW : 1 <= W.
Lemma tr_ok (f : R -> R) x : TransformReduce W vec (Plain Rplus) f x 0%R = Ok (sumR 0 (lenZ x) (fun i => f (atR x i))).
Proof.
  rewrite (TransformReduce_spec (K := Rring) (Plain Rplus) Rplus W vec); [|left; constructor; intros; cbn; ring|exact HW]. f_equal. etransitivity; [apply fold_sumR|]. rewrite lenZ_map. apply sumR_ext. intros i Hi. now apply at_map.
Qed.
Lemma ip_ok (f : R -> R -> R) x y : lenZ x = lenZ y -> InnerProduct W vec (Plain Rplus) f x y 0%R = Ok (sumR 0 (lenZ x) (fun i => f (atR x i) (atR y i))).
Proof.
  intros H. rewrite (InnerProduct_spec (K := Rring) (Plain Rplus) Rplus W vec); [|left; constructor; intros; cbn; ring|exact HW|lia]. f_equal. etransitivity; [apply fold_sumR|]. rewrite lenZ_map2, H, Z.min_id. apply sumR_ext. intros i Hi. apply at_map2; [exact H|lia].
Qed.
End Reductions.
Lemma div_ok a b : (b <> 0)%R -> div_ a b = Ok (a / b)%R.
Proof. intros H. unfold div_. destruct (Req_EM_T b 0); [contradiction|reflexivity]. Qed.
Lemma div_0 a : div_ a 0 = UB.
Proof. unfold div_. destruct (Req_EM_T 0 0); [reflexivity|lra]. Qed.
Lemma len_neq0 n : 1 <= n -> (IZR n <> 0)%R.
Proof. intros H. apply not_0_IZR. lia. Qed.

(** ** Sums and means *)
Theorem C43_sums W vec (x : list R) : 1 <= W ->
  Sum (K := Rring) W vec x = Ok (sumR 0 (lenZ x) (atR x)) /\ SumSquare W vec x = Ok (sumR 0 (lenZ x) (fun i => Rsqr (atR x i))) /\
  Mean W vec x = Ok (if lenZ x =? 0 then 0%R else avg x) /\
  MeanSquare W vec x = Ok (if lenZ x =? 0 then 0%R else moment x 2 0) /\
  RootMeanSquare W vec x = Ok (sqrt (if lenZ x =? 0 then 0%R else moment x 2 0)) /\
  (exists r, Norm W vec x = Ok r /\ (0 <= r)%R /\ (r * r)%R = sumR 0 (lenZ x) (fun i => Rsqr (atR x i))).
Proof.
  intros HW. pose proof (lenZ_nonneg x) as Hn.
  assert (S1 : Sum (K := Rring) W vec x = Ok (sumR 0 (lenZ x) (atR x))) by (unfold Sum; rewrite (Reduce_spec (K := Rring) (Plain Rplus) Rplus W vec); [|left; constructor; intros; cbn; ring|exact HW]; f_equal; apply fold_sumR).
  assert (S2 : SumSquare W vec x = Ok (sumR 0 (lenZ x) (fun i => Rsqr (atR x i)))) by (unfold SumSquare; now rewrite tr_ok by exact HW).
  assert (M2 : MeanSquare W vec x = Ok (if lenZ x =? 0 then 0%R else moment x 2 0)).
  { rewrite MeanSquare_eq. destruct (Z.eqb_spec (lenZ x) 0) as [E|E]; cbn [negb]; [reflexivity|]. rewrite S2. cbn [bind]. rewrite div_ok by (apply len_neq0; lia). f_equal. unfold moment, mean_of. f_equal. apply sumR_ext. intros i _. unfold Rsqr. rr. ring. }
  split; [exact S1|]. split; [exact S2|]. split.
  - rewrite Mean_eq. destruct (Z.eqb_spec (lenZ x) 0) as [E|E]; cbn [negb]; [reflexivity|]. rewrite S1. cbn [bind]. rewrite div_ok by (apply len_neq0; lia). reflexivity.
  - split; [exact M2|]. split; [rewrite RootMeanSquare_eq; rewrite M2; reflexivity|]. rewrite Norm_eq. rewrite S2. cbn [bind]. eexists. split; [reflexivity|]. split; [apply sqrt_pos|]. apply sqrt_sqrt. apply sumR_nonneg; [exact Hn|]. intros. apply Rle_0_sqr.
Qed.
Print Assumptions C43_sums.
Lemma mean_ok W vec x : 1 <= W -> 1 <= lenZ x -> Mean W vec x = Ok (avg x).
Proof. intros HW Hn. destruct (C43_sums W vec x HW) as (_ & _ & -> & _). now replace (lenZ x =? 0) with false by lia. Qed.
(** ** Extrema *)
Lemma fold_max (l : list R) : forall a, (In (fold_left Rmax l a) (a :: l) /\ forall b, In b (a :: l) -> (b <= fold_left Rmax l a)%R).
Proof.
  induction l as [|c l IH]; intros a; cbn [fold_left].
  - split; [now left|]. intros b [->|[]]. lra.
  - destruct (IH (Rmax a c)) as [I B]. split.
    + destruct I as [I|I]; [|right; now right]. rewrite <- I. unfold Rmax. destruct (Rle_dec a c); [right; now left|now left].
    + intros b [->|[->|Hb]]; [| |apply B; now right]; (eapply Rle_trans; [|apply B; now left]); [apply Rmax_l|apply Rmax_r].
Qed.
Lemma fold_min (l : list R) : forall a, (In (fold_left Rmin l a) (a :: l) /\ forall b, In b (a :: l) -> (fold_left Rmin l a <= b)%R).
Proof.
  induction l as [|c l IH]; intros a; cbn [fold_left].
  - split; [now left|]. intros b [->|[]]. lra.
  - destruct (IH (Rmin a c)) as [I B]. split.
    + destruct I as [I|I]; [|right; now right]. rewrite <- I. unfold Rmin. destruct (Rle_dec a c); [now left|right; now left].
    + intros b [->|[->|Hb]]; [| |apply B; now right]; (eapply Rle_trans; [apply B; now left|]); [apply Rmin_l|apply Rmin_r].
Qed.
Theorem C43_extrema W vec (x : list R) : 1 <= W -> x <> [] ->
  (exists m, Max W vec x = Ok m /\ In m x /\ forall b, In b x -> (b <= m)%R) /\ (exists m, Min W vec x = Ok m /\ In m x /\ forall b, In b x -> (m <= b)%R).
Proof.
  intros HW Hx. destruct x as [|a l]; [contradiction|]. unfold Max, Min, gExtreme, assert_. replace (lenZ (a :: l) =? 0) with false by (rewrite lenZ_cons; pose proof (lenZ_nonneg l); lia). cbn [negb]. change (rd (a :: l) 0) with (Ok a). cbn [bind].
  change (ReduceWith (batch_of (Plain Rmax)) (fold_left Rmax) W vec (Plain Rmax)) with (Reduce W vec (Plain Rmax)).
  change (ReduceWith (batch_of (Plain Rmin)) (fold_left Rmin) W vec (Plain Rmin)) with (Reduce W vec (Plain Rmin)). split.
  - rewrite (Reduce_spec (K := Rring) (Plain Rmax) Rmax W vec); [|left; apply RO_plain; intros; [apply Rmax_assoc|apply Rmax_comm]|exact HW]. eexists. split; [reflexivity|]. destruct (fold_max (a :: l) a) as [I B]. split; [|intros b Hb; apply B; now right]. destruct I as [I|I]; [left; exact I|exact I].
  - rewrite (Reduce_spec (K := Rring) (Plain Rmin) Rmin W vec); [|left; apply RO_plain; intros; [apply Rmin_assoc|apply Rmin_comm]|exact HW]. eexists. split; [reflexivity|]. destruct (fold_min (a :: l) a) as [I B]. split; [|intros b Hb; apply B; now right]. destruct I as [I|I]; [left; exact I|exact I].
Qed.
Print Assumptions C43_extrema.

(** ** Moments *)
Lemma abs_pow_odd d k : Nat.Odd k -> (d * Rabs d ^ (k - 1) = d ^ k)%R.
Proof.
  intros [m ->]. replace (2 * m + 1 - 1)%nat with (2 * m)%nat by lia. rewrite pow_mult. rewrite <- (pow2_abs d) at 1 || idtac. replace (Rabs d ^ 2)%R with (d ^ 2)%R by (now rewrite pow2_abs). rewrite <- pow_mult. rewrite Nat.add_1_r. reflexivity.
Qed.
Definition handled (k : nat) : Prop := k = 2%nat \/ k = 3%nat \/ k = 4%nat \/ (5 <= k)%nat /\ Nat.Odd k.
Lemma moment_ok W vec x k c : 1 <= W -> 1 <= lenZ x -> handled k -> CentralMoment_mean W vec x k c = Ok (moment x k c).
Proof.
  intros HW Hn Hk. unfold moment, mean_of. rewrite CentralMoment_mean_eq. cbv zeta beta. rewrite !tr_ok by exact HW. cbn [bind]. rewrite !div_ok by now apply len_neq0.
  destruct Hk as [->|[->|[->|[H5 Ho]]]].
  - do 2 f_equal. apply sumR_ext. intros i _. rr. ring.
  - do 2 f_equal. apply sumR_ext. intros i _. rr. ring.
  - do 2 f_equal. apply sumR_ext. intros i _. rr. ring.
  - do 5 (destruct k as [|k]; [exfalso; lia|]). do 2 f_equal. apply sumR_ext. intros i _. rr. now apply abs_pow_odd.
Qed.
(** moments about a given point, and central moments; of non-empty signals *)
Theorem C43_moments W vec (x : list R) (k : nat) (c : R) : 1 <= W -> 1 <= lenZ x -> k = 2%nat \/ k = 3%nat \/ k = 4%nat \/ (5 <= k)%nat /\ Nat.Odd k ->
  CentralMoment_mean W vec x k c = Ok (moment x k c) /\ CentralMoment W vec x k = Ok (central x k).
Proof. intros HW Hn Hk. split; [now apply moment_ok|]. unfold CentralMoment. rewrite mean_ok by assumption. cbn [bind]. now apply moment_ok. Qed.
Print Assumptions C43_moments.
Lemma sum_dev x : 1 <= lenZ x -> sumR 0 (lenZ x) (fun i => atR x i - avg x)%R = 0%R.
Proof.
  intros Hn. rewrite sumR_sub. assert (E : sumR 0 (lenZ x) (fun _ => avg x) = (avg x * IZR (lenZ x))%R).
  { generalize (avg x). intros a. pose proof (lenZ_nonneg x) as H. revert H. generalize (lenZ x). apply (natlike_ind (fun n => sumR 0 n (fun _ => a) = (a * IZR n)%R)); [rewrite sumR_zero by lia; rr; ring|]. intros m Hm IH. unfold Z.succ. rewrite sumR_last by lia. rewrite IH, plus_IZR. rr. ring. }
  rewrite E. unfold avg, mean_of. assert (F : forall s n : R, n <> 0%R -> (s - s / n * n = 0)%R) by (intros; field; assumption). exact (F _ _ (len_neq0 _ Hn)).
Qed.
(** the first central moment is 0, and so it is reported *)
Theorem C43_first_moment W vec (x : list R) : 1 <= W -> 1 <= lenZ x -> CentralMoment W vec x 1 = Ok (central x 1) /\ central x 1 = 0%R.
Proof.
  intros HW Hn. assert (E : central x 1 = 0%R).
  { unfold central, moment, mean_of. rewrite (sumR_ext 0 (lenZ x) _ (fun i => atR x i - avg x)%R) by (intros i _; rr; ring). rewrite sum_dev by exact Hn. unfold Rdiv. rr. ring. }
  split; [|exact E]. rewrite E. unfold CentralMoment. rewrite mean_ok by assumption. reflexivity.
Qed.
Print Assumptions C43_first_moment.
(** but: the zeroth moment is reported as 0 (it is 1), the first about any other point as 0 (it is mean - c), and for even
    k >= 6 the terms have the sign of the deviation: the moments of (-1, 1) are all 1, reported as 0 *)
Theorem C43_moments_refuted W vec (x : list R) (c : R) (k : nat) : 1 <= W -> 1 <= lenZ x -> (6 <= k)%nat -> Nat.Even k ->
  CentralMoment W vec x 0 = Ok 0%R /\ central x 0 = 1%R /\
  CentralMoment_mean W vec x 1 c = Ok 0%R /\ moment x 1 c = (avg x - c)%R /\
  CentralMoment W vec [-1; 1]%R k = Ok 0%R /\ central [-1; 1]%R k = 1%R.
Proof.
  intros HW Hn Hk He. assert (C1 : forall a n, 0 <= n -> sumR 0 n (fun _ => a) = (a * IZR n)%R).
  { intros a. apply (natlike_ind (fun n => sumR 0 n (fun _ => a) = (a * IZR n)%R)); [rewrite sumR_zero by lia; rr; ring|]. intros m Hm IH. unfold Z.succ. rewrite sumR_last by lia. rewrite IH, plus_IZR. rr. ring. }
  split; [unfold CentralMoment; now rewrite mean_ok|]. split.
  { unfold central, moment, mean_of. rewrite (sumR_ext 0 (lenZ x) _ (fun _ => 1%R)) by reflexivity. rewrite C1 by lia. rr. field. now apply len_neq0. }
  split; [reflexivity|]. split.
  { unfold moment, mean_of, avg. rewrite (sumR_ext 0 (lenZ x) _ (fun i => atR x i - c)%R) by (intros i _; rr; ring). rewrite sumR_sub, C1 by lia. unfold mean_of. rr. field. now apply len_neq0. }
  assert (S2 : forall F : Z -> R, sumR 0 2 F = (F 0%Z + F 1%Z)%R) by (intros F; replace 2 with (0 + 1 + 1) by lia; rewrite !sumR_last by lia; rewrite sumR_zero by lia; rr; cbn [Z.add Pos.add]; ring).
  assert (A : avg [-1; 1]%R = 0%R) by (unfold avg, mean_of; change (lenZ [-1; 1]%R) with 2; rewrite S2; change (atR [-1; 1]%R 0) with (-1)%R; change (atR [-1; 1]%R 1) with 1%R; rr; lra).
  split.
  - unfold CentralMoment. rewrite mean_ok by (try exact HW; change (lenZ [-1; 1]%R) with 2; lia). cbn [bind]. rewrite A. rewrite CentralMoment_mean_eq. cbv zeta beta. rewrite !tr_ok by exact HW. cbn [bind]. rewrite !div_ok by (apply len_neq0; change (lenZ [-1; 1]%R) with 2; lia).
    do 5 (destruct k as [|k]; [exfalso; lia|]). f_equal. change (lenZ [-1; 1]%R) with 2. rewrite S2. change (atR [-1; 1]%R 0) with (-1)%R. change (atR [-1; 1]%R 1) with 1%R. rewrite !Rminus_0_r. rewrite Rabs_left, Rabs_R1 by lra. replace (- -1)%R with 1%R by ring. rewrite !pow1. rr. lra.
  - unfold central, moment, mean_of. rewrite A. change (lenZ [-1; 1]%R) with 2. rewrite S2. change (atR [-1; 1]%R 0) with (-1)%R. change (atR [-1; 1]%R 1) with 1%R. rewrite !Rminus_0_r, pow1. destruct He as [m ->]. rewrite pow_mult. replace ((-1) ^ 2)%R with 1%R by ring. rewrite pow1. rr. lra.
Qed.
Print Assumptions C43_moments_refuted.

(** ** Variance, standard deviation *)
Lemma mean_nonneg n F : 1 <= n -> (forall i, 0 <= i < n -> (0 <= F i)%R) -> (0 <= mean_of n F)%R.
Proof. intros Hn H. unfold mean_of. apply Rmult_le_pos; [apply sumR_nonneg; [lia|exact H]|]. left. apply Rinv_0_lt_compat, IZR_lt. lia. Qed.
Lemma central2_sumsq x : central x 2 = mean_of (lenZ x) (fun i => (atR x i - avg x) * (atR x i - avg x))%R.
Proof. unfold central, moment, mean_of. f_equal. apply sumR_ext. intros i _. rr. ring. Qed.
Lemma var_nonneg x : 1 <= lenZ x -> (0 <= central x 2)%R.
Proof. intros Hn. rewrite central2_sumsq. apply mean_nonneg; [exact Hn|]. intros i _. exact (Rle_0_sqr _). Qed.
Lemma var_zero x : 1 <= lenZ x -> (central x 2 = 0%R <-> forall i, 0 <= i < lenZ x -> atR x i = avg x).
Proof.
  intros Hn. rewrite central2_sumsq. unfold mean_of. split.
  - intros H i Hi. apply Rmult_integral in H as [H|H]; [|exfalso; revert H; apply Rinv_neq_0_compat; now apply len_neq0]. pose proof (sumR_sq_zero (lenZ x) (fun i => atR x i - avg x)%R ltac:(lia) H i Hi) as E. cbv beta in E. asL. lra.
  - intros H. rewrite sumR_zero; [unfold Rdiv; ring|]. intros i Hi. rewrite (H i Hi). ring.
Qed.
Theorem C43_variance W vec (x : list R) : 1 <= W -> 1 <= lenZ x ->
  Variance W vec x = Ok (central x 2) /\ (0 <= central x 2)%R /\ (central x 2 = 0%R <-> forall i, 0 <= i < lenZ x -> atR x i = avg x) /\
  central x 2 = (moment x 2 0 - avg x * avg x)%R /\
  StandardDeviation W vec x = Ok (sqrt (central x 2)) /\ StandardDeviation_mean W vec x (avg x) = Ok (sqrt (central x 2)) /\ Variance_mean W vec x (avg x) = Ok (central x 2).
Proof.
  intros HW Hn. destruct (C43_moments W vec x 2 (avg x) HW Hn (or_introl eq_refl)) as [M1 M2]. split; [exact M2|]. split; [now apply var_nonneg|]. split; [now apply var_zero|]. split.
  - rewrite central2_sumsq. unfold moment, mean_of. rewrite (sumR_ext 0 (lenZ x) (fun i => (atR x i - avg x) * (atR x i - avg x))%R (fun i => (atR x i - 0) ^ 2 - (avg x * atR x i + avg x * (atR x i - avg x)))%R) by (intros i _; rr; ring).
    rewrite sumR_sub, sumR_add, !sumR_scale, sum_dev by exact Hn. assert (F : forall s t n : R, n <> 0%R -> ((s - (t / n * t + t / n * 0)) / n = s / n - t / n * (t / n))%R) by (intros; field; assumption). exact (F _ _ _ (len_neq0 _ Hn)).
  - split; [unfold StandardDeviation; rewrite M2; reflexivity|]. split; [unfold StandardDeviation_mean; rewrite M1; reflexivity|exact M1].
Qed.
Print Assumptions C43_variance.
(** an affine map a v + b moves the mean, scales the variance by a^2 *)
Lemma avg_affine a b x : 1 <= lenZ x -> avg (map (fun v => a * v + b)%R x) = (a * avg x + b)%R.
Proof.
  intros Hn. unfold avg, mean_of. rewrite lenZ_map. rewrite (sumR_ext 0 (lenZ x) _ (fun i => a * atR x i + b * 1)%R) by (intros i Hi; rewrite at_map by exact Hi; rr; ring). rewrite sumR_add, !sumR_scale.
  assert (E : sumR 0 (lenZ x) (fun _ => 1%R) = IZR (lenZ x)).
  { pose proof (lenZ_nonneg x) as H. revert H. generalize (lenZ x). apply (natlike_ind (fun n => sumR 0 n (fun _ => 1%R) = IZR n)); [now rewrite sumR_zero by lia|]. intros m Hm IH. unfold Z.succ. rewrite sumR_last by lia. rewrite IH, plus_IZR. reflexivity. }
  rewrite E. assert (F : forall s n : R, n <> 0%R -> ((a * s + b * n) / n = a * (s / n) + b)%R) by (intros; field; assumption). exact (F _ _ (len_neq0 _ Hn)).
Qed.
Theorem C43_affine W vec (x : list R) (a b : R) (k : nat) : 1 <= W -> 1 <= lenZ x -> k = 2%nat \/ k = 3%nat \/ k = 4%nat \/ (5 <= k)%nat /\ Nat.Odd k ->
  Mean W vec (map (fun v => a * v + b)%R x) = Ok (a * avg x + b)%R /\ CentralMoment W vec (map (fun v => a * v + b)%R x) k = Ok (a ^ k * central x k)%R.
Proof.
  intros HW Hn Hk. split; [rewrite mean_ok by (try rewrite lenZ_map; assumption); f_equal; now apply avg_affine|].
  destruct (C43_moments W vec (map (fun v => a * v + b)%R x) k 0 HW ltac:(now rewrite lenZ_map) Hk) as [_ ->]. f_equal. unfold central, moment, mean_of. rewrite avg_affine, lenZ_map by exact Hn. transitivity ((a ^ k * sumR 0 (lenZ x) (fun i => (atR x i - avg x) ^ k)) / IZR (lenZ x))%R; [|unfold Rdiv; ring]. f_equal. rewrite <- sumR_scale. apply sumR_ext. intros i Hi. rewrite at_map by exact Hi. rewrite <- Rpow_mult_distr. rr. f_equal. ring.
Qed.
Print Assumptions C43_affine.

(** ** Skewness and kurtosis *)
Lemma cauchy_schwarz n (F G : Z -> R) : 0 <= n -> (Rsqr (sumR 0 n (fun i => F i * G i)) <= sumR 0 n (fun i => F i * F i) * sumR 0 n (fun i => G i * G i))%R.
Proof.
  intros Hn. set (fg := sumR 0 n (fun i => F i * G i)%R). set (ff := sumR 0 n (fun i => F i * F i)%R). set (gg := sumR 0 n (fun i => G i * G i)%R).
  assert (Hg : (0 <= gg)%R) by (apply sumR_nonneg; [exact Hn|intros i _; exact (Rle_0_sqr _)]).
  destruct (Req_dec gg 0) as [E|E].
  - assert (fg = 0%R) as ->; [|rewrite E, Rsqr_0; lra]. unfold fg. apply sumR_zero. intros i Hi. rewrite (sumR_sq_zero n G Hn E i Hi). ring.
  - assert (P : (0 <= sumR 0 n (fun i => (gg * F i - fg * G i) * (gg * F i - fg * G i)))%R) by (apply sumR_nonneg; [exact Hn|intros i _; exact (Rle_0_sqr _)]).
    assert (Q : sumR 0 n (fun i => (gg * F i - fg * G i) * (gg * F i - fg * G i))%R = (gg * (ff * gg - Rsqr fg))%R).
    { rewrite (sumR_ext 0 n _ (fun i => gg * gg * (F i * F i) - (2 * gg * fg * (F i * G i) - fg * fg * (G i * G i)))%R) by (intros; rr; ring). rewrite !sumR_sub, !sumR_scale. fold ff fg gg. unfold Rsqr. rr. ring. }
    rewrite Q in P. apply Rnot_lt_le. intros L. assert (gg * (ff * gg - Rsqr fg) < 0)%R by nra. lra.
Qed.
Lemma pow_half_even x k : (0 < x)%R -> pow_half x (2 * k) = (x ^ k)%R.
Proof. intros H. unfold pow_half. destruct (Req_EM_T x 0); [lra|]. rewrite mult_INR. replace (INR 2 * INR k / 2)%R with (INR k) by (cbn [INR]; field). apply Rpower_pow. exact H. Qed.
Lemma pow_half_3 x : (0 < x)%R -> pow_half x 3 = (x * sqrt x)%R.
Proof. intros H. unfold pow_half. destruct (Req_EM_T x 0); [lra|]. replace (INR 3 / 2)%R with (1 + / 2)%R by (cbn [INR]; field). rewrite Rpower_plus, Rpower_1, Rpower_sqrt by exact H. reflexivity. Qed.
(** for signals that are not constant; the kurtosis is at least 1 *)
Theorem C43_skewness_kurtosis W vec (x : list R) : 1 <= W -> 1 <= lenZ x -> (0 < central x 2)%R ->
  Skewness W vec x = Ok (central x 3 / (central x 2 * sqrt (central x 2)))%R /\ Kurtosis W vec x = Ok (central x 4 / Rsqr (central x 2))%R /\
  Skewness_mean W vec x (avg x) = Skewness W vec x /\ Kurtosis_mean W vec x (avg x) = Kurtosis W vec x /\ (1 <= central x 4 / Rsqr (central x 2))%R.
Proof.
  intros HW Hn Hv. assert (S3 : Skewness_mean W vec x (avg x) = Ok (central x 3 / (central x 2 * sqrt (central x 2)))%R).
  { unfold Skewness_mean, StandardizedMoment_mean. rewrite !moment_ok by (try assumption; unfold handled; auto). cbn [bind]. fold (central x 2) (central x 3). rewrite pow_half_3 by exact Hv. apply div_ok. pose proof (sqrt_lt_R0 _ Hv). nra. }
  assert (K4 : Kurtosis_mean W vec x (avg x) = Ok (central x 4 / Rsqr (central x 2))%R).
  { unfold Kurtosis_mean, StandardizedMoment_mean. rewrite !moment_ok by (try assumption; unfold handled; auto). cbn [bind]. fold (central x 2) (central x 4). change 4%nat with (2 * 2)%nat at 2. rewrite pow_half_even by exact Hv. replace (central x 2 ^ 2)%R with (Rsqr (central x 2)) by (unfold Rsqr; ring). apply div_ok. unfold Rsqr. nra. }
  unfold Skewness, Kurtosis, StandardizedMoment. rewrite mean_ok by assumption. cbn [bind]. split; [exact S3|]. split; [exact K4|]. split; [reflexivity|]. split; [reflexivity|].
  assert (Hq : (0 < Rsqr (central x 2))%R) by (unfold Rsqr; nra). apply Rmult_le_reg_r with (Rsqr (central x 2)); [exact Hq|]. replace (central x 4 / Rsqr (central x 2) * Rsqr (central x 2))%R with (central x 4) by (unfold Rdiv; rewrite Rmult_assoc, Rinv_l by lra; ring). rewrite Rmult_1_l.
  set (n := lenZ x) in *. set (d := fun i => ((atR x i - avg x) * (atR x i - avg x))%R). assert (Hp : (0 < IZR n)%R) by (apply IZR_lt; lia).
  pose proof (cauchy_schwarz n d (fun _ => 1%R) ltac:(lia)) as CS.
  assert (E2 : central x 2 = (sumR 0 n (fun i => d i * 1) / IZR n)%R) by (rewrite central2_sumsq; unfold mean_of; fold n; f_equal; apply sumR_ext; intros i _; unfold d; rr; ring).
  assert (E4 : central x 4 = (sumR 0 n (fun i => d i * d i) / IZR n)%R) by (unfold central, moment, mean_of; fold n; f_equal; apply sumR_ext; intros i _; unfold d; rr; ring).
  assert (E1 : sumR 0 n (fun _ => 1 * 1)%R = IZR n). { generalize (lenZ_nonneg x). fold n. generalize n. apply (natlike_ind (fun n => sumR 0 n (fun _ => 1 * 1)%R = IZR n)); [now rewrite sumR_zero by lia|]. intros m Hm IH. unfold Z.succ. rewrite sumR_last by lia. rewrite IH, plus_IZR. rr. ring. }
  cbv beta in CS. rewrite E1 in CS. rewrite E2, E4. set (s := sumR 0 n (fun i => d i * 1)%R) in *. set (q := sumR 0 n (fun i => d i * d i)%R) in *. apply Rmult_le_reg_r with (IZR n * IZR n)%R; [nra|]. replace (Rsqr (s / IZR n) * (IZR n * IZR n))%R with (Rsqr s) by (unfold Rsqr; field; lra). replace (q / IZR n * (IZR n * IZR n))%R with (q * IZR n)%R by (field; lra). exact CS.
Qed.
Print Assumptions C43_skewness_kurtosis.
(** of constant signals they are 0 / 0 *)
Theorem C43_constant_refuted W vec (x : list R) : 1 <= W -> 1 <= lenZ x -> (forall i, 0 <= i < lenZ x -> atR x i = avg x) -> Skewness W vec x = UB /\ Kurtosis W vec x = UB.
Proof.
  intros HW Hn Hc. assert (Z2 : central x 2 = 0%R) by now apply var_zero. unfold Skewness, Kurtosis, StandardizedMoment, StandardizedMoment_mean. rewrite mean_ok by assumption. cbn [bind]. rewrite !moment_ok by (try assumption; unfold handled; auto). cbn [bind]. fold (central x 2). rewrite Z2. unfold pow_half. destruct (Req_EM_T 0 0); [|lra]. cbn [Nat.eqb]. rewrite !div_0. split; reflexivity.
Qed.
Print Assumptions C43_constant_refuted.

(** ** Covariance and correlation *)
Lemma cov_ok W vec x y : 1 <= W -> 1 <= lenZ x -> lenZ x = lenZ y -> Covariance W vec x y = Ok (joint x y).
Proof.
  intros HW Hn Hl. unfold Covariance. rewrite !mean_ok by (try assumption; lia). cbn [bind]. rewrite Covariance_mean_eq. unfold assert_. replace (lenZ x =? lenZ y) with true by lia. rewrite ip_ok by assumption. cbn [bind]. rewrite div_ok by now apply len_neq0. reflexivity.
Qed.
Theorem C43_covariance W vec (x y : list R) : 1 <= W -> 1 <= lenZ x -> lenZ x = lenZ y ->
  Covariance W vec x y = Ok (joint x y) /\ Covariance W vec y x = Covariance W vec x y /\ Covariance W vec x x = Variance W vec x.
Proof.
  intros HW Hn Hl. rewrite !cov_ok by (try assumption; lia). split; [reflexivity|]. split.
  - f_equal. unfold joint, mean_of. rewrite Hl. f_equal. apply sumR_ext. intros i _. rr. ring.
  - destruct (C43_variance W vec x HW Hn) as [-> _]. f_equal. rewrite central2_sumsq. reflexivity.
Qed.
Print Assumptions C43_covariance.
(** the correlation of two signals that are not constant lies in [-1, 1]; it is 1 or -1 for signals related by an affine map *)
Theorem C43_correlation W vec (x y : list R) : 1 <= W -> 1 <= lenZ x -> lenZ x = lenZ y -> (0 < central x 2)%R -> (0 < central y 2)%R ->
  exists r, Correlation W vec x y = Ok r /\ r = (joint x y / (sqrt (central x 2) * sqrt (central y 2)))%R /\ (-1 <= r <= 1)%R.
Proof.
  intros HW Hn Hl Hx Hy. eexists. split; [|split; [reflexivity|]].
  - unfold Correlation, assert_. replace (lenZ x =? lenZ y) with true by lia. rewrite cov_ok by assumption. cbn [bind]. destruct (C43_variance W vec x HW Hn) as (_ & _ & _ & _ & -> & _). cbn [bind]. destruct (C43_variance W vec y HW ltac:(lia)) as (_ & _ & _ & _ & -> & _). cbn [bind]. apply div_ok. pose proof (sqrt_lt_R0 _ Hx). pose proof (sqrt_lt_R0 _ Hy). nra.
  - rewrite <- sqrt_mult by lra. set (v := (central x 2 * central y 2)%R). assert (Hv : (0 < v)%R) by (unfold v; nra). pose proof (sqrt_lt_R0 _ Hv) as Hs.
    assert (CS : (Rsqr (joint x y) <= v)%R).
    { unfold v. rewrite !central2_sumsq. unfold joint, mean_of. rewrite <- Hl. set (n := lenZ x) in *. pose proof (cauchy_schwarz n (fun i => atR x i - avg x)%R (fun i => atR y i - avg y)%R ltac:(lia)) as CS. cbv beta in CS. assert (Hp : (0 < IZR n)%R) by (apply IZR_lt; lia).
      set (s := sumR 0 n _) in *. set (p := sumR 0 n (fun i => (atR x i - avg x) * (atR x i - avg x))%R) in *. set (q := sumR 0 n (fun i => (atR y i - avg y) * (atR y i - avg y))%R) in *.
      apply Rmult_le_reg_r with (IZR n * IZR n)%R; [nra|]. replace (Rsqr (s / IZR n) * (IZR n * IZR n))%R with (Rsqr s) by (unfold Rsqr; field; lra). replace (p / IZR n * (q / IZR n) * (IZR n * IZR n))%R with (p * q)%R by (field; lra). exact CS. }
    assert (A : (Rabs (joint x y) <= sqrt v)%R) by (rewrite <- sqrt_Rsqr_abs; apply sqrt_le_1_alt; exact CS).
    assert (B : (- sqrt v <= joint x y <= sqrt v)%R) by (unfold Rabs in A; destruct (Rcase_abs _); lra).
    split; [apply Rmult_le_reg_r with (sqrt v)|apply Rmult_le_reg_r with (sqrt v)]; try exact Hs; unfold Rdiv; rewrite Rmult_assoc, Rinv_l by lra; lra.
Qed.
Print Assumptions C43_correlation.
Theorem C43_correlation_affine W vec (x : list R) (a b : R) : 1 <= W -> 1 <= lenZ x -> (0 < central x 2)%R -> (a <> 0)%R ->
  Correlation W vec x (map (fun v => a * v + b)%R x) = Ok (if Rlt_dec 0 a then 1 else -1)%R.
Proof.
  intros HW Hn Hx Ha. set (y := map _ x). assert (Ly : lenZ y = lenZ x) by apply lenZ_map.
  assert (J : joint x y = (a * central x 2)%R).
  { rewrite central2_sumsq. unfold joint, mean_of, y. rewrite avg_affine by exact Hn. transitivity (a * sumR 0 (lenZ x) (fun i => (atR x i - avg x) * (atR x i - avg x)) / IZR (lenZ x))%R; [|unfold Rdiv; ring]. f_equal. rewrite <- sumR_scale. apply sumR_ext. intros i Hi. rewrite at_map by exact Hi. rr. ring. }
  assert (V : central y 2 = (a * a * central x 2)%R).
  { destruct (C43_affine W vec x a b 2 HW Hn (or_introl eq_refl)) as [_ E]. destruct (C43_moments W vec y 2 0 HW ltac:(lia) (or_introl eq_refl)) as [_ E']. unfold y in E' |- *. rewrite E in E'. assert (F : forall u v : R, Ok u = Ok v -> u = v) by (intros u v [=]; assumption). rewrite <- (F _ _ E'). ring. }
  assert (Hy : (0 < central y 2)%R) by (rewrite V; assert (0 < a * a)%R by nra; nra).
  destruct (C43_correlation W vec x y HW Hn ltac:(lia) Hx Hy) as (r & -> & -> & _). f_equal. rewrite J, V. rewrite sqrt_mult by nra. change (a * a)%R with (Rsqr a). rewrite sqrt_Rsqr_abs. pose proof (sqrt_sqrt (central x 2) ltac:(lra)) as S. pose proof (sqrt_lt_R0 _ Hx) as Hs. set (s := sqrt (central x 2)) in *. rewrite <- S.
  unfold Rabs. destruct (Rcase_abs a), (Rlt_dec 0 a); try lra; field; lra.
Qed.
Print Assumptions C43_correlation_affine.

(** ** Corrected estimators *)
(** division by n - 1; the skewness is n sum d^3 / ((n - 1) (n - 2)) over the cube of the corrected deviation *)
Definition sumdev (x : list R) (k : nat) : R := sumR 0 (lenZ x) (fun i => (atR x i - avg x) ^ k)%R.
Lemma central_sumdev x k : central x k = (sumdev x k / IZR (lenZ x))%R. Proof. reflexivity. Qed.
Theorem C43_corrected W vec (x y : list R) : 1 <= W -> lenZ x = lenZ y ->
  (2 <= lenZ x -> CorrectedVariance W vec x = Ok (sumdev x 2 / (IZR (lenZ x) - 1))%R /\
     CorrectedStandardDeviation W vec x = Ok (sqrt (sumdev x 2 / (IZR (lenZ x) - 1))) /\
     CorrectedCovariance W vec x y = Ok (sumR 0 (lenZ x) (fun i => (atR x i - avg x) * (atR y i - avg y)) / (IZR (lenZ x) - 1))%R) /\
  (3 <= lenZ x -> (0 < sumdev x 2)%R -> let s := sqrt (sumdev x 2 / (IZR (lenZ x) - 1)) in
     CorrectedSkewness W vec x = Ok (IZR (lenZ x) * sumdev x 3 / ((IZR (lenZ x) - 1) * (IZR (lenZ x) - 2)) / (s * s * s))%R).
Proof.
  intros HW Hl. set (n := lenZ x) in *. split.
  - intros Hn. assert (H1 : (IZR n - 1 <> 0)%R) by (rewrite <- minus_IZR; apply not_0_IZR; lia). assert (H0 : (IZR n <> 0)%R) by (apply len_neq0; lia).
    destruct (C43_moments W vec x 2 0 HW ltac:(fold n; lia) (or_introl eq_refl)) as [_ M2]. assert (E : (central x 2 * IZR n / (IZR n - 1) = sumdev x 2 / (IZR n - 1))%R) by (rewrite central_sumdev; fold n; field; split; assumption).
    unfold CorrectedVariance, CorrectedStandardDeviation, CorrectedCovariance, assert_. fold n. replace (2 <=? n) with true by lia. replace (n =? lenZ y) with true by lia. rewrite M2. cbn [bind]. rewrite !div_ok by assumption. cbn [bind]. rewrite E. split; [reflexivity|]. split; [reflexivity|].
    rewrite cov_ok by (try assumption; fold n; lia). cbn [bind]. f_equal. unfold joint, mean_of. fold n. match goal with |- (_ * (?s / _))%R = _ => set (t := s) end. assert (F : forall t : R, (IZR n / (IZR n - 1) * (t / IZR n) = t / (IZR n - 1))%R) by (intros; field; split; assumption). apply F.
  - intros Hn Hv s. assert (Hn' : (3 <= IZR n)%R) by (apply IZR_le; exact Hn).
    unfold CorrectedSkewness, assert_. fold n. replace (3 <=? n) with true by lia. rewrite mean_ok by (try assumption; fold n; lia). cbn [bind]. rewrite !moment_ok by (try assumption; fold n; try lia; unfold handled; auto). cbn [bind]. fold (central x 2) (central x 3). rewrite !div_ok by nra. cbn [bind].
    assert (E : (IZR n / (IZR n - 1) * central x 2 = sumdev x 2 / (IZR n - 1))%R) by (rewrite central_sumdev; fold n; field; lra). rewrite E.
    assert (Hp : (0 < sumdev x 2 / (IZR n - 1))%R) by (apply Rmult_lt_0_compat; [exact Hv|apply Rinv_0_lt_compat; lra]). rewrite pow_half_3 by exact Hp. pose proof (sqrt_sqrt _ (Rlt_le _ _ Hp)) as S. pose proof (sqrt_lt_R0 _ Hp) as Hs. fold s in S, Hs |- *.
    assert (H3 : (0 < s * s * s)%R) by (rewrite S; apply Rmult_lt_0_compat; assumption). rewrite <- S. rewrite div_ok by lra. f_equal. rewrite central_sumdev. fold n. field. repeat split; lra.
Qed.
Print Assumptions C43_corrected.
(** empty signals: mean 0; everything that divides by the length fails *)
Theorem C43_empty W vec : 1 <= W -> Mean W vec [] = Ok 0%R /\ Variance W vec [] = UB /\ Covariance W vec [] [] = UB /\ Max W vec [] = UB /\ Min W vec [] = UB /\ CorrectedVariance W vec [] = UB.
Proof.
  intros HW. split; [reflexivity|]. split; [unfold Variance, CentralMoment; rewrite Mean_eq; cbn [lenZ length Z.of_nat Z.eqb negb bind]; rewrite CentralMoment_mean_eq; cbv zeta beta; cbn [ lenZ length Z.of_nat Z.eqb negb bind]; rewrite !tr_ok by exact HW; cbn [bind]; apply div_0|].
  split; [unfold Covariance; rewrite !Mean_eq; cbn [lenZ length Z.of_nat Z.eqb negb bind]; rewrite Covariance_mean_eq; unfold assert_; cbn [ lenZ length Z.of_nat Z.eqb negb bind]; rewrite ip_ok by (try exact HW; reflexivity); cbn [bind]; apply div_0|]. repeat split.
Qed.
Print Assumptions C43_empty.
Example C43_nontrivial : Variance 4 true [1; 2; 3]%R = Ok (2 / 3)%R /\ CorrectedVariance 4 true [1; 2; 3]%R = Ok 1%R /\ (0 < central [1; 2; 3] 2)%R.
Proof.
  assert (S3 : forall F : Z -> R, sumR 0 3 F = (F 0%Z + F 1%Z + F 2%Z)%R) by (intros F; replace 3 with (0 + 1 + 1 + 1) by lia; rewrite !sumR_last by lia; rewrite sumR_zero by lia; rr; cbn [Z.add Pos.add]; ring).
  assert (A : avg [1; 2; 3]%R = 2%R) by (unfold avg, mean_of; change (lenZ [1; 2; 3]%R) with 3; rewrite S3; change (atR [1; 2; 3]%R 0) with 1%R; change (atR [1; 2; 3]%R 1) with 2%R; change (atR [1; 2; 3]%R 2) with 3%R; rr; lra).
  assert (D : sumdev [1; 2; 3]%R 2 = 2%R) by (unfold sumdev; rewrite A; change (lenZ [1; 2; 3]%R) with 3; rewrite S3; change (atR [1; 2; 3]%R 0) with 1%R; change (atR [1; 2; 3]%R 1) with 2%R; change (atR [1; 2; 3]%R 2) with 3%R; rr; lra).
  assert (V : central [1; 2; 3]%R 2 = (2 / 3)%R) by (rewrite central_sumdev, D; reflexivity).
  split; [destruct (C43_variance 4 true [1; 2; 3]%R ltac:(lia) ltac:(cbn; lia)) as [-> _]; now rewrite V|]. split; [|rewrite V; lra].
  destruct (C43_corrected 4 true [1; 2; 3]%R [1; 2; 3]%R ltac:(lia) eq_refl) as [H _]. destruct (H ltac:(cbn; lia)) as [-> _]. rewrite D. change (lenZ [1; 2; 3]%R) with 3. f_equal. lra.
Qed.
