(** The discrete Fourier transform over a field with a principal root of unity:
    inversion, linearity, circular convolution.  Pure mathematics used by FftProofs. *)
From Verif Require Import Base BaseFacts Complex.
From Coq Require Import ZifyBool ZifyNat.
Ltac Zify.zify_post_hook ::= Z.div_mod_to_equations.
Open Scope Z_scope.

Section Dft.
Variable K : CField.
Add Field KF : (fth K).
Local Open Scope ring_scope'.
Local Open Scope Z_scope.
Variable n : Z.
Variable w : Z -> K.
Hypothesis Hn : 0 < n.
Hypothesis w_add : forall a b, w (a + b) = rmul (w a) (w b).
Hypothesis w_per : forall q, w (n * q) = r1.
Hypothesis w_neq : forall m, ~ (n | m) -> w m <> r1.
Definition nK : K := sumZ 0 n (fun _ => r1).
Hypothesis nK_neq : nK <> r0.

Definition dft (f : Z -> K) (k : Z) : K := sumZ 0 n (fun j => rmul (f j) (w (j * k))).
Definition idft (F : Z -> K) (j : Z) : K := fdiv (sumZ 0 n (fun k => rmul (F k) (w (- (j * k))))) nK.

Lemma w_0 : w 0 = r1.
Proof. rewrite <- (w_per 0). f_equal. lia. Qed.
Lemma w_mod a : w (a mod n) = w a.
Proof. rewrite (Z.div_mod a n) at 2 by lia. rewrite w_add, w_per. ring. Qed.
Lemma w_inv a : rmul (w a) (w (- a)) = r1.
Proof. rewrite <- w_add. rewrite <- w_0. f_equal. lia. Qed.

Lemma geom m (k : nat) :
  rmul (sumf k (fun i => w (m * Z.of_nat i))) (rsub (w m) r1) = rsub (w (m * Z.of_nat k)) r1.
Proof.
  induction k as [|k IH].
  - cbn [sumf]. replace (m * Z.of_nat 0) with 0 by lia. rewrite w_0. ring.
  - cbn [sumf]. replace (m * Z.of_nat (S k)) with (m * Z.of_nat k + m) by lia. rewrite w_add.
    transitivity (radd (rmul (sumf k (fun i => w (m * Z.of_nat i))) (rsub (w m) r1)) (rmul (w (m * Z.of_nat k)) (rsub (w m) r1))); [ring|].
    rewrite IH. ring.
Qed.
Lemma orth m : sumZ 0 n (fun k => w (m * k)) = if m mod n =? 0 then nK else r0.
Proof.
  destruct (Z.eqb_spec (m mod n) 0) as [E|E].
  - unfold nK. apply sumZ_ext. intros k Hk. apply Z.mod_divide in E; [|lia]. destruct E as [q ->].
    replace (q * n * k) with (n * (q * k)) by lia. apply w_per.
  - apply (field_integral K (rsub (w m) r1)).
    + rewrite (Rmul_comm (rth K)). unfold sumZ. cbn [Z.add].
      pose proof (geom m (Z.to_nat (n - 0))) as G. rewrite G.
      replace (m * Z.of_nat (Z.to_nat (n - 0))) with (n * m) by lia. rewrite w_per. ring.
    + intros E0. apply (w_neq m).
      * intros D. apply E. apply Z.mod_divide; [lia|exact D].
      * transitivity (radd (rsub (w m) r1) r1); [ring|]. rewrite E0. ring.
Qed.

Lemma delta_sum (f : Z -> K) j : 0 <= j < n ->
  sumZ 0 n (fun i => rmul (f i) (if (i - j) mod n =? 0 then nK else r0)) = rmul (f j) nK.
Proof.
  intros Hj. rewrite (sumZ_single 0 n j); [|lia|].
  - rewrite Z.sub_diag, Z.mod_0_l by lia. reflexivity.
  - intros i Hi Hne. replace ((i - j) mod n =? 0) with false; [ring|]. symmetry. apply Z.eqb_neq.
    intros E. apply Z.mod_divide in E; [|lia]. destruct E as [q E]. assert (q = 0) by nia. lia.
Qed.

Lemma idft_dft (f : Z -> K) j : 0 <= j < n -> idft (dft f) j = f j.
Proof.
  intros Hj. unfold idft, dft.
  rewrite (sumZ_ext 0 n _ (fun k => sumZ 0 n (fun i => rmul (f i) (w ((i - j) * k))))).
  2:{ intros k Hk. rewrite <- sumZ_scale_r. apply sumZ_ext. intros i Hi.
      transitivity (rmul (f i) (rmul (w (i * k)) (w (- (j * k))))); [ring|]. rewrite <- w_add. f_equal. f_equal. lia. }
  rewrite sumZ_swap.
  rewrite (sumZ_ext 0 n _ (fun i => rmul (f i) (if (i - j) mod n =? 0 then nK else r0))).
  2:{ intros i Hi. rewrite sumZ_scale, orth. reflexivity. }
  rewrite delta_sum by exact Hj. field. exact nK_neq.
Qed.
Lemma dft_idft (F : Z -> K) k : 0 <= k < n -> dft (idft F) k = F k.
Proof.
  intros Hk. unfold idft, dft.
  rewrite (sumZ_ext 0 n _ (fun j => fdiv (sumZ 0 n (fun i => rmul (F i) (w ((k - i) * j)))) nK)).
  2:{ intros j Hj. transitivity (fdiv (rmul (sumZ 0 n (fun k => rmul (F k) (w (- (j * k))))) (w (j * k))) nK); [field; exact nK_neq|].
      f_equal. rewrite <- sumZ_scale_r. apply sumZ_ext. intros i Hi.
      transitivity (rmul (F i) (rmul (w (- (j * i))) (w (j * k)))); [ring|]. rewrite <- w_add. f_equal. f_equal. lia. }
  transitivity (fdiv (sumZ 0 n (fun j => sumZ 0 n (fun i => rmul (F i) (w ((k - i) * j))))) nK).
  { transitivity (rmul (sumZ 0 n (fun j => sumZ 0 n (fun i => rmul (F i) (w ((k - i) * j))))) (finv nK)); [|field; exact nK_neq].
    rewrite <- sumZ_scale_r. apply sumZ_ext. intros j Hj. field. exact nK_neq. }
  rewrite sumZ_swap.
  rewrite (sumZ_ext 0 n _ (fun i => rmul (F i) (if (i - k) mod n =? 0 then nK else r0))).
  2:{ intros i Hi. rewrite sumZ_scale, orth. f_equal.
      assert (E : ((k - i) mod n =? 0) = ((i - k) mod n =? 0)).
      { apply Bool.eq_iff_eq_true. rewrite !Z.eqb_eq. rewrite !Z.mod_divide by lia.
        split; intros H; [replace (i - k) with (- (k - i)) by lia|replace (k - i) with (- (i - k)) by lia]; now apply Z.divide_opp_r. }
      now rewrite E. }
  rewrite delta_sum by exact Hk. field. exact nK_neq.
Qed.
Lemma dft_ext f g k : (forall j, 0 <= j < n -> f j = g j) -> dft f k = dft g k.
Proof. intros H. apply sumZ_ext. intros j Hj. now rewrite H. Qed.
Lemma idft_ext f g k : (forall j, 0 <= j < n -> f j = g j) -> idft f k = idft g k.
Proof. intros H. unfold idft. f_equal. apply sumZ_ext. intros j Hj. now rewrite H. Qed.
Lemma dft_linear a b f g k : dft (fun j => radd (rmul a (f j)) (rmul b (g j))) k = radd (rmul a (dft f k)) (rmul b (dft g k)).
Proof.
  unfold dft. rewrite <- !sumZ_scale, <- sumZ_add. apply sumZ_ext. intros j Hj. ring.
Qed.

Lemma mod_wrap x : - n <= x < 0 -> x mod n = x + n.
Proof. intros H. symmetry. apply (Z.mod_unique x n (-1)); lia. Qed.

(** circular convolution *)
Definition circ (f g : Z -> K) (j : Z) : K := sumZ 0 n (fun i => rmul (f i) (g ((j - i) mod n))).
Lemma shift_mod_sum (h : Z -> K) i : sumZ 0 n (fun j => h ((j - i) mod n)) = sumZ 0 n h.
Proof.
  set (r := i mod n). assert (Hr : 0 <= r < n) by (subst r; apply Z.mod_pos_bound; lia).
  rewrite (sumZ_split 0 r n) by lia. rewrite (sumZ_split 0 (n - r) n h) by lia.
  rewrite (sumZ_ext 0 r _ (fun j => h (j - r + n))).
  2:{ intros j Hj. f_equal. rewrite <- Zminus_mod_idemp_r. fold r.
      apply mod_wrap; lia. }
  rewrite (sumZ_ext r n _ (fun j => h (j - r))).
  2:{ intros j Hj. f_equal. rewrite <- Zminus_mod_idemp_r. fold r. apply Z.mod_small. lia. }
  rewrite (sumZ_shift' 0 r (r - n)).
  rewrite (sumZ_ext _ _ (fun i0 => h (i0 + (r - n) - r + n)) h) by (intros; f_equal; lia).
  rewrite (sumZ_shift' r n r).
  rewrite (sumZ_ext _ _ (fun i0 => h (i0 + r - r)) h) by (intros; f_equal; lia).
  replace (0 - (r - n)) with (n - r) by lia. replace (r - (r - n)) with n by lia. replace (r - r) with 0 by lia. ring.
Qed.
Lemma dft_circ f g k : dft (circ f g) k = rmul (dft f k) (dft g k).
Proof.
  unfold dft, circ.
  rewrite (sumZ_ext 0 n _ (fun j => sumZ 0 n (fun i => rmul (rmul (f i) (w (i * k))) (rmul (g ((j - i) mod n)) (w (((j - i) mod n) * k)))))).
  2:{ intros j Hj. rewrite <- sumZ_scale_r. apply sumZ_ext. intros i Hi.
      assert (E : w (j * k) = rmul (w (i * k)) (w ((j - i) mod n * k))).
      { rewrite <- w_add. rewrite <- (w_mod (j * k)), <- (w_mod (i * k + _)). f_equal.
        rewrite <- (Zplus_mod_idemp_r ((j - i) mod n * k)). rewrite Zmult_mod_idemp_l. rewrite Zplus_mod_idemp_r. f_equal. ring. }
      rewrite E. ring. }
  rewrite sumZ_swap. rewrite <- sumZ_scale_r. apply sumZ_ext. intros i Hi.
  rewrite sumZ_scale. f_equal. exact (shift_mod_sum (fun x => rmul (g x) (w (x * k))) i).
Qed.
Lemma idft_mul_is_circ f g j : 0 <= j < n -> idft (fun k => rmul (dft f k) (dft g k)) j = circ f g j.
Proof.
  intros Hj. rewrite <- (idft_dft (circ f g) j Hj). apply idft_ext. intros k Hk. symmetry. apply dft_circ.
Qed.
(** without wrap-around: supports [0,a) and [0,b) with a + b - 1 <= n *)
Lemma circ_linear f g a b j : 0 <= a -> 0 <= b -> a + b - 1 <= n -> a <= n -> b <= n ->
  (forall i, ~ (0 <= i < a) -> f i = r0) -> (forall i, ~ (0 <= i < b) -> g i = r0) -> 0 <= j < n ->
  circ f g j = sumZ 0 a (fun i => rmul (f i) (g (j - i))).
Proof.
  intros Ha Hb Hab Han Hbn Hf Hg Hj. unfold circ.
  rewrite (sumZ_restrict 0 n 0 a).
  2:{ intros i Hi Hni. rewrite Hf by lia. ring. }
  2:{ intros i Hi Hni. lia. }
  apply sumZ_ext. intros i Hi. f_equal.
  destruct (Z_lt_ge_dec (j - i) 0).
  - rewrite (Hg (j - i)) by lia. apply Hg.
    assert (E : (j - i) mod n = j - i + n).
    { apply mod_wrap; lia. }
    rewrite E. lia.
  - rewrite Z.mod_small by lia. reflexivity.
Qed.
End Dft.
