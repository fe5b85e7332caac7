(** Linear least squares: for every system some x minimises |A x - b|^2.  Columns are functions of the row index;
    m rows. *)
From Coq Require Import ZArith List Bool Lia Reals Lra.
From Verif Require Import Base BaseFacts Complex.
From Coq Require Import ZifyBool ZifyNat.
Open Scope Z_scope.

Notation sumR := (sumZ (K := Rring)).
Lemma sumR_ext lo hi F G : (forall i, lo <= i < hi -> F i = G i) -> sumR lo hi F = sumR lo hi G.
Proof. apply sumZ_ext. Qed.
Lemma sumR_add lo hi (F G : Z -> R) : sumR lo hi (fun i => F i + G i)%R = (sumR lo hi F + sumR lo hi G)%R.
Proof. exact (sumZ_add (K := Rring) lo hi F G). Qed.
Lemma sumR_sub lo hi (F G : Z -> R) : sumR lo hi (fun i => F i - G i)%R = (sumR lo hi F - sumR lo hi G)%R.
Proof. exact (sumZ_sub (K := Rring) lo hi F G). Qed.
Lemma sumR_scale lo hi c (F : Z -> R) : sumR lo hi (fun i => c * F i)%R = (c * sumR lo hi F)%R.
Proof. exact (sumZ_scale (K := Rring) lo hi c F). Qed.
Lemma sumR_last lo hi (F : Z -> R) : lo <= hi -> sumR lo (hi + 1) F = (sumR lo hi F + F hi)%R.
Proof. exact (sumZ_last (K := Rring) lo hi F). Qed.
Lemma sumR_zero lo hi (F : Z -> R) : (forall i, lo <= i < hi -> F i = 0%R) -> sumR lo hi F = 0%R.
Proof. exact (sumZ_zero (K := Rring) lo hi F). Qed.
Lemma sumR_swap a b c d (h : Z -> Z -> R) : sumR a b (fun i => sumR c d (h i)) = sumR c d (fun j => sumR a b (fun i => h i j)).
Proof. exact (sumZ_swap (K := Rring) a b c d h). Qed.
Lemma sumR_nonneg m (F : Z -> R) : 0 <= m -> (forall i, 0 <= i < m -> (0 <= F i)%R) -> (0 <= sumR 0 m F)%R.
Proof.
  intros Hm. revert m Hm. apply (natlike_ind (fun m => (forall i, 0 <= i < m -> (0 <= F i)%R) -> (0 <= sumR 0 m F)%R)); [intros _; rewrite sumR_zero; [lra|lia]|].
  intros m Hm IH H. unfold Z.succ. rewrite sumR_last by lia. pose proof (IH ltac:(intros; apply H; lia)). pose proof (H m ltac:(lia)). lra.
Qed.
Lemma sumR_le m (F G : Z -> R) : 0 <= m -> (forall i, 0 <= i < m -> (F i <= G i)%R) -> (sumR 0 m F <= sumR 0 m G)%R.
Proof. intros Hm H. pose proof (sumR_nonneg m (fun i => G i - F i)%R Hm) as P. rewrite sumR_sub in P. assert (0 <= sumR 0 m G - sumR 0 m F)%R by (apply P; intros i Hi; specialize (H i Hi); lra). lra. Qed.
Lemma sumR_sq_zero m (F : Z -> R) : 0 <= m -> sumR 0 m (fun i => F i * F i)%R = 0%R -> forall i, 0 <= i < m -> F i = 0%R.
Proof.
  intros Hm. revert m Hm. apply (natlike_ind (fun m => sumR 0 m (fun i => F i * F i)%R = 0%R -> forall i, 0 <= i < m -> F i = 0%R)); [lia|].
  intros m Hm IH. unfold Z.succ. rewrite sumR_last by lia. intros H i Hi. pose proof (sumR_nonneg m (fun i => F i * F i)%R Hm ltac:(intros; nra)) as P. assert (Fm : (0 <= F m * F m)%R) by nra.
  destruct (Z.eq_dec i m) as [->|Ne]; [nra|]. apply IH; [lra|lia].
Qed.

Definition dot (m : Z) (u v : Z -> R) : R := sumR 0 m (fun i => u i * v i)%R.
Lemma dot_ext m u v u' v' : (forall i, 0 <= i < m -> u i = u' i) -> (forall i, 0 <= i < m -> v i = v' i) -> dot m u v = dot m u' v'.
Proof. intros H1 H2. apply sumR_ext. intros i Hi. now rewrite H1, H2. Qed.
Lemma dot_sym m u v : dot m u v = dot m v u.
Proof. apply sumR_ext. intros i _. apply Rmult_comm. Qed.
Lemma dot_sub m u v t w : dot m (fun i => u i - t * v i)%R w = (dot m u w - t * dot m v w)%R.
Proof. unfold dot. rewrite <- sumR_scale, <- sumR_sub. apply sumR_ext. intros i _. match goal with |- ?l = ?r => change (@eq R l r) end. ring. Qed.
Lemma dot_add m u v t w : dot m (fun i => u i + t * v i)%R w = (dot m u w + t * dot m v w)%R.
Proof. unfold dot. rewrite <- sumR_scale, <- sumR_add. apply sumR_ext. intros i _. match goal with |- ?l = ?r => change (@eq R l r) end. ring. Qed.
(** linear combination of the first n columns *)
Definition comb (col : Z -> Z -> R) (n : Z) (x : Z -> R) (i : Z) : R := sumR 0 n (fun k => x k * col k i)%R.
Lemma dot_comb m col n x e : (forall k, 0 <= k < n -> dot m e (col k) = 0%R) -> dot m e (comb col n x) = 0%R.
Proof.
  intros H. unfold dot, comb. transitivity (sumR 0 m (fun i => sumR 0 n (fun k => x k * (e i * col k i)))%R).
  - apply sumR_ext. intros i _. rewrite <- sumR_scale. apply sumR_ext. intros k _. match goal with |- ?l = ?r => change (@eq R l r) end. ring.
  - rewrite sumR_swap. apply sumR_zero. intros k Hk. rewrite sumR_scale. specialize (H k Hk). unfold dot in H. rewrite H. ring.
Qed.
(** the normal equations always have a solution *)
Lemma normal_equations m (col : Z -> Z -> R) (n : nat) : 0 <= m -> forall b, {x : Z -> R | forall k, 0 <= k < Z.of_nat n -> dot m (fun i => b i - comb col (Z.of_nat n) x i)%R (col k) = 0%R}.
Proof.
  intros Hm. induction n as [|n IH]; intros b; [exists (fun _ => 0%R); lia|].
  destruct (IH (col (Z.of_nat n))) as [y Hy]. destruct (IH b) as [x Hx]. set (N := Z.of_nat n) in *. set (c := col N) in *.
  set (r := fun i => (c i - comb col N y i)%R) in *. set (e := fun i => (b i - comb col N x i)%R) in *.
  replace (Z.of_nat (S n)) with (N + 1) by lia.
  assert (Hc : forall i, 0 <= i < m -> c i = (r i + 1 * comb col N y i)%R) by (intros i _; unfold r; ring).
  destruct (Req_EM_T (dot m r r) 0) as [E|E].
  - exists (fun k => if k =? N then 0%R else x k).
    assert (Ec : forall i, comb col (N + 1) (fun k => if k =? N then 0%R else x k) i = comb col N x i).
    { intros i. unfold comb. rewrite sumR_last by lia. rewrite Z.eqb_refl. rewrite (sumR_ext 0 N _ (fun k => x k * col k i)%R); [lra|]. intros k Hk. now replace (k =? N) with false by lia. }
    intros k Hk. rewrite (dot_ext m _ (col k) e (col k)); [|intros i _; unfold e; now rewrite Ec|reflexivity].
    destruct (Z.eq_dec k N) as [->|Ne]; [|apply Hx; lia]. fold c.
    rewrite (dot_ext m e c e (comb col N y)); [|reflexivity|intros i Hi; rewrite Hc by exact Hi; rewrite (sumR_sq_zero m r Hm E i Hi); ring]. now apply dot_comb.
  - set (t := (dot m e r / dot m r r)%R). exists (fun k => if k =? N then t else (x k - t * y k)%R).
    assert (Ec : forall i, (b i - comb col (N + 1) (fun k => if k =? N then t else x k - t * y k)%R i = e i - t * r i)%R).
    { intros i. unfold comb at 1. rewrite sumR_last by lia. rewrite Z.eqb_refl. rewrite (sumR_ext 0 N _ (fun k => x k * col k i - t * (y k * col k i))%R); [|intros k Hk; replace (k =? N) with false by lia; match goal with |- ?l = ?r => change (@eq R l r) end; ring].
      rewrite sumR_sub, sumR_scale. unfold e, r. fold c. unfold comb. lra. }
    assert (Hlow : forall k, 0 <= k < N -> dot m (fun i => e i - t * r i)%R (col k) = 0%R) by (intros k Hk; rewrite dot_sub, (Hx k Hk), (Hy k Hk); ring).
    intros k Hk. rewrite (dot_ext m _ (col k) (fun i => e i - t * r i)%R (col k)); [|intros i _; apply Ec|reflexivity].
    destruct (Z.eq_dec k N) as [->|Ne]; [|apply Hlow; lia]. fold c.
    rewrite (dot_ext m _ c (fun i => e i - t * r i)%R (fun i => r i + 1 * comb col N y i)%R); [|reflexivity|exact Hc]. rewrite dot_sym, dot_add. rewrite !(dot_sym m _ (fun i => e i - t * r i)%R). rewrite (dot_comb m col N y _ Hlow). rewrite dot_sub. unfold t. field. exact E.
Qed.
Lemma normal_minimises m col n x b : 0 <= m -> (forall k, 0 <= k < n -> dot m (fun i => b i - comb col n x i)%R (col k) = 0%R) ->
  forall x', (sumR 0 m (fun i => Rsqr (comb col n x i - b i)) <= sumR 0 m (fun i => Rsqr (comb col n x' i - b i)))%R.
Proof.
  intros Hm H x'. set (e := fun i => (b i - comb col n x i)%R) in *. set (d := fun i => (comb col n x i - comb col n x' i)%R).
  assert (D : forall i, d i = comb col n (fun k => x k - x' k)%R i). { intros i. unfold d, comb. rewrite <- sumR_sub. apply sumR_ext. intros k _. match goal with |- ?l = ?r => change (@eq R l r) end. ring. }
  assert (O : dot m e d = 0%R) by (rewrite (dot_ext m e d e (comb col n (fun k => x k - x' k)%R)); [now apply dot_comb|reflexivity|intros; apply D]).
  assert (Q : sumR 0 m (fun i => Rsqr (comb col n x' i - b i)) = (sumR 0 m (fun i => Rsqr (comb col n x i - b i)) + 2 * dot m e d + sumR 0 m (fun i => d i * d i))%R).
  { unfold dot. rewrite <- sumR_scale, <- !sumR_add. apply sumR_ext. intros i _. match goal with |- ?l = ?r => change (@eq R l r) end. unfold e, d, Rsqr. ring. }
  rewrite Q, O. pose proof (sumR_nonneg m (fun i => d i * d i)%R Hm ltac:(intros; nra)). lra.
Qed.
