(** Interpolation and resampling with different element types do what they do for one element type to the operands
    converted to it. *)
From Coq Require Import Reals List FunctionalExtensionality.
From Verif Require Import Base BaseFacts IntervalModel RationalModel KernelModel KernelProofs ConvModel FirModel PolyphaseModel ResampleModel Complex FunctionModel MixedConvProofs MixedResampleModel.
From Coq Require Import ZifyBool ZifyNat.
Ltac Zify.zify_post_hook ::= Z.div_mod_to_equations.
Open Scope Z_scope.

Definition view_map {B K : Type} (e : B -> K) (v : pview B) : pview K := mkView (map e (vbuffer v)) (vcount v).
Lemma view_at_map {B K : Type} (e : B -> K) v i : view_at (view_map e v) i = omap (map e) (view_at v i).
Proof.
  unfold view_at, view_map. cbn [vbuffer vcount]. rewrite lenZ_map'. destruct (subsignal_location _ _ _) as [[o s]| |]; cbn [bind]; try reflexivity.
  apply slice_map.
Qed.
Lemma size_per_phase_map {B K : Type} (e : B -> K) v : size_per_phase (view_map e v) = size_per_phase v.
Proof. unfold size_per_phase, view_map. cbn [vbuffer vcount]. now rewrite lenZ_map'. Qed.
Lemma size_original_map {B K : Type} (e : B -> K) v : size_original (view_map e v) = size_original v.
Proof. unfold size_original, view_map. cbn [vbuffer]. apply lenZ_map'. Qed.
Lemma num_phases_map {B K : Type} (e : B -> K) v : num_phases (view_map e v) = num_phases v.
Proof. reflexivity. Qed.

Lemma for_ext {St} lo hi step (b b' : Z -> St -> outcome St) s : (forall i s, b i s = b' i s) -> for_ lo hi step b s = for_ lo hi step b' s.
Proof.
  intros H. unfold for_. generalize (trips lo hi step) as k. intros k. revert lo s. induction k; intros lo s; [reflexivity|].
  cbn [loop]. rewrite H. destruct (b' lo s); [apply IHk|reflexivity|reflexivity].
Qed.
Section G.
Context {A B A' B' O : Type} (eA : A -> A') (eB : B -> B') (dot : list A -> list B -> outcome O) (dot' : list A' -> list B' -> outcome O).
Hypothesis (Hdot : forall a b, dot' (map eA a) (map eB b) = dot a b).

Lemma bind_omap {X Y Z'} (g : X -> Y) (m : outcome X) (k : X -> outcome Z') (k' : Y -> outcome Z') : (forall x, k' (g x) = k x) -> bind (omap g m) k' = bind m k.
Proof. intros H. destruct m; cbn; [apply H|reflexivity|reflexivity]. Qed.
Lemma bind_ext {X Z'} (m : outcome X) (k k' : X -> outcome Z') : (forall x, k' x = k x) -> bind m k' = bind m k.
Proof. intros H. destruct m; cbn; [apply H|reflexivity|reflexivity]. Qed.
Lemma interp_into_sim out x v off : gInterpolateInto dot' out (map eA x) (view_map eB v) off = gInterpolateInto dot out x v off.
Proof.
  unfold gInterpolateInto. rewrite size_original_map, num_phases_map, size_per_phase_map, lenZ_map'. cbv zeta.
  apply bind_ext. intros ps. unfold assert_. destruct (_ <=? _); [|reflexivity].
  match goal with |- bind (for_ ?lo ?hi ?st ?b' ?s) ?k = bind (for_ _ _ _ ?b _) _ => replace (for_ lo hi st b' s) with (for_ lo hi st b s) end; [reflexivity|].
  apply for_ext. intros i o. symmetry. rewrite view_at_map. apply bind_omap. intros ph. rewrite lenZ_map'.
  destruct (0 <? _); [|reflexivity]. rewrite slice_map. apply bind_omap. intros a. rewrite slice_map. apply bind_omap. intros b. now rewrite Hdot.
Qed.
Lemma dps_sim x h k : gDotProductSample dot' (map eA x) (map eB h) k = gDotProductSample dot x h k.
Proof.
  unfold gDotProductSample. rewrite !lenZ_map'. cbv zeta. unfold assert_. destruct (0 <=? _); [|reflexivity].
  rewrite slice_map. apply bind_omap. intros a. rewrite slice_map. apply bind_omap. intros b. now rewrite Hdot.
Qed.
Lemma resample_into_sim M (fadd fmul fdivide : O -> O -> O) ofsize out x v r s :
  gResampleInto M fadd fmul fdivide ofsize dot' out (map eA x) (view_map eB v) r s = gResampleInto M fadd fmul fdivide ofsize dot out x v r s.
Proof.
  unfold gResampleInto. rewrite size_original_map, num_phases_map, lenZ_map'.
  apply bind_ext. intros g1. unfold assert_. destruct g1; [|reflexivity]. apply bind_ext. intros g2. destruct g2; [|reflexivity].
  destruct (0 <? _); [|reflexivity]. apply bind_ext. intros q. apply bind_ext. intros e. apply bind_ext. intros g3. destruct g3; [|reflexivity].
  match goal with |- bind (for_ ?lo ?hi ?st ?b' ?s) ?k = bind (for_ _ _ _ ?b _) _ => replace (for_ lo hi st b' s) with (for_ lo hi st b s) end; [reflexivity|].
  apply for_ext. intros i [o oi]. symmetry. apply bind_ext. intros d. apply bind_ext. intros ix. apply bind_ext. intros [l1 l2].
  rewrite view_at_map. apply bind_omap. intros p1. rewrite dps_sim. apply bind_ext. intros v1.
  rewrite view_at_map. apply bind_omap. intros p2. rewrite dps_sim. apply bind_ext. intros v2. reflexivity.
Qed.
End G.

(** DotProduct of two types is DotProduct of the converted operands *)
Section Dot.
Context {A B : Type} {K : CRing} (eA : A -> K) (eB : B -> K) (mulconj : A -> B -> K).
Hypothesis (Hm : forall a b, mulconj a b = rmul (eA a) (eB b)).
Lemma dot_sim W vec a b : DotProduct W vec (map eA a) (map eB b) = DotProductBy W vec mulconj a b.
Proof.
  unfold DotProduct, DotProductBy. rewrite !lenZ_map'. unfold assert_. destruct (_ =? _); [|reflexivity].
  unfold InnerProduct, InnerProductWith. rewrite lenZ_map'.
  assert (S : forall i, (do x <- rd (map eA a) i; do y <- rd (map eB b) i; Ok (rmul x y)) = (do x <- rd a i; do y <- rd b i; Ok (mulconj x y))).
  { intros i. rewrite rd_map. apply bind_omap. intros x. rewrite rd_map. apply bind_omap. intros y. now rewrite Hm. }
  assert (V : forall i, (do v <- slice (map eA a) i W; do w <- slice (map eB b) i W; Ok (map2 rmul v w)) = (do v <- slice a i W; do w <- slice b i W; Ok (map2 mulconj v w))).
  { intros i. rewrite slice_map. apply bind_omap. intros x. rewrite slice_map. apply bind_omap. intros y. f_equal.
    rewrite <- (map_id (map2 mulconj x y)). symmetry. apply map_map2. exact Hm. }
  f_equal; apply functional_extensionality; assumption.
Qed.
Lemma minterp_into_sim W vec out x v off : InterpolateInto W vec out (map eA x) (view_map eB v) off = mInterpolateInto mulconj W vec out x v off.
Proof. apply interp_into_sim. intros. apply dot_sim. Qed.
Lemma minterp_sim W vec x v off len : Interpolate W vec (map eA x) (view_map eB v) off len = mInterpolate mulconj W vec x v off len.
Proof. unfold Interpolate, mInterpolate. now rewrite minterp_into_sim. Qed.
End Dot.
Section DotF.
Context {A B : Type} {F : CField} (eA : A -> F) (eB : B -> F) (mulconj : A -> B -> F).
Hypothesis (Hm : forall a b, mulconj a b = rmul (eA a) (eB b)).
Variable M : Z.
Lemma mresample_into_sim W vec out x v r s : ResampleInto M W vec out (map eA x) (view_map eB v) r s = mResampleInto M mulconj W vec out x v r s.
Proof. apply resample_into_sim. intros. now apply dot_sim. Qed.
Lemma mresample_sim W vec x v r s len : Resample M W vec (map eA x) (view_map eB v) r s len = mResample M mulconj W vec x v r s len.
Proof. unfold Resample, mResample. now rewrite mresample_into_sim. Qed.
Lemma mresample_central_sim W vec x v r : ResampleCentral M W vec (map eA x) (view_map eB v) r = mResampleCentral M mulconj W vec x v r.
Proof.
  unfold ResampleCentral, mResampleCentral. rewrite size_original_map, num_phases_map, lenZ_map'.
  repeat (apply bind_ext; intros ?). apply mresample_sim.
Qed.
Lemma mresample_full_sim W vec x v r : ResampleFull M W vec (map eA x) (view_map eB v) r = mResampleFull M mulconj W vec x v r.
Proof.
  unfold ResampleFull, mResampleFull. rewrite size_original_map, num_phases_map, lenZ_map'.
  repeat (apply bind_ext; intros ?). apply mresample_sim.
Qed.
End DotF.

(** decomposition commutes with a conversion that respects products and integers *)
Section Dec.
Context {KB K : CRing} (eB : KB -> K).
Hypothesis (Hmul : forall a b, eB (rmul a b) = rmul (eB a) (eB b)) (Hnat : forall n, eB (ofnat n) = ofnat n).
Lemma decompose_sim W vec (h : list KB) P : 1 <= W -> PolyphaseDecompose W vec (map eB h) P = omap (view_map eB) (PolyphaseDecompose W vec h P).
Proof.
  intros HW. unfold PolyphaseDecompose, PolyphaseDecomposeInto, gPolyphaseDecomposeInto. rewrite !lenZ_map', map_length.
  replace (repeat r0 (length h)) with (map eB (repeat r0 (length h))) by (rewrite repeat_map; f_equal; exact (Hnat 0)).
  rewrite !lenZ_map'. unfold assert_. destruct (_ =? _); [|reflexivity].
  rewrite (omap_for (map eB) _ _ _ (fun phaseIdx out =>
     do (offset, size) <- subsignal_location (lenZ out) P phaseIdx;
     do out0 <- for_ 0 size 1 (fun coeffIdx out0 => do x <- rd h (phaseIdx + coeffIdx * P); wr out0 (offset + (size - 1 - coeffIdx)) x) out;
     on_window out0 offset size (fun w => sig_scalar_inplace W vec rmul w (ofnat P)))).
  - apply omap_bind. intros x. reflexivity.
  - intros i s. rewrite lenZ_map'. destruct (subsignal_location _ _ _) as [[o n]| |]; try reflexivity. cbn [bind].
    rewrite (omap_for (map eB) _ _ _ (fun coeffIdx out0 => do x <- rd h (i + coeffIdx * P); wr out0 (o + (n - 1 - coeffIdx)) x)).
    + apply omap_bind. intros x. unfold on_window. rewrite slice_map. apply omap_bind. intros w.
      rewrite !sig_scalar_inplace_ok by exact HW. cbn [bind].
      replace (map (fun x0 => rmul x0 (ofnat P)) (map eB w)) with (map eB (map (fun x0 => rmul x0 (ofnat P)) w)); [apply wrs_map|].
      rewrite !map_map. apply map_ext. intros a. now rewrite Hmul, Hnat.
    + intros c x. rewrite rd_map. apply omap_bind. intros y. apply wr_map.
Qed.
End Dec.
