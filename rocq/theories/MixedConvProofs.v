(** The kernels for operands of different element types do what the kernels for one element type do to the
    operands converted to it. *)
From Coq Require Import List.
From Verif Require Import Base BaseFacts IntervalModel KernelModel ConvModel FirModel MixedConvModel.
From Coq Require Import ZifyBool ZifyNat.
Ltac Zify.zify_post_hook ::= Z.div_mod_to_equations.
Open Scope Z_scope.

Definition omap {A B} (f : A -> B) (m : outcome A) : outcome B := do x <- m; Ok (f x).
Lemma omap_bind {A B C D} (g : A -> B) (h : C -> D) (m : outcome A) (k : A -> outcome C) (k' : B -> outcome D) :
  (forall x, k' (g x) = omap h (k x)) -> bind (omap g m) k' = omap h (bind m k).
Proof. intros H. destruct m; cbn; [apply H|reflexivity|reflexivity]. Qed.
Lemma omap_if {A B} (g : A -> B) (b : bool) m1 m2 : (if b then omap g m1 else omap g m2) = omap g (if b then m1 else m2).
Proof. now destruct b. Qed.
Lemma omap_for {A B} (g : A -> B) lo hi step body body' s : (forall i s, body' i (g s) = omap g (body i s)) ->
  for_ lo hi step body' (g s) = omap g (for_ lo hi step body s).
Proof.
  intros H. unfold for_. generalize (trips lo hi step) as k. intros k. revert lo s. induction k; intros lo s; [reflexivity|].
  cbn [loop]. rewrite H. apply omap_bind. intros s'. apply IHk.
Qed.
Lemma lenZ_map' {A B} (f : A -> B) l : lenZ (map f l) = lenZ l.
Proof. unfold lenZ. now rewrite map_length. Qed.
Lemma rd_map {A B} (f : A -> B) l i : rd (map f l) i = omap f (rd l i).
Proof. unfold rd, nthZ. destruct (i <? 0); [reflexivity|]. rewrite nth_error_map. now destruct (nth_error l (Z.to_nat i)). Qed.
Lemma slice_map {A B} (f : A -> B) l i n : slice (map f l) i n = omap (map f) (slice l i n).
Proof. unfold slice. rewrite lenZ_map'. destruct (_ && _); [|reflexivity]. cbn. now rewrite skipn_map, firstn_map. Qed.
Lemma wr_map {A B} (f : A -> B) l i v : wr (map f l) i (f v) = omap (map f) (wr l i v).
Proof. unfold wr. rewrite lenZ_map'. destruct (_ && _); [|reflexivity]. cbn. unfold updZ. rewrite map_app. cbn [map]. now rewrite skipn_map, firstn_map. Qed.
Lemma wrs_map {A B} (f : A -> B) l i vs : wrs (map f l) i (map f vs) = omap (map f) (wrs l i vs).
Proof. unfold wrs. rewrite !lenZ_map'. destruct (_ && _); [|reflexivity]. cbn. now rewrite !map_app, skipn_map, firstn_map. Qed.
Lemma repeat_map {A B} (f : A -> B) z n : map f (repeat z n) = repeat (f z) n.
Proof. induction n; cbn; [reflexivity|]. now rewrite IHn. Qed.
Lemma map_map2 {A B C A' B' C'} (fA : A -> A') (fB : B -> B') (fC : C -> C') op op' : (forall a b, fC (op a b) = op' (fA a) (fB b)) ->
  forall l m, map fC (map2 op l m) = map2 op' (map fA l) (map fB m).
Proof. intros H. induction l; intros [|b m]; cbn; try reflexivity. f_equal; [apply H|apply IHl]. Qed.
Lemma map2_ext' {A B C} (f g : A -> B -> C) : (forall a b, f a b = g a b) -> forall l m, map2 f l m = map2 g l m.
Proof. intros H. induction l; intros [|b m]; cbn; try reflexivity. f_equal; [apply H|apply IHl]. Qed.

Section Sim.
Context {K : CRing} {O : Type} (eO : O -> K) (zO : O) (add sub : O -> O -> O).
Add Ring Kr : (rth K).
Hypothesis (HzO : eO zO = r0) (Hadd : forall x y, eO (add x y) = radd (eO x) (eO y)) (Hsub : forall x y, eO (sub x y) = rsub (eO x) (eO y)).
Notation eOl := (map eO).

Lemma naive_sim {A B} (eA : A -> K) (eB : B -> K) (mul : A -> B -> O) (Hmul : forall a b, eO (mul a b) = rmul (eA a) (eB b)) u v out n acc :
  ConvolutionNaive (map eA u) (map eB v) (eOl out) n acc = omap eOl (mConvolutionNaive zO add mul u v out n acc).
Proof.
  unfold ConvolutionNaive, gConvolutionNaive, mConvolutionNaive. rewrite !lenZ_map'. cbv zeta. apply omap_for. intros k s.
  replace (if acc then rd (eOl s) k else Ok r0) with (omap eO (if acc then rd s k else Ok zO)).
  2:{ rewrite <- omap_if. destruct acc; [now rewrite rd_map|]. cbn. now rewrite HzO. }
  apply omap_bind. intros a0. rewrite (omap_for eO _ _ _ (fun m acc => do x <- rd u m; do y <- rd v (n + k - m); Ok (add acc (mul x y)))).
  - apply omap_bind. intros a. apply wr_map.
  - intros i a. rewrite !rd_map. apply omap_bind. intros x. apply omap_bind. intros y. cbn. now rewrite Hadd, Hmul.
Qed.

Lemma transform_sim {B} (eB : B -> K) W vec out po (v : list B) p2 count (f : O -> B -> O) (f' : K -> K -> K) :
  (forall a b, eO (f a b) = f' (eO a) (eB b)) ->
  Transform2With W vec (eOl out) (Self po) (Other (map eB v) p2) po count f' f' = omap eOl (mTransformInOut W vec out po v p2 count f).
Proof.
  intros H. unfold Transform2With, mTransformInOut. cbv zeta.
  replace (if vec then for_ 0 (if vec then count / W * W else 0) W
      (fun i out0 => do v1 <- src_load out0 (Self po) i W; do v2 <- src_load out0 (Other (map eB v) p2) i W; wrs out0 (po + i) (map2 f' v1 v2)) (eOl out) else Ok (eOl out))
   with (omap eOl (if vec then for_ 0 (if vec then count / W * W else 0) W
      (fun i out0 => do v1 <- slice out0 (po + i) W; do v2 <- slice v (p2 + i) W; wrs out0 (po + i) (map2 f v1 v2)) out else Ok out)).
  2:{ rewrite <- omap_if. destruct vec; [|reflexivity]. symmetry. apply omap_for. intros i s. cbn [src_load]. rewrite slice_map. apply omap_bind. intros v1.
      rewrite slice_map. apply omap_bind. intros v2. rewrite <- (map_map2 eO eB eO f f' H). apply wrs_map. }
  apply omap_bind. intros o. apply omap_for. intros i s. cbn [src_rd]. rewrite rd_map. apply omap_bind. intros x.
  rewrite rd_map. apply omap_bind. intros y. rewrite <- H. apply wr_map.
Qed.
Lemma slide_body_sim {A B} (eA : A -> K) (eB : B -> K) (mul : A -> B -> O) (Hmul : forall a b, eO (mul a b) = rmul (eA a) (eB b)) W vec u v out n acc :
  SlideBody W vec (map eA u) (map eB v) (eOl out) n acc = omap eOl (mSlideBody zO add mul W vec u v out n acc).
Proof.
  unfold SlideBody, gSlideBody, mSlideBody. rewrite !lenZ_map'. cbv zeta.
  replace (if acc then eOl out else repeat r0 (length (eOl out))) with (eOl (if acc then out else repeat zO (length out))).
  2:{ destruct acc; [reflexivity|]. now rewrite repeat_map, HzO, map_length. }
  apply omap_for. intros f s. rewrite rd_map. apply omap_bind. intros m.
  apply transform_sim. intros a b. rewrite Hadd, Hmul. unfold gconvolution_fma, exact_fma. ring.
Qed.
Lemma slide_sim_ fuel : forall {A B} (eA : A -> K) (eB : B -> K) (mul : A -> B -> O) (Hmul : forall a b, eO (mul a b) = rmul (eA a) (eB b)) W vec u v out n acc,
  gConvolutionSlide_ r0 exact_fma exact_fma fuel W vec (map eA u) (map eB v) (eOl out) n acc = omap eOl (mConvolutionSlide_ zO add fuel mul W vec u v out n acc).
Proof.
  induction fuel as [|fuel IH]; intros A B eA eB mul Hmul W vec u v out n acc; cbn [gConvolutionSlide_ mConvolutionSlide_]; rewrite !lenZ_map'.
  - pose proof (slide_body_sim eA eB mul Hmul W vec u v out n acc) as S. unfold SlideBody in S. rewrite S.
    destruct (512 <? _), (lenZ u <? lenZ v), (lenZ v <? lenZ u); reflexivity.
  - pose proof (slide_body_sim eA eB mul Hmul W vec u v out n acc) as S. unfold SlideBody in S. rewrite S.
    rewrite (IH B A eB eA (fun b a => mul a b)) by (intros; rewrite Hmul; ring).
    destruct (512 <? _), (lenZ u <? lenZ v), (lenZ v <? lenZ u); reflexivity.
Qed.

Lemma term_sim {A B} (eA : A -> K) (eB : B -> K) (mul : A -> B -> O) (Hmul : forall a b, eO (mul a b) = rmul (eA a) (eB b)) W a p1 b p2 :
  grl_term rmul W (map eA a) p1 (map eB b) p2 = omap eOl (mrl_term mul W a p1 b p2).
Proof.
  unfold grl_term, mrl_term. rewrite rd_map. apply omap_bind. intros x. rewrite slice_map. apply omap_bind. intros y.
  cbn. f_equal. rewrite !map_map. apply map_ext. intros z. now rewrite Hmul.
Qed.
Lemma map2_add l m : eOl (map2 add l m) = map2 radd (eOl l) (eOl m).
Proof. apply map_map2. exact Hadd. Qed.
Lemma map2_sub l m : eOl (map2 sub l m) = map2 rsub (eOl l) (eOl m).
Proof. apply map_map2. exact Hsub. Qed.
Definition pair_map {A B C D} (f : A -> C) (g : B -> D) (p : A * B) : C * D := (f (fst p), g (snd p)).
Lemma reduce_loop_sim {A B} (eA : A -> K) (eB : B -> K) (mul : A -> B -> O) (Hmul : forall a b, eO (mul a b) = rmul (eA a) (eB b)) W comp a p1 b p2 init count :
  ConvolutionReduceLoop W comp (map eA a) p1 (map eB b) p2 (eOl init) count = omap eOl (mConvolutionReduceLoop zO add sub mul W comp a p1 b p2 init count).
Proof.
  unfold ConvolutionReduceLoop, gConvolutionReduceLoop, mConvolutionReduceLoop. cbv zeta.
  pose proof (term_sim eA eB mul Hmul W a) as T.
  match goal with |- bind ?m ?k = omap _ (bind ?m2 ?k2) => replace m with (omap (pair_map eOl (fun i : Z => i)) m2) end.
  2:{ rewrite <- omap_if. destruct (Z.odd count); [|reflexivity]. rewrite T. symmetry. apply omap_bind. intros v1. cbn. now rewrite <- map2_add. }
  apply omap_bind. intros [i0 x0]. cbn [pair_map fst snd].
  match goal with |- bind ?m ?k = omap _ (bind ?m2 ?k2) => replace m with (omap (pair_map eOl (fun i : Z => i)) m2) end.
  2:{ rewrite <- omap_if. destruct (Z.testbit count 1); [|reflexivity]. rewrite T. symmetry. apply omap_bind. intros v1. rewrite T. apply omap_bind. intros v2.
      cbn. now rewrite <- !map2_add. }
  apply omap_bind. intros [i1 x1]. cbn [pair_map fst snd].
  match goal with |- bind (for_ ?lo ?hi ?st ?body' ?s') ?k = omap _ (bind (for_ _ _ _ ?body ?s) ?k2) =>
    replace (for_ lo hi st body' s') with (omap (pair_map eOl eOl) (for_ lo hi st body s)) end.
  2:{ symmetry. replace (repeat r0 (Z.to_nat W), eOl i1) with (pair_map eOl eOl (repeat zO (Z.to_nat W), i1)) by (unfold pair_map; cbn; now rewrite repeat_map, HzO).
      apply omap_for. intros i [c s]. cbn [pair_map fst snd].
      do 4 (rewrite T; apply omap_bind; intros ?). cbn [omap bind]. f_equal. unfold pair_map. cbn [fst snd].
      rewrite <- !map2_add. destruct comp; unfold kahan, nocarry; cbn [fst snd].
      - now rewrite <- !map2_sub, <- !map2_add, <- !map2_sub.
      - now rewrite <- map2_add. }
  apply omap_bind. intros [c s]. reflexivity.
Qed.
Lemma padding_sim {B} (eB : B -> K) (zB : B) (HzB : eB zB = r0) W v : grv_padding r0 W (map eB v) = omap (map eB) (grv_padding zB W v).
Proof.
  unfold grv_padding. rewrite !lenZ_map'. cbv zeta. rewrite slice_map. apply omap_bind. intros f. rewrite <- HzB, <- repeat_map, wrs_map. apply omap_bind. intros p.
  rewrite slice_map. apply omap_bind. intros b. rewrite lenZ_map'. apply wrs_map.
Qed.
Lemma load_sim W junk l p c : gload_partial_front W (eOl junk) (eOl l) p c = omap eOl (gload_partial_front W junk l p c).
Proof.
  unfold gload_partial_front. destruct (c =? W); [apply slice_map|]. rewrite slice_map. apply omap_bind. intros x. cbn. now rewrite map_app, firstn_map.
Qed.
Lemma store_sim W l p v c : gstore_partial_front W (eOl l) p (eOl v) c = omap eOl (gstore_partial_front W l p v c).
Proof. unfold gstore_partial_front. destruct (c =? W); [apply wrs_map|]. rewrite slice_map. apply omap_bind. intros x. apply wrs_map. Qed.
Lemma reduce_body_sim {A B} (eA : A -> K) (eB : B -> K) (mul : A -> B -> O) (zB : B) (HzB : eB zB = r0) (Hmul : forall a b, eO (mul a b) = rmul (eA a) (eB b)) W comp junk u v out n acc :
  ReduceVecBody W comp (eOl junk) (map eA u) (map eB v) (eOl out) n acc = omap eOl (mReduceVecBody zO add sub mul zB W comp junk u v out n acc).
Proof.
  unfold ReduceVecBody, gReduceVecBody, mReduceVecBody. rewrite !lenZ_map'. cbv zeta. rewrite (padding_sim eB zB HzB). apply omap_bind. intros pad.
  apply omap_for. intros fo s. rewrite !lenZ_map'.
  match goal with |- bind ?m ?k = omap _ (bind ?m2 ?k2) => replace m with (omap eOl m2) end.
  2:{ rewrite <- omap_if. destruct acc; [symmetry; apply load_sim|]. cbn. now rewrite repeat_map, HzO. }
  pose proof (reduce_loop_sim eA eB mul Hmul W comp) as L. unfold ConvolutionReduceLoop in L.
  apply omap_bind. intros a0. rewrite L. apply omap_bind. intros a1. rewrite L. apply omap_bind. intros a2. rewrite L. apply omap_bind. intros a3. apply store_sim.
Qed.
Lemma reduce_vec_sim_ fuel : forall {A B} (eA : A -> K) (eB : B -> K) (mul : A -> B -> O) zA zB (HzA : eA zA = r0) (HzB : eB zB = r0)
  (Hmul : forall a b, eO (mul a b) = rmul (eA a) (eB b)) W comp junk u v out n acc,
  gConvolutionReduceVec_ r0 radd rsub rmul fuel W comp (eOl junk) (map eA u) (map eB v) (eOl out) n acc =
  omap eOl (mConvolutionReduceVec_ zO add sub fuel mul zA zB W comp junk u v out n acc).
Proof.
  induction fuel as [|fuel IH]; intros A B eA eB mul zA zB HzA HzB Hmul W comp junk u v out n acc; cbn [gConvolutionReduceVec_ mConvolutionReduceVec_]; rewrite !lenZ_map';
  pose proof (reduce_body_sim eA eB mul zB HzB Hmul W comp junk u v out n acc) as S; unfold ReduceVecBody in S; rewrite S.
  - destruct (lenZ v <? lenZ u); reflexivity.
  - rewrite (IH B A eB eA (fun b a => mul a b) zB zA) by (assumption || (intros; rewrite Hmul; ring)). destruct (lenZ v <? lenZ u); reflexivity.
Qed.
Section Api.
Context {A B : Type} (eA : A -> K) (eB : B -> K) (mul : A -> B -> O) (zA : A) (zB : B) (HzA : eA zA = r0) (HzB : eB zB = r0)
  (Hmul : forall a b, eO (mul a b) = rmul (eA a) (eB b)).
Lemma into_sim W1 W2 vec junk out u v offset clear :
  ConvolutionInto W1 W2 vec (eOl junk) (eOl out) (map eA u) (map eB v) offset clear = omap eOl (mConvolutionInto zO add sub mul zA zB W1 W2 vec junk out u v offset clear).
Proof.
  unfold ConvolutionInto, gConvolutionInto, mConvolutionInto. rewrite !lenZ_map'. cbv zeta. unfold assert_. destruct (_ <=? ConvolutionLength _ _ _); [|reflexivity].
  destruct (_ <=? 32); [now apply (slide_sim_ 1 eA eB mul)|now apply (reduce_vec_sim_ 1 eA eB mul zA zB)].
Qed.
Lemma at_sim W1 W2 vec junk u v offset len :
  ConvolutionAt W1 W2 vec (eOl junk) (map eA u) (map eB v) offset len = omap eOl (mConvolutionAt zO add sub mul zA zB W1 W2 vec junk u v offset len).
Proof.
  unfold ConvolutionAt, gConvolutionAt, mConvolutionAt. rewrite <- into_sim, repeat_map, HzO. reflexivity.
Qed.
Lemma conv_sim W1 W2 vec junk u v m :
  Convolution W1 W2 vec (eOl junk) (map eA u) (map eB v) m = omap eOl (mConvolution zO add sub mul zA zB W1 W2 vec junk u v m).
Proof.
  unfold Convolution, gConvolution, mConvolution. rewrite !lenZ_map'. cbv zeta. rewrite <- at_sim. reflexivity.
Qed.
Lemma shift_sim {T} (e : T -> K) (state signal : list T) : ShiftFilterState (map e state) (map e signal) = omap (map e) (ShiftFilterState state signal).
Proof.
  unfold ShiftFilterState. rewrite !lenZ_map'.
  match goal with |- bind ?m ?k = omap _ (bind ?m2 ?k2) => replace m with (omap (map e) m2) end.
  2:{ rewrite <- omap_if. destruct (_ <? _); [|reflexivity]. symmetry. apply omap_for. intros i s. rewrite rd_map. apply omap_bind. intros x. apply wr_map. }
  apply omap_bind. intros s. rewrite !lenZ_map'. apply omap_for. intros i s'. rewrite rd_map. apply omap_bind. intros x. rewrite lenZ_map'. apply wr_map.
Qed.
Lemma filter_sim W1 W2 vec junk signal filter state :
  FilterConvStateNew W1 W2 vec (eOl junk) (map eA signal) (map eB filter) (map eA state) =
  omap (pair_map eOl (map eA)) (mFilterConvStateNew zO add sub mul zA zB W1 W2 vec junk signal filter state).
Proof.
  unfold FilterConvStateNew, FilterConvState, gFilterConvState, mFilterConvStateNew. rewrite !lenZ_map', !map_length. unfold assert_.
  rewrite !lenZ_repeat, !repeat_length. replace (Z.of_nat (length signal) =? lenZ signal) with true by (unfold lenZ; lia).
  destruct (_ =? size_sub _ _); [|reflexivity]. cbv zeta.
  unfold on_window. rewrite <- HzO, <- repeat_map, slice_map.
  match goal with |- bind ?m ?k = omap _ (bind ?m2 ?k2) => replace m with (omap eOl m2) end.
  2:{ symmetry. apply omap_bind. intros w. pose proof (into_sim W1 W2 vec junk w state filter (lenZ filter - 1) false) as S. unfold ConvolutionInto in S. rewrite HzO, S.
      apply omap_bind. intros w'. apply wrs_map. }
  apply omap_bind. intros o. pose proof (into_sim W1 W2 vec junk o signal filter 0 false) as S. unfold ConvolutionInto in S. rewrite HzO, S. apply omap_bind. intros o'.
  rewrite shift_sim. apply omap_bind. intros s. reflexivity.
Qed.
End Api.
End Sim.
