(** C34, C35: resampling by a rational rate. *)
From Coq Require Import ZArith List Bool Lia QArith Qround Qcanon.
From Verif Require Import Base BaseFacts IntervalModel RationalModel RationalProofs KernelModel KernelProofs ConvModel ConvProofs FirModel PropsConv PolyphaseModel PolyphaseProofs PropsPolyphase ResampleModel ResampleProofs ResampleTotal.
From Coq Require Import ZifyBool ZifyNat.
Import ListNotations.
Ltac Zify.zify_post_hook ::= idtac.
Open Scope Z_scope.

(** ** Specification *)
(** a field in which 1 + ... + 1 is never zero, like the real and complex numbers *)
Definition char_zero (F : CField) : Prop := forall n, 0 < n -> ofnat n <> (r0 : F).
Definition ofQ {F : CField} (q : Q) : F := fdiv (ofnat (Qnum q)) (ofnat (Zpos (Qden q))).
(** sample m of the input interpolated by P (C32) *)
Definition interpolated {F : CField} (x h : list F) (P m : Z) : F := rmul (conv_at (zero_stuffed x P) h m) (ofnat P).
(** where output sample i lies in the interpolated signal *)
Definition position (rate start : Q) (P i : Z) : Q := ((start + inject_Z i) * rate * inject_Z P)%Q.
(** the straight line between the samples at the integers next to u *)
Definition between {F : CField} (sig : Z -> F) (u : Q) : F :=
  let m := Qfloor u in let t := ofQ (u - inject_Z m) in radd (rmul (rsub r1 t) (sig m)) (rmul t (sig (m + 1))).
(** length of the full convolution of the zero-stuffed input with the filter *)
Definition full_len (n l P : Z) : Z := if (n =? 0) || (l =? 0) then 0 else n * P + l - 1.

(** ** Bridges *)
Lemma full_len_eq n l P : 0 < P -> ConvolutionLength (P * n) l CONV_FULL = full_len n l P.
Proof. intros HP. unfold ConvolutionLength, full_len. replace (P * n =? 0) with (n =? 0) by (destruct (Z.eqb_spec n 0); [subst; lia|symmetry; apply Z.eqb_neq; nia]). destruct (_ || _); lia. Qed.
Lemma Qle_num u : (0 <= u)%Q -> 0 <= Qnum u. Proof. unfold Qle. cbn. lia. Qed.
Lemma frac_bounds u : (0 <= u - inject_Z (Qfloor u))%Q.
Proof. pose proof (Qfloor_le u). apply (Qplus_le_l _ _ (inject_Z (Qfloor u))). ring_simplify. exact H. Qed.
Section B.
Context {F : CField}.
Hypothesis char0 : char_zero F.
Lemma ofQ_eq p q : (0 <= p)%Q -> (p == q)%Q -> ofQ p = (ofQ q : F).
Proof. intros H E. assert (Hq : (0 <= q)%Q) by (rewrite <- E; exact H). apply (ratio_eq char0); [now apply Qle_num|lia|now apply Qle_num|lia|]. exact E. Qed.
Lemma between_blend (sig : Z -> F) u n d : 0 < d -> (u == Qmake n (Z.to_pos d))%Q -> between sig u = blend sig n d.
Proof.
  intros Hd E. unfold between, blend. assert (Ef : Qfloor u = n / d). { rewrite (Qfloor_comp _ _ E). unfold Qfloor. now rewrite Z2Pos.id by exact Hd. }
  assert (Et : ofQ (u - inject_Z (Qfloor u)) = fdiv (ofnat (n mod d)) (ofnat d : F)).
  { rewrite (ofQ_eq _ (Qmake (n mod d) (Z.to_pos d))); [unfold ofQ; cbn [Qnum Qden]; now rewrite Z2Pos.id by exact Hd|apply frac_bounds|]. rewrite Ef, E. unfold Qeq, Qminus, Qplus, Qopp, inject_Z. cbn [Qnum Qden]. rewrite !Pos2Z.inj_mul, Z2Pos.id by exact Hd.
    rewrite Z.mod_eq by lia. ring. }
  now rewrite Et, Ef.
Qed.
Lemma position_val r s P i : canonical r -> canonical s -> (position (val r) (val s) P i == Qmake ((num s + i * den s) * num r * P) (Z.to_pos (den s * den r)))%Q.
Proof.
  intros [Rd _] [Sd _]. unfold position, val, Qeq, Qmult, Qplus, inject_Z. cbn [Qnum Qden]. rewrite !Pos2Z.inj_mul. rewrite !Z2Pos.id by (try apply Z.mul_pos_pos; assumption). ring.
Qed.
Lemma at_pos_between (x h : list F) P r s i : canonical r -> canonical s -> 0 < P -> at_pos x h P r s i = between (interpolated x h P) (position (val r) (val s) P i).
Proof.
  intros Cr Cs HP. unfold at_pos. rewrite (between_blend _ _ ((num s + i * den s) * num r * P) (den s * den r)); [|destruct Cr, Cs; apply Z.mul_pos_pos; assumption|now apply position_val].
  apply blend_ext; unfold interpolated; now apply interp_spec.
Qed.
Lemma at_pos_cross (x h : list F) P r s a D i : 0 < D -> cross s a D -> 0 < den r -> at_pos x h P r s i = blend (interp x h P) ((a + i * D) * num r * P) (D * den r).
Proof.
  intros HD [[Sd _] E] Rd. unfold at_pos. apply (blend_cross char0); [apply Z.mul_pos_pos; assumption|apply Z.mul_pos_pos; assumption|]. transitivity ((num s * D + i * den s * D) * num r * P * den r); [ring|]. rewrite E. ring.
Qed.
Lemma at_pos_prefix (x h : list F) P r s n i : 0 < P -> 0 <= n <= lenZ x -> (num s + i * den s) * num r * P / (den s * den r) + 1 < n * P -> at_pos (firstn (Z.to_nat n) x) h P r s i = at_pos x h P r s i.
Proof. intros HP Hn Hm. unfold at_pos. apply blend_ext; apply interp_prefix; lia. Qed.
End B.

(** ** C34 *)
(** whatever it returns is right, for all sizes; and it only returns if the requested samples exist *)
Theorem C34_samples (F : CField) M W vec (out x h : list F) P v rate start out' sp : char_zero F -> 1 <= W -> 0 < P -> PolyphaseDecompose W vec h P = Ok v -> canonical rate -> canonical start ->
  ResampleInto M W vec out x v rate start = Ok (out', sp) ->
  out' = tab (lenZ out) (fun i => between (interpolated x h P) (position (val rate) (val start) P i)) /\
  (0 < val rate)%Q /\ (0 <= val start)%Q /\ (position (val rate) (val start) P (lenZ out) <= inject_Z (full_len (lenZ x) (lenZ h) P))%Q.
Proof.
  intros Hc HW HP E Cr Cs H. pose proof (decompose_view F W vec h P v HW HP E) as D. destruct (resample_part Hc W vec HW M out x h v P rate start out' sp D Cr Cs H) as (_ & Hr & Hs & B & -> & _).
  split; [apply tab_ext; intros i Hi; now apply at_pos_between|]. pose proof Cr as [Rd _]. pose proof Cs as [Sd _]. split; [unfold val, Qlt; cbn [Qnum Qden]; lia|]. split; [unfold val, Qle; cbn [Qnum Qden]; lia|].
  rewrite position_val by assumption. unfold Qle, inject_Z. cbn [Qnum Qden]. rewrite Z2Pos.id by (apply Z.mul_pos_pos; assumption). rewrite full_len_eq in B by exact HP. lia.
Qed.
Print Assumptions C34_samples.
(** it does return when the samples exist and the sizes are moderate; for int64 (M = 2^63 - 1) this covers e.g. every combination of
    at most 10^5 input samples, 10^4 taps, 100 phases and rates and start points made of integers up to 300 *)
Theorem C34_defined (F : CField) M W vec (out x h : list F) P v rate start : char_zero F -> 1 <= W -> 0 < P -> PolyphaseDecompose W vec h P = Ok v -> canonical rate -> canonical start -> 0 < lenZ x -> 0 < lenZ h ->
  (0 < val rate)%Q -> (0 <= val start)%Q -> (position (val rate) (val start) P (lenZ out) <= inject_Z (full_len (lenZ x) (lenZ h) P))%Q ->
  (lenZ x * P + 2 * lenZ h) * den rate * den start <= M -> den start * den rate * (P * P) * num rate <= M -> (P + lenZ h) * P * (den start * den rate) * den rate <= M ->
  exists sp, ResampleInto M W vec out x v rate start = Ok (tab (lenZ out) (fun i => between (interpolated x h P) (position (val rate) (val start) P i)), sp).
Proof.
  intros Hc HW HP E Cr Cs Hx Hh Hr Hs Hm B1 B2 B3. pose proof (decompose_view F W vec h P v HW HP E) as D. pose proof Cr as [Rd _]. pose proof Cs as [Sd _].
  unfold val, Qlt in Hr; cbn [Qnum Qden] in Hr. unfold val, Qle in Hs; cbn [Qnum Qden] in Hs. rewrite position_val in Hm by assumption. unfold Qle, inject_Z in Hm; cbn [Qnum Qden] in Hm. rewrite Z2Pos.id in Hm by (apply Z.mul_pos_pos; assumption).
  unfold full_len in Hm. replace ((lenZ x =? 0) || (lenZ h =? 0)) with false in Hm by lia.
  destruct (resample_tot W vec HW M out x h v P rate start D Cr Cs Hx Hh HP) as (o & sp & R); [lia|lia|lia|exact B1|exact B2|exact B3|]. exists sp. rewrite R. f_equal. f_equal.
  now apply (C34_samples F M W vec out x h P v rate start o sp).
Qed.
Print Assumptions C34_defined.

Theorem C34_length M n l P rate m q : canonical rate -> (0 <= val rate)%Q -> 0 < P -> ResampleLength M n l P rate m = Ok q ->
  canonical q /\ (0 < val rate)%Q /\ (val q * val rate * inject_Z P == inject_Z (ConvolutionLength (n * P) l m))%Q.
Proof.
  intros Cr Hr HP H. pose proof Cr as [Rd _]. unfold val, Qle in Hr; cbn [Qnum Qden] in Hr. apply length_ok in H as [R0 [C X]]; [|exact Cr|lia|exact HP]. split; [exact C|]. split; [unfold val, Qlt; cbn [Qnum Qden]; lia|].
  pose proof C as [Qd _]. unfold val, Qeq, Qmult, inject_Z. cbn [Qnum Qden]. rewrite !Pos2Z.inj_mul, !Z2Pos.id by assumption. rewrite (Z.mul_comm n P). transitivity (num q * (num rate * P)); [ring|]. rewrite X. ring.
Qed.
Print Assumptions C34_length.
(** full mode: starts at the first sample and takes as many as there are *)
Theorem C34_full (F : CField) M W vec (x h : list F) P v rate y : char_zero F -> 1 <= W -> 0 < P -> PolyphaseDecompose W vec h P = Ok v -> canonical rate ->
  ResampleFull M W vec x v rate = Ok y -> (0 < val rate)%Q /\
  exists len, (len * val rate * inject_Z P == inject_Z (full_len (lenZ x) (lenZ h) P))%Q /\ y = tab (Qfloor len) (fun i => between (interpolated x h P) (position (val rate) 0 P i)).
Proof.
  intros Hc HW HP E Cr H. pose proof (decompose_view F W vec h P v HW HP E) as D. pose proof D as (D1 & D2 & _). unfold ResampleFull, num_phases, size_original in H. rewrite D1, D2 in H.
  destruct (ResampleLength M (lenZ x) (lenZ h) P rate CONV_FULL) as [q| |] eqn:EL; [|discriminate|discriminate]. cbn [bind] in H. destruct (floor M q) as [n| |] eqn:Efl; [|discriminate|discriminate]. cbn [bind] in H. unfold Resample in H.
  destruct (ResampleInto M W vec (repeat r0 (Z.to_nat n)) x v rate (of_int 0)) as [[o sp]| |] eqn:R; [|discriminate|discriminate]. cbn [bind] in H. injection H as <-.
  destruct (C34_samples F M W vec _ x h P v rate (of_int 0) o sp Hc HW HP E Cr ltac:(split; reflexivity) R) as (-> & Hr & _ & Hm). split; [exact Hr|].
  destruct (C34_length M (lenZ x) (lenZ h) P rate CONV_FULL q Cr ltac:(apply Qlt_le_weak; exact Hr) HP EL) as (Cq & _ & Vq). exists (val q). split; [rewrite Vq; now rewrite (Z.mul_comm (lenZ x) P), full_len_eq by exact HP|].
  apply floor_ok in Efl as [Qd En].
  - assert (Ev : Qfloor (val q) = n) by (unfold val, Qfloor; rewrite Z2Pos.id by exact Qd; now symmetry). assert (0 <= n).
    { rewrite <- Ev. apply (Qfloor_resp_le 0 (val q)). rewrite (Z.mul_comm (lenZ x) P), full_len_eq in Vq by exact HP. apply length_ok in EL as [R0 [C X]]; [|exact Cr|unfold val, Qlt in Hr; cbn [Qnum Qden] in Hr; lia|exact HP]. rewrite full_len_eq in X by exact HP. unfold val, Qle. cbn [Qnum Qden].
      assert (0 <= full_len (lenZ x) (lenZ h) P) by (unfold full_len; pose proof (lenZ_nonneg x); pose proof (lenZ_nonneg h); destruct ((lenZ x =? 0) || (lenZ h =? 0)) eqn:Eb; nia). pose proof Cr as [Rd _]. assert (0 < num rate * P) by (apply Z.mul_pos_pos; lia). assert (0 <= num q * (num rate * P)) by (rewrite X; repeat apply Z.mul_nonneg_nonneg; lia). nia. }
    rewrite Ev, lenZ_repeat, Z2Nat.id by assumption. reflexivity.
  - apply length_ok in EL as [R0 [C X]]; [|exact Cr|unfold val, Qlt in Hr; cbn [Qnum Qden] in Hr; lia|exact HP]. rewrite full_len_eq in X by exact HP.
    assert (0 <= full_len (lenZ x) (lenZ h) P) by (unfold full_len; pose proof (lenZ_nonneg x); pose proof (lenZ_nonneg h); destruct ((lenZ x =? 0) || (lenZ h =? 0)) eqn:Eb; nia). pose proof Cr as [Rd _]. pose proof C as [Qd0 _]. assert (0 < num rate * P) by (apply Z.mul_pos_pos; lia). assert (0 <= num q * (num rate * P)) by (rewrite X; repeat apply Z.mul_nonneg_nonneg; lia). nia.
Qed.
Print Assumptions C34_full.

Definition central_len (n l : Z) : Z := Z.max n l - Z.min n l + 1.
Lemma central_start M n l P rate st si : canonical rate -> 0 < P -> 0 < num rate -> make M (Z.min l (n * P) - 1) P = Ok si -> div M si rate = Ok st -> cross st ((Z.min l (n * P) - 1) * den rate) (P * num rate).
Proof.
  intros [Rd _] HP Hr E1 E2. apply make_ok in E1 as (_ & [Sd _] & X1). apply div_ok in E2 as (_ & C2). rewrite (Z.sgn_pos _ Hr), Z.mul_1_l, (Z.abs_eq (num rate)) in C2 by lia. apply (cross_trans _ _ _ _ _ C2); [apply Z.mul_pos_pos; lia|].
  transitivity (num si * P * den rate * num rate); [ring|]. rewrite X1. ring.
Qed.
(** central mode: starts where the shorter of filter and (interpolated) input is fully covered *)
Theorem C34_central (F : CField) M W vec (x h : list F) P v rate y : char_zero F -> 1 <= W -> 0 < P -> PolyphaseDecompose W vec h P = Ok v -> canonical rate -> 0 < lenZ x -> 0 < lenZ h ->
  ResampleCentral M W vec x v rate = Ok y -> (0 < val rate)%Q /\
  exists len start, (len * val rate * inject_Z P == inject_Z (central_len (lenZ x * P) (lenZ h)))%Q /\ (position (val rate) start P 0 == inject_Z (Z.min (lenZ h) (lenZ x * P) - 1))%Q /\
    y = tab (Qfloor len) (fun i => between (interpolated x h P) (position (val rate) start P i)).
Proof.
  intros Hc HW HP E Cr Hx Hh H. pose proof (decompose_view F W vec h P v HW HP E) as D. pose proof D as (D1 & D2 & _). unfold ResampleCentral, num_phases, size_original in H. rewrite D1, D2 in H.
  destruct (make M (Z.min (lenZ h) (lenZ x * P) - 1) P) as [si| |] eqn:E1; [|discriminate|discriminate]. cbn [bind] in H. destruct (ResampleLength M (lenZ x) (lenZ h) P rate CONV_CENTRAL) as [q| |] eqn:EL; [|discriminate|discriminate]. cbn [bind] in H.
  destruct (floor M q) as [n| |] eqn:Efl; [|discriminate|discriminate]. cbn [bind] in H. destruct (div M si rate) as [st| |] eqn:E2; [|discriminate|discriminate]. cbn [bind] in H. unfold Resample in H.
  destruct (ResampleInto M W vec (repeat r0 (Z.to_nat n)) x v rate st) as [[o sp]| |] eqn:R; [|discriminate|discriminate]. cbn [bind] in H. injection H as <-.
  assert (Cst : canonical st) by (apply div_ok in E2 as (_ & C & _); exact C).
  destruct (C34_samples F M W vec _ x h P v rate st o sp Hc HW HP E Cr Cst R) as (-> & Hr & _ & _). split; [exact Hr|]. pose proof Cr as [Rd _]. assert (Hr0 : 0 < num rate) by (unfold val, Qlt in Hr; cbn [Qnum Qden] in Hr; lia).
  assert (EC : ConvolutionLength (P * lenZ x) (lenZ h) CONV_CENTRAL = central_len (lenZ x * P) (lenZ h)). { unfold ConvolutionLength, central_len. assert (0 < lenZ x * P) by (apply Z.mul_pos_pos; lia). rewrite (Z.mul_comm P). replace ((lenZ x * P =? 0) || (lenZ h =? 0)) with false by lia. lia. }
  destruct (C34_length M (lenZ x) (lenZ h) P rate CONV_CENTRAL q Cr ltac:(apply Qlt_le_weak; exact Hr) HP EL) as (Cq & _ & Vq). rewrite (Z.mul_comm (lenZ x) P), EC in Vq. exists (val q), (val st). split; [exact Vq|].
  pose proof (central_start M (lenZ x) (lenZ h) P rate st si Cr HP Hr0 E1 E2) as [_ Xs]. split.
  { rewrite position_val by assumption. destruct Cst as [Sd _]. unfold Qeq, inject_Z. cbn [Qnum Qden]. rewrite Z2Pos.id by (apply Z.mul_pos_pos; assumption). transitivity (num st * (P * num rate)); [ring|]. rewrite Xs. ring. }
  apply length_ok in EL as [_ [_ X]]; [|exact Cr|lia|exact HP]. rewrite EC in X. pose proof Cq as [Qd _]. assert (0 < num rate * P) by (apply Z.mul_pos_pos; lia). assert (Hq : 0 <= num q) by (assert (0 <= num q * (num rate * P)) by (rewrite X; unfold central_len; repeat apply Z.mul_nonneg_nonneg; lia); nia).
  apply floor_ok in Efl as [_ En]; [|exact Hq]. assert (Ev : Qfloor (val q) = n) by (unfold val, Qfloor; rewrite Z2Pos.id by exact Qd; now symmetry). assert (0 <= n) by (rewrite En; apply Z.div_pos; lia). rewrite Ev, lenZ_repeat, Z2Nat.id by assumption. reflexivity.
Qed.
Print Assumptions C34_central.
(** central mode never trips the range assertion, for moderate sizes it always returns *)
Theorem C34_central_defined (F : CField) M W vec (x h : list F) P v rate : 1 <= W -> 0 < P -> PolyphaseDecompose W vec h P = Ok v -> canonical rate -> 0 < lenZ x -> 0 < lenZ h -> (0 < val rate)%Q ->
  (lenZ x * P + 2 * lenZ h) * den rate * (P * num rate) <= M -> P * num rate * den rate * (P * P) * num rate <= M -> (P + lenZ h) * P * (P * num rate * den rate) * den rate <= M ->
  exists y, ResampleCentral M W vec x v rate = Ok y.
Proof.
  intros HW HP E Cr Hx Hh Hr B1 B2 B3. pose proof (decompose_view F W vec h P v HW HP E) as D. pose proof D as (D1 & D2 & _). unfold ResampleCentral, num_phases, size_original. rewrite D1, D2. pose proof Cr as [Rd _]. assert (Hr0 : 0 < num rate) by (unfold val, Qlt in Hr; cbn [Qnum Qden] in Hr; lia).
  set (N := lenZ x) in *. set (l := lenZ h) in *. assert (HN : 0 < N * P) by (apply Z.mul_pos_pos; lia). assert (HrP : 0 < P * num rate) by (apply Z.mul_pos_pos; lia). set (D0 := P * num rate) in *.
  assert (K0 : N * P + 2 * l <= (N * P + 2 * l) * den rate) by (apply grow; lia). assert (K1 : (N * P + 2 * l) * den rate <= M) by (destruct (grow ((N * P + 2 * l) * den rate) D0); [apply Z.mul_nonneg_nonneg; lia|lia|lia]).
  assert (K2 : den rate <= M) by (destruct (grow (den rate) (N * P + 2 * l)) as [_ K]; [lia|lia|lia]). assert (K3 : D0 <= M) by (destruct (grow D0 ((N * P + 2 * l) * den rate)) as [_ K]; [lia|apply Z.mul_pos_pos; lia|lia]).
  assert (K4 : P <= D0 /\ num rate <= D0) by (unfold D0; split; apply grow; lia).
  destruct (make_fit M (Z.min l (N * P) - 1) P) as [si E1]; [lia|lia|]. rewrite E1. cbn [bind]. pose proof E1 as E1'. apply make_ok in E1' as (_ & Csi & Xsi). destruct (cross_pos si (Z.min l (N * P) - 1) P (conj Csi Xsi) HP ltac:(lia)) as (S0 & S1 & _).
  assert (EC : ConvolutionLength (P * N) l CONV_CENTRAL = central_len (N * P) l). { unfold ConvolutionLength, central_len. rewrite (Z.mul_comm P). replace ((N * P =? 0) || (l =? 0)) with false by lia. lia. }
  assert (HC : 0 < central_len (N * P) l <= N * P + l) by (unfold central_len; lia).
  assert (EL : exists q, ResampleLength M N l P rate CONV_CENTRAL = Ok q).
  { unfold ResampleLength. unfold cmul. rewrite ci_fit by lia. cbn [bind]. rewrite EC. rewrite ci_fit by lia. cbn [bind]. unfold int_div.
    assert (K5 : central_len (N * P) l * den rate <= (N * P + 2 * l) * den rate) by (apply Z.mul_le_mono_nonneg_r; lia).
    destruct (div_tot M (of_int (central_len (N * P) l)) rate) as [q Eq]; [cbn; lia|exact Cr|lia|lia|cbn [of_int num den]; rewrite Z.abs_eq by lia; lia|cbn [of_int num den]; lia|]. rewrite Eq. cbn [bind].
    apply div_ok in Eq as (_ & Cq). cbn [of_int num den] in Cq. rewrite (Z.sgn_pos _ Hr0), Z.mul_1_l, Z.mul_1_l, (Z.abs_eq (num rate)) in Cq by lia. destruct (cross_pos q _ _ Cq Hr0 ltac:(apply Z.mul_nonneg_nonneg; lia)) as (Q0 & Q1 & _). apply div_int_tot; [lia|lia|lia|apply (bound _ _ (num rate) P); [lia|lia|unfold D0 in K3; lia]]. }
  destruct EL as [q EL]. rewrite EL. cbn [bind]. apply length_ok in EL as [_ Cq]; [|exact Cr|lia|exact HP]. rewrite EC in Cq. destruct (cross_pos q _ _ Cq ltac:(unfold D0 in HrP; lia) ltac:(apply Z.mul_nonneg_nonneg; lia)) as (Q0 & Q1 & _).
  assert (K5 : central_len (N * P) l * den rate <= (N * P + 2 * l) * den rate) by (apply Z.mul_le_mono_nonneg_r; lia).
  destruct (floor_tot M q) as [n En]; [lia|lia|]. rewrite En. cbn [bind]. apply floor_ok in En as [_ En]; [|lia].
  destruct (div_tot M si rate) as [st E2]; [lia|exact Cr|lia|lia| | |].
  { rewrite Z.abs_eq by lia. apply (bound _ _ (N * P + 2 * l) (den rate)); lia. }
  { apply (bound _ _ P (num rate)); lia. }
  rewrite E2. cbn [bind]. pose proof (central_start M N l P rate st si Cr HP Hr0 E1 E2) as Cst. destruct (cross_pos st _ _ Cst HrP ltac:(apply Z.mul_nonneg_nonneg; lia)) as (T0 & T1 & _).
  unfold Resample. assert (Hn0 : 0 <= n) by (rewrite En; apply Z.div_pos; lia).
  destruct (resample_tot W vec HW M (repeat r0 (Z.to_nat n)) x h v P rate st D Cr (proj1 Cst) Hx Hh HP Hr0 (proj1 T0)) as (o & sp & R).
  - rewrite lenZ_repeat, Z2Nat.id by exact Hn0. fold N l. assert (Hn : n * (num rate * P) <= central_len (N * P) l * den rate).
    { rewrite En. destruct Cq as [[Qd _] Xq]. pose proof (Z.mul_div_le (num q) (den q) Qd) as Hd. assert (X : num q / den q * (num rate * P) * den q <= central_len (N * P) l * den rate * den q); [|apply (Z.mul_le_mono_pos_r _ _ (den q) Qd); exact X].
      rewrite <- Xq. apply Z.le_trans with (den q * (num q / den q) * (num rate * P)); [lia|]. apply Z.mul_le_mono_nonneg_r; [unfold D0 in HrP; lia|exact Hd]. }
    destruct Cst as [[Sd _] Xs]. change (P * num rate) with D0 in Xs. transitivity (num st * D0 + n * (num rate * P) * den st); [unfold D0; lia|]. rewrite Xs. apply Z.le_trans with ((Z.min l (N * P) - 1) * den rate * den st + central_len (N * P) l * den rate * den st); [apply Z.add_le_mono_l, Z.mul_le_mono_nonneg_r; lia|].
    replace ((Z.min l (N * P) - 1) * den rate * den st + central_len (N * P) l * den rate * den st) with ((Z.min l (N * P) - 1 + central_len (N * P) l) * (den rate * den st)) by ring. rewrite <- (Z.mul_assoc _ (den rate)). apply Z.mul_le_mono_nonneg_r; [apply Z.mul_nonneg_nonneg; lia|]. unfold central_len. lia.
  - apply (bound _ _ ((N * P + 2 * l) * den rate) D0); [fold N l; split; [apply Z.mul_nonneg_nonneg; lia|lia]|lia|exact B1].
  - apply Z.le_trans with (D0 * den rate * (P * P) * num rate); [|exact B2]. apply Z.mul_le_mono_nonneg_r; [lia|]. apply Z.mul_le_mono_nonneg_r; [apply Z.mul_nonneg_nonneg; lia|]. apply Z.mul_le_mono_nonneg_r; lia.
  - fold l. apply Z.le_trans with ((P + l) * P * (D0 * den rate) * den rate); [|exact B3]. apply Z.mul_le_mono_nonneg_r; [lia|]. apply Z.mul_le_mono_nonneg_l; [apply Z.mul_nonneg_nonneg; lia|]. apply Z.mul_le_mono_nonneg_r; lia.
  - rewrite R. cbn [bind]. eauto.
Qed.
Print Assumptions C34_central_defined.
(** the reported delay: (l - 1) / 2 interpolated samples *)
Theorem C34_delay M l P rate q : canonical rate -> (0 < val rate)%Q -> ResampleDelay M l P rate = Ok q -> canonical q /\ (position (val rate) (val q) P 0 * inject_Z 2 == inject_Z (l - 1))%Q.
Proof.
  intros Cr Hr H. pose proof Cr as [Rd _]. assert (Hr0 : 0 < num rate) by (unfold val, Qlt in Hr; cbn [Qnum Qden] in Hr; lia). unfold ResampleDelay in H. destruct (cmul M 2 P) as [d| |] eqn:Ed; [|discriminate|discriminate]. apply cmul_ok in Ed. cbn [bind] in H.
  destruct (make M (l - 1) d) as [a| |] eqn:Ea; [|discriminate|discriminate]. cbn [bind] in H. apply make_ok in Ea as (Hd & [Ad _] & Xa). subst d. apply div_ok in H as (_ & [Cq Xq]). rewrite (Z.sgn_pos _ Hr0), Z.mul_1_l, (Z.abs_eq (num rate)) in Xq by lia. split; [exact Cq|].
  rewrite position_val by assumption. pose proof Cq as [Qd _]. unfold Qeq, Qmult, inject_Z. cbn [Qnum Qden]. rewrite Pos2Z.inj_mul, Z2Pos.id by (apply Z.mul_pos_pos; assumption). apply (Z.mul_cancel_r _ _ (den a)); [lia|].
  transitivity (num q * (den a * num rate) * (2 * P)); [ring|]. rewrite Xq. transitivity (num a * (2 * P) * (den rate * den q)); [ring|]. rewrite Xa. ring.
Qed.
Print Assumptions C34_delay.

(** ** C35: suspending *)
(** a user resampling in calls of the given lengths, each on the input that is still needed, continuing at the reported point *)
Fixpoint resample_calls {F : CField} M W vec (x : list F) (v : pview F) (rate start : rat) (lens : list Z) : outcome (list F) :=
  match lens with
  | [] => Ok []
  | len :: lens =>
    do (out, sp) <- ResampleInto M W vec (repeat r0 (Z.to_nat len)) x v rate start;
    do rest <- resample_calls M W vec (skipn (Z.to_nat (fst sp)) x) v rate (snd sp) lens;
    Ok (out ++ rest)
  end.
Section Resume.
Context {F : CField}.
Hypothesis char0 : char_zero F.
Variables (M W : Z) (vec : bool).
Hypothesis HW : 1 <= W.
(** one call: what it produces and what the reported point says *)
Lemma one_call (x h : list F) v P r s len out fi st : decomposed v h P -> canonical r -> canonical s -> 0 < lenZ h -> 0 <= len -> ResampleInto M W vec (repeat r0 (Z.to_nat len)) x v r s = Ok (out, (fi, st)) ->
  out = tab len (at_pos x h P r s) /\ 0 <= fi <= lenZ x /\ canonical st /\ 0 <= num st /\ 0 < P /\ 0 < num r /\
  (forall k, 0 <= k -> at_pos (skipn (Z.to_nat fi) x) h P r st k = at_pos x h P r s (len + k)) /\
  num st * (den s * num r) = ((num s + len * den s) * num r - fi * den r * den s) * den st /\
  (fi = 0 \/ (fi * P + lenZ h - 1) * (den r * den s) <= (num s + len * den s) * num r * P).
Proof.
  intros D Cr Cs Hh Hl H. destruct (resample_part char0 W vec HW M _ x h v P r s out (fi, st) D Cr Cs H) as (HP & Hr & Hs & B & Eo & e & Ce & Ef). rewrite lenZ_repeat, Z2Nat.id in * by exact Hl. pose proof Cr as [Rd _]. pose proof Cs as [Sd _]. split; [exact Eo|]. clear Eo H.
  assert (Hn : 0 <= num s + len * den s) by (assert (0 <= len * den s) by (apply Z.mul_nonneg_nonneg; lia); lia). destruct (cross_pos e _ _ Ce Sd Hn) as (E0 & E1 & _). pose proof Ce as [Cec Xe].
  apply suspend_ok in Ef as (F1 & F2 & F3 & F4 & F5 & _); [|exact Cec|lia|exact Hr|lia|exact HP].
  assert (G4 : num st * (den s * num r) = ((num s + len * den s) * num r - fi * den r * den s) * den st).
  { apply (Z.mul_cancel_r _ _ (den e)); [lia|]. transitivity (num st * (den e * num r) * den s); [ring|]. rewrite F4. transitivity ((num e * den s * num r - fi * den r * den s * den e) * den st); [ring|]. rewrite Xe. ring. }
  assert (G5 : fi = 0 \/ (fi * P + lenZ h - 1) * (den r * den s) <= (num s + len * den s) * num r * P).
  { destruct F5 as [L|L]; [now left|right]. apply (Z.mul_le_mono_pos_r _ _ (den e)); [lia|]. apply Z.le_trans with ((fi * P + lenZ h - 1) * (den r * den e) * den s); [lia|]. apply Z.le_trans with (num e * num r * P * den s); [apply Z.mul_le_mono_nonneg_r; lia|].
    replace (num e * num r * P * den s) with (num e * den s * num r * P) by ring. rewrite Xe. lia. }
  assert (Hfi : fi <= lenZ x).
  { destruct G5 as [L|L]; [subst; apply lenZ_nonneg|]. pose proof (lenZ_nonneg x) as Lx. rewrite full_len_eq in B by exact HP. assert (X : (fi * P + lenZ h - 1) * (den r * den s) <= full_len (lenZ x) (lenZ h) P * (den r * den s)) by lia.
    apply Z.mul_le_mono_pos_r in X; [|apply Z.mul_pos_pos; assumption]. unfold full_len in X. destruct (Z.eqb_spec (lenZ x) 0) as [Ex|Ex].
    - cbn [orb] in X. rewrite Ex. assert (0 <= fi * P) by (apply Z.mul_nonneg_nonneg; lia). assert (fi * P <= 0) by lia. nia.
    - replace (lenZ h =? 0) with false in X by lia. cbn [orb] in X. assert (fi * P <= lenZ x * P) by lia. now apply Z.mul_le_mono_pos_r in H. }
  split; [lia|]. split; [exact F2|]. split; [exact F3|]. split; [exact HP|]. split; [exact Hr|]. split; [|split; [exact G4|exact G5]].
  intros k Hk. pose proof F2 as [Std _]. assert (Cu : cross (mkRat (num s + len * den s) (den s)) (num s + len * den s) (den s)).
  { split; [|reflexivity]. split; [exact Sd|]. cbn [num den]. rewrite Z.gcd_comm, Z.gcd_add_mult_diag_r, Z.gcd_comm. apply Cs. }
  rewrite (at_pos_drop char0 x h P r (mkRat (num s + len * den s) (den s)) st fi k); cbn [num den]; try assumption; [|lia]. unfold at_pos. cbn [num den]. f_equal. ring.
Qed.
Lemma calls_part (h : list F) v P r lens : decomposed v h P -> canonical r -> 0 < lenZ h -> (forall l, In l lens -> 0 <= l) -> forall x s y, canonical s -> resample_calls M W vec x v r s lens = Ok y -> y = tab (total lens) (at_pos x h P r s).
Proof.
  intros D Cr Hh. induction lens as [|l lens IH]; intros Hp x s y Cs H; [injection H as <-; reflexivity|]. cbn [resample_calls] in H. pose proof (Hp l (or_introl eq_refl)) as Hl.
  destruct (ResampleInto M W vec (repeat r0 (Z.to_nat l)) x v r s) as [[o [fi st]]| |] eqn:R; [|discriminate|discriminate]. cbn [bind fst snd] in H. destruct (one_call x h v P r s l o fi st D Cr Cs Hh Hl R) as (-> & Hfi & Cst & Nst & HP & Hr & Hk & _).
  destruct (resample_calls M W vec (skipn (Z.to_nat fi) x) v r st lens) as [rest| |] eqn:Er; [|discriminate|discriminate]. cbn [bind] in H. injection H as <-. apply IH in Er; [|intros z Hz; apply Hp; now right|exact Cst]. subst rest.
  change (total (l :: lens)) with (l + total lens). assert (T0 : 0 <= total lens). { clear -Hp. assert (Hp' : forall z, In z lens -> 0 <= z) by (intros z Hz; apply Hp; now right). clear Hp. induction lens as [|a q IH]; [apply Z.le_refl|]. change (total (a :: q)) with (a + total q). pose proof (Hp' a (or_introl eq_refl)). pose proof (IH (fun z Hz => Hp' z (or_intror Hz))). lia. }
  apply at0_ext; [rewrite lenZ_app, !lenZ_tab; lia|]. intros j Hj. rewrite lenZ_app, !lenZ_tab in Hj. rewrite at0_app, lenZ_tab. rewrite (at0_tab (l + total lens)) by lia. destruct (j <? Z.max 0 l) eqn:Ej; [now rewrite at0_tab by lia|]. rewrite at0_tab by lia. rewrite Hk by lia. f_equal. lia.
Qed.
(** total correctness: every start point of the sequence is a multiple of 1 / (den s0 * num r) *)
Lemma calls_total (h : list F) v P r S0 lens : decomposed v h P -> canonical r -> 0 < lenZ h -> 0 < P -> 0 < num r -> 0 < S0 -> (forall l, In l lens -> 0 < l) ->
  S0 * num r * den r * (P * P) * num r <= M -> (P + lenZ h) * P * (S0 * num r * den r) * den r <= M -> forall x s a, 0 < lenZ x -> 0 <= a -> cross s a (S0 * num r) ->
  (a + total lens * (S0 * num r)) * (num r * P) <= (lenZ x * P + lenZ h - 1) * den r * (S0 * num r) -> (lenZ x * P + 2 * lenZ h) * den r * (S0 * num r) <= M ->
  exists y, resample_calls M W vec x v r s lens = Ok y.
Proof.
  intros D Cr Hh HP Hr HS. pose proof Cr as [Rd _]. assert (HD : 0 < S0 * num r) by (apply Z.mul_pos_pos; lia). induction lens as [|l lens IH]; intros Hp B2 B3 x s a Hx Ha Cs Hm B1; [eexists; reflexivity|]. cbn [resample_calls]. pose proof (Hp l (or_introl eq_refl)) as Hl.
  pose proof (total_nonneg lens (fun z Hz => Hp z (or_intror Hz))) as T0. change (total (l :: lens)) with (l + total lens) in Hm. pose proof Cs as [Csc Xs]. pose proof Csc as [Sd _]. destruct (cross_pos s _ _ Cs HD Ha) as (N0 & N1 & _). set (D0 := S0 * num r) in *. set (N := lenZ x) in *. set (f := lenZ h) in *.
  assert (HN : 0 < N * P) by (apply Z.mul_pos_pos; lia). assert (HrP : 0 < num r * P) by (apply Z.mul_pos_pos; lia).
  assert (Hm1 : (a + l * D0) * (num r * P) <= (N * P + f - 1) * den r * D0). { apply Z.le_trans with ((a + (l + total lens) * D0) * (num r * P)); [|exact Hm]. apply Z.mul_le_mono_nonneg_r; [lia|]. assert (0 <= total lens * D0) by (apply Z.mul_nonneg_nonneg; lia). lia. }
  destruct (resample_tot W vec HW M (repeat r0 (Z.to_nat l)) x h v P r s D Cr Csc Hx Hh HP Hr (proj1 N0)) as (o & [fi st] & R).
  - rewrite lenZ_repeat, Z2Nat.id by lia. fold N f. apply (Z.mul_le_mono_pos_r _ _ D0 HD). replace ((num s + l * den s) * (num r * P) * D0) with ((num s * D0 + l * den s * D0) * (num r * P)) by ring. rewrite Xs. replace ((a * den s + l * den s * D0) * (num r * P)) with ((a + l * D0) * (num r * P) * den s) by ring.
    replace ((N * P + f - 1) * den r * den s * D0) with ((N * P + f - 1) * den r * D0 * den s) by ring. apply Z.mul_le_mono_nonneg_r; lia.
  - fold N f. apply (bound _ _ ((N * P + 2 * f) * den r) D0); [split; [apply Z.mul_nonneg_nonneg; lia|lia]|lia|exact B1].
  - apply Z.le_trans with (D0 * den r * (P * P) * num r); [|exact B2]. apply Z.mul_le_mono_nonneg_r; [lia|]. apply Z.mul_le_mono_nonneg_r; [apply Z.mul_nonneg_nonneg; lia|]. apply Z.mul_le_mono_nonneg_r; lia.
  - fold f. apply Z.le_trans with ((P + f) * P * (D0 * den r) * den r); [|exact B3]. apply Z.mul_le_mono_nonneg_r; [lia|]. apply Z.mul_le_mono_nonneg_l; [apply Z.mul_nonneg_nonneg; lia|]. apply Z.mul_le_mono_nonneg_r; lia.
  - rewrite R. cbn [bind fst snd]. destruct (one_call x h v P r s l o fi st D Cr Csc Hh ltac:(lia) R) as (_ & Hfi & Cst & Nst & _ & _ & _ & G4 & G5). pose proof Cst as [Std _].
    destruct lens as [|l2 lens]; [cbn [resample_calls bind]; eauto|]. pose proof (Hp l2 (or_intror (or_introl eq_refl))) as Hl2. pose proof (total_nonneg lens (fun z Hz => Hp z (or_intror (or_intror Hz)))) as T1. set (T := total (l2 :: lens)) in *. assert (HT : 0 < T) by (unfold T; change (total (l2 :: lens)) with (l2 + total lens); lia).
    assert (Hlt : (a + l * D0) * (num r * P) < (N * P + f - 1) * den r * D0). { apply Z.lt_le_trans with ((a + (l + T) * D0) * (num r * P)); [|exact Hm]. apply Z.mul_lt_mono_pos_r; [exact HrP|]. assert (0 < T * D0) by (apply Z.mul_pos_pos; lia). lia. }
    assert (Hf : fi < N).
    { destruct G5 as [L|L]; [lia|]. assert (X : (fi * P + f - 1) * (den r * D0) < (N * P + f - 1) * (den r * D0)).
      { apply (Z.mul_lt_mono_pos_r (den s) _ _ Sd). apply Z.le_lt_trans with ((a + l * D0) * (num r * P) * den s).
        - replace ((fi * P + f - 1) * (den r * D0) * den s) with ((fi * P + f - 1) * (den r * den s) * D0) by ring. apply Z.le_trans with ((num s + l * den s) * num r * P * D0); [apply Z.mul_le_mono_nonneg_r; [lia|exact L]|]. replace ((num s + l * den s) * num r * P * D0) with ((num s * D0 + l * den s * D0) * (num r * P)) by ring. rewrite Xs. lia.
        - replace ((N * P + f - 1) * (den r * D0) * den s) with ((N * P + f - 1) * den r * D0 * den s) by ring. apply Z.mul_lt_mono_pos_r; [exact Sd|exact Hlt]. }
      apply Z.mul_lt_mono_pos_r in X; [|apply Z.mul_pos_pos; lia]. assert (fi * P < N * P) by lia. now apply Z.mul_lt_mono_pos_r in H. }
    assert (Cst' : cross st (a + l * D0 - fi * den r * S0) D0).
    { split; [exact Cst|]. apply (Z.mul_cancel_r _ _ (den s * num r)); [apply Z.neq_mul_0; lia|]. transitivity (num st * (den s * num r) * D0); [ring|]. rewrite G4. transitivity (((num s * D0 + l * den s * D0) * num r - fi * den r * den s * D0) * den st); [ring|]. rewrite Xs. unfold D0. ring. }
    assert (Ha' : 0 <= a + l * D0 - fi * den r * S0). { destruct Cst' as [_ X]. assert (0 <= num st * D0) by (apply Z.mul_nonneg_nonneg; lia). rewrite X in H. now apply Z.mul_nonneg_cancel_r in H. }
    destruct (IH (fun z Hz => Hp z (or_intror Hz)) B2 B3 (skipn (Z.to_nat fi) x) st (a + l * D0 - fi * den r * S0)) as [y Ey].
    + rewrite lenZ_skipn. fold N. clear - Hf Hfi. lia.
    + exact Ha'.
    + exact Cst'.
    + rewrite lenZ_skipn. fold N. rewrite Z2Nat.id by (clear - Hfi; lia). replace (Z.max 0 (N - fi)) with (N - fi) by (clear - Hf Hfi; lia). replace ((N - fi) * P + f - 1) with (N * P + f - 1 - fi * P) by ring. rewrite !Z.mul_sub_distr_r. rewrite !Z.mul_sub_distr_r in Hm.
      replace ((a + l * D0 - fi * den r * S0 + T * D0) * (num r * P)) with ((a + (l + T) * D0) * (num r * P) - fi * P * den r * D0) by (unfold D0; ring). clear - Hm. lia.
    + rewrite lenZ_skipn. fold N. rewrite Z2Nat.id by (clear - Hfi; lia). replace (Z.max 0 (N - fi)) with (N - fi) by (clear - Hf Hfi; lia). apply Z.le_trans with ((N * P + 2 * f) * den r * D0); [|exact B1]. apply Z.mul_le_mono_nonneg_r; [clear - HD; lia|]. apply Z.mul_le_mono_nonneg_r; [clear - Rd; lia|]. assert (0 <= fi * P) by (apply Z.mul_nonneg_nonneg; clear - Hfi HP; lia). clear - H. lia.
    + rewrite Ey. cbn [bind]. eauto.
Qed.
End Resume.

(** partial correctness: whenever the sequence of calls succeeds, it has produced the samples of a single call *)
Theorem C35_samples (F : CField) M W vec (x h : list F) P v rate start lens y : char_zero F -> 1 <= W -> 0 < P -> PolyphaseDecompose W vec h P = Ok v -> canonical rate -> canonical start -> 0 < lenZ h ->
  (forall l, In l lens -> 0 <= l) -> resample_calls M W vec x v rate start lens = Ok y ->
  y = tab (total lens) (fun i => between (interpolated x h P) (position (val rate) (val start) P i)).
Proof.
  intros Hc HW HP E Cr Cs Hh Hp H. pose proof (decompose_view F W vec h P v HW HP E) as D. rewrite (calls_part Hc M W vec HW h v P rate lens D Cr Hh Hp x start y Cs H). apply tab_ext. intros i _. now apply at_pos_between.
Qed.
Print Assumptions C35_samples.
(** total correctness: if the samples exist and the sizes are moderate, neither version fails and they agree *)
Theorem C35_resume (F : CField) M W vec (x h : list F) P v rate start lens : char_zero F -> 1 <= W -> 0 < P -> PolyphaseDecompose W vec h P = Ok v -> canonical rate -> canonical start -> 0 < lenZ x -> 0 < lenZ h ->
  (0 < val rate)%Q -> (0 <= val start)%Q -> (forall l, In l lens -> 0 < l) -> (position (val rate) (val start) P (total lens) <= inject_Z (full_len (lenZ x) (lenZ h) P))%Q ->
  (lenZ x * P + 2 * lenZ h) * den rate * (den start * num rate) <= M -> den start * num rate * den rate * (P * P) * num rate <= M -> (P + lenZ h) * P * (den start * num rate * den rate) * den rate <= M ->
  exists y, resample_calls M W vec x v rate start lens = Ok y /\ Resample M W vec x v rate start (total lens) = Ok y.
Proof.
  intros Hc HW HP E Cr Cs Hx Hh Hr Hs Hp Hm B1 B2 B3. pose proof (decompose_view F W vec h P v HW HP E) as D. pose proof Cr as [Rd _]. pose proof Cs as [Sd _]. pose proof (total_nonneg lens Hp) as T0.
  assert (Hr0 : 0 < num rate) by (unfold val, Qlt in Hr; cbn [Qnum Qden] in Hr; lia). assert (Hs0 : 0 <= num start) by (unfold val, Qle in Hs; cbn [Qnum Qden] in Hs; lia).
  assert (Hm0 := Hm). rewrite position_val in Hm0 by assumption. unfold Qle, inject_Z in Hm0; cbn [Qnum Qden] in Hm0. rewrite Z2Pos.id in Hm0 by (apply Z.mul_pos_pos; assumption). unfold full_len in Hm0. replace ((lenZ x =? 0) || (lenZ h =? 0)) with false in Hm0 by (clear - Hx Hh; lia).
  assert (Cc : cross start (num start * num rate) (den start * num rate)) by (split; [exact Cs|ring]).
  destruct (calls_total Hc M W vec HW h v P rate (den start) lens D Cr Hh HP Hr0 Sd Hp B2 B3 x start (num start * num rate) Hx ltac:(apply Z.mul_nonneg_nonneg; lia) Cc) as [y Ey].
  { replace ((num start * num rate + total lens * (den start * num rate)) * (num rate * P)) with ((num start + total lens * den start) * num rate * P * 1 * num rate) by ring. replace ((lenZ x * P + lenZ h - 1) * den rate * (den start * num rate)) with ((lenZ x * P + lenZ h - 1) * (den start * den rate) * num rate) by ring. apply Z.mul_le_mono_nonneg_r; [lia|exact Hm0]. }
  { exact B1. }
  exists y. split; [exact Ey|]. rewrite (C35_samples F M W vec x h P v rate start lens y Hc HW HP E Cr Cs Hh (fun l Hl => Z.lt_le_incl _ _ (Hp l Hl)) Ey). unfold Resample.
  assert (N0 : 0 <= lenZ x * P) by (apply Z.mul_nonneg_nonneg; lia). assert (G : den start <= den start * num rate) by (apply grow; lia).
  destruct (C34_defined F M W vec (repeat r0 (Z.to_nat (total lens))) x h P v rate start Hc HW HP E Cr Cs Hx Hh Hr Hs) as [sp R].
  - rewrite lenZ_repeat, Z2Nat.id by exact T0. exact Hm.
  - apply Z.le_trans with ((lenZ x * P + 2 * lenZ h) * den rate * (den start * num rate)); [|exact B1]. apply Z.mul_le_mono_nonneg_l; [apply Z.mul_nonneg_nonneg; lia|exact G].
  - apply Z.le_trans with (den start * num rate * den rate * (P * P) * num rate); [|exact B2]. apply Z.mul_le_mono_nonneg_r; [lia|]. apply Z.mul_le_mono_nonneg_r; [apply Z.mul_nonneg_nonneg; lia|]. apply Z.mul_le_mono_nonneg_r; [lia|exact G].
  - apply Z.le_trans with ((P + lenZ h) * P * (den start * num rate * den rate) * den rate); [|exact B3]. apply Z.mul_le_mono_nonneg_r; [lia|]. apply Z.mul_le_mono_nonneg_l; [apply Z.mul_nonneg_nonneg; lia|]. apply Z.mul_le_mono_nonneg_r; [lia|exact G].
  - rewrite R. cbn [bind]. now rewrite lenZ_repeat, Z2Nat.id by exact T0.
Qed.
Print Assumptions C35_resume.
(** a stream: a call that only looks at the samples received so far produces the samples of the whole signal *)
Theorem C35_streaming (F : CField) M W vec (x h : list F) P v rate start n out out' sp : char_zero F -> 1 <= W -> 0 < P -> PolyphaseDecompose W vec h P = Ok v -> canonical rate -> canonical start -> 0 <= n <= lenZ x ->
  (forall i, 0 <= i < lenZ out -> (position (val rate) (val start) P i < inject_Z (n * P - 1))%Q) ->
  ResampleInto M W vec out (firstn (Z.to_nat n) x) v rate start = Ok (out', sp) ->
  out' = tab (lenZ out) (fun i => between (interpolated x h P) (position (val rate) (val start) P i)).
Proof.
  intros Hc HW HP E Cr Cs Hn Hlt H. destruct (C34_samples F M W vec out _ h P v rate start out' sp Hc HW HP E Cr Cs H) as (-> & _ & _ & _). apply tab_ext. intros i Hi. rewrite <- !(at_pos_between Hc) by assumption. apply at_pos_prefix; [exact HP|exact Hn|].
  specialize (Hlt i Hi). rewrite position_val in Hlt by assumption. pose proof Cr as [Rd _]. pose proof Cs as [Sd _]. unfold Qlt, inject_Z in Hlt; cbn [Qnum Qden] in Hlt. rewrite Z2Pos.id in Hlt by (apply Z.mul_pos_pos; assumption). rewrite Z.mul_1_r in Hlt.
  assert ((num start + i * den start) * num rate * P / (den start * den rate) < n * P - 1); [|lia]. apply Z.div_lt_upper_bound; [apply Z.mul_pos_pos; assumption|]. cbn [Z.mul] in Hlt. clear - Hlt. lia.
Qed.
Print Assumptions C35_streaming.

(** ** Nontrivial cases: the rational numbers *)
Definition Qcring : CRing := mkCRing Qc 0%Qc 1%Qc Qcplus Qcmult Qcminus Qcopp Qcrt.
Definition Qcfield : CField := mkCField Qcring Qcinv Qcdiv Qcft.
Lemma ofnat_Qc n : 0 <= n -> (this (ofnat (K := Qcring) n) == inject_Z n)%Q.
Proof.
  intros H. unfold ofnat. rewrite <- (Z2Nat.id n H) at 2. clear H. generalize (Z.to_nat n) as k. clear n. induction k as [|k IH]; [reflexivity|].
  cbn [sumf]. change (@radd Qcring) with Qcplus. unfold Qcplus. eapply Qeq_trans; [apply Qred_correct|]. rewrite IH. change (this (@r1 Qcring)) with 1%Q. rewrite Nat2Z.inj_succ, <- Z.add_1_r, inject_Z_plus. reflexivity.
Qed.
Lemma Qc_char_zero : char_zero Qcfield.
Proof. intros n Hn E. pose proof (ofnat_Qc n ltac:(lia)) as H. change (@ofnat Qcfield n) with (ofnat (K := Qcring) n) in E. rewrite E in H. change (this (@r0 Qcfield)) with 0%Q in H. unfold Qeq, inject_Z in H. cbn in H. lia. Qed.
Definition q (z : Z) : Qcfield := Q2Qc (inject_Z z).
Definition x5 : list Qcfield := map q [3; -1; 4; 1; 5].
Definition h4 : list Qcfield := map q [1; 2; 2; 1].
(* rate 2/3 (three output samples per two input samples), two phases *)
Example C34_nontrivial : exists v o sp, PolyphaseDecompose 4 true h4 2 = Ok v /\ canonical (mkRat 2 3) /\ canonical (mkRat 1 2) /\
  ResampleInto 9223372036854775807 4 true (repeat r0 6) x5 v (mkRat 2 3) (mkRat 1 2) = Ok (o, sp) /\ map this (o : list Qc) = map this (map (fun n => Q2Qc (Qmake n 3)) [30; 30; 8; 32; 54; 38] : list Qc) /\ sp = (2, mkRat 7 2).
Proof.
  eexists _, _, _. split; [vm_compute; reflexivity|]. split; [split; reflexivity|]. split; [split; reflexivity|]. split; [vm_compute; reflexivity|]. split; [vm_compute; reflexivity|]. vm_compute. reflexivity.
Qed.
(* the whole hypothesis set of C35_resume, and calls whose last two do not see the first input samples any more *)
Example C35_nontrivial : exists v, PolyphaseDecompose 4 true h4 2 = Ok v /\ canonical (mkRat 2 3) /\ canonical (mkRat 1 2) /\ (0 < val (mkRat 2 3))%Q /\ (0 <= val (mkRat 1 2))%Q /\
  (position (val (mkRat 2 3)) (val (mkRat 1 2)) 2 (total [3; 1; 2]%Z) <= inject_Z (full_len (lenZ x5) (lenZ h4) 2))%Q /\
  (5 * 2 + 2 * 4) * 3 * (2 * 2) <= 9223372036854775807 /\
  exists o1 o2 sp1 sp2, ResampleInto 9223372036854775807 4 true (repeat r0 4) x5 v (mkRat 2 3) (mkRat 1 2) = Ok (o1, sp1) /\ sp1 = (1, mkRat 3 1) /\
    ResampleInto 9223372036854775807 4 true (repeat r0 2) (skipn 1 x5) v (mkRat 2 3) (mkRat 3 1) = Ok (o2, sp2) /\ map this (o1 ++ o2 : list Qc) = map this (map (fun n => Q2Qc (Qmake n 3)) [30; 30; 8; 32; 54; 38] : list Qc).
Proof.
  eexists. split; [vm_compute; reflexivity|]. do 2 (split; [split; reflexivity|]). split; [reflexivity|]. split; [vm_compute; discriminate|]. split; [vm_compute; discriminate|]. split; [vm_compute; discriminate|].
  eexists _, _, _, _. split; [vm_compute; reflexivity|]. split; [vm_compute; reflexivity|]. split; [vm_compute; reflexivity|]. vm_compute. reflexivity.
Qed.
