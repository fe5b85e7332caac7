(** C46: filter descriptors. *)
From Coq Require Import ZArith List Bool Lia Reals Lra Sorted.
From Verif Require Import Base BaseFacts FirDesignModel DescModel.
Import ListNotations.
Open Scope Z_scope.

(** ** Specification *)
Definition in_unit (f : R) : Prop := (0 <= f <= 1)%R.
(** what a builder call says about band frequencies is acceptable *)
Definition acceptable (freqs : list R) : Prop := Forall in_unit freqs /\ Sorted Rle freqs.
(** the parameter's value after a sequence of calls: the last one that was set, or the initial one *)
Definition last_of {C A} (sets : C -> option A) (a : A) (cs : list C) : A :=
  fold_left (fun a c => match sets c with Some x => x | None => a end) cs a.
(** d.c1.c2.c3... *)
Definition calls {D C} (call : D -> C -> outcome D) (d : D) (cs : list C) : outcome D :=
  fold_left (fun d c => do d <- d; call d c) cs (Ok d).
(** every sequence of calls: if all band frequencies are acceptable the result is [final]; otherwise the first
    unacceptable call throws, domain_error for a frequency outside [0, 1] and invalid_argument for a wrong order *)
Definition builder {D C} (call : D -> C -> outcome D) (freqs : C -> list R) (final : D -> list C -> D) : Prop := forall d,
  (forall cs, Forall (fun c => acceptable (freqs c)) cs -> calls call d cs = Ok (final d cs)) /\
  (forall before c after, Forall (fun c => acceptable (freqs c)) before -> ~ acceptable (freqs c) ->
     (~ Forall in_unit (freqs c) -> calls call d (before ++ c :: after) = Throw DomainError) /\
     (Forall in_unit (freqs c) -> calls call d (before ++ c :: after) = Throw InvalidArgument)).

(** ** Checks *)
Lemma normalized_iff f : normalized f = true <-> in_unit f.
Proof. unfold normalized, in_unit. destruct (Rle_dec 0 f), (Rle_dec f 1); cbn; intuition congruence. Qed.
Lemma not_normalized f : ~ in_unit f -> normalized f = false.
Proof. intros H. apply not_true_is_false. now rewrite normalized_iff. Qed.
Definition checks (freqs : list R) : outcome unit :=
  fold_right (fun f k => do _ <- ThrowIfNotNormalized f; k) (match freqs with [] => Ok tt | f :: fs => ThrowIfNotSorted f fs end) freqs.
Lemma chain_false fs : forall f, snd (fold_left chain_step fs (f, false)) = false.
Proof. induction fs as [|g fs IH]; intros f; [reflexivity|]. exact (IH g). Qed.
Lemma chain_sorted fs : forall f, snd (fold_left chain_step fs (f, true)) = true <-> Sorted Rle (f :: fs).
Proof.
  induction fs as [|g fs IH]; intros f; [split; [repeat constructor|reflexivity]|]. cbn [fold_left]. unfold chain_step at 2. cbn [fst snd andb]. destruct (Rle_dec f g) as [H|H].
  - rewrite IH. split; [intros S; constructor; [exact S|now constructor]|now inversion 1].
  - rewrite chain_false. split; [discriminate|]. inversion 1 as [|? ? ? Hd]; subst. inversion Hd; contradiction.
Qed.
Lemma sorted_check f fs : ThrowIfNotSorted f fs = Ok tt <-> Sorted Rle (f :: fs).
Proof. unfold ThrowIfNotSorted. rewrite <- chain_sorted. destruct (snd _); intuition congruence. Qed.
Lemma unsorted_check f fs : ~ Sorted Rle (f :: fs) -> ThrowIfNotSorted f fs = Throw InvalidArgument.
Proof. unfold ThrowIfNotSorted. rewrite <- chain_sorted. destruct (snd _); [intros H; now contradiction H|reflexivity]. Qed.
Lemma unit_prefix fs (k : outcome unit) : Forall in_unit fs -> fold_right (fun f k => do _ <- ThrowIfNotNormalized f; k) k fs = k.
Proof. induction 1 as [|f fs Hf _ IH]; [reflexivity|]. cbn [fold_right]. unfold ThrowIfNotNormalized at 1. apply normalized_iff in Hf. rewrite Hf. exact IH. Qed.
Lemma nonunit_prefix fs (k : outcome unit) : ~ Forall in_unit fs -> fold_right (fun f k => do _ <- ThrowIfNotNormalized f; k) k fs = Throw DomainError.
Proof.
  induction fs as [|f fs IH]; intros H; [now contradiction H|]. cbn [fold_right]. unfold ThrowIfNotNormalized at 1. destruct (normalized f) eqn:E; [|reflexivity]. apply IH. intros F. apply H. constructor; [now apply normalized_iff|exact F].
Qed.
Lemma checks_ok fs : acceptable fs -> checks fs = Ok tt.
Proof. intros [U S]. unfold checks. rewrite unit_prefix by exact U. destruct fs as [|f fs]; [reflexivity|now apply sorted_check]. Qed.
Lemma checks_domain fs : ~ Forall in_unit fs -> checks fs = Throw DomainError.
Proof. intros H. unfold checks. now apply nonunit_prefix. Qed.
Lemma checks_order fs : ~ acceptable fs -> Forall in_unit fs -> checks fs = Throw InvalidArgument.
Proof. intros H U. unfold checks. rewrite unit_prefix by exact U. assert (~ Sorted Rle fs) by (intros S; apply H; now split). destruct fs as [|f fs]; [destruct H0; constructor|now apply unsorted_check]. Qed.
Lemma calls_failed {D C} (call : D -> C -> outcome D) cs e : fold_left (fun d c => do d <- d; call d c) cs (Throw e) = Throw e.
Proof. induction cs as [|c cs IH]; [reflexivity|exact IH]. Qed.
(** a descriptor whose calls all are: check the frequencies, then update *)
Lemma builder_intro {D C} (call : D -> C -> outcome D) (freqs : C -> list R) (final : D -> list C -> D) :
  (forall d c, call d c = (do _ <- checks (freqs c); Ok (final d [c]))) -> (forall d, final d [] = d) -> (forall d c cs, final d (c :: cs) = final (final d [c]) cs) -> builder call freqs final.
Proof.
  intros Hc H0 H1 d. assert (A : forall cs d rest, Forall (fun c => acceptable (freqs c)) cs -> calls call d (cs ++ rest) = calls call (final d cs) rest).
  { induction cs as [|c cs IH]; intros d' rest F; [now rewrite H0|]. inversion F as [|? ? Hacc F']; subst. cbn [app]. rewrite H1. rewrite <- (IH (final d' [c]) rest F'). unfold calls. cbn [fold_left bind]. now rewrite Hc, checks_ok. }
  split.
  - intros cs F. rewrite <- (app_nil_r cs) at 1. now rewrite A.
  - intros before c after F Hn. rewrite !A by exact F. unfold calls. cbn [fold_left bind]. rewrite Hc. split; intros U; [rewrite checks_domain by exact U|rewrite checks_order by assumption]; cbn [bind]; apply calls_failed.
Qed.
Lemma check_one f : checks [f] = ThrowIfNotNormalized f.
Proof. unfold checks. cbn [fold_right]. unfold ThrowIfNotNormalized, ThrowIfNotSorted. cbn [fold_left snd bind]. now destruct (normalized f). Qed.
Ltac builder_tac u := apply builder_intro; [intros d c; u; destruct c; cbv beta iota; rewrite ?check_one; unfold checks; cbn [fold_right];
    unfold ThrowIfNotNormalized; repeat match goal with |- context [normalized ?f] => destruct (normalized f); cbn [bind]; try reflexivity end;
    try match goal with |- context [ThrowIfNotSorted ?f ?g] => destruct (ThrowIfNotSorted f g) as [[]| |] end; reflexivity
  |intros []; reflexivity|intros [] []; reflexivity].

Section Families.
Context {Win Fun : Type}.
(** FIR, windowed: lowpass and highpass *)
Inductive split_windowed_call := SWCutoff (cutoff : R) | SWWindow (w : Win).
Definition split_windowed_do (d : split_windowed Win) (c : split_windowed_call) : outcome (split_windowed Win) := match c with SWCutoff cutoff => SW_Cutoff _ d cutoff | SWWindow w => SW_Window _ d w end.
Theorem C46_fir_windowed_split : builder split_windowed_do
  (fun c => match c with SWCutoff cutoff => [cutoff] | SWWindow w => [] end)
  (fun d cs => {| sw_cutoff := last_of (fun c => match c with SWCutoff cutoff => Some cutoff | _ => None end) (sw_cutoff _ d) cs;
                  sw_window := last_of (fun c => match c with SWWindow w => Some w | _ => None end) (sw_window _ d) cs |}).
Proof. builder_tac ltac:(unfold split_windowed_do, SW_Cutoff, SW_Window). Qed.
(** FIR, windowed: bandpass and bandstop *)
Inductive band_windowed_call := BWBand (lower : R) (upper : R) | BWWindow (w : Win).
Definition band_windowed_do (d : band_windowed Win) (c : band_windowed_call) : outcome (band_windowed Win) := match c with BWBand lower upper => BW_Band _ d lower upper | BWWindow w => BW_Window _ d w end.
Theorem C46_fir_windowed_band : builder band_windowed_do
  (fun c => match c with BWBand lower upper => [lower; upper] | BWWindow w => [] end)
  (fun d cs => {| bw_lower := last_of (fun c => match c with BWBand lower _ => Some lower | _ => None end) (bw_lower _ d) cs;
                  bw_upper := last_of (fun c => match c with BWBand _ upper => Some upper | _ => None end) (bw_upper _ d) cs;
                  bw_window := last_of (fun c => match c with BWWindow w => Some w | _ => None end) (bw_window _ d) cs |}).
Proof. builder_tac ltac:(unfold band_windowed_do, BW_Band, BW_Window). Qed.
(** FIR, windowed: arbitrary response *)
Inductive arbitrary_windowed_call := AWResponse (f : Fun) | AWWindow (w : Win).
Definition arbitrary_windowed_do (d : arbitrary_windowed Win Fun) (c : arbitrary_windowed_call) : outcome (arbitrary_windowed Win Fun) := match c with AWResponse f => AW_Response _ _ d f | AWWindow w => AW_Window _ _ d w end.
Theorem C46_fir_windowed_arbitrary : builder arbitrary_windowed_do
  (fun c => match c with AWResponse f => [] | AWWindow w => [] end)
  (fun d cs => {| aw_response := last_of (fun c => match c with AWResponse f => Some f | _ => None end) (aw_response _ _ d) cs;
                  aw_window := last_of (fun c => match c with AWWindow w => Some w | _ => None end) (aw_window _ _ d) cs |}).
Proof. builder_tac ltac:(unfold arbitrary_windowed_do, AW_Response, AW_Window). Qed.
(** FIR, windowed: Hilbert *)
Inductive hilbert_windowed_call := HWWindow (w : Win).
Definition hilbert_windowed_do (d : hilbert_windowed Win) (c : hilbert_windowed_call) : outcome (hilbert_windowed Win) := match c with HWWindow w => HW_Window _ d w end.
Theorem C46_fir_windowed_hilbert : builder hilbert_windowed_do
  (fun c => match c with HWWindow w => [] end)
  (fun d cs => {| hw_window := last_of (fun c => match c with HWWindow w => Some w end) (hw_window _ d) cs |}).
Proof. builder_tac ltac:(unfold hilbert_windowed_do, HW_Window). Qed.
(** FIR, least squares: arbitrary response *)
Inductive arbitrary_ls_call := ALResponse (f : Fun) | ALWeight (f : Fun) | ALGrid (g : Z).
Definition arbitrary_ls_do (d : arbitrary_ls Fun) (c : arbitrary_ls_call) : outcome (arbitrary_ls Fun) := match c with ALResponse f => AL_Response _ d f | ALWeight f => AL_Weight _ d f | ALGrid g => AL_Grid _ d g end.
Theorem C46_fir_ls_arbitrary : builder arbitrary_ls_do
  (fun c => match c with ALResponse f => [] | ALWeight f => [] | ALGrid g => [] end)
  (fun d cs => {| al_response := last_of (fun c => match c with ALResponse f => Some f | _ => None end) (al_response _ d) cs;
                  al_weight := last_of (fun c => match c with ALWeight f => Some f | _ => None end) (al_weight _ d) cs;
                  al_grid := last_of (fun c => match c with ALGrid g => Some g | _ => None end) (al_grid _ d) cs |}).
Proof. builder_tac ltac:(unfold arbitrary_ls_do, AL_Response, AL_Weight, AL_Grid). Qed.
End Families.
(** FIR, least squares: lowpass and highpass *)
Inductive split_ls_call := LSCutoff (b : R) (e : R) | LSWeight (low : R) (transition : R) (high : R) | LSGrid (g : Z).
Definition split_ls_do (d : split_ls) (c : split_ls_call) : outcome (split_ls) := match c with LSCutoff b e => LS_Cutoff d b e | LSWeight low transition high => LS_Weight d low transition high | LSGrid g => LS_Grid d g end.
Theorem C46_fir_ls_split : builder split_ls_do
  (fun c => match c with LSCutoff b e => [b; e] | LSWeight low transition high => [] | LSGrid g => [] end)
  (fun d cs => {| cutoffBegin := last_of (fun c => match c with LSCutoff b _ => Some b | _ => None end) (cutoffBegin d) cs;
                  cutoffEnd := last_of (fun c => match c with LSCutoff _ e => Some e | _ => None end) (cutoffEnd d) cs;
                  weightLow := last_of (fun c => match c with LSWeight low _ _ => Some low | _ => None end) (weightLow d) cs;
                  weightTransition := last_of (fun c => match c with LSWeight _ transition _ => Some transition | _ => None end) (weightTransition d) cs;
                  weightHigh := last_of (fun c => match c with LSWeight _ _ high => Some high | _ => None end) (weightHigh d) cs;
                  grid := last_of (fun c => match c with LSGrid g => Some g | _ => None end) (grid d) cs |}).
Proof. builder_tac ltac:(unfold split_ls_do, LS_Cutoff, LS_Weight, LS_Grid). Qed.
(** FIR, least squares: bandpass and bandstop *)
Inductive band_ls_call := LBBand (lb : R) (le : R) (ub : R) (ue : R) | LBWeight (low : R) (t1 : R) (mid : R) (t2 : R) (high : R) | LBGrid (g : Z).
Definition band_ls_do (d : band_ls) (c : band_ls_call) : outcome (band_ls) := match c with LBBand lb le ub ue => LB_Band d lb le ub ue | LBWeight low t1 mid t2 high => LB_Weight d low t1 mid t2 high | LBGrid g => LB_Grid d g end.
Theorem C46_fir_ls_band : builder band_ls_do
  (fun c => match c with LBBand lb le ub ue => [lb; le; ub; ue] | LBWeight low t1 mid t2 high => [] | LBGrid g => [] end)
  (fun d cs => {| lowerBegin := last_of (fun c => match c with LBBand lb _ _ _ => Some lb | _ => None end) (lowerBegin d) cs;
                  lowerEnd := last_of (fun c => match c with LBBand _ le _ _ => Some le | _ => None end) (lowerEnd d) cs;
                  upperBegin := last_of (fun c => match c with LBBand _ _ ub _ => Some ub | _ => None end) (upperBegin d) cs;
                  upperEnd := last_of (fun c => match c with LBBand _ _ _ ue => Some ue | _ => None end) (upperEnd d) cs;
                  bweightLow := last_of (fun c => match c with LBWeight low _ _ _ _ => Some low | _ => None end) (bweightLow d) cs;
                  weightTransition1 := last_of (fun c => match c with LBWeight _ t1 _ _ _ => Some t1 | _ => None end) (weightTransition1 d) cs;
                  weightMid := last_of (fun c => match c with LBWeight _ _ mid _ _ => Some mid | _ => None end) (weightMid d) cs;
                  weightTransition2 := last_of (fun c => match c with LBWeight _ _ _ t2 _ => Some t2 | _ => None end) (weightTransition2 d) cs;
                  bweightHigh := last_of (fun c => match c with LBWeight _ _ _ _ high => Some high | _ => None end) (bweightHigh d) cs;
                  bgrid := last_of (fun c => match c with LBGrid g => Some g | _ => None end) (bgrid d) cs |}).
Proof. builder_tac ltac:(unfold band_ls_do, LB_Band, LB_Weight, LB_Grid). Qed.
(** FIR, least squares: Hilbert *)
Inductive hilbert_ls_call := HLWidth (w : R) | HLWeight (w : R) | HLGrid (g : Z).
Definition hilbert_ls_do (d : hilbert_ls) (c : hilbert_ls_call) : outcome (hilbert_ls) := match c with HLWidth w => HL_TransitionWidth d w | HLWeight w => HL_TransitionWeight d w | HLGrid g => HL_Grid d g end.
Theorem C46_fir_ls_hilbert : builder hilbert_ls_do
  (fun c => match c with HLWidth w => [] | HLWeight w => [] | HLGrid g => [] end)
  (fun d cs => {| hl_width := last_of (fun c => match c with HLWidth w => Some w | _ => None end) (hl_width d) cs;
                  hl_weight := last_of (fun c => match c with HLWeight w => Some w | _ => None end) (hl_weight d) cs;
                  hl_grid := last_of (fun c => match c with HLGrid g => Some g | _ => None end) (hl_grid d) cs |}).
Proof. builder_tac ltac:(unfold hilbert_ls_do, HL_TransitionWidth, HL_TransitionWeight, HL_Grid). Qed.
(** IIR, Butterworth: lowpass and highpass *)
Inductive split_butter_call := SBCutoff (cutoff : R).
Definition split_butter_do (d : split_butter) (c : split_butter_call) : outcome (split_butter) := match c with SBCutoff cutoff => SB_Cutoff d cutoff end.
Theorem C46_butterworth_split : builder split_butter_do
  (fun c => match c with SBCutoff cutoff => [cutoff] end)
  (fun d cs => {| sb_cutoff := last_of (fun c => match c with SBCutoff cutoff => Some cutoff end) (sb_cutoff d) cs |}).
Proof. builder_tac ltac:(unfold split_butter_do, SB_Cutoff). Qed.
(** IIR, Butterworth: bandpass and bandstop *)
Inductive band_butter_call := BBBand (lower : R) (upper : R).
Definition band_butter_do (d : band_butter) (c : band_butter_call) : outcome (band_butter) := match c with BBBand lower upper => BB_Band d lower upper end.
Theorem C46_butterworth_band : builder band_butter_do
  (fun c => match c with BBBand lower upper => [lower; upper] end)
  (fun d cs => {| bb_lower := last_of (fun c => match c with BBBand lower _ => Some lower end) (bb_lower d) cs;
                  bb_upper := last_of (fun c => match c with BBBand _ upper => Some upper end) (bb_upper d) cs |}).
Proof. builder_tac ltac:(unfold band_butter_do, BB_Band). Qed.
(** IIR, Chebyshev I and II: lowpass and highpass *)
Inductive split_cheb_call := SCCutoff (cutoff : R) | SCRipple (r : R).
Definition split_cheb_do (d : split_cheb) (c : split_cheb_call) : outcome (split_cheb) := match c with SCCutoff cutoff => SC_Cutoff d cutoff | SCRipple r => SC_Ripple d r end.
Theorem C46_chebyshev_split : builder split_cheb_do
  (fun c => match c with SCCutoff cutoff => [cutoff] | SCRipple r => [] end)
  (fun d cs => {| sc_cutoff := last_of (fun c => match c with SCCutoff cutoff => Some cutoff | _ => None end) (sc_cutoff d) cs;
                  sc_ripple := last_of (fun c => match c with SCRipple r => Some r | _ => None end) (sc_ripple d) cs |}).
Proof. builder_tac ltac:(unfold split_cheb_do, SC_Cutoff, SC_Ripple). Qed.
(** IIR, Chebyshev I and II: bandpass and bandstop *)
Inductive band_cheb_call := BCBand (lower : R) (upper : R) | BCRipple (r : R).
Definition band_cheb_do (d : band_cheb) (c : band_cheb_call) : outcome (band_cheb) := match c with BCBand lower upper => BC_Band d lower upper | BCRipple r => BC_Ripple d r end.
Theorem C46_chebyshev_band : builder band_cheb_do
  (fun c => match c with BCBand lower upper => [lower; upper] | BCRipple r => [] end)
  (fun d cs => {| bc_lower := last_of (fun c => match c with BCBand lower _ => Some lower | _ => None end) (bc_lower d) cs;
                  bc_upper := last_of (fun c => match c with BCBand _ upper => Some upper | _ => None end) (bc_upper d) cs;
                  bc_ripple := last_of (fun c => match c with BCRipple r => Some r | _ => None end) (bc_ripple d) cs |}).
Proof. builder_tac ltac:(unfold band_cheb_do, BC_Band, BC_Ripple). Qed.
(** IIR, elliptic: lowpass and highpass *)
Inductive split_ell_call := SECutoff (cutoff : R) | SEPass (r : R) | SEStop (r : R).
Definition split_ell_do (d : split_ell) (c : split_ell_call) : outcome (split_ell) := match c with SECutoff cutoff => SE_Cutoff d cutoff | SEPass r => SE_PassbandRipple d r | SEStop r => SE_StopbandRipple d r end.
Theorem C46_elliptic_split : builder split_ell_do
  (fun c => match c with SECutoff cutoff => [cutoff] | SEPass r => [] | SEStop r => [] end)
  (fun d cs => {| se_cutoff := last_of (fun c => match c with SECutoff cutoff => Some cutoff | _ => None end) (se_cutoff d) cs;
                  se_pass := last_of (fun c => match c with SEPass r => Some r | _ => None end) (se_pass d) cs;
                  se_stop := last_of (fun c => match c with SEStop r => Some r | _ => None end) (se_stop d) cs |}).
Proof. builder_tac ltac:(unfold split_ell_do, SE_Cutoff, SE_PassbandRipple, SE_StopbandRipple). Qed.
(** IIR, elliptic: bandpass and bandstop *)
Inductive band_ell_call := BEBand (lower : R) (upper : R) | BEPass (r : R) | BEStop (r : R).
Definition band_ell_do (d : band_ell) (c : band_ell_call) : outcome (band_ell) := match c with BEBand lower upper => BE_Band d lower upper | BEPass r => BE_PassbandRipple d r | BEStop r => BE_StopbandRipple d r end.
Theorem C46_elliptic_band : builder band_ell_do
  (fun c => match c with BEBand lower upper => [lower; upper] | BEPass r => [] | BEStop r => [] end)
  (fun d cs => {| be_lower := last_of (fun c => match c with BEBand lower _ => Some lower | _ => None end) (be_lower d) cs;
                  be_upper := last_of (fun c => match c with BEBand _ upper => Some upper | _ => None end) (be_upper d) cs;
                  be_pass := last_of (fun c => match c with BEPass r => Some r | _ => None end) (be_pass d) cs;
                  be_stop := last_of (fun c => match c with BEStop r => Some r | _ => None end) (be_stop d) cs |}).
Proof. builder_tac ltac:(unfold band_ell_do, BE_Band, BE_PassbandRipple, BE_StopbandRipple). Qed.
Print Assumptions C46_fir_windowed_split.
Print Assumptions C46_fir_windowed_band.
Print Assumptions C46_fir_windowed_arbitrary.
Print Assumptions C46_fir_windowed_hilbert.
Print Assumptions C46_fir_ls_arbitrary.
Print Assumptions C46_fir_ls_split.
Print Assumptions C46_fir_ls_band.
Print Assumptions C46_fir_ls_hilbert.
Print Assumptions C46_butterworth_split.
Print Assumptions C46_butterworth_band.
Print Assumptions C46_chebyshev_split.
Print Assumptions C46_chebyshev_band.
Print Assumptions C46_elliptic_split.
Print Assumptions C46_elliptic_band.

(** ** The descriptors without parameters yet *)
(** a first call on one of them is the same call on a descriptor with all parameters at their defaults *)
Lemma check_twice {A} f (k : outcome A) : (do _ <- ThrowIfNotNormalized f; do _ <- ThrowIfNotNormalized f; k) = (do _ <- ThrowIfNotNormalized f; k).
Proof. unfold ThrowIfNotNormalized. now destruct (normalized f). Qed.
Theorem C46_first_call :
  (forall c, SC_void_Cutoff c = split_cheb_do sc_default (SCCutoff c)) /\ (forall r, SC_void_Ripple r = split_cheb_do sc_default (SCRipple r)) /\
  (forall l u, BC_void_Band l u = band_cheb_do bc_default (BCBand l u)) /\ (forall r, BC_void_Ripple r = band_cheb_do bc_default (BCRipple r)) /\
  (forall c, SE_void_Cutoff c = split_ell_do se_default (SECutoff c)) /\ (forall r, SE_void_PassbandRipple r = split_ell_do se_default (SEPass r)) /\
  (forall r, SE_void_StopbandRipple r = split_ell_do se_default (SEStop r)) /\
  (forall l u, BE_void_Band l u = band_ell_do be_default (BEBand l u)) /\ (forall r, BE_void_PassbandRipple r = band_ell_do be_default (BEPass r)) /\
  (forall r, BE_void_StopbandRipple r = band_ell_do be_default (BEStop r)) /\
  (forall b e, LS_void_Cutoff b e = split_ls_do ls_split_default (LSCutoff b e)) /\ (forall l t h, LS_void_Weight l t h = split_ls_do ls_split_default (LSWeight l t h)) /\
  (forall a b c d, LB_void_Band a b c d = band_ls_do ls_band_default (LBBand a b c d)) /\ (forall a b c d e, LB_void_Weight a b c d e = band_ls_do ls_band_default (LBWeight a b c d e)) /\
  (forall w, HL_void_TransitionWidth w = hilbert_ls_do hl_default (HLWidth w)) /\ (forall w, HL_void_TransitionWeight w = hilbert_ls_do hl_default (HLWeight w)).
Proof.
  repeat split; try reflexivity.
  - intros c. unfold SC_void_Cutoff, split_cheb_do, SC_Cutoff. now rewrite check_twice.
  - intros l u. unfold BC_void_Band, band_cheb_do, BC_Band, ThrowIfNotNormalized. destruct (normalized l), (normalized u); cbn [bind]; try reflexivity. now destruct (ThrowIfNotSorted l [u]) as [[]| |].
  - intros c. unfold SE_void_Cutoff, split_ell_do, SE_Cutoff. now rewrite check_twice.
  - intros l u. unfold BE_void_Band, band_ell_do, BE_Band, ThrowIfNotNormalized. destruct (normalized l), (normalized u); cbn [bind]; try reflexivity. now destruct (ThrowIfNotSorted l [u]) as [[]| |].
Qed.
Print Assumptions C46_first_call.
(** the defaults: usable band frequencies, except that the least squares Hilbert descriptor's default width is one for
    which the design throws (C53_hilbert_default_refuted) *)
Theorem C46_defaults (hamming : R) :
  acceptable [sw_cutoff _ (sw_default R hamming)] /\ acceptable [bw_lower _ (bw_default R hamming); bw_upper _ (bw_default R hamming)] /\
  acceptable [cutoffBegin ls_split_default; cutoffEnd ls_split_default] /\ acceptable [lowerBegin ls_band_default; lowerEnd ls_band_default; upperBegin ls_band_default; upperEnd ls_band_default] /\
  acceptable [sb_cutoff sb_default] /\ acceptable [bb_lower bb_default; bb_upper bb_default] /\ acceptable [sc_cutoff sc_default] /\
  acceptable [bc_lower bc_default; bc_upper bc_default] /\ acceptable [se_cutoff se_default] /\ acceptable [be_lower be_default; be_upper be_default].
Proof.
  unfold sw_default, bw_default, ls_split_default, ls_band_default, sb_default, bb_default, sc_default, bc_default, se_default, be_default.
  cbn [sw_cutoff bw_lower bw_upper cutoffBegin cutoffEnd lowerBegin lowerEnd upperBegin upperEnd sb_cutoff bb_lower bb_upper sc_cutoff bc_lower bc_upper se_cutoff be_lower be_upper].
  unfold acceptable. repeat match goal with |- _ /\ _ => split | |- Forall _ _ => constructor | |- in_unit _ => unfold in_unit; lra | |- Sorted _ _ => constructor | |- HdRel _ _ _ => constructor | |- Rle _ _ => lra end.
Qed.
Print Assumptions C46_defaults.
(** frequencies given in Hz: the Nyquist frequency is 1 *)
Theorem C46_normalized_frequency (f fs : R) : (0 < fs)%R -> in_unit (NormalizedFrequency f fs) <-> (0 <= f <= fs / 2)%R.
Proof.
  intros H. unfold in_unit, NormalizedFrequency, Rdiv. pose proof (Rinv_0_lt_compat fs H) as Hi. assert (E : (fs * / fs = 1)%R) by (field; lra). set (q := (/ fs)%R) in *. split; intros [A B]; split.
  - assert (0 <= 2 * f * q * fs)%R by (apply Rmult_le_pos; lra). replace (2 * f * q * fs)%R with (2 * f)%R in * by (replace (2 * f * q * fs)%R with (2 * f * (fs * q))%R by ring; rewrite E; ring). lra.
  - assert (2 * f * q * fs <= 1 * fs)%R by (apply Rmult_le_compat_r; lra). replace (2 * f * q * fs)%R with (2 * f)%R in * by (replace (2 * f * q * fs)%R with (2 * f * (fs * q))%R by ring; rewrite E; ring). lra.
  - apply Rmult_le_pos; lra.
  - rewrite <- E. apply Rmult_le_compat_r; lra.
Qed.
Print Assumptions C46_normalized_frequency.
(** (ripples, weights and transition widths are not checked: their calls list no frequencies above) *)
Example C46_nontrivial : calls (C := split_cheb_call) split_cheb_do sc_default [SCRipple (1 / 5); SCCutoff (1 / 4); SCCutoff (1 / 3)] = Ok {| sc_cutoff := 1 / 3; sc_ripple := 1 / 5 |} /\
  calls band_cheb_do bc_default [BCBand (3 / 4) (1 / 4); BCRipple (1 / 2)] = Throw InvalidArgument /\ calls band_cheb_do bc_default [BCRipple 7; BCBand (3 / 4) 2] = Throw DomainError.
Proof.
  assert (A : forall f, (0 <= f <= 1)%R -> acceptable [f]) by (intros f H; split; [constructor; [exact H|constructor]|repeat constructor]).
  split; [destruct (C46_chebyshev_split sc_default) as [H _]; rewrite H; [reflexivity|]; constructor; [split; constructor|]; constructor; [apply A; lra|]; constructor; [apply A; lra|]; constructor|].
  split.
  - destruct (C46_chebyshev_band bc_default) as [_ H]. destruct (H [] (BCBand (3 / 4) (1 / 4)) [BCRipple (1 / 2)]) as [_ K]; [constructor|intros [_ S]; inversion S as [|? ? ? Hd]; subst; inversion Hd; lra|]. apply K. constructor; [unfold in_unit; lra|]. constructor; [unfold in_unit; lra|constructor].
  - destruct (C46_chebyshev_band bc_default) as [_ H]. assert (U : ~ Forall in_unit [3 / 4; 2]%R) by (intros F; inversion F as [|? ? _ F']; subst; inversion F' as [|? ? Hu _]; subst; unfold in_unit in Hu; lra).
    destruct (H [BCRipple 7] (BCBand (3 / 4) 2) []) as [K _]; [repeat constructor|intros [F _]; contradiction|]. exact (K U).
Qed.
