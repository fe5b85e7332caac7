(** Model of include/dspbb/Filtering/FIR/Descs.hpp, IIR/Descs.hpp and FilterUtility.hpp: filter descriptors.
    Simplifications: parameter types are all R (the C++ builders may change or narrow the numeric type), so that only the
    values are modelled; window and function objects are values of arbitrary types; the [nodiscard] builders return a new
    descriptor, hence pure functions.  For the descriptors declared with parameter type void (no parameters yet), the
    first call is made on a default-constructed descriptor of the parameter's type, after the checks the void descriptor
    makes itself. *)
From Coq Require Import Reals.
From Verif Require Import Base FirDesignModel.
Open Scope Z_scope.

(* FilterUtility.hpp 9-12 *)
Definition NormalizedFrequency (frequency sampleRate : R) : R := (2 * frequency / sampleRate)%R.
(* FilterUtility.hpp 14-21 *)
Definition ThrowIfNotNormalized (frequency : R) : outcome unit :=
  if normalized frequency then Ok tt else Throw DomainError.
(* FilterUtility.hpp 23-45: (chain < ... < frequencies), the chain carries the last value and the verdict so far *)
Definition chain_step (s : R * bool) (rhs : R) : R * bool :=
  (rhs, snd s && (if Rle_dec (fst s) rhs then true else false)).
Definition ThrowIfNotSorted (frequency : R) (frequencies : list R) : outcome unit :=
  if snd (fold_left chain_step frequencies (frequency, true)) then Ok tt else Throw InvalidArgument.

Section Descs.
(** types of window objects (functors or signals), response and weight functions *)
Variables (Win Fun : Type).

(* FIR/Descs.hpp 26-51 *)
Record split_windowed := { sw_cutoff : R; sw_window : Win }.
Definition sw_default (hamming : Win) : split_windowed := {| sw_cutoff := 1 / 2; sw_window := hamming |}.
Definition SW_Cutoff (d : split_windowed) (cutoffNew : R) : outcome split_windowed :=
  do _ <- ThrowIfNotNormalized cutoffNew; Ok {| sw_cutoff := cutoffNew; sw_window := sw_window d |}.
Definition SW_Window (d : split_windowed) (windowNew : Win) : outcome split_windowed :=
  Ok {| sw_cutoff := sw_cutoff d; sw_window := windowNew |}.

(* FIR/Descs.hpp 53-81 *)
Record band_windowed := { bw_lower : R; bw_upper : R; bw_window : Win }.
Definition bw_default (hamming : Win) : band_windowed := {| bw_lower := 1 / 4; bw_upper := 3 / 4; bw_window := hamming |}.
Definition BW_Band (d : band_windowed) (lowerNew upperNew : R) : outcome band_windowed :=
  do _ <- ThrowIfNotNormalized lowerNew; do _ <- ThrowIfNotNormalized upperNew; do _ <- ThrowIfNotSorted lowerNew [upperNew];
  Ok {| bw_lower := lowerNew; bw_upper := upperNew; bw_window := bw_window d |}.
Definition BW_Window (d : band_windowed) (windowNew : Win) : outcome band_windowed :=
  Ok {| bw_lower := bw_lower d; bw_upper := bw_upper d; bw_window := windowNew |}.

(* FIR/Descs.hpp 83-100 *)
Record arbitrary_windowed := { aw_response : Fun; aw_window : Win }.
Definition AW_Response (d : arbitrary_windowed) (f : Fun) : outcome arbitrary_windowed := Ok {| aw_response := f; aw_window := aw_window d |}.
Definition AW_Window (d : arbitrary_windowed) (w : Win) : outcome arbitrary_windowed := Ok {| aw_response := aw_response d; aw_window := w |}.

(* FIR/Descs.hpp 102-114 *)
Record hilbert_windowed := { hw_window : Win }.
Definition HW_Window (d : hilbert_windowed) (w : Win) : outcome hilbert_windowed := Ok {| hw_window := w |}.

(* FIR/Descs.hpp 121-149; record split_ls in FirDesignModel.v *)
Definition ls_split_default : split_ls :=
  {| cutoffBegin := 45 / 100; cutoffEnd := 55 / 100; weightLow := 1; weightTransition := 0; weightHigh := 1; grid := 0 |}.
Definition LS_Cutoff (d : split_ls) (b e : R) : outcome split_ls :=
  do _ <- ThrowIfNotNormalized b; do _ <- ThrowIfNotNormalized e; do _ <- ThrowIfNotSorted b [e];
  Ok {| cutoffBegin := b; cutoffEnd := e; weightLow := weightLow d; weightTransition := weightTransition d; weightHigh := weightHigh d; grid := grid d |}.
Definition LS_Weight (d : split_ls) (newLow newTransition newHigh : R) : outcome split_ls :=
  Ok {| cutoffBegin := cutoffBegin d; cutoffEnd := cutoffEnd d; weightLow := newLow; weightTransition := newTransition; weightHigh := newHigh; grid := grid d |}.
Definition LS_Grid (d : split_ls) (gridNew : Z) : outcome split_ls :=
  Ok {| cutoffBegin := cutoffBegin d; cutoffEnd := cutoffEnd d; weightLow := weightLow d; weightTransition := weightTransition d; weightHigh := weightHigh d; grid := gridNew |}.

(* FIR/Descs.hpp 152-188; record band_ls in FirDesignModel.v *)
Definition ls_band_default : band_ls :=
  {| lowerBegin := 2 / 10; lowerEnd := 3 / 10; upperBegin := 7 / 10; upperEnd := 8 / 10;
     bweightLow := 1; weightTransition1 := 0; weightMid := 1; weightTransition2 := 0; bweightHigh := 1; bgrid := 0 |}.
Definition LB_Band (d : band_ls) (lb le ub ue : R) : outcome band_ls :=
  do _ <- ThrowIfNotNormalized lb; do _ <- ThrowIfNotNormalized le; do _ <- ThrowIfNotNormalized ub; do _ <- ThrowIfNotNormalized ue;
  do _ <- ThrowIfNotSorted lb [le; ub; ue];
  Ok {| lowerBegin := lb; lowerEnd := le; upperBegin := ub; upperEnd := ue;
        bweightLow := bweightLow d; weightTransition1 := weightTransition1 d; weightMid := weightMid d; weightTransition2 := weightTransition2 d; bweightHigh := bweightHigh d; bgrid := bgrid d |}.
Definition LB_Weight (d : band_ls) (l t1 m t2 h : R) : outcome band_ls :=
  Ok {| lowerBegin := lowerBegin d; lowerEnd := lowerEnd d; upperBegin := upperBegin d; upperEnd := upperEnd d;
        bweightLow := l; weightTransition1 := t1; weightMid := m; weightTransition2 := t2; bweightHigh := h; bgrid := bgrid d |}.
Definition LB_Grid (d : band_ls) (gridNew : Z) : outcome band_ls :=
  Ok {| lowerBegin := lowerBegin d; lowerEnd := lowerEnd d; upperBegin := upperBegin d; upperEnd := upperEnd d;
        bweightLow := bweightLow d; weightTransition1 := weightTransition1 d; weightMid := weightMid d; weightTransition2 := weightTransition2 d; bweightHigh := bweightHigh d; bgrid := gridNew |}.

(* FIR/Descs.hpp 190-205 *)
Record hilbert_ls := { hl_width : R; hl_weight : R; hl_grid : Z }.
Definition hl_default : hilbert_ls := {| hl_width := 1; hl_weight := 1; hl_grid := 0 |}.
Definition HL_TransitionWidth (d : hilbert_ls) (w : R) : outcome hilbert_ls := Ok {| hl_width := w; hl_weight := hl_weight d; hl_grid := hl_grid d |}.
Definition HL_TransitionWeight (d : hilbert_ls) (w : R) : outcome hilbert_ls := Ok {| hl_width := hl_width d; hl_weight := w; hl_grid := hl_grid d |}.
Definition HL_Grid (d : hilbert_ls) (g : Z) : outcome hilbert_ls := Ok {| hl_width := hl_width d; hl_weight := hl_weight d; hl_grid := g |}.

(* FIR/Descs.hpp 208-226 *)
Record arbitrary_ls := { al_response : Fun; al_weight : Fun; al_grid : Z }.
Definition AL_Response (d : arbitrary_ls) (f : Fun) : outcome arbitrary_ls := Ok {| al_response := f; al_weight := al_weight d; al_grid := al_grid d |}.
Definition AL_Weight (d : arbitrary_ls) (f : Fun) : outcome arbitrary_ls := Ok {| al_response := al_response d; al_weight := f; al_grid := al_grid d |}.
Definition AL_Grid (d : arbitrary_ls) (g : Z) : outcome arbitrary_ls := Ok {| al_response := al_response d; al_weight := al_weight d; al_grid := g |}.

(* IIR/Descs.hpp 16-39: Butterworth *)
Record split_butter := { sb_cutoff : R }.
Definition sb_default : split_butter := {| sb_cutoff := 1 / 2 |}.
Definition SB_Cutoff (d : split_butter) (c : R) : outcome split_butter := do _ <- ThrowIfNotNormalized c; Ok {| sb_cutoff := c |}.
Record band_butter := { bb_lower : R; bb_upper : R }.
Definition bb_default : band_butter := {| bb_lower := 1 / 4; bb_upper := 3 / 4 |}.
Definition BB_Band (d : band_butter) (l u : R) : outcome band_butter :=
  do _ <- ThrowIfNotNormalized l; do _ <- ThrowIfNotNormalized u; do _ <- ThrowIfNotSorted l [u]; Ok {| bb_lower := l; bb_upper := u |}.

(* IIR/Descs.hpp 58-87 (Chebyshev type I: the passband ripple) and 146-175 (type II: the stopband ripple); the two are
   the same code up to the name of the ripple *)
Record split_cheb := { sc_cutoff : R; sc_ripple : R }.
Definition sc_default : split_cheb := {| sc_cutoff := 1 / 2; sc_ripple := 1 / 10 |}.
Definition SC_Cutoff (d : split_cheb) (c : R) : outcome split_cheb := do _ <- ThrowIfNotNormalized c; Ok {| sc_cutoff := c; sc_ripple := sc_ripple d |}.
Definition SC_Ripple (d : split_cheb) (r : R) : outcome split_cheb := Ok {| sc_cutoff := sc_cutoff d; sc_ripple := r |}.
Record band_cheb := { bc_lower : R; bc_upper : R; bc_ripple : R }.
Definition bc_default : band_cheb := {| bc_lower := 1 / 4; bc_upper := 3 / 4; bc_ripple := 1 / 10 |}.
Definition BC_Band (d : band_cheb) (l u : R) : outcome band_cheb :=
  do _ <- ThrowIfNotNormalized l; do _ <- ThrowIfNotNormalized u; do _ <- ThrowIfNotSorted l [u];
  Ok {| bc_lower := l; bc_upper := u; bc_ripple := bc_ripple d |}.
Definition BC_Ripple (d : band_cheb) (r : R) : outcome band_cheb := Ok {| bc_lower := bc_lower d; bc_upper := bc_upper d; bc_ripple := r |}.
(* IIR/Descs.hpp 89-116, 177-204: the void descriptors; checks, then the call on a default-constructed descriptor *)
Definition SC_void_Cutoff (c : R) : outcome split_cheb := do _ <- ThrowIfNotNormalized c; SC_Cutoff sc_default c.
Definition SC_void_Ripple (r : R) : outcome split_cheb := SC_Ripple sc_default r.
Definition BC_void_Band (l u : R) : outcome band_cheb :=
  do _ <- ThrowIfNotNormalized l; do _ <- ThrowIfNotNormalized u; do _ <- ThrowIfNotSorted l [u]; BC_Band bc_default l u.
Definition BC_void_Ripple (r : R) : outcome band_cheb := BC_Ripple bc_default r.

(* IIR/Descs.hpp 233-270: elliptic *)
Record split_ell := { se_cutoff : R; se_pass : R; se_stop : R }.
Definition se_default : split_ell := {| se_cutoff := 1 / 2; se_pass := 1 / 10; se_stop := 1 / 10 |}.
Definition SE_Cutoff (d : split_ell) (c : R) : outcome split_ell := do _ <- ThrowIfNotNormalized c; Ok {| se_cutoff := c; se_pass := se_pass d; se_stop := se_stop d |}.
Definition SE_PassbandRipple (d : split_ell) (r : R) : outcome split_ell := Ok {| se_cutoff := se_cutoff d; se_pass := r; se_stop := se_stop d |}.
Definition SE_StopbandRipple (d : split_ell) (r : R) : outcome split_ell := Ok {| se_cutoff := se_cutoff d; se_pass := se_pass d; se_stop := r |}.
Record band_ell := { be_lower : R; be_upper : R; be_pass : R; be_stop : R }.
Definition be_default : band_ell := {| be_lower := 1 / 4; be_upper := 3 / 4; be_pass := 1 / 10; be_stop := 1 / 10 |}.
Definition BE_Band (d : band_ell) (l u : R) : outcome band_ell :=
  do _ <- ThrowIfNotNormalized l; do _ <- ThrowIfNotNormalized u; do _ <- ThrowIfNotSorted l [u];
  Ok {| be_lower := l; be_upper := u; be_pass := be_pass d; be_stop := be_stop d |}.
Definition BE_PassbandRipple (d : band_ell) (r : R) : outcome band_ell := Ok {| be_lower := be_lower d; be_upper := be_upper d; be_pass := r; be_stop := be_stop d |}.
Definition BE_StopbandRipple (d : band_ell) (r : R) : outcome band_ell := Ok {| be_lower := be_lower d; be_upper := be_upper d; be_pass := be_pass d; be_stop := r |}.
(* IIR/Descs.hpp 272-307: the void descriptors *)
Definition SE_void_Cutoff (c : R) : outcome split_ell := do _ <- ThrowIfNotNormalized c; SE_Cutoff se_default c.
Definition SE_void_PassbandRipple (r : R) : outcome split_ell := SE_PassbandRipple se_default r.
Definition SE_void_StopbandRipple (r : R) : outcome split_ell := SE_StopbandRipple se_default r.
Definition BE_void_Band (l u : R) : outcome band_ell :=
  do _ <- ThrowIfNotNormalized l; do _ <- ThrowIfNotNormalized u; do _ <- ThrowIfNotSorted l [u]; BE_Band be_default l u.
Definition BE_void_PassbandRipple (r : R) : outcome band_ell := BE_PassbandRipple be_default r.
Definition BE_void_StopbandRipple (r : R) : outcome band_ell := BE_StopbandRipple be_default r.
(* FIR/Descs.hpp 228-282: the void descriptors of the least squares method; Grid only exists on the typed ones *)
Definition LS_void_Cutoff (b e : R) : outcome split_ls := LS_Cutoff ls_split_default b e.
Definition LS_void_Weight (l t h : R) : outcome split_ls := LS_Weight ls_split_default l t h.
Definition LB_void_Band (lb le ub ue : R) : outcome band_ls := LB_Band ls_band_default lb le ub ue.
Definition LB_void_Weight (l t1 m t2 h : R) : outcome band_ls := LB_Weight ls_band_default l t1 m t2 h.
Definition HL_void_TransitionWidth (w : R) : outcome hilbert_ls := HL_TransitionWidth hl_default w.
Definition HL_void_TransitionWeight (w : R) : outcome hilbert_ls := HL_TransitionWeight hl_default w.
End Descs.
