(** Model of the extended filter of ceacoest/kalman (base.py, extended.py) as
    an object, in the manner of [ObjModel]: all its methods, statement by
    statement, up to the point where they cannot go on.

    Simplified: as in [ObjModel]; the functions of the model exist and do not
    raise; the time index minus one of [prediction_diff] is only used after
    [predict], when it is not negative. *)
From Coq Require Import String Ascii.
From Verif Require Import Py.
From mathcomp Require Import all_ssreflect all_algebra.
From Verif Require Import KalModel NpModel NdKalModel ObjModel.
Set Implicit Arguments.
Unset Strict Implicit.
Unset Printing Implicit Defensive.
Import Order.TTheory GRing.Theory Num.Theory.
Local Open Scope ring_scope.

Section Methods.
Variable F : rcfType.
Local Notation nd := (nd F).
Local Notation met := (met F).
Local Notation getA := (geta (@asA F)).
Local Notation getN := (geta (@asN F)).
Local Notation getB := (geta (@asB F)).
Local Open Scope string_scope.

(** ** base.py, for any class of filters *)

(** The methods a subclass of [DTFilter] defines. *)
Record dtclass := DTClass {
  m_predict : met (nd * nd); m_prediction_diff : met unit; m_prediction_diff2 : met unit; m_prediction_crosscov : met nd;
  m_correct : nmeas F -> met (nd * nd); m_correction_diff : met unit; m_correction_diff2 : met unit;
  m_update_likelihood : met unit; m_likelihood_diff : met unit; m_likelihood_diff2 : met unit }.

Section Loops.
Variable c : dtclass.

(** base.py:94-105 [filter(y)]. *)
Definition dt_filter (ys : seq (nmeas F)) : met (seq (nd * nd)) :=
  let N := size ys in
  for_list (iota 0 N) (fun k =>
    let! p := m_correct c (meas_at ys k) in
    let! _ := when (k < N - 1)%N (let! _ := m_predict c in ret tt) in
    ret p).

(** base.py:107-131 [smooth(y)]. *)
Definition dt_smooth_forward (ys : seq (nmeas F)) : met (seq ((nd * nd) * option ((nd * nd) * nd))) :=
  let N := size ys in
  for_list (iota 0 N) (fun k =>
    let! p := m_correct c (meas_at ys k) in
    if (k < N - 1)%N then
      let! q := m_predict c in
      let! C := m_prediction_crosscov c in
      ret (p, Some (q, C))
    else ret (p, None)).
Definition dt_smooth (ys : seq (nmeas F)) : met (seq (nd * nd)) :=
  let N := size ys in
  let! _ := lift (if N == 0%N then Err ValueError else Ok tt) in
  let! fw := dt_smooth_forward ys in
  lift (ob_smooth_backward [seq p.2 | p <- fw] [seq p.1 | p <- fw] (rev (iota 1 (N - 1)))).

(** base.py:133-143 [pem_merit(y)]. *)
Definition dt_pem_merit (ys : seq (nmeas F)) : met nd :=
  let N := size ys in
  let! _ := for_in (iota 0 N) (fun k =>
    let! _ := m_correct c (meas_at ys k) in
    let! _ := m_update_likelihood c in
    when (k < N - 1)%N (let! _ := m_predict c in ret tt)) in
  getA Self "L".

(** base.py:145-158 [pem_gradient(y)]. *)
Definition dt_pem_gradient (ys : seq (nmeas F)) : met nd :=
  let N := size ys in
  let! _ := for_in (iota 0 N) (fun k =>
    let! _ := m_correct c (meas_at ys k) in
    let! _ := m_correction_diff c in
    let! _ := m_update_likelihood c in
    let! _ := m_likelihood_diff c in
    when (k < N - 1)%N (
      let! _ := m_predict c in
      m_prediction_diff c)) in
  getA Self "dL_dq".

(** base.py:160-176 [pem_hessian(y)]. *)
Definition dt_pem_hessian (ys : seq (nmeas F)) : met nd :=
  let N := size ys in
  let! _ := for_in (iota 0 N) (fun k =>
    let! _ := m_correct c (meas_at ys k) in
    let! _ := m_correction_diff c in
    let! _ := m_correction_diff2 c in
    let! _ := m_update_likelihood c in
    let! _ := m_likelihood_diff c in
    let! _ := m_likelihood_diff2 c in
    when (k < N - 1)%N (
      let! _ := m_predict c in
      let! _ := m_prediction_diff c in
      m_prediction_diff2 c)) in
  getA Self "d2L_dq2".
End Loops.

(** ** extended.py *)

Section Filter.
Variables (dm : ndmodel F) (log : F -> F).
Notation md := (nm_md dm).

(** extended.py:28-46 [predict()]. *)
Definition ex_predict : met (nd * nd) :=
  let! k := getN Self "k" in
  let! x := getA Self "x" in
  let f := nm_f md k x in
  let! k := getN Self "k" in
  let! x := getA Self "x" in
  let df_dx := nm_df_dx md k x in
  let! Px := getA Self "Px" in
  let! Pxf := lift (einsum "...yi,...iz" [:: Px; df_dx]) in
  let! Pf := lift (einsum "...iy,...iz" [:: df_dx; Pxf]) in
  let! k := getN Self "k" in
  let! x := getA Self "x" in
  let Q := nm_Q md k x in
  let! _ := setv Self "Pxf" (VA Pxf) in
  let! x := getA Self "x" in
  let! _ := setv Self "prev_x" (VA x) in
  let! Px := getA Self "Px" in
  let! _ := setv Self "prev_Px" (VA Px) in
  let! k := getN Self "k" in
  let! _ := setv Self "k" (VN F k.+1) in
  let! _ := setv Self "x" (VA f) in
  let! P := lift (nd_add Pf Q) in
  let! _ := setv Self "Px" (VA P) in
  let! _ := setv Self "df_dx" (VA df_dx) in
  let! x := getA Self "x" in
  let! Px := getA Self "Px" in
  ret (x, Px).

(** extended.py:48-78 [prediction_diff()].  Line 65 reads [df_dx], which is
    not a local variable of this method; lines 65-78 are not executed. *)
Definition ex_prediction_diff : met unit :=
  let! k := getN Self "k" in
  let k := k.-1 in
  let! x := getA Self "prev_x" in
  let! Px := getA Self "prev_Px" in
  let! dx := getA Self "dx_dq" in
  let! dPx := getA Self "dPx_dq" in
  let! Pxf := getA Self "Pxf" in
  let! _ := setv Self "df_dq" (VA (nm_df_dq dm k x)) in
  let! _ := setv Self "d2f_dx_dq" (VA (nm_d2f_dx_dq dm k x)) in
  let! _ := setv Self "d2f_dx2" (VA (nm_d2f_dx2 dm k x)) in
  let! _ := setv Self "dQ_dq" (VA (nm_dQ_dq dm k x)) in
  let! _ := setv Self "dQ_dx" (VA (nm_dQ_dx dm k x)) in
  lift (Err NameError).

(** extended.py:80-116 [prediction_diff2()].  Line 97 reads [d2f_dq2], which
    is not a local variable of this method; lines 97-116 are not executed. *)
Definition ex_prediction_diff2 : met unit :=
  let! k := getN Self "k" in
  let! x := getA Self "prev_x" in
  let! Px := getA Self "prev_Px" in
  let! dx := getA Self "prev_dx_dq" in
  let! dPx := getA Self "prev_dPx_dq" in
  let! d2x := getA Self "d2x_dq2" in
  let! d2Px := getA Self "d2Px_dq2" in
  let! Pxf := getA Self "Pxf" in
  let! d2f_dx_dq := getA Self "d2f_dx_dq" in
  lift (Err NameError).

(** extended.py:118-119 [prediction_crosscov()]. *)
Definition ex_prediction_crosscov : met nd := getA Self "Pxf".

(** extended.py:124-162 [correct(y)]. *)
Definition ex_correct (y : nmeas F) : met (nd * nd) :=
  let active := nd_active y in
  let! _ := setv Self "active" (VB F active) in
  if all id (nm_mask y) then
    let! x := getA Self "x" in
    let! Px := getA Self "Px" in
    ret (x, Px)
  else
  let! yc := lift (getmask active (nm_data y)) in
  let! R := lift (getmask_ix active (nm_R md)) in
  let! k := getN Self "k" in
  let! x := getA Self "x" in
  let! h := lift (getmask active (nm_h md k x)) in
  let! k := getN Self "k" in
  let! x := getA Self "x" in
  let! dh_dx := lift (getmask active (nm_dh_dx md k x)) in
  let! Px := getA Self "Px" in
  let! Pxh := lift (einsum "...ij,...jz" [:: Px; dh_dx]) in
  let! Ph := lift (einsum "...iy,...iz" [:: dh_dx; Pxh]) in
  let! Py := lift (nd_add Ph R) in
  let! PyI := lift (nd_inv Py) in
  let! K := lift (einsum "...ik,...kj" [:: Pxh; PyI]) in
  let! e := lift (nd_sub yc h) in
  let! x := getA Self "x" in
  let! dx := lift (einsum "...ij,...j" [:: K; e]) in
  let! x_corr := lift (nd_add x dx) in
  let! Px := getA Self "Px" in
  let! dP := lift (einsum "...ik,...jl,...kl" [:: K; K; Py]) in
  let! Px_corr := lift (nd_sub Px dP) in
  let! x := getA Self "x" in
  let! _ := setv Self "prev_x" (VA x) in
  let! Px := getA Self "Px" in
  let! _ := setv Self "prev_Px" (VA Px) in
  let! _ := setv Self "e" (VA e) in
  let! _ := setv Self "x" (VA x_corr) in
  let! _ := setv Self "Px" (VA Px_corr) in
  let! _ := setv Self "Pxh" (VA Pxh) in
  let! _ := setv Self "Py" (VA Py) in
  let! _ := setv Self "PyI" (VA PyI) in
  let! _ := setv Self "K" (VA K) in
  ret (x_corr, Px_corr).

(** extended.py:164-167 [correction_diff()]. *)
Definition ex_correction_diff : met unit := if_active (ret tt).

(** extended.py:169-179 [correction_diff2()]. *)
Definition ex_correction_diff2 : met unit := if_active (
  let! K := getA Self "K" in
  let! PyI := getA Self "PyI" in
  let! dK := getA Self "dK_dq" in
  let! dPy := getA Self "dPy_dq" in
  let! dPyI := getA Self "dPyI_dq" in
  ret tt).

(** extended.py:181-188 [update_likelihood()], the same text as
    unscented.py:541-548. *)
Definition ex_update_likelihood : met unit := ob_update_likelihood log.

(** extended.py:190-203 [likelihood_diff()]. *)
Definition ex_likelihood_diff : met unit := if_active (
  let! e := getA Self "e" in
  let! PyI := getA Self "PyI" in
  let! de := getA Self "de_dq" in
  let! dPyI := getA Self "dPyI_dq" in
  let! T := lift (einsum "...ai,...ij,...j" [:: de; PyI; e]) in
  let! _ := isub_attr "dL_dq" T in
  let! T := lift (einsum "...i,...aij,...j" [:: e; dPyI; e]) in
  isub_attr "dL_dq" (nd_scale 2%:R^-1 T)).

(** extended.py:205-218 [likelihood_diff2()]. *)
Definition ex_likelihood_diff2 : met unit := if_active (
  let! e := getA Self "e" in
  let! PyI := getA Self "PyI" in
  let! de := getA Self "de_dq" in
  let! dPyI := getA Self "dPyI_dq" in
  let! d2e := getA Self "d2e_dq2" in
  let! d2PyI := getA Self "d2PyI_dq2" in
  ret tt).

(** extended.py:221-222. *)
Definition ex_class : dtclass := DTClass ex_predict ex_prediction_diff ex_prediction_diff2 ex_prediction_crosscov
  ex_correct ex_correction_diff ex_correction_diff2 ex_update_likelihood ex_likelihood_diff ex_likelihood_diff2.

(** ** A user of the object *)

(** A call of a public method; the result is dropped and exceptions are
    caught. *)
Inductive call :=
  | CPredict | CPredictionDiff | CPredictionDiff2 | CCrosscov | CCorrect of nmeas F | CCorrectionDiff | CCorrectionDiff2
  | CUpdate | CLikelihoodDiff | CLikelihoodDiff2
  | CFilter of seq (nmeas F) | CSmooth of seq (nmeas F) | CMerit of seq (nmeas F) | CGradient of seq (nmeas F) | CHessian of seq (nmeas F).
Definition after_call (st : obj F) (c : call) : obj F :=
  match c with
  | CPredict => (ex_predict st).2
  | CPredictionDiff => (ex_prediction_diff st).2
  | CPredictionDiff2 => (ex_prediction_diff2 st).2
  | CCrosscov => (ex_prediction_crosscov st).2
  | CCorrect y => (ex_correct y st).2
  | CCorrectionDiff => (ex_correction_diff st).2
  | CCorrectionDiff2 => (ex_correction_diff2 st).2
  | CUpdate => (ex_update_likelihood st).2
  | CLikelihoodDiff => (ex_likelihood_diff st).2
  | CLikelihoodDiff2 => (ex_likelihood_diff2 st).2
  | CFilter ys => (dt_filter ex_class ys st).2
  | CSmooth ys => (dt_smooth ex_class ys st).2
  | CMerit ys => (dt_pem_merit ex_class ys st).2
  | CGradient ys => (dt_pem_gradient ex_class ys st).2
  | CHessian ys => (dt_pem_hessian ex_class ys st).2
  end.
Definition after (cs : seq call) (st : obj F) : obj F := foldl after_call st cs.
End Filter.
End Methods.
