(** Model of ceacoest/kalman/base.py, extended.py and the non-derivative part
    of unscented.py, with matrices over a real closed field.

    Simplified: exact arithmetic; no broadcasting over leading axes
    ([base_shape] is empty; see NdKalModel.v for stacks).  One-dimensional arrays are row vectors; a
    Jacobian [df_dx[i, j]] is the derivative of output j by input i, so an
    affine function is [x *m A + b] with [A = df_dx]. *)
From Coq Require Import String.
From Verif Require Import Py.
From mathcomp Require Import all_ssreflect all_algebra.
Set Implicit Arguments.
Unset Strict Implicit.
Unset Printing Implicit Defensive.
Import Order.TTheory GRing.Theory Num.Theory.
Local Open Scope ring_scope.

Section Kalman.
Variable F : rcfType.

(** [np.linalg.inv]. *)
Definition inv n (M : 'M[F]_n) : res 'M[F]_n :=
  if M \in unitmx then Ok (invmx M) else Err LinAlgError.

(** [np.linalg.cholesky]: lower triangular factor, computed column by column
    from the lower triangle only; a pivot that is not positive raises. *)
Fixpoint chol_lower n : 'M[F]_n -> res 'M[F]_n :=
  match n with
  | 0 => fun Q => Ok Q
  | n'.+1 => fun Q : 'M[F]_(1 + n') =>
      let a := Q 0 0 in
      if 0 < a then
        let l := Num.sqrt a in
        let c := l^-1 *: dlsubmx Q in
        let* L := chol_lower (drsubmx Q - c *m c^T) in
        Ok (block_mx l%:M 0 c L)
      else Err LinAlgError
  end.

(** unscented.py:213-216 [DifferentiableCholesky.__call__]: the transpose,
    an upper triangular factor. *)
Definition chol n (Q : 'M[F]_n) : res 'M[F]_n :=
  let* L := chol_lower Q in Ok L^T.

(** unscented.py:193-197 [SVDUnscentedTransform.sqrt], given the outcome
    [U], [s] of [np.linalg.svd(Q)]: [S[j, i] = U[i, j] * sqrt(s[j])]. *)
Definition svd_root n (U : 'M[F]_n) (s : 'rV[F]_n) : 'M[F]_n :=
  \matrix_(j, i) (U i j * Num.sqrt (s 0 j)).

(** * The unscented transform *)

Section Transform.
Variables (ni : nat) (kappa : F).
(** The [sqrt] method. *)
Variable sqrtm : 'M[F]_ni -> res 'M[F]_ni.

(** unscented.py:46-48. *)
Definition ut_init : res unit := if ni%:R + kappa != 0 then Ok tt else Err AssertionError.

(** unscented.py:50 [nsigma]. *)
Definition nsigma : nat := ni + ni + (kappa != 0).

(** unscented.py:53-57 [weights]: all [0.5 / (ni + kappa)], the last one
    replaced when [kappa != 0]. *)
Definition weights : 'rV[F]_nsigma :=
  row_mx (const_mx (2%:R^-1 / (ni%:R + kappa))) (const_mx (kappa / (ni%:R + kappa))).

(** What a transform object remembers. *)
Record ut_data no := UT {
  u_S : 'M[F]_ni;            (* cholesky.S *)
  u_isigma : 'M[F]_(nsigma, ni); u_idev : 'M[F]_(nsigma, ni);
  u_osigma : 'M[F]_(nsigma, no); u_odev : 'M[F]_(nsigma, no);
  u_o : 'rV[F]_no; u_Po : 'M[F]_no }.

(** A row vector added to or subtracted from every row. *)
Definition every m n (v : 'rV[F]_n) : 'M[F]_(m, n) := \matrix_(k, j) v 0 j.

(** unscented.py:65-79 [sigma_points]: deviations [S], [-S] and, if
    [kappa != 0], a zero row. *)
Definition deviations (S : 'M[F]_ni) : 'M[F]_(nsigma, ni) := col_mx (col_mx S (- S)) 0.

(** A vectorised function applied to every sigma point. *)
Definition at_rows m n p (f : 'rV[F]_n -> 'rV[F]_p) (X : 'M[F]_(m, n)) : 'M[F]_(m, p) :=
  \matrix_(k, j) f (row k X) 0 j.

(** unscented.py:107-120 [transform(i, Pi, f)]. *)
Definition transform no (i : 'rV[F]_ni) (Pi : 'M[F]_ni) (f : 'rV[F]_ni -> 'rV[F]_no) : res (ut_data no) :=
  let* Sq := sqrtm ((ni%:R + kappa) *: Pi) in
  let idev := deviations Sq in
  let isigma := idev + every _ i in
  let osigma := at_rows f isigma in
  let o := weights *m osigma in
  let odev := osigma - every _ o in
  let Po := odev^T *m diag_mx weights *m odev in
  Ok (UT Sq isigma idev osigma odev o Po).

(** unscented.py:169-170 [crosscov()]. *)
Definition crosscov no (u : ut_data no) : 'M[F]_(ni, no) :=
  (u_idev u)^T *m diag_mx weights *m u_odev u.
End Transform.

(** * Filters *)

Section Filters.
Variables nx ny : nat.

(** What the filters use of a model. *)
Record model := Model {
  md_f : nat -> 'rV[F]_nx -> 'rV[F]_nx;
  md_df_dx : nat -> 'rV[F]_nx -> 'M[F]_nx;
  md_Q : nat -> 'rV[F]_nx -> 'M[F]_nx;
  md_h : nat -> 'rV[F]_nx -> 'rV[F]_ny;
  md_dh_dx : nat -> 'rV[F]_nx -> 'M[F]_(nx, ny);
  md_R : 'M[F]_ny }.

(** A masked measurement vector. *)
Record meas := Meas { y_data : 'rV[F]_ny; y_mask : {set 'I_ny} }.
(** [~ma.getmaskarray(y)]. *)
Definition active (y : meas) : {set 'I_ny} := ~: y_mask y.

(** Indexing with a boolean array: [v[..., active]] and
    [R[np.ix_(active, active)]]. *)
Definition pick (A : {set 'I_ny}) m (M : 'M[F]_(m, ny)) : 'M[F]_(m, #|A|) :=
  \matrix_(i, j) M i (enum_val j).
Definition pick2 (A : {set 'I_ny}) (M : 'M[F]_ny) : 'M[F]_#|A| :=
  \matrix_(i, j) M (enum_val i) (enum_val j).

(** Time index, state mean and covariance. *)
Record fstate := FS { fs_k : nat; fs_x : 'rV[F]_nx; fs_P : 'M[F]_nx }.

(** Saved by a correction with at least one active output. *)
Record corr_data := CD {
  cd_A : {set 'I_ny};
  cd_e : 'rV[F]_#|cd_A|; cd_Pxh : 'M[F]_(nx, #|cd_A|);
  cd_Py : 'M[F]_#|cd_A|; cd_PyI : 'M[F]_#|cd_A|; cd_K : 'M[F]_(nx, #|cd_A|);
  (* only set by the unscented filter *)
  cd_PyC : option 'M[F]_#|cd_A| }.

(** Mean and covariance after a correction: extended.py:148-149 and
    unscented.py:436-437. *)
Definition corrected (A : {set 'I_ny}) (s : fstate) (e : 'rV[F]_#|A|) (K : 'M[F]_(nx, #|A|)) (Py : 'M[F]_#|A|) : fstate :=
  FS (fs_k s) (fs_x s + e *m K^T) (fs_P s - K *m Py *m K^T).

(** A filter class: [predict] returns the new state and what
    [prediction_crosscov] returns afterwards; [correct] returns the new state
    and the saved data ([None] if every output is masked). *)
Record filter_class := Filter {
  predict : fstate -> res (fstate * 'M[F]_nx);
  correct : fstate -> meas -> res (fstate * option corr_data) }.

(** extended.py:28-46, 117-118. *)
Definition ekf_predict (md : model) (s : fstate) : res (fstate * 'M[F]_nx) :=
  let f := md_f md (fs_k s) (fs_x s) in
  let df_dx := md_df_dx md (fs_k s) (fs_x s) in
  let Pxf := fs_P s *m df_dx in
  let Pf := df_dx^T *m Pxf in
  let Q := md_Q md (fs_k s) (fs_x s) in
  Ok (FS (fs_k s).+1 f (Pf + Q), Pxf).

(** extended.py:124-162. *)
Definition ekf_correct (md : model) (s : fstate) (y : meas) : res (fstate * option corr_data) :=
  let A := active y in
  if A == set0 then Ok (s, None) else
  let yc := pick A (y_data y) in
  let R := pick2 A (md_R md) in
  let h := pick A (md_h md (fs_k s) (fs_x s)) in
  let dh_dx := pick A (md_dh_dx md (fs_k s) (fs_x s)) in
  let Pxh := fs_P s *m dh_dx in
  let Ph := dh_dx^T *m Pxh in
  let Py := Ph + R in
  let* PyI := inv Py in
  let K := Pxh *m PyI in
  let e := yc - h in
  Ok (corrected s e K Py, Some (@CD A e Pxh Py PyI K None)).

Definition ekf (md : model) : filter_class := Filter (ekf_predict md) (ekf_correct md).

(** unscented.py:328-342, 389-390; [kappa] and [sqrtm] are the options of the
    prediction transform. *)
Definition ukf_predict (md : model) (kappa : F) (sqrtm : 'M[F]_nx -> res 'M[F]_nx) (s : fstate) : res (fstate * 'M[F]_nx) :=
  let* u := transform kappa sqrtm (fs_x s) (fs_P s) (md_f md (fs_k s)) in
  let Q := md_Q md (fs_k s) (fs_x s) in
  Ok (FS (fs_k s).+1 (u_o u) (u_Po u + Q), crosscov u).

(** unscented.py:407-451. *)
Definition ukf_correct (md : model) (kappa : F) (sqrtm : 'M[F]_nx -> res 'M[F]_nx) (s : fstate) (y : meas) : res (fstate * option corr_data) :=
  let A := active y in
  if A == set0 then Ok (s, None) else
  let yc := pick A (y_data y) in
  let R := pick2 A (md_R md) in
  let* u := transform kappa sqrtm (fs_x s) (fs_P s) (fun x => pick A (md_h md (fs_k s) x)) in
  let Pxh := crosscov u in
  let Py := u_Po u + R in
  let* PyC := chol Py in
  let* PyCI := inv PyC in
  let PyI := PyCI *m PyCI^T in
  let e := yc - u_o u in
  let K := Pxh *m PyI in
  Ok (corrected s e K Py, Some (@CD A e Pxh Py PyI K (Some PyC))).

Definition ukf (md : model) (kp kc : F) (rp rc : 'M[F]_nx -> res 'M[F]_nx) : filter_class :=
  Filter (ukf_predict md kp rp) (ukf_correct md kc rc).

(** * Loops of base.DTFilter *)

Section Loops.
Variable flt : filter_class.

Notation est := ('rV[F]_nx * 'M[F]_nx)%type.

(** base.py:94-105 [filter(y)]: the estimates and the final state; [predict]
    is skipped after the last sample. *)
Fixpoint filter (s : fstate) (ys : seq meas) : res (seq est * fstate) :=
  match ys with
  | [::] => Ok ([::], s)
  | y :: ys' =>
      let* c := correct flt s y in
      let s1 := c.1 in
      match ys' with
      | [::] => Ok ([:: (fs_x s1, fs_P s1)], s1)
      | _ => let* p := predict flt s1 in
             let* r := filter p.1 ys' in
             Ok ((fs_x s1, fs_P s1) :: r.1, r.2)
      end
  end.

(** base.py:86-92 [smoother_correction]. *)
Definition smoother_correction (xpred : 'rV[F]_nx) (Pxpred Pxf : 'M[F]_nx) (xsmooth : 'rV[F]_nx) (Pxsmooth : 'M[F]_nx) : res est :=
  let* PxIpred := inv Pxpred in
  let K := Pxf *m PxIpred in
  let e := xsmooth - xpred in
  Ok (e *m K^T, K *m (Pxsmooth - Pxpred) *m K^T).

(** base.py:116-122: the forward pass of [smooth].  One entry per sample
    after the first: prediction, its cross covariance and the correction. *)
Record step := Step { st_pred : est; st_Pxf : 'M[F]_nx; st_est : est }.
Fixpoint forward (s1 : fstate) (ys : seq meas) : res (seq step * fstate) :=
  match ys with
  | [::] => Ok ([::], s1)
  | y :: ys' =>
      let* p := predict flt s1 in
      let* c := correct flt p.1 y in
      let* r := forward c.1 ys' in
      Ok (Step (fs_x p.1, fs_P p.1) p.2 (fs_x c.1, fs_P c.1) :: r.1, r.2)
  end.

(** base.py:124-129: the backward pass. *)
Fixpoint backward (e0 : est) (l : seq step) : res (seq est) :=
  match l with
  | [::] => Ok [:: e0]
  | st :: l' =>
      let* r := backward (st_est st) l' in
      let sm := head (st_est st) r in
      let* inc := smoother_correction (st_pred st).1 (st_pred st).2 (st_Pxf st) sm.1 sm.2 in
      Ok ((e0.1 + inc.1, e0.2 + inc.2) :: r)
  end.

(** base.py:107-131 [smooth(y)]; no samples: [np.zeros] of a negative size. *)
Definition smooth (s : fstate) (ys : seq meas) : res (seq est * fstate) :=
  match ys with
  | [::] => Err ValueError
  | y :: ys' =>
      let* c := correct flt s y in
      let* fw := forward c.1 ys' in
      let* r := backward (fs_x c.1, fs_P c.1) fw.1 in
      Ok (r, fw.2)
  end.

(** extended.py:181-188 and unscented.py:540-547 [update_likelihood]; [log]
    is [np.log].  The attribute [PyC] is only set by the unscented filter. *)
Variable log : F -> F.
Definition update_likelihood (L : F) (c : option corr_data) : res F :=
  match c with
  | None => Ok L
  | Some d =>
      match cd_PyC d with
      | None => Err AttributeError
      | Some PyC =>
          let L := L - 2%:R^-1 * (cd_e d *m cd_PyI d *m (cd_e d)^T) 0 0 in
          Ok (L - \sum_k log (PyC k k))
      end
  end.

(** base.py:133-143 [pem_merit(y)], from a filter with log-likelihood [L]. *)
Fixpoint pem_merit (s : fstate) (L : F) (ys : seq meas) : res F :=
  match ys with
  | [::] => Ok L
  | y :: ys' =>
      let* c := correct flt s y in
      let* L1 := update_likelihood L c.2 in
      match ys' with
      | [::] => Ok L1
      | _ => let* p := predict flt c.1 in pem_merit p.1 L1 ys'
      end
  end.
End Loops.

(** base.py:145-158 [pem_gradient(y)] of the extended filter: its
    [correction_diff] does nothing (extended.py:164-167), [likelihood_diff]
    reads the attribute [de_dq] that is never set (extended.py:190-203), and
    [prediction_diff] the undefined name [df_dx] (extended.py:48-80; the
    model is assumed to have the derivative functions it looks up first).
    [dL] stands for the value of the attribute [dL_dq]. *)
Fixpoint ekf_pem_gradient (md : model) (log : F -> F) T (dL : T) (s : fstate) (L : F) (ys : seq meas) : res T :=
  match ys with
  | [::] => Ok dL
  | y :: ys' =>
      let* c := ekf_correct md s y in
      let* L1 := update_likelihood log L c.2 in
      let* _ := (match c.2 with None => Ok tt | Some _ => Err AttributeError end) in
      match ys' with
      | [::] => Ok dL
      | _ => let* p := ekf_predict md c.1 in
             let* _ := (Err NameError : res unit) in
             ekf_pem_gradient md log dL p.1 L1 ys'
      end
  end.
End Filters.
End Kalman.
