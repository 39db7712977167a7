(** Model of the derivative methods of ceacoest/kalman/unscented.py: the
    differentiable Cholesky factorisation, the derivatives of the unscented
    transform, and the first and second derivatives of prediction, correction
    and likelihood, with [pem_gradient] and [pem_hessian] of base.py.

    Simplified: as in [KalModel].  An axis indexed by parameters is a function
    of ['I_nq], so [dx_dq[a, i]] is [dx a 0 i] and [d2Px_dq2[a, b, i, j]] is
    [d2P a b i j].  An in-place update is an update of the attribute (no other
    live name refers to the same array).  Where a method reads what an earlier
    method left in attributes, the model passes or recomputes it. *)
From Coq Require Import String.
From Verif Require Import Py.
From mathcomp Require Import all_ssreflect all_algebra.
From Verif Require Import KalModel.
Set Implicit Arguments.
Unset Strict Implicit.
Unset Printing Implicit Defensive.
Import Order.TTheory GRing.Theory Num.Theory.
Local Open Scope ring_scope.

(** * Derivatives of the Cholesky factor *)

Section CholDiff.
Variables (F : rcfType) (n : nat).

(** [np.tril_indices(n)]: the pairs [i >= j] in row-major order. *)
Definition tril (p : 'I_n * 'I_n) : bool := (p.2 <= p.1)%N.
Definition ntril : nat := #|[pred p | tril p]|.
Definition ti (r : 'I_ntril) : 'I_n := (enum_val r).1.
Definition tj (r : 'I_ntril) : 'I_n := (enum_val r).2.

(** unscented.py:242-244 and 270-272: [A[i, j, i, k] = S[k, j]], then
    [A[i, j, j, k] += S[k, i]].  Every index of the two assignments occurs
    several times in the broadcast lists, always with the same value. *)
Definition chol_A (S : 'M[F]_n) (i j l k : 'I_n) : F :=
  (if l == i then S k j else 0) + (if l == j then S k i else 0).

(** unscented.py:245, 273 [A[..., i, j, :, :][..., i, j]]. *)
Definition chol_AL (S : 'M[F]_n) : 'M[F]_ntril :=
  \matrix_(r, c) chol_A S (ti r) (tj r) (ti c) (tj c).

(** [M[..., i, j]] and the assignment [M[..., j, i] = v] into zeros. *)
Definition vecL (M : 'M[F]_n) : 'cV[F]_ntril := \col_r M (ti r) (tj r).
Definition unvecL (v : 'cV[F]_ntril) : 'M[F]_n :=
  \matrix_(k, l) \sum_(r | (tj r == k) && (ti r == l)) v r 0.

Variable nq : nat.

(** unscented.py:217-257 [diff(dQ_dq)] of a factorisation that holds [S];
    also returns [ALI]. *)
Definition chol_diff (S : 'M[F]_n) (dQ : 'I_nq -> 'M[F]_n) : res ('M[F]_ntril * ('I_nq -> 'M[F]_n)) :=
  let* ALI := inv (chol_AL S) in
  Ok (ALI, fun a => unvecL (ALI *m vecL (dQ a))).

(** unscented.py:259-280 [diff2(d2Q_dq2)], after [diff(dQ_dq)]. *)
Definition chol_diff2 (ALI : 'M[F]_ntril) (dQ dS : 'I_nq -> 'M[F]_n) (d2Q : 'I_nq -> 'I_nq -> 'M[F]_n) (a b : 'I_nq) : 'M[F]_n :=
  let dALI a := - (ALI *m chol_AL (dS a) *m ALI) in
  unvecL (ALI *m vecL (d2Q a b) + dALI a *m vecL (dQ b)).
End CholDiff.

(** * Derivatives of the unscented transform *)

Section TransformDiff.
Variables (F : rcfType) (ni no nq : nat) (kappa : F).
Notation ns := (nsigma ni kappa).
Notation W := (diag_mx (weights ni kappa)).

(** What [transform_diff] leaves in the transform object. *)
Record ut_diff := UTD {
  v_ALI : 'M[F]_(ntril ni); v_dQ : 'I_nq -> 'M[F]_ni; v_dS : 'I_nq -> 'M[F]_ni;
  v_didev : 'I_nq -> 'M[F]_(ns, ni); v_disigma : 'I_nq -> 'M[F]_(ns, ni);
  v_dodev : 'I_nq -> 'M[F]_(ns, no);
  v_do : 'I_nq -> 'rV[F]_no; v_dPo : 'I_nq -> 'M[F]_no }.

Variable u : ut_data ni kappa no.
Variable df_dq : 'rV[F]_ni -> 'I_nq -> 'rV[F]_no.
Variable df_di : 'rV[F]_ni -> 'M[F]_(ni, no).

(** unscented.py:81-93 [sigma_points_diff] and 122-141 [transform_diff], of
    the Cholesky transform. *)
Definition transform_diff (di : 'I_nq -> 'rV[F]_ni) (dPi : 'I_nq -> 'M[F]_ni) : res ut_diff :=
  let isigma := u_isigma u in
  let dQ a := (ni%:R + kappa) *: dPi a in
  let* c := chol_diff (u_S u) dQ in
  let didev a := deviations kappa (c.2 a) in
  let disigma a := didev a + every _ (di a) in
  let Dosigma a := \matrix_(k, j) (df_dq (row k isigma) a 0 j + (row k (disigma a) *m df_di (row k isigma)) 0 j) in
  let do a := weights ni kappa *m Dosigma a in
  let dodev a := Dosigma a - every _ (do a) in
  let half a := (u_odev u)^T *m W *m dodev a in
  let dPo a := half a + (half a)^T in
  Ok (UTD c.1 dQ c.2 didev disigma dodev do dPo).

(** unscented.py:172-177 [crosscov_diff()]. *)
Definition crosscov_diff (v : ut_diff) (a : 'I_nq) : 'M[F]_(ni, no) :=
  (v_didev v a)^T *m W *m u_odev u + (u_idev u)^T *m W *m v_dodev v a.

Variable d2f_dq2 : 'rV[F]_ni -> 'I_nq -> 'I_nq -> 'rV[F]_no.
Variable d2f_di2 : 'rV[F]_ni -> 'I_ni -> 'I_ni -> 'rV[F]_no.
Variable d2f_di_dq : 'rV[F]_ni -> 'I_nq -> 'I_ni -> 'rV[F]_no.

Record ut_diff2 := UTD2 {
  w_d2idev : 'I_nq -> 'I_nq -> 'M[F]_(ns, ni); w_d2odev : 'I_nq -> 'I_nq -> 'M[F]_(ns, no);
  w_d2o : 'I_nq -> 'I_nq -> 'rV[F]_no; w_d2Po : 'I_nq -> 'I_nq -> 'M[F]_no }.

(** unscented.py:95-105 [sigma_points_diff2] and 143-167 [transform_diff2]. *)
Definition transform_diff2 (v : ut_diff) (d2i : 'I_nq -> 'I_nq -> 'rV[F]_ni) (d2Pi : 'I_nq -> 'I_nq -> 'M[F]_ni) : ut_diff2 :=
  let isigma := u_isigma u in
  let disigma := v_disigma v in
  let dodev := v_dodev v in
  let d2S := chol_diff2 (v_ALI v) (v_dQ v) (v_dS v) (fun a b => (ni%:R + kappa) *: d2Pi a b) in
  let d2idev a b := deviations kappa (d2S a b) in
  let d2isigma a b := d2idev a b + every _ (d2i a b) in
  let X b a k j := \sum_i d2f_di_dq (row k isigma) a i 0 j * disigma b k i in
  let D2osigma b a := \matrix_(k, j)
    (X b a k j + X a b k j + d2f_dq2 (row k isigma) b a 0 j
     + \sum_i \sum_i' d2f_di2 (row k isigma) i i' 0 j * disigma a k i * disigma b k i'
     + (row k (d2isigma b a) *m df_di (row k isigma)) 0 j) in
  let d2o a b := weights ni kappa *m D2osigma a b in
  let d2odev a b := D2osigma a b - every _ (d2o a b) in
  let half a b := (d2odev a b)^T *m W *m u_odev u + (dodev b)^T *m W *m dodev a in
  let d2Po a b := half a b + (half a b)^T in
  UTD2 d2idev d2odev d2o d2Po.

(** unscented.py:179-187 [crosscov_diff2()]. *)
Definition crosscov_diff2 (v : ut_diff) (w : ut_diff2) (a b : 'I_nq) : 'M[F]_(ni, no) :=
  let X a b := (v_didev v b)^T *m W *m v_dodev v a in
  X a b + X b a + (w_d2idev w a b)^T *m W *m u_odev u + (u_idev u)^T *m W *m w_d2odev w a b.
End TransformDiff.

(** * Derivatives of the filter *)

Section FilterDiff.
Variable F : rcfType.
Variables nx ny nq : nat.

(** A model with its derivatives; [md_df_dx] and [md_dh_dx] of the plain
    model are those by the state. *)
Record dmodel := DModel {
  dm_md : model F nx ny;
  dm_df_dq : nat -> 'rV[F]_nx -> 'I_nq -> 'rV[F]_nx;
  dm_dQ_dq : nat -> 'rV[F]_nx -> 'I_nq -> 'M[F]_nx;
  dm_dQ_dx : nat -> 'rV[F]_nx -> 'I_nx -> 'M[F]_nx;
  dm_dh_dq : nat -> 'rV[F]_nx -> 'I_nq -> 'rV[F]_ny;
  dm_dR_dq : 'I_nq -> 'M[F]_ny;
  dm_d2f_dq2 : nat -> 'rV[F]_nx -> 'I_nq -> 'I_nq -> 'rV[F]_nx;
  dm_d2f_dx2 : nat -> 'rV[F]_nx -> 'I_nx -> 'I_nx -> 'rV[F]_nx;
  dm_d2f_dx_dq : nat -> 'rV[F]_nx -> 'I_nq -> 'I_nx -> 'rV[F]_nx;
  dm_d2Q_dq2 : nat -> 'rV[F]_nx -> 'I_nq -> 'I_nq -> 'M[F]_nx;
  dm_d2Q_dx2 : nat -> 'rV[F]_nx -> 'I_nx -> 'I_nx -> 'M[F]_nx;
  dm_d2Q_dx_dq : nat -> 'rV[F]_nx -> 'I_nq -> 'I_nx -> 'M[F]_nx;
  dm_d2h_dq2 : nat -> 'rV[F]_nx -> 'I_nq -> 'I_nq -> 'rV[F]_ny;
  dm_d2h_dx2 : nat -> 'rV[F]_nx -> 'I_nx -> 'I_nx -> 'rV[F]_ny;
  dm_d2h_dx_dq : nat -> 'rV[F]_nx -> 'I_nq -> 'I_nx -> 'rV[F]_ny;
  dm_d2R_dq2 : 'I_nq -> 'I_nq -> 'M[F]_ny }.

(** [dx_dq], [dPx_dq] and [d2x_dq2], [d2Px_dq2]. *)
Record dstate := DS { ds_x : 'I_nq -> 'rV[F]_nx; ds_P : 'I_nq -> 'M[F]_nx }.
Record d2state := D2S { d2_x : 'I_nq -> 'I_nq -> 'rV[F]_nx; d2_P : 'I_nq -> 'I_nq -> 'M[F]_nx }.

Variables (dm : dmodel) (log : F -> F).
Notation md := (dm_md dm).

(** ** Prediction: [s] is the state before [predict()]. *)
Section Prediction.
Variables (kappa : F) (s : fstate F nx).
Notation k := (fs_k s).
Notation x := (fs_x s).

(** unscented.py:328-334: the transform. *)
Definition pred_ut : res (ut_data nx kappa nx) :=
  transform kappa (@chol F nx) x (fs_P s) (md_f md k).

(** unscented.py:336-341: the new state. *)
Definition pred_state (u : ut_data nx kappa nx) : fstate F nx :=
  FS k.+1 (u_o u) (u_Po u + md_Q md k x).

(** unscented.py:343-362 [prediction_diff()]. *)
Definition pred_ut_diff (u : ut_data nx kappa nx) (d : dstate) : res (ut_diff nx nx nq kappa) :=
  transform_diff u (dm_df_dq dm k) (md_df_dx md k) (ds_x d) (ds_P d).
Definition pred_dstate (v : ut_diff nx nx nq kappa) (d : dstate) : dstate :=
  let DQ a := dm_dQ_dq dm k x a + \sum_i ds_x d a 0 i *: dm_dQ_dx dm k x i in
  DS (v_do v) (fun a => v_dPo v a + DQ a).

(** unscented.py:364-387 [prediction_diff2()]; [d] and [d2] are the
    derivatives before the prediction. *)
Definition pred_d2state (u : ut_data nx kappa nx) (v : ut_diff nx nx nq kappa) (d : dstate) (d2 : d2state) : d2state :=
  let w := transform_diff2 u (md_df_dx md k) (dm_d2f_dq2 dm k) (dm_d2f_dx2 dm k) (dm_d2f_dx_dq dm k) v (d2_x d2) (d2_P d2) in
  let X a b := \sum_i ds_x d b 0 i *: dm_d2Q_dx_dq dm k x a i in
  let D2Q a b := X a b + X b a + dm_d2Q_dq2 dm k x a b
    + \sum_i d2_x d2 a b 0 i *: dm_dQ_dx dm k x i
    + \sum_i \sum_j (ds_x d b 0 i * ds_x d a 0 j) *: dm_d2Q_dx2 dm k x j i in
  D2S (w_d2o w) (fun a b => w_d2Po w a b + D2Q a b).
End Prediction.

(** ** Correction: [s] is the state before [correct(y)], [A] the active
    outputs, of which there is at least one. *)
Section Correction.
Variables (kappa : F) (s : fstate F nx) (A : {set 'I_ny}).
Notation k := (fs_k s).
Notation na := #|A|.

(** unscented.py:413-450: what [correct(y)] computes. *)
Record corr0 := C0 {
  c_u : ut_data nx kappa na; c_e : 'rV[F]_na; c_Pxh : 'M[F]_(nx, na); c_Py : 'M[F]_na;
  c_PyC : 'M[F]_na; c_PyI : 'M[F]_na; c_K : 'M[F]_(nx, na) }.
Definition correct0 (y : 'rV[F]_ny) : res corr0 :=
  let* u := transform kappa (@chol F nx) (fs_x s) (fs_P s) (fun x => pick A (md_h md k x)) in
  let Pxh := crosscov u in
  let Py := u_Po u + pick2 A (md_R md) in
  let* PyC := chol Py in
  let* PyCI := inv PyC in
  let PyI := PyCI *m PyCI^T in
  let K := Pxh *m PyI in
  Ok (C0 u (pick A y - u_o u) Pxh Py PyC PyI K).
Definition corr_state (c : corr0) : fstate F nx := corrected s (c_e c) (c_K c) (c_Py c).

(** unscented.py:452-486 [correction_diff()]. *)
Record corr1 := C1 {
  c_v : ut_diff nx na nq kappa; c_de : 'I_nq -> 'rV[F]_na; c_dPxh : 'I_nq -> 'M[F]_(nx, na);
  c_dPy : 'I_nq -> 'M[F]_na; c_dPyI : 'I_nq -> 'M[F]_na; c_dK : 'I_nq -> 'M[F]_(nx, na) }.
Definition correct1 (c : corr0) (d : dstate) : res corr1 :=
  let* v := transform_diff (c_u c) (fun x a => pick A (dm_dh_dq dm k x a)) (fun x => pick A (md_dh_dx md k x)) (ds_x d) (ds_P d) in
  let dPxh := crosscov_diff (c_u c) v in
  let de a := - v_do v a in
  let dPy a := v_dPo v a + pick2 A (dm_dR_dq dm a) in
  let dPyI a := - (c_PyI c *m dPy a *m c_PyI c) in
  let dK a := c_Pxh c *m dPyI a + dPxh a *m c_PyI c in
  Ok (C1 v de dPxh dPy dPyI dK).
Definition corr_dstate (c : corr0) (c1 : corr1) (d : dstate) : dstate :=
  let M a := c_dK c1 a *m (c_Py c)^T *m (c_K c)^T in
  DS (fun a => ds_x d a + c_e c *m (c_dK c1 a)^T + c_de c1 a *m (c_K c)^T)
     (fun a => ds_P d a - c_K c *m (c_dPy c1 a)^T *m (c_K c)^T - (M a + (M a)^T)).

(** unscented.py:488-539 [correction_diff2()]. *)
Record corr2 := C2 {
  c_d2e : 'I_nq -> 'I_nq -> 'rV[F]_na; c_d2Py : 'I_nq -> 'I_nq -> 'M[F]_na;
  c_d2PyI : 'I_nq -> 'I_nq -> 'M[F]_na; c_d2K : 'I_nq -> 'I_nq -> 'M[F]_(nx, na) }.
Definition correct2 (c : corr0) (c1 : corr1) (d2 : d2state) : corr2 :=
  let v := c_v c1 in
  let dPy := c_dPy c1 in
  let dPyI := c_dPyI c1 in
  let PyI := c_PyI c in
  let w := transform_diff2 (c_u c) (fun x => pick A (md_dh_dx md k x)) (fun x a b => pick A (dm_d2h_dq2 dm k x a b))
             (fun x i j => pick A (dm_d2h_dx2 dm k x i j)) (fun x a i => pick A (dm_d2h_dx_dq dm k x a i)) v (d2_x d2) (d2_P d2) in
  let d2Pxh := crosscov_diff2 (c_u c) v w in
  let d2e a b := - w_d2o w a b in
  let d2Py a b := w_d2Po w a b + pick2 A (dm_d2R_dq2 dm a b) in
  let d2PyI a b := - (dPyI a *m dPy b *m PyI) - PyI *m d2Py a b *m PyI - PyI *m dPy b *m dPyI a in
  let d2K a b := c_dPxh c1 a *m dPyI b + c_Pxh c *m d2PyI a b + d2Pxh a b *m PyI + c_dPxh c1 b *m dPyI a in
  C2 d2e d2Py d2PyI d2K.
Definition corr_d2state (c : corr0) (c1 : corr1) (c2 : corr2) (d2 : d2state) : d2state :=
  let K := c_K c in
  let dK := c_dK c1 in
  let de := c_de c1 in
  let d2K := c_d2K c2 in
  let PyT := (c_Py c)^T in
  let X a b := dK b *m (c_dPy c1 a)^T *m K^T in
  let Y a b := X a b + (X a b)^T in
  let Z a b := Y a b + Y b a in
  D2S (fun a b => d2_x d2 a b + c_e c *m (d2K a b)^T + de a *m (dK b)^T + de b *m (dK a)^T + c_d2e c2 a b *m K^T)
      (fun a b => d2_P d2 a b - d2K a b *m PyT *m K^T - dK b *m PyT *m (dK a)^T - dK a *m PyT *m (dK b)^T
                  - Z a b - K *m PyT *m (d2K a b)^T - K *m (c_d2Py c2 a b)^T *m K^T).

(** unscented.py:541-548 [update_likelihood()]. *)
Definition lik0 (c : corr0) (L : F) : F :=
  L - 2%:R^-1 * (c_e c *m c_PyI c *m (c_e c)^T) 0 0 - \sum_k log (c_PyC c k k).

(** unscented.py:550-566 [likelihood_diff()]; returns [dL_dq] and the data of
    the factorisation's derivative. *)
Definition lik1 (c : corr0) (c1 : corr1) (dL : 'I_nq -> F) : res (('M[F]_(ntril na) * ('I_nq -> 'M[F]_na)) * ('I_nq -> F)) :=
  let e := c_e c in
  let* ch := chol_diff (c_PyC c) (c_dPy c1) in
  Ok (ch, fun a => dL a - \sum_k ch.2 a k k / c_PyC c k k
            - (c_de c1 a *m c_PyI c *m e^T) 0 0
            - 2%:R^-1 * (e *m c_dPyI c1 a *m e^T) 0 0).

(** unscented.py:568-594 [likelihood_diff2()]. *)
Definition lik2 (c : corr0) (c1 : corr1) (c2 : corr2) (ch : 'M[F]_(ntril na) * ('I_nq -> 'M[F]_na)) (d2L : 'I_nq -> 'I_nq -> F) (a b : 'I_nq) : F :=
  let e := c_e c in
  let PyI := c_PyI c in
  let PyC := c_PyC c in
  let de := c_de c1 in
  let dPyI := c_dPyI c1 in
  let d2PyC := chol_diff2 ch.1 (c_dPy c1) ch.2 (c_d2Py c2) in
  let X a b := (de a *m dPyI b *m e^T) 0 0 in
  d2L a b - \sum_k d2PyC a b k k / PyC k k
    + \sum_k ch.2 a k k * (ch.2 b k k / PyC k k ^+ 2)
    - (de a *m PyI *m (de b)^T) 0 0
    - (c_d2e c2 a b *m PyI *m e^T) 0 0
    - 2%:R^-1 * (e *m c_d2PyI c2 a b *m e^T) 0 0
    - X a b - X b a.
End Correction.

(** ** Loops *)

Variables kp kc : F.

(** What the loops carry: state, [L], and their derivatives. *)
Record gstate := GS { g_s : fstate F nx; g_L : F; g_d : dstate; g_dL : 'I_nq -> F }.
Record hstate := HS { h_g : gstate; h_d2 : d2state; h_d2L : 'I_nq -> 'I_nq -> F }.

(** base.py:150-153: correct, correction_diff, update_likelihood,
    likelihood_diff; all but the first return at once when nothing is active. *)
Definition grad_correct (g : gstate) (y : meas F ny) : res gstate :=
  let A := active y in
  if A == set0 then Ok g else
  let s := g_s g in
  let* c := correct0 kc s A (y_data y) in
  let* c1 := correct1 s c (g_d g) in
  let* l := lik1 c c1 (g_dL g) in
  Ok (GS (corr_state s c) (lik0 c (g_L g)) (corr_dstate c c1 (g_d g)) l.2).

(** base.py:155-156. *)
Definition grad_predict (g : gstate) : res gstate :=
  let s := g_s g in
  let* u := pred_ut kp s in
  let* v := pred_ut_diff s u (g_d g) in
  Ok (GS (pred_state s u) (g_L g) (pred_dstate s v (g_d g)) (g_dL g)).

(** base.py:145-158 [pem_gradient(y)]: the final state of the loop, which
    holds [dL_dq]. *)
Fixpoint grad_loop (g : gstate) (ys : seq (meas F ny)) : res gstate :=
  match ys with
  | [::] => Ok g
  | y :: ys' =>
      let* g1 := grad_correct g y in
      match ys' with
      | [::] => Ok g1
      | _ => let* g2 := grad_predict g1 in grad_loop g2 ys'
      end
  end.
Definition pem_gradient (g : gstate) (ys : seq (meas F ny)) : res ('I_nq -> F) :=
  let* g' := grad_loop g ys in Ok (g_dL g').

(** base.py:165-170. *)
Definition hess_correct (h : hstate) (y : meas F ny) : res hstate :=
  let A := active y in
  if A == set0 then Ok h else
  let g := h_g h in
  let s := g_s g in
  let* c := correct0 kc s A (y_data y) in
  let* c1 := correct1 s c (g_d g) in
  let c2 := correct2 s c c1 (h_d2 h) in
  let* l := lik1 c c1 (g_dL g) in
  Ok (HS (GS (corr_state s c) (lik0 c (g_L g)) (corr_dstate c c1 (g_d g)) l.2)
         (corr_d2state c c1 c2 (h_d2 h)) (lik2 c c1 c2 l.1 (h_d2L h))).

(** base.py:172-174. *)
Definition hess_predict (h : hstate) : res hstate :=
  let g := h_g h in
  let s := g_s g in
  let* u := pred_ut kp s in
  let* v := pred_ut_diff s u (g_d g) in
  Ok (HS (GS (pred_state s u) (g_L g) (pred_dstate s v (g_d g)) (g_dL g))
         (pred_d2state s u v (g_d g) (h_d2 h)) (h_d2L h)).

(** base.py:160-176 [pem_hessian(y)]. *)
Fixpoint hess_loop (h : hstate) (ys : seq (meas F ny)) : res hstate :=
  match ys with
  | [::] => Ok h
  | y :: ys' =>
      let* h1 := hess_correct h y in
      match ys' with
      | [::] => Ok h1
      | _ => let* h2 := hess_predict h1 in hess_loop h2 ys'
      end
  end.
Definition pem_hessian (h : hstate) (ys : seq (meas F ny)) : res ('I_nq -> 'I_nq -> F) :=
  let* h' := hess_loop h ys in Ok (h_d2L h').
End FilterDiff.
