(** Model of ceacoest/kalman (base.py, unscented.py, extended.py) at the level
    of NumPy arrays: the same statements as in the source, with the subscript
    strings of [np.einsum] copied, on arrays that may have any number of
    leading axes ([base_shape]).

    [KalModel] and [KalDiffModel] describe the same methods for one filter
    (empty [base_shape]) with matrices; [PropsNdKal] relates the two.

    Simplified: exact arithmetic.  An attribute is passed as a value, and an
    in-place update returns the new value.  Arrays with a leading time axis
    that the loops of base.py fill ([x[k]], [Px[k]]) are lists of arrays. *)
From Coq Require Import String Ascii.
From Verif Require Import Py.
From mathcomp Require Import all_ssreflect all_algebra.
From Verif Require Import KalModel NpModel.
Set Implicit Arguments.
Unset Strict Implicit.
Unset Printing Implicit Defensive.
Import Order.TTheory GRing.Theory Num.Theory.
Local Open Scope ring_scope.

Section NdKalman.
Variable F : rcfType.
Local Notation nd := (nd F).
Local Open Scope string_scope.

(** * DifferentiableCholesky *)

(** unscented.py:213-216 [__call__]. *)
Definition nd_chol (Q : nd) : res nd :=
  let* L := nd_cholesky Q in Ok (swapaxes 1 2 L).

(** unscented.py:240 [np.ix_(i, j, k)]: positions in [i], in [j], and [k]. *)
Definition ix_triples (ni : nat) : seq (nat * nat * nat) :=
  let rs := iota 0 (size (tril_indices ni)) in
  [seq (p, k) | p <- [seq (r, c) | r <- rs, c <- rs], k <- iota 0 ni].

(** unscented.py:238-245 and 265-273: the matrix of the linear system; [S]
    has the shape of [self.S] or [self.dS_dq]. *)
Definition nd_AL (ni : nat) (S : nd) : nd :=
  let t := tril_indices ni in
  let i r := (nth (0, 0)%N t r).1 in
  let j r := (nth (0, 0)%N t r).2 in
  let triples := ix_triples ni in
  let A := zeros F (shape S ++ [:: ni; ni]) in
  (* A[..., ix, jx, ix, kx] = S[..., kx, jx] *)
  let A := put 4 [seq ([:: i x.1.1; j x.1.2; i x.1.1; x.2], fun e => get S (e ++ [:: x.2; j x.1.2])) | x <- triples] A in
  (* A[..., ix, jx, jx, kx] += S[..., kx, ix] *)
  let A := put 4 [seq ([:: i x.1.1; j x.1.2; j x.1.2; x.2],
                       fun e => get A (e ++ [:: i x.1.1; j x.1.2; j x.1.2; x.2]) + get S (e ++ [:: x.2; i x.1.1])) | x <- triples] A in
  getpairs t (getpairs2 t A).

(** What [diff] leaves in the object. *)
Record nchol := NChol { nc_ALI : nd; nc_dQL : nd; nc_dS : nd }.

(** unscented.py:217-257 [diff(dQ_dq)]. *)
Definition nd_chol_diff (S dQ : nd) : res nchol :=
  let ni := last 0%N (shape S) in
  let t := tril_indices ni in
  let* ALI := nd_inv (nd_AL ni S) in
  let dQL := getpairs t dQ in
  let* dSL := einsum "...ij,...bj" [:: ALI; dQL] in
  let dS := setpairs [seq (p.2, p.1) | p <- t] dSL (zeros F (shape dQ)) in
  Ok (NChol ALI dQL dS).

(** unscented.py:259-280 [diff2(d2Q_dq2)]. *)
Definition nd_chol_diff2 (S : nd) (c : nchol) (d2Q : nd) : res nd :=
  let nq := nth 0%N (shape d2Q) (size (shape d2Q) - 3) in
  let ni := last 0%N (shape S) in
  let t := tril_indices ni in
  let dAL := nd_AL ni (nc_dS c) in
  let* dALI := einsum "...ij,...ajk,...kl" [:: nc_ALI c; dAL; nc_ALI c] in
  let dALI := nd_opp dALI in
  let d2QL := getpairs t d2Q in
  let* d2SL := einsum "...ij,...abj" [:: nc_ALI c; d2QL] in
  let* T := einsum "...aij,...bj" [:: dALI; nc_dQL c] in
  let* d2SL := nd_iadd d2SL T in
  Ok (setpairs [seq (p.2, p.1) | p <- t] d2SL (zeros F (take (size (shape S) - 2) (shape S) ++ [:: nq; nq; ni; ni]))).

(** * The unscented transform *)

Section Transform.
Variables (ni : nat) (kappa : F).

(** unscented.py:53-57 [weights]. *)
Definition nd_weights : nd :=
  let n := nsigma ni kappa in
  ND [:: n] (fun i => if (kappa != 0) && (head 0%N i == n.-1) then kappa / (ni%:R + kappa)
                      else 2%:R^-1 / (ni%:R + kappa)).

(** What a transform object remembers; [nu_S] is [cholesky.S]. *)
Record nut := NUT { nu_S : nd; nu_isigma : nd; nu_idev : nd; nu_odev : nd; nu_o : nd; nu_Po : nd }.

(** unscented.py:65-79 [sigma_points]: returns [sqrt], [idev] and [isigma]. *)
Definition nd_sigma_points (sqrtm : nd -> res nd) (i Pi : nd) : res (nd * nd * nd) :=
  let* Sq := sqrtm (nd_scale (ni%:R + kappa) Pi) in
  let Sr := rollaxis 2 Sq in
  let idev := zeros F (nsigma ni kappa :: shape i) in
  let* idev := setslice 0 ni idev Sr in
  let* idev := setslice ni (2 * ni) idev (nd_opp Sr) in
  let* isigma := nd_add idev i in
  Ok (Sq, idev, isigma).

(** unscented.py:107-120 [transform(i, Pi, f)]. *)
Definition nd_transform (sqrtm : nd -> res nd) (i Pi : nd) (f : nd -> res nd) : res nut :=
  let* p := nd_sigma_points sqrtm i Pi in
  let '(Sq, idev, isigma) := p in
  let* osigma := f isigma in
  let* o := einsum "k,k..." [:: nd_weights; osigma] in
  let* odev := nd_sub osigma o in
  let* Po := einsum "k...i,k...j,k" [:: odev; odev; nd_weights] in
  Ok (NUT Sq isigma idev odev o Po).

(** unscented.py:169-170 [crosscov()]. *)
Definition nd_crosscov (u : nut) : res nd :=
  einsum "k...i,k...j,k" [:: nu_idev u; nu_odev u; nd_weights].

(** unscented.py:81-93 [sigma_points_diff] and 95-105 [sigma_points_diff2],
    given the derivative of the square root: the derivatives of [idev] and
    [isigma]. *)
Definition nd_sigma_points_diff (dS di : nd) : res (nd * nd) :=
  let didev := zeros F (nsigma ni kappa :: shape di) in
  let* didev := setslice 0 ni didev (rollaxis 2 dS) in
  let* didev := setslice ni (2 * ni) didev (nd_opp (getslice 0 ni didev)) in
  let* disigma := nd_add didev di in
  Ok (didev, disigma).

(** What [transform_diff] leaves in the object. *)
Record nutd := NUTD {
  nv_chol : nchol; nv_df_di : nd; nv_didev : nd; nv_disigma : nd; nv_dodev : nd; nv_do : nd; nv_dPo : nd }.

(** unscented.py:122-141 [transform_diff], of the Cholesky transform. *)
Definition nd_transform_diff (u : nut) (df_dq df_di : nd -> res nd) (di dPi : nd) : res nutd :=
  let* dfdi := df_di (nu_isigma u) in
  let* c := nd_chol_diff (nu_S u) (nd_scale (ni%:R + kappa) dPi) in
  let* p := nd_sigma_points_diff (nc_dS c) di in
  let '(didev, disigma) := p in
  let* Dosigma := df_dq (nu_isigma u) in
  let* T := einsum "k...if,k...ai->k...af" [:: dfdi; disigma] in
  let* Dosigma := nd_iadd Dosigma T in
  let* do := einsum "k,k..." [:: nd_weights; Dosigma] in
  let* dodev := nd_sub Dosigma do in
  let* dPo := einsum "k...lj,k...i,k->...lij" [:: dodev; nu_odev u; nd_weights] in
  let* dPo := nd_iadd dPo (swapaxes 1 2 dPo) in
  Ok (NUTD c dfdi didev disigma dodev do dPo).

(** unscented.py:172-177 [crosscov_diff()]. *)
Definition nd_crosscov_diff (u : nut) (v : nutd) : res nd :=
  let* dPio := einsum "k...ai,k...j,k" [:: nv_didev v; nu_odev u; nd_weights] in
  let* T := einsum "k...i,k...aj,k" [:: nu_idev u; nv_dodev v; nd_weights] in
  nd_iadd dPio T.

(** unscented.py:143-167 [transform_diff2]; the attributes it sets, and its
    results. *)
Record nutd2 := NUTD2 { nw_d2idev : nd; nw_d2odev : nd; nw_d2o : nd; nw_d2Po : nd }.
Definition nd_transform_diff2 (u : nut) (v : nutd) (d2f_dq2 d2f_di2 d2f_di_dq : nd -> res nd) (d2i d2Pi : nd) : res nutd2 :=
  let isigma := nu_isigma u in
  let disigma := nv_disigma v in
  let dodev := nv_dodev v in
  let* d2S := nd_chol_diff2 (nu_S u) (nv_chol v) (nd_scale (ni%:R + kappa) d2Pi) in
  let* p := nd_sigma_points_diff d2S d2i in
  let '(d2idev, d2isigma) := p in
  let* dxq := d2f_di_dq isigma in
  let* D2 := einsum "k...aif,k...bi->k...baf" [:: dxq; disigma] in
  let* D2 := nd_iadd D2 (swapaxes 2 3 D2) in
  let* dqq := d2f_dq2 isigma in
  let* D2 := nd_iadd D2 dqq in
  let* dxx := d2f_di2 isigma in
  let* T := einsum "k...ijf,k...ai,k...bj->k...baf" [:: dxx; disigma; disigma] in
  let* D2 := nd_iadd D2 T in
  let* T := einsum "k...if,k...bai->k...baf" [:: nv_df_di v; d2isigma] in
  let* D2 := nd_iadd D2 T in
  let* d2o := einsum "k,k..." [:: nd_weights; D2] in
  let* d2odev := nd_sub D2 d2o in
  let* d2Po := einsum "k...abi,k...j,k" [:: d2odev; nu_odev u; nd_weights] in
  let* T := einsum "k...bi,k...aj,k" [:: dodev; dodev; nd_weights] in
  let* d2Po := nd_iadd d2Po T in
  let* d2Po := nd_iadd d2Po (swapaxes 1 2 d2Po) in
  Ok (NUTD2 d2idev d2odev d2o d2Po).

(** unscented.py:179-187 [crosscov_diff2()]. *)
Definition nd_crosscov_diff2 (u : nut) (v : nutd) (w : nutd2) : res nd :=
  let* d2Pio := einsum "k...bi,k...aj,k" [:: nv_didev v; nv_dodev v; nd_weights] in
  let* d2Pio := nd_iadd d2Pio (swapaxes 3 4 d2Pio) in
  let* T := einsum "k...abi,k...j,k" [:: nw_d2idev w; nu_odev u; nd_weights] in
  let* d2Pio := nd_iadd d2Pio T in
  let* T := einsum "k...i,k...abj,k" [:: nu_idev u; nw_d2odev w; nd_weights] in
  nd_iadd d2Pio T.
End Transform.

(** * Filters *)

(** The functions of a model, vectorised over leading axes of the state. *)
Record nmodel := NModel {
  nm_f : nat -> nd -> nd; nm_df_dx : nat -> nd -> nd; nm_Q : nat -> nd -> nd;
  nm_h : nat -> nd -> nd; nm_dh_dx : nat -> nd -> nd; nm_R : nd }.
Record ndmodel := NDModel {
  nm_md : nmodel;
  nm_df_dq : nat -> nd -> nd; nm_dQ_dq : nat -> nd -> nd; nm_dQ_dx : nat -> nd -> nd;
  nm_dh_dq : nat -> nd -> nd; nm_dR_dq : nd;
  nm_d2f_dq2 : nat -> nd -> nd; nm_d2f_dx2 : nat -> nd -> nd; nm_d2f_dx_dq : nat -> nd -> nd;
  nm_d2Q_dq2 : nat -> nd -> nd; nm_d2Q_dx2 : nat -> nd -> nd; nm_d2Q_dx_dq : nat -> nd -> nd;
  nm_d2h_dq2 : nat -> nd -> nd; nm_d2h_dx2 : nat -> nd -> nd; nm_d2h_dx_dq : nat -> nd -> nd;
  nm_d2R_dq2 : nd }.

(** A measurement: data and mask of a one-dimensional masked array. *)
Record nmeas := NMeas { nm_data : nd; nm_mask : seq bool }.
Definition nd_active (y : nmeas) : seq bool := [seq ~~ m | m <- nm_mask y].

(** Time index, mean and covariance. *)
Record nstate := NS { ns_k : nat; ns_x : nd; ns_P : nd }.

(** unscented.py:328-342 [predict()]; also the transform. *)
Definition nd_ukf_predict (nx : nat) (md : nmodel) (kappa : F) (sqrtm : nd -> res nd) (s : nstate) : res (nut * nstate) :=
  let* u := nd_transform nx kappa sqrtm (ns_x s) (ns_P s) (fun X => Ok (nm_f md (ns_k s) X)) in
  let Q := nm_Q md (ns_k s) (ns_x s) in
  let* P := nd_add (nu_Po u) Q in
  Ok (u, NS (ns_k s).+1 (nu_o u) P).

(** What a correction leaves in the filter; [PyC] is set by the unscented
    filter only. *)
Record ncorr := NCorr {
  nk_e : nd; nk_Pxh : nd; nk_Py : nd; nk_PyI : nd; nk_PyC : option nd; nk_K : nd }.

(** unscented.py:432-437 and extended.py:145-149. *)
Definition nd_corrected (s : nstate) (e K Py : nd) : res nstate :=
  let* dx := einsum "...ij,...j" [:: K; e] in
  let* x := nd_add (ns_x s) dx in
  let* dP := einsum "...ik,...jl,...kl" [:: K; K; Py] in
  let* P := nd_sub (ns_P s) dP in
  Ok (NS (ns_k s) x P).

(** unscented.py:407-451 [correct(y)]; [None] when everything is masked. *)
Definition nd_ukf_correct (nx : nat) (md : nmodel) (kappa : F) (sqrtm : nd -> res nd) (s : nstate) (y : nmeas)
    : res (option (nut * ncorr) * nstate) :=
  let active := nd_active y in
  if all id (nm_mask y) then Ok (None, s) else
  let* yc := getmask active (nm_data y) in
  let* R := getmask_ix active (nm_R md) in
  let* u := nd_transform nx kappa sqrtm (ns_x s) (ns_P s) (fun X => getmask active (nm_h md (ns_k s) X)) in
  let* Pxh := nd_crosscov nx kappa u in
  let* Py := nd_add (nu_Po u) R in
  let* PyC := nd_chol Py in
  let* PyCI := nd_inv PyC in
  let* PyI := einsum "...ik,...jk" [:: PyCI; PyCI] in
  let* e := nd_sub yc (nu_o u) in
  let* K := einsum "...ik,...kj" [:: Pxh; PyI] in
  let* s' := nd_corrected s e K Py in
  Ok (Some (u, NCorr e Pxh Py PyI (Some PyC) K), s').

(** extended.py:28-46 [predict()]; also [Pxf]. *)
Definition nd_ekf_predict (md : nmodel) (s : nstate) : res (nd * nstate) :=
  let f := nm_f md (ns_k s) (ns_x s) in
  let df_dx := nm_df_dx md (ns_k s) (ns_x s) in
  let* Pxf := einsum "...yi,...iz" [:: ns_P s; df_dx] in
  let* Pf := einsum "...iy,...iz" [:: df_dx; Pxf] in
  let Q := nm_Q md (ns_k s) (ns_x s) in
  let* P := nd_add Pf Q in
  Ok (Pxf, NS (ns_k s).+1 f P).

(** extended.py:124-162 [correct(y)]. *)
Definition nd_ekf_correct (md : nmodel) (s : nstate) (y : nmeas) : res (option ncorr * nstate) :=
  let active := nd_active y in
  if all id (nm_mask y) then Ok (None, s) else
  let* yc := getmask active (nm_data y) in
  let* R := getmask_ix active (nm_R md) in
  let* h := getmask active (nm_h md (ns_k s) (ns_x s)) in
  let* dh_dx := getmask active (nm_dh_dx md (ns_k s) (ns_x s)) in
  let* Pxh := einsum "...ij,...jz" [:: ns_P s; dh_dx] in
  let* Ph := einsum "...iy,...iz" [:: dh_dx; Pxh] in
  let* Py := nd_add Ph R in
  let* PyI := nd_inv Py in
  let* K := einsum "...ik,...kj" [:: Pxh; PyI] in
  let* e := nd_sub yc h in
  let* s' := nd_corrected s e K Py in
  Ok (Some (NCorr e Pxh Py PyI None K), s').

(** A filter class: [predict] and [prediction_crosscov]
    (unscented.py:389-390, extended.py:117-118), [correct]. *)
Record nfilter := NFilter {
  n_predict : nstate -> res (nstate * nd);
  n_correct : nstate -> nmeas -> res (nstate * option ncorr) }.
Definition nd_ukf (nx : nat) (md : nmodel) (kp kc : F) (rp rc : nd -> res nd) : nfilter :=
  NFilter (fun s => let* p := nd_ukf_predict nx md kp rp s in
                    let* C := nd_crosscov nx kp p.1 in
                    Ok (p.2, C))
          (fun s y => let* c := nd_ukf_correct nx md kc rc s y in
                      Ok (c.2, omap snd c.1)).
Definition nd_ekf (md : nmodel) : nfilter :=
  NFilter (fun s => let* p := nd_ekf_predict md s in Ok (p.2, p.1))
          (fun s y => let* c := nd_ekf_correct md s y in Ok (c.2, c.1)).

(** ** The loops of base.py *)

Section Loops.
Variable flt : nfilter.

(** base.py:94-105 [filter(y)]. *)
Fixpoint nd_filter (s : nstate) (ys : seq nmeas) : res (seq (nd * nd) * nstate) :=
  match ys with
  | [::] => Ok ([::], s)
  | y :: ys' =>
      let* c := n_correct flt s y in
      let s1 := c.1 in
      match ys' with
      | [::] => Ok ([:: (ns_x s1, ns_P s1)], s1)
      | _ => let* p := n_predict flt s1 in
             let* r := nd_filter p.1 ys' in
             Ok ((ns_x s1, ns_P s1) :: r.1, r.2)
      end
  end.

(** base.py:86-92 [smoother_correction]. *)
Definition nd_smoother_correction (xpred Pxpred Pxf xsmooth Pxsmooth : nd) : res (nd * nd) :=
  let* PxIpred := nd_inv Pxpred in
  let* K := einsum "...ij,...jk" [:: Pxf; PxIpred] in
  let* e := nd_sub xsmooth xpred in
  let* x_inc := einsum "...ij,...j" [:: K; e] in
  let* dP := nd_sub Pxsmooth Pxpred in
  let* Px_inc := einsum "...ij,...jk,...lk" [:: K; dP; K] in
  Ok (x_inc, Px_inc).

(** base.py:107-131 [smooth(y)]: the forward pass and the backward pass. *)
Record nstep := NStep { nt_pred : nd * nd; nt_Pxf : nd; nt_est : nd * nd }.
Fixpoint nd_forward (s1 : nstate) (ys : seq nmeas) : res (seq nstep * nstate) :=
  match ys with
  | [::] => Ok ([::], s1)
  | y :: ys' =>
      let* p := n_predict flt s1 in
      let* c := n_correct flt p.1 y in
      let* r := nd_forward c.1 ys' in
      Ok (NStep (ns_x p.1, ns_P p.1) p.2 (ns_x c.1, ns_P c.1) :: r.1, r.2)
  end.
Fixpoint nd_backward (e0 : nd * nd) (l : seq nstep) : res (seq (nd * nd)) :=
  match l with
  | [::] => Ok [:: e0]
  | st :: l' =>
      let* r := nd_backward (nt_est st) l' in
      let sm := head (nt_est st) r in
      let* inc := nd_smoother_correction (nt_pred st).1 (nt_pred st).2 (nt_Pxf st) sm.1 sm.2 in
      let* x := nd_iadd e0.1 inc.1 in
      let* P := nd_iadd e0.2 inc.2 in
      Ok ((x, P) :: r)
  end.
Definition nd_smooth (s : nstate) (ys : seq nmeas) : res (seq (nd * nd) * nstate) :=
  match ys with
  | [::] => Err ValueError
  | y :: ys' =>
      let* c := n_correct flt s y in
      let* fw := nd_forward c.1 ys' in
      let* r := nd_backward (ns_x c.1, ns_P c.1) fw.1 in
      Ok (r, fw.2)
  end.

(** [self.L -= T]: a number is replaced, an array is updated in place. *)
Definition nd_lsub (L T : nd) : res nd := if shape L == [::] then nd_sub L T else nd_isub L T.

(** unscented.py:541-548 and extended.py:181-188 [update_likelihood()]. *)
Variable log : F -> F.
Definition nd_update_likelihood (L : nd) (c : option ncorr) : res nd :=
  match c with
  | None => Ok L
  | Some d =>
      match nk_PyC d with
      | None => Err AttributeError
      | Some PyC =>
          let* PyCD := einsum "...kk->...k" [:: PyC] in
          let* T := einsum "...i,...ij,...j" [:: nk_e d; nk_PyI d; nk_e d] in
          let* L := nd_lsub L (nd_scale 2%:R^-1 T) in
          nd_lsub L (sum_last (map1 log PyCD))
      end
  end.

(** base.py:133-143 [pem_merit(y)]. *)
Fixpoint nd_pem_merit (s : nstate) (L : nd) (ys : seq nmeas) : res nd :=
  match ys with
  | [::] => Ok L
  | y :: ys' =>
      let* c := n_correct flt s y in
      let* L1 := nd_update_likelihood L c.2 in
      match ys' with
      | [::] => Ok L1
      | _ => let* p := n_predict flt c.1 in nd_pem_merit p.1 L1 ys'
      end
  end.
End Loops.

(** ** Derivatives of the unscented filter *)

Section Diff.
Variables (nx : nat) (dm : ndmodel) (log : F -> F).
Notation md := (nm_md dm).

(** [dx_dq], [dPx_dq] and [d2x_dq2], [d2Px_dq2]. *)
Record ndstate := NDS { nds_x : nd; nds_P : nd }.

(** unscented.py:343-362 [prediction_diff()]; [s] is the state before the
    prediction. *)
Definition nd_prediction_diff (kappa : F) (s : nstate) (u : nut) (d : ndstate) : res (nutd * ndstate) :=
  let k := ns_k s in
  let x := ns_x s in
  let* v := nd_transform_diff nx kappa u (fun X => Ok (nm_df_dq dm k X)) (fun X => Ok (nm_df_dx md k X)) (nds_x d) (nds_P d) in
  let dQ_dq := nm_dQ_dq dm k x in
  let dQ_dx := nm_dQ_dx dm k x in
  let* T := einsum "...ij,...jkl" [:: nds_x d; dQ_dx] in
  let* DQ := nd_add dQ_dq T in
  let* dP := nd_add (nv_dPo v) DQ in
  Ok (v, NDS (nv_do v) dP).

(** unscented.py:364-387 [prediction_diff2()]; [d] and [d2] are the
    derivatives before the prediction. *)
Definition nd_prediction_diff2 (kappa : F) (s : nstate) (u : nut) (v : nutd) (d d2 : ndstate) : res ndstate :=
  let k := ns_k s in
  let x := ns_x s in
  let* w := nd_transform_diff2 nx kappa u v (fun X => Ok (nm_d2f_dq2 dm k X)) (fun X => Ok (nm_d2f_dx2 dm k X))
              (fun X => Ok (nm_d2f_dx_dq dm k X)) (nds_x d2) (nds_P d2) in
  let* D2Q := einsum "...bi,...aikl" [:: nds_x d; nm_d2Q_dx_dq dm k x] in
  let* D2Q := nd_iadd D2Q (swapaxes 3 4 D2Q) in
  let* D2Q := nd_iadd D2Q (nm_d2Q_dq2 dm k x) in
  let* T := einsum "...abi,...ikl" [:: nds_x d2; nm_dQ_dx dm k x] in
  let* D2Q := nd_iadd D2Q T in
  let* T := einsum "...bi,...jikl,...aj" [:: nds_x d; nm_d2Q_dx2 dm k x; nds_x d] in
  let* D2Q := nd_iadd D2Q T in
  let* d2P := nd_add (nw_d2Po w) D2Q in
  Ok (NDS (nw_d2o w) d2P).

(** unscented.py:452-486 [correction_diff()]; [s] is the state before the
    correction. *)
Record ncorr1 := NCorr1 {
  nk_v : nutd; nk_de : nd; nk_dPxh : nd; nk_dPy : nd; nk_dPyI : nd; nk_dK : nd }.
Definition nd_correction_diff (kappa : F) (s : nstate) (active : seq bool) (u : nut) (c : ncorr) (d : ndstate) : res (ncorr1 * ndstate) :=
  let k := ns_k s in
  let* v := nd_transform_diff nx kappa u (fun X => getmask active (nm_dh_dq dm k X)) (fun X => getmask active (nm_dh_dx md k X))
              (nds_x d) (nds_P d) in
  let* dPxh := nd_crosscov_diff nx kappa u v in
  let* dR := getmask2 active (nm_dR_dq dm) in
  let de := nd_opp (nv_do v) in
  let* dPy := nd_add (nv_dPo v) dR in
  let* T := einsum "...ij,...ajk,...kl" [:: nk_PyI c; dPy; nk_PyI c] in
  let dPyI := nd_opp T in
  let* dK := einsum "...ik,...akj" [:: nk_Pxh c; dPyI] in
  let* T := einsum "...aik,...kj" [:: dPxh; nk_PyI c] in
  let* dK := nd_iadd dK T in
  let* T := einsum "...aij,...j" [:: dK; nk_e c] in
  let* dx := nd_iadd (nds_x d) T in
  let* T := einsum "...ij,...aj" [:: nk_K c; de] in
  let* dx := nd_iadd dx T in
  let* T := einsum "...ik,...jl,...alk" [:: nk_K c; nk_K c; dPy] in
  let* dP := nd_isub (nds_P d) T in
  let* M := einsum "...aik,...jl,...lk" [:: dK; nk_K c; nk_Py c] in
  let* M2 := nd_add M (swapaxes 1 2 M) in
  let* dP := nd_isub dP M2 in
  Ok (NCorr1 v de dPxh dPy dPyI dK, NDS dx dP).

(** unscented.py:488-539 [correction_diff2()]. *)
Record ncorr2 := NCorr2 { nk_d2e : nd; nk_d2Py : nd; nk_d2PyI : nd }.
Definition nd_correction_diff2 (kappa : F) (s : nstate) (active : seq bool) (u : nut) (c : ncorr) (c1 : ncorr1) (d2 : ndstate) : res (ncorr2 * ndstate) :=
  let k := ns_k s in
  let K := nk_K c in
  let PyI := nk_PyI c in
  let dK := nk_dK c1 in
  let dPy := nk_dPy c1 in
  let dPyI := nk_dPyI c1 in
  let* w := nd_transform_diff2 nx kappa u (nk_v c1) (fun X => getmask active (nm_d2h_dq2 dm k X)) (fun X => getmask active (nm_d2h_dx2 dm k X))
              (fun X => getmask active (nm_d2h_dx_dq dm k X)) (nds_x d2) (nds_P d2) in
  let* d2Pxh := nd_crosscov_diff2 nx kappa u (nk_v c1) w in
  let* d2R := getmask2 active (nm_d2R_dq2 dm) in
  let d2e := nd_opp (nw_d2o w) in
  let* d2Py := nd_add (nw_d2Po w) d2R in
  let* T := einsum "...aij,...bjk,...kl" [:: dPyI; dPy; PyI] in
  let d2PyI := nd_opp T in
  let* T := einsum "...ij,...abjk,...kl" [:: PyI; d2Py; PyI] in
  let* d2PyI := nd_isub d2PyI T in
  let* T := einsum "...ij,...bjk,...akl" [:: PyI; dPy; dPyI] in
  let* d2PyI := nd_isub d2PyI T in
  let* d2K := einsum "...aik,...bkj" [:: nk_dPxh c1; dPyI] in
  let* T := einsum "...ik,...abkj" [:: nk_Pxh c; d2PyI] in
  let* d2K := nd_iadd d2K T in
  let* T := einsum "...abik,...kj" [:: d2Pxh; PyI] in
  let* d2K := nd_iadd d2K T in
  let* T := einsum "...bik,...akj" [:: nk_dPxh c1; dPyI] in
  let* d2K := nd_iadd d2K T in
  let* T := einsum "...abij,...j" [:: d2K; nk_e c] in
  let* d2x := nd_iadd (nds_x d2) T in
  let* T := einsum "...bij,...aj" [:: dK; nk_de c1] in
  let* d2x := nd_iadd d2x T in
  let* T := einsum "...aij,...bj" [:: dK; nk_de c1] in
  let* d2x := nd_iadd d2x T in
  let* T := einsum "...ij,...abj" [:: K; d2e] in
  let* d2x := nd_iadd d2x T in
  let* T := einsum "...abik,...jl,...lk" [:: d2K; K; nk_Py c] in
  let* d2P := nd_isub (nds_P d2) T in
  let* T := einsum "...bik,...ajl,...lk" [:: dK; dK; nk_Py c] in
  let* d2P := nd_isub d2P T in
  let* T := einsum "...aik,...bjl,...lk" [:: dK; dK; nk_Py c] in
  let* d2P := nd_isub d2P T in
  let* X := einsum "...bik,...jl,...alk" [:: dK; K; dPy] in
  let* X := nd_iadd X (swapaxes 2 1 X) in
  let* X := nd_iadd X (swapaxes 3 4 X) in
  let* d2P := nd_isub d2P X in
  let* T := einsum "...ik,...abjl,...lk" [:: K; d2K; nk_Py c] in
  let* d2P := nd_isub d2P T in
  let* T := einsum "...ik,...jl,...ablk" [:: K; K; d2Py] in
  let* d2P := nd_isub d2P T in
  Ok (NCorr2 d2e d2Py d2PyI, NDS d2x d2P).

(** [PyC] of the unscented filter is always set by [correct]. *)
Definition the_PyC (c : ncorr) : res nd :=
  match nk_PyC c with Some PyC => Ok PyC | None => Err AttributeError end.

(** unscented.py:550-566 [likelihood_diff()]; also [chol] and [dPyCD_dq]. *)
Definition nd_likelihood_diff (c : ncorr) (c1 : ncorr1) (dL : nd) : res (nchol * nd * nd) :=
  let e := nk_e c in
  let PyI := nk_PyI c in
  let* PyC := the_PyC c in
  let* PyCD := einsum "...kk->...k" [:: PyC] in
  let* ch := nd_chol_diff PyC (nk_dPy c1) in
  let* dPyCD := einsum "...kk->...k" [:: nc_dS ch] in
  let* T := nd_div dPyCD (newaxes 1 PyCD) in
  let* dL := nd_isub dL (sum_last T) in
  let* T := einsum "...ai,...ij,...j" [:: nk_de c1; PyI; e] in
  let* dL := nd_isub dL T in
  let* T := einsum "...i,...aij,...j" [:: e; nk_dPyI c1; e] in
  let* dL := nd_isub dL (nd_scale 2%:R^-1 T) in
  Ok (ch, dPyCD, dL).

(** unscented.py:568-594 [likelihood_diff2()]. *)
Definition nd_likelihood_diff2 (c : ncorr) (c1 : ncorr1) (c2 : ncorr2) (ch : nchol) (dPyCD d2L : nd) : res nd :=
  let e := nk_e c in
  let PyI := nk_PyI c in
  let de := nk_de c1 in
  let dPyI := nk_dPyI c1 in
  let* PyC := the_PyC c in
  let* PyCD := einsum "...kk->...k" [:: PyC] in
  let* d2PyC := nd_chol_diff2 PyC ch (nk_d2Py c2) in
  let* d2PyCD := einsum "...kk->...k" [:: d2PyC] in
  let* T := nd_div d2PyCD (newaxes 2 PyCD) in
  let* d2L := nd_isub d2L (sum_last T) in
  let* T := nd_div dPyCD (map1 (fun x => x ^+ 2) (newaxes 1 PyCD)) in
  let* T := einsum "...ak,...bk" [:: dPyCD; T] in
  let* d2L := nd_iadd d2L T in
  let* T := einsum "...ai,...ij,...bj" [:: de; PyI; de] in
  let* d2L := nd_isub d2L T in
  let* T := einsum "...abi,...ij,...j" [:: nk_d2e c2; PyI; e] in
  let* d2L := nd_isub d2L T in
  let* T := einsum "...i,...abij,...j" [:: e; nk_d2PyI c2; e] in
  let* d2L := nd_isub d2L (nd_scale 2%:R^-1 T) in
  let* X := einsum "...ai,...bij,...j" [:: de; dPyI; e] in
  let* d2L := nd_isub d2L X in
  nd_isub d2L (swapaxes 1 2 X).

Variables kp kc : F.

(** What the loops carry. *)
Record ngstate := NGS { ng_s : nstate; ng_L : nd; ng_d : ndstate; ng_dL : nd }.
Record nhstate := NHS { nh_g : ngstate; nh_d2 : ndstate; nh_d2L : nd }.

(** base.py:150-153. *)
Definition nd_grad_correct (g : ngstate) (y : nmeas) : res ngstate :=
  let s := ng_s g in
  let* c := nd_ukf_correct nx md kc nd_chol s y in
  match c.1 with
  | None => Ok (NGS c.2 (ng_L g) (ng_d g) (ng_dL g))
  | Some (u, c0) =>
      let* c1 := nd_correction_diff kc s (nd_active y) u c0 (ng_d g) in
      let* L := nd_update_likelihood log (ng_L g) (Some c0) in
      let* l := nd_likelihood_diff c0 c1.1 (ng_dL g) in
      Ok (NGS c.2 L c1.2 l.2)
  end.
(** base.py:155-156. *)
Definition nd_grad_predict (g : ngstate) : res ngstate :=
  let s := ng_s g in
  let* p := nd_ukf_predict nx md kp nd_chol s in
  let* v := nd_prediction_diff kp s p.1 (ng_d g) in
  Ok (NGS p.2 (ng_L g) v.2 (ng_dL g)).
(** base.py:145-158 [pem_gradient(y)]. *)
Fixpoint nd_grad_loop (g : ngstate) (ys : seq nmeas) : res ngstate :=
  match ys with
  | [::] => Ok g
  | y :: ys' =>
      let* g1 := nd_grad_correct g y in
      match ys' with
      | [::] => Ok g1
      | _ => let* g2 := nd_grad_predict g1 in nd_grad_loop g2 ys'
      end
  end.
Definition nd_pem_gradient (g : ngstate) (ys : seq nmeas) : res nd :=
  let* g' := nd_grad_loop g ys in Ok (ng_dL g').

(** base.py:165-170. *)
Definition nd_hess_correct (h : nhstate) (y : nmeas) : res nhstate :=
  let g := nh_g h in
  let s := ng_s g in
  let* c := nd_ukf_correct nx md kc nd_chol s y in
  match c.1 with
  | None => Ok (NHS (NGS c.2 (ng_L g) (ng_d g) (ng_dL g)) (nh_d2 h) (nh_d2L h))
  | Some (u, c0) =>
      let* c1 := nd_correction_diff kc s (nd_active y) u c0 (ng_d g) in
      let* c2 := nd_correction_diff2 kc s (nd_active y) u c0 c1.1 (nh_d2 h) in
      let* L := nd_update_likelihood log (ng_L g) (Some c0) in
      let* l := nd_likelihood_diff c0 c1.1 (ng_dL g) in
      let* d2L := nd_likelihood_diff2 c0 c1.1 c2.1 l.1.1 l.1.2 (nh_d2L h) in
      Ok (NHS (NGS c.2 L c1.2 l.2) c2.2 d2L)
  end.
(** base.py:172-174. *)
Definition nd_hess_predict (h : nhstate) : res nhstate :=
  let g := nh_g h in
  let s := ng_s g in
  let* p := nd_ukf_predict nx md kp nd_chol s in
  let* v := nd_prediction_diff kp s p.1 (ng_d g) in
  let* d2 := nd_prediction_diff2 kp s p.1 v.1 (ng_d g) (nh_d2 h) in
  Ok (NHS (NGS p.2 (ng_L g) v.2 (ng_dL g)) d2 (nh_d2L h)).
(** base.py:160-176 [pem_hessian(y)]. *)
Fixpoint nd_hess_loop (h : nhstate) (ys : seq nmeas) : res nhstate :=
  match ys with
  | [::] => Ok h
  | y :: ys' =>
      let* h1 := nd_hess_correct h y in
      match ys' with
      | [::] => Ok h1
      | _ => let* h2 := nd_hess_predict h1 in nd_hess_loop h2 ys'
      end
  end.
Definition nd_pem_hessian (h : nhstate) (ys : seq nmeas) : res nd :=
  let* h' := nd_hess_loop h ys in Ok (nh_d2L h').
End Diff.
End NdKalman.
