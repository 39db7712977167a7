(** Model of the unscented filter of ceacoest/kalman (base.py, unscented.py) as
    an object: the attributes are looked up by name when a statement reads
    them and bound when a statement assigns them, in the order of the source,
    and what was bound before an exception stays bound.

    [NdKalModel] describes the same methods with the attributes passed as
    values; [PropsObj] relates the two.

    The object consists of the filter, its two transforms
    ([_DTPredictor__ut] and [_DTCorrector__ut]), the [DifferentiableCholesky]
    of each of them, and the one that [correct] creates.

    Simplified: exact arithmetic; an in-place update binds the new value
    ([AliasModel] describes the sharing of arrays); a measurement sequence is
    a list; the functions of the model do not raise. *)
From Coq Require Import String Ascii.
From Verif Require Import Py.
From mathcomp Require Import all_ssreflect all_algebra.
From Verif Require Import KalModel NpModel NdKalModel.
Set Implicit Arguments.
Unset Strict Implicit.
Unset Printing Implicit Defensive.
Import Order.TTheory GRing.Theory Num.Theory.
Local Open Scope ring_scope.

(** The instances: the filter, the transforms of unscented.py:325-326 and
    404-405, their [cholesky] (unscented.py:288) and the filter's [__chol]
    (unscented.py:424). *)
Inductive owner := Self | PUt | CUt | PCh | CCh | YCh.
Definition owner_eqb (a b : owner) : bool :=
  match a, b with
  | Self, Self | PUt, PUt | CUt, CUt | PCh, PCh | CCh, CCh | YCh, YCh => true
  | _, _ => false
  end.

Section Object.
Variable F : rcfType.
Local Notation nd := (nd F).
Local Open Scope string_scope.

(** What an attribute is bound to: an array, a float, an integer, an array of
    booleans, [np.arange], [np.tril_indices], an instance. *)
Inductive val := VA of nd | VF of F | VN of nat | VB of seq bool | VR of seq nat | VI of seq (nat * nat) | VO of owner.

(** The [__dict__] of every instance. *)
Definition obj := owner -> string -> option val.
Definition no_attrs : obj := fun _ _ => None.
Definition upd (st : obj) (o : owner) (a : string) (v : val) : obj :=
  fun o' a' => if owner_eqb o o' && String.eqb a a' then Some v else st o' a'.

(** A method call: its outcome and the object afterwards. *)
Definition met (A : Type) := obj -> res A * obj.
Definition ret A (a : A) : met A := fun st => (Ok a, st).
Definition bnd A B (m : met A) (g : A -> met B) : met B :=
  fun st => match m st with (Ok a, st') => g a st' | (Err e, st') => (Err e, st') end.
Definition lift A (r : res A) : met A := fun st => (r, st).
Definition setv (o : owner) (a : string) (v : val) : met unit := fun st => (Ok tt, upd st o a v).
Definition getv (o : owner) (a : string) : met val :=
  fun st => (match st o a with Some v => Ok v | None => Err AttributeError end, st).
(** Forget the attributes of an instance: a new instance takes its place. *)
Definition wipe (st : obj) (o : owner) : obj := fun o' a => if owner_eqb o o' then None else st o' a.
Definition renew (o : owner) : met unit := fun st => (Ok tt, wipe st o).

(** The attributes keep the kind of value they have in the source; the
    [TypeError]s do not occur. *)
Definition asA (v : val) : res nd := if v is VA A then Ok A else Err TypeError.
Definition asF (v : val) : res F := if v is VF x then Ok x else Err TypeError.
Definition asN (v : val) : res nat := if v is VN n then Ok n else Err TypeError.
Definition asB (v : val) : res (seq bool) := if v is VB b then Ok b else Err TypeError.
Definition asR (v : val) : res (seq nat) := if v is VR r then Ok r else Err TypeError.
Definition asI (v : val) : res (seq (nat * nat)) := if v is VI t then Ok t else Err TypeError.
Definition asO (v : val) : res owner := if v is VO o then Ok o else Err TypeError.
Definition geta A (as_ : val -> res A) (o : owner) (a : string) : met A := bnd (getv o a) (fun v => lift (as_ v)).
End Object.

Notation "'let!' x ':=' m 'in' k" := (bnd m (fun x => k))
  (at level 200, x pattern, m at level 100, k at level 200, right associativity).

Section Methods.
Variable F : rcfType.
Local Notation nd := (nd F).
Local Notation met := (met F).
Local Notation getA := (geta (@asA F)).
Local Notation getF := (geta (@asF F)).
Local Notation getN := (geta (@asN F)).
Local Notation getB := (geta (@asB F)).
Local Notation getR := (geta (@asR F)).
Local Notation getI := (geta (@asI F)).
Local Notation getO := (geta (@asO F)).
Local Open Scope string_scope.

(** * DifferentiableCholesky *)

(** unscented.py:202 [diff_data_initialized = 0] in the class: read when the
    instance has no such attribute. *)
Definition get_initialized (c : owner) : met nat :=
  fun st => match st c "diff_data_initialized" with Some v => lift (asN v) st | None => (Ok 0%N, st) end.

(** unscented.py:204-210 [initialize_diff_data(ni)]. *)
Definition initialize_diff_data (c : owner) (ni : nat) : met unit :=
  let! n := get_initialized c in
  if n == ni then ret tt else
  let! _ := setv c "ni_range" (VR F (iota 0 ni)) in
  let! _ := setv c "ni_tril_indices" (VI F (tril_indices ni)) in
  setv c "diff_data_initialized" (VN F ni).

(** unscented.py:212-215 [__call__(Q)]. *)
Definition ch_call (c : owner) (Q : nd) : met nd :=
  let! L := lift (nd_cholesky Q) in
  let! _ := setv c "S" (VA (swapaxes 1 2 L)) in
  getA c "S".

(** unscented.py:240-245 and 266-271: the matrix of the linear system from
    the index arrays [(i, j)] and [k]. *)
Definition AL_of (t : seq (nat * nat)) (ks : seq nat) (ni : nat) (S : nd) : nd :=
  let i r := (nth (0, 0)%N t r).1 in
  let j r := (nth (0, 0)%N t r).2 in
  let rs := iota 0 (size t) in
  let triples := [seq (p, k) | p <- [seq (r, c) | r <- rs, c <- rs], k <- ks] in
  let A := zeros F (shape S ++ [:: ni; ni]) in
  let A := put 4 [seq ([:: i x.1.1; j x.1.2; i x.1.1; x.2], fun e => get S (e ++ [:: x.2; j x.1.2])) | x <- triples] A in
  let A := put 4 [seq ([:: i x.1.1; j x.1.2; j x.1.2; x.2],
                       fun e => get A (e ++ [:: i x.1.1; j x.1.2; j x.1.2; x.2]) + get S (e ++ [:: x.2; i x.1.1])) | x <- triples] A in
  getpairs t (getpairs2 t A).

(** unscented.py:217-257 [diff(dQ_dq)]. *)
Definition ch_diff (c : owner) (dQ : nd) : met nd :=
  let! Sq := getA c "S" in
  let ni := last 0%N (shape Sq) in
  let! _ := initialize_diff_data c ni in
  let! k := getR c "ni_range" in
  let! t := getI c "ni_tril_indices" in
  let! Sq := getA c "S" in
  let AL := AL_of t k ni Sq in
  let! ALI := lift (nd_inv AL) in
  let dQL := getpairs t dQ in
  let! dSL := lift (einsum "...ij,...bj" [:: ALI; dQL]) in
  let dS := setpairs [seq (p.2, p.1) | p <- t] dSL (zeros F (shape dQ)) in
  let! _ := setv c "dQL_dq" (VA dQL) in
  let! _ := setv c "dS_dq" (VA dS) in
  let! _ := setv c "AL" (VA AL) in
  let! _ := setv c "ALI" (VA ALI) in
  ret dS.

(** unscented.py:259-282 [diff2(d2Q_dq2)]. *)
Definition ch_diff2 (c : owner) (d2Q : nd) : met nd :=
  let nq := nth 0%N (shape d2Q) (size (shape d2Q) - 3) in
  let! Sq := getA c "S" in
  let ni := last 0%N (shape Sq) in
  let! _ := initialize_diff_data c ni in
  let! k := getR c "ni_range" in
  let! t := getI c "ni_tril_indices" in
  let! dS := getA c "dS_dq" in
  let dAL := AL_of t k ni dS in
  let! ALI := getA c "ALI" in
  let! dALI := lift (einsum "...ij,...ajk,...kl" [:: ALI; dAL; ALI]) in
  let dALI := nd_opp dALI in
  let d2QL := getpairs t d2Q in
  let! d2SL := lift (einsum "...ij,...abj" [:: ALI; d2QL]) in
  let! dQL := getA c "dQL_dq" in
  let! T := lift (einsum "...aij,...bj" [:: dALI; dQL]) in
  let! d2SL := lift (nd_iadd d2SL T) in
  let! Sq := getA c "S" in
  ret (setpairs [seq (p.2, p.1) | p <- t] d2SL (zeros F (take (size (shape Sq) - 2) (shape Sq) ++ [:: nq; nq; ni; ni]))).

(** * CholeskyUnscentedTransform *)

(** unscented.py:44-57 and 286-288 [__init__(ni, kappa)]: [o] is the
    transform and [c] its [cholesky]. *)
Definition ut_init (o c : owner) (ni : nat) (kappa : F) : met unit :=
  let! _ := renew o in
  let! _ := setv o "ni" (VN F ni) in
  let! _ := setv o "kappa" (VF kappa) in
  let! _ := lift (passert (ni%:R + kappa != 0)) in
  let! _ := setv o "nsigma" (VN F (nsigma ni kappa)) in
  let! _ := setv o "weights" (VA (nd_weights ni kappa)) in
  let! _ := renew c in
  setv o "cholesky" (VO F c).

(** unscented.py:290-292 [sqrt(Q)], 294-296 [sqrt_diff(dQ_dq)], 298-300
    [sqrt_diff2(d2Q_dq2)]. *)
Definition ut_sqrt (o : owner) (Q : nd) : met nd := let! c := getO o "cholesky" in ch_call c Q.
Definition ut_sqrt_diff (o : owner) (dQ : nd) : met nd := let! c := getO o "cholesky" in ch_diff c dQ.
Definition ut_sqrt_diff2 (o : owner) (d2Q : nd) : met nd := let! c := getO o "cholesky" in ch_diff2 c d2Q.

(** unscented.py:64-79 [sigma_points(i, Pi)]. *)
Definition ut_sigma_points (o : owner) (i Pi : nd) : met nd :=
  let! ni := getN o "ni" in
  let! kappa := getF o "kappa" in
  let! Sq := ut_sqrt o (nd_scale (ni%:R + kappa) Pi) in
  let Sr := rollaxis 2 Sq in
  let! ns := getN o "nsigma" in
  let idev := zeros F (ns :: shape i) in
  let! idev := lift (setslice 0 ni idev Sr) in
  let! idev := lift (setslice ni (2 * ni) idev (nd_opp Sr)) in
  let! isigma := lift (nd_add idev i) in
  let! _ := setv o "isigma" (VA isigma) in
  let! _ := setv o "idev" (VA idev) in
  ret isigma.

(** unscented.py:81-93 [sigma_points_diff(di_dq, dPi_dq)]. *)
Definition ut_sigma_points_diff (o : owner) (di dPi : nd) : met nd :=
  let! ni := getN o "ni" in
  let! kappa := getF o "kappa" in
  let! dS := ut_sqrt_diff o (nd_scale (ni%:R + kappa) dPi) in
  let! ns := getN o "nsigma" in
  let didev := zeros F (ns :: shape di) in
  let! didev := lift (setslice 0 ni didev (rollaxis 2 dS)) in
  let! didev := lift (setslice ni (2 * ni) didev (nd_opp (getslice 0 ni didev))) in
  let! disigma := lift (nd_add didev di) in
  let! _ := setv o "didev_dq" (VA didev) in
  let! _ := setv o "disigma_dq" (VA disigma) in
  ret disigma.

(** unscented.py:95-106 [sigma_points_diff2(d2i_dq2, d2Pi_dq2)]. *)
Definition ut_sigma_points_diff2 (o : owner) (d2i d2Pi : nd) : met nd :=
  let! ni := getN o "ni" in
  let! kappa := getF o "kappa" in
  let! d2S := ut_sqrt_diff2 o (nd_scale (ni%:R + kappa) d2Pi) in
  let! ns := getN o "nsigma" in
  let d2idev := zeros F (ns :: shape d2i) in
  let! d2idev := lift (setslice 0 ni d2idev (rollaxis 2 d2S)) in
  let! d2idev := lift (setslice ni (2 * ni) d2idev (nd_opp (getslice 0 ni d2idev))) in
  let! d2isigma := lift (nd_add d2idev d2i) in
  let! _ := setv o "d2idev_dq2" (VA d2idev) in
  ret d2isigma.

(** unscented.py:108-121 [transform(i, Pi, f)]. *)
Definition ut_transform (o : owner) (i Pi : nd) (f : nd -> met nd) : met (nd * nd) :=
  let! isigma := ut_sigma_points o i Pi in
  let! weights := getA o "weights" in
  let! osigma := f isigma in
  let! ov := lift (einsum "k,k..." [:: weights; osigma]) in
  let! odev := lift (nd_sub osigma ov) in
  let! Po := lift (einsum "k...i,k...j,k" [:: odev; odev; weights]) in
  let! _ := setv o "osigma" (VA osigma) in
  let! _ := setv o "odev" (VA odev) in
  let! _ := setv o "o" (VA ov) in
  let! _ := setv o "Po" (VA Po) in
  ret (ov, Po).

(** unscented.py:123-143 [transform_diff(df_dq, df_di, di_dq, dPi_dq)]. *)
Definition ut_transform_diff (o : owner) (df_dq df_di : nd -> met nd) (di dPi : nd) : met (nd * nd) :=
  let! weights := getA o "weights" in
  let! isigma := getA o "isigma" in
  let! odev := getA o "odev" in
  let! dfdi := df_di isigma in
  let! _ := setv o "df_di" (VA dfdi) in
  let! disigma := ut_sigma_points_diff o di dPi in
  let! Dosigma := df_dq isigma in
  let! dfdi := getA o "df_di" in
  let! T := lift (einsum "k...if,k...ai->k...af" [:: dfdi; disigma]) in
  let! Dosigma := lift (nd_iadd Dosigma T) in
  let! do := lift (einsum "k,k..." [:: weights; Dosigma]) in
  let! dodev := lift (nd_sub Dosigma do) in
  let! dPo := lift (einsum "k...lj,k...i,k->...lij" [:: dodev; odev; weights]) in
  let! dPo := lift (nd_iadd dPo (swapaxes 1 2 dPo)) in
  let! _ := setv o "disigma_dq" (VA disigma) in
  let! _ := setv o "dodev_dq" (VA dodev) in
  let! _ := setv o "do_dq" (VA do) in
  let! _ := setv o "dPo_dq" (VA dPo) in
  ret (do, dPo).

(** unscented.py:145-171 [transform_diff2]. *)
Definition ut_transform_diff2 (o : owner) (d2f_dq2 d2f_di2 d2f_di_dq : nd -> met nd) (d2i d2Pi : nd) : met (nd * nd) :=
  let! weights := getA o "weights" in
  let! odev := getA o "odev" in
  let! isigma := getA o "isigma" in
  let! disigma := getA o "disigma_dq" in
  let! dodev := getA o "dodev_dq" in
  let! d2isigma := ut_sigma_points_diff2 o d2i d2Pi in
  let! dxq := d2f_di_dq isigma in
  let! D2 := lift (einsum "k...aif,k...bi->k...baf" [:: dxq; disigma]) in
  let! D2 := lift (nd_iadd D2 (swapaxes 2 3 D2)) in
  let! dqq := d2f_dq2 isigma in
  let! D2 := lift (nd_iadd D2 dqq) in
  let! dxx := d2f_di2 isigma in
  let! T := lift (einsum "k...ijf,k...ai,k...bj->k...baf" [:: dxx; disigma; disigma]) in
  let! D2 := lift (nd_iadd D2 T) in
  let! dfdi := getA o "df_di" in
  let! T := lift (einsum "k...if,k...bai->k...baf" [:: dfdi; d2isigma]) in
  let! D2 := lift (nd_iadd D2 T) in
  let! d2o := lift (einsum "k,k..." [:: weights; D2]) in
  let! d2odev := lift (nd_sub D2 d2o) in
  let! d2Po := lift (einsum "k...abi,k...j,k" [:: d2odev; odev; weights]) in
  let! T := lift (einsum "k...bi,k...aj,k" [:: dodev; dodev; weights]) in
  let! d2Po := lift (nd_iadd d2Po T) in
  let! d2Po := lift (nd_iadd d2Po (swapaxes 1 2 d2Po)) in
  let! _ := setv o "d2odev_dq2" (VA d2odev) in
  ret (d2o, d2Po).

(** unscented.py:173-174 [crosscov()]. *)
Definition ut_crosscov (o : owner) : met nd :=
  let! idev := getA o "idev" in
  let! odev := getA o "odev" in
  let! weights := getA o "weights" in
  lift (einsum "k...i,k...j,k" [:: idev; odev; weights]).

(** unscented.py:176-181 [crosscov_diff()]. *)
Definition ut_crosscov_diff (o : owner) : met nd :=
  let! didev := getA o "didev_dq" in
  let! odev := getA o "odev" in
  let! weights := getA o "weights" in
  let! dPio := lift (einsum "k...ai,k...j,k" [:: didev; odev; weights]) in
  let! idev := getA o "idev" in
  let! dodev := getA o "dodev_dq" in
  let! weights := getA o "weights" in
  let! T := lift (einsum "k...i,k...aj,k" [:: idev; dodev; weights]) in
  lift (nd_iadd dPio T).

(** unscented.py:183-191 [crosscov_diff2()]. *)
Definition ut_crosscov_diff2 (o : owner) : met nd :=
  let! didev := getA o "didev_dq" in
  let! dodev := getA o "dodev_dq" in
  let! weights := getA o "weights" in
  let! d2Pio := lift (einsum "k...bi,k...aj,k" [:: didev; dodev; weights]) in
  let! d2Pio := lift (nd_iadd d2Pio (swapaxes 3 4 d2Pio)) in
  let! d2idev := getA o "d2idev_dq2" in
  let! odev := getA o "odev" in
  let! weights := getA o "weights" in
  let! T := lift (einsum "k...abi,k...j,k" [:: d2idev; odev; weights]) in
  let! d2Pio := lift (nd_iadd d2Pio T) in
  let! idev := getA o "idev" in
  let! d2odev := getA o "d2odev_dq2" in
  let! weights := getA o "weights" in
  let! T := lift (einsum "k...i,k...abj,k" [:: idev; d2odev; weights]) in
  lift (nd_iadd d2Pio T).

(** * DTFilter *)

Section Filter.
Variables (nx : nat) (dm : ndmodel F) (log : F -> F).
Notation md := (nm_md dm).

(** What base.py:17-63 binds: the mean and covariance, the time index, and the
    initial likelihood and derivatives. *)
Record initial := Initial {
  i_k : nat; i_x : nd; i_Px : nd; i_L : nd; i_dL : nd; i_d2L : nd;
  i_dx : nd; i_dPx : nd; i_d2x : nd; i_d2Px : nd }.
Definition base_init (i : initial) : met unit :=
  let! _ := setv Self "x" (VA (i_x i)) in
  let! _ := setv Self "Px" (VA (i_Px i)) in
  let! _ := setv Self "k" (VN F (i_k i)) in
  let! _ := setv Self "L" (VA (i_L i)) in
  let! _ := setv Self "dL_dq" (VA (i_dL i)) in
  let! _ := setv Self "d2L_dq2" (VA (i_d2L i)) in
  let! _ := setv Self "dx_dq" (VA (i_dx i)) in
  let! _ := setv Self "dPx_dq" (VA (i_dPx i)) in
  let! _ := setv Self "d2x_dq2" (VA (i_d2x i)) in
  setv Self "d2Px_dq2" (VA (i_d2Px i)).

(** unscented.py:314-326 and 393-405 [__init__], in the order of the method
    resolution: base, corrector, predictor. *)
Definition ob_init (kp kc : F) (i : initial) : met unit :=
  let! _ := base_init i in
  let! _ := ut_init CUt CCh nx kc in
  let! _ := setv Self "_DTCorrector__ut" (VO F CUt) in
  let! _ := ut_init PUt PCh nx kp in
  setv Self "_DTPredictor__ut" (VO F PUt).

Notation put := (getO Self "_DTPredictor__ut").
Notation cut := (getO Self "_DTCorrector__ut").

(** unscented.py:328-341 [predict()]. *)
Definition ob_predict : met (nd * nd) :=
  let f_fun X := let! k := getN Self "k" in ret (nm_f md k X) in
  let! ut := put in
  let! x := getA Self "x" in
  let! Px := getA Self "Px" in
  let! p := ut_transform ut x Px f_fun in
  let '(f, Pf) := p in
  let! k := getN Self "k" in
  let! x := getA Self "x" in
  let Q := nm_Q md k x in
  let! x := getA Self "x" in
  let! _ := setv Self "prev_x" (VA x) in
  let! Px := getA Self "Px" in
  let! _ := setv Self "prev_Px" (VA Px) in
  let! k := getN Self "k" in
  let! _ := setv Self "k" (VN F k.+1) in
  let! _ := setv Self "x" (VA f) in
  let! P := lift (nd_add Pf Q) in
  let! _ := setv Self "Px" (VA P) in
  let! x := getA Self "x" in
  let! Px := getA Self "Px" in
  ret (x, Px).

(** unscented.py:343-362 [prediction_diff()]; the time index minus one is only
    used after [predict], when it is not negative. *)
Definition ob_prediction_diff : met unit :=
  let! k := getN Self "k" in
  let k := k.-1 in
  let! x := getA Self "prev_x" in
  let df_dq_fun X := ret (nm_df_dq dm k X) in
  let df_dx_fun X := ret (nm_df_dx md k X) in
  let! ut := put in
  let! dx := getA Self "dx_dq" in
  let! dPx := getA Self "dPx_dq" in
  let! p := ut_transform_diff ut df_dq_fun df_dx_fun dx dPx in
  let '(Df, DPf) := p in
  let dQ_dq := nm_dQ_dq dm k x in
  let dQ_dx := nm_dQ_dx dm k x in
  let! dx := getA Self "dx_dq" in
  let! T := lift (einsum "...ij,...jkl" [:: dx; dQ_dx]) in
  let! DQ := lift (nd_add dQ_dq T) in
  let! _ := setv Self "dQ_dx" (VA dQ_dx) in
  let! dx := getA Self "dx_dq" in
  let! _ := setv Self "prev_dx_dq" (VA dx) in
  let! _ := setv Self "dx_dq" (VA Df) in
  let! dP := lift (nd_add DPf DQ) in
  setv Self "dPx_dq" (VA dP).

(** unscented.py:364-387 [prediction_diff2()]. *)
Definition ob_prediction_diff2 : met unit :=
  let! k := getN Self "k" in
  let k := k.-1 in
  let! x := getA Self "prev_x" in
  let! dx := getA Self "prev_dx_dq" in
  let d2f_dq2_fun X := ret (nm_d2f_dq2 dm k X) in
  let d2f_dx2_fun X := ret (nm_d2f_dx2 dm k X) in
  let d2f_dx_dq_fun X := ret (nm_d2f_dx_dq dm k X) in
  let! ut := put in
  let! d2x := getA Self "d2x_dq2" in
  let! d2Px := getA Self "d2Px_dq2" in
  let! p := ut_transform_diff2 ut d2f_dq2_fun d2f_dx2_fun d2f_dx_dq_fun d2x d2Px in
  let '(D2f, D2Pf) := p in
  let d2Q_dx_dq := nm_d2Q_dx_dq dm k x in
  let! D2Q := lift (einsum "...bi,...aikl" [:: dx; d2Q_dx_dq]) in
  let! D2Q := lift (nd_iadd D2Q (swapaxes 3 4 D2Q)) in
  let! D2Q := lift (nd_iadd D2Q (nm_d2Q_dq2 dm k x)) in
  let! d2x := getA Self "d2x_dq2" in
  let! dQ_dx := getA Self "dQ_dx" in
  let! T := lift (einsum "...abi,...ikl" [:: d2x; dQ_dx]) in
  let! D2Q := lift (nd_iadd D2Q T) in
  let! T := lift (einsum "...bi,...jikl,...aj" [:: dx; nm_d2Q_dx2 dm k x; dx]) in
  let! D2Q := lift (nd_iadd D2Q T) in
  let! _ := setv Self "d2x_dq2" (VA D2f) in
  let! d2P := lift (nd_add D2Pf D2Q) in
  setv Self "d2Px_dq2" (VA d2P).

(** unscented.py:389-390 [prediction_crosscov()]. *)
Definition ob_prediction_crosscov : met nd := let! ut := put in ut_crosscov ut.

(** unscented.py:407-450 [correct(y)]. *)
Definition ob_correct (y : nmeas F) : met (nd * nd) :=
  let active := nd_active y in
  let! _ := setv Self "active" (VB F active) in
  if all id (nm_mask y) then
    let! x := getA Self "x" in
    let! Px := getA Self "Px" in
    ret (x, Px)
  else
  let! yc := lift (getmask active (nm_data y)) in
  let! R := lift (getmask_ix active (nm_R md)) in
  let h_fun X := let! k := getN Self "k" in lift (getmask active (nm_h md k X)) in
  let! ut := cut in
  let! x := getA Self "x" in
  let! Px := getA Self "Px" in
  let! p := ut_transform ut x Px h_fun in
  let '(h, Ph) := p in
  let! ut := cut in
  let! Pxh := ut_crosscov ut in
  let! _ := renew YCh in
  let! _ := setv Self "_DTCorrector__chol" (VO F YCh) in
  let! Py := lift (nd_add Ph R) in
  let! ch := getO Self "_DTCorrector__chol" in
  let! PyC := ch_call ch Py in
  let! PyCI := lift (nd_inv PyC) in
  let! PyI := lift (einsum "...ik,...jk" [:: PyCI; PyCI]) in
  let! e := lift (nd_sub yc h) in
  let! K := lift (einsum "...ik,...kj" [:: Pxh; PyI]) in
  let! x := getA Self "x" in
  let! dx := lift (einsum "...ij,...j" [:: K; e]) in
  let! x_corr := lift (nd_add x dx) in
  let! Px := getA Self "Px" in
  let! dP := lift (einsum "...ik,...jl,...kl" [:: K; K; Py]) in
  let! Px_corr := lift (nd_sub Px dP) in
  let! x := getA Self "x" in
  let! _ := setv Self "prev_x" (VA x) in
  let! Px := getA Self "Px" in
  let! _ := setv Self "prev_Px" (VA Px) in
  let! _ := setv Self "e" (VA e) in
  let! _ := setv Self "x" (VA x_corr) in
  let! _ := setv Self "Px" (VA Px_corr) in
  let! _ := setv Self "Pxh" (VA Pxh) in
  let! _ := setv Self "Py" (VA Py) in
  let! _ := setv Self "PyI" (VA PyI) in
  let! _ := setv Self "PyC" (VA PyC) in
  let! _ := setv Self "PyCI" (VA PyCI) in
  let! _ := setv Self "K" (VA K) in
  ret (x_corr, Px_corr).

(** [if not np.any(self.active): return] before the rest of a method. *)
Definition if_active (m : met unit) : met unit :=
  let! active := getB Self "active" in
  if ~~ has id active then ret tt else m.

(** [self.model.g(self.k, x)[..., self.active]]. *)
Definition active_fun (g : nat -> nd -> nd) (X : nd) : met nd :=
  let! k := getN Self "k" in
  let! active := getB Self "active" in
  lift (getmask active (g k X)).
(** [self.model.g()[(...,) + np.ix_(self.active, self.active)]]. *)
Definition active_ix (A : nd) : met nd :=
  let! active := getB Self "active" in
  lift (getmask2 active A).
(** [self.a += T] and [self.a -= T] of arrays. *)
Definition iadd_attr (a : string) (T : nd) : met unit :=
  let! A := getA Self a in
  let! B := lift (nd_iadd A T) in
  setv Self a (VA B).
Definition isub_attr (a : string) (T : nd) : met unit :=
  let! A := getA Self a in
  let! B := lift (nd_isub A T) in
  setv Self a (VA B).
Definition lsub_attr (a : string) (T : nd) : met unit :=
  let! A := getA Self a in
  let! B := lift (nd_lsub A T) in
  setv Self a (VA B).

(** unscented.py:452-486 [correction_diff()]. *)
Definition ob_correction_diff : met unit := if_active (
  let! ut := cut in
  let! dx := getA Self "dx_dq" in
  let! dPx := getA Self "dPx_dq" in
  let! p := ut_transform_diff ut (active_fun (nm_dh_dq dm)) (active_fun (nm_dh_dx md)) dx dPx in
  let '(Dh, DPh) := p in
  let! ut := cut in
  let! dPxh := ut_crosscov_diff ut in
  let! dR := active_ix (nm_dR_dq dm) in
  let de := nd_opp Dh in
  let! dPy := lift (nd_add DPh dR) in
  let! PyI := getA Self "PyI" in
  let! T := lift (einsum "...ij,...ajk,...kl" [:: PyI; dPy; PyI]) in
  let dPyI := nd_opp T in
  let! Pxh := getA Self "Pxh" in
  let! dK := lift (einsum "...ik,...akj" [:: Pxh; dPyI]) in
  let! PyI := getA Self "PyI" in
  let! T := lift (einsum "...aik,...kj" [:: dPxh; PyI]) in
  let! dK := lift (nd_iadd dK T) in
  let! _ := setv Self "de_dq" (VA de) in
  let! _ := setv Self "dK_dq" (VA dK) in
  let! _ := setv Self "dPy_dq" (VA dPy) in
  let! _ := setv Self "dPyI_dq" (VA dPyI) in
  let! _ := setv Self "dPxh_dq" (VA dPxh) in
  let! dx := getA Self "dx_dq" in
  let! _ := setv Self "prev_dx_dq" (VA dx) in
  let! dPx := getA Self "dPx_dq" in
  let! _ := setv Self "prev_dPx_dq" (VA dPx) in
  let! e := getA Self "e" in
  let! T := lift (einsum "...aij,...j" [:: dK; e]) in
  let! _ := iadd_attr "dx_dq" T in
  let! K := getA Self "K" in
  let! T := lift (einsum "...ij,...aj" [:: K; de]) in
  let! _ := iadd_attr "dx_dq" T in
  let! K := getA Self "K" in
  let! T := lift (einsum "...ik,...jl,...alk" [:: K; K; dPy]) in
  let! _ := isub_attr "dPx_dq" T in
  let! K := getA Self "K" in
  let! Py := getA Self "Py" in
  let! M := lift (einsum "...aik,...jl,...lk" [:: dK; K; Py]) in
  let! M2 := lift (nd_add M (swapaxes 1 2 M)) in
  isub_attr "dPx_dq" M2).

(** unscented.py:488-539 [correction_diff2()]. *)
Definition ob_correction_diff2 : met unit := if_active (
  let! K := getA Self "K" in
  let! PyI := getA Self "PyI" in
  let! dK := getA Self "dK_dq" in
  let! dPy := getA Self "dPy_dq" in
  let! dPyI := getA Self "dPyI_dq" in
  let! ut := cut in
  let! d2x := getA Self "d2x_dq2" in
  let! d2Px := getA Self "d2Px_dq2" in
  let! p := ut_transform_diff2 ut (active_fun (nm_d2h_dq2 dm)) (active_fun (nm_d2h_dx2 dm)) (active_fun (nm_d2h_dx_dq dm)) d2x d2Px in
  let '(D2h, D2Ph) := p in
  let! ut := cut in
  let! d2Pxh := ut_crosscov_diff2 ut in
  let! d2R := active_ix (nm_d2R_dq2 dm) in
  let d2e := nd_opp D2h in
  let! d2Py := lift (nd_add D2Ph d2R) in
  let! T := lift (einsum "...aij,...bjk,...kl" [:: dPyI; dPy; PyI]) in
  let d2PyI := nd_opp T in
  let! T := lift (einsum "...ij,...abjk,...kl" [:: PyI; d2Py; PyI]) in
  let! d2PyI := lift (nd_isub d2PyI T) in
  let! T := lift (einsum "...ij,...bjk,...akl" [:: PyI; dPy; dPyI]) in
  let! d2PyI := lift (nd_isub d2PyI T) in
  let! dPxh := getA Self "dPxh_dq" in
  let! d2K := lift (einsum "...aik,...bkj" [:: dPxh; dPyI]) in
  let! Pxh := getA Self "Pxh" in
  let! T := lift (einsum "...ik,...abkj" [:: Pxh; d2PyI]) in
  let! d2K := lift (nd_iadd d2K T) in
  let! T := lift (einsum "...abik,...kj" [:: d2Pxh; PyI]) in
  let! d2K := lift (nd_iadd d2K T) in
  let! dPxh := getA Self "dPxh_dq" in
  let! T := lift (einsum "...bik,...akj" [:: dPxh; dPyI]) in
  let! d2K := lift (nd_iadd d2K T) in
  let! e := getA Self "e" in
  let! T := lift (einsum "...abij,...j" [:: d2K; e]) in
  let! _ := iadd_attr "d2x_dq2" T in
  let! de := getA Self "de_dq" in
  let! T := lift (einsum "...bij,...aj" [:: dK; de]) in
  let! _ := iadd_attr "d2x_dq2" T in
  let! de := getA Self "de_dq" in
  let! T := lift (einsum "...aij,...bj" [:: dK; de]) in
  let! _ := iadd_attr "d2x_dq2" T in
  let! T := lift (einsum "...ij,...abj" [:: K; d2e]) in
  let! _ := iadd_attr "d2x_dq2" T in
  let! Py := getA Self "Py" in
  let! T := lift (einsum "...abik,...jl,...lk" [:: d2K; K; Py]) in
  let! _ := isub_attr "d2Px_dq2" T in
  let! Py := getA Self "Py" in
  let! T := lift (einsum "...bik,...ajl,...lk" [:: dK; dK; Py]) in
  let! _ := isub_attr "d2Px_dq2" T in
  let! Py := getA Self "Py" in
  let! T := lift (einsum "...aik,...bjl,...lk" [:: dK; dK; Py]) in
  let! _ := isub_attr "d2Px_dq2" T in
  let! X := lift (einsum "...bik,...jl,...alk" [:: dK; K; dPy]) in
  let! X := lift (nd_iadd X (swapaxes 2 1 X)) in
  let! X := lift (nd_iadd X (swapaxes 3 4 X)) in
  let! _ := isub_attr "d2Px_dq2" X in
  let! Py := getA Self "Py" in
  let! T := lift (einsum "...ik,...abjl,...lk" [:: K; d2K; Py]) in
  let! _ := isub_attr "d2Px_dq2" T in
  let! T := lift (einsum "...ik,...jl,...ablk" [:: K; K; d2Py]) in
  let! _ := isub_attr "d2Px_dq2" T in
  let! _ := setv Self "d2e_dq2" (VA d2e) in
  let! _ := setv Self "d2Py_dq2" (VA d2Py) in
  setv Self "d2PyI_dq2" (VA d2PyI)).

(** unscented.py:541-548 [update_likelihood()]. *)
Definition ob_update_likelihood : met unit := if_active (
  let! PyC := getA Self "PyC" in
  let! PyCD := lift (einsum "...kk->...k" [:: PyC]) in
  let! _ := setv Self "PyCD" (VA PyCD) in
  let! e := getA Self "e" in
  let! PyI := getA Self "PyI" in
  let! T := lift (einsum "...i,...ij,...j" [:: e; PyI; e]) in
  let! _ := lsub_attr "L" (nd_scale 2%:R^-1 T) in
  let! PyCD := getA Self "PyCD" in
  lsub_attr "L" (sum_last (map1 log PyCD))).

(** unscented.py:550-566 [likelihood_diff()]. *)
Definition ob_likelihood_diff : met unit := if_active (
  let! e := getA Self "e" in
  let! PyI := getA Self "PyI" in
  let! de := getA Self "de_dq" in
  let! dPyI := getA Self "dPyI_dq" in
  let! ch := getO Self "_DTCorrector__chol" in
  let! dPy := getA Self "dPy_dq" in
  let! dPyC := ch_diff ch dPy in
  let! dPyCD := lift (einsum "...kk->...k" [:: dPyC]) in
  let! _ := setv Self "dPyCD_dq" (VA dPyCD) in
  let! dPyCD := getA Self "dPyCD_dq" in
  let! PyCD := getA Self "PyCD" in
  let! T := lift (nd_div dPyCD (newaxes 1 PyCD)) in
  let! _ := isub_attr "dL_dq" (sum_last T) in
  let! T := lift (einsum "...ai,...ij,...j" [:: de; PyI; e]) in
  let! _ := isub_attr "dL_dq" T in
  let! T := lift (einsum "...i,...aij,...j" [:: e; dPyI; e]) in
  isub_attr "dL_dq" (nd_scale 2%:R^-1 T)).

(** unscented.py:568-594 [likelihood_diff2()]. *)
Definition ob_likelihood_diff2 : met unit := if_active (
  let! e := getA Self "e" in
  let! PyI := getA Self "PyI" in
  let! PyCD := getA Self "PyCD" in
  let! de := getA Self "de_dq" in
  let! dPyI := getA Self "dPyI_dq" in
  let! dPyCD := getA Self "dPyCD_dq" in
  let! d2e := getA Self "d2e_dq2" in
  let! d2PyI := getA Self "d2PyI_dq2" in
  let! ch := getO Self "_DTCorrector__chol" in
  let! d2Py := getA Self "d2Py_dq2" in
  let! d2PyC := ch_diff2 ch d2Py in
  let! d2PyCD := lift (einsum "...kk->...k" [:: d2PyC]) in
  let! T := lift (nd_div d2PyCD (newaxes 2 PyCD)) in
  let! _ := isub_attr "d2L_dq2" (sum_last T) in
  let! T := lift (nd_div dPyCD (map1 (fun x => x ^+ 2) (newaxes 1 PyCD))) in
  let! T := lift (einsum "...ak,...bk" [:: dPyCD; T]) in
  let! _ := iadd_attr "d2L_dq2" T in
  let! T := lift (einsum "...ai,...ij,...bj" [:: de; PyI; de]) in
  let! _ := isub_attr "d2L_dq2" T in
  let! T := lift (einsum "...abi,...ij,...j" [:: d2e; PyI; e]) in
  let! _ := isub_attr "d2L_dq2" T in
  let! T := lift (einsum "...i,...abij,...j" [:: e; d2PyI; e]) in
  let! _ := isub_attr "d2L_dq2" (nd_scale 2%:R^-1 T) in
  let! X := lift (einsum "...ai,...bij,...j" [:: de; dPyI; e]) in
  let! _ := isub_attr "d2L_dq2" X in
  isub_attr "d2L_dq2" (swapaxes 1 2 X)).

(** ** The loops of base.py *)

(** [for k in l: body(k)]. *)
Fixpoint for_in (l : seq nat) (body : nat -> met unit) : met unit :=
  match l with
  | [::] => ret tt
  | k :: l' => let! _ := body k in for_in l' body
  end.
(** The same, when the body fills one element of the result arrays. *)
Fixpoint for_list A (l : seq nat) (body : nat -> met A) : met (seq A) :=
  match l with
  | [::] => ret [::]
  | k :: l' => let! a := body k in let! r := for_list l' body in ret (a :: r)
  end.
Definition when (b : bool) (m : met unit) : met unit := if b then m else ret tt.

(** [y[k]]. *)
Definition meas_at (ys : seq (nmeas F)) (k : nat) : nmeas F := nth (NMeas (zeros F [:: 0%N]) [::]) ys k.

(** base.py:94-105 [filter(y)]. *)
Definition ob_filter (ys : seq (nmeas F)) : met (seq (nd * nd)) :=
  let N := size ys in
  for_list (iota 0 N) (fun k =>
    let! p := ob_correct (meas_at ys k) in
    let! _ := when (k < N - 1)%N (let! _ := ob_predict in ret tt) in
    ret p).

(** base.py:133-143 [pem_merit(y)]. *)
Definition ob_pem_merit (ys : seq (nmeas F)) : met nd :=
  let N := size ys in
  let! _ := for_in (iota 0 N) (fun k =>
    let! _ := ob_correct (meas_at ys k) in
    let! _ := ob_update_likelihood in
    when (k < N - 1)%N (let! _ := ob_predict in ret tt)) in
  getA Self "L".

(** base.py:145-158 [pem_gradient(y)]. *)
Definition ob_pem_gradient (ys : seq (nmeas F)) : met nd :=
  let N := size ys in
  let! _ := for_in (iota 0 N) (fun k =>
    let! _ := ob_correct (meas_at ys k) in
    let! _ := ob_correction_diff in
    let! _ := ob_update_likelihood in
    let! _ := ob_likelihood_diff in
    when (k < N - 1)%N (
      let! _ := ob_predict in
      ob_prediction_diff)) in
  getA Self "dL_dq".

(** base.py:160-176 [pem_hessian(y)]. *)
Definition ob_pem_hessian (ys : seq (nmeas F)) : met nd :=
  let N := size ys in
  let! _ := for_in (iota 0 N) (fun k =>
    let! _ := ob_correct (meas_at ys k) in
    let! _ := ob_correction_diff in
    let! _ := ob_correction_diff2 in
    let! _ := ob_update_likelihood in
    let! _ := ob_likelihood_diff in
    let! _ := ob_likelihood_diff2 in
    when (k < N - 1)%N (
      let! _ := ob_predict in
      let! _ := ob_prediction_diff in
      ob_prediction_diff2)) in
  getA Self "d2L_dq2".

(** base.py:107-131 [smooth(y)].  The first loop fills, for each [k], [x[k]]
    and [Px[k]] and, but for the last [k], [xpred[k+1]], [Pxpred[k+1]] and
    [Pxfpred[k]]; with no measurement [np.zeros((N - 1,) + ...)] raises. *)
Definition ob_smooth_forward (ys : seq (nmeas F)) : met (seq ((nd * nd) * option ((nd * nd) * nd))) :=
  let N := size ys in
  for_list (iota 0 N) (fun k =>
    let! p := ob_correct (meas_at ys k) in
    if (k < N - 1)%N then
      let! q := ob_predict in
      let! C := ob_prediction_crosscov in
      ret (p, Some (q, C))
    else ret (p, None)).
(** base.py:123-129: the second loop, over the given values of [k]; [est] is
    the array of the pairs [(x[k], Px[k])]. *)
Fixpoint ob_smooth_backward (pred : seq (option ((nd * nd) * nd))) (est : seq (nd * nd)) (ks : seq nat) : res (seq (nd * nd)) :=
  match ks with
  | [::] => Ok est
  | k :: ks' =>
      let z := (zeros F [::], zeros F [::]) in
      let q := odflt (z, zeros F [::]) (nth None pred k.-1) in
      let* inc := nd_smoother_correction q.1.1 q.1.2 q.2 (nth z est k).1 (nth z est k).2 in
      let* x := nd_iadd (nth z est k.-1).1 inc.1 in
      let* P := nd_iadd (nth z est k.-1).2 inc.2 in
      ob_smooth_backward pred (set_nth z est k.-1 (x, P)) ks'
  end.
Definition ob_smooth (ys : seq (nmeas F)) : met (seq (nd * nd)) :=
  let N := size ys in
  let! _ := lift (if N == 0%N then Err ValueError else Ok tt) in
  let! fw := ob_smooth_forward ys in
  lift (ob_smooth_backward [seq p.2 | p <- fw] [seq p.1 | p <- fw] (rev (iota 1 (N - 1)))).
End Filter.
End Methods.
