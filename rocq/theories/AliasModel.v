(** Model of the filter objects of ceacoest/kalman with the memory that their
    arrays live in: which attributes are updated in place, which are rebound
    to new arrays, and which arrays of the caller or of the model an object
    shares ([np.asarray] does not copy).

    [NdKalModel] passes attributes as values; [PropsAlias] says when that is
    justified.  The arrays that a method only creates and reads (results of
    [np.einsum] and of arithmetic, indexed copies) are values here as well.

    Simplified: an array is a whole object at an address; views of a part of
    another array do not occur among the attributes that are updated in place. *)
From Coq Require Import String.
From Verif Require Import Py.
From mathcomp Require Import all_ssreflect all_algebra.
From Verif Require Import KalModel NpModel NdKalModel.
Set Implicit Arguments.
Unset Strict Implicit.
Unset Printing Implicit Defensive.
Import Order.TTheory GRing.Theory Num.Theory.
Local Open Scope ring_scope.

Section Alias.
Variable F : rcfType.
Local Notation nd := (nd F).

(** * Memory *)

Definition loc := nat.
Definition heap := seq nd.
(** A computation that reads and writes memory; what it wrote before an
    exception stays written. *)
Definition mem (A : Type) := heap -> res A * heap.

Definition mret A (a : A) : mem A := fun h => (Ok a, h).
Definition mbind A B (m : mem A) (k : A -> mem B) : mem B :=
  fun h => match m h with (Ok a, h') => k a h' | (Err e, h') => (Err e, h') end.
Local Notation "'do*' x ':=' m 'in' k" := (mbind m (fun x => k)) (at level 200, x pattern, m at level 100, k at level 200, right associativity).
(** A step that only creates values. *)
Definition lift A (r : res A) : mem A := fun h => (r, h).
(** A new array. *)
Definition alloc (A : nd) : mem loc := fun h => (Ok (size h), rcons h A).
Definition at_loc (h : heap) (l : loc) : nd := nth (zeros F [::]) h l.
Definition load (l : loc) : mem nd := fun h => (Ok (at_loc h l), h).
(** [A += T] and [A -= T] of the array at an address. *)
Definition update (op : nd -> nd -> res nd) (l : loc) (T : nd) : mem unit := fun h =>
  match op (at_loc h l) T with
  | Ok B => (Ok tt, set_nth (zeros F [::]) h l B)
  | Err e => (Err e, h)
  end.
Definition iadd_at : loc -> nd -> mem unit := update (@nd_iadd F).
Definition isub_at : loc -> nd -> mem unit := update (@nd_isub F).

(** A number (of no axes), or an array in memory. *)
Inductive hnum := HNum (c : nd) | HArr (l : loc).

(** * Objects *)

(** A model: the values of its functions, and where the functions whose
    results the filter modifies, or keeps, put them.  [None]: the attribute
    is missing. *)
Record hmodel := HModel {
  hm_val : ndmodel F; hm_nq : nat;
  hm_df_dq : nat -> nd -> mem loc;
  hm_x0 : mem loc; hm_Px0 : mem loc;
  hm_dx0_dq : option (mem loc); hm_dPx0_dq : option (mem loc);
  hm_d2x0_dq2 : option (mem loc); hm_d2Px0_dq2 : option (mem loc) }.

(** The entries of the options that the constructor looks up ([OptModel] has
    the dictionary). *)
Record hoptions := HOptions {
  ho_k : option nat; ho_L : option hnum; ho_dL_dq : option loc;
  ho_dx_dq : option loc; ho_dPx_dq : option loc; ho_d2x_dq2 : option loc; ho_d2Px_dq2 : option loc }.

(** A filter object. *)
Record hfilter := HFilter {
  hf_k : nat; hf_x : loc; hf_P : loc; hf_L : hnum; hf_dL : loc; hf_d2L : loc;
  hf_dx : loc; hf_dP : loc; hf_d2x : loc; hf_d2P : loc }.

Section Filter.
Variables (nx : nat) (m : hmodel) (log : F -> F).
Notation dm := (hm_val m).
Notation md := (nm_md dm).

(** base.py:66-74 [_get_initial(key, options, shape)]; [base] is
    [base_shape]. *)
Definition h_get_initial (base : seq nat) (o : option loc) (attr : option (mem loc)) (s : seq nat) : mem loc :=
  match o with
  | Some l => mret l
  | None => match attr with
            | Some call => fun h => match call h with
                                    | (Err AttributeError, h') => alloc (zeros F (base ++ s)) h'
                                    | r => r
                                    end
            | None => alloc (zeros F (base ++ s))
            end
  end.

(** base.py:18-64 [DTFilter.__init__(model, x, Px, **options)].  The default
    arrays of [options.get] are created even if they are not used. *)
Definition h_init (x Px : option loc) (o : hoptions) : mem hfilter :=
  let nq := hm_nq m in
  do* x := match x with None => hm_x0 m | Some l => mret l end in
  do* Px := match Px with None => hm_Px0 m | Some l => mret l end in
  let k := odflt 0%N (ho_k o) in
  let L := odflt (HNum (scalar 0)) (ho_L o) in
  do* X := load x in
  let base := take (size (shape X)).-1 (shape X) in
  do* z := alloc (zeros F (base ++ [:: nq])) in
  let dL := odflt z (ho_dL_dq o) in
  do* z := alloc (zeros F (base ++ [:: nq; nq])) in
  let d2L := odflt z (ho_dL_dq o) in
  do* dx := h_get_initial base (ho_dx_dq o) (hm_dx0_dq m) [:: nq; nx] in
  do* dP := h_get_initial base (ho_dPx_dq o) (hm_dPx0_dq m) [:: nq; nx; nx] in
  do* d2x := h_get_initial base (ho_d2x_dq2 o) (hm_d2x0_dq2 m) [:: nq; nq; nx] in
  do* d2P := h_get_initial base (ho_d2Px_dq2 o) (hm_d2Px0_dq2 m) [:: nq; nq; nx; nx] in
  mret (HFilter k x Px L dL d2L dx dP d2x d2P).

(** [self.L -= T]. *)
Definition h_lsub (L : hnum) (T : nd) : mem hnum :=
  match L with
  | HNum c => do* D := lift (nd_sub c T) in
              if shape D == [::] then mret (HNum D) else do* l := alloc D in mret (HArr l)
  | HArr l => do* _ := isub_at l T in mret (HArr l)
  end.
(** unscented.py:541-548 [update_likelihood()], of a measurement that is not
    masked. *)
Definition h_update_likelihood (L : hnum) (c : ncorr F) : mem hnum :=
  do* PyC := lift (the_PyC c) in
  do* PyCD := lift (einsum "...kk->...k" [:: PyC]) in
  do* T := lift (einsum "...i,...ij,...j" [:: nk_e c; nk_PyI c; nk_e c]) in
  do* L := h_lsub L (nd_scale 2%:R^-1 T) in
  h_lsub L (sum_last (map1 log PyCD)).

(** unscented.py:122-141 [transform_diff]: line 130 adds to the array that
    the model returned. *)
Definition h_transform_diff (kappa : F) (u : nut F) (df_dq : nd -> mem loc) (df_di : nd -> res nd) (di dPi : nd) : mem (nutd F) :=
  do* dfdi := lift (df_di (nu_isigma u)) in
  do* c := lift (nd_chol_diff (nu_S u) (nd_scale (nx%:R + kappa) dPi)) in
  do* p := lift (nd_sigma_points_diff nx kappa (nc_dS c) di) in
  let '(didev, disigma) := p in
  do* l := df_dq (nu_isigma u) in
  do* T := lift (einsum "k...if,k...ai->k...af" [:: dfdi; disigma]) in
  do* _ := iadd_at l T in
  do* Dosigma := load l in
  do* do := lift (einsum "k,k..." [:: nd_weights nx kappa; Dosigma]) in
  do* dodev := lift (nd_sub Dosigma do) in
  do* dPo := lift (einsum "k...lj,k...i,k->...lij" [:: dodev; nu_odev u; nd_weights nx kappa]) in
  do* dPo := lift (nd_iadd dPo (swapaxes 1 2 dPo)) in
  mret (NUTD c dfdi didev disigma dodev do dPo).

(** The state as values. *)
Definition h_state (o : hfilter) : mem (nstate F) :=
  do* x := load (hf_x o) in do* P := load (hf_P o) in mret (NS (hf_k o) x P).

(** unscented.py:328-342 [predict()]: [x] and [Px] are rebound. *)
Definition h_predict (kappa : F) (o : hfilter) : mem (nut F * hfilter) :=
  do* s := h_state o in
  do* p := lift (nd_ukf_predict nx md kappa (@nd_chol F) s) in
  do* x := alloc (ns_x p.2) in
  do* P := alloc (ns_P p.2) in
  mret (p.1, HFilter (ns_k p.2) x P (hf_L o) (hf_dL o) (hf_d2L o) (hf_dx o) (hf_dP o) (hf_d2x o) (hf_d2P o)).

(** unscented.py:343-362 [prediction_diff()]: [dx_dq] and [dPx_dq] are
    rebound; [s] is the state before [predict].  Also [prev_dx_dq]. *)
Definition h_prediction_diff (kappa : F) (s : nstate F) (u : nut F) (o : hfilter) : mem (nutd F * loc * hfilter) :=
  let k := ns_k s in
  let x := ns_x s in
  do* dx := load (hf_dx o) in
  do* dP := load (hf_dP o) in
  do* v := h_transform_diff kappa u (hm_df_dq m k) (fun X => Ok (nm_df_dx md k X)) dx dP in
  let dQ_dq := nm_dQ_dq dm k x in
  let dQ_dx := nm_dQ_dx dm k x in
  do* dx := load (hf_dx o) in
  do* T := lift (einsum "...ij,...jkl" [:: dx; dQ_dx]) in
  do* DQ := lift (nd_add dQ_dq T) in
  let prev := hf_dx o in
  do* ldx := alloc (nv_do v) in
  do* dP := lift (nd_add (nv_dPo v) DQ) in
  do* ldP := alloc dP in
  mret (v, prev, HFilter (hf_k o) (hf_x o) (hf_P o) (hf_L o) (hf_dL o) (hf_d2L o) ldx ldP (hf_d2x o) (hf_d2P o)).

(** unscented.py:364-387 [prediction_diff2()]. *)
Definition h_prediction_diff2 (kappa : F) (s : nstate F) (u : nut F) (v : nutd F) (prev : loc) (o : hfilter) : mem hfilter :=
  do* dx := load prev in
  do* d2x := load (hf_d2x o) in
  do* d2P := load (hf_d2P o) in
  do* d2 := lift (nd_prediction_diff2 nx dm kappa s u v (NDS dx (zeros F [::])) (NDS d2x d2P)) in
  do* ld2x := alloc (nds_x d2) in
  do* ld2P := alloc (nds_P d2) in
  mret (HFilter (hf_k o) (hf_x o) (hf_P o) (hf_L o) (hf_dL o) (hf_d2L o) (hf_dx o) (hf_dP o) ld2x ld2P).

(** unscented.py:407-451 [correct(y)]: [x] and [Px] are rebound, unless all
    measurements are masked. *)
Definition h_correct (kappa : F) (y : nmeas F) (o : hfilter) : mem (option (nut F * ncorr F) * hfilter) :=
  do* s := h_state o in
  do* c := lift (nd_ukf_correct nx md kappa (@nd_chol F) s y) in
  match c.1 with
  | None => mret (None, o)
  | Some d => do* x := alloc (ns_x c.2) in
              do* P := alloc (ns_P c.2) in
              mret (Some d, HFilter (ns_k c.2) x P (hf_L o) (hf_dL o) (hf_d2L o) (hf_dx o) (hf_dP o) (hf_d2x o) (hf_d2P o))
  end.

(** unscented.py:452-486 [correction_diff()], of a measurement that is not
    masked: [dx_dq] and [dPx_dq] are updated in place.  Indexing with a mask
    copies what the model returned. *)
Definition h_correction_diff (kappa : F) (s : nstate F) (active : seq bool) (u : nut F) (c : ncorr F) (o : hfilter) : mem (ncorr1 F) :=
  let k := ns_k s in
  do* dx := load (hf_dx o) in
  do* dP := load (hf_dP o) in
  do* v := lift (nd_transform_diff nx kappa u (fun X => getmask active (nm_dh_dq dm k X)) (fun X => getmask active (nm_dh_dx md k X)) dx dP) in
  do* dPxh := lift (nd_crosscov_diff nx kappa u v) in
  do* dR := lift (getmask2 active (nm_dR_dq dm)) in
  let de := nd_opp (nv_do v) in
  do* dPy := lift (nd_add (nv_dPo v) dR) in
  do* T := lift (einsum "...ij,...ajk,...kl" [:: nk_PyI c; dPy; nk_PyI c]) in
  let dPyI := nd_opp T in
  do* dK := lift (einsum "...ik,...akj" [:: nk_Pxh c; dPyI]) in
  do* T := lift (einsum "...aik,...kj" [:: dPxh; nk_PyI c]) in
  do* dK := lift (nd_iadd dK T) in
  do* T := lift (einsum "...aij,...j" [:: dK; nk_e c]) in
  do* _ := iadd_at (hf_dx o) T in
  do* T := lift (einsum "...ij,...aj" [:: nk_K c; de]) in
  do* _ := iadd_at (hf_dx o) T in
  do* T := lift (einsum "...ik,...jl,...alk" [:: nk_K c; nk_K c; dPy]) in
  do* _ := isub_at (hf_dP o) T in
  do* M := lift (einsum "...aik,...jl,...lk" [:: dK; nk_K c; nk_Py c]) in
  do* M2 := lift (nd_add M (swapaxes 1 2 M)) in
  do* _ := isub_at (hf_dP o) M2 in
  mret (NCorr1 v de dPxh dPy dPyI dK).

(** unscented.py:488-539 [correction_diff2()]: [d2x_dq2] and [d2Px_dq2] are
    updated in place. *)
Definition h_correction_diff2 (kappa : F) (s : nstate F) (active : seq bool) (u : nut F) (c : ncorr F) (c1 : ncorr1 F) (o : hfilter) : mem (ncorr2 F) :=
  let k := ns_k s in
  let K := nk_K c in
  let PyI := nk_PyI c in
  let dK := nk_dK c1 in
  let dPy := nk_dPy c1 in
  let dPyI := nk_dPyI c1 in
  do* d2x := load (hf_d2x o) in
  do* d2P := load (hf_d2P o) in
  do* w := lift (nd_transform_diff2 nx kappa u (nk_v c1) (fun X => getmask active (nm_d2h_dq2 dm k X)) (fun X => getmask active (nm_d2h_dx2 dm k X))
              (fun X => getmask active (nm_d2h_dx_dq dm k X)) d2x d2P) in
  do* d2Pxh := lift (nd_crosscov_diff2 nx kappa u (nk_v c1) w) in
  do* d2R := lift (getmask2 active (nm_d2R_dq2 dm)) in
  let d2e := nd_opp (nw_d2o w) in
  do* d2Py := lift (nd_add (nw_d2Po w) d2R) in
  do* T := lift (einsum "...aij,...bjk,...kl" [:: dPyI; dPy; PyI]) in
  let d2PyI := nd_opp T in
  do* T := lift (einsum "...ij,...abjk,...kl" [:: PyI; d2Py; PyI]) in
  do* d2PyI := lift (nd_isub d2PyI T) in
  do* T := lift (einsum "...ij,...bjk,...akl" [:: PyI; dPy; dPyI]) in
  do* d2PyI := lift (nd_isub d2PyI T) in
  do* d2K := lift (einsum "...aik,...bkj" [:: nk_dPxh c1; dPyI]) in
  do* T := lift (einsum "...ik,...abkj" [:: nk_Pxh c; d2PyI]) in
  do* d2K := lift (nd_iadd d2K T) in
  do* T := lift (einsum "...abik,...kj" [:: d2Pxh; PyI]) in
  do* d2K := lift (nd_iadd d2K T) in
  do* T := lift (einsum "...bik,...akj" [:: nk_dPxh c1; dPyI]) in
  do* d2K := lift (nd_iadd d2K T) in
  do* T := lift (einsum "...abij,...j" [:: d2K; nk_e c]) in
  do* _ := iadd_at (hf_d2x o) T in
  do* T := lift (einsum "...bij,...aj" [:: dK; nk_de c1]) in
  do* _ := iadd_at (hf_d2x o) T in
  do* T := lift (einsum "...aij,...bj" [:: dK; nk_de c1]) in
  do* _ := iadd_at (hf_d2x o) T in
  do* T := lift (einsum "...ij,...abj" [:: K; d2e]) in
  do* _ := iadd_at (hf_d2x o) T in
  do* T := lift (einsum "...abik,...jl,...lk" [:: d2K; K; nk_Py c]) in
  do* _ := isub_at (hf_d2P o) T in
  do* T := lift (einsum "...bik,...ajl,...lk" [:: dK; dK; nk_Py c]) in
  do* _ := isub_at (hf_d2P o) T in
  do* T := lift (einsum "...aik,...bjl,...lk" [:: dK; dK; nk_Py c]) in
  do* _ := isub_at (hf_d2P o) T in
  do* X := lift (einsum "...bik,...jl,...alk" [:: dK; K; dPy]) in
  do* X := lift (nd_iadd X (swapaxes 2 1 X)) in
  do* X := lift (nd_iadd X (swapaxes 3 4 X)) in
  do* _ := isub_at (hf_d2P o) X in
  do* T := lift (einsum "...ik,...abjl,...lk" [:: K; d2K; nk_Py c]) in
  do* _ := isub_at (hf_d2P o) T in
  do* T := lift (einsum "...ik,...jl,...ablk" [:: K; K; d2Py]) in
  do* _ := isub_at (hf_d2P o) T in
  mret (NCorr2 d2e d2Py d2PyI).

(** unscented.py:550-566 [likelihood_diff()]: [dL_dq] is updated in place.
    Also what it leaves in the object. *)
Definition h_likelihood_diff (c : ncorr F) (c1 : ncorr1 F) (o : hfilter) : mem (nchol F * nd) :=
  let e := nk_e c in
  let PyI := nk_PyI c in
  do* PyC := lift (the_PyC c) in
  do* PyCD := lift (einsum "...kk->...k" [:: PyC]) in
  do* ch := lift (nd_chol_diff PyC (nk_dPy c1)) in
  do* dPyCD := lift (einsum "...kk->...k" [:: nc_dS ch]) in
  do* T := lift (nd_div dPyCD (newaxes 1 PyCD)) in
  do* _ := isub_at (hf_dL o) (sum_last T) in
  do* T := lift (einsum "...ai,...ij,...j" [:: nk_de c1; PyI; e]) in
  do* _ := isub_at (hf_dL o) T in
  do* T := lift (einsum "...i,...aij,...j" [:: e; nk_dPyI c1; e]) in
  do* _ := isub_at (hf_dL o) (nd_scale 2%:R^-1 T) in
  mret (ch, dPyCD).

(** unscented.py:568-594 [likelihood_diff2()]: [d2L_dq2] is updated in
    place. *)
Definition h_likelihood_diff2 (c : ncorr F) (c1 : ncorr1 F) (c2 : ncorr2 F) (ch : nchol F) (dPyCD : nd) (o : hfilter) : mem unit :=
  let e := nk_e c in
  let PyI := nk_PyI c in
  let de := nk_de c1 in
  let dPyI := nk_dPyI c1 in
  do* PyC := lift (the_PyC c) in
  do* PyCD := lift (einsum "...kk->...k" [:: PyC]) in
  do* d2PyC := lift (nd_chol_diff2 PyC ch (nk_d2Py c2)) in
  do* d2PyCD := lift (einsum "...kk->...k" [:: d2PyC]) in
  do* T := lift (nd_div d2PyCD (newaxes 2 PyCD)) in
  do* _ := isub_at (hf_d2L o) (sum_last T) in
  do* T := lift (nd_div dPyCD (map1 (fun x => x ^+ 2) (newaxes 1 PyCD))) in
  do* T := lift (einsum "...ak,...bk" [:: dPyCD; T]) in
  do* _ := iadd_at (hf_d2L o) T in
  do* T := lift (einsum "...ai,...ij,...bj" [:: de; PyI; de]) in
  do* _ := isub_at (hf_d2L o) T in
  do* T := lift (einsum "...abi,...ij,...j" [:: nk_d2e c2; PyI; e]) in
  do* _ := isub_at (hf_d2L o) T in
  do* T := lift (einsum "...i,...abij,...j" [:: e; nk_d2PyI c2; e]) in
  do* _ := isub_at (hf_d2L o) (nd_scale 2%:R^-1 T) in
  do* X := lift (einsum "...ai,...bij,...j" [:: de; dPyI; e]) in
  do* _ := isub_at (hf_d2L o) X in
  isub_at (hf_d2L o) (swapaxes 1 2 X).

Variables kp kc : F.

Definition set_L (o : hfilter) (L : hnum) : hfilter :=
  HFilter (hf_k o) (hf_x o) (hf_P o) L (hf_dL o) (hf_d2L o) (hf_dx o) (hf_dP o) (hf_d2x o) (hf_d2P o).

(** base.py:150-153. *)
Definition h_grad_correct (y : nmeas F) (o : hfilter) : mem hfilter :=
  do* s := h_state o in
  do* c := h_correct kc y o in
  match c.1 with
  | None => mret c.2
  | Some (u, c0) =>
      do* c1 := h_correction_diff kc s (nd_active y) u c0 c.2 in
      do* L := h_update_likelihood (hf_L c.2) c0 in
      do* _ := h_likelihood_diff c0 c1 c.2 in
      mret (set_L c.2 L)
  end.
(** base.py:155-156. *)
Definition h_grad_predict (o : hfilter) : mem hfilter :=
  do* s := h_state o in
  do* p := h_predict kp o in
  do* v := h_prediction_diff kp s p.1 p.2 in
  mret v.2.
(** base.py:145-158 [pem_gradient(y)]: the object afterwards. *)
Fixpoint h_grad_loop (o : hfilter) (ys : seq (nmeas F)) : mem hfilter :=
  match ys with
  | [::] => mret o
  | y :: ys' =>
      do* o1 := h_grad_correct y o in
      match ys' with
      | [::] => mret o1
      | _ => do* o2 := h_grad_predict o1 in h_grad_loop o2 ys'
      end
  end.

(** base.py:165-170. *)
Definition h_hess_correct (y : nmeas F) (o : hfilter) : mem hfilter :=
  do* s := h_state o in
  do* c := h_correct kc y o in
  match c.1 with
  | None => mret c.2
  | Some (u, c0) =>
      do* c1 := h_correction_diff kc s (nd_active y) u c0 c.2 in
      do* c2 := h_correction_diff2 kc s (nd_active y) u c0 c1 c.2 in
      do* L := h_update_likelihood (hf_L c.2) c0 in
      do* l := h_likelihood_diff c0 c1 c.2 in
      do* _ := h_likelihood_diff2 c0 c1 c2 l.1 l.2 c.2 in
      mret (set_L c.2 L)
  end.
(** base.py:172-174. *)
Definition h_hess_predict (o : hfilter) : mem hfilter :=
  do* s := h_state o in
  do* p := h_predict kp o in
  do* v := h_prediction_diff kp s p.1 p.2 in
  h_prediction_diff2 kp s p.1 v.1.1 v.1.2 v.2.
(** base.py:160-176 [pem_hessian(y)]: the object afterwards. *)
Fixpoint h_hess_loop (o : hfilter) (ys : seq (nmeas F)) : mem hfilter :=
  match ys with
  | [::] => mret o
  | y :: ys' =>
      do* o1 := h_hess_correct y o in
      match ys' with
      | [::] => mret o1
      | _ => do* o2 := h_hess_predict o1 in h_hess_loop o2 ys'
      end
  end.

(** base.py:158 and 176: the returned object is the attribute itself. *)
Definition h_pem_gradient (o : hfilter) (ys : seq (nmeas F)) : mem (loc * hfilter) :=
  do* o' := h_grad_loop o ys in mret (hf_dL o', o').
Definition h_pem_hessian (o : hfilter) (ys : seq (nmeas F)) : mem (loc * hfilter) :=
  do* o' := h_hess_loop o ys in mret (hf_d2L o', o').
End Filter.
End Alias.
