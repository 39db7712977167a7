(** Model of the constructors of the Kalman filters and unscented transforms:
    which options, model attributes and defaults a filter starts with.

    Simplified: values are arrays, numbers or strings ([np.asarray] of an
    array is that array); an option [kappa] that is not a number is a
    TypeError and an option [sqrt] that is not a string is invalid; the keys
    of an options dictionary never are [model], [x], [Px] or [self], which
    Python binds to the parameters. *)
From Coq Require Import String Ascii List Bool Arith Reals.
From Verif Require Import Py NdArray UtilModel.
Import ListNotations.
Local Open Scope string_scope.

Inductive value := VArr (a : arr R) | VNum (x : R) | VStr (s : string).

(** What a constructor uses of a model: the attribute [nx], the optional
    attribute [nq], and attributes called without arguments. *)
Record kmodel := KModel { km_nx : nat; km_nq : option nat; km_call : string -> option (res value) }.

(** Looking an attribute up and calling it. *)
Definition call_attr (m : kmodel) (a : string) : res value :=
  match km_call m a with Some r => r | None => Err AttributeError end.

(** [key.replace('x', 'x0')]. *)
Fixpoint replace_x (s : string) : string :=
  match s with
  | EmptyString => EmptyString
  | String c s' => if Ascii.eqb c "x" then String c (String "0" (replace_x s')) else String c (replace_x s')
  end.

(** [options.get(key, default)]. *)
Definition get_or (d : sdict value) (key : string) (default : value) : value :=
  match dget String.eqb d key with Some v => v | None => default end.

(** [x.shape], of what the filter takes as the state. *)
Definition vshape (v : value) : shape := match v with VArr a => ash a | _ => [] end.

(** base.py:66-74 [_get_initial(key, options, shape)]. *)
Definition get_initial (m : kmodel) (base : shape) (key : string) (options : sdict value) (s : shape) : res value :=
  match dget String.eqb options key with
  | Some v => Ok v
  | None => match call_attr m (replace_x key) with
            | Err AttributeError => Ok (VArr (Arr (base ++ s)%list (repeat 0%R (prodn (base ++ s)%list))))
            | r => r
            end
  end.

Record dtfilter := DTFilter {
  d_x : value; d_Px : value; d_k : value; d_L : value;
  d_dL_dq : value; d_d2L_dq2 : value;
  d_dx_dq : value; d_dPx_dq : value; d_d2x_dq2 : value; d_d2Px_dq2 : value }.

(** [np.zeros(s)]. *)
Definition vzeros (s : shape) : value := VArr (Arr s (repeat 0%R (prodn s))).

(** base.py:18-64 [DTFilter.__init__(model, x, Px, **options)]. *)
Definition base_init (m : kmodel) (x Px : option value) (options : sdict value) : res dtfilter :=
  let* x := match x with None => call_attr m "x0" | Some x => Ok x end in
  let* Px := match Px with None => call_attr m "Px0" | Some Px => Ok Px end in
  let k := get_or options "k" (VNum 0) in
  let L := get_or options "L" (VNum 0) in
  let nq := match km_nq m with Some n => n | None => 0 end in
  let nx := km_nx m in
  let base := removelast (vshape x) in
  let dL_dq := get_or options "dL_dq" (vzeros (base ++ [nq])%list) in
  let d2L_dq2 := get_or options "dL_dq" (vzeros (base ++ [nq; nq])%list) in
  let* dx_dq := get_initial m base "dx_dq" options [nq; nx] in
  let* dPx_dq := get_initial m base "dPx_dq" options [nq; nx; nx] in
  let* d2x_dq2 := get_initial m base "d2x_dq2" options [nq; nq; nx] in
  let* d2Px_dq2 := get_initial m base "d2Px_dq2" options [nq; nq; nx; nx] in
  Ok (DTFilter x Px k L dL_dq d2L_dq2 dx_dq dPx_dq d2x_dq2 d2Px_dq2).

Inductive ut_class := CholeskyUT | SvdUT.
Record ut_object := UTObj { uo_class : ut_class; uo_ni : nat; uo_kappa : R; uo_nsigma : nat }.

(** unscented.py:303-311 [choose_ut_transform_class(options)]. *)
Definition choose_ut_class (options : sdict value) : res ut_class :=
  match get_or options "sqrt" (VStr "cholesky") with
  | VStr s => if String.eqb s "cholesky" then Ok CholeskyUT
              else if String.eqb s "svd" then Ok SvdUT else Err ValueError
  | _ => Err ValueError
  end.

(** unscented.py:30-58 [UTClass(ni, **options)]; [ni] and [self] given again
    by keyword are a TypeError. *)
Definition ut_new (c : ut_class) (ni : nat) (options : sdict value) : res ut_object :=
  if dmem String.eqb options "ni" || dmem String.eqb options "self" then Err TypeError else
  match get_or options "kappa" (VNum 0) with
  | VNum kappa =>
      if Req_EM_T (INR ni + kappa) 0 then Err AssertionError
      else Ok (UTObj c ni kappa (2 * ni + if Req_EM_T kappa 0 then 0 else 1))
  | _ => Err TypeError
  end.

(** unscented.py:316-326 and 395-405: the transform of a predictor
    ([prefix = 'pred_ut_']) or corrector ([prefix = 'corr_ut_']). *)
Definition make_ut (m : kmodel) (options : sdict value) (prefix : string) : res ut_object :=
  let ut_options := dmerge String.eqb options (extract_subkeys options prefix) in
  let* c := choose_ut_class ut_options in
  ut_new c (km_nx m) ut_options.

(** unscented.py:316-326, 395-405, 597: [DTFilter(model, x, Px, **options)];
    the corrector's constructor runs inside the predictor's. *)
Definition ukf_new (m : kmodel) (x Px : option value) (options : sdict value) : res (dtfilter * ut_object * ut_object) :=
  let* f := base_init m x Px options in
  let* corr := make_ut m options "corr_ut_" in
  let* pred := make_ut m options "pred_ut_" in
  Ok (f, pred, corr).
