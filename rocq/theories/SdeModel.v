(** Model of ceacoest/modelling/symsde.py, gensde.py and stats.py.

    Simplified: exact real-closed-field arithmetic; [dt ** 0.5] is the square
    root and [dt ** 1.5] is [dt] times it; vectors are columns for the SDE
    functions.  The generated numeric functions are the symbolic ones
    (sym2num is not modelled). *)
From Coq Require Import String.
From Verif Require Import Py.
From mathcomp Require Import all_ssreflect all_algebra.
From Verif Require Import KalModel.
Set Implicit Arguments.
Unset Strict Implicit.
Unset Printing Implicit Defensive.
Import Order.TTheory GRing.Theory Num.Theory.
Local Open Scope ring_scope.

(** * symsde.py *)

Section Sde.
Variable F : rcfType.
Variables nx nw ny : nat.

(** The continuous-time model with the derivatives of symsde.py:80-87; entry
    [(i, j)] of [ct_df_dx] is the derivative of component [j] by [x_i], and
    [ct_d2f_dx2 t x p q] the vector of derivatives by [x_p] and [x_q]. *)
Record ct_model := CT {
  ct_f : F -> 'cV[F]_nx -> 'cV[F]_nx;
  ct_g : F -> 'cV[F]_nx -> 'M[F]_(nx, nw);
  ct_h : F -> 'cV[F]_nx -> 'cV[F]_ny;
  ct_df_dt : F -> 'cV[F]_nx -> 'cV[F]_nx;
  ct_df_dx : F -> 'cV[F]_nx -> 'M[F]_nx;
  ct_d2f_dx2 : F -> 'cV[F]_nx -> 'I_nx -> 'I_nx -> 'cV[F]_nx }.
Variables (ct : ct_model) (dt : F).

(** symsde.py:36-40 [Q(k, x)], for the gain [g] of the class. *)
Definition sde_Q m (g : 'M[F]_(nx, m)) : 'M[F]_nx := g *m g^T.

(** symsde.py:42-45 [h(k, x)]. *)
Definition sde_h (k : nat) (x : 'cV[F]_nx) : 'cV[F]_ny := ct_h ct (k%:R * dt) x.

(** symsde.py:58-63 [f(k, x)] of the Euler scheme. *)
Definition euler_f (k : nat) (x : 'cV[F]_nx) : 'cV[F]_nx :=
  let t := dt * k%:R in dt *: ct_f ct t x + x.
(** symsde.py:65-70 [g(k, x)]. *)
Definition euler_g (k : nat) (x : 'cV[F]_nx) : 'M[F]_(nx, nw) :=
  let t := dt * k%:R in Num.sqrt dt *: ct_g ct t x.

(** symsde.py:101-104: [L0f], accumulated over all [i, j, p, q]. *)
Definition as15_L0f (t : F) (x : 'cV[F]_nx) : 'cV[F]_nx :=
  let g := ct_g ct t x in
  \col_i ((ct_df_dt ct t x + (ct_df_dx ct t x)^T *m ct_f ct t x) i 0
    + \sum_j \sum_p \sum_q 2%:R^-1 * g p j * g q j * ct_d2f_dx2 ct t x p q i 0).
(** symsde.py:89-109 [f(k, x)] of the order 1.5 scheme. *)
Definition as15_f (k : nat) (x : 'cV[F]_nx) : 'cV[F]_nx :=
  let t := dt * k%:R in
  dt *: ct_f ct t x + (2%:R^-1 * dt ^+ 2) *: as15_L0f t x + x.
(** symsde.py:111-130 [g(k, x)]. *)
Definition as15_g (k : nat) (x : 'cV[F]_nx) : 'M[F]_(nx, nw + nw) :=
  let t := dt * k%:R in
  let g := ct_g ct t x in
  let Lf := (ct_df_dx ct t x)^T *m g in
  let dt15 := dt * Num.sqrt dt in
  let blk1 := Num.sqrt dt *: g + (2%:R^-1 * dt15) *: Lf in
  let blk2 := (2%:R^-1 * dt15 / Num.sqrt 3%:R) *: Lf in
  row_mx blk1 blk2.

(** gensde.py:16-27 [trans_rvs(k, x, w)]: with [w] the assertion indexes a
    tuple with a tuple; without, [rnd] is the standard normal draw. *)
Definition trans_rvs m (f : 'cV[F]_nx) (g : 'M[F]_(nx, m)) (rnd : 'cV[F]_m) (w : option 'cV[F]_m) : res 'cV[F]_nx :=
  match w with
  | Some _ => Err TypeError
  | None => Ok (f + g *m rnd)
  end.
End Sde.

(** * stats.py *)

Section Stats.
Variable F : rcfType.
Variable exp : F -> F.

(** stats.py:7-28 [multivariate_normal_pdf(x, mean, cov)] of [N] deviations
    [x - mean] with one covariance; [mask] is [None] when the deviation is
    not a masked array.  [np.linalg.solve] raises exactly on singular
    matrices. *)
Definition mvn_pdf (N n : nat) (dev : 'I_N -> 'rV[F]_n) (mask : option ('I_N -> {set 'I_n})) (cov : 'M[F]_n) : res ('I_N -> F) :=
  let compute (d : 'I_N -> 'rV[F]_n) :=
    if cov \in unitmx then
      Ok (fun k => exp (- 2%:R^-1 * (d k *m (invmx cov *m (d k)^T)) 0 0) / Num.sqrt (\det cov))
    else Err LinAlgError in
  match mask with
  | None => compute dev
  | Some m =>
      if [forall k, m k == setT] then Ok (fun=> 1)
      else compute (fun k => \row_j (dev k 0 j * (j \notin m k)%:R))
  end.

(** stats.py:38-40 [svd_sqrt(a)], given [u, s] of [np.linalg.svd(a)]. *)
Definition svd_sqrt n (u : 'M[F]_n) (s : 'rV[F]_n) : 'M[F]_n := \matrix_(i, j) (u i j * s 0 j).

(** stats.py:31-35 [multivariate_normal_rvs(mean, cov)]: [std.size] is an
    integer, which [[-1]] does not index. *)
Definition mvn_rvs n (mean : 'rV[F]_n) (u : 'M[F]_n) (s : 'rV[F]_n) : res 'rV[F]_n :=
  let std := svd_sqrt u s in
  let* nw := (Err TypeError : res nat) in
  Ok mean.

(** gensde.py:10-14 [trans_pdf(k, x, xnext)] and 30-34 [meas_pdf(k, x, y)] at
    one state, with [f], [Q] (or [h], [R]) evaluated there. *)
Definition cond_pdf n (f : 'rV[F]_n) (Q : 'M[F]_n) (xnext : 'rV[F]_n) (mask : option {set 'I_n}) : res F :=
  let* p := mvn_pdf (fun _ : 'I_1 => xnext - f) (omap (fun m _ => m) mask) Q in
  Ok (p 0).
End Stats.
