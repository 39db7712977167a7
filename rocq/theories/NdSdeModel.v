(** Model of ceacoest/modelling/stats.py and gensde.py on arrays: states,
    measurements and covariances with any number of leading axes, of which
    SdeModel.v has the matrix version.

    Simplified: exact arithmetic; the square root of a negative determinant,
    NaN in NumPy, is 0 here.  [np.linalg.solve(a, b)] follows NumPy 1.x: [b]
    is a stack of vectors when it has one axis less than [a] and a stack of
    matrices otherwise. *)
From Coq Require Import String Ascii.
From Verif Require Import Py.
From mathcomp Require Import all_ssreflect all_algebra.
From Verif Require Import KalModel NpModel.
Set Implicit Arguments.
Unset Strict Implicit.
Unset Printing Implicit Defensive.
Import Order.TTheory GRing.Theory Num.Theory.
Local Open Scope ring_scope.

Section Nd.
Variable F : rcfType.
Local Notation nd := (nd F).

(** * NumPy *)

(** [np.broadcast_to(A, (1,) * k + A.shape)]. *)
Definition prepend (k : nat) (A : nd) : nd := ND (nseq k 1%N ++ shape A) (fun i => get A (drop k i)).
Definition ones (s : seq nat) : nd := ND s (fun=> 1).

(** The number of axes in front of the last two, and the size of these, which
    have to be equal. *)
Definition square (A : nd) : res (nat * nat) :=
  let k := (size (shape A) - 2)%N in
  match drop k (shape A) with
  | [:: m; n] => if m == n then Ok (k, n) else Err LinAlgError
  | _ => Err LinAlgError
  end.
(** [np.linalg.det(A)]. *)
Definition nd_det (A : nd) : res nd :=
  let* kn := square A in
  Ok (ND (take kn.1 (shape A)) (fun e => \det (mx_at kn.2 kn.2 A e))).

(** [np.linalg.solve(A, B)]: raises when a matrix used is singular. *)
Definition nd_solve (A B : nd) : res nd :=
  let* kn := square A in
  let k := kn.1 in
  let n := kn.2 in
  let s := shape B in
  if size s == k.+1 then
    if last 0%N s != n then Err ValueError else
    let* b := bcast (take k (shape A)) (take k s) in
    let mat e := mx_at n n A (bidx (take k (shape A)) e) in
    let* _ := mapM (fun e => inv (mat e)) (indices b) in
    Ok (ND (b ++ [:: n]) (fun i =>
      let e := take (size b) i in
      let v := \col_(j < n) get B (bidx (take k s) e ++ [:: nat_of_ord j]) in
      at_nat (invmx (mat e) *m v) (nth 0%N i (size b)) 0))
  else
    if (size s < 2)%N then Err ValueError else
    let l := (size s - 2)%N in
    let m := last 0%N s in
    if nth 0%N s l != n then Err ValueError else
    let* b := bcast (take k (shape A)) (take l s) in
    let mat e := mx_at n n A (bidx (take k (shape A)) e) in
    let* _ := mapM (fun e => inv (mat e)) (indices b) in
    Ok (ND (b ++ [:: n; m]) (fun i =>
      let e := take (size b) i in
      at_nat (invmx (mat e) *m mx_at n m B (bidx (take l s) e)) (nth 0%N i (size b)) (nth 0%N i (size b).+1))).

(** An array, masked or not; the mask has the shape of the data. *)
Record marray := MA { ma_data : nd; ma_mask : option (seq nat -> bool) }.
Definition plain (A : nd) : marray := MA A None.
Definition masked_at (A : marray) (i : seq nat) : bool :=
  match ma_mask A with Some m => m (bidx (shape (ma_data A)) i) | None => false end.
(** [A - B]: a masked array if one of them is, masked where one of them is. *)
Definition ma_sub (A B : marray) : res marray :=
  let* D := nd_sub (ma_data A) (ma_data B) in
  Ok (MA D (match ma_mask A, ma_mask B with
            | None, None => None
            | _, _ => Some (fun i => masked_at A i || masked_at B i)
            end)).
(** [np.ma.getdata(A) * ~np.ma.getmaskarray(A)]. *)
Definition unmask (A : nd) (m : seq nat -> bool) : nd := ND (shape A) (fun i => get A i * (~~ m i)%:R).

(** * stats.py *)
Variable expf : F -> F.

(** stats.py:21-28, for the deviation [dev]. *)
Definition nd_pdf (dev cov : nd) : res nd :=
  let nc := size (shape cov) in
  let nv := size (shape dev) in
  let cov := if (nc <= nv)%N then prepend (1 + nv - nc)%N cov else cov in
  let* sol := nd_solve cov dev in
  let* q := einsum "...i,...i" [:: dev; sol] in
  let expo := nd_scale (- 2%:R^-1) q in
  let* d := nd_det cov in
  nd_div (map1 expf expo) (map1 Num.sqrt d).

(** stats.py:7-28 [multivariate_normal_pdf(x, mean, cov)]. *)
Definition nd_mvn_pdf (x mean : marray) (cov : nd) : res nd :=
  let* dev := ma_sub x mean in
  let D := ma_data dev in
  match ma_mask dev with
  | None => nd_pdf D cov
  | Some m =>
      if all m (indices (shape D)) then Ok (ones (take (size (shape D)).-1 (shape D)))
      else nd_pdf (unmask D m) cov
  end.

(** * gensde.py *)

(** The functions of the generated model, vectorised over leading axes of the
    state, and its attribute [nw]. *)
Record gensde := GS {
  gs_f : nat -> nd -> nd; gs_Q : nat -> nd -> nd; gs_g : nat -> nd -> nd;
  gs_h : nat -> nd -> nd; gs_R : nd; gs_nw : nat }.
Variable sd : gensde.

(** gensde.py:10-14 [trans_pdf(k, x, xnext)]. *)
Definition nd_trans_pdf (k : nat) (x : nd) (xnext : marray) : res nd :=
  let f := gs_f sd k x in
  let Q := gs_Q sd k x in
  nd_mvn_pdf xnext (plain f) Q.

(** gensde.py:16-27 [trans_rvs(k, x, w)]; [randn] gives an array of standard
    normal draws of the shape asked for. *)
Definition nd_trans_rvs (randn : seq nat -> nd) (k : nat) (x : nd) (w : option nd) : res nd :=
  let f := gs_f sd k x in
  let g := gs_g sd k x in
  let nw := gs_nw sd in
  let* w := match w with
    | None => Ok (randn (take (size (shape f)).-1 (shape f) ++ [:: nw]))
    | Some _ => Err TypeError
    end in
  let* gw := einsum "...ij,...j" [:: g; w] in
  nd_add f gw.

(** gensde.py:30-34 [meas_pdf(k, x, y)]. *)
Definition nd_meas_pdf (k : nat) (x : nd) (y : marray) : res nd :=
  let h := gs_h sd k x in
  let R := gs_R sd in
  nd_mvn_pdf y (plain h) R.
End Nd.
