(** Model of ceacoest/modelling/symsde.py as it is written: the discretised
    functions on one- and two-dimensional arrays, the loop that accumulates
    [L0f], the sizes assigned to the generated class, and the constructors,
    with the variable dictionary of the continuous-time model as an object in
    memory.  SdeModel.v has the functions as matrices.

    Simplified: the elements of arrays are values in a real closed field
    instead of SymPy expressions; [dt ** 0.5] is the square root, [dt ** 1.5]
    is [dt] times it, and [0.5] is a half. *)
From Coq Require Import String Ascii.
From Verif Require Import Py.
From mathcomp Require Import all_ssreflect all_algebra.
From Verif Require Import KalModel NpModel.
Set Implicit Arguments.
Unset Strict Implicit.
Unset Printing Implicit Defensive.
Import Order.TTheory GRing.Theory Num.Theory.
Local Open Scope ring_scope.

Section SymSde.
Variable F : rcfType.
Notation nd := (nd F).

(** * NumPy *)

(** [A.T] *)
Definition transposed (A : nd) : nd := ND (rev (shape A)) (fun i => get A (rev i)).
(** [A @ B] of vectors and matrices; more axes do not occur. *)
Definition matmul (A B : nd) : res nd :=
  match shape A, shape B with
  | [:: m], [:: m'] => if m == m' then Ok (ND [::] (fun=> \sum_(k < m) get A [:: nat_of_ord k] * get B [:: nat_of_ord k])) else Err ValueError
  | [:: m], [:: m'; p] => if m == m' then Ok (ND [:: p] (fun i => \sum_(k < m) get A [:: nat_of_ord k] * get B [:: nat_of_ord k; nth 0%N i 0])) else Err ValueError
  | [:: n; m], [:: m'] => if m == m' then Ok (ND [:: n] (fun i => \sum_(k < m) get A [:: nth 0%N i 0; nat_of_ord k] * get B [:: nat_of_ord k])) else Err ValueError
  | [:: n; m], [:: m'; p] => if m == m' then Ok (ND [:: n; p] (fun i => \sum_(k < m) get A [:: nth 0%N i 0; nat_of_ord k] * get B [:: nat_of_ord k; nth 0%N i 1])) else Err ValueError
  | _, _ => Err ValueError
  end.
(** [np.hstack((A, B))] of vectors or of matrices. *)
Definition hstack (A B : nd) : res nd :=
  match shape A, shape B with
  | [:: m], [:: m'] => Ok (ND [:: m + m']%N (fun i => let k := nth 0%N i 0 in if (k < m)%N then get A [:: k] else get B [:: (k - m)%N]))
  | [:: n; m], [:: n'; m'] =>
      if n == n' then
        Ok (ND [:: n; m + m']%N (fun i => let k := nth 0%N i 1 in if (k < m)%N then get A [:: nth 0%N i 0; k] else get B [:: nth 0%N i 0; (k - m)%N]))
      else Err ValueError
  | _, _ => Err ValueError
  end.
(** [A[i, j, ...]] with an index for every axis. *)
Fixpoint in_range (s i : seq nat) : bool :=
  match s, i with
  | [::], [::] => true
  | n :: s', k :: i' => (k < n)%N && in_range s' i'
  | _, _ => false
  end.
Definition getitem (A : nd) (i : seq nat) : res F := if in_range (shape A) i then Ok (get A i) else Err IndexError.
(** [A[i] += v] *)
Definition iaddat (A : nd) (i : seq nat) (v : F) : res nd :=
  if in_range (shape A) i then Ok (ND (shape A) (fun j => if j == i then get A j + v else get A j)) else Err IndexError.
(** [n, m = A.shape] *)
Definition unpack2 (A : nd) : res (nat * nat) :=
  match shape A with [:: n; m] => Ok (n, m) | _ => Err ValueError end.

(** * The discretised functions *)

(** The functions of the continuous-time model: of time and the state. *)
Record nct := NCT {
  nc_f : F -> nd -> nd; nc_g : F -> nd -> nd; nc_h : F -> nd -> nd; nc_R : nd;
  nc_df_dt : F -> nd -> nd; nc_df_dx : F -> nd -> nd; nc_d2f_dx2 : F -> nd -> nd }.
Variables (ct : nct) (dt : F).

(** symsde.py:57-62 *)
Definition nd_euler_f (k : nat) (x : nd) : res nd :=
  let t := dt * k%:R in
  let f := nc_f ct t x in
  nd_add (nd_scale dt f) x.
(** symsde.py:64-69 *)
Definition nd_euler_g (k : nat) (x : nd) : res nd :=
  let t := dt * k%:R in
  let g := nc_g ct t x in
  Ok (nd_scale (Num.sqrt dt) g).

(** symsde.py:103-105 *)
Definition nd_L0f (g df_dt df_dx d2f_dx2 f : nd) (nx nw : nat) : res nd :=
  let* v := matmul (transposed df_dx) f in
  let* L0f := nd_add df_dt v in
  foldM (fun L0f ix =>
    let i := nth 0%N ix 0 in let j := nth 0%N ix 1 in let p := nth 0%N ix 2 in let q := nth 0%N ix 3 in
    let* gp := getitem g [:: p; j] in
    let* gq := getitem g [:: q; j] in
    let* d := getitem d2f_dx2 [:: p; q; i] in
    iaddat L0f [:: i] (2%:R^-1 * gp * gq * d)) L0f (indices [:: nx; nw; nx; nx]).
(** symsde.py:89-109 *)
Definition nd_as15_f (k : nat) (x : nd) : res nd :=
  let t := dt * k%:R in
  let f := nc_f ct t x in
  let g := nc_g ct t x in
  let df_dt := nc_df_dt ct t x in
  let df_dx := nc_df_dx ct t x in
  let d2f_dx2 := nc_d2f_dx2 ct t x in
  let* s := unpack2 g in
  let '(nx, nw) := s in
  let* L0f := nd_L0f g df_dt df_dx d2f_dx2 f nx nw in
  let* r := nd_add (nd_scale dt f) (nd_scale (2%:R^-1 * dt ^+ 2) L0f) in
  nd_add r x.
(** symsde.py:111-130 *)
Definition nd_as15_g (k : nat) (x : nd) : res nd :=
  let t := dt * k%:R in
  let g := nc_g ct t x in
  let df_dx := nc_df_dx ct t x in
  let* _ := unpack2 g in
  let* Lf := matmul (transposed df_dx) g in
  let dt15 := dt * Num.sqrt dt in
  let* blk1 := nd_add (nd_scale (Num.sqrt dt) g) (nd_scale (2%:R^-1 * dt15) Lf) in
  let blk2 := nd_scale (2%:R^-1 * dt15 / Num.sqrt 3%:R) Lf in
  hstack blk1 blk2.

(** symsde.py:35-39, of the class's own [g]. *)
Definition nd_sde_Q (gfun : nat -> nd -> res nd) (k : nat) (x : nd) : res nd :=
  let* g := gfun k x in matmul g (transposed g).
(** symsde.py:41-44 *)
Definition nd_sde_h (k : nat) (x : nd) : nd := nc_h ct (k%:R * dt) x.
(** symsde.py:46-48 *)
Definition nd_sde_R : nd := nc_R ct.

(** symsde.py:27-33 [generate_assignments]: the variables [x] and [y], and
    the output of [g] for the default arguments [k0], [x0]. *)
Record sizes := Sizes { sz_nx : nat; sz_ny : nat; sz_nw : nat }.
Definition sde_assignments (xs ys : seq string) (gfun : nat -> nd -> res nd) (k0 : nat) (x0 : nd) : res sizes :=
  let nx := size xs in
  let ny := size ys in
  let* g := gfun k0 x0 in
  let* nw := match shape g with _ :: nw :: _ => Ok nw | _ => Err IndexError end in
  Ok (Sizes nx ny nw).
End SymSde.

(** * The constructors *)

(** Where an attribute of a symbolic model comes from: the user's class, or
    sym2num's [add_derivative(fun, wrt, name)]. *)
Inductive origin := User | Deriv (fname wrt : string).

(** Dictionaries are objects: a location in a list of them. *)
Definition heap := seq (sdict string).
Definition upd (h : heap) (l : nat) (d : sdict string) : heap := set_nth [::] h l d.

(** A continuous-time model: the location of its variables' [self] dictionary,
    its variables [x] and [y], and its functions. *)
Record ctobj := CTObj { co_self : nat; co_x : seq string; co_y : seq string; co_funs : sdict origin }.
(** A discretised model: its own variables, and the model it refers to. *)
Record dobj := DObj { do_self : nat; do_k : string; do_x : seq string; do_y : seq string; do_ct : ctobj }.

(** symsde.py:12-25; [.copy()] makes a new dictionary. *)
Definition base_init (h : heap) (ct : ctobj) : dobj * heap :=
  let l := size h in
  let h := rcons h (nth [::] h (co_self ct)) in
  let h := upd h l (dset String.eqb (nth [::] h l) "dt"%string "dt"%string) in
  (DObj l "k" (co_x ct) (co_y ct) ct, h).

(** [add_derivative(fname, wrt, name)] of sym2num: the function has to exist;
    the model gets a new attribute. *)
Definition add_derivative (ct : ctobj) (fname wrt name : string) : res ctobj :=
  match dget String.eqb (co_funs ct) fname with
  | None => Err AttributeError
  | Some _ => Ok (CTObj (co_self ct) (co_x ct) (co_y ct) (dset String.eqb (co_funs ct) name (Deriv fname wrt)))
  end.
(** [if not hasattr(ct_model, name): ct_model.add_derivative(fname, wrt, name)] *)
Definition ensure (ct : ctobj) (fname wrt name : string) : res ctobj :=
  if dmem String.eqb (co_funs ct) name then Ok ct else add_derivative ct fname wrt name.

(** symsde.py:78-87; the model that was passed is modified. *)
Definition as15_init (h : heap) (ct : ctobj) : res (dobj * heap) :=
  let '(o, h) := base_init h ct in
  let* ct := ensure ct "f" "t" "df_dt" in
  let* ct := ensure ct "f" "x" "df_dx" in
  let* ct := ensure ct "df_dx" "x" "d2f_dx2" in
  Ok (DObj (do_self o) (do_k o) (do_x o) (do_y o) ct, h).
