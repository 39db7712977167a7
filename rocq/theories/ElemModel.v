(** The variables of a symbolic model and the names of their elements.

    The constructors register, beside the variables of the user, derived ones
    whose elements are named by format strings.  A symbol is its name: two
    elements with one name are one symbol. *)
From Coq Require Import String List ZArith Bool Arith Reals DecimalString.
Require Import Verif.Py Verif.Expr Verif.ExprModel.
Import ListNotations.
Local Open Scope string_scope.

(** [f'{k}'] for an integer [k >= 0]. *)
Definition decimal (k : nat) : string := NilEmpty.string_of_uint (Nat.to_uint k).

(** modelling/symcol.py:44-45 *)
Definition piece_name (n : string) (k : nat) : string := n ++ "_piece_" ++ decimal k.
(** modelling/symoc.py:22 *)
Definition initial_name (n : string) : string := n ++ "_initial".
Definition final_name (n : string) : string := n ++ "_final".
(** modelling/symjme.py:25 *)
Definition wc_name (j i : nat) : string := "wc" ++ decimal j ++ "_interv_" ++ decimal i.
(** modelling/symjme.py:36 *)
Definition penweight_name (i : nat) : string := "penweight" ++ decimal i.

(** What is registered for a variable: its shape when it is an array, nothing
    for nested lists and strings, which have no attribute [shape]; the names of
    its elements in row-major order. *)
Record vspec := VS { v_arr : option (list nat); v_elems : list string }.
Definition vdict := sdict vspec.
Definition listed (l : list string) : vspec := VS None l.

(** [d.setdefault(k, v)], the dictionary after. *)
Definition setdefault (d : vdict) (k : string) (v : vspec) : vdict := if dmem String.eqb d k then d else dset String.eqb d k v.

(** modelling/symcol.py:44-45: the rows of the nested lists are the nodes. *)
Definition piece_names (ncol : nat) (l : list string) : list string :=
  flat_map (fun k => map (fun n => piece_name n k) l) (seq 0 ncol).
(** modelling/symoc.py:22 *)
Definition end_names (x : list string) : list string := map initial_name x ++ map final_name x.
(** modelling/symjme.py:25 *)
Definition wc_names (nw ninterv : nat) : list string :=
  flat_map (fun i => map (fun j => wc_name j i) (seq 0 nw)) (seq 0 ninterv).
(** modelling/symjme.py:36 *)
Definition penweight_names (nx : nat) : list string := map penweight_name (seq 0 nx).

(** modelling/symcol.py:30-45: the dictionary [self.variables].  [setdefault]
    of [x] without a value stores [None], but the constructor then raises. *)
Definition symcol_variables (ncol : nat) (variables : vdict) : res vdict :=
  let v := dmerge String.eqb [] variables in
  let v := setdefault v "piece_len" (listed ["piece_len"]) in
  let v := setdefault v "p" (listed []) in
  let v := setdefault v "u" (listed []) in
  match dget String.eqb v "x" with
  | None => Err ValueError
  | Some x =>
      let* u := dlookup String.eqb v "u" in
      let v := dset String.eqb v "xp" (listed (piece_names ncol (v_elems x))) in
      Ok (dset String.eqb v "up" (listed (piece_names ncol (v_elems u))))
  end.

(** The constructors of the derived classes also write into the dictionary
    they are given: the first component is that dictionary afterwards, also
    when the constructor raises. *)
(** modelling/symoc.py:17-31 *)
Definition symoc_init (ncol : nat) (variables : vdict) : vdict * res vdict :=
  match dget String.eqb variables "x" with
  | None => (variables, Err ValueError)
  | Some x =>
      let variables := dset String.eqb variables "xe" (listed (end_names (v_elems x))) in
      let variables := setdefault variables "p" (listed []) in
      let variables := setdefault variables "u" (listed []) in
      (variables, symcol_variables ncol variables)
  end.
(** modelling/symoem.py:15-18 *)
Definition symoem_init (ncol : nat) (variables : vdict) : vdict * res vdict :=
  let variables := setdefault variables "u" (listed []) in
  (variables, symcol_variables ncol variables).
(** modelling/symjme.py:22-37 *)
Definition symjme_init (use_penalty : bool) (ncol ninterv : nat) (variables : vdict) : vdict * res vdict :=
  match dget String.eqb variables "G" with
  | None => (variables, Err KeyError)
  | Some G =>
      match v_arr G with
      | None => (variables, Err AttributeError)
      | Some sh =>
          match nth_error sh 1 with
          | None => (variables, Err IndexError)
          | Some nw =>
              let variables := dset String.eqb variables "wc" (listed (wc_names nw ninterv)) in
              let '(variables, r) := symoem_init ncol variables in
              (variables,
               let* v := r in
               if use_penalty then
                 let* x := dlookup String.eqb v "x" in
                 Ok (dset String.eqb v "penweight" (listed (penweight_names (length (v_elems x)))))
               else Ok v)
          end
      end
  end.

(** *** Symbols *)
(** The names of the elements of each variable. *)
Definition naming := string -> option (list string).
Definition naming_of (v : vdict) : naming := fun w => option_map v_elems (dget String.eqb v w).
Definition name_of (m : naming) (w : string) (i : nat) : string :=
  match m w with Some l => nth i l "" | None => "" end.
Definition size_of (m : naming) (w : string) : nat := match m w with Some l => length l | None => 0 end.

(** An expression over elements written with the symbols of their names: how
    [sym2num] hands the variables of a model to its functions
    (modelling/symcol.py:74-81, symoc.py:39-46).  The symbol [s] is
    [Var s 0]. *)
Definition with_symbols (m : naming) (e : expr) : expr := esubst (fun w i => Var (name_of m w i) 0) e.
(** [sympy.diff] by the symbol of an element. *)
Definition symbol_diff (m : naming) (w : string) (i : nat) (e : expr) : expr := dif (name_of m w i) 0 e.
(** Generated code unpacks its arguments in order into one local variable per
    symbol: of two assignments to one symbol the later stays. *)
Definition unpacked (m : naming) (args : list string) (A : list (list R)) : list (string * R) :=
  flat_map (fun wa => match m (fst wa) with Some l => combine l (snd wa) | None => [] end) (combine args A).
Definition symbol_env (m : naming) (args : list string) (A : list (list R)) : env :=
  fun s _ => match dget String.eqb (rev (unpacked m args A)) s with Some x => x | None => 0%R end.
