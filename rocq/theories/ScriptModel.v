(** The part of the example scripts that sets the bounds handed to Ipopt.

    examples/brachistochrone.py:61-72, bryson_denham.py:57-67,
    attas_sp.py:77-80 and duffing_jme.py:181-185: an array of shape (2, ndec)
    with rows [-inf] and [inf] is unpacked in [dec_L] and [dec_U], which are
    views of it; then elements are assigned, through the dictionaries that
    [problem.variables] returns for the two rows or directly. *)
From Coq Require Import String List ZArith Bool Arith Lia.
From Verif Require Import Py NdArray OptimModel ViewModel.
Import ListNotations.

Section Script.
  Context {E : Type} (e0 : E).
  (** One statement: in the lower or the upper row, the variable (or the row
      itself), the subscript and the value. *)
  Record assignment := Assign { as_upper : bool; as_var : option string; as_sel : list sel; as_value : arr E }.

  Definition assign (rows : view * view) (vars : sdict view * sdict view) (h : memory E) (a : assignment) : res (memory E) :=
    match as_var a with
    | Some name => var_set e0 h (if as_upper a then snd vars else fst vars) name (as_sel a) (as_value a)
    | None => vset e0 h (if as_upper a then snd rows else fst rows) (as_sel a) (as_value a)
    end.
  Fixpoint assign_all (rows : view * view) (vars : sdict view * sdict view) (h : memory E) (l : list assignment) : res (memory E) :=
    match l with
    | [] => Ok h
    | a :: l' => let* h' := assign rows vars h a in assign_all rows vars h' l'
    end.

  (** The two rows after the script. *)
  Definition bounds_script (lo hi : E) (ndec : nat) (dec : sdict comp) (dep : sdict depvar) (extra : sdict view) (h : memory E) (l : list assignment)
      : res (list E * list E) :=
    let '(h, rows) := two_rows h lo hi ndec in
    let* hL := view_variables e0 (Z.of_nat ndec) dec dep extra h (fst rows) in
    let* hU := view_variables e0 (Z.of_nat ndec) dec dep extra (fst hL) (snd rows) in
    let* h := assign_all rows (snd hL, snd hU) (fst hU) l in
    Ok (adat (vread e0 h (fst rows)), adat (vread e0 h (snd rows))).
End Script.
Arguments Assign {E}.
Arguments assignment : clear implicits.
