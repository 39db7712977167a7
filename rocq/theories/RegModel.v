(** Model of the registrations made by the constructors of the symbolic
    collocation models (ceacoest/modelling/symcol.py, symoc.py, symoem.py,
    symjme.py). *)
From Coq Require Import String List ZArith Bool Arith.
From Verif Require Import Py NdArray OptimModel GenModel SymModel.
Import ListNotations.
Local Open Scope string_scope.
Local Open Scope list_scope.

Section Reg.
  Context {T : Type} {NT : Num T}.

  (** A call of [add_objective] or [add_constraint]; [r_wrt] is the order in
      which Python iterates over the set of decision arguments. *)
  Record reg := Reg { r_obj : bool; r_name : string; r_wrt : list string }.
  Definition register (m : smodel T) (r : reg) : res (smodel T) :=
    if r_obj r then add_objective m (r_wrt r) (r_name r) 2 else add_constraint m (r_wrt r) (r_name r) 2.
  Definition register_all (m : smodel T) (rs : list reg) : res (smodel T) := foldM register m rs.

  (** Code generation for one registered function. *)
  Definition generate_reg (m : smodel T) (r : reg) : res (gfun T) :=
    if r_obj r then generate_objective m (r_name r) else generate_constraint m (r_name r).
End Reg.

(** symcol.py:48, then symoc.py:34-37.  [W] gives the iteration orders. *)
Definition symoc_regs (W : string -> list string) : list reg :=
  [Reg false "e" (W "e"); Reg true "IL" (W "IL"); Reg true "M" (W "M"); Reg false "g" (W "g"); Reg false "h" (W "h")].
(** symcol.py:48, then symoem.py:21. *)
Definition symoem_regs (W : string -> list string) : list reg :=
  [Reg false "e" (W "e"); Reg true "L" (W "L")].
(** symcol.py:48, symoem.py:21, then symjme.py:32-37.  [add_derivative] of
    line 31 sets the attribute df_dx that the expression of tube_L uses; it
    registers nothing and is left out.  The
    variable penweight (lines 35-36) is declared from the start. *)
Definition symjme_regs (use_penalty : bool) (W : string -> list string) : list reg :=
  symoem_regs W ++ [Reg true "tube_L" (W "tube_L")] ++
  (if use_penalty then [Reg true "penalty" (W "penalty")] else []).

(** Decision variables: symcol.py:26-27 with symoc.py:30, symoem.py:17,
    symjme.py:27 (no further ones given by the user). *)
Definition symoc_decision : list string := ["p"; "u"; "up"; "xe"; "x"; "xp"].
Definition symoem_decision : list string := ["p"; "x"; "xp"].
Definition symjme_decision : list string := ["wc"; "p"; "x"; "xp"].
