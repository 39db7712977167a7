(** Histories of builder calls (specification vocabulary for C01-C03). *)
From Coq Require Import String List ZArith Bool Arith Lia.
From Verif Require Import Py NdArray OptimModel.
Import ListNotations.

Section Builder.
  Context {T : Type} {NT : Num T}.

  (** One public builder call. *)
  Inductive op :=
  | AddDecision (name : string) (s : shape)
  | AddDependent (name : string) (sp : spec T)
  | AddObjective (f : fn T) (s : shape) (args : option (list string))
  | AddConstraint (f : fn T) (s : shape) (args : option (list string)).

  Definition call (p : problem T) (o : op) : outcome :=
    match o with
    | AddDecision name s => add_decision_st p name s
    | AddDependent name sp => add_dependent_st p name sp
    | AddObjective f s args => add_objective_st p f s args
    | AddConstraint f s args => add_constraint_st p f s args
    end.

  (** The caller catches exceptions and goes on with the same object. *)
  Definition call_catch (p : problem T) (o : op) : problem T := fst (call p o).

  (** The problem after a history of calls on a fresh object. *)
  Definition history (ops : list op) : problem T := fold_left call_catch ops new_problem.

  (** No component of the history has 2**31 or more elements. *)
  Definition op_small (o : op) : Prop :=
    match o with
    | AddDecision _ s | AddConstraint _ s _ => (prodZ s < 2 ^ 31)%Z
    | _ => True
    end.

  (** Consecutive half-open intervals: each begins where the previous ends. *)
  Fixpoint adjacent (start : Z) (l : list (Z * Z)) (stop : Z) : Prop :=
    match l with
    | [] => start = stop
    | (a, b) :: l' => a = start /\ (a <= b)%Z /\ adjacent b l' stop
    end.
End Builder.
Arguments op T : clear implicits.
