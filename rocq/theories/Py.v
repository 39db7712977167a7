(** Python run-time conventions used by every model file.

    Modelling conventions, not code of the repository: exceptions are values,
    dictionaries are association lists in insertion order, NumPy index
    arithmetic is exact. *)
From Coq Require Import String List ZArith Bool Arith Ring_theory.
Import ListNotations.

(** Exceptions the modelled code can raise. *)
Inductive exn :=
| AssertionError | ValueError | TypeError | KeyError | IndexError
| AttributeError | NameError | LinAlgError | RuntimeError.

(** Outcome of a Python call: a value or a raised exception. *)
Inductive res (A : Type) := Ok (a : A) | Err (e : exn).
Arguments Ok {A} a.
Arguments Err {A} e.

Definition bind {A B} (m : res A) (f : A -> res B) : res B :=
  match m with Ok a => f a | Err e => Err e end.
Notation "'let*' x ':=' m 'in' k" := (bind m (fun x => k))
  (at level 200, x pattern, m at level 100, k at level 200, right associativity).

(** [assert b]. *)
Definition passert (b : bool) : res unit :=
  if b then Ok tt else Err AssertionError.

(** Evaluate a sequence of calls left to right, stopping at the first raise. *)
Fixpoint mapM {A B} (f : A -> res B) (l : list A) : res (list B) :=
  match l with
  | [] => Ok []
  | a :: l' => let* b := f a in let* bs := mapM f l' in Ok (b :: bs)
  end.

(** [for a in l: acc = f(acc, a)]. *)
Fixpoint foldM {A B} (f : A -> B -> res A) (acc : A) (l : list B) : res A :=
  match l with
  | [] => Ok acc
  | b :: l' => let* a := f acc b in foldM f a l'
  end.

(** Dictionaries keyed by strings or by tuples of strings. *)
Section Dict.
  Context {K V : Type} (eqb : K -> K -> bool).
  Fixpoint dget (d : list (K * V)) (k : K) : option V :=
    match d with
    | [] => None
    | (k', v) :: d' => if eqb k k' then Some v else dget d' k
    end.
  (** [d[k] = v]: an existing key keeps its position. *)
  Fixpoint dset (d : list (K * V)) (k : K) (v : V) : list (K * V) :=
    match d with
    | [] => [(k, v)]
    | (k', v') :: d' => if eqb k k' then (k', v) :: d' else (k', v') :: dset d' k v
    end.
  Definition dmem (d : list (K * V)) (k : K) : bool :=
    match dget d k with Some _ => true | None => false end.
  (** [{**d1, **d2}] *)
  Definition dmerge (d1 d2 : list (K * V)) : list (K * V) :=
    fold_left (fun d kv => dset d (fst kv) (snd kv)) d2 d1.
  (** Dictionary display / comprehension: later keys overwrite earlier ones. *)
  Definition dmake (l : list (K * V)) : list (K * V) := dmerge [] l.
  (** [d[k]] *)
  Definition dlookup (d : list (K * V)) (k : K) : res V :=
    match dget d k with Some v => Ok v | None => Err KeyError end.
End Dict.

Definition sdict V := list (string * V).
(** Tuples of names, used as dictionary keys. *)
Definition tkey := list string.
Fixpoint tkey_eqb (a b : tkey) : bool :=
  match a, b with
  | [], [] => true
  | x :: a', y :: b' => String.eqb x y && tkey_eqb a' b'
  | _, _ => false
  end.

(** Numbers.  The model is generic in the number type so that the same
    definitions run on [Z] (examples by computation) and on [R] (calculus). *)
Class Num (T : Type) := {
  n0 : T; n1 : T; nadd : T -> T -> T; nmul : T -> T -> T;
  nsub : T -> T -> T; nopp : T -> T;
  num_rt : ring_theory n0 n1 nadd nmul nsub nopp eq
}.

Declare Scope num_scope.
Delimit Scope num_scope with num.
Infix "+" := nadd : num_scope.
Infix "*" := nmul : num_scope.
Infix "-" := nsub : num_scope.
Notation "- x" := (nopp x) : num_scope.
Notation "0" := n0 : num_scope.
Notation "1" := n1 : num_scope.

#[export] Instance num_Z : Num Z := {|
  n0 := 0%Z; n1 := 1%Z; nadd := Z.add; nmul := Z.mul; nsub := Z.sub;
  nopp := Z.opp; num_rt := InitialRing.Zth |}.
