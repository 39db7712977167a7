(** Specification vocabulary for the optimisation layer.  Nothing here is
    code of the repository. *)
From Coq Require Import String List ZArith Bool Arith Lia.
From Verif Require Import Py NdArray OptimModel NdLemmas.
Import ListNotations.

Section Spec.
  Context {T : Type} {NT : Num T}.
  Open Scope num_scope.

  (** [sp] is a well-behaved variable of a decision vector of length [n]: its
      i-th element (row-major) is the decision entry [sel i]; reading,
      index conversion and adjoint accumulation all agree on that. *)
  Record lawful (n : nat) (sp : spec T) (sel : nat -> nat) : Prop := {
    law_sel : forall i, (i < prodn (s_shape sp))%nat -> (sel i < n)%nat;
    law_unpack : forall vec, length vec = n ->
      s_unpack sp vec
      = Ok (Arr (s_shape sp) (map (fun i => nth (sel i) vec 0) (seq 0 (prodn (s_shape sp)))));
    law_convert : forall ind,
      Forall (fun i => (0 <= i < Z.of_nat (prodn (s_shape sp)))%Z) ind ->
      s_convert sp ind = Ok (map (fun i => Z.of_nat (sel (Z.to_nat i))) ind);
    law_add : forall dest v, length dest = n -> ash v = s_shape sp -> awf v ->
      exists dest', s_add_to sp dest v = Ok dest' /\ length dest' = n /\
        forall d, dotp dest' d
          = dotp dest d + sumn (prodn (s_shape sp)) (fun i => nth i (adat v) 0 * d (sel i))
  }.

  (** A component occupies [off, off + size) of a vector of length [n], and
      its size does not overflow a C int. *)
  Definition comp_fits (n : nat) (c : comp) (off : nat) : Prop :=
    c_off c = Z.of_nat off /\ (off + prodn (c_shape c) <= n)%nat /\
    (Z.of_nat (prodn (c_shape c)) < 2 ^ 31)%Z.
End Spec.

Section VariableSpec.
  Context {T : Type} {NT : Num T}.
  Open Scope num_scope.

  (** Inner product of two vectors. *)
  Definition inner (a b : list T) : T := lsum (map (fun xy => fst xy * snd xy) (combine a b)).

  (** Reading and index conversion agree (C05). *)
  Definition index_consistent (n : nat) (sp : spec T) : Prop :=
    forall vec, length vec = n ->
    exists a, s_unpack sp vec = Ok a /\ ash a = s_shape sp /\ awf a /\
    forall ind, Forall (fun i => (0 <= i < Z.of_nat (prodn (s_shape sp)))%Z) ind ->
    exists js, s_convert sp ind = Ok js /\ length js = length ind /\
    forall k, (k < length ind)%nat ->
      (0 <= nth k js 0 < Z.of_nat n)%Z /\
      nth (Z.to_nat (nth k ind 0%Z)) (adat a) 0 = nth (Z.to_nat (nth k js 0%Z)) vec 0.

  (** Accumulation is the adjoint of reading (C06). *)
  Definition adjoint (n : nat) (sp : spec T) : Prop :=
    forall dest v vec, length dest = n -> length vec = n -> ash v = s_shape sp -> awf v ->
    exists dest' a, s_add_to sp dest v = Ok dest' /\ length dest' = n /\
      s_unpack sp vec = Ok a /\
      inner dest' vec = inner dest vec + inner (adat v) (adat a).

  (** Accumulation adds to entry j exactly the values whose index converts to j (C06). *)
  Definition accumulates (n : nat) (sp : spec T) : Prop :=
    forall dest v, length dest = n -> ash v = s_shape sp -> awf v ->
    exists dest' js, s_add_to sp dest v = Ok dest' /\ length dest' = n /\
      s_convert sp (map Z.of_nat (seq 0 (prodn (s_shape sp)))) = Ok js /\
      length js = prodn (s_shape sp) /\
      forall j, (j < n)%nat ->
        nth j dest' 0 = nth j dest 0
          + lsum (map (fun iv => if (fst iv =? Z.of_nat j)%Z then snd iv else 0)
                      (combine js (adat v))).

  (** Row-major position of a multi-index. *)
  Fixpoint ravel (s : shape) (ix : list nat) : nat :=
    match s, ix with
    | _ :: s', i :: ix' => (i * prodn s' + ravel s' ix')%nat
    | _, _ => 0%nat
    end.

  (** NumPy's broadcasting rule: right-align the shapes; a source axis of
      length one is read at 0. *)
  Definition bcast_index (s : shape) (ix : list nat) : list nat :=
    map (fun di => if Nat.eqb (fst di) 1 then 0%nat else snd di)
        (combine s (skipn (length ix - length s) ix)).
End VariableSpec.
