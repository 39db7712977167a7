(** The part of NumPy's array semantics the optimisation code relies on.
    An array is a shape and its elements in row-major (C) order. *)
From Coq Require Import List ZArith Bool Arith Lia.
From Verif Require Import Py.
Import ListNotations.

Definition shape := list nat.

(** Number of elements; [np.prod(shape, dtype=int)].  64-bit wrap-around is
    not modelled (only the 32-bit one of [Component.size] is, see OptimModel). *)
Definition prodn (s : shape) : nat := fold_right Nat.mul 1 s.

Fixpoint shape_eqb (a b : shape) : bool :=
  match a, b with
  | [], [] => true
  | x :: a', y :: b' => Nat.eqb x y && shape_eqb a' b'
  | _, _ => false
  end.

Record arr (T : Type) := Arr { ash : shape; adat : list T }.
Arguments Arr {T} ash adat.
Arguments ash {T} a.
Arguments adat {T} a.

(** Every real ndarray satisfies this. *)
Definition awf {T} (a : arr T) : Prop := length (adat a) = prodn (ash a).

Section Arrays.
  Context {T : Type} {NT : Num T}.
  Open Scope num_scope.

  (** [np.sum(a)] *)
  Definition lsum (l : list T) : T := fold_right nadd 0 l.

  (** [a.reshape(s)] *)
  Definition reshape (a : list T) (s : shape) : res (arr T) :=
    if Nat.eqb (length a) (prodn s) then Ok (Arr s a) else Err ValueError.

  (** Python/NumPy slice end-point normalisation for a sequence of length n. *)
  Definition pynorm (n : nat) (x : Z) : nat :=
    Z.to_nat (if (x <? 0)%Z then Z.max 0 (x + Z.of_nat n) else Z.min x (Z.of_nat n)).

  (** [l[a:b]] *)
  Definition pyslice {X} (l : list X) (a b : Z) : list X :=
    let s := pynorm (length l) a in
    let e := pynorm (length l) b in
    firstn (e - s) (skipn s l).

  (** [l[a:b] = op(l[a:b], v)] for a 1-D array [v]: sizes must agree, or [v]
      must have one element, which is then repeated. *)
  Definition pyslice_upd (op : T -> T -> T) (l : list T) (a b : Z) (v : list T)
    : res (list T) :=
    let s := pynorm (length l) a in
    let e := pynorm (length l) b in
    let old := firstn (e - s) (skipn s l) in
    let put w := Ok (firstn s l
                     ++ map (fun ow => op (fst ow) (snd ow)) (combine old w)
                     ++ skipn (Nat.max s e) l) in
    if Nat.eqb (length v) (length old) then put v
    else match v with
         | [x] => put (repeat x (length old))
         | _ => Err ValueError
         end.

  (** [l[i]] with Python's negative indices. *)
  Definition pyindex {X} (l : list X) (i : Z) : res X :=
    let n := Z.of_nat (length l) in
    let j := if (i <? 0)%Z then (i + n)%Z else i in
    if (0 <=? j)%Z && (j <? n)%Z then
      match nth_error l (Z.to_nat j) with Some x => Ok x | None => Err IndexError end
    else Err IndexError.

  (** Broadcasting: source shape padded with leading ones. *)
  Definition bpad (s t : shape) : shape := repeat 1%nat (length t - length s) ++ s.

  Fixpoint bcompat (s t : shape) : bool :=
    match s, t with
    | [], [] => true
    | a :: s', b :: t' => (Nat.eqb a b || Nat.eqb a 1) && bcompat s' t'
    | _, _ => false
    end.

  (** Flat source position read by flat target position [i] (equal ranks). *)
  Fixpoint bpos (s t : shape) (i : nat) : nat :=
    match s, t with
    | a :: s', b :: t' =>
        (if Nat.eqb a 1 then 0 else i / prodn t') * prodn s' + bpos s' t' (i mod prodn t')
    | _, _ => 0
    end%nat.

  (** [np.broadcast_to(a, t)] *)
  Definition broadcast_to {X} (d : X) (a : arr X) (t : shape) : res (arr X) :=
    if (length (ash a) <=? length t)%nat && bcompat (bpad (ash a) t) t then
      Ok (Arr t (map (fun i => nth (bpos (bpad (ash a) t) t i) (adat a) d)
                     (seq 0 (prodn t))))
    else Err ValueError.

  (** Basic and integer-list indexing.  A view is the list of flat positions
      it selects, in row-major order; [sel] gives, per leading axis, the list
      of selected indices (remaining axes are taken whole). *)
  Fixpoint vpos (s : shape) (sel : list (list nat)) : list nat :=
    match s with
    | [] => [0%nat]
    | d :: s' =>
        let ix := match sel with [] => seq 0 d | x :: _ => x end in
        let inner := vpos s' (tl sel) in
        flat_map (fun i => map (fun p => (i * prodn s' + p)%nat) inner) ix
    end.

  (** [a[view]] *)
  Definition gather (l : list T) (pos : list nat) : list T :=
    map (fun p => nth p l 0) pos.

  (** Assign one element. *)
  Fixpoint upd (l : list T) (i : nat) (v : T) : list T :=
    match l, i with
    | [], _ => []
    | _ :: l', O => v :: l'
    | x :: l', S i' => x :: upd l' i' v
    end.

  (** [a[view] = vals] (same number of elements), element by element. *)
  Definition scatter (l : list T) (pos : list nat) (vals : list T) : list T :=
    fold_left (fun acc pv => upd acc (fst pv) (snd pv)) (combine pos vals) l.

  (** [a[view] += vals] for a view without repeated positions: buffered
      read-modify-write, as NumPy does it. *)
  Definition scatter_add (l : list T) (pos : list nat) (vals : list T) : list T :=
    scatter l pos (map (fun pv => nth (fst pv) l 0 + snd pv) (combine pos vals)).

  (** [a[view].flat = src]: NumPy repeats or truncates [src] as needed and
      does nothing for an empty [src]. *)
  Definition flat_set (l : list T) (pos : list nat) (src : list T) : list T :=
    match src with
    | [] => l
    | _ => scatter l pos
             (map (fun k => nth (k mod length src) src 0) (seq 0 (length pos)))
    end.
End Arrays.

(** Python-style index lists for one axis of length n. *)
Definition ix_all (n : nat) : list nat := seq 0 n.                (* [:]    *)
Definition ix_butlast (n : nat) : list nat := seq 0 (n - 1).      (* [:-1]  *)
Definition ix_from1 (n : nat) : list nat := seq 1 (n - 1).        (* [1:]   *)
Definition ix_last (n : nat) : list nat := [n - 1].               (* [-1]   *)
(** [start::step] for step > 0. *)
Definition ix_step (n start step : nat) : list nat :=
  map (fun k => start + k * step) (seq 0 ((n - start + step - 1) / step)).
