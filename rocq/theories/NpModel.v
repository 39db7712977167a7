(** The part of NumPy's n-dimensional arrays that ceacoest/kalman relies on:
    shapes, broadcasting, [np.einsum] with ellipses and implicit output,
    axis permutations, slices, boolean and integer array indices, and the
    stacked versions of [np.linalg.inv] and [np.linalg.cholesky].

    An array is a shape and a function of the multi-index; only the values at
    indices inside the shape matter.  Exact arithmetic over a real closed
    field. *)
From Coq Require Import String Ascii.
From Verif Require Import Py.
From mathcomp Require Import all_ssreflect all_algebra.
From Verif Require Import KalModel.
Set Implicit Arguments.
Unset Strict Implicit.
Unset Printing Implicit Defensive.
Import Order.TTheory GRing.Theory Num.Theory.
Local Open Scope ring_scope.

(** * Indices *)

(** Multi-indices inside a shape, in row-major order. *)
Fixpoint indices (s : seq nat) : seq (seq nat) :=
  match s with
  | [::] => [:: [::]]
  | n :: s' => flatten [seq [seq i :: r | r <- indices s'] | i <- iota 0 n]
  end.

(** Two dimensions broadcast together: equal, or one of them is 1. *)
Definition bdim (m n : nat) : res nat :=
  if m == n then Ok m else if m == 1%N then Ok n else if n == 1%N then Ok m else Err ValueError.
(** Shapes are aligned at their last axes; a missing axis counts as 1. *)
Fixpoint bcast_rev (s t : seq nat) : res (seq nat) :=
  match s, t with
  | [::], _ => Ok t
  | _, [::] => Ok s
  | m :: s', n :: t' =>
      let* d := bdim m n in
      let* r := bcast_rev s' t' in
      Ok (d :: r)
  end.
Definition bcast (s t : seq nat) : res (seq nat) :=
  let* r := bcast_rev (rev s) (rev t) in Ok (rev r).
(** The index into an array of shape [s] that a broadcast index [idx] reads. *)
Definition bidx (s idx : seq nat) : seq nat :=
  [seq (if p.1 == 1%N then 0%N else p.2) | p <- zip s (drop (size idx - size s) idx)].

(** * Subscripts of [np.einsum] *)

(** Labels before the ellipsis, whether there is one, labels after it. *)
Record sub := Sub { s_pre : seq ascii; s_ell : bool; s_post : seq ascii }.

Definition is_dot (c : ascii) : bool := Ascii.eqb c ".".
Definition parse_sub (l : seq ascii) : sub :=
  let i := find is_dot l in
  if (i < size l)%N then Sub (take i l) true (drop (i + 3) l) else Sub l false [::].

Fixpoint split_commas (acc l : seq ascii) : seq (seq ascii) :=
  match l with
  | [::] => [:: acc]
  | c :: l' => if Ascii.eqb c "," then acc :: split_commas [::] l' else split_commas (rcons acc c) l'
  end.

(** Operands, and the output if there is an arrow. *)
Definition parse (s : string) : seq sub * option sub :=
  let l := list_ascii_of_string s in
  let i := find (Ascii.eqb "-") l in
  let ins := [seq parse_sub x | x <- split_commas [::] (take i l)] in
  (ins, if (i < size l)%N then Some (parse_sub (drop (i + 2) l)) else None).

Definition s_labels (x : sub) : seq ascii := s_pre x ++ s_post x.
Definition occurs (c : ascii) (l : seq ascii) : bool := has (Ascii.eqb c) l.

(** Sorted distinct labels: insertion into a sorted list. *)
Fixpoint insert (c : ascii) (l : seq ascii) : seq ascii :=
  match l with
  | [::] => [:: c]
  | d :: l' => if Ascii.eqb c d then l
               else if BinNat.N.ltb (N_of_ascii c) (N_of_ascii d) then c :: l else d :: insert c l'
  end.
Definition sorted_labels (l : seq ascii) : seq ascii := foldr insert [::] l.

(** Without an arrow the output has the ellipsis, if any operand has one,
    followed by the labels that occur exactly once, in alphabetical order. *)
Definition implicit_out (ins : seq sub) : sub :=
  let l := flatten [seq s_labels x | x <- ins] in
  Sub [::] (has s_ell ins) [seq c <- sorted_labels l | count (Ascii.eqb c) l == 1%N].

Section Arrays.
Variable F : rcfType.

Record nd := ND { shape : seq nat; get : seq nat -> F }.

(** * Element-wise operations *)

Definition map1 (f : F -> F) (A : nd) : nd := ND (shape A) (fun i => f (get A i)).
(** [np.add(A, B)] and the like. *)
Definition map2 (f : F -> F -> F) (A B : nd) : res nd :=
  let* s := bcast (shape A) (shape B) in
  Ok (ND s (fun i => f (get A (bidx (shape A) i)) (get B (bidx (shape B) i)))).
(** [A += B]: the result has to have the shape of [A]. *)
Definition imap2 (f : F -> F -> F) (A B : nd) : res nd :=
  let* C := map2 f A B in
  if shape C == shape A then Ok C else Err ValueError.
Definition nd_add := map2 +%R.
Definition nd_sub := map2 (fun x y => x - y).
Definition nd_div := map2 (fun x y => x / y).
Definition nd_iadd := imap2 +%R.
Definition nd_isub := imap2 (fun x y => x - y).
Definition nd_opp := map1 -%R.
Definition nd_scale (c : F) := map1 ( *%R c).
Definition scalar (c : F) : nd := ND [::] (fun=> c).
Definition zeros (s : seq nat) : nd := ND s (fun=> 0).
(** [A.sum(-1)]. *)
Definition sum_last (A : nd) : nd :=
  ND (take (size (shape A)).-1 (shape A)) (fun i => \sum_(k < last 0%N (shape A)) get A (rcons i k)).

(** * Axes *)

(** [np.swapaxes(A, -p, -q)]. *)
Definition swap_end (p q n k : nat) : nat :=
  if k == (n - p)%N then (n - q)%N else if k == (n - q)%N then (n - p)%N else k.
Definition swap_list (p q : nat) (s : seq nat) : seq nat :=
  [seq nth 0%N s (swap_end p q (size s) k) | k <- iota 0 (size s)].
Definition swapaxes (p q : nat) (A : nd) : nd :=
  ND (swap_list p q (shape A)) (fun i => get A (swap_list p q i)).

(** [np.rollaxis(A, -p)]: axis [-p] becomes the first one. *)
Definition rollaxis (p : nat) (A : nd) : nd :=
  let n := (size (shape A) - p)%N in
  ND (nth 0%N (shape A) n :: take n (shape A) ++ drop n.+1 (shape A))
     (fun i => get A (take n (behead i) ++ head 0%N i :: drop n (behead i))).

(** [A[..., None, :]] with [k] new axes before the last one. *)
Definition newaxes (k : nat) (A : nd) : nd :=
  let n := (size (shape A)).-1 in
  ND (take n (shape A) ++ nseq k 1%N ++ drop n (shape A)) (fun i => get A (take n i ++ drop (n + k) i)).

(** [A[lo:hi]] of the first axis. *)
Definition getslice (lo hi : nat) (A : nd) : nd :=
  let hi := minn hi (head 0%N (shape A)) in
  ND ((hi - lo)%N :: behead (shape A)) (fun i => get A ((lo + head 0%N i)%N :: behead i)).
(** [A[lo:hi] = B]: [B] is broadcast to the shape of the slice. *)
Definition setslice (lo hi : nat) (A B : nd) : res nd :=
  let hi := minn hi (head 0%N (shape A)) in
  let s := (hi - lo)%N :: behead (shape A) in
  let* t := bcast s (shape B) in
  if t == s then
    Ok (ND (shape A) (fun i =>
      let k := head 0%N i in
      if (lo <= k < hi)%N then get B (bidx (shape B) ((k - lo)%N :: behead i)) else get A i))
  else Err ValueError.

(** * Indexing with arrays *)

(** [m.nonzero()[0]] of a boolean array. *)
Definition nonzero (m : seq bool) : seq nat := [seq i <- iota 0 (size m) | nth false m i].

(** [A[..., m]] with a boolean array [m]. *)
Definition getmask (m : seq bool) (A : nd) : res nd :=
  let n := (size (shape A)).-1 in
  if (0 < size (shape A))%N && (last 0%N (shape A) == size m) then
    Ok (ND (rcons (take n (shape A)) (size (nonzero m)))
           (fun i => get A (rcons (take n i) (nth 0%N (nonzero m) (last 0%N i)))))
  else Err IndexError.
(** [np.ix_(m, m)] turns the boolean array into the list of the indices of its
    true elements, so an axis of length [d] is rejected only when one of these
    indices is out of range. *)
Definition ix_ok (m : seq bool) (d : nat) : bool := all (fun k => (k < d)%N) (nonzero m).
(** [A[(..., ) + np.ix_(m, m)]] indexes the last two axes. *)
Definition getmask2 (m : seq bool) (A : nd) : res nd :=
  let n := (size (shape A) - 2)%N in
  if (1 < size (shape A))%N && all (ix_ok m) (drop n (shape A)) then
    Ok (ND (take n (shape A) ++ [:: size (nonzero m); size (nonzero m)])
           (fun i => get A (take n i ++ [seq nth 0%N (nonzero m) k | k <- drop n i])))
  else Err IndexError.
(** [A[np.ix_(m, m)]] indexes the first two axes. *)
Definition getmask_ix (m : seq bool) (A : nd) : res nd :=
  if (1 < size (shape A))%N && all (ix_ok m) (take 2 (shape A)) then
    Ok (ND ([:: size (nonzero m); size (nonzero m)] ++ drop 2 (shape A))
           (fun i => get A ([seq nth 0%N (nonzero m) k | k <- take 2 i] ++ drop 2 i)))
  else Err IndexError.

(** [np.tril_indices(n)]. *)
Definition tril_indices (n : nat) : seq (nat * nat) :=
  flatten [seq [seq (i, j) | j <- iota 0 i.+1] | i <- iota 0 n].
Definition tl (t : seq (nat * nat)) (r : nat) : seq nat := [:: (nth (0, 0)%N t r).1; (nth (0, 0)%N t r).2].

(** [A[..., i, j]] with two lists of indices. *)
Definition getpairs (t : seq (nat * nat)) (A : nd) : nd :=
  let n := (size (shape A) - 2)%N in
  ND (rcons (take n (shape A)) (size t)) (fun i => get A (take n i ++ tl t (nth 0%N i n))).
(** [A[..., i, j, :, :]]. *)
Definition getpairs2 (t : seq (nat * nat)) (A : nd) : nd :=
  let n := (size (shape A) - 4)%N in
  ND (take n (shape A) ++ size t :: drop n.+2 (shape A))
     (fun i => get A (take n i ++ tl t (nth 0%N i n) ++ drop n.+1 i)).

(** Assignment to the elements of the last [d] axes listed in [T]; when an
    element is listed more than once, the last one counts.  An entry is the
    index of the element and, as a function of the index of the remaining
    axes, the value. *)
Definition put (d : nat) (T : seq (seq nat * (seq nat -> F))) (A : nd) : nd :=
  let n := (size (shape A) - d)%N in
  ND (shape A) (fun i =>
    match [seq x.2 | x <- T & x.1 == drop n i] with
    | [::] => get A i
    | v :: vs => last v vs (take n i)
    end).

(** [A[..., j, i] = B] with two lists of indices. *)
Definition setpairs (t : seq (nat * nat)) (B A : nd) : nd :=
  put 2 [seq (tl t r, fun e => get B (rcons e r)) | r <- iota 0 (size t)] A.

(** * [np.einsum] *)

(** An operand has an axis for each label; those left over are covered by
    the ellipsis. *)
Definition ell_rank (x : sub) (A : nd) : res nat :=
  let k := (size (s_pre x) + size (s_post x))%N in
  let n := size (shape A) in
  if s_ell x then (if (k <= n)%N then Ok (n - k)%N else Err ValueError)
  else (if k == n then Ok 0%N else Err ValueError).
Definition pre_dims (x : sub) (A : nd) := take (size (s_pre x)) (shape A).
Definition ell_dims (x : sub) (r : nat) (A : nd) := take r (drop (size (s_pre x)) (shape A)).
Definition post_dims (x : sub) (r : nat) (A : nd) := drop (size (s_pre x) + r) (shape A).

(** Size of each label; axes of size 1 are stretched. *)
Fixpoint dim_of (c : ascii) (l : seq (ascii * nat)) : res nat :=
  match l with
  | [::] => Ok 1%N
  | p :: l' => let* d := dim_of c l' in if Ascii.eqb c p.1 then bdim p.2 d else Ok d
  end.

(** Value of a label. *)
Fixpoint lookup (c : ascii) (env : seq (ascii * nat)) : nat :=
  match env with
  | [::] => 0%N
  | p :: env' => if Ascii.eqb c p.1 then p.2 else lookup c env'
  end.

(** Nested sums over labels. *)
Fixpoint sums (l : seq (ascii * nat)) (body : seq (ascii * nat) -> F) (env : seq (ascii * nat)) : F :=
  match l with
  | [::] => body env
  | p :: l' => \sum_(k < p.2) sums l' body ((p.1, nat_of_ord k) :: env)
  end.

(** The element of an operand selected by values of the labels and an index
    of the broadcast axes. *)
Definition label_index (ls : seq ascii) (ds : seq nat) (env : seq (ascii * nat)) : seq nat :=
  [seq (if p.2 == 1%N then 0%N else lookup p.1 env) | p <- zip ls ds].
Definition operand (env : seq (ascii * nat)) (e : seq nat) (p : sub * (nat * nd)) : F :=
  let x := p.1 in
  let r := p.2.1 in
  let A := p.2.2 in
  get A (label_index (s_pre x) (pre_dims x A) env ++ bidx (ell_dims x r A) e
         ++ label_index (s_post x) (post_dims x r A) env).
Definition product (env : seq (ascii * nat)) (e : seq nat) (ps : seq (sub * (nat * nd))) : F :=
  match ps with
  | [::] => 1
  | p :: ps' => foldl (fun a q => a * operand env e q) (operand env e p) ps'
  end.

Fixpoint mapM A B (f : A -> res B) (l : seq A) : res (seq B) :=
  match l with
  | [::] => Ok [::]
  | x :: l' => let* y := f x in let* r := mapM f l' in Ok (y :: r)
  end.

Definition einsum (s : string) (ops : seq nd) : res nd :=
  let ins := (parse s).1 in
  if size ins != size ops then Err ValueError else
  let* ranks := mapM (fun p => ell_rank p.1 p.2) (zip ins ops) in
  let ps := zip ins (zip ranks ops) in
  let* B := foldr (fun p acc => let* b := acc in bcast (ell_dims p.1 p.2.1 p.2.2) b) (Ok [::]) ps in
  let sizes := flatten [seq zip (s_labels p.1) (pre_dims p.1 p.2.2 ++ post_dims p.1 p.2.1 p.2.2) | p <- ps] in
  let out := match (parse s).2 with Some o => o | None => implicit_out ins end in
  if ~~ s_ell out && (B != [::]) then Err ValueError else
  let labels := sorted_labels (flatten [seq s_labels x | x <- ins]) in
  let* dims := mapM (fun c => let* d := dim_of c sizes in Ok (c, d)) labels in
  let dim c := lookup c dims in
  let summed := [seq p <- dims | ~~ occurs p.1 (s_labels out)] in
  let np := size (s_pre out) in
  let nb := size B in
  Ok (ND ([seq dim c | c <- s_pre out] ++ B ++ [seq dim c | c <- s_post out])
         (fun i =>
            let env := zip (s_labels out) (take np i ++ drop (np + nb) i) in
            let e := take nb (drop np i) in
            sums summed (fun env => product env e ps) env)).

(** * Stacked linear algebra *)

(** A value of a matrix at natural indices. *)
Definition at_nat m n (M : 'M[F]_(m, n)) (i j : nat) : F :=
  match insub i, insub j with
  | Some i', Some j' => M i' j'
  | _, _ => 0
  end.
(** The matrix in the last two axes. *)
Definition mx_at m n (A : nd) (e : seq nat) : 'M[F]_(m, n) := \matrix_(i, j) get A (e ++ [:: nat_of_ord i; nat_of_ord j]).

(** An operation on square matrices applied to every matrix in the last two
    axes; the first failure is raised. *)
Definition stacked (op : forall n, 'M[F]_n -> res 'M[F]_n) (A : nd) : res nd :=
  let k := (size (shape A) - 2)%N in
  match drop k (shape A) with
  | [:: m; n] =>
      if m == n then
        let* _ := mapM (fun e => op n (mx_at n n A e)) (indices (take k (shape A))) in
        Ok (ND (shape A) (fun i =>
          match op n (mx_at n n A (take k i)) with
          | Ok M => at_nat M (nth 0%N i k) (nth 0%N i k.+1)
          | Err _ => 0
          end))
      else Err LinAlgError
  | _ => Err LinAlgError
  end.
(** [np.linalg.inv] and [np.linalg.cholesky]. *)
Definition nd_inv : nd -> res nd := stacked (@inv F).
Definition nd_cholesky : nd -> res nd := stacked (@chol_lower F).
End Arrays.
