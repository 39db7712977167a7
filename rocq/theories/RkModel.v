(** Model of ceacoest/rk.py (Legendre-Gauss-Lobatto collocation) over an
    arbitrary real closed field; numpy's floating point polynomials, roots and
    integrals are replaced by exact ones. *)
From mathcomp Require Import all_ssreflect all_algebra.
From mathcomp Require Import polyrcf.
From Verif Require Import Py.
Set Implicit Arguments.
Unset Strict Implicit.
Unset Printing Implicit Defensive.
Import Order.TTheory GRing.Theory Num.Theory.
Local Open Scope ring_scope.

Section Rk.
Variable F : rcfType.

(** Legendre polynomials: [numpy.polynomial.Legendre([0]*k + [1])], by the
    three-term recurrence numpy's [legval] uses.  The pair is (P_k, P_{k+1}). *)
Fixpoint leg_pair (k : nat) : {poly F} * {poly F} :=
  if k is k'.+1 then
    let: (a, b) := leg_pair k' in
    (b, (k'.+2%:R)^-1 *: (k'.*2.+3%:R *: ('X * b) - k'.+1%:R *: a))
  else (1, 'X).
Definition legendre k := (leg_pair k).1.

(** The same series with [domain=[0, 1]] (window [-1, 1]): the argument is
    mapped by x -> 2 x - 1 before evaluation. *)
Definition slegendre k := legendre k \Po (2%:R *: 'X - 1).

(** rk.py lines 13-35, [lgl_points]: ValueError below order 2, otherwise
    [np.r_[0.0, ln.deriv().roots(), 1.0]].  [roots()] is modelled as the
    increasing sequence of all real roots. *)
Definition lgl_points (n : nat) : res (seq F) :=
  if (n < 2)%N then Err ValueError
  else Ok (0 :: rootsR (slegendre n.-1)^`() ++ [:: 1]).

(** rk.py lines 38-45, [lagrange_basis]; [Polynomial.fromroots(roots)] is the
    monic product of the linear factors. *)
Definition others (points : seq F) (i : nat) : seq F := take i points ++ drop i.+1 points.
Definition fromroots (rs : seq F) : {poly F} := \prod_(r <- rs) ('X - r%:P).
Definition lagrange (points : seq F) (i : nat) : {poly F} :=
  (\prod_(r <- others points i) (points`_i - r))^-1 *: fromroots (others points i).
Definition lagrange_basis (points : seq F) : seq {poly F} := [seq lagrange points i | i <- iota 0 (size points)].

(** [Polynomial.integ(m=1, lbnd=a)]: coefficientwise primitive with the
    constant chosen to vanish at [a]. *)
Definition primitive (p : {poly F}) : {poly F} := \poly_(i < (size p).+1) (p`_i.-1 / i%:R).
Definition integ (p : {poly F}) (a : F) : {poly F} := primitive p - (primitive p).[a]%:P.
(** rk.py lines 48-55, [pdinteg], for one polynomial and a pair of limits. *)
Definition pdinteg (p : {poly F}) (a b : F) : F := (integ p a).[b].

(** rk.py lines 58-90, [LGLCollocation.__init__]: [J] (one row per interval)
    and [K] (column sums). *)
Definition interv_integ (points : seq F) (n : nat) : seq (seq F) :=
  [seq [seq pdinteg l points`_i points`_i.+1 | l <- lagrange_basis points] | i <- iota 0 n.-1].
Record collocation := Collocation {
  c_n : nat; c_points : seq F; c_ninterv : nat; c_J : seq (seq F); c_K : seq F }.
Definition make_collocation (n : nat) (points : seq F) : collocation :=
  let J := interv_integ points n in
  Collocation n points n.-1 J [seq \sum_(row <- J) row`_j | j <- iota 0 n].
Definition LGLCollocation (n : nat) : res collocation :=
  match lgl_points n with Ok points => Ok (make_collocation n points) | Err e => Err e end.

(** rk.py lines 92-98, [LGLCollocation.grid]: an empty coarse grid fails on
    [t_piece[[0, -1]]]. *)
Definition diff (t : seq F) : seq F := [seq t`_i.+1 - t`_i | i <- iota 0 (size t).-1].
Definition grid (points : seq F) (t : seq F) : res (seq F) :=
  if t is [::] then Err IndexError
  else
    let piece_len := diff t in
    let increments := [seq [seq l * p | p <- take (size points).-1 points] | l <- piece_len] in
    Ok (rcons (flatten [seq [seq tds.1 + d | d <- tds.2] | tds <- zip (take (size t).-1 t) increments]) (last 0 t)).

(** modelling/symcol.py lines 74-81, [Model.e]: [xp] and [up] have one row per
    collocation point, [f] is the model's right-hand side with [nx] components;
    [defects = xp[1:] - xp[:-1] - J @ fp * piece_len]. *)
Definition defects (f : seq F -> seq F -> seq F -> seq F) (nx : nat) (c : collocation)
    (xp up : seq (seq F)) (p : seq F) (piece_len : F) : seq (seq F) :=
  let ncol := c_n c in
  let fp := [seq f (nth [::] xp i) (nth [::] up i) p | i <- iota 0 ncol] in
  [seq [seq (nth [::] xp i.+1)`_k - (nth [::] xp i)`_k
            - (\sum_(j < ncol) (nth [::] (c_J c) i)`_j * (nth [::] fp j)`_k) * piece_len | k <- iota 0 nx]
   | i <- iota 0 ncol.-1].
End Rk.
