(** Model of the functions defined by modelling/symcol.py, symoc.py and
    symjme.py, as functions of the argument values; matrices are lists of rows
    over a real closed field (see RkModel). *)
From mathcomp Require Import all_ssreflect all_algebra.
From Verif Require Import Py RkModel.
Set Implicit Arguments.
Unset Strict Implicit.
Unset Printing Implicit Defensive.
Import Order.TTheory GRing.Theory Num.Theory.
Local Open Scope ring_scope.

Section SymCol.
Variable F : rcfType.

(** [xp[i]]: row i of a list of rows, and its element k. *)
Definition row (m : seq (seq F)) (i : nat) : seq F := nth [::] m i.
Definition elem (m : seq (seq F)) (i k : nat) : F := (row m i)`_k.

(** [A @ B], with [n] columns in A and [w] in B. *)
Definition matmul (n w : nat) (A B : seq (seq F)) : seq (seq F) :=
  [seq [seq \sum_(j < n) ra`_j * elem B j k | k <- iota 0 w] | ra <- A].
(** [v @ K] for vectors of n elements *)
Definition dot (n : nat) (v w : seq F) : F := \sum_(j < n) v`_j * w`_j.

(** symoc.py lines 39-46, [Model.IL]; [L] is the user's running cost. *)
Definition IL (L : seq F -> seq F -> seq F -> F) (c : collocation F)
    (xp up : seq (seq F)) (p : seq F) (piece_len : F) : F :=
  let ncol := c_n c in
  let Lp := [seq L (row xp i) (row up i) p | i <- iota 0 ncol] in
  dot ncol Lp (c_K c) * piece_len.

(** symjme.py lines 51-52 and 65-66: [wp = JT_range @ wc]; [JT_range] has one
    row per collocation point and [ninterv] columns (see [is_range_basis]). *)
Definition noise (c : collocation F) (nw : nat) (JT : seq (seq F)) (wc : seq (seq F)) : seq (seq F) :=
  matmul (c_ninterv c) nw JT wc.

(** symjme.py lines 46-55, [Model.e]: [fp + wp @ G.T], then
    [xp[1:] - xp[:-1] - J @ (...) * piece_len]. *)
Definition jme_e (f : seq F -> seq F -> seq F -> seq F) (nx nw : nat) (c : collocation F) (JT : seq (seq F))
    (xp up : seq (seq F)) (p : seq F) (piece_len : F) (wc G : seq (seq F)) : seq (seq F) :=
  let ncol := c_n c in
  let wp := noise c nw JT wc in
  let fp := [seq [seq (f (row xp i) (row up i) p)`_k + \sum_(j < nw) elem wp i j * elem G k j | k <- iota 0 nx]
             | i <- iota 0 ncol] in
  [seq [seq elem xp i.+1 k - elem xp i k - (\sum_(j < ncol) elem (c_J c) i j * elem fp j k) * piece_len | k <- iota 0 nx]
   | i <- iota 0 ncol.-1].

(** symjme.py lines 58-61, [Model.penalty]: [np.sum(-(e ** 2) @ penweight)] *)
Definition penalty (nx : nat) (e : seq (seq F)) (penweight : seq F) : F :=
  \sum_(r <- e) dot nx [seq - (x ^+ 2) | x <- r] penweight.

(** symjme.py line 71: [np.trace(A[-nw:, -nw:])].  [-nw:] starts at row
    [nx - nw], at row 0 when nw = 0 (then [-0:] is the whole array) or
    nw > nx. *)
Definition tail_start (nx nw : nat) : nat := if nw == 0%N then 0%N else (nx - nw)%N.
Definition drift_div (nx nw : nat) (A : seq (seq F)) : F := \sum_(tail_start nx nw <= i < nx) elem A i i.

(** symjme.py lines 63-78, [Model.tube_L]; [df_dx] is the symbolic derivative
    registered at line 33. *)
Definition tube_L (use_om : bool) (df_dx : seq F -> seq F -> seq F -> seq (seq F)) (nx nw : nat) (c : collocation F)
    (JT : seq (seq F)) (xp up : seq (seq F)) (p : seq F) (piece_len : F) (wc : seq (seq F)) : F :=
  let ncol := c_n c in
  let wp := noise c nw JT wc in
  let div i := if use_om then drift_div nx nw (df_dx (row xp i) (row up i) p) else 0 in
  let v := [seq div i + \sum_(j < nw) elem wp i j ^+ 2 | i <- iota 0 ncol] in
  dot ncol [seq - 2%:R^-1 * x | x <- v] (c_K c) * piece_len.

(** What [scipy.linalg.orth(J.T)] (rk.py line 86) returns for a J of full
    row rank: n rows and n - 1 orthonormal columns spanning the rows of J. *)
Definition is_range_basis (n : nat) (J JT : seq (seq F)) : Prop :=
  [/\ size JT = n,
      forall a b, (a < n.-1)%N -> (b < n.-1)%N -> \sum_(j < n) elem JT j a * elem JT j b = (a == b)%:R,
      exists B : seq (seq F), forall i j, (i < n.-1)%N -> (j < n)%N -> elem J i j = \sum_(a < n.-1) elem B i a * elem JT j a &
      exists A : seq (seq F), forall j a, (j < n)%N -> (a < n.-1)%N -> elem JT j a = \sum_(i < n.-1) elem J i j * elem A i a].
End SymCol.
