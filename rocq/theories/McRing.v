(** The [ring] tactic of the standard library for mathcomp commutative rings.
    Proof automation only; nothing in /repo corresponds to this file. *)
From Coq Require Import Ring.
From mathcomp Require Import all_ssreflect all_algebra.
Import GRing.Theory.
Local Open Scope ring_scope.

Definition Cadd (A : comRingType) (x y : A) : A := x + y.
Definition Cmul (A : comRingType) (x y : A) : A := x * y.
Definition Copp (A : comRingType) (x : A) : A := - x.
Definition Csub (A : comRingType) (x y : A) : A := Cadd A x (Copp A y).
Definition C0 (A : comRingType) : A := 0.
Definition C1 (A : comRingType) : A := 1.

Definition Cnat (A : comRingType) (x : A) (n : nat) : A := x *+ n.

Lemma com_rt (A : comRingType) :
  @ring_theory (GRing.ComRing.sort A) (C0 A) (C1 A) (Cadd A) (Cmul A) (Csub A) (Copp A) eq.
Proof.
rewrite /C0 /C1 /Cadd /Cmul /Csub /Copp /Cadd; split => *; rewrite ?add0r ?addrA ?mul1r ?mulrA ?mulrDl ?subrr //.
  exact: addrC.
exact: mulrC.
Qed.

Lemma Cwrap (A : comRingType) (a b : A) : Cadd A (C0 A) a = Cadd A (C0 A) b -> a = b.
Proof. by rewrite /Cadd /C0 !add0r. Qed.

Ltac mc_norm A :=
  rewrite ?exprS ?expr0 ?mulr2n;
  repeat match goal with
  | |- context [@GRing.add ?X ?a ?b] => change (@GRing.add X a b) with (Cadd A a b)
  | |- context [@GRing.opp ?X ?a] => change (@GRing.opp X a) with (Copp A a)
  | |- context [@GRing.mul ?X ?a ?b] => change (@GRing.mul X a b) with (Cmul A a b)
  | |- context [@GRing.zero ?X] => change (@GRing.zero X) with (C0 A)
  | |- context [@GRing.natmul ?X ?a ?n] => change (@GRing.natmul X a n) with (Cnat A a n)
  | |- context [@GRing.one ?X] => change (@GRing.one X) with (C1 A)
  end;
  match goal with |- @eq _ ?a ?b => change (@eq (GRing.ComRing.sort A) a b); apply (@Cwrap A a b) end.

(** Identities between sums of matrices, entry by entry. *)
Lemma mxDE (A : ringType) m n (M N : 'M[A]_(m, n)) i j : (M + N) i j = M i j + N i j.
Proof. by rewrite mxE. Qed.
Lemma mxNE (A : ringType) m n (M : 'M[A]_(m, n)) i j : (- M) i j = - M i j.
Proof. by rewrite mxE. Qed.
Lemma mx0E (A : ringType) m n i j : (0 : 'M[A]_(m, n)) i j = 0.
Proof. by rewrite mxE. Qed.
Ltac mx_atoms :=
  repeat match goal with
  | |- context [fun_of_matrix ?M ?i ?j] =>
      let a := fresh "atom" in set a := (fun_of_matrix M i j); clearbody a
  end.
Ltac mx_norm A :=
  let i := fresh "i" in let j := fresh "j" in
  apply/matrixP => i j; rewrite ?(mxDE, mxNE, mx0E); mx_atoms; mc_norm A.
