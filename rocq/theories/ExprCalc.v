(** Expressions along curves of variables: chain rule, linearity in the
    direction, symmetry of second derivatives, and substitution. *)
From Coq Require Import String List Bool Arith Reals Lra.
From Coquelicot Require Import Coquelicot.
From Verif Require Import Expr.
Import ListNotations.
Local Open Scope R_scope.

Section Curve.
Variables (v : R -> env) (t : R) (D : env).
Hypothesis H : forall w i, is_derive (fun s => v s w i) t (D w i).

Lemma eval_curve e : dom (v t) e -> is_derive (fun s => eval (v s) e) t (eval (v t) (ddir D e)).
Proof.
  induction e; cbn [eval dom ddir]; intros Hd.
  - apply (is_derive_const (V := R_NormedModule)).
  - apply H.
  - destruct Hd. apply (is_derive_plus (V := R_NormedModule)); auto.
  - destruct Hd as [H1 H2]. specialize (IHe1 H1). specialize (IHe2 H2).
    exact (is_derive_mult (K := R_AbsRing) (fun s => eval (v s) e1) (fun s => eval (v s) e2) t _ _ IHe1 IHe2 Rmult_comm).
  - destruct Hd as [H1 H2]. specialize (IHe H1).
    evar_last; [apply (is_derive_comp (ueval u) (fun s => eval (v s) e)); [apply ueval_derive; eauto|exact IHe]|].
    apply Rmult_comm.
Qed.
Lemma dom_curve e : dom (v t) e -> locally t (fun s => dom (v s) e).
Proof.
  induction e; cbn [dom]; intros Hd.
  - apply filter_true.
  - apply filter_true.
  - destruct Hd. now apply filter_and; [apply IHe1|apply IHe2].
  - destruct Hd. now apply filter_and; [apply IHe1|apply IHe2].
  - destruct Hd as [H1 H2]. apply filter_and; [now apply IHe|].
    assert (C : continuous (fun s => eval (v s) e) t).
    { apply (ex_derive_continuous (V := R_NormedModule)). eexists. now apply eval_curve. }
    destruct u; cbn [udom] in *; try apply filter_true.
    + apply (C (fun x => 0 < x)). now apply open_gt.
    + apply (C (fun x => x <> 0)). now apply open_neq.
    + apply (C (fun x => 0 < x)). now apply open_gt.
Qed.
End Curve.

(** Linearity in the direction. *)
Lemma ddir_ext D E v e : (forall w i, D w i = E w i) -> eval v (ddir D e) = eval v (ddir E e).
Proof. intros H. induction e; cbn; congruence. Qed.
Lemma ddir_0 v e : eval v (ddir (fun _ _ => 0) e) = 0.
Proof. induction e; cbn; rewrite ?IHe, ?IHe1, ?IHe2; ring. Qed.
Lemma ddir_lin a D E v e : eval v (ddir (fun w i => a * D w i + E w i) e) = a * eval v (ddir D e) + eval v (ddir E e).
Proof. induction e; cbn; rewrite ?IHe, ?IHe1, ?IHe2; ring. Qed.

(** Second derivatives do not depend on the order. *)
Definition curv (u : unary) (v : env) (a : expr) : R :=
  match u with
  | Sin => - sin (eval v a)
  | Cos => - cos (eval v a)
  | Exp => exp (eval v a)
  | Ln => - (/ eval v a * / eval v a)
  | Inv => 2 * (/ eval v a * / eval v a * / eval v a)
  | Sqrt => - (1/2 * (1/2)) * (/ sqrt (eval v a) * / sqrt (eval v a) * / sqrt (eval v a))
  | Atan => - 2 * eval v a * (/ (1 + eval v a * eval v a) * / (1 + eval v a * eval v a))
  end.
Lemma udiff_chain u v a D : eval v (ddir D (udiff u a)) = curv u v a * eval v (ddir D a).
Proof. destruct u; cbn; ring. Qed.
Lemma ddir_sym D E v e : eval v (ddir D (ddir E e)) = eval v (ddir E (ddir D e)).
Proof. induction e; cbn [ddir eval]; rewrite ?udiff_chain, ?IHe, ?IHe1, ?IHe2; ring. Qed.

(** Substitution of expressions for variables. *)
Fixpoint subst (s : string -> nat -> expr) (e : expr) : expr :=
  match e with
  | Cst c => Cst c
  | Var w i => s w i
  | Add a b => Add (subst s a) (subst s b)
  | Mul a b => Mul (subst s a) (subst s b)
  | Un u a => Un u (subst s a)
  end.
Lemma eval_subst s v e : eval v (subst s e) = eval (fun w i => eval v (s w i)) e.
Proof. induction e; cbn; congruence. Qed.
Lemma dom_subst s v e : (forall w i, dom v (s w i)) -> dom (fun w i => eval v (s w i)) e -> dom v (subst s e).
Proof. intros Hs. induction e; cbn; rewrite ?eval_subst; auto; tauto. Qed.

(** Finite sums. *)
Definition esum (l : list expr) : expr := fold_right Add (Cst 0) l.
Lemma eval_esum v l : eval v (esum l) = fold_right Rplus 0 (map (eval v) l).
Proof. induction l; cbn; [reflexivity|]. unfold esum in IHl. now rewrite IHl. Qed.
Lemma dom_esum v l : List.Forall (dom v) l -> dom v (esum l).
Proof. induction 1; cbn; auto. Qed.

(** The variables an expression mentions. *)
Fixpoint mentions (w : string) (e : expr) : bool :=
  match e with
  | Cst _ => false
  | Var w' _ => String.eqb w w'
  | Add a b | Mul a b => mentions w a || mentions w b
  | Un _ a => mentions w a
  end.
Lemma eval_agree w0 v v' e : mentions w0 e = false -> (forall w i, w <> w0 -> v w i = v' w i) -> eval v e = eval v' e.
Proof.
  intros Hm H. induction e; cbn in *; try (apply orb_false_elim in Hm as [H1 H2]; rewrite IHe1, IHe2 by auto); auto.
  - apply H. intros ->. now rewrite String.eqb_refl in Hm.
  - now rewrite IHe.
Qed.
Lemma dom_agree w0 v v' e : mentions w0 e = false -> (forall w i, w <> w0 -> v w i = v' w i) -> dom v e -> dom v' e.
Proof.
  intros Hm H. induction e; cbn in *; try (apply orb_false_elim in Hm as [H1 H2]); try tauto.
  rewrite (eval_agree w0 v v') by auto. tauto.
Qed.
Lemma mentions_udiff w u a : mentions w a = false -> mentions w (udiff u a) = false.
Proof. intros H. destruct u; cbn; rewrite ?H; auto. Qed.
Lemma mentions_ddir w D e : mentions w e = false -> mentions w (ddir D e) = false.
Proof.
  induction e; cbn; auto; try (intros H; apply orb_false_elim in H as [H1 H2]; rewrite IHe1, IHe2, ?H1, ?H2; auto).
  intros H. now rewrite mentions_udiff, IHe.
Qed.
