(** A language of scalar expressions with symbolic differentiation, standing
    for the SymPy expressions a model is written in. *)
From Coq Require Import String List ZArith Bool Arith Lia Reals Lra.
From Coquelicot Require Import Coquelicot.
Import ListNotations.
Local Open Scope R_scope.

Inductive unary := Sin | Cos | Exp | Ln | Inv | Sqrt | Atan.
Inductive expr :=
  | Cst (c : R)
  | Var (w : string) (i : nat)      (* element [i] (raveled) of variable [w] *)
  | Add (a b : expr)
  | Mul (a b : expr)
  | Un (u : unary) (a : expr).

Definition env := string -> nat -> R.

Definition ueval (u : unary) (x : R) : R :=
  match u with Sin => sin x | Cos => cos x | Exp => exp x | Ln => ln x | Inv => / x | Sqrt => sqrt x | Atan => atan x end.
(** Where a function is smooth. *)
Definition udom (u : unary) (x : R) : Prop :=
  match u with Ln | Sqrt => 0 < x | Inv => x <> 0 | _ => True end.

Fixpoint eval (v : env) (e : expr) : R :=
  match e with
  | Cst c => c
  | Var w i => v w i
  | Add a b => eval v a + eval v b
  | Mul a b => eval v a * eval v b
  | Un u a => ueval u (eval v a)
  end.
Fixpoint dom (v : env) (e : expr) : Prop :=
  match e with
  | Cst _ | Var _ _ => True
  | Add a b | Mul a b => dom v a /\ dom v b
  | Un u a => dom v a /\ udom u (eval v a)
  end.

(** The derivative of a function, as an expression of its argument. *)
Definition udiff (u : unary) (a : expr) : expr :=
  match u with
  | Sin => Un Cos a
  | Cos => Mul (Cst (-1)) (Un Sin a)
  | Exp => Un Exp a
  | Ln => Un Inv a
  | Inv => Mul (Cst (-1)) (Mul (Un Inv a) (Un Inv a))
  | Sqrt => Mul (Cst (1/2)) (Un Inv (Un Sqrt a))
  | Atan => Un Inv (Add (Cst 1) (Mul a a))
  end.
(** Derivative along the direction [D]: of variable [w] element [i] it is
    [D w i]. *)
Fixpoint ddir (D : env) (e : expr) : expr :=
  match e with
  | Cst _ => Cst 0
  | Var w i => Cst (D w i)
  | Add a b => Add (ddir D a) (ddir D b)
  | Mul a b => Add (Mul (ddir D a) b) (Mul a (ddir D b))
  | Un u a => Mul (udiff u a) (ddir D a)
  end.
Definition unit_dir (w : string) (i : nat) : env := fun w' i' => if (String.eqb w w' && Nat.eqb i i')%bool then 1 else 0.
(** Partial derivative with respect to element [i] of variable [w]. *)
Definition dif (w : string) (i : nat) (e : expr) : expr := ddir (unit_dir w i) e.

(** Zero test on the form of the expression. *)
Fixpoint zerob (e : expr) : bool :=
  match e with
  | Cst c => if Req_EM_T c 0 then true else false
  | Var _ _ => false
  | Add a b => zerob a && zerob b
  | Mul a b => zerob a || zerob b
  | Un _ _ => false
  end.
Lemma zerob_ok v e : zerob e = true -> eval v e = 0.
Proof.
  induction e; cbn; try discriminate.
  - destruct (Req_EM_T c 0); [auto|discriminate].
  - intros H. apply andb_prop in H as [H1 H2]. rewrite IHe1, IHe2 by auto. ring.
  - intros H. apply orb_prop in H as [H|H]; [rewrite IHe1 by auto|rewrite IHe2 by auto]; ring.
Qed.

Definition shift (v D : env) (t : R) : env := fun w i => v w i + t * D w i.

(** *** Differentiation is right *)
Lemma udom_diff u v a : dom v a -> udom u (eval v a) -> dom v (udiff u a).
Proof.
  destruct u; cbn; intros Ha Hu; repeat split; auto; try lra.
  - apply Rgt_not_eq. now apply sqrt_lt_R0.
  - pose proof (Rle_0_sqr (eval v a)) as H. unfold Rsqr in H. lra.
Qed.
Lemma dom_ddir D v e : dom v e -> dom v (ddir D e).
Proof.
  induction e; cbn; auto; try (intros [H1 H2]; auto).
  split; [now apply udom_diff|auto].
Qed.
Lemma ueval_derive u v a : dom v a -> udom u (eval v a) -> is_derive (ueval u) (eval v a) (eval v (udiff u a)).
Proof.
  intros Ha Hu. destruct u; cbn in *; try (auto_derive; auto; try ring; fail).
  - evar_last; [apply is_derive_inv with (f := fun x => x); [apply (is_derive_id (K := R_AbsRing))|exact Hu]|]. cbn. unfold one; cbn. field. exact Hu.
  - auto_derive; auto.
    field. apply Rgt_not_eq. now apply sqrt_lt_R0.
  - auto_derive; auto. field. pose proof (Rle_0_sqr (eval v a)) as H. unfold Rsqr in H. lra.
Qed.
Lemma shift_0 v D : forall w i, shift v D 0 w i = v w i.
Proof. intros. unfold shift. ring. Qed.
Lemma eval_ext v v' e : (forall w i, v w i = v' w i) -> eval v e = eval v' e.
Proof. intros H. induction e; cbn; congruence. Qed.
Lemma dom_ext v v' e : (forall w i, v w i = v' w i) -> dom v e -> dom v' e.
Proof. intros H. induction e; cbn; try tauto. rewrite (eval_ext v v') by auto. tauto. Qed.

Lemma eval_derive_at D v e t : dom (shift v D t) e ->
  is_derive (fun s => eval (shift v D s) e) t (eval (shift v D t) (ddir D e)).
Proof.
  induction e; cbn [eval dom ddir]; intros H.
  - apply (is_derive_const (V := R_NormedModule)).
  - unfold shift. auto_derive; auto. ring.
  - destruct H. apply (is_derive_plus (V := R_NormedModule)); auto.
  - destruct H. specialize (IHe1 H). specialize (IHe2 H0).
    exact (is_derive_mult (K := R_AbsRing) (fun s => eval (shift v D s) e1) (fun s => eval (shift v D s) e2) t _ _ IHe1 IHe2 Rmult_comm).
  - destruct H as [H1 H2]. specialize (IHe H1).
    evar_last; [apply (is_derive_comp (ueval u) (fun s => eval (shift v D s) e)); [apply ueval_derive; eauto|exact IHe]|].
    apply Rmult_comm.
Qed.
Lemma eval_derive D v e : dom v e -> is_derive (fun s => eval (shift v D s) e) 0 (eval v (ddir D e)).
Proof.
  intros H. rewrite (eval_ext v (shift v D 0)) by (intros; now rewrite shift_0). apply eval_derive_at.
  apply (dom_ext v); auto. intros. now rewrite shift_0.
Qed.

(** The domain is open along lines. *)
Lemma dom_locally D v e : dom v e -> locally 0 (fun t => dom (shift v D t) e).
Proof.
  induction e; cbn [dom]; intros H.
  - apply filter_true.
  - apply filter_true.
  - destruct H. now apply filter_and; [apply IHe1|apply IHe2].
  - destruct H. now apply filter_and; [apply IHe1|apply IHe2].
  - destruct H as [H1 H2]. apply filter_and; [now apply IHe|].
    assert (C : continuous (fun t => eval (shift v D t) e) 0).
    { apply (ex_derive_continuous (V := R_NormedModule)). eexists. now apply eval_derive. }
    assert (E0 : eval (shift v D 0) e = eval v e) by (apply eval_ext; intros; apply shift_0).
    destruct u; cbn [udom] in *; try apply filter_true.
    + apply (C (fun x => 0 < x)). rewrite E0. now apply open_gt.
    + apply (C (fun x => x <> 0)). rewrite E0. now apply open_neq.
    + apply (C (fun x => 0 < x)). rewrite E0. now apply open_gt.
Qed.
