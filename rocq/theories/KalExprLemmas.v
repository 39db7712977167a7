(** Filter models written as expressions are differentiable where the
    expressions are, with the derivatives of the model. *)
From Coq Require Import String Reals.
From Coquelicot Require Import Coquelicot.
From Verif Require Import Py Expr ExprCalc.
From mathcomp Require Import all_ssreflect all_algebra.
From Verif Require Import RealField MxCalc KalModel KalDiffModel UtDiffLemmas FiltDiffLemmas PropsPemDiff SdeModel KalExpr.
Set Implicit Arguments.
Unset Strict Implicit.
Unset Printing Implicit Defensive.
Import Order.TTheory GRing.Theory Num.Theory.
Local Open Scope ring_scope.
Local Open Scope string_scope.
Local Notation R := Rdefinitions.R.

Lemma elem_ord n (x : 'rV[RF]_n) (j : 'I_n) : elem x j = x 0 j.
Proof. by rewrite /elem valK. Qed.
Lemma elem_deriv n (x : R -> 'rV[RF]_n) t x' i : mderiv x t x' -> sderiv (fun s => elem (x s) i) t (elem x' i).
Proof. by move=> H; rewrite /elem; case: insubP => [j _ _|_]; [exact: H | exact: sderiv_const]. Qed.
Lemma elem_sum n (x : 'rV[RF]_n) w i : elem x i = \sum_j x 0 j * unit_dir w j w i.
Proof.
rewrite /unit_dir String.eqb_refl /elem; case: insubP => [j _ E|H].
  rewrite (bigD1 j) //= E PeanoNat.Nat.eqb_refl mulr1 big1 ?addr0 // => j' nj.
  case: PeanoNat.Nat.eqb_spec => [E'|_]; last by rewrite mulr0.
  by rewrite -(inj_eq val_inj) /= E E' eqxx in nj.
rewrite big1 // => j _; case: PeanoNat.Nat.eqb_spec => [E|_]; last by rewrite mulr0.
by rewrite -E ltn_ord in H.
Qed.

Lemma ddir_big (I : Type) (l : seq I) (a : I -> RF) (D : I -> env) v e :
  eval v (ddir (fun w i => (\sum_(j <- l) a j * D j w i : RF)) e) = \sum_(j <- l) a j * eval v (ddir (D j) e).
Proof.
elim: l => [|j l IH]; first by rewrite big_nil; apply: etrans (ddir_0 v e); apply: ddir_ext => w i; rewrite big_nil.
rewrite big_cons -IH; apply: etrans (ddir_lin (a j) (D j) _ v e); apply: ddir_ext => w i; by rewrite big_cons.
Qed.

Section Vars.
Variables nx nq : nat.
Variable c : env.
Notation kenv := (@kenv nx nq c).
Notation penv := (@penv nq c).

Definition kdir (q' : 'rV[RF]_nq) (x' : 'rV[RF]_nx) : env := fun w i =>
  if String.eqb w "x" then elem x' i else if String.eqb w "q" then elem q' i else 0.
Definition pdir (q' : 'rV[RF]_nq) : env := fun w i => if String.eqb w "q" then elem q' i else 0.

Lemma kenv_deriv k q q' x x' t w i : mderiv q t q' -> mderiv x t x' -> sderiv (fun s => kenv (q s) k (x s) w i) t (kdir q' x' w i).
Proof.
move=> Hq Hx; rewrite /kenv /kdir; case: (String.eqb w "x"); first exact: elem_deriv.
case: (String.eqb w "q"); first exact: elem_deriv.
by case: (String.eqb w "k"); exact: sderiv_const.
Qed.
Lemma penv_deriv q q' t w i : mderiv q t q' -> sderiv (fun s => penv (q s) w i) t (pdir q' w i).
Proof.
move=> Hq; rewrite /penv /pdir; case: (String.eqb w "q"); first exact: elem_deriv.
exact: sderiv_const.
Qed.

Lemma ddir_k q' x' v e : eval v (ddir (kdir q' x') e)
  = \sum_a q' 0 a * eval v (dq a e) + \sum_(i < nx) x' 0 i * eval v (dx i e).
Proof.
rewrite -[X in X + _]ddir_big -[X in _ + X]ddir_big -[X in X + _]mul1r; apply: etrans (ddir_lin _ _ _ v e).
apply: ddir_ext => w i; rewrite -[RHS]/(1 * _ + _ : RF) mul1r /kdir.
case: String.eqb_spec => [->|nx'].
  rewrite -elem_sum [X in X + _]big1 ?[RHS]add0r // => a _; by rewrite [X in _ * X]/= mulr0.
case: String.eqb_spec => [->|nq'].
  rewrite -elem_sum [X in _ + X]big1 ?[RHS]addr0 // => a _; by rewrite [X in _ * X]/= mulr0.
have z (v' : string) j : v' <> w -> unit_dir v' j w i = 0 by rewrite /unit_dir; case: String.eqb_spec.
rewrite !big1 ?[RHS]addr0 // => j _; rewrite z ?mulr0 //; exact: nesym.
Qed.
Lemma ddir_p q' v e : eval v (ddir (pdir q') e) = \sum_a q' 0 a * eval v (dq a e).
Proof.
rewrite -ddir_big; apply: ddir_ext => w i; rewrite /pdir.
case: String.eqb_spec => [->|nq']; first by rewrite -elem_sum.
rewrite big1 // => j _; rewrite /unit_dir; case: String.eqb_spec => [E|_]; last by rewrite mulr0.
by case: nq'.
Qed.

Lemma eval_kderiv k q q' x x' t e : dom (kenv (q t) k (x t)) e -> mderiv q t q' -> mderiv x t x' ->
  sderiv (fun r => eval (kenv (q r) k (x r)) e) t
    (\sum_a q' 0 a * eval (kenv (q t) k (x t)) (dq a e) + \sum_i x' 0 i * eval (kenv (q t) k (x t)) (dx i e)).
Proof.
move=> De Hq Hx; rewrite -ddir_k; apply: (@eval_curve (fun r => kenv (q r) k (x r))) => // w i; exact: kenv_deriv.
Qed.
Lemma eval_pderiv q q' t e : dom (penv (q t)) e -> mderiv q t q' ->
  sderiv (fun r => eval (penv (q r)) e) t (\sum_a q' 0 a * eval (penv (q t)) (dq a e)).
Proof.
move=> De Hq; rewrite -ddir_p; apply: (@eval_curve (fun r => penv (q r))) => // w i; exact: penv_deriv.
Qed.

(** A matrix of expressions. *)
Lemma fdiff_expr m p k (S : 'rV[RF]_nq -> 'rV[RF]_nx -> Prop) (E : 'I_m -> 'I_p -> expr)
    (F : _ -> _ -> 'M[RF]_(m, p)) (Fq : _ -> _ -> 'I_nq -> 'M[RF]_(m, p)) (Fx : _ -> _ -> 'I_nx -> 'M[RF]_(m, p)) :
  (forall q x, S q x -> forall i j, dom (kenv q k x) (E i j)) ->
  (forall q x i j, F q x i j = eval (kenv q k x) (E i j)) ->
  (forall q x a i j, Fq q x a i j = eval (kenv q k x) (dq a (E i j))) ->
  (forall q x l i j, Fx q x l i j = eval (kenv q k x) (dx l (E i j))) -> fdiff S F Fq Fx.
Proof.
move=> HS HF Hq Hx t q q' x x' Sx Dq Dx i j.
apply: (sderiv_ext (f := fun r => eval (kenv (q r) k (x r)) (E i j))) => [r|]; first by rewrite HF.
apply: sderiv_eq (eval_kderiv (HS _ _ Sx i j) Dq Dx) _; rewrite mxE !summxE.
by congr (_ + _); apply: eq_bigr => l _; rewrite mxE ?Hq ?Hx.
Qed.
Lemma pdiff_expr m p (U : 'rV[RF]_nq -> Prop) (E : 'I_m -> 'I_p -> expr)
    (F : _ -> 'M[RF]_(m, p)) (Fq : _ -> 'I_nq -> 'M[RF]_(m, p)) :
  (forall q, U q -> forall i j, dom (penv q) (E i j)) ->
  (forall q i j, F q i j = eval (penv q) (E i j)) ->
  (forall q a i j, Fq q a i j = eval (penv q) (dq a (E i j))) -> pdiff U F Fq.
Proof.
move=> HU HF Hq t q q' Uq Dq i j.
apply: (sderiv_ext (f := fun r => eval (penv (q r)) (E i j))) => [r|]; first by rewrite HF.
apply: sderiv_eq (eval_pderiv (HU _ Uq i j) Dq) _; rewrite summxE.
by apply: eq_bigr => l _; rewrite mxE Hq.
Qed.

(** The domains are open. *)
Lemma fopen_dom (I : finType) k (E : I -> expr) : fopen (fun q x => forall i, dom (kenv q k x) (E i)).
Proof.
move=> t q q' x x' Dq Dx H; apply: near_fin => i.
apply: (@dom_curve (fun r => kenv (q r) k (x r)) t (kdir q' x')) => [w j|]; [exact: kenv_deriv | exact: H].
Qed.
Lemma popen_dom (I : finType) (E : I -> expr) : popen (fun q => forall i, dom (penv q) (E i)).
Proof.
move=> t q q' Dq H; apply: near_fin => i.
apply: (@dom_curve (fun r => penv (q r)) t (pdir q')) => [w j|]; [exact: penv_deriv | exact: H].
Qed.
End Vars.

(** * The models *)

Definition esym n (E : 'I_n -> 'I_n -> expr) : Prop := forall v i j, eval v (E i j) = eval v (E j i).

Section Models.
Variables nx ny nq : nat.
Variables (m : kexpr nx ny) (c : env).
Notation kenv := (@kenv nx nq c).
Notation penv := (@penv nq c).

(** Where the expressions of the model are smooth. *)
Definition kregions (q : 'rV[RF]_nq) : regions nx :=
  Regions (fun k x => forall j, dom (kenv q k x) (ke_f m j)) (fun k x => forall i j, dom (kenv q k x) (ke_Q m i j))
    (fun k x => forall j, dom (kenv q k x) (ke_h m j)).
Definition kparams (q : 'rV[RF]_nq) : Prop :=
  [/\ forall i j, dom (penv q) (ke_R m i j), forall j, dom (penv q) (ke_x0 m j) & forall i j, dom (penv q) (ke_P0 m i j)].

Hypotheses (SQ : esym (ke_Q m)) (SR : esym (ke_R m)) (SP : esym (ke_P0 m)).

Lemma kmodel_diff : diff_model (kmodel m c) kregions kparams.
Proof.
split=> [k|k|k||q k x|q].
- by apply: (fdiff_expr (k := k) (E := fun _ j => ke_f m j)) => [q x H i j|q x i j|q x a i j|q x l i j]; rewrite ?mxE //; exact: H.
- by apply: (fdiff_expr (k := k) (E := fun i j => ke_Q m i j)) => [q x H i j|q x i j|q x a i j|q x l i j]; rewrite ?mxE //; exact: H.
- by apply: (fdiff_expr (k := k) (E := fun _ j => ke_h m j)) => [q x H i j|q x i j|q x a i j|q x l i j]; rewrite ?mxE //; exact: H.
- by apply: (pdiff_expr (E := fun i j => ke_R m i j)) => [q [H _ _] i j|q i j|q a i j]; rewrite ?mxE //; exact: H.
- by apply/matrixP => i j; rewrite !mxE SQ.
- by apply/matrixP => i j; rewrite !mxE SR.
Qed.

Lemma kmodel_diff2 : diff_model2 (kmodel m c) kregions kparams.
Proof.
split=> [k b|k b|k b|k b|k b|k b|b|q k x i j _|q k x i j _].
- apply: (fdiff_expr (k := k) (E := fun _ j => dq b (ke_f m j))) => [q x H i j|q x i j|q x a i j|q x l i j]; rewrite ?mxE //; first exact: dom_ddir.
  exact: ddir_sym.
- by apply: (fdiff_expr (k := k) (E := fun _ j => dx b (ke_f m j))) => [q x H i j|q x i j|q x a i j|q x l i j]; rewrite ?mxE //; exact: dom_ddir.
- apply: (fdiff_expr (k := k) (E := fun i j => dq b (ke_Q m i j))) => [q x H i j|q x i j|q x a i j|q x l i j]; rewrite ?mxE //; first exact: dom_ddir.
  exact: ddir_sym.
- by apply: (fdiff_expr (k := k) (E := fun i j => dx b (ke_Q m i j))) => [q x H i j|q x i j|q x a i j|q x l i j]; rewrite ?mxE //; exact: dom_ddir.
- apply: (fdiff_expr (k := k) (E := fun _ j => dq b (ke_h m j))) => [q x H i j|q x i j|q x a i j|q x l i j]; rewrite ?mxE //; first exact: dom_ddir.
  exact: ddir_sym.
- by apply: (fdiff_expr (k := k) (E := fun _ j => dx b (ke_h m j))) => [q x H i j|q x i j|q x a i j|q x l i j]; rewrite ?mxE //; exact: dom_ddir.
- by apply: (pdiff_expr (E := fun i j => dq b (ke_R m i j))) => [q [H _ _] i j|q i j|q a i j]; rewrite ?mxE //; exact: dom_ddir.
- by apply/matrixP => u v; rewrite !mxE; exact: ddir_sym.
- by apply/matrixP => u v; rewrite !mxE; exact: ddir_sym.
Qed.

Lemma kmodel_open : open_model kregions kparams.
Proof.
have two (I J : finType) (E : I -> J -> expr) k : fopen (fun q x => forall i j, dom (kenv q k x) (E i j)).
  move=> t q q' x x' Dq Dx H; apply: near_fin => i; exact: (@fopen_dom _ _ _ _ k (E i)) Dq Dx (H i).
have twop (I J : finType) (E : I -> J -> expr) : popen (fun q => forall i j, dom (penv q) (E i j)).
  move=> t q q' Dq H; apply: near_fin => i; exact: (@popen_dom _ _ _ (E i)) Dq (H i).
split=> [k|k|k|].
- exact: fopen_dom.
- exact: two.
- exact: fopen_dom.
move=> t q q' Dq [HR Hx HP].
apply: near_mp (near_and (twop _ _ _ _ _ _ Dq HR) (near_and (popen_dom Dq Hx) (twop _ _ _ _ _ _ Dq HP))) _ => r [? []].
by split.
Qed.

Lemma kstart_diff : diff_start kparams (kstart nq m c).
Proof.
split=> [||t q q' _ Dq|q].
- by apply: (pdiff_expr (E := fun _ j => ke_x0 m j)) => [q [_ H _] i j|q i j|q a i j]; rewrite ?mxE //; exact: H.
- by apply: (pdiff_expr (E := fun i j => ke_P0 m i j)) => [q [_ _ H] i j|q i j|q a i j]; rewrite ?mxE //; exact: H.
- rewrite /=; apply: mderiv_eq; [exact: mderiv_const | rewrite big1 // => a _; rewrite raddf0 scaler0 //].
- by apply/matrixP => i j; rewrite !mxE SP.
Qed.
Lemma kstart_diff2 : diff_start2 kparams (kstart nq m c).
Proof.
split=> [b|b|b t q q' _ Dq].
- by apply: (pdiff_expr (E := fun _ j => dq b (ke_x0 m j))) => [q [_ H _] i j|q i j|q a i j]; rewrite ?mxE //; exact: dom_ddir.
- by apply: (pdiff_expr (E := fun i j => dq b (ke_P0 m i j))) => [q [_ _ H] i j|q i j|q a i j]; rewrite ?mxE //; exact: dom_ddir.
- rewrite /=; apply: mderiv_eq; [exact: mderiv_const | rewrite big1 // => a _; rewrite raddf0 scaler0 //].
Qed.
End Models.
