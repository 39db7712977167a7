(** Filter models written as expressions: the discretisations of symsde.py
    carried out on expressions, and the numeric model with the derivatives
    the filters use.

    Simplified: the variables of a model are the state ["x"], the parameters
    ["q"], the sample index ["k"], and constants of any other name (["dt"]
    among them); sym2num's code generation is taken to evaluate the
    expressions exactly, and its [add_derivative] to add, with the new axis
    first, the partial derivatives. *)
From Coq Require Import String Reals.
From Verif Require Import Py Expr ExprCalc.
From mathcomp Require Import all_ssreflect all_algebra.
From Verif Require Import RealField MxCalc KalModel KalDiffModel SdeModel PropsPemDiff.
Set Implicit Arguments.
Unset Strict Implicit.
Unset Printing Implicit Defensive.
Import Order.TTheory GRing.Theory Num.Theory.
Local Open Scope ring_scope.

Local Open Scope string_scope.
Local Notation R := Rdefinitions.R.

(** Element [i] of a vector; nothing is read outside. *)
Definition elem n (x : 'rV[RF]_n) (i : nat) : R := if insub i is Some j then x 0 j else 0.

(** * Discrete-time models *)

(** The functions [f, Q, h, R] of a model and the initial state [x0, Px0]
    (examples/duffing_old.py:60-68), as expressions. *)
Record kexpr nx ny := KExpr {
  ke_f : 'I_nx -> expr; ke_Q : 'I_nx -> 'I_nx -> expr;
  ke_h : 'I_ny -> expr; ke_R : 'I_ny -> 'I_ny -> expr;
  ke_x0 : 'I_nx -> expr; ke_P0 : 'I_nx -> 'I_nx -> expr }.

Section Discrete.
Variables nx ny nq : nat.
Variables (m : kexpr nx ny) (c : env).

(** The values of the variables; [c] holds the constants. *)
Definition kenv (q : 'rV[RF]_nq) (k : nat) (x : 'rV[RF]_nx) : env := fun w i =>
  if String.eqb w "x" then elem x i else if String.eqb w "q" then elem q i
  else if String.eqb w "k" then (k%:R : RF) else c w i.
Definition penv (q : 'rV[RF]_nq) : env := fun w i => if String.eqb w "q" then elem q i else c w i.

Definition dx (i : 'I_nx) (e : expr) : expr := dif "x" i e.
Definition dq (a : 'I_nq) (e : expr) : expr := dif "q" a e.

(** The generated class of examples/duffing_old.py:71-91: each derivative is
    listed there as (name, function, variable). *)
Definition kmodel (q : 'rV[RF]_nq) : dmodel RF nx ny nq :=
  DModel
    (Model (fun k x => \row_j eval (kenv q k x) (ke_f m j)) (fun k x => \matrix_(i, j) eval (kenv q k x) (dx i (ke_f m j)))
       (fun k x => \matrix_(i, j) eval (kenv q k x) (ke_Q m i j))
       (fun k x => \row_j eval (kenv q k x) (ke_h m j)) (fun k x => \matrix_(i, j) eval (kenv q k x) (dx i (ke_h m j)))
       (\matrix_(i, j) eval (penv q) (ke_R m i j)))
    (fun k x a => \row_j eval (kenv q k x) (dq a (ke_f m j)))
    (fun k x a => \matrix_(i, j) eval (kenv q k x) (dq a (ke_Q m i j)))
    (fun k x p => \matrix_(i, j) eval (kenv q k x) (dx p (ke_Q m i j)))
    (fun k x a => \row_j eval (kenv q k x) (dq a (ke_h m j)))
    (fun a => \matrix_(i, j) eval (penv q) (dq a (ke_R m i j)))
    (fun k x a b => \row_j eval (kenv q k x) (dq a (dq b (ke_f m j))))
    (fun k x p r => \row_j eval (kenv q k x) (dx p (dx r (ke_f m j))))
    (fun k x a p => \row_j eval (kenv q k x) (dq a (dx p (ke_f m j))))
    (fun k x a b => \matrix_(i, j) eval (kenv q k x) (dq a (dq b (ke_Q m i j))))
    (fun k x p r => \matrix_(i, j) eval (kenv q k x) (dx p (dx r (ke_Q m i j))))
    (fun k x a p => \matrix_(i, j) eval (kenv q k x) (dq a (dx p (ke_Q m i j))))
    (fun k x a b => \row_j eval (kenv q k x) (dq a (dq b (ke_h m j))))
    (fun k x p r => \row_j eval (kenv q k x) (dx p (dx r (ke_h m j))))
    (fun k x a p => \row_j eval (kenv q k x) (dq a (dx p (ke_h m j))))
    (fun a b => \matrix_(i, j) eval (penv q) (dq a (dq b (ke_R m i j)))).

(** base.py:18-74 [DTFilter.__init__] and [_get_initial] without options: the
    initial state is the model's, and the log-likelihood zero. *)
Definition kstart : start nx nq :=
  Start (fun q => \row_j eval (penv q) (ke_x0 m j)) (fun q => \matrix_(i, j) eval (penv q) (ke_P0 m i j)) (fun _ => 0)
    (fun q => DS (fun a => \row_j eval (penv q) (dq a (ke_x0 m j))) (fun a => \matrix_(i, j) eval (penv q) (dq a (ke_P0 m i j))))
    (fun _ _ => 0)
    (fun q => D2S (fun a b => \row_j eval (penv q) (dq a (dq b (ke_x0 m j)))) (fun a b => \matrix_(i, j) eval (penv q) (dq a (dq b (ke_P0 m i j)))))
    (fun _ _ _ => 0).
End Discrete.

(** * symsde.py *)

Section Sde.
Variables nx nw ny : nat.

(** A continuous-time model: [f, g, h] of ["t"] and ["x"], and [R], [x0],
    [Px0]. *)
Record cexpr := CExpr {
  ce_f : 'I_nx -> expr; ce_g : 'I_nx -> 'I_nw -> expr; ce_h : 'I_ny -> expr; ce_R : 'I_ny -> 'I_ny -> expr;
  ce_x0 : 'I_nx -> expr; ce_P0 : 'I_nx -> 'I_nx -> expr }.
Variable m : cexpr.

Definition edt : expr := Var "dt" 0.
Definition ek : expr := Var "k" 0.
Definition ex (i : 'I_nx) : expr := Var "x" i.
(** Calling a function of the continuous-time model with the time [t]. *)
Definition at_time (t : expr) (e : expr) : expr := subst (fun w i => if String.eqb w "t" then (if i is 0 then t else Cst 0) else Var w i) e.
Definition osum n (f : 'I_n -> expr) : expr := esum [seq f i | i <- enum 'I_n].

(** symsde.py:36-40 [Q(k, x)]. *)
Definition egram n (g : 'I_nx -> 'I_n -> expr) (i j : 'I_nx) : expr := osum (fun l => Mul (g i l) (g j l)).
(** symsde.py:42-45 [h(k, x)]. *)
Definition sde_eh (j : 'I_ny) : expr := at_time (Mul ek edt) (ce_h m j).

(** symsde.py:58-63 and 65-70. *)
Definition euler_ef (j : 'I_nx) : expr := let t := Mul edt ek in Add (Mul (at_time t (ce_f m j)) edt) (ex j).
Definition euler_eg (i : 'I_nx) (l : 'I_nw) : expr := let t := Mul edt ek in Mul (at_time t (ce_g m i l)) (Un Sqrt edt).

(** symsde.py:80-87: the derivatives of the drift. *)
Definition ce_df_dt (j : 'I_nx) : expr := dif "t" 0 (ce_f m j).
Definition ce_df_dx (i j : 'I_nx) : expr := dif "x" i (ce_f m j).
Definition ce_d2f_dx2 (p r j : 'I_nx) : expr := dif "x" p (dif "x" r (ce_f m j)).

(** symsde.py:101-104. *)
Definition as15_eL0f (i : 'I_nx) : expr :=
  let t := Mul edt ek in let g p j := at_time t (ce_g m p j) in
  Add (Add (at_time t (ce_df_dt i)) (osum (fun p => Mul (at_time t (ce_df_dx p i)) (at_time t (ce_f m p)))))
    (osum (fun j => osum (fun p => osum (fun r => Mul (Mul (Mul (Cst (/ 2)) (g p j)) (g r j)) (at_time t (ce_d2f_dx2 p r i)))))).
(** symsde.py:89-109. *)
Definition as15_ef (j : 'I_nx) : expr :=
  let t := Mul edt ek in
  Add (Add (Mul (at_time t (ce_f m j)) edt) (Mul (Mul (Cst (/ 2)) (as15_eL0f j)) (Mul edt edt))) (ex j).
(** symsde.py:111-130. *)
Definition as15_eLf (i : 'I_nx) (l : 'I_nw) : expr :=
  let t := Mul edt ek in osum (fun p => Mul (at_time t (ce_df_dx p i)) (at_time t (ce_g m p l))).
Definition as15_eg (i : 'I_nx) (l : 'I_(nw + nw)) : expr :=
  let t := Mul edt ek in let dt15 := Mul edt (Un Sqrt edt) in
  match split l with
  | inl l1 => Add (Mul (at_time t (ce_g m i l1)) (Un Sqrt edt)) (Mul (Mul (Cst (/ 2)) (as15_eLf i l1)) dt15)
  | inr l2 => Mul (Mul (Mul (Cst (/ 2)) (as15_eLf i l2)) dt15) (Un Inv (Un Sqrt (Cst 3)))
  end.

Definition euler : kexpr nx ny := KExpr euler_ef (egram euler_eg) sde_eh (ce_R m) (ce_x0 m) (ce_P0 m).
Definition as15 : kexpr nx ny := KExpr as15_ef (egram as15_eg) sde_eh (ce_R m) (ce_x0 m) (ce_P0 m).

(** The two discretisations. *)
Inductive scheme := Euler | AS15.
Definition discretize (s : scheme) : kexpr nx ny := match s with Euler => euler | AS15 => as15 end.
End Sde.
