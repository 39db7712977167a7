(** The example scripts of /repo/examples that use the current interface:
    their models as expressions and the bounds they set. *)
From Coq Require Import String List ZArith Bool Arith Reals.
From Coquelicot Require Import Coquelicot.
From Verif Require Import Py NdArray OptimModel ColModel Expr ExprSym ExprModel ExprEnd ViewModel ScriptModel.
Import ListNotations.
Local Open Scope string_scope.
Local Open Scope R_scope.

(** The sizes of a generated class; the functions are put in by [with_fns].
    [collocation_order] and its points are parameters. *)
Definition no_fn : fn R := 
  Fn "" [] (fun _ => Err TypeError) (fun _ => Err TypeError) (fun _ _ => Err TypeError) (fun _ _ => Err TypeError) (fun _ => Err TypeError)
    (fun _ _ => Err TypeError) (fun _ _ => Err TypeError) (fun _ => Err TypeError).
Definition sized_model (n : nat) (pts : list R) (nx nu np ny nw : nat) (penalty : bool) (penweight G : arr R) : colmodel R :=
  ColModel (Colloc n pts) nx nu np 0 0 ny nw no_fn no_fn no_fn no_fn no_fn no_fn no_fn no_fn penalty penweight G.
Definition none : arr R := Arr [] [].

(** *** examples/brachistochrone.py

    Lines 27-32: x = [x, y, v], u = [theta], p = [tf]; lines 34-41: the
    drift, with g = 9.80665; lines 43-46: the Mayer cost. *)
Definition brach_f : list expr :=
  [Mul (Mul (Var "x" 2) (Un Sin (Var "u" 0))) (Var "p" 0);
   Mul (Mul (eneg (Var "x" 2)) (Un Cos (Var "u" 0))) (Var "p" 0);
   Mul (Mul (Cst (980665 / 100000)) (Un Cos (Var "u" 0))) (Var "p" 0)].
Definition brach_expr : ocexpr := OcExpr brach_f (Cst 0) (Var "p" 0) ["xe"; "p"] [] ["x"; "u"; "p"] [] ["xe"; "p"].
Definition brach_model n pts : colmodel R := sized_model n pts 3 1 1 0 0 false none none.
(** Lines 66-72. *)
Definition brach_bounds : list (assignment Rbar) :=
  [Assign false (Some "p") [Sl None None] (scalar (Finite (1 / 100000)));
   Assign false (Some "x") [At 0; Sl None (Some 3%Z)] (scalar (Finite 0));
   Assign true (Some "x") [At 0; Sl None (Some 3%Z)] (scalar (Finite 0));
   Assign false (Some "x") [At (-1); Sl None (Some 2%Z)] (vector [Finite 10; Finite (-5)]);
   Assign true (Some "x") [At (-1); Sl None (Some 2%Z)] (vector [Finite 10; Finite (-5)]);
   Assign false (Some "u") [Sl None None] (scalar (Finite (- PI)));
   Assign true (Some "u") [Sl None None] (scalar (Finite PI))].

(** *** examples/bryson_denham.py

    Lines 26-31: x = [x1, x2], u = [u1], p = []; lines 34-42: drift and
    running cost. *)
Definition bryson_f : list expr := [Var "x" 1; Var "u" 0].
Definition bryson_expr : ocexpr :=
  OcExpr bryson_f (Mul (Cst (1 / 2)) (esq (Var "u" 0))) (Cst 0) ["xe"; "p"] [] ["x"; "u"; "p"] [] ["xe"; "p"].
Definition bryson_model n pts : colmodel R := sized_model n pts 2 1 0 0 0 false none none.
(** Lines 62-67. *)
Definition bryson_bounds : list (assignment Rbar) :=
  [Assign false (Some "x") [Sl None None; At 0] (scalar (Finite 0));
   Assign true (Some "x") [Sl None None; At 0] (scalar (Finite (1 / 9)));
   Assign false (Some "x") [At 0] (vector [Finite 0; Finite 1]);
   Assign true (Some "x") [At 0] (vector [Finite 0; Finite 1]);
   Assign false (Some "x") [At (-1)] (vector [Finite 0; Finite (-1)]);
   Assign true (Some "x") [At (-1)] (vector [Finite 0; Finite (-1)])].

(** symstats.py:16-19 [normal_logpdf1] for an element that is not masked
    (the factor [~getmaskarray(x)] is one). *)
Definition enormal1 (x mean std : expr) : expr :=
  esub (Mul (eneg (esq (esub x mean))) (Un Inv (Mul (Cst 2) (esq std)))) (Un Ln std).

(** *** examples/attas_sp.py

    Lines 28-34: x = [q, alpha], y = [q_meas, alpha_meas], u = [de],
    p = [Z0, Zalpha, Zq, Zde, M0, Malpha, Mq, Mde, alpha_meas_std,
    q_meas_std]; lines 38-49. *)
Definition attas_f : list expr :=
  [Add (Add (Add (Var "p" 4) (Mul (Var "p" 5) (Var "x" 1))) (Mul (Var "p" 6) (Var "x" 0))) (Mul (Var "p" 7) (Var "u" 0));
   Add (Add (Add (Var "p" 0) (Mul (Var "p" 1) (Var "x" 1))) (Mul (Add (Var "p" 2) (Cst 1)) (Var "x" 0))) (Mul (Var "p" 3) (Var "u" 0))].
Definition attas_L : expr := Add (enormal1 (Var "y" 1) (Var "x" 1) (Var "p" 8)) (enormal1 (Var "y" 0) (Var "x" 0) (Var "p" 9)).
Definition attas_expr : estexpr := EstExpr attas_f attas_L false.
Definition attas_model n pts : colmodel R := sized_model n pts 2 1 10 2 0 false none none.
(** Lines 79-80. *)
Definition attas_bounds : list (assignment Rbar) :=
  [Assign false None [At (-2)] (scalar (Finite (1 / 10000)));
   Assign false None [At (-1)] (scalar (Finite (25 / 100000)))].

(** *** examples/duffing_jme.py

    Lines 76-82: x = [x1, x2], y = [x1_meas], u = [u1], p = [gamma, alpha,
    beta, delta, x1_meas_std], one noise component; lines 85-95; [use_om] and
    [use_penalty] have the defaults of symjme.py:17-21.  Line 167: G is
    [[0], [g2]].  (Without penalty the attribute penweight is None and is not
    read; the model needs an array there.) *)
Definition duffing_f : list expr :=
  [Var "x" 1;
   Add (esub (esub (Mul (eneg (Var "p" 3)) (Var "x" 1)) (Mul (Var "p" 2) (Var "x" 0)))
         (Mul (Var "p" 1) (Mul (Var "x" 0) (Mul (Var "x" 0) (Var "x" 0))))) (Mul (Var "p" 0) (Var "u" 0))].
Definition duffing_L : expr := enormal1 (Var "y" 0) (Var "x" 0) (Var "p" 4).
Definition duffing_expr : estexpr := EstExpr duffing_f duffing_L true.
Definition duffing_model n pts (g2 : R) : colmodel R := sized_model n pts 2 1 5 1 1 false (Arr [2]%nat [0; 0]) (Arr [2; 1]%nat [0; g2]).
(** Line 185. *)
Definition duffing_bounds : list (assignment Rbar) := [Assign false (Some "p") [At (-1)] (scalar (Finite (1 / 100000)))].
