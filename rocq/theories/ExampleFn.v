(** A concrete function with its derivatives, used to show that the
    hypotheses of the theorems can be met.  Not code of the repository. *)
From Coq Require Import String List ZArith Bool Arith Lia Reals Lra.
From Coquelicot Require Import Coquelicot.
From Verif Require Import Py NdArray OptimModel ColModel DictLemmas Builder BuilderLemmas
  NdLemmas OptimSpec OptimLaws LawFacts LayoutLemmas ProblemSpec ProblemLemmas AssemblyLemmas
  GradLemmas ProblemFacts DerivSpec CalcLemmas DerivThms.
Import ListNotations.
Local Open Scope R_scope.
Local Open Scope string_scope.
Local Open Scope list_scope.
Local Open Scope R_scope.

(** f(a, b) = a^2 b for scalars a, b. *)
Definition sqmul_jac : list jblock := [JB "a" [0%Z] [0%Z]; JB "b" [0%Z] [0%Z]].
Definition sqmul_hess : list hblock := [HB "a" "a" [0%Z] [0%Z] [0%Z]; HB "a" "b" [0%Z] [0%Z] [0%Z]].
Definition scalars2 {X} (A : list (arr R)) (k : R -> R -> X) : res X :=
  match A with
  | [Arr _ [a]; Arr _ [b]] => Ok (k a b)
  | _ => Err ValueError
  end.
Definition sqmul : fn R := {|
  f_name := "sqmul";
  f_sig := ["a"; "b"];
  f_call := fun A => scalars2 A (fun a b => Arr [] [a * a * b]);
  f_grad := fun A => scalars2 A (fun a b => [("a", Arr [] [2 * a * b]); ("b", Arr [] [a * a])]);
  f_jac_nnz := fun _ _ => Ok 2%nat;
  f_jac_ind := fun _ _ => Ok (map (fun b => ([jb_w b], [jb_i b; jb_o b])) sqmul_jac);
  f_jac_val := fun A => scalars2 A (fun a b => [(["a"], Arr [1%nat] [2 * a * b]); (["b"], Arr [1%nat] [a * a])]);
  f_hess_nnz := fun _ _ => Ok 2%nat;
  f_hess_ind := fun _ _ => Ok (map (fun b => ([hb_a b; hb_b b], [hb_i b; hb_j b; hb_o b])) sqmul_hess);
  f_hess_val := fun A => scalars2 A (fun a b => [(["a"; "a"], Arr [1%nat] [2 * b]); (["a"; "b"], Arr [1%nat] [2 * a])])
|}.

Definition ab (a b : R) : list (arr R) := [Arr [] [a]; Arr [] [b]].

Lemma move_ab a b D t : move ["a"; "b"] (ab a b) D t = ab (a + t * D "a" 0%nat) (b + t * D "b" 0%nat).
Proof. reflexivity. Qed.

Lemma sqmul_calls W a b : calls_ok sqmul W [] (ab a b).
Proof.
  intros D E s t _ _. change (f_sig sqmul) with ["a"; "b"]. rewrite !move_ab.
  eexists. repeat split.
Qed.

Lemma sqmul_jac_struct W SH : In "a" W -> In "b" W -> prodn (SH "a") = 1%nat -> prodn (SH "b") = 1%nat ->
  jac_struct sqmul W SH [] sqmul_jac.
Proof.
  intros Ha Hb Ea Eb. constructor.
  - intros vs _. split; reflexivity.
  - repeat constructor; simpl; intuition discriminate.
  - repeat constructor; simpl; auto; try lia; rewrite ?Ea, ?Eb; simpl; lia.
Qed.

Lemma sqmul_hess_struct W SH : In "a" W -> In "b" W -> prodn (SH "a") = 1%nat -> prodn (SH "b") = 1%nat ->
  hess_struct sqmul W SH [] sqmul_hess.
Proof.
  intros Ha Hb Ea Eb. constructor.
  - intros vs _. split; reflexivity.
  - repeat constructor; simpl; intuition discriminate.
  - repeat constructor; simpl; auto; try lia; rewrite ?Ea, ?Eb; simpl; lia.
Qed.

Lemma sqmul_jac_law W a b : jac_law sqmul W [] (ab a b) sqmul_jac [Arr [1%nat] [2 * a * b]; Arr [1%nat] [a * a]].
Proof.
  split; [split; [reflexivity|repeat constructor]|].
  intros D o _ Ho. assert (o = 0%nat) as -> by (simpl in Ho; lia).
  change (f_sig sqmul) with ["a"; "b"].
  apply (is_derive_ext (fun t => (a + t * D "a" 0%nat) * (a + t * D "a" 0%nat) * (b + t * D "b" 0%nat))).
  { intros t. rewrite move_ab. reflexivity. }
  auto_derive; auto. unfold tsum, on_cell. simpl. ring.
Qed.

Lemma sqmul_grad_law W SH a b : In "a" W -> In "b" W -> SH "a" = [] -> SH "b" = [] ->
  grad_law sqmul W SH (ab a b) [("a", Arr [] [2 * a * b]); ("b", Arr [] [a * a])].
Proof.
  intros Ha Hb Ea Eb. split.
  - split; [reflexivity|]. split; [repeat constructor; simpl; intuition discriminate|].
    repeat constructor; simpl; auto.
  - intros D _. change (f_sig sqmul) with ["a"; "b"].
    apply (is_derive_ext (fun t => (a + t * D "a" 0%nat) * (a + t * D "a" 0%nat) * (b + t * D "b" 0%nat) + 0)).
    { intros t. rewrite move_ab. reflexivity. }
    auto_derive; auto. simpl. ring.
Qed.

Lemma sqmul_hess_law W a b : hess_law sqmul W [] (ab a b) sqmul_hess [Arr [1%nat] [2 * b]; Arr [1%nat] [2 * a]].
Proof.
  split; [split; [reflexivity|repeat constructor]|].
  intros D E o _ _ Ho. assert (o = 0%nat) as -> by (simpl in Ho; lia).
  change (f_sig sqmul) with ["a"; "b"].
  apply (d2_ext (fun s t => (a + t * E "a" 0%nat + s * D "a" 0%nat) * (a + t * E "a" 0%nat + s * D "a" 0%nat)
                            * (b + t * E "b" 0%nat + s * D "b" 0%nat))).
  { intros s t. rewrite !move_ab. reflexivity. }
  split.
  - apply filter_forall. intros t. auto_derive. auto.
  - apply (is_derive_ext (fun t => 2 * (a + t * E "a" 0%nat) * D "a" 0%nat * (b + t * E "b" 0%nat)
                                   + (a + t * E "a" 0%nat) * (a + t * E "a" 0%nat) * D "b" 0%nat)).
    { intros t. symmetry. apply is_derive_unique. auto_derive; auto. ring. }
    auto_derive; auto. unfold tsum, sym, on_cell, cell_eqb. simpl. ring.
Qed.

(** A problem with two scalar decisions; the function is an objective with
    its own parameter order and a constraint with swapped arguments. *)
Definition ex_ops : list (op R) :=
  [AddDecision "x" []; AddDecision "y" []; AddObjective sqmul [] (Some ["x"; "y"]);
   AddConstraint sqmul [] (Some ["y"; "x"])].
Definition ex_problem : problem R := history ex_ops.
Definition ex_sel (name : string) (i : nat) : nat := ((if String.eqb name "x" then 0 else 1) + i)%nat.

Lemma ex_reachable : reachable ex_problem.
Proof. exists ex_ops, []. split; [repeat constructor|reflexivity]. Qed.

Lemma ex_selects : selects ex_problem ex_sel.
Proof.
  intros name sp H. simpl in H. destruct H as [E|[E|[]]]; injection E as <- <-.
  - apply (dec_lawful _ _ 0). split; [reflexivity|]. split; [vm_compute; lia|reflexivity].
  - apply (dec_lawful _ _ 1). split; [reflexivity|]. split; [vm_compute; lia|reflexivity].
Qed.

Lemma nodup2 (a b : string) : a <> b -> NoDup [a; b].
Proof. intros H. repeat constructor; simpl; intuition congruence. Qed.

Lemma ex_fits_o : fits ex_problem (mk_optfun [] sqmul (Some ["x"; "y"])).
Proof.
  split; [apply nodup2; discriminate|]. split; [apply nodup2; discriminate|]. split; [reflexivity|].
  intros v [<-|[<-|[]]]; left; simpl; auto.
Qed.
Lemma ex_fits_c : fits ex_problem (mk_optfun [] sqmul (Some ["y"; "x"])).
Proof.
  split; [apply nodup2; discriminate|]. split; [apply nodup2; discriminate|]. split; [reflexivity|].
  intros v [<-|[<-|[]]]; left; simpl; auto.
Qed.

Lemma ex_constr_diff x y : Forall2 (constr_diff ex_problem [x; y]) (p_constraints ex_problem)
  [(ab y x, (sqmul_jac, [Arr [1%nat] [2 * y * x]; Arr [1%nat] [y * y]]))].
Proof.
  constructor; [|constructor]. split.
  { split; [apply ex_fits_c|]. apply sqmul_jac_struct; simpl; auto. }
  split; [reflexivity|]. split; [apply sqmul_calls|apply sqmul_jac_law].
Qed.

Lemma ex_obj_diff x y : Forall2 (obj_diff ex_problem [x; y]) (p_objectives ex_problem)
  [(ab x y, [("a", Arr [] [2 * x * y]); ("b", Arr [] [x * x])])].
Proof.
  constructor; [|constructor]. split; [apply ex_fits_o|].
  split; [reflexivity|]. split; [apply sqmul_calls|]. apply sqmul_grad_law; simpl; auto.
Qed.

Lemma ex_constr_diff2 x y : Forall2 (fun co d => fun_diff2 ex_problem [x; y] (c_shape (fst co)) (snd co) d
    /\ no_alias ex_sel (snd co) (fst (snd d))) (p_constraints ex_problem)
  [(ab y x, (sqmul_hess, [Arr [1%nat] [2 * x]; Arr [1%nat] [2 * y]]))].
Proof.
  constructor; [|constructor]. split.
  - split. { split; [apply ex_fits_c|]. apply sqmul_hess_struct; simpl; auto. }
    split; [reflexivity|]. split; [apply sqmul_calls|apply sqmul_hess_law].
  - intros c1 c2 [H|[H|[]]]; injection H as <- <-; simpl; [tauto|]. intros _. discriminate.
Qed.

Lemma ex_obj_diff2 x y : Forall2 (fun o d => fun_diff2 ex_problem [x; y] (o_shape o) o d
    /\ no_alias ex_sel o (fst (snd d))) (p_objectives ex_problem)
  [(ab x y, (sqmul_hess, [Arr [1%nat] [2 * y]; Arr [1%nat] [2 * x]]))].
Proof.
  constructor; [|constructor]. split.
  - split. { split; [apply ex_fits_o|]. apply sqmul_hess_struct; simpl; auto. }
    split; [reflexivity|]. split; [apply sqmul_calls|apply sqmul_hess_law].
  - intros c1 c2 [H|[H|[]]]; injection H as <- <-; simpl; [tauto|]. intros _. discriminate.
Qed.

(** *** Problems where one entry reaches a function twice *)
(** The same variable passed twice. *)
Definition twice_ops : list (op R) :=
  [AddDecision "x" []; AddObjective sqmul [] (Some ["x"; "x"]); AddConstraint sqmul [] (Some ["x"; "x"])].
Definition twice_problem : problem R := history twice_ops.

Lemma twice_facts :
  (forall x, obj twice_problem [x] = Ok (0 + (x * x * x + 0))) /\
  obj_grad twice_problem [1] = Ok [0 + 1 * 1] /\
  constr_jac_val twice_problem [1] = Err AssertionError.
Proof. repeat split. Qed.

(** Two variables that are the same decision entry. *)
Definition alias_ops : list (op R) :=
  [AddDecision "x" []; AddDependent "z" (dec_spec (Comp [] 0)); AddObjective sqmul [] (Some ["x"; "z"])].
Definition alias_problem : problem R := history alias_ops.

Lemma alias_facts :
  (forall x, obj alias_problem [x] = Ok (0 + (x * x * x + 0))) /\
  lag_hess_ind alias_problem = Ok ([0%Z; 0%Z], [0%Z; 0%Z]) /\
  lag_hess_val alias_problem [1] 1 [] = Ok [2 * 1 * 1; 2 * 1 * 1].
Proof. repeat split. Qed.
