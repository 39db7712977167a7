(** Property C22: default names of derivatives are unambiguous. *)
From Coq Require Import String Ascii List Bool Arith Lia.
From Verif Require Import Py GenModel SymModel NameLemmas.
Import ListNotations.
Local Open Scope string_scope.

(** Within one function, whatever its name: distinct derivatives have
    distinct names if the marker "_d" occurs in no variable name. *)
Theorem C22_same_function f wrt wrt' : List.Forall plain wrt -> List.Forall plain wrt' ->
  (List.length wrt = 1 \/ List.length wrt = 2) -> (List.length wrt' = 1 \/ List.length wrt' = 2) ->
  deriv_name f wrt = deriv_name f wrt' -> wrt = wrt'.
Proof.
  intros HP HP' HL HL' E.
  destruct wrt as [|a [|b [|c wrt]]]; simpl in HL; try lia;
    destruct wrt' as [|a' [|b' [|c' wrt']]]; simpl in HL'; try lia; simpl in E;
    repeat match goal with H : List.Forall _ (_ :: _) |- _ => inversion H; clear H; subst end.
  - apply first_inj in E as [_ ->]; auto.
  - exfalso. eapply first_second; [| | | |exact E]; auto.
  - exfalso. symmetry in E. eapply first_second; [| | | |exact E]; auto.
  - apply second_inj in E as (_ & -> & ->); auto.
Qed.
Print Assumptions C22_same_function.

(** Across functions the function names have to be identifiers without the
    marker, too. *)
Theorem C22_all_functions f f' wrt wrt' :
  plain f -> plain f' -> no_digit f -> no_digit f' -> f <> "" -> f' <> "" ->
  List.Forall plain wrt -> List.Forall plain wrt' ->
  (List.length wrt = 1 \/ List.length wrt = 2) -> (List.length wrt' = 1 \/ List.length wrt' = 2) ->
  deriv_name f wrt = deriv_name f' wrt' -> f = f' /\ wrt = wrt'.
Proof.
  intros Pf Pf' Df Df' Nf Nf' HP HP' HL HL' E.
  destruct wrt as [|a [|b [|c wrt]]]; simpl in HL; try lia;
    destruct wrt' as [|a' [|b' [|c' wrt']]]; simpl in HL'; try lia; simpl in E;
    repeat match goal with H : List.Forall _ (_ :: _) |- _ => inversion H; clear H; subst end.
  - apply first_inj in E as [-> ->]; auto.
  - exfalso. eapply first_second; [| | | |exact E]; auto.
  - exfalso. symmetry in E. eapply first_second; [| | | |exact E]; auto.
  - apply second_inj in E as (-> & -> & ->); auto.
Qed.
Print Assumptions C22_all_functions.

(** The value function of a derivative never takes the name of another
    derivative, if no variable name ends in "_val". *)
Theorem C22_value_names f f' wrt wrt' :
  List.Forall plain wrt -> List.Forall plain wrt' -> List.Forall (fun w => forall v, w <> v ++ "_val") wrt' ->
  (List.length wrt = 1 \/ List.length wrt = 2) -> (List.length wrt' = 1 \/ List.length wrt' = 2) ->
  deriv_name f wrt ++ "_val" <> deriv_name f' wrt'.
Proof.
  intros HP HP' HV HL HL' E.
  destruct (name_tail f wrt HP HL) as (h & w & E1 & P1 & _).
  destruct (name_tail f' wrt' HP' HL') as (h' & w' & E2 & P2 & C2).
  rewrite E1, E2, !sapp_assoc in E. apply split_last in E as [_ E]; auto using plain_val.
  destruct C2 as [H|[v ->]].
  - apply (proj1 (Forall_forall _ _) HV w' H w). now symmetry.
  - change (w ++ "_val") with (w ++ ("_va" ++ String "l"%char "")) in E. rewrite <- sapp_assoc in E.
    apply sapp_last in E as [_ E]. discriminate.
Qed.
Print Assumptions C22_value_names.

(** Without the condition names clash: in one function ... *)
Theorem C22_refuted_general :
  (exists f a b a' b', a <> b /\ a' <> b' /\ (a, b) <> (a', b') /\ (a, b) <> (b', a') /\
     second_derivative_name f a b = second_derivative_name f a' b') /\
  (* ... between functions ... *)
  (exists f f' a b c, f <> f' /\ second_derivative_name f a a = second_derivative_name f' b c) /\
  (* ... and with a value function. *)
  (exists f a b, a <> b /\ first_derivative_name f a ++ "_val" = first_derivative_name f b).
Proof.
  split; [|split].
  - exists "f", "a", "b_dc", "a_db", "c". repeat split; discriminate || reflexivity.
  - exists "g_da", "g", "w", "a", "w2". split; [discriminate|reflexivity].
  - exists "e", "y", "y_val". split; [discriminate|reflexivity].
Qed.
Print Assumptions C22_refuted_general.

(** utils.double_deriv_name is the same naming rule. *)
Theorem C22_double_deriv_name f a b : double_deriv_name f a b = second_derivative_name f a b.
Proof. reflexivity. Qed.
Print Assumptions C22_double_deriv_name.

Lemma plain_check s : (fix go s := match s with
    | String "_"%char (String "d"%char _) => false
    | String _ r => go r | EmptyString => true end) s = true -> plain s.
Proof.
  intros H a. revert s H. induction a as [|c a IH]; intros s H b ->.
  - discriminate.
  - simpl in H. apply (IH (a ++ "_d" ++ b) ) with (b := b); auto.
    destruct c as [[] [] [] [] [] [] [] []]; try exact H.
    destruct a as [|c a]; [exact H|]. simpl in H |- *.
    destruct c as [[] [] [] [] [] [] [] []]; try exact H; discriminate.
Qed.

(** The functions and decision variables of the repository's own models meet
    the conditions. *)
Example C22_nonvacuous :
  List.Forall (fun f => plain f /\ no_digit f /\ f <> "") ["e"; "IL"; "M"; "g"; "h"; "L"; "tube_L"; "penalty"] /\
  List.Forall (fun w => plain w /\ forall v, w <> v ++ "_val") ["x"; "xp"; "u"; "up"; "p"; "xe"; "wc"].
Proof.
  split.
  - repeat constructor; try (apply plain_check; reflexivity); try discriminate; intros r; discriminate.
  - repeat constructor; try (apply plain_check; reflexivity);
      intros v E; destruct v as [|c1 [|c2 [|c3 v]]]; discriminate.
Qed.
