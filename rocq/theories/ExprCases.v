(** Symbolic models made from expressions. *)
From Coq Require Import String List ZArith Reals Lra Lia.
From Coquelicot Require Import Coquelicot.
From Verif Require Import Py NdArray NdLemmas OptimModel ProblemSpec DerivSpec ColModel ColBuild ColLaws GenModel GenLemmas ColCalls AssemblyLemmas PropsCol ColValues
  DictLemmas SymModel SymLemmas RegModel RegLemmas EndToEnd PropsEnd PropsEndEst Expr ExprSym ExprModel ExprEnd.
Import ListNotations.
Local Open Scope string_scope.

(** The variables and functions of the symbolic model, before anything is
    registered; [dec_args] are the decision variables among the arguments
    (symoptim.py:70 and 101). *)
Definition dec_args (dec args : list string) : list string := filter (fun w => existsb (String.eqb w) dec) args.
Lemma dec_args_In dec args w : In w (dec_args dec args) <-> In w args /\ In w dec.
Proof.
  unfold dec_args. rewrite filter_In, existsb_exists. split; intros [H1 H2]; split; auto.
  - destruct H2 as (x & Hx & E). apply String.eqb_eq in E. now subst.
  - exists w. split; auto. apply String.eqb_refl.
Qed.
Definition table {X} (names : list string) (f : string -> X) : sdict X := map (fun w => (w, f w)) names.
Lemma table_get {X} names (f : string -> X) w : In w names -> dget String.eqb (table names f) w = Some (f w).
Proof.
  induction names as [|a l IH]; cbn; [contradiction|]. intros H. destruct (String.eqb_spec w a) as [->|Hne]; auto.
  apply IH. destruct H; [congruence|auto].
Qed.

Section Oc.
  Variables (m : colmodel R) (J : list (list R)) (Kw : list R) (X : ocexpr).
  Definition oc_symbolic : smodel R :=
    SM (table oc_names (base_shape m)) symoc_decision (table ["e"; "IL"; "M"; "g"; "h"] (oc_sfun m J Kw X)) [] [] [] [] [].
  Definition oc_wrt (f : string) : list string := dec_args symoc_decision (sf_args (oc_sfun m J Kw X f)).
  Notation size := (fun w => prodn (base_shape m w)).
  Lemma oc_symbolic_ok :
    length (xo_f X) = m_nx m -> length (xo_g X) = m_ng m -> length (xo_h X) = m_nh m ->
    List.Forall (scoped size ["x"; "u"; "p"]) (xo_f X) -> scoped size ["x"; "u"; "p"] (xo_L X) -> scoped size (xo_Margs X) (xo_M X) ->
    List.Forall (scoped size (xo_gargs X)) (xo_g X) -> List.Forall (scoped size (xo_hargs X)) (xo_h X) ->
    NoDup (xo_Margs X) /\ incl (xo_Margs X) ["xe"; "p"] -> NoDup (xo_hargs X) /\ incl (xo_hargs X) ["xe"; "p"] ->
    NoDup (xo_gargs X) /\ incl (xo_gargs X) ["x"; "u"; "p"] /\ (exists w, In w (xo_gargs X) /\ In w ["x"; "u"]) ->
    expr_oc m J Kw X oc_symbolic oc_wrt.
  Proof.
    intros H1 H2 H3 H4 H5 H6 H7 H8 H9 H10 H11. constructor; auto.
    - intros w. reflexivity.
    - intros w Hw. now apply table_get.
    - intros f Hf. now apply table_get.
    - intros f Hf. split; [|intros w; apply dec_args_In]. apply NoDup_filter.
      cbn in Hf. destruct Hf as [<-|[<-|[<-|[<-|[<-|[]]]]]]; cbn; try tauto; repeat constructor; cbn; intuition discriminate.
  Qed.
End Oc.

Section Est.
  Variables (m : colmodel R) (J : list (list R)) (Kw : list R) (JT : list (list R)) (X : estexpr) (jme : bool).
  Definition est_symbolic : smodel R :=
    SM (table (est_vars jme) (base_shape m)) (est_decision jme) (table ["e"; "L"; "tube_L"; "penalty"] (est_sfun m J Kw JT X jme)) [] [] [] [] [].
  Definition est_wrt (f : string) : list string := dec_args (est_decision jme) (sf_args (est_sfun m J Kw JT X jme f)).
  Notation size := (fun w => prodn (base_shape m w)).
  Lemma est_symbolic_ok : length (xe_f X) = m_nx m -> List.Forall (scoped size ["x"; "u"; "p"]) (xe_f X) -> scoped size L_names (xe_L X) ->
    expr_est m J Kw JT X jme est_symbolic est_wrt.
  Proof.
    intros H1 H2 H3. constructor; auto.
    - intros w. reflexivity.
    - intros w Hw. now apply table_get.
    - intros r Hr. apply table_get. unfold est_regs, symjme_regs, symoem_regs in Hr.
      destruct jme, (m_use_penalty m); cbn in Hr |- *; intuition (subst; cbn; auto).
    - intros f. split; [|intros w; apply dec_args_In]. apply NoDup_filter.
      unfold est_sfun. destruct (String.eqb f "e"); [destruct jme|destruct (String.eqb f "L"); [|destruct (String.eqb f "tube_L")]]; cbn;
        repeat constructor; cbn; intuition discriminate.
  Qed.
End Est.
