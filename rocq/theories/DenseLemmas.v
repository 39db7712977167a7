(** From directions to matrix entries, and the two refutation witnesses. *)
From Coq Require Import String List ZArith Bool Arith Lia Reals Lra.
From Coquelicot Require Import Coquelicot.
From Verif Require Import Py NdArray OptimModel ColModel DictLemmas Builder BuilderLemmas
  NdLemmas OptimSpec OptimLaws LawFacts LayoutLemmas ProblemSpec ProblemLemmas AssemblyLemmas
  GradLemmas ProblemFacts DerivSpec CalcLemmas DerivThms ExampleFn.
Import ListNotations.
Local Open Scope R_scope.
Local Open Scope string_scope.
Local Open Scope list_scope.
Local Open Scope R_scope.

Lemma combine_assoc_map {A B C X} (f : A -> B -> C -> X) la lb lc :
  map (fun e => f (fst e) (fst (snd e)) (snd (snd e))) (combine la (combine lb lc))
  = map (fun e => f (fst (fst e)) (snd (fst e)) (snd e)) (combine (combine la lb) lc).
Proof.
  revert lb lc; induction la; intros [|b lb] [|c lc]; simpl; auto. f_equal; auto.
Qed.

Lemma basis_Z (z : Z) j : (0 <= z)%Z -> basis j (Z.to_nat z) = if (z =? Z.of_nat j)%Z then 1 else 0.
Proof.
  intros H. unfold basis. destruct (Nat.eqb_spec (Z.to_nat z) j), (Z.eqb_spec z (Z.of_nat j)); auto; lia.
Qed.

Lemma tsum_dense n i0 i1 vals j q : in_range n i0 ->
  tsum i0 i1 vals (fun z => basis j (Z.to_nat z)) (Z.of_nat q) = dense i0 i1 vals j q.
Proof.
  intros H. unfold tsum, dense.
  rewrite (combine_assoc_map (fun a b v => if (b =? Z.of_nat q)%Z then v * basis j (Z.to_nat a) else 0) i0 i1 vals).
  apply rsum_map_ext. intros [[a b] v] Hin. simpl.
  apply in_combine_l in Hin. apply in_combine_l in Hin. unfold in_range in H. rewrite Forall_forall in H.
  specialize (H a Hin). rewrite basis_Z by lia.
  destruct (a =? Z.of_nat j)%Z, (b =? Z.of_nat q)%Z; simpl; lra.
Qed.

Lemma symform_dense n i0 i1 vals j k : in_range n i0 -> in_range n i1 ->
  symform i0 i1 vals (basis j) (basis k) = dense_sym i0 i1 vals j k.
Proof.
  intros H0 H1. unfold symform, dense_sym, dense.
  assert (G : forall e, In e (combine (combine i0 i1) vals) -> (0 <= fst (fst e))%Z /\ (0 <= snd (fst e))%Z).
  { intros [[a b] v] Hin. apply in_combine_l in Hin. unfold in_range in *. rewrite Forall_forall in *.
    simpl. split; [apply in_combine_l in Hin; specialize (H0 a Hin)|apply in_combine_r in Hin; specialize (H1 b Hin)]; lia. }
  destruct (Nat.eqb_spec j k) as [->|N].
  - apply rsum_map_ext. intros [[a b] v] Hin. specialize (G _ Hin). simpl in *. unfold sym. simpl.
    rewrite !basis_Z by lia.
    destruct (Z.eqb_spec a b), (Z.eqb_spec a (Z.of_nat k)), (Z.eqb_spec b (Z.of_nat k)); simpl; try lia; lra.
  - rewrite <- rsum_map_plus. apply rsum_map_ext. intros [[a b] v] Hin. specialize (G _ Hin). simpl in *.
    unfold sym. simpl. rewrite !basis_Z by lia.
    destruct (Z.eqb_spec a b), (Z.eqb_spec a (Z.of_nat j)), (Z.eqb_spec b (Z.of_nat k)),
      (Z.eqb_spec a (Z.of_nat k)), (Z.eqb_spec b (Z.of_nat j)); simpl; try lia; lra.
Qed.

Lemma rsum_basis (g : list R) j n : (j < n)%nat -> length g = n ->
  rsum (map (fun k => nth k g 0 * basis j k) (seq 0 n)) = nth j g 0.
Proof.
  intros Hj Hg. rewrite <- (sumn_rsum n (fun k => nth k g 0 * basis j k)). subst n.
  exact (dotp_basis g j Hj).
Qed.

Lemma d2_unique F u v : d2 F u -> d2 F v -> u = v.
Proof.
  intros [_ H1] [_ H2]. apply is_derive_unique in H1. apply is_derive_unique in H2. congruence.
Qed.

(** *** Repeated argument *)
Lemma twice_derivative : is_derive (fun t => objv twice_problem (vmove [1] (basis 0) t)) 0 3.
Proof.
  apply (is_derive_ext (fun t => 0 + ((1 + t * 1) * (1 + t * 1) * (1 + t * 1) + 0))).
  - intros t. unfold objv. replace (vmove [1] (basis 0) t) with [1 + t * 1] by reflexivity.
    rewrite (proj1 twice_facts). reflexivity.
  - auto_derive; auto. ring.
Qed.

(** *** Shared decision entry *)
Lemma alias_derivative : d2 (fun s t => lagrangian alias_problem 1 [] (vmove (vmove [1] (basis 0) t) (basis 0) s)) 6.
Proof.
  apply (d2_ext (fun s t => 1 * (0 + ((1 + t * 1 + s * 1) * (1 + t * 1 + s * 1) * (1 + t * 1 + s * 1) + 0)) + 0)).
  - intros s t. unfold lagrangian, objv.
    replace (vmove (vmove [1] (basis 0) t) (basis 0) s) with [1 + t * 1 + s * 1] by reflexivity.
    rewrite (proj1 alias_facts). reflexivity.
  - split.
    + apply filter_forall. intros t. auto_derive. auto.
    + apply (is_derive_ext (fun t => 3 * (1 + t) * (1 + t))).
      * intros t. symmetry. apply is_derive_unique. auto_derive; auto. ring.
      * auto_derive; auto. ring.
Qed.

Definition alias_sel (name : string) (i : nat) : nat := i.

Lemma alias_reachable : reachable alias_problem.
Proof. exists alias_ops, []. split; [repeat constructor|reflexivity]. Qed.

Lemma alias_selects : selects alias_problem alias_sel.
Proof.
  intros name sp H. simpl in H. destruct H as [E|[E|[]]]; injection E as <- <-;
    apply (dec_lawful _ _ 0); (split; [reflexivity|]; split; [vm_compute; lia|reflexivity]).
Qed.

Lemma alias_fits : fits alias_problem (mk_optfun [] sqmul (Some ["x"; "z"])).
Proof.
  split; [apply nodup2; discriminate|]. split; [apply nodup2; discriminate|]. split; [reflexivity|].
  intros v [<-|[<-|[]]]; left; simpl; auto.
Qed.

Lemma alias_diff2 : Forall2 (fun o d => fun_diff2 alias_problem [1] (o_shape o) o d) (p_objectives alias_problem)
  [(ab 1 1, (sqmul_hess, [Arr [1%nat] [2 * 1]; Arr [1%nat] [2 * 1]]))].
Proof.
  constructor; [|constructor]. split.
  - split; [apply alias_fits|]. apply sqmul_hess_struct; simpl; auto.
  - split; [reflexivity|]. split; [apply sqmul_calls|apply sqmul_hess_law].
Qed.
