(** Invariants of builder histories. *)
From Coq Require Import String List ZArith Bool Arith Lia.
From Verif Require Import Py NdArray OptimModel DictLemmas Builder NdLemmas OptimSpec OptimLaws.
Import ListNotations.

Section BuilderLemmas.
  Context {T : Type} {NT : Num T}.

  Lemma adjacent_snoc s l m a b :
    adjacent s l m -> a = m -> (a <= b)%Z -> adjacent s (l ++ [(a, b)]) b.
  Proof.
    revert s; induction l as [|[x y] l IH]; simpl; intros s H E Hab.
    - subst; auto.
    - destruct H as (-> & Hxy & H). auto.
  Qed.

  Definition dec_slices (p : problem T) := map (fun kc => cslice (snd kc)) (p_decision p).
  Definition cons_slices (p : problem T) := map (fun co => cslice (fst co)) (p_constraints p).

  (** State invariant. *)
  Record inv (p : problem T) : Prop := {
    inv_dec : adjacent 0 (dec_slices p) (p_ndec p);
    inv_cons : adjacent 0 (cons_slices p) (p_ncons p);
    inv_names : NoDup (map fst (p_decision p) ++ map fst (p_remapped p));
    inv_dsmall : Forall (fun kc => (prodZ (c_shape (snd kc)) < 2 ^ 31)%Z) (p_decision p);
    inv_csmall : Forall (fun co => (prodZ (c_shape (fst co)) < 2 ^ 31)%Z) (p_constraints p)
  }.

  Lemma csize_nonneg c : (prodZ (c_shape c) < 2 ^ 31)%Z -> csize c = prodZ (c_shape c).
  Proof. intros H. unfold csize. rewrite intc_small; auto. rewrite prodZ_prodn in *. lia. Qed.

  Lemma prodZ_nonneg s : (0 <= prodZ s)%Z.
  Proof. rewrite prodZ_prodn. lia. Qed.

  Lemma inv_new : inv new_problem.
  Proof. constructor; simpl; auto; constructor. Qed.

  Lemma inv_call p o : inv p -> op_small o -> inv (call_catch p o).
  Proof.
    intros I Hs. unfold call_catch. destruct o as [name s|name sp|f s args|f s args]; simpl.
    - unfold add_decision_st.
      destruct (dmem String.eqb (p_decision p) name) eqn:E1; auto.
      destruct (dmem String.eqb (p_remapped p) name) eqn:E2; auto.
      assert (~ In name (map fst (p_decision p))) as N1.
      { rewrite <- (dmem_In _ String.eqb_spec). congruence. }
      assert (~ In name (map fst (p_remapped p))) as N2.
      { rewrite <- (dmem_In _ String.eqb_spec). congruence. }
      pose proof (csize_nonneg (Comp s (p_ndec p)) Hs) as Ecs. simpl in Ecs.
      pose proof (prodZ_nonneg s).
      constructor; simpl; rewrite ?(dset_fresh _ String.eqb_spec) by auto.
      + unfold dec_slices. simpl. rewrite map_app. simpl. unfold cslice at 2. simpl.
        apply (adjacent_snoc _ _ (p_ndec p)); auto; [apply (inv_dec p I)|]. lia.
      + apply (inv_cons p I).
      + rewrite map_app, <- app_assoc. simpl. apply NoDup_Add with (l := map fst (p_decision p) ++ map fst (p_remapped p)) (a := name).
        * apply Add_app.
        * split; [apply (inv_names p I)|]. rewrite in_app_iff. tauto.
      + apply Forall_app. split; [apply (inv_dsmall p I)|]. constructor; auto.
      + apply (inv_csmall p I).
    - unfold add_dependent_st.
      destruct (dmem String.eqb (p_decision p) name) eqn:E1; auto.
      destruct (dmem String.eqb (p_remapped p) name) eqn:E2; auto.
      assert (~ In name (map fst (p_decision p))) as N1.
      { rewrite <- (dmem_In _ String.eqb_spec). congruence. }
      assert (~ In name (map fst (p_remapped p))) as N2.
      { rewrite <- (dmem_In _ String.eqb_spec). congruence. }
      constructor; simpl; try apply I.
      rewrite (dset_fresh _ String.eqb_spec) by auto. rewrite map_app, app_assoc. simpl.
      apply NoDup_Add with (l := map fst (p_decision p) ++ map fst (p_remapped p)) (a := name).
      + rewrite <- (app_nil_r (map fst (p_decision p) ++ map fst (p_remapped p))) at 1. apply Add_app.
      + split; [apply (inv_names p I)|]. rewrite in_app_iff. tauto.
    - constructor; simpl; apply I.
    - pose proof (csize_nonneg (Comp s (p_ncons p)) Hs) as Ecs. simpl in Ecs.
      pose proof (prodZ_nonneg s).
      constructor; simpl; try apply I.
      + unfold cons_slices. simpl. rewrite map_app. simpl. unfold cslice at 2. simpl.
        apply (adjacent_snoc _ _ (p_ncons p)); auto; [apply (inv_cons p I)|]. lia.
      + apply Forall_app. split; [apply (inv_csmall p I)|]. constructor; auto.
  Qed.

  Lemma inv_calls ops p : inv p -> Forall op_small ops -> inv (fold_left call_catch ops p).
  Proof.
    revert p; induction ops as [|o ops IH]; simpl; intros p I H; auto.
    inversion H; subst. apply IH; auto. now apply inv_call.
  Qed.

  Lemma inv_history ops : Forall op_small ops -> inv (history ops).
  Proof. intros. apply inv_calls; auto. apply inv_new. Qed.

  Lemma adjacent_le s l e : adjacent s l e -> (s <= e)%Z.
  Proof. revert s; induction l as [|[a b] l IH]; simpl; intros s H; [lia|]. destruct H as (-> & ? & H). apply IH in H. lia. Qed.

  Lemma adjacent_bounds s l e a b : adjacent s l e -> In (a, b) l -> (s <= a <= b)%Z /\ (b <= e)%Z.
  Proof.
    revert s; induction l as [|[x y] l IH]; simpl; intros s H Hi; [tauto|].
    destruct Hi as [E|Hi].
    - injection E as -> ->. destruct H as (-> & ? & H). apply adjacent_le in H. lia.
    - destruct H as (-> & ? & H). specialize (IH _ H Hi). lia.
  Qed.

  (** Every position lies in exactly one interval. *)
  Lemma adjacent_cover s l e q : adjacent s l e -> (s <= q < e)%Z ->
    exists i, i < length l /\ (fst (nth i l (0, 0)%Z) <= q < snd (nth i l (0, 0)%Z))%Z /\
      forall j, j < length l -> (fst (nth j l (0, 0)%Z) <= q < snd (nth j l (0, 0)%Z))%Z -> j = i.
  Proof.
    revert s; induction l as [|[a b] l IH]; simpl; intros s H Hq; [lia|].
    destruct H as (-> & Hab & H).
    destruct (Z.ltb_spec q b).
    - exists 0. simpl. repeat split; try lia.
      intros [|j] Hj; auto. intros Hc. exfalso.
      assert (In (nth j l (0, 0)%Z) l) by (apply nth_In; lia).
      destruct (nth j l (0, 0)%Z) as [x y]. apply (adjacent_bounds _ _ _ _ _ H) in H1. simpl in Hc. lia.
    - destruct (IH _ H) as (i & Hi & Hc & Hu); [lia|].
      exists (S i). simpl. repeat split; try lia; try apply Hc.
      intros [|j] Hj Hcj; simpl in Hcj; [lia|]. f_equal. apply Hu; auto; lia.
  Qed.

  (** Distinct components have disjoint slices. *)
  Lemma adjacent_disjoint s l e i j q : adjacent s l e -> i < length l -> j < length l ->
    (fst (nth i l (0, 0)%Z) <= q < snd (nth i l (0, 0)%Z))%Z ->
    (fst (nth j l (0, 0)%Z) <= q < snd (nth j l (0, 0)%Z))%Z -> i = j.
  Proof.
    intros H Hi Hj Ci Cj.
    assert (s <= q < e)%Z as Hq.
    { assert (In (nth i l (0, 0)%Z) l) as Hin by (apply nth_In; lia).
      destruct (nth i l (0, 0)%Z) as [x y]. apply (adjacent_bounds _ _ _ _ _ H) in Hin.
      simpl in Ci. lia. }
    destruct (adjacent_cover _ _ _ _ H Hq) as (k & _ & _ & Hu).
    rewrite (Hu i), (Hu j); auto.
  Qed.

  (** Components of a reachable problem fit their vector. *)
  Lemma inv_dec_fits p name c : inv p -> In (name, c) (p_decision p) ->
    comp_fits (Z.to_nat (p_ndec p)) c (Z.to_nat (c_off c)).
  Proof.
    intros I Hin. pose proof (inv_dsmall p I) as HS. rewrite Forall_forall in HS.
    apply HS in Hin as Hs. simpl in Hs.
    assert (In (cslice c) (dec_slices p)) as Hi.
    { unfold dec_slices. apply in_map_iff. exists (name, c). auto. }
    unfold cslice in Hi. apply (adjacent_bounds _ _ _ _ _ (inv_dec p I)) in Hi.
    rewrite csize_nonneg in Hi by auto. rewrite prodZ_prodn in *.
    repeat split; lia.
  Qed.

  Lemma inv_cons_fits p c o : inv p -> In (c, o) (p_constraints p) ->
    comp_fits (Z.to_nat (p_ncons p)) c (Z.to_nat (c_off c)).
  Proof.
    intros I Hin. pose proof (inv_csmall p I) as HS. rewrite Forall_forall in HS.
    apply HS in Hin as Hs. simpl in Hs.
    assert (In (cslice c) (cons_slices p)) as Hi.
    { unfold cons_slices. apply in_map_iff. exists (c, o). auto. }
    unfold cslice in Hi. apply (adjacent_bounds _ _ _ _ _ (inv_cons p I)) in Hi.
    rewrite csize_nonneg in Hi by auto. rewrite prodZ_prodn in *.
    repeat split; lia.
  Qed.
End BuilderLemmas.
