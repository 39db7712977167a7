(** Lemmas behind PropsLayout. *)
From Coq Require Import String List ZArith Bool Arith Lia Ring.
From Verif Require Import Py NdArray OptimModel ColModel DictLemmas Builder BuilderLemmas
  NdLemmas OptimSpec OptimLaws LawFacts.
Import ListNotations.

Section LayoutLemmas.
  Context {T : Type} {NT : Num T} {OT : NumOrd T}.
  Open Scope num_scope.

  Lemma slices_sizes (ops : list (op T)) : Forall op_small ops ->
    Forall (fun kc => (snd (cslice (snd kc)) - fst (cslice (snd kc)))%Z = prodZ (c_shape (snd kc)))
           (p_decision (history ops)) /\
    Forall (fun co => (snd (cslice (fst co)) - fst (cslice (fst co)))%Z = prodZ (c_shape (fst co)))
           (p_constraints (history ops)).
  Proof.
    intros H. pose proof (inv_history ops H) as I. split; apply Forall_forall.
    - intros kc Hk. pose proof (inv_dsmall _ I) as Hs. rewrite Forall_forall in Hs. apply Hs in Hk.
      unfold cslice. simpl. rewrite csize_nonneg by auto. lia.
    - intros kc Hk. pose proof (inv_csmall _ I) as Hs. rewrite Forall_forall in Hs. apply Hs in Hk.
      unfold cslice. simpl. rewrite csize_nonneg by auto. lia.
  Qed.

  Definition taken (p : problem T) (name : string) : Prop :=
    In name (map fst (p_decision p) ++ map fst (p_remapped p)).

  Lemma taken_dec (p : problem T) name :
    dmem String.eqb (p_decision p) name = true \/ dmem String.eqb (p_remapped p) name = true
    <-> taken p name.
  Proof.
    unfold taken. rewrite in_app_iff, !(dmem_In _ String.eqb_spec). tauto.
  Qed.

  Lemma add_decision_cases (p : problem T) name s :
    (taken p name /\ add_decision_st p name s = (p, Some ValueError)) \/
    (~ taken p name /\ exists p', add_decision_st p name s = (p', None) /\
       p_decision p' = p_decision p ++ [(name, Comp s (p_ndec p))] /\
       p_remapped p' = p_remapped p /\ p_objectives p' = p_objectives p /\
       p_constraints p' = p_constraints p).
  Proof.
    unfold add_decision_st.
    destruct (dmem String.eqb (p_decision p) name) eqn:E1.
    { left. split; auto. apply taken_dec; auto. }
    destruct (dmem String.eqb (p_remapped p) name) eqn:E2.
    { left. split; auto. apply taken_dec; auto. }
    right. split. { rewrite <- taken_dec. intuition congruence. }
    eexists. split; [reflexivity|]. simpl. repeat split; auto.
    apply (dset_fresh _ String.eqb_spec). rewrite <- (dmem_In _ String.eqb_spec). congruence.
  Qed.

  Lemma add_dependent_cases (p : problem T) name sp :
    (taken p name /\ add_dependent_st p name sp = (p, Some ValueError)) \/
    (~ taken p name /\ exists p', add_dependent_st p name sp = (p', None) /\
       p_decision p' = p_decision p /\ p_ndec p' = p_ndec p /\
       p_remapped p' = p_remapped p ++ [(name, sp)] /\ p_objectives p' = p_objectives p /\
       p_constraints p' = p_constraints p).
  Proof.
    unfold add_dependent_st.
    destruct (dmem String.eqb (p_decision p) name) eqn:E1.
    { left. split; auto. apply taken_dec; auto. }
    destruct (dmem String.eqb (p_remapped p) name) eqn:E2.
    { left. split; auto. apply taken_dec; auto. }
    right. split. { rewrite <- taken_dec. intuition congruence. }
    eexists. split; [reflexivity|]. simpl. repeat split; auto.
    apply (dset_fresh _ String.eqb_spec). rewrite <- (dmem_In _ String.eqb_spec). congruence.
  Qed.

  Lemma names_nodup (ops : list (op T)) :
    NoDup (map fst (p_decision (history ops)) ++ map fst (p_remapped (history ops))).
  Proof.
    unfold history. assert (N : NoDup (map fst (p_decision (@new_problem T))
      ++ map fst (p_remapped (@new_problem T)))) by constructor.
    revert N. generalize (@new_problem T). induction ops as [|o ops IH]; simpl; intros p N; auto.
    apply IH. clear IH. unfold call_catch. destruct o as [name s|name sp|f s a|f s a]; simpl; auto.
    - destruct (add_decision_cases p name s) as [(_ & ->)|(F & p' & -> & E1 & E2 & _)]; simpl; auto.
      rewrite E1, E2, map_app, <- app_assoc. simpl.
      apply NoDup_Add with (l := map fst (p_decision p) ++ map fst (p_remapped p)) (a := name);
        [apply Add_app|]. split; auto.
    - destruct (add_dependent_cases p name sp) as [(_ & ->)|(F & p' & -> & E1 & _ & E2 & _)]; simpl; auto.
      rewrite E1, E2, map_app, app_assoc. simpl.
      apply NoDup_Add with (l := map fst (p_decision p) ++ map fst (p_remapped p)) (a := name).
      + rewrite <- (app_nil_r (map fst (p_decision p) ++ map fst (p_remapped p))) at 1. apply Add_app.
      + split; auto.
  Qed.

  Lemma variable_spec_call (p : problem T) o name sp :
    variable_spec p name = Ok sp -> variable_spec (call_catch p o) name = Ok sp.
  Proof.
    unfold call_catch. destruct o as [nm s|nm sp'|f s a|f s a]; simpl; auto.
    - destruct (add_decision_cases p nm s) as [(_ & ->)|(F & p' & -> & E1 & E2 & _)]; simpl; auto.
      unfold variable_spec. rewrite E1, E2, dget_app.
      destruct (dget String.eqb (p_decision p) name); auto. simpl.
      destruct (dget String.eqb (p_remapped p) name) eqn:E; [|discriminate].
      destruct (String.eqb_spec name nm); auto. subst.
      intros _. exfalso. apply F. unfold taken. apply in_or_app. right.
      apply (dget_In _ String.eqb_spec) in E. apply (in_map fst) in E. exact E.
    - destruct (add_dependent_cases p nm sp') as [(_ & ->)|(F & p' & -> & E1 & _ & E2 & _)]; simpl; auto.
      unfold variable_spec. rewrite E1, E2, dget_app.
      destruct (dget String.eqb (p_decision p) name); auto.
      destruct (dget String.eqb (p_remapped p) name) eqn:E; auto. discriminate.
  Qed.

  Lemma variable_spec_stable (ops1 ops2 : list (op T)) name sp :
    variable_spec (history ops1) name = Ok sp -> variable_spec (history (ops1 ++ ops2)) name = Ok sp.
  Proof.
    unfold history. rewrite fold_left_app. generalize (fold_left call_catch ops1 (@new_problem T)).
    induction ops2 as [|o ops IH]; simpl; intros p H; auto.
    apply IH. now apply variable_spec_call.
  Qed.

  Lemma variable_spec_known (p : problem T) name :
    ~ taken p name <-> variable_spec p name = Err ValueError.
  Proof.
    unfold taken, variable_spec. rewrite in_app_iff.
    destruct (dget String.eqb (p_decision p) name) eqn:E1.
    { split; [|discriminate]. intros H; exfalso; apply H; left.
      apply (dget_In _ String.eqb_spec) in E1. apply (in_map fst) in E1. exact E1. }
    apply (dget_None _ String.eqb_spec) in E1.
    destruct (dget String.eqb (p_remapped p) name) eqn:E2.
    { split; [|discriminate]. intros H; exfalso; apply H; right.
      apply (dget_In _ String.eqb_spec) in E2. apply (in_map fst) in E2. exact E2. }
    apply (dget_None _ String.eqb_spec) in E2. tauto.
  Qed.

  (** *** Round trip of one component. *)
  Lemma pack_unpack n c off dest (v w : arr T) :
    comp_fits n c off -> length dest = n -> broadcast_to 0 v (c_shape c) = Ok w ->
    exists dest', c_pack_into c dest v = Ok dest' /\ length dest' = n /\
      c_unpack c dest' = Ok w /\
      forall q, (q < off \/ off + prodn (c_shape c) <= q)%nat -> nth q dest' 0 = nth q dest 0.
  Proof.
    intros F HL Hw. destruct (broadcast_awf _ _ _ Hw) as [Es W].
    eexists. split; [unfold c_pack_into; apply (c_put_ok _ n c off dest v w F HL Hw)|].
    destruct (put_nth (fun _ new => new) n c off dest w F HL Es W) as (H1 & H2 & H3).
    split; [exact H1|]. split; [|exact H2].
    apply (c_unpack_eq n c off); auto.
  Qed.

  Lemma add_unpack n c off dest (v w old : arr T) :
    comp_fits n c off -> length dest = n -> broadcast_to 0 v (c_shape c) = Ok w ->
    c_unpack c dest = Ok old ->
    exists dest' new, c_add_to c dest v = Ok dest' /\ length dest' = n /\
      c_unpack c dest' = Ok new /\ ash new = c_shape c /\ awf new /\
      (forall i, (i < prodn (c_shape c))%nat ->
         nth i (adat new) 0 = nth i (adat old) 0 + nth i (adat w) 0) /\
      forall q, (q < off \/ off + prodn (c_shape c) <= q)%nat -> nth q dest' 0 = nth q dest 0.
  Proof.
    intros F HL Hw Ho. destruct (broadcast_awf _ _ _ Hw) as [Es W].
    destruct (put_nth nadd n c off dest w F HL Es W) as (H1 & H2 & H3).
    eexists. eexists. split; [unfold c_add_to; apply (c_put_ok nadd n c off dest v w F HL Hw)|].
    split; [exact H1|]. split; [apply (c_unpack_fits n c off _ F H1)|].
    split; [reflexivity|]. split; [apply awf_seq|]. split; [|exact H2].
    intros i Hi. simpl. rewrite nth_map_seq by auto. rewrite H3 by auto.
    rewrite (c_unpack_fits n c off dest F HL) in Ho. injection Ho as <-. simpl.
    now rewrite nth_map_seq.
  Qed.

  Lemma pack_too_short c (dest : list T) (v : arr T) :
    (Z.of_nat (length dest) < c_off c + csize c)%Z ->
    c_pack_into c dest v = Err AssertionError /\ c_add_to c dest v = Err AssertionError.
  Proof.
    intros H. unfold c_pack_into, c_add_to.
    destruct (Z.leb_spec (c_off c + csize c) (Z.of_nat (length dest))); [lia|]. auto.
  Qed.

  Lemma broadcast_ok_iff (v : arr T) t :
    (exists w, broadcast_to 0 v t = Ok w) <->
    (length (ash v) <= length t)%nat /\
    forall k, (k < length (ash v))%nat ->
      let d := nth k (ash v) O in
      d = nth (length t - length (ash v) + k) t O \/ d = 1%nat.
  Proof.
    unfold broadcast_to. destruct (Nat.leb_spec (length (ash v)) (length t)); simpl.
    2: { split; [intros [w H']; discriminate|lia]. }
    set (m := (length t - length (ash v))%nat).
    assert (HL : length (bpad (ash v) t) = length t).
    { unfold bpad. rewrite app_length, repeat_length. lia. }
    assert (bcompat (bpad (ash v) t) t = true <->
      forall k, (k < length (ash v))%nat ->
      nth k (ash v) O = nth (m + k) t O \/ nth k (ash v) O = 1%nat) as HB.
    { rewrite (bcompat_spec _ _ HL), HL. unfold bpad. fold m. split.
      - intros H' k Hk. specialize (H' (m + k)%nat). rewrite app_nth2 in H' by (rewrite repeat_length; lia).
        rewrite repeat_length in H'. replace (m + k - m)%nat with k in H' by lia. apply H'. lia.
      - intros H' k Hk. destruct (Nat.ltb_spec k m).
        + rewrite app_nth1 by (now rewrite repeat_length). right. clear -H0. revert k H0; induction m; intros [|k] Hk; simpl; try lia; auto. apply IHm; lia.
        + rewrite app_nth2 by (now rewrite repeat_length). rewrite repeat_length.
          replace k with (m + (k - m))%nat at 2 by lia. apply H'. lia. }
    destruct (bcompat (bpad (ash v) t) t).
    - split; [intros _; split; auto; apply HB; auto|eauto].
    - split; [intros [w H']; discriminate|]. intros [_ H']. apply HB in H'. discriminate.
  Qed.

  (** *** Which decision entry each element of a variable is. *)
  Lemma lawful_read n (sp : spec T) sel vec i :
    lawful n sp sel -> length vec = n -> (i < prodn (s_shape sp))%nat ->
    exists a, s_unpack sp vec = Ok a /\ ash a = s_shape sp /\ nth i (adat a) 0 = nth (sel i) vec 0.
  Proof.
    intros L HL Hi. eexists. split; [apply (law_unpack _ _ _ L vec HL)|]. simpl.
    now rewrite nth_map_seq.
  Qed.

  Lemma piece_read n c off np ncol rest vec :
    comp_fits n c off -> c_shape c = (np * (ncol - 1) + 1)%nat :: rest ->
    (2 <= ncol)%nat -> (1 <= np)%nat -> length vec = n ->
    exists u a, s_unpack (dec_spec c) vec = Ok u /\
      s_unpack (piece_spec (dec_spec c) np ncol) vec = Ok a /\ ash a = np :: ncol :: rest /\ awf a /\
      forall k j q, (k < np)%nat -> (j < ncol)%nat -> (q < prodn rest)%nat ->
        nth ((k * ncol + j) * prodn rest + q) (adat a) 0
        = nth ((k * (ncol - 1) + j) * prodn rest + q) (adat u) 0.
  Proof.
    intros F Es Hc Hp HL. pose proof (dec_lawful n c off F) as LD.
    pose proof (piece_lawful n _ _ np ncol rest LD Es Hc Hp) as LP.
    eexists. eexists. split; [apply (law_unpack _ _ _ LD vec HL)|].
    split; [apply (law_unpack _ _ _ LP vec HL)|].
    assert (Esh : s_shape (piece_spec (dec_spec c) np ncol) = np :: ncol :: rest).
    { simpl. unfold piece_shape. simpl. now rewrite Es. }
    split; [simpl; unfold piece_shape; simpl; now rewrite Es|]. split; [apply awf_seq|].
    intros k j q Hk Hj Hq. rewrite Esh. cbn [adat].
    assert (Hi : ((k * ncol + j) * prodn rest + q < prodn (np :: ncol :: rest))%nat).
    { simpl. rewrite Nat.mul_assoc. apply radix_lt; auto. apply radix_lt; auto. }
    rewrite nth_map_seq by exact Hi.
    replace ((k * ncol + j) * prodn rest + q)%nat
      with (k * (ncol * prodn rest) + (j * prodn rest + q))%nat by ring.
    rewrite piece_ind_radix by auto.
    change (s_shape (dec_spec c)) with (c_shape c). rewrite Es.
    rewrite nth_map_seq; [reflexivity|]. cbn [prodn fold_right].
    apply radix_lt; auto.
    enough (k * (ncol - 1) + (ncol - 1) <= np * (ncol - 1))%nat by lia.
    enough ((S k) * (ncol - 1) <= np * (ncol - 1))%nat by (simpl in *; lia).
    apply Nat.mul_le_mono_r. lia.
  Qed.

  Lemma xe_read n c off npts nx vec :
    comp_fits n c off -> c_shape c = [npts; nx] -> (2 <= npts)%nat -> length vec = n ->
    exists x a, s_unpack (dec_spec c) vec = Ok x /\ s_unpack (xe_spec (dec_spec c)) vec = Ok a /\
      ash a = [2%nat; nx] /\ awf a /\
      forall q, (q < nx)%nat ->
        nth q (adat a) 0 = nth q (adat x) 0 /\
        nth (nx + q) (adat a) 0 = nth ((npts - 1) * nx + q) (adat x) 0.
  Proof.
    intros F Es Hp HL. pose proof (dec_lawful n c off F) as LD.
    pose proof (xe_lawful n _ _ npts nx LD Es Hp) as LP.
    eexists. eexists. split; [apply (law_unpack _ _ _ LD vec HL)|].
    split; [apply (law_unpack _ _ _ LP vec HL)|].
    assert (Esh : s_shape (xe_spec (dec_spec c)) = [2%nat; nx]) by (simpl; unfold xe_shape; simpl; now rewrite Es).
    rewrite Esh. split; [reflexivity|]. split; [apply (awf_seq [2%nat; nx])|].
    intros q Hq. cbn [adat]. change (s_shape (dec_spec c)) with (c_shape c). rewrite Es.
    assert (npts * nx >= 2 * nx)%nat by (apply Nat.mul_le_mono_r; lia).
    assert ((npts - 1) * nx + nx = npts * nx)%nat by (rewrite Nat.mul_sub_distr_r; lia).
    rewrite !nth_map_seq by (simpl; lia). unfold xe_ind.
    destruct (Nat.ltb_spec q nx); [|lia]. destruct (Nat.ltb_spec (nx + q) nx); [lia|].
    split; auto. do 3 f_equal. lia.
  Qed.

  Lemma xm_read n c off npts nx km vec :
    comp_fits n c off -> c_shape c = [npts; nx] ->
    (forall k, In k km -> (k < npts)%nat) -> NoDup km -> length vec = n ->
    exists x a, s_unpack (dec_spec c) vec = Ok x /\ s_unpack (xm_spec (dec_spec c) km) vec = Ok a /\
      ash a = [length km; nx] /\ awf a /\
      forall m q, (m < length km)%nat -> (q < nx)%nat ->
        nth (m * nx + q) (adat a) 0 = nth (nth m km O * nx + q) (adat x) 0.
  Proof.
    intros F Es Hk Hn HL. pose proof (dec_lawful n c off F) as LD.
    pose proof (xm_lawful n _ _ npts nx km LD Es Hk Hn) as LP.
    eexists. eexists. split; [apply (law_unpack _ _ _ LD vec HL)|].
    split; [apply (law_unpack _ _ _ LP vec HL)|].
    assert (Esh : s_shape (xm_spec (dec_spec c) km) = [length km; nx]) by (simpl; unfold xm_shape; simpl; now rewrite Es).
    rewrite Esh. split; [reflexivity|]. split; [apply (awf_seq [length km; nx])|].
    intros m q Hm Hq. cbn [adat]. change (s_shape (dec_spec c)) with (c_shape c). rewrite Es.
    rewrite nth_map_seq by (simpl; rewrite Nat.mul_1_r; apply radix_lt; auto).
    rewrite xm_ind_radix by auto. rewrite nth_map_seq; auto.
    simpl. rewrite Nat.mul_1_r. apply radix_lt; auto. apply Hk. now apply nth_In.
  Qed.

  Lemma lawful_all n (sp : spec T) sel : lawful n sp sel ->
    index_consistent n sp /\ adjoint n sp /\ accumulates n sp.
  Proof.
    intros L. split; [now apply (lawful_index _ _ sel)|].
    split; [now apply (lawful_adjoint _ _ sel)|now apply (lawful_accumulates _ _ sel)].
  Qed.

  Lemma piece_shared n c off np ncol rest vec a :
    comp_fits n c off -> c_shape c = (np * (ncol - 1) + 1)%nat :: rest ->
    (2 <= ncol)%nat -> (1 <= np)%nat -> length vec = n ->
    s_unpack (piece_spec (dec_spec c) np ncol) vec = Ok a ->
    forall k q, (k + 1 < np)%nat -> (q < prodn rest)%nat ->
      nth ((k * ncol + (ncol - 1)) * prodn rest + q) (adat a) 0
      = nth (((k + 1) * ncol + 0) * prodn rest + q) (adat a) 0.
  Proof.
    intros F Es Hc Hp HL Ea k q Hk Hq.
    destruct (piece_read n c off np ncol rest vec F Es Hc Hp HL) as (u & a' & _ & Ea' & _ & _ & H).
    rewrite Ea in Ea'. injection Ea' as <-. rewrite !H by lia. f_equal. lia.
  Qed.

  Lemma entry_owner (ops : list (op T)) (q : Z) : Forall op_small ops ->
    let p := history ops in
    let owns l i := (i < length l)%nat /\
                    (fst (nth i l (0, 0)) <= q < snd (nth i l (0, 0)))%Z in
    ((0 <= q < p_ndec p)%Z ->
       exists i, owns (map (fun kc => cslice (snd kc)) (p_decision p)) i /\
       forall j, owns (map (fun kc => cslice (snd kc)) (p_decision p)) j -> j = i) /\
    ((0 <= q < p_ncons p)%Z ->
       exists i, owns (map (fun co => cslice (fst co)) (p_constraints p)) i /\
       forall j, owns (map (fun co => cslice (fst co)) (p_constraints p)) j -> j = i).
  Proof.
    intros H p owns. pose proof (inv_history ops H) as I. split; intros Hq.
    - destruct (adjacent_cover _ _ _ _ (inv_dec _ I) Hq) as (i & H1 & H2 & H3).
      exists i. split; [split; auto|]. intros j [Hj Hc]. auto.
    - destruct (adjacent_cover _ _ _ _ (inv_cons _ I) Hq) as (i & H1 & H2 & H3).
      exists i. split; [split; auto|]. intros j [Hj Hc]. auto.
  Qed.
End LayoutLemmas.

Local Open Scope string_scope.
Lemma large_shapes : exists ops : list (op Z),
  let p := history ops in
  exists c, dlookup String.eqb (p_decision p) "a" = Ok c /\
    prodZ (c_shape c) = (2 ^ 32)%Z /\ cslice c = (0, 0)%Z /\
    p_ndec p = 2%Z /\
    exists d, dlookup String.eqb (p_decision p) "b" = Ok d /\ cslice d = (0, 2)%Z /\
    variables p [1%Z; 2%Z] = Err ValueError.
Proof.
  pose (k := Z.to_nat 65536).
  assert (Hp : prodZ [k; k] = (2 ^ 32)%Z) by (unfold prodZ, k; cbn [map fold_right]; rewrite Z2Nat.id by lia; reflexivity).
  assert (Hs : forall o, csize (Comp [k; k] o) = 0%Z) by (intros o; unfold csize; cbn [c_shape]; rewrite Hp; reflexivity).
  exists [AddDecision "a" [k; k]; AddDecision "b" [2%nat]]. cbv zeta.
  assert (EH : history (T := Z) [AddDecision "a" [k; k]; AddDecision "b" [2%nat]]
    = Problem [("a", Comp [k; k] 0); ("b", Comp [2%nat] 0)] [] [] [] 2 0 []).
  { unfold history. cbn [fold_left]. unfold call_catch, call, add_decision_st at 2.
    cbn [dmem dget p_decision p_remapped new_problem fst dset p_ndec p_ncons p_objectives p_constraints p_extra].
    rewrite Hs. reflexivity. }
  rewrite EH. clear EH.
  exists (Comp [k; k] 0). split; [reflexivity|]. split; [exact Hp|].
  split; [unfold cslice; rewrite Hs; reflexivity|]. split; [reflexivity|].
  exists (Comp [2%nat] 0). split; [reflexivity|]. split; [reflexivity|].
  unfold variables.
  cbn [p_ndec length passert bind all_specs p_decision p_remapped map app fst snd mapM dec_spec s_unpack].
  change (Z.of_nat 2 =? 2)%Z with true. cbn [passert bind].
  unfold c_unpack at 1, cslice. rewrite Hs. cbn [c_off c_shape].
  change (pyslice [1%Z; 2%Z] 0 (0 + 0)) with (@nil Z). unfold reshape.
  replace (length (@nil Z) =? prodn [k; k])%nat with false; [reflexivity|].
  symmetry. apply Nat.eqb_neq. intros E. apply (f_equal Z.of_nat) in E.
  rewrite <- prodZ_prodn, Hp in E. discriminate.
Qed.

Lemma single_point : exists (n : nat) (c : comp) (off : nat),
  comp_fits n c off /\ c_shape c = [1; 1]%nat /\ ~ adjoint (T := Z) n (xe_spec (dec_spec c)).
Proof.
  exists 1%nat, (Comp [1; 1]%nat 0), O. split; [vm_compute; repeat split; lia|]. split; [reflexivity|].
  intros A. destruct (A [0%Z] (Arr [2; 1]%nat [1; 1]%Z) [1%Z] eq_refl eq_refl eq_refl eq_refl)
    as (dest' & a & E1 & _ & E2 & H).
  vm_compute in E1. injection E1 as <-. vm_compute in E2. injection E2 as <-. vm_compute in H. discriminate.
Qed.
