(** Structural lemmas about whole problems. *)
From Coq Require Import String List ZArith Bool Arith Lia Ring.
From Verif Require Import Py NdArray OptimModel ColModel DictLemmas Builder BuilderLemmas
  NdLemmas OptimSpec OptimLaws LawFacts LayoutLemmas ProblemSpec.
Import ListNotations.

Lemma foldM_ok {A B} (f : A -> B -> res A) (h : A -> B -> A) (P : A -> Prop) l acc :
  P acc -> (forall a b, In b l -> P a -> f a b = Ok (h a b) /\ P (h a b)) ->
  foldM f acc l = Ok (fold_left h l acc) /\ P (fold_left h l acc).
Proof.
  revert acc; induction l as [|b l IH]; simpl; intros acc HP H; auto.
  destruct (H acc b) as [E HP']; auto. rewrite E. simpl. apply IH; auto.
Qed.

Lemma flat_map_length {A B} (f : A -> list B) l :
  length (flat_map f l) = fold_right Nat.add O (map (fun a => length (f a)) l).
Proof. induction l; simpl; auto. rewrite app_length. auto. Qed.

Lemma sum_nnz_ok {A} (f : A -> res nat) (g : A -> nat) l :
  (forall a, In a l -> f a = Ok (g a)) -> sum_nnz f l = Ok (fold_right Nat.add O (map g l)).
Proof.
  intros H. unfold sum_nnz.
  assert (forall acc, foldM (fun acc a => let* n := f a in Ok (acc + n)) acc l
    = Ok (acc + fold_right Nat.add 0 (map g l))) as E; [|apply E].
  induction l as [|a l IH]; simpl; intros acc; [f_equal; lia|].
  rewrite H by (simpl; auto). simpl. rewrite IH by (intros; apply H; simpl; auto). f_equal. lia.
Qed.

(** Accumulating pairs of lists under a length guard. *)
Lemma foldM_pairs {X Y B} (N : nat) (f : list X * list Y -> B -> res (list X * list Y))
    (F : B -> list X) (G : B -> list Y) l r0 r1 :
  (forall r0 r1 b, In b l -> length r0 + length (F b) <= N ->
     f (r0, r1) b = Ok (r0 ++ F b, r1 ++ G b)) ->
  length r0 + length (flat_map F l) <= N ->
  foldM f (r0, r1) l = Ok (r0 ++ flat_map F l, r1 ++ flat_map G l).
Proof.
  revert r0 r1; induction l as [|b l IH]; cbn [foldM flat_map]; intros r0 r1 H HN; [now rewrite !app_nil_r|].
  rewrite app_length in HN. rewrite H by (simpl; auto; lia). cbn [bind].
  rewrite IH; [now rewrite <- !app_assoc| |rewrite app_length; lia].
  intros. apply H; simpl; auto.
Qed.

Lemma foldM_triples {X Y Z B} (N : nat) (f : list X * list Y * list Z -> B -> res (list X * list Y * list Z))
    (F : B -> list X) (G : B -> list Y) (H : B -> list Z) l r0 r1 r2 :
  (forall r0 r1 r2 b, In b l -> length r0 + length (F b) <= N ->
     f (r0, r1, r2) b = Ok (r0 ++ F b, r1 ++ G b, r2 ++ H b)) ->
  length r0 + length (flat_map F l) <= N ->
  foldM f (r0, r1, r2) l = Ok (r0 ++ flat_map F l, r1 ++ flat_map G l, r2 ++ flat_map H l).
Proof.
  revert r0 r1 r2; induction l as [|b l IH]; cbn [foldM flat_map]; intros r0 r1 r2 Hf HN; [now rewrite !app_nil_r|].
  rewrite app_length in HN. rewrite Hf by (simpl; auto; lia). cbn [bind].
  rewrite IH; [now rewrite <- !app_assoc| |rewrite app_length; lia].
  intros. apply Hf; simpl; auto.
Qed.

Lemma foldM_list {X B} (N : nat) (f : list X -> B -> res (list X)) (F : B -> list X) l r0 :
  (forall r0 b, In b l -> length r0 + length (F b) <= N -> f r0 b = Ok (r0 ++ F b)) ->
  length r0 + length (flat_map F l) <= N ->
  foldM f r0 l = Ok (r0 ++ flat_map F l).
Proof.
  revert r0; induction l as [|b l IH]; cbn [foldM flat_map]; intros r0 Hf HN; [now rewrite !app_nil_r|].
  rewrite app_length in HN. rewrite Hf by (simpl; auto; lia). cbn [bind].
  rewrite IH; [now rewrite <- !app_assoc| |rewrite app_length; lia].
  intros. apply Hf; simpl; auto.
Qed.

Lemma Forall2_combine_nth {A B} (P : A -> B -> Prop) la lb :
  Forall2 P la lb -> forall a b, In (a, b) (combine la lb) -> P a b.
Proof. induction 1; simpl; [tauto|]. intros a b [E|H1]; [injection E as <- <-; auto|auto]. Qed.

Lemma NoDup_map_inj {A B} (f : A -> B) l :
  (forall a b, In a l -> In b l -> f a = f b -> a = b) -> NoDup l -> NoDup (map f l).
Proof.
  induction l as [|a l IH]; simpl; intros Hi H; [constructor|]. inversion H; subst. constructor.
  - intros Hin. apply in_map_iff in Hin. destruct Hin as (b & E & Hb).
    rewrite (Hi b a) in Hb; auto.
  - apply IH; auto.
Qed.

Section ProblemLemmas.
  Context {T : Type} {NT : Num T}.
  Open Scope num_scope.

  (** *** Reachable problems *)
  Lemma reachable_inv (p : problem T) : reachable p -> inv p.
  Proof.
    intros (ops & extra & H & ->). destruct (inv_history ops H). constructor; auto.
  Qed.

  Definition built (p : problem T) : Prop :=
    Forall (fun o => exists s f args, o = mk_optfun s f args) (p_objectives p) /\
    Forall (fun co => exists f args, snd co = mk_optfun (c_shape (fst co)) f args) (p_constraints p).

  Lemma built_history (ops : list (op T)) : built (history ops).
  Proof.
    unfold history. assert (B : built (@new_problem T)) by (split; constructor).
    revert B. generalize (@new_problem T). induction ops as [|o ops IH]; simpl; intros p B; auto.
    apply IH. unfold call_catch. destruct o as [nm s|nm sp|f s a|f s a]; simpl; auto.
    - destruct (add_decision_cases p nm s) as [(_ & ->)|(_ & p' & -> & _ & _ & E1 & E2)]; simpl; auto.
      unfold built. now rewrite E1, E2.
    - destruct (add_dependent_cases p nm sp) as [(_ & ->)|(_ & p' & -> & _ & _ & _ & E1 & E2)]; simpl; auto.
      unfold built. now rewrite E1, E2.
    - destruct B as [B1 B2]. split; auto. simpl. apply Forall_app. split; auto. constructor; [simpl; repeat eexists|constructor].
    - destruct B as [B1 B2]. split; auto. simpl. apply Forall_app. split; auto. constructor; [simpl; repeat eexists|constructor].
  Qed.

  Lemma reachable_built (p : problem T) : reachable p -> built p.
  Proof. intros (ops & extra & H & ->). apply (built_history ops). Qed.

  Lemma mk_optfun_args s (f : fn T) args :
    o_fun (mk_optfun s f args) = f /\ o_shape (mk_optfun s f args) = s.
  Proof. destruct args; auto. Qed.

  Lemma fst_all_specs (p : problem T) : map fst (all_specs p) = var_names p.
  Proof. unfold all_specs, var_names. rewrite map_app, map_map. reflexivity. Qed.

  Lemma specs_nodup (p : problem T) : inv p -> NoDup (map fst (all_specs p)).
  Proof. intros I. rewrite fst_all_specs. apply (inv_names p I). Qed.

  Lemma variable_spec_dget (p : problem T) name :
    variable_spec p name = match dget String.eqb (all_specs p) name with
                           | Some sp => Ok sp | None => Err ValueError end.
  Proof.
    unfold variable_spec, all_specs. rewrite dget_app.
    pose proof (dget_map (@dec_spec T NT) (p_decision p) name) as E.
    rewrite E. destruct (dget String.eqb (p_decision p) name); reflexivity.
  Qed.

  Lemma variable_spec_In (p : problem T) name sp : inv p ->
    In (name, sp) (all_specs p) -> variable_spec p name = Ok sp.
  Proof.
    intros I H. rewrite variable_spec_dget.
    rewrite (In_dget _ String.eqb_spec _ _ sp); auto. now apply specs_nodup.
  Qed.

  Lemma var_names_spec (p : problem T) name : In name (var_names p) ->
    exists sp, In (name, sp) (all_specs p).
  Proof.
    rewrite <- fst_all_specs. intros H. apply in_map_iff in H. destruct H as ([k sp] & <- & H). eauto.
  Qed.

  (** *** Variables at a decision vector *)
  Definition var_at (sel : string -> nat -> nat) (dvec : list T) (name : string) (sp : spec T) : arr T :=
    Arr (s_shape sp) (map (fun i => nth (sel name i) dvec 0) (seq 0 (prodn (s_shape sp)))).

  Lemma variables_ok (p : problem T) sel dvec :
    inv p -> selects p sel -> length dvec = ndec p ->
    exists vars, variables p dvec = Ok vars /\
      (forall name sp, In (name, sp) (all_specs p) ->
         dlookup String.eqb vars name = Ok (var_at sel dvec name sp)) /\
      (forall name, ~ In name (var_names p) ->
         dlookup String.eqb vars name = dlookup String.eqb (p_extra p) name).
  Proof.
    intros I S HL. unfold variables.
    assert (0 <= p_ndec p)%Z as Hn by (apply (adjacent_le _ _ _ (inv_dec p I))).
    unfold ndec in HL.
    destruct (Z.eqb_spec (Z.of_nat (length dvec)) (p_ndec p)); [|lia]. simpl.
    rewrite (mapM_Ok_all _ (fun kv => (fst kv, var_at sel dvec (fst kv) (snd kv)))).
    2: { intros [name sp] Hin. simpl. rewrite (law_unpack _ _ _ (S name sp Hin)) by auto. reflexivity. }
    simpl. eexists. split; [reflexivity|].
    set (items := map _ (all_specs p)).
    assert (Ni : map fst items = map fst (all_specs p)).
    { unfold items. rewrite map_map. apply map_ext. auto. }
    rewrite (dmake_NoDup _ String.eqb_spec) by (rewrite Ni; now apply specs_nodup).
    split.
    - intros name sp Hin. unfold dlookup. rewrite (dget_dmerge _ String.eqb_spec).
      rewrite (dget_rev _ String.eqb_spec) by (rewrite Ni; now apply specs_nodup).
      rewrite (In_dget _ String.eqb_spec items name (var_at sel dvec name sp)); auto.
      + rewrite Ni; now apply specs_nodup.
      + unfold items. apply in_map_iff. exists (name, sp). auto.
    - intros name Hin. unfold dlookup. rewrite (dget_dmerge _ String.eqb_spec).
      rewrite (dget_rev _ String.eqb_spec) by (rewrite Ni; now apply specs_nodup).
      replace (dget String.eqb items name) with (@None (arr T)); auto.
      symmetry. apply (dget_None _ String.eqb_spec). now rewrite Ni, fst_all_specs.
  Qed.

  (** *** Renaming *)
  Lemma param_nth (o : optfun T) k : NoDup (f_sig (o_fun o)) ->
    length (o_args o) = length (f_sig (o_fun o)) -> (k < length (f_sig (o_fun o)))%nat ->
    forall d1 d2, param o (nth k (f_sig (o_fun o)) d1) = nth k (o_args o) d2.
  Proof.
    intros N HL Hk d1 d2. unfold param.
    rewrite (In_dget _ String.eqb_spec _ _ (nth k (o_args o) d2)); auto.
    - rewrite map_fst_combine; auto.
    - rewrite (nth_indep _ d1 d2) by auto. rewrite <- combine_nth by auto.
      apply nth_In. rewrite combine_length. lia.
  Qed.

  Lemma map_param (o : optfun T) : NoDup (f_sig (o_fun o)) ->
    length (o_args o) = length (f_sig (o_fun o)) -> map (param o) (f_sig (o_fun o)) = o_args o.
  Proof.
    intros N HL. apply nth_ext with (d := param o EmptyString) (d' := EmptyString).
    - now rewrite map_length.
    - intros k Hk. rewrite map_length in Hk. rewrite map_nth. now apply param_nth.
  Qed.

  Lemma param_inj (o : optfun T) : NoDup (f_sig (o_fun o)) -> NoDup (o_args o) ->
    length (o_args o) = length (f_sig (o_fun o)) ->
    forall a b, In a (f_sig (o_fun o)) -> In b (f_sig (o_fun o)) -> param o a = param o b -> a = b.
  Proof.
    intros N1 N2 HL a b Ha Hb E.
    apply (In_nth _ _ EmptyString) in Ha. apply (In_nth _ _ EmptyString) in Hb.
    destruct Ha as (i & Hi & <-), Hb as (j & Hj & <-).
    rewrite !(param_nth o _ N1 HL) with (d2 := EmptyString) in E by auto.
    f_equal. eapply (proj1 (NoDup_nth (o_args o) EmptyString)); eauto; lia.
  Qed.

  Lemma ren1_param s (f : fn T) args w : let o := mk_optfun s f args in
    NoDup (f_sig f) -> length (o_args o) = length (f_sig f) -> In w (f_sig f) ->
    ren1 (o_renamed o) w = param o w.
  Proof.
    intros o N HL Hw. unfold o, mk_optfun, param, ren1 in *. destruct args as [a|]; simpl in *.
    - rewrite (dmake_NoDup _ String.eqb_spec); auto. rewrite map_fst_combine; auto.
    - rewrite (In_dget _ String.eqb_spec _ _ w); auto.
      + rewrite map_fst_combine; auto.
      + apply (In_nth _ _ EmptyString) in Hw. destruct Hw as (i & Hi & <-).
        rewrite <- combine_nth by auto. apply nth_In. rewrite combine_length. lia.
  Qed.

  Lemma rename_t_eq {V} s (f : fn T) args (d : list (tkey * V)) : let o := mk_optfun s f args in
    NoDup (f_sig f) -> NoDup (o_args o) -> length (o_args o) = length (f_sig f) ->
    (forall k, In k (map fst d) -> Forall (fun w => In w (f_sig f)) k) -> NoDup (map fst d) ->
    rename_t o d = map (fun kv => (map (param o) (fst kv), snd kv)) d.
  Proof.
    intros o N1 N2 HL Hk Nd. unfold rename_t.
    destruct (mk_optfun_args s f args) as [Ef _].
    assert (Em : map (fun kv => (map (ren1 (o_renamed o)) (fst kv), snd kv)) d
              = map (fun kv => (map (param o) (fst kv), snd kv)) d).
    { apply map_ext_in. intros kv Hin. f_equal. apply map_ext_in. intros w Hw.
      apply ren1_param; auto. specialize (Hk (fst kv) (in_map fst _ _ Hin)).
      rewrite Forall_forall in Hk. auto. }
    destruct (o_renamed o) as [|r rs] eqn:Er.
    - rewrite <- Em. rewrite <- (map_id d) at 1. apply map_ext. intros [k v]. simpl. f_equal.
      symmetry. rewrite <- (map_id k) at 2. apply map_ext. intros w. reflexivity.
    - rewrite Em. apply (dmake_NoDup _ tkey_eqb_spec). rewrite map_map. simpl.
      change (fun x : tkey * V => map (param o) (fst x)) with (fun x : tkey * V => (fun k => map (param o) k) (fst x)).
      rewrite <- (map_map fst (fun k => map (param o) k)). apply NoDup_map_inj; auto.
      intros a b Ha Hb. pose proof (Hk a Ha) as Fa. pose proof (Hk b Hb) as Fb. clear -Fa Fb N1 N2 HL Ef.
      revert b Fb; induction a as [|x a IH]; intros [|y b] Fb E; simpl in E; try discriminate; auto.
      inversion Fa; inversion Fb; subst. injection E as E1 E2. f_equal; auto.
      apply (param_inj o); rewrite ?Ef; auto; unfold o; rewrite Ef; auto.
  Qed.

  Lemma rename_s_eq {V} s (f : fn T) args (d : sdict V) : let o := mk_optfun s f args in
    NoDup (f_sig f) -> NoDup (o_args o) -> length (o_args o) = length (f_sig f) ->
    (forall k, In k (map fst d) -> In k (f_sig f)) -> NoDup (map fst d) ->
    rename_s o d = map (fun kv => (param o (fst kv), snd kv)) d.
  Proof.
    intros o N1 N2 HL Hk Nd. unfold rename_s.
    destruct (mk_optfun_args s f args) as [Ef _].
    assert (Em : map (fun kv => (ren1 (o_renamed o) (fst kv), snd kv)) d
              = map (fun kv => (param o (fst kv), snd kv)) d).
    { apply map_ext_in. intros kv Hin. f_equal. apply ren1_param; auto. apply Hk.
      now apply in_map. }
    destruct (o_renamed o) as [|r rs] eqn:Er.
    - rewrite <- Em. rewrite <- (map_id d) at 1. apply map_ext. intros [k v]. reflexivity.
    - rewrite Em. apply (dmake_NoDup _ String.eqb_spec). rewrite map_map. simpl.
      rewrite <- (map_map fst (param o)). apply NoDup_map_inj; auto.
      intros a b Ha Hb. apply (param_inj o); auto; unfold o; rewrite ?Ef; auto.
  Qed.

  (** Shapes are looked up under the argument's name. *)
  Lemma rename_kwargs_get {V} s (f : fn T) args (kw : sdict V) w v : let o := mk_optfun s f args in
    NoDup (f_sig f) -> length (o_args o) = length (f_sig f) -> In w (f_sig f) ->
    dget String.eqb kw (param o w) = Some v ->
    dget String.eqb (rename_kwargs o kw) w = Some v.
  Proof.
    intros o N HL Hw Hv. unfold rename_kwargs.
    destruct args as [a|].
    2: { simpl. rewrite <- Hv. f_equal. symmetry. change w with (ren1 (o_renamed o) w) at 2.
         symmetry. apply ren1_param; auto. }
    assert (Er : o_renamed o = combine (f_sig f) a).
    { unfold o, mk_optfun. simpl. apply (dmake_NoDup _ String.eqb_spec).
      rewrite map_fst_combine; auto. }
    rewrite Er.
    assert (Hp : In (w, param o w) (combine (f_sig f) a)).
    { apply (In_nth _ _ EmptyString) in Hw. destruct Hw as (i & Hi & <-).
      pose proof (param_nth o i N HL Hi EmptyString EmptyString) as Ep. change (f_sig (o_fun o)) with (f_sig f) in Ep. rewrite Ep. simpl o_args. simpl in HL.
      rewrite <- combine_nth by auto. apply nth_In. rewrite combine_length. lia. }
    assert (Nr : NoDup (map fst (combine (f_sig f) a))) by (rewrite map_fst_combine; auto).
    clearbody o. clear Er HL Hw N.
    generalize (combine (f_sig f) a) Hp Nr. clear Hp Nr. intros r.
    assert (G : forall r d, (In (w, param o w) r -> NoDup (map fst r) -> dget String.eqb (fold_left
      (fun d fk => match dget String.eqb kw (snd fk) with Some v => dset String.eqb d (fst fk) v | None => d end) r d) w = Some v)
      /\ (~ In w (map fst r) -> dget String.eqb (fold_left
      (fun d fk => match dget String.eqb kw (snd fk) with Some v => dset String.eqb d (fst fk) v | None => d end) r d) w = dget String.eqb d w)).
    { clear r. induction r as [|[fk pk] r IH]; simpl; intros d; [tauto|]. split.
      - intros [E|Hin] Nd.
        + injection E as -> ->. inversion Nd; subst. rewrite Hv.
          rewrite (proj2 (IH _)) by auto. rewrite (dget_dset _ String.eqb_spec).
          now rewrite String.eqb_refl.
        + inversion Nd; subst. apply (proj1 (IH _)); auto.
      - intros Hn. rewrite (proj2 (IH _)) by tauto.
        destruct (dget String.eqb kw pk); auto. rewrite (dget_dset _ String.eqb_spec).
        destruct (String.eqb_spec w fk); auto. subst. tauto. }
    intros. now apply G.
  Qed.

  Lemma variable_shapes_get (p : problem T) name sp : inv p -> In (name, sp) (all_specs p) ->
    dget String.eqb (variable_shapes p) name = Some (s_shape sp).
  Proof.
    intros I H. unfold variable_shapes.
    assert (N : NoDup (map fst (map (fun kv => (fst kv, s_shape (snd kv))) (all_specs p)))).
    { rewrite map_map. simpl. now apply specs_nodup. }
    rewrite (dmake_NoDup _ String.eqb_spec) by auto. apply (In_dget _ String.eqb_spec); auto.
    apply in_map_iff. exists (name, sp). auto.
  Qed.

  (** *** Arguments of one function *)
  Lemma active_spec (p : problem T) o w : In w (active p o) <->
    In w (f_sig (o_fun o)) /\ In (param o w) (var_names p).
  Proof.
    unfold active. rewrite filter_In, existsb_exists. split.
    - intros (H1 & x & H2 & E). apply String.eqb_eq in E. subst. auto.
    - intros (H1 & H2). split; auto. eexists. split; eauto. apply String.eqb_refl.
  Qed.

  Lemma param_shape_eq (p : problem T) o w sp : inv p -> In (param o w, sp) (all_specs p) ->
    param_shape p o w = s_shape sp.
  Proof. intros I H. unfold param_shape. now rewrite (variable_spec_In _ _ sp). Qed.

  Lemma active_var (p : problem T) o w : inv p -> In w (active p o) ->
    exists sp, In (param o w, sp) (all_specs p) /\ variable_spec p (param o w) = Ok sp /\
      param_shape p o w = s_shape sp.
  Proof.
    intros I Hw. apply active_spec in Hw as [H1 H2].
    destruct (var_names_spec _ _ H2) as (sp & Hin). exists sp. split; auto.
    split; [now apply variable_spec_In|now apply param_shape_eq].
  Qed.

  Lemma shapes_for (p : problem T) s f args : let o := mk_optfun s f args in
    inv p -> fits p o ->
    forall w, In w (active p o) ->
    dget String.eqb (rename_kwargs o (variable_shapes p)) w = Some (param_shape p o w).
  Proof.
    intros o I (N1 & N2 & HL & _) w Hw. destruct (mk_optfun_args s f args) as [Ef _].
    destruct (active_var p o w I Hw) as (sp & Hin & _ & Es).
    apply active_spec in Hw as [H1 H2]. unfold o in *. rewrite Ef in *.
    apply rename_kwargs_get; auto. rewrite Es. now apply variable_shapes_get.
  Qed.

  (** Value received for parameter [w]. *)
  Definition arg_at (p : problem T) (sel : string -> nat -> nat) (dvec : list T) (o : optfun T) (w : string) : arr T :=
    match variable_spec p (param o w) with
    | Ok sp => var_at sel dvec (param o w) sp
    | Err _ => match dget String.eqb (p_extra p) (param o w) with Some a => a | None => Arr [] [] end
    end.

  Lemma fun_args_ok (p : problem T) sel dvec o :
    inv p -> selects p sel -> length dvec = ndec p -> fits p o ->
    fun_args p dvec o = Ok (map (arg_at p sel dvec o) (f_sig (o_fun o))).
  Proof.
    intros I S HL (N1 & N2 & HA & Hv). unfold fun_args.
    destruct (variables_ok p sel dvec I S HL) as (vars & -> & H1 & H2). simpl. unfold get_args.
    rewrite <- (map_param o N1 HA). rewrite mapM_map.
    apply mapM_Ok_all. intros w Hw. unfold arg_at.
    assert (Hp : In (param o w) (o_args o)).
    { rewrite <- (map_param o N1 HA). now apply in_map. }
    destruct (in_dec string_dec (param o w) (var_names p)) as [Hi|Hi].
    - destruct (var_names_spec _ _ Hi) as (sp & Hin). rewrite (variable_spec_In p _ sp) by auto.
      now apply H1.
    - rewrite H2 by auto. destruct (Hv _ Hp) as [?|(a & Ea)]; [tauto|].
      unfold dlookup. rewrite Ea.
      destruct (variable_spec p (param o w)) as [sp|] eqn:Es; auto.
      exfalso. apply Hi. rewrite variable_spec_dget in Es.
      destruct (dget String.eqb (all_specs p) (param o w)) eqn:Ed; [|discriminate].
      apply (dget_In _ String.eqb_spec) in Ed. apply (in_map fst) in Ed. rewrite fst_all_specs in Ed. exact Ed.
  Qed.
End ProblemLemmas.
