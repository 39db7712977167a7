(** Facts about assembled problems, generic in the number type. *)
From Coq Require Import String List ZArith Bool Arith Lia Ring.
From Verif Require Import Py NdArray OptimModel ColModel DictLemmas Builder BuilderLemmas
  NdLemmas OptimSpec OptimLaws LawFacts LayoutLemmas ProblemSpec ProblemLemmas AssemblyLemmas.
Import ListNotations.

Lemma Forall_exists2 {A B} (P : A -> B -> Prop) l :
  (forall a, In a l -> exists b, P a b) -> exists bs, Forall2 P l bs.
Proof.
  induction l as [|a l IH]; intros H; [exists []; constructor|].
  destruct (H a (or_introl eq_refl)) as (b & Hb). destruct IH as (bs & Hbs); [intros; apply H; simpl; auto|].
  exists (b :: bs). now constructor.
Qed.

Lemma combine_app2 {A B} (a1 a2 : list A) (b1 b2 : list B) : length a1 = length b1 ->
  combine (a1 ++ a2) (b1 ++ b2) = combine a1 b1 ++ combine a2 b2.
Proof. revert b1; induction a1; intros [|b b1] H; simpl in *; try discriminate; auto. f_equal. auto. Qed.

Lemma combine_flat_map {A B X} (f : X -> list A) (g : X -> list B) l :
  (forall x, In x l -> length (f x) = length (g x)) ->
  combine (flat_map f l) (flat_map g l) = flat_map (fun x => combine (f x) (g x)) l.
Proof.
  induction l; simpl; intros H; auto. rewrite combine_app2 by (apply H; auto).
  rewrite IHl by (intros; apply H; auto). reflexivity.
Qed.

Lemma flat_map_combine_r {A B C} (g : B -> list C) (la : list A) lb : length lb = length la ->
  flat_map g lb = flat_map (fun x => g (snd x)) (combine la lb).
Proof. revert lb; induction la; intros [|b lb] H; simpl in *; try discriminate; auto. f_equal; auto. Qed.
Lemma flat_map_combine_l {A B C} (g : A -> list C) (la : list A) (lb : list B) : length lb = length la ->
  flat_map g la = flat_map (fun x => g (fst x)) (combine la lb).
Proof. revert lb; induction la; intros [|b lb] H; simpl in *; try discriminate; auto. f_equal; auto. Qed.

Lemma flat_map_length_eq {X A B} (f : X -> list A) (g : X -> list B) l :
  (forall x, In x l -> length (f x) = length (g x)) -> length (flat_map f l) = length (flat_map g l).
Proof. induction l; simpl; intros H; auto. rewrite !app_length, IHl, H; auto. Qed.

Lemma in_range_flat {X} n (f : X -> list Z) l : (forall x, In x l -> in_range n (f x)) -> in_range n (flat_map f l).
Proof.
  intros H. unfold in_range. rewrite Forall_forall. intros z Hz. apply in_flat_map in Hz.
  destruct Hz as (x & H1 & H2). specialize (H x H1). unfold in_range in H. rewrite Forall_forall in H. auto.
Qed.

Section Facts.
  Context {T : Type} {NT : Num T}.
  Open Scope num_scope.
  Add Ring Tring2 : (num_rt (T := T)).

  (** The selector of every variable can be collected in one function. *)
  Lemma selects_exists (p : problem T) : reachable p -> dependents_lawful p -> exists sel, selects p sel.
  Proof.
    intros R D. pose proof (reachable_inv p R) as I.
    assert (G : forall l : sdict (spec T), NoDup (map fst l) ->
      (forall name sp, In (name, sp) l -> exists s, lawful (ndec p) sp s) ->
      exists sel : string -> nat -> nat, forall name sp, In (name, sp) l -> lawful (ndec p) sp (sel name)).
    { induction l as [|[k sp] l IH]; intros N H.
      - exists (fun _ i => i). simpl. tauto.
      - simpl in N. inversion N as [|x y Hk N']; subst.
        destruct IH as (sel & Hs); auto; [intros; eapply H; simpl; eauto|].
        destruct (H k sp) as (s & L); [simpl; auto|].
        exists (fun nm => if String.eqb nm k then s else sel nm).
        intros nm sp' [E|Hin].
        + injection E as <- <-. now rewrite String.eqb_refl.
        + destruct (String.eqb_spec nm k).
          * subst. exfalso. apply Hk. apply (in_map fst) in Hin. exact Hin.
          * auto. }
    destruct (G (all_specs p) (specs_nodup p I)) as (sel & Hsel).
    - intros name sp Hin. unfold all_specs in Hin. apply in_app_or in Hin. destruct Hin as [Hin|Hin].
      + apply in_map_iff in Hin. destruct Hin as ([k c] & E & Hin). injection E as <- <-.
        exists (fun i => (Z.to_nat (c_off c) + i)%nat). apply dec_lawful. eapply inv_dec_fits; eauto.
      + eapply D; eauto.
    - exists sel. exact Hsel.
  Qed.

  Section One.
  Variable p : problem T.
  Variable sel : string -> nat -> nat.
  Hypothesis R : reachable p.
  Hypothesis S : selects p sel.
  Let I : inv p := reachable_inv p R.

  (** *** Constraint vector *)
  Lemma cvals_shape dvec cs vs : Forall2 (cval_ok p dvec) cs vs ->
    Forall2 (fun co v => ash v = c_shape (fst co) /\ awf v) cs vs.
  Proof.
    intros H. eapply Forall2_impl; [|exact H]. intros co v (_ & A & v0 & _ & _ & Hb). now apply broadcast_awf in Hb.
  Qed.

  Lemma constr_slices dvec vs : length dvec = ndec p ->
    Forall2 (cval_ok p dvec) (p_constraints p) vs ->
    exists cvec, constr p dvec = Ok cvec /\ length cvec = ncons p /\
      Forall2 (fun co v => c_unpack (fst co) cvec = Ok v) (p_constraints p) vs.
  Proof.
    intros HL HF. destruct (constr_value p sel R S dvec vs HL HF) as [E1 E2].
    exists (flat_map adat vs). repeat split; auto.
    apply (unpack_stacked (p_constraints p) vs 0 (p_ncons p) []); auto.
    - apply cons_adjacent. exact R.
    - apply (inv_csmall p I).
    - eapply cvals_shape; eauto.
  Qed.

  Lemma unpack_constraints_val cvec vs : length cvec = ncons p ->
    Forall2 (fun co v => c_unpack (fst co) cvec = Ok v) (p_constraints p) vs ->
    exists d, unpack_constraints p cvec = Ok d /\
      forall nm, nm <> EmptyString -> dget String.eqb d nm = last_named nm (combine (p_constraints p) vs).
  Proof.
    intros HL HF. unfold unpack_constraints.
    pose proof (adjacent_le _ _ _ (cons_adjacent p R)) as Hle.
    assert (Hn : (p_ncons p <=? Z.of_nat (length cvec))%Z = true).
    { apply Z.leb_le. rewrite HL. unfold ncons. lia. }
    rewrite Hn. cbn [passert bind].
    assert (G : forall acc, exists d, foldM (fun ret co => let name := f_name (o_fun (snd co)) in
      if String.eqb name EmptyString then Ok ret
      else let* a := c_unpack (fst co) cvec in Ok (dset String.eqb ret name a)) acc (p_constraints p) = Ok d /\
      forall nm, nm <> EmptyString -> dget String.eqb d nm
        = match last_named nm (combine (p_constraints p) vs) with Some x => Some x | None => dget String.eqb acc nm end).
    { induction HF as [|co v cs vs H HF IH]; intros acc.
      - exists acc. split; auto.
      - cbn [foldM combine last_named]. cbv zeta.
        destruct (String.eqb_spec (f_name (o_fun (snd co))) EmptyString) as [E|E].
        + destruct (IH acc) as (d & E1 & E2). exists d. split; [exact E1|]. intros nm Hnm. rewrite E2 by auto.
          rewrite E. destruct (last_named nm (combine cs vs)); auto.
          destruct (String.eqb_spec nm EmptyString); [contradiction|auto].
        + rewrite H. cbn [bind]. destruct (IH (dset String.eqb acc (f_name (o_fun (snd co))) v)) as (d & E1 & E2).
          exists d. split; [exact E1|]. intros nm Hnm. rewrite E2 by auto.
          destruct (last_named nm (combine cs vs)); auto.
          rewrite (dget_dset _ String.eqb_spec). destruct (String.eqb nm _); auto. }
    destruct (G []) as (d & E1 & E2). exists d. split; [exact E1|]. intros nm Hnm. rewrite E2 by auto.
    destruct (last_named nm _); auto.
  Qed.

  (** *** Jacobian entries *)
  Lemma dix_in_range o w l : In w (active p o) -> in_range (prodn (param_shape p o w)) l ->
    in_range (ndec p) (map (dix sel o w) l).
  Proof.
    intros Ha H. unfold in_range in *. rewrite Forall_forall in *. intros z Hz. apply in_map_iff in Hz.
    destruct Hz as (i & <- & Hi). specialize (H i Hi).
    apply (dix_range p sel R S); auto.
  Qed.

  Lemma row_in_range c (o : optfun T) l : In (c, o) (p_constraints p) -> in_range (prodn (c_shape c)) l ->
    in_range (ncons p) (map (fun i => i + c_off c)%Z l).
  Proof.
    intros Hin H. destruct (inv_cons_fits p c o I Hin) as (E & Hb & _).
    unfold in_range in *. rewrite Forall_forall in *. intros z Hz. apply in_map_iff in Hz.
    destruct Hz as (i & <- & Hi). specialize (H i Hi). unfold ncons. lia.
  Qed.

  Lemma zip_cons {A B} (P : A -> B -> Prop) la lb : Forall2 P la lb ->
    forall x, In x (combine la lb) -> In (fst x) la /\ P (fst x) (snd x).
  Proof.
    intros H [a b] Hx. split; [now apply in_combine_l in Hx|]. now apply (Forall2_combine_nth _ _ _ H).
  Qed.

  Lemma jac_entries dvec jds : length dvec = ndec p ->
    Forall2 (jac_at_ok p dvec) (p_constraints p) jds ->
    exists nnz i0 i1 vals,
      constr_jac_nnz p = Ok nnz /\ constr_jac_ind p = Ok (i0, i1) /\ constr_jac_val p dvec = Ok vals /\
      length i0 = nnz /\ length i1 = nnz /\ length vals = nnz /\
      in_range (ndec p) i0 /\ in_range (ncons p) i1 /\
      combine i0 (combine i1 vals)
      = flat_map (fun x => jentries sel (fst x) (snd x)) (combine (p_constraints p) jds).
  Proof.
    intros HD HF.
    assert (HL : length jds = length (p_constraints p)) by (symmetry; eapply Forall2_length; eauto).
    pose proof (zip_cons _ _ _ HF) as HX.
    assert (HF1 : Forall2 (jac_ok p) (p_constraints p) (map fst jds)).
    { apply Forall2_map_r. eapply Forall2_impl; [|exact HF]. intros a b [H _]. exact H. }
    destruct (jac_index p sel R S _ HF1) as [EN EI].
    pose proof (jac_value p sel R S dvec jds HD HF) as EV.
    assert (EC : combine (p_constraints p) (map fst jds)
      = map (fun x => (fst x, fst (snd x))) (combine (p_constraints p) jds)).
    { clear. generalize (p_constraints p). induction jds; intros [|c l]; simpl; auto. f_equal; auto. }
    rewrite EC, !flat_map_map in EI. cbn [fst snd] in EI.
    rewrite (flat_map_combine_r _ (p_constraints p) jds HL) in EV.
    set (X := combine (p_constraints p) jds) in *.
    do 4 eexists. split; [exact EN|]. split; [exact EI|]. split; [exact EV|].
    assert (L0 : length (flat_map (fun x => jcols sel (snd (fst x)) (fst (snd x))) X) = sum_len jlen (map fst jds)).
    { rewrite (sum_len_flat _ (fun x => jlen (fst (snd x)))).
      - unfold X. clear -HL. revert HL. generalize (p_constraints p). unfold sum_len.
        induction jds; intros [|c l] H; simpl in *; try discriminate; auto.
      - intros x _. unfold jcols, jlen. apply sum_len_flat. intros b _. now rewrite map_length. }
    assert (L1 : length (flat_map (fun x => jrows (fst (fst x)) (fst (snd x))) X)
               = length (flat_map (fun x => jcols sel (snd (fst x)) (fst (snd x))) X)).
    { apply flat_map_length_eq. intros x Hx. destruct (HX x Hx) as [_ [[_ J] _]].
      unfold jrows, jcols. apply flat_map_length_eq. intros b Hb. rewrite !map_length.
      pose proof (js_ok _ _ _ _ _ J) as Ho. rewrite Forall_forall in Ho. apply (Ho b Hb). }
    assert (L2 : length (flat_map (fun x => vals_of (snd (snd x))) X)
               = length (flat_map (fun x => jcols sel (snd (fst x)) (fst (snd x))) X)).
    { apply flat_map_length_eq. intros x Hx. destruct (HX x Hx) as [_ [_ (A & _ & _ & HV)]].
      unfold vals_of, jcols. clear -HV. induction HV; simpl; auto.
      rewrite !app_length, IHHV, H, map_length. reflexivity. }
    repeat split; try congruence.
    - apply in_range_flat. intros x Hx. destruct (HX x Hx) as [_ [[_ J] _]].
      apply in_range_flat. intros b Hb. pose proof (js_ok _ _ _ _ _ J) as Ho. rewrite Forall_forall in Ho.
      destruct (Ho b Hb) as (Ha & _ & Hr & _). now apply dix_in_range.
    - apply in_range_flat. intros [[c o] jd] Hx. destruct (HX _ Hx) as [Hin [[_ J] _]].
      apply in_range_flat. intros b Hb. pose proof (js_ok _ _ _ _ _ J) as Ho. rewrite Forall_forall in Ho.
      destruct (Ho b Hb) as (_ & _ & _ & Hr). eapply row_in_range; eauto.
    - rewrite (combine_flat_map _ _ X), combine_flat_map.
      + apply flat_map_ext_in. intros [[c o] [jb vs]] Hx. destruct (HX _ Hx) as [_ [[_ J] (A & _ & _ & HV)]].
        cbn [fst snd] in *. unfold jentries, jcols, jrows, vals_of. cbn [fst snd].
        pose proof (js_ok _ _ _ _ _ J) as Ho. clear -HV Ho.
        induction HV as [|b v jb vs H HV IH]; simpl; auto. inversion Ho as [|x y (_ & E & _) Ho']; subst.
        rewrite (combine_app2 (map _ (jb_o b))) by (rewrite map_length; congruence).
        rewrite combine_app2 by (rewrite combine_length, !map_length; lia).
        rewrite IH by auto. reflexivity.
      + intros x Hx. rewrite combine_length. destruct (HX x Hx) as [_ [[_ J] (A & _ & _ & HV)]].
        pose proof (js_ok _ _ _ _ _ J) as Ho. unfold jcols, jrows, vals_of. clear -HV Ho.
        induction HV as [|b v jb vs H HV IH]; simpl; auto. inversion Ho as [|x' y (_ & E & _) Ho']; subst.
        rewrite !app_length, !map_length. rewrite IH by auto. lia.
      + intros x Hx. destruct (HX x Hx) as [_ [[_ J] (A & _ & _ & HV)]].
        pose proof (js_ok _ _ _ _ _ J) as Ho. unfold jrows, vals_of. clear -HV Ho.
        induction HV as [|b v jb vs H HV IH]; simpl; auto. inversion Ho as [|x' y (_ & E & _) Ho']; subst.
        rewrite !app_length, !map_length. rewrite IH by auto. lia.
  Qed.

  (** *** Hessian entries *)
  Definition hcols0 (sl : optfun T) (hb : list hblock) := hrow0 sel sl hb.

  Lemma hess_block (s : shape) (o : optfun T) hb : hess_ok p s o hb ->
    length (hrow0 sel o hb) = hlen hb /\ length (hrow1 sel o hb) = hlen hb /\
    length (flat_map hb_o hb) = hlen hb /\
    in_range (ndec p) (hrow0 sel o hb) /\ in_range (ndec p) (hrow1 sel o hb) /\
    in_range (prodn s) (flat_map hb_o hb).
  Proof.
    intros [_ J]. pose proof (hs_ok _ _ _ _ _ J) as Ho. unfold hrow0, hrow1, hlen, sum_len.
    split; [|split; [|split; [|split; [|split]]]].
    - rewrite flat_map_length. f_equal. apply map_ext. intros. now rewrite map_length.
    - rewrite flat_map_length. f_equal. apply map_ext_in. intros b Hb. rewrite map_length.
      rewrite Forall_forall in Ho. destruct (Ho b Hb) as (_ & _ & E & _). exact E.
    - rewrite flat_map_length. f_equal. apply map_ext_in. intros b Hb.
      rewrite Forall_forall in Ho. destruct (Ho b Hb) as (_ & _ & _ & E & _). exact E.
    - apply in_range_flat. intros b Hb. rewrite Forall_forall in Ho. destruct (Ho b Hb) as (H1 & H2 & _ & _ & H5 & _).
      now apply dix_in_range.
    - apply in_range_flat. intros b Hb. rewrite Forall_forall in Ho. destruct (Ho b Hb) as (H1 & H2 & _ & _ & H5 & H6 & _).
      now apply dix_in_range.
    - apply in_range_flat. intros b Hb. rewrite Forall_forall in Ho. destruct (Ho b Hb) as (_ & _ & _ & _ & _ & _ & H7). auto.
  Qed.

  Lemma hess_zip (s : shape) (o : optfun T) hb (vs : list (arr T)) off : hess_ok p s o hb ->
    Forall2 (fun b v => length (adat v) = length (hb_i b)) hb vs ->
    length (vals_of vs) = hlen hb /\
    combine (combine (hrow0 sel o hb) (hrow1 sel o hb))
            (combine (flat_map (fun b => map (fun i => (i + off)%Z) (hb_o b)) hb) (vals_of vs))
    = hentries sel off o (hb, vs).
  Proof.
    intros [_ J] HV. pose proof (hs_ok _ _ _ _ _ J) as Ho. unfold hrow0, hrow1, hlen, sum_len, vals_of, hentries.
    cbn [fst snd]. clear -HV Ho. induction HV as [|b v hb vs H HV IH]; simpl; auto.
    inversion Ho as [|x y (_ & _ & E1 & E2 & _) Ho']; subst. destruct (IH Ho') as [I1 I2].
    split; [rewrite app_length; lia|].
    rewrite (combine_app2 (map (dix sel o (hb_a b)) _)) by (rewrite !map_length; congruence).
    rewrite (combine_app2 (map (fun i => (i + off)%Z) (hb_o b))) by (rewrite map_length; congruence).
    rewrite combine_app2 by (rewrite !combine_length, !map_length; lia).
    now rewrite I2.
  Qed.

  Lemma combine_map_fst_r {A B C} (l : list A) (m : list (B * C)) :
    combine l (map fst m) = map (fun x => (fst x, fst (snd x))) (combine l m).
  Proof. revert m; induction l; intros [|c m]; simpl; auto. f_equal; auto. Qed.

  Lemma sum_len_zip {A B} (f : B -> nat) (la : list A) (lb : list B) : length lb = length la ->
    sum_len f lb = sum_len (fun x => f (snd x)) (combine la lb).
  Proof.
    unfold sum_len. revert lb; induction la; intros [|b lb] H; simpl in *; try discriminate; auto.
  Qed.

  Lemma flat_map_len_sum {X A} (f : X -> list A) (g : X -> nat) l :
    (forall x, In x l -> length (f x) = g x) -> length (flat_map f l) = sum_len g l.
  Proof. apply sum_len_flat. Qed.

  (** Constraint Hessian. *)
  Lemma chess_entries dvec hds : length dvec = ndec p ->
    Forall2 (chess_at_ok p dvec) (p_constraints p) hds ->
    exists nnz i0 i1 i2 vals,
      constr_hess_nnz p = Ok nnz /\ constr_hess_ind p = Ok (i0, i1, i2) /\ constr_hess_val p dvec = Ok vals /\
      length i0 = nnz /\ length i1 = nnz /\ length i2 = nnz /\ length vals = nnz /\
      in_range (ndec p) i0 /\ in_range (ndec p) i1 /\ in_range (ncons p) i2 /\
      combine (combine i0 i1) (combine i2 vals)
      = flat_map (fun x => hentries sel (c_off (fst (fst x))) (snd (fst x)) (snd x)) (combine (p_constraints p) hds).
  Proof.
    intros HD HF.
    assert (HL : length hds = length (p_constraints p)) by (symmetry; eapply Forall2_length; eauto).
    pose proof (zip_cons _ _ _ HF) as HX.
    assert (HF1 : Forall2 (chess_ok p) (p_constraints p) (map fst hds)).
    { apply Forall2_map_r. eapply Forall2_impl; [|exact HF]. intros a b [H _]. exact H. }
    destruct (constr_hess_index p sel R S _ HF1) as [EN EI].
    pose proof (constr_hess_value p sel R S dvec hds HD HF) as EV.
    rewrite combine_map_fst_r, !flat_map_map in EI. cbn [fst snd] in EI.
    rewrite (flat_map_combine_r _ (p_constraints p) hds HL) in EV.
    rewrite (sum_len_zip _ (p_constraints p)) in EN by now rewrite map_length.
    rewrite combine_map_fst_r in EN. unfold sum_len in EN. rewrite map_map in EN. cbn [snd] in EN.
    change (fold_right Nat.add 0%nat (map (fun x => hlen (fst (snd x))) (combine (p_constraints p) hds)))
      with (sum_len (fun x => hlen (fst (snd x))) (combine (p_constraints p) hds)) in EN.
    set (X := combine (p_constraints p) hds) in *.
    assert (HB : forall x, In x X -> hess_ok p (c_shape (fst (fst x))) (snd (fst x)) (fst (snd x)) /\
      Forall2 (fun b v => length (adat v) = length (hb_i b)) (fst (snd x)) (snd (snd x))).
    { intros x Hx. destruct (HX x Hx) as [_ [H (A & _ & _ & HV)]]. split; auto. }
    do 5 eexists. split; [exact EN|]. split; [exact EI|]. split; [exact EV|].
    assert (Hr2 : forall x, In x X -> length (hrow2 (fst (fst x)) (fst (snd x))) = hlen (fst (snd x))).
    { intros x Hx. destruct (HB x Hx) as [H _]. destruct (hess_block _ _ _ H) as (_ & _ & E & _).
      rewrite <- E. unfold hrow2. rewrite !flat_map_length. f_equal. apply map_ext. intros; now rewrite map_length. }
    split; [|split; [|split; [|split; [|split; [|split; [|split]]]]]].
    - apply flat_map_len_sum. intros x Hx. destruct (HB x Hx) as [H _]. apply (hess_block _ _ _ H).
    - apply flat_map_len_sum. intros x Hx. destruct (HB x Hx) as [H _]. apply (hess_block _ _ _ H).
    - apply flat_map_len_sum. auto.
    - apply flat_map_len_sum. intros x Hx. destruct (HB x Hx) as [H HV]. apply (hess_zip _ _ _ _ 0%Z H HV).
    - apply in_range_flat. intros x Hx. destruct (HB x Hx) as [H _]. apply (hess_block _ _ _ H).
    - apply in_range_flat. intros x Hx. destruct (HB x Hx) as [H _]. apply (hess_block _ _ _ H).
    - apply in_range_flat. intros [[c o] hd] Hx. destruct (HB _ Hx) as [H _]. cbn [fst snd] in *.
      unfold hrow2. rewrite <- (map_flat_map (fun i => (i + c_off c)%Z) hb_o).
      destruct (HX _ Hx) as [Hin _]. eapply row_in_range; [exact Hin|]. apply (hess_block _ _ _ H).
    - rewrite (combine_flat_map _ _ X), (combine_flat_map _ _ X), combine_flat_map.
      + apply flat_map_ext_in. intros [[c o] [hb vs]] Hx. destruct (HB _ Hx) as [H HV]. cbn [fst snd] in *.
        apply (hess_zip _ _ _ _ (c_off c) H HV).
      + intros x Hx. destruct (HB x Hx) as [H HV]. rewrite !combine_length.
        destruct (hess_block _ _ _ H) as (-> & -> & _). rewrite Hr2 by auto.
        destruct (hess_zip _ _ _ _ 0%Z H HV) as [-> _]. reflexivity.
      + intros x Hx. destruct (HB x Hx) as [H HV]. rewrite Hr2 by auto.
        destruct (hess_zip _ _ _ _ 0%Z H HV) as [-> _]. reflexivity.
      + intros x Hx. destruct (HB x Hx) as [H HV].
        destruct (hess_block _ _ _ H) as (-> & -> & _). reflexivity.
  Qed.

  (** Objective Hessian. *)
  Lemma ohess_entries dvec hds : length dvec = ndec p ->
    Forall2 (ohess_at_ok p dvec) (p_objectives p) hds ->
    exists nnz i0 i1 vals,
      obj_hess_nnz p = Ok nnz /\ obj_hess_ind p = Ok (i0, i1) /\ obj_hess_val p dvec = Ok vals /\
      length i0 = nnz /\ length i1 = nnz /\ length vals = nnz /\
      in_range (ndec p) i0 /\ in_range (ndec p) i1 /\
      combine (combine i0 i1) vals
      = map (fun e => (fst e, snd (snd e)))
          (flat_map (fun x => hentries sel 0 (fst x) (snd x)) (combine (p_objectives p) hds)).
  Proof.
    intros HD HF.
    assert (HL : length hds = length (p_objectives p)) by (symmetry; eapply Forall2_length; eauto).
    pose proof (zip_cons _ _ _ HF) as HX.
    assert (HF1 : Forall2 (ohess_ok p) (p_objectives p) (map fst hds)).
    { apply Forall2_map_r. eapply Forall2_impl; [|exact HF]. intros a b [H _]. exact H. }
    destruct (obj_hess_index p sel R S _ HF1) as [EN EI].
    pose proof (obj_hess_value p sel R S dvec hds HD HF) as EV.
    rewrite combine_map_fst_r, !flat_map_map in EI. cbn [fst snd] in EI.
    rewrite (flat_map_combine_r _ (p_objectives p) hds HL) in EV.
    rewrite (sum_len_zip _ (p_objectives p)) in EN by now rewrite map_length.
    rewrite combine_map_fst_r in EN. unfold sum_len in EN. rewrite map_map in EN. cbn [snd] in EN.
    change (fold_right Nat.add 0%nat (map (fun x => hlen (fst (snd x))) (combine (p_objectives p) hds)))
      with (sum_len (fun x => hlen (fst (snd x))) (combine (p_objectives p) hds)) in EN.
    set (X := combine (p_objectives p) hds) in *.
    assert (HB : forall x, In x X -> hess_ok p (o_shape (fst x)) (fst x) (fst (snd x)) /\
      Forall2 (fun b v => length (adat v) = length (hb_i b)) (fst (snd x)) (snd (snd x))).
    { intros x Hx. destruct (HX x Hx) as [_ [H (A & _ & _ & HV)]]. split; auto. }
    do 4 eexists. split; [exact EN|]. split; [exact EI|]. split; [exact EV|].
    split; [|split; [|split; [|split; [|split]]]].
    - apply flat_map_len_sum. intros x Hx. destruct (HB x Hx) as [H _]. apply (hess_block _ _ _ H).
    - apply flat_map_len_sum. intros x Hx. destruct (HB x Hx) as [H _]. apply (hess_block _ _ _ H).
    - apply flat_map_len_sum. intros x Hx. destruct (HB x Hx) as [H HV]. apply (hess_zip _ _ _ _ 0%Z H HV).
    - apply in_range_flat. intros x Hx. destruct (HB x Hx) as [H _]. apply (hess_block _ _ _ H).
    - apply in_range_flat. intros x Hx. destruct (HB x Hx) as [H _]. apply (hess_block _ _ _ H).
    - rewrite (combine_flat_map _ _ X), combine_flat_map, map_flat_map.
      + apply flat_map_ext_in. intros [o [hb vs]] Hx. destruct (HB _ Hx) as [H HV]. cbn [fst snd] in *.
        destruct (hess_zip _ _ _ _ 0%Z H HV) as [E <-].
        destruct (hess_block _ _ _ H) as (E0 & E1 & E2 & _).
        assert (L : length (flat_map (fun b => map (fun i => (i + 0)%Z) (hb_o b)) hb) = length (vals_of vs)).
        { rewrite E, <- E2, !flat_map_length. f_equal. apply map_ext. intros; now rewrite map_length. }
        revert L. generalize (flat_map (fun b => map (fun i => (i + 0)%Z) (hb_o b)) hb).
        generalize (combine (hrow0 sel o hb) (hrow1 sel o hb)). generalize (vals_of vs). clear.
        intros v c; revert v. induction c; intros [|v vs] [|z zs] H; simpl in *; try discriminate; auto.
        f_equal. apply IHc. lia.
      + intros x Hx. destruct (HB x Hx) as [H HV]. rewrite !combine_length.
        destruct (hess_block _ _ _ H) as (-> & -> & _).
        destruct (hess_zip _ _ _ _ 0%Z H HV) as [-> _]. lia.
      + intros x Hx. destruct (HB x Hx) as [H HV].
        destruct (hess_block _ _ _ H) as (-> & -> & _). reflexivity.
  Qed.

  (** Lagrangian Hessian. *)
  Lemma pyindex_nat (m : list T) i : (0 <= i < Z.of_nat (length m))%Z ->
    pyindex m i = Ok (nth (Z.to_nat i) m 0).
  Proof.
    intros H. unfold pyindex. destruct (Z.ltb_spec i 0); [lia|].
    destruct (Z.leb_spec 0 i), (Z.ltb_spec i (Z.of_nat (length m))); try lia. simpl.
    rewrite (nth_error_nth' m 0) by lia. reflexivity.
  Qed.

  Lemma mapM_pyindex (m : list T) l : in_range (length m) l ->
    mapM (pyindex m) l = Ok (map (fun i => nth (Z.to_nat i) m 0) l).
  Proof.
    induction l as [|i l IH]; intros H; [reflexivity|]. inversion H; subst. cbn [mapM map].
    rewrite (pyindex_nat m i) by auto. cbn [bind]. rewrite IH by auto. reflexivity.
  Qed.

  Lemma lag_value dvec s m oi ci ov cv i2 : length m = ncons p ->
    (exists n, obj_hess_nnz p = Ok n) -> (exists n, constr_hess_nnz p = Ok n) ->
    constr_hess_ind p = Ok (ci, i2) -> obj_hess_ind p = Ok oi ->
    obj_hess_val p dvec = Ok ov -> constr_hess_val p dvec = Ok cv -> in_range (ncons p) i2 ->
    lag_hess_ind p = Ok (fst oi ++ fst ci, snd oi ++ snd ci) /\
    lag_hess_val p dvec s m
    = Ok (map (fun v => v * s) ov ++ map (fun e => snd e * nth (Z.to_nat (fst e)) m 0) (combine i2 cv)).
  Proof.
    intros HL [n1 N1] [n2 N2] E1 E2 E3 E4 HR.
    pose proof (adjacent_le _ _ _ (cons_adjacent p R)) as Hle.
    split.
    - unfold lag_hess_ind, lag_hess_nnz. rewrite N1, N2. cbn [bind]. rewrite E2. cbn [bind]. rewrite E1. reflexivity.
    - unfold lag_hess_val, lag_hess_nnz. rewrite N1, N2, E1, E3, E4.
      replace (Z.of_nat (length m) =? p_ncons p)%Z with true.
      2: { symmetry. apply Z.eqb_eq. rewrite HL. unfold ncons. lia. }
      cbn [passert bind snd]. rewrite mapM_pyindex by now rewrite HL. cbn [bind]. do 2 f_equal.
      clear. revert cv; induction i2; intros [|v cv]; simpl; auto. f_equal; auto.
  Qed.
  End One.
End Facts.
