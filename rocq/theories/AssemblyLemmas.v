(** Closed forms of the assembled callbacks. *)
From Coq Require Import String List ZArith Bool Arith Lia Ring.
From Verif Require Import Py NdArray OptimModel ColModel DictLemmas Builder BuilderLemmas
  NdLemmas OptimSpec OptimLaws LawFacts LayoutLemmas ProblemSpec ProblemLemmas.
Import ListNotations.

Lemma foldM_map {A B C} (f : A -> C -> res A) (g : B -> C) acc l :
  foldM f acc (map g l) = foldM (fun a b => f a (g b)) acc l.
Proof. revert acc; induction l; simpl; intros acc; auto. destruct (f acc (g a)); simpl; auto. Qed.

Lemma sum_nnz_map {B C} (f : C -> res nat) (g : B -> C) l :
  sum_nnz f (map g l) = sum_nnz (fun b => f (g b)) l.
Proof. unfold sum_nnz. apply foldM_map. Qed.

Lemma flat_map_map {A B C} (f : B -> list C) (g : A -> B) l :
  flat_map f (map g l) = flat_map (fun a => f (g a)) l.
Proof. induction l; simpl; auto. now rewrite IHl. Qed.

Lemma sum_len_flat {A B} (f : A -> list B) (len : A -> nat) l :
  (forall a, In a l -> length (f a) = len a) -> length (flat_map f l) = sum_len len l.
Proof.
  intros H. rewrite flat_map_length. unfold sum_len. f_equal. apply map_ext_in. auto.
Qed.

Lemma put_row_ok n v : length v = n -> put_row n v = Ok v.
Proof. intros H. unfold put_row. now rewrite H, Nat.eqb_refl. Qed.

Lemma map_flat_map {A B C} (f : B -> C) (g : A -> list B) l :
  map f (flat_map g l) = flat_map (fun a => map f (g a)) l.
Proof. induction l; simpl; auto. now rewrite map_app, IHl. Qed.

Lemma flat_map_ext_in {A B} (f g : A -> list B) l :
  (forall a, In a l -> f a = g a) -> flat_map f l = flat_map g l.
Proof. induction l; simpl; intros H; auto. rewrite H, IHl; auto. Qed.

Lemma firstn_app_2' {A} (l1 l2 : list A) : firstn (length l1) (l1 ++ l2) = l1.
Proof. rewrite firstn_app, Nat.sub_diag, firstn_all. simpl. apply app_nil_r. Qed.
Lemma skipn_app_len {A} (l1 l2 : list A) : skipn (length l1) (l1 ++ l2) = l2.
Proof. rewrite skipn_app, Nat.sub_diag, skipn_all. reflexivity. Qed.
Lemma skipn_app_plus {A} (l1 l2 : list A) m : skipn (length l1 + m) (l1 ++ l2) = skipn m l2.
Proof. rewrite skipn_app, skipn_all2 by lia. simpl. f_equal. lia. Qed.

Lemma sum_len_snd {A B} (f : B -> nat) (X : list (A * B)) l : map snd X = l ->
  sum_len (fun x => f (snd x)) X = sum_len f l.
Proof. intros <-. unfold sum_len. now rewrite map_map. Qed.

Section Assembly.
  Context {T : Type} {NT : Num T}.
  Open Scope num_scope.
  Variable p : problem T.
  Variable sel : string -> nat -> nat.
  Hypothesis R : reachable p.
  Hypothesis S : selects p sel.
  Let I : inv p := reachable_inv p R.

  (** Decision index of element [i] of parameter [w] of [o]. *)
  Definition dix (o : optfun T) (w : string) (i : Z) : Z := Z.of_nat (sel (param o w) (Z.to_nat i)).

  Lemma dix_range o w i : In w (active p o) -> (0 <= i < Z.of_nat (prodn (param_shape p o w)))%Z ->
    (0 <= dix o w i < Z.of_nat (ndec p))%Z.
  Proof.
    intros Hw Hi. destruct (active_var p o w I Hw) as (sp & Hin & _ & Es). rewrite Es in Hi.
    unfold dix. enough (sel (param o w) (Z.to_nat i) < ndec p)%nat by lia.
    apply (law_sel _ _ _ (S _ _ Hin)). lia.
  Qed.

  Lemma convert_ok o w l : In w (active p o) -> in_range (prodn (param_shape p o w)) l ->
    exists sp, variable_spec p (param o w) = Ok sp /\ s_convert sp l = Ok (map (dix o w) l).
  Proof.
    intros Hw Hr. destruct (active_var p o w I Hw) as (sp & Hin & Hv & Es).
    exists sp. split; auto. rewrite Es in Hr. apply (law_convert _ _ _ (S _ _ Hin)). exact Hr.
  Qed.

  Lemma cons_built c o : In (c, o) (p_constraints p) ->
    exists f args, o = mk_optfun (c_shape c) f args.
  Proof.
    intros H. destruct (reachable_built p R) as [_ B]. rewrite Forall_forall in B.
    apply B in H. exact H.
  Qed.

  Lemma obj_built o : In o (p_objectives p) -> exists s f args, o = mk_optfun s f args.
  Proof.
    intros H. destruct (reachable_built p R) as [B _]. rewrite Forall_forall in B. auto.
  Qed.

  Lemma fits_f s f args : fits p (mk_optfun s f args) ->
    NoDup (f_sig f) /\ NoDup (o_args (mk_optfun s f args)) /\
    length (o_args (mk_optfun s f args)) = length (f_sig f).
  Proof.
    intros (H1 & H2 & H3 & _). destruct (mk_optfun_args s f args) as [E _]. rewrite E in *. auto.
  Qed.

  Lemma active_sig s f args w : In w (active p (mk_optfun s f args)) -> In w (f_sig f).
  Proof.
    intros H. apply active_spec in H as [H _]. destruct (mk_optfun_args s f args) as [E _]. now rewrite E in H.
  Qed.

  Local Notation jac_ok := (ProblemSpec.jac_ok p).
  Definition jlen (jb : list jblock) : nat := sum_len (fun b => length (jb_i b)) jb.
  Definition jcols (o : optfun T) (jb : list jblock) : list Z :=
    flat_map (fun b => map (dix o (jb_w b)) (jb_i b)) jb.
  Definition jrows (c : comp) (jb : list jblock) : list Z :=
    flat_map (fun b => map (fun i => i + c_off c)%Z (jb_o b)) jb.

  Lemma o_jac_nnz_ok co jb : In co (p_constraints p) -> jac_ok co jb ->
    o_jac_nnz (snd co) (variable_shapes p) = Ok (jlen jb) /\
    o_jac_ind (snd co) (variable_shapes p)
      = Ok (map (fun b => ([param (snd co) (jb_w b)], [jb_i b; jb_o b])) jb).
  Proof.
    destruct co as [c o]. intros Hin (F & J). simpl in *.
    destruct (cons_built c o Hin) as (f & args & ->).
    destruct (fits_f _ _ _ F) as (N1 & N2 & HL).
    destruct (mk_optfun_args (c_shape c) f args) as [Ef Es].
    destruct (js_ind _ _ _ _ _ J (rename_kwargs (mk_optfun (c_shape c) f args) (variable_shapes p)))
      as [E1 E2]; [apply shapes_for; auto|].
    unfold o_jac_nnz, o_jac_ind. rewrite Es, E1, E2. split; [reflexivity|].
    cbn [bind]. rewrite rename_t_eq; auto.
    - rewrite map_map. reflexivity.
    - rewrite map_map. simpl. intros k Hk. apply in_map_iff in Hk. destruct Hk as (b & <- & Hb).
      constructor; [|constructor]. pose proof (js_ok _ _ _ _ _ J) as Ho. rewrite Forall_forall in Ho.
      apply Ho in Hb. destruct Hb as [Hb _]. now apply active_sig in Hb.
    - rewrite map_map. simpl. rewrite <- (map_map jb_w (fun w => [w])). apply NoDup_map_inj.
      + congruence.
      + apply (js_nodup _ _ _ _ _ J).
  Qed.

  Lemma jac_index jbs : Forall2 jac_ok (p_constraints p) jbs ->
    constr_jac_nnz p = Ok (sum_len jlen jbs) /\
    constr_jac_ind p = Ok (flat_map (fun x => jcols (snd (fst x)) (snd x)) (combine (p_constraints p) jbs),
                           flat_map (fun x => jrows (fst (fst x)) (snd x)) (combine (p_constraints p) jbs)).
  Proof.
    intros HF. assert (HL : length jbs = length (p_constraints p)) by (symmetry; eapply Forall2_length; eauto).
    pose proof (map_fst_combine (p_constraints p) jbs HL) as E1.
    pose proof (map_snd_combine (p_constraints p) jbs HL) as E2.
    set (X := combine (p_constraints p) jbs) in *.
    assert (HX : forall x, In x X -> In (fst x) (p_constraints p) /\ jac_ok (fst x) (snd x)).
    { intros [co jb] Hx. split; [apply in_combine_l in Hx; auto|].
      apply (Forall2_combine_nth _ _ _ HF). auto. }
    assert (EN : constr_jac_nnz p = Ok (sum_len jlen jbs)).
    { unfold constr_jac_nnz. rewrite <- E1, sum_nnz_map.
      rewrite (sum_nnz_ok _ (fun x => jlen (snd x)) X).
      - f_equal. apply (sum_len_snd _ X _ E2).
      - intros x Hx. destruct (HX x Hx) as [H1 H2]. apply (proj1 (o_jac_nnz_ok _ _ H1 H2)). }
    split; auto. unfold constr_jac_ind. rewrite EN. cbn [bind].
    assert (Hlen : length (flat_map (fun x => jcols (snd (fst x)) (snd x)) X) = sum_len jlen jbs).
    { rewrite (sum_len_flat _ (fun x => jlen (snd x))).
      - apply (sum_len_snd _ X _ E2).
      - intros x _. unfold jcols, jlen. apply sum_len_flat. intros b _. now rewrite map_length. }
    rewrite <- E1 at 1. rewrite foldM_map.
    rewrite (foldM_pairs (sum_len jlen jbs) _ (fun x => jcols (snd (fst x)) (snd x))
               (fun x => jrows (fst (fst x)) (snd x))).
    - cbn [bind fst app]. rewrite Hlen, Nat.eqb_refl. reflexivity.
    - intros r0 r1 [[c o] jb] Hx HN. destruct (HX _ Hx) as [H1 H2]. cbn [fst snd] in *.
      destruct (o_jac_nnz_ok _ _ H1 H2) as [_ E]. cbn [snd] in E. rewrite E. cbn [bind].
      rewrite foldM_map. unfold jcols, jrows.
      apply (foldM_pairs (sum_len jlen jbs)); auto.
      intros q0 q1 b Hb Hq. cbn [fst snd].
      destruct H2 as [_ J]. pose proof (js_ok _ _ _ _ _ J) as Ho. rewrite Forall_forall in Ho.
      destruct (Ho b Hb) as (Ha & Hl & Hr & _). cbn [snd fst] in *.
      destruct (convert_ok o _ _ Ha Hr) as (sp & -> & Ec). cbn [bind row nth_error].
      unfold row. cbn [nth_error bind].
      rewrite map_length in Hq.
      destruct (Nat.leb_spec (length q0 + length (jb_i b)) (sum_len jlen jbs)); [|lia].
      cbn [passert bind]. rewrite Ec. cbn [bind]. rewrite put_row_ok by now rewrite map_length.
      cbn [bind c_convert]. unfold c_convert. cbn [bind]. rewrite put_row_ok by (now rewrite map_length).
      reflexivity.
    - cbn [length]. lia.
  Qed.

  (** Values: concatenation of the functions' values, in the same order. *)
  Definition vals_of (vs : list (arr T)) : list T := flat_map adat vs.

  Lemma o_jac_val_ok dvec co jb vs vars A : In co (p_constraints p) -> jac_ok co jb ->
    variables p dvec = Ok vars -> fun_args p dvec (snd co) = Ok A -> jac_vals (o_fun (snd co)) A jb vs ->
    o_jac_val (snd co) vars = Ok (combine (map (fun b => [param (snd co) (jb_w b)]) jb) vs).
  Proof.
    destruct co as [c o]. intros Hin (F & J) Ev EA (Hv & HL2). simpl in *.
    destruct (cons_built c o Hin) as (f & args & ->).
    destruct (fits_f _ _ _ F) as (N1 & N2 & HL).
    destruct (mk_optfun_args (c_shape c) f args) as [Ef Es].
    unfold o_jac_val. unfold fun_args in EA. rewrite Ev in EA. simpl in EA. rewrite EA. cbn [bind].
    rewrite Hv. cbn [bind]. apply Forall2_length in HL2.
    assert (Ek : map fst (combine (map (fun b => [jb_w b]) jb) vs) = map (fun b => [jb_w b]) jb).
    { apply map_fst_combine. rewrite map_length. auto. }
    rewrite rename_t_eq; auto.
    - f_equal. clear -HL2. revert vs HL2; induction jb as [|b jb IH]; intros [|v vs] H; simpl in *; auto.
      f_equal. apply IH. lia.
    - intros k Hk. change (In k (map fst (combine (map (fun b => [jb_w b]) jb) vs))) in Hk. rewrite Ek in Hk.
      apply in_map_iff in Hk. destruct Hk as (b & <- & Hb).
      constructor; [|constructor]. pose proof (js_ok _ _ _ _ _ J) as Ho. rewrite Forall_forall in Ho.
      apply Ho in Hb. destruct Hb as [Hb _]. now apply active_sig in Hb.
    - change (NoDup (map fst (combine (map (fun b => [jb_w b]) jb) vs))). rewrite Ek.
      rewrite <- (map_map jb_w (fun w => [w])). apply NoDup_map_inj; [congruence|].
      apply (js_nodup _ _ _ _ _ J).
  Qed.

  (** The generic double loop. *)
  Lemma sparse_fun_val_ok {B} dvec vars (vf : B -> sdict (arr T) -> res (list (tkey * arr T)))
      (D : B -> list (tkey * arr T)) (l : list B) N :
    variables p dvec = Ok vars ->
    (forall b, In b l -> vf b vars = Ok (D b)) ->
    sum_len (fun b => sum_len (fun kv => length (adat (snd kv))) (D b)) l = N ->
    sparse_fun_val p dvec N (map vf l) = Ok (flat_map (fun b => flat_map (fun kv => adat (snd kv)) (D b)) l).
  Proof.
    intros Ev HD HN. unfold sparse_fun_val. rewrite Ev. cbn [bind]. rewrite foldM_map.
    assert (Hlen : length (flat_map (fun b => flat_map (fun kv => adat (snd kv)) (D b)) l) = N).
    { rewrite <- HN. apply sum_len_flat. intros b _. apply sum_len_flat. auto. }
    rewrite (foldM_list N _ (fun b => flat_map (fun kv => adat (snd kv)) (D b))).
    - cbn [bind app]. rewrite Hlen, Nat.eqb_refl. reflexivity.
    - intros r0 b Hb HN'. rewrite HD by auto. cbn [bind].
      apply (foldM_list N _ (fun kv => adat (snd kv))); auto.
      intros q kv _ Hq. destruct (Nat.leb_spec (length q + length (adat (snd kv))) N); [|lia]. reflexivity.
    - simpl. lia.
  Qed.

  Lemma flat_map_snd_combine {K} (ks : list K) (vs : list (arr T)) : length vs = length ks ->
    flat_map (fun kv => adat (snd kv)) (combine ks vs) = flat_map adat vs.
  Proof.
    revert vs; induction ks as [|k ks IH]; intros [|v vs] H; simpl in *; try discriminate; auto.
    f_equal. apply IH. lia.
  Qed.

  Lemma sum_len_snd_combine {K} (ks : list K) (vs : list (arr T)) : length vs = length ks ->
    sum_len (fun kv => length (adat (snd kv))) (combine ks vs) = sum_len (fun v => length (adat v)) vs.
  Proof.
    unfold sum_len.
    revert vs; induction ks as [|k ks IH]; intros [|v vs] H; simpl in *; try discriminate; auto.
  Qed.

  Local Notation jac_at_ok := (ProblemSpec.jac_at_ok p).

  Lemma Forall2_map_r {A B C} (P : A -> C -> Prop) (g : B -> C) la lb :
    Forall2 (fun a b => P a (g b)) la lb -> Forall2 P la (map g lb).
  Proof. induction 1; simpl; constructor; auto. Qed.

  Lemma jac_value dvec jds : length dvec = ndec p ->
    Forall2 (jac_at_ok dvec) (p_constraints p) jds ->
    constr_jac_val p dvec = Ok (flat_map (fun jd => vals_of (snd jd)) jds).
  Proof.
    intros HD HF.
    assert (HF1 : Forall2 jac_ok (p_constraints p) (map fst jds)).
    { apply Forall2_map_r. eapply Forall2_impl; [|exact HF]. intros a b [H _]. exact H. }
    destruct (jac_index _ HF1) as [EN _].
    destruct (variables_ok p sel dvec I S HD) as (vars & Ev & _).
    unfold constr_jac_val. rewrite EN. cbn [bind].
    assert (HL : length jds = length (p_constraints p)) by (symmetry; eapply Forall2_length; eauto).
    pose proof (map_fst_combine (p_constraints p) jds HL) as E1.
    pose proof (map_snd_combine (p_constraints p) jds HL) as E2.
    set (X := combine (p_constraints p) jds) in *.
    assert (HX : forall x, In x X -> In (fst x) (p_constraints p) /\ jac_at_ok dvec (fst x) (snd x)).
    { intros [co jb] Hx. split; [apply in_combine_l in Hx; auto|].
      apply (Forall2_combine_nth _ _ _ HF). auto. }
    rewrite <- E1 at 1. rewrite map_map.
    rewrite (sparse_fun_val_ok dvec vars (fun x => o_jac_val (snd (fst x)))
      (fun x => combine (map (fun b => [param (snd (fst x)) (jb_w b)]) (fst (snd x))) (snd (snd x)))); auto.
    - f_equal. rewrite <- E2, flat_map_map. apply flat_map_ext_in. intros x Hx.
      destruct (HX x Hx) as [_ (_ & A & _ & _ & H2)]. apply Forall2_length in H2.
      apply flat_map_snd_combine. rewrite map_length. auto.
    - intros x Hx. destruct (HX x Hx) as [H1 (H2 & A & H3 & H4)].
      eapply o_jac_val_ok; eauto.
    - rewrite <- E2. unfold sum_len at 1 3. rewrite !map_map. f_equal. apply map_ext_in.
      intros x Hx. destruct (HX x Hx) as [_ (_ & A & _ & _ & H2)]. pose proof H2 as H3.
      apply Forall2_length in H3. rewrite sum_len_snd_combine by (rewrite map_length; auto).
      unfold jlen, sum_len. f_equal. clear -H2. induction H2; simpl; auto. now rewrite H, IHForall2.
  Qed.

  Local Notation hess_ok := (ProblemSpec.hess_ok p).
  Definition hlen (hb : list hblock) : nat := sum_len (fun b => length (hb_i b)) hb.
  Definition hrow0 (o : optfun T) (hb : list hblock) : list Z :=
    flat_map (fun b => map (dix o (hb_a b)) (hb_i b)) hb.
  Definition hrow1 (o : optfun T) (hb : list hblock) : list Z :=
    flat_map (fun b => map (dix o (hb_b b)) (hb_j b)) hb.
  Definition hrow2 (c : comp) (hb : list hblock) : list Z :=
    flat_map (fun b => map (fun i => i + c_off c)%Z (hb_o b)) hb.

  Lemma o_hess_ok s f args hb : let o := mk_optfun s f args in
    hess_ok s o hb ->
    o_hess_nnz o (variable_shapes p) = Ok (hlen hb) /\
    o_hess_ind o (variable_shapes p)
      = Ok (map (fun b => ([param o (hb_a b); param o (hb_b b)], [hb_i b; hb_j b; hb_o b])) hb).
  Proof.
    intros o (F & J).
    destruct (fits_f _ _ _ F) as (N1 & N2 & HL).
    destruct (mk_optfun_args s f args) as [Ef Es].
    destruct (hs_ind _ _ _ _ _ J (rename_kwargs o (variable_shapes p)))
      as [E1 E2]; [apply shapes_for; auto|].
    unfold o_hess_nnz, o_hess_ind. unfold o in *. rewrite Es, E1, E2. split; [reflexivity|].
    cbn [bind]. rewrite rename_t_eq; auto.
    - rewrite map_map. reflexivity.
    - rewrite map_map. simpl. intros k Hk. apply in_map_iff in Hk. destruct Hk as (b & <- & Hb).
      pose proof (hs_ok _ _ _ _ _ J) as Ho. rewrite Forall_forall in Ho.
      apply Ho in Hb. destruct Hb as (Ha & Hb & _). apply active_sig in Ha. apply active_sig in Hb.
      repeat constructor; auto.
    - rewrite map_map. simpl.
      rewrite <- (map_map (fun b => (hb_a b, hb_b b)) (fun ab => [fst ab; snd ab])). apply NoDup_map_inj.
      + intros [] [] _ _ [= -> ->]. reflexivity.
      + apply (hs_nodup _ _ _ _ _ J).
  Qed.

  Lemma o_hess_val_ok dvec s f args hb vs vars A : let o := mk_optfun s f args in
    hess_ok s o hb ->
    variables p dvec = Ok vars -> fun_args p dvec o = Ok A -> hess_vals f A hb vs ->
    o_hess_val o vars = Ok (combine (map (fun b => [param o (hb_a b); param o (hb_b b)]) hb) vs).
  Proof.
    intros o (F & J) Ev EA (Hv & HL2).
    destruct (fits_f _ _ _ F) as (N1 & N2 & HL).
    destruct (mk_optfun_args s f args) as [Ef Es].
    unfold o_hess_val. unfold fun_args in EA. rewrite Ev in EA. simpl in EA. rewrite EA. cbn [bind].
    unfold o in *. rewrite Ef. rewrite Hv. cbn [bind]. apply Forall2_length in HL2.
    assert (Ek : map fst (combine (map (fun b => [hb_a b; hb_b b]) hb) vs) = map (fun b => [hb_a b; hb_b b]) hb).
    { apply map_fst_combine. rewrite map_length. auto. }
    rewrite rename_t_eq; auto.
    - f_equal. clear -HL2. revert vs HL2; induction hb as [|b hb IH]; intros [|v vs] H; simpl in *; auto.
      f_equal. apply IH. lia.
    - intros k Hk. change (In k (map fst (combine (map (fun b => [hb_a b; hb_b b]) hb) vs))) in Hk. rewrite Ek in Hk.
      apply in_map_iff in Hk. destruct Hk as (b & <- & Hb).
      pose proof (hs_ok _ _ _ _ _ J) as Ho. rewrite Forall_forall in Ho.
      apply Ho in Hb. destruct Hb as (Ha & Hb & _). apply active_sig in Ha. apply active_sig in Hb.
      repeat constructor; auto.
    - change (NoDup (map fst (combine (map (fun b => [hb_a b; hb_b b]) hb) vs))). rewrite Ek.
      rewrite <- (map_map (fun b => (hb_a b, hb_b b)) (fun ab => [fst ab; snd ab])). apply NoDup_map_inj.
      + intros [] [] _ _ [= -> ->]. reflexivity.
      + apply (hs_nodup _ _ _ _ _ J).
  Qed.

  Local Notation chess_ok := (ProblemSpec.chess_ok p).
  Local Notation ohess_ok := (ProblemSpec.ohess_ok p).

  Lemma constr_hess_index hbs : Forall2 chess_ok (p_constraints p) hbs ->
    constr_hess_nnz p = Ok (sum_len hlen hbs) /\
    constr_hess_ind p = Ok (flat_map (fun x => hrow0 (snd (fst x)) (snd x)) (combine (p_constraints p) hbs),
                            flat_map (fun x => hrow1 (snd (fst x)) (snd x)) (combine (p_constraints p) hbs),
                            flat_map (fun x => hrow2 (fst (fst x)) (snd x)) (combine (p_constraints p) hbs)).
  Proof.
    intros HF. assert (HL : length hbs = length (p_constraints p)) by (symmetry; eapply Forall2_length; eauto).
    pose proof (map_fst_combine (p_constraints p) hbs HL) as E1.
    pose proof (map_snd_combine (p_constraints p) hbs HL) as E2.
    set (X := combine (p_constraints p) hbs) in *.
    assert (HX : forall x, In x X -> In (fst x) (p_constraints p) /\ chess_ok (fst x) (snd x)).
    { intros [co jb] Hx. split; [apply in_combine_l in Hx; auto|].
      apply (Forall2_combine_nth _ _ _ HF). auto. }
    assert (HO : forall x, In x X -> 
      o_hess_nnz (snd (fst x)) (variable_shapes p) = Ok (hlen (snd x)) /\
      o_hess_ind (snd (fst x)) (variable_shapes p)
      = Ok (map (fun b => ([param (snd (fst x)) (hb_a b); param (snd (fst x)) (hb_b b)], [hb_i b; hb_j b; hb_o b])) (snd x))).
    { intros [[c o] hb] Hx. destruct (HX _ Hx) as [H1 H2]. cbn [fst snd] in *.
      destruct (cons_built _ _ H1) as (f & args & ->). now apply o_hess_ok. }
    assert (EN : constr_hess_nnz p = Ok (sum_len hlen hbs)).
    { unfold constr_hess_nnz. rewrite <- E1, sum_nnz_map.
      rewrite (sum_nnz_ok _ (fun x => hlen (snd x)) X).
      - f_equal. apply (sum_len_snd _ X _ E2).
      - intros x Hx. apply (HO x Hx). }
    split; auto. unfold constr_hess_ind. rewrite EN. cbn [bind].
    assert (Hlen : length (flat_map (fun x => hrow0 (snd (fst x)) (snd x)) X) = sum_len hlen hbs).
    { rewrite (sum_len_flat _ (fun x => hlen (snd x))).
      - apply (sum_len_snd _ X _ E2).
      - intros x _. unfold hrow0, hlen. apply sum_len_flat. intros b _. now rewrite map_length. }
    rewrite <- E1 at 1. rewrite foldM_map.
    rewrite (foldM_triples (sum_len hlen hbs) _ (fun x => hrow0 (snd (fst x)) (snd x))
               (fun x => hrow1 (snd (fst x)) (snd x)) (fun x => hrow2 (fst (fst x)) (snd x))).
    - cbn [bind fst app]. rewrite Hlen, Nat.eqb_refl. reflexivity.
    - intros r0 r1 r2 [[c o] hb] Hx HN. destruct (HX _ Hx) as [H1 H2]. 
      destruct (HO _ Hx) as [_ E]. cbn [fst snd] in *. rewrite E. cbn [bind].
      rewrite foldM_map. unfold hrow0, hrow1, hrow2.
      apply (foldM_triples (sum_len hlen hbs)); auto.
      intros q0 q1 q2 b Hb Hq. cbn [fst snd].
      destruct H2 as [_ J]. pose proof (hs_ok _ _ _ _ _ J) as Ho. rewrite Forall_forall in Ho.
      destruct (Ho b Hb) as (Ha & Hb' & Hl1 & Hl2 & Hr1 & Hr2 & _). cbn [snd fst] in *.
      destruct (convert_ok o _ _ Ha Hr1) as (sp1 & -> & Ec1).
      destruct (convert_ok o _ _ Hb' Hr2) as (sp2 & -> & Ec2).
      cbn [bind]. unfold row. cbn [nth_error bind].
      rewrite map_length in Hq.
      destruct (Nat.leb_spec (length q0 + length (hb_i b)) (sum_len hlen hbs)); [|lia].
      cbn [passert bind]. rewrite Ec1. cbn [bind]. rewrite put_row_ok by now rewrite map_length.
      cbn [bind]. rewrite Ec2. cbn [bind]. rewrite put_row_ok by now rewrite map_length.
      cbn [bind]. unfold c_convert. cbn [bind]. rewrite put_row_ok by (now rewrite map_length).
      reflexivity.
    - cbn [length]. lia.
  Qed.

  Lemma obj_hess_index hbs : Forall2 ohess_ok (p_objectives p) hbs ->
    obj_hess_nnz p = Ok (sum_len hlen hbs) /\
    obj_hess_ind p = Ok (flat_map (fun x => hrow0 (fst x) (snd x)) (combine (p_objectives p) hbs),
                         flat_map (fun x => hrow1 (fst x) (snd x)) (combine (p_objectives p) hbs)).
  Proof.
    intros HF. assert (HL : length hbs = length (p_objectives p)) by (symmetry; eapply Forall2_length; eauto).
    pose proof (map_fst_combine (p_objectives p) hbs HL) as E1.
    pose proof (map_snd_combine (p_objectives p) hbs HL) as E2.
    set (X := combine (p_objectives p) hbs) in *.
    assert (HX : forall x, In x X -> In (fst x) (p_objectives p) /\ ohess_ok (fst x) (snd x)).
    { intros [co jb] Hx. split; [apply in_combine_l in Hx; auto|].
      apply (Forall2_combine_nth _ _ _ HF). auto. }
    assert (HO : forall x, In x X -> 
      o_hess_nnz (fst x) (variable_shapes p) = Ok (hlen (snd x)) /\
      o_hess_ind (fst x) (variable_shapes p)
      = Ok (map (fun b => ([param (fst x) (hb_a b); param (fst x) (hb_b b)], [hb_i b; hb_j b; hb_o b])) (snd x))).
    { intros [o hb] Hx. destruct (HX _ Hx) as [H1 H2]. cbn [fst snd] in *.
      destruct (obj_built _ H1) as (s & f & args & ->). unfold ohess_ok in H2.
      rewrite (proj2 (mk_optfun_args s f args)) in H2. now apply o_hess_ok. }
    assert (EN : obj_hess_nnz p = Ok (sum_len hlen hbs)).
    { unfold obj_hess_nnz. rewrite <- E1, sum_nnz_map.
      rewrite (sum_nnz_ok _ (fun x => hlen (snd x)) X).
      - f_equal. apply (sum_len_snd _ X _ E2).
      - intros x Hx. apply (HO x Hx). }
    split; auto. unfold obj_hess_ind. rewrite EN. cbn [bind].
    assert (Hlen : length (flat_map (fun x => hrow0 (fst x) (snd x)) X) = sum_len hlen hbs).
    { rewrite (sum_len_flat _ (fun x => hlen (snd x))).
      - apply (sum_len_snd _ X _ E2).
      - intros x _. unfold hrow0, hlen. apply sum_len_flat. intros b _. now rewrite map_length. }
    rewrite <- E1 at 1. rewrite foldM_map.
    rewrite (foldM_pairs (sum_len hlen hbs) _ (fun x => hrow0 (fst x) (snd x))
               (fun x => hrow1 (fst x) (snd x))).
    - cbn [bind fst app]. rewrite Hlen, Nat.eqb_refl. reflexivity.
    - intros r0 r1 [o hb] Hx HN. destruct (HX _ Hx) as [H1 H2]. 
      destruct (HO _ Hx) as [_ E]. cbn [fst snd] in *. rewrite E. cbn [bind].
      rewrite foldM_map. unfold hrow0, hrow1.
      apply (foldM_pairs (sum_len hlen hbs)); auto.
      intros q0 q1 b Hb Hq. cbn [fst snd].
      destruct H2 as [_ J]. pose proof (hs_ok _ _ _ _ _ J) as Ho. rewrite Forall_forall in Ho.
      destruct (Ho b Hb) as (Ha & Hb' & Hl1 & Hl2 & Hr1 & Hr2 & _). cbn [snd fst] in *.
      destruct (convert_ok o _ _ Ha Hr1) as (sp1 & -> & Ec1).
      destruct (convert_ok o _ _ Hb' Hr2) as (sp2 & -> & Ec2).
      cbn [bind]. unfold row. cbn [nth_error bind].
      rewrite map_length in Hq.
      destruct (Nat.leb_spec (length q0 + length (hb_i b)) (sum_len hlen hbs)); [|lia].
      cbn [passert bind]. rewrite Ec1. cbn [bind]. rewrite put_row_ok by now rewrite map_length.
      cbn [bind]. rewrite Ec2. cbn [bind]. rewrite put_row_ok by now rewrite map_length.
      reflexivity.
    - cbn [length]. lia.
  Qed.

  Local Notation chess_at_ok := (ProblemSpec.chess_at_ok p).
  Local Notation ohess_at_ok := (ProblemSpec.ohess_at_ok p).

  Lemma constr_hess_value dvec hds : length dvec = ndec p ->
    Forall2 (chess_at_ok dvec) (p_constraints p) hds ->
    constr_hess_val p dvec = Ok (flat_map (fun hd => vals_of (snd hd)) hds).
  Proof.
    intros HD HF.
    assert (HF1 : Forall2 chess_ok (p_constraints p) (map fst hds)).
    { apply Forall2_map_r. eapply Forall2_impl; [|exact HF]. intros a b [H _]. exact H. }
    destruct (constr_hess_index _ HF1) as [EN _].
    destruct (variables_ok p sel dvec I S HD) as (vars & Ev & _).
    unfold constr_hess_val. rewrite EN. cbn [bind].
    assert (HL : length hds = length (p_constraints p)) by (symmetry; eapply Forall2_length; eauto).
    pose proof (map_fst_combine (p_constraints p) hds HL) as E1.
    pose proof (map_snd_combine (p_constraints p) hds HL) as E2.
    set (X := combine (p_constraints p) hds) in *.
    assert (HX : forall x, In x X -> In (fst x) (p_constraints p) /\ chess_at_ok dvec (fst x) (snd x)).
    { intros [co jb] Hx. split; [apply in_combine_l in Hx; auto|].
      apply (Forall2_combine_nth _ _ _ HF). auto. }
    rewrite <- E1 at 1. rewrite map_map.
    rewrite (sparse_fun_val_ok dvec vars (fun x => o_hess_val (snd (fst x)))
      (fun x => combine (map (fun b => [param (snd (fst x)) (hb_a b); param (snd (fst x)) (hb_b b)]) (fst (snd x))) (snd (snd x)))); auto.
    - f_equal. rewrite <- E2, flat_map_map. apply flat_map_ext_in. intros x Hx.
      destruct (HX x Hx) as [_ (_ & A & _ & _ & H2)]. apply Forall2_length in H2.
      apply flat_map_snd_combine. rewrite map_length. auto.
    - intros [[c o] hd] Hx. destruct (HX _ Hx) as [H1 (H2 & A & H3 & H4)]. cbn [fst snd] in *.
      destruct (cons_built _ _ H1) as (f & args & ->).
      rewrite (proj1 (mk_optfun_args (c_shape c) f args)) in H4.
      eapply o_hess_val_ok; eauto.
    - rewrite <- E2. unfold sum_len at 1 3. rewrite !map_map. f_equal. apply map_ext_in.
      intros x Hx. destruct (HX x Hx) as [_ (_ & A & _ & _ & H2)]. pose proof H2 as H3.
      apply Forall2_length in H3. rewrite sum_len_snd_combine by (rewrite map_length; auto).
      unfold hlen, sum_len. f_equal. clear -H2. induction H2; simpl; auto. now rewrite H, IHForall2.
  Qed.

  Lemma obj_hess_value dvec hds : length dvec = ndec p ->
    Forall2 (ohess_at_ok dvec) (p_objectives p) hds ->
    obj_hess_val p dvec = Ok (flat_map (fun hd => vals_of (snd hd)) hds).
  Proof.
    intros HD HF.
    assert (HF1 : Forall2 ohess_ok (p_objectives p) (map fst hds)).
    { apply Forall2_map_r. eapply Forall2_impl; [|exact HF]. intros a b [H _]. exact H. }
    destruct (obj_hess_index _ HF1) as [EN _].
    destruct (variables_ok p sel dvec I S HD) as (vars & Ev & _).
    unfold obj_hess_val. rewrite EN. cbn [bind].
    assert (HL : length hds = length (p_objectives p)) by (symmetry; eapply Forall2_length; eauto).
    pose proof (map_fst_combine (p_objectives p) hds HL) as E1.
    pose proof (map_snd_combine (p_objectives p) hds HL) as E2.
    set (X := combine (p_objectives p) hds) in *.
    assert (HX : forall x, In x X -> In (fst x) (p_objectives p) /\ ohess_at_ok dvec (fst x) (snd x)).
    { intros [co jb] Hx. split; [apply in_combine_l in Hx; auto|].
      apply (Forall2_combine_nth _ _ _ HF). auto. }
    rewrite <- E1 at 1. rewrite map_map.
    rewrite (sparse_fun_val_ok dvec vars (fun x => o_hess_val (fst x))
      (fun x => combine (map (fun b => [param (fst x) (hb_a b); param (fst x) (hb_b b)]) (fst (snd x))) (snd (snd x)))); auto.
    - f_equal. rewrite <- E2, flat_map_map. apply flat_map_ext_in. intros x Hx.
      destruct (HX x Hx) as [_ (_ & A & _ & _ & H2)]. apply Forall2_length in H2.
      apply flat_map_snd_combine. rewrite map_length. auto.
    - intros [o hd] Hx. destruct (HX _ Hx) as [H1 (H2 & A & H3 & H4)]. cbn [fst snd] in *.
      destruct (obj_built _ H1) as (s & f & args & ->). unfold ohess_ok in H2.
      rewrite (proj1 (mk_optfun_args s f args)) in H4. rewrite (proj2 (mk_optfun_args s f args)) in H2.
      eapply o_hess_val_ok; eauto.
    - rewrite <- E2. unfold sum_len at 1 3. rewrite !map_map. f_equal. apply map_ext_in.
      intros x Hx. destruct (HX x Hx) as [_ (_ & A & _ & _ & H2)]. pose proof H2 as H3.
      apply Forall2_length in H3. rewrite sum_len_snd_combine by (rewrite map_length; auto).
      unfold hlen, sum_len. f_equal. clear -H2. induction H2; simpl; auto. now rewrite H, IHForall2.
  Qed.

  (** *** Constraint vector *)
  Lemma cons_adjacent : adjacent 0 (map (fun co => cslice (fst co)) (p_constraints p)) (p_ncons p).
  Proof. exact (inv_cons p I). Qed.

  (** Values of the registered shapes, packed in order, give the concatenation. *)
  Lemma pack_all (cs : list (comp * optfun T)) (vs : list (arr T)) (start stop : Z) (pre rest : list T)
      (val : comp * optfun T -> res (arr T)) :
    adjacent start (map (fun co => cslice (fst co)) cs) stop ->
    Forall (fun co => (prodZ (c_shape (fst co)) < 2 ^ 31)%Z) cs ->
    Forall2 (fun co v => exists v0, val co = Ok v0 /\ broadcast_to 0 v0 (c_shape (fst co)) = Ok v) cs vs ->
    start = Z.of_nat (length pre) -> (stop - start)%Z = Z.of_nat (length rest) ->
    forall post,
    foldM (fun cvec co => let* v := val co in c_pack_into (fst co) cvec v) (pre ++ rest ++ post) cs
    = Ok (pre ++ flat_map adat vs ++ post) /\ length (flat_map adat vs) = length rest.
  Proof.
    intros A HS HF. revert start pre rest A. induction HF as [|[c o] v cs vs (v0 & Hv & Hb) HF IH];
      intros start pre rest A E1 E2 post; cbn [foldM flat_map fst] in *.
    - simpl in A. assert (length rest = O) by lia. destruct rest; [|discriminate]. auto.
    - simpl in A. destruct A as (Ea & Hab & A). inversion HS as [|x y Hs HS']; subst x y. simpl in Hs.
      destruct (broadcast_awf _ _ _ Hb) as [Es W].
      assert (Ecs : csize c = Z.of_nat (prodn (c_shape c))).
      { rewrite csize_nonneg by auto. apply prodZ_prodn. }
      rewrite Ecs in *. rewrite prodZ_prodn in Hs.
      pose proof (adjacent_le _ _ _ A) as Hle.
      set (m := prodn (c_shape c)) in *.
      assert (Hm : (m <= length rest)%nat) by lia.
      rewrite Hv. cbn [bind].
      assert (F : comp_fits (length (pre ++ rest ++ post)) c (length pre)).
      { split; [lia|]. split; [|exact Hs]. rewrite !app_length. fold m. lia. }
      unfold c_pack_into at 1.
      rewrite (c_put_ok (fun _ new => new) (length (pre ++ rest ++ post)) c (length pre) _ v0 v F eq_refl Hb).
      fold m. cbn [bind].
      assert (Hd : length (adat v) = m) by (unfold m; rewrite <- Es; exact W).
      rewrite firstn_app_2' , skipn_app_len.
      assert (Em : map (fun ow : T * T => snd ow) (combine (firstn m (rest ++ post)) (adat v)) = adat v).
      { apply map_snd_combine. rewrite firstn_length, app_length. lia. }
      rewrite Em. rewrite skipn_app_plus. 
      assert (Ek : skipn m (rest ++ post) = skipn m rest ++ post).
      { rewrite skipn_app. replace (m - length rest)%nat with O by lia. reflexivity. }
      rewrite Ek.
      replace (pre ++ adat v ++ skipn m rest ++ post)
        with ((pre ++ adat v) ++ skipn m rest ++ post) by now rewrite <- app_assoc.
      destruct (IH HS' (c_off c + Z.of_nat m)%Z (pre ++ adat v) (skipn m rest)) with (post := post) as [IH1 IH2]; auto.
      + rewrite app_length. lia.
      + rewrite skipn_length. lia.
      + rewrite IH1. split; [now rewrite <- !app_assoc|].
        rewrite app_length, IH2, skipn_length. lia.
  Qed.

  Local Notation cval_ok := (ProblemSpec.cval_ok p).

  Lemma constr_value dvec vs : length dvec = ndec p ->
    Forall2 (cval_ok dvec) (p_constraints p) vs ->
    constr p dvec = Ok (flat_map adat vs) /\ length (flat_map adat vs) = ncons p.
  Proof.
    intros HD HF. destruct (variables_ok p sel dvec I S HD) as (vars & Ev & _).
    unfold constr. rewrite Ev. cbn [bind].
    pose proof (adjacent_le _ _ _ cons_adjacent) as Hle.
    destruct (pack_all (p_constraints p) vs 0 (p_ncons p) [] (repeat 0 (Z.to_nat (p_ncons p)))
      (fun co => o_call (snd co) vars) cons_adjacent (inv_csmall p I)) with (post := @nil T) as [E1 E2]; auto.
    - eapply Forall2_impl; [|exact HF]. intros [c o] v (_ & A & v0 & EA & H1 & H2). simpl in *.
      unfold fun_args in EA. rewrite Ev in EA. simpl in EA. exists v0. unfold o_call. rewrite EA. simpl. auto.
    - rewrite repeat_length. lia.
    - simpl app in E1. rewrite !app_nil_r in E1. split; [exact E1|]. rewrite E2. apply repeat_length.
  Qed.

  Lemma cval_exact dvec co v : fits p (snd co) ->
    (exists A, fun_args p dvec (snd co) = Ok A /\ call_ok (o_fun (snd co)) A (c_shape (fst co)) v) ->
    cval_ok dvec co v.
  Proof.
    intros F (A & EA & H1 & H2 & H3). split; auto. exists A, v. repeat split; auto. now apply broadcast_same.
  Qed.

  (** Reading one slice of the stacked values gives that value back. *)
  Lemma unpack_stacked (cs : list (comp * optfun T)) (vs : list (arr T)) start stop (pre : list T) :
    adjacent start (map (fun co => cslice (fst co)) cs) stop ->
    Forall (fun co => (prodZ (c_shape (fst co)) < 2 ^ 31)%Z) cs ->
    Forall2 (fun co v => ash v = c_shape (fst co) /\ awf v) cs vs ->
    start = Z.of_nat (length pre) ->
    Forall2 (fun co v => c_unpack (fst co) (pre ++ flat_map adat vs) = Ok v) cs vs.
  Proof.
    intros A HS HF. revert start pre A. induction HF as [|[c o] v cs vs (Es & W) HF IH];
      intros start pre A E1; [constructor|].
    simpl in A. destruct A as (Ea & Hab & A). inversion HS as [|x y Hs HS']; subst x y. cbn [fst] in *.
    assert (Ecs : csize c = Z.of_nat (prodn (c_shape c))).
    { rewrite csize_nonneg by auto. apply prodZ_prodn. }
    rewrite Ecs in *. rewrite prodZ_prodn in Hs. set (m := prodn (c_shape c)) in *.
    assert (Hd : length (adat v) = m) by (unfold m; rewrite <- Es; exact W).
    constructor.
    - cbn [fst flat_map]. apply (c_unpack_eq (length (pre ++ adat v ++ flat_map adat vs)) c (length pre)); auto.
      + split; [lia|]. split; [|exact Hs]. rewrite !app_length. fold m. lia.
      + intros i Hi. fold m in Hi. rewrite app_nth2_plus. apply app_nth1. lia.
    - cbn [flat_map]. rewrite app_assoc. apply (IH HS' (c_off c + Z.of_nat m)%Z).
      + exact A.
      + rewrite app_length. lia.
  Qed.
End Assembly.
