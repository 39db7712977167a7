(** C30: the functions of the collocated problems are called with arguments
    of the right shapes. *)
From Coq Require Import String List ZArith Bool Arith Lia.
From Verif Require Import Py NdArray OptimModel ColModel DictLemmas Builder BuilderLemmas NdLemmas OptimSpec OptimLaws
  LawFacts LayoutLemmas ProblemSpec ProblemLemmas ProblemFacts IndexLemmas GenModel GenSpec GenLemmas ColLemmas ColBuild ColLaws AssemblyLemmas GradLemmas.
Import ListNotations.
Local Open Scope string_scope.
Local Open Scope list_scope.
Local Open Scope nat_scope.

(** Broadcasting leading axes that are [] or [k]. *)
Lemma bshapes_one k (l : list shape) : (forall s, In s l -> s = [] \/ s = [k]) ->
  bshapes l = Ok (if existsb (fun s : shape => match s with [] => false | _ => true end) l then [k] else []).
Proof.
  intros H. unfold bshapes.
  assert (Q : forall (l : list shape) acc, (forall s, In s l -> s = [] \/ s = [k]) -> acc = [] \/ acc = [k] ->
    foldM (fun acc s => bmerge acc (rev s)) acc l
    = Ok (if existsb (fun s : shape => match s with [] => false | _ => true end) l then [k] else acc)).
  { clear. induction l as [|s l IH]; intros acc H Ha; [reflexivity|]. cbn [foldM existsb].
    destruct (H s (or_introl eq_refl)) as [->| ->]; cbn [rev app].
    - replace (bmerge acc []) with (Ok acc : res shape) by (destruct Ha as [->| ->]; reflexivity). cbn [bind orb].
      apply IH; auto. intros; apply H; simpl; auto.
    - replace (bmerge acc [k]) with (Ok [k] : res shape).
      2: { destruct Ha as [->| ->]; [reflexivity|]. cbn. now rewrite Nat.eqb_refl. }
      cbn [bind orb]. rewrite IH; [|intros; apply H; simpl; auto|auto]. now match goal with |- context [existsb ?f l] => destruct (existsb f l) end. }
  rewrite Q by auto. cbn [bind]. now match goal with |- context [existsb ?f l] => destruct (existsb f l) end.
Qed.

Section Calls.
  Context {T : Type} {NT : Num T}.

  (** One function of a problem, called. *)
  Definition called (p : problem T) (s : shape) (o : optfun T) : Prop :=
    fits p o /\ forall dvec, length dvec = ndec p -> exists A v,
      fun_args p dvec o = Ok A /\ f_call (o_fun o) A = Ok v /\ ash v = s /\ awf v.

  (** Base shapes declared by the symbolic models (symcol.py:35-45,
      symoc.py:22, symjme.py:23-26, 37). *)
  Definition base_shape (m : colmodel T) (v : string) : shape :=
    let n := col_n (m_col m) in
    if String.eqb v "x" then [m_nx m] else
    if String.eqb v "xp" then [n; m_nx m] else
    if String.eqb v "u" then [m_nu m] else
    if String.eqb v "up" then [n; m_nu m] else
    if String.eqb v "p" then [m_np m] else
    if String.eqb v "xe" then [2; m_nx m] else
    if String.eqb v "wc" then [n - 1; m_nw m] else
    if String.eqb v "y" then [m_ny m] else
    if String.eqb v "G" then [m_nx m; m_nw m] else
    if String.eqb v "penweight" then [m_nx m] else [].

  (** Leading axes of the problem variables. *)
  Definition batch_shape (m : colmodel T) (t : list T) (v : string) : shape :=
    if existsb (String.eqb v) ["xp"; "up"; "wc"; "piece_len"] then [npieces t] else
    if existsb (String.eqb v) ["x"; "u"] then [npoints m t] else [].

  (** A generated function whose parameters are among [names], declared with
      the shapes above. *)
  Record suits (m : colmodel T) (names : list string) (g : gfun T) : Prop := {
    su_wf : gwf g;
    su_args : incl (gf_args g) names;
    su_bases : gf_bases g = map (base_shape m) (gf_args g)
  }.

  Lemma base_of_suits m names g w : suits m names g -> In w (gf_args g) -> base_of g w = base_shape m w.
  Proof.
    intros S Hw. apply base_of_In; [apply (su_wf _ _ _ S)|]. rewrite (su_bases _ _ _ S).
    revert Hw. generalize (gf_args g). clear. induction l as [|a l IH]; cbn; [tauto|]. intros [->|H]; auto.
  Qed.

  Lemma param_none (f : fn T) s w : NoDup (f_sig f) -> In w (f_sig f) -> param (mk_optfun s f None) w = w.
  Proof.
    intros N H. unfold param. cbn [mk_optfun o_fun o_args]. rewrite (In_dget _ String.eqb_spec _ _ w); auto.
    - now rewrite map_fst_combine.
    - revert H. clear. induction (f_sig f) as [|a l IH]; cbn; [tauto|]. intros [->|H]; auto.
  Qed.

  Section Bound.
    Variables (p : problem T) (sel : string -> nat -> nat).
    Hypothesis R : reachable p.
    Hypothesis S : selects p sel.
    Variables (m : colmodel T) (names : list string) (LE : string -> shape) (g : gfun T) (ext s : shape).
    Hypothesis U : suits m names g.
    Hypothesis Hs : forall v, In v names -> has_shape p v (LE v ++ base_shape m v).
    Hypothesis Hext : bshapes (map LE (gf_args g)) = Ok ext.
    Let o := mk_optfun s (gen_fn g) None.

    Lemma plain_shape w : In w (gf_args g) -> has_shape p (param o w) (LE w ++ base_of g w).
    Proof.
      intros Hw. unfold o. rewrite param_none by (auto; apply (gw_args _ (su_wf _ _ _ U))).
      rewrite (base_of_suits m names g w U Hw). apply Hs, (su_args _ _ _ U), Hw.
    Qed.
    Lemma plain_args dvec : length dvec = ndec p -> exists A, fun_args p dvec o = Ok A /\ args_fit g LE ext A.
    Proof.
      intros HL. apply (bind_args p sel R S o g LE ext); auto; try reflexivity.
      - apply (su_wf _ _ _ U).
      - apply plain_shape.
    Qed.
    Lemma plain_fits : fits p o.
    Proof.
      apply (bind_fits p o g LE); auto; try reflexivity; try apply (su_wf _ _ _ U). apply plain_shape.
    Qed.
    Lemma plain_called : s = ext ++ gf_out g -> called p s o.
    Proof.
      intros Es. split; [apply plain_fits|]. intros dvec HL. destruct (plain_args dvec HL) as (A & EA & FA). exists A. eexists. split; [auto|].
      destruct (gen_call g (su_wf _ _ _ U) LE ext A FA) as (C1 & C2 & C3). split; [exact C1|]. split; [rewrite Es; exact C2|exact C3].
    Qed.
  End Bound.

  (** A problem whose functions can all be called can be evaluated. *)
  Lemma called_runs (p : problem T) sel : reachable p -> selects p sel ->
    Forall (fun o => called p (o_shape o) o) (p_objectives p) ->
    Forall (fun co => called p (c_shape (fst co)) (snd co)) (p_constraints p) ->
    forall dvec, length dvec = ndec p -> exists v c, obj p dvec = Ok v /\ constr p dvec = Ok c /\ length c = ncons p.
  Proof.
    intros R S HO HC dvec HL.
    assert (exists vs, Forall2 (cval_ok p dvec) (p_constraints p) vs) as (vs & Hvs).
    { induction HC as [|co l [HF H] _ (vs & IH)]; [exists []; constructor|].
      destruct (H dvec HL) as (A & v & E1 & E2 & E3 & E4). exists (v :: vs). constructor; auto.
      split; auto. exists A, v. split; [auto|]. split; [auto|]. now apply broadcast_same. }
    assert (exists os, Forall2 (obj_at_ok p dvec) (p_objectives p) os) as (os & Hos).
    { clear - HO HL. induction HO as [|o l [HF H] _ (vs & IH)]; [exists []; constructor|].
      destruct (H dvec HL) as (A & v & E1 & E2 & E3 & E4). exists (v :: vs). constructor; auto.
      split; auto. exists A. auto. }
    destruct (constr_slices p sel R S dvec vs HL Hvs) as (c & E1 & E2 & _).
    pose proof (GradLemmas.obj_value p sel R S dvec os HL Hos) as E. eauto.
  Qed.

  (** Batch axes of functions over pieces, over points and over ends. *)
  Lemma piece_ext (m : colmodel T) t g names : suits m names g -> incl names ["xp"; "up"; "p"; "piece_len"; "wc"; "G"; "penweight"] ->
    (exists w, In w (gf_args g) /\ In w ["xp"; "up"; "piece_len"; "wc"]) ->
    bshapes (map (batch_shape m t) (gf_args g)) = Ok [npieces t].
  Proof.
    intros U HI (w & Hw & Hp). rewrite (bshapes_one (npieces t)).
    - match goal with |- context [existsb ?f ?l] => replace (existsb f l) with true end; auto. symmetry. apply existsb_exists. exists (batch_shape m t w).
      split; [now apply in_map|]. cbn in Hp. intuition (subst; reflexivity).
    - intros x Hx. apply in_map_iff in Hx as (v & <- & Hv). apply (su_args _ _ _ U), HI in Hv.
      cbn in Hv. intuition (subst; auto).
  Qed.
  Lemma point_ext (m : colmodel T) t g names : suits m names g -> incl names ["x"; "u"; "p"] ->
    (exists w, In w (gf_args g) /\ In w ["x"; "u"]) ->
    bshapes (map (batch_shape m t) (gf_args g)) = Ok [npoints m t].
  Proof.
    intros U HI (w & Hw & Hp). rewrite (bshapes_one (npoints m t)).
    - match goal with |- context [existsb ?f ?l] => replace (existsb f l) with true end; auto. symmetry. apply existsb_exists. exists (batch_shape m t w).
      split; [now apply in_map|]. cbn in Hp. intuition (subst; reflexivity).
    - intros x Hx. apply in_map_iff in Hx as (v & <- & Hv). apply (su_args _ _ _ U), HI in Hv.
      cbn in Hv. intuition (subst; auto).
  Qed.
  Lemma end_ext (m : colmodel T) t g names : suits m names g -> incl names ["xe"; "p"] ->
    bshapes (map (batch_shape m t) (gf_args g)) = Ok [].
  Proof.
    intros U HI. rewrite (bshapes_one 0).
    - match goal with |- context [existsb ?f ?l] => replace (existsb f l) with false end; auto. symmetry. apply not_true_is_false. intros E. apply existsb_exists in E as (x & Hx & Ex).
      apply in_map_iff in Hx as (v & <- & Hv). apply (su_args _ _ _ U), HI in Hv. cbn in Hv. intuition (subst; discriminate).
    - intros x Hx. apply in_map_iff in Hx as (v & <- & Hv). apply (su_args _ _ _ U), HI in Hv. cbn in Hv. intuition (subst; auto).
  Qed.
End Calls.

Section OcCalls.
  Context {T : Type} {NT : Num T} {OT : NumOrd T}.
  Variable m : colmodel T.
  Variable t : list T.
  Hypothesis G : good_grid m t.
  Notation K := (npieces t).
  Notation N := (npoints m t).

  (** *** Optimal control *)
  (** The functions of the model are generated ones, over the parameters
      symoc gives them. *)
  Record oc_generated (ge gIL gM gg gh : gfun T) : Prop := {
    ocg_e : m_e m = gen_fn ge; ocg_IL : m_IL m = gen_fn gIL; ocg_M : m_M m = gen_fn gM;
    ocg_g : m_g m = gen_fn gg; ocg_h : m_h m = gen_fn gh;
    ocs_e : suits m ["xp"; "up"; "p"; "piece_len"] ge; ocs_IL : suits m ["xp"; "up"; "p"; "piece_len"] gIL;
    ocs_M : suits m ["xe"; "p"] gM; ocs_g : suits m ["x"; "u"; "p"] gg; ocs_h : suits m ["xe"; "p"] gh;
    oco_e : gf_out ge = [col_n (m_col m) - 1; m_nx m]; oco_IL : gf_out gIL = []; oco_M : gf_out gM = [];
    oco_g : gf_out gg = [m_ng m]; oco_h : gf_out gh = [m_nh m];
    ocw_e : exists w, In w (gf_args ge) /\ In w ["xp"; "up"; "piece_len"; "wc"];
    ocw_IL : exists w, In w (gf_args gIL) /\ In w ["xp"; "up"; "piece_len"; "wc"];
    ocw_g : exists w, In w (gf_args gg) /\ In w ["x"; "u"]
  }.

  Definition oc_names : list string := ["x"; "u"; "p"; "xp"; "up"; "xe"; "piece_len"].
  Lemma oc_shapes v : oc_small m t -> In v oc_names -> has_shape (oc_prob m t) v (batch_shape m t v ++ base_shape m v).
  Proof.
    intros S Hv. destruct (String.string_dec v "piece_len") as [->|Hne].
    - apply HSconst with (a := piece_len t); try reflexivity.
      + rewrite <- fst_all_specs, oc_all_specs by auto. cbn. intuition discriminate.
      + unfold awf. cbn. rewrite diff_length. unfold npieces. lia.
    - unfold oc_names in Hv. cbn [In] in Hv.
      assert (H : forall sp, In (v, sp) (oc_specs m t) -> s_shape sp = batch_shape m t v ++ base_shape m v ->
        has_shape (oc_prob m t) v (batch_shape m t v ++ base_shape m v)).
      { intros sp H1 H2. apply HSvar with (sp := sp); auto. now rewrite oc_all_specs. }
      repeat (destruct Hv as [<-|Hv]; [eapply H; [unfold oc_specs; cbn [In]; eauto 12|reflexivity]|]).
      destruct Hv as [<-|[]]. congruence.
  Qed.

  Lemma oc_fns : p_objectives (oc_prob m t) = [mk_optfun [K] (m_IL m) None; mk_optfun [] (m_M m) None] /\
    map (fun co => (c_shape (fst co), snd co)) (p_constraints (oc_prob m t))
    = [([K; col_n (m_col m) - 1; m_nx m], mk_optfun [K; col_n (m_col m) - 1; m_nx m] (m_e m) None);
       ([N; m_ng m], mk_optfun [N; m_ng m] (m_g m) None); ([m_nh m], mk_optfun [m_nh m] (m_h m) None)].
  Proof. split; reflexivity. Qed.

  Lemma oc_called ge gIL gM gg gh : oc_small m t -> oc_generated ge gIL gM gg gh ->
    Forall (fun o => called (oc_prob m t) (o_shape o) o) (p_objectives (oc_prob m t)) /\
    Forall (fun co => called (oc_prob m t) (c_shape (fst co)) (snd co)) (p_constraints (oc_prob m t)).
  Proof.
    intros S H. destruct oc_fns as [EO EC]. pose proof (oc_reachable m t S) as R. pose proof (oc_selects m t G S) as SE.
    assert (HS : forall names, incl names oc_names -> forall v, In v names ->
      has_shape (oc_prob m t) v (batch_shape m t v ++ base_shape m v)) by (intros names I v Hv; apply oc_shapes; auto).
    assert (I1 : incl ["xp"; "up"; "p"; "piece_len"] oc_names) by (intros v Hv; cbn in *; intuition auto).
    assert (I2 : incl ["xe"; "p"] oc_names) by (intros v Hv; cbn in *; intuition auto).
    assert (I3 : incl ["x"; "u"; "p"] oc_names) by (intros v Hv; cbn in *; intuition auto).
    assert (J1 : incl ["xp"; "up"; "p"; "piece_len"] ["xp"; "up"; "p"; "piece_len"; "wc"; "G"; "penweight"])
      by (intros v Hv; cbn in *; intuition auto).
    split.
    - rewrite EO. constructor; [|constructor; [|constructor]]; cbn [mk_optfun o_shape].
      + rewrite (ocg_IL _ _ _ _ _ H). eapply plain_called; eauto using ocs_IL, piece_ext, ocw_IL. now rewrite (oco_IL _ _ _ _ _ H).
      + rewrite (ocg_M _ _ _ _ _ H). eapply plain_called; eauto using ocs_M, end_ext, incl_refl. now rewrite (oco_M _ _ _ _ _ H).
    - apply (Forall_map (fun co : comp * optfun T => (c_shape (fst co), snd co))
        (fun so => called (oc_prob m t) (fst so) (snd so))). rewrite EC.
      constructor; [|constructor; [|constructor; [|constructor]]]; cbn [fst snd].
      + rewrite (ocg_e _ _ _ _ _ H). eapply plain_called; eauto using ocs_e, piece_ext, ocw_e. now rewrite (oco_e _ _ _ _ _ H).
      + rewrite (ocg_g _ _ _ _ _ H). eapply plain_called; eauto using ocs_g, point_ext, ocw_g, incl_refl. now rewrite (oco_g _ _ _ _ _ H).
      + rewrite (ocg_h _ _ _ _ _ H). eapply plain_called; eauto using ocs_h, end_ext, incl_refl. now rewrite (oco_h _ _ _ _ _ H).
  Qed.
End OcCalls.

Section EstCalls.
  Context {T : Type} {NT : Num T} {OT : NumOrd T}.
  Variable m : colmodel T.
  Variable t : list T.
  Hypothesis G : good_grid m t.
  Variable y : list (yrow T).
  Variable uv : arr T.
  Hypothesis D : good_data m t y uv.
  Notation K := (npieces t).
  Notation N := (npoints m t).
  Notation KM := (kmeas (m_col m) y).
  Notation nm := (length KM).

  (** *** Output error and joint MAP estimation *)
  Definition e_names (jme : bool) : list string := ["xp"; "up"; "p"; "piece_len"] ++ (if jme then ["wc"; "G"] else []).
  Definition L_names : list string := ["y"; "x"; "u"; "p"].
  Record oem_generated (jme : bool) (ge gL : gfun T) : Prop := {
    oeg_e : m_e m = gen_fn ge; oeg_L : m_Lmeas m = gen_fn gL;
    oes_e : suits m (e_names jme) ge; oes_L : suits m L_names gL; oea_L : gf_args gL = L_names;
    oeo_e : gf_out ge = [col_n (m_col m) - 1; m_nx m]; oeo_L : gf_out gL = [];
    oew_e : exists w, In w (gf_args ge) /\ In w ["xp"; "up"; "piece_len"; "wc"]
  }.
  (** The penalty function is generated only when it is used (symjme.py:33-37). *)
  Record jme_generated (gt gp : gfun T) : Prop := {
    jmg_t : m_tube_L m = gen_fn gt; jmg_p : m_use_penalty m = true -> m_penalty m = gen_fn gp;
    jms_t : suits m (e_names true) gt; jms_p : m_use_penalty m = true -> suits m (e_names true ++ ["penweight"]) gp;
    jmo_t : gf_out gt = []; jmo_p : m_use_penalty m = true -> gf_out gp = [];
    jmw_t : exists w, In w (gf_args gt) /\ In w ["xp"; "up"; "piece_len"; "wc"];
    jmw_p : m_use_penalty m = true -> exists w, In w (gf_args gp) /\ In w ["xp"; "up"; "piece_len"; "wc"]
  }.
  (** The constants of the generated class have their declared shapes. *)
  Definition jme_constants : Prop :=
    ash (m_G m) = [m_nx m; m_nw m] /\ awf (m_G m) /\ ash (m_penweight m) = [m_nx m] /\ awf (m_penweight m).

  (** Constants of a problem: those of an oem problem, and G and penweight. *)
  Definition est_extra (jme : bool) (q : problem T) : Prop :=
    (forall v, In v ["y"; "um"; "u"; "up"; "piece_len"] -> dget String.eqb (p_extra q) v = dget String.eqb (oem_extra m t y uv) v) /\
    (jme = true -> dget String.eqb (p_extra q) "G" = Some (m_G m) /\ dget String.eqb (p_extra q) "penweight" = Some (m_penweight m)).

  Definition L_batch (w : string) : shape := if String.eqb w "p" then [] else [nm].

  Lemma um_wf : awf (um_arr m y uv).
  Proof.
    unfold awf, um_arr. cbn [adat ash]. unfold gather. rewrite map_length, (gd_u _ _ _ _ D).
    rewrite vpos_rows_length. cbn. lia.
  Qed.
  Lemma y_wf : awf (y_arr m y).
  Proof.
    unfold awf, y_arr. cbn [adat ash]. rewrite (concat_const_length (m_ny m)).
    - rewrite map_length. unfold kmeas. rewrite map_length. cbn. lia.
    - intros r Hr. apply in_map_iff in Hr as (k & <- & Hk). rewrite map_length. apply kmeas_coarse_In in Hk as [Hk _].
      pose proof (gd_ny _ _ _ _ D) as F. rewrite Forall_forall in F. apply F, nth_In, Hk.
  Qed.
  Lemma up_wf : awf (up_arr m t uv).
  Proof. unfold awf, up_arr. cbn [adat ash]. now rewrite map_length, seq_length. Qed.
  Lemma len_wf : awf (piece_len t).
  Proof. unfold awf. cbn. rewrite diff_length. unfold npieces. lia. Qed.

  Lemma const_shape jme q v a s : oem_like m t y uv jme q -> oem_small m t jme -> In v ["y"; "um"; "u"; "up"; "piece_len"; "penweight"; "G"] ->
    dget String.eqb (p_extra q) v = Some a -> ash a = s -> awf a -> has_shape q v s.
  Proof.
    intros L S Hv Ea Es Wa. apply HSconst with (a := a); auto.
    rewrite <- fst_all_specs, (oem_all_specs m t y uv jme q L S). unfold oem_specs.
    destruct jme; cbn [map fst app]; cbn in Hv |- *; intuition (subst; discriminate).
  Qed.
  Lemma spec_shape jme q v sp s : oem_like m t y uv jme q -> oem_small m t jme -> In (v, sp) (oem_specs m t y jme) -> s_shape sp = s -> has_shape q v s.
  Proof. intros L S H1 H2. apply HSvar with (sp := sp); auto. now rewrite (oem_all_specs m t y uv jme q L S). Qed.

  Section Q.
  Variables (jme : bool) (q : problem T).
  Hypothesis L : oem_like m t y uv jme q.
  Hypothesis S : oem_small m t jme.
  Hypothesis E : est_extra jme q.
  Hypothesis JC : jme = true -> jme_constants.

  Lemma est_shapes v : In v (e_names jme ++ (if jme then ["penweight"] else [])) -> has_shape q v (batch_shape m t v ++ base_shape m v).
  Proof.
    destruct E as [E1 E2]. intros Hv. unfold e_names in Hv. rewrite <- app_assoc in Hv. apply in_app_or in Hv as [Hv|Hv].
    - cbn [In] in Hv. destruct Hv as [<-|[<-|[<-|[<-|[]]]]].
      + eapply spec_shape; [exact L|exact S|unfold oem_specs; destruct jme; cbn [In app]; eauto 8|reflexivity].
      + eapply const_shape with (a := up_arr m t uv); [exact L|exact S|cbn; auto 8|rewrite E1 by (cbn; auto 8); reflexivity|reflexivity|apply up_wf].
      + eapply spec_shape; [exact L|exact S|unfold oem_specs; destruct jme; cbn [In app]; eauto 8|reflexivity].
      + eapply const_shape with (a := piece_len t); [exact L|exact S|cbn; auto 8|rewrite E1 by (cbn; auto 8); reflexivity|reflexivity|apply len_wf].
    - destruct jme; [|cbn in Hv; tauto]. destruct (E2 eq_refl) as [EG EP]. destruct (JC eq_refl) as (G1 & G2 & P1 & P2).
      cbn [In app] in Hv. destruct Hv as [<-|[<-|[<-|[]]]].
      + eapply spec_shape; [exact L|exact S|unfold oem_specs; cbn [In app]; eauto 8|reflexivity].
      + eapply const_shape with (a := m_G m); [exact L|exact S|cbn; auto 8|auto..].
      + eapply const_shape with (a := m_penweight m); [exact L|exact S|cbn; auto 8|auto..].
  Qed.

  Lemma L_param gL w : gf_args gL = L_names -> In w L_names ->
    param (mk_optfun [nm] (gen_fn gL) (Some ["y"; "xm"; "um"; "p"])) w
    = (if String.eqb w "x" then "xm" else if String.eqb w "u" then "um" else w).
  Proof. intros EA Hw. unfold param. cbn [mk_optfun o_fun gen_fn f_sig o_args]. rewrite EA. cbn in Hw. intuition (subst; reflexivity). Qed.

  Lemma L_shape gL w : suits m L_names gL -> gf_args gL = L_names -> In w (gf_args gL) ->
    has_shape q (param (mk_optfun [nm] (gen_fn gL) (Some ["y"; "xm"; "um"; "p"])) w) (L_batch w ++ base_of gL w).
  Proof.
    intros U EA Hw. rewrite (base_of_suits m L_names gL w U Hw). rewrite EA in Hw. rewrite L_param by auto.
    destruct E as [E1 _]. cbn [L_names In] in Hw. destruct Hw as [<-|[<-|[<-|[<-|[]]]]].
    - eapply const_shape with (a := y_arr m y); [exact L|exact S|cbn; auto 8|rewrite E1 by (cbn; auto 8); reflexivity|reflexivity|apply y_wf].
    - eapply spec_shape with (sp := xm_spec (dec_spec (Comp [N; m_nx m] 0)) KM); [exact L|exact S|unfold oem_specs; destruct jme; cbn [In app]; eauto 8|reflexivity].
    - eapply const_shape with (a := um_arr m y uv); [exact L|exact S|cbn; auto 8|rewrite E1 by (cbn; auto 8); reflexivity|reflexivity|apply um_wf].
    - eapply spec_shape; [exact L|exact S|unfold oem_specs; destruct jme; cbn [In app]; eauto 8|reflexivity].
  Qed.
  Lemma L_ext (gL : gfun T) : gf_args gL = L_names -> bshapes (map L_batch (gf_args gL)) = Ok [nm].
  Proof. intros ->. rewrite (bshapes_one nm); [reflexivity|]. intros s Hs. cbn in Hs. intuition (subst; auto). Qed.
  Lemma L_args_fit gL dvec : reachable q -> suits m L_names gL -> gf_args gL = L_names -> length dvec = ndec q ->
    exists A, fun_args q dvec (mk_optfun [nm] (gen_fn gL) (Some ["y"; "xm"; "um"; "p"])) = Ok A /\ args_fit gL L_batch [nm] A.
  Proof.
    intros R U EA HL. apply (bind_args q (oem_sel m t y jme) R (oem_selects m t G y uv D jme q L S) _ gL L_batch [nm]); auto.
    - apply (su_wf _ _ _ U).
    - cbn [mk_optfun o_args gen_fn f_sig]. now rewrite EA.
    - intros w. now apply L_shape.
    - now apply L_ext.
  Qed.
  Lemma L_fits gL : suits m L_names gL -> gf_args gL = L_names ->
    fits q (mk_optfun [nm] (gen_fn gL) (Some ["y"; "xm"; "um"; "p"])).
  Proof.
    intros U EA. apply (bind_fits q _ gL L_batch); auto.
    - apply (su_wf _ _ _ U).
    - cbn [mk_optfun o_args]. repeat constructor; cbn; intuition discriminate.
    - cbn [mk_optfun o_args gen_fn f_sig]. now rewrite EA.
    - intros w. now apply L_shape.
  Qed.
  Lemma L_called gL : reachable q -> suits m L_names gL -> gf_args gL = L_names -> gf_out gL = [] ->
    called q [nm] (mk_optfun [nm] (gen_fn gL) (Some ["y"; "xm"; "um"; "p"])).
  Proof.
    intros R U EA EO. split; [now apply L_fits|]. intros dvec HL. destruct (L_args_fit gL dvec R U EA HL) as (A & E1 & E2). exists A. eexists. split; [exact E1|].
    destruct (gen_call gL (su_wf _ _ _ U) L_batch [nm] A E2) as (C1 & C2 & C3). 
    split; [exact C1|]. split; [cbn [ash]; now rewrite EO|exact C3].
  Qed.
  Lemma est_called g s names : reachable q -> suits m names g -> incl names (e_names jme ++ (if jme then ["penweight"] else [])) ->
    (exists w, In w (gf_args g) /\ In w ["xp"; "up"; "piece_len"; "wc"]) -> s = [K] ++ gf_out g ->
    called q s (mk_optfun s (gen_fn g) None).
  Proof.
    intros R U I Hw Es. eapply (plain_called q (oem_sel m t y jme) R (oem_selects m t G y uv D jme q L S)); eauto.
    - intros v Hv. apply est_shapes. auto.
    - eapply piece_ext; eauto. intros v Hv. apply I in Hv. unfold e_names in Hv. destruct jme; cbn in Hv |- *; tauto.
  Qed.
  End Q.

  Lemma oem_est_extra : est_extra false (oem_prob m t y uv false).
  Proof. split; [reflexivity|discriminate]. Qed.
  Lemma jme_est_extra : est_extra true (jme_prob m t y uv).
  Proof. split; [|split; reflexivity]. intros v Hv. cbn in Hv. intuition (subst; reflexivity). Qed.

  Lemma oem_called ge gL : oem_small m t false -> oem_generated false ge gL ->
    let q := oem_prob m t y uv false in
    Forall (fun o => called q (o_shape o) o) (p_objectives q) /\
    Forall (fun co => called q (c_shape (fst co)) (snd co)) (p_constraints q).
  Proof.
    intros S H q. assert (R : reachable q) by exact (oem_reachable m t y uv false S).
    assert (LK : oem_like m t y uv false q) by apply oem_is_like. assert (EX : est_extra false q) by apply oem_est_extra. split.
    - change (p_objectives q) with [mk_optfun [nm] (m_Lmeas m) (Some ["y"; "xm"; "um"; "p"])]. constructor; [|constructor].
      rewrite (oeg_L _ _ _ H). apply (L_called false q); auto; try discriminate.
      + apply (oes_L _ _ _ H). + apply (oea_L _ _ _ H). + apply (oeo_L _ _ _ H).
    - change (p_constraints q) with [(Comp [K; col_n (m_col m) - 1; m_nx m] 0, mk_optfun [K; col_n (m_col m) - 1; m_nx m] (m_e m) None)].
      constructor; [|constructor]. cbn [fst snd c_shape]. rewrite (oeg_e _ _ _ H).
      apply (est_called false q LK S EX) with (names := e_names false); auto; try discriminate.
      + apply (oes_e _ _ _ H). + intros v Hv. apply in_or_app. auto. + apply (oew_e _ _ _ H). + now rewrite (oeo_e _ _ _ H).
  Qed.

  Lemma jme_called ge gL gt gp : oem_small m t true -> oem_generated true ge gL -> jme_generated gt gp -> jme_constants ->
    let q := jme_prob m t y uv in
    Forall (fun o => called q (o_shape o) o) (p_objectives q) /\
    Forall (fun co => called q (c_shape (fst co)) (snd co)) (p_constraints q).
  Proof.
    intros S H HJ JC q. assert (R : reachable q) by exact (jme_reachable m t y uv S).
    assert (LK : oem_like m t y uv true q) by apply jme_is_like. assert (EX : est_extra true q) by apply jme_est_extra.
    assert (I1 : incl (e_names true) (e_names true ++ ["penweight"])) by (intros v Hv; apply in_or_app; auto).
    assert (CT : called q [K] (mk_optfun [K] (m_tube_L m) None)).
    { rewrite (jmg_t _ _ HJ). apply (est_called true q LK S EX (fun _ => JC)) with (names := e_names true); auto.
      - apply (jms_t _ _ HJ). - apply (jmw_t _ _ HJ). - now rewrite (jmo_t _ _ HJ). }
    assert (CP : m_use_penalty m = true -> called q [K] (mk_optfun [K] (m_penalty m) None)).
    { intros UP. rewrite (jmg_p _ _ HJ UP). apply (est_called true q LK S EX (fun _ => JC)) with (names := e_names true ++ ["penweight"]); auto.
      - apply (jms_p _ _ HJ UP). - apply incl_refl. - apply (jmw_p _ _ HJ UP). - now rewrite (jmo_p _ _ HJ UP). }
    assert (CL : called q [nm] (mk_optfun [nm] (m_Lmeas m) (Some ["y"; "xm"; "um"; "p"]))).
    { rewrite (oeg_L _ _ _ H). apply (L_called true q); auto.
      - apply (oes_L _ _ _ H). - apply (oea_L _ _ _ H). - apply (oeo_L _ _ _ H). }
    split.
    - replace (p_objectives q) with ([mk_optfun [nm] (m_Lmeas m) (Some ["y"; "xm"; "um"; "p"]); mk_optfun [K] (m_tube_L m) None]
         ++ (if m_use_penalty m then [mk_optfun [K] (m_penalty m) None] else []))
        by (unfold q, jme_prob, jme_ops; destruct (m_use_penalty m); reflexivity).
      apply Forall_app. split; [repeat (constructor; auto)|]. destruct (m_use_penalty m); repeat (constructor; auto).
    - replace (p_constraints q) with [(Comp [K; col_n (m_col m) - 1; m_nx m] 0, mk_optfun [K; col_n (m_col m) - 1; m_nx m] (m_e m) None)]
        by (unfold q, jme_prob, jme_ops; destruct (m_use_penalty m); reflexivity).
      constructor; [|constructor]. cbn [fst snd c_shape]. rewrite (oeg_e _ _ _ H).
      apply (est_called true q LK S EX (fun _ => JC)) with (names := e_names true); auto.
      + apply (oes_e _ _ _ H). + apply (oew_e _ _ _ H). + now rewrite (oeo_e _ _ _ H).
  Qed.
End EstCalls.
