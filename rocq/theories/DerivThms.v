(** The assembled derivatives are derivatives. *)
From Coq Require Import String List ZArith Bool Arith Lia Reals Lra.
From Coquelicot Require Import Coquelicot.
From Verif Require Import Py NdArray OptimModel ColModel DictLemmas Builder BuilderLemmas
  NdLemmas OptimSpec OptimLaws LawFacts LayoutLemmas ProblemSpec ProblemLemmas AssemblyLemmas
  GradLemmas ProblemFacts DerivSpec CalcLemmas.
Import ListNotations.
Local Open Scope R_scope.

Lemma tsum_flat {X C} (c : X -> list C) (o : X -> list Z) (v : X -> list R) D q l :
  (forall x, In x l -> length (c x) = length (o x) /\ length (o x) = length (v x)) ->
  tsum (flat_map c l) (flat_map o l) (flat_map v l) D q = rsum (map (fun x => tsum (c x) (o x) (v x) D q) l).
Proof.
  induction l as [|x l IH]; intros H; [reflexivity|]. simpl flat_map.
  destruct (H x (or_introl eq_refl)) as [H1 H2]. rewrite tsum_app by auto.
  rewrite IH by (intros; apply H; simpl; auto). reflexivity.
Qed.

Lemma combine_map_both {A B C D} (f : A -> C) (g : B -> D) la lb :
  combine (map f la) (map g lb) = map (fun x => (f (fst x), g (snd x))) (combine la lb).
Proof. revert lb; induction la; intros [|b lb]; simpl; auto. f_equal; auto. Qed.

Lemma combine_map_snd_r {A B C} (g : B -> C) (la : list A) lb :
  combine la (map g lb) = map (fun x => (fst x, g (snd x))) (combine la lb).
Proof. revert lb; induction la; intros [|b lb]; simpl; auto. f_equal; auto. Qed.

Lemma move_0 sig A D : length A = length sig -> move sig A D 0 = A.
Proof.
  unfold move. revert A; induction sig as [|w sig IH]; intros [|a A] H; simpl in *; try discriminate; auto.
  f_equal; auto. destruct a as [s l]. simpl. now rewrite vmove_0.
Qed.

Lemma cell_eqb_spec a b : reflect (a = b) (cell_eqb a b).
Proof.
  unfold cell_eqb. destruct a as [w i], b as [w' i']. simpl.
  destruct (String.eqb_spec w w'), (Z.eqb_spec i i'); simpl; constructor; congruence.
Qed.

(** Sum over listed pairs. *)
Definition wsum {C} (cells : list C) (vals : list R) (W : C -> R) : R :=
  rsum (map (fun e => snd e * W (fst e)) (combine cells vals)).

Lemma wsum_app {C} (c1 c2 : list C) v1 v2 W : length c1 = length v1 ->
  wsum (c1 ++ c2) (v1 ++ v2) W = wsum c1 v1 W + wsum c2 v2 W.
Proof. intros H. unfold wsum. rewrite combine_app by auto. now rewrite map_app, rsum_app. Qed.

Lemma wsum_flat {X C} (c : X -> list C) (v : X -> list R) W l :
  (forall x, In x l -> length (c x) = length (v x)) ->
  wsum (flat_map c l) (flat_map v l) W = rsum (map (fun x => wsum (c x) (v x) W) l).
Proof.
  induction l as [|x l IH]; intros H; [reflexivity|]. simpl flat_map.
  rewrite wsum_app by (apply H; simpl; auto). rewrite IH by (intros; apply H; simpl; auto). reflexivity.
Qed.

Lemma wsum_map_cells {B C} (g : B -> C) cells vals W :
  wsum (map g cells) vals W = wsum cells vals (fun b => W (g b)).
Proof. unfold wsum. rewrite combine_map_l, map_map. reflexivity. Qed.

Lemma wsum_ext {C} (cells : list C) vals W W' :
  (forall c, In c cells -> W c = W' c) -> wsum cells vals W = wsum cells vals W'.
Proof.
  intros H. unfold wsum. apply rsum_map_ext. intros [c v] Hin. simpl. apply in_combine_l in Hin. now rewrite H.
Qed.

(** Weighting entries by their outputs. *)
Lemma tsum_wsum {C} (cells : list C) outs vals D n (mu : nat -> R) :
  length cells = length outs -> length outs = length vals ->
  (forall o, In o outs -> (0 <= o < Z.of_nat n)%Z) ->
  rsum (map (fun q => mu q * tsum cells outs vals D (Z.of_nat q)) (seq 0 n))
  = wsum cells (map (fun e => snd e * mu (Z.to_nat (fst e))) (combine outs vals)) D.
Proof.
  intros L1 L2 H. rewrite tsum_weighted by auto. unfold wsum. rewrite combine_map_snd_r, map_map.
  apply rsum_map_ext. intros [c [o v]] _. simpl. lra.
Qed.

Lemma d2_if b F v : d2 F v -> d2 (fun s t => if b : bool then F s t else 0) (if b then v else 0).
Proof. destruct b; auto. intros _. apply d2_zero. Qed.

Section Thms.
  Variable p : problem R.
  Variable sel : string -> nat -> nat.
  Hypothesis RP : reachable p.
  Hypothesis S : selects p sel.
  Let I : inv p := reachable_inv p RP.

  Lemma args_length o dvec A : length dvec = ndec p -> fits p o -> fun_args p dvec o = Ok A ->
    length A = length (f_sig (o_fun o)).
  Proof.
    intros HL F. rewrite (fun_args_ok p sel dvec o I S HL F). intros [= <-]. apply map_length.
  Qed.

  Lemma plane_line o A e s : length A = length (f_sig (o_fun o)) ->
    plane p sel o A e e s 0 = callv (o_fun o) (move (f_sig (o_fun o)) A (dir p sel o e) s).
  Proof. intros H. unfold plane. now rewrite move_0. Qed.

  Lemma shape_row c (o : optfun R) : In (c, o) (p_constraints p) -> csize c = Z.of_nat (prodn (c_shape c)).
  Proof.
    intros Hin. pose proof (inv_csmall p I) as H. rewrite Forall_forall in H. specialize (H _ Hin). simpl in H.
    assert (E := cons_adjacent p RP).
    rewrite csize_nonneg; [apply prodZ_prodn|exact H].
  Qed.

  (** *** Jacobian *)
  Lemma jac_is_derivative dvec ds : length dvec = ndec p ->
    Forall2 (constr_diff p dvec) (p_constraints p) ds ->
    exists i0 i1 vals,
      constr_jac_ind p = Ok (i0, i1) /\ constr_jac_val p dvec = Ok vals /\
      length i0 = length i1 /\ length i1 = length vals /\
      in_range (ndec p) i0 /\ in_range (ncons p) i1 /\
      (forall e t, exists c, constr p (vmove dvec e t) = Ok c /\ length c = ncons p) /\
      forall e q, (q < ncons p)%nat ->
      is_derive (fun t => nth q (constrv p (vmove dvec e t)) 0) 0
        (tsum i0 i1 vals (fun z => e (Z.to_nat z)) (Z.of_nat q)).
  Proof.
    intros HL HF.
    assert (HJ : Forall2 (jac_at_ok p dvec) (p_constraints p) (map snd ds)).
    { apply Forall2_map_r. eapply Forall2_impl; [|exact HF]. intros co [A jd] (H1 & H2 & _ & H3 & _).
      split; auto. exists A. split; auto. }
    assert (HC : Forall2 (fun co A => fcall_ok p dvec (c_shape (fst co)) (snd co) A) (p_constraints p) (map fst ds)).
    { apply Forall2_map_r. eapply Forall2_impl; [|exact HF]. intros co [A jd] (H1 & H2 & H3 & _).
      split; [apply H1|]. auto. }
    destruct (jac_entries p sel RP S dvec _ HL HJ) as (nnz & i0 & i1 & vals & _ & EI & EV & L0 & L1 & L2 & R0 & R1 & _).
    exists i0, i1, vals. split; [auto|]. split; [auto|]. split; [congruence|]. split; [congruence|].
    split; [auto|]. split; [auto|].
    set (X := combine (p_constraints p) ds).
    assert (Eline : forall e t,
      constr p (vmove dvec e t) = Ok (flat_map (fun x => plane p sel (snd (fst x)) (fst (snd x)) e e t 0) X) /\
      length (flat_map (fun x => plane p sel (snd (fst x)) (fst (snd x)) e e t 0) X) = ncons p).
    { intros e t. pose proof (constr_plane p sel RP S dvec _ e e t 0 HL HC) as H.
      rewrite vmove_0 in H. rewrite combine_map_snd_r, flat_map_map in H. exact H. }
    split; [intros e t; destruct (Eline e t); eauto|].
    intros e q Hq.
    assert (HX : forall x, In x X -> In (fst x) (p_constraints p) /\ constr_diff p dvec (fst x) (snd x))
      by (apply zip_cons; auto).
    assert (HA : forall x, In x X -> length (fst (snd x)) = length (f_sig (o_fun (snd (fst x))))).
    { intros x Hx. destruct (HX x Hx) as [_ H]. destruct (snd x) as [A jd]. destruct H as (H1 & H2 & _).
      eapply args_length; eauto. apply H1. }
    assert (HP : forall x t, In x X -> length (plane p sel (snd (fst x)) (fst (snd x)) e e t 0) = prodn (c_shape (fst (fst x)))).
    { intros x t Hx. destruct (HX x Hx) as [_ H]. destruct (snd x) as [A jd]. destruct H as (H1 & H2 & H3 & _).
      destruct (fcall_plane p sel dvec _ _ A e e t 0 HL (conj (proj1 H1) (conj H2 H3))) as (v & _ & _ & E). exact E. }
    assert (Hle := adjacent_le _ _ _ (cons_adjacent p RP)).
    assert (Hadj : adjacent 0 (map (fun x => cslice (fst (fst x))) X) (p_ncons p)).
    { pose proof (cons_adjacent p RP) as H. unfold X.
      rewrite <- (map_fst_combine (p_constraints p) ds) in H by (symmetry; eapply Forall2_length; eauto).
      rewrite map_map in H. exact H. }
    assert (Hsz : forall x, In x X -> csize (fst (fst x)) = Z.of_nat (prodn (c_shape (fst (fst x))))).
    { intros [[c o] d] Hx. destruct (HX _ Hx) as [Hin _]. eapply shape_row; eauto. }
    (* value of row q along the line *)
    apply (is_derive_ext (fun t => rsum (map (fun x =>
       if ((c_off (fst (fst x)) <=? Z.of_nat q) && (Z.of_nat q <? c_off (fst (fst x)) + Z.of_nat (prodn (c_shape (fst (fst x))))))%Z%bool
       then nth (Z.to_nat (Z.of_nat q - c_off (fst (fst x)))) (callv (o_fun (snd (fst x)))
              (move (f_sig (o_fun (snd (fst x)))) (fst (snd x)) (dir p sel (snd (fst x)) e) t)) 0 else 0) X))).
    { intros t. unfold constrv. destruct (Eline e t) as [-> _].
      pose proof (stacked_row X (fun x => fst (fst x)) (fun x => plane p sel (snd (fst x)) (fst (snd x)) e e t 0)
        0 (p_ncons p) (Z.of_nat q) Hadj) as E.
      rewrite Z.sub_0_r, Nat2Z.id in E. rewrite E.
      - apply rsum_map_ext. intros x Hx. rewrite HP, plane_line by auto. reflexivity.
      - intros x Hx. rewrite HP by auto. auto.
      - unfold ncons in Hq. lia. }
    eapply is_derive_eq.
    { apply (is_derive_rsum (fun x t =>
       if ((c_off (fst (fst x)) <=? Z.of_nat q) && (Z.of_nat q <? c_off (fst (fst x)) + Z.of_nat (prodn (c_shape (fst (fst x))))))%Z%bool
       then nth (Z.to_nat (Z.of_nat q - c_off (fst (fst x)))) (callv (o_fun (snd (fst x)))
              (move (f_sig (o_fun (snd (fst x)))) (fst (snd x)) (dir p sel (snd (fst x)) e) t)) 0 else 0)
       (fun x => tsum (jcells (fst (snd (snd x)))) (jouts (fst (snd (snd x)))) (flat_map adat (snd (snd (snd x))))
                   (on_cell (dir p sel (snd (fst x)) e)) (Z.of_nat q - c_off (fst (fst x))))).
      intros [[c o] [A [jb vs]]] Hx. destruct (HX _ Hx) as [Hin (H1 & H2 & H3 & H4 & H5)]. cbn [fst snd] in *.
      destruct (inv_cons_fits p c o I Hin) as (Eo & _ & _).
      destruct (Z.leb_spec (c_off c) (Z.of_nat q)), (Z.ltb_spec (Z.of_nat q) (c_off c + Z.of_nat (prodn (c_shape c))));
        cbn [andb].
      - destruct (Z_of_nat_complete (Z.of_nat q - c_off c)) as (k & Ek); [lia|]. rewrite Ek, Nat2Z.id.
        apply H5; [apply dir_supported|lia].
      - rewrite tsum_none; [apply (is_derive_const 0)|].
        intros z Hz. destruct H1 as [_ J]. pose proof (js_ok _ _ _ _ _ J) as Ho. unfold jouts in Hz.
        apply in_flat_map in Hz. destruct Hz as (b & Hb & Hz). rewrite Forall_forall in Ho.
        destruct (Ho b Hb) as (_ & _ & _ & Hr). unfold in_range in Hr. rewrite Forall_forall in Hr.
        specialize (Hr z Hz). simpl in Hr. lia.
      - rewrite tsum_none; [apply (is_derive_const 0)|].
        intros z Hz. destruct H1 as [_ J]. pose proof (js_ok _ _ _ _ _ J) as Ho. unfold jouts in Hz.
        apply in_flat_map in Hz. destruct Hz as (b & Hb & Hz). rewrite Forall_forall in Ho.
        destruct (Ho b Hb) as (_ & _ & _ & Hr). unfold in_range in Hr. rewrite Forall_forall in Hr.
        specialize (Hr z Hz). simpl in Hr. lia.
      - lia. }
    (* the listed entries *)
    assert (HF1 : Forall2 (jac_ok p) (p_constraints p) (map fst (map snd ds))).
    { rewrite map_map. apply Forall2_map_r. eapply Forall2_impl; [|exact HF]. intros co [A jd] (H1 & _). exact H1. }
    destruct (jac_index p sel RP S _ HF1) as [_ EI'].
    pose proof (jac_value p sel RP S dvec _ HL HJ) as EV'.
    rewrite EI in EI'. injection EI' as -> ->. rewrite EV in EV'. injection EV' as ->.
    assert (HLd : length ds = length (p_constraints p)) by (symmetry; eapply Forall2_length; eauto).
    rewrite map_map, combine_map_snd_r, !flat_map_map. cbn [fst snd].
    rewrite (flat_map_combine_r _ (p_constraints p) ds HLd). fold X. 
    rewrite tsum_flat.
    2: { intros [[c o] [A [jb vs]]] Hx. destruct (HX _ Hx) as [Hin (H1 & H2 & H3 & (_ & HV) & _)]. cbn [fst snd] in *.
         destruct H1 as [_ J]. pose proof (js_ok _ _ _ _ _ J) as Ho. unfold jcols, jrows, vals_of. clear -HV Ho.
         induction HV as [|b v jb vs H HV IH]; simpl; auto. inversion Ho as [|x y (_ & E & _) Ho']; subst.
         destruct (IH Ho') as [I1 I2]. rewrite !app_length, !map_length. cbn [fst] in E. split; lia. }
    apply rsum_map_ext. intros [[c o] [A [jb vs]]] Hx. destruct (HX _ Hx) as [Hin (H1 & H2 & H3 & H4 & H5)].
    cbn [fst snd] in *. unfold jrows. rewrite <- (map_flat_map (fun i => (i + c_off c)%Z) jb_o).
    rewrite tsum_shift. unfold jcols, vals_of.
    assert (Ec : flat_map (fun b => map (dix sel o (jb_w b)) (jb_i b)) jb
      = map (fun wi => dix sel o (fst wi) (snd wi)) (jcells jb)).
    { unfold jcells. rewrite map_flat_map. apply flat_map_ext. intros b. rewrite map_map. reflexivity. }
    rewrite Ec, tsum_map_cells. apply tsum_ext. intros [w i] Hc. unfold on_cell. cbn [fst snd].
    rewrite dir_active; [unfold dix; now rewrite Nat2Z.id|].
    unfold jcells in Hc. apply in_flat_map in Hc. destruct Hc as (b & Hb & Hc). apply in_map_iff in Hc.
    destruct Hc as (i' & E & _). injection E as <- <-. destruct H1 as [_ J].
    pose proof (js_ok _ _ _ _ _ J) as Ho. rewrite Forall_forall in Ho. apply (Ho b Hb).
  Qed.

  (** *** Gradient *)
  Lemma grad_is_derivative dvec ds : length dvec = ndec p ->
    Forall2 (obj_diff p dvec) (p_objectives p) ds ->
    exists g, obj_grad p dvec = Ok g /\ length g = ndec p /\
      (forall e t, exists v, obj p (vmove dvec e t) = Ok v) /\
      forall e, is_derive (fun t => objv p (vmove dvec e t)) 0
        (rsum (map (fun k => nth k g 0 * e k) (seq 0 (ndec p)))).
  Proof.
    intros HL HF.
    assert (HG : Forall2 (grad_at_ok p dvec) (p_objectives p) (map snd ds)).
    { apply Forall2_map_r. eapply Forall2_impl; [|exact HF]. intros o [A gs] (H1 & H2 & H3 & H4 & _).
      split; auto. exists A. split; auto. }
    assert (HC : Forall2 (fun o A => fcall_ok p dvec (o_shape o) o A) (p_objectives p) (map fst ds)).
    { apply Forall2_map_r. eapply Forall2_impl; [|exact HF]. intros o [A gs] (H1 & H2 & H3 & _).
      split; auto. }
    destruct (grad_value p sel RP S dvec _ HL HG) as (g & Eg & Lg & Hg).
    exists g. split; [auto|]. split; [auto|].
    set (X := combine (p_objectives p) ds).
    assert (Eline : forall e t,
      obj p (vmove dvec e t) = Ok (rsum (map (fun x => rsum (plane p sel (fst x) (fst (snd x)) e e t 0)) X))).
    { intros e t. pose proof (obj_plane p sel RP S dvec _ e e t 0 HL HC) as H.
      rewrite vmove_0 in H. rewrite combine_map_snd_r, map_map in H. exact H. }
    split; [eauto|]. intros e.
    assert (HX : forall x, In x X -> In (fst x) (p_objectives p) /\ obj_diff p dvec (fst x) (snd x))
      by (apply zip_cons; auto).
    apply (is_derive_ext (fun t => rsum (map (fun x => rsum (callv (o_fun (fst x))
        (move (f_sig (o_fun (fst x))) (fst (snd x)) (dir p sel (fst x) e) t))) X))).
    { intros t. unfold objv. rewrite Eline. apply rsum_map_ext. intros x Hx. rewrite plane_line; [reflexivity|].
      destruct (HX x Hx) as [_ H]. destruct (snd x) as [A gs]. destruct H as (H1 & H2 & _). exact (args_length (fst x) dvec A HL H1 H2). }
    eapply is_derive_eq.
    { apply (is_derive_rsum (fun x t => rsum (callv (o_fun (fst x))
        (move (f_sig (o_fun (fst x))) (fst (snd x)) (dir p sel (fst x) e) t)))
        (fun x => rsum (map (fun g => rsum (map (fun i => nth i (adat (snd g)) 0 * dir p sel (fst x) e (fst g) i)
                                   (seq 0 (length (adat (snd g)))))) (snd (snd x))))).
      intros [o [A gs]] Hx. destruct (HX _ Hx) as [_ (_ & _ & _ & _ & H)]. apply H. apply dir_supported. }
    rewrite <- Lg. rewrite <- (sumn_rsum (length g) (fun k => nth k g 0 * e k)).
    change (sumn (length g) (fun k => nth k g 0 * e k)) with (dotp g e). rewrite Hg.
    rewrite combine_map_snd_r. rewrite map_map. cbn [fst snd]. apply (rsum_map_ext _ _ X).
    intros [o [A gs]] Hx. destruct (HX _ Hx) as [_ (_ & _ & _ & (_ & _ & Ho) & _)]. cbn [fst snd].
    unfold gpair. apply (rsum_map_ext _ (fun g0 => sumn (length (adat (snd g0))) (fun i => nth i (adat (snd g0)) 0 * e (sel (param o (fst g0)) i))) gs). intros w Hw. rewrite (sumn_rsum (length (adat (snd w)))).
    apply rsum_map_ext. intros i _. rewrite Forall_forall in Ho. rewrite dir_active by apply (Ho w Hw). reflexivity.
  Qed.

  (** *** Lagrangian Hessian *)
  Lemma hcells_map o hb : hess_ok p (o_shape o) o hb \/ (exists s, hess_ok p s o hb) ->
    combine (hrow0 sel o hb) (hrow1 sel o hb)
    = map (fun ab => (dix sel o (fst (fst ab)) (snd (fst ab)), dix sel o (fst (snd ab)) (snd (snd ab)))) (hcells hb).
  Proof.
    intros H. assert (exists s, hess_ok p s o hb) as (s & [_ J]) by (destruct H; eauto).
    pose proof (hs_ok _ _ _ _ _ J) as Ho. unfold hrow0, hrow1, hcells. clear -Ho.
    induction Ho as [|b hb (_ & _ & E & _) Ho IH]; simpl; auto.
    rewrite combine_app by (rewrite !map_length; congruence). rewrite map_app, IH. f_equal.
    rewrite !combine_map_both, map_map. reflexivity.
  Qed.

  Lemma sym_cells o hb D E : (exists s, hess_ok p s o hb) -> no_alias sel o hb -> forall ab, In ab (hcells hb) ->
    sym cell_eqb (on_cell (dir p sel o D)) (on_cell (dir p sel o E)) ab
    = sym Z.eqb (fun z => D (Z.to_nat z)) (fun z => E (Z.to_nat z))
        (dix sel o (fst (fst ab)) (snd (fst ab)), dix sel o (fst (snd ab)) (snd (snd ab))).
  Proof.
    intros (s & _ & J) NA [[w i] [w' i']] Hin. pose proof (hs_ok _ _ _ _ _ J) as Ho. rewrite Forall_forall in Ho.
    assert (Hact : In w (active p o) /\ In w' (active p o)).
    { unfold hcells in Hin. apply in_flat_map in Hin. destruct Hin as (b & Hb & Hin).
      destruct (Ho b Hb) as (H1 & H2 & _). pose proof (in_combine_l _ _ _ _ Hin) as Hl.
      pose proof (in_combine_r _ _ _ _ Hin) as Hr. apply in_map_iff in Hl. apply in_map_iff in Hr.
      destruct Hl as (? & El & _), Hr as (? & Er & _). injection El as <- _. injection Er as <- _. auto. }
    destruct Hact as [Ha Hb]. unfold sym, on_cell. cbn [fst snd].
    rewrite !(dir_active p sel o _ w _ Ha), !(dir_active p sel o _ w' _ Hb). unfold dix. rewrite !Nat2Z.id.
    destruct (cell_eqb_spec (w, i) (w', i')) as [E1|E1].
    - injection E1 as -> ->. rewrite Z.eqb_refl. reflexivity.
    - specialize (NA _ _ Hin E1). cbn [fst snd] in NA.
      destruct (Z.eqb_spec (Z.of_nat (sel (param o w) (Z.to_nat i))) (Z.of_nat (sel (param o w') (Z.to_nat i')))).
      + exfalso. apply NA. lia.
      + reflexivity.
  Qed.

  Lemma hess_lens s o hb vs : hess_ok p s o hb ->
    Forall2 (fun b (v : arr R) => length (adat v) = length (hb_i b)) hb vs ->
    length (hcells hb) = length (houts hb) /\ length (houts hb) = length (flat_map adat vs).
  Proof.
    intros [_ J] HV. pose proof (hs_ok _ _ _ _ _ J) as Ho. unfold hcells, houts. clear -HV Ho.
    induction HV as [|b v hb vs H HV IH]; simpl; auto. inversion Ho as [|x y (_ & _ & E & E' & _) Ho']; subst.
    destruct (IH Ho') as [I1 I2]. rewrite !app_length, combine_length, !map_length. lia.
  Qed.

  Lemma houts_range s o hb : hess_ok p s o hb -> forall z, In z (houts hb) -> (0 <= z < Z.of_nat (prodn s))%Z.
  Proof.
    intros [_ J] z Hz. pose proof (hs_ok _ _ _ _ _ J) as Ho. unfold houts in Hz. apply in_flat_map in Hz.
    destruct Hz as (b & Hb & Hz). rewrite Forall_forall in Ho.
    destruct (Ho b Hb) as (_ & _ & _ & _ & _ & _ & Hr). unfold in_range in Hr. rewrite Forall_forall in Hr. auto.
  Qed.

  Lemma lag_is_second_derivative dvec cds ods so m : length dvec = ndec p -> length m = ncons p ->
    Forall2 (fun co d => fun_diff2 p dvec (c_shape (fst co)) (snd co) d /\ no_alias sel (snd co) (fst (snd d))) (p_constraints p) cds ->
    Forall2 (fun o d => fun_diff2 p dvec (o_shape o) o d /\ no_alias sel o (fst (snd d))) (p_objectives p) ods ->
    exists i0 i1 vals,
      lag_hess_ind p = Ok (i0, i1) /\ lag_hess_val p dvec so m = Ok vals /\
      length i0 = length vals /\ length i1 = length vals /\
      in_range (ndec p) i0 /\ in_range (ndec p) i1 /\
      (forall D E s t, exists v c, obj p (vmove (vmove dvec E t) D s) = Ok v /\
         constr p (vmove (vmove dvec E t) D s) = Ok c /\ length c = ncons p) /\
      forall D E, d2 (fun s t => lagrangian p so m (vmove (vmove dvec E t) D s)) (symform i0 i1 vals D E).
  Proof.
    intros HL Hm HC HO.
    assert (HCa : Forall2 (chess_at_ok p dvec) (p_constraints p) (map snd cds)).
    { apply Forall2_map_r. eapply Forall2_impl; [|exact HC]. intros co [A hd] [(H1 & H2 & _ & H3 & _) _].
      split; auto. exists A. split; auto. }
    assert (HOa : Forall2 (ohess_at_ok p dvec) (p_objectives p) (map snd ods)).
    { apply Forall2_map_r. eapply Forall2_impl; [|exact HO]. intros o [A hd] [(H1 & H2 & _ & H3 & _) _].
      split; auto. exists A. split; auto. }
    assert (HCc : Forall2 (fun co A => fcall_ok p dvec (c_shape (fst co)) (snd co) A) (p_constraints p) (map fst cds)).
    { apply Forall2_map_r. eapply Forall2_impl; [|exact HC]. intros co [A hd] [(H1 & H2 & H3 & _) _].
      split; [apply H1|]. auto. }
    assert (HOc : Forall2 (fun o A => fcall_ok p dvec (o_shape o) o A) (p_objectives p) (map fst ods)).
    { apply Forall2_map_r. eapply Forall2_impl; [|exact HO]. intros o [A hd] [(H1 & H2 & H3 & _) _].
      split; [apply H1|]. auto. }
    destruct (chess_entries p sel RP S dvec _ HL HCa)
      as (cn & c0 & c1 & c2 & cv & CN & CI & CV & Lc0 & Lc1 & Lc2 & Lcv & Rc0 & Rc1 & Rc2 & _).
    destruct (ohess_entries p sel RP S dvec _ HL HOa)
      as (on & o0 & o1 & ov & ON & OI & OV & Lo0 & Lo1 & Lov & Ro0 & Ro1 & _).
    destruct (lag_value p RP dvec so m (o0, o1) (c0, c1) ov cv c2 Hm (ex_intro _ _ ON) (ex_intro _ _ CN) CI OI OV CV Rc2)
      as [LI LV]. cbn [fst snd] in LI.
    do 3 eexists. split; [exact LI|]. split; [exact LV|].
    split. { rewrite !app_length, !map_length, combine_length. cbn. lia. }
    split. { rewrite !app_length, !map_length, combine_length. cbn. lia. }
    split. { apply Forall_app; auto. } split. { apply Forall_app; auto. }
    set (XC := combine (p_constraints p) cds). set (XO := combine (p_objectives p) ods).
    assert (EC : forall D E s t,
      constr p (vmove (vmove dvec E t) D s) = Ok (flat_map (fun x => plane p sel (snd (fst x)) (fst (snd x)) D E s t) XC) /\
      length (flat_map (fun x => plane p sel (snd (fst x)) (fst (snd x)) D E s t) XC) = ncons p).
    { intros D E s t. pose proof (constr_plane p sel RP S dvec _ D E s t HL HCc) as H.
      rewrite combine_map_snd_r, flat_map_map in H. exact H. }
    assert (EO : forall D E s t,
      obj p (vmove (vmove dvec E t) D s) = Ok (rsum (map (fun x => rsum (plane p sel (fst x) (fst (snd x)) D E s t)) XO))).
    { intros D E s t. pose proof (obj_plane p sel RP S dvec _ D E s t HL HOc) as H.
      rewrite combine_map_snd_r, map_map in H. exact H. }
    split. { intros D E s t. do 2 eexists. split; [apply EO|]. apply EC. }
    intros D E.
    assert (HXC : forall x, In x XC -> In (fst x) (p_constraints p) /\
      fun_diff2 p dvec (c_shape (fst (fst x))) (snd (fst x)) (snd x) /\ no_alias sel (snd (fst x)) (fst (snd (snd x)))).
    { intros x Hx. destruct (zip_cons _ _ _ HC x Hx) as [H1 H2]. auto. }
    assert (HXO : forall x, In x XO -> In (fst x) (p_objectives p) /\
      fun_diff2 p dvec (o_shape (fst x)) (fst x) (snd x) /\ no_alias sel (fst x) (fst (snd (snd x)))).
    { intros x Hx. destruct (zip_cons _ _ _ HO x Hx) as [H1 H2]. auto. }
    assert (HPC : forall x s t, In x XC -> length (plane p sel (snd (fst x)) (fst (snd x)) D E s t) = prodn (c_shape (fst (fst x)))).
    { intros x s t Hx. destruct (HXC x Hx) as [_ [H _]]. destruct (snd x) as [A hd]. destruct H as (H1 & H2 & H3 & _).
      destruct (fcall_plane p sel dvec _ _ A D E s t HL (conj (proj1 H1) (conj H2 H3))) as (v & _ & _ & Ep). exact Ep. }
    assert (HPO : forall x s t, In x XO -> length (plane p sel (fst x) (fst (snd x)) D E s t) = prodn (o_shape (fst x))).
    { intros x s t Hx. destruct (HXO x Hx) as [_ [H _]]. destruct (snd x) as [A hd]. destruct H as (H1 & H2 & H3 & _).
      destruct (fcall_plane p sel dvec _ _ A D E s t HL (conj (proj1 H1) (conj H2 H3))) as (v & _ & _ & Ep). exact Ep. }
    assert (Hle := adjacent_le _ _ _ (cons_adjacent p RP)).
    assert (Hadj : adjacent 0 (map (fun x => cslice (fst (fst x))) XC) (p_ncons p)).
    { pose proof (cons_adjacent p RP) as H. unfold XC.
      rewrite <- (map_fst_combine (p_constraints p) cds) in H by (symmetry; eapply Forall2_length; eauto).
      rewrite map_map in H. exact H. }
    assert (Hsz : forall x, In x XC -> csize (fst (fst x)) = Z.of_nat (prodn (c_shape (fst (fst x))))).
    { intros [[c o] d] Hx. destruct (HXC _ Hx) as [Hin _]. eapply shape_row; eauto. }
    set (W := sym Z.eqb (fun z => D (Z.to_nat z)) (fun z => E (Z.to_nat z))).
    (* per function: entries over decision cells *)
    set (zc := fun (o : optfun R) hb => combine (hrow0 sel o hb) (hrow1 sel o hb)).
    (* value along the plane *)
    set (rowv := fun q (x : comp * optfun R * hess_data) s t =>
       if ((c_off (fst (fst x)) <=? Z.of_nat q) && (Z.of_nat q <? c_off (fst (fst x)) + Z.of_nat (prodn (c_shape (fst (fst x))))))%Z%bool
       then nth (Z.to_nat (Z.of_nat q - c_off (fst (fst x)))) (plane p sel (snd (fst x)) (fst (snd x)) D E s t) 0 else 0).
    apply (d2_ext (fun s t =>
      so * rsum (map (fun x => rsum (map (fun i => nth i (plane p sel (fst x) (fst (snd x)) D E s t) 0)
                                         (seq 0 (prodn (o_shape (fst x)))))) XO)
      + rsum (map (fun q => nth q m 0 * rsum (map (fun x => rowv q x s t) XC)) (seq 0 (ncons p))))).
    { intros s t. unfold lagrangian, objv, constrv. rewrite EO. destruct (EC D E s t) as [-> _]. f_equal.
      - f_equal. apply rsum_map_ext. intros x Hx. rewrite <- (HPO x s t Hx). symmetry. apply rsum_nth.
      - apply rsum_map_ext. intros q Hq. apply in_seq in Hq. f_equal.
        pose proof (stacked_row XC (fun x => fst (fst x)) (fun x => plane p sel (snd (fst x)) (fst (snd x)) D E s t)
          0 (p_ncons p) (Z.of_nat q) Hadj) as H.
        rewrite Z.sub_0_r, Nat2Z.id in H. rewrite H.
        + apply rsum_map_ext. intros x Hx. unfold rowv. rewrite HPC by auto. reflexivity.
        + intros x Hx. rewrite HPC by auto. auto.
        + unfold ncons in Hq. lia. }
    assert (ECt : forall x q, In x XC ->
      d2 (rowv q x) (tsum (zc (snd (fst x)) (fst (snd (snd x)))) (hrow2 (fst (fst x)) (fst (snd (snd x))))
                          (vals_of (snd (snd (snd x)))) W (Z.of_nat q))).
    { intros [[c o] [A [hb vs]]] q Hx. destruct (HXC _ Hx) as [Hin [(H1 & H2 & H3 & H4 & H5) NA]]. cbn [fst snd] in *.
      unfold rowv, zc, hrow2, vals_of. cbn [fst snd].
      rewrite hcells_map by eauto. rewrite <- (map_flat_map (fun i => (i + c_off c)%Z) hb_o), tsum_shift, tsum_map_cells.
      rewrite (tsum_ext _ _ _ _ (sym cell_eqb (on_cell (dir p sel o D)) (on_cell (dir p sel o E))))
        by (intros ab Hab; symmetry; apply (sym_cells o hb); eauto).
      destruct (inv_cons_fits p c o I Hin) as (Eo & _ & _).
      destruct (Z.leb_spec (c_off c) (Z.of_nat q)), (Z.ltb_spec (Z.of_nat q) (c_off c + Z.of_nat (prodn (c_shape c))));
        cbn [andb].
      - destruct (Z_of_nat_complete (Z.of_nat q - c_off c)) as (k & Ek); [lia|]. rewrite Ek, Nat2Z.id.
        apply H5; try apply dir_supported. lia.
      - rewrite tsum_none; [apply d2_zero|]. intros z Hz. apply (houts_range _ _ _ H1) in Hz. lia.
      - rewrite tsum_none; [apply d2_zero|]. intros z Hz. apply (houts_range _ _ _ H1) in Hz. lia.
      - lia. }
    assert (EOt : forall x q, In x XO -> (q < prodn (o_shape (fst x)))%nat ->
      d2 (fun s t => nth q (plane p sel (fst x) (fst (snd x)) D E s t) 0)
         (tsum (zc (fst x) (fst (snd (snd x)))) (houts (fst (snd (snd x))))
                          (vals_of (snd (snd (snd x)))) W (Z.of_nat q))).
    { intros [o [A [hb vs]]] q Hx Hq. destruct (HXO _ Hx) as [Hin [(H1 & H2 & H3 & H4 & H5) NA]]. cbn [fst snd] in *.
      unfold zc, vals_of. cbn [fst snd].
      rewrite hcells_map by eauto. rewrite tsum_map_cells.
      rewrite (tsum_ext _ _ _ _ (sym cell_eqb (on_cell (dir p sel o D)) (on_cell (dir p sel o E))))
        by (intros ab Hab; symmetry; apply (sym_cells o hb); eauto).
      apply H5; try apply dir_supported. exact Hq. }
    (* assemble *)
    match goal with |- d2 _ ?v => assert (EF : v
      = so * rsum (map (fun x => rsum (map (fun i => tsum (zc (fst x) (fst (snd (snd x)))) (houts (fst (snd (snd x))))
                          (vals_of (snd (snd (snd x)))) W (Z.of_nat i)) (seq 0 (prodn (o_shape (fst x)))))) XO)
      + rsum (map (fun q => nth q m 0 * rsum (map (fun x => tsum (zc (snd (fst x)) (fst (snd (snd x)))) (hrow2 (fst (fst x)) (fst (snd (snd x))))
                          (vals_of (snd (snd (snd x)))) W (Z.of_nat q)) XC)) (seq 0 (ncons p)))) end.
    2: { rewrite EF. apply d2_plus.
      - apply d2_scal. apply (d2_rsum (fun (x : optfun R * hess_data) s t => rsum (map (fun i => nth i (plane p sel (fst x) (fst (snd x)) D E s t) 0)
                                         (seq 0 (prodn (o_shape (fst x))))))).
        intros x Hx. apply (d2_rsum (fun i s t => nth i (plane p sel (fst x) (fst (snd x)) D E s t) 0)).
        intros i Hi. apply in_seq in Hi. apply EOt; auto. lia.
      - apply (d2_rsum (fun q s t => nth q m 0 * rsum (map (fun x => rowv q x s t) XC))).
        intros q Hq. apply d2_scal. apply (d2_rsum (fun x => rowv q x)). intros x Hx. now apply ECt. }
    (* the listed entries *)
    assert (HF1 : Forall2 (chess_ok p) (p_constraints p) (map fst (map snd cds))).
    { rewrite map_map. apply Forall2_map_r. eapply Forall2_impl; [|exact HC]. intros co [A hd] [(H1 & _) _]. exact H1. }
    assert (HF2 : Forall2 (ohess_ok p) (p_objectives p) (map fst (map snd ods))).
    { rewrite map_map. apply Forall2_map_r. eapply Forall2_impl; [|exact HO]. intros co [A hd] [(H1 & _) _]. exact H1. }
    destruct (constr_hess_index p sel RP S _ HF1) as [_ CI'].
    destruct (obj_hess_index p sel RP S _ HF2) as [_ OI'].
    pose proof (constr_hess_value p sel RP S dvec _ HL HCa) as CV'.
    pose proof (obj_hess_value p sel RP S dvec _ HL HOa) as OV'.
    assert (HLc : length cds = length (p_constraints p)) by (symmetry; eapply Forall2_length; eauto).
    assert (HLo : length ods = length (p_objectives p)) by (symmetry; eapply Forall2_length; eauto).
    rewrite map_map, combine_map_snd_r, !flat_map_map in CI'. cbn [fst snd] in CI'.
    rewrite map_map, combine_map_snd_r, !flat_map_map in OI'. cbn [fst snd] in OI'.
    rewrite flat_map_map, (flat_map_combine_r _ (p_constraints p) cds HLc) in CV'.
    rewrite flat_map_map, (flat_map_combine_r _ (p_objectives p) ods HLo) in OV'.
    fold XC in CI', CV'. fold XO in OI', OV'.
    rewrite CI in CI'. injection CI' as -> -> ->. rewrite CV in CV'. injection CV' as ->.
    rewrite OI in OI'. injection OI' as -> ->. rewrite OV in OV'. injection OV' as ->.
    unfold symform. rewrite combine_app by congruence.
    match goal with |- rsum (map _ (combine (?a ++ ?b) (?c ++ ?d))) = _ =>
      change (wsum (a ++ b) (c ++ d) W = so * rsum (map (fun x => rsum (map (fun i => tsum (zc (fst x) (fst (snd (snd x)))) (houts (fst (snd (snd x))))
                          (vals_of (snd (snd (snd x)))) W (Z.of_nat i)) (seq 0 (prodn (o_shape (fst x)))))) XO)
      + rsum (map (fun q => nth q m 0 * rsum (map (fun x => tsum (zc (snd (fst x)) (fst (snd (snd x)))) (hrow2 (fst (fst x)) (fst (snd (snd x))))
                          (vals_of (snd (snd (snd x)))) W (Z.of_nat q)) XC)) (seq 0 (ncons p)))) end.
    assert (ZO : forall x, In x XO -> length (zc (fst x) (fst (snd (snd x)))) = length (houts (fst (snd (snd x)))) /\
       length (houts (fst (snd (snd x)))) = length (vals_of (snd (snd (snd x)))) /\
       length (hrow0 sel (fst x) (fst (snd (snd x)))) = length (hrow1 sel (fst x) (fst (snd (snd x))))).
    { intros [o [A [hb vs]]] Hx. destruct (HXO _ Hx) as [Hin [(H1 & H2 & H3 & (_ & HV) & _) NA]]. cbn [fst snd] in *.
      destruct (hess_lens _ _ _ _ H1 HV) as [L1 L2]. unfold zc. rewrite hcells_map by eauto. rewrite map_length.
      destruct (hess_block p sel RP S _ _ _ H1) as (E0 & E1 & _). repeat split; auto. congruence. }
    assert (ZC : forall x, In x XC -> length (zc (snd (fst x)) (fst (snd (snd x)))) = length (hrow2 (fst (fst x)) (fst (snd (snd x)))) /\
       length (hrow2 (fst (fst x)) (fst (snd (snd x)))) = length (vals_of (snd (snd (snd x)))) /\
       length (hrow0 sel (snd (fst x)) (fst (snd (snd x)))) = length (hrow1 sel (snd (fst x)) (fst (snd (snd x))))).
    { intros [[c o] [A [hb vs]]] Hx. destruct (HXC _ Hx) as [Hin [(H1 & H2 & H3 & (_ & HV) & _) NA]]. cbn [fst snd] in *.
      destruct (hess_lens _ _ _ _ H1 HV) as [L1 L2]. unfold zc. rewrite hcells_map by eauto. rewrite map_length.
      unfold hrow2. rewrite <- (map_flat_map (fun i => (i + c_off c)%Z) hb_o), map_length.
      destruct (hess_block p sel RP S _ _ _ H1) as (E0 & E1 & _). repeat split; auto. congruence. }
    rewrite (combine_flat_map _ _ XO) by (intros x Hx; apply (ZO x Hx)).
    rewrite (combine_flat_map _ _ XC) by (intros x Hx; apply (ZC x Hx)).
    rewrite wsum_app.
    2: { rewrite map_length. apply flat_map_length_eq. intros x Hx. destruct (ZO x Hx) as (E1 & E2 & _).
         etransitivity; [exact E1|exact E2]. }
    f_equal.
    - rewrite map_flat_map. rewrite (wsum_flat (fun x : optfun R * hess_data => combine (hrow0 sel (fst x) (fst (snd (snd x)))) (hrow1 sel (fst x) (fst (snd (snd x)))))).
      2: { intros x Hx. rewrite map_length. destruct (ZO x Hx) as (E1 & E2 & _). etransitivity; [exact E1|exact E2]. }
      rewrite <- (rsum_map_scal (fun x : optfun R * hess_data => rsum (map (fun i => tsum (zc (fst x) (fst (snd (snd x)))) (houts (fst (snd (snd x))))
                          (vals_of (snd (snd (snd x)))) W (Z.of_nat i)) (seq 0 (prodn (o_shape (fst x))))))).
      apply rsum_map_ext. intros x Hx. destruct (ZO x Hx) as (E1 & E2 & _).
      rewrite <- (rsum_map_scal (fun i => tsum (zc (fst x) (fst (snd (snd x)))) (houts (fst (snd (snd x)))) _ W (Z.of_nat i))).
      rewrite (tsum_wsum _ _ _ _ _ (fun _ => so)); auto.
      + unfold zc. f_equal. change (nmul) with Rmult.
        assert (E2' := E2). unfold zc in *. revert E2'. generalize (vals_of (snd (snd (snd x)))) (houts (fst (snd (snd x)))). clear.
        intros v z; revert v. induction z; intros [|v vs] H; simpl in *; try discriminate; auto. f_equal; auto.
      + destruct (HXO x Hx) as [_ [H _]]. destruct (snd x) as [A [hb vs]]. destruct H as (H1 & _). cbn [fst snd] in *.
        apply (houts_range _ _ _ H1).
    - assert (Ecomb : combine (flat_map (fun x => hrow2 (fst (fst x)) (fst (snd (snd x)))) XC)
                (flat_map (fun b => vals_of (snd (snd (snd b)))) XC)
             = flat_map (fun x => combine (hrow2 (fst (fst x)) (fst (snd (snd x)))) (vals_of (snd (snd (snd x))))) XC).
      { apply combine_flat_map. intros x Hx. apply (ZC x Hx). }
      rewrite Ecomb, map_flat_map.
      rewrite (wsum_flat (fun x : comp * optfun R * hess_data => combine (hrow0 sel (snd (fst x)) (fst (snd (snd x)))) (hrow1 sel (snd (fst x)) (fst (snd (snd x)))))).
      2: { intros x Hx. destruct (ZC x Hx) as (E1 & E2 & _). etransitivity; [exact E1|].
           rewrite map_length, combine_length, E2, Nat.min_id. reflexivity. }
      erewrite (rsum_map_ext (fun q => nth q m 0 * _)) by (intros q _; symmetry; apply rsum_map_scal).
      rewrite rsum_swap. apply rsum_map_ext. intros x Hx. destruct (ZC x Hx) as (E1 & E2 & _).
      rewrite (tsum_wsum _ _ _ _ _ (fun q => nth q m 0)); auto.
      intros z Hz. destruct x as [[c o] [A [hb vs]]]. destruct (HXC _ Hx) as [Hin [(H1 & _) _]]. cbn [fst snd] in *.
      pose proof (row_in_range p RP c o (houts hb) Hin) as Hr. unfold in_range in Hr. rewrite !Forall_forall in Hr.
      apply Hr.
      + intros y Hy. apply (houts_range _ _ _ H1). exact Hy.
      + unfold hrow2 in Hz. rewrite <- (map_flat_map (fun i => (i + c_off c)%Z) hb_o) in Hz. exact Hz.
  Qed.
End Thms.
