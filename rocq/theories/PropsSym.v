(** Property C21 and the chain from symbolic models to generated functions. *)
From Coq Require Import String List ZArith Bool Arith Lia Reals Lra Permutation.
From Coquelicot Require Import Coquelicot.
From Verif Require Import Py NdArray OptimModel DictLemmas NdLemmas OptimSpec OptimLaws LawFacts LayoutLemmas
  ProblemSpec ProblemFacts DerivSpec CalcLemmas IndexLemmas GenModel GenSpec GenLemmas GenDeriv
  SymModel NameLemmas PropsNames SymLemmas SymDeriv PropsGen.
Import ListNotations.
Local Open Scope string_scope.
Local Open Scope list_scope.
Local Open Scope R_scope.

(** ** Names of one function *)
Definition nice (w : string) : Prop := plain w /\ forall v, w <> (v ++ "_val")%string.

Lemma NoDup_map_on {X Y} (h : X -> Y) l : (forall a b, In a l -> In b l -> h a = h b -> a = b) -> NoDup l -> NoDup (map h l).
Proof.
  intros HI HN. induction HN as [|x l Hx HN IH]; [constructor|]. cbn [map]. constructor.
  - intros Hin. apply in_map_iff in Hin as (y & E & Hy). apply Hx. rewrite (HI x y); simpl; auto.
  - apply IH. intros; apply HI; simpl; auto.
Qed.

Lemma all_names_keys fname W : all_names fname W = map (deriv_name fname) (firsts W ++ seconds W).
Proof.
  unfold all_names, first_names, second_names, firsts, seconds. rewrite map_app, !map_map. reflexivity.
Qed.

Lemma keys_spec W k : List.Forall nice W -> In k (firsts W ++ seconds W) ->
  (length k = 1%nat \/ length k = 2%nat) /\ List.Forall plain k /\ List.Forall (fun w => forall v, w <> (v ++ "_val")%string) k.
Proof.
  intros HP Hk. assert (HW : forall w, In w W -> nice w) by (now apply List.Forall_forall).
  apply in_app_or in Hk as [Hk|Hk].
  - apply in_map_iff in Hk as (w & <- & Hw). split; [left; reflexivity|]. split; repeat constructor; now apply HW.
  - apply in_map_iff in Hk as ([a b] & <- & Hab). apply pairs2_In in Hab as [Ha Hb].
    split; [right; reflexivity|]. split; repeat constructor; now apply HW.
Qed.

Lemma keys_NoDup W : NoDup W -> NoDup (firsts W ++ seconds W).
Proof.
  intros HN. assert (HA : forall (l1 l2 : list (list string)), NoDup l1 -> NoDup l2 -> (forall k, In k l1 -> ~ In k l2) -> NoDup (l1 ++ l2)).
  { clear. induction l1 as [|k l1 IH]; simpl; intros l2 H1 H2 H; auto. inversion H1; subst. constructor.
    - intros Hin. apply in_app_or in Hin as [|Hin]; [contradiction|]. apply (H k); auto.
    - apply IH; auto. }
  apply HA.
  - unfold firsts. apply NoDup_map_on; auto. now intros a b _ _ [= ->].
  - now apply pairs2_NoDup.
  - intros k H1 H2. apply in_map_iff in H1 as (w & <- & _). apply in_map_iff in H2 as (ab & E & _). discriminate.
Qed.

Lemma names_NoDup fname W : List.Forall nice W -> NoDup W -> NoDup (all_names fname W).
Proof.
  intros HP HN. rewrite all_names_keys. apply NoDup_map_on; [|now apply keys_NoDup].
  intros k k' Hk Hk' E. destruct (keys_spec W k HP Hk) as (L & P & _), (keys_spec W k' HP Hk') as (L' & P' & _).
  exact (C22_same_function fname k k' P P' L L' E).
Qed.

Lemma names_no_clash fname W : List.Forall nice W -> no_val_clash (all_names fname W).
Proof.
  intros HP d d' H H'. rewrite all_names_keys in H, H'.
  apply in_map_iff in H as (k & <- & Hk). apply in_map_iff in H' as (k' & <- & Hk').
  destruct (keys_spec W k HP Hk) as (L & P & _), (keys_spec W k' HP Hk') as (L' & P' & V').
  now apply C22_value_names.
Qed.

(** ** A symbolic model and one of its functions *)
(** [shp]: shapes of the variables; [W]: the decision arguments of [f]. *)
Record has_fun (m : smodel R) (shp : string -> shape) (fname : string) (f : sfun R) (W : list string) : Prop := {
  hf_fun : dget String.eqb (m_fun m) fname = Some f;
  hf_vars : forall w, In w (sf_args f) \/ In w (m_dec m) -> dget String.eqb (m_vars m) w = Some (shp w);
  hf_dec : forall w, In w W <-> In w (sf_args f) /\ In w (m_dec m);
  hf_nice : List.Forall nice W;
  hf_wf : swf shp f W
}.

Section OneFunction.
  Variables (m : smodel R) (shp : string -> shape) (fname : string) (f : sfun R) (W : list string).
  Hypothesis HF : has_fun m shp fname f W.
  Notation sizes := (fun w : string => prodn (shp w)).
  Notation bsh := (map (fun w => (w, shp w)) (m_dec m)).

  Lemma hf_declares : declares sizes m W.
  Proof. intros w Hw. exists (shp w). split; auto. apply (hf_vars _ _ _ _ _ HF). left. now apply (hf_dec _ _ _ _ _ HF). Qed.

  Lemma hf_sized : derivs_sized sizes f W.
  Proof.
    pose proof (hf_wf _ _ _ _ _ HF) as SW. intros k [Hk|Hk].
    - apply in_map_iff in Hk as (w & <- & Hw). rewrite (sw_d1 _ _ _ SW) by auto. unfold dims_of. cbn. lia.
    - apply in_map_iff in Hk as ([a b] & <- & Hab). apply pairs2_In in Hab as [Ha Hb]. cbn [fst snd].
      rewrite (sw_d2 _ _ _ SW) by auto. unfold dims_of. cbn. lia.
  Qed.

  Lemma hf_bases (m' : smodel R) : m_vars m' = m_vars m -> mapM (dlookup String.eqb (m_vars m')) (sf_args f) = Ok (map shp (sf_args f)).
  Proof.
    intros ->. apply mapM_ext_Ok. intros w Hw. unfold dlookup. now rewrite (hf_vars _ _ _ _ _ HF) by auto.
  Qed.
  Lemma hf_bsh (m' : smodel R) : m_vars m' = m_vars m -> m_dec m' = m_dec m ->
    mapM (fun w => let* s := dlookup String.eqb (m_vars m') w in Ok (w, s)) (m_dec m') = Ok bsh.
  Proof.
    intros -> ->. apply mapM_ext_Ok. intros w Hw. unfold dlookup. now rewrite (hf_vars _ _ _ _ _ HF) by auto.
  Qed.
  Lemma hf_bsh_get w : In w W -> dget String.eqb bsh w = Some (shp w).
  Proof.
    intros Hw. apply (hf_dec _ _ _ _ _ HF) in Hw as [_ Hw]. induction (m_dec m) as [|v l IH]; [destruct Hw|].
    cbn [map dget]. destruct (String.eqb_spec w v) as [->|Hne]; [reflexivity|]. apply IH. destruct Hw; [congruence|auto].
  Qed.

  Lemma perm_has W' : Permutation W W' -> has_fun m shp fname f W'.
  Proof.
    intros HP. destruct HF as [F1 F2 F3 F4 F5]. constructor; auto.
    - intros w. rewrite <- F3. split; intros H; [apply (Permutation_in w (Permutation_sym HP) H)|apply (Permutation_in w HP H)].
    - apply List.Forall_forall. intros w Hw. apply (proj1 (List.Forall_forall _ _) F4). apply (Permutation_in w (Permutation_sym HP) Hw).
    - assert (HI : forall w, In w W' -> In w W) by (intros w Hw; exact (Permutation_in w (Permutation_sym HP) Hw)).
      destruct F5 as [S1 S2 S3 S4 S5 S6 S7 S8]. constructor; eauto. exact (Permutation_NoDup HP S2).
  Qed.

  (** Registration followed by generation. *)
  Lemma constraint_generated : exists m', add_constraint m W fname 2 = Ok m' /\
    generate_constraint m' fname = Ok (wanted_constraint sizes f fname (map shp (sf_args f)) bsh W).
  Proof.
    destruct (add_constraint_ok sizes m fname f W) as (m' & E & S & FR & _).
    - apply (hf_fun _ _ _ _ _ HF).
    - apply hf_declares.
    - apply hf_sized.
    - apply names_NoDup; [apply (hf_nice _ _ _ _ _ HF)|apply (sw_W _ _ _ (hf_wf _ _ _ _ _ HF))].
    - apply names_no_clash, (hf_nice _ _ _ _ _ HF).
    - exists m'. split; auto. eapply generate_constraint_ok; eauto.
      + apply hf_bases, (fr_vars _ _ _ FR).
      + apply hf_bsh; [apply (fr_vars _ _ _ FR)|apply (fr_dec _ _ _ FR)].
  Qed.
  Lemma objective_generated : exists m', add_objective m W fname 2 = Ok m' /\
    generate_objective m' fname = Ok (wanted_objective sizes f fname (map shp (sf_args f)) bsh W).
  Proof.
    destruct (add_objective_ok sizes m fname f W) as (m' & E & S & FR & _).
    - apply (hf_fun _ _ _ _ _ HF).
    - apply hf_declares.
    - apply hf_sized.
    - apply names_NoDup; [apply (hf_nice _ _ _ _ _ HF)|apply (sw_W _ _ _ (hf_wf _ _ _ _ _ HF))].
    - apply names_no_clash, (hf_nice _ _ _ _ _ HF).
    - exists m'. split; auto. eapply generate_objective_ok; eauto.
      + apply hf_bases, (fr_vars _ _ _ FR).
      + apply hf_bsh; [apply (fr_vars _ _ _ FR)|apply (fr_dec _ _ _ FR)].
  Qed.
End OneFunction.

(** ** C21 *)
(** The second derivative represented by the Hessian blocks at a pair of
    variable elements: the sum of the values listed for that (unordered)
    pair. *)
Definition is_pair (c1 c2 : string * Z) (cc : (string * Z) * (string * Z)) : bool :=
  (cell_eqb (fst cc) c1 && cell_eqb (snd cc) c2) || (cell_eqb (fst cc) c2 && cell_eqb (snd cc) c1).
Definition hess_entry (g : gfun R) (A : list (list R)) (c1 c2 : string * Z) (o : nat) : R :=
  tsum (hcells (map base_hb (gf_hess g))) (houts (map base_hb (gf_hess g)))
       (flat_map (fun d => gd_val d A) (gf_hess g)) (fun cc => if is_pair c1 c2 cc then 1 else 0) (Z.of_nat o).

Lemma cell_eqb_spec c d : reflect (c = d) (cell_eqb c d).
Proof.
  destruct c as [s z], d as [s' z']. unfold cell_eqb. cbn [fst snd].
  destruct (String.eqb_spec s s'), (Z.eqb_spec z z'); subst; constructor; congruence.
Qed.

Lemma rsum_pick (l : list string) x (h : string -> R) : NoDup l -> In x l -> (forall y, In y l -> y <> x -> h y = 0) ->
  rsum (map h l) = h x.
Proof.
  induction l as [|y l IH]; intros HN Hx H; [destruct Hx|]. inversion HN; subst. cbn [map].
  change (rsum (?x :: ?l)) with (x + rsum l). destruct Hx as [->|Hx].
  - rewrite (rsum_map_zero h l); [lra|]. intros y Hy. apply H; simpl; auto. congruence.
  - rewrite IH; auto; [|intros; apply H; simpl; auto]. rewrite (H y); simpl; auto; [lra|congruence].
Qed.

Lemma sumn_zeroR n (h : nat -> R) : (forall i, (i < n)%nat -> h i = 0) -> sumn n h = 0.
Proof. exact (sumn_zero n h). Qed.

Lemma hess_entry_value shp f W bsh g A a b i j o :
  swf shp f W -> (forall w, In w W -> dget String.eqb bsh w = Some (shp w)) ->
  gf_hess g = map (mk_gderiv (fun w => prodn (shp w)) f) (filter (has_nz (fun w => prodn (shp w)) f) (seconds W)) ->
  sym_commute shp f W A -> In a W -> In b W ->
  (i < prodn (shp a))%nat -> (j < prodn (shp b))%nat -> (o < prodn (sf_out f))%nat ->
  hess_entry g A (a, Z.of_nat i) (b, Z.of_nat j) o = sder2 shp f A a b i j o.
Proof.
  intros SW HB HG HC Ha Hb Hi Hj Ho. unfold hess_entry. rewrite HG, (hess_total shp f W).
  set (F := fun c1 c2 : string * Z => if cell_eqb c1 (a, Z.of_nat i) && cell_eqb c2 (b, Z.of_nat j) then 1 else 0).
  transitivity (rsum (map (fun ab => tsum (hblk shp f (fst ab) (snd ab)) (oblk shp f 2 [fst ab; snd ab]) (vblk shp f [fst ab; snd ab] A) (symw F) (Z.of_nat o)) (pairs2 W))).
  { apply rsum_map_ext. intros ab _. apply tsum_ext. intros [c d] _. unfold symw, F, is_pair. cbn [fst snd].
    destruct (cell_eqb_spec c d);
    destruct (cell_eqb_spec c (a, Z.of_nat i)), (cell_eqb_spec d (b, Z.of_nat j)),
      (cell_eqb_spec c (b, Z.of_nat j)), (cell_eqb_spec d (a, Z.of_nat i)); cbn [andb orb]; try lra; try (exfalso; congruence);
      destruct (cell_eqb_spec c (b, Z.of_nat j)); cbn [andb]; try lra; exfalso; congruence. }
  rewrite (hess_sum shp f W SW A F o HC Ho).
  rewrite (rsum_pick W a); auto using (sw_W _ _ _ SW).
  - rewrite (rsum_pick W b); auto using (sw_W _ _ _ SW).
    + rewrite (sumn_single _ i); auto.
      * rewrite (sumn_single _ j); auto.
        -- unfold F. destruct (cell_eqb_spec (a, Z.of_nat i) (a, Z.of_nat i)); [|congruence].
           destruct (cell_eqb_spec (b, Z.of_nat j) (b, Z.of_nat j)); [|congruence]. cbn [andb]. lra.
        -- intros j' Hj' Hne. unfold F. destruct (cell_eqb_spec (b, Z.of_nat j') (b, Z.of_nat j)) as [[= E]|]; [lia|].
           rewrite andb_false_r. change (@n0 R num_R) with 0. lra.
      * intros i' Hi' Hne. apply sumn_zeroR. intros j' _. unfold F.
        destruct (cell_eqb_spec (a, Z.of_nat i') (a, Z.of_nat i)) as [[= E]|]; [lia|]. change (@n0 R num_R) with 0. cbn [andb]. lra.
    + intros y Hy Hne. apply sumn_zeroR. intros i' _. apply sumn_zeroR. intros j' _. unfold F.
      destruct (cell_eqb_spec (y, Z.of_nat j') (b, Z.of_nat j)) as [[= E]|]; [congruence|]. rewrite andb_false_r. change (@n0 R num_R) with 0. lra.
  - intros y Hy Hne. apply rsum_map_zero. intros z _. apply sumn_zeroR. intros i' _. apply sumn_zeroR. intros j' _. unfold F.
    destruct (cell_eqb_spec (y, Z.of_nat i') (a, Z.of_nat i)) as [[= E]|]; [congruence|]. change (@n0 R num_R) with 0. cbn [andb]. lra.
Qed.

(** Whatever the iteration orders [W] and [W'] of the set of decision
    arguments: registering and generating succeeds with both, the Jacobian
    blocks are the same up to order, and the represented second derivatives
    are the same (namely the symbolic ones). *)
Theorem C21_constraint_order m shp fname f W W' : has_fun m shp fname f W -> Permutation W W' ->
  exists m1 m2 g1 g2, add_constraint m W fname 2 = Ok m1 /\ add_constraint m W' fname 2 = Ok m2 /\
    generate_constraint m1 fname = Ok g1 /\ generate_constraint m2 fname = Ok g2 /\
    Permutation (gf_jac g1) (gf_jac g2) /\
    forall A a b i j o, sym_commute shp f W A -> In a W -> In b W ->
      (i < prodn (shp a))%nat -> (j < prodn (shp b))%nat -> (o < prodn (sf_out f))%nat ->
      hess_entry g1 A (a, Z.of_nat i) (b, Z.of_nat j) o = sder2 shp f A a b i j o /\
      hess_entry g2 A (a, Z.of_nat i) (b, Z.of_nat j) o = sder2 shp f A a b i j o.
Proof.
  intros H HP. pose proof (perm_has _ _ _ _ _ H _ HP) as H'.
  destruct (constraint_generated _ _ _ _ _ H) as (m1 & E1 & G1). destruct (constraint_generated _ _ _ _ _ H') as (m2 & E2 & G2).
  eexists m1, m2, _, _. do 4 (split; [eassumption|]). split.
  - cbn [wanted_constraint gf_jac]. apply Permutation_map.
    assert (forall (P : tkey -> bool) l l', Permutation l l' -> Permutation (filter P l) (filter P l')) as HPF.
    { clear. intros P. induction 1; cbn [filter].
      - constructor.
      - destruct (P x); auto.
      - destruct (P x), (P y); auto. constructor.
      - etransitivity; eauto. }
    apply HPF. unfold firsts. now apply Permutation_map.
  - intros A a b i j o HC Ha Hb Hi Hj Ho. split.
    + apply (hess_entry_value shp f W _ _ A a b i j _ (hf_wf _ _ _ _ _ H) (hf_bsh_get _ _ _ _ _ H)); auto; reflexivity.
    + assert (forall w, In w W' -> In w W) as HI by (intros w Hw; exact (Permutation_in w (Permutation_sym HP) Hw)).
      apply (hess_entry_value shp f W' _ _ A a b i j _ (hf_wf _ _ _ _ _ H') (hf_bsh_get _ _ _ _ _ H')).
      * reflexivity.
      * intros a' b' i' j' o' Ha' Hb'. apply HC; auto.
      * exact (Permutation_in a HP Ha).
      * exact (Permutation_in b HP Hb).
      * exact Hi.
      * exact Hj.
      * exact Ho.
Qed.
Print Assumptions C21_constraint_order.

Theorem C21_objective_order m shp fname f W W' : has_fun m shp fname f W -> Permutation W W' -> sf_out f = [] ->
  exists m1 m2 g1 g2, add_objective m W fname 2 = Ok m1 /\ add_objective m W' fname 2 = Ok m2 /\
    generate_objective m1 fname = Ok g1 /\ generate_objective m2 fname = Ok g2 /\
    Permutation (gf_grad g1) (gf_grad g2) /\
    forall A a b i j, sym_commute shp f W A -> In a W -> In b W ->
      (i < prodn (shp a))%nat -> (j < prodn (shp b))%nat ->
      hess_entry g1 A (a, Z.of_nat i) (b, Z.of_nat j) 0 = sder2 shp f A a b i j 0 /\
      hess_entry g2 A (a, Z.of_nat i) (b, Z.of_nat j) 0 = sder2 shp f A a b i j 0.
Proof.
  intros H HP HO. pose proof (perm_has _ _ _ _ _ H _ HP) as H'.
  destruct (objective_generated _ _ _ _ _ H) as (m1 & E1 & G1). destruct (objective_generated _ _ _ _ _ H') as (m2 & E2 & G2).
  eexists m1, m2, _, _. do 4 (split; [eassumption|]). split.
  - cbn [wanted_objective gf_grad]. now apply Permutation_map.
  - assert (Ho : (0 < prodn (sf_out f))%nat) by (rewrite HO; cbn; lia).
    intros A a b i j HC Ha Hb Hi Hj. split.
    + apply (hess_entry_value shp f W _ _ A a b i j _ (hf_wf _ _ _ _ _ H) (hf_bsh_get _ _ _ _ _ H)); auto; reflexivity.
    + assert (forall w, In w W' -> In w W) as HI by (intros w Hw; exact (Permutation_in w (Permutation_sym HP) Hw)).
      apply (hess_entry_value shp f W' _ _ A a b i j _ (hf_wf _ _ _ _ _ H') (hf_bsh_get _ _ _ _ _ H')).
      * reflexivity.
      * intros a' b' i' j' o' Ha' Hb'. apply HC; auto.
      * exact (Permutation_in a HP Ha).
      * exact (Permutation_in b HP Hb).
      * exact Hi.
      * exact Hj.
      * exact Ho.
Qed.
Print Assumptions C21_objective_order.

(** ** The chain: symbolic function -> registration -> generated function ->
    registered function of a problem *)
Lemma supported_incl W W' D : (forall w, In w W' -> In w W) -> supported W' D -> supported W D.
Proof. intros HI H w i Hw. apply H. auto. Qed.

(** A function of problem [p] whose arguments at [dvec] are [A]: a generated
    one, bound so that exactly the parameters in [W] are active, with leading
    axes [LE] broadcasting to [ext]. *)
Record binds (p : problem R) (dvec : list R) (o : optfun R) (g : gfun R) (shp : string -> shape) (W : list string)
    (LE : string -> shape) (ext : shape) (A : list (arr R)) : Prop := {
  bd_fun : o_fun o = gen_fn g;
  bd_fits : fits p o;
  bd_active : forall w, In w (active p o) <-> In w W;
  bd_shape : forall w, In w W -> param_shape p o w = LE w ++ shp w;
  bd_args : fun_args p dvec o = Ok A;
  bd_fit : args_fit g LE ext A
}.

Section Chain.
  Variables (shp : string -> shape) (f : sfun R) (W : list string) (g : gfun R).
  Hypothesis SW : swf shp f W.
  Hypothesis WF : gwf g.
  Hypothesis Gargs : gf_args g = sf_args f.
  Hypothesis Gbases : gf_bases g = map shp (sf_args f).
  Hypothesis Ghess : gf_hess g = map (mk_gderiv (fun w => prodn (shp w)) f) (filter (has_nz (fun w => prodn (shp w)) f) (seconds W)).
  Variables (p : problem R) (dvec : list R) (o : optfun R) (LE : string -> shape) (ext : shape) (A : list (arr R)).
  Hypothesis BD : binds p dvec o g shp W LE ext A.

  Lemma bound_w w : In w W -> In w (active p o) /\ param_shape p o w = LE w ++ base_of g w /\ bcasts (LE w) ext.
  Proof.
    intros Hw. pose proof (sw_in _ _ _ SW w Hw) as Hin. split; [now apply (bd_active _ _ _ _ _ _ _ _ _ BD)|]. split.
    - rewrite (base_of_gen shp f g Gargs Gbases w Hin). now apply (bd_shape _ _ _ _ _ _ _ _ _ BD).
    - apply (bcasts_In g LE ext A); [apply (bd_fit _ _ _ _ _ _ _ _ _ BD)|now rewrite Gargs].
  Qed.

  Lemma bound_hess s : s = ext ++ gf_out g ->
    (forall e, (e < prodn ext)%nat -> base_hess_law g W (elems g LE ext A e)) ->
    exists d, fun_diff2 p dvec s o d /\ fst (snd d) = map (gen_hb g LE ext) (gf_hess g).
  Proof.
    intros -> HH. exists (A, (map (gen_hb g LE ext) (gf_hess g), map (gen_val g LE ext A) (gf_hess g))). split; [|reflexivity].
    pose proof (bd_fit _ _ _ _ _ _ _ _ _ BD) as HF.
    unfold fun_diff2. cbn [fst snd]. rewrite (bd_fun _ _ _ _ _ _ _ _ _ BD).
    split; [split; [apply (bd_fits _ _ _ _ _ _ _ _ _ BD)|]|split; [apply (bd_args _ _ _ _ _ _ _ _ _ BD)|split]].
    - rewrite (bd_fun _ _ _ _ _ _ _ _ _ BD). apply gen_hess_struct; auto. intros d Hd w Hw. apply bound_w.
      rewrite Ghess in Hd. apply in_map_iff in Hd as (k & <- & Hk). apply filter_In in Hk as [Hk _].
      apply in_map_iff in Hk as ([a b] & <- & Hab). apply pairs2_In in Hab as [Ha Hb]. cbn in Hw. destruct Hw as [->| ->]; auto.
    - apply (gen_calls g WF LE ext); auto.
    - apply GenDeriv.gen_hess_law; auto. intros e He D E q HD HE. apply HH; auto;
        (eapply supported_incl; [|eassumption]); intros w; now apply (bd_active _ _ _ _ _ _ _ _ _ BD).
  Qed.
End Chain.

(** A constraint generated from a symbolic model and registered in a problem
    has everything C10 and C12 ask of registered functions, if symbolic
    differentiation is right at every batch element. *)
Theorem C21_generated_constraint m shp fname f W : has_fun m shp fname f W ->
  exists m' g, add_constraint m W fname 2 = Ok m' /\ generate_constraint m' fname = Ok g /\ gwf g /\
    gf_args g = sf_args f /\ gf_out g = sf_out f /\ gf_base g = evals (sf_expr f) /\
    forall p dvec co LE ext A, binds p dvec (snd co) g shp W LE ext A -> c_shape (fst co) = ext ++ sf_out f ->
      (forall e, (e < prodn ext)%nat -> sym_jac_law shp f W (elems g LE ext A e)) ->
      (forall e, (e < prodn ext)%nat -> sym_hess_law shp f W (elems g LE ext A e) /\ sym_commute shp f W (elems g LE ext A e)) ->
      (exists d, constr_diff p dvec co d) /\ (exists d, fun_diff2 p dvec (c_shape (fst co)) (snd co) d /\
        fst (snd d) = map (gen_hb g LE ext) (gf_hess g)).
Proof.
  intros H. destruct (constraint_generated _ _ _ _ _ H) as (m' & E & G). eexists m', _. split; [exact E|]. split; [exact G|].
  pose proof (hf_wf _ _ _ _ _ H) as SW.
  pose proof (constraint_gwf shp f W SW _ (hf_bsh_get _ _ _ _ _ H) fname) as WF.
  split; [exact WF|]. do 3 (split; [reflexivity|]). intros p dvec co LE ext A BD HS HJ HH.
  set (g := wanted_constraint _ _ _ _ _ _) in *. pose proof (bd_fit _ _ _ _ _ _ _ _ _ BD) as HF. split.
  - exists (A, (map (gen_jb g LE ext) (gf_jac g), map (gen_val g LE ext A) (gf_jac g))).
    unfold constr_diff. cbn [fst snd]. rewrite HS. change (sf_out f) with (gf_out g).
    rewrite (bd_fun _ _ _ _ _ _ _ _ _ BD).
    split; [split; [apply (bd_fits _ _ _ _ _ _ _ _ _ BD)|]|split; [apply (bd_args _ _ _ _ _ _ _ _ _ BD)|split]].
    + rewrite (bd_fun _ _ _ _ _ _ _ _ _ BD), HS. apply gen_jac_struct; auto. intros d Hd.
      apply (bound_w shp f W g SW eq_refl eq_refl p dvec _ _ _ _ BD). cbn [g wanted_constraint gf_jac] in Hd.
      apply in_map_iff in Hd as (k & <- & Hk). apply filter_In in Hk as [Hk _]. apply in_map_iff in Hk as (w & <- & Hw). exact Hw.
    + apply (gen_calls g WF LE ext); auto.
    + apply gen_jac_law; auto. intros e He D q HD. apply (constraint_jac_law shp f W SW); auto.
      eapply supported_incl; [|eassumption]. intros w. apply (bd_active _ _ _ _ _ _ _ _ _ BD).
  - apply (bound_hess shp f W g SW WF eq_refl eq_refl eq_refl p dvec (snd co) LE ext A BD); auto.
    intros e He. destruct (HH e He). apply constraint_hess_law; auto.
Qed.
Print Assumptions C21_generated_constraint.

(** ... and an objective everything C11 and C12 ask. *)
Theorem C21_generated_objective m shp fname f W : has_fun m shp fname f W -> sf_out f = [] ->
  exists m' g, add_objective m W fname 2 = Ok m' /\ generate_objective m' fname = Ok g /\ gwf g /\
    gf_args g = sf_args f /\ gf_out g = [] /\ gf_base g = evals (sf_expr f) /\
    forall p dvec o LE ext A, binds p dvec o g shp W LE ext A -> o_shape o = ext ->
      (forall w, In w W -> exists pre, ext = pre ++ LE w) ->
      (forall e, (e < prodn ext)%nat -> sym_jac_law shp f W (elems g LE ext A e)) ->
      (forall e, (e < prodn ext)%nat -> sym_hess_law shp f W (elems g LE ext A e) /\ sym_commute shp f W (elems g LE ext A e)) ->
      (exists d, obj_diff p dvec o d) /\ (exists d, fun_diff2 p dvec (o_shape o) o d /\
        fst (snd d) = map (gen_hb g LE ext) (gf_hess g)).
Proof.
  intros H HO. destruct (objective_generated _ _ _ _ _ H) as (m' & E & G). eexists m', _. split; [exact E|]. split; [exact G|].
  pose proof (hf_wf _ _ _ _ _ H) as SW.
  pose proof (objective_gwf shp f W SW _ (hf_bsh_get _ _ _ _ _ H) fname HO) as WF.
  split; [exact WF|]. do 3 (split; [reflexivity|]). intros p dvec o LE ext A BD HOS HS HJ HH.
  set (g := wanted_objective _ _ _ _ _ _) in *. pose proof (bd_fit _ _ _ _ _ _ _ _ _ BD) as HF.
  assert (Eo : ext = ext ++ gf_out g) by (cbn; now rewrite app_nil_r).
  split.
  - destruct (C19_gradient_derivative g (active p o) (param_shape p o) LE ext A WF eq_refl HF) as (gs & HG).
    + intros wf Hwf. apply in_map_iff in Hwf as (w & <- & Hw). cbn [fst].
      destruct (bound_w shp f W g SW eq_refl eq_refl p dvec _ _ _ _ BD w Hw) as (B1 & B2 & _). auto.
    + intros e He D HD. apply (objective_grad_law shp f W SW); auto.
      eapply supported_incl; [|eassumption]. intros w. apply (bd_active _ _ _ _ _ _ _ _ _ BD).
    + exists (A, gs). unfold obj_diff. rewrite (bd_fun _ _ _ _ _ _ _ _ _ BD), HOS.
      split; [apply (bd_fits _ _ _ _ _ _ _ _ _ BD)|]. split; [apply (bd_args _ _ _ _ _ _ _ _ _ BD)|]. split; [|exact HG].
      rewrite Eo. now apply (gen_calls g WF LE ext).
  - apply (bound_hess shp f W g SW WF eq_refl eq_refl eq_refl p dvec o LE ext A BD); [congruence|].
    intros e He. destruct (HH e He). now apply objective_hess_law.
Qed.
Print Assumptions C21_generated_objective.

(** *** A concrete symbolic model: f(x, y) = x y *)
Definition mul_expr (wrt : list string) : list (sexpr R) :=
  match wrt with
  | [a] => if String.eqb a "x" then [SE true (fun A => sc A 1)] else [SE true (fun A => sc A 0)]
  | [a; b] => if String.eqb a b then [SE false (fun _ => 0)] else [SE true (fun _ => 1)]
  | _ => []
  end.
Definition mul_sym : sfun R := SF ["x"; "y"] [] [SE true (fun A => sc A 0 * sc A 1)] mul_expr.
Definition mul_model : smodel R := SM [("x", []); ("y", [])] ["y"; "x"] [("f", mul_sym)] [] [] [] [] [].

Lemma mul_has : has_fun mul_model (fun _ => []) "f" mul_sym ["x"; "y"].
Proof.
  assert (HW : forall w, In w ["x"; "y"] -> w = "x" \/ w = "y") by (simpl; intuition).
  constructor.
  - reflexivity.
  - intros w [H|H]; simpl in H; intuition (subst; reflexivity).
  - intros w. simpl. intuition.
  - repeat constructor; try (apply plain_check; reflexivity); intros v E; destruct v as [|c [|c' v]]; discriminate.
  - constructor.
    + repeat constructor; simpl; intuition discriminate.
    + repeat constructor; simpl; intuition discriminate.
    + auto.
    + reflexivity.
    + intros w Hw. destruct (HW w Hw) as [->| ->]; reflexivity.
    + intros a b Ha Hb. destruct (HW a Ha) as [->| ->], (HW b Hb) as [->| ->]; reflexivity.
    + intros w e Hw He. destruct (HW w Hw) as [->| ->]; destruct He as [<-|[]]; discriminate.
    + intros a b e Ha Hb He. destruct (HW a Ha) as [->| ->], (HW b Hb) as [->| ->]; destruct He as [<-|[]]; intros E A; reflexivity || discriminate E.
Qed.

Lemma mul_sym_move a b D t : sym_value mul_sym (bmove (sf_args mul_sym) [[a]; [b]] D t) 0
  = (a + t * D "x" 0%nat) * (b + t * D "y" 0%nat).
Proof. reflexivity. Qed.

Example C21_nonvacuous a b :
  has_fun mul_model (fun _ => []) "f" mul_sym ["x"; "y"] /\ Permutation ["x"; "y"] ["y"; "x"] /\
  sym_jac_law (fun _ => []) mul_sym ["x"; "y"] [[a]; [b]] /\
  sym_hess_law (fun _ => []) mul_sym ["x"; "y"] [[a]; [b]] /\
  sym_commute (fun _ => []) mul_sym ["x"; "y"] [[a]; [b]].
Proof.
  split; [apply mul_has|]. split; [constructor|]. split; [|split].
  - intros D o _ Ho. assert (o = 0%nat) as -> by (simpl in Ho; lia).
    apply (is_derive_ext (fun t => (a + t * D "x" 0%nat) * (b + t * D "y" 0%nat))).
    { intros t. now rewrite mul_sym_move. }
    auto_derive; auto. unfold sder. simpl. unfold sc. simpl. ring.
  - intros D E o _ _ Ho. assert (o = 0%nat) as -> by (simpl in Ho; lia).
    apply (d2_ext (fun s t => (a + t * E "x" 0%nat + s * D "x" 0%nat) * (b + t * E "y" 0%nat + s * D "y" 0%nat))).
    { intros s t. change (bmove (sf_args mul_sym) [[a]; [b]] E t) with [[a + t * E "x" 0%nat]; [b + t * E "y" 0%nat]].
      now rewrite mul_sym_move. }
    split.
    + apply filter_forall. intros t. auto_derive. auto.
    + apply (is_derive_ext (fun t => D "x" 0%nat * (b + t * E "y" 0%nat) + (a + t * E "x" 0%nat) * D "y" 0%nat)).
      { intros t. symmetry. apply is_derive_unique. auto_derive; auto. ring. }
      auto_derive; auto. unfold sder2. simpl. ring.
  - intros u v i j o Hu Hv Hi Hj Ho. simpl in Hi, Hj, Ho. assert (i = 0%nat) as -> by lia. assert (j = 0%nat) as -> by lia. assert (o = 0%nat) as -> by lia.
    simpl in Hu, Hv. intuition (subst; reflexivity).
Qed.

(** ** Several functions in one model *)
Inductive regkind := RCons | RObj.
Definition register (m : smodel R) (r : regkind * (string * list string)) : res (smodel R) :=
  match fst r with
  | RCons => add_constraint m (snd (snd r)) (fst (snd r)) 2
  | RObj => add_objective m (snd (snd r)) (fst (snd r)) 2
  end.
Definition regenerate (m : smodel R) (r : regkind * (string * list string)) : res (gfun R) :=
  match fst r with
  | RCons => generate_constraint m (fst (snd r))
  | RObj => generate_objective m (fst (snd r))
  end.

Section Several.
  Variables (m0 : smodel R) (shp : string -> shape) (fs : string -> sfun R).
  Notation sizes := (fun w : string => prodn (shp w)).
  Notation reg := (regkind * (string * list string))%type.

  Definition expected (r : reg) : gfun R :=
    let f := fs (fst (snd r)) in
    match fst r with
    | RCons => wanted_constraint sizes f (fst (snd r)) (map shp (sf_args f)) (map (fun w => (w, shp w)) (m_dec m0)) (snd (snd r))
    | RObj => wanted_objective sizes f (fst (snd r)) (map shp (sf_args f)) (map (fun w => (w, shp w)) (m_dec m0)) (snd (snd r))
    end.
  Definition kept_ok (m : smodel R) (r : reg) : Prop :=
    match fst r with
    | RCons => cons_stored sizes m (fst (snd r)) (fs (fst (snd r))) (snd (snd r))
    | RObj => obj_stored sizes m (fst (snd r)) (fs (fst (snd r))) (snd (snd r))
    end.
  Notation rnames r := (all_names (fst (snd r)) (snd (snd r))).

  Definition good (r : reg) : Prop :=
    has_fun m0 shp (fst (snd r)) (fs (fst (snd r))) (snd (snd r)) /\
    plain (fst (snd r)) /\ no_digit (fst (snd r)) /\ fst (snd r) <> "".

  Lemma names_apart r r' d : good r -> good r' -> fst (snd r) <> fst (snd r') -> In d (rnames r) -> free (rnames r') d.
  Proof.
    intros (H & P & N & E) (H' & P' & N' & E') Hne Hd.
    pose proof (hf_nice _ _ _ _ _ H) as NI. pose proof (hf_nice _ _ _ _ _ H') as NI'.
    rewrite all_names_keys in Hd. apply in_map_iff in Hd as (k & <- & Hk).
    destruct (keys_spec _ k NI Hk) as (L & K & V). unfold free. rewrite all_names_keys. split; [|split].
    - intros Hin. apply in_map_iff in Hin as (k' & Ek & Hk'). destruct (keys_spec _ k' NI' Hk') as (L' & K' & V').
      destruct (C22_all_functions (fst (snd r)) (fst (snd r')) k k') as [EE _]; auto.
    - intros Hin. apply in_map_iff in Hin as (k' & Ek & Hk'). destruct (keys_spec _ k' NI' Hk') as (L' & K' & V').
      symmetry in Ek. revert Ek. now apply C22_value_names.
    - intros d' Hin Ek. apply in_map_iff in Hin as (k' & <- & Hk'). destruct (keys_spec _ k' NI' Hk') as (L' & K' & V').
      symmetry in Ek. revert Ek. now apply C22_value_names.
  Qed.

  Lemma in_names (r : reg) (wd : tkey * string) : In wd (first_names (fst (snd r)) (snd (snd r))) \/ In wd (second_names (fst (snd r)) (snd (snd r))) ->
    In (snd wd) (rnames r).
  Proof. unfold all_names. intros [H|H]; apply in_or_app; [left|right]; now apply in_map. Qed.

  Lemma register_all done rest : forall m,
    (forall r, In r (done ++ rest) -> good r) -> NoDup (map (fun r : reg => fst (snd r)) (done ++ rest)) ->
    m_vars m = m_vars m0 -> m_dec m = m_dec m0 -> m_fun m = m_fun m0 ->
    (forall r, In r done -> kept_ok m r) ->
    exists m', foldM register m rest = Ok m' /\ m_vars m' = m_vars m0 /\ m_dec m' = m_dec m0 /\
      forall r, In r (done ++ rest) -> kept_ok m' r.
  Proof.
    revert done. induction rest as [|r rest IH]; intros done m HG HN EV ED EF HK; cbn [foldM].
    - exists m. rewrite app_nil_r. auto.
    - assert (Hr : good r) by (apply HG, in_or_app; simpl; auto). destruct Hr as (H & P & N & E0).
      assert (HF : has_fun m shp (fst (snd r)) (fs (fst (snd r))) (snd (snd r))).
      { destruct H as [F1 F2 F3 F4 F5]. constructor; rewrite ?EV, ?ED, ?EF; auto. }
      pose proof (hf_nice _ _ _ _ _ H) as NI. pose proof (sw_W _ _ _ (hf_wf _ _ _ _ _ H)) as NW.
      assert (Hother : forall r', In r' done -> fst (snd r') <> fst (snd r)).
      { intros r' Hr' EE. rewrite map_app in HN. apply (NoDup_app_disj _ _ (fst (snd r')) HN); [now apply (in_map (fun r : reg => fst (snd r)))|].
        rewrite EE. simpl; auto. }
      assert (Hg' : forall r', In r' done -> good r') by (intros; apply HG, in_or_app; auto).
      assert (Hstep : exists m1, register m r = Ok m1 /\ kept_ok m1 r /\ frame (rnames r) m m1 /\
         (forall r', In r' done -> kept_ok m1 r')).
      { unfold register, kept_ok. destruct r as [[] [fname W]]; cbn [fst snd] in *.
        - destruct (add_constraint_ok sizes m fname (fs fname) W) as (m1 & E1 & S1 & FR & O1 & C1).
          + apply (hf_fun _ _ _ _ _ HF). + apply (hf_declares _ _ _ _ _ HF). + apply (hf_sized _ _ _ _ _ HF).
          + now apply names_NoDup. + now apply names_no_clash.
          + exists m1. split; [auto|]. split; [auto|]. split; [auto|]. intros r' Hr'. pose proof (HK r' Hr') as K. pose proof (Hother r' Hr') as Hne.
            assert (HFr : forall wd : tkey * string, In (snd wd) (rnames r') -> free (all_names fname W) (snd wd)).
            { intros wd Hwd. apply (names_apart r' (RCons, (fname, W))); auto. apply HG, in_or_app; simpl; auto. }
            unfold kept_ok in *. destruct r' as [[] [fn' W']]; cbn [fst snd] in *.
            * destruct K as (K1 & K2 & K3). split; [now rewrite (fr_fun _ _ _ FR)|]. split; [now rewrite C1|].
              intros wd Hwd. apply (proj2 (stored_frame sizes _ _ _ (fs fn') wd FR ltac:(apply HFr; apply (in_names (RCons, (fn', W'))); tauto))). now apply K3. 
            * destruct K as (K1 & K2 & K3 & K4). split; [now rewrite (fr_fun _ _ _ FR)|]. split; [now rewrite O1|].
              split; intros wd Hwd; [apply (proj1 (stored_frame sizes _ _ _ (fs fn') wd FR ltac:(apply HFr; apply (in_names (RObj, (fn', W'))); tauto))); now apply K3|apply (proj2 (stored_frame sizes _ _ _ (fs fn') wd FR ltac:(apply HFr; apply (in_names (RObj, (fn', W'))); tauto))); now apply K4].
        - destruct (add_objective_ok sizes m fname (fs fname) W) as (m1 & E1 & S1 & FR & C1 & O1).
          + apply (hf_fun _ _ _ _ _ HF). + apply (hf_declares _ _ _ _ _ HF). + apply (hf_sized _ _ _ _ _ HF).
          + now apply names_NoDup. + now apply names_no_clash.
          + exists m1. split; [auto|]. split; [auto|]. split; [auto|]. intros r' Hr'. pose proof (HK r' Hr') as K. pose proof (Hother r' Hr') as Hne.
            assert (HFr : forall wd : tkey * string, In (snd wd) (rnames r') -> free (all_names fname W) (snd wd)).
            { intros wd Hwd. apply (names_apart r' (RObj, (fname, W))); auto. apply HG, in_or_app; simpl; auto. }
            unfold kept_ok in *. destruct r' as [[] [fn' W']]; cbn [fst snd] in *.
            * destruct K as (K1 & K2 & K3). split; [now rewrite (fr_fun _ _ _ FR)|]. split; [now rewrite C1|].
              intros wd Hwd. apply (proj2 (stored_frame sizes _ _ _ (fs fn') wd FR ltac:(apply HFr; apply (in_names (RCons, (fn', W'))); tauto))). now apply K3. 
            * destruct K as (K1 & K2 & K3 & K4). split; [now rewrite (fr_fun _ _ _ FR)|]. split; [now rewrite O1|].
              split; intros wd Hwd; [apply (proj1 (stored_frame sizes _ _ _ (fs fn') wd FR ltac:(apply HFr; apply (in_names (RObj, (fn', W'))); tauto))); now apply K3|apply (proj2 (stored_frame sizes _ _ _ (fs fn') wd FR ltac:(apply HFr; apply (in_names (RObj, (fn', W'))); tauto))); now apply K4]. }
      destruct Hstep as (m1 & E1 & K1 & FR & KD). rewrite E1. cbn [bind].
      destruct (IH (done ++ [r]) m1) as (m2 & E2 & V2 & D2 & K2).
      + rewrite <- app_assoc. exact HG.
      + rewrite <- app_assoc. exact HN.
      + now rewrite (fr_vars _ _ _ FR).
      + now rewrite (fr_dec _ _ _ FR).
      + now rewrite (fr_fun _ _ _ FR).
      + intros r' Hr'. apply in_app_or in Hr' as [Hr'|[<-|[]]]; auto.
      + exists m2. split; [auto|]. split; [auto|]. split; [auto|]. rewrite <- app_assoc in K2. exact K2.
  Qed.
End Several.

(** After registering any list of constraints and objectives with different,
    unambiguous names, in any order, every one of them generates exactly what
    it generates alone. *)
Theorem C60_registrations_independent m0 shp fs regs :
  (forall r, In r regs -> good m0 shp fs r) -> NoDup (map (fun r => fst (snd r)) regs) ->
  exists m', foldM register m0 regs = Ok m' /\
    forall r, In r regs -> exists m1 g, register m0 r = Ok m1 /\ regenerate m1 r = Ok g /\ regenerate m' r = Ok g.
Proof.
  intros HG HN. destruct (register_all m0 shp fs [] regs m0) as (m' & E & V & D & K); auto. { intros r []. }
  exists m'. split; [auto|]. intros r Hr. destruct (HG r Hr) as (H & _). specialize (K r Hr).
  unfold register, regenerate, kept_ok in *. destruct r as [[] [fname W]]; cbn [fst snd] in *.
  - destruct (constraint_generated _ _ _ _ _ H) as (m1 & E1 & G1). eexists m1, _. split; [exact E1|]. split; [exact G1|].
    eapply generate_constraint_ok; [exact K|apply (hf_bases _ _ _ _ _ H)|apply (hf_bsh _ _ _ _ _ H)]; auto.
  - destruct (objective_generated _ _ _ _ _ H) as (m1 & E1 & G1). eexists m1, _. split; [exact E1|]. split; [exact G1|].
    eapply generate_objective_ok; [exact K|apply (hf_bases _ _ _ _ _ H)|apply (hf_bsh _ _ _ _ _ H)]; auto.
Qed.
Print Assumptions C60_registrations_independent.

(** Two copies of the product, one a constraint and one an objective. *)
Example C60_nonvacuous :
  let m0 := SM [("x", []); ("y", [])] ["y"; "x"] [("f", mul_sym); ("g", mul_sym)] [] [] [] [] [] in
  let regs := [(RCons, ("f", ["x"; "y"])); (RObj, ("g", ["y"; "x"]))] in
  (forall r, In r regs -> good m0 (fun _ => []) (fun _ => mul_sym) r) /\ NoDup (map (fun r => fst (snd r)) regs).
Proof.
  cbv zeta. split; [|repeat constructor; simpl; intuition discriminate].
  assert (Hnn : forall s, s = "f" \/ s = "g" -> plain s /\ no_digit s /\ s <> "").
  { intros s [->| ->]; (split; [apply plain_check; reflexivity|split; [intros r; discriminate|discriminate]]). }
  intros r [<-|[<-|[]]]; (split; [|cbn [fst snd]; apply Hnn; auto]); cbn [fst snd].
  - destruct mul_has as [F1 F2 F3 F4 F5]. constructor; auto.
  - assert (has_fun mul_model (fun _ => []) "f" mul_sym ["y"; "x"]) as [F1 F2 F3 F4 F5].
    { apply (perm_has _ _ _ _ _ mul_has). constructor. }
    constructor; auto.
Qed.
