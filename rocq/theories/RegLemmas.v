(** Registering several functions in one symbolic model. *)
From Coq Require Import String List ZArith Bool Arith Lia Reals Permutation.
From Coquelicot Require Import Coquelicot.
From Verif Require Import Py NdArray OptimModel DictLemmas NdLemmas OptimSpec OptimLaws LawFacts LayoutLemmas
  ProblemSpec ProblemFacts DerivSpec CalcLemmas IndexLemmas GenModel GenSpec GenLemmas GenDeriv
  SymModel NameLemmas PropsNames SymLemmas SymDeriv PropsGen PropsSym RegModel.
Import ListNotations.
Local Open Scope string_scope.
Local Open Scope list_scope.
Local Open Scope nat_scope.

Notation valname d := (d ++ "_val")%string.

(** *** Specification: no derivative of one function is stored under a name
    used for another *)
Definition apart (r r' : reg) : Prop :=
  forall d d', In d (all_names (r_name r) (r_wrt r)) -> In d' (all_names (r_name r') (r_wrt r')) ->
  d <> d' /\ valname d <> d' /\ d <> valname d'.
Definition all_apart (rs : list reg) : Prop :=
  NoDup (map r_name rs) /\ forall r r', In r rs -> In r' rs -> r_name r <> r_name r' -> apart r r'.

Section Chain.
  Variables (shp : string -> shape) (fs : string -> sfun R).
  Notation sizes := (fun w : string => prodn (shp w)).
  Definition stored (m : smodel R) (r : reg) : Prop :=
    if r_obj r then obj_stored sizes m (r_name r) (fs (r_name r)) (r_wrt r)
    else cons_stored sizes m (r_name r) (fs (r_name r)) (r_wrt r).
  Definition known_fun (m : smodel R) (r : reg) : Prop := has_fun m shp (r_name r) (fs (r_name r)) (r_wrt r).

  Lemma known_frame K m m' r : frame K m m' -> known_fun m r -> known_fun m' r.
  Proof.
    intros FR [F1 F2 F3 F4 F5]. constructor; auto.
    - now rewrite (fr_fun _ _ _ FR).
    - intros w Hw. rewrite (fr_dec _ _ _ FR) in Hw. rewrite (fr_vars _ _ _ FR). auto.
    - intros w. rewrite (fr_dec _ _ _ FR). auto.
  Qed.

  Lemma stored_keep K m m' r : frame K m m' ->
    (forall d, In d (all_names (r_name r) (r_wrt r)) -> free K d) ->
    dget String.eqb (m_cons m') (r_name r) = dget String.eqb (m_cons m) (r_name r) ->
    dget String.eqb (m_objs m') (r_name r) = dget String.eqb (m_objs m) (r_name r) ->
    stored m r -> stored m' r.
  Proof.
    intros FR HF HC HO. unfold stored. destruct (r_obj r).
    - intros (H1 & H2 & H3 & H4). split; [now rewrite (fr_fun _ _ _ FR)|]. split; [congruence|]. split.
      + intros wd Hwd. apply (stored_frame sizes _ _ _ _ wd FR); auto. apply HF. apply in_or_app. left. now apply in_map.
      + intros wd Hwd. apply (stored_frame sizes _ _ _ _ wd FR); auto. apply HF. apply in_or_app. right. now apply in_map.
    - intros (H1 & H2 & H3). split; [now rewrite (fr_fun _ _ _ FR)|]. split; [congruence|].
      intros wd Hwd. apply (stored_frame sizes _ _ _ _ wd FR); auto. apply HF. apply in_or_app.
      destruct Hwd; [left|right]; now apply in_map.
  Qed.

  Lemma register_ok m r : known_fun m r ->
    exists m', register m r = Ok m' /\ stored m' r /\ frame (all_names (r_name r) (r_wrt r)) m m' /\
      (forall k, k <> r_name r -> dget String.eqb (m_cons m') k = dget String.eqb (m_cons m) k) /\
      (forall k, k <> r_name r -> dget String.eqb (m_objs m') k = dget String.eqb (m_objs m) k).
  Proof.
    intros H. unfold register, stored.
    pose proof (names_NoDup (r_name r) _ (hf_nice _ _ _ _ _ H) (sw_W _ _ _ (hf_wf _ _ _ _ _ H))) as HN.
    pose proof (names_no_clash (r_name r) _ (hf_nice _ _ _ _ _ H)) as HV. destruct (r_obj r).
    - destruct (add_objective_ok sizes m (r_name r) (fs (r_name r)) (r_wrt r)) as (m' & E & S & FR & C & O); auto.
      + apply (hf_fun _ _ _ _ _ H). + apply (hf_declares _ _ _ _ _ H). + apply (hf_sized _ _ _ _ _ H).
      + exists m'. do 3 (split; [auto|]). split; [intros; now rewrite C|auto].
    - destruct (add_constraint_ok sizes m (r_name r) (fs (r_name r)) (r_wrt r)) as (m' & E & S & FR & C & O); auto.
      + apply (hf_fun _ _ _ _ _ H). + apply (hf_declares _ _ _ _ _ H). + apply (hf_sized _ _ _ _ _ H).
      + exists m'. do 3 (split; [auto|]). split; [auto|intros; now rewrite C].
  Qed.

  Lemma register_all_ok rs : all_apart rs -> forall m, (forall r, In r rs -> known_fun m r) ->
    exists m', register_all m rs = Ok m' /\ (forall r, In r rs -> stored m' r) /\
      frame (flat_map (fun r => all_names (r_name r) (r_wrt r)) rs) m m' /\
      (forall k, ~ In k (map r_name rs) -> dget String.eqb (m_cons m') k = dget String.eqb (m_cons m) k) /\
      (forall k, ~ In k (map r_name rs) -> dget String.eqb (m_objs m') k = dget String.eqb (m_objs m) k).
  Proof.
    induction rs as [|r rs IH]; intros [HN HA] m HK.
    - exists m. split; [reflexivity|]. split; [intros ? []|]. split; [apply frame_refl|auto].
    - destruct (register_ok m r) as (m1 & E1 & S1 & F1 & C1 & O1); [apply HK; simpl; auto|].
      cbn [map] in HN. inversion HN as [|x l Hr HN']; subst.
      destruct (IH) with (m := m1) as (m2 & E2 & S2 & F2 & C2 & O2).
      + split; auto. intros. apply HA; simpl; auto.
      + intros r' Hr'. apply (known_frame _ m m1 r' F1). apply HK. simpl; auto.
      + exists m2. split; [unfold register_all; cbn [foldM]; rewrite E1; exact E2|]. split; [|split; [|split]].
        * intros r' [<-|Hr']; [|now apply S2]. apply (stored_keep _ m1 m2 r F2); auto.
          intros d Hd. assert (Q : forall d', In d' (flat_map (fun r => all_names (r_name r) (r_wrt r)) rs) ->
            d <> d' /\ valname d <> d' /\ d <> valname d').
          { intros d' Hd'. apply in_flat_map in Hd' as (r' & Hr' & Hd'). apply (HA r r'); simpl; auto.
            intros E. apply Hr. rewrite E. now apply in_map. }
          split; [intros Hin; destruct (Q d Hin) as (Q1 & _); now apply Q1|].
          split; [intros Hin; destruct (Q _ Hin) as (_ & Q1 & _); now apply Q1|]. intros d' Hd'. now apply Q.
        * cbn [flat_map]. eapply frame_trans; [eapply frame_incl; [|exact F1]|eapply frame_incl; [|exact F2]];
            intros x Hx; apply in_or_app; auto.
        * intros k Hk. cbn [map In] in Hk. rewrite C2, C1; auto.
        * intros k Hk. cbn [map In] in Hk. rewrite O2, O1; auto.
  Qed.

  (** The generated function of a registration. *)
  Definition wanted (m : smodel R) (r : reg) : gfun R :=
    (if r_obj r then wanted_objective else wanted_constraint) sizes (fs (r_name r)) (r_name r)
      (map shp (sf_args (fs (r_name r)))) (map (fun w => (w, shp w)) (m_dec m)) (r_wrt r).

  Lemma generate_all_ok rs m : all_apart rs -> (forall r, In r rs -> known_fun m r) ->
    exists m', register_all m rs = Ok m' /\ forall r, In r rs -> generate_reg m' r = Ok (wanted m r).
  Proof.
    intros HA HK. destruct (register_all_ok rs HA m HK) as (m' & E & S & FR & _). exists m'. split; auto.
    intros r Hr. specialize (S r Hr). specialize (HK r Hr). unfold generate_reg, wanted, stored in *. destruct (r_obj r).
    - eapply generate_objective_ok; eauto.
      + apply (hf_bases _ _ _ _ _ HK), (fr_vars _ _ _ FR).
      + apply (hf_bsh _ _ _ _ _ HK); [apply (fr_vars _ _ _ FR)|apply (fr_dec _ _ _ FR)].
    - eapply generate_constraint_ok; eauto.
      + apply (hf_bases _ _ _ _ _ HK), (fr_vars _ _ _ FR).
      + apply (hf_bsh _ _ _ _ _ HK); [apply (fr_vars _ _ _ FR)|apply (fr_dec _ _ _ FR)].
  Qed.
End Chain.

(** *** The names used by the collocation models do not clash *)
(** All keys over a set of variables, in any order. *)
Definition keys (V : list string) : list (list string) :=
  map (fun w => [w]) V ++ flat_map (fun a => map (fun b => [a; b]) V) V.
Definition apartb (f : string) (V : list string) (f' : string) (V' : list string) : bool :=
  forallb (fun k => forallb (fun k' =>
    let d := deriv_name f k in let d' := deriv_name f' k' in
    negb (String.eqb d d') && negb (String.eqb (valname d) d') && negb (String.eqb d (valname d'))) (keys V')) (keys V).
Definition all_apartb (l : list (string * list string)) : bool :=
  forallb (fun a => forallb (fun b => String.eqb (fst a) (fst b) || apartb (fst a) (snd a) (fst b) (snd b)) l) l.

Lemma names_in_keys f W V d : incl W V -> In d (all_names f W) -> exists k, In k (keys V) /\ d = deriv_name f k.
Proof.
  intros HI Hd. rewrite all_names_keys in Hd. apply in_map_iff in Hd as (k & <- & Hk). exists k. split; auto.
  apply in_or_app. apply in_app_or in Hk as [Hk|Hk].
  - left. apply in_map_iff in Hk as (w & <- & Hw). apply in_map_iff. eauto.
  - right. apply in_map_iff in Hk as ([a b] & <- & Hab). apply pairs2_In in Hab as [Ha Hb]. cbn [fst snd].
    apply in_flat_map. exists a. split; auto. apply in_map_iff. eauto.
Qed.

Lemma apartb_ok V rs : NoDup (map r_name rs) -> (forall r, In r rs -> incl (r_wrt r) (V (r_name r))) ->
  all_apartb (map (fun r => (r_name r, V (r_name r))) rs) = true -> all_apart rs.
Proof.
  intros HN HV HB. split; auto. intros r r' Hr Hr' Hne d d' Hd Hd'.
  unfold all_apartb in HB. rewrite forallb_forall in HB. specialize (HB _ (in_map _ _ _ Hr)). rewrite forallb_forall in HB.
  specialize (HB _ (in_map _ _ _ Hr')). cbn [fst snd] in HB. apply orb_true_iff in HB as [HB|HB].
  { apply String.eqb_eq in HB. contradiction. }
  destruct (names_in_keys _ _ (V (r_name r)) d (HV r Hr) Hd) as (k & Hk & ->).
  destruct (names_in_keys _ _ (V (r_name r')) d' (HV r' Hr') Hd') as (k' & Hk' & ->).
  unfold apartb in HB. rewrite forallb_forall in HB. specialize (HB k Hk). rewrite forallb_forall in HB. specialize (HB k' Hk').
  cbv zeta in HB. apply andb_true_iff in HB as [HB H3]. apply andb_true_iff in HB as [H1 H2].
  apply negb_true_iff in H1, H2, H3. apply String.eqb_neq in H1, H2, H3. auto.
Qed.
