(** C84: bounds set by a script. *)
From Coq Require Import String List ZArith Bool Arith Lia.
From Verif Require Import Py NdArray NdLemmas DictLemmas OptimModel OptimSpec OptimLaws LawFacts IndexLemmas Builder BuilderLemmas ProblemSpec ProblemLemmas AssemblyLemmas
  ColModel ColBuild ColLaws PropsEdge ViewModel ViewLemmas PropsView ScriptModel.
Import ListNotations.

(** *** Specification *)
Section Spec.
  Context {E : Type} (e0 : E) (ndec : nat) (dec : sdict comp).
  (** The part of the decision vector that a statement addresses. *)
  Definition region (name : option string) (off : nat) (s : shape) : Prop :=
    match name with None => off = 0 /\ s = [ndec] | Some w => exists c, In (w, c) dec /\ off = Z.to_nat (c_off c) /\ s = c_shape c end.
  (** Statement [a] gives entry [q] of its row the value [v]. *)
  Definition gives (a : assignment E) (q : nat) (v : E) : Prop :=
    exists off s ix k, region (as_var a) off s /\ picks s (as_sel a) ix k /\ q = off + ravel s ix /\
      v = nth (ravel (ash (as_value a)) (bcast_index (ash (as_value a)) k)) (adat (as_value a)) e0.
  Definition leaves (up : bool) (q : nat) (l : list (assignment E)) : Prop :=
    forall a v, In a l -> as_upper a = up -> ~ gives a q v.
  (** The last statement that concerns an entry decides its value. *)
  Definition settled (init : E) (l : list (assignment E)) (up : bool) (q : nat) (v : E) : Prop :=
    (exists pre a post, l = pre ++ a :: post /\ as_upper a = up /\ gives a q v /\ leaves up q post) \/ (v = init /\ leaves up q l).
  (** A statement that raises no exception. *)
  Definition proper (a : assignment E) : Prop :=
    exists off s r, region (as_var a) off s /\ accepts s (as_sel a) r /\ broadcastable (ash (as_value a)) r.
End Spec.

Section Proof.
  Context {E : Type} (e0 : E) (n : nat) (dec : sdict comp) (dep : sdict depvar).
  Hypothesis FD : forall name c, In (name, c) dec -> comp_fits n c (Z.to_nat (c_off c)).
  Hypothesis ND : NoDup (map fst dec ++ map fst dep).

  Lemma names_get {W} (ws : sdict W) extra v : map fst ws = map fst dep -> forall name c (f : view -> comp -> W), In (name, c) dec ->
    dget String.eqb (dmerge String.eqb extra (map (fun kc => (fst kc, f v (snd kc))) dec ++ ws)) name = Some (f v c).
  Proof.
    intros Nw name c f Hin. set (items := map (fun kc => (fst kc, f v (snd kc))) dec ++ ws).
    assert (Ni : NoDup (map fst items)).
    { unfold items. rewrite map_app, map_map. cbn [fst]. now rewrite Nw. }
    rewrite (dget_dmerge _ String.eqb_spec), (dget_rev _ String.eqb_spec) by auto.
    rewrite (In_dget _ String.eqb_spec items name (f v c)); auto. unfold items. apply in_or_app. left. apply in_map_iff. exists (name, c). auto.
  Qed.
  Lemma dec_unique name c c' : In (name, c) dec -> In (name, c') dec -> c = c'.
  Proof.
    intros H H'. assert (N1 : NoDup (map fst dec)) by (clear -ND; induction (map fst dec) as [|x k IH]; cbn in *; [constructor|inversion ND; subst; constructor; [rewrite in_app_iff in *; tauto|auto]]).
    pose proof (In_dget _ String.eqb_spec dec name c N1 H) as G1. pose proof (In_dget _ String.eqb_spec dec name c' N1 H') as G2. congruence.
  Qed.

  Variables (rows : view * view) (vars : sdict view * sdict view) (l : nat).
  Let row (up : bool) : view := if up then snd rows else fst rows.
  Let off (up : bool) : nat := if up then n else 0.
  Hypothesis RW : forall up, row up = View l (off up) [n].
  Hypothesis GV : forall (up : bool) name c, In (name, c) dec -> dget String.eqb (if up then snd vars else fst vars) name = Some (dec_view (row up) c).

  Lemma step (h : memory E) (a : assignment E) : l < length h -> length (nth l h []) = n + n -> proper n dec a ->
    exists h', assign e0 rows vars h a = Ok h' /\ length h' = length h /\ length (nth l h' []) = n + n /\
      (forall q v, q < n -> gives e0 n dec a q v -> cell e0 h' l (off (as_upper a) + q) = v) /\
      (forall up q, q < n -> (up = as_upper a -> forall v, ~ gives e0 n dec a q v) -> cell e0 h' l (off up + q) = cell e0 h l (off up + q)).
  Proof.
    intros Hl Hb (o & s & r & HR & HA & HB).
    set (w := View l (off (as_upper a) + o) s).
    assert (Hw : assign e0 rows vars h a = vset e0 h w (as_sel a) (as_value a)).
    { unfold assign, w. destruct (as_var a) as [name|]; cbn [region] in HR.
      - destruct HR as (c & Hc & -> & ->). unfold var_set, dlookup. match goal with |- context [dget ?e ?d name] => replace (dget e d name) with (Some (dec_view (row (as_upper a)) c)) by (symmetry; exact (GV (as_upper a) name c Hc)) end. rewrite RW. reflexivity.
      - destruct HR as [-> ->]. fold (row (as_upper a)). rewrite RW, Nat.add_0_r. reflexivity. }
    assert (Hr : o + prodn s <= n).
    { destruct (as_var a) as [name|]; cbn [region] in HR.
      - destruct HR as (c & Hc & -> & ->). apply (FD name c Hc).
      - destruct HR as [-> ->]. cbn. lia. }
    assert (Ho : off (as_upper a) <= n) by (unfold off; destruct (as_upper a); lia).
    assert (HV : valid h w) by (split; cbn [w vw_loc vw_off vw_shape]; lia).
    destruct (proj1 (C83_set_outcome E e0 h w (as_sel a) (as_value a)) r HA) as [HO _]. destruct (HO HB) as [h' E1].
    destruct (C83_set E e0 h h' w _ _ HV E1) as (L1 & L2 & C1 & C2). cbn [w vw_loc vw_off vw_shape] in *.
    assert (RU : forall o' s', region n dec (as_var a) o' s' -> o' = o /\ s' = s).
    { intros o' s'. destruct (as_var a) as [name|]; cbn [region] in *.
      - intros (c' & Hc' & -> & ->). destruct HR as (c & Hc & -> & ->). rewrite (dec_unique name c c' Hc Hc'). auto.
      - intros [-> ->]. destruct HR as [-> ->]. auto. }
    exists h'. split; [congruence|]. split; [auto|]. split; [rewrite L2; auto|]. split.
    - intros q v Hq (o' & s' & ix & k & HR' & P & -> & ->). destruct (RU _ _ HR') as [-> ->]. rewrite Nat.add_assoc. exact (C1 ix k P).
    - intros up q Hq Hn. apply C2. intros ix k P [= Eq].
      pose proof (index_in_lt s ix) as Lt. assert (IX : index_in s ix).
      { apply select_accepts in HA as [ixs Es]. destruct (select_ok _ _ _ _ Es) as [_ _ _ A _]. apply (A ix k P). }
      specialize (Lt IX). destruct (Bool.bool_dec up (as_upper a)) as [->|Hne].
      + apply (Hn eq_refl (nth (ravel (ash (as_value a)) (bcast_index (ash (as_value a)) k)) (adat (as_value a)) e0)). exists o, s, ix, k. repeat split; auto. lia.
      + unfold off in *. destruct up, (as_upper a); try congruence; lia.
  Qed.

  Lemma all_steps asgs : forall (h : memory E) init, l < length h -> length (nth l h []) = n + n -> Forall (proper n dec) asgs ->
    (forall up q, q < n -> cell e0 h l (off up + q) = init up) ->
    exists h', assign_all e0 rows vars h asgs = Ok h' /\ length h' = length h /\ length (nth l h' []) = n + n /\
      forall up q v, q < n -> settled e0 n dec (init up) asgs up q v -> cell e0 h' l (off up + q) = v.
  Proof.
    assert (App : forall l1 l2 h, assign_all e0 rows vars h (l1 ++ l2) = bind (assign_all e0 rows vars h l1) (fun h' => assign_all e0 rows vars h' l2)).
    { induction l1 as [|x l1 IH]; intros l2 h; [reflexivity|]. cbn [app assign_all]. destruct (assign e0 rows vars h x); cbn [bind]; auto. }
    induction asgs as [|a asgs IH] using rev_ind; intros h init Hl Hb HP HI.
    - exists h. split; [reflexivity|]. split; auto. split; auto. intros up q v Hq [(pre & a & post & Eq & _)|[-> _]]; [destruct pre; discriminate|auto].
    - apply Forall_app in HP as [HP HPa]. inversion HPa as [|? ? Pa _]; subst.
      destruct (IH h init Hl Hb HP HI) as (h1 & E1 & L1 & B1 & S1). assert (Hl1 : l < length h1) by lia.
      destruct (step h1 a Hl1 B1 Pa) as (h2 & E2 & L2 & B2 & S2 & S3). exists h2.
      split; [rewrite App, E1; cbn [bind assign_all]; now rewrite E2|]. split; [lia|]. split; auto.
      intros up q v Hq [(pre & b & post & Eq & Ub & Gb & Lp)|[-> Lv]].
      + destruct post as [|b' post'] eqn:Ep using rev_ind; [|clear IHpost'; subst post].
        * apply app_inj_tail in Eq as [<- <-]. subst up. now apply S2.
        * rewrite app_comm_cons, app_assoc in Eq. apply app_inj_tail in Eq as [-> <-].
          rewrite S3; auto.
          -- apply S1; auto. left. exists pre, b, post'. repeat split; auto. intros a' v' Hi. apply Lp. apply in_or_app. auto.
          -- intros -> v'. apply Lp; auto. apply in_or_app. cbn. auto.
      + rewrite S3; auto.
        * apply S1; auto. right. split; auto. intros a' v' Hi. apply Lv. apply in_or_app. auto.
        * intros -> v'. apply Lv; auto. apply in_or_app. cbn. auto.
  Qed.
End Proof.

Lemma nth_repeat_lt {A} (d a : A) n q : q < n -> nth q (repeat a n) d = a.
Proof. intros H. rewrite (nth_indep _ d a) by (rewrite repeat_length; auto). apply nth_repeat. Qed.

(** C84: the rows after the script.  For a problem built by the operations of
    the class and statements that NumPy accepts, the script runs, and each
    entry of each row is what the last statement concerning it says, or else
    the initial value. *)
Theorem C84_bounds (E : Type) (e0 lo hi : E) (T : Type) (NT : Num T) (p : problem T) sel extra (h : memory E) asgs :
  reachable p -> Forall (proper (ndec p) (p_decision p)) asgs ->
  exists L U, bounds_script e0 lo hi (ndec p) (p_decision p) (prob_deps p sel) extra h asgs = Ok (L, U) /\
    length L = ndec p /\ length U = ndec p /\
    (forall q v, q < ndec p -> settled e0 (ndec p) (p_decision p) lo asgs false q v -> nth q L e0 = v) /\
    (forall q v, q < ndec p -> settled e0 (ndec p) (p_decision p) hi asgs true q v -> nth q U e0 = v).
Proof.
  intros R HP. pose proof (reachable_inv p R) as I. set (n := ndec p) in *.
  assert (ND : NoDup (map fst (p_decision p) ++ map fst (prob_deps p sel))).
  { unfold prob_deps. rewrite map_map. cbn [fst]. exact (inv_names p I). }
  assert (FD : forall name c, In (name, c) (p_decision p) -> comp_fits n c (Z.to_nat (c_off c))).
  { intros name c Hc. exact (inv_dec_fits p name c I Hc). }
  unfold bounds_script, two_rows. cbn [fst snd]. set (h0 := h ++ [repeat lo n ++ repeat hi n]).
  set (vL := View (length h) 0 [n]). set (vU := View (length h) n [n]).
  assert (B0 : nth (length h) h0 [] = repeat lo n ++ repeat hi n) by (unfold h0; now rewrite app_nth2, Nat.sub_diag by lia).
  assert (Lh0 : length h0 = S (length h)) by (unfold h0; rewrite app_length; cbn [length]; lia).
  assert (LB : length (nth (length h) h0 []) = n + n) by (rewrite B0, app_length, !repeat_length; auto).
  assert (V1 : valid h0 vL) by (split; cbn [vL vw_loc vw_off vw_shape prodn fold_right]; lia).
  destruct (view_variables_ok e0 n (p_decision p) (prob_deps p sel) extra h0 vL V1 eq_refl FD ND) as (new1 & ws1 & Ev1 & F1).
  rewrite Ev1. cbn [bind fst snd].
  assert (V2 : valid (h0 ++ new1) vU).
  { split; cbn [vU vw_loc vw_off vw_shape prodn fold_right]; [rewrite app_length; lia|]. rewrite app_nth1 by lia. lia. }
  destruct (view_variables_ok e0 n (p_decision p) (prob_deps p sel) extra (h0 ++ new1) vU V2 eq_refl FD ND) as (new2 & ws2 & Ev2 & F2).
  rewrite Ev2. cbn [bind fst snd].
  assert (N1 : map fst ws1 = map fst (prob_deps p sel)).
  { clear -F1. induction F1 as [|? ? ? ? [E1 _] _ IH]; cbn; auto. now rewrite E1, IH. }
  assert (N2 : map fst ws2 = map fst (prob_deps p sel)).
  { clear -F2. induction F2 as [|? ? ? ? [E1 _] _ IH]; cbn; auto. now rewrite E1, IH. }
  match goal with |- context [assign_all e0 (vL, vU) (?a, ?b) ?hh asgs] =>
    destruct (all_steps e0 n (p_decision p) (prob_deps p sel) FD ND (vL, vU) (a, b) (length h)) with (asgs := asgs) (h := hh) (init := fun up : bool => if up then hi else lo)
      as (h' & E' & L' & B' & S') end; auto.
  - intros []; reflexivity.
  - intros [] name c Hc; cbn [fst snd]; apply (names_get (p_decision p) (prob_deps p sel) ND) with (f := dec_view); auto.
  - rewrite !app_length. lia.
  - rewrite !app_nth1; rewrite ?app_length; lia.
  - intros up q Hq. unfold cell. rewrite !app_nth1 by (rewrite ?app_length; lia). rewrite B0. destruct up; cbn [Nat.add].
    + rewrite app_nth2; rewrite repeat_length; [|lia]. replace (n + q - n) with q by lia. apply nth_repeat_lt; auto.
    + rewrite app_nth1 by (rewrite repeat_length; auto). apply nth_repeat_lt; auto.
  - match goal with |- context [assign_all ?a ?b ?c ?d ?e] => replace (assign_all a b c d e) with (Ok h') by (symmetry; exact E') end. cbn [bind]. eexists. eexists. split; [reflexivity|].
    assert (RL : forall up q, q < n -> nth q (adat (vread e0 h' (if up : bool then vU else vL))) e0 = cell e0 h' (length h) ((if up then n else 0) + q)).
    { intros up q Hq. destruct up; cbn [vread adat vL vU vw_loc vw_off vw_shape prodn fold_right]; rewrite nth_map_seq by lia; reflexivity. }
    split; [|split; [|split]].
    + cbn [vread adat vL vw_shape prodn fold_right]. rewrite map_length, seq_length. lia.
    + cbn [vread adat vU vw_shape prodn fold_right]. rewrite map_length, seq_length. lia.
    + intros q v Hq Hs. rewrite (RL false q Hq). exact (S' false q v Hq Hs).
    + intros q v Hq Hs. rewrite (RL true q Hq). exact (S' true q v Hq Hs).
Qed.
