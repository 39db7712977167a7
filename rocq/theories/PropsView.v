(** C83: writing to the arrays returned by [variables]. *)
From Coq Require Import String List ZArith Bool Arith Lia.
From Verif Require Import Py NdArray NdLemmas DictLemmas OptimModel OptimSpec OptimLaws LawFacts IndexLemmas Builder BuilderLemmas ProblemSpec ProblemLemmas AssemblyLemmas
  ColModel ColBuild ColLaws PropsCol PropsEdge ViewModel ViewLemmas.
Import ListNotations.

(** The buffer of the array exists and is long enough. *)
Definition valid {E} (h : memory E) (v : view) : Prop :=
  vw_loc v < length h /\ vw_off v + prodn (vw_shape v) <= length (nth (vw_loc v) h []).

Lemma nth_upd_any {X} (l : list X) i v j d : i < length l -> nth j (upd l i v) d = if Nat.eqb j i then v else nth j l d.
Proof.
  revert i j. induction l as [|x l IH]; intros i j H; [cbn in H; lia|].
  destruct i as [|i], j as [|j]; cbn; auto. apply IH. cbn in H. lia.
Qed.
Lemma upd_length_any {X} (l : list X) i v : length (upd l i v) = length l.
Proof. revert i. induction l as [|x l IH]; intros [|i]; cbn; auto. Qed.

(** [v[sl] = value] puts the value, broadcast to the selection, in the
    selected elements of [v], and changes no other element of any array. *)
Theorem C83_set (E : Type) (e0 : E) (h h' : memory E) v sl value :
  valid h v -> vset e0 h v sl value = Ok h' ->
  length h' = length h /\ (forall l, length (nth l h' []) = length (nth l h [])) /\
  (forall ix k, picks (vw_shape v) sl ix k ->
     cell e0 h' (vw_loc v) (vw_off v + ravel (vw_shape v) ix) = nth (ravel (ash value) (bcast_index (ash value) k)) (adat value) e0) /\
  (forall l p, (forall ix k, picks (vw_shape v) sl ix k -> (l, p) <> (vw_loc v, vw_off v + ravel (vw_shape v) ix)) ->
     cell e0 h' l p = cell e0 h l p).
Proof.
  intros [V1 V2]. unfold vset. destruct (select (vw_shape v) sl) as [[ixs r]|] eqn:Es; [|discriminate]. cbn [bind fst snd].
  destruct (broadcast_to e0 value r) as [w|] eqn:Eb; [|discriminate]. cbn [bind]. intros [= <-].
  destruct (select_ok _ _ _ _ Es) as [L N B A I]. destruct (broadcast_any _ _ _ _ Eb) as (W1 & W2 & W3).
  unfold awf in W2. rewrite W1 in W2.
  set (pos := map (fun p => vw_off v + p) (vpos (vw_shape v) ixs)). set (buf := nth (vw_loc v) h []) in *.
  assert (Np : NoDup pos) by (apply NoDup_map_inj; auto; intros; lia).
  assert (Lp : length pos = prodn r) by (unfold pos; now rewrite map_length).
  assert (Bp : forall p, In p pos -> p < length buf).
  { intros p Hp. apply in_map_iff in Hp as (q & <- & Hq). specialize (B q Hq). lia. }
  split; [apply upd_length_any|]. split.
  { intros l. rewrite nth_upd_any by auto. destruct (Nat.eqb_spec l (vw_loc v)) as [->|]; auto. apply scatter_length. }
  split.
  - intros ix k P. destruct (A ix k P) as (P1 & P2 & P3). unfold cell. rewrite nth_upd_any, Nat.eqb_refl by auto.
    rewrite <- (W3 k P2), <- P3. pose proof (index_in_lt _ _ P2) as Hlt.
    replace (vw_off v + nth (ravel r k) (vpos (vw_shape v) ixs) 0) with (nth (ravel r k) pos 0).
    2: { unfold pos. rewrite (nth_map_d _ _ _ 0) by lia. reflexivity. }
    apply scatter_at; auto; lia.
  - intros l p H. unfold cell. rewrite nth_upd_any by auto. destruct (Nat.eqb_spec l (vw_loc v)) as [->|]; auto.
    apply scatter_other. intros Hp. apply in_map_iff in Hp as (q & <- & Hq). destruct (I q Hq) as (ix & k & P & <-).
    now apply (H ix k P).
Qed.

(** It is an [IndexError] when the subscript has too many entries or an
    integer out of range, otherwise a [ValueError] when the value cannot be
    broadcast, and succeeds in all other cases. *)
Definition broadcastable (s t : shape) : Prop :=
  length s <= length t /\ forall k, k < length s -> nth k s 0 = nth (length t - length s + k) t 0 \/ nth k s 0 = 1.
Lemma broadcastable_iff {X} (d : X) (v : arr X) t : broadcastable (ash v) t <-> exists w, broadcast_to d v t = Ok w.
Proof.
  unfold broadcast_to, broadcastable. destruct (Nat.leb_spec (length (ash v)) (length t)); cbn [andb].
  2: { split; [lia|intros [w H']; discriminate]. }
  set (m := length t - length (ash v)).
  assert (HL : length (bpad (ash v) t) = length t) by (unfold bpad; rewrite app_length, repeat_length; lia).
  assert (HB : bcompat (bpad (ash v) t) t = true <->
    forall k, k < length (ash v) -> nth k (ash v) 0 = nth (m + k) t 0 \/ nth k (ash v) 0 = 1).
  { rewrite (bcompat_spec _ _ HL), HL. unfold bpad. fold m. split.
    - intros H' k Hk. specialize (H' (m + k)). rewrite app_nth2 in H' by (rewrite repeat_length; lia).
      rewrite repeat_length in H'. replace (m + k - m) with k in H' by lia. apply H'. lia.
    - intros H' k Hk. destruct (Nat.ltb_spec k m) as [H0|H0].
      + rewrite app_nth1 by (now rewrite repeat_length). right. rewrite nth_indep with (d' := 1) by now rewrite repeat_length. apply nth_repeat.
      + rewrite app_nth2 by (now rewrite repeat_length). rewrite repeat_length.
        replace k with (m + (k - m)) at 2 by lia. apply H'. lia. }
  destruct (bcompat (bpad (ash v) t) t).
  - split; [eauto|]. intros _. split; auto. now apply HB.
  - split; [intros [_ H']; apply HB in H'; discriminate|intros [w H']; discriminate].
Qed.

Theorem C83_set_outcome (E : Type) (e0 : E) (h : memory E) v sl value :
  (forall r, accepts (vw_shape v) sl r ->
     (broadcastable (ash value) r -> exists h', vset e0 h v sl value = Ok h') /\
     (~ broadcastable (ash value) r -> vset e0 h v sl value = Err ValueError)) /\
  ((forall r, ~ accepts (vw_shape v) sl r) -> vset e0 h v sl value = Err IndexError).
Proof.
  unfold vset. split.
  - intros r H. apply select_accepts in H as [ixs ->]. cbn [bind fst snd]. split; intros H.
    + apply (broadcastable_iff e0) in H as [w ->]. cbn. eauto.
    + destruct (broadcast_to e0 value r) as [w|e] eqn:Eb; cbn [bind].
      * destruct H. apply (broadcastable_iff e0). eauto.
      * unfold broadcast_to in Eb. destruct ((_ <=? _) && _); [discriminate|now injection Eb as ->].
  - intros H. destruct (select (vw_shape v) sl) as [[ixs r]|e] eqn:Es; cbn [bind].
    + destruct (H r). apply select_accepts. eauto.
    + now rewrite (select_err _ _ _ Es).
Qed.

(** *** [variables] *)
Section Vars.
  Context {E : Type} (e0 : E).
  Lemma vread_old (h : memory E) new v : valid h v -> vread e0 (h ++ new) v = vread e0 h v.
  Proof. intros [V1 V2]. unfold vread, cell. now rewrite app_nth1 by auto. Qed.
  Definition dep_arr (h : memory E) (v : view) (d : depvar) : arr E :=
    Arr (fst d) (map (fun i => cell e0 h (vw_loc v) (vw_off v + snd d i)) (seq 0 (prodn (fst d)))).
  Lemma vread_new (h : memory E) a new : awf a -> vread e0 (h ++ adat a :: new) (View (length h) 0 (ash a)) = a.
  Proof.
    intros W. destruct a as [s l]. unfold vread, cell, awf in *. cbn in *. rewrite app_nth2, Nat.sub_diag by auto. cbn.
    rewrite <- W. f_equal. apply (map_nth_seq e0 l).
  Qed.

  Lemma deps_ok v dep : forall (h : memory E) vs, valid h v -> exists new ws,
    fold_left (fun hv nd => dep_new e0 hv v nd) dep (h, vs) = (h ++ new, vs ++ ws) /\
    Forall2 (fun nd nw => fst nd = fst nw /\ length h <= vw_loc (snd nw) /\ valid (h ++ new) (snd nw) /\ vread e0 (h ++ new) (snd nw) = dep_arr h v (snd nd)) dep ws.
  Proof.
    induction dep as [|[name [s sl]] dep IH]; intros h vs V.
    - exists [], []. rewrite !app_nil_r. split; [reflexivity|constructor].
    - cbn [fold_left]. set (a := map (fun i => cell e0 h (vw_loc v) (vw_off v + sl i)) (seq 0 (prodn s))).
      change (dep_new e0 (h, vs) v (name, (s, sl))) with (h ++ [a], vs ++ [(name, View (length h) 0 s)]).
      assert (V' : valid (h ++ [a]) v).
      { destruct V as [V1 V2]. split; [rewrite app_length; lia|]. rewrite app_nth1; auto. }
      destruct (IH (h ++ [a]) (vs ++ [(name, View (length h) 0 s)]) V') as (new & ws & Ef & F).
      exists (a :: new), ((name, View (length h) 0 s) :: ws). split.
      { etransitivity; [exact Ef|]. now rewrite <- !app_assoc. }
      assert (La : length a = prodn s) by (unfold a; now rewrite map_length, seq_length).
      constructor.
      + cbn [fst snd vw_loc]. split; [reflexivity|]. split; [lia|]. split.
        * split; cbn [vw_loc vw_off vw_shape]; [rewrite app_length; cbn [length]; lia|]. rewrite app_nth2, Nat.sub_diag by lia. cbn [nth]. lia.
        * exact (vread_new h (Arr s a) new La).
      + clear -F V. rewrite <- app_assoc in F. cbn in F. induction F as [|nd nw l l' (F1 & F2 & F3 & F4) _ IH]; constructor; auto.
        split; auto. rewrite app_length in F2. split; [lia|]. split; auto. rewrite F4. unfold dep_arr, cell. destruct V as [V1 _].
        now rewrite app_nth1 by auto.
  Qed.

  Definition dec_view (v : view) (c : comp) : view := View (vw_loc v) (vw_off v + Z.to_nat (c_off c)) (c_shape c).
  Lemma comp_view_ok n v c : vw_shape v = [n] -> comp_fits n c (Z.to_nat (c_off c)) -> comp_view v c = Ok (dec_view v c).
  Proof.
    intros Es (F1 & F2 & F3). unfold comp_view, cslice. rewrite Es. cbn [prodn fold_right]. rewrite Nat.mul_1_r.
    rewrite csize_small, F1 by auto. rewrite <- Nat2Z.inj_add, !pynorm_nat by lia.
    replace (Z.to_nat (c_off c) + prodn (c_shape c) - Z.to_nat (c_off c)) with (prodn (c_shape c)) by lia. rewrite Nat.eqb_refl. reflexivity.
  Qed.

  Lemma view_variables_ok n dec dep extra (h : memory E) v : valid h v -> vw_shape v = [n] ->
    (forall name c, In (name, c) dec -> comp_fits n c (Z.to_nat (c_off c))) -> NoDup (map fst dec ++ map fst dep) ->
    exists new ws, view_variables e0 (Z.of_nat n) dec dep extra h v
        = Ok (h ++ new, dmerge String.eqb extra (map (fun kc => (fst kc, dec_view v (snd kc))) dec ++ ws)) /\
      Forall2 (fun nd nw => fst nd = fst nw /\ length h <= vw_loc (snd nw) /\ valid (h ++ new) (snd nw) /\ vread e0 (h ++ new) (snd nw) = dep_arr h v (snd nd)) dep ws.
  Proof.
    intros V Es F N. unfold view_variables. rewrite Es, Z.eqb_refl. cbn [passert bind].
    rewrite (mapM_Ok_all _ (fun kc => (fst kc, dec_view v (snd kc)))).
    2: { intros [name c] Hin. cbn [fst snd]. now rewrite (comp_view_ok n) by eauto. }
    cbn [bind]. destruct (deps_ok v dep h (map (fun kc => (fst kc, dec_view v (snd kc))) dec) V) as (new & ws & Ef & F2).
    match goal with |- context [fold_left ?f dep ?x] => destruct (fold_left f dep x) as [h'' vs''] eqn:Ef'; assert (EE : (h'', vs'') = (h ++ new, map (fun kc => (fst kc, dec_view v (snd kc))) dec ++ ws)) by (etransitivity; [symmetry; exact Ef'|exact Ef]) end.
    injection EE as -> ->. clear Ef'. exists new, ws. split; auto. do 3 f_equal. apply (dmake_NoDup _ String.eqb_spec).
    rewrite map_app, map_map. cbn [fst].
    replace (map fst ws) with (map fst dep); auto. clear -F2. induction F2 as [|? ? ? ? [E1 _] _ IH]; cbn; auto. now rewrite E1, IH.
  Qed.
End Vars.

Section Problem.
  Context {T : Type} {NT : Num T}.
  Notation z := (n0 : T).
  Definition prob_deps (p : problem T) (sel : string -> nat -> nat) : sdict depvar :=
    map (fun ns => (fst ns, (s_shape (snd ns), sel (fst ns)))) (p_remapped p).

  Lemma dmerge_map {V W} (f : V -> W) (a b : sdict V) : dmerge String.eqb (map (fun kv => (fst kv, f (snd kv))) a) (map (fun kv => (fst kv, f (snd kv))) b)
    = map (fun kv => (fst kv, f (snd kv))) (dmerge String.eqb a b).
  Proof.
    unfold dmerge. revert a. induction b as [|[k x] b IH]; intros a; [reflexivity|]. cbn [map fold_left fst snd]. rewrite <- IH. f_equal.
    induction a as [|[k' x'] a IHa]; [reflexivity|]. cbn. destruct (String.eqb k k'); cbn; [reflexivity|]. now rewrite <- IHa.
  Qed.

  (** An array that is not a vector of the length of the decision vector is
      refused. *)
  Theorem C83_assert (p : problem T) sel (h : memory T) v extra :
    (forall n, vw_shape v = [n] -> Z.of_nat n <> p_ndec p) ->
    view_variables z (p_ndec p) (p_decision p) (prob_deps p sel) extra h v = Err AssertionError.
  Proof.
    intros H. unfold view_variables. destruct (vw_shape v) as [|n [|m l]]; auto. specialize (H n eq_refl).
    now rewrite (proj2 (Z.eqb_neq _ _) H).
  Qed.

  (** The dictionary returned for a decision vector in memory.  Reading it
      gives the values of OptimModel; the decision variables are the parts of
      the vector itself, and the dependent variables are in new buffers. *)
  Theorem C83_variables (p : problem T) sel (h : memory T) v extra :
    reachable p -> selects p sel -> valid h v -> vw_shape v = [ndec p] ->
    Forall (fun nw => valid h (snd nw)) extra -> p_extra p = map (fun nw => (fst nw, vread z h (snd nw))) extra ->
    exists new vs, view_variables z (p_ndec p) (p_decision p) (prob_deps p sel) extra h v = Ok (h ++ new, vs) /\
      variables p (adat (vread z h v)) = Ok (map (fun nw => (fst nw, vread z (h ++ new) (snd nw))) vs) /\
      (forall name c, In (name, c) (p_decision p) ->
         dget String.eqb vs name = Some (View (vw_loc v) (vw_off v + Z.to_nat (c_off c)) (c_shape c))) /\
      (forall name sp, In (name, sp) (p_remapped p) -> exists w, dget String.eqb vs name = Some w /\ length h <= vw_loc w) /\
      (forall name w, ~ In name (var_names p) -> dget String.eqb extra name = Some w -> dget String.eqb vs name = Some w).
  Proof.
    intros R S V Es Vx Ex. pose proof (reachable_inv p R) as I.
    assert (Hn : (0 <= p_ndec p)%Z) by (apply (adjacent_le _ _ _ (inv_dec p I))).
    assert (En : p_ndec p = Z.of_nat (ndec p)) by (unfold ndec; lia).
    assert (ND : NoDup (map fst (p_decision p) ++ map fst (prob_deps p sel))).
    { unfold prob_deps. rewrite map_map. cbn [fst]. exact (inv_names p I). }
    assert (FD : forall name c, In (name, c) (p_decision p) -> comp_fits (ndec p) c (Z.to_nat (c_off c))).
    { intros name c Hc. exact (inv_dec_fits p name c I Hc). }
    destruct (view_variables_ok z (ndec p) (p_decision p) (prob_deps p sel) extra h v V Es FD ND) as (new & ws & Ev & F).
    exists new. eexists. split; [rewrite En; exact Ev|].
    set (items := map (fun kc => (fst kc, dec_view v (snd kc))) (p_decision p) ++ ws) in *.
    assert (Nw : map fst ws = map fst (prob_deps p sel)).
    { clear -F. induction F as [|? ? ? ? [E1 _] _ IH]; cbn; auto. now rewrite E1, IH. }
    assert (Ni : NoDup (map fst items)).
    { unfold items. rewrite map_app, map_map. cbn [fst]. now rewrite Nw. }
    assert (Fi : map fst items = var_names p).
    { unfold items, var_names. rewrite map_app, map_map, Nw. unfold prob_deps. rewrite map_map. reflexivity. }
    assert (G : forall name, dget String.eqb (dmerge String.eqb extra items) name
      = match dget String.eqb items name with Some w => Some w | None => dget String.eqb extra name end).
    { intros name. rewrite (dget_dmerge _ String.eqb_spec), (dget_rev _ String.eqb_spec) by auto. reflexivity. }
    assert (V1 : vw_loc v < length h) by apply V.
    split; [|split; [|split]].
    - unfold variables. assert (HL : length (adat (vread z h v)) = ndec p).
      { cbn. rewrite map_length, seq_length, Es. cbn. lia. }
      rewrite HL, <- En, Z.eqb_refl. cbn [passert bind].
      rewrite (mapM_Ok_all _ (fun kv => (fst kv, Arr (s_shape (snd kv)) (map (fun i => nth (sel (fst kv) i) (adat (vread z h v)) z) (seq 0 (prodn (s_shape (snd kv)))))))).
      2: { intros [name sp] Hin. cbn [fst snd]. rewrite (law_unpack _ _ _ (S name sp Hin)) by auto. reflexivity. }
      cbn [bind]. f_equal. rewrite <- dmerge_map. f_equal.
      + rewrite Ex. apply map_ext_in. intros [name w] Hin. cbn [fst snd]. f_equal. symmetry. apply vread_old.
        rewrite Forall_forall in Vx. exact (Vx _ Hin).
      + assert (RD : forall i, i < ndec p -> nth i (adat (vread z h v)) z = cell z h (vw_loc v) (vw_off v + i)).
        { intros i Hi. cbn [vread adat]. rewrite Es. cbn [prodn fold_right]. rewrite nth_map_seq by lia. reflexivity. }
        unfold all_specs. rewrite map_app, map_map. cbn [fst snd dec_spec s_shape].
        rewrite (dmake_NoDup _ String.eqb_spec).
        2: { rewrite map_app, !map_map. cbn [fst]. exact (inv_names p I). }
        unfold items. rewrite map_app, map_map. cbn [fst snd]. f_equal.
        * apply map_ext_in. intros [name c] Hin. cbn [fst snd]. f_equal.
          assert (HS : In (name, dec_spec c) (all_specs p)).
          { unfold all_specs. apply in_or_app. left. apply in_map_iff. exists (name, c). auto. }
          rewrite vread_old.
          2: { destruct (FD name c Hin) as (F1 & F2 & _). split; cbn [vw_loc vw_off vw_shape dec_view]; auto. destruct V as [_ V2]. rewrite Es in V2. cbn [prodn fold_right] in V2. lia. }
          unfold vread. cbn [dec_view vw_shape vw_loc vw_off]. f_equal. apply map_ext_in. intros i Hi. apply in_seq in Hi.
          assert (Hs : i < prodn (s_shape (dec_spec (T := T) c))) by (cbn [dec_spec s_shape]; lia).
          pose proof (law_sel _ _ _ (S _ _ HS) i Hs) as Hlt. rewrite RD by auto. f_equal.
          (* the selection of a decision variable is its offset *)
          pose proof (law_convert _ _ _ (S _ _ HS) [Z.of_nat i]) as Hc. cbn [dec_spec s_convert c_convert s_shape map] in Hc.
          rewrite Nat2Z.id in Hc. specialize (Hc ltac:(repeat constructor; lia)). injection Hc as Hc.
          destruct (FD name c Hin) as (F1 & _). lia.
        * clear -F S RD V1. assert (Sub : forall name sp, In (name, sp) (p_remapped p) -> lawful (ndec p) sp (sel name)).
          { intros name sp Hin. apply S. unfold all_specs. apply in_or_app. auto. }
          revert Sub. unfold prob_deps in F. remember (p_remapped p) as l eqn:El. clear El. revert ws F.
          induction l as [|[name sp] l IH]; intros ws F Sub; inversion F as [|? [nm w] ? ? (F1 & F2 & F3 & F4) F']; subst; [reflexivity|].
          cbn [map fst snd] in *. subst nm. f_equal; [|apply IH; auto; intros; apply Sub; cbn; auto].
          f_equal. rewrite F4. unfold dep_arr. cbn [fst snd]. f_equal. apply map_ext_in. intros i Hi. apply in_seq in Hi.
          apply RD. apply (law_sel _ _ _ (Sub name sp (or_introl eq_refl))). lia.
    - intros name c Hin. rewrite G. rewrite (In_dget _ String.eqb_spec items name (dec_view v c)); auto.
      unfold items. apply in_or_app. left. apply in_map_iff. exists (name, c). auto.
    - intros name sp Hin. rewrite G.
      assert (exists w, In (name, w) ws /\ length h <= vw_loc w) as (w & Hw & Hl).
      { clear -F Hin. unfold prob_deps in F. remember (p_remapped p) as l eqn:El. clear El. revert ws F Hin.
        induction l as [|[nm s] l IH]; intros ws F Hin; inversion F as [|? [nm' w] ? ? (F1 & F2 & _) F']; subst; [contradiction|].
        cbn in F1, F2, Hin. subst nm'. destruct Hin as [[= -> ->]|Hin]; [exists w; cbn; auto|].
        destruct (IH _ F' Hin) as (w' & H1 & H2). exists w'. cbn. auto. }
      exists w. split; auto. rewrite (In_dget _ String.eqb_spec items name w); auto. unfold items. apply in_or_app. auto.
    - intros name w Hin Hw. rewrite G. replace (dget String.eqb items name) with (@None view); auto.
      symmetry. apply (dget_None _ String.eqb_spec). now rewrite Fi.
  Qed.

  (** The whole of [vars[name][sl] = value], for the dictionary that
      [variables] returned for the vector [v].  Assigning to a decision
      variable changes the vector where the variable says, and no other
      variable; assigning to a dependent variable changes neither the vector
      nor anything else that existed; assigning to a constant changes the
      array of the problem. *)
  Theorem C83_assign (p : problem T) sel (h : memory T) v extra new vs name sl value h' :
    reachable p -> selects p sel -> valid h v -> vw_shape v = [ndec p] ->
    Forall (fun nw => valid h (snd nw) /\ vw_loc (snd nw) <> vw_loc v) extra -> p_extra p = map (fun nw => (fst nw, vread z h (snd nw))) extra ->
    view_variables z (p_ndec p) (p_decision p) (prob_deps p sel) extra h v = Ok (h ++ new, vs) ->
    var_set z (h ++ new) vs name sl value = Ok h' ->
    (forall c, In (name, c) (p_decision p) ->
       (forall ix k, picks (c_shape c) sl ix k ->
          nth (Z.to_nat (c_off c) + ravel (c_shape c) ix) (adat (vread z h' v)) z = nth (ravel (ash value) (bcast_index (ash value) k)) (adat value) z) /\
       (forall i, (forall ix k, picks (c_shape c) sl ix k -> i <> Z.to_nat (c_off c) + ravel (c_shape c) ix) ->
          nth i (adat (vread z h' v)) z = nth i (adat (vread z h v)) z) /\
       (forall l, l <> vw_loc v -> nth l h' [] = nth l (h ++ new) [])) /\
    (forall sp, In (name, sp) (p_remapped p) -> forall l, l < length h -> nth l h' [] = nth l h []) /\
    (forall w, ~ In name (var_names p) -> dget String.eqb extra name = Some w ->
       vread z h' v = vread z h v /\ forall ix k, picks (vw_shape w) sl ix k ->
         nth (ravel (vw_shape w) ix) (adat (vread z h' w)) z = nth (ravel (ash value) (bcast_index (ash value) k)) (adat value) z).
  Proof.
    intros R S V Es Vx Ex Ev Hs.
    assert (Vx' : Forall (fun nw => valid h (snd nw)) extra) by (eapply Forall_impl; [|exact Vx]; intros a [H _]; exact H).
    destruct (C83_variables p sel h v extra R S V Es Vx' Ex) as (new' & vs' & Ev' & _ & HD & HP & HX).
    rewrite Ev in Ev'. injection Ev' as E1 <-. apply app_inv_head in E1 as <-.
    pose proof (reachable_inv p R) as I.
    assert (VA : forall w, valid h w -> valid (h ++ new) w).
    { intros w [W1 W2]. split; [rewrite app_length; lia|]. now rewrite app_nth1. }
    unfold var_set in Hs. destruct (dlookup String.eqb vs name) as [w|] eqn:Ew; [|discriminate]. cbn [bind] in Hs.
    unfold dlookup in Ew. destruct (dget String.eqb vs name) as [w'|] eqn:Eg; [|discriminate]. injection Ew as ->.
    assert (OB : forall l, l <> vw_loc w -> nth l h' [] = nth l (h ++ new) []).
    { clear -Hs. unfold vset in Hs. destruct (select (vw_shape w) sl) as [r|]; [|discriminate]. cbn [bind] in Hs.
      destruct (broadcast_to z value (snd r)) as [u|]; [|discriminate]. cbn [bind] in Hs. injection Hs as <-.
      intros l Hl. destruct (Nat.ltb_spec (vw_loc w) (length (h ++ new))) as [H|H].
      - rewrite nth_upd_any by auto. destruct (Nat.eqb_spec l (vw_loc w)); congruence.
      - replace (upd (h ++ new) (vw_loc w) _) with (h ++ new); auto. clear -H. revert H. generalize (h ++ new) (vw_loc w).
        intros m. induction m as [|x m IH]; intros [|n] H; cbn in *; auto; try lia. f_equal. apply IH. lia. }
    assert (SameV : nth (vw_loc v) h' [] = nth (vw_loc v) h [] -> vread z h' v = vread z h v).
    { intros E. unfold vread, cell. now rewrite E. }
    split; [|split].
    - intros c Hc. rewrite (HD name c Hc) in Eg. injection Eg as <-.
      destruct (inv_dec_fits p name c I Hc) as (F1 & F2 & _). fold (ndec p) in F2. destruct V as [V1 V2]. rewrite Es in V2. cbn [prodn fold_right] in V2.
      assert (Vw : valid (h ++ new) (View (vw_loc v) (vw_off v + Z.to_nat (c_off c)) (c_shape c))).
      { split; cbn [vw_loc vw_off vw_shape]; [rewrite app_length; lia|]. rewrite app_nth1 by auto. lia. }
      destruct (C83_set _ z _ _ _ sl value Vw Hs) as (_ & _ & H1 & H2). cbn [vw_loc vw_off vw_shape] in H1, H2.
      assert (RD : forall hh i, i < ndec p -> nth i (adat (vread z hh v)) z = cell z hh (vw_loc v) (vw_off v + i)).
      { intros hh i Hi. cbn [vread adat]. rewrite Es. cbn [prodn fold_right]. rewrite nth_map_seq by lia. reflexivity. }
      split; [|split].
      + intros ix k P. assert (Hi : ravel (c_shape c) ix < prodn (c_shape c)).
        { unfold vset in Hs. destruct (select (vw_shape _) sl) as [[ixs r]|] eqn:E; [|discriminate].
          destruct (select_ok _ _ _ _ E) as [_ _ _ A _]. apply index_in_lt. exact (proj1 (A ix k P)). }
        rewrite RD by lia. rewrite Nat.add_assoc. now apply H1.
      + intros i Hi. destruct (Nat.ltb_spec i (ndec p)) as [Hlt|Hge].
        * rewrite !RD by auto. rewrite H2.
          -- unfold cell. now rewrite app_nth1 by auto.
          -- intros ix k P [= Hx]. apply (Hi ix k P). lia.
        * rewrite !nth_overflow; auto; cbn; rewrite map_length, seq_length, Es; cbn; lia.
      + exact OB.
    - intros sp Hin l Hl. destruct (HP name sp Hin) as (w0 & E0 & Hw). rewrite E0 in Eg. injection Eg as ->.
      rewrite OB by lia. now apply app_nth1.
    - intros w0 Hn Hw0. rewrite (HX name w0 Hn Hw0) in Eg. injection Eg as ->.
      assert (Hin : In (name, w) extra) by (now apply (dget_In _ String.eqb_spec)).
      rewrite Forall_forall in Vx. destruct (Vx _ Hin) as [Vw Hne]. cbn [snd] in Vw, Hne.
      split; [apply SameV; rewrite OB by auto; apply app_nth1; apply V|].
      destruct (C83_set _ z _ _ _ sl value (VA _ Vw) Hs) as (_ & _ & H1 & _).
      intros ix k P. assert (Hi : ravel (vw_shape w) ix < prodn (vw_shape w)).
      { unfold vset in Hs. destruct (select (vw_shape _) sl) as [[ixs r]|] eqn:E; [|discriminate].
        destruct (select_ok _ _ _ _ E) as [_ _ _ A _]. apply index_in_lt. exact (proj1 (A ix k P)). }
      cbn [vread adat]. rewrite nth_map_seq by auto. now apply H1.
  Qed.
End Problem.

(** *** A concrete problem

    Optimal control with three points: the decision vector holds x (3, 1),
    u (3, 1) and p (1,); the array of piece lengths is a constant. *)
Section Concrete.
  Local Open Scope string_scope.
  Let p := oc_prob (ex_model false) ex_t.
  Let sl := oc_sel (ex_model false) ex_t.
  Let h : memory Z := [[1; 2; 3; 4; 5; 6; 7]; [2; 3]]%Z.
  Let v := View 0 0 [7].
  Let extra := [("piece_len", View 1 0 [2])].
  Let vars := view_variables 0%Z (p_ndec p) (p_decision p) (prob_deps p sl) extra h v.
  Example C83_nonvacuous :
    reachable p /\ selects p sl /\ valid h v /\ vw_shape v = [ndec p] /\
    Forall (fun nw => valid h (snd nw) /\ vw_loc (snd nw) <> vw_loc v) extra /\ p_extra p = map (fun nw => (fst nw, vread 0%Z h (snd nw))) extra /\
    (* x[-1] = 9, then u[1:, 0] = [8, 7], then xe[0] = 5, then piece_len[:] = 6 *)
    (let* hv := vars in
     let* h1 := var_set 0%Z (fst hv) (snd hv) "x" [At (-1)] (scalar 9%Z) in
     let* h2 := var_set 0%Z h1 (snd hv) "u" [Sl (Some 1%Z) None; At 0] (vector [8; 7]%Z) in
     let* h3 := var_set 0%Z h2 (snd hv) "xe" [At 0] (scalar 5%Z) in
     let* h4 := var_set 0%Z h3 (snd hv) "piece_len" [Sl None None] (scalar 6%Z) in
     Ok (firstn 2 h4)) = Ok [[1; 2; 9; 4; 8; 7; 7]; [6; 6]]%Z /\
    (let* hv := vars in var_set 0%Z (fst hv) (snd hv) "x" [At 3] (scalar 9%Z)) = Err IndexError /\
    (let* hv := vars in var_set 0%Z (fst hv) (snd hv) "x" [At 0; At 0; At 0] (scalar 9%Z)) = Err IndexError /\
    (let* hv := vars in var_set 0%Z (fst hv) (snd hv) "x" [Sl None (Some (-1)%Z); At 0] (vector [1; 2; 3]%Z)) = Err ValueError.
  Proof.
    pose proof (col_nonvacuous false) as (G & _). pose proof C30_nonvacuous as (S & _).
    split; [exact (oc_reachable _ _ S)|]. split; [exact (oc_selects _ _ G S)|].
    split; [split; cbn; lia|]. split; [reflexivity|].
    split; [repeat constructor; cbn; try lia; discriminate|]. split; [reflexivity|].
    repeat split; vm_compute; reflexivity.
  Qed.
End Concrete.
