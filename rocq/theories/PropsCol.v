(** Properties C28-C30: the variables of the collocated problems. *)
From Coq Require Import String List ZArith Bool Arith Lia Sorted.
From Verif Require Import Py NdArray OptimModel ColModel DictLemmas Builder BuilderLemmas NdLemmas OptimSpec OptimLaws
  LawFacts LayoutLemmas ProblemSpec ProblemLemmas ProblemFacts IndexLemmas GenModel GenSpec GenLemmas ColLemmas ColBuild ColLaws ColCalls.
Import ListNotations.
Local Open Scope string_scope.
Local Open Scope list_scope.
Local Open Scope nat_scope.

(** Element (r, c) of an array with rows of [w] elements. *)
Definition rowat {T} {NT : Num T} (a : arr T) (w r c : nat) : T := nth (r * w + c) (adat a) n0.

Lemma filter_sorted (P : nat -> bool) l : StronglySorted lt l -> StronglySorted lt (filter P l).
Proof.
  induction 1 as [|a l H IH F]; cbn; [constructor|]. destruct (P a); auto. constructor; auto.
  apply Forall_forall. intros x Hx. apply filter_In in Hx as [Hx _]. rewrite Forall_forall in F. auto.
Qed.
Lemma seq_sorted s k : StronglySorted lt (seq s k).
Proof.
  revert s. induction k as [|k IH]; intros s; cbn; constructor; auto. apply Forall_forall. intros x Hx. apply in_seq in Hx. lia.
Qed.

Lemma nth_concat {X} (d : X) w (l : list (list X)) k j : (forall r, In r l -> length r = w) -> j < w -> k < length l ->
  nth (k * w + j) (concat l) d = nth j (nth k l []) d.
Proof.
  revert k. induction l as [|r l IH]; intros k H Hj Hk; [cbn in Hk; lia|]. cbn [concat].
  pose proof (H r (or_introl eq_refl)) as Hr. destruct k as [|k].
  - cbn. rewrite app_nth1; auto. lia.
  - rewrite app_nth2 by (rewrite Hr; nia). rewrite Hr. replace (S k * w + j - w) with (k * w + j) by nia.
    cbn [nth]. apply IH; auto. { intros; apply H; simpl; auto. } cbn in Hk. lia.
Qed.

Lemma last_nth {X} (l : list X) d e : l <> [] -> last l d = nth (length l - 1) l e.
Proof.
  induction l as [|a [|b l] IH]; intros H; [congruence|reflexivity|].
  change (last (b :: l) d = nth (length (a :: b :: l) - 1) (a :: b :: l) e). rewrite IH by discriminate.
  cbn [length]. now replace (S (S (length l)) - 1) with (S (S (length l) - 1)) by lia.
Qed.

Section Zero.
  Context {T : Type} {NT : Num T}.
  Add Ring Tr : (num_rt (T := T)).
  Lemma zero_node (a h : T) : nadd a (nmul h n0) = a.
  Proof. ring. Qed.
End Zero.

Section Col.
  Context {T : Type} {NT : Num T} {OT : NumOrd T}.
  Variable m : colmodel T.
  Variable t : list T.
  Notation n := (col_n (m_col m)).
  Notation K := (npieces t).
  Notation N := (npoints m t).

  Lemma diff_nth (l : list T) k : k + 1 < length l -> nth k (diff l) n0 = nsub (nth (k + 1) l n0) (nth k l n0).
  Proof.
    revert k. induction l as [|a [|b l] IH]; intros k Hk; [cbn in Hk; lia..|]. destruct k as [|k]; [reflexivity|].
    cbn [diff]. change (nth k (diff (b :: l)) n0 = nsub (nth (k + 1) (b :: l) n0) (nth k (b :: l) n0)). apply IH. cbn in *. lia.
  Qed.

  Lemma removelast_nth {X} (l : list X) d k : k + 1 < length l -> nth k (removelast l) d = nth k l d.
  Proof.
    revert k. induction l as [|a [|b l] IH]; intros k Hk; [cbn in Hk; lia..|]. destruct k as [|k]; [reflexivity|].
    change (nth k (removelast (b :: l)) d = nth k (b :: l) d). apply IH. cbn in *. lia.
  Qed.

  (** Times of the collocation points. *)
  Lemma grid_nth tc : good_grid m t -> grid (m_col m) t = Ok tc ->
    (forall k j, k < K -> j < n - 1 ->
       nth (k * (n - 1) + j) tc n0 = nadd (nth k t n0) (nmul (nth k (diff t) n0) (nth j (col_points (m_col m)) n0))) /\
    nth (K * (n - 1)) tc n0 = nth K t n0.
  Proof.
    intros [H1 H2 H3 _]. unfold grid. destruct t as [|t0 t'] eqn:Et; [cbn in H3; lia|]. rewrite <- Et in *.
    set (rows := map _ (combine (removelast t) (diff t))). intros [= <-].
    assert (Hr : forall r, In r rows -> length r = n - 1).
    { intros r Hr. apply in_map_iff in Hr as (tl & <- & _). now rewrite map_length, removelast_length, H2. }
    assert (HK : length rows = K).
    { unfold rows. rewrite map_length, combine_length, removelast_length, diff_length. unfold npieces. lia. }
    split.
    - intros k j Hk Hj. rewrite app_nth1 by (rewrite (concat_const_length (n - 1)), HK by auto; nia).
      rewrite nth_concat with (w := n - 1) by (auto; lia). unfold rows.
      rewrite nth_map_d with (a := (n0, n0)) by (unfold rows in HK; rewrite map_length in HK; lia).
      rewrite nth_map_d with (a := n0) by (rewrite removelast_length, H2; lia).
      rewrite combine_nth by (rewrite removelast_length, diff_length; auto). cbn [fst snd].
      rewrite !removelast_nth; auto; unfold npieces in *; lia.
    - rewrite app_nth2 by (rewrite (concat_const_length (n - 1)), HK by auto; lia).
      rewrite (concat_const_length (n - 1)), HK, Nat.sub_diag by auto. cbn [nth]. unfold npieces.
      apply last_nth. rewrite Et. discriminate.
  Qed.

  Section Est.
  Variable y : list (yrow T).
  Variable uv : arr T.
  Hypothesis G : good_grid m t.
  Hypothesis D : good_data m t y uv.
  Notation KM := (kmeas (m_col m) y).

  (** A problem with the variables and constants of an oem (or jme) problem. *)
  Record estimation (jme : bool) (q : problem T) : Prop := {
    es_like : oem_like m t y uv jme q;
    es_reach : reachable q;
    es_y : dget String.eqb (p_extra q) "y" = Some (y_arr m y);
    es_um : dget String.eqb (p_extra q) "um" = Some (um_arr m y uv);
    es_u : dget String.eqb (p_extra q) "u" = Some uv;
    es_up : dget String.eqb (p_extra q) "up" = Some (up_arr m t uv);
    es_len : dget String.eqb (p_extra q) "piece_len" = Some (piece_len t)
  }.

  Lemma oem_estimation jme : oem_small m t jme -> estimation jme (oem_prob m t y uv jme).
  Proof. intros S. constructor; try reflexivity; [apply oem_is_like|now apply oem_reachable]. Qed.
  Lemma jme_estimation : oem_small m t true -> estimation true (jme_prob m t y uv).
  Proof. intros S. constructor; try reflexivity; [apply jme_is_like|now apply jme_reachable]. Qed.

  Lemma um_row r c : r < length KM -> c < m_nu m -> rowat (um_arr m y uv) (m_nu m) r c = rowat uv (m_nu m) (nth r KM O) c.
  Proof.
    intros Hr Hc. assert (L : lawful (prodn [N; m_nu m]) (xm_spec (id_spec [N; m_nu m]) KM) (fun i => xm_ind KM (m_nu m) i)).
    { apply (xm_lawful _ _ _ N (m_nu m) KM (id_lawful _) eq_refl).
      - intros k Hk. apply (kmeas_lt m t y k G (gd_y _ _ _ _ D) Hk).
      - exact (kmeas_NoDup m t y G). }
    pose proof (law_unpack _ _ _ L (adat uv)) as U. unfold awf in *.
    specialize (U ltac:(rewrite <- (gd_u _ _ _ _ D); exact (gd_uwf _ _ _ _ D))).
    cbn [xm_spec s_unpack s_shape] in U. unfold xm_unpack in U. cbn [id_spec s_unpack bind ash adat nrows hd tl] in U.
    rewrite (proj2 (forallb_forall (fun k => k <? N) KM)) in U.
    2: { intros k Hk. apply Nat.ltb_lt. apply (kmeas_lt m t y k G (gd_y _ _ _ _ D) Hk). }
    apply (f_equal (fun r => match r with Ok a => adat a | Err _ => [] end)) in U. cbn [adat] in U. unfold rowat, um_arr. cbn [adat]. rewrite (gd_u _ _ _ _ D), U.
    cbn [xm_shape id_spec s_shape nth]. rewrite nth_map_d with (a := O) by (rewrite seq_length; cbn; nia).
    rewrite seq_nth by (cbn; nia). cbn [plus]. now rewrite xm_ind_radix.
  Qed.

  Lemma up_row k j c : k < K -> j < n -> c < m_nu m ->
    nth ((k * n + j) * m_nu m + c) (adat (up_arr m t uv)) n0 = rowat uv (m_nu m) (k * (n - 1) + j) c.
  Proof.
    intros Hk Hj Hc. unfold up_arr, rowat. cbn [adat].
    assert ((k * n + j) * m_nu m + c < prodn [K; n; m_nu m]).
    { cbn. rewrite Nat.mul_1_r. assert (k * n + j < K * n) by nia. nia. }
    rewrite nth_map_d with (a := O) by now rewrite seq_length. rewrite seq_nth by auto. cbn [plus]. f_equal.
    replace ((k * n + j) * m_nu m + c) with (k * (n * prodn [m_nu m]) + (j * prodn [m_nu m] + c)) by (cbn; nia).
    rewrite piece_ind_radix by (cbn; lia). cbn. now rewrite Nat.mul_1_r.
  Qed.

  Lemma y_row r c : r < length KM -> c < m_ny m ->
    rowat (y_arr m y) (m_ny m) r c = fst (nth c (nth (nth r (kmeas_coarse y) O) y []) (n0, true)).
  Proof.
    intros Hr Hc. unfold rowat, y_arr. cbn [adat]. unfold kmeas in Hr. rewrite map_length in Hr.
    assert (HY : forall k, In k (kmeas_coarse y) -> length (nth k y []) = m_ny m).
    { intros k Hk. apply kmeas_coarse_In in Hk as [Hk _]. pose proof (gd_ny _ _ _ _ D) as F. rewrite Forall_forall in F.
      apply F, nth_In, Hk. }
    rewrite nth_concat with (w := m_ny m).
    - rewrite nth_map_d with (a := O) by auto. rewrite nth_map_d with (a := (n0, true)); auto.
      rewrite HY; auto. now apply nth_In.
    - intros x Hx. apply in_map_iff in Hx as (k & <- & Hk). rewrite map_length. auto.
    - auto.
    - now rewrite map_length.
  Qed.

  Lemma est_var jme q dvec : oem_small m t jme -> estimation jme q -> length dvec = ndec q ->
    exists vars, variables q dvec = Ok vars /\
      (forall name sp, In (name, sp) (oem_specs m t y jme) ->
         dlookup String.eqb vars name = Ok (var_at (oem_sel m t y jme) dvec name sp)) /\
      (forall name, ~ In name (map fst (oem_specs m t y jme)) -> dlookup String.eqb vars name = dlookup String.eqb (p_extra q) name).
  Proof.
    intros S E HL. pose proof (oem_all_specs m t y uv jme q (es_like _ _ E) S) as EA.
    destruct (variables_ok q (oem_sel m t y jme) dvec (reachable_inv q (es_reach _ _ E)) (oem_selects m t G y uv D jme q (es_like _ _ E) S) HL)
      as (vars & E1 & E2 & E3).
    exists vars. split; [auto|]. rewrite EA in E2. split; [auto|]. intros name Hn. apply E3.
    rewrite <- fst_all_specs, EA. exact Hn.
  Qed.

  Lemma specs_names jme : forall v, In v ["y"; "um"; "u"; "up"; "piece_len"; "penweight"; "G"] -> ~ In v (map fst (oem_specs m t y jme)).
  Proof. intros v Hv. unfold oem_specs. destruct jme; cbn [map fst app]; cbn in Hv |- *; intuition (subst; discriminate). Qed.
  Lemma in_specs jme : In ("x", dec_spec (Comp [N; m_nx m] 0)) (oem_specs m t y jme) /\
    In ("xp", piece_spec (dec_spec (Comp [N; m_nx m] 0)) K n) (oem_specs m t y jme) /\
    In ("xm", xm_spec (dec_spec (Comp [N; m_nx m] 0)) KM) (oem_specs m t y jme).
  Proof. unfold oem_specs. destruct jme; cbn; intuition auto. Qed.
  End Est.

  Lemma var_elem sel dvec name (sp : spec T) i : i < prodn (s_shape sp) ->
    nth i (adat (var_at sel dvec name sp)) n0 = nth (sel name i) dvec n0.
  Proof. intros Hi. cbn. rewrite nth_map_d with (a := O) by now rewrite seq_length. now rewrite seq_nth. Qed.
End Col.

(** ** C28.  The measurements kept are those with an unmasked output, in
    order ... *)
Theorem C28_kept_measurements (T : Type) (y : list (yrow T)) :
  StronglySorted lt (kmeas_coarse y) /\
  forall k, In k (kmeas_coarse y) <-> k < length y /\ exists v, In (v, false) (nth k y []).
Proof. split; [apply filter_sorted, seq_sorted|apply kmeas_coarse_In]. Qed.
Print Assumptions C28_kept_measurements.

(** ... and row r of xm, um and y are the state, the input and the measured
    output at the time of the r-th measurement kept. *)
Definition measurements_match {T} {NT : Num T} (m : colmodel T) (t : list T) (y : list (yrow T)) (uv : arr T) (q : problem T) : Prop :=
  let C := kmeas_coarse y in
  exists tc, grid (m_col m) t = Ok tc /\
  forall dvec, length dvec = ndec q -> exists vars x xm um ym,
    variables q dvec = Ok vars /\ dlookup String.eqb vars "x" = Ok x /\ dlookup String.eqb vars "xm" = Ok xm /\
    dlookup String.eqb vars "um" = Ok um /\ dlookup String.eqb vars "y" = Ok ym /\
    ash x = [length tc; m_nx m] /\ ash xm = [length C; m_nx m] /\ ash um = [length C; m_nu m] /\ ash ym = [length C; m_ny m] /\
    forall r, r < length C -> exists j, j < length tc /\
      nth j tc n0 = nth (nth r C O) t n0 /\
      (forall c, c < m_nx m -> rowat xm (m_nx m) r c = rowat x (m_nx m) j c) /\
      (forall c, c < m_nu m -> rowat um (m_nu m) r c = rowat uv (m_nu m) j c) /\
      (forall c, c < m_ny m -> rowat ym (m_ny m) r c = fst (nth c (nth (nth r C O) y []) (n0, true))).

Lemma estimation_matches {T} {NT : Num T} {OT : NumOrd T} (m : colmodel T) t y uv jme q :
  good_grid m t -> nth 0 (col_points (m_col m)) n0 = n0 -> good_data m t y uv -> oem_small m t jme -> estimation m t y uv jme q ->
  measurements_match m t y uv q.
Proof.
  intros G P0 D S E. destruct (grid_ok m t G) as (tc & Eg & EN). exists tc. split; [auto|]. intros dvec HL.
  destruct (est_var m t y uv G D jme q dvec S E HL) as (vars & E1 & E2 & E3).
  destruct (in_specs m t y jme) as (I1 & _ & I3). pose proof (specs_names m t y jme) as SN.
  exists vars, (var_at (oem_sel m t y jme) dvec "x" (dec_spec (Comp [npoints m t; m_nx m] 0))),
    (var_at (oem_sel m t y jme) dvec "xm" (xm_spec (dec_spec (Comp [npoints m t; m_nx m] 0)) (kmeas (m_col m) y))),
    (um_arr m y uv), (y_arr m y).
  assert (EC : length (kmeas (m_col m) y) = length (kmeas_coarse y)) by (unfold kmeas; now rewrite map_length).
  split; [auto|]. split; [now apply E2|]. split; [now apply E2|].
  split. { rewrite E3 by (apply SN; simpl; auto). unfold dlookup. now rewrite (es_um _ _ _ _ _ _ E). }
  split. { rewrite E3 by (apply SN; simpl; auto). unfold dlookup. now rewrite (es_y _ _ _ _ _ _ E). }
  split; [now rewrite EN|]. rewrite <- EC. do 3 (split; [reflexivity|]).
  intros r Hr. rewrite EC in Hr. set (k := nth r (kmeas_coarse y) O). exists (k * (col_n (m_col m) - 1)).
  assert (Ek : nth r (kmeas (m_col m) y) O = k * (col_n (m_col m) - 1)).
  { unfold kmeas. rewrite nth_map_d with (a := O) by auto. reflexivity. }
  assert (Hk : k < length t).
  { assert (In k (kmeas_coarse y)) by now apply nth_In. apply kmeas_coarse_In in H as [H _]. now rewrite (gd_y _ _ _ _ D) in H. }
  assert (Hj : k * (col_n (m_col m) - 1) < npoints m t). { unfold npoints, npieces. nia. }
  split; [now rewrite EN|]. split; [|split; [|split]].
  - destruct (grid_nth m t tc G Eg) as [H1 H2]. destruct (Nat.eq_dec k (npieces t)) as [->|Hne]; [exact H2|].
    pose proof (gg_n _ _ G). rewrite <- (Nat.add_0_r (k * _)), H1 by (unfold npieces in *; lia). rewrite P0.
    apply zero_node.
  - intros c Hc. unfold rowat. rewrite !var_elem.
    + cbn [oem_sel String.eqb Ascii.eqb Bool.eqb]. rewrite xm_ind_radix by auto. now rewrite Ek.
    + cbn. nia.
    + change (r * m_nx m + c < prodn [length (kmeas (m_col m) y); m_nx m]). rewrite EC. cbn. nia.
  - intros c Hc. rewrite (um_row m t y uv) by (auto; lia). now rewrite Ek.
  - intros c Hc. apply (y_row m t y uv); auto. lia.
Qed.

Theorem C28_oem (T : Type) (NT : Num T) (OT : NumOrd T) (m : colmodel T) t y u uv jme :
  good_grid m t -> nth 0 (col_points (m_col m)) n0 = n0 -> good_data m t y uv -> input_values m t u = uv -> oem_small m t jme ->
  exists q, oem_problem m jme t y u = Ok q /\ measurements_match m t y uv q.
Proof.
  intros G P0 D EU S. exists (oem_prob m t y uv jme). split; [now apply oem_problem_ok|].
  eapply estimation_matches; eauto. now apply oem_estimation.
Qed.
Print Assumptions C28_oem.

Theorem C28_jme (T : Type) (NT : Num T) (OT : NumOrd T) (m : colmodel T) t y u uv :
  good_grid m t -> nth 0 (col_points (m_col m)) n0 = n0 -> good_data m t y uv -> input_values m t u = uv -> oem_small m t true ->
  exists q, jme_problem m t y u = Ok q /\ measurements_match m t y uv q.
Proof.
  intros G P0 D EU S. exists (jme_prob m t y uv). split; [now apply jme_problem_ok|].
  eapply estimation_matches; eauto. now apply jme_estimation.
Qed.
Print Assumptions C28_jme.

(** ** C29.  The piece-wise inputs and states at (k, j) are those of the same
    collocation point, whose time lies at node j of piece k. *)
Definition pieces_match {T} {NT : Num T} (m : colmodel T) (t : list T) (uv : arr T) (q : problem T) : Prop :=
  let n := col_n (m_col m) in
  exists tc, grid (m_col m) t = Ok tc /\
  forall dvec, length dvec = ndec q -> exists vars x xp up,
    variables q dvec = Ok vars /\ dlookup String.eqb vars "x" = Ok x /\ dlookup String.eqb vars "xp" = Ok xp /\
    dlookup String.eqb vars "up" = Ok up /\
    ash xp = [length t - 1; n; m_nx m] /\ ash up = [length t - 1; n; m_nu m] /\
    forall k j, k < length t - 1 -> j < n -> exists i, i < length tc /\
      (j < n - 1 -> nth i tc n0
         = nadd (nth k t n0) (nmul (nsub (nth (k + 1) t n0) (nth k t n0)) (nth j (col_points (m_col m)) n0))) /\
      (j = n - 1 -> nth 0 (col_points (m_col m)) n0 = n0 -> nth i tc n0 = nth (k + 1) t n0) /\
      (forall c, c < m_nx m -> nth ((k * n + j) * m_nx m + c) (adat xp) n0 = rowat x (m_nx m) i c) /\
      (forall c, c < m_nu m -> nth ((k * n + j) * m_nu m + c) (adat up) n0 = rowat uv (m_nu m) i c).

Lemma estimation_pieces {T} {NT : Num T} {OT : NumOrd T} (m : colmodel T) t y uv jme q :
  good_grid m t -> good_data m t y uv -> oem_small m t jme -> estimation m t y uv jme q -> pieces_match m t uv q.
Proof.
  intros G D S E. destruct (grid_ok m t G) as (tc & Eg & EN). exists tc. split; [auto|]. intros dvec HL.
  destruct (est_var m t y uv G D jme q dvec S E HL) as (vars & E1 & E2 & E3).
  destruct (in_specs m t y jme) as (I1 & I2 & _). pose proof (specs_names m t y jme) as SN.
  exists vars, (var_at (oem_sel m t y jme) dvec "x" (dec_spec (Comp [npoints m t; m_nx m] 0))),
    (var_at (oem_sel m t y jme) dvec "xp" (piece_spec (dec_spec (Comp [npoints m t; m_nx m] 0)) (npieces t) (col_n (m_col m)))),
    (up_arr m t uv).
  split; [auto|]. split; [now apply E2|]. split; [now apply E2|].
  split. { rewrite E3 by (apply SN; simpl; auto). unfold dlookup. now rewrite (es_up _ _ _ _ _ _ E). }
  split; [reflexivity|]. split; [reflexivity|]. intros k j Hk Hj. fold (npieces t) in Hk. set (n := col_n (m_col m)) in *.
  pose proof (gg_n _ _ G) as Hn. fold n in Hn. destruct (grid_nth m t tc G Eg) as [H1 H2]. fold n in H1, H2.
  assert (Hi : k * (n - 1) + j < npoints m t) by (unfold npoints; fold n; nia).
  exists (k * (n - 1) + j). split; [now rewrite EN|]. split; [|split; [|split]].
  - intros Hj'. rewrite H1 by auto. do 2 f_equal. apply diff_nth. unfold npieces in Hk. lia.
  - intros -> P0. replace (k * (n - 1) + (n - 1)) with ((k + 1) * (n - 1)) by lia.
    destruct (Nat.eq_dec (k + 1) (npieces t)) as [->|Hne]; [exact H2|].
    rewrite <- (Nat.add_0_r ((k + 1) * (n - 1))), H1 by lia. rewrite P0. apply zero_node.
  - intros c Hc. unfold rowat.
    assert (k * n + j < npieces t * n) by nia. assert ((k * n + j) * m_nx m + c < npieces t * (n * m_nx m)) by nia.
    rewrite !var_elem.
    + cbn [oem_sel String.eqb Ascii.eqb Bool.eqb]. f_equal. fold n.
      replace ((k * n + j) * m_nx m + c) with (k * (n * m_nx m) + (j * m_nx m + c)) by nia. now rewrite piece_ind_radix.
    + cbn. nia.
    + change ((k * n + j) * m_nx m + c < prodn [npieces t; n; m_nx m]). cbn. nia.
  - intros c Hc. now apply (up_row m t uv).
Qed.

Theorem C29_oem (T : Type) (NT : Num T) (OT : NumOrd T) (m : colmodel T) t y u uv jme :
  good_grid m t -> good_data m t y uv -> input_values m t u = uv -> oem_small m t jme ->
  exists q, oem_problem m jme t y u = Ok q /\ pieces_match m t uv q.
Proof.
  intros G D EU S. exists (oem_prob m t y uv jme). split; [now apply oem_problem_ok|].
  eapply estimation_pieces; eauto. now apply oem_estimation.
Qed.
Print Assumptions C29_oem.

Theorem C29_jme (T : Type) (NT : Num T) (OT : NumOrd T) (m : colmodel T) t y u uv :
  good_grid m t -> good_data m t y uv -> input_values m t u = uv -> oem_small m t true ->
  exists q, jme_problem m t y u = Ok q /\ pieces_match m t uv q.
Proof.
  intros G D EU S. exists (jme_prob m t y uv). split; [now apply jme_problem_ok|].
  eapply estimation_pieces; eauto. now apply jme_estimation.
Qed.
Print Assumptions C29_jme.

(** ** C30.  Problem construction succeeds with the documented sizes, the
    variables have the shapes the generated functions expect, and every
    registered function is called successfully and returns its registered
    shape; so the merit and the constraints can be evaluated everywhere. *)
Definition evaluates {T} {NT : Num T} (p : problem T) : Prop :=
  List.Forall (fun o => called p (o_shape o) o) (p_objectives p) /\
  List.Forall (fun co => called p (c_shape (fst co)) (snd co)) (p_constraints p) /\
  forall dvec, length dvec = ndec p ->
    exists v c, obj p dvec = Ok v /\ constr p dvec = Ok c /\ length c = ncons p.
Definition var_shapes {T} {NT : Num T} (p : problem T) (l : list (string * shape)) : Prop :=
  forall dvec, length dvec = ndec p -> exists vars, variables p dvec = Ok vars /\
    forall v s, In (v, s) l -> exists a, dlookup String.eqb vars v = Ok a /\ ash a = s /\ awf a.

Lemma shapes_of {T} {NT : Num T} (p : problem T) sel l : reachable p -> selects p sel ->
  (forall v s, In (v, s) l -> has_shape p v s) -> var_shapes p l.
Proof.
  intros R S H dvec HL. destruct (variables_ok p sel dvec (reachable_inv p R) S HL) as (vars & Ev & _).
  exists vars. split; auto. intros v s Hv. destruct (lookup_shape p sel R S dvec v s HL (H v s Hv)) as (vars' & a & E1 & E2 & E3 & E4).
  rewrite Ev in E1. injection E1 as <-. eauto.
Qed.

Theorem C30_oc (T : Type) (NT : Num T) (OT : NumOrd T) (m : colmodel T) t ge gIL gM gg gh :
  good_grid m t -> oc_small m t -> oc_generated m ge gIL gM gg gh ->
  let K := length t - 1 in let n := col_n (m_col m) in let N := K * (n - 1) + 1 in
  exists p, oc_problem m t = Ok p /\
    ndec p = N * m_nx m + N * m_nu m + m_np m /\ ncons p = K * (n - 1) * m_nx m + N * m_ng m + m_nh m /\
    var_shapes p [("x", [N; m_nx m]); ("u", [N; m_nu m]); ("p", [m_np m]); ("xp", [K; n; m_nx m]); ("up", [K; n; m_nu m]);
      ("xe", [2; m_nx m]); ("piece_len", [K])] /\
    evaluates p.
Proof.
  intros G S H K n N. exists (oc_prob m t). split; [now apply oc_problem_ok|].
  split; [now apply oc_ndec|]. split; [now apply oc_ncons|].
  pose proof (oc_reachable m t S) as R. pose proof (oc_selects m t G S) as SE. split.
  - apply (shapes_of _ _ _ R SE). intros v s Hv. cbn in Hv.
    assert (E : In v oc_names /\ s = batch_shape m t v ++ base_shape m v).
    { unfold oc_names. intuition (match goal with E : (_, _) = _ |- _ => injection E as <- <- end; cbn; auto 10). }
    destruct E as [E ->]. now apply oc_shapes.
  - destruct (oc_called m t G ge gIL gM gg gh S H) as [H1 H2]. split; [exact H1|]. split; [exact H2|].
    intros dvec HL. now apply (called_runs _ _ R SE).
Qed.
Print Assumptions C30_oc.

Theorem C30_oem (T : Type) (NT : Num T) (OT : NumOrd T) (m : colmodel T) t y u uv ge gL :
  good_grid m t -> good_data m t y uv -> input_values m t u = uv -> oem_small m t false -> oem_generated m false ge gL ->
  let K := length t - 1 in let n := col_n (m_col m) in let N := K * (n - 1) + 1 in let nm := length (kmeas_coarse y) in
  exists p, oem_problem m false t y u = Ok p /\
    ndec p = N * m_nx m + m_np m /\ ncons p = K * (n - 1) * m_nx m /\
    var_shapes p [("x", [N; m_nx m]); ("p", [m_np m]); ("xp", [K; n; m_nx m]); ("up", [K; n; m_nu m]);
      ("xm", [nm; m_nx m]); ("um", [nm; m_nu m]); ("y", [nm; m_ny m]); ("piece_len", [K])] /\
    evaluates p.
Proof.
  intros G D EU S H K n N nm. set (q := oem_prob m t y uv false). exists q. split; [now apply oem_problem_ok|].
  assert (LK : oem_like m t y uv false q) by apply oem_is_like.
  split; [rewrite (oem_ndec m t y uv false q LK S); cbn; unfold npoints, npieces; fold K n; lia|]. split; [now apply oem_ncons|].
  assert (R : reachable q) by exact (oem_reachable m t y uv false S).
  assert (SE : selects q (oem_sel m t y false)) by exact (oem_selects m t G y uv D false q LK S). split.
  - apply (shapes_of _ _ _ R SE). intros v s Hv.
    assert (EN : length (kmeas (m_col m) y) = nm) by (unfold kmeas; apply map_length).
    cbn in Hv. repeat destruct Hv as [Hv|Hv]; try contradiction; injection Hv as <- <-.
    + eapply spec_shape; [exact LK|exact S|cbn; eauto 8|reflexivity].
    + eapply spec_shape; [exact LK|exact S|cbn; eauto 8|reflexivity].
    + eapply spec_shape; [exact LK|exact S|cbn; eauto 8|reflexivity].
    + eapply const_shape with (a := up_arr m t uv); [exact LK|exact S|cbn; auto 8|reflexivity|reflexivity|apply up_wf].
    + rewrite <- EN. eapply spec_shape; [exact LK|exact S|cbn; eauto 8|reflexivity].
    + rewrite <- EN. eapply const_shape with (a := um_arr m y uv); [exact LK|exact S|cbn; auto 8|reflexivity|reflexivity|eapply um_wf; eauto].
    + rewrite <- EN. eapply const_shape with (a := y_arr m y); [exact LK|exact S|cbn; auto 8|reflexivity|reflexivity|eapply y_wf; eauto].
    + eapply const_shape with (a := piece_len t); [exact LK|exact S|cbn; auto 8|reflexivity|reflexivity|apply len_wf].
  - destruct (oem_called m t G y uv D ge gL S H) as [H1 H2]. split; [exact H1|]. split; [exact H2|].
    intros dvec HL. now apply (called_runs _ _ R SE).
Qed.
Print Assumptions C30_oem.

Theorem C30_jme (T : Type) (NT : Num T) (OT : NumOrd T) (m : colmodel T) t y u uv ge gL gt gp :
  good_grid m t -> good_data m t y uv -> input_values m t u = uv -> oem_small m t true ->
  oem_generated m true ge gL -> jme_generated m gt gp -> jme_constants m ->
  let K := length t - 1 in let n := col_n (m_col m) in let N := K * (n - 1) + 1 in let nm := length (kmeas_coarse y) in
  exists p, jme_problem m t y u = Ok p /\
    ndec p = N * m_nx m + K * (n - 1) * m_nw m + m_np m /\ ncons p = K * (n - 1) * m_nx m /\
    var_shapes p [("x", [N; m_nx m]); ("p", [m_np m]); ("xp", [K; n; m_nx m]); ("up", [K; n; m_nu m]);
      ("xm", [nm; m_nx m]); ("um", [nm; m_nu m]); ("y", [nm; m_ny m]); ("piece_len", [K]);
      ("wc", [K; n - 1; m_nw m]); ("G", [m_nx m; m_nw m]); ("penweight", [m_nx m])] /\
    evaluates p.
Proof.
  intros G D EU S H HJ JC K n N nm. set (q := jme_prob m t y uv). exists q. split; [now apply jme_problem_ok|].
  assert (LK : oem_like m t y uv true q) by apply jme_is_like.
  split; [rewrite (oem_ndec m t y uv true q LK S); unfold nwc, npoints, npieces; fold K n; lia|]. split; [now apply jme_ncons|].
  assert (R : reachable q) by exact (jme_reachable m t y uv S).
  assert (SE : selects q (oem_sel m t y true)) by exact (oem_selects m t G y uv D true q LK S). split.
  - apply (shapes_of _ _ _ R SE). intros v s Hv.
    assert (EN : length (kmeas (m_col m) y) = nm) by (unfold kmeas; apply map_length). destruct JC as (J1 & J2 & J3 & J4).
    cbn in Hv. repeat destruct Hv as [Hv|Hv]; try contradiction; injection Hv as <- <-.
    + eapply spec_shape; [exact LK|exact S|cbn; eauto 8|reflexivity].
    + eapply spec_shape; [exact LK|exact S|cbn; eauto 8|reflexivity].
    + eapply spec_shape; [exact LK|exact S|cbn; eauto 8|reflexivity].
    + eapply const_shape with (a := up_arr m t uv); [exact LK|exact S|cbn; auto 8|reflexivity|reflexivity|apply up_wf].
    + rewrite <- EN. eapply spec_shape; [exact LK|exact S|cbn; eauto 8|reflexivity].
    + rewrite <- EN. eapply const_shape with (a := um_arr m y uv); [exact LK|exact S|cbn; auto 8|reflexivity|reflexivity|eapply um_wf; eauto].
    + rewrite <- EN. eapply const_shape with (a := y_arr m y); [exact LK|exact S|cbn; auto 8|reflexivity|reflexivity|eapply y_wf; eauto].
    + eapply const_shape with (a := piece_len t); [exact LK|exact S|cbn; auto 8|reflexivity|reflexivity|apply len_wf].
    + eapply spec_shape; [exact LK|exact S|cbn; eauto 8|reflexivity].
    + eapply const_shape with (a := m_G m); [exact LK|exact S|cbn; auto 8|reflexivity|auto|auto].
    + eapply const_shape with (a := m_penweight m); [exact LK|exact S|cbn; auto 8|reflexivity|auto|auto].
  - destruct (jme_called m t G y uv D ge gL gt gp S H HJ JC) as [H1 H2]. split; [exact H1|]. split; [exact H2|].
    intros dvec HL. now apply (called_runs _ _ R SE).
Qed.
Print Assumptions C30_jme.

(** *** A concrete model: two nodes per piece, two unequal pieces, one
    measurement dropped; functions that return constants. *)
Definition const_gfun (names : list string) (bases : list shape) (out : shape) : gfun Z :=
  GF "f" names bases out (fun _ => repeat 3%Z (prodn out)) [] [] [] [].
Definition ex_base (v : string) : shape :=
  base_shape (ColModel (Colloc 2 [0%Z; 1%Z]) 1 1 1 1 1 1 1 (gen_fn (const_gfun [] [] [])) (gen_fn (const_gfun [] [] [])) (gen_fn (const_gfun [] [] []))
    (gen_fn (const_gfun [] [] [])) (gen_fn (const_gfun [] [] [])) (gen_fn (const_gfun [] [] [])) (gen_fn (const_gfun [] [] [])) (gen_fn (const_gfun [] [] []))
    true (Arr [1] [7%Z]) (Arr [1; 1] [2%Z])) v.
Definition ex_gfun names out := const_gfun names (map ex_base names) out.
Definition ex_model (jme : bool) : colmodel Z :=
  ColModel (Colloc 2 [0%Z; 1%Z]) 1 1 1 1 1 1 1 (gen_fn (ex_gfun (e_names jme) [1; 1])) (gen_fn (ex_gfun (e_names false) []))
    (gen_fn (ex_gfun ["xe"; "p"] [])) (gen_fn (ex_gfun ["x"; "u"; "p"] [1])) (gen_fn (ex_gfun ["xe"; "p"] [1]))
    (gen_fn (ex_gfun L_names [])) (gen_fn (ex_gfun (e_names true) [])) (gen_fn (ex_gfun (e_names true ++ ["penweight"]) []))
    true (Arr [1] [7%Z]) (Arr [1; 1] [2%Z]).
Definition ex_t : list Z := [0; 2; 5]%Z.
Definition ex_y : list (yrow Z) := [[(10%Z, false)]; [(11%Z, true)]; [(12%Z, false)]].
Definition ex_u : arr Z := Arr [3; 1] [4; 5; 6]%Z.

Lemma ex_suits jme names out : NoDup names -> suits (ex_model jme) names (ex_gfun names out).
Proof.
  intros N. split; [|apply incl_refl|reflexivity]. split; cbn; try constructor; auto.
  - apply map_length. - intros _. apply repeat_length.
Qed.
Ltac nodup_names := repeat constructor; cbn; intuition discriminate.

Example col_nonvacuous : forall jme, 
  good_grid (ex_model jme) ex_t /\ nth 0 (col_points (m_col (ex_model jme))) n0 = n0 /\
  good_data (ex_model jme) ex_t ex_y ex_u /\ input_values (ex_model jme) ex_t (UArr ex_u) = ex_u /\
  oem_small (ex_model jme) ex_t jme /\ kmeas_coarse ex_y = [0; 2] /\
  oem_generated (ex_model jme) jme (ex_gfun (e_names jme) [1; 1]) (ex_gfun L_names []).
Proof.
  intros jme. split; [split; cbn; auto; repeat constructor|]. split; [reflexivity|].
  split; [split; try reflexivity; repeat constructor|]. split; [reflexivity|].
  split; [unfold oem_small, small; repeat split|]. split; [reflexivity|].
  split; try reflexivity; try (apply ex_suits; destruct jme; nodup_names). exists "xp". cbn. auto.
Qed.

Example C30_nonvacuous :
  oc_small (ex_model false) ex_t /\
  oc_generated (ex_model false) (ex_gfun (e_names false) [1; 1]) (ex_gfun (e_names false) []) (ex_gfun ["xe"; "p"] [])
    (ex_gfun ["x"; "u"; "p"] [1]) (ex_gfun ["xe"; "p"] [1]) /\
  jme_generated (ex_model true) (ex_gfun (e_names true) []) (ex_gfun (e_names true ++ ["penweight"]) []) /\
  jme_constants (ex_model true) /\
  (let* p := oc_problem (ex_model false) ex_t in let* v := obj p [1; 2; 3; 4; 5; 6; 7]%Z in
   let* c := constr p [1; 2; 3; 4; 5; 6; 7]%Z in Ok (ndec p, ncons p, v, c)) = Ok (7, 6, 9%Z, [3; 3; 3; 3; 3; 3]%Z) /\
  (let* p := jme_problem (ex_model true) ex_t ex_y (UArr ex_u) in let* v := obj p [1; 2; 3; 4; 5; 6]%Z in
   Ok (ndec p, ncons p, v)) = Ok (6, 2, 18%Z).
Proof.
  split; [|split; [|split; [|split; [|split]]]].
  - unfold oc_small, small. repeat split.
  - split; try reflexivity; try (apply ex_suits; nodup_names); try (exists "xp"; cbn; tauto). exists "x"; cbn; tauto.
  - split; intros; try reflexivity; try (apply ex_suits; nodup_names); exists "xp"; cbn; tauto.
  - repeat split.
  - vm_compute. reflexivity.
  - vm_compute. reflexivity.
Qed.
