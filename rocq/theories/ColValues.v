(** Values computed by the collocated problems: which entries of the decision
    vector each call of each function reads. *)
From Coq Require Import String List ZArith Bool Arith Lia.
From Verif Require Import Py NdArray OptimModel ColModel DictLemmas Builder BuilderLemmas NdLemmas OptimSpec OptimLaws
  LawFacts LayoutLemmas ProblemSpec ProblemLemmas ProblemFacts IndexLemmas GenModel GenSpec GenLemmas ColLemmas ColBuild ColLaws
  AssemblyLemmas GradLemmas ColCalls PropsCol.
Import ListNotations.
Local Open Scope string_scope.
Local Open Scope list_scope.
Local Open Scope nat_scope.

(** *** Specification: rows of a two-dimensional quantity, one after another *)
Definition rows {T} (f : nat -> nat -> T) (l : list nat) (w : nat) : list T :=
  flat_map (fun i => map (f i) (seq 0 w)) l.

Lemma rows_seq {T} (f : nat -> nat -> T) (g : nat -> T) a k w :
  (forall j c, j < k -> c < w -> g (j * w + c) = f (a + j) c) ->
  map g (seq 0 (k * w)) = rows f (seq a k) w.
Proof.
  revert a g. induction k as [|k IH]; intros a g H; [reflexivity|].
  change (rows f (seq a (S k)) w) with (map (f a) (seq 0 w) ++ rows f (seq (S a) k) w).
  cbn [Nat.mul]. rewrite seq_app, map_app. f_equal.
  - apply map_ext_in. intros c Hc. apply in_seq in Hc. specialize (H 0 c). cbn in H. rewrite H by lia. now rewrite Nat.add_0_r.
  - cbn [Nat.add]. rewrite <- (IH (S a) (fun i => g (w + i))).
    + rewrite <- (map_map (fun i => w + i) g). f_equal. generalize (k * w) as q. clear. intros q.
      replace w with (w + 0) at 1 by lia. generalize 0 as s. induction q as [|q IH]; intros s; cbn; [reflexivity|]. f_equal.
      now rewrite <- IH, Nat.add_succ_r.
    + intros j c Hj Hc. specialize (H (S j) c). cbn [Nat.mul] in H. rewrite <- Nat.add_assoc in H. rewrite H by lia. f_equal. lia.
Qed.

Section Values.
  Context {T : Type} {NT : Num T}.

  Definition reads (p : problem T) (dvec : list T) (v : string) (len : nat) (f : nat -> T) : Prop :=
    exists vars a, variables p dvec = Ok vars /\ dlookup String.eqb vars v = Ok a /\ length (adat a) = len /\
      forall i, i < len -> nth i (adat a) n0 = f i.

  Definition valued (p : problem T) (dvec : list T) (s : shape) (o : optfun T) (l : list T) : Prop :=
    fits p o /\ length l = prodn s /\ exists A, fun_args p dvec o = Ok A /\ f_call (o_fun o) A = Ok (Arr s l).

  Section One.
  Variables (p : problem T) (sel : string -> nat -> nat).
  Hypothesis R : reachable p.
  Hypothesis S : selects p sel.
  Variables (o : optfun T) (g : gfun T) (LE : string -> shape) (ext : shape).
  Hypothesis Hfun : o_fun o = gen_fn g.
  Hypothesis WF : gwf g.
  Hypothesis Hargs : NoDup (o_args o).
  Hypothesis Hlen : length (o_args o) = length (gf_args g).
  Hypothesis Hshape : forall w, In w (gf_args g) -> has_shape p (param o w) (LE w ++ base_of g w).
  Hypothesis Hext : bshapes (map (fun w => LE w) (gf_args g)) = Ok ext.
  Variables (dvec : list T) (arg : nat -> string -> list T).
  Hypothesis HL : length dvec = ndec p.
  Hypothesis Harg : forall w, In w (gf_args g) -> exists f, reads p dvec (param o w) (prodn (LE w ++ base_of g w)) f /\
    forall e, e < prodn ext -> (at_elem (LE w) ext e + 1) * prodn (base_of g w) <= prodn (LE w ++ base_of g w) /\
      arg e w = map (fun i => f (at_elem (LE w) ext e * prodn (base_of g w) + i)) (seq 0 (prodn (base_of g w))).

  (** What batch element [e] receives. *)
  Lemma elems_arg A e : fun_args p dvec o = Ok A -> e < prodn ext -> elems g LE ext A e = map (arg e) (gf_args g).
  Proof.
    intros EA He.
    unfold elems. unfold fun_args in EA. destruct (variables p dvec) as [vars|] eqn:Ev; [|discriminate]. cbn [bind] in EA.
    unfold get_args in EA. rewrite <- (map_param o) in EA by (rewrite Hfun; cbn; auto; apply (gw_args _ WF)).
    rewrite Hfun in EA. cbn [gen_fn f_sig] in EA.
    assert (HB : forall w b, In (w, b) (combine (gf_args g) (gf_bases g)) -> base_of g w = b).
    { pose proof (gw_args _ WF). pose proof (gw_bases _ WF). intros w b Hin. unfold base_of. rewrite (In_dget _ String.eqb_spec _ _ b); auto. now rewrite map_fst_combine. }
    assert (Q : forall ws bs A, mapM (dlookup String.eqb vars) (map (param o) ws) = Ok A ->
      (forall w b, In (w, b) (combine ws bs) -> base_of g w = b) -> (forall w, In w ws -> In w (gf_args g)) -> length bs = length ws ->
      map (fun wba => firstn (prodn (snd (fst wba)))
        (skipn (at_elem (LE (fst (fst wba))) ext e * prodn (snd (fst wba))) (adat (snd wba)))) (combine (combine ws bs) A)
      = map (arg e) ws).
    2: { apply Q; auto. apply (gw_bases _ WF). }
    clear EA HB. induction ws as [|w ws IH]; intros bs B EA HB HA LB; [reflexivity|].
    destruct bs as [|b bs]; [discriminate|]. cbn [map mapM] in EA.
    destruct (dlookup String.eqb vars (param o w)) as [a|] eqn:El; [|discriminate]. cbn [bind] in EA.
    destruct (mapM _ _) as [A'|] eqn:EM; [|discriminate]. cbn [bind] in EA. injection EA as <-. cbn [combine map]. f_equal.
    - cbn [fst snd]. destruct (Harg w) as (f & (vars' & a' & E1 & E2 & E3 & E4) & Hs); [apply HA; simpl; auto|].
      rewrite Ev in E1. injection E1 as <-. rewrite El in E2. injection E2 as <-.
      destruct (Hs e) as [Hb ->]; [lia|]. rewrite <- (HB w b) by (simpl; auto).
      set (B := prodn (base_of g w)) in *. set (pos := at_elem (LE w) ext e) in *.
      apply (nth_ext _ _ n0 n0).
      + rewrite firstn_length, skipn_length, map_length, seq_length. nia.
      + intros i Hi. rewrite firstn_length, skipn_length in Hi. rewrite nth_firstn_lt by lia. rewrite nth_skipn_add.
        rewrite nth_map_d with (a := O) by (rewrite seq_length; lia). rewrite seq_nth by lia. cbn [Nat.add].
        apply E4. nia.
    - apply IH; auto; intros; [apply HB|apply HA]; simpl; auto.
  Qed.

  Lemma gen_value : valued p dvec (ext ++ gf_out g) o (flat_map (fun e => gf_base g (map (arg e) (gf_args g))) (seq 0 (prodn ext))).
  Proof.
    split; [eapply bind_fits; eauto|].
    destruct (bind_args p sel R S o g LE ext Hfun WF Hlen Hshape Hext dvec HL) as (A & EA & FA).
    destruct (gen_call g WF LE ext A FA) as (C1 & _ & C3).
    assert (E : flat_map (fun e => gf_base g (elems g LE ext A e)) (seq 0 (prodn ext))
      = flat_map (fun e => gf_base g (map (arg e) (gf_args g))) (seq 0 (prodn ext))).
    { rewrite !flat_map_concat_map. f_equal. apply map_ext_in. intros e He. apply in_seq in He. f_equal. apply elems_arg; auto. lia. }
    rewrite E in C1, C3. split; [exact C3|]. exists A. split; [exact EA|]. rewrite Hfun. exact C1.
  Qed.
  End One.

  (** One argument: what batch element [e] reads of variable [v]. *)
  Definition good_arg (p : problem T) (dvec : list T) (v : string) (le base ext : shape) (arg : nat -> list T) : Prop :=
    exists f, reads p dvec v (prodn (le ++ base)) f /\
    forall e, e < prodn ext -> (at_elem le ext e + 1) * prodn base <= prodn (le ++ base) /\
      arg e = map (fun i => f (at_elem le ext e * prodn base + i)) (seq 0 (prodn base)).

  Lemma at_none ext e : length ext <= 1 -> at_elem [] ext e = 0.
  Proof. destruct ext as [|k [|]]; cbn; auto; lia. Qed.
  Lemma at_same k e : e < k -> at_elem [k] [k] e = e.
  Proof.
    intros H. unfold at_elem, bpad. cbn [length Nat.sub repeat app bpos prodn fold_right]. rewrite Nat.div_1_r.
    destruct (Nat.eqb_spec k 1); lia.
  Qed.

  (** Arguments with no batch axis, and with the batch axis. *)
  Lemma good_plain p dvec v base ext f arg : length ext <= 1 -> reads p dvec v (prodn base) f ->
    (forall e, arg e = map f (seq 0 (prodn base))) -> good_arg p dvec v [] base ext arg.
  Proof. intros He Hr Ha. exists f. split; [exact Hr|]. intros e _. rewrite at_none by auto. cbn [app]. split; [lia|apply Ha]. Qed.
  Lemma good_batch p dvec v base k f arg : reads p dvec v (prodn (k :: base)) f ->
    (forall e, e < k -> arg e = map (fun i => f (e * prodn base + i)) (seq 0 (prodn base))) -> good_arg p dvec v [k] base [k] arg.
  Proof.
    intros Hr H. exists f. split; [exact Hr|]. intros e He. assert (e < k) by (cbn in He; lia). rewrite at_same by auto.
    split; [|auto]. cbn [app]. change (prodn (k :: base)) with (k * prodn base). apply Nat.mul_le_mono_r. lia.
  Qed.

  Lemma plain_valued (p : problem T) sel : reachable p -> selects p sel ->
    forall (m : colmodel T) names LE g ext s, suits m names g ->
    (forall v, In v names -> has_shape p v (LE v ++ base_shape m v)) -> bshapes (map LE (gf_args g)) = Ok ext ->
    forall dvec arg, length dvec = ndec p ->
    (forall w, In w (gf_args g) -> good_arg p dvec w (LE w) (base_shape m w) ext (fun e => arg e w)) ->
    s = ext ++ gf_out g ->
    valued p dvec s (mk_optfun s (gen_fn g) None) (flat_map (fun e => gf_base g (map (arg e) (gf_args g))) (seq 0 (prodn ext))).
  Proof.
    intros R S m names LE g ext s U Hs Hext dvec arg HL Ha Es.
    rewrite Es. apply (gen_value p sel R S _ g LE ext); auto; try reflexivity.
    - apply (su_wf _ _ _ U).
    - apply (gw_args _ (su_wf _ _ _ U)).
    - apply (plain_shape p m names LE g (ext ++ gf_out g) U Hs).
    - intros w Hw. rewrite param_none by (auto; apply (gw_args _ (su_wf _ _ _ U))).
      rewrite (base_of_suits m names g w U Hw). exact (Ha w Hw).
  Qed.

  (** The merit and the constraints, from the values of the functions. *)
  Lemma values_run (p : problem T) sel dvec : reachable p -> selects p sel -> length dvec = ndec p -> forall vs os,
    Forall2 (fun co v => valued p dvec (c_shape (fst co)) (snd co) v) (p_constraints p) vs ->
    Forall2 (fun o v => valued p dvec (o_shape o) o v) (p_objectives p) os ->
    constr p dvec = Ok (concat vs) /\ obj p dvec = Ok (lsum (map lsum os)).
  Proof.
    intros R S HL vs os HC HO.
    assert (exists va, Forall2 (cval_ok p dvec) (p_constraints p) va /\ flat_map adat va = concat vs) as (va & Hva & Ea).
    { clear HO. induction HC as [|co v l vs (HF & E3 & A & E1 & E2) _ (va & IH & Ea)]; [exists []; split; [constructor|reflexivity]|].
      exists (Arr (c_shape (fst co)) v :: va). split; [|cbn [flat_map concat adat]; now rewrite Ea]. constructor; auto.
      split; auto. exists A, (Arr (c_shape (fst co)) v). split; [auto|]. split; [auto|]. now apply broadcast_same. }
    assert (exists oa, Forall2 (obj_at_ok p dvec) (p_objectives p) oa /\ map (fun a => lsum (adat a)) oa = map lsum os) as (oa & Hoa & Eo).
    { clear - HO HL. induction HO as [|o v l vs (HF & E3 & A & E1 & E2) _ (va & IH & Ea)]; [exists []; split; [constructor|reflexivity]|].
      exists (Arr (o_shape o) v :: va). split; [|cbn [map adat]; now rewrite Ea]. constructor; auto.
      split; auto. exists A. auto. }
    destruct (constr_value p sel R S dvec va HL Hva) as [E1 _].
    pose proof (GradLemmas.obj_value p sel R S dvec oa HL Hoa) as E2. rewrite E1, E2, Ea, Eo. auto.
  Qed.
End Values.

(** Slices of the piece-wise variables are consecutive rows. *)
Lemma piece_slice {T} {NT : Num T} (dvec : list T) off n w e :
  map (fun i => nth (off + piece_ind n w (e * (n * w) + i)) dvec n0) (seq 0 (n * w))
  = rows (fun i c => nth (off + (i * w + c)) dvec n0) (seq (e * (n - 1)) n) w.
Proof. apply rows_seq. intros j c Hj Hc. now rewrite piece_ind_radix. Qed.
Lemma xe_slice {T} {NT : Num T} (dvec : list T) N w :
  map (fun i => nth (xe_ind N w i) dvec n0) (seq 0 (2 * w)) = rows (fun i c => nth (i * w + c) dvec n0) [0; N - 1] w.
Proof.
  unfold rows. cbn [flat_map]. rewrite app_nil_r, (rows_seq (fun i c => nth ((if i =? 0 then 0 else N - 1) * w + c) dvec n0) _ 0).
  - unfold rows. cbn [seq flat_map]. now rewrite app_nil_r.
  - intros [|[|j]] c Hj Hc; try lia; unfold xe_ind; cbn [Nat.eqb Nat.add Nat.mul].
    + destruct (Nat.ltb_spec c w); [reflexivity|lia].
    + destruct (Nat.ltb_spec (w + 0 + c) w); [lia|]. f_equal. f_equal. lia.
Qed.

Section OcValues.
  Context {T : Type} {NT : Num T} {OT : NumOrd T}.
  Add Ring Toc : (num_rt (T:=T)).
  Variable m : colmodel T.
  Variable t : list T.
  Hypothesis G : good_grid m t.
  Hypothesis SM : oc_small m t.
  Notation n := (col_n (m_col m)).
  Notation K := (npieces t).
  Notation N := (npoints m t).

  (** *** Specification: states, inputs and parameters of a decision vector *)
  Definition oc_x (dvec : list T) (i c : nat) : T := nth (i * m_nx m + c) dvec n0.
  Definition oc_u (dvec : list T) (i c : nat) : T := nth (N * m_nx m + (i * m_nu m + c)) dvec n0.
  Definition oc_p (dvec : list T) (c : nat) : T := nth (N * m_nx m + N * m_nu m + c) dvec n0.
  (** The arguments of a function evaluated for piece (or point) [e]. *)
  Definition oc_arg (dvec : list T) (e : nat) (w : string) : list T :=
    if String.eqb w "x" then map (oc_x dvec e) (seq 0 (m_nx m)) else
    if String.eqb w "u" then map (oc_u dvec e) (seq 0 (m_nu m)) else
    if String.eqb w "p" then map (oc_p dvec) (seq 0 (m_np m)) else
    if String.eqb w "xp" then rows (oc_x dvec) (seq (e * (n - 1)) n) (m_nx m) else
    if String.eqb w "up" then rows (oc_u dvec) (seq (e * (n - 1)) n) (m_nu m) else
    if String.eqb w "xe" then rows (oc_x dvec) [0; N - 1] (m_nx m) else
    [nsub (nth (e + 1) t n0) (nth e t n0)].

  Variable dvec : list T.
  Hypothesis HL : length dvec = ndec (oc_prob m t).

  Lemma oc_reads v sp : In (v, sp) (oc_specs m t) ->
    reads (oc_prob m t) dvec v (prodn (s_shape sp)) (fun i => nth (oc_sel m t v i) dvec n0).
  Proof.
    intros Hin. destruct (variables_ok (oc_prob m t) (oc_sel m t) dvec (reachable_inv _ (oc_reachable m t SM)) (oc_selects m t G SM) HL)
      as (vars & E & Hv & _).
    exists vars, (var_at (oc_sel m t) dvec v sp). split; [exact E|]. split; [apply Hv; rewrite oc_all_specs; auto|]. split; [cbn; now rewrite map_length, seq_length|].
    intros i Hi. now apply var_elem.
  Qed.
  Lemma oc_reads_len : reads (oc_prob m t) dvec "piece_len" K (fun e => nsub (nth (e + 1) t n0) (nth e t n0)).
  Proof.
    destruct (variables_ok (oc_prob m t) (oc_sel m t) dvec (reachable_inv _ (oc_reachable m t SM)) (oc_selects m t G SM) HL)
      as (vars & E & _ & Hc).
    exists vars, (piece_len t). split; [exact E|]. split; [rewrite Hc; [reflexivity|]|].
    - rewrite <- fst_all_specs, oc_all_specs by auto. cbn. intuition discriminate.
    - split; [apply diff_length|]. intros i Hi. unfold piece_len. cbn [adat]. apply diff_nth. unfold npieces in Hi. lia.
  Qed.

  Lemma oc_good_arg ext w : In w oc_names -> ext = batch_shape m t w \/ (batch_shape m t w = [] /\ length ext <= 1) ->
    good_arg (oc_prob m t) dvec w (batch_shape m t w) (base_shape m w) ext (fun e => oc_arg dvec e w).
  Proof.
    intros Hw He.
    assert (B : forall k, batch_shape m t w = [k] -> ext = batch_shape m t w \/ (batch_shape m t w = [] /\ length ext <= 1) -> ext = [k]).
    { intros k E [->|[E' _]]; congruence. }
    assert (P : batch_shape m t w = [] -> length ext <= 1) by (intros E; destruct He as [->|[_ H]]; [rewrite E; cbn; lia|exact H]).
    unfold oc_names in Hw. cbn [In] in Hw. destruct Hw as [<-|[<-|[<-|[<-|[<-|[<-|[<-|[]]]]]]]];
    try (rewrite (B _ eq_refl He)); cbn [batch_shape existsb String.eqb Ascii.eqb Bool.eqb orb] in *.
    - eapply good_batch; [apply (oc_reads "x" (dec_spec (Comp [N; m_nx m] 0))); cbn; auto|].
      intros e _. cbn [base_shape String.eqb Ascii.eqb Bool.eqb prodn fold_right]. rewrite Nat.mul_1_r. reflexivity.
    - eapply good_batch; [apply (oc_reads "u" (dec_spec (Comp [N; m_nu m] (Z.of_nat (N * m_nx m))))); cbn; auto|].
      intros e _. cbn [base_shape String.eqb Ascii.eqb Bool.eqb prodn fold_right]. rewrite Nat.mul_1_r. reflexivity.
    - eapply good_plain; [auto|apply (oc_reads "p" (dec_spec (Comp [m_np m] (Z.of_nat (N * m_nx m + N * m_nu m))))); cbn; auto|].
      intros e. cbn [base_shape String.eqb Ascii.eqb Bool.eqb prodn fold_right]. rewrite Nat.mul_1_r. reflexivity.
    - eapply good_batch; [apply (oc_reads "xp" (piece_spec (dec_spec (Comp [N; m_nx m] 0)) K n)); cbn; auto 12|].
      intros e _. cbn [base_shape String.eqb Ascii.eqb Bool.eqb prodn fold_right]. rewrite Nat.mul_1_r. symmetry.
      apply (piece_slice dvec 0 n (m_nx m) e).
    - eapply good_batch; [apply (oc_reads "up" (piece_spec (dec_spec (Comp [N; m_nu m] (Z.of_nat (N * m_nx m)))) K n)); cbn; auto 12|].
      intros e _. cbn [base_shape String.eqb Ascii.eqb Bool.eqb prodn fold_right]. rewrite Nat.mul_1_r. symmetry.
      apply (piece_slice dvec (N * m_nx m) n (m_nu m) e).
    - eapply good_plain; [auto|apply (oc_reads "xe" (xe_spec (dec_spec (Comp [N; m_nx m] 0)))); cbn; auto 8|].
      intros e. cbn [base_shape String.eqb Ascii.eqb Bool.eqb prodn fold_right]. rewrite Nat.mul_1_r. symmetry. apply xe_slice.
    - eapply good_batch; [cbn [base_shape String.eqb Ascii.eqb Bool.eqb prodn fold_right]; rewrite Nat.mul_1_r; apply oc_reads_len|].
      intros e _. cbn. now rewrite Nat.add_0_r, Nat.mul_1_r.
  Qed.

  (** The optimal-control problem, in full: merit and constraints of a
      decision vector. *)
  Theorem oc_values ge gIL gM gg gh : oc_generated m ge gIL gM gg gh ->
    let val g e := gf_base g (map (oc_arg dvec e) (gf_args g)) in
    constr (oc_prob m t) dvec = Ok (flat_map (val ge) (seq 0 K) ++ flat_map (val gg) (seq 0 N) ++ val gh 0) /\
    obj (oc_prob m t) dvec = Ok (nadd (lsum (flat_map (val gIL) (seq 0 K))) (lsum (val gM 0))).
  Proof.
    intros H val. pose proof (oc_reachable m t SM) as R. pose proof (oc_selects m t G SM) as SE.
    assert (HS : forall names, incl names oc_names -> forall v, In v names ->
      has_shape (oc_prob m t) v (batch_shape m t v ++ base_shape m v)) by (intros names I v Hv; apply oc_shapes; auto).
    assert (I1 : incl ["xp"; "up"; "p"; "piece_len"] oc_names) by (intros v Hv; cbn in *; intuition auto).
    assert (I2 : incl ["xe"; "p"] oc_names) by (intros v Hv; cbn in *; intuition auto).
    assert (I3 : incl ["x"; "u"; "p"] oc_names) by (intros v Hv; cbn in *; intuition auto).
    assert (J1 : incl ["xp"; "up"; "p"; "piece_len"] ["xp"; "up"; "p"; "piece_len"; "wc"; "G"; "penweight"])
      by (intros v Hv; cbn in *; intuition auto).
    assert (A1 : forall g, suits m ["xp"; "up"; "p"; "piece_len"] g -> forall w, In w (gf_args g) ->
      good_arg (oc_prob m t) dvec w (batch_shape m t w) (base_shape m w) [K] (fun e => oc_arg dvec e w)).
    { intros g U w Hw. apply (su_args _ _ _ U) in Hw. apply oc_good_arg; [auto|]. cbn in Hw. intuition (subst; auto). }
    assert (A2 : forall g, suits m ["x"; "u"; "p"] g -> forall w, In w (gf_args g) ->
      good_arg (oc_prob m t) dvec w (batch_shape m t w) (base_shape m w) [N] (fun e => oc_arg dvec e w)).
    { intros g U w Hw. apply (su_args _ _ _ U) in Hw. apply oc_good_arg; [auto|]. cbn in Hw. intuition (subst; auto). }
    assert (A3 : forall g, suits m ["xe"; "p"] g -> forall w, In w (gf_args g) ->
      good_arg (oc_prob m t) dvec w (batch_shape m t w) (base_shape m w) [] (fun e => oc_arg dvec e w)).
    { intros g U w Hw. apply (su_args _ _ _ U) in Hw. apply oc_good_arg; [auto|]. cbn in Hw. intuition (subst; auto). }
    destruct oc_fns with (m := m) (t := t) as [EO EC].
    assert (PK : forall f : nat -> list T, flat_map f (seq 0 (prodn [K])) = flat_map f (seq 0 K)) by (intros f; cbn; now rewrite Nat.mul_1_r).
    assert (PN : forall f : nat -> list T, flat_map f (seq 0 (prodn [N])) = flat_map f (seq 0 N)) by (intros f; cbn [prodn fold_right]; now rewrite Nat.mul_1_r).
    assert (P0 : forall f : nat -> list T, flat_map f (seq 0 (prodn [])) = f 0) by (intros f; cbn; now rewrite app_nil_r).
    destruct (values_run (oc_prob m t) (oc_sel m t) dvec R SE HL
      [flat_map (val ge) (seq 0 K); flat_map (val gg) (seq 0 N); val gh 0] [flat_map (val gIL) (seq 0 K); val gM 0]) as [E1 E2].
    - assert (Q : Forall2 (fun so v => valued (oc_prob m t) dvec (fst so) (snd so) v)
        (map (fun co => (c_shape (fst co), snd co)) (p_constraints (oc_prob m t)))
        [flat_map (val ge) (seq 0 K); flat_map (val gg) (seq 0 N); val gh 0]).
      { rewrite EC. constructor; [|constructor; [|constructor; [|constructor]]]; cbn [fst snd].
        + rewrite (ocg_e _ _ _ _ _ _ H), <- PK. eapply plain_valued; eauto using ocs_e, piece_ext, ocw_e. now rewrite (oco_e _ _ _ _ _ _ H).
        + rewrite (ocg_g _ _ _ _ _ _ H), <- PN. eapply plain_valued; eauto using ocs_g, point_ext, ocw_g, incl_refl. now rewrite (oco_g _ _ _ _ _ _ H).
        + rewrite (ocg_h _ _ _ _ _ _ H), <- (P0 (val gh)). eapply plain_valued; eauto using ocs_h, end_ext, incl_refl. now rewrite (oco_h _ _ _ _ _ _ H). }
      clear - Q. revert Q. generalize (p_constraints (oc_prob m t)).
      generalize [flat_map (val ge) (seq 0 K); flat_map (val gg) (seq 0 N); val gh 0]. intros vs cs. revert vs.
      induction cs as [|c cs IH]; intros vs Q; inversion Q; subst; constructor; auto.
    - rewrite EO. constructor; [|constructor; [|constructor]]; cbn [mk_optfun o_shape].
      + rewrite (ocg_IL _ _ _ _ _ _ H), <- PK. eapply plain_valued; eauto using ocs_IL, piece_ext, ocw_IL. now rewrite (oco_IL _ _ _ _ _ _ H).
      + rewrite (ocg_M _ _ _ _ _ _ H), <- (P0 (val gM)). eapply plain_valued; eauto using ocs_M, end_ext, incl_refl. now rewrite (oco_M _ _ _ _ _ _ H).
    - rewrite E1, E2. cbn [concat map]. rewrite app_nil_r. split; [reflexivity|].
      rewrite !lsum_cons, lsum_nil. f_equal. ring.
  Qed.
End OcValues.

Section EstValues.
  Context {T : Type} {NT : Num T} {OT : NumOrd T}.
  Add Ring Test : (num_rt (T:=T)).
  Variable m : colmodel T.
  Variable t : list T.
  Hypothesis G : good_grid m t.
  Variable y : list (yrow T).
  Variable uv : arr T.
  Hypothesis D : good_data m t y uv.
  Notation n := (col_n (m_col m)).
  Notation K := (npieces t).
  Notation N := (npoints m t).
  Notation KM := (kmeas (m_col m) y).
  Notation nm := (length KM).

  (** *** Specification: states, noise and parameters of a decision vector *)
  Definition est_x (dvec : list T) (i c : nat) : T := nth (i * m_nx m + c) dvec n0.
  Definition est_wc (dvec : list T) (i c : nat) : T := nth (N * m_nx m + (i * m_nw m + c)) dvec n0.
  Definition est_p (jme : bool) (dvec : list T) (c : nat) : T :=
    nth (N * m_nx m + (if jme then K * (n - 1) * m_nw m else 0) + c) dvec n0.
  (** The arguments of a function evaluated for piece [e]. *)
  Definition est_arg (jme : bool) (dvec : list T) (e : nat) (w : string) : list T :=
    if String.eqb w "xp" then rows (est_x dvec) (seq (e * (n - 1)) n) (m_nx m) else
    if String.eqb w "up" then rows (rowat uv (m_nu m)) (seq (e * (n - 1)) n) (m_nu m) else
    if String.eqb w "p" then map (est_p jme dvec) (seq 0 (m_np m)) else
    if String.eqb w "piece_len" then [nsub (nth (e + 1) t n0) (nth e t n0)] else
    if String.eqb w "wc" then rows (est_wc dvec) (seq (e * (n - 1)) (n - 1)) (m_nw m) else
    if String.eqb w "G" then adat (m_G m) else adat (m_penweight m).
  (** ... and of the measurement likelihood at the [r]-th measurement kept,
      whose coarse time index is [nth r (kmeas_coarse y)]. *)
  Definition meas_arg (jme : bool) (dvec : list T) (r : nat) (w : string) : list T :=
    let k := nth r (kmeas_coarse y) 0 in
    if String.eqb w "y" then map (fun c => fst (nth c (nth k y []) (n0, true))) (seq 0 (m_ny m)) else
    if String.eqb w "x" then map (est_x dvec (k * (n - 1))) (seq 0 (m_nx m)) else
    if String.eqb w "u" then map (rowat uv (m_nu m) (k * (n - 1))) (seq 0 (m_nu m)) else
    map (est_p jme dvec) (seq 0 (m_np m)).

  Lemma in_p jme : In ("p", dec_spec (Comp [m_np m] (Z.of_nat (N * m_nx m + nwc m t jme)))) (oem_specs m t y jme).
  Proof. unfold oem_specs. destruct jme; cbn; auto. Qed.
  Lemma in_xp jme : In ("xp", piece_spec (dec_spec (Comp [N; m_nx m] 0)) K n) (oem_specs m t y jme).
  Proof. unfold oem_specs. destruct jme; cbn; auto 8. Qed.
  Lemma in_xm jme : In ("xm", xm_spec (dec_spec (Comp [N; m_nx m] 0)) KM) (oem_specs m t y jme).
  Proof. unfold oem_specs. destruct jme; cbn; auto 8. Qed.
  Lemma in_wc jme : jme = true -> In ("wc", dec_spec (Comp (wc_shape m t) (Z.of_nat (N * m_nx m)))) (oem_specs m t y jme).
  Proof. intros ->. unfold oem_specs. cbn; auto 8. Qed.
  Lemma jme_names (jme : bool) (w : string) : In w ((if jme then ["wc"; "G"] else []) ++ (if jme then ["penweight"] else [])) ->
    jme = true /\ In w ["wc"; "G"; "penweight"].
  Proof. destruct jme; cbn; tauto. Qed.

  Section Q.
  Variables (jme : bool) (q : problem T).
  Hypothesis L : oem_like m t y uv jme q.
  Hypothesis S : oem_small m t jme.
  Hypothesis E : est_extra m t y uv jme q.
  Hypothesis J : jme = true -> jme_constants m.
  Hypothesis R : reachable q.
  Variable dvec : list T.
  Hypothesis HL : length dvec = ndec q.

  Lemma est_reads v sp : In (v, sp) (oem_specs m t y jme) ->
    reads q dvec v (prodn (s_shape sp)) (fun i => nth (oem_sel m t y jme v i) dvec n0).
  Proof.
    intros Hin. destruct (variables_ok q (oem_sel m t y jme) dvec (reachable_inv _ R) (oem_selects m t G y uv D jme q L S) HL)
      as (vars & Ev & Hv & _).
    exists vars, (var_at (oem_sel m t y jme) dvec v sp). split; [exact Ev|].
    split; [apply Hv; rewrite (oem_all_specs m t y uv jme); auto|]. split; [cbn; now rewrite map_length, seq_length|].
    intros i Hi. now apply var_elem.
  Qed.
  Lemma const_reads v a : In v ["y"; "um"; "u"; "up"; "piece_len"; "penweight"; "G"] ->
    dget String.eqb (p_extra q) v = Some a -> awf a -> reads q dvec v (prodn (ash a)) (fun i => nth i (adat a) n0).
  Proof.
    intros Hv Ea Wa. destruct (variables_ok q (oem_sel m t y jme) dvec (reachable_inv _ R) (oem_selects m t G y uv D jme q L S) HL)
      as (vars & Ev & _ & Hc).
    exists vars, a. split; [exact Ev|]. split; [rewrite Hc; [unfold dlookup; now rewrite Ea|]|split; [exact Wa|auto]].
    rewrite <- fst_all_specs, (oem_all_specs m t y uv jme q L S). now apply specs_names.
  Qed.
  Lemma reads_ext v len f g : reads q dvec v len f -> (forall i, i < len -> f i = g i) -> reads q dvec v len g.
  Proof. intros (vars & a & H1 & H2 & H3 & H4) Hfg. exists vars, a. split; [auto|]. split; [auto|]. split; [auto|]. intros i Hi. rewrite H4; auto. Qed.

  Lemma p_good ext : length ext <= 1 -> good_arg q dvec "p" [] [m_np m] ext (fun _ => map (est_p jme dvec) (seq 0 (m_np m))).
  Proof.
    intros H. eapply good_plain; [auto|apply (est_reads "p" (dec_spec (Comp [m_np m] (Z.of_nat (N * m_nx m + nwc m t jme)))))|].
    - apply in_p.
    - intros e. cbn [prodn fold_right]. rewrite Nat.mul_1_r. reflexivity.
  Qed.

  Lemma est_good_arg w : In w (e_names jme ++ (if jme then ["penweight"] else [])) ->
    good_arg q dvec w (batch_shape m t w) (base_shape m w) [K] (fun e => est_arg jme dvec e w).
  Proof.
    destruct E as [E1 E2]. intros Hv. unfold e_names in Hv. rewrite <- app_assoc in Hv. apply in_app_or in Hv as [Hv|Hv].
    - cbn [In] in Hv. destruct Hv as [<-|[<-|[<-|[<-|[]]]]].
      + eapply good_batch; [apply (est_reads "xp" (piece_spec (dec_spec (Comp [N; m_nx m] 0)) K n)); apply in_xp|].
        intros e _. cbn [base_shape String.eqb Ascii.eqb Bool.eqb prodn fold_right]. rewrite Nat.mul_1_r. symmetry.
        apply (piece_slice dvec 0 n (m_nx m) e).
      + eapply good_batch; [apply (const_reads "up" (up_arr m t uv)); [cbn; auto 8|rewrite E1 by (cbn; auto 8); reflexivity|apply up_wf]|].
        intros e He. cbn [base_shape String.eqb Ascii.eqb Bool.eqb prodn fold_right]. rewrite Nat.mul_1_r. symmetry.
        apply rows_seq. intros j c Hj Hc. rewrite <- (up_row m t uv e j c); auto. f_equal. lia.
      + apply p_good. cbn. lia.
      + eapply good_batch.
        * apply reads_ext with (f := fun i => nth i (adat (piece_len t)) n0).
          -- apply (const_reads "piece_len" (piece_len t)); [cbn; auto 8|rewrite E1 by (cbn; auto 8); reflexivity|apply len_wf].
          -- intros i Hi. cbn [adat piece_len]. instantiate (1 := fun e => nsub (nth (e + 1) t n0) (nth e t n0)). apply diff_nth. cbn in Hi. unfold npieces in Hi. lia.
        * intros e _. cbn. now rewrite Nat.add_0_r, Nat.mul_1_r.
    - apply jme_names in Hv as [EJ Hv]. destruct (E2 EJ) as [EG EP]. destruct (J EJ) as (J1 & J2 & J3 & J4).
      cbn [In app] in Hv. destruct Hv as [<-|[<-|[<-|[]]]].
      + eapply good_batch; [apply (est_reads "wc" (dec_spec (Comp (wc_shape m t) (Z.of_nat (N * m_nx m)))))|].
        * now apply in_wc.
        * intros e _. cbn [base_shape String.eqb Ascii.eqb Bool.eqb prodn fold_right]. rewrite Nat.mul_1_r. symmetry.
          apply rows_seq. intros j c Hj Hc. unfold est_wc. cbn [oem_sel String.eqb Ascii.eqb Bool.eqb]. f_equal. nia.
      + change (base_shape m "G") with [m_nx m; m_nw m]. change (batch_shape m t "G") with (@nil nat). rewrite <- J1.
        eapply good_plain; [cbn; lia|apply (const_reads "G" (m_G m)); [cbn; auto 8|exact EG|exact J2]|].
        intros e. unfold est_arg. cbn [String.eqb Ascii.eqb Bool.eqb]. rewrite <- J2. symmetry. apply map_nth_seq.
      + change (base_shape m "penweight") with [m_nx m]. change (batch_shape m t "penweight") with (@nil nat). rewrite <- J3.
        eapply good_plain; [cbn; lia|apply (const_reads "penweight" (m_penweight m)); [cbn; auto 8|exact EP|exact J4]|].
        intros e. unfold est_arg. cbn [String.eqb Ascii.eqb Bool.eqb]. rewrite <- J4. symmetry. apply map_nth_seq.
  Qed.

  Lemma L_good_arg w : In w L_names ->
    good_arg q dvec (if String.eqb w "x" then "xm" else if String.eqb w "u" then "um" else w) (L_batch m y w) (base_shape m w) [nm]
      (fun r => meas_arg jme dvec r w).
  Proof.
      destruct E as [E1 _]. intros Hw.
      assert (KMn : forall r, r < nm -> nth r KM 0 = nth r (kmeas_coarse y) 0 * (n - 1)).
      { intros r Hr. unfold kmeas in Hr |- *. rewrite map_length in Hr. now rewrite nth_map_d with (a := 0). }
      cbn [L_names In] in Hw. destruct Hw as [<-|[<-|[<-|[<-|[]]]]].
      + eapply good_batch; [apply (const_reads "y" (y_arr m y)); [cbn; auto 8|rewrite E1 by (cbn; auto 8); reflexivity|eapply y_wf; eauto]|].
        intros r Hr. cbn [base_shape String.eqb Ascii.eqb Bool.eqb prodn fold_right]. rewrite Nat.mul_1_r.
        apply map_ext_in. intros c Hc. apply in_seq in Hc. symmetry. apply (y_row m t y uv D r c); auto. lia.
      + eapply good_batch; [apply (est_reads "xm" (xm_spec (dec_spec (Comp [N; m_nx m] 0)) KM)); apply in_xm|].
        intros r Hr. cbn [base_shape String.eqb Ascii.eqb Bool.eqb prodn fold_right]. rewrite Nat.mul_1_r.
        apply map_ext_in. intros c Hc. apply in_seq in Hc. cbn [oem_sel String.eqb Ascii.eqb Bool.eqb].
        rewrite xm_ind_radix by lia. now rewrite KMn.
      + eapply good_batch; [apply (const_reads "um" (um_arr m y uv)); [cbn; auto 8|rewrite E1 by (cbn; auto 8); reflexivity|eapply um_wf; eauto]|].
        intros r Hr. cbn [base_shape String.eqb Ascii.eqb Bool.eqb prodn fold_right]. rewrite Nat.mul_1_r.
        apply map_ext_in. intros c Hc. apply in_seq in Hc. rewrite <- KMn by auto. symmetry. apply (um_row m t y uv); auto. lia.
      + apply p_good. cbn. lia.
  Qed.
  Lemma L_valued gL : suits m L_names gL -> gf_args gL = L_names -> gf_out gL = [] ->
    valued q dvec [nm] (mk_optfun [nm] (gen_fn gL) (Some ["y"; "xm"; "um"; "p"]))
      (flat_map (fun r => gf_base gL (map (meas_arg jme dvec r) (gf_args gL))) (seq 0 nm)).
  Proof.
    intros U EA EO.
    assert (EN : seq 0 nm = seq 0 (prodn [nm])) by (cbn [prodn fold_right]; now rewrite Nat.mul_1_r).
    rewrite EN. replace [nm] with ([nm] ++ gf_out gL) at 1 by now rewrite EO.
    apply (gen_value q (oem_sel m t y jme) R (oem_selects m t G y uv D jme q L S) _ gL (L_batch m y) [nm]); auto.
    - apply (su_wf _ _ _ U).
    - cbn [mk_optfun o_args]. repeat constructor; cbn; intuition discriminate.
    - cbn [mk_optfun o_args gen_fn f_sig]. now rewrite EA.
    - intros w. now apply (L_shape m t y uv D jme q L S E J).
    - now apply L_ext.
    - intros w Hw. rewrite (base_of_suits m L_names gL w U Hw). rewrite EA in Hw.
      rewrite (L_param m y gL) by auto.
      now apply L_good_arg.
  Qed.

  Lemma est_valued g s names : suits m names g -> incl names (e_names jme ++ (if jme then ["penweight"] else [])) ->
    (exists w, In w (gf_args g) /\ In w ["xp"; "up"; "piece_len"; "wc"]) -> s = [K] ++ gf_out g ->
    valued q dvec s (mk_optfun s (gen_fn g) None) (flat_map (fun e => gf_base g (map (est_arg jme dvec e) (gf_args g))) (seq 0 K)).
  Proof.
    intros U I Hw Es. assert (EN : seq 0 K = seq 0 (prodn [K])) by (cbn; now rewrite Nat.mul_1_r). rewrite EN.
    eapply (plain_valued q (oem_sel m t y jme) R (oem_selects m t G y uv D jme q L S)); eauto.
    - intros v Hv. apply (est_shapes m t y uv jme q L S E J). auto.
    - eapply piece_ext; eauto. intros v Hv. apply I in Hv. unfold e_names in Hv. destruct jme; cbn in Hv |- *; tauto.
    - intros w Hin. apply est_good_arg. apply I, (su_args _ _ _ U), Hin.
  Qed.
  End Q.

  Theorem oem_values ge gL dvec : oem_small m t false -> oem_generated m false ge gL ->
    let q := oem_prob m t y uv false in length dvec = ndec q ->
    constr q dvec = Ok (flat_map (fun k => gf_base ge (map (est_arg false dvec k) (gf_args ge))) (seq 0 K)) /\
    obj q dvec = Ok (lsum (flat_map (fun r => gf_base gL (map (meas_arg false dvec r) (gf_args gL))) (seq 0 nm))).
  Proof.
    intros S H q HL. assert (R : reachable q) by exact (oem_reachable m t y uv false S).
    assert (LK : oem_like m t y uv false q) by apply oem_is_like. assert (EX : est_extra m t y uv false q) by apply oem_est_extra.
    destruct (values_run q (oem_sel m t y false) dvec R (oem_selects m t G y uv D false q LK S) HL
      [flat_map (fun k => gf_base ge (map (est_arg false dvec k) (gf_args ge))) (seq 0 K)]
      [flat_map (fun r => gf_base gL (map (meas_arg false dvec r) (gf_args gL))) (seq 0 nm)]) as [E1 E2].
    - change (p_constraints q) with [(Comp [K; n - 1; m_nx m] 0, mk_optfun [K; n - 1; m_nx m] (m_e m) None)].
      constructor; [|constructor]. cbn [fst snd c_shape]. rewrite (oeg_e _ _ _ _ H).
      apply (est_valued false q LK S EX) with (names := e_names false); auto; try discriminate.
      + apply (oes_e _ _ _ _ H). + intros v Hv. apply in_or_app. auto. + apply (oew_e _ _ _ _ H). + now rewrite (oeo_e _ _ _ _ H).
    - change (p_objectives q) with [mk_optfun [nm] (m_Lmeas m) (Some ["y"; "xm"; "um"; "p"])]. constructor; [|constructor].
      rewrite (oeg_L _ _ _ _ H). apply (L_valued false q); auto; try discriminate.
      + apply (oes_L _ _ _ _ H). + apply (oea_L _ _ _ _ H). + apply (oeo_L _ _ _ _ H).
    - rewrite E1, E2. cbn [concat map]. rewrite app_nil_r. split; [reflexivity|]. rewrite lsum_cons, lsum_nil. f_equal. ring.
  Qed.

  Theorem jme_values ge gL gt gp dvec : oem_small m t true -> oem_generated m true ge gL -> jme_generated m gt gp -> jme_constants m ->
    let q := jme_prob m t y uv in length dvec = ndec q ->
    let val g k := gf_base g (map (est_arg true dvec k) (gf_args g)) in
    constr q dvec = Ok (flat_map (val ge) (seq 0 K)) /\
    obj q dvec = Ok (nadd (lsum (flat_map (fun r => gf_base gL (map (meas_arg true dvec r) (gf_args gL))) (seq 0 nm)))
      (nadd (lsum (flat_map (val gt) (seq 0 K))) (if m_use_penalty m then lsum (flat_map (val gp) (seq 0 K)) else n0))).
  Proof.
    intros S H HJ JC q HL val. assert (R : reachable q) by exact (jme_reachable m t y uv S).
    assert (LK : oem_like m t y uv true q) by apply jme_is_like. assert (EX : est_extra m t y uv true q) by apply jme_est_extra.
    assert (I1 : incl (e_names true) (e_names true ++ ["penweight"])) by (intros v Hv; apply in_or_app; auto).
    assert (CT : valued q dvec [K] (mk_optfun [K] (m_tube_L m) None) (flat_map (val gt) (seq 0 K))).
    { rewrite (jmg_t _ _ _ HJ). apply (est_valued true q LK S EX (fun _ => JC)) with (names := e_names true); auto.
      + apply (jms_t _ _ _ HJ). + apply (jmw_t _ _ _ HJ). + now rewrite (jmo_t _ _ _ HJ). }
    assert (CP : m_use_penalty m = true -> valued q dvec [K] (mk_optfun [K] (m_penalty m) None) (flat_map (val gp) (seq 0 K))).
    { intros UP. rewrite (jmg_p _ _ _ HJ UP). apply (est_valued true q LK S EX (fun _ => JC)) with (names := e_names true ++ ["penweight"]); auto.
      + apply (jms_p _ _ _ HJ UP). + apply incl_refl. + apply (jmw_p _ _ _ HJ UP). + now rewrite (jmo_p _ _ _ HJ UP). }
    assert (CL : valued q dvec [nm] (mk_optfun [nm] (m_Lmeas m) (Some ["y"; "xm"; "um"; "p"]))
      (flat_map (fun r => gf_base gL (map (meas_arg true dvec r) (gf_args gL))) (seq 0 nm))).
    { rewrite (oeg_L _ _ _ _ H). apply (L_valued true q); auto.
      + apply (oes_L _ _ _ _ H). + apply (oea_L _ _ _ _ H). + apply (oeo_L _ _ _ _ H). }
    destruct (values_run q (oem_sel m t y true) dvec R (oem_selects m t G y uv D true q LK S) HL
      [flat_map (val ge) (seq 0 K)]
      ([flat_map (fun r => gf_base gL (map (meas_arg true dvec r) (gf_args gL))) (seq 0 nm); flat_map (val gt) (seq 0 K)]
       ++ (if m_use_penalty m then [flat_map (val gp) (seq 0 K)] else []))) as [E1 E2].
    - assert (EC : p_constraints q = [(Comp [K; n - 1; m_nx m] 0, mk_optfun [K; n - 1; m_nx m] (m_e m) None)])
        by (unfold q, jme_prob, jme_ops; destruct (m_use_penalty m); reflexivity).
      rewrite EC. constructor; [|constructor]. cbn [fst snd c_shape]. rewrite (oeg_e _ _ _ _ H).
      apply (est_valued true q LK S EX (fun _ => JC)) with (names := e_names true); auto.
      + apply (oes_e _ _ _ _ H). + apply (oew_e _ _ _ _ H). + now rewrite (oeo_e _ _ _ _ H).
    - assert (EO : p_objectives q = [mk_optfun [nm] (m_Lmeas m) (Some ["y"; "xm"; "um"; "p"]); mk_optfun [K] (m_tube_L m) None]
        ++ (if m_use_penalty m then [mk_optfun [K] (m_penalty m) None] else []))
        by (unfold q, jme_prob, jme_ops; destruct (m_use_penalty m); reflexivity).
      rewrite EO. constructor; [exact CL|]. constructor; [exact CT|]. destruct (m_use_penalty m); [constructor; [exact (CP eq_refl)|constructor]|constructor].
    - rewrite E1, E2. cbn [concat map app]. rewrite app_nil_r. split; [reflexivity|].
      destruct (m_use_penalty m); cbn [map]; rewrite ?lsum_cons, ?lsum_nil; f_equal; ring.
  Qed.
End EstValues.
