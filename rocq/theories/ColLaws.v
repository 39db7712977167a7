(** Reachability, sizes and selectors of the collocated problems. *)
From Coq Require Import String List ZArith Bool Arith Lia.
From Verif Require Import Py NdArray OptimModel ColModel DictLemmas Builder BuilderLemmas NdLemmas OptimSpec OptimLaws
  LawFacts LayoutLemmas ProblemSpec ProblemLemmas ProblemFacts ColBuild.
Import ListNotations.
Local Open Scope string_scope.
Local Open Scope list_scope.
Local Open Scope nat_scope.

(** No array has 2**31 elements or more (np.intc sizes). *)
Definition small (s : shape) : Prop := (Z.of_nat (prodn s) < 2 ^ 31)%Z.

Section ColLaws.
  Context {T : Type} {NT : Num T} {OT : NumOrd T}.
  Variable m : colmodel T.
  Variable t : list T.
  Hypothesis G : good_grid m t.
  Notation n := (col_n (m_col m)).
  Notation K := (npieces t).
  Notation N := (npoints m t).

  Lemma K_pos : 1 <= K.
  Proof. unfold npieces. pose proof (gg_t _ _ G). lia. Qed.
  Lemma N_ge2 : 2 <= N.
  Proof. unfold npoints. pose proof (gg_n _ _ G). pose proof K_pos. nia. Qed.

  Lemma csize_of s off : small s -> csize (Comp s off) = Z.of_nat (prodn s).
  Proof. intros H. now apply csize_small. Qed.
  Lemma op_small_dec (name : string) s : small s -> op_small (AddDecision (T := T) name s).
  Proof. unfold small, op_small. now rewrite prodZ_prodn. Qed.
  Lemma op_small_cons (f : fn T) s args : small s -> op_small (AddConstraint f s args).
  Proof. unfold small, op_small. now rewrite prodZ_prodn. Qed.
  Lemma small_defects nx : small [N; nx] -> small [K; n - 1; nx].
  Proof. unfold small. cbn [prodn fold_right]. unfold npoints. nia. Qed.

  (** *** Optimal control *)
  Definition oc_small : Prop :=
    small [N; m_nx m] /\ small [N; m_nu m] /\ small [m_np m] /\ small [N; m_ng m] /\ small [m_nh m].

  Definition oc_sel (v : string) (i : nat) : nat :=
    if String.eqb v "x" then i
    else if String.eqb v "xp" then piece_ind n (m_nx m) i
    else if String.eqb v "xe" then xe_ind N (m_nx m) i
    else if String.eqb v "u" then N * m_nx m + i
    else if String.eqb v "up" then N * m_nx m + piece_ind n (m_nu m) i
    else N * m_nx m + N * m_nu m + i.

  Lemma oc_reachable : oc_small -> reachable (oc_prob m t).
  Proof.
    intros (S1 & S2 & S3 & S4 & S5). exists (oc_ops m t), [("piece_len", piece_len t)]. split; [|reflexivity].
    unfold oc_ops, col_ops, x_ops. cbn [app].
    repeat (apply Forall_cons || apply Forall_nil); cbn [op_small]; rewrite ?prodZ_prodn; first [exact I | assumption | now apply small_defects].
  Qed.

  Lemma prodn2 a b : prodn [a; b] = a * b.
  Proof. cbn. lia. Qed.
  Lemma prodn1 a : prodn [a] = a.
  Proof. cbn. lia. Qed.

  Lemma oc_ndec : oc_small -> ndec (oc_prob m t) = N * m_nx m + N * m_nu m + m_np m.
  Proof.
    intros (S1 & S2 & S3 & S4 & S5). unfold ndec.
    change (p_ndec (oc_prob m t)) with (0 + csize (Comp [N; m_nx m] 0) + csize (Comp [N; m_nu m] (0 + csize (Comp [N; m_nx m] 0)))
      + csize (Comp [m_np m] (0 + csize (Comp [N; m_nx m] 0) + csize (Comp [N; m_nu m] (0 + csize (Comp [N; m_nx m] 0))))))%Z.
    rewrite !csize_of by auto. rewrite !prodn2, prodn1. lia.
  Qed.
  Lemma oc_ncons : oc_small -> ncons (oc_prob m t) = K * (n - 1) * m_nx m + N * m_ng m + m_nh m.
  Proof.
    intros (S1 & S2 & S3 & S4 & S5). pose proof (small_defects _ S1) as S6. unfold ncons.
    change (p_ncons (oc_prob m t)) with (0 + csize (Comp [K; (n - 1)%nat; m_nx m] 0) + csize (Comp [N; m_ng m] (0 + csize (Comp [K; (n - 1)%nat; m_nx m] 0)))
      + csize (Comp [m_nh m] (0 + csize (Comp [K; (n - 1)%nat; m_nx m] 0) + csize (Comp [N; m_ng m] (0 + csize (Comp [K; (n - 1)%nat; m_nx m] 0))))))%Z.
    rewrite !csize_of by auto. cbn [prodn fold_right]. rewrite Z.add_0_l, <- !Nat2Z.inj_add, Nat2Z.id. ring.
  Qed.

  (** The variables of the problem with their shapes, in order. *)
  Definition oc_specs : sdict (spec T) :=
    let xd := Comp [N; m_nx m] 0 in
    let ud := Comp [N; m_nu m] (Z.of_nat (N * m_nx m)) in
    [("x", dec_spec xd); ("u", dec_spec ud); ("p", dec_spec (Comp [m_np m] (Z.of_nat (N * m_nx m + N * m_nu m))));
     ("xp", piece_spec (dec_spec xd) K n); ("up", piece_spec (dec_spec ud) K n); ("xe", xe_spec (dec_spec xd))].

  Lemma oc_all_specs : oc_small -> all_specs (oc_prob m t) = oc_specs.
  Proof.
    intros (S1 & S2 & S3 & S4 & S5). unfold oc_specs.
    replace (Z.of_nat (N * m_nx m)) with (0 + csize (Comp [N; m_nx m] 0))%Z by (rewrite csize_of, prodn2; auto).
    replace (Z.of_nat (N * m_nx m + N * m_nu m))
      with (0 + csize (Comp [N; m_nx m] 0) + csize (Comp [N; m_nu m] (0 + csize (Comp [N; m_nx m] 0))))%Z
      by (rewrite !csize_of, !prodn2; auto; lia).
    reflexivity.
  Qed.

  Lemma fits_at (k : nat) s off : small s -> off + prodn s <= k -> comp_fits k (Comp s (Z.of_nat off)) off.
  Proof. intros. repeat split; auto. Qed.

  Lemma sel_ext k (sp : spec T) s s' : (forall i, s i = s' i) -> lawful k sp s -> lawful k sp s'.
  Proof.
    intros E [L1 L2 L3 L4]. constructor; intros.
    - rewrite <- E; auto.
    - rewrite L2 by auto. do 2 f_equal. apply map_ext. intros i. now rewrite E.
    - rewrite L3 by auto. f_equal. apply map_ext. intros i. now rewrite E.
    - destruct (L4 dest v) as (d1 & Q1 & Q2 & Q3); auto. exists d1. split; [auto|]. split; [auto|].
      intros d. rewrite Q3. f_equal. apply sumn_ext. intros i _. now rewrite E.
  Qed.

  Lemma piece_sel k s off nx : comp_fits k (Comp [N; nx] s) off ->
    lawful (T := T) k (piece_spec (dec_spec (Comp [N; nx] s)) K n) (fun i => off + piece_ind n nx i).
  Proof.
    intros F. eapply sel_ext; [|apply (piece_lawful k _ (fun i => off + i) K n [nx] (dec_lawful k _ off F))].
    - intros i. cbn beta. now rewrite prodn1.
    - reflexivity.
    - apply (gg_n _ _ G).
    - apply K_pos.
  Qed.

  Lemma oc_selects : oc_small -> selects (oc_prob m t) oc_sel.
  Proof.
    intros H name sp Hin. rewrite oc_all_specs in Hin by auto. rewrite oc_ndec by auto. destruct H as (S1 & S2 & S3 & S4 & S5).
    assert (F1 : comp_fits (N * m_nx m + N * m_nu m + m_np m) (Comp [N; m_nx m] 0) 0) by (apply (fits_at _ _ 0); auto; rewrite prodn2; lia).
    assert (F2 : comp_fits (N * m_nx m + N * m_nu m + m_np m) (Comp [N; m_nu m] (Z.of_nat (N * m_nx m))) (N * m_nx m))
      by (apply fits_at; auto; rewrite prodn2; lia).
    unfold oc_specs in Hin. cbn [In] in Hin.
    repeat (destruct Hin as [Hin|Hin]; [injection Hin as <- <-|]); [..|contradiction]; cbn [oc_sel String.eqb Ascii.eqb Bool.eqb].
    - exact (dec_lawful _ _ 0 F1).
    - exact (dec_lawful _ _ _ F2).
    - apply (dec_lawful _ _ (N * m_nx m + N * m_nu m)). apply fits_at; auto. rewrite prodn1. lia.
    - exact (piece_sel _ _ 0 _ F1).
    - exact (piece_sel _ _ _ _ F2).
    - exact (xe_lawful _ _ _ N (m_nx m) (dec_lawful _ _ 0 F1) eq_refl N_ge2).
  Qed.

  (** *** Output error and joint MAP estimation *)
  Variable y : list (yrow T).
  Variable uv : arr T.
  Hypothesis D : good_data m t y uv.
  Notation KM := (kmeas (m_col m) y).

  (** Number of noise coordinates. *)
  Definition nwc (jme : bool) : nat := if jme then K * (n - 1) * m_nw m else 0.
  Definition oem_small (jme : bool) : Prop :=
    small [N; m_nx m] /\ small [m_np m] /\ (jme = true -> small (wc_shape m t)).

  Definition oem_sel (jme : bool) (v : string) (i : nat) : nat :=
    if String.eqb v "x" then i
    else if String.eqb v "xp" then piece_ind n (m_nx m) i
    else if String.eqb v "xm" then xm_ind KM (m_nx m) i
    else if String.eqb v "wc" then N * m_nx m + i
    else N * m_nx m + nwc jme + i.

  Definition oem_specs (jme : bool) : sdict (spec T) :=
    let xd := Comp [N; m_nx m] 0 in
    ("x", dec_spec xd) :: (if jme then [("wc", dec_spec (Comp (wc_shape m t) (Z.of_nat (N * m_nx m))))] else []) ++
    [("p", dec_spec (Comp [m_np m] (Z.of_nat (N * m_nx m + nwc jme))));
     ("xp", piece_spec (dec_spec xd) K n); ("xm", xm_spec (dec_spec xd) KM)].

  (** [q] has the variables of an oem (jme) problem, whatever its functions. *)
  Definition oem_like (jme : bool) (q : problem T) : Prop :=
    p_decision q = p_decision (oem_prob m t y uv jme) /\ p_remapped q = p_remapped (oem_prob m t y uv jme) /\
    p_ndec q = p_ndec (oem_prob m t y uv jme).

  Lemma nwc_size : prodn (wc_shape m t) = nwc true.
  Proof. unfold wc_shape, nwc. cbn. lia. Qed.

  Lemma oem_ndec jme q : oem_like jme q -> oem_small jme -> ndec q = N * m_nx m + nwc jme + m_np m.
  Proof.
    intros (_ & _ & E) (S1 & S2 & S3). unfold ndec. rewrite E. destruct jme.
    - change (p_ndec (oem_prob m t y uv true)) with (0 + csize (Comp [N; m_nx m] 0) + csize (Comp (wc_shape m t) (0 + csize (Comp [N; m_nx m] 0)))
        + csize (Comp [m_np m] (0 + csize (Comp [N; m_nx m] 0) + csize (Comp (wc_shape m t) (0 + csize (Comp [N; m_nx m] 0))))))%Z.
      rewrite !csize_of by auto. rewrite nwc_size, prodn1, prodn2. lia.
    - change (p_ndec (oem_prob m t y uv false)) with (0 + csize (Comp [N; m_nx m] 0) + csize (Comp [m_np m] (0 + csize (Comp [N; m_nx m] 0))))%Z.
      rewrite !csize_of by auto. rewrite prodn1, prodn2. unfold nwc. lia.
  Qed.

  Lemma oem_all_specs jme q : oem_like jme q -> oem_small jme -> all_specs q = oem_specs jme.
  Proof.
    intros (E1 & E2 & _) (S1 & S2 & S3). unfold all_specs. rewrite E1, E2. unfold oem_specs. destruct jme.
    - replace (Z.of_nat (N * m_nx m + nwc true))
        with (0 + csize (Comp [N; m_nx m] 0) + csize (Comp (wc_shape m t) (0 + csize (Comp [N; m_nx m] 0))))%Z
        by (rewrite !csize_of, prodn2, nwc_size; auto; lia).
      replace (Z.of_nat (N * m_nx m)) with (0 + csize (Comp [N; m_nx m] 0))%Z by (rewrite csize_of, prodn2; auto).
      reflexivity.
    - replace (Z.of_nat (N * m_nx m + nwc false)) with (0 + csize (Comp [N; m_nx m] 0))%Z
        by (rewrite csize_of, prodn2; auto; unfold nwc; lia).
      reflexivity.
  Qed.

  Lemma oem_selects jme q : oem_like jme q -> oem_small jme -> selects q (oem_sel jme).
  Proof.
    intros L H name sp Hin. rewrite (oem_all_specs jme) in Hin by auto. rewrite (oem_ndec jme) by auto. destruct H as (S1 & S2 & S3).
    assert (F1 : comp_fits (N * m_nx m + nwc jme + m_np m) (Comp [N; m_nx m] 0) 0) by (apply (fits_at _ _ 0); auto; rewrite prodn2; lia).
    assert (Hp : lawful (T := T) (N * m_nx m + nwc jme + m_np m) (dec_spec (Comp [m_np m] (Z.of_nat (N * m_nx m + nwc jme))))
                   (fun i => N * m_nx m + nwc jme + i)).
    { apply (dec_lawful _ _ (N * m_nx m + nwc jme)). apply fits_at; auto. rewrite prodn1. lia. }
    assert (Hxm : lawful (T := T) (N * m_nx m + nwc jme + m_np m) (xm_spec (dec_spec (Comp [N; m_nx m] 0)) KM) (fun i => xm_ind KM (m_nx m) i)).
    { apply (xm_lawful _ _ _ N (m_nx m) KM (dec_lawful _ _ 0 F1) eq_refl).
      - intros k Hk. apply (kmeas_lt m t y k G (gd_y _ _ _ _ D) Hk).
      - exact (kmeas_NoDup m t y G). }
    unfold oem_specs in Hin. apply in_inv in Hin as [Hin|Hin].
    { injection Hin as <- <-. exact (dec_lawful _ _ 0 F1). }
    apply in_app_or in Hin as [Hin|Hin].
    - destruct jme; [|contradiction]. destruct Hin as [Hin|[]]. injection Hin as <- <-.
      apply (dec_lawful _ _ (N * m_nx m)). apply fits_at; auto. rewrite nwc_size. lia.
    - cbn [In] in Hin. repeat (destruct Hin as [Hin|Hin]; [injection Hin as <- <-|]); [..|contradiction].
      + exact Hp.
      + exact (piece_sel _ _ 0 _ F1).
      + exact Hxm.
  Qed.

  Lemma oem_is_like jme : oem_like jme (oem_prob m t y uv jme).
  Proof. repeat split. Qed.
  Lemma jme_is_like : oem_like true (jme_prob m t y uv).
  Proof. unfold jme_prob, jme_ops. destruct (m_use_penalty m); repeat split. Qed.

  Lemma oem_reachable jme : oem_small jme -> reachable (oem_prob m t y uv jme).
  Proof.
    intros (S1 & S2 & S3). exists (oem_ops m t y jme), (oem_extra m t y uv). split; [|reflexivity].
    unfold oem_ops, col_ops, x_ops. destruct jme; cbn [app];
    repeat (apply Forall_cons || apply Forall_nil); cbn [op_small]; rewrite ?prodZ_prodn; first [exact I | assumption | now apply small_defects | now apply S3].
  Qed.
  Lemma jme_reachable : oem_small true -> reachable (jme_prob m t y uv).
  Proof.
    intros (S1 & S2 & S3). exists (jme_ops m t y), (jme_extra m t y uv). split; [|reflexivity].
    unfold jme_ops, oem_ops, col_ops, x_ops. destruct (m_use_penalty m); cbn [app];
    repeat (apply Forall_cons || apply Forall_nil); cbn [op_small]; rewrite ?prodZ_prodn; first [exact I | assumption | now apply small_defects | now apply S3].
  Qed.
  Lemma oem_ncons jme : oem_small jme -> ncons (oem_prob m t y uv jme) = K * (n - 1) * m_nx m.
  Proof.
    intros (S1 & S2 & S3). unfold ncons.
    assert (E : p_ncons (oem_prob m t y uv jme) = (0 + csize (Comp [K; (n - 1)%nat; m_nx m] 0))%Z) by (destruct jme; reflexivity).
    rewrite E, csize_of by now apply small_defects. cbn [prodn fold_right]. rewrite Z.add_0_l, Nat2Z.id. ring.
  Qed.
  Lemma jme_ncons : oem_small true -> ncons (jme_prob m t y uv) = K * (n - 1) * m_nx m.
  Proof.
    intros (S1 & S2 & S3). unfold ncons.
    assert (E : p_ncons (jme_prob m t y uv) = (0 + csize (Comp [K; (n - 1)%nat; m_nx m] 0))%Z)
      by (unfold jme_prob, jme_ops; destruct (m_use_penalty m); reflexivity).
    rewrite E, csize_of by now apply small_defects. cbn [prodn fold_right]. rewrite Z.add_0_l, Nat2Z.id. ring.
  Qed.
End ColLaws.
