(** Consequences of lawfulness in the vocabulary of OptimSpec, and
    component-level facts. *)
From Coq Require Import String List ZArith Bool Arith Lia Ring.
From Verif Require Import Py NdArray OptimModel ColModel NdLemmas OptimSpec OptimLaws.
Import ListNotations.

Section LawFacts.
  Context {T : Type} {NT : Num T}.
  Open Scope num_scope.
  Add Ring Tring : (num_rt (T := T)).

  Lemma inner_dotp (a b : list T) : length a = length b -> inner a b = dotp a (fun q => nth q b 0).
  Proof.
    intros H. unfold inner, dotp. rewrite (lsum_map_sumn (0, 0)), combine_length, H, Nat.min_id.
    apply sumn_ext. intros i Hi. rewrite combine_nth_lt by auto. reflexivity.
  Qed.

  Lemma lawful_index n (sp : spec T) sel : lawful n sp sel -> index_consistent n sp.
  Proof.
    intros L vec HL. eexists. split; [apply (law_unpack _ _ _ L vec HL)|].
    split; [reflexivity|]. split; [apply awf_seq|].
    intros ind HF. eexists. split; [apply (law_convert _ _ _ L ind HF)|].
    rewrite map_length. split; auto. intros k Hk.
    rewrite Forall_forall in HF. pose proof (HF (nth k ind 0%Z) (nth_In _ _ Hk)) as Hr.
    rewrite (nth_map_d _ _ _ 0%Z) by auto.
    assert (Hb : (sel (Z.to_nat (nth k ind 0%Z)) < n)%nat) by (apply (law_sel _ _ _ L); lia).
    split; [lia|]. simpl. rewrite nth_map_seq by lia. now rewrite Nat2Z.id.
  Qed.

  Lemma lawful_adjoint n (sp : spec T) sel : lawful n sp sel -> adjoint n sp.
  Proof.
    intros L dest v vec HL HV Ev W.
    destruct (law_add _ _ _ L dest v HL Ev W) as (dest' & E & HL' & Hd).
    exists dest'. eexists. split; [exact E|]. split; [exact HL'|].
    split; [apply (law_unpack _ _ _ L vec HV)|].
    rewrite !inner_dotp, Hd by congruence. f_equal. simpl adat.
    rewrite inner_dotp; [|rewrite map_length, seq_length, W, Ev; auto].
    unfold dotp. rewrite W, Ev. apply sumn_ext. intros i Hi. now rewrite nth_map_seq.
  Qed.

  Lemma lawful_accumulates n (sp : spec T) sel : lawful n sp sel -> accumulates n sp.
  Proof.
    intros L dest v HL Ev W.
    destruct (law_add _ _ _ L dest v HL Ev W) as (dest' & E & HL' & Hd).
    exists dest'. eexists. split; [exact E|]. split; [exact HL'|]. split.
    { apply (law_convert _ _ _ L). apply Forall_forall. intros x Hx. apply in_map_iff in Hx.
      destruct Hx as (i & <- & Hi). apply in_seq in Hi. lia. }
    split; [now rewrite !map_length, seq_length|].
    intros j Hj. rewrite <- (dotp_basis dest' j) by lia. rewrite Hd, dotp_basis by lia. f_equal.
    rewrite (lsum_map_sumn (0%Z, 0)), combine_length, !map_length, seq_length, W, Ev, Nat.min_id.
    apply sumn_ext. intros i Hi.
    rewrite combine_nth_lt by (rewrite !map_length, seq_length, W, Ev; auto). simpl.
    rewrite map_map, (nth_map_d _ _ _ O) by (now rewrite seq_length).
    rewrite seq_nth, Nat2Z.id by auto. simpl.
    destruct (Nat.eqb_spec (sel i) j), (Z.eqb_spec (Z.of_nat (sel i)) (Z.of_nat j)); try lia; ring.
  Qed.

  (** *** Components with broadcasting *)
  Lemma broadcast_awf (v w : arr T) s : broadcast_to 0 v s = Ok w -> ash w = s /\ awf w.
  Proof.
    unfold broadcast_to. destruct (_ && _); [|discriminate]. intros [= <-].
    split; auto. apply awf_seq.
  Qed.

  Lemma c_put_ok op n c off dest (v w : arr T) :
    comp_fits n c off -> length dest = n -> broadcast_to 0 v (c_shape c) = Ok w ->
    (let* _ := passert (c_off c + csize c <=? Z.of_nat (length dest))%Z in
     let* v := broadcast_to 0 v (c_shape c) in
     let (a, b) := cslice c in pyslice_upd op dest a b (adat v))
    = Ok (firstn off dest
      ++ map (fun ow => op (fst ow) (snd ow))
             (combine (firstn (prodn (c_shape c)) (skipn off dest)) (adat w))
      ++ skipn (off + prodn (c_shape c)) dest).
  Proof.
    intros (E & Hb & Hs) HL Hw. destruct (broadcast_awf _ _ _ Hw) as [Es W].
    unfold cslice. rewrite csize_small, E by auto.
    destruct (Z.leb_spec (Z.of_nat off + Z.of_nat (prodn (c_shape c))) (Z.of_nat (length dest)));
      [|lia].
    simpl. rewrite Hw. simpl. rewrite pyslice_upd_nat; auto; [lia|]. rewrite W, Es; auto.
  Qed.

  Lemma put_nth op n c off dest (w : arr T) :
    comp_fits n c off -> length dest = n -> ash w = c_shape c -> awf w ->
    let dest' := firstn off dest
      ++ map (fun ow => op (fst ow) (snd ow))
             (combine (firstn (prodn (c_shape c)) (skipn off dest)) (adat w))
      ++ skipn (off + prodn (c_shape c)) dest in
    length dest' = n /\
    (forall q, (q < off \/ off + prodn (c_shape c) <= q)%nat -> nth q dest' 0 = nth q dest 0) /\
    (forall i, (i < prodn (c_shape c))%nat ->
       nth (off + i) dest' 0 = op (nth (off + i) dest 0) (nth i (adat w) 0)).
  Proof.
    intros (E & Hb & Hs) HL Es W. set (N := prodn (c_shape c)) in *. intros dest'.
    assert (length (adat w) = N) as Hv by (unfold N; rewrite <- Es; exact W).
    assert (length (firstn N (skipn off dest)) = N) as Hf
      by (rewrite firstn_length, skipn_length; lia).
    assert (length (firstn off dest) = off) as Ho by (rewrite firstn_length; lia).
    assert (length (map (fun ow => op (fst ow) (snd ow))
             (combine (firstn N (skipn off dest)) (adat w))) = N) as Hm
      by (rewrite map_length, combine_length; lia).
    unfold dest'. repeat split.
    - rewrite !app_length, Hm, Ho, skipn_length. lia.
    - intros q [Hq|Hq].
      + rewrite app_nth1 by lia. now apply nth_firstn_lt.
      + rewrite app_nth2 by lia. rewrite app_nth2 by lia. rewrite Hm, Ho, nth_skipn_add. f_equal. lia.
    - intros i Hi. rewrite app_nth2 by lia. rewrite app_nth1 by lia.
      replace (off + i - length (firstn off dest))%nat with i by lia.
      rewrite (nth_map_d _ _ _ (0, 0)) by (rewrite combine_length; lia).
      rewrite combine_nth_lt by lia. simpl. rewrite nth_firstn_lt by lia.
      now rewrite nth_skipn_add.
  Qed.

  Lemma c_unpack_eq n c off vec (w : arr T) :
    comp_fits n c off -> length vec = n -> ash w = c_shape c -> awf w ->
    (forall i, (i < prodn (c_shape c))%nat -> nth (off + i) vec 0 = nth i (adat w) 0) ->
    c_unpack c vec = Ok w.
  Proof.
    intros F HL Es W H. rewrite (c_unpack_fits n c off) by auto. destruct w as [s l]; simpl in *. subst s.
    do 2 f_equal. unfold awf in W; simpl in W. rewrite <- W.
    rewrite <- (map_nth_seq 0 l) at 2. apply map_ext_in. intros i Hi. apply in_seq in Hi. apply H. lia.
  Qed.

  Lemma bpos_ravel s t ix : bcompat s t = true -> length ix = length t ->
    (forall k, (k < length t)%nat -> (nth k ix O < nth k t O)%nat) ->
    bpos s t (ravel t ix)
    = ravel s (map (fun di => if Nat.eqb (fst di) 1 then 0%nat else snd di) (combine s ix))
    /\ (ravel t ix < prodn t)%nat.
  Proof.
    revert t ix; induction s as [|a s IH]; intros [|b t] [|i ix] Hc HL Hb; simpl in *; try lia; try discriminate.
    apply andb_true_iff in Hc as [_ Hc].
    destruct (IH t ix Hc) as [IH1 IH2]; [lia| |].
    { intros k Hk. apply (Hb (S k)). lia. }
    assert (Hib : (i < b)%nat) by (apply (Hb O); lia).
    rewrite radix_div, radix_mod, IH1 by auto. split; auto.
    now apply radix_lt.
  Qed.

  Lemma ravel_pad m s ix : ravel (repeat 1%nat m ++ s)
    (map (fun di => if Nat.eqb (fst di) 1 then 0%nat else snd di) (combine (repeat 1%nat m ++ s) ix))
    = ravel s (map (fun di => if Nat.eqb (fst di) 1 then 0%nat else snd di) (combine s (skipn m ix))).
  Proof.
    revert ix; induction m as [|m IH]; intros ix; [reflexivity|].
    destruct ix as [|i ix]; simpl.
    - destruct s; reflexivity.
    - apply IH.
  Qed.

  Lemma broadcast_elem (v w : arr T) t ix :
    broadcast_to 0 v t = Ok w -> length ix = length t ->
    (forall k, (k < length t)%nat -> (nth k ix O < nth k t O)%nat) ->
    nth (ravel t ix) (adat w) 0 = nth (ravel (ash v) (bcast_index (ash v) ix)) (adat v) 0.
  Proof.
    unfold broadcast_to. destruct (Nat.leb_spec (length (ash v)) (length t)); [|discriminate].
    simpl. destruct (bcompat (bpad (ash v) t) t) eqn:Hc; [|discriminate].
    intros [= <-] HL Hb. simpl.
    destruct (bpos_ravel _ _ _ Hc HL Hb) as [E Hlt].
    rewrite nth_map_seq by auto. rewrite E. f_equal. unfold bpad, bcast_index. rewrite HL.
    apply ravel_pad.
  Qed.

  (** Broadcasting succeeds exactly under NumPy's rule. *)
  Lemma bcompat_spec s t : length s = length t ->
    (bcompat s t = true <-> forall k, (k < length s)%nat -> nth k s O = nth k t O \/ nth k s O = 1%nat).
  Proof.
    revert t; induction s as [|a s IH]; intros [|b t] HL; simpl in *; try lia.
    - split; auto; intros; lia.
    - rewrite andb_true_iff, orb_true_iff, !Nat.eqb_eq, IH by lia. split.
      + intros [H1 H2] [|k] Hk; auto. apply H2. lia.
      + intros H. split; [apply (H O); lia|]. intros k Hk. apply (H (S k)). lia.
  Qed.
End LawFacts.
