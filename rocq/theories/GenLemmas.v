(** Lemmas about generated functions (any number type). *)
From Coq Require Import String List ZArith Bool Arith Lia.
From Verif Require Import Py NdArray OptimModel DictLemmas NdLemmas OptimSpec OptimLaws LawFacts LayoutLemmas
  ProblemSpec GenModel GenSpec.
Import ListNotations.

Lemma lead_app (l b : shape) : lead b (l ++ b) = l.
Proof.
  unfold lead. rewrite app_length. replace (length l + length b - length b)%nat with (length l + 0)%nat by lia.
  rewrite firstn_app_2. simpl. now rewrite app_nil_r.
Qed.
Lemma ends_in_app (l b : shape) : ends_in b (l ++ b) = true.
Proof.
  unfold ends_in. rewrite app_length. replace (length l + length b - length b)%nat with (length l) by lia.
  rewrite skipn_app, skipn_all, Nat.sub_diag. simpl. apply shape_eqb_refl.
Qed.
Lemma ext_of_app (l b : shape) : ext_of b (l ++ b) = Ok l.
Proof.
  unfold ext_of. destruct b as [|d b]; [now rewrite app_nil_r|]. rewrite ends_in_app. cbn [passert bind].
  now rewrite lead_app.
Qed.

(** *** Broadcasting of shapes *)
Definition mok (s t : shape) : Prop :=
  (length s <= length t)%nat /\ forall k, (k < length s)%nat -> nth k s O = nth k t O \/ nth k s O = 1%nat.
Lemma mok_refl s : mok s s. Proof. split; auto. Qed.
Lemma mok_trans s t u : mok s t -> mok t u -> mok s u.
Proof.
  intros [A B] [C D]. split; [lia|]. intros k Hk. destruct (B k Hk) as [E|E]; auto.
  rewrite E. apply D. lia.
Qed.
Lemma mok_cons a b s t : mok s t -> (a = b \/ a = 1%nat) -> mok (a :: s) (b :: t).
Proof.
  intros [A B] H. split; [simpl; lia|]. intros [|k] Hk; simpl in *; auto. apply B. lia.
Qed.
Lemma bmerge_mok s : forall t u, bmerge s t = Ok u -> mok s u /\ mok t u.
Proof.
  induction s as [|a s IH]; intros t u H.
  - cbn in H. injection H as <-. split; [|apply mok_refl]. split; [simpl; lia|]. intros k Hk. simpl in Hk. lia.
  - destruct t as [|b t].
    + cbn in H. injection H as <-. split; [apply mok_refl|]. split; [simpl; lia|]. intros k Hk. simpl in Hk. lia.
    + cbn [bmerge] in H. destruct (bmerge s t) as [r|e] eqn:E; [|discriminate]. cbn [bind] in H.
      destruct (IH t r E) as [H1 H2].
      destruct (Nat.eqb_spec a b); [injection H as <-; subst; split; apply mok_cons; auto|].
      destruct (Nat.eqb_spec a 1); [injection H as <-; subst; split; apply mok_cons; auto|].
      destruct (Nat.eqb_spec b 1); [injection H as <-; subst; split; apply mok_cons; auto|discriminate].
Qed.
Lemma bshapes_fold l : forall acc u, foldM (fun acc s => bmerge acc (rev s)) acc l = Ok u ->
  mok acc u /\ forall s, In s l -> mok (rev s) u.
Proof.
  induction l as [|s l IH]; intros acc u H; cbn [foldM] in H.
  - injection H as <-. split; [apply mok_refl|]. intros s [].
  - destruct (bmerge acc (rev s)) as [r|e] eqn:E; [|discriminate]. cbn [bind] in H.
    destruct (bmerge_mok _ _ _ E) as [E1 E2]. destruct (IH _ _ H) as [E3 E4].
    split; [eapply mok_trans; eauto|]. intros s' [<-|Hin]; auto. eapply mok_trans; eauto.
Qed.
Lemma bshapes_bcasts l ext s : bshapes l = Ok ext -> In s l -> bcasts s ext.
Proof.
  unfold bshapes. destruct (foldM _ _ _) as [r|e] eqn:E; [|discriminate]. cbn [bind]. intros [= <-] Hin.
  destruct (bshapes_fold _ _ _ E) as [_ H]. specialize (H s Hin) as [A B]. rewrite rev_length in A, B.
  split; [now rewrite rev_length|]. intros k Hk. rewrite rev_length.
  specialize (B (length s - 1 - k)%nat ltac:(lia)). rewrite rev_nth in B by lia.
  replace (length s - S (length s - 1 - k))%nat with k in B by lia.
  rewrite rev_nth by lia. replace (length r - S (length r - length s + k))%nat with (length s - 1 - k)%nat by lia. exact B.
Qed.

Lemma bcasts_compat (s t : shape) : bcasts s t -> bcompat (bpad s t) t = true.
Proof.
  intros [A B]. destruct (broadcast_ok_iff (T := Z) (Arr s (repeat 0%Z (prodn s))) t) as [_ H].
  destruct H as [w Hw]; [split; [exact A|exact B]|]. unfold broadcast_to in Hw. cbn [ash] in Hw.
  destruct (bcompat (bpad s t) t); auto. rewrite andb_false_r in Hw. discriminate.
Qed.

Lemma bpos_lt s : forall t i, bcompat s t = true -> (i < prodn t)%nat -> (bpos s t i < prodn s)%nat.
Proof.
  induction s as [|a s IH]; intros [|b t] i H Hi; try discriminate.
  - simpl. lia.
  - cbn [bcompat] in H. apply andb_prop in H as [H1 H2]. apply orb_prop in H1.
    cbn [bpos prodn fold_right] in *. fold (prodn t) (prodn s) in *.
    assert (0 < prodn t)%nat by (destruct (prodn t); [rewrite Nat.mul_0_r in Hi|]; lia).
    assert (i / prodn t < b)%nat by (apply Nat.div_lt_upper_bound; nia).
    pose proof (IH t (i mod prodn t) H2 ltac:(apply Nat.mod_upper_bound; lia)).
    destruct (Nat.eqb_spec a 1) as [->|Ha].
    + lia.
    + destruct H1 as [H1|H1]; [|discriminate]. apply Nat.eqb_eq in H1. subst. nia.
Qed.
Lemma prodn_pad s t : prodn (bpad s t) = prodn s.
Proof.
  unfold bpad. rewrite prodn_app. induction (length t - length s)%nat; simpl in *; lia.
Qed.
Lemma at_elem_lt l ext e : bcasts l ext -> (e < prodn ext)%nat -> (at_elem l ext e < prodn l)%nat.
Proof. intros H He. rewrite <- (prodn_pad l ext). apply bpos_lt; auto. now apply bcasts_compat. Qed.

(** Leading axes that are a suffix of the batch axes: the position wraps. *)
Lemma bpos_suffix (pre s : shape) i : (i < prodn (pre ++ s))%nat ->
  bpos (repeat 1%nat (length pre) ++ s) (pre ++ s) i = (i mod prodn s)%nat.
Proof.
  revert i. induction pre as [|d pre IH]; intros i Hi; cbn [length repeat app] in *.
  - rewrite bpos_same by auto. rewrite Nat.mod_small; auto.
  - cbn [bpos]. rewrite Nat.eqb_refl. cbn [Nat.mul Nat.add prodn fold_right] in *. fold (prodn (pre ++ s)) in *.
    assert (prodn (pre ++ s) <> 0)%nat by (intros E; rewrite E in Hi; lia).
    rewrite IH by (apply Nat.mod_upper_bound; auto).
    rewrite prodn_app in *. generalize dependent (prodn pre). generalize (prodn s). clear. intros b a H1 H2 _.
    assert (a <> 0 /\ b <> 0)%nat as [Ha Hb] by nia.
    rewrite (Nat.mul_comm a b), Nat.mod_mul_r by auto. rewrite Nat.mul_comm, Nat.mod_add, Nat.mod_mod; auto.
Qed.
Lemma at_elem_suffix pre l e : (e < prodn (pre ++ l))%nat -> at_elem l (pre ++ l) e = (e mod prodn l)%nat.
Proof.
  intros H. unfold at_elem, bpad. rewrite app_length.
  replace (length pre + length l - length l)%nat with (length pre) by lia. now apply bpos_suffix.
Qed.

Section GenLemmas.
  Context {T : Type} {NT : Num T}.
  Variable g : gfun T.
  Hypothesis WF : gwf g.

  Lemma base_of_In w b : In (w, b) (combine (gf_args g) (gf_bases g)) -> base_of g w = b.
  Proof.
    intros H. unfold base_of. rewrite (In_dget _ String.eqb_spec _ w b); auto.
    rewrite map_fst_combine by apply WF. apply WF.
  Qed.

  Lemma combine_args : combine (gf_args g) (gf_bases g) = map (fun w => (w, base_of g w)) (gf_args g).
  Proof.
    pose proof (base_of_In) as H. pose proof (gw_bases _ WF) as L. revert H L.
    generalize (base_of g). intros B. generalize (gf_bases g). induction (gf_args g) as [|w ws IH]; intros [|b bs] H L; try discriminate; auto.
    simpl. f_equal; [rewrite (H w b); simpl; auto|]. apply IH; [intros; apply H; simpl; auto|]. simpl in L. lia.
  Qed.

  Lemma bases_eq : gf_bases g = map (base_of g) (gf_args g).
  Proof.
    rewrite <- (map_snd_combine (gf_args g) (gf_bases g)) by apply WF. rewrite combine_args, map_map. reflexivity.
  Qed.

  (** Arguments, one per parameter. *)
  Lemma args_fit_split LE ext A : args_fit g LE ext A ->
    length A = length (gf_args g) /\
    (forall k, (k < length A)%nat -> let w := nth k (gf_args g) EmptyString in
       ash (nth k A (Arr [] [])) = LE w ++ base_of g w /\ awf (nth k A (Arr [] [])) /\ bcasts (LE w) ext) .
  Proof.
    intros [H1 H2]. rewrite combine_args in H1.
    pose proof (Forall2_length _ _ _ H1) as HL. rewrite map_length in HL. split; [auto|].
    intros k Hk w.
    assert (forall ws, Forall2 (fun wb a => ash a = LE (fst wb) ++ snd wb /\ awf a) (map (fun w => (w, base_of g w)) ws) A ->
      forall k, (k < length A)%nat -> ash (nth k A (Arr [] [])) = LE (nth k ws EmptyString) ++ base_of g (nth k ws EmptyString)
        /\ awf (nth k A (Arr [] []))) as HN.
    { clear. intros ws. revert A. induction ws; intros A H k Hk; inversion H; subst; [simpl in Hk; lia|].
      destruct k as [|k]; [auto|]. apply (IHws l' H4 k). simpl in Hk. lia. }
    destruct (HN _ H1 k Hk) as [E1 E2]. split; [exact E1|]. split; [exact E2|].
    eapply bshapes_bcasts; [exact H2|]. apply (in_map (fun w => LE w)). apply nth_In. lia.
  Qed.

  Lemma bcasts_In LE ext A w : args_fit g LE ext A -> In w (gf_args g) -> bcasts (LE w) ext.
  Proof. intros [_ H] Hin. eapply bshapes_bcasts; eauto. now apply (in_map (fun w => LE w)). Qed.

  (** Batched evaluation succeeds and evaluates every batch element. *)
  Lemma batch_ok LE ext A out f : args_fit g LE ext A ->
    batch (gf_bases g) out f A
    = Ok (Arr (ext ++ out) (flat_map (fun e => f (elems g LE ext A e)) (seq 0 (prodn ext)))).
  Proof.
    intros HF. destruct HF as [H1 H2]. unfold batch.
    pose proof (Forall2_length _ _ _ H1) as HL. rewrite combine_length, (gw_bases _ WF), Nat.min_id in HL.
    rewrite (gw_bases _ WF), <- HL, Nat.eqb_refl. cbn [negb].
    assert (HE : forallb (fun ba => ends_in (fst ba) (ash (snd ba))) (combine (gf_bases g) A) = true /\
                 map (fun ba => lead (fst ba) (ash (snd ba))) (combine (gf_bases g) A) = map (fun w => LE w) (gf_args g) /\
                 forall e, map (fun ba => elem ext (fst ba) (snd ba) e) (combine (gf_bases g) A) = elems g LE ext A e).
    { clear HL H2. unfold elems. rewrite combine_args in *. rewrite bases_eq. revert H1. generalize (gf_args g) as ws. intros ws. revert A.
      induction ws as [|w ws IH]; intros A H; inversion H; subst; [repeat split|].
      destruct (IH _ H4) as (E1 & E2 & E3). destruct H2 as [Ea Wa]. cbn [fst snd] in Ea.
      split; [|split].
      - cbn [map combine forallb fst snd]. rewrite E1, Ea, ends_in_app. reflexivity.
      - cbn [map combine fst snd]. rewrite E2, Ea, lead_app. reflexivity.
      - intros e. cbn [map combine fst snd]. rewrite E3. f_equal. unfold elem. rewrite Ea, lead_app. reflexivity. }
    destruct HE as (E1 & E2 & E3). rewrite E1, E2, H2. cbn [negb bind]. f_equal. f_equal.
    apply flat_map_ext. intros e. now rewrite E3.
  Qed.

  Lemma elems_length LE ext A e : args_fit g LE ext A -> length (elems g LE ext A e) = length (gf_args g).
  Proof.
    intros HF. unfold elems. rewrite map_length, combine_length.
    destruct HF as [H1 _]. pose proof (Forall2_length _ _ _ H1) as L. pose proof (gw_bases _ WF).
    rewrite combine_length in *. lia.
  Qed.

  Lemma flat_map_const_length {A B} (f : A -> list B) n l : (forall a, length (f a) = n) ->
    length (flat_map f l) = (length l * n)%nat.
  Proof. intros H. induction l; simpl; auto. rewrite app_length, H, IHl. lia. Qed.

  (** Index callbacks. *)
  Lemma sparse_nnz_ok ds ext :
    sparse_nnz g ds (ext ++ gf_out g) = Ok (sum_len (fun d => prodn ext * gd_nnz d)%nat ds).
  Proof.
    unfold sparse_nnz. rewrite ext_of_app. cbn [bind]. f_equal. unfold sum_len, shape_size.
    assert (forall a, fold_left (fun acc d => (acc + gd_nnz d * prodn ext)%nat) ds a
      = (a + fold_right Nat.add 0 (map (fun d => prodn ext * gd_nnz d) ds))%nat) as ->; [|lia].
    induction ds as [|d ds IH]; intros a; simpl; [lia|]. rewrite IH. lia.
  Qed.

  Lemma flat_map_map {A B C} (h : A -> B) (f : B -> list C) l : flat_map f (map h l) = flat_map (fun a => f (h a)) l.
  Proof. induction l; simpl; auto. now rewrite IHl. Qed.

  Lemma row_offs LE ext w (vs : sdict shape) : known g w -> dget String.eqb vs w = Some (LE w ++ base_of g w) ->
    bcasts (LE w) ext ->
    forall i, wrt_row g vs (ext ++ gf_out g) w i
    = Ok (flat_map (fun e => map (fun i => i + Z.of_nat (at_elem (LE w) ext e * prodn (base_of g w)))%Z i)
            (seq 0 (prodn ext))).
  Proof.
    intros [Hin Hk] Hd HB i. unfold wrt_row. rewrite Hd. unfold dlookup. rewrite Hk. cbn [bind]. rewrite ext_of_app. cbn [bind].
    rewrite ext_of_app. cbn [bind]. unfold broadcast_to, ndim_range. cbn [ash].
    destruct HB as [HL HB]. pose proof (bcasts_compat (LE w) ext (conj HL HB)) as HC.
    rewrite HC. destruct (Nat.leb_spec (length (LE w)) (length ext)); [|lia]. cbn [andb bind adat].
    f_equal. unfold shifted. rewrite flat_map_map. rewrite !flat_map_concat_eq. f_equal.
    apply map_ext_in. intros e He. apply in_seq in He.
    assert (at_elem (LE w) ext e < prodn (LE w))%nat as Hlt by (apply at_elem_lt; [split; auto|lia]).
    unfold at_elem in *. unfold shape_size.
    rewrite (nth_map_seq (fun i => Z.of_nat (i * prodn (base_of g w)))) by auto. reflexivity.
  Qed.

  Lemma out_offs i ext : shifted i (adat (ndim_range ext (shape_size (gf_out g))))
    = flat_map (fun e => map (fun o => o + Z.of_nat (e * prodn (gf_out g)))%Z i) (seq 0 (prodn ext)).
  Proof. unfold shifted, ndim_range. cbn [adat]. now rewrite flat_map_map. Qed.

  Lemma mapM_ext_Ok {A B} (f : A -> res B) (h : A -> B) l : (forall a, In a l -> f a = Ok (h a)) -> mapM f l = Ok (map h l).
  Proof. intros H. induction l; simpl; auto. rewrite H by (simpl; auto). cbn [bind]. rewrite IHl; [reflexivity|]. intros; apply H; simpl; auto. Qed.

  (** The index arrays of the batched function. *)
  Lemma gen_jac_ind LE ext (vs : sdict shape) :
    (forall d, In d (gf_jac g) -> let w := jb_w (base_jb d) in
       dget String.eqb vs w = Some (LE w ++ base_of g w) /\ bcasts (LE w) ext) ->
    sparse_ind g (gf_jac g) vs (ext ++ gf_out g)
    = Ok (map (fun d => let b := gen_jb g LE ext d in ([jb_w b], [jb_i b; jb_o b])) (gf_jac g)).
  Proof.
    intros H. unfold sparse_ind. apply mapM_ext_Ok. intros d Hd.
    pose proof (proj1 (Forall_forall _ _) (gw_jac _ WF) d Hd) as (w & i & o & E1 & E2 & K & _).
    specialize (H d Hd). unfold gen_jb, base_jb, nthrow in *. rewrite E1, E2 in *. cbn [nth jb_w jb_i jb_o] in *.
    destruct H as [H1 H2]. cbn [combine mapM fst snd]. rewrite (row_offs LE ext w vs K H1 H2 i). cbn [bind].
    rewrite ext_of_app. cbn [bind rev app]. rewrite out_offs. reflexivity.
  Qed.

  Lemma gen_hess_ind LE ext (vs : sdict shape) :
    (forall d, In d (gf_hess g) -> forall w, w = hb_a (base_hb d) \/ w = hb_b (base_hb d) ->
       dget String.eqb vs w = Some (LE w ++ base_of g w) /\ bcasts (LE w) ext) ->
    sparse_ind g (gf_hess g) vs (ext ++ gf_out g)
    = Ok (map (fun d => let b := gen_hb g LE ext d in ([hb_a b; hb_b b], [hb_i b; hb_j b; hb_o b])) (gf_hess g)).
  Proof.
    intros H. unfold sparse_ind. apply mapM_ext_Ok. intros d Hd.
    pose proof (proj1 (Forall_forall _ _) (gw_hess _ WF) d Hd) as (a & b & i & j & o & E1 & E2 & K1 & K2 & _).
    specialize (H d Hd). unfold gen_hb, base_hb, nthrow in *. rewrite E1, E2 in *. cbn [nth hb_a hb_b hb_i hb_j hb_o] in *.
    destruct (H a (or_introl eq_refl)) as [A1 A2]. destruct (H b (or_intror eq_refl)) as [B1 B2].
    cbn [combine mapM fst snd]. rewrite (row_offs LE ext a vs K1 A1 A2 i). cbn [bind].
    rewrite (row_offs LE ext b vs K2 B1 B2 j). cbn [bind].
    rewrite ext_of_app. cbn [bind rev app]. rewrite out_offs. reflexivity.
  Qed.

  Lemma in_range_blocks n m ext (f : nat -> nat) l : in_range m l ->
    (forall e, (e < prodn ext)%nat -> (f e < n)%nat) ->
    in_range (n * m) (flat_map (fun e => map (fun i => i + Z.of_nat (f e * m))%Z l) (seq 0 (prodn ext))).
  Proof.
    intros H Hf. apply Forall_forall. intros z Hz. apply in_flat_map in Hz as (e & He & Hz).
    apply in_seq in He. apply in_map_iff in Hz as (i & <- & Hi).
    pose proof (proj1 (Forall_forall _ _) H i Hi) as Hr. cbn beta in Hr. specialize (Hf e ltac:(lia)).
    rewrite !Nat2Z.inj_mul. nia.
  Qed.

  (** The structure law of the assembled problem holds for generated functions. *)
  Theorem gen_jac_struct LE ext W SH :
    (forall d, In d (gf_jac g) -> let w := jb_w (base_jb d) in
       In w W /\ SH w = LE w ++ base_of g w /\ bcasts (LE w) ext) ->
    jac_struct (gen_fn g) W SH (ext ++ gf_out g) (map (gen_jb g LE ext) (gf_jac g)).
  Proof.
    intros H. constructor.
    - intros vs Hvs. split.
      + cbn [gen_fn f_jac_nnz]. rewrite sparse_nnz_ok. f_equal. unfold sum_len. rewrite map_map.
        f_equal. apply map_ext_in. intros d Hd.
        pose proof (proj1 (Forall_forall _ _) (gw_jac _ WF) d Hd) as (w & i & o & E1 & E2 & K & L1 & _).
        unfold gen_jb, base_jb, nthrow. rewrite E1, E2. cbn [nth jb_w jb_i jb_o].
        rewrite (flat_map_const_length _ (gd_nnz d)) by (intros; now rewrite map_length). now rewrite seq_length.
      + cbn [gen_fn f_jac_ind]. rewrite (gen_jac_ind LE).
        * rewrite map_map. reflexivity.
        * intros d Hd w. destruct (H d Hd) as (H1 & H2 & H3). rewrite Hvs by auto. subst w. rewrite H2. auto.
    - rewrite map_map. pose proof (gw_jac_keys _ WF) as ND. clear H.
      apply (NoDup_map_inv (fun w => [w])). rewrite map_map.
      erewrite map_ext_in; [exact ND|]. intros d Hd.
      pose proof (proj1 (Forall_forall _ _) (gw_jac _ WF) d Hd) as (w & i & o & E1 & _).
      unfold gen_jb, base_jb. rewrite E1. reflexivity.
    - apply Forall_forall. intros b Hb. apply in_map_iff in Hb as (d & <- & Hd).
      destruct (H d Hd) as (H1 & H2 & H3).
      pose proof (proj1 (Forall_forall _ _) (gw_jac _ WF) d Hd) as (w & i & o & E1 & E2 & K & L1 & L2 & R1 & R2 & _).
      unfold gen_jb, base_jb, nthrow in *. rewrite E1, E2 in *. cbn [nth jb_w jb_i jb_o] in *.
      split; [auto|]. split.
      + rewrite !(flat_map_const_length _ (gd_nnz d)) by (intros; now rewrite map_length). reflexivity.
      + rewrite H2, !prodn_app. split; apply in_range_blocks; auto. intros e He. now apply at_elem_lt.
  Qed.

  Theorem gen_hess_struct LE ext W SH :
    (forall d, In d (gf_hess g) -> forall w, w = hb_a (base_hb d) \/ w = hb_b (base_hb d) ->
       In w W /\ SH w = LE w ++ base_of g w /\ bcasts (LE w) ext) ->
    hess_struct (gen_fn g) W SH (ext ++ gf_out g) (map (gen_hb g LE ext) (gf_hess g)).
  Proof.
    intros H. constructor.
    - intros vs Hvs. split.
      + cbn [gen_fn f_hess_nnz]. rewrite sparse_nnz_ok. f_equal. unfold sum_len. rewrite map_map.
        f_equal. apply map_ext_in. intros d Hd.
        pose proof (proj1 (Forall_forall _ _) (gw_hess _ WF) d Hd) as (a & b & i & j & o & E1 & E2 & K1 & K2 & L1 & _).
        unfold gen_hb, base_hb, nthrow. rewrite E1, E2. cbn [nth hb_a hb_b hb_i hb_j hb_o].
        rewrite (flat_map_const_length _ (gd_nnz d)) by (intros; now rewrite map_length). now rewrite seq_length.
      + cbn [gen_fn f_hess_ind]. rewrite (gen_hess_ind LE).
        * rewrite map_map. reflexivity.
        * intros d Hd w Hw. destruct (H d Hd w Hw) as (H1 & H2 & H3). rewrite Hvs by auto. rewrite H2. auto.
    - rewrite map_map. pose proof (gw_hess_keys _ WF) as ND. clear H.
      apply (NoDup_map_inv (fun w => [fst w; snd w])). rewrite map_map.
      erewrite map_ext_in; [exact ND|]. intros d Hd.
      pose proof (proj1 (Forall_forall _ _) (gw_hess _ WF) d Hd) as (a & b & i & j & o & E1 & _).
      unfold gen_hb, base_hb. rewrite E1. reflexivity.
    - apply Forall_forall. intros b Hb. apply in_map_iff in Hb as (d & <- & Hd).
      pose proof (H d Hd) as HW.
      pose proof (proj1 (Forall_forall _ _) (gw_hess _ WF) d Hd)
        as (a & b & i & j & o & E1 & E2 & K1 & K2 & L1 & L2 & L3 & R1 & R2 & R3 & _).
      unfold gen_hb, base_hb, nthrow in *. rewrite E1, E2 in *. cbn [nth hb_a hb_b hb_i hb_j hb_o] in *.
      destruct (HW a (or_introl eq_refl)) as (A1 & A2 & A3). destruct (HW b (or_intror eq_refl)) as (B1 & B2 & B3).
      split; [auto|]. split; [auto|].
      rewrite !(flat_map_const_length _ (gd_nnz d)) by (intros; now rewrite map_length).
      split; [auto|]. split; [auto|]. rewrite A2, B2, !prodn_app.
      split; [apply in_range_blocks; auto; intros e He; now apply at_elem_lt|].
      split; apply in_range_blocks; auto. intros e He. now apply at_elem_lt.
  Qed.

  Lemma sparse_val_ok LE ext A ds : args_fit g LE ext A ->
    sparse_val g ds A = Ok (map (fun d => (gd_wrt d, gen_val g LE ext A d)) ds).
  Proof.
    intros HF. unfold sparse_val. apply mapM_ext_Ok. intros d _. rewrite (batch_ok LE ext A) by auto. reflexivity.
  Qed.

  Lemma gen_val_length LE ext A d : (forall A, length (gd_val d A) = gd_nnz d) ->
    length (adat (gen_val g LE ext A d)) = (prodn ext * gd_nnz d)%nat.
  Proof. intros H. cbn [gen_val adat]. rewrite (flat_map_const_length _ (gd_nnz d)) by auto. now rewrite seq_length. Qed.

  Lemma combine_map2 {A B C} (f : A -> B) (h : A -> C) l : combine (map f l) (map h l) = map (fun a => (f a, h a)) l.
  Proof. induction l; simpl; auto. now f_equal. Qed.

  Lemma Forall2_maps {A B C} (P : B -> C -> Prop) (f : A -> B) (h : A -> C) l :
    (forall a, In a l -> P (f a) (h a)) -> Forall2 P (map f l) (map h l).
  Proof. intros H. induction l; simpl; constructor; [apply H|apply IHl; intros; apply H]; simpl; auto. Qed.

  Theorem gen_jac_vals LE ext A : args_fit g LE ext A ->
    jac_vals (gen_fn g) A (map (gen_jb g LE ext) (gf_jac g)) (map (gen_val g LE ext A) (gf_jac g)).
  Proof.
    intros HF. split.
    - cbn [gen_fn f_jac_val]. rewrite (sparse_val_ok LE ext) by auto. f_equal. rewrite map_map, combine_map2.
      apply map_ext_in. intros d Hd.
      pose proof (proj1 (Forall_forall _ _) (gw_jac _ WF) d Hd) as (w & i & o & E1 & _).
      unfold gen_jb, base_jb. rewrite E1. reflexivity.
    - apply Forall2_maps. intros d Hd.
      pose proof (proj1 (Forall_forall _ _) (gw_jac _ WF) d Hd) as (w & i & o & E1 & E2 & _ & L1 & _ & _ & _ & V).
      rewrite gen_val_length by auto. unfold gen_jb, base_jb, nthrow. rewrite E1, E2. cbn [nth jb_w jb_i jb_o].
      rewrite (flat_map_const_length _ (gd_nnz d)) by (intros; now rewrite map_length). now rewrite seq_length.
  Qed.

  Theorem gen_hess_vals LE ext A : args_fit g LE ext A ->
    hess_vals (gen_fn g) A (map (gen_hb g LE ext) (gf_hess g)) (map (gen_val g LE ext A) (gf_hess g)).
  Proof.
    intros HF. split.
    - cbn [gen_fn f_hess_val]. rewrite (sparse_val_ok LE ext) by auto. f_equal. rewrite map_map, combine_map2.
      apply map_ext_in. intros d Hd.
      pose proof (proj1 (Forall_forall _ _) (gw_hess _ WF) d Hd) as (a & b & i & j & o & E1 & _).
      unfold gen_hb, base_hb. rewrite E1. reflexivity.
    - apply Forall2_maps. intros d Hd.
      pose proof (proj1 (Forall_forall _ _) (gw_hess _ WF) d Hd)
        as (a & b & i & j & o & E1 & E2 & _ & _ & L1 & _ & _ & _ & _ & _ & V).
      rewrite gen_val_length by auto. unfold gen_hb, base_hb, nthrow. rewrite E1, E2. cbn [nth hb_a hb_b hb_i hb_j hb_o].
      rewrite (flat_map_const_length _ (gd_nnz d)) by (intros; now rewrite map_length). now rewrite seq_length.
  Qed.

  Theorem gen_call LE ext A : args_fit g LE ext A ->
    call_ok (gen_fn g) A (ext ++ gf_out g)
      (Arr (ext ++ gf_out g) (flat_map (fun e => gf_base g (elems g LE ext A e)) (seq 0 (prodn ext)))).
  Proof.
    intros HF. split; [cbn [gen_fn f_call]; now apply batch_ok|]. split; [reflexivity|].
    unfold awf. cbn [adat ash]. rewrite (flat_map_const_length _ (prodn (gf_out g))) by (intros; apply WF).
    now rewrite seq_length, prodn_app.
  Qed.
End GenLemmas.
