(** Every kind of variable specification is lawful. *)
From Coq Require Import String List ZArith Bool Arith Lia Ring.
From Verif Require Import Py NdArray OptimModel ColModel NdLemmas OptimSpec.
Import ListNotations.

Lemma prodZ_prodn s : prodZ s = Z.of_nat (prodn s).
Proof. unfold prodZ, prodn. induction s; simpl; auto. rewrite IHs. lia. Qed.

Lemma intc_small z : (0 <= z < 2 ^ 31)%Z -> intc z = z.
Proof. intros H. unfold intc. rewrite Z.mod_small; lia. Qed.

Lemma csize_small c : (Z.of_nat (prodn (c_shape c)) < 2 ^ 31)%Z ->
  csize c = Z.of_nat (prodn (c_shape c)).
Proof. intros H. unfold csize. rewrite prodZ_prodn, intc_small; lia. Qed.

Lemma pynorm_nat n k : k <= n -> pynorm n (Z.of_nat k) = k.
Proof.
  intros H. unfold pynorm. destruct (Z.ltb_spec (Z.of_nat k) 0); lia.
Qed.

Lemma pyslice_nat {X} (l : list X) a k :
  a + k <= length l -> pyslice l (Z.of_nat a) (Z.of_nat a + Z.of_nat k) = firstn k (skipn a l).
Proof.
  intros H. unfold pyslice. rewrite <- Nat2Z.inj_add, !pynorm_nat by lia.
  f_equal; lia.
Qed.

Lemma bcompat_refl s : bcompat s s = true.
Proof. induction s; simpl; auto. now rewrite Nat.eqb_refl. Qed.

Lemma bpad_same s : bpad s s = s.
Proof. unfold bpad. rewrite Nat.sub_diag. reflexivity. Qed.

Lemma bpos_same s i : i < prodn s -> bpos s s i = i.
Proof.
  revert i; induction s as [|a s IH]; intros i Hi.
  - simpl in *. lia.
  - change (prodn (a :: s)) with (a * prodn s) in Hi. simpl bpos.
    destruct (radix_split _ _ _ Hi) as (q & r & Hq & Hr & ->).
    rewrite radix_mod, radix_div, IH by auto.
    destruct (Nat.eqb_spec a 1); [subst; replace q with 0 by lia|]; lia.
Qed.

Lemma broadcast_same {X} (d : X) (v : arr X) s :
  ash v = s -> awf v -> broadcast_to d v s = Ok v.
Proof.
  intros E W. unfold broadcast_to. subst s. rewrite bpad_same, Nat.leb_refl, bcompat_refl. simpl.
  destruct v as [s l]; simpl in *. unfold awf in W; simpl in W. do 2 f_equal.
  rewrite <- W. erewrite map_ext_in; [apply (map_nth_seq d)|].
  intros i Hi. apply in_seq in Hi. rewrite bpos_same; auto; lia.
Qed.

Lemma skipn_skipn' {X} (l : list X) a b : skipn b (skipn a l) = skipn (a + b) l.
Proof. revert a; induction l; intros [|a']; simpl; auto. now rewrite !skipn_nil. Qed.

Section Laws.
  Context {T : Type} {NT : Num T}.
  Open Scope num_scope.
  Add Ring Tring : (num_rt (T := T)).

  Lemma dotp_app (l1 l2 : list T) d :
    dotp (l1 ++ l2) d = dotp l1 d + dotp l2 (fun q => d (length l1 + q)%nat).
  Proof.
    unfold dotp. rewrite app_length, sumn_plus. f_equal; apply sumn_ext; intros i Hi.
    - now rewrite app_nth1.
    - rewrite app_nth2_plus. reflexivity.
  Qed.

  (** Slice update with a value of the right size. *)
  Lemma pyslice_upd_nat op (l v : list T) a k :
    (a + k <= length l)%nat -> length v = k ->
    pyslice_upd op l (Z.of_nat a) (Z.of_nat a + Z.of_nat k) v
    = Ok (firstn a l ++ map (fun ow => op (fst ow) (snd ow)) (combine (firstn k (skipn a l)) v)
          ++ skipn (a + k) l).
  Proof.
    intros H Hv. unfold pyslice_upd. rewrite <- Nat2Z.inj_add, !pynorm_nat by lia.
    replace (a + k - a)%nat with k by lia.
    assert (length (firstn k (skipn a l)) = k) as E by (rewrite firstn_length, skipn_length; lia).
    rewrite E, Hv, Nat.eqb_refl. do 3 f_equal. f_equal. lia.
  Qed.

  Lemma combine_map_add_nth (l v : list T) i :
    length l = length v -> (i < length l)%nat ->
    nth i (map (fun ow => fst ow + snd ow) (combine l v)) 0 = nth i l 0 + nth i v 0.
  Proof.
    intros H Hi. rewrite (nth_map_d _ _ _ (0, 0)) by (rewrite combine_length; lia).
    now rewrite combine_nth_lt.
  Qed.

  Lemma c_unpack_fits n c off vec :
    comp_fits n c off -> length vec = n ->
    c_unpack c vec = Ok (Arr (c_shape c)
       (map (fun i => nth (off + i) vec 0) (seq 0 (prodn (c_shape c))))).
  Proof.
    intros (E & Hb & Hs) HL. unfold c_unpack, cslice. rewrite csize_small, E by auto.
    rewrite pyslice_nat by lia. unfold reshape.
    rewrite firstn_length, skipn_length.
    replace (Nat.min _ _) with (prodn (c_shape c)) by lia. rewrite Nat.eqb_refl.
    do 2 f_equal. rewrite (firstn_seq_nth 0) by (rewrite skipn_length; lia).
    apply map_ext. intros. apply nth_skipn_add.
  Qed.

  Lemma c_add_to_fits n c off dest (v : arr T) :
    comp_fits n c off -> length dest = n -> ash v = c_shape c -> awf v ->
    c_add_to c dest v = Ok (firstn off dest
      ++ map (fun ow => fst ow + snd ow)
             (combine (firstn (prodn (c_shape c)) (skipn off dest)) (adat v))
      ++ skipn (off + prodn (c_shape c)) dest).
  Proof.
    intros (E & Hb & Hs) HL Es W. unfold c_add_to, cslice. rewrite csize_small, E by auto.
    destruct (Z.leb_spec (Z.of_nat off + Z.of_nat (prodn (c_shape c))) (Z.of_nat (length dest)));
      [|lia].
    simpl. rewrite broadcast_same by auto. simpl.
    rewrite pyslice_upd_nat; auto; [lia|]. rewrite W, Es; auto.
  Qed.

  Lemma dec_lawful n c off :
    comp_fits n c off -> lawful n (dec_spec c) (fun i => (off + i)%nat).
  Proof.
    intros F. pose proof F as (E & Hb & Hs). constructor; simpl.
    - intros; lia.
    - intros vec HL. now apply (c_unpack_fits n).
    - intros ind Hi. unfold c_convert. rewrite E. f_equal.
      apply map_ext_in. intros i Hin. rewrite Forall_forall in Hi. apply Hi in Hin. lia.
    - intros dest v HL Es W. eexists. split; [eapply c_add_to_fits; eauto|].
      set (N := prodn (c_shape c)) in *.
      assert (length (adat v) = N) as Hv by (unfold N; rewrite <- Es; exact W).
      assert (length (firstn N (skipn off dest)) = N) as Hf
        by (rewrite firstn_length, skipn_length; lia).
      split.
      + rewrite !app_length, map_length, combine_length, Hf, firstn_length, skipn_length. lia.
      + intros d. rewrite !dotp_app.
        assert (dest = firstn off dest ++ firstn N (skipn off dest) ++ skipn (off + N) dest) as Ed.
        { rewrite <- (firstn_skipn off dest) at 1. f_equal.
          rewrite <- (firstn_skipn N (skipn off dest)) at 1. f_equal. now rewrite skipn_skipn'. }
        rewrite Ed at 4. rewrite !dotp_app. rewrite map_length, combine_length, Hf, Hv, Nat.min_id.
        assert (length (firstn off dest) = off) as Ho by (rewrite firstn_length; lia).
        rewrite Ho.
        assert (dotp (map (fun ow => fst ow + snd ow) (combine (firstn N (skipn off dest)) (adat v)))
                  (fun q => d (off + q)%nat)
                = dotp (firstn N (skipn off dest)) (fun q => d (off + q)%nat)
                  + sumn N (fun i => nth i (adat v) 0 * d (off + i)%nat)) as ->.
        { unfold dotp. rewrite map_length, combine_length, Hf, Hv, Nat.min_id.
          rewrite <- sumn_add. apply sumn_ext. intros i Hi.
          rewrite combine_map_add_nth by lia. ring. }
        ring.
  Qed.

  Lemma awf_seq (s : shape) (f : nat -> T) : awf (Arr s (map f (seq 0 (prodn s)))).
  Proof. unfold awf; simpl. now rewrite map_length, seq_length. Qed.

  (** *** Piece-ravelled variables *)
  Definition piece_ind (ncol r i : nat) : nat := (i - i / (ncol * r) * r)%nat.

  Lemma piece_ind_radix ncol r k j c :
    (j < ncol)%nat -> (c < r)%nat ->
    piece_ind ncol r (k * (ncol * r) + (j * r + c)) = ((k * (ncol - 1) + j) * r + c)%nat.
  Proof.
    intros Hj Hc. unfold piece_ind. rewrite radix_div by (apply radix_lt; auto).
    destruct ncol as [|m]; [lia|]. replace (S m - 1)%nat with m by lia.
    enough (k * (S m * r) + (j * r + c) = (k * m + j) * r + c + k * r)%nat by lia. ring.
  Qed.

  Lemma piece_unpack_lawful n u selu npieces ncol rest vec :
    lawful n u selu -> length vec = n ->
    s_shape u = (npieces * (ncol - 1) + 1)%nat :: rest -> (2 <= ncol)%nat -> (1 <= npieces)%nat ->
    piece_unpack u npieces ncol vec
    = Ok (Arr (npieces :: ncol :: rest)
           (map (fun i => nth (selu (piece_ind ncol (prodn rest) i)) vec 0)
                (seq 0 (prodn (npieces :: ncol :: rest))))).
  Proof.
    intros L HL Es Hc Hp. unfold piece_unpack. rewrite (law_unpack _ _ _ L vec HL).
    cbn [bind ash adat]. unfold piece_shape. rewrite Es. cbn [tl nrows hd].
    destruct (Nat.eqb_spec ncol 0); [lia|]. destruct (Nat.eqb_spec npieces 0); [lia|].
    destruct (Nat.eqb_spec (npieces * (ncol - 1) + 1) 0) as [E0|_];
      [rewrite Nat.add_1_r in E0; discriminate|].
    do 2 f_equal.
    set (r := prodn rest). set (ni := (ncol - 1)%nat) in *.
    set (sh := npieces :: ncol :: rest).
    assert (Hsh : prodn sh = (npieces * (ncol * r))%nat) by reflexivity.
    set (N := ((npieces * ni + 1) * r)%nat).
    change (prodn ((npieces * ni + 1)%nat :: rest)) with N.
    set (ud := map (fun i => nth (selu i) vec 0) (seq 0 N)).
    assert (Hud : forall m, (m < N)%nat -> nth m ud 0 = nth (selu m) vec 0)
      by (intros; unfold ud; now rewrite nth_map_seq).
    (* the three target views *)
    set (P1 := vpos sh [ix_all npieces; ix_butlast ncol]).
    set (P2 := vpos sh [ix_butlast npieces; ix_last ncol]).
    set (P3 := vpos sh [ix_last npieces; ix_last ncol]).
    assert (L1 : length P1 = (npieces * (ni * r))%nat).
    { unfold P1, sh. rewrite vpos_rows2_length. unfold ix_all, ix_butlast. now rewrite !seq_length. }
    assert (L2 : length P2 = ((npieces - 1) * (1 * r))%nat).
    { unfold P2, sh. rewrite vpos_rows2_length. unfold ix_butlast. now rewrite seq_length. }
    assert (L3 : length P3 = (1 * (1 * r))%nat).
    { unfold P3, sh. now rewrite vpos_rows2_length. }
    assert (D1 : NoDup P1).
    { apply vpos_rows2_NoDup; try apply seq_NoDup. unfold ix_butlast. intros j Hj. apply in_seq in Hj. lia. }
    assert (D2 : NoDup P2).
    { apply vpos_rows2_NoDup; try apply seq_NoDup; [constructor; auto; constructor|].
      intros j [<-|[]]. lia. }
    assert (D3 : NoDup P3).
    { apply vpos_rows2_NoDup; try (constructor; auto; constructor). intros j [<-|[]]. lia. }
    assert (B : forall A1 A2 p, (forall k, In k A1 -> (k < npieces)%nat) ->
              (forall j, In j A2 -> (j < ncol)%nat) -> In p (vpos sh [A1; A2]) -> (p < prodn sh)%nat).
    { intros A1 A2 p H1 H2 H. apply vpos_rows2_In in H. destruct H as (k & j & c & Hk & Hj & Hcc & ->).
      rewrite Hsh. apply radix_lt; [now apply H1|]. apply radix_lt; [now apply H2|auto]. }
    assert (B1 : forall p, In p P1 -> (p < prodn sh)%nat).
    { intros p. apply B; unfold ix_all, ix_butlast; intros q Hq; apply in_seq in Hq; lia. }
    assert (B2 : forall p, In p P2 -> (p < prodn sh)%nat).
    { intros p. apply B; unfold ix_last, ix_butlast; intros q Hq; [apply in_seq in Hq; lia|destruct Hq as [<-|[]]; lia]. }
    assert (B3 : forall p, In p P3 -> (p < prodn sh)%nat).
    { intros p. apply B; unfold ix_last; intros q Hq; destruct Hq as [<-|[]]; lia. }
    set (S1 := gather ud (vpos ((npieces * ni + 1)%nat :: rest) [ix_butlast (npieces * ni + 1)])).
    assert (LS1 : length S1 = length P1).
    { unfold S1. rewrite gather_length, vpos_rows_length. unfold ix_butlast. rewrite seq_length, L1.
      fold r. nia. }
    rewrite flat_set_eq by auto.
    set (O1 := scatter (repeat 0 (prodn sh)) P1 S1).
    assert (LO1 : length O1 = prodn sh) by (unfold O1; rewrite scatter_length, repeat_length; auto).
    assert (N1 : forall k j c, (k < npieces)%nat -> (j < ni)%nat -> (c < r)%nat ->
               nth (k * (ncol * r) + (j * r + c)) O1 0 = nth ((k * ni + j) * r + c) ud 0).
    { intros k j c Hk Hj Hcc. unfold O1.
      assert (nth (k * (ni * r) + (j * r + c)) P1 O = (k * (ncol * r) + (j * r + c))%nat) as Epos.
      { unfold P1, sh. pose proof (vpos_rows2_nth npieces ncol rest (ix_all npieces) (ix_butlast ncol) k j c) as X.
        unfold ix_all, ix_butlast in X. rewrite !seq_length in X. fold r ni in X.
        unfold ix_all, ix_butlast. fold ni. rewrite X by auto. now rewrite !seq_nth by auto. }
      rewrite <- Epos.
      assert (k * (ni * r) + (j * r + c) < length P1)%nat
        by (rewrite L1; apply radix_lt; auto; apply radix_lt; auto).
      rewrite scatter_at; auto; try lia; [|now rewrite repeat_length].
      unfold S1. rewrite gather_nth by (rewrite <- LS1 in H; unfold S1 in H; now rewrite gather_length in H).
      f_equal. replace (k * (ni * r) + (j * r + c))%nat with ((k * ni + j) * r + c)%nat by nia.
      unfold r. rewrite vpos_rows_nth; auto.
      - unfold ix_butlast. rewrite seq_nth; [reflexivity|]. nia.
      - unfold ix_butlast. rewrite seq_length. nia. }
    set (S2 := gather O1 (vpos sh [ix_from1 npieces; [0%nat]])).
    assert (LS2 : length S2 = length P2).
    { unfold S2, sh. rewrite gather_length, vpos_rows2_length. unfold ix_from1. now rewrite seq_length. }
    set (O2 := scatter O1 P2 S2).
    assert (LO2 : length O2 = prodn sh) by (unfold O2; now rewrite scatter_length).
    assert (N2 : forall k c, (k < npieces - 1)%nat -> (c < r)%nat ->
               nth (k * (ncol * r) + (ni * r + c)) O2 0 = nth (((k + 1) * ni) * r + c) ud 0).
    { intros k c Hk Hcc. unfold O2.
      assert (nth (k * (1 * r) + (0 * r + c)) P2 O = (k * (ncol * r) + (ni * r + c))%nat) as Epos.
      { unfold P2, sh. pose proof (vpos_rows2_nth npieces ncol rest (ix_butlast npieces) (ix_last ncol) k 0 c) as X.
        unfold ix_butlast in X. rewrite seq_length in X. simpl length in X. fold r in X.
        unfold ix_butlast. rewrite X by auto. rewrite seq_nth by auto. reflexivity. }
      rewrite <- Epos.
      assert (k * (1 * r) + (0 * r + c) < length P2)%nat by (rewrite L2; nia).
      rewrite scatter_at; auto; try lia; [|now rewrite LO1].
      unfold S2. rewrite gather_nth by (rewrite <- LS2 in H; unfold S2 in H; now rewrite gather_length in H).
      unfold sh. pose proof (vpos_rows2_nth npieces ncol rest (ix_from1 npieces) [0%nat] k 0 c) as X.
      unfold ix_from1 in X. rewrite seq_length in X. simpl length in X. fold r in X.
      unfold ix_from1. rewrite X by auto. rewrite seq_nth by auto.
      change (nth 0 [0%nat] O) with O.
      replace (1 + k)%nat with (k + 1)%nat by lia.
      rewrite N1; try lia. f_equal. lia. }
    set (S3 := gather ud (vpos ((npieces * ni + 1)%nat :: rest) [ix_last (npieces * ni + 1)])).
    assert (LS3 : length S3 = length P3).
    { unfold S3. rewrite gather_length, vpos_rows_length, L3. simpl. fold r. lia. }
    apply (list_eq_nth 0).
    { rewrite scatter_length, LO2, map_length, seq_length. reflexivity. }
    rewrite scatter_length, LO2. intros i Hi.
    rewrite nth_map_seq by auto. rewrite Hsh in Hi.
    destruct (radix_split _ _ _ Hi) as (k & q & Hk & Hq & ->).
    destruct (radix_split _ _ _ Hq) as (j & c & Hj & Hcc & ->).
    rewrite piece_ind_radix by auto. fold ni.
    assert (Hsplit : forall A1 A2, (forall j', In j' A2 -> (j' < ncol)%nat) ->
               In (k * (ncol * r) + (j * r + c))%nat (vpos sh [A1; A2]) -> In k A1 /\ In j A2).
    { intros A1 A2 HA2 H. apply vpos_rows2_In in H. fold r in H.
      destruct H as (k' & j' & c' & Hk' & Hj' & Hc' & E).
      assert (k = k' /\ (j * r + c = j' * r + c')%nat) as [-> E'].
      { apply (radix_inj (ncol * r)); auto; apply radix_lt; auto. }
      assert (j = j' /\ c = c') as [-> ->] by (apply (radix_inj r); auto). auto. }
    assert (Hlast : forall j', In j' (ix_last ncol) -> (j' < ncol)%nat) by (intros j' [<-|[]]; lia).
    destruct (Nat.eq_dec j ni) as [->|Hne].
    - destruct (Nat.eq_dec k (npieces - 1)) as [->|Hk'].
      + assert (nth (0 * (1 * r) + (0 * r + c)) P3 O = ((npieces - 1) * (ncol * r) + (ni * r + c))%nat) as Epos.
        { unfold P3, sh. pose proof (vpos_rows2_nth npieces ncol rest (ix_last npieces) (ix_last ncol) 0 0 c) as X.
          simpl length in X. fold r in X. rewrite X by (simpl; auto). reflexivity. }
        rewrite <- Epos. rewrite scatter_at; auto; try (rewrite ?LS3, ?L3; lia);
          [|now rewrite LO2].
        unfold S3. rewrite gather_nth by (rewrite vpos_rows_length; simpl; fold r; lia).
        replace (0 * (1 * r) + (0 * r + c))%nat with (0 * prodn rest + c)%nat by (simpl; lia).
        rewrite vpos_rows_nth by (simpl; auto). simpl nth at 2.
        rewrite Hud; [do 2 f_equal; fold r; nia|]. unfold N. fold r. nia.
      + rewrite scatter_other.
        2:{ intros H. apply Hsplit in H; auto. destruct H as [[H|[]] _]. lia. }
        rewrite N2 by lia. rewrite Hud; [do 2 f_equal; lia|]. unfold N. nia.
    - rewrite scatter_other.
      2:{ intros H. apply Hsplit in H; auto. destruct H as [_ [H|[]]]. lia. }
      unfold O2. rewrite scatter_other.
      2:{ intros H. apply Hsplit in H; auto. destruct H as [_ [H|[]]]. lia. }
      rewrite N1 by lia. rewrite Hud; [auto|]. unfold N. nia.
  Qed.

  Lemma ix_step_col np ni : (1 <= ni)%nat -> (1 <= np)%nat ->
    ix_step (np * ni + 1) ni ni = map (fun k => ni + k * ni)%nat (seq 0 np).
  Proof.
    intros H1 H2. unfold ix_step. do 2 f_equal.
    replace (np * ni + 1 - ni + ni - 1)%nat with (np * ni)%nat by nia.
    now apply Nat.div_mul; lia.
  Qed.

  Lemma sumn_cast n m f : n = m -> sumn n f = sumn m f.
  Proof. now intros ->. Qed.

  Lemma piece_add_lawful n u selu npieces ncol rest dest v :
    lawful n u selu -> length dest = n ->
    s_shape u = (npieces * (ncol - 1) + 1)%nat :: rest -> (2 <= ncol)%nat -> (1 <= npieces)%nat ->
    ash v = npieces :: ncol :: rest -> awf v ->
    exists dest', piece_add_to u npieces ncol dest v = Ok dest' /\ length dest' = n /\
      forall d, dotp dest' d = dotp dest d
        + sumn (prodn (npieces :: ncol :: rest))
            (fun i => nth i (adat v) 0 * d (selu (piece_ind ncol (prodn rest) i))).
  Proof.
    intros L HL Es Hc Hp Ev W. unfold piece_add_to, piece_shape. rewrite Es, Ev. cbn [tl nrows hd].
    rewrite shape_eqb_refl. cbn [passert bind].
    set (r := prodn rest). set (ni := (ncol - 1)%nat) in *.
    destruct (Nat.eqb_spec ni 0); [lia|].
    rewrite ix_step_col by lia. rewrite map_length, seq_length, Nat.eqb_refl. cbn [bind].
    set (sh := npieces :: ncol :: rest). set (dsh := (npieces * ni + 1)%nat :: rest).
    set (P1 := vpos dsh [ix_butlast (npieces * ni + 1)]).
    set (S1 := gather (adat v) (vpos sh [ix_all npieces; ix_butlast ncol])).
    assert (LP1 : length P1 = (npieces * (ni * r))%nat).
    { unfold P1, dsh. rewrite vpos_rows_length. unfold ix_butlast. rewrite seq_length. fold r. nia. }
    assert (LS1 : length S1 = length P1).
    { unfold S1, sh. rewrite gather_length, vpos_rows2_length. unfold ix_all, ix_butlast.
      now rewrite !seq_length, LP1. }
    rewrite flat_set_eq by auto.
    set (D1 := scatter (repeat 0 (prodn dsh)) P1 S1).
    assert (LD1 : length D1 = prodn dsh) by (unfold D1; now rewrite scatter_length, repeat_length).
    set (R := map (fun k => ni + k * ni)%nat (seq 0 npieces)).
    set (P2 := vpos dsh [R]).
    set (S2 := gather (adat v) (vpos sh [ix_all npieces; ix_last ncol])).
    assert (LR : length R = npieces) by (unfold R; now rewrite map_length, seq_length).
    assert (LP2 : length P2 = (npieces * r)%nat).
    { unfold P2, dsh. now rewrite vpos_rows_length, LR. }
    assert (LS2 : length S2 = length P2).
    { unfold S2, sh. rewrite gather_length, vpos_rows2_length, LP2. unfold ix_all.
      rewrite seq_length. simpl length. fold r. nia. }
    assert (Hdsh : prodn dsh = ((npieces * ni + 1) * r)%nat) by reflexivity.
    assert (NP1 : NoDup P1) by (apply vpos_rows_NoDup, seq_NoDup).
    assert (NP2 : NoDup P2).
    { apply vpos_rows_NoDup. unfold R. apply NoDup_map_inj; [|apply seq_NoDup]. intros; nia. }
    assert (BP1 : forall p, In p P1 -> (p < prodn dsh)%nat).
    { intros p H. apply vpos_rows_In in H. destruct H as (k & c & Hk & Hcc & ->).
      unfold ix_butlast in Hk. apply in_seq in Hk. rewrite Hdsh. apply radix_lt; [lia|exact Hcc]. }
    assert (BP2 : forall p, In p P2 -> (p < prodn dsh)%nat).
    { intros p H. apply vpos_rows_In in H. destruct H as (k & c & Hk & Hcc & ->).
      unfold R in Hk. apply in_map_iff in Hk. destruct Hk as (k' & <- & Hk'). apply in_seq in Hk'.
      rewrite Hdsh. apply radix_lt; [nia|exact Hcc]. }
    destruct (law_add _ _ _ L dest (Arr dsh (scatter_add D1 P2 S2))) as (dest' & E & HL' & Hd); auto.
    { unfold awf; simpl adat; simpl ash. rewrite scatter_add_length; auto. }
    exists dest'. split; [exact E|]. split; [exact HL'|].
    intros d. rewrite Hd. f_equal. rewrite Es. fold dsh. cbn [adat].
    set (d' := fun m => d (selu m)).
    assert (E1 : sumn (prodn dsh) (fun i => nth i (scatter_add D1 P2 S2) 0 * d (selu i))
                 = dotp (scatter_add D1 P2 S2) d').
    { unfold dotp. now rewrite scatter_add_length, LD1. }
    rewrite E1. rewrite scatter_add_dotp; auto; [|now rewrite LD1].
    unfold D1. rewrite scatter0_dotp; auto.
    change (prodn sh) with (npieces * (ncol * r))%nat.
    rewrite LP1, LP2, !sumn_prod, <- sumn_add. apply sumn_ext. intros k Hk.
    replace ncol with (S ni) at 1 by lia.
    rewrite sumn_prod. rewrite (sumn_prod (S ni)).
    rewrite (sumn_S ni). f_equal.
    - apply sumn_ext. intros j Hj. apply sumn_ext. intros c Hcc.
      assert (Hlt : (k * (ni * r) + (j * r + c) < npieces * (ni * r))%nat)
        by (apply radix_lt; auto; apply radix_lt; auto).
      unfold S1. rewrite gather_nth.
      2:{ rewrite <- LP1, <- LS1 in Hlt. unfold S1 in Hlt. now rewrite gather_length in Hlt. }
      f_equal.
      + f_equal. unfold sh.
        pose proof (vpos_rows2_nth npieces ncol rest (ix_all npieces) (ix_butlast ncol) k j c) as X.
        unfold ix_all, ix_butlast in X. rewrite !seq_length in X. fold r ni in X.
        unfold ix_all, ix_butlast. fold ni. rewrite X by auto. now rewrite !seq_nth by auto.
      + unfold d'. do 2 f_equal. rewrite piece_ind_radix by lia. fold ni.
        unfold P1, dsh.
        replace (k * (ni * r) + (j * r + c))%nat with ((k * ni + j) * prodn rest + c)%nat
          by (unfold r; nia).
        rewrite vpos_rows_nth; auto; unfold ix_butlast.
        * rewrite seq_nth; [reflexivity|nia].
        * rewrite seq_length. nia.
    - apply sumn_ext. intros c Hcc.
      assert (Hlt : (k * r + c < npieces * r)%nat) by (apply radix_lt; auto).
      unfold S2. rewrite gather_nth.
      2:{ rewrite <- LP2, <- LS2 in Hlt. unfold S2 in Hlt. now rewrite gather_length in Hlt. }
      f_equal.
      + f_equal. unfold sh.
        pose proof (vpos_rows2_nth npieces ncol rest (ix_all npieces) (ix_last ncol) k 0 c) as X.
        unfold ix_all in X. rewrite seq_length in X. simpl length in X. fold r in X.
        replace (k * r + c)%nat with (k * (1 * r) + (0 * r + c))%nat by lia.
        unfold ix_all. rewrite X by auto. rewrite seq_nth by auto. reflexivity.
      + unfold d'. do 2 f_equal. rewrite piece_ind_radix by lia. fold ni.
        unfold P2, dsh. fold r. unfold r. rewrite vpos_rows_nth; auto; [|now rewrite LR].
        fold r. unfold R. rewrite nth_map_seq by auto. nia.
  Qed.

  Lemma piece_convert_lawful n u selu npieces ncol rest ind :
    lawful n u selu ->
    s_shape u = (npieces * (ncol - 1) + 1)%nat :: rest -> (2 <= ncol)%nat -> (1 <= npieces)%nat ->
    Forall (fun i => (0 <= i < Z.of_nat (prodn (npieces :: ncol :: rest)))%Z) ind ->
    piece_convert u npieces ncol ind
    = Ok (map (fun i => Z.of_nat (selu (piece_ind ncol (prodn rest) (Z.to_nat i)))) ind).
  Proof.
    intros L Es Hc Hp HF. unfold piece_convert, piece_shape. rewrite Es. cbn [tl].
    change (prodn (ncol :: rest)) with (ncol * prodn rest)%nat.
    set (r := prodn rest) in *.
    assert (K : forall i, (0 <= i < Z.of_nat (prodn (npieces :: ncol :: rest)))%Z ->
      (i - i / Z.of_nat (ncol * r) * Z.of_nat r)%Z = Z.of_nat (piece_ind ncol r (Z.to_nat i))
      /\ (piece_ind ncol r (Z.to_nat i) < (npieces * (ncol - 1) + 1) * r)%nat).
    { intros i Hi. change (prodn (npieces :: ncol :: rest)) with (npieces * (ncol * r))%nat in Hi.
      destruct (Z_of_nat_complete i) as [m ->]; [lia|]. rewrite Nat2Z.id.
      assert (Hm : (m < npieces * (ncol * r))%nat) by lia.
      destruct (radix_split _ _ _ Hm) as (k & q & Hk & Hq & Em).
      destruct (radix_split _ _ _ Hq) as (j & c & Hj & Hcc & Eq).
      split.
      - unfold piece_ind. rewrite <- Nat2Z.inj_div, <- Nat2Z.inj_mul, <- Nat2Z.inj_sub; auto.
        rewrite Em, radix_div by auto. nia.
      - rewrite Em, Eq, piece_ind_radix by auto. apply radix_lt; auto. nia. }
    rewrite (law_convert _ _ _ L).
    - rewrite map_map. f_equal. apply map_ext_in. intros i Hi.
      rewrite Forall_forall in HF. destruct (K i (HF _ Hi)) as [-> _]. now rewrite Nat2Z.id.
    - rewrite Forall_forall in *. intros x Hx. apply in_map_iff in Hx.
      destruct Hx as (i & <- & Hi). destruct (K i (HF _ Hi)) as [-> Hb]. rewrite Es.
      change (prodn ((npieces * (ncol - 1) + 1)%nat :: rest))
        with ((npieces * (ncol - 1) + 1) * r)%nat. lia.
  Qed.

  Lemma piece_lawful n u selu npieces ncol rest :
    lawful n u selu ->
    s_shape u = (npieces * (ncol - 1) + 1)%nat :: rest -> (2 <= ncol)%nat -> (1 <= npieces)%nat ->
    lawful n (piece_spec u npieces ncol) (fun i => selu (piece_ind ncol (prodn rest) i)).
  Proof.
    intros L Es Hc Hp.
    assert (Esh : s_shape (piece_spec u npieces ncol) = npieces :: ncol :: rest).
    { simpl. unfold piece_shape. now rewrite Es. }
    constructor; rewrite ?Esh.
    - intros i Hi. apply (law_sel _ _ _ L). rewrite Es.
      change (prodn (npieces :: ncol :: rest)) with (npieces * (ncol * prodn rest))%nat in Hi.
      destruct (radix_split _ _ _ Hi) as (k & q & Hk & Hq & ->).
      destruct (radix_split _ _ _ Hq) as (j & c & Hj & Hcc & ->).
      rewrite piece_ind_radix by auto. apply radix_lt; auto. nia.
    - intros vec HL. simpl. now apply (piece_unpack_lawful n).
    - intros ind HF. simpl. now apply (piece_convert_lawful n).
    - intros dest v HL Ev W. simpl. now apply piece_add_lawful.
  Qed.

  (** *** Measured states *)
  Definition xm_ind (kmeas : list nat) (nx i : nat) : nat :=
    (nth (i / nx) kmeas O * nx + i mod nx)%nat.

  Lemma forallb_lt l b : (forall k, In k l -> (k < b)%nat) -> forallb (fun k => k <? b)%nat l = true.
  Proof. intros H. apply forallb_forall. intros x Hx. apply Nat.ltb_lt. auto. Qed.

  Lemma mapM_ok {A B} (f : A -> res B) (g : A -> B) l :
    (forall a, In a l -> f a = Ok (g a)) -> mapM f l = Ok (map g l).
  Proof.
    induction l as [|a l IH]; simpl; intros H; auto.
    rewrite H by auto. cbn [bind]. rewrite IH by auto. reflexivity.
  Qed.

  Lemma xm_ind_radix km nx q c : (c < nx)%nat ->
    xm_ind km nx (q * nx + c) = (nth q km O * nx + c)%nat.
  Proof. intros. unfold xm_ind. now rewrite radix_div, radix_mod. Qed.

  Lemma xm_lawful n x selx npoints nx km :
    lawful n x selx -> s_shape x = [npoints; nx] ->
    (forall k, In k km -> (k < npoints)%nat) -> NoDup km ->
    lawful n (xm_spec x km) (fun i => selx (xm_ind km nx i)).
  Proof.
    intros L Es Hk Hn.
    assert (Esh : s_shape (xm_spec x km) = [length km; nx]) by (simpl; unfold xm_shape; now rewrite Es).
    assert (HN : prodn [length km; nx] = (length km * nx)%nat) by (simpl; lia).
    assert (HM : prodn [npoints; nx] = (npoints * nx)%nat) by (simpl; lia).
    assert (Hnx : prodn [nx] = nx) by (simpl; lia).
    assert (Hlt : forall i, (i < length km * nx)%nat -> (xm_ind km nx i < npoints * nx)%nat).
    { intros i Hi. destruct (radix_split _ _ _ Hi) as (q & c & Hq & Hc & ->).
      rewrite xm_ind_radix by auto. apply radix_lt; auto. apply Hk, nth_In, Hq. }
    constructor; rewrite ?Esh, ?HN.
    - intros i Hi. apply (law_sel _ _ _ L). rewrite Es, HM. auto.
    - intros vec HL. simpl. unfold xm_unpack. rewrite (law_unpack _ _ _ L vec HL), Es.
      cbn [bind ash adat nrows hd tl]. rewrite forallb_lt by auto.
      do 2 f_equal. apply (list_eq_nth 0).
      + rewrite gather_length, vpos_rows_length, map_length, seq_length. now rewrite Hnx.
      + intros i Hi. rewrite gather_length, vpos_rows_length, Hnx in Hi.
        rewrite gather_nth by (rewrite vpos_rows_length, Hnx; auto).
        rewrite (nth_map_seq _ (length km * nx)) by auto.
        destruct (radix_split _ _ _ Hi) as (q & c & Hq & Hc & ->).
        rewrite xm_ind_radix by auto.
        pose proof (vpos_rows_nth npoints [nx] km q c) as X. rewrite Hnx in X. rewrite X by auto.
        rewrite nth_map_seq; auto. rewrite HM. apply radix_lt; auto. apply Hk, nth_In, Hq.
    - intros ind HF. simpl. unfold xm_convert. rewrite Es.
      rewrite Forall_forall in HF.
      erewrite mapM_ok with (g := fun i => Z.of_nat (xm_ind km nx (Z.to_nat i))).
      + cbn [bind]. rewrite (law_convert _ _ _ L).
        * rewrite map_map. f_equal. apply map_ext. intros. now rewrite Nat2Z.id.
        * apply Forall_forall. intros z Hz. apply in_map_iff in Hz. destruct Hz as (i & <- & Hi).
          rewrite Es, HM. apply HF in Hi. pose proof (Hlt (Z.to_nat i)). lia.
      + intros i Hi. apply HF in Hi.
        destruct (Z.leb_spec 0 i); [|lia]. destruct (Z.ltb_spec i (Z.of_nat (length km * nx))); [|lia].
        simpl. assert (Hi' : (Z.to_nat i < length km * nx)%nat) by lia.
        destruct (radix_split _ _ _ Hi') as (q & c & Hq & Hc & Ei). rewrite Ei.
        rewrite radix_div, radix_mod by auto.
        destruct (nth_error km q) as [k|] eqn:Eq; [|apply nth_error_None in Eq; lia].
        assert (In k km) by (eapply nth_error_In; eauto).
        assert (Hkk : (k <? npoints)%nat = true) by (apply Nat.ltb_lt; auto).
        rewrite Hkk, xm_ind_radix by auto. now rewrite (nth_error_nth _ _ _ Eq).
    - intros dest v HL Ev W. simpl. unfold xm_add_to, xm_shape. rewrite Es, Ev. cbn [nth nrows hd].
      rewrite shape_eqb_refl. cbn [passert bind]. rewrite forallb_lt by auto.
      set (P := vpos [npoints; nx] [km]).
      assert (LP : length P = (length km * nx)%nat) by (unfold P; now rewrite vpos_rows_length, Hnx).
      assert (LV : length (adat v) = length P) by (rewrite W, Ev, LP, HN; auto).
      destruct (law_add _ _ _ L dest (Arr [npoints; nx] (scatter (repeat 0 (prodn [npoints; nx])) P (adat v))))
        as (dest' & E & HL' & Hd); auto.
      { unfold awf; cbn [adat ash]; rewrite scatter_length, repeat_length; reflexivity. }
      exists dest'. split; [exact E|]. split; auto. intros d. rewrite Hd, Es. f_equal. cbn [adat].
      transitivity (dotp (scatter (repeat 0 (prodn [npoints; nx])) P (adat v)) (fun m => d (selx m))).
      { unfold dotp. now rewrite scatter_length, repeat_length. }
      rewrite scatter0_dotp; auto.
      + rewrite LP. apply sumn_ext. intros i Hi. f_equal. do 2 f_equal. unfold P.
        destruct (radix_split _ _ _ Hi) as (q & c & Hq & Hc & ->).
        rewrite xm_ind_radix by auto.
        pose proof (vpos_rows_nth npoints [nx] km q c) as X. rewrite Hnx in X. now rewrite X by auto.
      + apply vpos_rows_NoDup; auto.
      + intros p Hp. apply vpos_rows_In in Hp. destruct Hp as (k & c & Hkk & Hc & ->).
        rewrite Hnx in *. rewrite HM. apply radix_lt; auto.
  Qed.

  (** *** End-point states *)
  Definition xe_ind (npoints nx i : nat) : nat :=
    (if i <? nx then i else (npoints - 1) * nx + (i - nx))%nat.

  Lemma xe_lawful n x selx npoints nx :
    lawful n x selx -> s_shape x = [npoints; nx] -> (2 <= npoints)%nat ->
    lawful n (xe_spec x) (fun i => selx (xe_ind npoints nx i)).
  Proof.
    intros L Es Hp.
    assert (Esh : s_shape (xe_spec x) = [2%nat; nx]) by (simpl; unfold xe_shape; now rewrite Es).
    assert (HN : prodn [2%nat; nx] = (2 * nx)%nat) by (simpl; lia).
    assert (HM : prodn [npoints; nx] = (npoints * nx)%nat) by (simpl; lia).
    assert (Hnx : prodn [nx] = nx) by (simpl; lia).
    assert (Hxm : forall i, (i < 2 * nx)%nat -> xe_ind npoints nx i = xm_ind [0; npoints - 1]%nat nx i).
    { intros i Hi. destruct (radix_split _ _ _ Hi) as (q & c & Hq & Hc & ->).
      rewrite xm_ind_radix by auto. unfold xe_ind.
      destruct q as [|[|q]]; [| |lia]; simpl nth.
      - destruct (Nat.ltb_spec (0 * nx + c) nx); lia.
      - destruct (Nat.ltb_spec (1 * nx + c) nx); nia. }
    assert (Hk : forall k, In k [0; npoints - 1]%nat -> (k < npoints)%nat)
      by (intros k [<-|[<-|[]]]; lia).
    assert (Hnd : NoDup [0; npoints - 1]%nat).
    { repeat constructor; simpl; intros H; [destruct H as [H|[]]; lia|auto]. }
    pose proof (xm_lawful n x selx npoints nx _ L Es Hk Hnd) as LM.
    assert (EshM : s_shape (xm_spec x [0; npoints - 1]%nat) = [2%nat; nx])
      by (simpl; unfold xm_shape; now rewrite Es).
    constructor; rewrite ?Esh, ?HN.
    - intros i Hi. rewrite Hxm by auto. apply (law_sel _ _ _ LM). now rewrite EshM, HN.
    - intros vec HL. pose proof (law_unpack _ _ _ LM vec HL) as HU. rewrite EshM in HU.
      simpl s_unpack in HU |- *. unfold xm_unpack in HU. unfold xe_unpack.
      destruct (s_unpack x vec) as [xv|] eqn:Ex; [|discriminate]. cbn [bind] in *.
      rewrite (law_unpack _ _ _ L vec HL) in Ex. injection Ex as <-. rewrite Es in *. cbn [ash nrows hd] in *.
      destruct (Nat.eqb_spec npoints 0); [lia|].
      rewrite forallb_lt in HU by auto. simpl length in HU. rewrite HU, HN. do 2 f_equal.
      apply map_ext_in. intros i Hi. apply in_seq in Hi. rewrite Hxm; auto. lia.
    - intros ind HF. simpl. unfold xe_convert. rewrite Es.
      rewrite Forall_forall in HF.
      rewrite (map_ext_in _ (fun i => Z.of_nat (xe_ind npoints nx (Z.to_nat i)))).
      + rewrite (law_convert _ _ _ L).
        * rewrite map_map. f_equal. apply map_ext. intros. now rewrite Nat2Z.id.
        * apply Forall_forall. intros z Hz. apply in_map_iff in Hz. destruct Hz as (i & <- & Hi).
          rewrite Es, HM. apply HF in Hi. unfold xe_ind.
          destruct (Nat.ltb_spec (Z.to_nat i) nx); nia.
      + intros i Hi. apply HF in Hi. unfold xe_ind.
        destruct (Z.leb_spec (Z.of_nat nx) i); destruct (Nat.ltb_spec (Z.to_nat i) nx); nia.
    - intros dest v HL Ev W. simpl. unfold xe_add_to, xe_shape. rewrite Es, Ev. cbn [last nrows hd].
      rewrite shape_eqb_refl. cbn [passert bind].
      destruct (Nat.eqb_spec npoints 0); [lia|].
      set (P1 := vpos [npoints; nx] [[0%nat]]). set (P2 := vpos [npoints; nx] [ix_last npoints]).
      set (S1 := gather (adat v) (vpos [2%nat; nx] [[0%nat]])).
      set (S2 := gather (adat v) (vpos [2%nat; nx] [ix_last 2])).
      assert (LP1 : length P1 = nx) by (unfold P1; rewrite vpos_rows_length, Hnx; simpl; lia).
      assert (LP2 : length P2 = nx) by (unfold P2; rewrite vpos_rows_length, Hnx; simpl; lia).
      assert (LS1 : length S1 = nx) by (unfold S1; rewrite gather_length, vpos_rows_length, Hnx; simpl; lia).
      assert (LS2 : length S2 = nx) by (unfold S2; rewrite gather_length, vpos_rows_length, Hnx; simpl; lia).
      set (X1 := scatter (repeat 0 (prodn [npoints; nx])) P1 S1).
      set (X2 := scatter X1 P2 S2).
      assert (LX1 : length X1 = prodn [npoints; nx]) by (unfold X1; now rewrite scatter_length, repeat_length).
      assert (LX2 : length X2 = prodn [npoints; nx]) by (unfold X2; now rewrite scatter_length).
      assert (N1 : NoDup P1) by (apply vpos_rows_NoDup; constructor; auto; constructor).
      assert (N2 : NoDup P2) by (apply vpos_rows_NoDup; constructor; auto; constructor).
      assert (V1 : forall c, (c < nx)%nat -> nth c P1 O = c).
      { intros c Hc. pose proof (vpos_rows_nth npoints [nx] [0%nat] 0 c) as X. rewrite Hnx in X.
        unfold P1. replace c with (0 * nx + c)%nat at 1 by lia. rewrite X by (simpl; auto). simpl. lia. }
      assert (V2 : forall c, (c < nx)%nat -> nth c P2 O = ((npoints - 1) * nx + c)%nat).
      { intros c Hc. pose proof (vpos_rows_nth npoints [nx] (ix_last npoints) 0 c) as X. rewrite Hnx in X.
        unfold P2. replace c with (0 * nx + c)%nat at 1 by lia. rewrite X by (simpl; auto). simpl. lia. }
      assert (B : forall p, In p P1 \/ In p P2 -> (p < prodn [npoints; nx])%nat).
      { intros p [H|H]; apply vpos_rows_In in H; destruct H as (k & c & Hkk & Hc & ->);
          rewrite Hnx in *; rewrite HM; destruct Hkk as [<-|[]]; apply radix_lt; lia. }
      destruct (law_add _ _ _ L dest (Arr [npoints; nx] X2)) as (dest' & E & HL' & Hd); auto.
      exists dest'. split; [exact E|]. split; auto. intros d. rewrite Hd, Es. f_equal. cbn [adat].
      transitivity (dotp X2 (fun m => d (selx m))).
      { unfold dotp. now rewrite LX2. }
      unfold X2. rewrite scatter_dotp; auto; [| |now rewrite LP2, LS2]; [|rewrite LX1; auto].
      unfold X1. rewrite scatter0_dotp; auto; [|now rewrite LP1, LS1].
      fold X1. rewrite LP1, LP2.
      change (nx + (nx + 0))%nat with (2 * nx)%nat.
      rewrite sumn_prod. rewrite !(sumn_S 1), !(sumn_S 0). change (sumn 0 ?f) with 0.
      assert (E1 : forall c, (c < nx)%nat -> nth c S1 0 = nth c (adat v) 0).
      { intros c Hc. unfold S1. rewrite gather_nth by (rewrite vpos_rows_length, Hnx; simpl; lia).
        pose proof (vpos_rows_nth 2 [nx] [0%nat] 0 c) as X. rewrite Hnx in X.
        replace c with (0 * nx + c)%nat at 1 by lia. rewrite X by (simpl; auto). f_equal. }
      assert (E2 : forall c, (c < nx)%nat -> nth c S2 0 = nth (1 * nx + c) (adat v) 0).
      { intros c Hc. unfold S2. rewrite gather_nth by (rewrite vpos_rows_length, Hnx; simpl; lia).
        pose proof (vpos_rows_nth 2 [nx] (ix_last 2) 0 c) as X. rewrite Hnx in X.
        replace c with (0 * nx + c)%nat at 1 by lia. rewrite X by (simpl; auto). f_equal. }
      rewrite (sumn_ext nx _ (fun c => nth c (adat v) 0 * d (selx c))).
      2:{ intros c Hc. now rewrite E1, V1 by auto. }
      cbv beta.
      rewrite (sumn_ext nx (fun m => (nth m S2 0 - nth (nth m P2 O) X1 0) * d (selx (nth m P2 O)))
                 (fun c => nth (1 * nx + c) (adat v) 0 * d (selx ((npoints - 1) * nx + c)%nat))).
      2:{ intros c Hc. rewrite E2, V2 by auto.
          assert (nth ((npoints - 1) * nx + c) X1 0 = 0) as ->; [|ring].
          unfold X1. rewrite scatter_other; [apply nth_repeat|].
          intros H. apply vpos_rows_In in H. destruct H as (k & c' & [<-|[]] & Hc' & E').
          rewrite Hnx in *. nia. }
      rewrite (sumn_ext nx (fun j => nth (0 * nx + j) (adat v) 0 * d (selx (xe_ind npoints nx (0 * nx + j))))
                 (fun c => nth c (adat v) 0 * d (selx c))).
      2:{ intros c Hc. replace (0 * nx + c)%nat with c by lia. unfold xe_ind.
          now destruct (Nat.ltb_spec c nx); [|lia]. }
      rewrite (sumn_ext nx (fun j => nth (1 * nx + j) (adat v) 0 * d (selx (xe_ind npoints nx (1 * nx + j))))
                 (fun c => nth (1 * nx + c) (adat v) 0 * d (selx ((npoints - 1) * nx + c)%nat))).
      2:{ intros c Hc. unfold xe_ind. destruct (Nat.ltb_spec (1 * nx + c) nx); [lia|].
          do 3 f_equal. lia. }
      ring.
  Qed.
End Laws.
