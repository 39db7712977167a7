(** Lemmas about sums, lists and the array primitives of NdArray. *)
From Coq Require Import List ZArith Bool Arith Lia Ring.
From Verif Require Import Py NdArray.
Import ListNotations.

(** ** Lists *)
Lemma nth_map_d {A B} (f : A -> B) (l : list A) (i : nat) (a : A) (b : B) :
  i < length l -> nth i (map f l) b = f (nth i l a).
Proof. intros H; rewrite (nth_indep _ b (f a)) by (rewrite map_length; lia); apply map_nth. Qed.

Lemma nth_map_seq {B} (f : nat -> B) (n i : nat) (b : B) :
  i < n -> nth i (map f (seq 0 n)) b = f i.
Proof. intros H; rewrite (nth_map_d f _ _ 0) by (rewrite seq_length; lia). now rewrite seq_nth. Qed.

Lemma list_eq_nth {A} (d : A) (l1 l2 : list A) :
  length l1 = length l2 -> (forall i, i < length l1 -> nth i l1 d = nth i l2 d) -> l1 = l2.
Proof. intros HL H. apply (nth_ext _ _ d d HL H). Qed.

Lemma map_nth_seq {A} (d : A) (l : list A) :
  map (fun i => nth i l d) (seq 0 (length l)) = l.
Proof.
  apply (list_eq_nth d); rewrite map_length, seq_length; auto.
  intros i Hi. now rewrite nth_map_seq.
Qed.

Lemma combine_nth_lt {A B} (l1 : list A) (l2 : list B) i a b :
  length l1 = length l2 -> nth i (combine l1 l2) (a, b) = (nth i l1 a, nth i l2 b).
Proof. intros; now apply combine_nth. Qed.

Lemma flat_map_uniform_length {A B} (f : A -> list B) (l : list A) (L : nat) :
  (forall a, In a l -> length (f a) = L) -> length (flat_map f l) = length l * L.
Proof.
  induction l as [|a l IH]; simpl; auto. intros H.
  rewrite app_length, IH, H; auto; try lia.
Qed.

Lemma flat_map_uniform_nth {A B} (f : A -> list B) (l : list A) (L : nat) (a0 : A) (b0 : B) i p :
  (forall a, In a l -> length (f a) = L) -> i < length l -> p < L ->
  nth (i * L + p) (flat_map f l) b0 = nth p (f (nth i l a0)) b0.
Proof.
  revert i; induction l as [|a l IH]; simpl; intros i H Hi Hp; [lia|].
  destruct i as [|i].
  - simpl. rewrite app_nth1; auto. rewrite H; auto.
  - rewrite app_nth2; rewrite H; auto; try lia.
    replace (S i * L + p - L) with (i * L + p) by lia.
    apply IH; auto; lia.
Qed.

Lemma flat_map_concat_eq {A B} (f : A -> list B) l : flat_map f l = concat (map f l).
Proof. apply flat_map_concat_map. Qed.

Lemma NoDup_map_inj {A B} (f : A -> B) (l : list A) :
  (forall x y, In x l -> In y l -> f x = f y -> x = y) -> NoDup l -> NoDup (map f l).
Proof.
  induction l as [|a l IH]; simpl; intros Hf Hn; constructor.
  - inversion Hn; subst. rewrite in_map_iff. intros (x & Hx & Hi).
    apply H1. assert (x = a) by (apply Hf; auto). now subst.
  - inversion Hn; subst. apply IH; auto.
Qed.

Lemma firstn_seq_nth {A} (d : A) (l : list A) n :
  n <= length l -> firstn n l = map (fun i => nth i l d) (seq 0 n).
Proof.
  intros H. apply (list_eq_nth d).
  - rewrite firstn_length, map_length, seq_length. lia.
  - rewrite firstn_length. intros i Hi. rewrite nth_map_seq by lia.
    revert i n H Hi. induction l as [|a l IH]; intros i n H Hi; simpl in *; [lia|].
    destruct n; [lia|]. destruct i; simpl; auto. apply IH; lia.
Qed.

Lemma nth_firstn_lt {A} (d : A) (l : list A) n i : i < n -> nth i (firstn n l) d = nth i l d.
Proof.
  revert n i; induction l as [|a l IH]; intros n i H; destruct n; simpl; try lia.
  - now destruct i.
  - destruct i; auto. apply IH; lia.
Qed.

Lemma nth_skipn_add {A} (d : A) (l : list A) n i : nth i (skipn n l) d = nth (n + i) l d.
Proof.
  revert n; induction l as [|a l IH]; intros n; destruct n; simpl; auto.
  now destruct i.
Qed.

(** Mixed-radix arithmetic. *)
Lemma radix_div q b r : r < b -> (q * b + r) / b = q.
Proof. intros H. rewrite Nat.div_add_l by lia. rewrite Nat.div_small; lia. Qed.
Lemma radix_mod q b r : r < b -> (q * b + r) mod b = r.
Proof. intros H. rewrite Nat.add_comm, Nat.mod_add by lia. now apply Nat.mod_small. Qed.
Lemma radix_inj b q1 q2 r1 r2 :
  r1 < b -> r2 < b -> q1 * b + r1 = q2 * b + r2 -> q1 = q2 /\ r1 = r2.
Proof.
  intros H1 H2 E.
  assert (q1 = q2) by (rewrite <- (radix_div q1 b r1), <- (radix_div q2 b r2) by auto; now rewrite E).
  split; auto. subst. lia.
Qed.
Lemma radix_lt a b q r : q < a -> r < b -> q * b + r < a * b.
Proof. intros. nia. Qed.
Lemma radix_split a b i : i < a * b -> exists q r, q < a /\ r < b /\ i = q * b + r.
Proof.
  intros H. assert (b <> 0) by (intros ->; lia).
  exists (i / b), (i mod b). repeat split.
  - apply Nat.div_lt_upper_bound; lia.
  - now apply Nat.mod_upper_bound.
  - rewrite (Nat.div_mod i b) at 1; lia.
Qed.

Lemma prodn_app s t : prodn (s ++ t) = prodn s * prodn t.
Proof. unfold prodn. induction s; simpl; [lia|]. rewrite IHs. lia. Qed.

Lemma shape_eqb_refl s : shape_eqb s s = true.
Proof. induction s; simpl; auto. now rewrite Nat.eqb_refl. Qed.
Lemma shape_eqb_eq s t : shape_eqb s t = true <-> s = t.
Proof.
  revert t; induction s as [|a s IH]; intros [|b t]; simpl; split; try easy.
  - rewrite andb_true_iff, Nat.eqb_eq, IH. intros [-> ->]; auto.
  - intros E; inversion E; subst. now rewrite Nat.eqb_refl, shape_eqb_refl.
Qed.

(** ** Views *)
Lemma vpos_nil s : vpos s [] = seq 0 (prodn s).
Proof.
  induction s as [|d s IH]; simpl; auto. rewrite IH. simpl.
  apply (list_eq_nth 0).
  - rewrite (flat_map_uniform_length _ _ (prodn s)).
    + now rewrite !seq_length.
    + intros; now rewrite map_length, seq_length.
  - rewrite (flat_map_uniform_length _ _ (prodn s)) by (intros; now rewrite map_length, seq_length).
    rewrite seq_length. intros i Hi.
    destruct (radix_split _ _ _ Hi) as (q & r & Hq & Hr & ->).
    rewrite (flat_map_uniform_nth _ _ (prodn s) 0).
    + rewrite (nth_map_d _ _ _ 0) by (now rewrite seq_length).
      rewrite !seq_nth; auto.
    + intros; now rewrite map_length, seq_length.
    + now rewrite seq_length.
    + auto.
Qed.

(** Positions selected by rows [ix] of an array with leading axis [d]. *)
Lemma vpos_rows_length d s ix : length (vpos (d :: s) [ix]) = length ix * prodn s.
Proof.
  simpl. rewrite vpos_nil. apply flat_map_uniform_length.
  intros. now rewrite map_length, seq_length.
Qed.

Lemma vpos_rows_nth d s ix q c :
  q < length ix -> c < prodn s ->
  nth (q * prodn s + c) (vpos (d :: s) [ix]) 0 = nth q ix 0 * prodn s + c.
Proof.
  intros Hq Hc. simpl. rewrite vpos_nil.
  rewrite (flat_map_uniform_nth _ _ (prodn s) 0); auto.
  - rewrite (nth_map_d _ _ _ 0) by (now rewrite seq_length). now rewrite seq_nth.
  - intros. now rewrite map_length, seq_length.
Qed.

Lemma vpos_rows_In d s ix p :
  In p (vpos (d :: s) [ix]) <-> exists k c, In k ix /\ c < prodn s /\ p = k * prodn s + c.
Proof.
  simpl. rewrite vpos_nil, in_flat_map. split.
  - intros (k & Hk & H). apply in_map_iff in H. destruct H as (c & <- & Hc).
    apply in_seq in Hc. exists k, c. repeat split; auto; lia.
  - intros (k & c & Hk & Hc & ->). exists k. split; auto.
    apply in_map_iff. exists c. split; auto. apply in_seq; lia.
Qed.


Lemma NoDup_app_intro {A} (l1 l2 : list A) :
  NoDup l1 -> NoDup l2 -> (forall x, In x l1 -> ~ In x l2) -> NoDup (l1 ++ l2).
Proof.
  induction l1 as [|a l1 IH]; simpl; intros H1 H2 H; auto.
  inversion H1; subst. constructor.
  - rewrite in_app_iff. intros [?|?]; auto. apply (H a); auto.
  - apply IH; auto. 
Qed.

Lemma NoDup_flat_map {A B} (f : A -> list B) l :
  NoDup l -> (forall a, In a l -> NoDup (f a)) ->
  (forall a b x, In a l -> In b l -> In x (f a) -> In x (f b) -> a = b) ->
  NoDup (flat_map f l).
Proof.
  induction l as [|a l IH]; simpl; intros Hn Hf Hd; [constructor|].
  inversion Hn; subst.
  apply NoDup_app_intro; auto.
  - apply IH; auto. intros; eapply Hd; eauto.
  - intros x Hx Hx'. apply in_flat_map in Hx'. destruct Hx' as (b & Hb & Hxb).
    assert (a = b) by (eapply Hd; eauto). now subst.
Qed.

Lemma vpos_rows_NoDup d s ix : NoDup ix -> NoDup (vpos (d :: s) [ix]).
Proof.
  intros H. simpl. rewrite vpos_nil. apply NoDup_flat_map; auto.
  - intros a _. apply NoDup_map_inj; [|apply seq_NoDup]. intros; lia.
  - intros a b x _ _ Ha Hb. apply in_map_iff in Ha, Hb.
    destruct Ha as (p & Ep & Hp), Hb as (q & Eq & Hq). apply in_seq in Hp, Hq.
    apply (radix_inj (prodn s) a b p q); lia.
Qed.

(** Two leading axes. *)
Lemma vpos_rows2_length d e s ix jx :
  length (vpos (d :: e :: s) [ix; jx]) = length ix * (length jx * prodn s).
Proof.
  change (vpos (d :: e :: s) [ix; jx])
    with (flat_map (fun i => map (fun p => i * prodn (e :: s) + p) (vpos (e :: s) [jx])) ix).
  apply flat_map_uniform_length. intros. now rewrite map_length, vpos_rows_length.
Qed.

Lemma vpos_rows2_nth d e s ix jx k j c :
  k < length ix -> j < length jx -> c < prodn s ->
  nth (k * (length jx * prodn s) + (j * prodn s + c)) (vpos (d :: e :: s) [ix; jx]) 0
  = nth k ix 0 * (e * prodn s) + (nth j jx 0 * prodn s + c).
Proof.
  intros Hk Hj Hc.
  change (vpos (d :: e :: s) [ix; jx])
    with (flat_map (fun i => map (fun p => i * prodn (e :: s) + p) (vpos (e :: s) [jx])) ix).
  rewrite (flat_map_uniform_nth _ _ (length jx * prodn s) 0); auto.
  - rewrite (nth_map_d _ _ _ 0) by (rewrite vpos_rows_length; nia).
    rewrite vpos_rows_nth; auto.
  - intros. now rewrite map_length, vpos_rows_length.
  - nia.
Qed.

Lemma vpos_rows2_In d e s ix jx p :
  In p (vpos (d :: e :: s) [ix; jx]) <->
  exists k j c, In k ix /\ In j jx /\ c < prodn s /\ p = k * (e * prodn s) + (j * prodn s + c).
Proof.
  change (vpos (d :: e :: s) [ix; jx])
    with (flat_map (fun i => map (fun p => i * prodn (e :: s) + p) (vpos (e :: s) [jx])) ix).
  rewrite in_flat_map. split.
  - intros (k & Hk & H). apply in_map_iff in H. destruct H as (q & <- & Hq).
    apply vpos_rows_In in Hq. destruct Hq as (j & c & Hj & Hc & ->).
    exists k, j, c. repeat split; auto.
  - intros (k & j & c & Hk & Hj & Hc & ->). exists k; split; auto.
    apply in_map_iff. exists (j * prodn s + c). split; auto.
    apply vpos_rows_In. exists j, c; auto.
Qed.

Lemma vpos_rows2_NoDup d e s ix jx :
  NoDup ix -> NoDup jx -> (forall j, In j jx -> j < e) -> NoDup (vpos (d :: e :: s) [ix; jx]).
Proof.
  intros Hi Hj Hb.
  change (vpos (d :: e :: s) [ix; jx])
    with (flat_map (fun i => map (fun p => i * prodn (e :: s) + p) (vpos (e :: s) [jx])) ix).
  apply NoDup_flat_map; auto.
  - intros a _. apply NoDup_map_inj; [intros; lia|]. now apply vpos_rows_NoDup.
  - intros a b x _ _ Ha Hx. apply in_map_iff in Ha, Hx.
    destruct Ha as (p & Ep & Hp), Hx as (q & Eq & Hq).
    apply vpos_rows_In in Hp, Hq.
    destruct Hp as (j1 & c1 & Hj1 & Hc1 & ->), Hq as (j2 & c2 & Hj2 & Hc2 & ->).
    apply Hb in Hj1, Hj2.
    apply (radix_inj (prodn (e :: s)) a b (j1 * prodn s + c1) (j2 * prodn s + c2)).
    + simpl. apply radix_lt; auto.
    + simpl. apply radix_lt; auto.
    + lia.
Qed.

(** ** Sums *)
Section Sums.
  Context {T : Type} {NT : Num T}.
  Open Scope num_scope.
  Add Ring Tring : (num_rt (T := T)).

  Fixpoint sumn (n : nat) (f : nat -> T) : T :=
    match n with O => 0 | S m => sumn m f + f m end.

  Lemma sumn_S n f : sumn (S n) f = sumn n f + f n.
  Proof. reflexivity. Qed.

  Lemma sumn_ext n f g : (forall i, (i < n)%nat -> f i = g i) -> sumn n f = sumn n g.
  Proof.
    induction n; simpl; intros H; auto. rewrite IHn, H; auto.
  Qed.
  Lemma sumn_0 n : sumn n (fun _ => 0) = 0.
  Proof. induction n; simpl; auto. rewrite IHn; ring. Qed.
  Lemma sumn_zero n f : (forall i, (i < n)%nat -> f i = 0) -> sumn n f = 0.
  Proof. intros H. rewrite (sumn_ext _ _ (fun _ => 0)); auto. apply sumn_0. Qed.
  Lemma sumn_add n f g : sumn n (fun i => f i + g i) = sumn n f + sumn n g.
  Proof. induction n; simpl; [ring|]. rewrite IHn; ring. Qed.
  Lemma sumn_mul_l n c f : sumn n (fun i => c * f i) = c * sumn n f.
  Proof. induction n; simpl; [ring|]. rewrite IHn; ring. Qed.
  Lemma sumn_mul_r n c f : sumn n (fun i => f i * c) = sumn n f * c.
  Proof. induction n; simpl; [ring|]. rewrite IHn; ring. Qed.
  Lemma sumn_swap n m f :
    sumn n (fun i => sumn m (fun j => f i j)) = sumn m (fun j => sumn n (fun i => f i j)).
  Proof.
    induction n; simpl.
    - now rewrite sumn_0.
    - rewrite IHn. now rewrite sumn_add.
  Qed.
  Lemma sumn_plus n m f : sumn (n + m) f = sumn n f + sumn m (fun i => f (n + i)%nat).
  Proof.
    induction m; simpl.
    - rewrite Nat.add_0_r; ring.
    - rewrite Nat.add_succ_r; simpl. rewrite IHm; ring.
  Qed.
  Lemma sumn_prod a b f :
    sumn (a * b) f = sumn a (fun i => sumn b (fun j => f (i * b + j)%nat)).
  Proof.
    induction a; simpl; auto.
    rewrite Nat.add_comm, sumn_plus, IHa. reflexivity.
  Qed.
  Lemma sumn_S_l n f : sumn (S n) f = f O + sumn n (fun i => f (S i)).
  Proof.
    induction n; simpl; [ring|]. simpl in IHn. rewrite IHn; ring.
  Qed.
  Lemma sumn_single n k f :
    (k < n)%nat -> (forall i, (i < n)%nat -> i <> k -> f i = 0) -> sumn n f = f k.
  Proof.
    induction n; simpl; intros Hk H; [lia|].
    destruct (Nat.eq_dec k n) as [->|Hne].
    - rewrite sumn_zero; [ring|]. intros; apply H; lia.
    - rewrite IHn; try lia; [|intros; apply H; lia]. rewrite (H n); try lia. ring.
  Qed.
  Lemma sumn_ind n k f :
    (k < n)%nat -> sumn n (fun i => (if Nat.eqb i k then f i else 0)) = f k.
  Proof.
    intros H. rewrite (sumn_single n k); auto.
    - now rewrite Nat.eqb_refl.
    - intros i _ Hi. apply Nat.eqb_neq in Hi. now rewrite Hi.
  Qed.
  Lemma lsum_sumn l : lsum l = sumn (length l) (fun i => nth i l 0).
  Proof.
    induction l; auto. simpl length. rewrite sumn_S_l. simpl. now rewrite <- IHl.
  Qed.
  Lemma lsum_app l1 l2 : lsum (l1 ++ l2) = lsum l1 + lsum l2.
  Proof. induction l1; simpl; [ring|]. rewrite IHl1; ring. Qed.
  Lemma lsum_map_sumn {A} (d : A) (g : A -> T) l :
    lsum (map g l) = sumn (length l) (fun i => g (nth i l d)).
  Proof.
    rewrite lsum_sumn, map_length. apply sumn_ext. intros. now apply nth_map_d.
  Qed.

  (** Pairing of a vector with coefficients. *)
  Definition dotp (l : list T) (d : nat -> T) : T :=
    sumn (length l) (fun q => nth q l 0 * d q).

  Lemma dotp_ext l d d' : (forall q, (q < length l)%nat -> d q = d' q) -> dotp l d = dotp l d'.
  Proof. intros H; apply sumn_ext. intros; now rewrite H. Qed.

  Lemma dotp_basis l k : (k < length l)%nat ->
    dotp l (fun q => if Nat.eqb q k then 1 else 0) = nth k l 0.
  Proof.
    intros H. unfold dotp. rewrite (sumn_single _ k); auto.
    - rewrite Nat.eqb_refl; ring.
    - intros i _ Hi. apply Nat.eqb_neq in Hi. rewrite Hi; ring.
  Qed.

  Lemma dotp_repeat0 n d : dotp (repeat 0 n) d = 0.
  Proof.
    unfold dotp. apply sumn_zero. intros i Hi.
    rewrite repeat_length in Hi. rewrite nth_repeat. ring.
  Qed.

  (** ** Updates *)
  Lemma upd_length (l : list T) i v : length (upd l i v) = length l.
  Proof. revert i; induction l; intros [|i]; simpl; auto. Qed.

  Lemma nth_upd (l : list T) i v j d :
    nth j (upd l i v) d = if Nat.eqb j i then (if (i <? length l)%nat then v else d) else nth j l d.
  Proof.
    revert i j; induction l as [|a l IH]; intros i j; simpl.
    - destruct (Nat.eqb j i); destruct j; auto.
    - destruct i as [|i], j as [|j]; simpl; auto. rewrite IH.
      change (S i <? S (length l))%nat with (i <? length l)%nat. reflexivity.
  Qed.

  Lemma scatter_length (l : list T) pos vals : length (scatter l pos vals) = length l.
  Proof.
    unfold scatter. revert l vals; induction pos as [|p pos IH]; intros l [|v vals]; simpl; auto.
    rewrite IH. apply upd_length.
  Qed.

  Lemma scatter_other (l : list T) pos vals j d :
    ~ In j pos -> nth j (scatter l pos vals) d = nth j l d.
  Proof.
    unfold scatter. revert l vals; induction pos as [|p pos IH]; intros l [|v vals] H; simpl in *; auto.
    rewrite IH by tauto. rewrite nth_upd.
    destruct (Nat.eqb_spec j p); auto. subst; tauto.
  Qed.

  Lemma scatter_at (l : list T) pos vals m d :
    NoDup pos -> (forall p, In p pos -> (p < length l)%nat) -> (m < length pos)%nat ->
    (length pos <= length vals)%nat ->
    nth (nth m pos O) (scatter l pos vals) d = nth m vals d.
  Proof.
    unfold scatter. revert l vals m.
    induction pos as [|p pos IH]; intros l [|v vals] m Hn Hb Hm Hl; simpl in *; try lia.
    inversion Hn; subst. destruct m as [|m].
    - change (nth p (scatter (upd l p v) pos vals) d = v).
      rewrite scatter_other by auto. rewrite nth_upd, Nat.eqb_refl.
      assert (p < length l)%nat by (apply Hb; auto). apply Nat.ltb_lt in H. now rewrite H.
    - apply IH; auto; try lia. intros; rewrite upd_length; auto.
  Qed.

  Lemma upd_dotp l i v d : (i < length l)%nat ->
    dotp (upd l i v) d = dotp l d + (v - nth i l 0) * d i.
  Proof.
    unfold dotp. rewrite upd_length. intros H.
    rewrite (sumn_ext _ _ (fun q => nth q l 0 * d q
              + (if Nat.eqb q i then (v - nth i l 0) * d q else 0))).
    - rewrite sumn_add, sumn_ind; auto.
    - intros q Hq. rewrite nth_upd. apply Nat.ltb_lt in H. rewrite H.
      destruct (Nat.eqb_spec q i); [subst|]; ring.
  Qed.

  (** Scattering is adjoint to gathering. *)
  Lemma scatter_dotp l pos vals d :
    NoDup pos -> (forall p, In p pos -> (p < length l)%nat) -> length vals = length pos ->
    dotp (scatter l pos vals) d
    = dotp l d + sumn (length pos) (fun m => (nth m vals 0 - nth (nth m pos O) l 0) * d (nth m pos O)).
  Proof.
    unfold scatter. revert l vals.
    induction pos as [|p pos IH]; intros l [|v vals] Hn Hb HL; simpl length in *; try lia.
    - simpl; ring.
    - inversion Hn; subst. rewrite sumn_S_l. simpl combine. simpl fold_left.
      rewrite IH; auto.
      + rewrite upd_dotp by (apply Hb; simpl; auto). simpl.
        rewrite (sumn_ext (length pos) _
           (fun m => (nth m vals 0 - nth (nth m pos O) l 0) * d (nth m pos O))).
        * ring.
        * intros i Hi. rewrite nth_upd.
          destruct (Nat.eqb_spec (nth i pos O) p) as [E|]; auto.
          exfalso. apply H1. rewrite <- E. now apply nth_In.
      + intros; rewrite upd_length; apply Hb; simpl; auto.
  Qed.

  Lemma scatter0_dotp n pos vals d :
    NoDup pos -> (forall p, In p pos -> (p < n)%nat) -> length vals = length pos ->
    dotp (scatter (repeat 0 n) pos vals) d
    = sumn (length pos) (fun m => nth m vals 0 * d (nth m pos O)).
  Proof.
    intros. rewrite scatter_dotp; auto; [|now rewrite repeat_length].
    rewrite dotp_repeat0.
    rewrite (sumn_ext _ _ (fun m => nth m vals 0 * d (nth m pos O))); [ring|].
    intros. rewrite nth_repeat. ring.
  Qed.

  Lemma scatter_add_length l pos vals : length (scatter_add l pos vals) = length l.
  Proof. apply scatter_length. Qed.

  Lemma scatter_add_dotp l pos vals d :
    NoDup pos -> (forall p, In p pos -> (p < length l)%nat) -> length vals = length pos ->
    dotp (scatter_add l pos vals) d
    = dotp l d + sumn (length pos) (fun m => nth m vals 0 * d (nth m pos O)).
  Proof.
    intros Hn Hb HL. unfold scatter_add. rewrite scatter_dotp; auto.
    - f_equal. apply sumn_ext. intros i Hi.
      rewrite (nth_map_d _ _ _ (O, 0)) by (rewrite combine_length; lia).
      rewrite combine_nth_lt by auto. simpl. ring.
    - rewrite map_length, combine_length. lia.
  Qed.

  Lemma gather_length (l : list T) pos : length (gather l pos) = length pos.
  Proof. apply map_length. Qed.
  Lemma gather_nth l pos m d : (m < length pos)%nat -> nth m (gather l pos) d = nth (nth m pos O) l 0.
  Proof. intros; unfold gather. now rewrite (nth_map_d _ _ _ O). Qed.

  Lemma flat_set_length (l : list T) pos src : length (flat_set l pos src) = length l.
  Proof. destruct src; simpl; auto. apply scatter_length. Qed.

  Lemma flat_set_eq l pos src :
    length src = length pos -> flat_set l pos src = scatter l pos src.
  Proof.
    intros H. destruct src as [|a s0]; unfold flat_set.
    - destruct pos; simpl in *; try lia. reflexivity.
    - f_equal. apply (list_eq_nth 0).
      + now rewrite map_length, seq_length.
      + intros i Hi. rewrite map_length, seq_length in Hi.
        rewrite nth_map_seq by auto. rewrite Nat.mod_small; auto. lia.
  Qed.
End Sums.
