(** C55, C56: option keys and caching. *)
From Coq Require Import String Ascii List Bool Arith Lia.
From Verif Require Import Py NdArray UtilModel DictLemmas NameLemmas.
Import ListNotations.
Local Open Scope string_scope.

(** * Specification vocabulary *)

(** All characters of the text are word characters. *)
Fixpoint is_word (s : string) : Prop :=
  match s with EmptyString => True | String c s' => word_char c = true /\ is_word s' end.
(** The text does not start with a word character. *)
Definition stops (s : string) : Prop :=
  match s with EmptyString => True | String c _ => word_char c = false end.

(** * C55 *)

Lemma strip_prefix_spec p s r : strip_prefix p s = Some r <-> s = p ++ r.
Proof.
  revert s; induction p as [|a p IH]; intros s; simpl.
  - split; [intros [= ->]; auto|intros ->; auto].
  - destruct s as [|b s]; [split; discriminate|].
    destruct (Ascii.eqb_spec a b) as [->|N].
    + rewrite IH. split; [intros ->; auto|intros [= ->]; auto].
    + split; [discriminate|intros [= -> _]; congruence].
Qed.

Lemma word_run_split s : exists r, s = word_run s ++ r /\ stops r /\ is_word (word_run s).
Proof.
  induction s as [|c s (r & E & S & W)]; simpl.
  - exists ""; simpl; auto.
  - destruct (word_char c) eqn:C.
    + exists r. simpl. rewrite <- E. auto.
    + exists (String c s). simpl. auto.
Qed.
Lemma word_run_app w r : is_word w -> stops r -> word_run (w ++ r) = w.
Proof.
  induction w as [|c w IH]; simpl.
  - intros _; destruct r; simpl; auto. now intros ->.
  - intros [-> W] S. f_equal. auto.
Qed.
Lemma is_word_app a b : is_word (a ++ b) <-> is_word a /\ is_word b.
Proof. induction a; simpl; tauto. Qed.

Lemma subkey_spec base key w :
  subkey base key = Some w <->
  w <> "" /\ is_word w /\ exists rest, key = base ++ w ++ rest /\ stops rest.
Proof.
  unfold subkey. split.
  - destruct (strip_prefix base key) as [rest|] eqn:E; [|discriminate].
    apply strip_prefix_spec in E. subst key.
    destruct (word_run_split rest) as (r & E & S & W).
    destruct (word_run rest) as [|c u] eqn:U; [discriminate|].
    intros [= <-]. split; [discriminate|]. split; [exact W|]. exists r. now rewrite <- E.
  - intros (N & W & rest & -> & S).
    replace (strip_prefix base (base ++ w ++ rest)) with (Some (w ++ rest))
      by (symmetry; apply strip_prefix_spec; reflexivity).
    rewrite word_run_app by auto. destruct w; [congruence|reflexivity].
Qed.

(** Which key an entry gets, if any: the longest run of word characters
    after the base. *)
Theorem C55_subkey : forall base key w,
  subkey base key = Some w <->
  w <> "" /\ is_word w /\ exists rest, key = base ++ w ++ rest /\ stops rest.
Proof. exact subkey_spec. Qed.

Lemma dget_dset_str {V} (d : sdict V) k k' v :
  dget String.eqb (dset String.eqb d k v) k' = if String.eqb k' k then Some v else dget String.eqb d k'.
Proof.
  induction d as [|[a u] d IH]; simpl.
  - destruct (String.eqb k' k); reflexivity.
  - destruct (String.eqb_spec k a) as [->|N]; simpl.
    + destruct (String.eqb k' a); reflexivity.
    + rewrite IH. destruct (String.eqb_spec k' a) as [->|N']; [|reflexivity].
      destruct (String.eqb_spec a k); congruence.
Qed.

Definition matches (base w : string) {V} (kv : string * V) : bool :=
  match subkey base (fst kv) with Some k => String.eqb w k | None => false end.

Lemma extract_get {V} (d : sdict V) base w : forall acc,
  dget String.eqb (fold_left (fun acc kv => match subkey base (fst kv) with
      | Some k => dset String.eqb acc k (snd kv) | None => acc end) d acc) w
  = match find (matches base w) (rev d) with
    | Some kv => Some (snd kv) | None => dget String.eqb acc w end.
Proof.
  induction d as [|[k v] d IH]; intros acc; simpl; [reflexivity|].
  rewrite IH. clear IH.
  assert (F : forall l, find (matches base w) (l ++ [(k, v)])%list
     = match find (matches base w) l with Some kv => Some kv | None => if matches base w (k, v) then Some (k, v) else None end).
  { induction l as [|x l IH]; simpl; [reflexivity|]. destruct (matches base w x); auto. }
  rewrite F. destruct (find (matches base w) (rev d)) as [kv|]; [reflexivity|].
  unfold matches; simpl. destruct (subkey base k) as [k'|]; [|reflexivity].
  rewrite dget_dset_str. destruct (String.eqb w k'); reflexivity.
Qed.

(** The value under [w] is that of the last entry whose key gives [w]. *)
Theorem C55_lookup : forall V (d : sdict V) base w,
  dget String.eqb (extract_subkeys d base) w
  = option_map snd (find (fun kv => match subkey base (fst kv) with
                                    | Some k => String.eqb w k | None => false end) (rev d)).
Proof.
  intros V d base w. unfold extract_subkeys. rewrite extract_get. simpl. unfold matches.
  match goal with |- context [find ?p ?l] => destruct (find p l); reflexivity end.
Qed.

Lemma subkey_word base key : is_word key -> subkey base key =
  match strip_prefix base key with Some EmptyString => None | r => r end.
Proof.
  intros W. unfold subkey. destruct (strip_prefix base key) as [rest|] eqn:E; [|reflexivity].
  apply strip_prefix_spec in E. subst key. apply is_word_app in W as [_ W].
  rewrite <- (sapp_nil_r rest) at 1. rewrite word_run_app by (simpl; auto). reflexivity.
Qed.

(** The entries with a key [base ++ s], [s] not empty, in order. *)
Definition tails {V} (base : string) (d : sdict V) : sdict V :=
  flat_map (fun kv => match strip_prefix base (fst kv) with
                      | Some (String c s) => [(String c s, snd kv)] | _ => [] end) d.

Lemma tails_cons {V} base k v (d : sdict V) : tails base ((k, v) :: d)
  = (match strip_prefix base k with Some (String c s) => [(String c s, v)] | _ => [] end ++ tails base d)%list.
Proof. reflexivity. Qed.
Lemma tails_spec {V} base (d : sdict V) s v :
  In (s, v) (tails base d) <-> s <> "" /\ In (base ++ s, v) d.
Proof.
  unfold tails. rewrite in_flat_map. split.
  - intros ([k u] & I & J). simpl in J. destruct (strip_prefix base k) as [[|c r]|] eqn:E; simpl in J; try tauto.
    destruct J as [[= <- <-]|[]]. apply strip_prefix_spec in E. subst k. split; [discriminate|exact I].
  - intros [N I]. exists (base ++ s, v). split; [exact I|]. simpl.
    replace (strip_prefix base (base ++ s)) with (Some s) by (symmetry; apply strip_prefix_spec; reflexivity).
    destruct s; [congruence|]. simpl. auto.
Qed.

Lemma dset_fresh {V} (d : sdict V) k v : ~ In k (map fst d) -> dset String.eqb d k v = (d ++ [(k, v)])%list.
Proof.
  induction d as [|[a u] d IH]; simpl; [reflexivity|]. intros N.
  destruct (String.eqb_spec k a) as [->|]; [tauto|]. rewrite IH by tauto. reflexivity.
Qed.

Lemma tails_keys {V} base (d : sdict V) s : In s (map fst (tails base d)) -> In (base ++ s) (map fst d).
Proof.
  rewrite !in_map_iff. intros ([s' v] & <- & I). apply tails_spec in I as [_ I].
  exists (base ++ s', v). auto.
Qed.

Lemma extract_tails {V} (d : sdict V) base : List.Forall (fun kv => is_word (fst kv)) d -> NoDup (map fst d) ->
  extract_subkeys d base = tails base d.
Proof.
  intros W N. unfold extract_subkeys.
  assert (G : forall acc, (forall s, In s (map fst acc) -> ~ In (base ++ s) (map fst d)) ->
    fold_left (fun acc kv => match subkey base (fst kv) with
      | Some k => dset String.eqb acc k (snd kv) | None => acc end) d acc = (acc ++ tails base d)%list).
  2:{ apply (G []). simpl; tauto. }
  induction d as [|[k v] d IH]; intros acc H; simpl.
  - now rewrite app_nil_r.
  - inversion W as [|? ? Wk Wd]; subst. inversion N as [|? ? Nk Nd]; subst. simpl in Wk, Nk.
    rewrite (subkey_word base k Wk).
    destruct (strip_prefix base k) as [[|c s]|] eqn:E.
    + rewrite IH; auto. intros s I C. apply (H s I). simpl; auto.
    + apply strip_prefix_spec in E. subst k.
      rewrite dset_fresh.
      * rewrite IH; auto; [rewrite <- app_assoc; reflexivity|].
        intros s' I. rewrite map_app in I. apply in_app_or in I as [I|[<-|[]]]; [|exact Nk].
        intros C. apply (H s' I). simpl; auto.
      * intros I. apply (H _ I). simpl; auto.
    + rewrite IH; auto. intros s I C. apply (H s I). simpl; auto.
Qed.

(** On keys made of word characters: exactly the keys that extend the base,
    with the base removed, in order; distinct keys stay distinct. *)
Theorem C55_word_keys : forall V (d : sdict V) base,
  List.Forall (fun kv => is_word (fst kv)) d -> NoDup (map fst d) ->
  (forall s v, In (s, v) (extract_subkeys d base) <-> s <> "" /\ In (base ++ s, v) d) /\
  NoDup (map fst (extract_subkeys d base)) /\
  (forall s, s <> "" -> dget String.eqb (extract_subkeys d base) s = dget String.eqb d (base ++ s)).
Proof.
  intros V d base W N. rewrite (extract_tails d base W N). split; [|split].
  - intros s v. apply tails_spec.
  - clear W. induction d as [|[k v] d IH]; simpl; [constructor|].
    inversion N as [|? ? Nk Nd]; subst. simpl in Nk.
    destruct (strip_prefix base k) as [[|c s]|] eqn:E; simpl; auto.
    apply strip_prefix_spec in E. subst k. constructor; auto.
    intros I. apply Nk, tails_keys, I.
  - intros s Hs. clear W N. induction d as [|[k v] d IH]; [reflexivity|]. rewrite tails_cons. cbn [dget].
    destruct (strip_prefix base k) as [[|c r]|] eqn:E.
    + apply strip_prefix_spec in E. subst k. cbn [app]. rewrite IH.
      destruct (String.eqb_spec (base ++ s) (base ++ "")) as [C|]; [|reflexivity].
      apply sapp_inv_head in C. congruence.
    + apply strip_prefix_spec in E. subst k. simpl.
      destruct (String.eqb_spec s (String c r)) as [->|C].
      * rewrite String.eqb_refl. reflexivity.
      * destruct (String.eqb_spec (base ++ s) (base ++ String c r)) as [C'|]; [|exact IH].
        apply sapp_inv_head in C'. congruence.
    + cbn [app]. rewrite IH. destruct (String.eqb_spec (base ++ s) k) as [<-|]; [|reflexivity].
      rewrite (proj2 (strip_prefix_spec base (base ++ s) s) eq_refl) in E. discriminate.
Qed.

Example C55_nonvacuous :
  extract_subkeys [("pred_ut_kappa", 1); ("kappa", 2); ("pred_ut_", 3); ("pred_ut_sqrt", 4)] "pred_ut_"
    = [("kappa", 1); ("sqrt", 4)] /\
  (* distinct keys may collide when they hold other characters *)
  extract_subkeys [("b_x-1", 1); ("b_x-2", 2)] "b_" = [("x", 2)].
Proof. split; reflexivity. Qed.

(** * C56 *)

Section Cache.
  Context {V : Type} (f : nat -> nat -> V).

  Definition seen (c : lru V) (o : nat) : Prop := In o (map fst (l_entries c)).

  Lemma dget_nat_In (d : list (nat * V)) o : (exists v, dget Nat.eqb d o = Some v) <-> In o (map fst d).
  Proof.
    induction d as [|[k v] d IH]; simpl.
    - split; [intros [v [=]]|tauto].
    - destruct (Nat.eqb_spec o k) as [->|N].
      + split; [auto|]. eexists; reflexivity.
      + rewrite IH. split; [auto|]. intros [C|]; [congruence|auto].
  Qed.
  Lemma dget_filter (d : list (nat * V)) o o' : o' <> o ->
    dget Nat.eqb (filter (fun kv => negb (Nat.eqb (fst kv) o)) d) o' = dget Nat.eqb d o'.
  Proof.
    intros N. induction d as [|[k v] d IH]; simpl; [reflexivity|].
    destruct (Nat.eqb_spec k o) as [->|]; simpl.
    - rewrite IH. destruct (Nat.eqb_spec o' o); [congruence|reflexivity].
    - rewrite IH. reflexivity.
  Qed.
  Lemma keys_filter (d : list (nat * V)) o : ~ In o (map fst (filter (fun kv => negb (Nat.eqb (fst kv) o)) d)).
  Proof.
    rewrite in_map_iff. intros ([k v] & E & I). apply filter_In in I as [_ I].
    simpl in *. subst. rewrite Nat.eqb_refl in I. discriminate.
  Qed.
  Lemma nodup_filter (d : list (nat * V)) p : NoDup (map fst d) -> NoDup (map fst (filter p d)).
  Proof.
    induction d as [|x d IH]; simpl; [auto|]. intros N; inversion N; subst.
    destruct (p x); simpl; auto. constructor; auto.
    rewrite in_map_iff. intros (y & E & I). apply filter_In in I as [I _].
    apply H1. rewrite <- E. now apply in_map.
  Qed.

  (** Two caches that hold the same values and made the same calls. *)
  Definition same (c c' : lru V) : Prop :=
    l_calls c = l_calls c' /\ forall o, dget Nat.eqb (l_entries c) o = dget Nat.eqb (l_entries c') o.

  Lemma lru_as_dict m (objs : list nat) os : NoDup objs -> length objs <= m -> incl os objs ->
    forall c c', same c c' -> NoDup (map fst (l_entries c)) -> incl (map fst (l_entries c)) objs ->
    reads m f c os = cached_reads f c' os.
  Proof.
    intros No L. induction os as [|o os IH]; intros I c c' [Sc Sd] Nc Ic; [reflexivity|].
    assert (Io : In o objs) by (apply I; simpl; auto).
    assert (Ios : incl os objs) by (intros x Hx; apply I; simpl; auto).
    cbn [reads cached_reads]. unfold lru_call, cached_call. rewrite <- Sd.
    destruct (dget Nat.eqb (l_entries c) o) as [v|] eqn:G; cbn [l_calls].
    - rewrite Sc. rewrite !Nat.eqb_refl. f_equal. apply IH; auto.
      + split; [reflexivity|]. intros o'. cbn [l_entries dget].
        destruct (Nat.eqb_spec o' o) as [->|Ne]; [now rewrite <- Sd|]. rewrite dget_filter by auto. apply Sd.
      + cbn [l_entries map fst]. constructor; [apply keys_filter|now apply nodup_filter].
      + intros x [<-|Hx]; [exact Io|]. apply in_map_iff in Hx as (y & <- & Hy).
        apply filter_In in Hy as [Hy _]. apply Ic. now apply in_map.
    - assert (Fr : ~ In o (map fst (l_entries c))).
      { intros C. apply dget_nat_In in C as [v C]. congruence. }
      assert (Len : length ((o, f o (l_calls c)) :: l_entries c) <= m).
      { etransitivity; [|exact L]. rewrite <- (map_length fst). apply NoDup_incl_length.
        - simpl. constructor; auto.
        - intros x [<-|Hx]; auto. }
      rewrite (firstn_all2 _ Len). rewrite Sc.
      f_equal. apply IH; auto.
      + split; [simpl; congruence|]. intros o'. cbn [l_entries dget].
        destruct (Nat.eqb o' o); [congruence|apply Sd].
      + simpl. constructor; auto.
      + intros x [<-|Hx]; auto.
  Qed.

  Lemma cached_first os : forall c pre o post, os = (pre ++ o :: post)%list ->
    exists v, nth_error (cached_reads f c os) (length pre)
      = Some (o, v, match dget Nat.eqb (l_entries c) o with Some _ => false | None => negb (existsb (Nat.eqb o) pre) end) /\
    (forall v0, dget Nat.eqb (l_entries c) o = Some v0 -> v = v0) /\
    (forall k v' b, nth_error (cached_reads f c os) k = Some (o, v', b) -> v' = v).
  Proof.
    induction os as [|a os IH]; intros c pre o post E; [destruct pre; discriminate|].
    destruct pre as [|p pre]; injection E as E1 E2.
    - subst a. cbn [cached_reads length nth_error]. unfold cached_call.
      destruct (dget Nat.eqb (l_entries c) o) as [v|] eqn:G; cbn [l_calls].
      + exists v. rewrite Nat.eqb_refl. split; [reflexivity|]. split; [congruence|].
        intros [|k] v' b K; [simpl in K; congruence|]. simpl in K.
        clear IH E2. revert c G k K. induction os as [|a os IH]; intros c G k K; [destruct k; discriminate|].
        cbn [cached_reads] in K. unfold cached_call in K.
        destruct (dget Nat.eqb (l_entries c) a) as [u|] eqn:Ga.
        * destruct k; simpl in K; [|eapply IH; eauto]. injection K as -> <- _. congruence.
        * destruct k; simpl in K; [injection K as -> _ _; congruence|].
          eapply (IH _ _ k K). Unshelve. cbn [l_entries dget].
          destruct (Nat.eqb_spec o a); [congruence|exact G].
      + exists (f o (l_calls c)). split.
        { replace (Nat.eqb (S (l_calls c)) (l_calls c)) with false; [reflexivity|].
          symmetry. apply Nat.eqb_neq. lia. }
        split; [congruence|].
        intros [|k] v' b K; [simpl in K; congruence|]. simpl in K.
        set (c1 := Lru ((o, f o (l_calls c)) :: l_entries c) (S (l_calls c))) in *.
        assert (G1 : dget Nat.eqb (l_entries c1) o = Some (f o (l_calls c))) by (simpl; now rewrite Nat.eqb_refl).
        clearbody c1. clear IH E2.
        revert c1 G1 k K. induction os as [|a os IH]; intros c1 G1 k K; [destruct k; discriminate|].
        cbn [cached_reads] in K. unfold cached_call in K.
        destruct (dget Nat.eqb (l_entries c1) a) as [u|] eqn:Ga.
        * destruct k; simpl in K; [|eapply IH; eauto]. injection K as -> <- _. congruence.
        * destruct k; simpl in K; [injection K as -> _ _; congruence|].
          eapply (IH _ _ k K). Unshelve. cbn [l_entries dget].
          destruct (Nat.eqb_spec o a); [congruence|exact G1].
    - subst a. cbn [cached_reads length nth_error].
      destruct (cached_call f c p) as [u c1] eqn:Cc. cbn [nth_error].
      destruct (IH c1 pre o post E2) as (v & A & B & D). exists v.
      assert (G1 : forall v0, dget Nat.eqb (l_entries c) o = Some v0 -> dget Nat.eqb (l_entries c1) o = Some v0).
      { intros v0 G0. unfold cached_call in Cc. destruct (dget Nat.eqb (l_entries c) p) eqn:Gp; injection Cc as <- <-; auto.
        cbn [l_entries dget]. destruct (Nat.eqb_spec o p); [congruence|auto]. }
      assert (G2 : dget Nat.eqb (l_entries c1) o = if Nat.eqb o p then Some u else dget Nat.eqb (l_entries c) o).
      { unfold cached_call in Cc. destruct (dget Nat.eqb (l_entries c) p) eqn:Gp; injection Cc as <- <-; auto.
        destruct (Nat.eqb_spec o p) as [->|]; auto. }
      split; [|split].
      + rewrite A. do 2 f_equal. simpl existsb. rewrite G2.
        destruct (Nat.eqb_spec o p) as [->|]; [|reflexivity]. simpl.
        destruct (dget Nat.eqb (l_entries c) p); reflexivity.
      + intros v0 G0. apply B, G1, G0.
      + intros [|k] v' b K; [|eapply D; exact K]. cbn in K. injection K as -> -> _.
        symmetry. apply B. rewrite G2, Nat.eqb_refl. reflexivity.
  Qed.
End Cache.

(** As long as at most [m] objects use the property, each read of an object
    runs the wrapped function exactly if it is that object's first read, and
    all reads of the object give the same value, even if the function would
    now return something else. *)
Theorem C56_once_per_object : forall V (f : nat -> nat -> V) objs os,
  NoDup objs -> length objs <= 128 -> incl os objs ->
  forall pre o post, os = (pre ++ o :: post)%list ->
  exists v, nth_error (property_reads f lru0 os) (length pre) = Some (o, v, negb (existsb (Nat.eqb o) pre)) /\
  (forall k v' b, nth_error (property_reads f lru0 os) k = Some (o, v', b) -> v' = v).
Proof.
  intros V f objs os N L I pre o post E. unfold property_reads.
  rewrite (lru_as_dict f 128 objs os N L I lru0 lru0); simpl;
    [|split; reflexivity|constructor|intros x []].
  destruct (cached_first f os lru0 pre o post E) as (v & A & _ & B). exists v. auto.
Qed.

(** [utils.cached] does the same for any number of objects. *)
Theorem C56_cached_method : forall V (f : nat -> nat -> V) os pre o post, os = (pre ++ o :: post)%list ->
  exists v, nth_error (cached_reads f lru0 os) (length pre) = Some (o, v, negb (existsb (Nat.eqb o) pre)) /\
  (forall k v' b, nth_error (cached_reads f lru0 os) k = Some (o, v', b) -> v' = v).
Proof.
  intros V f os pre o post E.
  destruct (cached_first f os lru0 pre o post E) as (v & A & _ & B). exists v. auto.
Qed.

Lemma reads_values {V} m (g : nat -> V) os : forall c,
  (forall o v, In (o, v) (l_entries c) -> v = g o) ->
  forall o v b, In (o, v, b) (reads m (fun o _ => g o) c os) -> v = g o.
Proof.
  assert (D : forall (d : list (nat * V)) o v, dget Nat.eqb d o = Some v -> In (o, v) d).
  { induction d as [|[k u] d IHd]; simpl; [discriminate|]. intros o v.
    destruct (Nat.eqb_spec o k) as [->|]; [intros [= ->]; auto|auto]. }
  induction os as [|a os IH]; intros c H o v b I; [destruct I|].
  cbn [reads] in I. unfold lru_call in I.
  destruct (dget Nat.eqb (l_entries c) a) as [u|] eqn:G; destruct I as [I|I].
  - injection I as <- <- _. auto.
  - eapply IH; [|exact I]. cbn [l_entries]. intros o' v' [[= <- <-]|J]; [auto|].
    apply filter_In in J as [J _]. auto.
  - injection I as <- <- _. reflexivity.
  - eapply IH; [|exact I]. cbn [l_entries]. intros o' v' J.
    assert (J' : In (o', v') ((a, g a) :: l_entries c)).
    { rewrite <- (firstn_skipn m ((a, g a) :: l_entries c)). apply in_or_app. left. exact J. }
    destruct J' as [[= <- <-]|J']; auto.
Qed.

(** Whatever the number of objects, every read returns the value of a wrapped
    function that only depends on the object. *)
Theorem C56_values : forall V (g : nat -> V) os o v b,
  In (o, v, b) (property_reads (fun o _ => g o) lru0 os) -> v = g o.
Proof. intros V g os. apply (reads_values 128 g os lru0). intros o v []. Qed.

Lemma reads_app {V} m (f : nat -> nat -> V) os os' : forall c,
  exists c', reads m f c (os ++ os') = (reads m f c os ++ reads m f c' os')%list.
Proof.
  induction os as [|o os IH]; intros c; simpl.
  - exists c. reflexivity.
  - destruct (lru_call m f c o) as [v c1]. destruct (IH c1) as [c' E]. exists c'. rewrite E. reflexivity.
Qed.

(** The docstring's "calculated only once" is refuted: with 129 objects the
    first one is computed again. *)
Theorem C56_only_once_refuted : forall V (f : nat -> nat -> V),
  let os := (seq 0 129 ++ [0])%list in
  map snd (property_reads f lru0 os) = repeat true 130.
Proof. intros V f. vm_compute. reflexivity. Qed.

Example C56_nonvacuous :
  property_reads (fun o k => 10 * o + k) lru0 [3; 5; 3; 5; 3] =
  [(3, 30, true); (5, 51, true); (3, 30, false); (5, 51, false); (3, 30, false)].
Proof. reflexivity. Qed.

(** * C68: flat_cat *)

(** The result is one-dimensional, holds all the elements in order, and each
    argument is recovered as a slice. *)
Theorem C68_flat_cat : forall T (args : list (arr T)) pre (a : arr T) post, args = (pre ++ a :: post)%list ->
  exists r, flat_cat args = Ok r /\ ash r = [length (adat r)] /\
  length (adat r) = fold_right Nat.add 0 (map (fun x => length (adat x)) args) /\
  firstn (length (adat a)) (skipn (fold_right Nat.add 0 (map (fun x => length (adat x)) pre)) (adat r)) = adat a.
Proof.
  intros T args pre a post E. exists (Arr [length (flat_map adat args)] (flat_map adat args)).
  split; [subst; destruct pre; reflexivity|]. split; [reflexivity|].
  assert (L : forall l : list (arr T), length (flat_map adat l) = fold_right Nat.add 0 (map (fun x => length (adat x)) l)).
  { induction l as [|x l IH]; simpl; [reflexivity|]. now rewrite app_length, IH. }
  split; [apply L|]. simpl adat. subst args. rewrite flat_map_app. simpl flat_map.
  rewrite <- L. rewrite skipn_app, skipn_all, Nat.sub_diag. simpl.
  rewrite firstn_app, Nat.sub_diag, firstn_all. simpl. apply app_nil_r.
Qed.
Theorem C68_empty : forall T, flat_cat (T := T) [] = Err ValueError.
Proof. reflexivity. Qed.
Example C68_nonvacuous :
  flat_cat [Arr [1; 3] [1; 2; 3]; Arr [2] [4; 5]; Arr [] [6]] = Ok (Arr [6] [1; 2; 3; 4; 5; 6]).
Proof. reflexivity. Qed.

Print Assumptions C55_word_keys.
Print Assumptions C56_once_per_object.
Print Assumptions C56_only_once_refuted.
Print Assumptions C68_flat_cat.
