(** Facts about assignments through views. *)
From Coq Require Import String List ZArith Bool Arith Lia.
From Verif Require Import Py NdArray NdLemmas OptimModel OptimSpec OptimLaws LawFacts IndexLemmas PropsEdge ViewModel.
Import ListNotations.

(** *** Specification: the elements a subscript selects

    [picks s sl ix k]: the element [ix] of an array of shape [s] belongs to
    the selection [sl], where it is element [k]. *)
Definition starts (d : nat) (a : option Z) (i : nat) : Prop := match a with Some a => (wrapped d a <= Z.of_nat i)%Z | None => True end.
Definition stops (d : nat) (b : option Z) (i : nat) : Prop := match b with Some b => (Z.of_nat i < wrapped d b)%Z | None => True end.
Inductive picks : shape -> list sel -> list nat -> list nat -> Prop :=
  | picks_end : picks [] [] [] []
  | picks_rest d s i ix k : i < d -> picks s [] ix k -> picks (d :: s) [] (i :: ix) (i :: k)
  | picks_at d s z sl i ix k : i < d -> (Z.of_nat i = z \/ Z.of_nat i = z + Z.of_nat d)%Z -> picks s sl ix k -> picks (d :: s) (At z :: sl) (i :: ix) k
  | picks_slice d s a b sl i j ix k : i < d -> starts d a i -> stops d b i ->
      (* [j] elements of the slice come before [i] *)
      (forall i', i' < i -> starts d a i' <-> i - j <= i') -> j <= i -> picks s sl ix k ->
      picks (d :: s) (Sl a b :: sl) (i :: ix) (j :: k).

(** A subscript that NumPy accepts: not more entries than axes, and the
    integers in range; the shape of the selection leaves out the axes indexed
    by integers. *)
Inductive accepts : shape -> list sel -> shape -> Prop :=
  | accepts_rest s : accepts s [] s
  | accepts_at d s z sl r : (- Z.of_nat d <= z < Z.of_nat d)%Z -> accepts s sl r -> accepts (d :: s) (At z :: sl) r
  | accepts_slice d s a b sl len r :
      (* as many as there are indices in the slice *)
      (exists lo, lo + len <= d /\ forall i, i < d -> (starts d a i /\ stops d b i) <-> lo <= i < lo + len) ->
      accepts s sl r -> accepts (d :: s) (Sl a b :: sl) (len :: r).

Lemma starts_iff d a i : i < d -> starts d a i <-> match a with Some a => pynorm d a | None => 0 end <= i.
Proof.
  intros Hi. unfold starts. destruct a as [a|]; [|split; auto with arith; lia].
  rewrite <- Nat.leb_le, (pynorm_le d a i Hi), Z.leb_le. tauto.
Qed.
Lemma stops_iff d b i : i < d -> stops d b i <-> i < match b with Some b => pynorm d b | None => d end.
Proof.
  intros Hi. unfold stops. destruct b as [b|]; [|tauto].
  rewrite <- Nat.ltb_lt, (pynorm_gt d b i Hi), Z.ltb_lt. tauto.
Qed.
Lemma pn_bound d b : match b with Some b => pynorm d b | None => d end <= d.
Proof. destruct b; [apply pynorm_bound|auto]. Qed.
Lemma pn_bound0 d b : match b with Some b => pynorm d b | None => 0 end <= d.
Proof. destruct b; [apply pynorm_bound|lia]. Qed.

(** What [select] returns. *)
Record selection (s : shape) (sl : list sel) (ixs : list (list nat)) (r : shape) : Prop := {
  sn_len : length (vpos s ixs) = prodn r;
  sn_nodup : NoDup (vpos s ixs);
  sn_lt : forall p, In p (vpos s ixs) -> p < prodn s;
  sn_at : forall ix k, picks s sl ix k -> index_in s ix /\ index_in r k /\ nth (ravel r k) (vpos s ixs) 0 = ravel s ix;
  sn_in : forall p, In p (vpos s ixs) -> exists ix k, picks s sl ix k /\ ravel s ix = p
}.

Lemma picks_nil s ix k : picks s [] ix k <-> index_in s ix /\ k = ix.
Proof.
  revert ix k. induction s as [|d s IH]; intros ix k; split.
  - inversion 1; subst. split; [split; [reflexivity|cbn; lia]|reflexivity].
  - intros [[H _] ->]. destruct ix; [constructor|discriminate].
  - inversion 1; subst. match goal with P : picks s [] _ _ |- _ => apply IH in P as [[P1 P2] ->] end. split; [|reflexivity].
    split; [cbn; now rewrite P1|]. intros [|q] Hq; cbn in *; auto. apply P2. lia.
  - intros [[H1 H2] ->]. destruct ix as [|i ix]; [discriminate|]. constructor; [apply (H2 0); cbn; lia|].
    apply IH. split; [|reflexivity]. split; [now injection H1|]. intros q Hq. apply (H2 (S q)). cbn. lia.
Qed.

Lemma index_in_cons d s i ix : i < d -> index_in s ix -> index_in (d :: s) (i :: ix).
Proof. intros Hi [H1 H2]. split; [cbn; now rewrite H1|]. intros [|q] Hq; cbn in *; auto. apply H2. lia. Qed.

Lemma select_ok sl : forall s ixs r, select s sl = Ok (ixs, r) -> selection s sl ixs r.
Proof.
  induction sl as [|x sl IH]; intros s ixs r H.
  - injection H as <- <-. constructor; rewrite ?vpos_nil, ?seq_length; auto.
    + apply seq_NoDup.
    + intros p Hp. apply in_seq in Hp. lia.
    + intros ix k Hp. apply picks_nil in Hp as [Hp ->]. split; auto. split; auto.
      rewrite seq_nth by now apply index_in_lt. reflexivity.
    + intros p Hp. apply in_seq in Hp. destruct (unravel s p) as (ix & H1 & H2); [lia|].
      exists ix, ix. split; auto. now apply picks_nil.
  - destruct s as [|d s]; [discriminate|]. cbn [select] in H.
    destruct (axis_ix d x) as [ix0|] eqn:Ea; [|discriminate]. cbn [bind] in H.
    destruct (select s sl) as [[ixs' r']|] eqn:Es; [|discriminate]. cbn [bind fst snd] in H. injection H as <- <-.
    destruct (IH s ixs' r' Es) as [L N B A I]. clear IH.
    set (V := vpos s ixs') in *.
    assert (EV : vpos (d :: s) (ix0 :: ixs') = flat_map (fun i => map (fun p => i * prodn s + p) V) ix0) by reflexivity.
    (* the indices of this axis *)
    assert (X : NoDup ix0 /\ (forall i, In i ix0 -> i < d)).
    { destruct x as [z|a b]; cbn [axis_ix] in Ea.
      - destruct ((- Z.of_nat d <=? z) && (z <? Z.of_nat d))%Z eqn:Ez; [|discriminate]. injection Ea as <-.
        apply andb_true_iff in Ez as [E1 E2]. apply Z.leb_le in E1. apply Z.ltb_lt in E2.
        split; [repeat constructor; auto|]. intros i [<-|[]]. destruct (Z.ltb_spec z 0); lia.
      - injection Ea as <-. split; [apply seq_NoDup|]. intros i Hi. apply in_seq in Hi. pose proof (pn_bound d b). lia. }
    destruct X as [X1 X2].
    assert (NV : NoDup (vpos (d :: s) (ix0 :: ixs'))).
    { rewrite EV. apply NoDup_flat_map; auto.
      - intros a _. apply NoDup_map_inj; auto. intros; lia.
      - intros a b p _ _ Ha Hb. apply in_map_iff in Ha as (p1 & <- & H1). apply in_map_iff in Hb as (p2 & E & H2).
        destruct (radix_inj (prodn s) b a p2 p1) as [-> _]; auto. }
    assert (LV : length (vpos (d :: s) (ix0 :: ixs')) = length ix0 * prodn r').
    { rewrite EV, (flat_map_uniform_length _ _ (length V)); [now rewrite L|]. intros i _. apply map_length. }
    assert (NthV : forall q c, q < length ix0 -> c < prodn r' ->
      nth (q * prodn r' + c) (vpos (d :: s) (ix0 :: ixs')) 0 = nth q ix0 0 * prodn s + nth c V 0).
    { intros q c Hq Hc. rewrite EV. rewrite <- L in *. rewrite (flat_map_uniform_nth _ _ (length V) 0);
        auto; [|intros i _; apply map_length].
      rewrite (nth_map_d _ _ _ 0) by lia. reflexivity. }
    constructor.
    + rewrite LV. destruct x as [z|a b]; cbn [axis_ix] in Ea.
      * destruct (_ && _)%bool; [|discriminate]. injection Ea as <-. cbn. lia.
      * reflexivity.
    + exact NV.
    + intros p Hp. rewrite EV in Hp. apply in_flat_map in Hp as (i & Hi & Hp). apply in_map_iff in Hp as (q & <- & Hq).
      apply radix_lt; auto.
    + intros ix k Hp. destruct x as [z|a b]; inversion Hp; subst.
      * match goal with P : picks s sl _ _ |- _ => destruct (A _ _ P) as (A1 & A2 & A3) end. split; [now apply index_in_cons|]. split; auto.
        cbn [axis_ix] in Ea. destruct (Z.leb_spec (- Z.of_nat d) z), (Z.ltb_spec z (Z.of_nat d)); cbn [andb] in Ea; try discriminate.
        injection Ea as <-. pose proof (NthV 0 (ravel r' k)) as Q. cbn [length nth] in Q. rewrite Nat.mul_0_l, Nat.add_0_l in Q.
        rewrite Q; [|lia|now apply index_in_lt]. rewrite A3. cbn [ravel]. f_equal. f_equal. destruct (Z.ltb_spec z 0); lia.
      * match goal with P : picks s sl _ _ |- _ => destruct (A _ _ P) as (A1 & A2 & A3) end. split; [now apply index_in_cons|].
        match goal with P : forall i', i' < i -> _ |- _ => rename P into H8 end.
        cbn [axis_ix] in Ea. injection Ea as <-. rewrite seq_length in *.
        set (lo := match a with Some a => pynorm d a | None => 0 end) in *.
        set (hi := match b with Some b => pynorm d b | None => d end) in *.
        assert (Hlo : lo <= i) by (now apply starts_iff). assert (Hhi : i < hi) by (now apply stops_iff).
        assert (Ej : j = i - lo).
        { destruct (Nat.eq_dec lo i) as [El|El].
          - destruct (Nat.eq_dec j 0) as [|Hj]; [lia|]. exfalso.
            assert (Hs : starts d a (i - 1)) by (apply H8; lia). apply starts_iff in Hs; [|lia]. fold lo in Hs. lia.
          - destruct (Nat.lt_trichotomy j (i - lo)) as [Hj|[Hj|Hj]]; auto; exfalso.
            + assert (Hs : starts d a lo) by (apply starts_iff; [lia|reflexivity]). apply H8 in Hs; [|lia]. lia.
            + assert (Hs : starts d a (i - j)) by (apply H8; lia). apply starts_iff in Hs; [|lia]. fold lo in Hs. lia. }
        split; [apply index_in_cons; auto; lia|]. cbn [ravel]. rewrite NthV; [|lia|now apply index_in_lt].
        rewrite A3, seq_nth by lia. cbn [ravel]. f_equal. f_equal. lia.
    + intros p Hp. rewrite EV in Hp. apply in_flat_map in Hp as (i & Hi & Hp). apply in_map_iff in Hp as (q & <- & Hq).
      destruct (I q Hq) as (ix & k & P & <-). pose proof (X2 i Hi) as Hd. destruct x as [z|a b]; cbn [axis_ix] in Ea.
      * destruct (Z.leb_spec (- Z.of_nat d) z), (Z.ltb_spec z (Z.of_nat d)); cbn [andb] in Ea; try discriminate.
        injection Ea as <-. destruct Hi as [Hi|[]]. exists (i :: ix), k. split; [|reflexivity]. constructor; auto.
        destruct (Z.ltb_spec z 0); lia.
      * injection Ea as <-. apply in_seq in Hi.
        set (lo := match a with Some a => pynorm d a | None => 0 end) in *.
        exists (i :: ix), (i - lo :: k). split; [|reflexivity].
        constructor; auto; try lia.
        -- apply starts_iff; auto; lia.
        -- apply stops_iff; auto; lia.
        -- intros i' Hi'. rewrite starts_iff by lia. fold lo. lia.
Qed.

Lemma select_accepts sl : forall s r, (exists ixs, select s sl = Ok (ixs, r)) <-> accepts s sl r.
Proof.
  induction sl as [|x sl IH]; intros s r.
  - split; [intros [ixs [= <- <-]]; constructor|]. inversion 1; subst. now exists [].
  - destruct s as [|d s].
    { split; [intros [ixs H]; discriminate|inversion 1]. }
    cbn [select]. split.
    + intros [ixs H]. destruct (axis_ix d x) as [ix0|] eqn:Ea; [|discriminate]. cbn [bind] in H.
      destruct (select s sl) as [[ixs' r']|] eqn:Es; [|discriminate]. cbn [bind fst snd] in H. injection H as <- <-.
      assert (Hr : accepts s sl r') by (apply IH; eauto).
      destruct x as [z|a b]; cbn [axis_ix] in Ea.
      * destruct (Z.leb_spec (- Z.of_nat d) z), (Z.ltb_spec z (Z.of_nat d)); cbn [andb] in Ea; try discriminate. constructor; auto.
      * injection Ea as <-. rewrite seq_length. constructor; auto.
        pose proof (pn_bound d b) as P1. pose proof (pn_bound0 d a) as P2.
        exists (match a with Some a => pynorm d a | None => 0 end). split; [lia|].
        intros i Hi. rewrite starts_iff, stops_iff by auto. lia.
    + inversion 1; subst.
      * match goal with P : accepts s sl _ |- _ => apply IH in P as [ixs' Es] end. rewrite Es. cbn [axis_ix].
        destruct (Z.leb_spec (- Z.of_nat d) z), (Z.ltb_spec z (Z.of_nat d)); try lia. cbn. eauto.
      * match goal with P : accepts s sl _ |- _ => apply IH in P as [ixs' Es] end. rewrite Es. cbn [axis_ix bind fst snd]. rewrite seq_length.
        match goal with P : exists lo, _ |- _ => destruct P as (lo & Hb & Hlo) end. eexists. do 3 f_equal.
        pose proof (pn_bound d b) as P1. pose proof (pn_bound0 d a) as P2.
        set (l' := match a with Some a => pynorm d a | None => 0 end) in *.
        set (h' := match b with Some b => pynorm d b | None => d end) in *.
        assert (Q : forall i, i < d -> l' <= i < h' <-> lo <= i < lo + len).
        { intros i Hi. rewrite <- Hlo, starts_iff, stops_iff by auto. fold l' h'. reflexivity. }
        clear Hlo.
        destruct (Nat.eq_dec len 0) as [->|Hl].
        -- destruct (Nat.le_gt_cases h' l'); [lia|]. specialize (Q l'). lia.
        -- pose proof (Q lo ltac:(lia)) as Q1. pose proof (Q (lo + len - 1) ltac:(lia)) as Q2.
           destruct (Nat.le_gt_cases h' l'); [lia|].
           pose proof (Q l' ltac:(lia)) as Q3. pose proof (Q (h' - 1) ltac:(lia)) as Q4. lia.
Qed.
Lemma select_err sl : forall s e, select s sl = Err e -> e = IndexError.
Proof.
  induction sl as [|x sl IH]; intros s e; [discriminate|]. destruct s as [|d s]; [intros [= <-]; reflexivity|]. cbn [select].
  destruct (axis_ix d x) as [ix0|e'] eqn:Ea.
  - cbn [bind]. destruct (select s sl) as [r|e'] eqn:Es; [discriminate|]. cbn [bind]. intros [= <-]. eauto.
  - cbn [bind]. intros [= <-]. destruct x; cbn in Ea; [|discriminate]. destruct (_ && _)%bool; congruence.
Qed.

(** Broadcasting, for elements of any type. *)
Lemma broadcast_any {X} (d : X) (v w : arr X) t : broadcast_to d v t = Ok w ->
  ash w = t /\ awf w /\ forall ix, index_in t ix -> nth (ravel t ix) (adat w) d = nth (ravel (ash v) (bcast_index (ash v) ix)) (adat v) d.
Proof.
  unfold broadcast_to. destruct (Nat.leb_spec (length (ash v)) (length t)); [|discriminate].
  cbn [andb]. destruct (bcompat (bpad (ash v) t) t) eqn:Hc; [|discriminate]. intros [= <-].
  split; [reflexivity|]. split; [unfold awf; cbn; now rewrite map_length, seq_length|].
  intros ix [HL Hb]. cbn [adat]. destruct (bpos_ravel _ _ _ Hc HL Hb) as [E Hlt].
  rewrite nth_map_seq by auto. rewrite E. f_equal. unfold bpad, bcast_index. rewrite HL. apply ravel_pad.
Qed.
