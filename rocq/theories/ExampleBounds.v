(** The bounds set by the example scripts, entry by entry. *)
From Coq Require Import String List ZArith Bool Arith Lia Reals Lra.
From Coquelicot Require Import Coquelicot.
From Verif Require Import Py NdArray NdLemmas OptimModel OptimSpec OptimLaws LawFacts Builder ProblemSpec PropsEdge ViewModel ViewLemmas PropsView ScriptModel PropsScript
  DerivSpec ColModel ColBuild ColLaws Expr ExprSym ExprModel ExprEnd ExampleModel.
Import ListNotations.
Local Open Scope string_scope.
Local Open Scope nat_scope.

(** *** Subscripts used by the scripts *)
Lemma picks1 d sl ix k : picks [d] [sl] ix k <-> exists i, i < d /\ ix = [i] /\ picks [d] [sl] [i] k.
Proof.
  split; [|intros (i & _ & -> & H); exact H]. intros H. inversion H; subst; match goal with P : picks [] _ _ _ |- _ => inversion P; subst end; eauto.
Qed.
Lemma picks_all1 d ix k : picks [d] [Sl None None] ix k <-> exists i, i < d /\ ix = [i] /\ k = [i].
Proof.
  split.
  - intros H. inversion H as [| | |? ? ? ? ? i j ? ? Hi _ _ Hj Hji P]; subst. inversion P; subst. exists i. repeat split; auto. f_equal.
    destruct (Nat.eq_dec j i) as [->|Hne]; auto. specialize (Hj (i - j - 1)). cbn [starts] in Hj. exfalso. assert (i - j - 1 < i) as A by lia. apply Hj in A.
    pose proof (proj1 A I). lia.
  - intros (i & Hi & -> & ->). apply picks_slice; cbn; auto; [|constructor]. intros; split; auto; lia.
Qed.
Lemma picks_at1 d z ix k : picks [d] [At z] ix k <-> exists i, i < d /\ (Z.of_nat i = z \/ Z.of_nat i = z + Z.of_nat d)%Z /\ ix = [i] /\ k = [].
Proof.
  split.
  - intros H. inversion H as [| |? ? ? ? i ? ? Hi Hz P|]; subst. inversion P; subst. eauto.
  - intros (i & Hi & Hz & -> & ->). apply picks_at; auto. constructor.
Qed.
(** The first [b] elements of an axis. *)
Lemma picks_head1 d b ix k : b <= d -> picks [d] [Sl None (Some (Z.of_nat b))] ix k <-> exists i, i < b /\ ix = [i] /\ k = [i].
Proof.
  intros Hb. assert (W : forall i, stops d (Some (Z.of_nat b)) i <-> i < b).
  { intros i. cbn [stops]. unfold wrapped. destruct (Z.ltb_spec (Z.of_nat b) 0); lia. }
  split.
  - intros H. inversion H as [| | |? ? ? ? ? i j ? ? Hi _ Hs Hj Hji P]; subst. inversion P; subst. apply W in Hs. exists i. repeat split; auto. f_equal.
    destruct (Nat.eq_dec j i) as [->|Hne]; auto. specialize (Hj (i - j - 1)). cbn [starts] in Hj. exfalso. assert (i - j - 1 < i) as A by lia. apply Hj in A.
    pose proof (proj1 A I). lia.
  - intros (i & Hi & -> & ->). apply picks_slice; cbn [starts]; auto; [lia|now apply W| |constructor]. intros; split; auto; lia.
Qed.
Lemma picks_all2 d e ix k : picks [d; e] [Sl None None] ix k <-> exists i j, i < d /\ j < e /\ ix = [i; j] /\ k = [i; j].
Proof.
  split.
  - intros H. inversion H as [| | |? ? ? ? ? i j ? ? Hi _ _ Hj Hji P]; subst. apply picks_nil in P as [[P1 P2] ->].
    assert (i = j) as -> by (destruct (Nat.eq_dec j i) as [->|Hne]; auto; specialize (Hj (i - j - 1)); cbn [starts] in Hj; exfalso; assert (i - j - 1 < i) as A by lia; apply Hj in A;
      pose proof (proj1 A I); lia).
    destruct ix0 as [|a [|]]; cbn in P1; try lia. exists j, a. repeat split; auto. apply (P2 0). cbn. lia.
  - intros (i & j & Hi & Hj & -> & ->). apply picks_slice; cbn; auto; [intros; split; auto; lia|]. apply picks_nil. split; auto.
    split; [reflexivity|]. intros [|q] Hq; cbn in *; [auto|lia].
Qed.
Lemma picks_row2 d z s sl ix k : picks (d :: s) (At z :: sl) ix k <->
  exists i jx, i < d /\ (Z.of_nat i = z \/ Z.of_nat i = z + Z.of_nat d)%Z /\ ix = i :: jx /\ picks s sl jx k.
Proof.
  split.
  - intros H. inversion H as [| |? ? ? ? i ? ? Hi Hz P|]; subst. eauto 8.
  - intros (i & jx & Hi & Hz & -> & P). now apply picks_at.
Qed.
Lemma picks_col2 d z e ix k : picks [d; e] [Sl None None; At z] ix k <->
  exists i j, i < d /\ j < e /\ (Z.of_nat j = z \/ Z.of_nat j = z + Z.of_nat e)%Z /\ ix = [i; j] /\ k = [i].
Proof.
  split.
  - intros H. inversion H as [| | |? ? ? ? ? i j ? ? Hi _ _ Hj Hji P]; subst. apply picks_at1 in P as (c & Hc & Hz & -> & ->).
    assert (i = j) as -> by (destruct (Nat.eq_dec j i) as [->|Hne]; auto; specialize (Hj (i - j - 1)); cbn [starts] in Hj; exfalso; assert (i - j - 1 < i) as A by lia; apply Hj in A;
      pose proof (proj1 A I); lia).
    exists j, c. auto 8.
  - intros (i & j & Hi & Hj & Hz & -> & ->). apply picks_slice; cbn; auto; [intros; split; auto; lia|]. apply picks_at1. eauto 8.
Qed.
Lemma picks_whole1 d ix k : picks [d] [] ix k <-> exists i, i < d /\ ix = [i] /\ k = [i].
Proof.
  rewrite picks_nil. split.
  - intros [[H1 H2] ->]. destruct ix as [|i [|]]; cbn in H1; try lia. exists i. repeat split; auto. apply (H2 0). cbn. lia.
  - intros (i & Hi & -> & ->). split; auto. split; [reflexivity|]. intros [|q] Hq; cbn in *; [auto|lia].
Qed.

(** *** Values *)
Lemma scalar_at {E} (e0 x : E) k : nth (ravel (ash (scalar x)) (bcast_index (ash (scalar x)) k)) (adat (scalar x)) e0 = x.
Proof. reflexivity. Qed.
Lemma pair_at {E} (e0 a b : E) j : nth (ravel (ash (vector [a; b])) (bcast_index (ash (vector [a; b])) [j])) (adat (vector [a; b])) e0 = nth j [a; b] e0.
Proof. cbn [vector ash adat length bcast_index]. unfold bcast_index. cbn [length Nat.sub skipn combine map fst snd Nat.eqb ravel prodn fold_right]. f_equal. lia. Qed.

(** *** Statements *)
Section Gives.
  Context (nd : nat) (dec : sdict comp) (up : bool).
  Notation gives := (gives (m_infty : Rbar) nd dec).
  Section Named.
    Context (w : string) (off : nat) (s : shape).
    Hypothesis U : forall o s', region nd dec (Some w) o s' <-> o = off /\ s' = s.
    Lemma gives_named sl value q v : gives (Assign up (Some w) sl value) q v <->
      exists ix k, picks s sl ix k /\ q = off + ravel s ix /\ v = nth (ravel (ash value) (bcast_index (ash value) k)) (adat value) m_infty.
    Proof.
      unfold PropsScript.gives. cbn [as_var as_sel as_value]. split.
      - intros (o & s' & ix & k & HR & H). apply U in HR as [-> ->]. eauto.
      - intros (ix & k & H). exists off, s, ix, k. split; [now apply U|exact H].
    Qed.
    Lemma proper_named sl (value : arr Rbar) r : accepts s sl r -> broadcastable (ash value) r -> proper nd dec (Assign up (Some w) sl value).
    Proof. intros A B. exists off, s, r. split; [now apply U|auto]. Qed.
  End Named.
  Lemma gives_row sl value q v : gives (Assign up None sl value) q v <->
    exists ix k, picks [nd] sl ix k /\ q = ravel [nd] ix /\ v = nth (ravel (ash value) (bcast_index (ash value) k)) (adat value) m_infty.
  Proof.
    unfold PropsScript.gives. cbn [as_var as_sel as_value region]. split.
    - intros (o & s' & ix & k & [-> ->] & H). eauto.
    - intros (ix & k & H). exists 0, [nd], ix, k. auto.
  Qed.
End Gives.
Lemma broadcast_scalar {E} (x : E) r : broadcastable (ash (scalar x)) r.
Proof. split; cbn; [lia|]. intros; lia. Qed.
Lemma broadcast_pair {E} (a b : E) : broadcastable (ash (vector [a; b])) [2].
Proof. split; cbn; [lia|]. intros [|q] H; cbn; auto; lia. Qed.
Lemma accepts_all d s sl r : accepts s sl r -> accepts (d :: s) (Sl None None :: sl) (d :: r).
Proof. apply accepts_slice. exists 0. split; [lia|]. intros i Hi. cbn. split; auto; lia. Qed.
Lemma accepts_head d b s sl r : b <= d -> accepts s sl r -> accepts (d :: s) (Sl None (Some (Z.of_nat b)) :: sl) (b :: r).
Proof.
  intros Hb. apply accepts_slice. exists 0. split; [lia|]. intros i Hi. cbn [starts stops]. unfold wrapped. destruct (Z.ltb_spec (Z.of_nat b) 0); lia.
Qed.

(** The value that the statements give entry by entry. *)
Lemma settled_here {E} (e0 : E) nd dec init pre a post up q v :
  as_upper a = up -> gives e0 nd dec a q v -> (forall b x, In b post -> as_upper b = up -> ~ gives e0 nd dec b q x) ->
  settled e0 nd dec init (pre ++ a :: post) up q v.
Proof. intros. left. exists pre, a, post. repeat split; auto. Qed.

(** *** Bounds as a condition on the decision vector *)
Definition within (L U : list Rbar) (d : list R) : Prop :=
  forall q, q < length d -> Rbar_le (nth q L m_infty) (Finite (nth q d 0%R)) /\ Rbar_le (Finite (nth q d 0%R)) (nth q U m_infty).

Ltac regions dec c := intros o s; cbn [region]; split;
  [intros (c' & HI & -> & ->); unfold dec in HI; cbn [In] in HI; repeat (destruct HI as [HI|HI]; [first [discriminate HI|injection HI as <-; cbn [c_off c_shape]; rewrite ?Nat2Z.id; auto]|]); destruct HI
  |intros [-> ->]; exists c; split; [unfold dec; cbn [In]; auto|cbn [c_off c_shape]; rewrite ?Nat2Z.id; auto]].

Section OcBounds.
  Variables (N nx nu np : nat).
  Definition oc_dec : sdict comp := [("x", Comp [N; nx] 0); ("u", Comp [N; nu] (Z.of_nat (N * nx))); ("p", Comp [np] (Z.of_nat (N * nx + N * nu)))].
  Notation nd := (N * nx + N * nu + np).
  Lemma region_x : forall o s, region nd oc_dec (Some "x") o s <-> o = 0 /\ s = [N; nx].
  Proof. regions oc_dec (Comp [N; nx] 0). Qed.
  Lemma region_u : forall o s, region nd oc_dec (Some "u") o s <-> o = N * nx /\ s = [N; nu].
  Proof. regions oc_dec (Comp [N; nu] (Z.of_nat (N * nx))). Qed.
  Lemma region_p : forall o s, region nd oc_dec (Some "p") o s <-> o = N * nx + N * nu /\ s = [np].
  Proof. regions oc_dec (Comp [np] (Z.of_nat (N * nx + N * nu))). Qed.
End OcBounds.

Ltac unpicks := repeat match goal with
  | H : picks [_] [Sl None None] _ _ |- _ => apply picks_all1 in H as (? & ? & ? & ?); subst
  | H : picks [_] [At _] _ _ |- _ => apply picks_at1 in H as (? & ? & ? & ? & ?); subst
  | H : picks [_] [Sl None (Some 3%Z)] _ _ |- _ => apply (picks_head1 _ 3) in H as (? & ? & ? & ?); [|lia]; subst
  | H : picks [_] [Sl None (Some 2%Z)] _ _ |- _ => apply (picks_head1 _ 2) in H as (? & ? & ? & ?); [|lia]; subst
  | H : picks [_; _] [Sl None None] _ _ |- _ => apply picks_all2 in H as (? & ? & ? & ? & ? & ?); subst
  | H : picks [_; _] [Sl None None; At _] _ _ |- _ => apply picks_col2 in H as (? & ? & ? & ? & ? & ? & ?); subst
  | H : picks [_] [] _ _ |- _ => apply picks_whole1 in H as (? & ? & ? & ?); subst
  | H : picks (_ :: _) (At _ :: _) _ _ |- _ => apply picks_row2 in H as (? & ? & ? & ? & ? & ?); subst
  end.
Ltac unravel := cbn [ravel prodn fold_right] in *; rewrite ?Nat.mul_1_r, ?Nat.add_0_r in *.

(** [leave]: a statement that does not concern the entry. *)
Ltac leave RX RU RP := intros ? ? HI HU HG; cbn [In] in HI;
  repeat (destruct HI as [<-|HI]; [first [discriminate HU
    | apply (gives_named _ _ _ _ _ _ RX) in HG as (? & ? & ? & ? & ?); unpicks; unravel; lia
    | apply (gives_named _ _ _ _ _ _ RU) in HG as (? & ? & ? & ? & ?); unpicks; unravel; lia
    | apply (gives_named _ _ _ _ _ _ RP) in HG as (? & ? & ? & ? & ?); unpicks; unravel; lia]|]); destruct HI.

Section Brach.
  Variable N : nat.
  Hypothesis HN : 2 <= N.
  Notation nd := (N * 3 + N * 1 + 1).
  Notation dec := (oc_dec N 3 1 1).
  Notation gv := (gives (m_infty : Rbar) nd dec).
  Let RX := region_x N 3 1 1.
  Let RU := region_u N 3 1 1.
  Let RP := region_p N 3 1 1.

  Lemma brach_proper : List.Forall (proper nd dec) brach_bounds.
  Proof.
    repeat constructor.
    - apply (proper_named _ _ _ _ _ _ RP) with (r := [1]); [apply accepts_all; constructor|apply broadcast_scalar].
    - apply (proper_named _ _ _ _ _ _ RX) with (r := [3]); [apply accepts_at; [lia|]; apply (accepts_head 3 3); [lia|constructor]|apply broadcast_scalar].
    - apply (proper_named _ _ _ _ _ _ RX) with (r := [3]); [apply accepts_at; [lia|]; apply (accepts_head 3 3); [lia|constructor]|apply broadcast_scalar].
    - apply (proper_named _ _ _ _ _ _ RX) with (r := [2]); [apply accepts_at; [lia|]; apply (accepts_head 3 2); [lia|constructor]|apply broadcast_pair].
    - apply (proper_named _ _ _ _ _ _ RX) with (r := [2]); [apply accepts_at; [lia|]; apply (accepts_head 3 2); [lia|constructor]|apply broadcast_pair].
    - apply (proper_named _ _ _ _ _ _ RU) with (r := [N; 1]); [apply accepts_all; constructor|apply broadcast_scalar].
    - apply (proper_named _ _ _ _ _ _ RU) with (r := [N; 1]); [apply accepts_all; constructor|apply broadcast_scalar].
  Qed.

  Lemma give_row up z b value j r : j < b -> b <= 3 -> r < N -> (Z.of_nat r = z \/ Z.of_nat r = z + Z.of_nat N)%Z ->
    gv (Assign up (Some "x") [At z; Sl None (Some (Z.of_nat b))] value) (r * 3 + j) (nth (ravel (ash value) (bcast_index (ash value) [j])) (adat value) m_infty).
  Proof.
    intros Hj Hb Hr Hz. apply (gives_named _ _ _ _ _ _ RX). exists [r; j], [j]. split; [|split; [cbn; lia|reflexivity]].
    apply picks_row2. exists r, [j]. repeat split; auto. apply picks_head1; eauto. Qed.

  Ltac here pre a post := apply (settled_here m_infty nd dec _ pre a post); [reflexivity| |leave RX RU RP].
  Notation S1 := (Assign false (Some "p") [Sl None None] (scalar (Finite (1 / 100000)))).
  Notation S2 up := (Assign up (Some "x") [At 0; Sl None (Some 3%Z)] (scalar (Finite 0))).
  Notation S4 up := (Assign up (Some "x") [At (-1); Sl None (Some 2%Z)] (vector [Finite 10; Finite (-5)])).
  Notation S6 up v := (Assign up (Some "u") [Sl None None] (scalar (Finite v))).

  Lemma brach_start up j init : j < 3 -> settled m_infty nd dec init brach_bounds up j (Finite 0).
  Proof.
    intros Hj. destruct up.
    - here [S1; S2 false] (S2 true) [S4 false; S4 true; S6 false (-PI)%R; S6 true PI]. exact (give_row true 0 3 _ j 0 Hj (le_n 3) ltac:(lia) ltac:(lia)).
    - here [S1] (S2 false) [S2 true; S4 false; S4 true; S6 false (-PI)%R; S6 true PI]. exact (give_row false 0 3 _ j 0 Hj (le_n 3) ltac:(lia) ltac:(lia)).
  Qed.
  Lemma brach_end up j init : j < 2 -> settled m_infty nd dec init brach_bounds up ((N - 1) * 3 + j) (Finite (nth j [10; -5]%R 0%R)).
  Proof.
    intros Hj. replace (Finite (nth j [10; -5]%R 0%R)) with (nth j [Finite 10; Finite (-5)] m_infty) by (destruct j as [|[|]]; [reflexivity|reflexivity|lia]).
    rewrite <- (pair_at m_infty (Finite 10) (Finite (-5)) j). destruct up.
    - here [S1; S2 false; S2 true; S4 false] (S4 true) [S6 false (-PI)%R; S6 true PI]. exact (give_row true (-1) 2 _ j (N - 1) Hj ltac:(lia) ltac:(lia) ltac:(lia)).
    - here [S1; S2 false; S2 true] (S4 false) [S4 true; S6 false (-PI)%R; S6 true PI]. exact (give_row false (-1) 2 _ j (N - 1) Hj ltac:(lia) ltac:(lia) ltac:(lia)).
  Qed.
  Lemma brach_input (up : bool) i init : i < N -> settled m_infty nd dec init brach_bounds up (N * 3 + i) (Finite (if up then PI else -PI)).
  Proof.
    intros Hi. destruct up.
    - here [S1; S2 false; S2 true; S4 false; S4 true; S6 false (-PI)%R] (S6 true PI) (@nil (assignment Rbar)).
      apply (gives_named _ _ _ _ _ _ RU). exists [i; 0], [i; 0]. split; [apply picks_all2; exists i, 0; auto|split; [cbn; lia|reflexivity]].
    - here [S1; S2 false; S2 true; S4 false; S4 true] (S6 false (-PI)%R) [S6 true PI].
      apply (gives_named _ _ _ _ _ _ RU). exists [i; 0], [i; 0]. split; [apply picks_all2; exists i, 0; auto|split; [cbn; lia|reflexivity]].
  Qed.
  Lemma brach_time init : settled m_infty nd dec init brach_bounds false (N * 3 + N * 1) (Finite (1 / 100000)).
  Proof.
    here (@nil (assignment Rbar)) (S1 : assignment Rbar) [S2 false; S2 true; S4 false; S4 true; S6 false (-PI)%R; S6 true PI].
    apply (gives_named _ _ _ _ _ _ RP). exists [0], [0]. split; [apply picks_all1; exists 0; auto|split; [cbn; lia|reflexivity]].
  Qed.
  Lemma brach_time_up init : settled m_infty nd dec init brach_bounds true (N * 3 + N * 1) init.
  Proof. right. split; [reflexivity|]. unfold brach_bounds. leave RX RU RP. Qed.
  Lemma brach_free up q init : 3 <= q < N * 3 -> q <> (N - 1) * 3 -> q <> (N - 1) * 3 + 1 -> settled m_infty nd dec init brach_bounds up q init.
  Proof. intros H1 H2 H3. right. split; [reflexivity|]. unfold brach_bounds. destruct up; leave RX RU RP. Qed.

  (** The condition that the bounds of the script put on a decision vector. *)
  Lemma brach_within L U d : length d = nd -> length L = nd -> length U = nd ->
    (forall q v, q < nd -> settled m_infty nd dec m_infty brach_bounds false q v -> nth q L m_infty = v) ->
    (forall q v, q < nd -> settled m_infty nd dec p_infty brach_bounds true q v -> nth q U m_infty = v) ->
    within L U d <->
      (forall j, j < 3 -> nth j d 0%R = 0%R) /\ (nth ((N - 1) * 3) d 0%R = 10%R /\ nth ((N - 1) * 3 + 1) d 0%R = (-5)%R) /\
      (forall i, i < N -> (- PI <= nth (N * 3 + i) d 0 <= PI)%R) /\ (1 / 100000 <= nth (N * 3 + N * 1) d 0)%R.
  Proof.
    intros Hd HL HU SL0 SU0.
    assert (SL : forall q v, settled m_infty nd dec m_infty brach_bounds false q v -> q < nd -> nth q L m_infty = v) by auto.
    assert (SU : forall q v, settled m_infty nd dec p_infty brach_bounds true q v -> q < nd -> nth q U m_infty = v) by auto.
    unfold within. rewrite Hd. split.
    - intros W. split; [|split; [split|split]].
      + intros j Hj. destruct (W j) as [W1 W2]; [lia|]. rewrite (SL _ _ (brach_start false j _ Hj) ltac:(lia)) in W1. rewrite (SU _ _ (brach_start true j _ Hj) ltac:(lia)) in W2.
        cbn in W1, W2. lra.
      + destruct (W ((N - 1) * 3)) as [W1 W2]; [lia|]. pose proof (SL _ _ (brach_end false 0 _ ltac:(lia)) ltac:(lia)) as E1. pose proof (SU _ _ (brach_end true 0 _ ltac:(lia)) ltac:(lia)) as E2.
        rewrite Nat.add_0_r in E1, E2. rewrite E1 in W1. rewrite E2 in W2. cbn in W1, W2. lra.
      + destruct (W ((N - 1) * 3 + 1)) as [W1 W2]; [lia|]. rewrite (SL _ _ (brach_end false 1 _ ltac:(lia)) ltac:(lia)) in W1. rewrite (SU _ _ (brach_end true 1 _ ltac:(lia)) ltac:(lia)) in W2.
        cbn in W1, W2. lra.
      + intros i Hi. destruct (W (N * 3 + i)) as [W1 W2]; [lia|]. rewrite (SL _ _ (brach_input false i _ Hi) ltac:(lia)) in W1. rewrite (SU _ _ (brach_input true i _ Hi) ltac:(lia)) in W2.
        cbn in W1, W2. lra.
      + destruct (W (N * 3 + N * 1)) as [W1 _]; [lia|]. rewrite (SL _ _ (brach_time _) ltac:(lia)) in W1. exact W1.
    - intros (C1 & (C2 & C3) & C4 & C5) q Hq.
      destruct (lt_dec q 3) as [H3|H3].
      { rewrite (SL _ _ (brach_start false q _ H3) ltac:(lia)), (SU _ _ (brach_start true q _ H3) ltac:(lia)), C1 by auto. cbn. lra. }
      destruct (Nat.eq_dec q ((N - 1) * 3)) as [->|Hn].
      { pose proof (SL _ _ (brach_end false 0 _ ltac:(lia)) ltac:(lia)) as E1. pose proof (SU _ _ (brach_end true 0 _ ltac:(lia)) ltac:(lia)) as E2.
        rewrite Nat.add_0_r in E1, E2. rewrite E1, E2, C2. cbn. lra. }
      destruct (Nat.eq_dec q ((N - 1) * 3 + 1)) as [->|Hn'].
      { rewrite (SL _ _ (brach_end false 1 _ ltac:(lia)) ltac:(lia)), (SU _ _ (brach_end true 1 _ ltac:(lia)) ltac:(lia)), C3. cbn. lra. }
      destruct (lt_dec q (N * 3)) as [H4|H4].
      { rewrite (SL _ _ (brach_free false q _ ltac:(lia) Hn Hn') ltac:(lia)), (SU _ _ (brach_free true q _ ltac:(lia) Hn Hn') ltac:(lia)). cbn. auto. }
      destruct (lt_dec q (N * 3 + N * 1)) as [H5|H5].
      { replace q with (N * 3 + (q - N * 3)) by lia. assert (Hi : q - N * 3 < N) by lia.
        rewrite (SL _ _ (brach_input false _ _ Hi) ltac:(lia)), (SU _ _ (brach_input true _ _ Hi) ltac:(lia)). cbn. apply C4; auto. }
      assert (q = N * 3 + N * 1) as -> by lia.
      rewrite (SL _ _ (brach_time _) ltac:(lia)), (SU _ _ (brach_time_up _) ltac:(lia)). cbn. auto.
  Qed.
End Brach.

Section Bryson.
  Variable N : nat.
  Hypothesis HN : 2 <= N.
  Notation nd := (N * 2 + N * 1 + 0).
  Notation dec := (oc_dec N 2 1 0).
  Notation gv := (gives (m_infty : Rbar) nd dec).
  Let RX := region_x N 2 1 0.
  Let RU := region_u N 2 1 0.
  Let RP := region_p N 2 1 0.

  Lemma bryson_proper : List.Forall (proper nd dec) bryson_bounds.
  Proof.
    repeat constructor.
    - apply (proper_named _ _ _ _ _ _ RX) with (r := [N]); [apply accepts_all; apply accepts_at; [lia|constructor]|apply broadcast_scalar].
    - apply (proper_named _ _ _ _ _ _ RX) with (r := [N]); [apply accepts_all; apply accepts_at; [lia|constructor]|apply broadcast_scalar].
    - apply (proper_named _ _ _ _ _ _ RX) with (r := [2]); [apply accepts_at; [lia|constructor]|apply broadcast_pair].
    - apply (proper_named _ _ _ _ _ _ RX) with (r := [2]); [apply accepts_at; [lia|constructor]|apply broadcast_pair].
    - apply (proper_named _ _ _ _ _ _ RX) with (r := [2]); [apply accepts_at; [lia|constructor]|apply broadcast_pair].
    - apply (proper_named _ _ _ _ _ _ RX) with (r := [2]); [apply accepts_at; [lia|constructor]|apply broadcast_pair].
  Qed.

  Lemma give_whole up z value j r : j < 2 -> r < N -> (Z.of_nat r = z \/ Z.of_nat r = z + Z.of_nat N)%Z ->
    gv (Assign up (Some "x") [At z] value) (r * 2 + j) (nth (ravel (ash value) (bcast_index (ash value) [j])) (adat value) m_infty).
  Proof.
    intros Hj Hr Hz. apply (gives_named _ _ _ _ _ _ RX). exists [r; j], [j]. split; [|split; [cbn; lia|reflexivity]].
    apply picks_row2. exists r, [j]. repeat split; auto. apply picks_whole1; eauto. Qed.

  Ltac here pre a post := apply (settled_here m_infty nd dec _ pre a post); [reflexivity| |leave RX RU RP].
  Notation S1 up v := (Assign up (Some "x") [Sl None None; At 0] (scalar (Finite v))).
  Notation S3 up := (Assign up (Some "x") [At 0] (vector [Finite 0; Finite 1])).
  Notation S5 up := (Assign up (Some "x") [At (-1)] (vector [Finite 0; Finite (-1)])).

  Lemma bryson_start up j init : j < 2 -> settled m_infty nd dec init bryson_bounds up j (Finite (nth j [0; 1]%R 0%R)).
  Proof.
    intros Hj. replace (Finite (nth j [0; 1]%R 0%R)) with (nth j [Finite 0; Finite 1] m_infty) by (destruct j as [|[|]]; [reflexivity|reflexivity|lia]).
    rewrite <- (pair_at m_infty (Finite 0) (Finite 1) j). destruct up.
    - here [S1 false 0%R; S1 true (1 / 9)%R; S3 false] (S3 true) [S5 false; S5 true]. exact (give_whole true 0 _ j 0 Hj ltac:(lia) ltac:(lia)).
    - here [S1 false 0%R; S1 true (1 / 9)%R] (S3 false) [S3 true; S5 false; S5 true]. exact (give_whole false 0 _ j 0 Hj ltac:(lia) ltac:(lia)).
  Qed.
  Lemma bryson_end up j init : j < 2 -> settled m_infty nd dec init bryson_bounds up ((N - 1) * 2 + j) (Finite (nth j [0; -1]%R 0%R)).
  Proof.
    intros Hj. replace (Finite (nth j [0; -1]%R 0%R)) with (nth j [Finite 0; Finite (-1)] m_infty) by (destruct j as [|[|]]; [reflexivity|reflexivity|lia]).
    rewrite <- (pair_at m_infty (Finite 0) (Finite (-1)) j). destruct up.
    - here [S1 false 0%R; S1 true (1 / 9)%R; S3 false; S3 true; S5 false] (S5 true) (@nil (assignment Rbar)). exact (give_whole true (-1) _ j (N - 1) Hj ltac:(lia) ltac:(lia)).
    - here [S1 false 0%R; S1 true (1 / 9)%R; S3 false; S3 true] (S5 false) [S5 true]. exact (give_whole false (-1) _ j (N - 1) Hj ltac:(lia) ltac:(lia)).
  Qed.
  Lemma bryson_path (up : bool) i init : 0 < i < N - 1 -> settled m_infty nd dec init bryson_bounds up (i * 2) (Finite (if up then 1 / 9 else 0)).
  Proof.
    intros Hi. destruct up.
    - here [S1 false 0%R] (S1 true (1 / 9)%R) [S3 false; S3 true; S5 false; S5 true].
      apply (gives_named _ _ _ _ _ _ RX). exists [i; 0], [i]. split; [apply picks_col2; exists i, 0; repeat split; auto; lia|split; [cbn; lia|reflexivity]].
    - here (@nil (assignment Rbar)) (S1 false 0%R) [S1 true (1 / 9)%R; S3 false; S3 true; S5 false; S5 true].
      apply (gives_named _ _ _ _ _ _ RX). exists [i; 0], [i]. split; [apply picks_col2; exists i, 0; repeat split; auto; lia|split; [cbn; lia|reflexivity]].
  Qed.
  Lemma bryson_free up q init : N * 2 <= q \/ (exists i, q = i * 2 + 1 /\ 0 < i < N - 1) -> settled m_infty nd dec init bryson_bounds up q init.
  Proof. intros H1. right. split; [reflexivity|]. unfold bryson_bounds. destruct H1 as [H1|(i & -> & H1)]; destruct up; leave RX RU RP. Qed.

  Lemma bryson_within L U d : length d = nd -> length L = nd -> length U = nd ->
    (forall q v, q < nd -> settled m_infty nd dec m_infty bryson_bounds false q v -> nth q L m_infty = v) ->
    (forall q v, q < nd -> settled m_infty nd dec p_infty bryson_bounds true q v -> nth q U m_infty = v) ->
    within L U d <->
      (nth 0 d 0%R = 0%R /\ nth 1 d 0%R = 1%R) /\ (nth ((N - 1) * 2) d 0%R = 0%R /\ nth ((N - 1) * 2 + 1) d 0%R = (-1)%R) /\
      (forall i, i < N -> (0 <= nth (i * 2) d 0 <= 1 / 9)%R).
  Proof.
    intros Hd HL HU SL0 SU0.
    assert (SL : forall q v, settled m_infty nd dec m_infty bryson_bounds false q v -> q < nd -> nth q L m_infty = v) by auto.
    assert (SU : forall q v, settled m_infty nd dec p_infty bryson_bounds true q v -> q < nd -> nth q U m_infty = v) by auto.
    unfold within. rewrite Hd. split.
    - intros W.
      assert (A : forall j, j < 2 -> nth j d 0%R = nth j [0; 1]%R 0%R).
      { intros j Hj. destruct (W j) as [W1 W2]; [lia|]. rewrite (SL _ _ (bryson_start false j _ Hj)) in W1 by lia. rewrite (SU _ _ (bryson_start true j _ Hj)) in W2 by lia. cbn [Rbar_le] in W1, W2. lra. }
      assert (B : forall j, j < 2 -> nth ((N - 1) * 2 + j) d 0%R = nth j [0; -1]%R 0%R).
      { intros j Hj. destruct (W ((N - 1) * 2 + j)) as [W1 W2]; [lia|]. rewrite (SL _ _ (bryson_end false j _ Hj)) in W1 by lia. rewrite (SU _ _ (bryson_end true j _ Hj)) in W2 by lia. cbn [Rbar_le] in W1, W2. lra. }
      pose proof (A 0 ltac:(lia)) as A0. pose proof (A 1 ltac:(lia)) as A1. pose proof (B 0 ltac:(lia)) as B0. pose proof (B 1 ltac:(lia)) as B1.
      rewrite Nat.add_0_r in B0. cbn [nth] in A0, A1, B0, B1. split; [auto|]. split; [auto|].
      intros i Hi. destruct (Nat.eq_dec i 0) as [->|Hi0]; [change (0 * 2) with 0; rewrite A0; lra|].
      destruct (Nat.eq_dec i (N - 1)) as [->|Hi1]; [rewrite B0; lra|].
      destruct (W (i * 2)) as [W1 W2]; [lia|]. rewrite (SL _ _ (bryson_path false i _ ltac:(lia))) in W1 by lia. rewrite (SU _ _ (bryson_path true i _ ltac:(lia))) in W2 by lia. cbn [Rbar_le] in W1, W2. lra.
    - intros ((A0 & A1) & (B0 & B1) & C) q Hq.
      destruct (lt_dec q 2) as [H2|H2].
      { rewrite (SL _ _ (bryson_start false q _ H2)), (SU _ _ (bryson_start true q _ H2)) by lia. destruct q as [|[|]]; [rewrite A0|rewrite A1|lia]; cbn; lra. }
      destruct (le_dec (N * 2) q) as [H3|H3].
      { rewrite (SL _ _ (bryson_free false q _ (or_introl H3))), (SU _ _ (bryson_free true q _ (or_introl H3))) by lia. cbn. auto. }
      destruct (le_dec ((N - 1) * 2) q) as [H4|H4].
      { set (j := q - (N - 1) * 2). assert (Hj : j < 2) by (unfold j; lia). assert (Eq : q = (N - 1) * 2 + j) by (unfold j; lia). rewrite Eq.
        rewrite (SL _ _ (bryson_end false j _ Hj)), (SU _ _ (bryson_end true j _ Hj)) by lia.
        destruct j as [|[|]]; [rewrite Nat.add_0_r, B0|rewrite B1|lia]; cbn; lra. }
      pose proof (Nat.div_mod q 2 ltac:(lia)) as Em. pose proof (Nat.mod_upper_bound q 2 ltac:(lia)) as Bm. set (i := q / 2) in *.
      destruct (q mod 2) as [|[|]]; [| |lia].
      + replace q with (i * 2) by lia. rewrite (SL _ _ (bryson_path false i _ ltac:(lia))), (SU _ _ (bryson_path true i _ ltac:(lia))) by lia. cbn [Rbar_le]. apply C. lia.
      + assert (F : N * 2 <= q \/ (exists i, q = i * 2 + 1 /\ 0 < i < N - 1)) by (right; exists i; lia).
        rewrite (SL _ _ (bryson_free false q _ F)), (SU _ _ (bryson_free true q _ F)) by lia. cbn. auto.
  Qed.
End Bryson.

(** Estimation: the last parameters. *)
Section Est.
  Variables (nd : nat) (dec : sdict comp).
  Lemma attas_proper : 2 <= nd -> List.Forall (proper nd dec) attas_bounds.
  Proof.
    intros H. repeat constructor; exists 0, [nd], []; (split; [split; reflexivity|]); (split; [apply accepts_at; [lia|constructor]|apply broadcast_scalar]).
  Qed.
  Lemma attas_within L U d : 2 <= nd -> length d = nd -> length L = nd -> length U = nd ->
    (forall q v, q < nd -> settled m_infty nd dec m_infty attas_bounds false q v -> nth q L m_infty = v) ->
    (forall q v, q < nd -> settled m_infty nd dec p_infty attas_bounds true q v -> nth q U m_infty = v) ->
    within L U d <-> (1 / 10000 <= nth (nd - 2) d 0)%R /\ (25 / 100000 <= nth (nd - 1) d 0)%R.
  Proof.
    intros Hn Hd HL HU SL SU.
    assert (G : forall up z x q v, gives m_infty nd dec (Assign up None [At z] (scalar x)) q v <-> (q < nd /\ (Z.of_nat q = z \/ Z.of_nat q = z + Z.of_nat nd)%Z) /\ v = x).
    { intros. rewrite gives_row. split.
      - intros (ix & k & P & -> & ->). unpicks. unravel. auto.
      - intros ((H1 & H2) & ->). exists [q], []. split; [apply picks_at1; eauto|]. split; [cbn; lia|reflexivity]. }
    assert (E1 : nth (nd - 2) L m_infty = Finite (1 / 10000)).
    { apply SL; [lia|]. left. eexists [], _, _. split; [reflexivity|]. split; [reflexivity|]. split; [apply G; split; [lia|reflexivity]|].
      intros b v [<-|[]] _ HG. apply G in HG. lia. }
    assert (E2 : nth (nd - 1) L m_infty = Finite (25 / 100000)).
    { apply SL; [lia|]. left. eexists [_], _, []. split; [reflexivity|]. split; [reflexivity|]. split; [apply G; split; [lia|reflexivity]|]. intros b v []. }
    assert (E3 : forall q, q < nd - 2 -> nth q L m_infty = m_infty).
    { intros q Hq. apply SL; [lia|]. right. split; [reflexivity|]. intros b v [<-|[<-|[]]] _ HG; apply G in HG; lia. }
    assert (E4 : forall q, q < nd -> nth q U m_infty = p_infty).
    { intros q Hq. apply SU; [lia|]. right. split; [reflexivity|]. intros b v [<-|[<-|[]]] HU' HG; discriminate. }
    unfold within. rewrite Hd. split.
    - intros W. split; [destruct (W (nd - 2)) as [W1 _]; [lia|]|destruct (W (nd - 1)) as [W1 _]; [lia|]]; [rewrite E1 in W1|rewrite E2 in W1]; exact W1.
    - intros [C1 C2] q Hq. rewrite E4 by auto. split; [|exact I]. destruct (Nat.eq_dec q (nd - 2)) as [->|]; [rewrite E1; exact C1|].
      destruct (Nat.eq_dec q (nd - 1)) as [->|]; [rewrite E2; exact C2|]. rewrite E3 by lia. exact I.
  Qed.

  Variables (off np : nat).
  Hypothesis RP : forall o s, region nd dec (Some "p") o s <-> o = off /\ s = [np].
  Lemma duffing_proper : 1 <= np -> List.Forall (proper nd dec) duffing_bounds.
  Proof. intros H. repeat constructor. apply (proper_named _ _ _ _ _ _ RP) with (r := []); [apply accepts_at; [lia|constructor]|apply broadcast_scalar]. Qed.
  Lemma duffing_within L U d : 1 <= np -> off + np <= nd -> length d = nd -> length L = nd -> length U = nd ->
    (forall q v, q < nd -> settled m_infty nd dec m_infty duffing_bounds false q v -> nth q L m_infty = v) ->
    (forall q v, q < nd -> settled m_infty nd dec p_infty duffing_bounds true q v -> nth q U m_infty = v) ->
    within L U d <-> (1 / 100000 <= nth (off + (np - 1)) d 0)%R.
  Proof.
    intros Hn Ho Hd HL HU SL SU.
    assert (G : forall up z x q v, gives m_infty nd dec (Assign up (Some "p") [At z] (scalar x)) q v <-> (exists i, q = off + i /\ i < np /\ (Z.of_nat i = z \/ Z.of_nat i = z + Z.of_nat np)%Z) /\ v = x).
    { intros. rewrite (gives_named _ _ _ _ _ _ RP). split.
      - intros (ix & k & P & -> & ->). unpicks. unravel. eauto.
      - intros ((i & -> & H1 & H2) & ->). exists [i], []. split; [apply picks_at1; eauto|]. split; [cbn; lia|reflexivity]. }
    assert (E1 : nth (off + (np - 1)) L m_infty = Finite (1 / 100000)).
    { apply SL; [lia|]. left. eexists [], _, []. split; [reflexivity|]. split; [reflexivity|]. split; [apply G; split; [exists (np - 1); lia|reflexivity]|]. intros b v []. }
    assert (E3 : forall q, q < nd -> q <> off + (np - 1) -> nth q L m_infty = m_infty).
    { intros q Hq Hne. apply SL; [lia|]. right. split; [reflexivity|]. intros b v [<-|[]] _ HG; apply G in HG as [(i & Hi) _]; lia. }
    assert (E4 : forall q, q < nd -> nth q U m_infty = p_infty).
    { intros q Hq. apply SU; [lia|]. right. split; [reflexivity|]. intros b v [<-|[]] HU' HG; discriminate. }
    unfold within. rewrite Hd. split.
    - intros W. destruct (W (off + (np - 1))) as [W1 _]; [lia|]. rewrite E1 in W1. exact W1.
    - intros C1 q Hq. rewrite E4 by auto. split; [|exact I]. destruct (Nat.eq_dec q (off + (np - 1))) as [->|]; [rewrite E1; exact C1|]. rewrite E3 by auto. exact I.
  Qed.
End Est.

(** The decision variables of the problems. *)
Section Dec.
  Variables (m : colmodel R) (t : list R).
  Notation N := (npoints m t).
  Lemma oc_decision : oc_small m t -> p_decision (oc_prob m t) = oc_dec N (m_nx m) (m_nu m) (m_np m).
  Proof.
    intros (S1 & S2 & S3 & S4 & S5). unfold oc_dec.
    replace (Z.of_nat (N * m_nx m)) with (0 + csize (Comp [N; m_nx m] 0))%Z by (rewrite csize_of, prodn2; auto).
    replace (Z.of_nat (N * m_nx m + N * m_nu m))
      with (0 + csize (Comp [N; m_nx m] 0) + csize (Comp [N; m_nu m] (0 + csize (Comp [N; m_nx m] 0))))%Z
      by (rewrite !csize_of, !prodn2; auto; lia).
    reflexivity.
  Qed.
  Variables (y : list (yrow R)) (uv : arr R).
  Definition jme_dec (nwc : nat) (ws : shape) : sdict comp := [("x", Comp [N; m_nx m] 0); ("wc", Comp ws (Z.of_nat (N * m_nx m))); ("p", Comp [m_np m] (Z.of_nat (N * m_nx m + nwc)))].
  Lemma jme_decision : oem_small m t true -> p_decision (jme_prob m t y uv) = jme_dec (nwc m t true) (wc_shape m t).
  Proof.
    intros (S1 & S2 & S3). unfold jme_dec.
    replace (Z.of_nat (N * m_nx m + nwc m t true))
        with (0 + csize (Comp [N; m_nx m] 0) + csize (Comp (wc_shape m t) (0 + csize (Comp [N; m_nx m] 0))))%Z
        by (rewrite !csize_of, prodn2, nwc_size; auto; lia).
    replace (Z.of_nat (N * m_nx m)) with (0 + csize (Comp [N; m_nx m] 0))%Z by (rewrite csize_of, prodn2; auto).
    unfold jme_prob, jme_ops. destruct (m_use_penalty m); reflexivity.
  Qed.
  Lemma jme_region nd k ws : forall o s, region nd (jme_dec k ws) (Some "p") o s <-> o = N * m_nx m + k /\ s = [m_np m].
  Proof. regions jme_dec (Comp [m_np m] (Z.of_nat (N * m_nx m + k))). Qed.
End Dec.

(** *** Specification: the logarithm of a Gaussian density without its
    constant term. *)
Section Gauss.
  Local Open Scope R_scope.
  Definition gauss (y mean std : R) : R := - ((y - mean) ^ 2 / (2 * std ^ 2)) - ln std.
  Lemma enormal1_val v x mean std : eval v (enormal1 x mean std) = gauss (eval v x) (eval v mean) (eval v std).
  Proof.
    unfold enormal1, gauss, esub, eneg, esq. cbn [eval ueval]. replace (2 * eval v std ^ 2) with (2 * (eval v std * eval v std)) by ring.
    unfold Rdiv. ring.
  Qed.
  Lemma enormal1_dom v x mean std : dom v x -> dom v mean -> dom v std -> 0 < eval v std -> dom v (enormal1 x mean std).
  Proof.
    intros Dx Dm Ds Hs. unfold enormal1, esub, eneg, esq. cbn [dom udom eval ueval]. repeat split; auto.
    pose proof (Rmult_lt_0_compat _ _ Hs Hs). lra.
  Qed.
End Gauss.

(** Sliding down the straight line from (0, 0) to (10, -5). *)
Section Slide.
  Local Open Scope R_scope.
  Definition slide_theta : R := atan 2.
  Definition slide_tf : R := sqrt (50 / (980665 / 100000)).
  Lemma slide_sin : sin slide_theta = 2 * cos slide_theta.
  Proof. unfold slide_theta. rewrite sin_atan, cos_atan. unfold Rdiv. ring. Qed.
  Lemma slide_cos : (980665 / 100000) * cos slide_theta * slide_tf * (cos slide_theta * slide_tf) = 10.
  Proof.
    unfold slide_theta, slide_tf. rewrite cos_atan. assert (S5 : sqrt (1 + 2 ^ 2) * sqrt (1 + 2 ^ 2) = 5) by (rewrite sqrt_sqrt; lra).
    assert (St : sqrt (50 / (980665 / 100000)) * sqrt (50 / (980665 / 100000)) = 50 / (980665 / 100000)) by (apply sqrt_sqrt; lra).
    set (s := sqrt (1 + 2²)) in *. assert (Hs : sqrt (1 + 2 ^ 2) = s) by (unfold s, Rsqr; f_equal; ring). rewrite Hs in S5.
    assert (Hn : s <> 0) by (intros E; rewrite E in S5; lra).
    set (f := sqrt (50 / (980665 / 100000))) in *.
    replace (980665 / 100000 * (1 / s) * f * (1 / s * f)) with (980665 / 100000 * (f * f) / (s * s)) by (field; exact Hn). rewrite St, S5. field.
  Qed.
  Lemma slide_dx tau : 10 * (tau + tau) = (980665 / 100000) * cos slide_theta * slide_tf * tau * sin slide_theta * slide_tf.
  Proof. rewrite slide_sin. rewrite <- slide_cos at 1. ring. Qed.
  Lemma slide_dy tau : -5 * (tau + tau) = - ((980665 / 100000) * cos slide_theta * slide_tf * tau) * cos slide_theta * slide_tf.
  Proof. replace (-5) with (- (10) / 2) by field. rewrite <- slide_cos. field. Qed.
  Lemma slide_bounds : (- PI <= slide_theta <= PI) /\ 1 / 100000 <= slide_tf.
  Proof.
    split.
    - unfold slide_theta. pose proof (atan_bound 2). pose proof PI_RGT_0. lra.
    - unfold slide_tf. apply Rle_trans with 1; [lra|]. rewrite <- sqrt_1. apply sqrt_le_1; lra.
  Qed.
End Slide.
