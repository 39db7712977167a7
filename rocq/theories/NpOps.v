(** Lemmas about the arrays of NpModel, continued: axes, slices, array
    indices, stacked linear algebra, and simulation of partial computations
    on stacks. *)
From Coq Require Import String Ascii.
From Verif Require Import Py.
From mathcomp Require Import all_ssreflect all_algebra.
From Verif Require Import KalModel KalDiffModel NpModel NpLemmas NdKalModel.
Set Implicit Arguments.
Unset Strict Implicit.
Unset Printing Implicit Defensive.
Import Order.TTheory GRing.Theory Num.Theory.
Local Open Scope ring_scope.

(** * Axes *)

Lemma swap_list_cat p q e c : (0 < p <= size c)%N -> (0 < q <= size c)%N ->
  swap_list p q (e ++ c) = e ++ swap_list p q c.
Proof.
move=> /andP[p0 Hp] /andP[q0 Hq]; rewrite /swap_list size_cat iotaD map_cat; congr (_ ++ _).
- rewrite -[RHS]take_size -(map_nth_iota0 0%N (leqnn _)).
  apply/eq_in_map => k; rewrite mem_iota add0n /= => Hk.
  have -> : swap_end p q (size e + size c) k = k.
    rewrite /swap_end -!addnBA //.
    by case: eqP => [E|_]; [move: Hk; rewrite E ltnNge leq_addr | case: eqP => [E|//]; move: Hk; rewrite E ltnNge leq_addr].
  by rewrite nth_cat Hk.
- rewrite add0n -[X in iota X _]addn0 iotaDl -map_comp; apply/eq_in_map => k; rewrite mem_iota add0n /= => Hk.
  have -> : swap_end p q (size e + size c) (size e + k) = (size e + swap_end p q (size c) k)%N.
    by rewrite /swap_end -!addnBA // !eqn_add2l; do 2?[case: ifP => _].
  by rewrite nth_cat ltnNge leq_addr /= addKn.
Qed.

Section Ops.
Variable F : rcfType.
Local Notation nd := (nd F).
Implicit Types A B C S : nd.

Lemma rollaxisE A s n m : shape A = s ++ [:: n; m] ->
  shape (rollaxis 2 A) = n :: s ++ [:: m]
  /\ forall k e j, size e = size s -> get (rollaxis 2 A) (k :: e ++ [:: j]) = get A (e ++ [:: k; j]).
Proof.
move=> HA; rewrite /rollaxis /= HA size_cat addnK; split.
- by rewrite nth_cat ltnn subnn take_size_cat // -cat1s drop_cat ltnNge leqnSn /= subSnn.
- by move=> k e j He; rewrite take_size_cat // drop_size_cat.
Qed.

Lemma newaxesE A s n k : shape A = s ++ [:: n] ->
  shape (newaxes k A) = s ++ nseq k 1%N ++ [:: n]
  /\ forall e z j, size e = size s -> size z = k -> get (newaxes k A) (e ++ z ++ [:: j]) = get A (e ++ [:: j]).
Proof.
move=> HA; rewrite /newaxes /= HA size_cat addn1 /=; split; first by rewrite take_size_cat // drop_size_cat.
by move=> e z j He Hz; rewrite take_size_cat // catA drop_size_cat // size_cat He Hz.
Qed.

Lemma sum_lastE A s n : shape A = s ++ [:: n] ->
  shape (sum_last A) = s /\ forall e, get (sum_last A) e = \sum_(k < n) get A (e ++ [:: nat_of_ord k]).
Proof.
move=> HA; rewrite /sum_last /= HA size_cat addn1 /= take_size_cat // last_cat /=; split=> // e.
by apply: eq_bigr => k _; rewrite cats1.
Qed.

(** * Slices of the first axis *)

Lemma setsliceE lo hi A B n s : shape A = n :: s -> (lo <= hi <= n)%N -> shape B = (hi - lo)%N :: s ->
  exists C, setslice lo hi A B = Ok C /\ shape C = n :: s /\
    forall k r, (k < n)%N -> inb s r ->
      get C (k :: r) = if (lo <= k < hi)%N then get B ((k - lo)%N :: r) else get A (k :: r).
Proof.
move=> HA /andP[H1 H2] HB; rewrite /setslice HA HB /= (minn_idPl H2) bcast_same /= eqxx.
eexists; split; first by []; split=> // k r Hk Hr /=.
case: ifP => // /andP[K1 K2]; rewrite bidx_id //= Hr andbT.
by rewrite ltn_sub2r // (leq_ltn_trans K1).
Qed.

Lemma getsliceE hi A n s : shape A = n :: s -> (hi <= n)%N ->
  shape (getslice 0 hi A) = hi :: s /\ forall k r, get (getslice 0 hi A) (k :: r) = get A (k :: r).
Proof. by move=> HA H; rewrite /getslice /= HA /= (minn_idPl H) subn0; split. Qed.

(** * Boolean arrays *)

Lemma getmaskE m A s : shape A = s ++ [:: size m] ->
  exists C, getmask m A = Ok C /\ shape C = s ++ [:: size (nonzero m)] /\
    forall e j, size e = size s -> get C (e ++ [:: j]) = get A (e ++ [:: nth 0%N (nonzero m) j]).
Proof.
move=> HA; rewrite /getmask HA size_cat addn1 /= last_cat /= eqxx; eexists; split=> //; split=> /=.
  by rewrite take_size_cat // cats1.
by move=> e j He; rewrite take_size_cat // last_cat /= cats1.
Qed.

Lemma ix_ok_size m : ix_ok m (size m).
Proof. by apply/allP => k; rewrite mem_filter mem_iota add0n => /andP [_ /andP [_ ->]]. Qed.

Lemma getmask2E m A s : shape A = s ++ [:: size m; size m] ->
  exists C, getmask2 m A = Ok C /\ shape C = s ++ [:: size (nonzero m); size (nonzero m)] /\
    forall e i j, size e = size s -> get C (e ++ [:: i; j]) = get A (e ++ [:: nth 0%N (nonzero m) i; nth 0%N (nonzero m) j]).
Proof.
move=> HA; rewrite /getmask2 HA size_cat addnK addn2 drop_size_cat // [all _ _]/= !ix_ok_size; eexists; split=> //; split=> /=.
  by rewrite take_size_cat.
by move=> e i j He; rewrite take_size_cat // drop_size_cat.
Qed.

Lemma getmask_ixE m A : shape A = [:: size m; size m] ->
  exists C, getmask_ix m A = Ok C /\ shape C = [:: size (nonzero m); size (nonzero m)] /\
    forall i j, get C [:: i; j] = get A [:: nth 0%N (nonzero m) i; nth 0%N (nonzero m) j].
Proof. by move=> HA; rewrite /getmask_ix HA [all _ _]/= !ix_ok_size; eexists. Qed.

(** * Pairs of index lists *)

Lemma getpairsE t A s n : shape A = s ++ [:: n; n] ->
  shape (getpairs t A) = s ++ [:: size t]
  /\ forall e r, size e = size s -> get (getpairs t A) (e ++ [:: r]) = get A (e ++ tl t r).
Proof.
move=> HA; rewrite /getpairs /= HA size_cat addnK take_size_cat // cats1; split=> // e r He.
by rewrite take_size_cat // nth_cat He ltnn subnn.
Qed.

Lemma getpairs2E t A s n : shape A = s ++ [:: n; n; n; n] ->
  shape (getpairs2 t A) = s ++ [:: size t; n; n]
  /\ forall e r i j, size e = size s -> get (getpairs2 t A) (e ++ [:: r; i; j]) = get A (e ++ tl t r ++ [:: i; j]).
Proof.
move=> HA; rewrite /getpairs2 /= HA size_cat addnK take_size_cat //; split.
  by rewrite -[X in drop X _]add2n -drop_drop drop_size_cat.
move=> e r i j He; rewrite take_size_cat // nth_cat He ltnn subnn.
by rewrite -add1n -drop_drop drop_size_cat.
Qed.

(** Assignments listed by a sequence: all that hit [c] agree on [v]. *)
Lemma put_hit (X : eqType) d (l : seq X) (g : X -> seq nat) (h : X -> seq nat -> F) A (s e c : seq nat) v :
  (size (shape A) - d)%N = size s -> size e = size s ->
  has (fun x => g x == c) l -> (forall x, x \in l -> g x = c -> h x e = v) ->
  get (put d [seq (g x, h x) | x <- l] A) (e ++ c) = v.
Proof.
move=> Hn He Hh Hv; rewrite /put /= Hn drop_size_cat // take_size_cat //.
have -> : [seq x.2 | x <- [seq (g x, h x) | x <- l] & x.1 == c] = [seq h x | x <- l & g x == c].
  by rewrite filter_map -map_comp.
move: Hh; rewrite has_filter => Hf.
have Hv' x : x \in [seq x <- l | g x == c] -> h x e = v.
  by rewrite mem_filter => /andP[/eqP E Hx]; apply: Hv.
case: [seq x <- l | g x == c] Hf Hv' => // x l' _ Hv' /=.
elim: l' x Hv' => [|y l' IH] x Hv' /=; first by apply: Hv'; rewrite inE.
by apply: IH => z Hz; apply: Hv'; rewrite inE Hz orbT.
Qed.

Lemma put_miss (X : eqType) d (l : seq X) (g : X -> seq nat) (h : X -> seq nat -> F) A (s e c : seq nat) :
  (size (shape A) - d)%N = size s -> size e = size s ->
  ~~ has (fun x => g x == c) l ->
  get (put d [seq (g x, h x) | x <- l] A) (e ++ c) = get A (e ++ c).
Proof.
move=> Hn He Hh; rewrite /put /= Hn drop_size_cat //.
by rewrite filter_map; move: Hh; rewrite has_filter negbK => /eqP; rewrite /preim /= => ->.
Qed.

(** * Simulation *)

(** A computation [r] on stacks and the computations [m e] on the elements:
    if [r] succeeds then so do all of them, with related results; if [r]
    fails then some element fails in the same way. *)
Definition sim (b : seq nat) T M (R : T -> (seq nat -> M) -> Prop) (r : res T) (m : seq nat -> res M) : Prop :=
  match r with
  | Ok a => exists m', (forall e, inb b e -> m e = Ok (m' e)) /\ R a m'
  | Err x => exists2 e, inb b e & m e = Err x
  end.

Variable b : seq nat.

Lemma sim_ok T M (R : T -> (seq nat -> M) -> Prop) a m m' :
  R a m' -> (forall e, inb b e -> m e = Ok (m' e)) -> sim b R (Ok a) m.
Proof. by move=> H E; exists m'. Qed.

Lemma sim_ext T M (R : T -> (seq nat -> M) -> Prop) r m m' :
  sim b R r m -> (forall e, inb b e -> m e = m' e) -> sim b R r m'.
Proof.
case: r => [a|x] /= H E.
- by case: H => n [Hn HR]; exists n; split=> // e He; rewrite -E ?Hn.
- by case: H => e He Hx; exists e; rewrite // -E.
Qed.

Lemma sim_bind T M T' M' (R : T -> (seq nat -> M) -> Prop) (R' : T' -> (seq nat -> M') -> Prop) r m
    (k : T -> res T') (k' : seq nat -> M -> res M') :
  sim b R r m ->
  (forall a m', R a m' -> (forall e, inb b e -> m e = Ok (m' e)) -> sim b R' (k a) (fun e => k' e (m' e))) ->
  sim b R' (let* a := r in k a) (fun e => let* a := m e in k' e a).
Proof.
case: r => [a|x] /= H Hk.
- case: H => m' [Hm HR]; apply: sim_ext (Hk a m' HR Hm) _ => e He /=.
  by rewrite Hm.
- by case: H => e He E; exists e => //; rewrite E.
Qed.

Lemma sim_mono T M (R R' : T -> (seq nat -> M) -> Prop) r m :
  sim b R r m -> (forall a m', R a m' -> R' a m') -> sim b R' r m.
Proof. by case: r => [a|x] //= [m' [E H]] HR; exists m'; split=> //; apply: HR. Qed.

(** * Stacked linear algebra *)

Lemma mapM_ok (X : eqType) Y (f : X -> res Y) (l : seq X) r : mapM f l = Ok r -> forall x, x \in l -> exists y, f x = Ok y.
Proof.
elim: l r => [|a l IH] r //=; case Ea: (f a) => [y|//] /=; case E: (mapM f l) => [r'|//] _ x.
by rewrite inE => /orP[/eqP ->|/(IH _ E)]; [exists y|].
Qed.
Lemma mapM_err (X : eqType) Y (f : X -> res Y) (l : seq X) x : mapM f l = Err x -> exists2 a, a \in l & f a = Err x.
Proof.
elim: l => [|a l IH] //=; case Ea: (f a) => [y|z] /=.
- case E: (mapM f l) IH => [//|z] IH /= Hz; have [c Hc Ec] := IH Hz.
  by exists c; rewrite // inE Hc orbT.
- by case=> <-; exists a; rewrite // inE eqxx.
Qed.

Lemma mx_atE n m A (M : seq nat -> 'M[F]_(n, m)) e : rep (pre := [::]) (cs := [:: n; m]) b A (fun e i j => M e i j) ->
  inb b e -> mx_at n m A e = M e.
Proof. by case=> _ H He; apply/matrixP => i j; rewrite mxE; apply: (H e He i j). Qed.

Lemma at_natE n m (M : 'M[F]_(n, m)) (i : 'I_n) (j : 'I_m) : at_nat M i j = M i j.
Proof. by rewrite /at_nat !valK. Qed.

Lemma stacked_sim (op : forall n, 'M[F]_n -> res 'M[F]_n) n A (M : seq nat -> 'M[F]_n) :
  rep (pre := [::]) (cs := [:: n; n]) b A (fun e i j => M e i j) ->
  sim b (fun C (N : seq nat -> 'M[F]_n) => rep (pre := [::]) (cs := [:: n; n]) b C (fun e i j => N e i j))
    (stacked op A) (fun e => op n (M e)).
Proof.
move=> HA; rewrite /stacked (proj1 HA) /= size_cat addnK drop_size_cat // eqxx take_size_cat //.
case E: (mapM _ _) => [r|x] /=.
- have Hok e : inb b e -> exists N, op n (M e) = Ok N.
    by move=> He; rewrite -(mx_atE HA He); apply: (mapM_ok E); rewrite mem_indices.
  exists (fun e => match op n (M e) with Ok N => N | Err _ => 0 end); split.
    by move=> e /Hok[N ->].
  split=> //= e He i j; have [N EN] := Hok e He.
  have Hs := inb_size He.
  by rewrite take_size_cat // (mx_atE HA He) EN !nth_cat Hs ltnn subnn ltnNge leqnSn /= subSnn at_natE.
- have [e] := mapM_err E; rewrite mem_indices => He Ex.
  by exists e; rewrite // -(mx_atE HA He).
Qed.
End Ops.

(** * Vocabulary *)

(** Stacks of row vectors and matrices; with one or two axes of parameters;
    and the same with an axis of sigma points in front of the stack. *)
Notation rV b n A x := (rep (pre := [::]) (cs := [:: n]) b A (fun e i => x e 0 i)).
Notation rM b n m A M := (rep (pre := [::]) (cs := [:: n; m]) b A (fun e i j => M e i j)).
Notation rV1 b q n A x := (rep (pre := [::]) (cs := [:: q; n]) b A (fun e a i => x e a 0 i)).
Notation rM1 b q n m A M := (rep (pre := [::]) (cs := [:: q; n; m]) b A (fun e a i j => M e a i j)).
Notation rV2 b q r n A x := (rep (pre := [::]) (cs := [:: q; r; n]) b A (fun e a c i => x e a c 0 i)).
Notation rM2 b q r n m A M := (rep (pre := [::]) (cs := [:: q; r; n; m]) b A (fun e a c i j => M e a c i j)).
Notation rS b k n A X := (rep (pre := [:: k]) (cs := [:: n]) b A (fun e s i => X e s i)).
Notation rS1 b k q n A X := (rep (pre := [:: k]) (cs := [:: q; n]) b A (fun e s a i => X e a s i)).
Notation rS2 b k q r n A X := (rep (pre := [:: k]) (cs := [:: q; r; n]) b A (fun e s a c i => X e a c s i)).
(** Stacks of scalars, with up to two axes of parameters. *)
Notation r0 b A v := (rep (pre := [::]) (cs := [::]) b A (fun e => v e)).
Notation r1 b q A v := (rep (pre := [::]) (cs := [:: q]) b A (fun e a => v e a)).
Notation r2 b q r A v := (rep (pre := [::]) (cs := [:: q; r]) b A (fun e a c => v e a c)).

(** The first operation of a sequence succeeds with a result that [R] holds of. *)
Tactic Notation "obind" ident(C) ident(HC) constr(R) :=
  lazymatch goal with
  | |- context [bind ?r _] =>
      let H := fresh in
      assert (exists Z, r = Ok Z /\ R Z) as H;
      [ cbv beta | destruct H as [C [H HC]]; rewrite H; clear H; cbn [bind]; cbv beta in HC ]
  end.
(** Element-wise operations on operands of the same shape, or where the second
    lacks the axis of sigma points. *)
Ltac ewise :=
  rewrite /nd_add /nd_sub /nd_iadd /nd_isub;
  lazymatch goal with
  | |- exists C, imap2 ?f ?A ?B = Ok C /\ _ =>
      match goal with H1 : rep _ A _, H2 : rep _ B _ |- _ => refine (rep_imap2 H1 H2 _) end
  | |- exists C, map2 ?f ?A ?B = Ok C /\ _ =>
      match goal with H1 : rep _ A _, H2 : rep _ B _ |- _ =>
        first [ refine (rep_map2 H1 H2 _) | refine (rep_map2_lead H1 H2 _)
              | refine (rep_map2_const H1 H2 _) | refine (rep_map2_const' H2 H1 _) ] end
  end;
  cbn [eqarr amap2 arr cat]; intros.
