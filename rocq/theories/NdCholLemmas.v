(** The differentiable Cholesky factorisation on stacks of matrices
    ([NdKalModel]) does to every matrix what [KalDiffModel] says. *)
From Coq Require Import String Ascii.
From Verif Require Import Py.
From mathcomp Require Import all_ssreflect all_algebra.
From Verif Require Import KalModel KalDiffModel NpModel NpLemmas NdKalModel NpOps.
Set Implicit Arguments.
Unset Strict Implicit.
Unset Printing Implicit Defensive.
Import Order.TTheory GRing.Theory Num.Theory.
Local Open Scope ring_scope.

(** * Enumerations *)

Lemma filter_iota_leq i n : (i < n)%N -> [seq j <- iota 0 n | (j <= i)%N] = iota 0 i.+1.
Proof.
move=> Hi; rewrite -{1}(subnKC Hi) iotaD filter_cat.
rewrite (_ : [seq j <- iota (0 + i.+1) _ | _] = [::]); last first.
  by apply/eqP; rewrite -(negbK (_ == _)) -has_filter; apply/hasPn => j; rewrite mem_iota add0n -ltnNge => /andP[].
by rewrite cats0; apply/all_filterP/allP => j; rewrite mem_iota add0n.
Qed.

Definition vals n (p : 'I_n * 'I_n) : nat * nat := (val p.1, val p.2).

Lemma tril_enum n : tril_indices n = [seq vals p | p <- enum [pred p : 'I_n * 'I_n | tril p]].
Proof.
rewrite /enum_mem -enumT /= [in RHS]enumT unlock /= /prod_enum.
rewrite (eq_filter (a2 := @tril n)) //.
rewrite filter_flatten map_flatten -!map_comp /tril_indices -{1}(val_enum_ord n) -map_comp.
rewrite -enumT; congr flatten; apply: eq_map => i; rewrite [LHS]/comp.
have -> : iota 0 (val i).+1 = [seq val j | j <- enum 'I_n & (val j <= val i)%N].
  by rewrite -(filter_iota_leq (ltn_ord i)) -{1}(val_enum_ord n) filter_map.
rewrite -map_comp.
rewrite [RHS](_ : _ = [seq vals p | p <- [seq p <- [seq (i, x2) | x2 <- enum 'I_n] | tril p]]) //.
by rewrite [in RHS]filter_map -map_comp.
Qed.

Lemma size_tril n : size (tril_indices n) = ntril n.
Proof. by rewrite tril_enum size_map -cardE. Qed.

Lemma nth_tril n (r : 'I_(ntril n)) : nth (0, 0)%N (tril_indices n) r = (val (ti r), val (tj r)).
Proof.
rewrite tril_enum (nth_map (enum_val r)); last by rewrite -cardE ltn_ord.
by rewrite /ti /tj -(enum_val_nth (enum_val r)).
Qed.

Lemma mem_tril n i j : ((i, j) \in tril_indices n) = (j <= i < n)%N.
Proof.
apply/flattenP/idP.
- case=> l /mapP[i' Hi' ->] /mapP[j' Hj' [-> ->]]; move: Hi' Hj'; rewrite !mem_iota !add0n => /andP[_ ->].
  by rewrite ltnS leq0n andbT.
- case/andP=> H1 H2; exists [seq (i, j) | j <- iota 0 i.+1].
    by apply/mapP; exists i; rewrite // mem_iota.
  by apply/mapP; exists j; rewrite // mem_iota add0n ltnS.
Qed.

Lemma tl_tril n (r : 'I_(ntril n)) : tl (tril_indices n) r = [:: val (ti r); val (tj r)].
Proof. by rewrite /tl nth_tril. Qed.

Section Chol.
Variable F : rcfType.
Local Notation nd := (nd F).

(** * The linear system *)

Lemma nd_ALE n (S : nd) s : shape S = s ++ [:: n; n] ->
  shape (nd_AL n S) = s ++ [:: ntril n; ntril n] /\
  forall e, size e = size s -> forall r c : 'I_(ntril n), get (nd_AL n S) (e ++ [:: nat_of_ord r; nat_of_ord c]) = chol_AL (mx_at n n S e) r c.
Proof.
move=> HS; rewrite /nd_AL.
set t := tril_indices n; set triples := ix_triples n.
set A0 := zeros _ _.
pose X : eqType := prod_eqType (prod_eqType nat_eqType nat_eqType) nat_eqType.
pose i r := (nth (0, 0)%N t r).1; pose j r := (nth (0, 0)%N t r).2.
pose g1 (x : X) : seq nat := [:: i x.1.1; j x.1.2; i x.1.1; x.2].
pose h1 (x : X) e := get S (e ++ [:: x.2; j x.1.2]).
pose A1 := put 4 [seq (g1 x, h1 x) | x <- triples] A0.
pose g2 (x : X) : seq nat := [:: i x.1.1; j x.1.2; j x.1.2; x.2].
pose h2 (x : X) e := get A1 (e ++ g2 x) + get S (e ++ [:: x.2; i x.1.1]).
pose A2 := put 4 [seq (g2 x, h2 x) | x <- triples] A1.
rewrite -[put 4 _ (put 4 _ A0)]/A2.
have HA0 : shape A0 = s ++ [:: n; n; n; n] by rewrite /A0 /= HS -catA.
have HA1 : shape A1 = s ++ [:: n; n; n; n] by [].
have HA2 : shape A2 = s ++ [:: n; n; n; n] by [].
have Hn (A : nd) : shape A = s ++ [:: n; n; n; n] -> (size (shape A) - 4)%N = size s.
  by move=> ->; rewrite size_cat addnK.
have Hmem r c k : ((r, c, k) \in triples) = [&& (r < size t)%N, (c < size t)%N & (k < n)%N].
  apply/idP/idP.
  - by case/allpairsPdep=> [[r' c'] [k' []]]; case/allpairsPdep=> r'' [c'' []]; rewrite !mem_iota !add0n => /andP[_ H1] /andP[_ H2] [-> ->] /andP[_ H3] [-> -> ->]; rewrite H1 H2.
  - case/and3P=> H1 H2 H3; apply/allpairsPdep; exists (r, c), k; split=> //; last by rewrite mem_iota.
    by apply/allpairsPdep; exists r, c; rewrite !mem_iota !add0n.
have idx p q : (q <= p < n)%N -> exists2 r, (r < size t)%N & nth (0, 0)%N t r = (p, q).
  by rewrite -mem_tril => /(nthP (0, 0)%N) [r]; exists r.
have idx_i (p : 'I_n) : exists2 r, (r < size t)%N & (nth (0, 0)%N t r).1 = p.
  by have [|r Hr E] := idx p 0%N; [rewrite /= ltn_ord | exists r; rewrite // E].
have idx_j (p : 'I_n) : exists2 r, (r < size t)%N & (nth (0, 0)%N t r).2 = p.
  by have [|r Hr E] := idx p p; [rewrite leqnn ltn_ord | exists r; rewrite // E].
have E1 e (p q l k : 'I_n) : size e = size s ->
    get A1 (e ++ [:: nat_of_ord p; nat_of_ord q; nat_of_ord l; nat_of_ord k]) = if l == p then mx_at n n S e k q else 0.
  move=> He; case: eqP => [->|Hl].
  - apply: (put_hit (g := g1) (h := h1) (Hn _ HA0) He).
    + have [r Hr Er] := idx_i p; have [c Hc Ec] := idx_j q.
      by apply/hasP; exists (r, c, nat_of_ord k); rewrite ?Hmem ?Hr ?Hc ?ltn_ord //= /g1 /g2 /= /i /j Er Ec.
    + by move=> [[r c] k'] _ [_ E _ ->]; rewrite /h1 /= -/(j c) E mxE.
  - rewrite (put_miss (g := g1) h1 (Hn _ HA0) He) //; apply/hasPn => [[[r c] k']] _ /=.
    by apply/eqP => -[E _ E' _]; apply: Hl; apply: val_inj; rewrite /= -E -E'.
have E2 e (p q l k : 'I_n) : size e = size s ->
    get A2 (e ++ [:: nat_of_ord p; nat_of_ord q; nat_of_ord l; nat_of_ord k]) = chol_A (mx_at n n S e) p q l k.
  move=> He; rewrite /chol_A -E1 //; case: (l =P q) => [->|Hl].
  - apply: (put_hit (g := g2) (h := h2) (Hn _ HA1) He).
    + have [r Hr Er] := idx_i p; have [c Hc Ec] := idx_j q.
      by apply/hasP; exists (r, c, nat_of_ord k); rewrite ?Hmem ?Hr ?Hc ?ltn_ord //= /g1 /g2 /= /i /j Er Ec.
    + by move=> [[r c] k'] _ [Ei Ej _ ->]; rewrite /h2 /g2 /= -/(i r) -/(j c) Ei Ej mxE.
  - rewrite (put_miss (g := g2) h2 (Hn _ HA1) He) ?addr0 //; apply/hasPn => [[[r c] k']] _ /=.
    by apply/eqP => -[_ E E' _]; apply: Hl; apply: val_inj; rewrite /= -E -E'.
have [HB EB] := getpairs2E t HA2.
have [HC EC] := getpairsE t (s := s ++ [:: size t]) (n := n) (etrans HB (catA s [:: size t] [:: n; n])).
split; first by rewrite HC -catA size_tril.
move=> e He r c; rewrite [e ++ _](catA e [:: nat_of_ord r] [:: nat_of_ord c]).
rewrite EC ?size_cat ?He // tl_tril -catA (EB e r (val (ti c)) (val (tj c)) He) tl_tril.
by rewrite (E2 e (ti r) (tj r) (ti c) (tj c) He) mxE.
Qed.

Lemma setpairsE n (B : nd) s : 
  let A := setpairs [seq (p.2, p.1) | p <- tril_indices n] B (zeros F (s ++ [:: n; n])) in
  shape A = s ++ [:: n; n] /\
  forall e, size e = size s -> forall k l : 'I_n,
    get A (e ++ [:: nat_of_ord k; nat_of_ord l]) = unvecL (\col_(r < ntril n) get B (e ++ [:: nat_of_ord r])) k l.
Proof.
split=> // e He k l; rewrite mxE /setpairs size_map size_tril.
set t := [seq (_.2, _.1) | _ <- tril_indices n].
have Ht (r : 'I_(ntril n)) : tl t r = [:: val (tj r); val (ti r)].
  by rewrite /tl (nth_map (0, 0)%N) ?size_tril ?ltn_ord // nth_tril.
pose X : eqType := nat_eqType.
have Hn : (size (shape (zeros F (s ++ [:: n; n]))) - 2)%N = size s by rewrite size_cat addnK.
case: (leqP (val k) (val l)) => Hkl.
- have Hin : (l, k) \in [pred p : 'I_n * 'I_n | tril p] by [].
  pose r0 : 'I_(ntril n) := enum_rank_in Hin (l, k).
  have E0 : enum_val r0 = (l, k) by rewrite enum_rankK_in.
  rewrite (big_pred1 r0) => [|r]; last first.
    apply/andP/eqP => [[/eqP H1 /eqP H2]|->]; last by rewrite /tj /ti E0 !eqxx.
    by apply: enum_val_inj; rewrite E0 -H1 -H2 /ti /tj; case: (enum_val r).
  rewrite mxE; apply: (@put_hit F X 2 (iota 0 (ntril n)) (tl t) (fun r e => get B (rcons e r)) _ s) => //.
  + by apply/hasP; exists (nat_of_ord r0); rewrite ?mem_iota ?add0n ?ltn_ord // Ht /ti /tj E0.
  + move=> r; rewrite mem_iota add0n => /andP[_ Hr]; rewrite -[r]/(nat_of_ord (Ordinal Hr)) Ht => -[H1 H2].
    rewrite cats1; congr (get B (rcons e _)).
    congr nat_of_ord; apply: enum_val_inj; rewrite E0.
    move: H1 H2; rewrite /ti /tj; case: (enum_val (Ordinal Hr)) => a c /= H1 H2.
    by congr (_, _); apply: val_inj.
- rewrite big_pred0 => [|r]; last first.
    apply/negP => /andP[/eqP H1 /eqP H2].
    have := enum_valP r; rewrite inE /tril -/(ti r) -/(tj r) H1 H2.
    by rewrite leqNgt Hkl.
  rewrite (@put_miss F X 2 (iota 0 (ntril n)) (tl t) (fun r e => get B (rcons e r)) _ s) //.
  apply/hasPn => r; rewrite mem_iota add0n => /andP[_ Hr]; rewrite -[r]/(nat_of_ord (Ordinal Hr)) Ht.
  apply/eqP => -[H1 H2].
  have := enum_valP (Ordinal Hr); rewrite inE /tril -/(ti (Ordinal Hr)) -/(tj (Ordinal Hr)).
  move: H1 H2 => /= -> ->; by rewrite leqNgt Hkl.
Qed.

Variable b : seq nat.
Local Notation M0 := (rep (pre := [::]) b).

Lemma rep0I cs (A : nd) (t : seq nat -> arr F cs) :
  shape A = b ++ cs -> (forall e, inb b e -> agree (fun c => get A (e ++ c)) (t e)) -> rep (pre := [::]) b A t.
Proof.
move=> HA H; split=> // e He; apply: agree_ext (H e He) => c _.
by rewrite take0 drop0.
Qed.

Lemma rep_swap12 n m (A : nd) (t : seq nat -> 'I_n -> 'I_m -> F) :
  rep (pre := [::]) (cs := [:: n; m]) b A t -> rep (pre := [::]) (cs := [:: m; n]) b (swapaxes 1 2 A) (fun e i j => t e j i).
Proof.
case=> HA H; split=> /=; first by rewrite HA /= swap_list_cat.
by move=> e He i j; rewrite swap_list_cat //=; apply: (H e He).
Qed.

Lemma nd_chol_sim n (A : nd) (M : seq nat -> 'M[F]_n) :
  rep (pre := [::]) (cs := [:: n; n]) b A (fun e i j => M e i j) ->
  sim b (fun C (N : seq nat -> 'M[F]_n) => rep (pre := [::]) (cs := [:: n; n]) b C (fun e i j => N e i j))
    (nd_chol A) (fun e => chol (M e)).
Proof.
move=> HA; apply: sim_bind (stacked_sim (@chol_lower F) HA) _ => L L' HL _.
apply: (sim_ok (m' := fun e => (L' e)^T)) => //.
apply: (rep_ext (rep_swap12 HL)) => e He /= i j; by rewrite mxE.
Qed.

Lemma rep_getpairs q n (A : nd) (t : seq nat -> 'I_q -> 'I_n -> 'I_n -> F) :
  rep (pre := [::]) (cs := [:: q; n; n]) b A t ->
  rep (pre := [::]) (cs := [:: q; ntril n]) b (getpairs (tril_indices n) A) (fun e a r => t e a (ti r) (tj r)).
Proof.
case=> HA H; have [HS HG] := getpairsE (tril_indices n) (s := b ++ [:: q]) (n := n) (etrans HA (catA b [:: q] [:: n; n])).
apply: rep0I; first by rewrite HS -catA size_tril.
move=> e He a r; cbn [agree]; rewrite (catA e [:: nat_of_ord a]) HG ?size_cat ?(inb_size He) // tl_tril -catA.
exact: (H e He a (ti r) (tj r)).
Qed.
Lemma rep_getpairs2 q q' n (A : nd) (t : seq nat -> 'I_q -> 'I_q' -> 'I_n -> 'I_n -> F) :
  rep (pre := [::]) (cs := [:: q; q'; n; n]) b A t ->
  rep (pre := [::]) (cs := [:: q; q'; ntril n]) b (getpairs (tril_indices n) A) (fun e a c r => t e a c (ti r) (tj r)).
Proof.
case=> HA H; have [HS HG] := getpairsE (tril_indices n) (s := b ++ [:: q; q']) (n := n) (etrans HA (catA b [:: q; q'] [:: n; n])).
apply: rep0I; first by rewrite HS -catA size_tril.
move=> e He a c r; cbn [agree]; rewrite (catA e [:: nat_of_ord a; nat_of_ord c]) HG ?size_cat ?(inb_size He) // tl_tril -catA.
exact: (H e He a c (ti r) (tj r)).
Qed.

Lemma rep_setpairs q n (B : nd) (v : seq nat -> 'I_q -> 'cV[F]_(ntril n)) s :
  s = b ++ [:: q; n; n] ->
  rep (pre := [::]) (cs := [:: q; ntril n]) b B (fun e a r => v e a r 0) ->
  rep (pre := [::]) (cs := [:: q; n; n]) b (setpairs [seq (p.2, p.1) | p <- tril_indices n] B (zeros F s))
    (fun e a i j => unvecL (v e a) i j).
Proof.
move=> -> [HB H]; have [HS HG] := setpairsE n B (b ++ [:: q]); rewrite -catA in HS HG.
apply: rep0I => // e He a k l; cbn [agree]; rewrite (catA e [:: nat_of_ord a] [:: nat_of_ord k; nat_of_ord l]) HG ?size_cat ?(inb_size He) //.
congr (unvecL _ k l); apply/colP => r; rewrite mxE -catA; exact: (H e He a r).
Qed.
Lemma rep_setpairs2 q q' n (B : nd) (v : seq nat -> 'I_q -> 'I_q' -> 'cV[F]_(ntril n)) s :
  s = b ++ [:: q; q'; n; n] ->
  rep (pre := [::]) (cs := [:: q; q'; ntril n]) b B (fun e a c r => v e a c r 0) ->
  rep (pre := [::]) (cs := [:: q; q'; n; n]) b (setpairs [seq (p.2, p.1) | p <- tril_indices n] B (zeros F s))
    (fun e a c i j => unvecL (v e a c) i j).
Proof.
move=> -> [HB H]; have [HS HG] := setpairsE n B (b ++ [:: q; q']); rewrite -catA in HS HG.
apply: rep0I => // e He a c k l; cbn [agree]; rewrite (catA e [:: nat_of_ord a; nat_of_ord c] [:: nat_of_ord k; nat_of_ord l]) HG ?size_cat ?(inb_size He) //.
congr (unvecL _ k l); apply/colP => r; rewrite mxE -catA; exact: (H e He a c r).
Qed.

Lemma rep_AL n (S : nd) (M : seq nat -> 'M[F]_n) :
  rep (pre := [::]) (cs := [:: n; n]) b S (fun e i j => M e i j) ->
  rep (pre := [::]) (cs := [:: ntril n; ntril n]) b (nd_AL n S) (fun e r c => chol_AL (M e) r c).
Proof.
move=> HS; have [HA HG] := nd_ALE (proj1 HS); apply: rep0I => // e He r c; cbn [agree].
by rewrite HG ?(inb_size He) // (mx_atE HS He).
Qed.
Lemma rep_AL1 q n (S : nd) (M : seq nat -> 'I_q -> 'M[F]_n) :
  rep (pre := [::]) (cs := [:: q; n; n]) b S (fun e a i j => M e a i j) ->
  rep (pre := [::]) (cs := [:: q; ntril n; ntril n]) b (nd_AL n S) (fun e a r c => chol_AL (M e a) r c).
Proof.
case=> HS H; have [HA HG] := nd_ALE (s := b ++ [:: q]) (n := n) (etrans HS (catA b [:: q] [:: n; n])).
apply: rep0I => [|e He a r c]; first by rewrite HA -catA.
cbn [agree].
rewrite (catA e [:: nat_of_ord a]) HG ?size_cat ?(inb_size He) //.
congr (chol_AL _ r c); apply/matrixP => i j; rewrite mxE -catA; exact: (H e He a i j).
Qed.

(** ** Derivatives of the factor *)

(** What [diff] leaves: [c] on stacks, [m e] on the elements. *)
Definition rchol n q (dQ : seq nat -> 'I_q -> 'M[F]_n) (c : nchol F) (m : seq nat -> 'M[F]_(ntril n) * ('I_q -> 'M[F]_n)) : Prop :=
  [/\ rM b (ntril n) (ntril n) (nc_ALI c) (fun e => (m e).1),
      rV1 b q (ntril n) (nc_dQL c) (fun e a => (vecL (dQ e a))^T) &
      rM1 b q n n (nc_dS c) (fun e => (m e).2)].

Lemma nd_chol_diff_sim n q (S dQ : nd) (MS : seq nat -> 'M[F]_n) (MQ : seq nat -> 'I_q -> 'M[F]_n) :
  rM b n n S MS -> rM1 b q n n dQ MQ ->
  sim b (rchol MQ) (nd_chol_diff S dQ) (fun e => chol_diff (MS e) (MQ e)).
Proof.
move=> HS HQ; rewrite /nd_chol_diff (proj1 HS) /= last_cat /=.
apply: (sim_bind (k' := fun e ALI => Ok (ALI, fun a => unvecL (ALI *m vecL (MQ e a)))) (stacked_sim (@inv F) (rep_AL HS))) => ALI MI HI _.
have HQL := rep_getpairs HQ.
obind C HC (fun C => rV1 b q (ntril n) C (fun e a => (MI e *m vecL (MQ e a))^T)).
  ein "bij"%string [:: q; ntril n; ntril n] [:: true; true].
  by gets; rewrite !mxE; apply: eq_bigr => k _; rewrite mxE.
apply: (sim_ok (m' := fun e => (MI e, fun a => unvecL (MI e *m vecL (MQ e a))))) => //; split=> //=.
  by apply: (rep_ext HQL) => e He a r /=; rewrite !mxE.
apply: (rep_setpairs (v := fun e a => MI e *m vecL (MQ e a))) => //; first by rewrite (proj1 HQ).
by apply: (rep_ext HC) => e He a r /=; rewrite mxE.
Qed.

Lemma nd_chol_diff2_ok n q (S d2Q : nd) (c : nchol F) (MS : seq nat -> 'M[F]_n) (MQ : seq nat -> 'I_q -> 'M[F]_n) m
    (M2Q : seq nat -> 'I_q -> 'I_q -> 'M[F]_n) :
  rM b n n S MS -> rchol MQ c m -> rM2 b q q n n d2Q M2Q ->
  exists C, nd_chol_diff2 S c d2Q = Ok C /\ rM2 b q q n n C (fun e => chol_diff2 (m e).1 (MQ e) (m e).2 (M2Q e)).
Proof.
move=> HS [HI HQ HdS] H2; rewrite /nd_chol_diff2 (proj1 HS) (proj1 H2) /=.
have -> : (size (b ++ [:: q; q; n; n]) - 3 = size b + 1)%N by rewrite size_cat /= -addnBA.
rewrite nth_cat -ltn_subRL subnn ltn0 addKn /= last_cat /= size_cat addnK take_size_cat //.
have HA := rep_AL1 HdS.
pose N e a := (m e).1 *m chol_AL ((m e).2 a) *m (m e).1.
obind C HC (fun C => rM1 b q (ntril n) (ntril n) C N).
  ein "aijkl"%string [:: q; ntril n; ntril n; ntril n; ntril n] [:: true; true; true].
  gets; rewrite exchange_big mxE; apply: eq_bigr => k _; rewrite mxE big_distrl; by apply: eq_bigr => l _.
have HD : rM1 b q (ntril n) (ntril n) (nd_opp C) (fun e a => - N e a).
  by apply: (rep_map1 HC) => e He a r k /=; rewrite [RHS]mxE.
have H2L := rep_getpairs2 H2.
obind C1 HC1 (fun C => rV2 b q q (ntril n) C (fun e a a' => ((m e).1 *m vecL (M2Q e a a'))^T)).
  ein "abij"%string [:: q; q; ntril n; ntril n] [:: true; true].
  by gets; rewrite !mxE; apply: eq_bigr => k _; rewrite mxE.
obind C2 HC2 (fun C => rV2 b q q (ntril n) C (fun e a a' => (- N e a *m vecL (MQ e a'))^T)).
  ein "abij"%string [:: q; q; ntril n; ntril n] [:: true; true].
  by gets; rewrite 2![RHS]mxE; apply: eq_bigr => k _; rewrite [_^T _ _]mxE.
obind C3 HC3 (fun C => rV2 b q q (ntril n) C (fun e a a' => ((m e).1 *m vecL (M2Q e a a') - N e a *m vecL (MQ e a'))^T)).
  by ewise; rewrite [RHS]mxE mxE mulNmx ![X in _ = X]mxE !mxE.
eexists; split; first by [].
pose w e a a' := (m e).1 *m vecL (M2Q e a a') + - N e a *m vecL (MQ e a').
apply: (rep_setpairs2 (v := w) erefl).
by apply: (rep_ext HC3) => e He a a' r /=; rewrite /w mulNmx [LHS]mxE.
Qed.
End Chol.
