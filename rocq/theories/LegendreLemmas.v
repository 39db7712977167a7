(** Legendre polynomials: differential equation, orthogonality, real roots. *)
From mathcomp Require Import all_ssreflect all_algebra.
From mathcomp Require Import polyrcf.
From Verif Require Import Py McRing RkModel.
Set Implicit Arguments.
Unset Strict Implicit.
Unset Printing Implicit Defensive.
Import Order.TTheory GRing.Theory Num.Theory.
Local Open Scope ring_scope.

Section Leg.
Variable F : rcfType.
Let P := [comRingType of {poly F}].
Add Ring Pr : (com_rt P).
Let FC := [comRingType of F].
Add Ring Fr : (com_rt FC).
Local Notation L := (@legendre F).

Lemma natS_neq0 k : k.+1%:R != 0 :> F. Proof. by rewrite pnatr_eq0. Qed.
Lemma polyC_natr n : (n%:R)%:P = n%:R :> {poly F}. Proof. by rewrite -(rmorph_nat (polyC_rmorphism F)). Qed.
Lemma natrSP (n : nat) : n.+1%:R = n%:R + 1 :> {poly F}. Proof. by rewrite mulrSr. Qed.
Lemma natr2P (n : nat) : n.*2%:R = n%:R + n%:R :> {poly F}. Proof. by rewrite -addnn natrD. Qed.
Lemma natrSF (n : nat) : n.+1%:R = n%:R + 1 :> F. Proof. by rewrite mulrSr. Qed.
Lemma natr2F (n : nat) : n.*2%:R = n%:R + n%:R :> F. Proof. by rewrite -addnn natrD. Qed.
Lemma natS_neq0P k : k.+1%:R != 0 :> {poly F}.
Proof. by rewrite -polyC_natr polyC_eq0 pnatr_eq0. Qed.

Lemma leg_pair2 k : (leg_pair F k).2 = L k.+1.
Proof. by rewrite /legendre /=; case: (leg_pair F k). Qed.
Lemma leg0 : L 0 = 1. Proof. by []. Qed.
Lemma leg1 : L 1 = 'X. Proof. by []. Qed.
Lemma scale_nat n (p : {poly F}) : n%:R *: p = n%:R * p.
Proof. by rewrite -mul_polyC polyC_natr. Qed.
Lemma leg_rec k : k.+2%:R * L k.+2 = k.*2.+3%:R * ('X * L k.+1) - k.+1%:R * L k.
Proof.
have -> : L k.+2 = (k.+2%:R)^-1 *: (k.*2.+3%:R *: ('X * (leg_pair F k).2) - k.+1%:R *: (leg_pair F k).1).
  by rewrite /legendre /=; case: (leg_pair F k).
rewrite leg_pair2 -[(leg_pair F k).1]/(L k).
by rewrite -scale_nat scalerA divff ?natS_neq0 // scale1r !scale_nat.
Qed.

Lemma derivX1 : ('X : {poly F})^`() = 1. Proof. exact: derivX. Qed.
Lemma deriv_natM n (p : {poly F}) : (n%:R * p)^`() = n%:R * p^`().
Proof. by rewrite -!scale_nat derivZ. Qed.

Lemma leg_C_of k : (L k.+1)^`() = 'X * (L k)^`() + k.+1%:R * L k ->
  'X * (L k.+1)^`() - (L k)^`() = k.+1%:R * L k.+1 ->
  ('X * 'X - 1) * (L k.+1)^`() = k.+1%:R * ('X * L k.+1 - L k).
Proof.
move=> A B.
have -> : ('X * 'X - 1) * (L k.+1)^`() = 'X * ('X * (L k.+1)^`() - (L k)^`()) + 'X * (L k)^`() - (L k.+1)^`().
  by mc_norm P; ring.
by rewrite B A; mc_norm P; ring.
Qed.
Lemma leg_AB k : (L k.+1)^`() = 'X * (L k)^`() + k.+1%:R * L k /\
  'X * (L k.+1)^`() - (L k)^`() = k.+1%:R * L k.+1.
Proof.
elim: k => [|k [A B]].
  by rewrite leg0 leg1 derivX -[1]polyC1 derivC polyC1 !mulr0 subr0 add0r !mul1r mulr1.
have A' : (L k.+2)^`() = 'X * (L k.+1)^`() + k.+2%:R * L k.+1.
  apply: (mulfI (natS_neq0P k.+1)).
  rewrite -deriv_natM leg_rec derivB !deriv_natM derivM derivX1.
  have -> : (L k)^`() = 'X * (L k.+1)^`() - k.+1%:R * L k.+1.
    by rewrite -B; mc_norm P; ring.
  by rewrite !natrSP natr2P; mc_norm P; ring.
split=> //.
have C := leg_C_of A B.
rewrite A' leg_rec.
have -> : 'X * ('X * (L k.+1)^`() + k.+2%:R * L k.+1) - (L k.+1)^`() =
   ('X * 'X - 1) * (L k.+1)^`() + k.+2%:R * 'X * L k.+1 by mc_norm P; ring.
by rewrite C !natrSP natr2P; mc_norm P; ring.
Qed.
Lemma leg_C k : ('X * 'X - 1) * (L k.+1)^`() = k.+1%:R * ('X * L k.+1 - L k).
Proof.
have [A B] := leg_AB k.
exact: leg_C_of.
Qed.

Lemma leg_ode k : (('X * 'X - 1) * (L k)^`())^`() = (k * k.+1)%:R * L k.
Proof.
case: k => [|k]; first by rewrite leg0 -[in 1^`()]polyC1 derivC mulr0 deriv0 mul0n mul0r.
have [A B] := leg_AB k.
rewrite leg_C deriv_natM derivB derivM derivX1 mul1r -addrA B natrM.
by rewrite !natrSP; mc_norm P; ring.
Qed.

(** Values at the ends of [-1, 1]. *)
Lemma leg_at1 k : (L k).[1] = 1.
Proof.
have: (L k).[1] = 1 /\ (L k.+1).[1] = 1; last by case.
elim: k => [|k [H1 H2]]; first by rewrite leg0 leg1 hornerX hornerC.
split=> //; apply: (mulfI (natS_neq0 k.+1)).
have := congr1 (fun p : {poly F} => p.[1]) (leg_rec k).
rewrite -!polyC_natr !(hornerM, hornerD, hornerN, hornerC, hornerX) H1 H2 !mulr1 => ->.
by rewrite !natrSF natr2F; mc_norm FC; ring.
Qed.
Lemma leg_atN1 k : (L k.+1).[-1] = - (L k).[-1] /\ (L k).[-1] != 0.
Proof.
elim: k => [|k [H1 H2]].
  by rewrite leg0 leg1 hornerX hornerC oner_eq0.
split; last by rewrite H1 oppr_eq0.
apply: (mulfI (natS_neq0 k.+1)).
have := congr1 (fun p : {poly F} => p.[-1]) (leg_rec k).
rewrite -!polyC_natr !(hornerM, hornerD, hornerN, hornerC, hornerX) H1 => ->.
by move: (L k).[-1] => x; rewrite !natrSF natr2F; mc_norm FC; ring.
Qed.

(** ** Real roots *)
Lemma fromroots_deriv (u v : seq F) (a : F) :
  (fromroots (u ++ a :: v))^`().[a] = \prod_(r <- u ++ v) (a - r).
Proof.
have -> : fromroots (u ++ a :: v) = ('X - a%:P) * fromroots (u ++ v).
  by rewrite /fromroots !big_cat big_cons /= mulrCA.
rewrite derivM hornerD !hornerM derivXsubC hornerC mul1r.
rewrite hornerXsubC subrr mul0r addr0 horner_prod.
by apply: eq_bigr => r _; rewrite hornerXsubC.
Qed.

Lemma prod_gt0 (s : seq F) (f : F -> F) : (forall r, r \in s -> 0 < f r) -> 0 < \prod_(r <- s) f r.
Proof.
elim: s => [|r s IH] H; rewrite ?big_nil ?big_cons ?ltr01 // mulr_gt0 ?H ?mem_head // IH // => x Hx.
by rewrite H // inE Hx orbT.
Qed.

(** At consecutive simple roots the derivative changes sign. *)
Lemma alternate (u v : seq F) (a b : F) : sorted <%R (u ++ a :: b :: v) ->
  (fromroots (u ++ a :: b :: v))^`().[a] * (fromroots (u ++ a :: b :: v))^`().[b] < 0.
Proof.
move=> Hs.
have := fromroots_deriv (rcons u a) v b; rewrite !cat_rcons => ->.
rewrite fromroots_deriv !big_cat /= !big_cons.
move: Hs; rewrite lt_sorted_pairwise pairwise_cat => /and3P [/allrelP HR _ /=].
move=> /andP [/andP [Hab /allP Hav] /andP [/allP Hbv _]].
have Hu r : r \in u -> r < a /\ r < b.
  by move=> Hr; split; apply: HR; rewrite // !inE eqxx ?orbT.
have Hv r : r \in v -> b < r /\ a < r.
  by move=> Hr; split; [apply: Hbv|apply: Hav].
set U := \prod_(r <- u) (a - r); set U' := \prod_(r <- u) (b - r).
set V := \prod_(r <- v) (a - r); set V' := \prod_(r <- v) (b - r).
have HU : 0 < U * U'.
  rewrite -big_split; apply: prod_gt0 => r /Hu [H1 H2].
  by rewrite mulr_gt0 ?subr_gt0.
have HV : 0 < V * V'.
  rewrite -big_split; apply: prod_gt0 => r /Hv [H1 H2].
  by rewrite /= -mulrNN mulr_gt0 // opprB subr_gt0.
have -> : U * ((a - b) * V) * (U' * ((b - a) * V')) = - ((b - a) * (b - a) * ((U * U') * (V * V'))).
  by mc_norm FC; ring.
by rewrite oppr_lt0; apply: mulr_gt0; apply: mulr_gt0; rewrite ?subr_gt0.
Qed.

(** Sign changes along an increasing sequence give as many roots. *)
Lemma roots_between (p : {poly F}) (a : F) (s : seq F) :
  path (fun x y => (x < y) && (p.[x] * p.[y] < 0)) a s ->
  exists t, [/\ size t = size s, path <%R a t & all (fun x => (x < last a s) && root p x) t].
Proof.
elim: s a => [|b s IH] a /=; first by exists [::].
move=> /andP [/andP [Hab Hp] Hs]; have [t [St Srt Al]] := IH _ Hs.
have Hb : b <= last b s.
  have: path <%R b s by apply: sub_path Hs => x y /andP [].
  by move=> /(order_path_min lt_trans) /allP H; case: (lastP s) H => // s' z H; rewrite last_rcons ltW // H // mem_rcons mem_head.
case: (@ivt_sign F p a b (ltW Hab)) => [|x]; first by rewrite -sgrM ltr0_sg.
rewrite in_itv /= => /andP [Hax Hxb] rx; exists (x :: t); split=> /=; first by rewrite St.
  by rewrite Hax; case: t Srt {St Al} => //= y t /andP [Hby ->]; rewrite (lt_trans Hxb).
by rewrite rx (lt_le_trans Hxb).
Qed.

(** Rolle's theorem along an increasing sequence of roots. *)
Lemma deriv_roots_between (p : {poly F}) (a : F) (s : seq F) :
  path <%R a s -> all (root p) (a :: s) ->
  exists t, [/\ size t = size s, path <%R a t & all (fun x => (x < last a s) && root p^`() x) t].
Proof.
elim: s a => [|b s IH] a /=; first by exists [::].
move=> /andP [Hab Hs] /and3P [ra rb rs].
have [|t [St Srt Al]] := IH _ Hs; first by rewrite /= rb.
have Hb : b <= last b s.
  move: Hs => /(order_path_min lt_trans) /allP H; case: (lastP s) H => // s' z H; rewrite last_rcons ltW // H // mem_rcons mem_head.
  by [].
case: (@rolle F a b p Hab) => [|x]; first by rewrite (rootP ra) (rootP rb).
rewrite in_itv /= => /andP [Hax Hxb] rx; exists (x :: t); split=> /=; first by rewrite St.
  by rewrite Hax; case: t Srt {St Al} => //= y t /andP [Hby ->]; rewrite (lt_trans Hxb).
by rewrite (lt_le_trans Hxb) //= Al andbT; apply/rootP.
Qed.

(** The [k] roots of the Legendre polynomial of degree [k], increasing, inside
    (-1, 1), with the whole polynomial as their product. *)
Definition leg_split k (s : seq F) := [/\ size s = k, path <%R (-1) (rcons s 1) & exists c, L k = c *: fromroots s].

Lemma leg_size_le k : (size (L k) <= k.+1)%N /\ (size (L k.+1) <= k.+2)%N.
Proof.
elim: k => [|k [H1 H2]]; first by rewrite leg0 leg1 size_polyX size_poly1.
split=> //.
have -> : L k.+2 = (k.+2%:R)^-1 *: (k.+2%:R * L k.+2).
  by rewrite -scale_nat scalerA mulVf ?scale1r ?natS_neq0.
rewrite leg_rec (leq_trans (size_scale_leq _ _)) // (leq_trans (size_add _ _)) // geq_max size_opp.
rewrite -!scale_nat; apply/andP; split; apply: leq_trans (size_scale_leq _ _) _.
  by rewrite mulrC (leq_trans (size_mul_leq _ _)) // size_polyX addn2.
by rewrite (leq_trans H1) // leqW.
Qed.

Lemma leg_neq0 k : L k != 0.
Proof. by apply/eqP => E; move: (leg_at1 k); rewrite E horner0 => /eqP; rewrite eq_sym oner_eq0. Qed.

Lemma fromroots_all (s : seq F) : all (root (fromroots s)) s.
Proof. by apply/allP => x Hx; rewrite /fromroots root_prod_XsubC. Qed.

Lemma path_alternate (u : seq F) (a : F) (s : seq F) : sorted <%R (u ++ a :: s) ->
  path (fun x y => (x < y) && ((fromroots (u ++ a :: s))^`().[x] * (fromroots (u ++ a :: s))^`().[y] < 0)) a s.
Proof.
elim: s u a => [//|b s IH] u a Hs /=.
rewrite alternate // andbT -cat_rcons; apply/andP; split; last by apply: IH; rewrite cat_rcons.
by move: Hs; rewrite lt_sorted_pairwise pairwise_cat /= => /and3P [_ _] /andP [/andP []].
Qed.

Lemma leg_D k : ('X * 'X - 1) * (L k)^`() = k.+1%:R * (L k.+1 - 'X * L k).
Proof.
have [A B] := leg_AB k; rewrite mulrBr -B A; mc_norm P; ring.
Qed.

Lemma leg_node_sign k (x : F) : root (L k) x \/ x = 1 \/ x = -1 ->
  exists2 d, 0 < d & (('X * 'X - 1) * L k)^`().[x] = d * (L k.+1).[x].
Proof.
have -> : (('X * 'X - 1) * L k)^`() = ('X + 'X) * L k + k.+1%:R * (L k.+1 - 'X * L k).
  rewrite derivM derivB derivM -[in 1^`()]polyC1 derivC derivX1 leg_D; mc_norm P; ring.
rewrite -polyC_natr !(hornerM, hornerD, hornerN, hornerC, hornerX) => -[/rootP ->|[->|->]].
- by exists k.+1%:R; rewrite ?ltr0n // !mulr0 add0r subr0.
- exists (1 + 1); first by rewrite addr_gt0 ?ltr01.
  by rewrite !leg_at1; mc_norm FC; ring.
- exists (1 + 1); first by rewrite addr_gt0 ?ltr01.
  have [-> _] := leg_atN1 k; move: (L k).[-1] => y; mc_norm FC; ring.
Qed.

Lemma leg_splits k : exists s, leg_split k s.
Proof.
elim: k => [|k [s [Ss Ps [c Ec]]]].
  exists [::]; split=> //=; first by rewrite andbT -subr_gt0 opprK addr_gt0 ?ltr01.
  by exists 1; rewrite leg0 /fromroots big_nil scale1r.
set E := -1 :: rcons s 1.
have EW : ('X * 'X - 1) * L k = c *: fromroots E.
  rewrite Ec /E /fromroots big_cons -cats1 big_cat big_seq1 -!mul_polyC polyCN polyC1 /=.
  by mc_norm P; ring.
have Hnode x : x \in E -> exists2 d, 0 < d & c * (fromroots E)^`().[x] = d * (L k.+1).[x].
  rewrite inE mem_rcons inE => Hx.
  have := congr1 (fun p : {poly F} => p^`().[x]) EW; rewrite /= derivZ hornerZ => <-.
  apply: leg_node_sign; case/or3P: Hx => [/eqP ->|/eqP ->|Hx]; [by right; right|by right; left|left].
  by rewrite Ec rootE hornerZ (rootP (allP (fromroots_all s) x Hx)) mulr0.
have PE := @path_alternate [::] (-1) (rcons s 1) Ps.
have [|t [St Pt At]] := @roots_between (L k.+1) (-1) (rcons s 1).
  have HA : all (mem E) (-1 :: rcons s 1) by apply/allP => x.
  apply: (sub_in_path _ HA PE).
  move=> x y Hx Hy /andP [-> /=] HW.
  have [d Hd E1] := Hnode x Hx; have [d' Hd' E2] := Hnode y Hy.
  rewrite -(pmulr_rlt0 _ (mulr_gt0 Hd Hd')) mulrACA -E1 -E2 mulrACA.
  rewrite pmulr_rlt0 // -expr2 exprn_even_gt0 //=.
  by apply: contraTneq isT => c0; move: (leg_neq0 k); rewrite Ec c0 scale0r eqxx.
rewrite size_rcons Ss in St; exists t; split=> //.
  rewrite rcons_path Pt /=; case: (lastP t) At {St Pt} => [|t' z] /=.
    by rewrite -subr_gt0 opprK addr_gt0 ?ltr01.
  by rewrite last_rcons all_rcons => /andP [/andP [+ _] _]; rewrite last_rcons.
have Ut : uniq t by move: Pt => /path_sorted /lt_sorted_uniq.
have Rt : all (root (L k.+1)) t by apply/allP => x /(allP At) /andP [].
exists (lead_coef (L k.+1)); apply: all_roots_prod_XsubC; rewrite ?uniq_rootsE //.
apply/eqP; rewrite eqn_leq {1}St (proj1 (leg_size_le k.+1)) /=.
by apply: max_poly_roots; rewrite ?leg_neq0.
Qed.
End Leg.
