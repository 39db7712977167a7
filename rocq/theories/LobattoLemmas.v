(** Shifted Legendre polynomials, Lobatto nodes and their degree of exactness. *)
From mathcomp Require Import all_ssreflect all_algebra.
From mathcomp Require Import polyrcf polyorder.
From Verif Require Import Py McRing RkModel LegendreLemmas QuadLemmas.
Set Implicit Arguments.
Unset Strict Implicit.
Unset Printing Implicit Defensive.
Import Order.TTheory GRing.Theory Num.Theory.
Local Open Scope ring_scope.

Section Lobatto.
Variable F : rcfType.
Let P := [comRingType of {poly F}].
Add Ring Pr3 : (com_rt P).
Let FC := [comRingType of F].
Add Ring Fr3 : (com_rt FC).
Local Notation S := (@slegendre F).
Local Notation q21 := (2%:R *: 'X - 1 : {poly F}).
Local Notation w := ('X * 'X - 'X : {poly F}).

Lemma q21_deriv : q21^`() = 2%:R.
Proof. by rewrite derivB derivZ derivX -[in 1^`()]polyC1 derivC subr0 scale_nat mulr1. Qed.
Lemma two_neq0 : 2%:R != 0 :> {poly F}. Proof. exact: natS_neq0P. Qed.
Lemma size_q21 : size q21 = 2%N.
Proof.
have -> : q21 = 2%:R *: 'X + (-1)%:P by rewrite polyCN polyC1.
by rewrite size_addl size_scale ?pnatr_eq0 // size_polyX // (leq_ltn_trans (size_polyC_leq1 _)).
Qed.
Lemma sleg_deriv k : (S k)^`() = 2%:R * ((legendre F k)^`() \Po q21).
Proof. by rewrite /slegendre deriv_comp q21_deriv mulrC. Qed.

Lemma sleg_ode k : (w * (S k)^`())^`() = (k * k.+1)%:R * S k.
Proof.
have E : 2%:R * (w * (S k)^`()) = (('X * 'X - 1) * (legendre F k)^`()) \Po q21.
  rewrite sleg_deriv rmorphM /= rmorphB rmorphM rmorph1 /= comp_polyX.
  move: ((legendre F k)^`() \Po q21) => y; rewrite scale_nat; have -> : 2%:R = 1 + 1 :> {poly F} by [].
  by mc_norm P; ring.
apply: (mulfI two_neq0); rewrite -deriv_natM E deriv_comp leg_ode rmorphM /= q21_deriv.
by rewrite rmorph_nat -/(S k) mulrC.
Qed.

Local Notation I01 := (fun p : {poly F} => pdinteg p 0 1).

Lemma sleg_parts k (r : {poly F}) : I01 (w * (S k)^`() * r^`()) = - (k * k.+1)%:R * I01 (S k * r).
Proof.
have E : (w * (S k)^`() * r)^`() = (k * k.+1)%:R *: (S k * r) + w * (S k)^`() * r^`().
  by rewrite derivM sleg_ode scale_nat mulrA.
have := pdinteg_deriv (w * (S k)^`() * r) 0 1.
rewrite E pdintegD pdintegZ !hornerM !hornerD !hornerN !hornerM !hornerX mulr1 mul0r !subrr !mul0r subrr.
by move=> H; apply/eqP; rewrite mulNr -addr_eq0 addrC; exact/eqP.
Qed.
Lemma sleg_parts' k (r : {poly F}) : I01 (S k * (w * r)^`()) = - I01 (w * (S k)^`() * r).
Proof.
have E : (w * r * S k)^`() = S k * (w * r)^`() + w * (S k)^`() * r.
  by rewrite derivM; mc_norm P; ring.
have := pdinteg_deriv (w * r * S k) 0 1.
rewrite E pdintegD !hornerM !hornerD !hornerN !hornerM !hornerX mulr1 mul0r !subrr !mul0r subrr.
by move=> H; apply/eqP; rewrite -addr_eq0; exact/eqP.
Qed.

Lemma sleg_orth_mono k d : (d < k)%N -> I01 (S k * 'X^d) = 0.
Proof.
elim: d => [|d IH] Hd.
  have := sleg_parts k 1; rewrite -[in 1^`()]polyC1 derivC mulr0 pdinteg0 expr0 => /esym/eqP.
  rewrite mulf_eq0 oppr_eq0 pnatr_eq0 muln_eq0 /= orbF => /orP [/eqP E|/eqP //].
  by rewrite E in Hd.
have H1 := sleg_parts k 'X^d.+1; have H2 := sleg_parts' k ('X^d.+1)^`().
have E : S k * (w * ('X^d.+1)^`())^`() = (d.+1 * d.+2)%:R *: (S k * 'X^d.+1) + (- (d.+1 * d.+1)%:R) *: (S k * 'X^d).
  have -> : w * ('X^d.+1)^`() = d.+1%:R *: ('X^d.+2 - 'X^d.+1).
    by rewrite derivXn /= -scaler_nat !exprS -!mul_polyC; mc_norm P; ring.
  rewrite derivZ derivB !derivXn /= -!scaler_nat scaleNr !scale_nat !natrM; mc_norm P; ring.
move: H2; rewrite E pdintegD !pdintegZ IH ?(ltnW Hd) // mulr0 addr0 H1 mulNr opprK => /eqP.
rewrite -subr_eq0 -mulrBl mulf_eq0 subr_eq0 eqr_nat => /orP [/eqP E'|/eqP //].
by have := ltn_mul Hd (Hd : (d.+2 < k.+1)%N); rewrite E' ltnn.
Qed.

Lemma sleg_orth k (r : {poly F}) : (size r <= k)%N -> I01 (S k * r) = 0.
Proof.
move=> Hr; rewrite -[r]coefK poly_def mulr_sumr -(big_mkord xpredT (fun i => S k * (r`_i *: 'X^i))) pdinteg_sum.
rewrite big_seq big1 // => i; rewrite mem_index_iota => /andP [_ Hi].
by rewrite -scalerAr pdintegZ sleg_orth_mono ?mulr0 // (leq_trans Hi).
Qed.

(** ** Nodes *)
Lemma leg_size k : size (legendre F k) = k.+1.
Proof.
have [s [Ss Ps [c Ec]]] := leg_splits F k.
have c0 : c != 0 by apply: contraTneq (leg_neq0 F k) => E; rewrite Ec E scale0r eqxx.
by rewrite Ec size_scale // /fromroots size_prod_XsubC Ss.
Qed.
Lemma sleg_size k : size (S k) = k.+1.
Proof. by rewrite /slegendre size_comp_poly2 ?size_q21 // leg_size. Qed.
Lemma sleg_deriv_size k : size (S k)^`() = k.
Proof. by rewrite size_deriv sleg_size. Qed.

Lemma sleg_nodes k : exists t, [/\ size t = k.-1, path <%R 0 (rcons t 1) & all (root (S k)^`()) t].
Proof.
have [s [Ss Ps [c Ec]]] := leg_splits F k.
pose h (x : F) := (x + 1) / 2%:R.
have H2 : 2%:R != 0 :> F by rewrite pnatr_eq0.
have h2 x : q21.[h x] = x.
  by rewrite hornerD hornerN hornerZ hornerX hornerC /h mulrC divfK // addrK.
have hlt x y : x < y -> h x < h y by move=> H; rewrite /h ltr_pmul2r ?invr_gt0 ?ltr0n // ltr_add2r.
have Rs : all (root (S k)) (map h s).
  apply/allP => _ /mapP [x Hx ->]; rewrite root_comp h2 Ec rootE hornerZ.
  by rewrite (rootP (allP (fromroots_all s) x Hx)) mulr0.
have Ps' : path <%R 0 (rcons (map h s) 1).
  have E0 : h (-1) = 0 by rewrite /h addNr mul0r.
  have E1 : h 1 = 1 by rewrite /h -mulr2n divff.
  by rewrite -E1 -E0 -map_rcons path_map; apply: (sub_path _ Ps) => x y /= /hlt.
case: s Ss Ps' Rs {Ps Ec} => [|x s] Ss Ps' Rs.
  by exists [::]; rewrite -Ss /=; split=> //; rewrite ltr01.
move: Ps'; rewrite rcons_path => /andP [/= /andP [H0 Ps'] H1].
have [t [St Pt At]] := deriv_roots_between Ps' Rs.
exists t; split; first by rewrite St size_map -Ss.
  have H1' : h x < 1.
    have := Ps'; move=> /(order_path_min lt_trans) /allP H; case: (lastP (map h s)) H H1 => //= u z H.
    by rewrite last_rcons => Hz; apply: lt_trans Hz; apply: H; rewrite mem_rcons mem_head.
  rewrite rcons_path; apply/andP; split.
    by case: t Pt {St At} => //= y t /andP [Hy ->]; rewrite (lt_trans H0).
  case: (lastP t) At {St Pt} => [|u z]; rewrite ?ltr01 //= all_rcons last_rcons => /andP [/andP [Hz _] _].
  exact: lt_trans H1.
by apply/allP => y /(allP At) /andP [].
Qed.

Lemma sorted_all_roots (p : {poly F}) (t : seq F) : p != 0 -> sorted <%R t -> all (root p) t -> (size p <= (size t).+1)%N ->
  rootsR p = t.
Proof.
move=> p0 St Rt Sp; apply: lt_sorted_eq => //; first exact: sorted_roots.
move=> x; rewrite -(roots_on_rootsR p0) in_itv /=; apply/idP/idP => [rx|]; last exact: (allP Rt).
apply: contraTT Sp => Hx; rewrite -ltnNge.
by apply: (@max_poly_roots _ _ (x :: t)) => //=; rewrite ?rx ?Hx ?(lt_sorted_uniq St).
Qed.

Lemma lgl_roots k : (0 < k)%N -> let t := rootsR (S k)^`() in
  [/\ size t = k.-1, path <%R 0 (rcons t 1), forall x, (x \in t) = root (S k)^`() x
    & exists2 c, c != 0 & (S k)^`() = c *: fromroots t].
Proof.
move=> k0; have [t [St Pt Rt]] := sleg_nodes k; have D0 : (S k)^`() != 0 by rewrite -size_poly_gt0 sleg_deriv_size.
have Sr : sorted <%R t by move: Pt; rewrite rcons_path => /andP [/path_sorted].
have Sz : size (S k)^`() = (size t).+1 by rewrite St sleg_deriv_size prednK.
rewrite /= (sorted_all_roots D0 Sr Rt) ?Sz //; split=> //.
  by move=> x; rewrite -(sorted_all_roots D0 Sr Rt) ?Sz // -(roots_on_rootsR D0) in_itv.
exists (lead_coef (S k)^`()); first by rewrite lead_coef_eq0.
by apply: all_roots_prod_XsubC; rewrite ?uniq_rootsE // (lt_sorted_uniq Sr).
Qed.
End Lobatto.
