(** Interpolatory integration: exactness, LGL nodes and their quadrature. *)
From mathcomp Require Import all_ssreflect all_algebra.
From mathcomp Require Import polyrcf polyorder.
From Verif Require Import Py McRing RkModel LegendreLemmas.
Set Implicit Arguments.
Unset Strict Implicit.
Unset Printing Implicit Defensive.
Import Order.TTheory GRing.Theory Num.Theory.
Local Open Scope ring_scope.

Section Quad.
Variable F : rcfType.
Let P := [comRingType of {poly F}].
Add Ring Pr2 : (com_rt P).
Let FC := [comRingType of F].
Add Ring Fr2 : (com_rt FC).

(** ** Definite integrals *)
Lemma coef_primitive (p : {poly F}) i : (primitive p)`_i = p`_i.-1 / i%:R.
Proof.
rewrite coef_poly; case: ltnP => // H.
by rewrite (nth_default 0 (s := p)) ?mul0r // -ltnS prednK // (leq_ltn_trans _ H).
Qed.
Lemma primitiveD (p q : {poly F}) : primitive (p + q) = primitive p + primitive q.
Proof. by apply/polyP => i; rewrite coefD !coef_primitive coefD mulrDl. Qed.
Lemma primitiveZ (c : F) p : primitive (c *: p) = c *: primitive p.
Proof. by apply/polyP => i; rewrite coefZ !coef_primitive coefZ mulrA. Qed.
Lemma primitive_deriv (q : {poly F}) : primitive q^`() = q - (q`_0)%:P.
Proof.
apply/polyP => -[|i]; rewrite coef_primitive coefB coefC /=; first by rewrite invr0 mulr0 subrr.
by rewrite coef_deriv subr0 -mulr_natr mulfK // pnatr_eq0.
Qed.
Lemma pdintegE p (a b : F) : pdinteg p a b = (primitive p).[b] - (primitive p).[a].
Proof. by rewrite /pdinteg /integ hornerD hornerN hornerC. Qed.
Lemma pdintegD p q (a b : F) : pdinteg (p + q) a b = pdinteg p a b + pdinteg q a b.
Proof. by rewrite !pdintegE primitiveD !hornerD opprD addrACA. Qed.
Lemma pdintegZ c p (a b : F) : pdinteg (c *: p) a b = c * pdinteg p a b.
Proof. by rewrite !pdintegE primitiveZ !hornerZ -mulrBr. Qed.
Lemma pdinteg0 (a b : F) : pdinteg 0 a b = 0.
Proof. by rewrite -(scale0r 0) pdintegZ mul0r. Qed.
Lemma pdinteg_sum (I : Type) (s : seq I) (f : I -> {poly F}) a b :
  pdinteg (\sum_(i <- s) f i) a b = \sum_(i <- s) pdinteg (f i) a b.
Proof. by elim: s => [|i s IH]; rewrite ?big_nil ?big_cons ?pdinteg0 // pdintegD IH. Qed.
(** The fundamental theorem. *)
Lemma pdinteg_deriv (q : {poly F}) a b : pdinteg q^`() a b = q.[b] - q.[a].
Proof. by rewrite pdintegE primitive_deriv !hornerD !hornerN !hornerC; mc_norm FC; ring. Qed.
Lemma deriv_primitive (p : {poly F}) : (primitive p)^`() = p.
Proof. by apply/polyP => i; rewrite coef_deriv coef_primitive /= -[RHS](@divfK _ i.+1%:R) ?pnatr_eq0 // mulr_natr. Qed.
Lemma pdinteg_split p (a b c : F) : pdinteg p a b + pdinteg p b c = pdinteg p a c.
Proof. by rewrite -(deriv_primitive p) !pdinteg_deriv; mc_norm FC; ring. Qed.

(** ** Lagrange interpolation *)
Lemma others_size (pts : seq F) i : (i < size pts)%N -> size (others pts i) = (size pts).-1.
Proof.
move=> Hi; rewrite /others size_cat size_takel 1?ltnW // size_drop.
by case: (size pts) Hi => // n; rewrite ltnS => Hi; rewrite subSS subnKC.
Qed.
Lemma split_at (pts : seq F) i : (i < size pts)%N -> pts = take i pts ++ pts`_i :: drop i.+1 pts.
Proof. by move=> Hi; rewrite -drop_nth // cat_take_drop. Qed.
Lemma perm_others (pts : seq F) i : (i < size pts)%N -> perm_eq pts (pts`_i :: others pts i).
Proof. by move=> Hi; rewrite {1}(split_at Hi) -cat1s perm_catCA. Qed.
Lemma notin_others (pts : seq F) i : uniq pts -> (i < size pts)%N -> pts`_i \notin others pts i.
Proof. by move=> U Hi; move: U; rewrite (perm_uniq (perm_others Hi)) /= => /andP []. Qed.
Lemma in_others (pts : seq F) i j : (i < size pts)%N -> (j < size pts)%N -> uniq pts -> i != j -> pts`_j \in others pts i.
Proof.
move=> Hi Hj U Hij; have: pts`_j \in pts by rewrite mem_nth.
by rewrite (perm_mem (perm_others Hi)) inE nth_uniq // eq_sym (negPf Hij).
Qed.

Lemma lagrange_at (pts : seq F) i j : uniq pts -> (i < size pts)%N -> (j < size pts)%N ->
  (lagrange pts i).[pts`_j] = (i == j)%:R.
Proof.
move=> U Hi Hj; rewrite /lagrange hornerZ /fromroots horner_prod; case: eqP => [<-|/eqP Hij].
  under [X in _ * X]eq_bigr do rewrite hornerXsubC.
  rewrite mulVf // prodf_seq_neq0; apply/allP => r Hr /=; rewrite subr_eq0.
  by apply: contraNneq (notin_others U Hi) => ->.
suff /eqP -> : \prod_(r <- others pts i) ('X - r%:P).[pts`_j] == 0 by rewrite mulr0.
rewrite prodf_seq_eq0; apply/hasP; exists pts`_j; first exact: in_others.
by rewrite hornerXsubC subrr eqxx.
Qed.
Lemma lagrange_size (pts : seq F) i : (i < size pts)%N -> (size (lagrange pts i) <= size pts)%N.
Proof.
move=> Hi; apply: leq_trans (size_scale_leq _ _) _.
by rewrite /fromroots size_prod_XsubC others_size // prednK // (leq_ltn_trans _ Hi).
Qed.

Lemma big_iota0 n (f : nat -> F) : \sum_(i <- iota 0 n) f i = \sum_(i < n) f i.
Proof. by rewrite -(big_mkord xpredT f) /index_iota subn0. Qed.

(** Two polynomials of size at most n agreeing at n distinct points are equal. *)
Lemma poly_agree (p q : {poly F}) (s : seq F) : uniq s -> (size p <= size s)%N -> (size q <= size s)%N ->
  {in s, forall x, p.[x] = q.[x]} -> p = q.
Proof.
move=> U Hp Hq H; apply/eqP; rewrite -subr_eq0; apply/eqP.
apply: (@poly_ltsp_roots _ _ s) => //; first by rewrite (leq_trans (size_add _ _)) // size_opp geq_max Hp.
by apply/allP => x /H E; rewrite rootE hornerD hornerN E subrr.
Qed.

Lemma interpolation (pts : seq F) (p : {poly F}) : uniq pts -> (size p <= size pts)%N ->
  p = \sum_(j <- iota 0 (size pts)) p.[pts`_j] *: lagrange pts j.
Proof.
move=> U Hp; apply: (poly_agree U Hp).
  rewrite big_seq; apply: leq_trans (size_sum _ _ _) _; apply/bigmax_leqP_seq => j; rewrite mem_iota => /andP [_ Hj] _.
  by apply: leq_trans (size_scale_leq _ _) (lagrange_size Hj).
move=> x /(nthP 0) [i Hi <-].
rewrite horner_sum (bigD1_seq i) ?mem_iota ?iota_uniq //= hornerZ lagrange_at // eqxx mulr1.
rewrite big_seq_cond big1 ?addr0 // => j /andP []; rewrite mem_iota => /andP [_ Hj] Hij.
by rewrite hornerZ lagrange_at // (negPf Hij) mulr0.
Qed.

(** ** The integration matrices *)
Lemma interv_entry n (pts : seq F) i j : (i < n.-1)%N -> (j < size pts)%N ->
  (nth [::] (interv_integ pts n) i)`_j = pdinteg (lagrange pts j) pts`_i pts`_i.+1.
Proof.
move=> Hi Hj; rewrite /interv_integ (nth_map 0%N) ?size_iota // nth_iota // add0n.
by rewrite /lagrange_basis -map_comp (nth_map 0%N) ?size_iota //= nth_iota.
Qed.
Lemma J_exact n (pts : seq F) i (q : {poly F}) : size pts = n -> uniq pts -> (i < n.-1)%N -> (size q^`() <= n)%N ->
  \sum_(j < n) (nth [::] (interv_integ pts n) i)`_j * q^`().[pts`_j] = q.[pts`_i.+1] - q.[pts`_i].
Proof.
move=> Sn U Hi Hq; rewrite -pdinteg_deriv {2}(interpolation U (p := q^`())) ?Sn //.
rewrite pdinteg_sum big_iota0; apply: eq_bigr => j _.
by rewrite interv_entry ?Sn // pdintegZ mulrC.
Qed.
Lemma K_entry n (pts : seq F) j : size pts = n -> (j < n)%N ->
  (c_K (make_collocation n pts))`_j = \sum_(i < n.-1) (nth [::] (interv_integ pts n) i)`_j.
Proof.
move=> Sn Hj; rewrite /= (nth_map 0%N) ?size_iota // nth_iota // add0n.
by rewrite (big_nth [::]) big_mkord /interv_integ size_map size_iota.
Qed.
Lemma K_exact n (pts : seq F) (q : {poly F}) : size pts = n -> (0 < n)%N -> uniq pts -> (size q^`() <= n)%N ->
  \sum_(j < n) (c_K (make_collocation n pts))`_j * q^`().[pts`_j] = q.[last 0 pts] - q.[head 0 pts].
Proof.
move=> Sn n0 U Hq.
under eq_bigr do rewrite K_entry // mulr_suml.
rewrite exchange_big /=; under eq_bigr do rewrite J_exact //.
rewrite -(big_mkord xpredT (fun i => q.[pts`_i.+1] - q.[pts`_i])) telescope_sumr //=.
by rewrite -nth0 -nth_last Sn.
Qed.
End Quad.
