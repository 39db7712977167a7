(** Properties C23-C27 and C61: collocation grids, integration matrices,
    Lobatto quadrature, collocation defects. *)
From mathcomp Require Import all_ssreflect all_algebra.
From mathcomp Require Import polyrcf polyorder.
From Verif Require Import Py McRing RkModel LegendreLemmas QuadLemmas LobattoLemmas.
Set Implicit Arguments.
Unset Strict Implicit.
Unset Printing Implicit Defensive.
Import Order.TTheory GRing.Theory Num.Theory.
Local Open Scope ring_scope.

Section Props.
Variable F : rcfType.
Let P := [comRingType of {poly F}].
Add Ring Pr4 : (com_rt P).
Let FC := [comRingType of F].
Add Ring Fr4 : (com_rt FC).

(** ** C27: Lobatto points *)
Theorem C27_order_error n : (n < 2)%N -> lgl_points F n = Err ValueError.
Proof. by rewrite /lgl_points => ->. Qed.

(** The result has [n] points, strictly increasing, from 0 to 1; the others are
    exactly the zeros of the derivative of the Legendre polynomial of degree
    [n-1] taken at [2 x - 1]. *)
Theorem C27_points n : (1 < n)%N -> exists pts : seq F,
  [/\ lgl_points F n = Ok pts, size pts = n, sorted <%R pts, nth 0 pts 0 = 0 /\ nth 0 pts n.-1 = 1 &
    forall x, x \in pts = [|| x == 0, x == 1 | root (legendre F n.-1)^`() (2%:R * x - 1)]].
Proof.
case: n => [|[|n]] // _; rewrite /lgl_points /=.
have [St Pt Rt _] := lgl_roots F (ltn0Sn n); rewrite /= in St Pt Rt.
set t := rootsR _ in St Pt Rt *; eexists; split; first by [].
- by rewrite /= size_cat St addn1.
- by rewrite /= cats1.
- by split=> //; rewrite /= cats1 nth_rcons St ltnn eqxx.
- move=> x; rewrite inE mem_cat mem_seq1 Rt [_ || (_ == 1)]orbC; congr [|| _, _ | _].
  rewrite sleg_deriv -scale_nat rootZ ?pnatr_eq0 // root_comp.
  by rewrite hornerD hornerN hornerC hornerZ hornerX.
Qed.

(** Spec-side view: a valid set of collocation points. *)
Definition nodes (n : nat) (pts : seq F) : Prop :=
  [/\ size pts = n, sorted <%R pts, nth 0 pts 0 = 0 & nth 0 pts n.-1 = 1].
Lemma nodes_uniq n pts : nodes n pts -> uniq pts.
Proof. by case=> _ /lt_sorted_uniq. Qed.

(** ** C24: exactness of the integration matrices *)
(** [Q^`()] ranges over all polynomials of degree below [n]: every polynomial
    is a derivative, see [C24_every_polynomial]. *)
Theorem C24_interval_matrix n pts (c := make_collocation n pts) i (Q : {poly F}) :
  nodes n pts -> (i.+1 < n)%N -> (size Q^`() <= n)%N ->
  \sum_(j < n) (nth [::] (c_J c) i)`_j * Q^`().[pts`_j] = Q.[pts`_i.+1] - Q.[pts`_i].
Proof. by move=> N Hi HQ; case: (N) => Sn _ _ _; apply: J_exact => //; [apply: nodes_uniq N|case: n Hi {c N Sn HQ}]. Qed.

Theorem C24_quadrature n pts (c := make_collocation n pts) (Q : {poly F}) :
  nodes n pts -> (0 < n)%N -> (size Q^`() <= n)%N ->
  \sum_(j < n) (c_K c)`_j * Q^`().[pts`_j] = Q.[1] - Q.[0].
Proof.
move=> N n0 HQ; case: (N) => Sn _ H0 H1; rewrite K_exact ?(nodes_uniq N) //.
by rewrite -nth0 -nth_last Sn H0 H1.
Qed.

Theorem C24_column_sums n pts (c := make_collocation n pts) j : nodes n pts -> (j < n)%N ->
  (c_K c)`_j = \sum_(i < n.-1) (nth [::] (c_J c) i)`_j.
Proof. by case=> Sn _ _ _ Hj; rewrite K_entry. Qed.

Theorem C24_weights_sum n pts (c := make_collocation n pts) : nodes n pts -> (0 < n)%N ->
  \sum_(j < n) (c_K c)`_j = 1.
Proof.
move=> N n0; have := @C24_quadrature n pts 'X N n0.
rewrite derivX size_poly1 n0 !hornerX subr0 => /(_ isT) <-.
by apply: eq_bigr => j _; rewrite hornerC mulr1.
Qed.

Theorem C24_every_polynomial (p : {poly F}) : exists Q : {poly F}, Q^`() = p.
Proof. by exists (primitive p); exact: deriv_primitive. Qed.

(** The nodes of the code qualify. *)
Theorem C24_nodes n pts : lgl_points F n = Ok pts -> nodes n pts.
Proof.
case: (ltnP n 2) => [/C27_order_error ->|Hn] //.
by have [p [-> Sp So [H0 H1] _]] := C27_points Hn => -[<-]; split.
Qed.

(** ** C25: degree of exactness of Lobatto quadrature *)
Theorem C25_lobatto_exact n c (Q : {poly F}) : LGLCollocation F n = Ok c ->
  (size Q^`() <= (n.*2).-2)%N ->
  \sum_(j < n) (c_K c)`_j * Q^`().[(c_points c)`_j] = Q.[1] - Q.[0].
Proof.
rewrite /LGLCollocation; case E: (lgl_points F n) => [pts|] //= -[<-] HQ /=.
have N := C24_nodes E; have Hn : (1 < n)%N by case: ltnP E => // /C27_order_error ->.
have k0 : (0 < n.-1)%N by case: n Hn {N E HQ} => [|[]].
have [St Pt Rt [a a0 Ea]] := lgl_roots F k0; rewrite /= in St Pt Rt Ea.
have Ept : pts = 0 :: rootsR (slegendre F n.-1)^`() ++ [:: 1].
  by move: E; rewrite /lgl_points ltnNge Hn /= => -[].
set S := slegendre F n.-1 in Pt Rt St Ea Ept; set t := rootsR _ in Pt Rt St Ea Ept.
pose W := fromroots pts.
have EW : a *: W = ('X * 'X - 'X) * S^`().
  rewrite /W Ept /fromroots big_cons big_cat big_seq1 /= Ea -/(fromroots t) -!mul_polyC polyC0 polyC1.
  by mc_norm P; ring.
have SW : size W = n.+1 by rewrite /W /fromroots size_prod_XsubC; case: N => ->.
have W0 : W != 0 by rewrite -size_poly_gt0 SW.
have W1 : lead_coef W = 1 by apply/eqP; exact: monic_prod_XsubC.
set p := Q^`() in HQ *.
have Edecomp := divp_eq p W; set q := p %/ W in Edecomp; set r := p %% W in Edecomp.
have Sr : (size r <= n)%N by rewrite -ltnS -SW ltn_modpN0.
have Sq : (size q <= n.-2)%N.
  rewrite size_divp // SW /= leq_subLR (leq_trans HQ) // -addnn.
  by clear -Hn; case: n Hn => [|[|n]] // _; rewrite !addnS.
have Hroot j : (j < n)%N -> W.[pts`_j] = 0.
  move=> Hj; apply/rootP/(allP (fromroots_all pts)); apply: mem_nth; by case: N => ->.
have -> : \sum_(j < n) (c_K (make_collocation n pts))`_j * p.[pts`_j] =
          \sum_(j < n) (c_K (make_collocation n pts))`_j * (primitive r)^`().[pts`_j].
  apply: eq_bigr => j _; rewrite deriv_primitive Edecomp hornerD hornerM Hroot // mulr0 add0r; by [].
rewrite C24_quadrature ?deriv_primitive ?(ltnW Hn) // -[RHS]pdinteg_deriv -/p Edecomp pdintegD.
rewrite -pdinteg_deriv deriv_primitive.
suff -> : pdinteg (q * W) 0 1 = 0 by rewrite add0r.
apply/eqP; rewrite -(mulrI_eq0 _ (mulfI a0)) -pdintegZ scalerAr EW mulrC.
rewrite -oppr_eq0 -sleg_parts' sleg_orth //.
rewrite size_deriv -!subn1 leq_sub2r // (leq_trans (size_mul_leq _ _)) //.
have Sw : (size ('X * 'X - 'X : {poly F})%R <= 3)%N.
  by rewrite -expr2 (leq_trans (size_add _ _)) // size_opp size_polyXn size_polyX.
rewrite -subn1 leq_subLR (leq_trans (leq_add Sw Sq)) //.
by clear -Hn; case: n Hn => [|[|n]].
Qed.

(** ** Positivity *)
Lemma integral_gt0 (p : {poly F}) : p != 0 -> (forall x, 0 < x < 1 -> 0 <= p.[x]) -> 0 < pdinteg p 0 1.
Proof.
move=> p0 Hp; set Q := primitive p; have EQ : Q^`() = p by exact: deriv_primitive.
have Hmono x y : x \in `[0, 1] -> y \in `[0, 1] -> x <= y -> Q.[x] <= Q.[y].
  move=> Hx Hy Hxy; have := @ler_hornerW F 0 1 Q; rewrite EQ; apply => //.
have HI : pdinteg p 0 1 = Q.[1] - Q.[0] by rewrite -EQ pdinteg_deriv.
rewrite HI subr_gt0 lt_neqAle Hmono ?in_itv /= ?lexx ?ler01 // andbT.
apply: contraNneq p0 => EQ01; rewrite -EQ.
have Hconst x : 0 <= x <= 1 -> Q.[x] = Q.[0].
  move=> /andP [H0 H1]; apply/le_anti.
  by rewrite {1}EQ01 !Hmono ?in_itv /= ?H0 ?H1 ?lexx ?ler01.
suff -> : Q = (Q.[0])%:P by rewrite derivC.
pose m := (size Q).+1; pose s : seq F := [seq k%:R / m%:R | k <- iota 0 m].
have m0 : 0 < m%:R :> F by rewrite ltr0n.
apply: (@poly_agree F _ _ s).
- rewrite map_inj_in_uniq ?iota_uniq // => a b _ _ E.
  by apply/eqP; rewrite -(eqr_nat F); apply/eqP/(mulIf _ E); rewrite invr_eq0 gt_eqF.
- by rewrite size_map size_iota leqW.
- by rewrite size_map size_iota (leq_trans (size_polyC_leq1 _)).
- move=> x Hx; have [k] := mapP Hx; rewrite mem_iota => Hk ->; rewrite hornerC Hconst //.
  by rewrite divr_ge0 ?ler0n //= ler_pdivr_mulr // mul1r ler_nat ltnW.
Qed.

(** C61: every Lobatto weight is positive, for every order. *)
Theorem C61_weights_positive n c j : LGLCollocation F n = Ok c -> (j < n)%N -> 0 < (c_K c)`_j.
Proof.
move=> Ec Hj; have EC := Ec; move: Ec; rewrite /LGLCollocation; case E: (lgl_points F n) => [pts|] //= -[Ec].
have N := C24_nodes E; case: (N) => Sn So H0 H1.
have Hn : (1 < n)%N by case: ltnP E => // /C27_order_error ->.
have U := nodes_uniq N.
(* a polynomial of degree <= 2n-3, nonnegative on (0,1), vanishing at the other nodes *)
have Lt i l : (i < l)%N -> (l < n)%N -> pts`_i < pts`_l.
  by move=> Hil Hl; rewrite (lt_sorted_ltn_nth 0 So) ?inE ?Sn // (ltn_trans Hil).
pose E1 : {poly F} := if j == 0%N then 1 - 'X else if j == n.-1 then 'X else 'X * (1 - 'X).
pose mid := [seq pts`_i | i <- iota 1 n.-2 & i != j].
pose p := E1 * fromroots mid ^+ 2.
have Hmid i : (0 < i < n.-1)%N -> i != j -> pts`_i \in mid.
  move=> /andP [Hi0 Hi] Hij; apply: map_f; rewrite mem_filter Hij mem_iota Hi0 add1n /=.
  by clear -Hn Hi; case: n Hn Hi => [|[|n]].
have Hmid' : pts`_j \notin mid.
  apply/mapP => -[i]; rewrite mem_filter mem_iota => /andP [Hij /andP [Hi0 Hi]] /eqP.
  rewrite nth_uniq ?Sn // ?(eq_sym j) ?(negPf Hij) //.
  by clear -Hn Hi; case: n Hn Hi => [|[|n]] //= _; rewrite add1n => Hi; rewrite ltnS ltnW.
have Hp_other i : (i < n)%N -> i != j -> p.[pts`_i] = 0.
  move=> Hi Hij; rewrite /p hornerM.
  case: (posnP i) => [i0|i0].
    rewrite i0 in Hij *; rewrite H0 /E1 eq_sym (negPf Hij).
    by case: ifP => _; rewrite !hornerE /= ?mul0r.
  case: (ltnP i n.-1) => [Hi1|Hi1].
    have /rootP E0 := allP (fromroots_all mid) _ (Hmid i (introT andP (conj i0 Hi1)) Hij).
    by rewrite expr2 hornerM E0 !mulr0.
  have Ei : i = n.-1 by apply/eqP; rewrite eqn_leq Hi1 -ltnS prednK ?(ltnW Hn) ?Hi.
  have Hjn : (j == n.-1) = false by rewrite -Ei eq_sym (negPf Hij).
  by rewrite Ei H1 /E1 Hjn; case: ifP => _; rewrite !hornerE /= ?subrr ?mulr0 ?mul0r.
have Hstrict i : (0 < i)%N -> (i < n.-1)%N -> 0 < pts`_i < 1.
  move=> Hi0 Hi; have n1 : (n.-1 < n)%N by rewrite prednK // ltnW.
  have := Lt _ _ Hi0 (ltn_trans Hi n1); have := Lt _ _ Hi n1; rewrite H0 H1 => -> ->; by [].
have HE1 x : 0 < x < 1 -> 0 < E1.[x].
  move=> /andP [Hx0 Hx1]; rewrite /E1; case: ifP => _; [|case: ifP => _]; rewrite !hornerE ?subr_gt0 //.
  by rewrite mulr_gt0 ?subr_gt0.
have Hp_j : 0 < p.[pts`_j].
  rewrite /p hornerM expr2 hornerM -expr2 mulr_gt0 //; last first.
    rewrite exprn_even_gt0 //=; apply: contra Hmid' => Hr; move: (Hr); rewrite /fromroots -rootE root_prod_XsubC; exact.
  case: (posnP j) => [j0|j0]; first by rewrite j0 H0 /E1 j0 eqxx hornerD hornerN hornerX hornerC subr0 ltr01.
  case: (ltnP j n.-1) => Hj1; first by rewrite HE1 // Hstrict.
  have Ej : j = n.-1 by apply/eqP; rewrite eqn_leq Hj1 -ltnS prednK ?(ltnW Hn) ?Hj.
  by rewrite {1}Ej H1 /E1 gtn_eqF // Ej eqxx hornerX ltr01.
have Hint : 0 < pdinteg p 0 1.
  apply: integral_gt0 => [|x Hx]; first by apply: contraTneq Hp_j => ->; rewrite horner0 ltxx.
  by rewrite /p hornerM expr2 hornerM -expr2 mulr_ge0 ?sqr_ge0 // ltW // HE1.
have Smid : (size mid <= (if (j == 0%N) || (j == n.-1) then n.-2 else n.-2.-1))%N.
  rewrite size_map size_filter; case: ifP => Hjj; first by rewrite (leq_trans (count_size _ _)) // size_iota.
  have Hjin : j \in iota 1 n.-2.
    rewrite mem_iota add1n; move/negbT: Hjj; rewrite negb_or -lt0n => /andP [-> /= Hjj].
    by clear -Hn Hj Hjj; case: n Hn Hj Hjj => [|[|n]] //= _; rewrite ltnS leq_eqVlt => /orP [->|].
  have := count_predC (pred1 j) (iota 1 n.-2); rewrite size_iota count_uniq_mem ?iota_uniq // Hjin add1n => ES.
  by rewrite -[X in (_ <= X.-1)%N]ES /= leq_eqVlt; apply/orP; left; apply/eqP; apply: eq_count => x.
have Sp : (size p <= (n.*2).-2)%N.
  rewrite /p (leq_trans (size_mul_leq _ _)) // -subn1 leq_subLR.
  have Sf : (size (fromroots mid ^+ 2) <= (size mid).*2.+1)%N.
    rewrite expr2 (leq_trans (size_mul_leq _ _)) // /fromroots size_prod_XsubC -addnn addSn addnS; by [].
  have SE : (size E1 <= if (j == 0%N) || (j == n.-1) then 2 else 3)%N.
    have S1 : (size (1 - 'X : {poly F})%R <= 2)%N.
      by rewrite (leq_trans (size_add _ _)) // size_opp size_polyX size_poly1.
    rewrite /E1; case: (j == 0%N) => //=; case: (j == n.-1); first by rewrite size_polyX.
    rewrite (leq_trans (size_mul_leq _ _)) // size_polyX; exact: S1.
  rewrite (leq_trans (leq_add SE Sf)) //; move: Smid; clear -Hn Hj.
  move: (size mid) => m; case: n Hn Hj {mid} => [|[|n]] // _ Hj /=.
  case: ifP => [_|/negbT] Hm; first by rewrite !add2n add1n !ltnS leq_double.
  rewrite add1n !addSn add0n !ltnS => Hm'; case: n Hj Hm Hm' => [|n] Hj Hm Hm'.
    by move: Hj Hm; case: j => [|[|j]].
  by rewrite -[X in (_ < X)%N]/(n.+1).*2 doubleS ltnS leqW // leq_double.
have := @C25_lobatto_exact n c (primitive p) EC; rewrite deriv_primitive Sp => /(_ isT).
rewrite -pdinteg_deriv deriv_primitive => EI.
move: Hint; rewrite -EI -Ec /= (bigD1 (Ordinal Hj)) //= big1 ?addr0 => [|i Hi].
  by rewrite pmulr_lgt0.
by rewrite Hp_other ?mulr0.
Qed.

(** ** C26: collocation defects *)
Lemma deriv_eq0 (Q : {poly F}) : Q^`() = 0 -> Q = (Q.[0])%:P.
Proof. by move=> E; have := primitive_deriv Q; rewrite E -(scale0r 0) primitiveZ scale0r horner_coef0 => /eqP; rewrite eq_sym subr_eq0 => /eqP. Qed.

Lemma defect_entry f nx n (pts : seq F) xp up p h i k : (i < n.-1)%N -> (k < nx)%N ->
  (nth [::] (defects f nx (make_collocation n pts) xp up p h) i)`_k =
  (nth [::] xp i.+1)`_k - (nth [::] xp i)`_k -
  (\sum_(j < n) (nth [::] (interv_integ pts n) i)`_j * (f (nth [::] xp j) (nth [::] up j) p)`_k) * h.
Proof.
move=> Hi Hk; rewrite /defects /= (nth_map 0%N) ?size_iota // nth_iota // add0n (nth_map 0%N) ?size_iota // nth_iota // add0n.
by congr (_ - _ * _); apply: eq_bigr => j _; rewrite (nth_map 0%N) ?size_iota // nth_iota.
Qed.

(** The defects of a piece are all zero exactly when every state component is
    interpolated by a polynomial of degree at most [n] whose derivative at each
    node is [piece_len] times the right-hand side there; that polynomial is
    unique. *)
Theorem C26_defects n pts f nx xp up p h (c := make_collocation n pts) :
  nodes n pts -> (0 < n)%N ->
  (forall i k, (i.+1 < n)%N -> (k < nx)%N -> (nth [::] (defects f nx c xp up p h) i)`_k = 0) <->
  (forall k, (k < nx)%N -> exists! Q : {poly F}, (size Q <= n.+1)%N /\
     forall j, (j < n)%N -> Q.[pts`_j] = (nth [::] xp j)`_k /\
                            Q^`().[pts`_j] = h * (f (nth [::] xp j) (nth [::] up j) p)`_k).
Proof.
move=> N n0; have U := nodes_uniq N; case: (N) => Sn _ H0 _; split=> [Hz k Hk|HQ i k Hi Hk].
  pose g j := h * (f (nth [::] xp j) (nth [::] up j) p)`_k.
  pose r := \sum_(j <- iota 0 (size pts)) g j *: lagrange pts j.
  have Sr : (size r <= n)%N.
    rewrite /r big_seq -Sn; apply: leq_trans (size_sum _ _ _) _; apply/bigmax_leqP_seq => j; rewrite mem_iota => /andP [_ Hj] _.
    by apply: leq_trans (size_scale_leq _ _) (lagrange_size Hj).
  have Hr j : (j < n)%N -> r.[pts`_j] = g j.
    move=> Hj; rewrite /r horner_sum (bigD1_seq j) ?mem_iota ?iota_uniq ?Sn //= hornerZ lagrange_at ?Sn // eqxx mulr1.
    rewrite big_seq_cond big1 ?addr0 // => i /andP []; rewrite mem_iota => /andP [_ Hi] Hij.
    by rewrite hornerZ lagrange_at ?Sn // (negPf Hij) mulr0.
  pose Q := primitive r + ((nth [::] xp 0)`_k - (primitive r).[pts`_0])%:P.
  have DQ : Q^`() = r by rewrite derivD derivC addr0 deriv_primitive.
  have VQ j : (j < n)%N -> Q.[pts`_j] = (nth [::] xp j)`_k.
    elim: j => [|j IH] Hj; first by rewrite hornerD hornerC addrC subrK.
    have Hj' : (j < n.-1)%N by rewrite -ltnS prednK.
    have := Hz j k Hj Hk; rewrite defect_entry //.
    have := @J_exact F n pts j Q Sn U Hj'; rewrite DQ Sr => /(_ isT).
    under eq_bigr do rewrite Hr //.
    rewrite IH ?(ltnW Hj) // => EJ /eqP; rewrite subr_eq0 => /eqP E.
    have : Q.[pts`_j.+1] - (nth [::] xp j)`_k = (nth [::] xp j.+1)`_k - (nth [::] xp j)`_k.
      by rewrite -EJ E mulr_suml; apply: eq_bigr => i _; rewrite /g mulrCA mulrC.
    by move/(addIr _).
  exists Q; split.
    split; last by move=> j Hj; rewrite VQ // DQ Hr.
    have : (size Q^`() <= n)%N by rewrite DQ.
    by rewrite size_deriv; case: (size Q).
  move=> Q' [SQ' HQ'].
  have ED : Q'^`() = r.
    apply: (poly_agree U); rewrite ?Sn // ?size_deriv; first by case: (size Q') SQ'.
    by move=> x /(nthP 0) [j]; rewrite Sn => Hj <-; rewrite Hr //; case: (HQ' j Hj).
  apply/eqP; rewrite -subr_eq0; apply/eqP.
  have D0 : (Q - Q')^`() = 0 by rewrite derivB DQ ED subrr.
  have := deriv_eq0 D0 => EC; rewrite EC.
  have : (Q - Q').[pts`_0] = 0 by rewrite hornerD hornerN VQ //; case: (HQ' 0%N n0) => -> _; rewrite subrr.
  by rewrite {1}EC hornerC => ->.
have [Q [[SQ HV] _]] := HQ k Hk.
have Hi' : (i < n.-1)%N by rewrite -ltnS prednK.
rewrite defect_entry //.
have := @J_exact F n pts i Q Sn U Hi'; rewrite size_deriv.
have -> : ((size Q).-1 <= n)%N by case: (size Q) SQ.
move=> /(_ isT); have [-> _] := HV _ Hi; have [-> _] := HV _ (ltnW Hi) => <-.
apply/eqP; rewrite subr_eq0 mulr_suml; apply/eqP/eq_bigr => j _.
by have [_ ->] := HV j (ltn_ord j); rewrite mulrCA mulrC.
Qed.

(** Summed over a piece the defects compare the end values with the quadrature. *)
Theorem C26_piece_sum n pts f nx xp up p h (c := make_collocation n pts) k :
  nodes n pts -> (0 < n)%N -> (k < nx)%N ->
  \sum_(i < n.-1) (nth [::] (defects f nx c xp up p h) i)`_k =
  (nth [::] xp n.-1)`_k - (nth [::] xp 0)`_k
  - h * \sum_(j < n) (c_K c)`_j * (f (nth [::] xp j) (nth [::] up j) p)`_k.
Proof.
move=> N n0 Hk; under eq_bigr do rewrite defect_entry //.
rewrite sumrB; congr (_ - _).
  by rewrite -(big_mkord xpredT (fun i => (nth [::] xp i.+1)`_k - (nth [::] xp i)`_k)) telescope_sumr.
rewrite mulrC -mulr_suml; congr (_ * _); rewrite exchange_big /=; apply: eq_bigr => j _.
by rewrite K_entry ?mulr_suml //; case: N.
Qed.

(** ** C62: the interval matrix has full row rank *)
(** Every vector of interval increments is reached, so [orth(J.T)]
    ([JT_range], rk.py line 90) has exactly [n-1] columns. *)
Theorem C62_full_row_rank n pts (d : nat -> F) (c := make_collocation n pts) : nodes n pts ->
  exists v : nat -> F, forall i, (i.+1 < n)%N -> \sum_(j < n) (nth [::] (c_J c) i)`_j * v j = d i.
Proof.
move=> N; have U := nodes_uniq N; case: (N) => Sn _ _ _.
pose g j := \sum_(0 <= l < j) d l.
pose Q := \sum_(j <- iota 0 (size pts)) g j *: lagrange pts j.
have SQ : (size Q <= n)%N.
  rewrite /Q big_seq -Sn; apply: leq_trans (size_sum _ _ _) _; apply/bigmax_leqP_seq => j; rewrite mem_iota => /andP [_ Hj] _.
  by apply: leq_trans (size_scale_leq _ _) (lagrange_size Hj).
have HQ j : (j < n)%N -> Q.[pts`_j] = g j.
  move=> Hj; rewrite /Q horner_sum (bigD1_seq j) ?mem_iota ?iota_uniq ?Sn //= hornerZ lagrange_at ?Sn // eqxx mulr1.
  rewrite big_seq_cond big1 ?addr0 // => i /andP []; rewrite mem_iota => /andP [_ Hi] Hij.
  by rewrite hornerZ lagrange_at ?Sn // (negPf Hij) mulr0.
exists (fun j => Q^`().[pts`_j]) => i Hi.
rewrite C24_interval_matrix //; first by rewrite !HQ ?(ltnW Hi) // /g big_nat_recr //= addrC addKr.
by rewrite size_deriv (leq_trans (leq_pred _)).
Qed.

(** ** C23: collocation grids *)
Lemma nth_uniform (ss : seq (seq F)) d k j : all (fun s => size s == d) ss -> (k < size ss)%N -> (j < d)%N ->
  (flatten ss)`_(k * d + j) = (nth [::] ss k)`_j.
Proof.
elim: ss k => [//|s ss IH] [|k] /= /andP [/eqP Ss Hss] Hk Hj; rewrite nth_cat Ss; first by rewrite mul0n add0n Hj.
by rewrite mulSn -addnA ltnNge leq_addr /= addKn IH.
Qed.
Lemma size_uniform (ss : seq (seq F)) d : all (fun s => size s == d) ss -> size (flatten ss) = (size ss * d)%N.
Proof. by elim: ss => //= s ss IH /andP [/eqP Ss /IH E]; rewrite size_cat Ss E mulSn. Qed.

Theorem C23_grid n pts (t : seq F) : nodes n pts -> (1 < n)%N -> sorted <%R t -> t != [::] ->
  exists g, [/\ grid pts t = Ok g, size g = ((size t).-1 * n.-1).+1, sorted <%R g,
    forall k, (k < size t)%N -> g`_(k * n.-1) = t`_k &
    forall k j, (k.+1 < size t)%N -> (j < n)%N -> g`_(k * n.-1 + j) = t`_k + pts`_j * (t`_k.+1 - t`_k)].
Proof.
move=> [Sn So H0 H1] Hn St t0.
have St0 : (0 < size t)%N by case: t t0 {St}.
have -> : grid pts t = Ok (rcons (flatten [seq [seq tds.1 + d | d <- tds.2] |
   tds <- zip (take (size t).-1 t) [seq [seq l * p | p <- take (size pts).-1 pts] | l <- diff t]]) (last 0 t)).
  by case: t t0 {St St0}.
set rows := map _ (zip _ _).
have Sd : size (diff t) = (size t).-1 by rewrite /diff size_map size_iota.
have Stk : size (take (size t).-1 t) = (size t).-1 by rewrite size_takel // leq_pred.
have Srows : size rows = (size t).-1 by rewrite /rows size_map size_zip size_map Sd Stk minnn.
have Hrow k : (k < (size t).-1)%N -> nth [::] rows k = [seq t`_k + d | d <- [seq (t`_k.+1 - t`_k) * p | p <- take n.-1 pts]].
  move=> Hk; rewrite /rows (nth_map (0, [::])); last by rewrite size_zip size_map Sd Stk minnn.
  rewrite nth_zip; last by rewrite size_map Sd Stk.
  rewrite (nth_map (0 : F)) ?Sd // nth_take // /diff (nth_map 0%N) ?size_iota // nth_iota // add0n Sn.
  by [].
have Spt : size (take n.-1 pts) = n.-1 by rewrite size_takel // Sn leq_pred.
have Hall : all (fun s => size s == n.-1) rows.
  by apply/(all_nthP [::]) => i; rewrite Srows => Hi; rewrite Hrow // !size_map Spt.
have Sfl := size_uniform Hall; rewrite Srows in Sfl.
have n1 : (0 < n.-1)%N by clear -Hn; case: n Hn => [|[]].
set g := rcons (flatten rows) (last 0 t).
have Sg : size g = ((size t).-1 * n.-1).+1 by rewrite size_rcons Sfl.
have Hent k j : (k.+1 < size t)%N -> (j < n.-1)%N -> g`_(k * n.-1 + j) = t`_k + pts`_j * (t`_k.+1 - t`_k).
  move=> Hk Hj; have Hk' : (k < (size t).-1)%N by rewrite -ltnS prednK.
  rewrite /g nth_rcons Sfl.
  have -> : (k * n.-1 + j < (size t).-1 * n.-1)%N.
    by rewrite (leq_trans (n := (k.+1 * n.-1)%N)) ?leq_mul2r ?Hk' ?orbT // mulSn addnC ltn_add2r.
  by rewrite (nth_uniform Hall) ?Srows // Hrow // (nth_map (0 : F)) ?size_map ?Spt // (nth_map (0 : F)) ?Spt // nth_take // mulrC.
have Hstart k : (k < size t)%N -> g`_(k * n.-1) = t`_k.
  rewrite -{1}(prednK St0) ltnS leq_eqVlt => /orP [/eqP ->|Hk].
    by rewrite /g nth_rcons Sfl ltnn eqxx nth_last.
  have Hk' : (k.+1 < size t)%N by rewrite -(prednK St0) ltnS.
  by rewrite -[(k * _)%N]addn0 Hent // H0 mul0r addr0.
have Hfull k j : (k.+1 < size t)%N -> (j < n)%N -> g`_(k * n.-1 + j) = t`_k + pts`_j * (t`_k.+1 - t`_k).
  move=> Hk; rewrite -{1}(prednK (ltnW Hn)) ltnS leq_eqVlt => /orP [/eqP ->|Hj]; last exact: Hent.
  by rewrite addnC -mulSn Hstart // H1 mul1r addrC subrK.
exists g; split=> //.
apply/(sortedP 0) => i; rewrite Sg ltnS => Hi.
rewrite (divn_eq i n.-1); set k := (i %/ _)%N; set j := (i %% _)%N.
have Hj : (j < n.-1)%N by rewrite ltn_mod.
have Hk : (k.+1 < size t)%N by rewrite -(prednK St0) ltnS ltn_divLR.
have Hj' : (j.+1 < n)%N by rewrite -(prednK (ltnW Hn)) ltnS.
rewrite -addnS !Hfull ?(ltnW Hj') // ltr_add2l ltr_pmul2r.
  by rewrite (lt_sorted_ltn_nth 0 So) ?inE ?Sn ?(ltnW Hj').
by rewrite subr_gt0 (lt_sorted_ltn_nth 0 St) ?inE ?(ltnW Hk).
Qed.

Theorem C23_empty pts : grid pts ([::] : seq F) = Err IndexError.
Proof. by []. Qed.

(** *** Concrete cases *)
Example C23_nonvacuous : nodes 2 [:: 0; 1] /\ sorted <%R [:: 0; 1; 3%:R : F] /\
  grid [:: 0; 1] [:: 0; 1; 3%:R : F] = Ok [:: 0 + (1 - 0) * 0; 1 + (3%:R - 1) * 0; 3%:R].
Proof.
split; first by split=> //=; rewrite ltr01.
by split=> //=; rewrite ltr01 /= (ltr_nat F 1 3).
Qed.
Example C24_nonvacuous : nodes 3 [:: 0; 2%:R^-1; 1 : F] /\ (size ('X^3 : {poly F})^`() <= 3)%N.
Proof.
split; last by rewrite size_deriv size_polyXn.
by split=> //=; rewrite invr_gt0 ltr0n invf_lt1 ?ltr0n // (ltr_nat F 1 2).
Qed.
(** Both directions of C26 are inhabited: x' = 1 on one piece of length 2. *)
Example C26_nonvacuous k : (k < 1)%N ->
  (nth [::] (defects (fun _ _ _ => [:: 1]) 1 (make_collocation 2 [:: 0; 1]) [:: [:: 0]; [:: 2%:R]] [::] [::] (2%:R : F)) 0)`_k = 0.
Proof.
have N : nodes 2 [:: 0; 1] by split=> //=; rewrite ltr01.
case: k => // _; have [_ H] := @C26_defects 2 [:: 0; 1] (fun _ _ _ => [:: 1]) 1 [:: [:: 0]; [:: 2%:R]] [::] [::] 2%:R N isT.
apply: H => // -[|] // _; exists (2%:R *: 'X); split.
  split; first by rewrite (leq_trans (size_scale_leq _ _)) // size_polyX.
  by move=> [|[|]] //= _; rewrite derivZ derivX !hornerZ hornerX hornerC ?mulr0 ?mulr1.
move=> Q [SQ HQ]; have [V0 D0] := HQ 0%N isT; have [V1 D1] := HQ 1%N isT.
have ED : Q^`() = (2%:R)%:P.
  apply: (poly_agree (nodes_uniq N)); rewrite ?size_deriv; first by case: (size Q) SQ => [|[|[|[]]]].
    by rewrite (leq_trans (size_polyC_leq1 _)).
  by move=> x; rewrite !inE => /orP [] /eqP ->; rewrite hornerC; [rewrite D0|rewrite D1]; rewrite /= mulr1.
have D0' : (2%:R *: 'X - Q)^`() = 0 by rewrite derivB derivZ derivX ED -mul_polyC mulr1 subrr.
apply/eqP; rewrite -subr_eq0 (deriv_eq0 D0') hornerD hornerN hornerZ hornerX mulr0 sub0r.
by rewrite /= in V0; rewrite V0 oppr0 polyC0.
Qed.
Example C25_nonvacuous : exists c, LGLCollocation F 3 = Ok c /\ (size ('X^4 : {poly F})^`() <= (3.*2).-2)%N.
Proof.
rewrite /LGLCollocation; have [pts [-> _ _ _ _]] := @C27_points 3 isT.
by eexists; split=> //; rewrite size_deriv size_polyXn.
Qed.
End Props.
Print Assumptions C25_lobatto_exact.
Print Assumptions C26_defects.
Print Assumptions C23_grid.
Print Assumptions C61_weights_positive.
