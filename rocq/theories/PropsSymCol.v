(** Properties C57, C58 and C63: the cost and the noise model of collocated
    problems. *)
From mathcomp Require Import all_ssreflect all_algebra polyorder polyrcf.
From Verif Require Import Py RkModel LegendreLemmas QuadLemmas LobattoLemmas PropsRk SymColModel.
Set Implicit Arguments.
Unset Strict Implicit.
Unset Printing Implicit Defensive.
Import Order.TTheory GRing.Theory Num.Theory.
Local Open Scope ring_scope.

Section PropsSymCol.
Variable F : rcfType.
Implicit Types (xp up wc G JT : seq (seq F)) (p : seq F) (h : F).

(** ** C57: the running cost of a piece *)
Theorem C57_running_cost n (pts : seq F) L xp up p h (c := make_collocation n pts) :
  IL L c xp up p h = h * \sum_(j < n) (c_K c)`_j * L (nth [::] xp j) (nth [::] up j) p.
Proof.
rewrite /IL /dot mulrC; congr (_ * _); apply: eq_bigr => j _.
by rewrite (nth_map 0%N) ?size_iota // nth_iota // mulrC.
Qed.

(** If the running cost along the path over [t0, t0 + h] is a polynomial of
    degree at most 2 n - 3 in time, IL is its integral (Q is any primitive). *)
Theorem C57_exact n c L xp up p t0 h (Q : {poly F}) : LGLCollocation F n = Ok c ->
  (size Q^`() <= (n.*2).-2)%N ->
  (forall j, (j < n)%N -> Q^`().[t0 + h * (c_points c)`_j] = L (nth [::] xp j) (nth [::] up j) p) ->
  IL L c xp up p h = Q.[t0 + h] - Q.[t0].
Proof.
move=> Ec SQ HL; pose l : {poly F} := h *: 'X + t0%:P; pose P := Q \Po l.
have El x : l.[x] = t0 + h * x by rewrite /l hornerD hornerZ hornerX hornerC addrC.
have dl : l^`() = h%:P by rewrite /l derivD derivZ derivX derivC addr0 alg_polyC.
have dP : P^`() = h *: (Q^`() \Po l) by rewrite /P deriv_comp dl -mul_polyC mulrC.
have Sl : (size l <= 2)%N.
  by rewrite /l (leq_trans (size_add _ _)) // geq_max (leq_trans (size_scale_leq _ _)) ?size_polyX //= (leq_trans (size_polyC_leq1 _)).
have SP : (size P^`() <= (n.*2).-2)%N.
  rewrite dP; apply: leq_trans (size_scale_leq _ _) _.
  have [->|Q0] := eqVneq Q^`() 0; first by rewrite comp_poly0 size_poly0.
  apply: leq_trans (size_comp_poly_leq _ _) (leq_trans _ SQ).
  have S0 : (0 < size Q^`())%N by rewrite size_poly_gt0.
  rewrite -[X in (_ <= X)%N](prednK S0) ltnS -[X in (_ <= X)%N]muln1 leq_mul2l; apply/orP; right.
  by case: (size l) Sl => [|[|[]]].
have := C25_lobatto_exact Ec SP.
rewrite /P !horner_comp !El mulr0 mulr1 addr0 => <-.
move: Ec; rewrite /LGLCollocation; case E: (lgl_points F n) => [pts|] //= -[Ec]; move: HL; rewrite -Ec => HL.
rewrite C57_running_cost mulr_sumr; apply: eq_bigr => j _.
by rewrite -/P dP hornerZ horner_comp El HL // mulrCA.
Qed.

(** ** C58: joint MAP estimation *)
Lemma tab_elem (g : nat -> nat -> F) m w i k : (i < m)%N -> (k < w)%N ->
  elem [seq [seq g i k | k <- iota 0 w] | i <- iota 0 m] i k = g i k.
Proof. by move=> Hi Hk; rewrite /elem /row (nth_map 0%N) ?size_iota // nth_iota // (nth_map 0%N) ?size_iota // nth_iota. Qed.
(** The noise at node j: [wp = JT_range @ wc]. *)
Definition noise_at n JT wc j i : F := \sum_(a < n.-1) elem JT j a * elem wc a i.

Lemma noise_elem n pts nw JT wc j i (c := make_collocation n pts) : size JT = n -> (j < n)%N -> (i < nw)%N ->
  elem (noise c nw JT wc) j i = noise_at n JT wc j i.
Proof.
move=> SJ Hj Hi; rewrite /noise /matmul /elem /row (nth_map [::]) ?SJ // (nth_map 0%N) ?size_iota // nth_iota //.
Qed.

(** The defects are those of the equation driven by the noise: they vanish
    exactly when a polynomial interpolates the state and satisfies
    x' = f(x, u, p) + G w at every node. *)
Theorem C58_defects n pts f nx nw JT xp up p h wc G (c := make_collocation n pts) :
  nodes n pts -> (0 < n)%N -> size JT = n ->
  (forall i k, (i.+1 < n)%N -> (k < nx)%N -> elem (jme_e f nx nw c JT xp up p h wc G) i k = 0) <->
  (forall k, (k < nx)%N -> exists! Q : {poly F}, (size Q <= n.+1)%N /\
     forall j, (j < n)%N -> Q.[pts`_j] = elem xp j k /\
       Q^`().[pts`_j] = h * ((f (nth [::] xp j) (nth [::] up j) p)`_k + \sum_(i < nw) elem G k i * noise_at n JT wc j i)).
Proof.
move=> N n0 SJ.
pose fw := [seq [seq (f (nth [::] xp j) (nth [::] up j) p)`_k + \sum_(i < nw) elem G k i * noise_at n JT wc j i | k <- iota 0 nx]
            | j <- iota 0 n].
have Efw j k : (j < n)%N -> (k < nx)%N -> (nth [::] fw j)`_k =
    (f (nth [::] xp j) (nth [::] up j) p)`_k + \sum_(i < nw) elem G k i * noise_at n JT wc j i.
  by move=> Hj Hk; rewrite /fw (nth_map 0%N) ?size_iota // nth_iota // (nth_map 0%N) ?size_iota // nth_iota.
have E : forall i k, (i.+1 < n)%N -> (k < nx)%N -> elem (jme_e f nx nw c JT xp up p h wc G) i k
    = (nth [::] (defects (fun _ u _ => u) nx c xp fw p h) i)`_k.
  move=> i k Hi Hk; have Hi' : (i < n.-1)%N by case: n Hi {c N n0 SJ fw Efw}.
  rewrite defect_entry // /jme_e tab_elem //=.
  congr (_ - _ * _); apply: eq_bigr => j _; congr (_ * _).
  rewrite Efw // tab_elem //=.
  by congr (_ + _); apply: eq_bigr => l _; rewrite (noise_elem pts) // mulrC.
have C := C26_defects (fun _ u _ => u) nx xp fw p h N n0.
have EQ k (Q : {poly F}) : (k < nx)%N -> ((size Q <= n.+1)%N /\
     forall j, (j < n)%N -> Q.[pts`_j] = elem xp j k /\ Q^`().[pts`_j] = h * (nth [::] fw j)`_k) <->
   ((size Q <= n.+1)%N /\ forall j, (j < n)%N -> Q.[pts`_j] = elem xp j k /\
       Q^`().[pts`_j] = h * ((f (nth [::] xp j) (nth [::] up j) p)`_k + \sum_(i < nw) elem G k i * noise_at n JT wc j i)).
  by move=> Hk; split=> -[S HQ]; split=> // j Hj; have [-> ->] := HQ j Hj; rewrite Efw.
split=> H.
  move=> k Hk; have [|Q [/(EQ k Q Hk) HQ UQ]] := proj1 C _ k Hk; first by move=> i l Hi Hl; rewrite -E // H.
  by exists Q; split=> // Q' /(EQ k Q' Hk) /UQ.
move=> i k Hi Hk; rewrite E //; apply: (proj2 C) => // l Hl.
by have [Q [/(EQ l Q Hl) HQ UQ]] := H l Hl; exists Q; split=> // Q' /(EQ l Q' Hl) /UQ.
Qed.

(** The log-density of the tube: minus half the quadrature of the squared
    noise and of the divergence of the drift (of its last nw components; of
    all of them if nw = 0). *)
Theorem C58_tube_value n pts om df nx nw JT xp up p h wc (c := make_collocation n pts) : size JT = n ->
  tube_L om df nx nw c JT xp up p h wc
  = - 2%:R^-1 * h * \sum_(j < n) (c_K c)`_j * (\sum_(i < nw) noise_at n JT wc j i ^+ 2 +
      if om then \sum_(i < nx | (nw == 0%N) || (nx <= i + nw)%N) elem (df (nth [::] xp j) (nth [::] up j) p) i i else 0).
Proof.
move=> SJ; rewrite /tube_L /dot; set S := \sum_(j < c_n c) _.
rewrite [RHS]mulrAC; congr (_ * _); rewrite /S {S} mulr_sumr; apply: eq_bigr => j _.
rewrite (nth_map (0 : F)) ?size_map ?size_iota // (nth_map 0%N) ?size_iota // nth_iota // add0n -mulrA; congr (_ * _).
rewrite mulrC; congr (_ * _); rewrite addrC; congr (_ + _).
  by apply: eq_bigr => i _; rewrite (noise_elem pts) ?(ltn_ord j).
case: om => //; rewrite /drift_div big_geq_mkord; apply: eq_bigl => i; rewrite /tail_start.
by case: eqP => //= _; rewrite leq_subLR addnC.
Qed.

(** Without the divergence it is never positive. *)
Theorem C58_tube_nonpos n c df nx nw JT xp up p h wc : LGLCollocation F n = Ok c -> size JT = n -> 0 <= h ->
  tube_L false df nx nw c JT xp up p h wc <= 0.
Proof.
move=> Ec SJ h0; have Kp j : (j < n)%N -> 0 < (c_K c)`_j by exact: C61_weights_positive.
move: Ec; rewrite /LGLCollocation; case E: (lgl_points F n) => [pts|] //= -[Ec]; rewrite -Ec in Kp *.
rewrite C58_tube_value // !mulNr oppr_le0; apply: mulr_ge0; first by rewrite mulr_ge0 ?invr_ge0 ?ler0n.
apply: sumr_ge0 => j _.
by rewrite addr0; apply: mulr_ge0; [apply: ltW; apply: Kp|apply: sumr_ge0 => i _; exact: sqr_ge0].
Qed.

Theorem C58_penalty_value n pts f nx nw JT xp up p h wc G w (c := make_collocation n pts)
    (e := jme_e f nx nw c JT xp up p h wc G) :
  penalty nx e w = - \sum_(i < n.-1) \sum_(k < nx) w`_k * elem e i k ^+ 2.
Proof.
have Se : size e = n.-1 by rewrite /e /jme_e size_map size_iota.
rewrite /penalty (big_nth [::]) Se big_mkord -sumrN; apply: eq_bigr => i _; rewrite -sumrN; apply: eq_bigr => k _.
rewrite (nth_map (0 : F)) ?mulNr 1?mulrC //.
by rewrite /e /jme_e (nth_map 0%N) ?size_iota // size_map size_iota.
Qed.

Theorem C58_penalty_nonpos n pts f nx nw JT xp up p h wc G w (c := make_collocation n pts) :
  (forall k, (k < nx)%N -> 0 <= w`_k) -> penalty nx (jme_e f nx nw c JT xp up p h wc G) w <= 0.
Proof.
move=> w0; rewrite C58_penalty_value oppr_le0; apply: sumr_ge0 => i _; apply: sumr_ge0 => k _.
by rewrite mulr_ge0 ?sqr_ge0 ?w0.
Qed.

(** ** C63: the noise parametrisation is faithful.  For any values d of the
    interval integrals there is exactly one choice of the parameters wc whose
    noise [JT_range @ wc] has them, and no noise sequence with these integrals
    is smaller. *)
Theorem C63_noise_parameters n pts JT (c := make_collocation n pts) : nodes n pts -> (0 < n)%N ->
  is_range_basis n (c_J c) JT -> forall d : nat -> F,
  exists w : nat -> F,
    let wp (w : nat -> F) j := \sum_(a < n.-1) elem JT j a * w a in
    [/\ forall i, (i < n.-1)%N -> \sum_(j < n) elem (c_J c) i j * wp w j = d i,
        forall w' : nat -> F, (forall i, (i < n.-1)%N -> \sum_(j < n) elem (c_J c) i j * wp w' j = d i) ->
           forall a, (a < n.-1)%N -> w' a = w a &
        forall v : nat -> F, (forall i, (i < n.-1)%N -> \sum_(j < n) elem (c_J c) i j * v j = d i) ->
           \sum_(j < n) wp w j ^+ 2 <= \sum_(j < n) v j ^+ 2].
Proof.
move=> N n0 [SJ Ort [B HB] [A HA]] d.
pose Jm : 'M[F]_(n.-1, n) := \matrix_(i, j) elem (c_J c) i j.
pose Tm : 'M[F]_(n, n.-1) := \matrix_(j, a) elem JT j a.
pose Bm : 'M[F]_n.-1 := \matrix_(i, a) elem B i a.
pose Am : 'M[F]_n.-1 := \matrix_(i, a) elem A i a.
have ET : Tm^T *m Tm = 1%:M.
  by apply/matrixP => a b; rewrite !mxE -(Ort a b) //; apply: eq_bigr => j _; rewrite !mxE.
have EB : Jm = Bm *m Tm^T by apply/matrixP => i j; rewrite !mxE HB //; apply: eq_bigr => a _; rewrite !mxE.
have EA : Tm = Jm^T *m Am by apply/matrixP => j a; rewrite !mxE HA //; apply: eq_bigr => i _; rewrite !mxE.
pose cv k (g : nat -> F) : 'cV[F]_k := \col_i g i.
have Jcv (g : nat -> F) (e : nat -> F) : (forall i, (i < n.-1)%N -> \sum_(j < n) elem (c_J c) i j * g j = e i) <-> Jm *m cv n g = cv n.-1 e.
  split=> [H|/matrixP H i Hi]; first by apply/matrixP => i k; rewrite !mxE -H //; apply: eq_bigr => j _; rewrite !mxE.
  by have := H (Ordinal Hi) ord0; rewrite !mxE /= => <-; apply: eq_bigr => j _; rewrite !mxE.
have Tcv (w : nat -> F) : cv n (fun j => \sum_(a < n.-1) elem JT j a * w a) = Tm *m cv n.-1 w.
  by apply/matrixP => i k; rewrite !mxE; apply: eq_bigr => j _; rewrite !mxE.
have nrm k (g : nat -> F) : \sum_(j < k) g j ^+ 2 = ((cv k g)^T *m cv k g) ord0 ord0.
  by rewrite !mxE; apply: eq_bigr => j _; rewrite !mxE.
have [v0 Hv0] := C62_full_row_rank d N.
have /Jcv {}Hv0 : forall i, (i < n.-1)%N -> \sum_(j < n) elem (c_J c) i j * v0 j = d i.
  by move=> i Hi; apply: Hv0; case: n Hi {c N n0 SJ Ort HB HA Jm Tm Bm Am ET EB EA Jcv Tcv nrm} => // n; rewrite /= ltnS.
pose w a := \sum_(j < n) elem JT j a * v0 j.
have Ew : cv n.-1 w = Tm^T *m cv n v0 by apply/matrixP => a k; rewrite !mxE; apply: eq_bigr => j _; rewrite !mxE.
have Jw : Jm *m (Tm *m cv n.-1 w) = cv n.-1 d.
  by rewrite Ew EB -mulmxA [Tm^T *m _]mulmxA ET mul1mx mulmxA -EB.
exists w => wp; split.
- by apply/Jcv; rewrite Tcv.
- move=> w' /Jcv; rewrite Tcv => Jw' a Ha.
  pose z := cv n.-1 w' - cv n.-1 w.
  have Jz : Jm *m (Tm *m z) = 0 by rewrite /z mulmxBr mulmxBr Jw' Jw subrr.
  have zz : z^T *m z = 0.
    have -> : z^T *m z = (Tm *m z)^T *m (Tm *m z) by rewrite trmx_mul -mulmxA [Tm^T *m _]mulmxA ET mul1mx.
    by rewrite {1}EA -mulmxA trmx_mul trmxK -mulmxA Jz mulmx0.
  have /eqP : \sum_(j < n.-1) (w' j - w j) ^+ 2 = 0.
    by have /matrixP /(_ ord0 ord0) := zz; rewrite !mxE => zz0; rewrite -[RHS]zz0; apply: eq_bigr => j _; rewrite !mxE.
  rewrite psumr_eq0 => [|j _]; last exact: sqr_ge0.
  by move/allP => /(_ (Ordinal Ha)); rewrite mem_index_enum => /(_ isT) /implyP /(_ isT); rewrite sqrf_eq0 subr_eq0 => /eqP.
- move=> v /Jcv Jv; rewrite !nrm Tcv.
  set y := Tm *m _; pose r := cv n v - y.
  have Jr : Jm *m r = 0 by rewrite /r mulmxBr Jv Jw subrr.
  have yr : y^T *m r = 0 by rewrite /y {1}EA -mulmxA trmx_mul trmxK -mulmxA Jr mulmx0.
  have ry : r^T *m y = 0 by apply: trmx_inj; rewrite trmx_mul trmxK yr trmx0.
  have -> : cv n v = y + r by rewrite /r addrC subrK.
  have -> : (y + r)^T = y^T + r^T by rewrite linearD.
  clearbody r; rewrite mulmxDl !mulmxDr yr ry addr0 add0r [X in _ <= X]mxE ler_addl mxE; apply: sumr_ge0 => j _.
  by rewrite !mxE -expr2 sqr_ge0.
Qed.

(** *** Concrete cases *)
Example C57_nonvacuous : exists c : collocation F, LGLCollocation F 2 = Ok c /\ (size ('X^2 : {poly F})^`() <= (2.*2).-2)%N.
Proof.
rewrite /LGLCollocation; have [pts [-> _ _ _ _]] := C27_points F (isT : (1 < 2)%N); eexists; split; first by [].
by rewrite size_deriv size_polyXn.
Qed.
Example C58_nonvacuous (wc := [:: [:: 3%:R]]) : nodes 2 [:: 0; 1 : F] /\ size [:: [:: 1]; [:: 2%:R : F]] = 2%N /\
  noise_at 2 [:: [:: 1]; [:: 2%:R]] wc 1 0 = 6%:R.
Proof. by split; [split=> //=; rewrite ltr01|split=> //; rewrite /noise_at big_ord1 /elem /row /= -natrM]. Qed.
Example C63_nonvacuous (s : F := Num.sqrt 2%:R^-1) : is_range_basis 2 (c_J (make_collocation 2 [:: 0; 1])) [:: [:: s]; [:: s]].
Proof.
have N : nodes 2 [:: 0; 1 : F] by split=> //=; rewrite ltr01.
have s2 : s * s = 2%:R^-1 by rewrite -expr2 sqr_sqrtr // invr_ge0 ler0n.
have s0 : s != 0 by apply/eqP => s0; move/eqP: s2; rewrite s0 mulr0 eq_sym invr_eq0 pnatr_eq0.
have h2 : 2%:R != 0 :> F by rewrite pnatr_eq0.
have hh : 2%:R^-1 + 2%:R^-1 = 1 :> F by rewrite [RHS]splitr !mul1r.
have E (Q : {poly F}) : (size Q^`() <= 2)%N -> elem (c_J (make_collocation 2 [:: 0; 1])) 0 0 * Q^`().[0] +
    elem (c_J (make_collocation 2 [:: 0; 1])) 0 1 * Q^`().[1] = Q.[1] - Q.[0].
  by move=> /(@C24_interval_matrix F 2 _ 0 Q N isT); rewrite !big_ord_recl big_ord0 addr0.
set j0 := elem _ 0 0 in E *; set j1 := elem _ 0 1 in E *.
have J1 : j1 = 2%:R^-1.
  have := E ('X^2); rewrite size_deriv size_polyXn => /(_ isT).
  rewrite derivXn /= expr1 !hornerMn !hornerX !hornerXn expr1n expr0n /= mul0rn mulr0 add0r subr0 => E1.
  by apply/eqP; rewrite -(inj_eq (mulIf h2)) mulVf //; apply/eqP.
have J0 : j0 = 2%:R^-1.
  have := E 'X; rewrite derivX size_poly1 !hornerX !hornerC !mulr1 subr0 J1 => /(_ isT) E1.
  by apply: (addIr 2%:R^-1); rewrite E1 hh.
split=> //.
- by move=> [|a] // [|b] // _ _; rewrite !big_ord_recl big_ord0 addr0 /elem /row /= s2 hh.
- by exists [:: [:: s]] => -[|i] // [|[|j]] // _ _; rewrite big_ord1 /= [RHS]s2.
- exists [:: [:: 2%:R * s]] => -[|[|j]] // [|a] // _ _; rewrite big_ord1 /= -/j0 -/j1 ?J0 ?J1 /elem /row /= mulrA mulVf ?mul1r //.
Qed.
End PropsSymCol.
Print Assumptions C57_running_cost.
Print Assumptions C57_exact.
Print Assumptions C58_defects.
Print Assumptions C58_tube_value.
Print Assumptions C58_tube_nonpos.
Print Assumptions C58_penalty_value.
Print Assumptions C58_penalty_nonpos.
Print Assumptions C63_noise_parameters.
