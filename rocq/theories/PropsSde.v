(** C50, C51, C52 and C69: discretised stochastic differential equations and
    normal densities. *)
From Coq Require Import String Reals Lra.
From Coquelicot Require Import Coquelicot.
From Verif Require Import Py.
From mathcomp Require Import all_ssreflect all_algebra.
From Verif Require Import RealField McRing MxCalc KalModel PsdLemmas CholLemmas SdeModel PropsUt.
Set Implicit Arguments.
Unset Strict Implicit.
Unset Printing Implicit Defensive.
Import Order.TTheory GRing.Theory Num.Theory.
Local Open Scope ring_scope.

(** * C50 *)

Section Cov.
Variable F : rcfType.
Variables nx nw ny : nat.
Variables (ct : ct_model F nx nw ny) (dt : F).
Let FC := [comRingType of F].
Add Ring FRing : (com_rt FC).

Theorem C50_psd m (g : 'M[F]_(nx, m)) : psd (sde_Q g).
Proof. by have := psd_gram g^T; rewrite trmxK. Qed.

Hypothesis dt0 : 0 <= dt.

Theorem C50_euler_Q k x (G := ct_g ct (dt * k%:R) x) : sde_Q (euler_g ct dt k x) = dt *: (G *m G^T).
Proof. by rewrite /sde_Q /euler_g linearZ /= -scalemxAl -scalemxAr scalerA -expr2 sqr_sqrtr. Qed.

Theorem C50_as15_Q k x (G := ct_g ct (dt * k%:R) x) (L := (ct_df_dx ct (dt * k%:R) x)^T *m G) :
  sde_Q (as15_g ct dt k x)
  = dt *: (G *m G^T) + (dt ^+ 2 / 2%:R) *: (G *m L^T + L *m G^T) + (dt ^+ 3 / 3%:R) *: (L *m L^T).
Proof.
rewrite /sde_Q /as15_g -/G -/L tr_row_mx mul_row_col.
have trD m n (M N : 'M[F]_(m, n)) : (M + N)^T = M^T + N^T by rewrite linearD.
have trZ m n c (M : 'M[F]_(m, n)) : (c *: M)^T = c *: M^T by rewrite linearZ.
set s := Num.sqrt dt; set r := Num.sqrt 3%:R; set c := 2%:R^-1 * (dt * s).
have ss : s * s = dt by rewrite -expr2 sqr_sqrtr.
have rr : r^-1 * r^-1 = 3%:R^-1 by rewrite -invfM -expr2 sqr_sqrtr ?ler0n.
rewrite !trD !trZ !mulmxDl !mulmxDr -!scalemxAl -!scalemxAr !scalerA ss.
have sc : s * c = dt ^+ 2 / 2%:R.
  rewrite /c; move: (2%:R^-1 : F) => h.
  have -> : s * (h * (dt * s)) = h * dt * (s * s) by mc_norm FC; ring.
  by rewrite ss; mc_norm FC; ring.
have cc : c * c = dt ^+ 3 / 4%:R.
  rewrite /c; have -> : 4%:R = 2%:R * 2%:R :> F by rewrite -natrM.
  rewrite invfM; move: (2%:R^-1 : F) => h.
  have -> : h * (dt * s) * (h * (dt * s)) = h * h * dt ^+ 2 * (s * s) by mc_norm FC; ring.
  by rewrite ss; mc_norm FC; ring.
rewrite [c * s]mulrC sc.
have -> : c / r * (c / r) = dt ^+ 3 / 4%:R / 3%:R by rewrite mulrACA cc rr.
have <- : dt ^+ 3 / 4%:R + dt ^+ 3 / 4%:R / 3%:R = dt ^+ 3 / 3%:R.
  move: (dt ^+ 3) => z; have n4 : 4%:R != 0 :> F by rewrite pnatr_eq0.
  have n3 : 3%:R != 0 :> F by rewrite pnatr_eq0.
  apply: (mulIf n4); apply: (mulIf n3); rewrite !mulrDl divfK // [z / 4%:R / _ * _]mulrAC divfK // [z / 3%:R * _]mulrAC.
  by rewrite !divfK // -[X in _ + X]mulr1 -mulrDr -(natrD _ 3 1).
rewrite cc scalerDl scalerDr.
by mx_norm FC; ring.
Qed.
End Cov.

Section Drift.
Variables nx nw ny : nat.
Variable ct : ct_model RF nx nw ny.
Let RC := [comRingType of RF].
Add Ring RRing : (com_rt RC).

(** The derivatives of the continuous-time model are derivatives. *)
Record ct_diff : Prop := CtDiff {
  cd_f : forall t x x', mderiv x t x' ->
    mderiv (fun s => ct_f ct s (x s)) t (ct_df_dt ct t (x t) + (ct_df_dx ct t (x t))^T *m x');
  cd_fx : forall t s x x', mderiv x s x' ->
    mderiv (fun r => ct_f ct t (x r)) s ((ct_df_dx ct t (x s))^T *m x');
  cd_x : forall t s x x', mderiv x s x' ->
    mderiv (fun r => ct_df_dx ct t (x r)) s (\matrix_(q, i) \sum_p x' p 0 * ct_d2f_dx2 ct t (x s) p q i 0) }.
Hypothesis CD : ct_diff.

(** The drift of the order 1.5 scheme is the second-order Taylor polynomial
    of the solution [phi] of the noiseless equation, plus the Ito term: half
    the sum of the second derivatives of [f] along the columns of the gain. *)
Theorem C50_drift dt k x (t0 := dt * k%:R) (phi : R -> 'cV[RF]_nx) w dd :
  near t0 (fun s => mderiv phi s (ct_f ct s (phi s))) -> phi t0 = x ->
  mderiv (fun s => ct_f ct s (phi s)) t0 w ->
  (forall j, exists2 V, (forall s, mderiv (fun r => ct_f ct t0 (x + (r : RF) *: col j (ct_g ct t0 x))) s (V s)) & mderiv V (0 : RF) (dd j)) ->
  as15_f ct dt k x = x + dt *: ct_f ct t0 (phi t0) + (dt ^+ 2 / 2%:R) *: (w + 2%:R^-1 *: \sum_j dd j).
Proof.
move=> Hphi phi0 Hw Hdd; rewrite /as15_f -/t0.
have wE : w = ct_df_dt ct t0 x + (ct_df_dx ct t0 x)^T *m ct_f ct t0 x.
  have := cd_f CD (near_at Hphi); rewrite phi0 => H.
  exact: mderiv_unique Hw H.
have dE j : dd j = \col_i \sum_p \sum_q ct_g ct t0 x p j * ct_g ct t0 x q j * ct_d2f_dx2 ct t0 x p q i 0.
  have [V HV HdV] := Hdd j; set g := col j _ in HV.
  have Hl s : mderiv (fun r : R => x + (r : RF) *: g) s g.
    apply: mderiv_eq (mderivD (mderiv_const s x) (mderivZs (sderiv_id s) (mderiv_const s g))) _.
    by rewrite scale1r scaler0 addr0 add0r.
  have VE s : V s = (ct_df_dx ct t0 (x + (s : RF) *: g))^T *m g.
    exact: mderiv_unique (HV s) (cd_fx CD t0 (Hl s)).
  have H2 := mderivMr g (mderiv_tr (cd_x CD t0 (Hl (0 : RF)))).
  have H3 : mderiv V (0 : RF) ((\matrix_(q, i) \sum_p g p 0 * ct_d2f_dx2 ct t0 (x + 0 *: g) p q i 0)^T *m g).
    by apply: mderiv_ext H2 => s; rewrite VE.
  rewrite (mderiv_unique HdV H3) scale0r addr0; apply/matrixP => i l; rewrite !mxE.
  rewrite exchange_big /=; apply: eq_bigr => q _; rewrite !mxE mulr_suml; apply: eq_bigr => p _.
  by rewrite !mxE mulrAC.
have -> : as15_L0f ct t0 x = w + 2%:R^-1 *: \sum_j dd j.
  apply/matrixP => i l; rewrite [l]ord1 [LHS]mxE [RHS]mxE -wE; congr (_ + _).
  rewrite mxE summxE mulr_sumr; apply: eq_bigr => j _; rewrite dE mxE mulr_sumr.
  by apply: eq_bigr => p _; rewrite mulr_sumr; apply: eq_bigr => q _; rewrite !mulrA.
by rewrite phi0 [2%:R^-1 * _]mulrC [RHS]addrAC [RHS]addrC -!addrA; congr (_ + _); rewrite addrC.
Qed.

(** Without noise and to first order both schemes are the Euler step. *)
Theorem C50_euler_f dt k x : euler_f ct dt k x = x + dt *: ct_f ct (dt * k%:R) x.
Proof. by rewrite /euler_f addrC. Qed.
Theorem C50_h dt k x : sde_h ct dt k x = ct_h ct (dt * k%:R) x.
Proof. by rewrite /sde_h mulrC. Qed.
End Drift.

(** Linear equations [dx = A x dt + G dw]: the covariance of the solution
    started at a point solves [P' = A P + P A^T + G G^T]; the order 1.5
    covariance, as a function of the step, solves it up to the second order,
    and exactly if [A^2 = 0]. *)
Section Linear.
Variables nx nw ny : nat.
Variables (A : 'M[RF]_nx) (G : 'M[RF]_(nx, nw)) (h : RF -> 'cV[RF]_nx -> 'cV[RF]_ny).
Let RC := [comRingType of RF].
Add Ring RRing2 : (com_rt RC).
Definition lin_ct : ct_model RF nx nw ny :=
  CT (fun _ x => A *m x) (fun _ _ => G) h (fun _ _ => 0) (fun _ _ => A^T) (fun _ _ _ _ => 0).

Theorem C50_linear_order (dt : R) k x (L := A *m G) : (0 : RF) < dt ->
  exists P', mderiv (fun s => sde_Q (as15_g lin_ct s k x)) dt P' /\
    A *m sde_Q (as15_g lin_ct dt k x) + sde_Q (as15_g lin_ct dt k x) *m A^T + G *m G^T - P'
    = ((dt : RF) ^+ 2 / 2%:R) *: (A *m L *m G^T + (A *m L *m G^T)^T) + ((dt : RF) ^+ 3 / 3%:R) *: (A *m L *m L^T + (A *m L *m L^T)^T).
Proof.
move=> dt0.
pose P (s : RF) := s *: (G *m G^T) + (s ^+ 2 / 2%:R) *: (G *m L^T + L *m G^T) + (s ^+ 3 / 3%:R) *: (L *m L^T).
have PE (s : RF) : 0 <= s -> sde_Q (as15_g lin_ct s k x) = P s.
  by move=> s0; rewrite C50_as15_Q // /lin_ct /= trmxK.
have Hs := sderiv_id dt.
have H2 : sderiv (fun s => (s : RF) ^+ 2 / 2%:R) dt dt.
  apply: sderiv_eq; first apply: (sderiv_ext (f := fun s => (s : RF) * s * 2%:R^-1)).
  - by move=> s; rewrite expr2.
  - exact: sderivM (sderivM Hs Hs) (sderiv_const (2%:R^-1 : RF) dt).
  by rewrite mul1r mulr1 mulr0 addr0 -mulr2n -mulr_natr mulfK // pnatr_eq0.
have H3 : sderiv (fun s => (s : RF) ^+ 3 / 3%:R) dt ((dt : RF) ^+ 2).
  apply: sderiv_eq; first apply: (sderiv_ext (f := fun s => (s : RF) * s * s * 3%:R^-1)).
  - by move=> s; rewrite !exprS expr0 mulr1 !mulrA.
  - exact: sderivM (sderivM (sderivM Hs Hs) Hs) (sderiv_const (3%:R^-1 : RF) dt).
  rewrite mulr0 addr0 mul1r !mulr1; apply: (mulIf (x := 3%:R)); first by rewrite pnatr_eq0.
  rewrite divfK ?pnatr_eq0 // mulr_natr !mulrSr mulr0n add0r; mc_norm RC; ring.
have HP : mderiv P dt (G *m G^T + (dt : RF) *: (G *m L^T + L *m G^T) + ((dt : RF) ^+ 2) *: (L *m L^T)).
  apply: mderiv_eq (mderivD (mderivD (mderivZs Hs (mderiv_const dt (G *m G^T))) (mderivZs H2 (mderiv_const dt (G *m L^T + L *m G^T)))) (mderivZs H3 (mderiv_const dt (L *m L^T)))) _.
  by rewrite scale1r !scaler0 !addr0.
eexists; split.
  apply: mderiv_near HP; apply: near_mp (sderiv_gt0 Hs dt0) _ => s s0.
  by rewrite PE // ltW.
rewrite PE ?ltW // /P.
have trD m n (M N : 'M[RF]_(m, n)) : (M + N)^T = M^T + N^T by rewrite linearD.
have LT : L^T = G^T *m A^T by rewrite /L trmx_mul.
rewrite !mulmxDr !mulmxDl -!scalemxAl -!scalemxAr !trmx_mul !trmxK !mulmxDr !mulmxDl !mulmxA -/L.
have -> : G *m G^T *m A^T = G *m L^T by rewrite LT mulmxA.
have -> : L *m G^T *m A^T = L *m L^T by rewrite LT mulmxA.
have half : ((dt : RF) ^+ 2 / 2%:R) *: (L *m L^T) + ((dt : RF) ^+ 2 / 2%:R) *: (L *m L^T) = ((dt : RF) ^+ 2) *: (L *m L^T).
  by rewrite -scalerDl -splitr.
rewrite -half !scalerDr.
by mx_norm RC; ring.
Qed.

(** For a nilpotent system (integrators driven by noise) the scheme is exact:
    mean and covariance solve the moment equations at every step size. *)
Theorem C50_linear_exact (dt : R) k x : A *m A = 0 -> (0 : RF) < dt ->
  [/\ as15_f lin_ct 0 k x = x, sde_Q (as15_g lin_ct 0 k x) = 0,
    mderiv (fun s => as15_f lin_ct s k x) dt (A *m as15_f lin_ct dt k x) &
    mderiv (fun s => sde_Q (as15_g lin_ct s k x)) dt
      (A *m sde_Q (as15_g lin_ct dt k x) + sde_Q (as15_g lin_ct dt k x) *m A^T + G *m G^T)].
Proof.
move=> A2 dt0.
have L0 t : as15_L0f lin_ct t x = 0.
  apply/matrixP => i j; rewrite [LHS]mxE /= trmxK mulmxA A2 mul0mx addr0 !mx0E add0r.
  by apply: big1 => l _; apply: big1 => p _; apply: big1 => q _; rewrite mulr0.
have fE (s : RF) : as15_f lin_ct s k x = s *: (A *m x) + x by rewrite /as15_f L0 scaler0 addr0.
split.
- by rewrite fE scale0r add0r.
- by rewrite C50_as15_Q // !exprS !mul0r !scale0r !addr0.
- apply: mderiv_eq; first apply: mderiv_ext (mderivD (mderivZs (sderiv_id dt) (mderiv_const dt (A *m x))) (mderiv_const dt x)).
    by move=> s; rewrite fE.
  by rewrite scale1r scaler0 !addr0 fE mulmxDr -scalemxAr mulmxA A2 mul0mx scaler0 add0r.
- have [P' [HP E]] := C50_linear_order k x dt0.
  move: E; rewrite mulmxA A2 !mul0mx trmx0 !addr0 !scaler0 addr0 => /subr0_eq ->.
  exact: HP.
Qed.
End Linear.

(** A double integrator with step 1: the hypotheses are met and the order 1.5
    covariance differs from Euler's. *)
Example C50_nonvacuous (A := (\matrix_(i < 2, j < 2) ((i == 0) && (j == 1))%:R : 'M[RF]_2)) (G := (\col_(i < 2) (i == 1)%:R : 'cV[RF]_2))
    (ct := lin_ct A G (fun _ _ => 0 : 'cV[RF]_1)) :
  [/\ A *m A = 0, ct_diff ct & sde_Q (as15_g ct 1 0 0) <> sde_Q (euler_g ct 1 0 0)].
Proof.
have A2 : A *m A = 0.
  apply/matrixP => i j; rewrite [LHS]mxE mx0E; apply: big1 => l _; rewrite !mxE.
  by case: (l =P 0) => [->|_]; rewrite ?andbF ?mul0r ?mulr0.
split=> //.
- split=> [t x x' Hx|t s x x' Hx|t s x x' Hx] /=.
  + by rewrite add0r trmxK; apply: mderivMl.
  + by rewrite trmxK; apply: mderivMl.
  + apply: mderiv_eq (mderiv_const s _) _; apply/matrixP => q i; rewrite !mxE big1 // => p _.
    by rewrite mulr0.
- rewrite C50_as15_Q ?ler01 // C50_euler_Q ?ler01 // => /matrixP /(_ 0 0).
  rewrite /ct /= trmxK !expr1n.
  have E i j : (A *m G) i j = (i == 0)%:R.
    by rewrite !mxE !big_ord_recl big_ord0 !mxE /= andbF andbT !mul0r mulr1 !addr0 add0r.
  have oE (v w : 'cV[RF]_2) : (v *m w^T) 0 0 = v 0 0 * w 0 0 by rewrite mxE big_ord1 mxE.
  have G0 : G 0 0 = 0 by rewrite mxE.
  have mxZE c (M : 'M[RF]_2) i j : (c *: M) i j = c * M i j by rewrite mxE.
  rewrite !(mxDE, mxZE) !oE.
  rewrite E G0 !(mul0r, mulr0, mulr1, add0r, addr0) => /eqP.
  by rewrite mul1r invr_eq0 pnatr_eq0.
Qed.

(** * C69: transitions of the discretised models *)

Section Trans.
Variable F : rcfType.

(** Sampling: finitely many draws with weights [p], mean zero and unit second
    moment give mean [f] and covariance [Q]. *)
Theorem C69_rvs nx m (f : 'cV[F]_nx) (g : 'M[F]_(nx, m)) N (p : 'I_N -> F) (w : 'I_N -> 'cV[F]_m) :
  \sum_k p k = 1 -> \sum_k p k *: w k = 0 -> \sum_k p k *: (w k *m (w k)^T) = 1%:M ->
  exists y, [/\ forall k, trans_rvs f g (w k) None = Ok (y k), \sum_k p k *: y k = f &
    \sum_k p k *: ((y k - f) *m (y k - f)^T) = sde_Q g].
Proof.
move=> p1 m0 c1; exists (fun k => f + g *m w k); split=> //.
- transitivity (\sum_k p k *: f + g *m \sum_k p k *: w k).
    rewrite mulmx_sumr -big_split /=; apply: eq_bigr => k _.
    by rewrite scalerDr scalemxAr.
  by rewrite m0 mulmx0 addr0 -scaler_suml p1 scale1r.
- transitivity (g *m (\sum_k p k *: (w k *m (w k)^T)) *m g^T); last by rewrite c1 mulmx1.
  rewrite mulmx_sumr mulmx_suml; apply: eq_bigr => k _.
  by rewrite addrAC subrr add0r trmx_mul -scalemxAr -scalemxAl !mulmxA.
Qed.

(** A supplied noise sample is never accepted. *)
Theorem C69_rvs_given nx m (f : 'cV[F]_nx) (g : 'M[F]_(nx, m)) rnd w : trans_rvs f g rnd (Some w) = Err TypeError.
Proof. by []. Qed.

(** With fewer noise inputs than states the Euler scheme has no transition
    density: the covariance is singular.  The order 1.5 scheme has none with
    fewer than half as many. *)
Lemma gram_singular n m (g : 'M[F]_(n, m)) : (m < n)%N -> sde_Q g \notin unitmx.
Proof.
move=> lt; rewrite -row_free_unit -row_leq_rank -ltnNge.
by apply: leq_ltn_trans (mulmx_max_rank g g^T) lt.
Qed.

Theorem C69_singular nx nw ny (ct : ct_model F nx nw ny) dt k (x : 'cV[F]_nx) expf f xn :
  ((nw < nx)%N -> cond_pdf expf f (sde_Q (euler_g ct dt k x)) xn None = Err LinAlgError) /\
  ((nw + nw < nx)%N -> cond_pdf expf f (sde_Q (as15_g ct dt k x)) xn None = Err LinAlgError).
Proof. by split=> lt; rewrite /cond_pdf /mvn_pdf /= (negbTE (gram_singular _ lt)). Qed.

(** The density of the transition to [xn] is that of the deviation [xn - f]
    under the covariance [Q]; alike for measurements. *)
Theorem C69_value n expf (f xn : 'rV[F]_n) Q : Q \in unitmx -> exists2 p, cond_pdf expf f Q xn None = Ok p &
  let S := invmx Q in
  p = expf (- (\sum_i \sum_j (xn 0 i - f 0 i) * S i j * (xn 0 j - f 0 j)) / 2%:R) / Num.sqrt (\det Q).
Proof.
move=> U; rewrite /cond_pdf /mvn_pdf U /=; eexists; first by [].
move=> /=; congr (expf _ / _); rewrite mulNr mulNr mulrC; congr (- (_ / _)).
rewrite mxE; apply: eq_bigr => i _; rewrite !mxE mulr_sumr; apply: eq_bigr => j _.
by rewrite !mxE mulrA.
Qed.

(** They have one exactly when the gain has full rank. *)
Lemma pd_gram nx m (g : 'M[F]_(nx, m)) : row_free g -> pd (sde_Q g).
Proof.
move=> fg; split=> [|v nv]; first by rewrite /sde_Q trmx_mul trmxK.
have E : qf (sde_Q g) v = qf 1%:M (v *m g) by rewrite /sde_Q -{1}[g]mulmx1 qf_cong.
rewrite E lt_neqAle qf1_ge0 andbT eq_sym; apply/eqP => /qf1_eq0 vg.
by case/negP: nv; rewrite -(mulmx_free_eq0 _ fg) vg.
Qed.
Theorem C69_density nx m (g : 'M[F]_(nx, m)) expf f xn : row_free g <->
  exists p, cond_pdf expf f (sde_Q g) xn None = Ok p.
Proof.
rewrite /cond_pdf /mvn_pdf /=; split=> [/pd_gram /pd_unit ->|]; first by eexists.
case: ifP => [U _|_ [p] //]; apply: inj_row_free => v vg.
by rewrite -[v]mulmx1 -(mulmxV U) mulmxA /sde_Q [v *m _]mulmxA vg !mul0mx.
Qed.

(** The order 1.5 scheme reaches every direction that the noise or its image
    under the drift reaches. *)
Theorem C69_as15_rank nx nw ny (ct : ct_model F nx nw ny) dt k x (G := ct_g ct (dt * k%:R) x) (L := (ct_df_dx ct (dt * k%:R) x)^T *m G) :
  0 < dt -> row_free (as15_g ct dt k x) <-> forall v : 'rV[F]_nx, v *m G = 0 -> v *m L = 0 -> v = 0.
Proof.
move=> dt0; rewrite /as15_g -/G -/L; set s := Num.sqrt dt; set c := 2%:R^-1 * (dt * s); set r := Num.sqrt 3%:R.
have s0 : s != 0 by rewrite sqrtr_eq0 -ltNge.
have c0 : c != 0 by rewrite !mulf_neq0 ?invr_eq0 ?pnatr_eq0 // gt_eqF.
have r0 : r != 0 by rewrite sqrtr_eq0 -ltNge ltr0n.
have E v : v *m row_mx (s *: G + c *: L) ((c / r) *: L) = row_mx (s *: (v *m G) + c *: (v *m L)) ((c / r) *: (v *m L)).
  by rewrite mul_mx_row mulmxDr -!scalemxAr.
split=> [fr v vG vL|H].
  by apply/eqP; rewrite -(mulmx_free_eq0 _ fr) E vG vL !scaler0 addr0 row_mx0.
apply: inj_row_free => v; rewrite E -row_mx0 => /eq_row_mx [E1 E2].
have vL : v *m L = 0 by apply: (scalerI (mulf_neq0 c0 (invr_neq0 r0))); rewrite scaler0.
apply: H => //; apply: (scalerI s0); by rewrite scaler0 -E1 vL scaler0 addr0.
Qed.

(** The draws [1] and [-1] with weight one half meet the hypotheses of
    [C69_rvs]; a square identity gain those of [C69_density]. *)
Example C69_nonvacuous (p := fun _ : 'I_2 => 2%:R^-1 : F) (w := fun k : 'I_2 => (-1) ^+ k *: 1%:M : 'cV[F]_1) :
  [/\ \sum_k p k = 1, \sum_k p k *: w k = 0, \sum_k p k *: (w k *m (w k)^T) = 1%:M &
    row_free (1%:M : 'M[F]_2)].
Proof.
have h : 2%:R^-1 + 2%:R^-1 = 1 :> F by rewrite -mulr2n -[LHS]mulr_natl mulfV // pnatr_eq0.
split; rewrite ?big_ord_recl ?big_ord0 /p /w /= ?addr0 ?expr0 ?expr1 ?scale1r //.
- by rewrite scalerA mulrN1 scaleNr subrr.
- by rewrite linearZ /= trmx1 -scalemxAl -scalemxAr !scalerA mulrN1 mulrN1 opprK !mulmx1 -scalerDl h scale1r.
by rewrite row_free_unit unitmx1.
Qed.
End Trans.

(** * C51 *)

Section Pdf.
Let RC := [comRingType of RF].
Add Ring RCring : (com_rt RC).
(** Density of the centred normal distribution, without its constant. *)
Definition normal_pdf n (cov : 'M[RF]_n) (d : 'rV[RF]_n) : RF :=
  exp (- 2%:R^-1 * (d *m invmx cov *m d^T) 0 0)%R / Num.sqrt (\det cov).

Theorem C51_unmasked N n (dev : 'I_N -> 'rV[RF]_n) cov : pd cov ->
  exists2 p, mvn_pdf exp dev None cov = Ok p & forall k, p k = normal_pdf cov (dev k).
Proof.
move=> P; rewrite /mvn_pdf (pd_unit P); eexists; first by [].
by move=> k; rewrite /normal_pdf mulmxA.
Qed.

(** Everything masked: the density of no components. *)
Theorem C51_all_masked N n (dev : 'I_N -> 'rV[RF]_n) m cov : (forall k, m k = setT) ->
  exists2 p, mvn_pdf exp dev (Some m) cov = Ok p &
  forall k, p k = 1 /\ p k = normal_pdf (pick2 (~: m k) cov) (pick (~: m k) (dev k)).
Proof.
move=> mT; rewrite /mvn_pdf.
have -> : [forall k, m k == setT] by apply/forallP => k; rewrite mT.
eexists; first by [].
move=> k; split=> //; rewrite mT setCT /normal_pdf.
have c0 : #|(set0 : {set 'I_n})| = 0%N by rewrite cards0.
move: (pick2 _ _) (pick _ _); rewrite c0 => C d.
by rewrite det_mx00 sqrtr1 divr1 [d]thinmx0 mul0mx mul0mx mxE mulr0 exp_0.
Qed.

(** Otherwise: the full covariance, with the masked deviations set to zero. *)
Definition zeroed n (m : {set 'I_n}) (d : 'rV[RF]_n) : 'rV[RF]_n := \row_j (if j \in m then 0 else d 0 j).

Theorem C51_masked N n (dev : 'I_N -> 'rV[RF]_n) m cov k0 : m k0 <> setT -> pd cov ->
  exists2 p, mvn_pdf exp dev (Some m) cov = Ok p & forall k, p k = normal_pdf cov (zeroed (m k) (dev k)).
Proof.
move=> mT P; rewrite /mvn_pdf (pd_unit P).
have -> : [forall k, m k == setT] = false by apply/negbTE/negP => /forallP /(_ k0) /eqP.
eexists; first by [].
move=> k; rewrite /normal_pdf mulmxA.
have -> // : \row_j (dev k 0 j * (j \notin m k)%:R) = zeroed (m k) (dev k).
by apply/rowP => j; rewrite !mxE; case: (j \in m k); rewrite ?mulr0 ?mulr1.
Qed.

Lemma sqrt_det_gt0 n (cov : 'M[RF]_n) : pd cov -> 0 < Num.sqrt (\det cov).
Proof.
move=> P; have [S E] := chol_pd P; have [US PS ES] := (proj1 (chol_spec S (pd_sym P)) E).
rewrite sqrtr_gt0 -ES det_mulmx det_tr -expr2 exprn_even_gt0 //=.
by have := upp_unit US PS; rewrite unitmxE unitfE.
Qed.

Lemma pd_pick2 n (A : {set 'I_n}) (M : 'M[RF]_n) : pd M -> pd (pick2 A M).
Proof. by move=> PM; apply: (@pd_sel _ #|A| n (fun i => enum_val i)) => //; apply: enum_val_inj. Qed.

(** If masked and unmasked components are uncorrelated, that is the marginal
    density of the unmasked components up to a factor that does not depend on
    the deviation. *)
Theorem C51_uncorrelated N n (dev : 'I_N -> 'rV[RF]_n) m cov k0 : m k0 <> setT -> pd cov ->
  (forall k i j, i \notin m k -> j \in m k -> cov i j = 0) ->
  exists2 p, mvn_pdf exp dev (Some m) cov = Ok p &
  forall k, p k = normal_pdf (pick2 (~: m k) cov) (pick (~: m k) (dev k)) * (Num.sqrt (\det (pick2 (~: m k) cov)) / Num.sqrt (\det cov)).
Proof.
move=> mT P Z; have [p E pE] := C51_masked dev mT P; exists p => // k; rewrite pE /normal_pdf.
set A := ~: m k; have PA := pd_pick2 A P.
have nA : Num.sqrt (\det (pick2 A cov)) != 0 by rewrite gt_eqF // sqrt_det_gt0.
rewrite mulrA divfK //; congr (exp (_ * _) / _).
pose S : 'M[RF]_(#|A|, n) := \matrix_(i, j) (enum_val i == j)%:R.
have dS : zeroed (m k) (dev k) = pick A (dev k) *m S.
  apply/rowP => j; rewrite !mxE; case: ifP => mj.
    by rewrite big1 // => i _; rewrite !mxE; case: eqP => [Ei|_]; rewrite ?mulr0 //; have := enum_valP i; rewrite Ei in_setC mj.
  have jA : j \in A by rewrite in_setC mj.
  rewrite (bigD1 (enum_rank_in jA j)) //= !mxE enum_rankK_in // eqxx mulr1 big1 ?addr0 // => i ni.
  by rewrite !mxE; case: eqP => [Ei|_]; rewrite ?mulr0 //; case/negP: ni; apply/eqP/enum_val_inj; rewrite enum_rankK_in.
have SC : S *m cov = pick2 A cov *m S.
  apply/matrixP => i j; rewrite !mxE.
  transitivity (cov (enum_val i) j).
    rewrite (bigD1 (enum_val i)) //= !mxE eqxx mul1r big1 ?addr0 // => l nl.
    by rewrite !mxE eq_sym (negbTE nl) mul0r.
  case: (boolP (j \in m k)) => mj.
    rewrite (Z k) //; last by have := enum_valP i; rewrite in_setC.
    rewrite big1 // => l _; rewrite !mxE; case: eqP => [El|_]; rewrite ?mulr0 //.
    by have := enum_valP l; rewrite El in_setC mj.
  have jA : j \in A by rewrite in_setC mj.
  rewrite (bigD1 (enum_rank_in jA j)) //= !mxE enum_rankK_in // eqxx mulr1 big1 ?addr0 // => l nl.
  by rewrite !mxE; case: eqP => [El|_]; rewrite ?mulr0 //; case/negP: nl; apply/eqP/enum_val_inj; rewrite enum_rankK_in.
have SI : S *m invmx cov = invmx (pick2 A cov) *m S.
  apply: (can_inj (mulKmx (pd_unit PA))); rewrite mulmxA -SC -mulmxA mulmxV ?(pd_unit P) // mulmx1.
  by rewrite mulmxA mulmxV ?(pd_unit PA) // mul1mx.
have SS : S *m S^T = 1%:M.
  apply/matrixP => i j; rewrite !mxE (bigD1 (enum_val i)) //= !mxE eqxx mul1r big1 ?addr0.
    by rewrite (inj_eq enum_val_inj) eq_sym.
  by move=> l nl; rewrite !mxE eq_sym (negbTE nl) mul0r.
by rewrite dS trmx_mul -[_ *m S *m invmx cov]mulmxA SI !mulmxA -[_ *m S *m S^T]mulmxA SS mulmx1.
Qed.

(** With correlated components it is not the marginal density, not even up to
    a factor. *)
Definition corr2x2 : 'M[RF]_2 := 1%:M + const_mx 1.
Lemma pd_corr : pd corr2x2.
Proof.
rewrite /corr2x2 addrC; apply: psd_pdD (pd1 _ _).
have -> : const_mx 1 = (const_mx 1 : 'M[RF]_(1, 2))^T *m (const_mx 1 : 'M[RF]_(1, 2)).
  by apply/matrixP => i j; rewrite !mxE big_ord1 !mxE mulr1.
exact: psd_gram.
Qed.

Theorem C51_correlated_refuted : exists n (cov : 'M[RF]_n) m, [/\ pd cov, m <> setT &
  forall c, exists dev p, mvn_pdf exp (fun _ : 'I_1 => dev) (Some (fun=> m)) cov = Ok p /\
    p 0 <> c * normal_pdf (pick2 (~: m) cov) (pick (~: m) dev)].
Proof.
exists 2%N, corr2x2, [set 1]; have mT : [set 1] <> setT :> {set 'I_2}.
  by move/setP /(_ 0); rewrite !inE.
split=> //; first exact: pd_corr.
move=> c; pose dv (b : RF) : 'rV[RF]_2 := \row_j (if j == 0 then b else 0).
pose A := ~: [set 1] : {set 'I_2}.
have AE : A = [set 0] by apply/setP => i; rewrite !inE; case: i => [[|[|[]]]].
have A0 i : i \in A -> i = 0 by rewrite AE inE => /eqP.
have PA : pick2 A corr2x2 = 2%:R%:M.
  apply/matrixP => i j; rewrite !mxE.
  have -> : i = j by apply: enum_val_inj; rewrite (A0 _ (enum_valP i)) (A0 _ (enum_valP j)).
  by rewrite !eqxx.
have IE : invmx corr2x2 = 3%:R^-1 *: (3%:R%:M - const_mx 1).
  have U := pd_unit pd_corr; apply: (can_inj (mulKmx U)); rewrite mulmxV // -scalemxAr /corr2x2.
  have JJ : (const_mx 1 : 'M[RF]_2) *m (const_mx 1 : 'M[RF]_2) = const_mx 1 *+ 2.
    by rewrite mulr2n; apply/matrixP => i j; rewrite !mxE !big_ord_recl big_ord0 !mxE mulr1 addr0.
  rewrite mulmxDl !mulmxBr mul1mx mul1mx JJ mul_mx_scalar scaler_nat.
  have -> : 3%:R%:M - const_mx 1 + (const_mx 1 *+ 3 - const_mx 1 *+ 2) = 3%:R%:M :> 'M[RF]_2.
    by rewrite -mulrnBr // mulr1n subrK.
  by rewrite scale_scalar_mx mulVf // pnatr_eq0.
have V b : normal_pdf corr2x2 (zeroed [set 1] (dv b)) = exp (- (b ^+ 2 / 3%:R))%R / Num.sqrt (\det corr2x2).
  rewrite /normal_pdf IE; congr (exp _ / _).
  rewrite !mxE !big_ord_recl big_ord0 !mxE !big_ord_recl !big_ord0 !mxE !inE /=.
  rewrite /eq_op /=.
  rewrite !(mulr0, mul0r, addr0) mulr1n.
  have -> : 3%:R - 1 = 1 + 1 :> RF by rewrite (natrD _ 2 1) addrK mulr2n.
  have h2 : 2%:R^-1 * (1 + 1) = 1 :> RF by rewrite -mulr2n mulVf // pnatr_eq0.
  move: (2%:R^-1) (3%:R^-1) h2 => h q h2.
  by rewrite -[X in _ = - X]mul1r -[X in _ = - (X * _)]h2; mc_norm RC; ring.
have W b : normal_pdf (pick2 A corr2x2) (pick A (dv b)) = exp (- (b ^+ 2 / 4%:R))%R / Num.sqrt (\det (pick2 A corr2x2)).
  rewrite /normal_pdf PA invmx_scalar; congr (exp _ / _).
  rewrite mul_mx_scalar -scalemxAl !mxE.
  have A1 : #|A| = 1%N by rewrite AE cards1.
  have -> : \sum_j pick A (dv b) 0 j * (pick A (dv b))^T j 0 = b ^+ 2.
    transitivity (\sum_(j < #|A|) b ^+ 2); last by rewrite sumr_const card_ord A1.
    by apply: eq_bigr => j _; rewrite !mxE (A0 _ (enum_valP j)) /= expr2.
  have -> : 4%:R = 2%:R * 2%:R :> RF by rewrite -natrM.
  rewrite invfM; move: (2%:R^-1) => h.
  by mc_norm RC; ring.
have pC := sqrt_det_gt0 pd_corr; have pA := sqrt_det_gt0 (pd_pick2 A pd_corr).
set s := Num.sqrt _ in pC V; set r := Num.sqrt _ in pA W.
case: (c =P r / s) => [cE|cN].
  exists (dv 1); have [p E pE] := C51_masked (fun _ : 'I_1 => dv 1) (m := fun=> [set 1]) (k0 := 0) mT pd_corr.
  exists p; split=> //; rewrite pE V W cE !expr1n !div1r => H.
  have {H} : exp (- 3%:R^-1)%R = exp (- 4%:R^-1)%R.
    apply: (mulIf (x := s^-1)); first by rewrite invr_eq0 gt_eqF.
    rewrite H; set e := exp _; have rr : r * r^-1 = 1 by rewrite mulfV // gt_eqF.
    have -> : r / s * (e / r) = e / s * (r / r) by move: (s^-1) (r^-1) => s1 r1; mc_norm RC; ring.
    by rewrite rr mulr1.
  by move/exp_inv/oppr_inj/invr_inj/eqP; rewrite eqr_nat.
exists (dv 0); have [p E pE] := C51_masked (fun _ : 'I_1 => dv 0) (m := fun=> [set 1]) (k0 := 0) mT pd_corr.
exists p; split=> //; rewrite pE V W expr0n /= !mul0r oppr0 exp_0 => H; case: cN.
rewrite mulrA mulr1 div1r in H; apply: (mulIf (x := r^-1)); first by rewrite invr_eq0 gt_eqF.
by rewrite -H mulrAC mulfV ?gt_eqF // mul1r.
Qed.

(** In the uncorrelated case it is the marginal density exactly when the
    masked components leave the determinant alone. *)
Theorem C51_marginal_iff N n (dev : 'I_N -> 'rV[RF]_n) m cov k0 : m k0 <> setT -> pd cov ->
  (forall k i j, i \notin m k -> j \in m k -> cov i j = 0) ->
  exists2 p, mvn_pdf exp dev (Some m) cov = Ok p &
  forall k, p k = normal_pdf (pick2 (~: m k) cov) (pick (~: m k) (dev k)) <-> \det (pick2 (~: m k) cov) = \det cov.
Proof.
move=> mT P Z; have [p E pE] := C51_uncorrelated dev mT P Z; exists p => // k; rewrite pE.
have sA := sqrt_det_gt0 (pd_pick2 (~: m k) P); have sC := sqrt_det_gt0 P.
have ge0 l (M : 'M[RF]_l) : 0 < Num.sqrt (\det M) -> 0 <= \det M by rewrite sqrtr_gt0 => /ltW.
have N0 : normal_pdf (pick2 (~: m k) cov) (pick (~: m k) (dev k)) != 0.
  rewrite mulf_neq0 ?invr_eq0 ?gt_eqF //; apply/RltP; exact: exp_pos.
split=> [/esym H|->]; last by rewrite mulfV ?mulr1 // gt_eqF.
have {}H : Num.sqrt (\det (pick2 (~: m k) cov)) = Num.sqrt (\det cov).
  apply: (mulIf (x := (Num.sqrt (\det cov))^-1)); first by rewrite invr_eq0 gt_eqF.
  by rewrite mulfV ?gt_eqF //; apply: (mulfI N0); rewrite -H mulr1.
by rewrite -(sqr_sqrtr (ge0 _ _ sA)) H sqr_sqrtr // ge0.
Qed.

(** So a fully masked point is not given density one when another point of
    the same batch is not fully masked. *)
Theorem C51_row_refuted : exists N n (dev : 'I_N -> 'rV[RF]_n) m cov k p,
  [/\ pd cov, m k = setT, mvn_pdf exp dev (Some m) cov = Ok p & p k <> 1].
Proof.
pose m (k : 'I_2) : {set 'I_1} := if k == 0 then setT else set0.
have m1 : m 1 <> setT by move/setP /(_ 0); rewrite !inE.
have P4 : pd (4%:R%:M : 'M[RF]_1).
  by rewrite -scalemx1; apply: pdZ (pd1 _ _); rewrite ltr0n.
have [p E pE] := C51_masked (fun=> 0) m1 P4.
exists 2%N, 1%N, (fun=> 0), m, 4%:R%:M, 0, p; split=> //.
rewrite pE /normal_pdf det_scalar expr1.
have -> : zeroed (m 0) 0 = 0 by apply/rowP => j; rewrite !mxE; case: ifP.
rewrite !mul0mx mxE mulr0 exp_0 => H.
have : Num.sqrt (4%:R : RF) = 1 by apply: invr_inj; rewrite -div1r H invr1.
move/(congr1 (fun a => a ^+ 2)); rewrite sqr_sqrtr ?ler0n // expr1n => /eqP.
by rewrite (eqr_nat _ 4 1).
Qed.

(** The hypotheses of the masked theorems are met by two uncorrelated
    components of which one is masked. *)
Example C51_nonvacuous : exists (cov : 'M[RF]_2) (m : 'I_1 -> {set 'I_2}),
  [/\ pd cov, m 0 <> setT, m 0 <> set0, forall k i j, i \notin m k -> j \in m k -> cov i j = 0 & \det cov <> 1].
Proof.
exists (2%:R%:M), (fun=> [set 1]); split.
- by rewrite -scalemx1; apply: pdZ (pd1 _ _); rewrite ltr0n.
- by move/setP /(_ 0); rewrite !inE.
- by move/setP /(_ 1); rewrite !inE.
- by move=> _ i j; rewrite !inE !mxE => ni /eqP ->; rewrite (negbTE ni).
by rewrite det_scalar -natrX => /eqP; rewrite (eqr_nat _ 4 1).
Qed.
End Pdf.

(** * C52 *)

Section SvdSqrt.
Variable F : rcfType.

(** [svd_sqrt(a)] is a square root of [a a^T]. *)
Theorem C52_gram n (a u : 'M[F]_n) s vh : is_svd a u s vh -> svd_sqrt u s *m (svd_sqrt u s)^T = a *m a^T.
Proof.
move=> [_ VV _ ->]; have -> : svd_sqrt u s = u *m diag_mx s.
  by apply/matrixP => i j; rewrite mul_mx_diag !mxE.
by rewrite [in RHS]trmx_mul mulmxA -[_ *m vh *m vh^T]mulmxA VV mulmx1.
Qed.

(** Of a symmetric matrix, exactly when it is idempotent. *)
Theorem C52_iff n (a u : 'M[F]_n) s vh : is_svd a u s vh -> a^T = a ->
  svd_sqrt u s *m (svd_sqrt u s)^T = a <-> a *m a = a.
Proof. by move=> D S; rewrite (C52_gram D) S. Qed.

(** Hence whatever decomposition is returned, it is no square root of twice
    the identity. *)
Theorem C52_refuted n (u : 'M[F]_n.+1) s vh : is_svd 2%:R%:M u s vh -> svd_sqrt u s *m (svd_sqrt u s)^T <> 2%:R%:M.
Proof.
move=> D; rewrite (C52_iff D) ?tr_scalar_mx // -scalar_mxM => /matrixP /(_ 0 0).
by rewrite !mxE eqxx !mulr1n -natrM => /eqP; rewrite eqr_nat.
Qed.

(** No sample is ever drawn. *)
Theorem C52_rvs n (mean : 'rV[F]_n) u s : mvn_rvs mean u s = Err TypeError.
Proof. by []. Qed.

Example C52_nonvacuous : exists (a u : 'M[F]_2) s vh, [/\ is_svd a u s vh, a^T = a, psd a & a = 2%:R%:M].
Proof.
exists 2%:R%:M, 1%:M, (const_mx 2%:R), 1%:M; split=> //; last 2 first.
- by rewrite tr_scalar_mx.
- by apply: pd_psd; rewrite -scalemx1; apply: pdZ (pd1 _ _); rewrite ltr0n.
split; rewrite ?trmx1 ?mulmx1 //.
  by move=> j; rewrite mxE ler0n.
by rewrite diag_const_mx mul1mx.
Qed.
End SvdSqrt.
