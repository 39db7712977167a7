(** Matrix facts for changes of coordinates. *)
From Verif Require Import Py.
From mathcomp Require Import all_ssreflect all_algebra.
From Verif Require Import PsdLemmas KalModel CholLemmas KalLemmas UtLemmas.
Set Implicit Arguments.
Unset Strict Implicit.
Unset Printing Implicit Defensive.
Import Order.TTheory GRing.Theory Num.Theory.
Local Open Scope ring_scope.

Section Units.
Variable F : rcfType.

Definition rmap A B (f : A -> B) (r : res A) : res B := let* a := r in Ok (f a).

Lemma inv_congr n (U M V : 'M[F]_n) : U \in unitmx -> V \in unitmx ->
  inv (U *m M *m V) = rmap (fun X => invmx V *m X *m invmx U) (inv M).
Proof.
move=> UU UV; rewrite /inv !unitmx_mul UU UV andbT /=; case: ifP => //= UM; congr Ok.
have UUM : U *m M \in unitmx by rewrite unitmx_mul UU.
have UUMV : U *m M *m V \in unitmx by rewrite unitmx_mul UUM.
apply: (can_inj (mulKmx UUMV)); rewrite mulmxV // -!mulmxA (mulmxA V) mulmxV // mul1mx (mulmxA M) mulmxV // mul1mx.
by rewrite mulmxV.
Qed.

Definition sgn_mx n (g : 'rV[F]_n) : 'M[F]_n := diag_mx (map_mx Num.sg g).
Lemma sgn_sq n (g : 'rV[F]_n) : (forall i, g 0 i != 0) -> sgn_mx g *m sgn_mx g = 1%:M.
Proof.
move=> H; rewrite /sgn_mx mulmx_diag -diag_const_mx; congr diag_mx.
by apply/rowP => i; rewrite !mxE -expr2 sqr_sg H.
Qed.
Lemma diag_mulE m n (S : 'M[F]_(m, n)) (d : 'rV[F]_m) (g : 'rV[F]_n) i j : (diag_mx d *m S *m diag_mx g) i j = d 0 i * S i j * g 0 j.
Proof. by rewrite -mulmxA mul_diag_mx mul_mx_diag !mxE mulrA. Qed.
Lemma diag_unit n (g : 'rV[F]_n) : (forall i, g 0 i != 0) -> diag_mx g \in unitmx.
Proof. by move=> H; rewrite unitmxE det_diag unitfE; apply/prodf_neq0 => i _. Qed.

(** The factor of a rescaled matrix; signs go to its rows. *)
Lemma chol_scale n (Q : 'M[F]_n) (g : 'rV[F]_n) : Q^T = Q -> (forall i, g 0 i != 0) ->
  chol (diag_mx g *m Q *m diag_mx g) = rmap (fun S => sgn_mx g *m S *m diag_mx g) (chol Q).
Proof.
move=> SQ Hg; have SQ' : (diag_mx g *m Q *m diag_mx g)^T = diag_mx g *m Q *m diag_mx g.
  by rewrite !trmx_mul SQ !tr_diag_mx mulmxA.
case E : (chol Q) => [S|e] /=.
  have [U D R] := proj1 (chol_spec S SQ) E.
  apply/chol_spec => //; split.
  - by move=> i j ij; rewrite diag_mulE U // mulr0 mul0r.
  - move=> i; rewrite diag_mulE mxE mulrAC -normrEsg; apply: mulr_gt0 => //.
    by rewrite normr_gt0.
  - rewrite !trmx_mul !tr_diag_mx -R /sgn_mx !mulmxA; congr (_ *m _); rewrite -!mulmxA; congr (_ *m (_ *m _)).
    by rewrite mulmxA -/(sgn_mx g) sgn_sq // mul1mx.
case E' : (chol _) => [S'|e'] //=; last by rewrite (chol_err E) (chol_err E').
have Pd := chol_ok_pd SQ' E'; have UD := diag_unit Hg.
have PQ : pd Q.
  split=> // v nv; have [_ /(_ (v *m invmx (diag_mx g)))] := Pd.
  have -> : qf (diag_mx g *m Q *m diag_mx g) (v *m invmx (diag_mx g)) = qf Q v.
    by rewrite /qf !trmx_mul trmx_inv tr_diag_mx -!mulmxA !(mulmxA (diag_mx g) (invmx (diag_mx g))) mulmxV // mul1mx (mulmxA (invmx _) (diag_mx g)) mulVmx // mul1mx.
  apply; apply: contra nv => /eqP H; rewrite -[v](mulmxKV UD) H mul0mx //.
by have [S ES] := chol_pd PQ; rewrite ES in E.
Qed.

(** The factor after an upper triangular change of coordinates. *)
Lemma upp_mul n (S T : 'M[F]_n) : upp S -> upp T -> upp (S *m T) /\ forall i, (S *m T) i i = S i i * T i i.
Proof.
move=> US UT; split=> [i j ij|i]; rewrite mxE.
  apply: big1 => k _; case: (ltnP k i) => [/US ->|ik]; first by rewrite mul0r.
  by rewrite UT ?mulr0 //; apply: leq_trans ik.
rewrite (bigD1 i) //= big1 ?addr0 // => k nk.
case: (ltngtP k i) => [/US ->|/UT ->|/ord_inj E]; rewrite ?mul0r ?mulr0 //; by rewrite E eqxx in nk.
Qed.
Lemma chol_change n (Q T : 'M[F]_n) : Q^T = Q -> upp T -> posdiag T ->
  chol (T^T *m Q *m T) = rmap (fun S => S *m T) (chol Q).
Proof.
move=> SQ UT PT; have SQ' : (T^T *m Q *m T)^T = T^T *m Q *m T by rewrite !trmx_mul SQ trmxK mulmxA.
have T1 := upp_unit UT PT.
case E : (chol Q) => [S|e] /=.
  have [U D R] := proj1 (chol_spec S SQ) E; have [U1 D1] := upp_mul U UT.
  apply/chol_spec => //; split=> // [i|]; first by rewrite D1 mulr_gt0.
  by rewrite trmx_mul -R !mulmxA.
case E' : (chol _) => [S'|e'] //=; last by rewrite (chol_err E) (chol_err E').
have Pd := chol_ok_pd SQ' E'.
have PQ : pd Q.
  split=> // v nv; have [_ /(_ (v *m (invmx T)^T))] := Pd.
  have -> : qf (T^T *m Q *m T) (v *m (invmx T)^T) = qf Q v.
    rewrite /qf !trmx_mul trmxK -!mulmxA (mulmxA T) mulmxV // mul1mx (mulmxA _ T^T) -trmx_mul mulmxV //.
    by rewrite trmx1 mul1mx.
  apply; apply: contra nv => /eqP H.
  by rewrite -[v]mulmx1 -trmx1 -(mulmxV T1) trmx_mul mulmxA H mul0mx.
by have [S ES] := chol_pd PQ; rewrite ES in E.
Qed.

(** ** The unscented transform *)

Lemma deviations_mul n kappa (S T : 'M[F]_n) : deviations kappa (S *m T) = deviations kappa S *m T.
Proof. by rewrite /deviations !mul_col_mx mulNmx mul0mx. Qed.
Lemma every_mulr m n p (v : 'rV[F]_n) (M : 'M[F]_(n, p)) : every m (v *m M) = every m v *m M.
Proof. by rewrite !everyE mulmxA. Qed.
Lemma every_addv m n (v w : 'rV[F]_n) : every m (v + w) = every m v + every m w.
Proof. by apply/matrixP => i j; rewrite !mxE. Qed.

Lemma transform_change n no kappa (T : 'M[F]_n) (c : 'rV[F]_n) (M : 'M[F]_no) (d : 'rV[F]_no) i Pi (f f' : 'rV[F]_n -> 'rV[F]_no) :
  n%:R + kappa != 0 -> Pi^T = Pi -> upp T -> posdiag T -> (forall x, f' (x *m T + c) = f x *m M + d) ->
  transform kappa (@chol F n) (i *m T + c) (T^T *m Pi *m T) f' =
  rmap (fun u : ut_data n kappa no => UT (u_S u *m T) (u_isigma u *m T + every _ c) (u_idev u *m T)
    (u_osigma u *m M + every _ d) (u_odev u *m M) (u_o u *m M + d) (M^T *m u_Po u *m M)) (transform kappa (@chol F n) i Pi f).
Proof.
move=> nk SP HU PT Hf; rewrite /transform.
have -> : (n%:R + kappa) *: (T^T *m Pi *m T) = T^T *m ((n%:R + kappa) *: Pi) *m T by rewrite -scalemxAr -scalemxAl.
rewrite chol_change //; last by rewrite linearZ /= SP.
case: (chol _) => [S|e] //=; rewrite /rmap /=; congr Ok.
have E1 : deviations kappa (S *m T) + every _ (i *m T + c) = (deviations kappa S + every _ i) *m T + every _ c.
  by rewrite deviations_mul every_addv every_mulr mulmxDl addrA.
have E2 : at_rows f' (deviations kappa (S *m T) + every _ (i *m T + c)) = at_rows f (deviations kappa S + every _ i) *m M + every _ d.
  have rowD m p (A B : 'M[F]_(m, p)) k : row k (A + B) = row k A + row k B by apply/rowP => j; rewrite !mxE.
  rewrite E1; move: (deviations kappa S + every _ i) => X; apply/row_matrixP => k; rewrite [in RHS]rowD row_mul.
  have -> : row k (at_rows f X) = f (row k X) by apply/rowP => j; rewrite !mxE.
  have -> : row k (every _ d) = d by apply/rowP => j; rewrite !mxE.
  rewrite -Hf; apply/rowP => j; rewrite !mxE rowD row_mul; congr (f' (_ + _) _ _); by apply/rowP => l; rewrite !mxE.
set os := at_rows f _ in E2 *; set w := weights n kappa.
have E3 : w *m (os *m M + every _ d) = w *m os *m M + d by rewrite mulmxDr weights_every // mulmxA.
have E4 : os *m M + every _ d - every _ (w *m os *m M + d) = (os - every _ (w *m os)) *m M.
  by rewrite every_addv every_mulr opprD addrACA subrr addr0 mulmxBl.
rewrite E2 E1 E3 E4 deviations_mul; congr (UT _ _ _ _ _ _ _).
by rewrite trmx_mul !mulmxA.
Qed.
Lemma transform_sym n no kappa (r : 'M[F]_n -> res 'M[F]_n) i Pi (f : 'rV[F]_n -> 'rV[F]_no) (u : ut_data n kappa no) :
  transform kappa r i Pi f = Ok u -> (u_Po u)^T = u_Po u.
Proof.
rewrite /transform; case: (r _) => [S|e] //= [<-] /=.
by rewrite !trmx_mul tr_diag_mx trmxK mulmxA.
Qed.
End Units.
