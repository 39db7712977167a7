(** Facts about the unscented transform of [KalModel]. *)
From Coq Require Import String.
From Verif Require Import Py.
From mathcomp Require Import all_ssreflect all_algebra.
From Verif Require Import KalModel PsdLemmas CholLemmas.
Set Implicit Arguments.
Unset Strict Implicit.
Unset Printing Implicit Defensive.
Import Order.TTheory GRing.Theory Num.Theory.
Local Open Scope ring_scope.

Section Ut.
Variable F : rcfType.
Variables (ni : nat) (kappa : F).
Hypothesis nk : ni%:R + kappa != 0.

Lemma everyE m n (v : 'rV[F]_n) : every m v = const_mx 1 *m v.
Proof. by apply/matrixP => i j; rewrite !mxE big_ord1 !mxE mul1r. Qed.
Lemma every_mul m n p (v : 'rV[F]_n) (A : 'M[F]_(n, p)) : every m v *m A = every m (v *m A).
Proof. by rewrite !everyE mulmxA. Qed.
Lemma everyD m n (v w : 'rV[F]_n) : every m (v + w) = every m v + every m w.
Proof. by rewrite !everyE mulmxDr. Qed.

Lemma weights_sum : weights ni kappa *m const_mx 1 = 1%:M.
Proof.
rewrite /weights -[const_mx 1]col_mx_const mul_row_col.
apply/matrixP => i j; rewrite !ord1 !mxE eqxx.
under eq_bigr do rewrite !mxE mulr1.
under [X in _ + X]eq_bigr do rewrite !mxE mulr1.
rewrite !sumr_const !card_ord -[X in X + _]mulr_natl natrD.
have n2 : (2%:R : F) != 0 by rewrite pnatr_eq0.
have -> : (ni%:R + ni%:R) * (2%:R^-1 / (ni%:R + kappa)) = ni%:R / (ni%:R + kappa).
  by rewrite -mulr2n -mulr_natr mulrA mulfK.
have -> : kappa / (ni%:R + kappa) *+ (kappa != 0) = kappa / (ni%:R + kappa).
  by have [->|_] := eqVneq kappa 0; rewrite ?mul0r ?mul0rn ?mulr1n.
by rewrite -mulrDl divff.
Qed.

Lemma weights_every n (v : 'rV[F]_n) : weights ni kappa *m every _ v = v.
Proof. by rewrite everyE mulmxA weights_sum mul1mx. Qed.

Lemma weights_dev (S : 'M[F]_ni) : weights ni kappa *m deviations kappa S = 0.
Proof.
rewrite /weights /deviations mul_row_col mulmx0 addr0.
by rewrite -row_mx_const mul_row_col mulmxN addrN.
Qed.

Lemma cov_dev (S : 'M[F]_ni) :
  (deviations kappa S)^T *m diag_mx (weights ni kappa) *m deviations kappa S
    = (ni%:R + kappa)^-1 *: (S^T *m S).
Proof.
rewrite /weights /deviations diag_mx_row !tr_col_mx trmx0.
rewrite mul_row_block !mul0mx !mulmx0 !addr0 mul_row_col mulmx0 addr0.
have trN : (- S)^T = - S^T by apply/matrixP => a b; rewrite !mxE.
rewrite diag_const_mx mul_mx_scalar -scalemxAl mul_row_col trN mulmxN mulNmx opprK.
rewrite -mulr2n -scaler_nat scalerA; congr (_ *: _).
by rewrite mulrAC mulVf ?pnatr_eq0 // mul1r.
Qed.

Section OneTransform.
Variable sqrtm : 'M[F]_ni -> res 'M[F]_ni.
Variables (no : nat) (i : 'rV[F]_ni) (Pi : 'M[F]_ni) (f : 'rV[F]_ni -> 'rV[F]_no).
Variable u : ut_data ni kappa no.
Hypothesis Tu : transform kappa sqrtm i Pi f = Ok u.

(** What a successful transform holds. *)
Lemma transform_ok : exists2 S, sqrtm ((ni%:R + kappa) *: Pi) = Ok S &
  u = (let idev := deviations kappa S in
       let isigma := idev + every _ i in
       let osigma := at_rows f isigma in
       let o := weights ni kappa *m osigma in
       let odev := osigma - every _ o in
       UT S isigma idev osigma odev o (odev^T *m diag_mx (weights ni kappa) *m odev)).
Proof.
move: Tu; rewrite /transform; case: (sqrtm _) => [S|e] //= [<-].
by exists S.
Qed.

Lemma u_idevE : u_idev u = deviations kappa (u_S u).
Proof. by have [S _ ->] := transform_ok. Qed.
Lemma u_isigmaE : u_isigma u = u_idev u + every _ i.
Proof. by have [S _ ->] := transform_ok. Qed.
Lemma u_osigmaE : u_osigma u = at_rows f (u_isigma u).
Proof. by have [S _ ->] := transform_ok. Qed.
Lemma u_oE : u_o u = weights ni kappa *m u_osigma u.
Proof. by have [S _ ->] := transform_ok. Qed.
Lemma u_odevE : u_odev u = u_osigma u - every _ (u_o u).
Proof. by have [S _ ->] := transform_ok. Qed.
Lemma u_PoE : u_Po u = (u_odev u)^T *m diag_mx (weights ni kappa) *m u_odev u.
Proof. by have [S _ ->] := transform_ok. Qed.
Lemma u_SE : sqrtm ((ni%:R + kappa) *: Pi) = Ok (u_S u).
Proof. by have [S -> ->] := transform_ok. Qed.

Lemma u_Po_sym : (u_Po u)^T = u_Po u.
Proof. by rewrite u_PoE !trmx_mul trmxK tr_diag_mx mulmxA. Qed.

Lemma u_odev_mean : weights ni kappa *m u_odev u = 0.
Proof. by rewrite u_odevE mulmxBr weights_every -u_oE subrr. Qed.

(** For a square root of its argument. *)
Hypothesis SS : (u_S u)^T *m u_S u = (ni%:R + kappa) *: Pi.

Lemma cov_idev : (u_idev u)^T *m diag_mx (weights ni kappa) *m u_idev u = Pi.
Proof. by rewrite u_idevE cov_dev SS scalerA mulVf // scale1r. Qed.

(** Affine functions. *)
Lemma transform_affine (A : 'M[F]_(ni, no)) b : (forall x, f x = x *m A + b) ->
  [/\ u_o u = i *m A + b, u_odev u = u_idev u *m A, u_Po u = A^T *m Pi *m A & crosscov u = Pi *m A].
Proof.
move=> fA; have osE : u_osigma u = u_isigma u *m A + every _ b.
  rewrite u_osigmaE; apply/matrixP => k j; rewrite !mxE fA !mxE; congr (_ + _).
  by apply: eq_bigr => l _; rewrite !mxE.
have oE : u_o u = i *m A + b.
  rewrite u_oE osE u_isigmaE mulmxDl !mulmxDr mulmxA u_idevE weights_dev mul0mx add0r.
  by rewrite every_mul !weights_every.
have odE : u_odev u = u_idev u *m A.
  by rewrite u_odevE oE osE u_isigmaE mulmxDl every_mul everyD opprD addrACA addrK subrr addr0.
split=> //.
  by rewrite u_PoE odE trmx_mul -!mulmxA; congr (_ *m _); rewrite !mulmxA cov_idev.
by rewrite /crosscov odE mulmxA cov_idev.
Qed.

Hypothesis kappa_ge0 : 0 <= kappa.
Lemma weights_ge0 k : 0 <= weights ni kappa 0 k.
Proof.
rewrite /weights mxE; case: splitP => j _; rewrite mxE.
  by rewrite mulr_ge0 ?invr_ge0 ?addr_ge0 ?ler0n ?ler01.
by rewrite mulr_ge0 ?invr_ge0 ?addr_ge0 ?ler0n.
Qed.
Lemma psd_u_Po : psd (u_Po u).
Proof. by rewrite u_PoE; apply: psd_congT; apply: psd_diag; apply: weights_ge0. Qed.

(** The joint covariance of input and output. *)
Lemma joint_psd : psd (block_mx Pi (crosscov u) (crosscov u)^T (u_Po u)).
Proof.
have -> : block_mx Pi (crosscov u) (crosscov u)^T (u_Po u)
    = (row_mx (u_idev u) (u_odev u))^T *m diag_mx (weights ni kappa) *m row_mx (u_idev u) (u_odev u).
  rewrite tr_row_mx mul_col_mx mul_col_row cov_idev -u_PoE.
  by rewrite /crosscov !trmx_mul trmxK tr_diag_mx mulmxA.
by apply: psd_congT; apply: psd_diag; apply: weights_ge0.
Qed.
End OneTransform.
End Ut.
