(** Properties of the unscented transform: C31, C32, C33, C34. *)
From Coq Require Import String.
From Verif Require Import Py.
From mathcomp Require Import all_ssreflect all_algebra.
From Verif Require Import KalModel PsdLemmas CholLemmas UtLemmas.
Set Implicit Arguments.
Unset Strict Implicit.
Unset Printing Implicit Defensive.
Import Order.TTheory GRing.Theory Num.Theory.
Local Open Scope ring_scope.

Section Ut.
Variable F : rcfType.

(** * Specifications *)

(** [U], [s], [VT] is a singular value decomposition of [Q]: orthogonal
    factors and nonnegative singular values (the contract of
    [np.linalg.svd] for a square matrix). *)
Definition is_svd n (Q U : 'M[F]_n) (s : 'rV[F]_n) (VT : 'M[F]_n) :=
  [/\ U^T *m U = 1%:M, VT *m VT^T = 1%:M, forall j, 0 <= s 0 j & Q = U *m diag_mx s *m VT].

(** A square root in the sense needed by the transform. *)
Definition root_of n (Q S : 'M[F]_n) := S^T *m S = Q.

(** Weighted mean and covariance of the rows of a matrix. *)
Definition wmean m n (w : 'rV[F]_m) (X : 'M[F]_(m, n)) j := \sum_k w 0 k * X k j.
Definition wcov m n p (w : 'rV[F]_m) (X : 'M[F]_(m, n)) (Y : 'M[F]_(m, p)) i j :=
  \sum_k w 0 k * (X k i - wmean w X i) * (Y k j - wmean w Y j).

(** * C34 *)

(** Trace and uniqueness of positive semidefinite square roots. *)
Lemma psd_diag_ge0 n (A : 'M[F]_n) i : psd A -> 0 <= A i i.
Proof. by move=> [_ H]; have := H (delta_mx 0 i); rewrite /qf trmx_delta -rowE -colE !mxE. Qed.
Lemma psd_off n (A : 'M[F]_n) i j : psd A -> A i i = 0 -> A j j = 0 -> A i j = 0.
Proof.
move=> [SA PA] Ei Ej.
have bE : (delta_mx 0 i *m A *m (delta_mx 0 j)^T : 'M_1) 0 0 = A i j.
  by rewrite trmx_delta -rowE -colE !mxE.
have dE k : qf A (delta_mx 0 k) = A k k by rewrite /qf trmx_delta -rowE -colE !mxE.
have H1 := PA (delta_mx 0 i + delta_mx 0 j).
have H2 := PA (delta_mx 0 i + - delta_mx 0 j).
move: H1 H2; rewrite !qf_add // bE.
have -> : qf A (- delta_mx 0 j) = A j j by rewrite -dE /qf linearN /= mulNmx mulmxN mulNmx opprK.
have -> : (delta_mx 0 i *m A *m (- delta_mx 0 j)^T : 'M_1) 0 0 = - A i j.
  by rewrite linearN /= mulmxN mxE bE.
rewrite !dE Ei Ej !add0r !addr0 mulrN oppr_ge0 => H1 H2.
have : 2%:R * A i j == 0 by rewrite eq_le H2 H1.
by rewrite mulf_eq0 pnatr_eq0 /= => /eqP.
Qed.
Lemma psd_trace0 n (A : 'M[F]_n) : psd A -> \tr A = 0 -> A = 0.
Proof.
move=> PA /eqP; rewrite /mxtrace psumr_eq0; last by move=> i _; apply: psd_diag_ge0.
move=> /allP H; have Z i : A i i = 0 by have := H i (mem_index_enum _) => /eqP.
by apply/matrixP => i j; rewrite mxE psd_off.
Qed.
Lemma psd_trace_ge0 n (A : 'M[F]_n) : psd A -> 0 <= \tr A.
Proof. by move=> PA; apply: sumr_ge0 => i _; apply: psd_diag_ge0. Qed.

Lemma gram0 m n (D : 'M[F]_(m, n)) : D^T *m D = 0 -> D = 0.
Proof.
move=> E; apply/matrixP => i j; have := congr1 (fun M : 'M_n => M j j) E.
rewrite !mxE => /eqP; rewrite psumr_eq0; last first.
  by move=> k _; rewrite mxE -expr2 sqr_ge0.
move=> /allP /(_ i (mem_index_enum _)) /=.
by rewrite mxE -expr2 sqrf_eq0 => /eqP.
Qed.

Lemma psd_root_unique n (A B : 'M[F]_n) : psd A -> psd B -> A *m A = B *m B -> A = B.
Proof.
move=> PA PB E; apply/eqP; rewrite -subr_eq0; apply/eqP.
set D := A - B.
have SD : D^T = D by rewrite /D linearB /= (psd_sym PA) (psd_sym PB).
have DA : D *m A = - (B *m D).
  by rewrite /D mulmxBl mulmxBr E opprB.
have P1 : psd (D *m A *m D) by rewrite -{2}SD; apply: psd_cong.
have P2 : psd (D *m B *m D) by rewrite -{2}SD; apply: psd_cong.
have T : \tr (D *m A *m D) = - \tr (D *m B *m D).
  by rewrite DA mulNmx raddfN /= mxtrace_mulC mulmxA.
have Z1 : \tr (D *m A *m D) = 0.
  by apply/eqP; rewrite eq_le psd_trace_ge0 // andbT T oppr_le0 psd_trace_ge0.
have Z2 : \tr (D *m B *m D) = 0 by apply/eqP; rewrite -oppr_eq0 -T Z1.
have D3 : D *m D *m D = 0.
  have -> : D *m D *m D = D *m A *m D - D *m B *m D by rewrite -mulmxBl -mulmxBr.
  by rewrite (psd_trace0 P1 Z1) (psd_trace0 P2 Z2) subrr.
apply: gram0; rewrite SD; apply: gram0.
by rewrite trmx_mul SD mulmxA D3 mul0mx.
Qed.

(** Cholesky option: on a symmetric matrix it succeeds exactly when the matrix
    is positive definite, and then returns the unique upper triangular root
    with positive diagonal; otherwise it raises [LinAlgError]. *)
Theorem C34_chol n (Q : 'M[F]_n) : Q^T = Q ->
  (forall S, chol Q = Ok S <-> [/\ upp S, posdiag S & root_of Q S]) /\
  (pd Q <-> exists S, chol Q = Ok S) /\
  (~ pd Q <-> chol Q = Err LinAlgError).
Proof.
move=> SQ; split; [by move=> S; apply: chol_spec|split].
  by split=> [/chol_pd|[S /(chol_ok_pd SQ)]].
split=> [np|E /chol_pd [S]]; last by rewrite E.
case E : (chol Q) => [S|e]; first by case: np; apply: (chol_ok_pd SQ E).
by rewrite (chol_err E).
Qed.

(** Only the lower triangle of the argument is read. *)
Theorem C34_chol_lower_triangle n (Q Q' : 'M[F]_n) :
  (forall i j : 'I_n, (j <= i)%N -> Q i j = Q' i j) -> chol Q = chol Q'.
Proof.
move=> E; rewrite /chol; congr (bind _ _).
elim: n Q Q' E => [|n IH]; first by move=> Q Q' _ /=; congr Ok; apply/matrixP => -[].
rewrite -[n.+1]/(1 + n)%N => Q Q' E /=; rewrite -(E 0 0) //.
have -> : dlsubmx Q = dlsubmx Q' by apply/matrixP => i j; rewrite !mxE E //= ord1.
case: ifP => // _; congr (bind _ _); apply: IH => i j lij.
by rewrite !mxE E // /= leq_add2l.
Qed.

(** SVD option: for every singular value decomposition of a symmetric matrix,
    the result is a square root exactly when the matrix is positive
    semidefinite. *)
Theorem C34_svd n (Q U : 'M[F]_n) s VT : is_svd Q U s VT -> Q^T = Q ->
  root_of Q (svd_root U s) <-> psd Q.
Proof.
move=> [UU VV s0 EQ] SQ.
have rE : (svd_root U s)^T *m svd_root U s = U *m diag_mx s *m U^T.
  have -> : svd_root U s = diag_mx (map_mx Num.sqrt s) *m U^T.
    by apply/matrixP => i j; rewrite mul_diag_mx !mxE mulrC.
  rewrite trmx_mul trmxK tr_diag_mx mulmxA; congr (_ *m _); rewrite -mulmxA; congr (_ *m _).
  rewrite mulmx_diag; congr diag_mx.
  by apply/rowP => j; rewrite !mxE -expr2 sqr_sqrtr.
rewrite /root_of; split=> [<-|PQ]; first exact: psd_gram.
rewrite rE; apply: psd_root_unique => //.
  by apply: psd_cong; apply: psd_diag.
have -> : Q *m Q = Q *m Q^T by rewrite SQ.
rewrite EQ !trmx_mul tr_diag_mx !mulmxA -[X in X *m diag_mx s *m U^T]mulmxA UU mulmx1.
by rewrite -[X in _ = X *m _ *m _]mulmxA VV mulmx1.
Qed.

(** A concrete factorisation: [[4, 2], [2, 2]] has root [[2, 1], [0, 1]]. *)
Definition S22 : 'M[F]_2 := \matrix_(i, j) (if (j < i)%N then 0 else if (i == 0) && (j == 0) then 2%:R else 1).
Example C34_nonvacuous : chol (S22^T *m S22) = Ok S22 /\ (S22^T *m S22) 0 0 = 4%:R /\ pd (S22^T *m S22).
Proof.
have E : chol (S22^T *m S22) = Ok S22.
  apply/chol_spec; first by rewrite trmx_mul trmxK.
  split=> // [i j lij|i]; rewrite mxE ?lij // ltnn andbb.
  by case: ifP => _; rewrite ?ltr0n ?ltr01.
split=> //; split; last by apply: chol_ok_pd E; rewrite trmx_mul trmxK.
by rewrite !mxE big_ord_recl big_ord1 !mxE /= mulr0 addr0 -natrM.
Qed.
(** An indefinite symmetric matrix with a decomposition: the root is wrong. *)
Theorem C34_svd_indefinite : exists (Q U VT : 'M[F]_1) s,
  [/\ is_svd Q U s VT, Q^T = Q, ~ psd Q & ~ root_of Q (svd_root U s)].
Proof.
have S : is_svd (- 1%:M) 1%:M (const_mx 1) (- 1%:M : 'M[F]_1).
  split; first by rewrite trmx1 mulmx1.
  - by rewrite linearN /= trmx1 mulmxN mulNmx opprK mulmx1.
  - by move=> j; rewrite mxE ler01.
  - by rewrite diag_const_mx !mul1mx.
have SQ : (- 1%:M : 'M[F]_1)^T = - 1%:M by rewrite linearN /= trmx1.
have np : ~ psd (- 1%:M : 'M[F]_1).
  by move=> /(psd_diag_ge0 0); rewrite !mxE eqxx oppr_ge0 ler10.
by exists (- 1%:M), 1%:M, (- 1%:M), (const_mx 1); split=> // /(C34_svd S SQ).
Qed.

(** * C31 *)

Theorem C31_weights ni (kappa : F) : ni%:R + kappa != 0 -> \sum_k weights ni kappa 0 k = 1.
Proof.
move=> nk; have := congr1 (fun M : 'M_1 => M 0 0) (weights_sum nk).
by rewrite !mxE eqxx mulr1n => E; rewrite -[RHS]E; apply: eq_bigr => k _; rewrite [const_mx _ _ _]mxE mulr1.
Qed.

Lemma wmeanE m n (w : 'rV[F]_m) (X : 'M[F]_(m, n)) j : wmean w X j = (w *m X) 0 j.
Proof. by rewrite mxE. Qed.
Lemma wcovE m n p (w : 'rV[F]_m) (X : 'M[F]_(m, n)) (Y : 'M[F]_(m, p)) :
  (\matrix_(i, j) wcov w X Y i j) = (X - every m (w *m X))^T *m diag_mx w *m (Y - every m (w *m Y)).
Proof.
apply/matrixP => i j; rewrite mul_mx_diag !mxE; apply: eq_bigr => k _.
by rewrite !mxE -/(wmean w X i) -/(wmean w Y j) (mulrC (w 0 k)).
Qed.

(** The sigma points have the mean and covariance they were made from. *)
Theorem C31_moments ni no (kappa : F) sqrtm i Pi (f : 'rV[F]_ni -> 'rV[F]_no) u :
  ni%:R + kappa != 0 -> transform kappa sqrtm i Pi f = Ok u ->
  root_of ((ni%:R + kappa) *: Pi) (u_S u) ->
  (forall j, wmean (weights ni kappa) (u_isigma u) j = i 0 j) /\
  (forall a b, wcov (weights ni kappa) (u_isigma u) (u_isigma u) a b = Pi a b).
Proof.
move=> nk Tu R.
have mE : weights ni kappa *m u_isigma u = i.
  by rewrite (u_isigmaE Tu) mulmxDr weights_every // (u_idevE Tu) weights_dev add0r.
split=> [j|a b]; first by rewrite wmeanE mE.
have := congr1 (fun M : 'M_ni => M a b) (wcovE (weights ni kappa) (u_isigma u) (u_isigma u)).
by rewrite mxE => ->; rewrite mE (u_isigmaE Tu) addrK (cov_idev nk Tu R).
Qed.

(** The two square roots: with [ni + kappa > 0], the Cholesky option works for
    every positive definite covariance, and the SVD option for every positive
    semidefinite one. *)
Theorem C31_options ni no (kappa : F) i Pi (f : 'rV[F]_ni -> 'rV[F]_no) : 0 < ni%:R + kappa ->
  (pd Pi -> exists2 u, transform kappa (@chol F ni) i Pi f = Ok u & root_of ((ni%:R + kappa) *: Pi) (u_S u)) /\
  (psd Pi -> forall U s VT, is_svd ((ni%:R + kappa) *: Pi) U s VT ->
    exists2 u, transform kappa (fun=> Ok (svd_root U s)) i Pi f = Ok u & root_of ((ni%:R + kappa) *: Pi) (u_S u)).
Proof.
move=> m0; split=> [PP|PP U s VT D].
  have PQ := pdZ m0 PP; have [S E] := chol_pd PQ.
  have [_ _ R] := (proj1 (chol_spec S (pd_sym PQ)) E).
  by rewrite /transform E /=; eexists; [reflexivity|].
have PQ := psdZ (ltW m0) PP; rewrite /transform /=; eexists; [reflexivity|].
exact: (proj2 (C34_svd D (psd_sym PQ)) PQ).
Qed.

(** * C32 *)

Theorem C32_affine ni no (kappa : F) sqrtm i Pi (f : 'rV[F]_ni -> 'rV[F]_no) u A b :
  ni%:R + kappa != 0 -> transform kappa sqrtm i Pi f = Ok u ->
  root_of ((ni%:R + kappa) *: Pi) (u_S u) ->
  (forall x, f x = x *m A + b) ->
  [/\ u_o u = i *m A + b, u_Po u = A^T *m Pi *m A & crosscov u = Pi *m A].
Proof. by move=> nk Tu R fA; have [] := transform_affine nk Tu R fA. Qed.

(** Mean, covariance and cross covariance of a transform are those of the
    weighted points, for every function. *)
Theorem C32_sample_moments ni no (kappa : F) sqrtm i Pi (f : 'rV[F]_ni -> 'rV[F]_no) u :
  ni%:R + kappa != 0 -> transform kappa sqrtm i Pi f = Ok u ->
  [/\ forall j, u_o u 0 j = \sum_k weights ni kappa 0 k * f (row k (u_isigma u)) 0 j,
      forall a b, u_Po u a b = wcov (weights ni kappa) (u_osigma u) (u_osigma u) a b &
      forall a b, crosscov u a b = wcov (weights ni kappa) (u_isigma u) (u_osigma u) a b].
Proof.
move=> nk Tu.
have mE : weights ni kappa *m u_isigma u = i.
  by rewrite (u_isigmaE Tu) mulmxDr weights_every // (u_idevE Tu) weights_dev add0r.
split=> [j|a b|a b].
- rewrite (u_oE Tu) mxE; apply: eq_bigr => k _; congr (_ * _).
  by rewrite (u_osigmaE Tu) mxE.
- have := congr1 (fun M : 'M_no => M a b) (wcovE (weights ni kappa) (u_osigma u) (u_osigma u)).
  by rewrite mxE => ->; rewrite -(u_oE Tu) -(u_odevE Tu) -(u_PoE Tu).
- have := congr1 (fun M : 'M_(ni, no) => M a b) (wcovE (weights ni kappa) (u_isigma u) (u_osigma u)).
  by rewrite mxE => ->; rewrite -(u_oE Tu) -(u_odevE Tu) mE (u_isigmaE Tu) addrK.
Qed.

Example C31_C32_nonvacuous : exists u,
  transform (3%:R : F) (@chol F 2) 0 (S22^T *m S22) (fun x => x *m (const_mx 1 : 'M_(2, 1))) = Ok u /\
  root_of ((2%:R + 3%:R) *: (S22^T *m S22)) (u_S u).
Proof.
have m0 : 0 < 2%:R + 3%:R :> F by rewrite -natrD ltr0n.
have [H _] := @C31_options 2 1 3%:R 0 (S22^T *m S22) (fun x => x *m (const_mx 1 : 'M_(2, 1))) m0.
by have [u E R] := H (proj2 (proj2 C34_nonvacuous)); exists u.
Qed.

(** * C33 *)

Theorem C33_symmetric ni no (kappa : F) sqrtm i Pi (f : 'rV[F]_ni -> 'rV[F]_no) u :
  transform kappa sqrtm i Pi f = Ok u -> (u_Po u)^T = u_Po u.
Proof. exact: u_Po_sym. Qed.

Theorem C33_psd ni no (kappa : F) sqrtm i Pi (f : 'rV[F]_ni -> 'rV[F]_no) u :
  transform kappa sqrtm i Pi f = Ok u -> 0 <= kappa ->
  psd (u_Po u) /\
  (ni%:R + kappa != 0 -> root_of ((ni%:R + kappa) *: Pi) (u_S u) ->
   psd (block_mx Pi (crosscov u) (crosscov u)^T (u_Po u))).
Proof.
by move=> Tu k0; split=> [|nk R]; [apply: psd_u_Po Tu k0|apply: (joint_psd nk Tu)].
Qed.

(** For a negative [kappa] (one input, unit variance, squaring) the output
    "covariance" is [kappa] itself. *)
Theorem C33_negative_kappa (kappa : F) : - 1 < kappa -> kappa < 0 -> exists u,
  transform kappa (@chol F 1) 0 1%:M (fun x => (x 0 0 ^+ 2)%:M : 'rV_1) = Ok u /\
  u_Po u 0 0 = kappa /\ ~ psd (u_Po u).
Proof.
move=> k1 k0; set f := fun x : 'rV[F]_1 => _.
have m0 : 0 < 1%:R + kappa by rewrite -ltr_subl_addl add0r.
have mn : (1%:R : F) + kappa != 0 by rewrite gt_eqF.
have [H _] := @C31_options 1 1 kappa 0 1%:M f m0.
have [u Tu R] := H (pd1 F 1); exists u; split=> //.
have kn : kappa != 0 by rewrite lt_eqF.
suff E : u_Po u 0 0 = kappa.
  by split=> // /(psd_diag_ge0 0); rewrite E leNgt k0.
have ss : u_S u 0 0 ^+ 2 = 1 + kappa.
  have := congr1 (fun M : 'M_1 => M 0 0) R.
  by rewrite !mxE big_ord1 mxE -expr2 eqxx mulr1.
have osE : u_osigma u = col_mx (col_mx (1 + kappa)%:M (1 + kappa)%:M) 0.
  rewrite (u_osigmaE Tu) (u_isigmaE Tu) (u_idevE Tu) /deviations.
  apply/matrixP => k j; rewrite ord1 /at_rows mxE /f !mxE eqxx mulr1n addr0.
  case: splitP => k' _; rewrite !mxE; last by rewrite expr2 mulr0.
  by case: splitP => k'' _; rewrite !ord1 !mxE ?sqrrN ss eqxx.
have oE : u_o u = 1%:M.
  rewrite (u_oE Tu) osE /weights mul_row_col mulmx0 addr0 -row_mx_const mul_row_col -mulmxDr.
  apply/matrixP => a b; rewrite !ord1 !mxE big_ord1 !mxE eqxx !mulr1n.
  by rewrite -[X in _ * X]mulr2n -[X in _ * X]mulr_natl mulrA mulrAC divfK // mulVf // pnatr_eq0.
have odE : u_odev u = col_mx (col_mx kappa%:M kappa%:M) (- const_mx 1).
  rewrite (u_odevE Tu) osE oE; apply/matrixP => a b; rewrite ord1 !mxE eqxx mulr1n.
  case: splitP => k' _; rewrite !mxE ?sub0r //.
  by case: splitP => k'' _; rewrite !ord1 !mxE eqxx mulr1n addrC addKr.
rewrite (u_PoE Tu) odE /weights diag_mx_row !tr_col_mx mul_row_block !mulmx0 addr0 add0r mul_row_col.
rewrite !diag_const_mx !mul_mx_scalar -!scalemxAl mul_row_col.
rewrite !tr_scalar_mx -!scalar_mxM -mulr2n.
rewrite !mxE eqxx mulr1n.
under eq_bigr do rewrite !mxE mulrNN mulr1.
rewrite sumr_const card_ord kn mulr1.
rewrite !mulr1n -[X in _ * X + _]mulr2n -[X in _ * X + _]mulr_natl mulrA mulrAC.
have -> : 2%:R^-1 / (1%:R + kappa) * (kappa * kappa) * 2%:R = kappa * kappa / (1%:R + kappa).
  rewrite -mulrA mulrC -!mulrA; congr (_ * _); congr (_ * _).
  by rewrite mulrA divff ?pnatr_eq0 // mul1r.
by rewrite -mulrDl -[X in _ + X]mul1r -mulrDl addrC mulrAC divff // mul1r.
Qed.
End Ut.
