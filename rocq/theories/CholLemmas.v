(** Facts about the Cholesky factorisation and inverse of [KalModel]. *)
From Coq Require Import String.
From Verif Require Import Py.
From mathcomp Require Import all_ssreflect all_algebra.
From Verif Require Import KalModel PsdLemmas.
Set Implicit Arguments.
Unset Strict Implicit.
Unset Printing Implicit Defensive.
Import Order.TTheory GRing.Theory Num.Theory.
Local Open Scope ring_scope.

Section Chol.
Variable F : rcfType.

(** Lower (upper) triangular with a positive diagonal. *)
Definition low n (L : 'M[F]_n) := forall i j : 'I_n, (i < j)%N -> L i j = 0.
Definition upp n (S : 'M[F]_n) := forall i j : 'I_n, (j < i)%N -> S i j = 0.
Definition posdiag n (L : 'M[F]_n) := forall i, 0 < L i i.

Lemma inv_ok n (M : 'M[F]_n) N : inv M = Ok N -> M \in unitmx /\ N = invmx M.
Proof. by rewrite /inv; case: ifP => // U [<-]. Qed.
Lemma inv_unit n (M : 'M[F]_n) : M \in unitmx -> inv M = Ok (invmx M).
Proof. by rewrite /inv => ->. Qed.

Lemma low_block n (l : F) (c : 'cV[F]_n) (L : 'M[F]_n) : low L -> low (block_mx l%:M 0 c L : 'M_(1 + n)).
Proof.
move=> TL i j; rewrite mxE; case: splitP => i' Ei; rewrite mxE; case: splitP => j' Ej; rewrite Ei Ej ?mxE //.
- by rewrite !ord1.
- by rewrite ord1 ltnNge leq0n.
- by rewrite ltn_add2l => /TL.
Qed.
Lemma posdiag_block n (l : F) (c : 'cV[F]_n) (L : 'M[F]_n) : 0 < l -> posdiag L -> posdiag (block_mx l%:M 0 c L : 'M_(1 + n)).
Proof.
move=> l0 PL i; rewrite mxE; case: splitP => i' Ei; rewrite mxE; case: splitP => j' Ej; rewrite ?mxE.
- by rewrite !ord1.
- by have := ltn_ord i'; rewrite -Ei Ej.
- by have := ltn_ord j'; rewrite -Ej Ei.
- move: Ei; rewrite Ej => /eqP; rewrite eqn_add2l => /eqP E.
  by rewrite (_ : j' = i') //; apply: val_inj.
Qed.
Lemma low_unblock n (L : 'M[F]_(1 + n)) : low L ->
  L = block_mx (L 0 0)%:M 0 (dlsubmx L) (drsubmx L) /\ low (drsubmx L).
Proof.
move=> TL; split; last by move=> i j lij; rewrite !mxE TL //= ltn_add2l.
rewrite -[LHS]submxK; congr block_mx; apply/matrixP => i j; rewrite !mxE.
  by rewrite !ord1 /= mulr1n; congr (L _ _); apply: val_inj.
by apply: TL; rewrite /= ord1.
Qed.
Lemma posdiag_unblock n (L : 'M[F]_(1 + n)) : posdiag L -> 0 < L 0 0 /\ posdiag (drsubmx L).
Proof. by move=> PL; split=> [|i]; rewrite ?mxE. Qed.

Lemma posdiag_unit n (L : 'M[F]_n) : low L -> posdiag L -> L \in unitmx.
Proof.
elim: n L => [|n IH]; first by move=> L _ _; rewrite (_ : L = 1%:M) ?unitmx1 //; apply/matrixP => -[].
rewrite -[n.+1]/(1 + n)%N => L TL PL.
have [E T1] := low_unblock TL; have [l0 P1] := posdiag_unblock PL.
have -> : L \in unitmx = (block_mx (L 0 0)%:M 0 (dlsubmx L) (drsubmx L) \in unitmx) by rewrite -E.
rewrite unitmxE det_lblock det_scalar expr1 unitrM -unitmxE IH // andbT.
by rewrite unitfE gt_eqF.
Qed.

(** The factorisation of a block matrix. *)
Lemma block_sym n (Q : 'M[F]_(1 + n)) : Q^T = Q ->
  [/\ Q = block_mx (Q 0 0)%:M (dlsubmx Q)^T (dlsubmx Q) (drsubmx Q) & (drsubmx Q)^T = drsubmx Q].
Proof.
move=> SQ; split; last first.
  by apply/matrixP => i j; rewrite !mxE -[in LHS]SQ mxE.
rewrite -[LHS]submxK; congr block_mx; apply/matrixP => i j; rewrite !mxE.
  by rewrite !ord1 /= mulr1n; congr (Q _ _); apply: val_inj.
by rewrite -[in LHS]SQ mxE.
Qed.

Lemma block_mul n (l : F) (c : 'cV[F]_n) (L : 'M[F]_n) :
  block_mx l%:M 0 c L *m (block_mx l%:M 0 c L)^T
    = block_mx (l ^+ 2)%:M (l *: c^T) (l *: c) (c *m c^T + L *m L^T) :> 'M_(1 + n).
Proof.
rewrite (tr_block_mx (l%:M : 'M_1)) mulmx_block; congr block_mx.
- by rewrite mul0mx addr0 tr_scalar_mx -scalar_mxM -expr2.
- by rewrite mul0mx addr0 mul_scalar_mx.
- by rewrite trmx0 mulmx0 addr0 tr_scalar_mx mul_mx_scalar.
Qed.

(** The Schur complement of the pivot. *)
Definition schur n (Q : 'M[F]_(1 + n)) : 'M[F]_n :=
  drsubmx Q - ((Num.sqrt (Q 0 0))^-1 *: dlsubmx Q) *m ((Num.sqrt (Q 0 0))^-1 *: dlsubmx Q)^T.

Lemma schur_sym n (Q : 'M[F]_(1 + n)) : Q^T = Q -> (schur Q)^T = schur Q.
Proof.
move=> SQ; have [_ SD] := block_sym SQ.
by rewrite /schur linearB /= SD trmx_mul trmxK.
Qed.

Lemma pd_block1 n (M : 'M[F]_n) : pd (block_mx 1%:M 0 0 M : 'M_(1 + n)) <-> pd M.
Proof.
have qE (u : 'rV_1) (v : 'rV_n) : qf (block_mx 1%:M 0 0 M) (row_mx u v) = qf 1%:M u + qf M v.
  rewrite /qf (mul_row_block u v) !mulmx0 ?addr0 ?add0r tr_row_mx mul_row_col.
  by rewrite mxE.
split=> -[SM PM]; split.
- move: SM; rewrite (tr_block_mx (1%:M : 'M_1)) => /eq_block_mx [_ _ _ ->] //.
- move=> v nz; have := PM (row_mx 0 v); rewrite qE qf0 add0r; apply.
  by apply: contra nz => /eqP; rewrite -row_mx0 => /eq_row_mx [_ ->].
- by rewrite (tr_block_mx (1%:M : 'M_1)) trmx1 !trmx0 SM.
- move=> w; rewrite -(hsubmxK (w : 'rV_(1 + n))) qE => nz.
  have [E|nz2] := eqVneq (rsubmx (w : 'rV_(1 + n))) 0.
    rewrite E qf0 addr0; apply: (proj2 (pd1 F 1)).
    by apply: contra nz => /eqP ->; rewrite E row_mx0.
  by rewrite ltr_paddl ?PM ?qf1_ge0.
Qed.

Lemma pd_schur n (Q : 'M[F]_(1 + n)) : Q^T = Q -> 0 < Q 0 0 -> pd Q <-> pd (schur Q).
Proof.
move=> SQ a0; set l := Num.sqrt (Q 0 0); set c := l^-1 *: dlsubmx Q.
have l0 : 0 < l by rewrite sqrtr_gt0.
pose B : 'M[F]_(1 + n) := block_mx l%:M 0 c 1%:M.
have UB : B \in unitmx.
  rewrite unitmxE det_lblock det_scalar expr1 det1 mulr1 unitfE gt_eqF //.
have E : Q = B *m block_mx 1%:M 0 0 (schur Q) *m B^T.
  have [E _] := block_sym SQ; rewrite [LHS]E /B (tr_block_mx (l%:M : 'M_1)).
  rewrite (mulmx_block (l%:M : 'M_1)) !mulmx0 !mul0mx !mulmx1 !mul1mx ?addr0 ?add0r.
  rewrite (mulmx_block (l%:M : 'M_1)) !trmx0 !mulmx0 !mul0mx ?addr0 ?add0r.
  rewrite tr_scalar_mx trmx1 mulmx1 -scalar_mxM mul_scalar_mx mul_mx_scalar.
  have lc : l *: c = dlsubmx Q by rewrite /c scalerA divff ?gt_eqF // scale1r.
  congr block_mx.
  - by rewrite -expr2 sqr_sqrtr // ltW.
  - by rewrite -[LHS]trmxK trmxK -linearZ /= lc.
  - by rewrite lc.
  - by rewrite /schur -/l -/c addrC subrK.
rewrite -(pd_block1 (schur Q)); split=> PQ; last by rewrite E; apply: pd_cong.
have := pd_cong (_ : invmx B \in unitmx) PQ; rewrite unitmx_inv => /(_ UB).
rewrite {1}E !mulmxA mulVmx // mul1mx -mulmxA -trmx_mul mulVmx // trmx1 mulmx1 //.
Qed.

(** The factorisation succeeds exactly on positive definite matrices. *)
Lemma chol_lower_spec n (Q : 'M[F]_n) : Q^T = Q ->
  match chol_lower Q with
  | Ok L => [/\ low L, posdiag L, L *m L^T = Q & pd Q]
  | Err e => e = LinAlgError /\ ~ pd Q
  end.
Proof.
elim: n Q => [|n IH]; [move=> Q SQ /=|rewrite -[n.+1]/(1 + n)%N => Q SQ /=].
  split=> //; [by move=> []| by move=> [] | by apply/matrixP => -[] | ].
  by split=> // v; rewrite (_ : v = 0) ?eqxx //; apply/matrixP => ? [].
case: ifPn => [a0|na].
  have := IH _ (schur_sym SQ); rewrite /schur.
  set l := Num.sqrt _; set c := l^-1 *: _; rewrite -/(schur Q).
  case: (chol_lower _) => [L|e] /=.
    case=> TL PL EL PS; have l0 : 0 < l by rewrite sqrtr_gt0.
    split; [exact: low_block|exact: posdiag_block| |exact/(pd_schur SQ a0)].
    have [E _] := block_sym SQ; rewrite block_mul EL [RHS]E.
    have lc : l *: c = dlsubmx Q by rewrite /c scalerA divff ?gt_eqF // scale1r.
    congr block_mx.
    - by rewrite sqr_sqrtr // ltW.
    - by rewrite -linearZ /= lc.
    - by rewrite lc.
    - by rewrite /schur -/l -/c addrC subrK.
  by case=> -> nS; split=> // /(pd_schur SQ a0).
split=> // PQ; case/negP: na; have [_ H] := PQ.
have := H (delta_mx 0 0); rewrite /qf trmx_delta -rowE -colE !mxE; apply.
by apply/eqP => /rowP /(_ 0); rewrite !mxE eqxx => /eqP; rewrite oner_eq0.
Qed.

(** Uniqueness: the factor of [L L^T] is [L]. *)
Lemma chol_lower_unique n (L : 'M[F]_n) : low L -> posdiag L -> chol_lower (L *m L^T) = Ok L.
Proof.
elim: n L => [|n IH]; first by move=> L _ _ /=; congr Ok; apply/matrixP => -[].
rewrite -[n.+1]/(1 + n)%N => L TL PL /=.
have [E T1] := low_unblock TL; have [l0 P1] := posdiag_unblock PL.
set l := L 0 0 in E l0; set c := dlsubmx L in E; set L1 := drsubmx L in E T1 P1.
have M := block_mul l c L1; rewrite -E in M.
have E00 : (L *m L^T) 0 0 = l ^+ 2.
  by rewrite M mxE; case: splitP => // i Ei; rewrite mxE; case: splitP => // j Ej; rewrite !mxE !ord1.
rewrite [in X in if X then _ else _]E00 exprn_gt0 // E00 sqrtr_sqr gtr0_norm //.
rewrite M block_mxKdl block_mxKdr scalerA mulVf ?gt_eqF // scale1r addrAC subrr add0r IH //=.
by rewrite -E.
Qed.

Lemma chol_spec n (Q S : 'M[F]_n) : Q^T = Q ->
  chol Q = Ok S <-> [/\ upp S, posdiag S & S^T *m S = Q].
Proof.
move=> SQ; have := chol_lower_spec SQ; rewrite /chol.
split.
  case: (chol_lower Q) H => [L|e] //= [TL PL EL _] [<-]; rewrite trmxK; split=> //.
    by move=> i j /TL; rewrite mxE.
  by move=> i; rewrite mxE.
case=> US PS ES; have TS : low S^T by move=> i j /US; rewrite mxE.
have := @chol_lower_unique _ S^T TS; rewrite trmxK ES => -> /=; first by rewrite trmxK.
by move=> i; rewrite mxE.
Qed.

Lemma chol_pd n (Q : 'M[F]_n) : pd Q -> exists S, chol Q = Ok S.
Proof.
move=> PQ; have := chol_lower_spec (pd_sym PQ); rewrite /chol.
by case: (chol_lower Q) => [L|e] //=; [exists L^T|case].
Qed.
Lemma chol_ok_pd n (Q S : 'M[F]_n) : Q^T = Q -> chol Q = Ok S -> pd Q.
Proof.
move=> SQ; have := chol_lower_spec SQ; rewrite /chol.
by case: (chol_lower Q) => [L|e] //= [].
Qed.
Lemma chol_err n (Q : 'M[F]_n) e : chol Q = Err e -> e = LinAlgError.
Proof.
rewrite /chol; case E : (chol_lower Q) => [L|e'] //= [<-].
elim: n Q e' E {e} => [|n IH] Q e' //=.
case: ifP => // _; last by case.
by case E : (chol_lower _) => [L|e''] //= [<-]; apply: IH E.
Qed.
Lemma upp_unit n (S : 'M[F]_n) : upp S -> posdiag S -> S \in unitmx.
Proof.
move=> US PS; rewrite -unitmx_tr; apply: posdiag_unit => [i j|i]; rewrite mxE //; exact: US.
Qed.
End Chol.
