(** C35: derivatives of the Cholesky factor. *)
From Coq Require Import String Reals Lra.
From Coquelicot Require Import Coquelicot.
From Verif Require Import Py.
From mathcomp Require Import all_ssreflect all_algebra.
From Verif Require Import RealField MxCalc KalModel PsdLemmas CholLemmas KalDiffModel CholDiffLemmas.
Set Implicit Arguments.
Unset Strict Implicit.
Unset Printing Implicit Defensive.
Import Order.TTheory GRing.Theory Num.Theory.
Local Open Scope ring_scope.

(** The value returned by [diff]: the linear system is not singular, and the
    result is the only upper triangular solution of
    [dS^T S + S^T dS = dQ]. *)
Theorem C35_diff (F : rcfType) n nq (Q S : 'M[F]_n) (dQ : 'I_nq -> 'M[F]_n) :
  Q^T = Q -> chol Q = Ok S -> (forall a, (dQ a)^T = dQ a) ->
  exists ALI dS, chol_diff S dQ = Ok (ALI, dS) /\
  forall a, [/\ upp (dS a), (dS a)^T *m S + S^T *m dS a = dQ a &
              forall X, upp X -> X^T *m S + S^T *m X = dQ a -> X = dS a].
Proof.
move=> SQ E SdQ; have [US PS ES] := (chol_spec S SQ).1 E.
exists (invmx (chol_AL S)), (fun a => unvecL (invmx (chol_AL S) *m vecL (dQ a))).
split=> [|a]; first exact: chol_diff_ok.
have [U EX] := lyap_solve US PS (SdQ a); split=> // X UX EX'.
exact: lyap_sol.
Qed.

(** [diff2] returns the only upper triangular solution of the equation
    obtained by differentiating once more. *)
Theorem C35_diff2 (F : rcfType) n nq (Q S : 'M[F]_n) (dQ dS : 'I_nq -> 'M[F]_n) (d2Q : 'I_nq -> 'I_nq -> 'M[F]_n) ALI :
  Q^T = Q -> chol Q = Ok S -> (forall a, (dQ a)^T = dQ a) -> (forall a b, (d2Q a b)^T = d2Q a b) ->
  chol_diff S dQ = Ok (ALI, dS) ->
  forall a b, let d2S := chol_diff2 ALI dQ dS d2Q a b in
  upp d2S /\ d2S^T *m S + S^T *m d2S + ((dS b)^T *m dS a + (dS a)^T *m dS b) = d2Q a b.
Proof.
move=> SQ E SdQ Sd2Q; have [US PS ES] := (chol_spec S SQ).1 E.
rewrite chol_diff_ok // => -[<- <-] a b; set X := fun c => unvecL _.
have [Ua Ea] := lyap_solve US PS (SdQ a); have [Ub Eb] := lyap_solve US PS (SdQ b).
set Y := d2Q a b - ((X b)^T *m X a + (X a)^T *m X b).
have SY : Y^T = Y.
  have trB (M N : 'M[F]_n) : (M - N)^T = M^T - N^T by rewrite linearB.
  by rewrite /Y trB Sd2Q linearD /= !trmx_mul !trmxK addrC [(X b)^T *m _ + _]addrC addrC.
have -> : chol_diff2 (invmx (chol_AL S)) dQ X d2Q a b = unvecL (invmx (chol_AL S) *m vecL Y).
  rewrite /chol_diff2; congr unvecL; rewrite mulNmx -!mulmxA -mulmxBr; congr (_ *m _).
  have -> : invmx (chol_AL S) *m vecL (dQ b) = vecL (X b)^T by rewrite vecL_unvecL.
  rewrite chol_ALE //; apply/colP => r; rewrite !mxE; congr (_ - (_ + _)).
have [U EY] := lyap_solve US PS SY; split=> //.
by rewrite EY /Y subrK.
Qed.

(** * Along paths *)

Section Curves.
Variable t : R.

Lemma mderiv_scalar n (f : R -> RF) d : sderiv f t d -> mderiv (fun s => (f s)%:M : 'M_n) t d%:M.
Proof.
move=> H; apply: (mderiv_ext (M := fun s => f s *: 1%:M)) => [s|]; first by rewrite scalemx1.
apply: mderiv_eq (mderivZs H (mderiv_const t 1%:M)) _.
by rewrite scaler0 addr0 scalemx1.
Qed.

Lemma chol_lower_curve n (Q : R -> 'M[RF]_n) D L0 : mderiv Q t D -> chol_lower (Q t) = Ok L0 ->
  exists L DL, mderiv L t DL /\ near t (fun s => chol_lower (Q s) = Ok (L s)).
Proof.
elim: n Q D L0 => [|n IH] Q D L0.
  by move=> H _; exists Q, D; split=> //; apply: near_all.
rewrite -[n.+1]/(1 + n)%N in Q D L0 * => H.
rewrite [in X in X -> _]/=; case: ifPn => // a0.
case E: (chol_lower (_ : 'M_n)) => [L1|//] _.
have Ha := H 0 0.
have [dl Hl] := sderiv_sqrt a0 Ha.
have l0 : Num.sqrt (Q t 0 0) != 0 by rewrite gt_eqF // sqrtr_gt0.
have Hdl : mderiv (fun s => dlsubmx (Q s)) t (dlsubmx D).
  by move=> i j; rewrite !mxE; apply: sderiv_ext (H _ _) => s; rewrite !mxE.
have Hdr : mderiv (fun s => drsubmx (Q s)) t (drsubmx D).
  by move=> i j; rewrite !mxE; apply: sderiv_ext (H _ _) => s; rewrite !mxE.
have Hc := mderivZs (sderivV (f := fun s => Num.sqrt (Q s 0 0)) l0 Hl) Hdl.
have Hs := mderivB Hdr (mderivM Hc (mderiv_tr Hc)).
have [L [DL [HL nL]]] := IH _ _ _ Hs E.
pose c s := (Num.sqrt (Q s 0 0))^-1 *: dlsubmx (Q s).
exists (fun s => block_mx (Num.sqrt (Q s 0 0))%:M 0 (c s) (L s)).
eexists; split.
  apply: mderiv_col_mx; apply: mderiv_row_mx.
  - exact: mderiv_scalar Hl.
  - exact: mderiv_const.
  - exact: Hc.
  - exact: HL.
apply: near_mp (near_and (sderiv_gt0 Ha a0) nL) _ => s [p Es].
by rewrite [LHS]/= p Es.
Qed.

Lemma chol_curve n (Q : R -> 'M[RF]_n) D S0 : mderiv Q t D -> chol (Q t) = Ok S0 ->
  exists S DS, mderiv S t DS /\ near t (fun s => chol (Q s) = Ok (S s)).
Proof.
rewrite /chol => H; case E: (chol_lower _) => [L0|//] _.
have [L [DL [HL nL]]] := chol_lower_curve H E.
exists (fun s => (L s)^T), DL^T; split; first exact: mderiv_tr.
by apply: near_mp nL _ => s ->.
Qed.

Definition symc n (Q : R -> 'M[RF]_n) : Prop := near t (fun s => (Q s)^T = Q s).

Lemma symc_deriv n (Q : R -> 'M[RF]_n) D : symc Q -> mderiv Q t D -> D^T = D.
Proof.
move=> SQ H; apply: mderiv_unique (mderiv_tr H) _.
by apply: mderiv_near H; apply: near_mp SQ _ => s ->.
Qed.

(** The factor along a path of symmetric matrices and its derivative. *)
Lemma chol_deriv n (Q : R -> 'M[RF]_n) D S0 : symc Q -> mderiv Q t D -> chol (Q t) = Ok S0 ->
  exists S, [/\ near t (fun s => chol (Q s) = Ok (S s)), S t = S0,
    near t (fun s => upp (S s) /\ posdiag (S s)) &
    mderiv S t (unvecL (invmx (chol_AL S0) *m vecL D))].
Proof.
move=> SQ H E; have [S [DS [HS nS]]] := chol_curve H E.
have St : S t = S0 by have := near_at nS; rewrite E => -[].
have nF : near t (fun s => [/\ upp (S s), posdiag (S s) & (S s)^T *m S s = Q s]).
  by apply: near_mp (near_and SQ nS) _ => s [Ss /(chol_spec _ Ss)].
exists S; split=> //; first by apply: near_mp nF _ => s [].
apply: mderiv_eq (HS) _; have [US PS ES] := near_at nF; rewrite -St.
apply: lyap_sol => //.
  move=> i j lt; apply: sderiv_unique (HS i j) _.
  by apply: sderiv_near (sderiv_const 0 t); apply: near_mp nF _ => s [U _ _]; rewrite U.
apply: mderiv_unique (mderivM (mderiv_tr HS) HS) _.
by apply: mderiv_near H; apply: near_mp nF _ => s [_ _ ->].
Qed.

Lemma mderiv_vecL n (Q : R -> 'M[RF]_n) D : mderiv Q t D -> mderiv (fun s => vecL (Q s)) t (vecL D).
Proof. by move=> H i j; rewrite mxE; apply: sderiv_ext (H (ti i) (tj i)) => s; rewrite mxE. Qed.
Lemma mderiv_unvecL n (v : R -> 'cV[RF]_(ntril n)) D : mderiv v t D -> mderiv (fun s => unvecL (v s)) t (unvecL D).
Proof.
move=> H k l; rewrite mxE.
apply: (sderiv_ext (f := fun s => \sum_(r | (tj r == k) && (ti r == l)) v s r 0)) => [s|]; first by rewrite mxE.
by apply: sderiv_sum => r _; apply: H.
Qed.
Lemma mderiv_chol_AL n (S : R -> 'M[RF]_n) D : mderiv S t D -> mderiv (fun s => chol_AL (S s)) t (chol_AL D).
Proof.
move=> H r c; rewrite mxE; apply: (sderiv_ext (f := fun s => chol_A (S s) (ti r) (tj r) (ti c) (tj c))) => [s|]; first by rewrite mxE.
by rewrite /chol_A; apply: sderivD; case: eqP => _; try exact: H; exact: sderiv_const.
Qed.

(** The result of [diff] along a path. *)
Lemma chol_diff_deriv n nq (S : R -> 'M[RF]_n) (dQ : R -> 'I_nq -> 'M[RF]_n) a b (d2Q : 'I_nq -> 'I_nq -> 'M[RF]_n) (dS : 'I_nq -> 'M[RF]_n) :
  upp (S t) -> posdiag (S t) -> mderiv S t (dS a) -> mderiv (fun s => dQ s b) t (d2Q a b) ->
  mderiv (fun s => unvecL (invmx (chol_AL (S s)) *m vecL (dQ s b))) t
    (chol_diff2 (invmx (chol_AL (S t))) (dQ t) dS d2Q a b).
Proof.
move=> US PS HS HQ; apply: mderiv_unvecL.
apply: mderiv_eq (mderivM (mderiv_inv (mderiv_chol_AL HS) (chol_AL_unit US PS)) (mderiv_vecL HQ)) _.
by rewrite addrC.
Qed.
End Curves.

(** [diff] is the derivative of the factor along every differentiable path of
    symmetric matrices; near the point the factorisation keeps succeeding. *)
Theorem C35_derivative n nq (Q : R -> 'M[RF]_n) t (S : 'M[RF]_n) (dQ dS : 'I_nq -> 'M[RF]_n) ALI a :
  near t (fun s => (Q s)^T = Q s) -> mderiv Q t (dQ a) ->
  chol (Q t) = Ok S -> chol_diff S dQ = Ok (ALI, dS) ->
  exists C, [/\ near t (fun s => chol (Q s) = Ok (C s)), C t = S & mderiv C t (dS a)].
Proof.
move=> SQ H E ED; have [C [nC Ct nU HC]] := chol_deriv SQ H E.
exists C; split=> //; apply: mderiv_eq HC _.
have [US PS] := near_at nU; move: ED; rewrite -Ct chol_diff_ok // => -[_ <-] //.
Qed.

(** [diff2] is the derivative of [diff] along every path on which the given
    first derivatives are differentiable. *)
Theorem C35_second_derivative n nq (Q : R -> 'M[RF]_n) t (S : 'M[RF]_n) (dQ : R -> 'I_nq -> 'M[RF]_n)
    (dS : 'I_nq -> 'M[RF]_n) (d2Q : 'I_nq -> 'I_nq -> 'M[RF]_n) ALI a b :
  near t (fun s => (Q s)^T = Q s) -> mderiv Q t (dQ t a) -> mderiv (fun s => dQ s b) t (d2Q a b) ->
  chol (Q t) = Ok S -> chol_diff S (dQ t) = Ok (ALI, dS) ->
  exists C A dC, [/\ near t (fun s => chol (Q s) = Ok (C s) /\ chol_diff (C s) (dQ s) = Ok (A s, dC s)),
    C t = S, dC t = dS & mderiv (fun s => dC s b) t (chol_diff2 ALI (dQ t) dS d2Q a b)].
Proof.
move=> SQ H H2 E ED; have [C [nC Ct nU HC]] := chol_deriv SQ H E.
exists C, (fun s => invmx (chol_AL (C s))), (fun s c => unvecL (invmx (chol_AL (C s)) *m vecL (dQ s c))).
have [US PS] := near_at nU; move: ED; rewrite -Ct chol_diff_ok // => -[<- <-].
split=> //; last by apply: chol_diff_deriv => //; rewrite Ct.
by apply: near_mp (near_and nC nU) _ => s [Es [Us Ps]]; rewrite chol_diff_ok.
Qed.

(** A path through a definite matrix that is not diagonal. *)
Example C35_nonvacuous : exists (Q : R -> 'M[RF]_2) S (dQ : 'I_1 -> 'M[RF]_2),
  [/\ forall s, (Q s)^T = Q s, mderiv Q 0 (dQ 0), chol (Q 0) = Ok S, S 0 1 != 0 & dQ 0 != 0].
Proof.
pose B : 'M[RF]_2 := \matrix_(i, j) (if (i == 0) && (j == 1) then 1 else (i == j)%:R).
have UB : upp B by move=> i j; rewrite mxE; case: i => -[|[|//]] ?; case: j => -[|[|//]] ?.
have PB : posdiag B by move=> i; rewrite mxE eqxx; case: i => -[|[|//]] ?; rewrite /= ltr01.
exists (fun s => (s : RF) *: 1%:M + B^T *m B), B, (fun _ => 1%:M).
have SQ (c : RF) : (c *: 1%:M + B^T *m B)^T = c *: 1%:M + B^T *m B.
  by rewrite linearD linearZ /= trmx1 trmx_mul trmxK.
split=> //.
- apply: mderiv_eq (mderivD (mderivZs (sderiv_id _) (mderiv_const _ 1%:M)) (mderiv_const _ _)) _.
  by rewrite scaler0 addr0 addr0 scale1r.
- by rewrite scale0r add0r; apply/chol_spec; [rewrite trmx_mul trmxK|split].
- by rewrite mxE /= oner_eq0.
- by apply/eqP => /matrixP /(_ 0 0) /eqP; rewrite !mxE oner_eq0.
Qed.
