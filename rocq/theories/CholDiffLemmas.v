(** Algebra of the derivatives of the Cholesky factor. *)
From Coq Require Import String.
From Verif Require Import Py.
From mathcomp Require Import all_ssreflect all_algebra.
From Verif Require Import KalModel PsdLemmas CholLemmas KalDiffModel.
Set Implicit Arguments.
Unset Strict Implicit.
Unset Printing Implicit Defensive.
Import Order.TTheory GRing.Theory Num.Theory.
Local Open Scope ring_scope.

Section CholDiff.
Variables (F : rcfType) (n : nat).
Implicit Types (S X Q : 'M[F]_n) (v : 'cV[F]_(ntril n)).

Lemma ti_tj (r : 'I_(ntril n)) : (tj r <= ti r)%N.
Proof. by have := enum_valP r; rewrite inE. Qed.

Lemma tril_rank (i j : 'I_n) : (j <= i)%N -> exists2 r : 'I_(ntril n), ti r = i & tj r = j.
Proof.
move=> le; have H : (i, j) \in [pred p : 'I_n * 'I_n | tril p] by rewrite inE.
by exists (enum_rank_in H (i, j)); rewrite /ti /tj enum_rankK_in.
Qed.

Lemma tril_inj (r c : 'I_(ntril n)) : ti r = ti c -> tj r = tj c -> r = c.
Proof.
rewrite /ti /tj => E1 E2; apply: enum_val_inj.
by rewrite [LHS]surjective_pairing [RHS]surjective_pairing E1 E2.
Qed.

Lemma unvecL_upp v : upp (unvecL v).
Proof.
move=> k l lt; rewrite mxE big1 // => r /andP [/eqP E1 /eqP E2].
by have := ti_tj r; rewrite E1 E2 leqNgt lt.
Qed.
Lemma unvecLE v r : unvecL v (tj r) (ti r) = v r 0.
Proof.
rewrite mxE (bigD1 r) ?eqxx //= big1 ?addr0 // => c /andP [/andP [/eqP E1 /eqP E2] ne].
by case/eqP: ne; apply: tril_inj.
Qed.

(** A symmetric matrix is determined by its lower triangle, an upper
    triangular one by its upper triangle. *)
Lemma vecL_sym Q Q' : Q^T = Q -> Q'^T = Q' -> vecL Q = vecL Q' -> Q = Q'.
Proof.
move=> SQ SQ' /colP E; apply/matrixP => i j.
have G (i0 j0 : 'I_n) : (j0 <= i0)%N -> Q i0 j0 = Q' i0 j0.
  by move=> /tril_rank [r <- <-]; have := E r; rewrite !mxE.
case: (leqP j i) => [|/ltnW] le; first exact: G.
by rewrite -SQ -SQ' !mxE G.
Qed.
Lemma vecL_upp X X' : upp X -> upp X' -> vecL X^T = vecL X'^T -> X = X'.
Proof.
move=> UX UX' /colP E; apply/matrixP => k l.
case: (leqP k l) => [/tril_rank [r <- <-]|lt]; last by rewrite UX // UX'.
by have := E r; rewrite !mxE.
Qed.
Lemma vecL_unvecL v : vecL (unvecL v)^T = v.
Proof. by apply/colP => r; rewrite mxE mxE unvecLE. Qed.

(** The linear system is the lower triangle of [X^T S + S^T X]. *)
Lemma chol_ALE S X : upp X -> chol_AL S *m vecL X^T = vecL (X^T *m S + S^T *m X).
Proof.
move=> UX; apply/colP => r; rewrite !mxE.
set i := ti r; set j := tj r.
transitivity (\sum_(p : 'I_n * 'I_n) chol_A S i j p.1 p.2 * X p.2 p.1).
  rewrite [RHS](bigID (fun p => p \in [pred p : 'I_n * 'I_n | tril p])) /= [Z in _ + Z]big1 ?addr0; last first.
    by move=> p; rewrite inE /tril -ltnNge => lt; rewrite UX ?mulr0.
  rewrite [RHS]big_enum_val; apply: eq_bigr => c _; by rewrite !mxE.
rewrite -(pair_bigA _ (fun l k => chol_A S i j l k * X k l)) /=.
under eq_bigr do under eq_bigr do rewrite /chol_A mulrDl.
under eq_bigr do rewrite big_split /=.
rewrite big_split /=; congr (_ + _).
  rewrite (bigD1 i) //= [Z in _ + Z]big1 ?addr0; last first.
    by move=> l ne; rewrite big1 // => k _; rewrite (negbTE ne) mul0r.
  by apply: eq_bigr => k _; rewrite eqxx !mxE mulrC.
rewrite (bigD1 j) //= [Z in _ + Z]big1 ?addr0; last first.
  by move=> l ne; rewrite big1 // => k _; rewrite (negbTE ne) mul0r.
by apply: eq_bigr => k _; rewrite eqxx !mxE.
Qed.

(** [X S] upper triangular, [S] upper triangular with positive diagonal. *)
Lemma upp_divr S X : upp S -> posdiag S -> upp (X *m S) -> upp X.
Proof.
move=> US PS UXS i j; have [m] := ubnP (nat_of_ord j); elim: m j => // m IH j; rewrite ltnS => lm lji.
have := UXS i j lji; rewrite mxE (bigD1 j) //= big1 ?addr0.
  by move=> /eqP; rewrite mulf_eq0 (gt_eqF (PS j)) orbF => /eqP.
move=> k ne; case: (ltngtP k j) => [lt|gt|E].
- by rewrite IH ?mul0r //; [exact: leq_trans lt lm|exact: ltn_trans lt lji].
- by rewrite US ?mulr0.
- by case/eqP: ne; apply: val_inj.
Qed.

(** The only upper triangular solution of the homogeneous equation. *)
Lemma lyap0 S X : upp S -> posdiag S -> upp X -> X^T *m S + S^T *m X = 0 -> X = 0.
Proof.
move=> US PS UX E; have U := upp_unit US PS; have Ut : S^T \in unitmx by rewrite unitmx_tr.
pose Y := X *m invmx S; have XE : X = Y *m S by rewrite mulmxKV.
have UY : upp Y by apply: upp_divr PS _ => //; rewrite -XE.
have AY : Y^T = - Y.
  have : S^T *m (Y^T + Y) *m S = 0.
    by move: E; rewrite XE trmx_mul mulmxDr mulmxDl !mulmxA.
  move=> /(congr1 (fun M => invmx S^T *m (M *m invmx S))).
  rewrite mulmxK // mul0mx mulmx0 mulKmx // => /eqP.
  by rewrite addr_eq0 => /eqP.
have Y0 : Y = 0.
  apply/matrixP => i j; rewrite [RHS]mxE.
  have EA k l : Y l k = - Y k l by move/matrixP: AY => /(_ k l); rewrite !mxE.
  case: (ltngtP i j) => [lt|gt|/val_inj ->].
  - by rewrite EA UY ?oppr0.
  - exact: UY.
  - have /eqP := EA j j; rewrite -addr_eq0 -mulr2n mulrn_eq0 /= => /eqP //.
by rewrite XE Y0 mul0mx.
Qed.

(** The system is never singular for a Cholesky factor. *)
Lemma chol_AL_unit S : upp S -> posdiag S -> chol_AL S \in unitmx.
Proof.
move=> US PS; rewrite -unitmx_tr -row_free_unit -kermx_eq0; apply/eqP/row_matrixP => i.
rewrite row0; set w := row i _.
have : w *m (chol_AL S)^T = 0 by rewrite /w -row_mul mulmx_ker row0.
move=> /(congr1 trmx); rewrite trmx_mul trmxK trmx0 => E.
have UX := unvecL_upp w^T.
have := chol_ALE S UX; rewrite vecL_unvecL E => /esym E0.
have X0 : unvecL w^T = 0.
  apply: lyap0 US PS UX _; apply: vecL_sym; last by rewrite E0; apply/colP => r; rewrite !mxE.
  - by rewrite linearD /= !trmx_mul !trmxK addrC.
  - by rewrite trmx0.
by rewrite -[w]trmxK -(vecL_unvecL w^T) X0 trmx0; apply/rowP => r; rewrite !mxE.
Qed.

(** The upper triangular solution for a symmetric right-hand side. *)
Lemma lyap_solve S Q : upp S -> posdiag S -> Q^T = Q ->
  let X := unvecL (invmx (chol_AL S) *m vecL Q) in
  upp X /\ X^T *m S + S^T *m X = Q.
Proof.
move=> US PS SQ X; have UX : upp X by apply: unvecL_upp.
split=> //; apply: vecL_sym => //; first by rewrite linearD /= !trmx_mul !trmxK addrC.
by rewrite -chol_ALE // vecL_unvecL mulmxA mulmxV ?mul1mx // chol_AL_unit.
Qed.
Lemma lyap_unique S X X' : upp S -> posdiag S -> upp X -> upp X' ->
  X^T *m S + S^T *m X = X'^T *m S + S^T *m X' -> X = X'.
Proof.
move=> US PS UX UX' E; apply/eqP; rewrite -subr_eq0; apply/eqP; apply: lyap0 US PS _ _.
  by move=> i j lt; rewrite !mxE UX // UX' // subrr.
have trB (M N : 'M[F]_n) : (M - N)^T = M^T - N^T by rewrite linearB.
by rewrite trB mulmxBl mulmxBr addrACA E -opprD addrN.
Qed.
Lemma lyap_sol S Q X : upp S -> posdiag S -> upp X -> X^T *m S + S^T *m X = Q ->
  X = unvecL (invmx (chol_AL S) *m vecL Q).
Proof.
move=> US PS UX <-; rewrite -chol_ALE // mulKmx ?chol_AL_unit //.
by apply: vecL_upp UX (@unvecL_upp _) _; rewrite vecL_unvecL.
Qed.

Variable nq : nat.
Lemma chol_diff_ok S (dQ : 'I_nq -> 'M[F]_n) : upp S -> posdiag S ->
  chol_diff S dQ = Ok (invmx (chol_AL S), fun a => unvecL (invmx (chol_AL S) *m vecL (dQ a))).
Proof. by move=> US PS; rewrite /chol_diff inv_unit ?chol_AL_unit. Qed.
End CholDiff.
