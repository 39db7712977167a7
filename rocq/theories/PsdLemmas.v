(** Positive (semi)definite matrices over a real field: definitions used in
    the statements about the Kalman filters, and their elementary theory. *)
From mathcomp Require Import all_ssreflect all_algebra.
Set Implicit Arguments.
Unset Strict Implicit.
Unset Printing Implicit Defensive.
Import Order.TTheory GRing.Theory Num.Theory.
Local Open Scope ring_scope.

Section Psd.
Variable F : rcfType.

(** The quadratic form [v M v^T]. *)
Definition qf n (M : 'M[F]_n) (v : 'rV[F]_n) : F := (v *m M *m v^T) 0 0.

(** Symmetric positive semidefinite, symmetric positive definite, and the
    Loewner order. *)
Definition psd n (M : 'M[F]_n) := M^T = M /\ forall v, 0 <= qf M v.
Definition pd n (M : 'M[F]_n) := M^T = M /\ forall v, v != 0 -> 0 < qf M v.
Definition loewner n (A B : 'M[F]_n) := psd (B - A).

Lemma qfD n (A B : 'M[F]_n) v : qf (A + B) v = qf A v + qf B v.
Proof. by rewrite /qf mulmxDr mulmxDl mxE. Qed.
Lemma qfN n (A : 'M[F]_n) v : qf (- A) v = - qf A v.
Proof. by rewrite /qf mulmxN mulNmx mxE. Qed.
Lemma qfB n (A B : 'M[F]_n) v : qf (A - B) v = qf A v - qf B v.
Proof. by rewrite qfD qfN. Qed.
Lemma qfZ n a (A : 'M[F]_n) v : qf (a *: A) v = a * qf A v.
Proof. by rewrite /qf -scalemxAr -scalemxAl mxE. Qed.
Lemma qf0 n (A : 'M[F]_n) : qf A 0 = 0.
Proof. by rewrite /qf mul0mx mul0mx mxE. Qed.
Lemma qf0m n (v : 'rV[F]_n) : qf 0 v = 0.
Proof. by rewrite /qf mulmx0 mul0mx mxE. Qed.
Lemma qf_cong m n (A : 'M[F]_m) (B : 'M[F]_(n, m)) v : qf (B *m A *m B^T) v = qf A (v *m B).
Proof. by rewrite /qf trmx_mul !mulmxA. Qed.

(** Sum of squares. *)
Lemma qf1 n (v : 'rV[F]_n) : qf 1%:M v = \sum_j v 0 j ^+ 2.
Proof. by rewrite /qf mulmx1 mxE; apply: eq_bigr => j _; rewrite mxE expr2. Qed.
Lemma qf1_ge0 n (v : 'rV[F]_n) : 0 <= qf 1%:M v.
Proof. by rewrite qf1; apply: sumr_ge0 => j _; rewrite sqr_ge0. Qed.
Lemma qf1_eq0 n (v : 'rV[F]_n) : qf 1%:M v = 0 -> v = 0.
Proof.
rewrite qf1 => /eqP; rewrite psumr_eq0; last by move=> j _; rewrite sqr_ge0.
move=> /allP H; apply/rowP => j; rewrite mxE.
by have := H j (mem_index_enum _); rewrite /= sqrf_eq0 => /eqP.
Qed.

Lemma qf_diag n (w v : 'rV[F]_n) : qf (diag_mx w) v = \sum_j w 0 j * v 0 j ^+ 2.
Proof.
rewrite /qf mul_mx_diag mxE; apply: eq_bigr => j _.
by rewrite !mxE expr2 mulrA (mulrC (w 0 j)).
Qed.

(** Expansion of the form at a sum. *)
Lemma qf_add n (A : 'M[F]_n) u v :
  A^T = A -> qf A (u + v) = qf A u + 2%:R * (u *m A *m v^T) 0 0 + qf A v.
Proof.
move=> SA; have E : (v *m A *m u^T) 0 0 = (u *m A *m v^T) 0 0.
  by rewrite -(trmxK (v *m A *m u^T)) mxE !trmx_mul trmxK SA mulmxA.
have mE (M N : 'M[F]_1) : (M + N) 0 0 = M 0 0 + N 0 0 by rewrite mxE.
rewrite /qf [(u + v)^T]linearD /= !mulmxDl !mulmxDr !mE E.
by rewrite mulrDl mul1r !addrA.
Qed.

Lemma psd_sym n (A : 'M[F]_n) : psd A -> A^T = A. Proof. by case. Qed.
Lemma pd_sym n (A : 'M[F]_n) : pd A -> A^T = A. Proof. by case. Qed.
Lemma psd_ge0 n (A : 'M[F]_n) v : psd A -> 0 <= qf A v. Proof. by case. Qed.

Lemma psd0 n : psd (0 : 'M[F]_n).
Proof. by split=> [|v]; rewrite ?trmx0 // qf0m. Qed.
Lemma psd1 n : psd (1%:M : 'M[F]_n).
Proof. by split=> [|v]; rewrite ?trmx1 // qf1_ge0. Qed.
Lemma pd1 n : pd (1%:M : 'M[F]_n).
Proof.
split=> [|v nz]; rewrite ?trmx1 // lt_def qf1_ge0 andbT.
by apply: contra nz => /eqP /qf1_eq0 ->.
Qed.
Lemma psdD n (A B : 'M[F]_n) : psd A -> psd B -> psd (A + B).
Proof.
move=> [SA PA] [SB PB]; split=> [|v]; first by rewrite linearD /= SA SB.
by rewrite qfD addr_ge0.
Qed.
Lemma psd_pdD n (A B : 'M[F]_n) : psd A -> pd B -> pd (A + B).
Proof.
move=> [SA PA] [SB PB]; split=> [|v nz]; first by rewrite linearD /= SA SB.
by rewrite qfD ltr_paddl ?PA ?PB.
Qed.
Lemma pd_psd n (A : 'M[F]_n) : pd A -> psd A.
Proof.
move=> [SA PA]; split=> // v; have [->|nz] := eqVneq v 0; first by rewrite qf0.
by rewrite ltW ?PA.
Qed.
Lemma psdZ n a (A : 'M[F]_n) : 0 <= a -> psd A -> psd (a *: A).
Proof.
move=> a0 [SA PA]; split=> [|v]; first by rewrite linearZ /= SA.
by rewrite qfZ mulr_ge0.
Qed.
Lemma pdZ n a (A : 'M[F]_n) : 0 < a -> pd A -> pd (a *: A).
Proof.
move=> a0 [SA PA]; split=> [|v nz]; first by rewrite linearZ /= SA.
by rewrite qfZ mulr_gt0 ?PA.
Qed.
Lemma psd_cong m n (A : 'M[F]_m) (B : 'M[F]_(n, m)) : psd A -> psd (B *m A *m B^T).
Proof.
move=> [SA PA]; split=> [|v]; first by rewrite !trmx_mul trmxK SA mulmxA.
by rewrite qf_cong.
Qed.
Lemma psd_congT m n (A : 'M[F]_m) (B : 'M[F]_(m, n)) : psd A -> psd (B^T *m A *m B).
Proof. by move=> PA; rewrite -{2}(trmxK B); apply: psd_cong. Qed.
Lemma psd_gram m n (B : 'M[F]_(m, n)) : psd (B^T *m B).
Proof. by rewrite -(mulmx1 B^T); apply: psd_congT; apply: psd1. Qed.
Lemma psd_diag n (w : 'rV[F]_n) : (forall j, 0 <= w 0 j) -> psd (diag_mx w).
Proof.
move=> w0; split=> [|v]; first by rewrite tr_diag_mx.
by rewrite qf_diag; apply: sumr_ge0 => j _; rewrite mulr_ge0 ?sqr_ge0.
Qed.

(** Definite matrices are invertible. *)
Lemma pd_unit n (A : 'M[F]_n) : pd A -> A \in unitmx.
Proof.
move=> [SA PA]; rewrite -row_free_unit -kermx_eq0; apply/eqP/row_matrixP => i.
rewrite row0; apply/eqP; apply: contraT => nz.
have := PA _ nz; rewrite /qf.
have -> : row i (kermx A) *m A = 0 by apply/sub_kermxP; apply: row_sub.
by rewrite mul0mx mxE ltxx.
Qed.
Lemma pd_cong n (A B : 'M[F]_n) : B \in unitmx -> pd A -> pd (B *m A *m B^T).
Proof.
move=> UB [SA PA]; split=> [|v nz]; first by rewrite !trmx_mul trmxK SA mulmxA.
rewrite qf_cong; apply: PA; apply: contra nz => /eqP E.
by rewrite -(mulmxK UB v) E mul0mx.
Qed.
Lemma invmx_sym n (A : 'M[F]_n) : A^T = A -> (invmx A)^T = invmx A.
Proof. by move=> SA; rewrite trmx_inv SA. Qed.
Lemma pd_inv n (A : 'M[F]_n) : pd A -> pd (invmx A).
Proof.
move=> PA; have UA := pd_unit PA; have SA := pd_sym PA.
have := pd_cong (_ : invmx A \in unitmx) PA; rewrite unitmx_inv => /(_ UA).
by rewrite (invmx_sym SA) mulVmx // mul1mx.
Qed.
Lemma psd_unit_pd n (A : 'M[F]_n) : psd A -> A \in unitmx -> pd A.
Proof.
move=> [SA PA] UA; split=> // v nz; rewrite lt_def PA andbT.
apply: contra nz => /eqP E.
suff Z (w : 'rV_n) : (v *m A *m w^T) 0 0 = 0.
  have : v *m A = 0.
    by apply: qf1_eq0; rewrite /qf mulmx1 Z.
  by move=> Z'; rewrite -(mulmxK UA v) Z' mul0mx.
(* 0 <= qf (t v + w) for all t *)
apply/eqP; apply: contraT => nb.
set b := (v *m A *m w^T) 0 0 in nb *.
have H t : 0 <= 2%:R * (t * b) + qf A w.
  have := PA (t *: v + w); rewrite qf_add //.
  have -> : qf A (t *: v) = t ^+ 2 * qf A v.
    by rewrite /qf -!scalemxAl linearZ /= -scalemxAr !mxE expr2 mulrA.
  by rewrite E mulr0 add0r -!scalemxAl [(t *: (_ : 'M_1)) 0 0]mxE.
have := H (- (qf A w + 1) / (2%:R * b)).
have -> : 2%:R * (- (qf A w + 1) / (2%:R * b) * b) = - (qf A w + 1).
  have n2 : (2%:R : F) != 0 by rewrite pnatr_eq0.
  by rewrite mulrA mulrAC mulrC divfK ?mulf_neq0.
by rewrite opprD addrAC addNr add0r oppr_ge0 ler10.
Qed.

(** Submatrices. *)
Lemma sel_mxE m n (g : 'I_m -> 'I_n) (M : 'M[F]_n) (E := \matrix_(i, j) (g i == j)%:R : 'M[F]_(m, n)) :
  (\matrix_(i, j) M (g i) (g j)) = E *m M *m E^T.
Proof.
apply/matrixP => i j; rewrite !mxE (bigD1 (g j)) //= big1 ?addr0; last first.
  by move=> l nl; rewrite !mxE eq_sym (negbTE nl) mulr0.
rewrite !mxE eqxx mulr1 (bigD1 (g i)) //= big1 ?addr0; last first.
  by move=> l nl; rewrite !mxE eq_sym (negbTE nl) mul0r.
by rewrite !mxE eqxx mul1r.
Qed.
Lemma pd_sel m n (g : 'I_m -> 'I_n) (M : 'M[F]_n) :
  injective g -> pd M -> pd (\matrix_(i, j) M (g i) (g j)).
Proof.
move=> ig [SM PM]; rewrite sel_mxE; set E := \matrix_(i, j) _.
split=> [|v nz]; first by rewrite !trmx_mul trmxK SM mulmxA.
rewrite qf_cong; apply: PM; apply: contra nz => /eqP Z.
apply/eqP/rowP => i; have := congr1 (fun r : 'rV_n => r 0 (g i)) Z.
rewrite !mxE (bigD1 i) //= big1 ?addr0; last first.
  by move=> l nl; rewrite !mxE (inj_eq ig) (negbTE nl) mulr0.
by rewrite !mxE eqxx mulr1.
Qed.

(** The Loewner order is a partial order. *)
Lemma loewner_refl n (A : 'M[F]_n) : loewner A A.
Proof. by rewrite /loewner subrr; apply: psd0. Qed.
Lemma loewner_trans n (B A C : 'M[F]_n) : loewner A B -> loewner B C -> loewner A C.
Proof.
move=> AB BC; have := psdD BC AB; rewrite /loewner.
by rewrite addrA subrK.
Qed.
Lemma loewner_diag n (A B : 'M[F]_n) i : loewner A B -> A i i <= B i i.
Proof.
move=> /psd_ge0 H; have := H (delta_mx 0 i).
by rewrite /qf trmx_delta -rowE -colE !mxE subr_ge0.
Qed.
Lemma psd_eq0 n (A : 'M[F]_n) : psd A -> psd (- A) -> A = 0.
Proof.
move=> [SA PA] [_ NA].
have Z v : qf A v = 0.
  by apply/eqP; rewrite eq_le PA andbT -oppr_ge0 -qfN NA.
apply/matrixP => i j; rewrite mxE.
have := Z (delta_mx 0 i + delta_mx 0 j); rewrite qf_add // !Z add0r addr0.
rewrite trmx_delta -rowE -colE !mxE => /eqP.
by rewrite mulf_eq0 pnatr_eq0 /= => /eqP.
Qed.
Lemma loewner_anti n (A B : 'M[F]_n) : loewner A B -> loewner B A -> A = B.
Proof.
move=> AB BA; apply/esym/eqP; rewrite -subr_eq0; apply/eqP; apply: psd_eq0 => //.
by rewrite opprB.
Qed.
End Psd.
