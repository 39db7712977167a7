(** Selecting outputs, and the correction in information form. *)
From Verif Require Import Py.
From mathcomp Require Import all_ssreflect all_algebra.
From Verif Require Import PsdLemmas KalModel CholLemmas GainLemmas KalLemmas UtLemmas.
Set Implicit Arguments.
Unset Strict Implicit.
Unset Printing Implicit Defensive.
Import Order.TTheory GRing.Theory Num.Theory.
Local Open Scope ring_scope.

Section Det.
Variable F : rcfType.
Lemma sylvester m n (U : 'M[F]_(m, n)) (V : 'M[F]_(n, m)) : \det (1%:M + U *m V) = \det (1%:M + V *m U).
Proof.
have E1 : block_mx 1%:M 0 (- V) 1%:M *m block_mx 1%:M U 0 (1%:M + V *m U) = block_mx 1%:M U (- V) 1%:M.
  by rewrite mulmx_block !(mul1mx, mulmx1, mul0mx, mulmx0, addr0) mulNmx addrCA addNr addr0.
have E2 : block_mx (1%:M + U *m V) U 0 1%:M *m block_mx 1%:M 0 (- V) 1%:M = block_mx 1%:M U (- V) 1%:M.
  by rewrite mulmx_block !(mul1mx, mulmx1, mul0mx, mulmx0, add0r) mulmxN addrK.
have := congr1 determinant (etrans E1 (esym E2)).
by rewrite !det_mulmx !det_lblock !det_ublock !det1 !mul1r !mulr1.
Qed.
Lemma det_upp n (S : 'M[F]_n) : upp S -> \det S = \prod_i S i i.
Proof.
move=> US; rewrite -det_tr det_trig; last by apply/is_trig_mxP => i j lij; rewrite mxE US.
by apply: eq_bigr => i _; rewrite mxE.
Qed.

Lemma det_inncov n m (P : 'M[F]_n) (H : 'M[F]_(n, m)) (R : 'M[F]_m) : pd P -> pd R ->
  \det (inncov P H R) * \det (post P H R) = \det P * \det R.
Proof.
move=> PP PR; have UR := pd_unit PR; have UP := pd_unit PP.
have PI := post_info H (pd_psd PP) PR UP.
have -> : inncov P H R = R *m (1%:M + invmx R *m H^T *m (P *m H)).
  by rewrite mulmxDr mulmx1 -!mulmxA mulKVmx // addrC.
rewrite det_mulmx sylvester.
have -> : 1%:M + P *m H *m (invmx R *m H^T) = P *m (invmx P + H *m invmx R *m H^T).
  by rewrite mulmxDr mulmxV // !mulmxA.
have D : \det (invmx P + H *m invmx R *m H^T) * \det (post P H R) = 1.
  by rewrite mulrC -det_mulmx PI det1.
by rewrite det_mulmx mulrCA -!mulrA D mulr1.
Qed.
End Det.

Section Select.
Variables (F : rcfType) (ny : nat).
Implicit Types A B : {set 'I_ny}.

Definition sel A : 'M[F]_(ny, #|A|) := \matrix_(i, j) (i == enum_val j)%:R.
Definition proj A : 'M[F]_ny := diag_mx (\row_i (i \in A)%:R).

Lemma sum_delta (G : 'I_ny -> F) i : \sum_k G k * (k == i)%:R = G i.
Proof. by rewrite (bigD1 i) //= eqxx mulr1 big1 ?addr0 // => k /negbTE ->; rewrite mulr0. Qed.
Lemma pick_sel A m (M : 'M[F]_(m, ny)) : pick A M = M *m sel A.
Proof. by apply/matrixP => i j; rewrite !mxE -[LHS]sum_delta; apply: eq_bigr => k _; rewrite mxE. Qed.
Lemma pick2_sel A (M : 'M[F]_ny) : pick2 A M = (sel A)^T *m M *m sel A.
Proof.
rewrite -pick_sel; apply/matrixP => i j; rewrite !mxE -[LHS](sum_delta (fun k => M k _)).
by apply: eq_bigr => k _; rewrite !mxE mulrC.
Qed.
Lemma selTsel A : (sel A)^T *m sel A = 1%:M.
Proof.
rewrite -pick_sel; apply/matrixP => i j; rewrite !mxE; congr (_%:R); congr nat_of_bool.
by apply/eqP/eqP => [/enum_val_inj ->|->].
Qed.
Lemma sel_selT A : sel A *m (sel A)^T = proj A.
Proof.
apply/matrixP => i j; rewrite !mxE.
have -> : \sum_k sel A i k * (sel A)^T k j = \sum_(k < #|A|) (i == enum_val k)%:R * (j == enum_val k)%:R by apply: eq_bigr => k _; rewrite !mxE.
rewrite -(big_enum_val (fun k => (i == k)%:R * (j == k)%:R)) /=.
case Ai: (i \in A) => /=.
  rewrite (bigD1 i) //= eqxx mul1r big1 ?addr0; first by rewrite eq_sym; case: (i == j).
  by move=> k /andP [_ nk]; rewrite eq_sym (negbTE nk) mul0r.
rewrite mul0rn big1 // => k Ak; case: eqP => [E|_]; last by rewrite mul0r.
by rewrite E Ak in Ai.
Qed.

Lemma projM A B : proj A *m proj B = proj (A :&: B).
Proof. by rewrite /proj mulmx_diag; congr diag_mx; apply/rowP => i; rewrite !mxE in_setI -natrM mulnb. Qed.
Lemma proj0 : proj set0 = 0.
Proof. by apply/matrixP => i j; rewrite !mxE in_set0 mul0rn. Qed.
Lemma projU A B : A :&: B = set0 -> proj (A :|: B) = proj A + proj B.
Proof.
move=> AB; rewrite /proj -linearD /=; congr diag_mx; apply/rowP => i; rewrite !mxE in_setU.
by have /setP /(_ i) := AB; rewrite in_setI in_set0; case: (i \in A); case: (i \in B) => //= _; rewrite ?addr0 ?add0r.
Qed.
Lemma trproj A : (proj A)^T = proj A. Proof. exact: tr_diag_mx. Qed.
Lemma proj_zero A B (R : 'M[F]_ny) : (forall i j, i \in A -> j \in B -> R i j = 0) -> proj A *m R *m proj B = 0.
Proof.
move=> H; apply/matrixP => i j; rewrite -mulmxA mul_diag_mx mul_mx_diag !mxE.
case Ai: (i \in A) => /=; last by rewrite mul0r.
by case Bj: (j \in B) => /=; rewrite ?mulr0 // H // mul0r mulr0.
Qed.

Section Weight.
Variable R : 'M[F]_ny.
Hypothesis PR : pd R.
(** The weight of the outputs in [A]. *)
Definition wt A : 'M[F]_ny := sel A *m invmx (pick2 A R) *m (sel A)^T.

Lemma wt_char A (X : 'M[F]_ny) : proj A *m X *m proj A = X -> X *m R *m proj A = proj A -> X = wt A.
Proof.
move=> H1 H2; have U := pd_unit (pd_pick2 A PR).
have SP : proj A *m sel A = sel A by rewrite -sel_selT -mulmxA selTsel mulmx1.
have XP : X *m proj A = X by rewrite -{1}H1 -mulmxA projM setIid.
have E : (sel A)^T *m X *m sel A *m pick2 A R = 1%:M.
  rewrite pick2_sel -!mulmxA (mulmxA (sel A) (sel A)^T) sel_selT (mulmxA X) XP -{2}SP.
  by rewrite (mulmxA R) (mulmxA X) (mulmxA X) H2 SP selTsel.
have -> : wt A = sel A *m ((sel A)^T *m X *m sel A) *m (sel A)^T.
  by rewrite /wt; congr (_ *m _ *m _); rewrite -[LHS]mul1mx -E mulmxK.
by rewrite -!mulmxA sel_selT !mulmxA sel_selT H1.
Qed.
Lemma wt_proj A : [/\ proj A *m wt A = wt A, wt A *m proj A = wt A & wt A *m R *m proj A = proj A].
Proof.
have U := pd_unit (pd_pick2 A PR).
have SP : proj A *m sel A = sel A by rewrite -sel_selT -mulmxA selTsel mulmx1.
have PS : (sel A)^T *m proj A = (sel A)^T by rewrite -sel_selT mulmxA selTsel mul1mx.
split; first by rewrite /wt !mulmxA SP.
  by rewrite /wt -mulmxA PS.
rewrite /wt -[X in _ *m X]sel_selT -!mulmxA (mulmxA R) (mulmxA (sel A)^T) (mulmxA (sel A)^T) -pick2_sel.
by rewrite (mulmxA (invmx _)) mulVmx // mul1mx sel_selT.
Qed.
Lemma wt_sym A : (wt A)^T = wt A.
Proof. by rewrite /wt !trmx_mul trmxK (invmx_sym (pd_sym (pd_pick2 A PR))) mulmxA. Qed.
Lemma qf_wt A (v : 'rV[F]_ny) : qf (wt A) v = qf (invmx (pick2 A R)) (pick A v).
Proof. by rewrite /wt qf_cong pick_sel. Qed.

Section Union.
Variables A B : {set 'I_ny}.
Hypothesis AB : A :&: B = set0.
Hypothesis R0 : forall i j, i \in A -> j \in B -> R i j = 0.
Let RAB : proj A *m R *m proj B = 0. Proof. exact: proj_zero. Qed.
Let RBA : proj B *m R *m proj A = 0.
Proof. by apply: trmx_inj; rewrite trmx0 !trmx_mul !trproj (pd_sym PR) mulmxA RAB. Qed.
Let PAB : proj A *m proj B = 0. Proof. by rewrite projM AB proj0. Qed.
Let PBA : proj B *m proj A = 0. Proof. by rewrite projM setIC AB proj0. Qed.

Lemma wtU : wt (A :|: B) = wt A + wt B.
Proof.
have [A1 A2 A3] := wt_proj A; have [B1 B2 B3] := wt_proj B.
have WA : wt A *m proj B = 0 by rewrite -A2 -mulmxA PAB mulmx0.
have WB : wt B *m proj A = 0 by rewrite -B2 -mulmxA PBA mulmx0.
have WA' : proj B *m wt A = 0 by rewrite -A1 mulmxA PBA mul0mx.
have WB' : proj A *m wt B = 0 by rewrite -B1 mulmxA PAB mul0mx.
symmetry; apply: wt_char; rewrite projU //.
  have -> : (proj A + proj B) *m (wt A + wt B) = wt A + wt B by rewrite mulmxDl !mulmxDr A1 B1 WA' WB' addr0 add0r.
  by rewrite mulmxDl !mulmxDr A2 B2 WA WB addr0 add0r.
have CA : wt A *m R *m proj B = 0 by rewrite -A2 -(mulmxA _ (proj A)) -mulmxA RAB mulmx0.
have CB : wt B *m R *m proj A = 0 by rewrite -B2 -(mulmxA _ (proj B)) -mulmxA RBA mulmx0.
by rewrite !mulmxDl !mulmxDr A3 B3 CA CB addr0 add0r.
Qed.

Lemma detU : \det (pick2 (A :|: B) R) = \det (pick2 A R) * \det (pick2 B R).
Proof.
have D C : \det (pick2 C R) = \det (1%:M - proj C + proj C *m R *m proj C).
  have -> : 1%:M - proj C + proj C *m R *m proj C = 1%:M + sel C *m ((pick2 C R - 1%:M) *m (sel C)^T).
    rewrite mulmxBl mul1mx mulmxBr sel_selT addrAC -addrA; congr (_ + (_ - _)).
    by rewrite pick2_sel -!mulmxA sel_selT !mulmxA sel_selT.
  by rewrite sylvester -mulmxA selTsel mulmx1 addrC subrK.
rewrite !D -det_mulmx; congr determinant; rewrite projU //.
set a := proj A; set b := proj B.
have Z (M : 'M[F]_ny) : M *m a *m (1%:M - b + b *m R *m b) = M *m a.
  by rewrite mulmxDr mulmxBr mulmx1 !mulmxA -(mulmxA M a b) PAB !mulmx0 !mul0mx subr0 addr0.
have -> : (a + b) *m R *m (a + b) = a *m R *m a + b *m R *m b.
  by rewrite mulmxDl mulmxDr !mulmxDl RAB RBA addr0 add0r.
have Z1 := Z 1%:M; rewrite mul1mx in Z1.
rewrite [RHS]mulmxDl Z mulmxBl mul1mx Z1 opprD !addrA; move: (a *m R *m a) (b *m R *m b) => x y.
by rewrite -!addrA; congr (_ + _); rewrite addrCA [x + y]addrC; congr (_ + _); rewrite addrCA.
Qed.
End Union.
End Weight.
End Select.
