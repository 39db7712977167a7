(** C89: concrete cases. *)
From Verif Require Import Py.
From mathcomp Require Import all_ssreflect all_algebra.
From mathcomp.fingroup Require Import perm.
From Verif Require Import PsdLemmas KalModel CholLemmas KalLemmas UtLemmas UnitsLemmas PropsUnits.
Set Implicit Arguments.
Unset Strict Implicit.
Unset Printing Implicit Defensive.
Import Order.TTheory GRing.Theory Num.Theory.
Local Open Scope ring_scope.

Section Case.
Variable F : rcfType.

Lemma mean_pairs n no kappa r i Pi (f : 'rV[F]_n -> 'rV[F]_no) (u : ut_data n kappa no) j : transform kappa r i Pi f = Ok u ->
  u_o u 0 j = \sum_k (2%:R^-1 / (n%:R + kappa) * (f (row k (u_S u) + i) 0 j + f (- row k (u_S u) + i) 0 j)) +
    \sum_(k < (kappa != 0)) (kappa / (n%:R + kappa) * f i 0 j).
Proof.
rewrite /transform; case: (r _) => [S|//] /= [<-] /=; rewrite mxE big_split_ord /= big_split_ord /=.
congr (_ + _); last first.
  apply: eq_bigr => k _; rewrite /weights row_mxEr !mxE; congr (_ * f _ _ _).
  by apply/rowP => l; rewrite 2!mxE col_mxEd !mxE add0r.
rewrite -big_split /=; apply: eq_bigr => k _; rewrite /weights !row_mxEl mulrDr ![const_mx _ _ _]mxE; congr (_ * _ + _ * _); rewrite mxE; congr (f _ _ _).
  by apply/rowP => l; rewrite 2!mxE !col_mxEu !mxE.
by apply/rowP => l; rewrite 2!mxE col_mxEu col_mxEd !mxE.
Qed.

Lemma mx2P (A B : 'M[F]_2) : [/\ A 0 0 = B 0 0, A 0 1 = B 0 1, A 1 0 = B 1 0 & A 1 1 = B 1 1] -> A = B.
Proof.
move=> [H1 H2 H3 H4]; apply/matrixP.
have E (i : 'I_2) : i = 0 \/ i = 1 by case: i => [[|[|//]] Hi]; [left|right]; apply: val_inj.
by move=> i j; case: (E i) => ->; case: (E j) => ->.
Qed.
Lemma sum2 (G : 'I_2 -> F) : \sum_k G k = G 0 + G 1.
Proof. by rewrite !big_ord_recl big_ord0 addr0; congr (G _ + G _); apply: val_inj. Qed.
Definition mx2 (a b c d : F) : 'M[F]_2 := \matrix_(i, j) (if i == 0 then if j == 0 then a else b else if j == 0 then c else d).
Lemma chol2 a b c : 0 < a -> 0 < c -> chol (mx2 (a ^+ 2) (a * b) (a * b) (b ^+ 2 + c ^+ 2)) = Ok (mx2 a b 0 c).
Proof.
move=> a0 c0; apply/chol_spec; first by apply: mx2P; rewrite !mxE.
split.
- by move=> i j; case: i => [[|[|//]] Hi]; case: j => [[|[|//]] Hj] //; rewrite mxE.
- by move=> i; case: i => [[|[|//]] Hi] //; rewrite mxE.
by apply: mx2P; split; rewrite !mxE sum2 !mxE /= ?mul0r ?mulr0 ?addr0 ?expr2 // mulrC.
Qed.

(** Exchanging two states is not such a change for the unscented filter: the
    prediction depends on their order. *)
Let md : model F 2 0 := Model (fun _ x => const_mx (x 0 1 ^+ 4)) (fun _ _ => 0) (fun _ _ => 0) (fun _ _ => 0) (fun _ _ => 0) 0.
Let P : 'M[F]_2 := mx2 2%:R^-1 2%:R^-1 2%:R^-1 1.
Let s : fstate F 2 := FS 0 0 P.
Let T : 'M[F]_2 := mx2 0 1 1 0.
Let two0 : (2%:R != 0 :> F). Proof. by rewrite pnatr_eq0. Qed.
Let TT : T *m T = 1%:M.
Proof. by apply: mx2P; rewrite !mxE !sum2 !mxE /= !(mul0r, mulr0, mulr1, addr0, add0r). Qed.
Let UT : T \in unitmx. Proof. by have [] := mulmx1_unit TT. Qed.
Let IT : invmx T = T. Proof. by apply: (can_inj (mulKmx UT)); rewrite mulmxV // TT. Qed.

Theorem C89_order :
  T \in unitmx /\
  exists p p', [/\ ukf_predict md 0 (@chol F 2) s = Ok p, ukf_predict (new_model T 0 0 0 md) 0 (@chol F 2) (new_state T 0 s) = Ok p',
    fs_x p.1 = const_mx 1 & fs_x p'.1 = const_mx 2%:R].
Proof.
split=> //.
have E1 : chol ((2%:R + 0) *: P) = Ok (mx2 1 1 0 1).
  rewrite -chol2 ?ltr01 //; congr chol; apply: mx2P; rewrite !mxE /= !expr1n mul1r addr0.
  by rewrite mulfV // mulr1 -(natrD F 1 1).
pose r : F := Num.sqrt 2%:R.
have r0 : 0 < r by rewrite sqrtr_gt0 ltr0n.
have r2 : r ^+ 2 = 2%:R by rewrite sqr_sqrtr // ler0n.
have E2 : chol ((2%:R + 0) *: new_P T P) = Ok (mx2 r r^-1 0 r^-1).
  rewrite -chol2 ?invr_gt0 //; congr chol; apply: mx2P; rewrite /new_P !mxE !sum2 !mxE !sum2 !mxE /=.
  rewrite !(mul0r, mulr0, mulr1, mul1r, addr0, add0r) exprVn r2 mulfV // mulfV ?gt_eqF //.
  by split=> //; rewrite -mulr2n -mulr_natl mulfV.
have [u Eu Su] : exists2 u, transform 0 (@chol F 2) 0 P (md_f md 0) = Ok u & u_S u = mx2 1 1 0 1.
  by rewrite /transform E1; eexists; [reflexivity|].
have [v Ev Sv] : exists2 v, transform 0 (@chol F 2) (new_x T 0 0) (new_P T P) (md_f (new_model T 0 0 0 md) 0) = Ok v & u_S v = mx2 r r^-1 0 r^-1.
  by rewrite /transform E2; eexists; [reflexivity|].
have H1 j := mean_pairs j Eu; have H2 j := mean_pairs j Ev.
rewrite /ukf_predict -[fs_x s]/(0 : 'rV_2) -[fs_P s]/P -[fs_k s]/0%N Eu.
rewrite -[fs_x (new_state _ _ s)]/(new_x T 0 0) -[fs_P (new_state _ _ s)]/(new_P T P) -[fs_k (new_state _ _ s)]/0%N Ev; cbn [bind].
eexists; eexists; split; [reflexivity|reflexivity|cbn [fst fs_x]|cbn [fst fs_x]]; apply/rowP => j.
  have Q k : md_f md 0 (row k (u_S u) + 0) 0 j + md_f md 0 (- row k (u_S u) + 0) 0 j = 2%:R.
    rewrite !addr0 Su /= !mxE exprNn -signr_odd expr0 mul1r -mulr2n -(mulr_natl _ 2).
    by rewrite if_same expr1n mulr1.
  rewrite H1 eqxx big_ord0 addr0 sum2 !Q addr0 [RHS]mxE -mulrDr -(natrD F 2 2) -invfM -(natrM F 2 2) mulVf //.
  by rewrite pnatr_eq0.
have X0 : new_x T 0 0 = 0 by rewrite /new_x mul0mx addr0.
have Q (x : 'rV[F]_2) : md_f (new_model T 0 0 0 md) 0 x 0 j = x 0 0 ^+ 4.
  have E : (x *m T) 0 1 = x 0 0 by rewrite mxE sum2 !mxE /= mulr1 mulr0 addr0.
  rewrite /= /new_x /old_x addr0 subr0 IT E mxE sum2 !mxE.
  by rewrite -mulrDr; case: (j == 0); rewrite /= ?add0r ?addr0 mulr1.
have r4 : r ^+ 4 = 4%:R by rewrite -[4%N]/(2 * 2)%N exprM r2 expr2 -natrM.
have Q0 (x : F) : (- x) ^+ 4 = x ^+ 4 by rewrite exprNn -signr_odd expr0 mul1r.
have Q2 k : md_f (new_model T 0 0 0 md) 0 (row k (u_S v) + new_x T 0 0) 0 j + md_f (new_model T 0 0 0 md) 0 (- row k (u_S v) + new_x T 0 0) 0 j
    = (u_S v) k 0 ^+ 4 + (u_S v) k 0 ^+ 4.
  rewrite !Q X0 2!addr0.
  have -> : (- row k (u_S v)) 0 0 = - u_S v k 0 by rewrite 2!mxE.
  have -> : (row k (u_S v)) 0 0 = u_S v k 0 by rewrite mxE.
  by rewrite Q0.
rewrite H2 eqxx big_ord0 addr0 sum2 !Q2 Sv [RHS]mxE.
have -> : mx2 r r^-1 0 r^-1 0 0 = r by rewrite mxE.
have -> : mx2 r r^-1 0 r^-1 1 0 = 0 by rewrite mxE.
rewrite r4 expr0n /= !addr0 mulr0 addr0 -(natrD F 4 4) -invfM -(natrM F 2 2) (natrM F 4 2) mulKf //.
by rewrite pnatr_eq0.
Qed.

(** Degrees Celsius to Fahrenheit, and an output with its sign reversed. *)
Example C89_nonvacuous :
  let T : 'M[F]_1 := (9%:R / 5%:R)%:M in let g : 'rV[F]_2 := \row_i (if i == 0 then 9%:R / 5%:R else -1) in
  [/\ T \in unitmx, forall i, g 0 i != 0, upp T & posdiag T].
Proof.
have H : (9%:R / 5%:R : F) != 0 by rewrite mulf_neq0 // ?invr_eq0 pnatr_eq0.
split=> [|i|i j|i].
- by rewrite unitmxE det_scalar expr1 unitfE.
- by rewrite mxE; case: ifP => // _; rewrite oppr_eq0 oner_eq0.
- by rewrite !ord1.
by rewrite mxE !ord1 mulr1n divr_gt0 ?ltr0n.
Qed.
End Case.
