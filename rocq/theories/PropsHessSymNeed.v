(** C91: a model whose second derivatives depend on the order gives a Hessian
    that is not symmetric. *)
From Coq Require Import String Reals.
From Coquelicot Require Import Coquelicot.
From Verif Require Import Py.
From mathcomp Require Import all_ssreflect all_algebra.
From Verif Require Import RealField McRing MxCalc KalModel PsdLemmas UtLemmas CholLemmas KalLemmas KalDiffModel CholDiffLemmas PropsPem PropsPemDiff PropsHessSym PropsHessSymCase.
Set Implicit Arguments.
Unset Strict Implicit.
Unset Printing Implicit Defensive.
Import Order.TTheory GRing.Theory Num.Theory.
Local Open Scope ring_scope.

Section Zero.
Variables (F : rcfType) (ni no nq : nat) (kappa : F).
Hypothesis nz : ni%:R + kappa != 0.
Variables (u : ut_data ni kappa no) (df_dq : 'rV[F]_ni -> 'I_nq -> 'rV[F]_no) (df_di : 'rV[F]_ni -> 'M[F]_(ni, no)).
Hypothesis Hq : forall x a, df_dq x a = 0.
Hypothesis Hi : forall x, df_di x = 0.

Lemma every0 m n : every m (0 : 'rV[F]_n) = 0.
Proof. by apply/matrixP => k j; rewrite !mxE. Qed.
Lemma vecL0 n : vecL (0 : 'M[F]_n) = 0.
Proof. by apply/colP => r; rewrite !mxE. Qed.

Lemma zero_diff di dPi v : transform_diff u df_dq df_di di dPi = Ok v -> (forall a, dPi a = 0) ->
  [/\ forall a, v_dQ v a = 0, forall a, v_do v a = 0, forall a, v_dodev v a = 0 & forall a, v_dPo v a = 0].
Proof.
rewrite /transform_diff; case: (chol_diff _ _) => [c|//]; cbn [bind] => -[<-] H0; cbn [v_dQ v_do v_dodev v_dPo].
have Z X a : \matrix_(k, j) (df_dq (row k (u_isigma u)) a 0 j + (row k X *m df_di (row k (u_isigma u))) 0 j) = 0 :> 'M[F]_(nsigma ni kappa, no).
  by apply/matrixP => k j; rewrite [LHS]mxE Hq Hi mulmx0 !mxE addr0.
by split=> a; rewrite ?H0 ?scaler0 ?Z ?mulmx0 ?every0 ?subr0 ?mulmx0 ?trmx0 ?addr0.
Qed.

Variables (d2f_dq2 : 'rV[F]_ni -> 'I_nq -> 'I_nq -> 'rV[F]_no) (d2f_di2 : 'rV[F]_ni -> 'I_ni -> 'I_ni -> 'rV[F]_no) (d2f_di_dq : 'rV[F]_ni -> 'I_nq -> 'I_ni -> 'rV[F]_no).
Variable g : 'I_nq -> 'I_nq -> 'rV[F]_no.
Hypothesis Hqq : forall x a b, d2f_dq2 x a b = g a b.
Hypothesis Hii : forall x i j, d2f_di2 x i j = 0.
Hypothesis Hiq : forall x a i, d2f_di_dq x a i = 0.
Lemma zero_diff2 v d2i d2P (w := transform_diff2 u df_di d2f_dq2 d2f_di2 d2f_di_dq v d2i d2P) a b : (forall a, v_dodev v a = 0) ->
  w_d2o w a b = g a b /\ w_d2Po w a b = 0.
Proof.
move=> Hd; rewrite /w /transform_diff2; cbn [w_d2o w_d2Po].
set M := \matrix_(k, j) _.
have ME : M = every _ (g a b).
  apply/matrixP => k j; rewrite [LHS]mxE [RHS]mxE Hi mulmx0 Hqq.
  have Z0 (G : 'I_ni -> F) c : \sum_i d2f_di_dq (row k (u_isigma u)) c i 0 j * G i = 0 by apply: big1 => i _; rewrite Hiq mxE mul0r.
  rewrite !Z0 big1 ?addr0 ?add0r; first by rewrite mxE addr0.
  by move=> i _; apply: big1 => i' _; rewrite Hii mxE !mul0r.
by rewrite ME weights_every // subrr !Hd !trmx0 !mul0mx !addr0 trmx0 addr0.
Qed.
End Zero.

Definition need_dm : dmodel RF 1 1 2 :=
  DModel (Model (fun _ x => x) (fun _ _ => 1%:M) (fun _ _ => 1%:M) (fun _ _ => 0) (fun _ _ => 0) 1%:M)
    (fun _ _ _ => 0) (fun _ _ _ => 0) (fun _ _ _ => 0) (fun _ _ _ => 0) (fun _ => 0)
    (fun _ _ _ _ => 0) (fun _ _ _ _ => 0) (fun _ _ _ _ => 0) (fun _ _ _ _ => 0) (fun _ _ _ _ => 0) (fun _ _ _ _ => 0)
    (fun _ _ a b => if (a == 0) && (b == 1) then const_mx 1 else 0) (fun _ _ _ _ => 0) (fun _ _ _ _ => 0) (fun _ _ => 0).
Definition need_y : meas RF 1 := Meas (const_mx 1) set0.

Lemma chol_diff2_0 n nq ALI (dQ dS : 'I_nq -> 'M[RF]_n) d2Q a b : (forall a, dQ a = 0) -> d2Q a b = 0 -> chol_diff2 ALI dQ dS d2Q a b = 0.
Proof.
move=> H1 H2; rewrite /chol_diff2 H1 H2 vecL0 !mulmx0 addr0.
by apply/matrixP => k l; rewrite !mxE big1 // => r _; rewrite mxE.
Qed.
Lemma pick_0 A m : pick A (0 : 'M[RF]_(m, 1)) = 0. Proof. by apply/matrixP => i j; rewrite !mxE. Qed.
Lemma pick2_0 A : pick2 A (0 : 'M[RF]_1) = 0. Proof. by apply/matrixP => i j; rewrite !mxE. Qed.

Theorem C91_needed : exists H, pem_hessian need_dm ln 1 1 hs_start [:: need_y] = Ok H /\ H 0 1 <> H 1 0.
Proof.
have [l _ E] := @C42_total 1 1 (dm_md need_dm) 1 1 (@chol RF 1) (@chol RF 1) (g_s (h_g hs_start)) (g_L (h_g hs_start)) [:: need_y]
    ler01 (ltr_paddr ler01 ltr01) (@chol_is_root RF 1) ler01 (ltr_paddr ler01 ltr01) (@chol_is_root RF 1) (pd1 _ _) (fun _ _ => pd1 _ _) (pd1 _ _).
have [g' Eg _] := @grad_total _ _ _ _ need_dm ln 1 1 (fun _ _ => trmx1 _ _) (trmx1 _ _) (h_g hs_start) _ _ (trmx1 _ _) E.
move: Eg; rewrite -(hess_loopE need_dm ln 1 1 hs_start [:: need_y]) /pem_hessian; cbn [hess_loop].
rewrite /hess_correct; have nA : active need_y != set0.
  by apply/set0Pn; exists 0; rewrite !inE.
rewrite (negbTE nA); set A := active need_y in nA *.
case E0 : (correct0 _ _ _ _ _) => [c|//]; cbn [bind]; case E1 : (correct1 _ _ _ _) => [c1|//]; cbn [bind].
case E2 : (lik1 _ _ _) => [[ch dL]|//]; cbn [bind fst snd] => _; eexists; split; first by [].
cbn [h_d2L]; clear E.
have nz : 1%:R + 1 != 0 :> RF by rewrite -(natrD RF 1 1) pnatr_eq0.
have [De PI] : c_e c = const_mx 1 /\ pd (c_PyI c).
  move: E0; rewrite /correct0; case ET : (transform _ _ _ _ _) => [u|//]; cbn [bind].
  have RS := chol_sound (psdZ (addr_ge0 ler01 ler01) (pd_psd (pd1 _ _))) (u_SE ET).
  have [oE _ PE _] := transform_affine nz ET RS (A := 0) (b := 0) (fun x => etrans (pick_0 _ _) (esym (etrans (addr0 _) (mulmx0 _ _)))).
  rewrite {}PE !mulmx0 add0r; case EC : (chol _) => [C|//]; cbn [bind].
  have PP := pd_pick2 A (pd1 RF 1); have [UC _ EI] := chol_inverse (pd_sym PP) EC.
  rewrite (inv_unit UC); cbn [bind] => -[<-]; cbn [c_e c_PyI]; rewrite oE EI mulmx0 addr0 subr0.
  by split; [apply/matrixP => i j; rewrite !mxE | exact: pd_inv].
have [Hde HdP HdI Hd] : [/\ forall a, c_de c1 a = 0, forall a, c_dPy c1 a = 0, forall a, c_dPyI c1 a = 0 & forall a, v_dodev (c_v c1) a = 0].
  move: E1; rewrite /correct1; case Ev : (transform_diff _ _ _ _ _) => [v|//]; cbn [bind] => -[<-]; cbn [c_de c_dPy c_dPyI c_v].
  have [Z1 Z2 Z3 Z4] := zero_diff (fun _ _ => pick_0 _ _) (fun _ => pick_0 _ _) Ev (fun _ => erefl).
  by split=> // a; rewrite ?Z2 ?Z4 ?oppr0 // pick2_0 addr0 // mulmx0 mul0mx oppr0.
have Hch a : ch.2 a = 0.
  move: E2; rewrite /lik1 /chol_diff; case: (inv _) => [I|//] /= [<- _] /=; rewrite HdP vecL0 mulmx0.
  by apply/matrixP => k l'; rewrite !mxE big1 // => r _; rewrite mxE.
set c2 := correct2 _ _ _ _ _.
have HH a b : c_d2e c2 a b = - (if (a == 0) && (b == 1) then const_mx 1 else 0) /\ c_d2Py c2 a b = 0.
  pose g (a b : 'I_2) := pick A (if (a == 0) && (b == 1) then const_mx 1 else 0 : 'rV[RF]_1).
  have [Z1 Z2] := zero_diff2 nz (c_u c) (df_di := fun x => pick A (md_dh_dx (dm_md need_dm) (fs_k (g_s (h_g hs_start))) x)) (fun _ => pick_0 _ _)
    (d2f_dq2 := fun x a b => pick A (dm_d2h_dq2 need_dm (fs_k (g_s (h_g hs_start))) x a b)) (g := g) (fun _ _ _ => erefl)
    (d2f_di2 := fun x i j => pick A (dm_d2h_dx2 need_dm (fs_k (g_s (h_g hs_start))) x i j)) (fun _ _ _ => pick_0 _ _)
    (d2f_di_dq := fun x a i => pick A (dm_d2h_dx_dq need_dm (fs_k (g_s (h_g hs_start))) x a i)) (fun _ _ _ => pick_0 _ _)
    (d2_x (h_d2 hs_start)) (d2_P (h_d2 hs_start)) a b Hd.
  split; last exact: (etrans (congr1 (fun z => z + pick2 A 0) Z2) (etrans (add0r _) (pick2_0 A))).
  apply: (etrans (congr1 (fun z => - z) Z1)); rewrite /g; congr (- _); case: ifP => _; last exact: pick_0.
  by apply/matrixP => i j; rewrite !mxE.
have HI a b : c_d2PyI c2 a b = 0.
  rewrite -[LHS]/(- (c_dPyI c1 a *m c_dPy c1 b *m c_PyI c) - c_PyI c *m c_d2Py c2 a b *m c_PyI c - c_PyI c *m c_dPy c1 b *m c_dPyI c1 a).
  by rewrite HdI HdP (proj2 (HH a b)) !mulmx0 !mul0mx !oppr0 !addr0.
have Lab a b : lik2 c c1 c2 ch (h_d2L hs_start) a b = - (c_d2e c2 a b *m c_PyI c *m (c_e c)^T) 0 0.
  rewrite /lik2 !Hde HI !mul0mx !mulmx0 !mul0mx.
  rewrite big1; last by move=> k _; rewrite chol_diff2_0 ?mxE ?mul0r //; exact: (proj2 (HH a b)).
  rewrite big1; last by move=> k _; rewrite Hch mxE mul0r.
  by rewrite !mxE mulr0 !subr0 addr0 sub0r.
have q0 : 0 < qf (c_PyI c) (const_mx 1).
  apply: (proj2 PI); apply/eqP => /matrixP H; have /set0Pn [x Ax] := nA.
  by have /eqP := H 0 (enum_rank_in Ax x); rewrite !mxE oner_eq0.
have N (M : 'M[RF]_1) : (- M) 0 0 = - M 0 0 by rewrite mxE.
rewrite !Lab !(proj1 (HH _ _)) /= oppr0 !mul0mx De !mulNmx N opprK [X in _ <> - X]mxE oppr0.
by move=> E; move: q0; rewrite /qf E ltxx.
Qed.
