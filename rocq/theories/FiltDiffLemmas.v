(** Derivatives of prediction, correction and likelihood along paths of
    parameters. *)
From Coq Require Import String Reals Lra.
From Coquelicot Require Import Coquelicot.
From Verif Require Import Py.
From mathcomp Require Import all_ssreflect all_algebra.
From Verif Require Import RealField McRing MxCalc KalModel PsdLemmas CholLemmas UtLemmas KalDiffModel CholDiffLemmas PropsCholDiff UtDiffLemmas.
Set Implicit Arguments.
Unset Strict Implicit.
Unset Printing Implicit Defensive.
Import Order.TTheory GRing.Theory Num.Theory.
Local Open Scope ring_scope.

Let RC := [comRingType of RF].
Add Ring RfRing : (com_rt RC).

Section Filt.
Variable t : R.
Variables nx ny nq : nat.
Variable D : R -> dmodel RF nx ny nq.
Variable a : 'I_nq.
Notation md r := (dm_md (D r)).

(** Where the model is differentiable at [t]: [f] and [h] at time [k], and
    [Q]. *)
Record regions := Regions { in_f : nat -> 'rV[RF]_nx -> Prop; in_Q : nat -> 'rV[RF]_nx -> Prop; in_h : nat -> 'rV[RF]_nx -> Prop }.
Variable X : regions.

(** The path has direction [a] at [t]. *)
Record path_diff : Prop := PathDiff {
  pd_f : forall k, along t (in_f X k) (fun r x => md_f (md r) k x) (fun x => dm_df_dq (D t) k x a) (fun x j => row j (md_df_dx (md t) k x));
  pd_Q : forall k, along t (in_Q X k) (fun r x => md_Q (md r) k x) (fun x => dm_dQ_dq (D t) k x a) (fun x j => dm_dQ_dx (D t) k x j);
  pd_h : forall k, along t (in_h X k) (fun r x => md_h (md r) k x) (fun x => dm_dh_dq (D t) k x a) (fun x j => row j (md_dh_dx (md t) k x));
  pd_R : mderiv (fun r => md_R (md r)) t (dm_dR_dq (D t) a);
  pd_Qsym : forall r k x, (md_Q (md r) k x)^T = md_Q (md r) k x;
  pd_Rsym : forall r, (md_R (md r))^T = md_R (md r) }.

Record path_diff2 : Prop := PathDiff2 {
  pd2_fq : forall k b, along t (in_f X k) (fun r x => dm_df_dq (D r) k x b) (fun x => dm_d2f_dq2 (D t) k x a b) (fun x j => dm_d2f_dx_dq (D t) k x b j);
  pd2_fx : forall k i, along t (in_f X k) (fun r x => row i (md_df_dx (md r) k x)) (fun x => dm_d2f_dx_dq (D t) k x a i) (fun x j => dm_d2f_dx2 (D t) k x j i);
  pd2_Qq : forall k b, along t (in_Q X k) (fun r x => dm_dQ_dq (D r) k x b) (fun x => dm_d2Q_dq2 (D t) k x a b) (fun x j => dm_d2Q_dx_dq (D t) k x b j);
  pd2_Qx : forall k i, along t (in_Q X k) (fun r x => dm_dQ_dx (D r) k x i) (fun x => dm_d2Q_dx_dq (D t) k x a i) (fun x j => dm_d2Q_dx2 (D t) k x j i);
  pd2_hq : forall k b, along t (in_h X k) (fun r x => dm_dh_dq (D r) k x b) (fun x => dm_d2h_dq2 (D t) k x a b) (fun x j => dm_d2h_dx_dq (D t) k x b j);
  pd2_hx : forall k i, along t (in_h X k) (fun r x => row i (md_dh_dx (md r) k x)) (fun x => dm_d2h_dx_dq (D t) k x a i) (fun x j => dm_d2h_dx2 (D t) k x j i);
  pd2_R : forall b, mderiv (fun r => dm_dR_dq (D r) b) t (dm_d2R_dq2 (D t) a b);
  pd2_Rsym : forall b, (dm_dR_dq (D t) b)^T = dm_dR_dq (D t) b;
  pd2_fsym : forall k x i j, in_f X k x -> dm_d2f_dx2 (D t) k x i j = dm_d2f_dx2 (D t) k x j i;
  pd2_hsym : forall k x i j, in_h X k x -> dm_d2h_dx2 (D t) k x i j = dm_d2h_dx2 (D t) k x j i }.

Arguments pd_f _ k [x x'].
Arguments pd_Q _ k [x x'].
Arguments pd_h _ k [x x'].
Arguments pd2_fq _ k b [x x'].
Arguments pd2_fx _ k i [x x'].
Arguments pd2_Qq _ k b [x x'].
Arguments pd2_Qx _ k i [x x'].
Arguments pd2_hq _ k b [x x'].
Arguments pd2_hx _ k i [x x'].
Arguments pd2_fsym : clear implicits.
Arguments pd2_hsym : clear implicits.

Hypothesis PD : path_diff.

(** State and derivatives along the path. *)
Record stan (x : R -> 'rV[RF]_nx) (P : R -> 'M[RF]_nx) (d : dstate RF nx nq) : Prop := Stan {
  stan_x : mderiv x t (ds_x d a); stan_P : mderiv P t (ds_P d a); stan_sym : symc t P }.
Definition stan2 (d : R -> dstate RF nx nq) (d2 : d2state RF nx nq) : Prop :=
  forall b, mderiv (fun r => ds_x (d r) b) t (d2_x d2 a b) /\ mderiv (fun r => ds_P (d r) b) t (d2_P d2 a b).

Lemma symcD n (M N : R -> 'M[RF]_n) : symc t M -> symc t N -> symc t (fun r => M r + N r).
Proof. by move=> H1 H2; apply: near_mp (near_and H1 H2) _ => r [E1 E2]; rewrite linearD /= E1 E2. Qed.

Section Pred.
Variable kp : RF.
Variables (k : nat) (x : R -> 'rV[RF]_nx) (P : R -> 'M[RF]_nx).
Notation s r := (FS k (x r) (P r)).

Lemma pred_tangent d u0 v0 : stan x P d ->
  pred_ut (D t) kp (s t) = Ok u0 -> pred_ut_diff (D t) (s t) u0 d = Ok v0 ->
  (forall j, in_f X k (row j (u_isigma u0))) -> in_Q X k (x t) ->
  exists u, [/\ near t (fun r => pred_ut (D r) kp (s r) = Ok (u r)),
    u t = u0, near t (fun r => upp (u_S (u r)) /\ posdiag (u_S (u r))),
    ut_tangent t u v0 a &
    stan (fun r => u_o (u r)) (fun r => u_Po (u r) + md_Q (md r) k (x r)) (pred_dstate (D t) (s t) v0 d)].
Proof.
move=> [Hx HP SP] Eu Ev Xf XQ.
have [u [nu ut nU T]] := transform_tangent Hx HP SP (pd_f PD k) Eu Ev Xf.
exists u; split=> //; split=> /=.
- exact: tan_o T.
- exact: mderivD (tan_Po T) (pd_Q PD k XQ Hx).
- apply: symcD; last by apply: near_all => r; apply: pd_Qsym PD _ _ _.
  by apply: near_mp nu _ => r E; apply: u_Po_sym E.
Qed.

Hypothesis PD2 : path_diff2.

Lemma pred_tangent2 u v0 (d : R -> dstate RF nx nq) d2 : stan x P (d t) -> stan2 d d2 ->
  near t (fun r => upp (u_S (u r)) /\ posdiag (u_S (u r))) ->
  ut_tangent t u v0 a -> pred_ut_diff (kappa := kp) (D t) (s t) (u t) (d t) = Ok v0 ->
  (forall j, in_f X k (row j (u_isigma (u t)))) -> in_Q X k (x t) ->
  exists v, [/\ near t (fun r => pred_ut_diff (D r) (s r) (u r) (d r) = Ok (v r)), v t = v0 &
    stan2 (fun r => pred_dstate (D r) (s r) (v r) (d r)) (pred_d2state (D t) (s t) (u t) v0 (d t) d2)].
Proof.
move=> St St2 nU T Ev Xf XQ.
pose v r := utd_of (u r) (invmx (chol_AL (u_S (u r)))) (dm_df_dq (D r) k) (md_df_dx (md r) k) (ds_x (d r)) (ds_P (d r)).
have main b := @transform_tangent2 t nx nx nq kp u v0 (fun r => dm_df_dq (D r) k) (fun r => md_df_dx (md r) k)
  (dm_d2f_dq2 (D t) k) (dm_d2f_dx2 (D t) k) (dm_d2f_dx_dq (D t) k) (fun r => ds_x (d r)) (fun r => ds_P (d r)) (d2_x d2) (d2_P d2) a b
  nU T Ev (proj1 (St2 b)) (proj2 (St2 b)) _ Xf (pd2_fq PD2 k b) (pd2_fx PD2 k) (pd2_fsym PD2 k).
exists v; split; [by have [] := main a | by have [] := main a |].
move=> b; have [_ _ T2] := main b; split=> /=; first exact: tan2_o T2.
apply: mderivD (tan2_Po T2) _.
have Hx := stan_x St.
apply: mderiv_eq (mderivD (pd2_Qq PD2 k b XQ Hx) _) _.
  apply: mderiv_sum => i _; apply: mderivZs; first exact: (proj1 (St2 b)).
  exact: (pd2_Qx PD2 k i XQ Hx).
rewrite big_split /=.
set A1 := dm_d2Q_dq2 _ _ _ _ _; set A2 := \sum_i ds_x _ a 0 _ *: _; set A3 := \sum_i d2_x _ _ _ _ _ *: _.
set A4 := \sum_(i < nx) _.
have -> : A4 = \sum_i ds_x (d t) b 0 i *: dm_d2Q_dx_dq (D t) k (x t) a i
   + \sum_i \sum_j (ds_x (d t) b 0 i * ds_x (d t) a 0 j) *: dm_d2Q_dx2 (D t) k (x t) j i.
  rewrite /A4 -big_split /=; apply: eq_bigr => i _; rewrite scalerDr; congr (_ + _).
  by rewrite scaler_sumr; apply: eq_bigr => j _; rewrite scalerA.
by mx_norm RC; ring.
Qed.
End Pred.

Section Corr.
Variable kc : RF.
Variables (k : nat) (x : R -> 'rV[RF]_nx) (P : R -> 'M[RF]_nx) (A : {set 'I_ny}) (y : 'rV[RF]_ny).
Notation s r := (FS k (x r) (P r)).

Definition corr_of (u : ut_data nx kc #|A|) (Py PyC : 'M[RF]_#|A|) : corr0 nx kc A :=
  let PyCI := invmx PyC in
  let PyI := PyCI *m PyCI^T in
  C0 u (pick A y - u_o u) (crosscov u) Py PyC PyI (crosscov u *m PyI).

(** Everything a correction computes. *)
Record corr_tangent (c : R -> corr0 nx kc A) (c1 : corr1 nx nq kc A) : Prop := CorrTangent {
  ct_u : ut_tangent t (fun r => c_u (c r)) (c_v c1) a;
  ct_e : mderiv (fun r => c_e (c r)) t (c_de c1 a);
  ct_Pxh : mderiv (fun r => c_Pxh (c r)) t (c_dPxh c1 a);
  ct_Py : mderiv (fun r => c_Py (c r)) t (c_dPy c1 a);
  ct_PyC : mderiv (fun r => c_PyC (c r)) t (unvecL (invmx (chol_AL (c_PyC (c t))) *m vecL (c_dPy c1 a)));
  ct_PyI : mderiv (fun r => c_PyI (c r)) t (c_dPyI c1 a);
  ct_K : mderiv (fun r => c_K (c r)) t (c_dK c1 a);
  ct_U : near t (fun r => upp (u_S (c_u (c r))) /\ posdiag (u_S (c_u (c r))));
  ct_C : near t (fun r => upp (c_PyC (c r)) /\ posdiag (c_PyC (c r)));
  ct_Psym : symc t (fun r => c_Py (c r));
  ct_Isym : symc t (fun r => c_PyI (c r)) }.

Lemma correct1_ok r (c : corr0 nx kc A) d c1 : correct1 (D r) (s r) c d = Ok c1 ->
  exists2 v, transform_diff (c_u c) (fun x a => pick A (dm_dh_dq (D r) k x a)) (fun x => pick A (md_dh_dx (md r) k x)) (ds_x d) (ds_P d) = Ok v &
  c1 = (let dPxh := crosscov_diff (c_u c) v in
    let dPy a := v_dPo v a + pick2 A (dm_dR_dq (D r) a) in
    let dPyI a := - (c_PyI c *m dPy a *m c_PyI c) in
    C1 v (fun a => - v_do v a) dPxh dPy dPyI (fun a => c_Pxh c *m dPyI a + dPxh a *m c_PyI c)).
Proof.
by rewrite /correct1; case: (transform_diff _ _ _ _ _) => [v|//] [<-]; exists v.
Qed.

Lemma row_pick m (M : 'M[RF]_(m, ny)) j : row j (pick A M) = pick A (row j M).
Proof. by apply/matrixP => i l; rewrite !mxE. Qed.

Lemma correct_tangent d c0 c1 : stan x P d ->
  correct0 (D t) kc (s t) A y = Ok c0 -> correct1 (D t) (s t) c0 d = Ok c1 ->
  (forall j, in_h X k (row j (u_isigma (c_u c0)))) ->
  exists c, [/\ near t (fun r => correct0 (D r) kc (s r) A y = Ok (c r)), c t = c0, corr_tangent c c1 &
    stan (fun r => fs_x (corr_state (s r) (c r))) (fun r => fs_P (corr_state (s r) (c r))) (corr_dstate c0 c1 d)].
Proof.
move=> [Hx HP SP]; rewrite /correct0.
case Eu: (transform _ _ _ _ _) => [u0|//]; rewrite /bind.
case EC: (chol _) => [PyC0|//].
case EI: (inv _) => [PyCI0|//] [c0E] E1 Xh.
have [v0 Ev c1E] := correct1_ok E1.
have cu : c_u c0 = u0 by rewrite -c0E.
rewrite cu in Ev Xh.
have Hh : along t (in_h X k) (fun r x => pick A (md_h (md r) k x)) (fun x => pick A (dm_dh_dq (D t) k x a)) (fun x j => row j (pick A (md_dh_dx (md t) k x))).
  move=> z z' Xz Hz; apply: mderiv_eq (along_pick (A := A) (pd_h PD k) Xz Hz) _.
  by congr (_ + _); apply: eq_bigr => j _; rewrite row_pick.
have [u [nu ut nU T]] := transform_tangent Hx HP SP Hh Eu Ev Xh.
pose Py r := u_Po (u r) + pick2 A (md_R (md r)).
have HPy : mderiv Py t (c_dPy c1 a) by rewrite c1E; apply: mderivD (tan_Po T) (mderiv_pick2 (pd_R PD)).
have SPy : symc t Py.
  apply: symcD; first by apply: near_mp nu _ => r E; apply: u_Po_sym E.
  apply: near_all => r; apply/matrixP => i j; rewrite !mxE.
  by have /matrixP /(_ (enum_val i) (enum_val j)) := pd_Rsym PD r; rewrite mxE.
rewrite -ut -/(Py t) in EC.
have [PyC [nC Ct nUC HC]] := chol_deriv SPy HPy EC.
pose c r := corr_of (u r) (Py r) (PyC r).
have nI : near t (fun r => [/\ PyC r \in unitmx, invmx (PyC r) *m (invmx (PyC r))^T = invmx (Py r) & Py r \in unitmx]).
  apply: near_mp (near_and SPy (near_and nC nUC)) _ => r [Sr [Cr [Ur Dr]]].
  have Uc := upp_unit Ur Dr; have [_ _ Er] := proj1 (chol_spec _ Sr) Cr.
  have UcT : (PyC r)^T \in unitmx by rewrite unitmx_tr.
  have inv2 n (M N : 'M[RF]_n) : M \in unitmx -> N \in unitmx -> invmx (M *m N) = invmx N *m invmx M.
    by move=> Um Un; rewrite -!/(_^-1%R); case: n M N Um Un => [|n] M N Um Un;
      [by apply/matrixP => i; case: i | rewrite -[invmx M]/(M^-1) -[invmx N]/(N^-1) -[invmx (M *m N)]/((M * N)^-1) invrM].
  by split=> //; rewrite -Er ?unitmx_mul ?UcT ?Uc // inv2 // trmx_inv.
have ct : c t = c0.
  rewrite -c0E /c /corr_of /Py ut Ct; have [_ ->] := inv_ok EI.
  by [].
have HI : mderiv (fun r => invmx (PyC r) *m (invmx (PyC r))^T) t (c_dPyI c1 a).
  have [_ It Ut] := near_at nI.
  apply: mderiv_near; last apply: mderiv_eq (mderiv_inv HPy Ut) _.
    by apply: near_mp nI _ => r [].
  have -> : c_dPyI c1 a = - (c_PyI c0 *m c_dPy c1 a *m c_PyI c0) by rewrite c1E.
  by rewrite -ct /= It.
have HX : mderiv (fun r => crosscov (u r)) t (c_dPxh c1 a).
  by apply: mderiv_eq (crosscov_tangent T) _; rewrite c1E cu ut.
have CT : corr_tangent c c1.
  split=> //.
  - by rewrite c1E.
  - have -> : c_de c1 a = 0 - v_do v0 a by rewrite c1E sub0r.
    exact: (mderivB (mderiv_const t (pick A y)) (tan_o T)).
  - by rewrite /= Ct.
  - apply: mderiv_eq (mderivM HX HI) _.
    by rewrite c1E -ct /= addrC ut.
  - apply: near_mp (near_and SPy nI) _ => r [Sr [_ Ir _]] /=.
    by rewrite Ir trmx_inv Sr.
have nc : near t (fun r => correct0 (D r) kc (s r) A y = Ok (c r)).
  apply: near_mp (near_and nu (near_and nC nI)) _ => r [Er [Cr [Ur _ _]]].
  by rewrite /correct0 Er /bind -/(Py r) Cr inv_unit.
clearbody c; rewrite -ct.
exists c; split=> //; split=> /=.
- apply: mderiv_eq (mderivD Hx (mderivM (ct_e CT) (mderiv_tr (ct_K CT)))) _.
  by cbv beta; mx_norm RC; ring.
- apply: mderiv_eq (mderivB HP (mderivM (mderivM (ct_K CT) (ct_Py CT)) (mderiv_tr (ct_K CT)))) _.
  cbv beta; have /= ST := near_at (ct_Psym CT).
  rewrite (symc_deriv SPy HPy) ST !trmx_mul !trmxK ST !mulmxDl !mulmxA.
  by mx_norm RC; ring.
- apply: near_mp (near_and SP (ct_Psym CT)) _ => r [Sr SPr].
  by rewrite [LHS]linearB /= Sr !trmx_mul trmxK SPr mulmxA.
Qed.

Lemma halves (z : RF) : 2%:R^-1 * z + 2%:R^-1 * z = z.
Proof. by rewrite ![2%:R^-1 * z]mulrC -splitr. Qed.
Lemma sc_tr (M : 'M[RF]_1) : M^T 0 0 = M 0 0. Proof. by rewrite mxE. Qed.

Lemma lik_tangent (c : R -> corr0 nx kc A) c1 (L : R -> RF) dL l : corr_tangent c c1 -> sderiv L t (dL a) ->
  lik1 (c t) c1 dL = Ok l -> sderiv (fun r => lik0 ln (c r) (L r)) t (l.2 a).
Proof.
move=> CT HL; have [Ut Dt] := near_at (ct_C CT).
rewrite /lik1 (chol_diff_ok _ Ut Dt) /= => -[<-] /=.
have He := mderivM (mderivM (ct_e CT) (ct_PyI CT)) (mderiv_tr (ct_e CT)).
have Hln k' : sderiv (fun r => ln (c_PyC (c r) k' k')) t (unvecL (invmx (chol_AL (c_PyC (c t))) *m vecL (c_dPy c1 a)) k' k' / c_PyC (c t) k' k').
  by apply: (sderiv_ln (f := fun r => c_PyC (c r) k' k')) (ct_PyC CT k' k'); exact: Dt.
have Hs : sderiv (fun r => \sum_k' ln (c_PyC (c r) k' k')) t (\sum_k' unvecL (invmx (chol_AL (c_PyC (c t))) *m vecL (c_dPy c1 a)) k' k' / c_PyC (c t) k' k').
  by apply: sderiv_sum => k' _; exact: Hln.
have Hh := sderivM (sderiv_const (2%:R^-1 : RF) t) (He 0 0).
apply: sderiv_eq (sderivB (sderivB HL Hh) Hs) _.
cbv beta; rewrite mul0r add0r mxDE mulmxDl mxDE.
have E1 : (c_e (c t) *m c_PyI (c t) *m (c_de c1 a)^T) 0 0 = (c_de c1 a *m c_PyI (c t) *m (c_e (c t))^T) 0 0.
  by rewrite -sc_tr !trmx_mul trmxK (near_at (ct_Isym CT)) mulmxA.
rewrite E1.
set Z := (c_de c1 a *m c_PyI (c t) *m (c_e (c t))^T) 0 0; set V := (_ *m _) 0 0; set S0 := \sum_(_ < _) _.
rewrite -[in RHS](halves Z); clearbody Z V S0; move: (2%:R^-1) (dL a) => h0 l0.
by mc_norm RC; ring.
Qed.

(** Second order. *)
Record corr_tangent2 (c1 : R -> corr1 nx nq kc A) (c2 : corr2 RF nx nq A) : Prop := CorrTangent2 {
  ct2_e : forall b, mderiv (fun r => c_de (c1 r) b) t (c_d2e c2 a b);
  ct2_Py : forall b, mderiv (fun r => c_dPy (c1 r) b) t (c_d2Py c2 a b);
  ct2_PyI : forall b, mderiv (fun r => c_dPyI (c1 r) b) t (c_d2PyI c2 a b);
  ct2_K : forall b, mderiv (fun r => c_dK (c1 r) b) t (c_d2K c2 a b);
  ct2_sym : forall b, (c_dPy (c1 t) b)^T = c_dPy (c1 t) b;
  ct2_Isym : forall b, (c_dPyI (c1 t) b)^T = c_dPyI (c1 t) b }.

Hypothesis PD2 : path_diff2.

Lemma correct_tangent2 c c10 (d : R -> dstate RF nx nq) d2 : stan x P (d t) -> stan2 d d2 ->
  corr_tangent c c10 -> correct1 (D t) (s t) (c t) (d t) = Ok c10 ->
  (forall j, in_h X k (row j (u_isigma (c_u (c t))))) ->
  exists c1, [/\ near t (fun r => correct1 (D r) (s r) (c r) (d r) = Ok (c1 r)), c1 t = c10,
    corr_tangent2 c1 (correct2 (D t) (s t) (c t) c10 d2) &
    stan2 (fun r => corr_dstate (c r) (c1 r) (d r)) (corr_d2state (c t) c10 (correct2 (D t) (s t) (c t) c10 d2) d2)].
Proof.
move=> St St2 CT E1 Xh; have [v0 Ev c1E] := correct1_ok E1.
have cv : c_v c10 = v0 by rewrite c1E.
have T : ut_tangent t (fun r => c_u (c r)) v0 a by rewrite -cv; exact: ct_u CT.
have Hq b : along t (in_h X k) (fun r x => pick A (dm_dh_dq (D r) k x b)) (fun x => pick A (dm_d2h_dq2 (D t) k x a b)) (fun x j => pick A (dm_d2h_dx_dq (D t) k x b j)).
  exact: along_pick (pd2_hq PD2 k b).
have Hx i : along t (in_h X k) (fun r x => row i (pick A (md_dh_dx (md r) k x))) (fun x => pick A (dm_d2h_dx_dq (D t) k x a i)) (fun x j => pick A (dm_d2h_dx2 (D t) k x j i)).
  move=> z z' Xz Hz; apply: mderiv_ext (along_pick (A := A) (pd2_hx PD2 k i) Xz Hz) => r.
  by rewrite row_pick.
have Hs z i j : in_h X k z -> pick A (dm_d2h_dx2 (D t) k z i j) = pick A (dm_d2h_dx2 (D t) k z j i) by move=> Xz; rewrite (pd2_hsym PD2 _ _ _ _ Xz).
pose v r := utd_of (c_u (c r)) (invmx (chol_AL (u_S (c_u (c r))))) (fun x a => pick A (dm_dh_dq (D r) k x a)) (fun x => pick A (md_dh_dx (md r) k x)) (ds_x (d r)) (ds_P (d r)).
have main b := @transform_tangent2 t nx #|A| nq kc (fun r => c_u (c r)) v0 (fun r x a => pick A (dm_dh_dq (D r) k x a)) (fun r x => pick A (md_dh_dx (md r) k x))
  (fun x a b => pick A (dm_d2h_dq2 (D t) k x a b)) (fun x i j => pick A (dm_d2h_dx2 (D t) k x i j)) (fun x a i => pick A (dm_d2h_dx_dq (D t) k x a i))
  (fun r => ds_x (d r)) (fun r => ds_P (d r)) (d2_x d2) (d2_P d2) a b
  (ct_U CT) T Ev (proj1 (St2 b)) (proj2 (St2 b)) _ Xh (Hq b) Hx Hs.
have vt : v t = v0 by have [] := main a.
have nv : near t (fun r => transform_diff (c_u (c r)) (fun x a => pick A (dm_dh_dq (D r) k x a)) (fun x => pick A (md_dh_dx (md r) k x)) (ds_x (d r)) (ds_P (d r)) = Ok (v r)) by have [] := main a.
pose dPxh r b := crosscov_diff (c_u (c r)) (v r) b.
pose dPy r b := v_dPo (v r) b + pick2 A (dm_dR_dq (D r) b).
pose dPyI r b := - (c_PyI (c r) *m dPy r b *m c_PyI (c r)).
pose dK r b := c_Pxh (c r) *m dPyI r b + dPxh r b *m c_PyI (c r).
pose c1 r := C1 (v r) (fun b => - v_do (v r) b) (dPxh r) (dPy r) (dPyI r) (dK r).
have c1t : c1 t = c10 by rewrite c1E /c1 /dK /dPyI /dPy /dPxh vt.
have nc1 : near t (fun r => correct1 (D r) (s r) (c r) (d r) = Ok (c1 r)).
  by apply: near_mp nv _ => r Er; rewrite /correct1 Er.
set c2 := correct2 _ _ _ _ _.
have HX b : mderiv (fun r => c_dPxh (c1 r) b) t (crosscov_diff2 (c_u (c t)) (c_v c10)
   (transform_diff2 (c_u (c t)) (fun x => pick A (md_dh_dx (md t) k x)) (fun x a b => pick A (dm_d2h_dq2 (D t) k x a b))
             (fun x i j => pick A (dm_d2h_dx2 (D t) k x i j)) (fun x a i => pick A (dm_d2h_dx_dq (D t) k x a i)) (c_v c10) (d2_x d2) (d2_P d2)) a b).
  rewrite cv; have [_ _ T2] := main b; exact: (crosscov_tangent2 T T2 vt).
have He b : mderiv (fun r => c_de (c1 r) b) t (c_d2e c2 a b).
  have [_ _ T2] := main b; rewrite /c2 /= cv; exact: mderivN (tan2_o T2).
have HPy b : mderiv (fun r => c_dPy (c1 r) b) t (c_d2Py c2 a b).
  have [_ _ T2] := main b; rewrite /c2 /= cv; exact: mderivD (tan2_Po T2) (mderiv_pick2 (pd2_R PD2 b)).
have HPyI b : mderiv (fun r => c_dPyI (c1 r) b) t (c_d2PyI c2 a b).
  apply: mderiv_eq (mderivN (mderivM (mderivM (ct_PyI CT) (HPy b)) (ct_PyI CT))) _.
  cbv beta; rewrite c1t mulmxDl.
  have -> : c_d2PyI c2 a b = - (c_dPyI c10 a *m c_dPy c10 b *m c_PyI (c t)) - c_PyI (c t) *m c_d2Py c2 a b *m c_PyI (c t)
     - c_PyI (c t) *m c_dPy c10 b *m c_dPyI c10 a by [].
  by mx_norm RC; ring.
have HK b : mderiv (fun r => c_dK (c1 r) b) t (c_d2K c2 a b).
  apply: mderiv_eq (mderivD (mderivM (ct_Pxh CT) (HPyI b)) (mderivM (HX b) (ct_PyI CT))) _.
  cbv beta; rewrite c1t.
  rewrite [in RHS]/c2 /correct2; cbv beta iota zeta delta [c_d2K].
  by mx_norm RC; ring.
have Sv b : (c_dPy c10 b)^T = c_dPy c10 b.
  have trD (M N : 'M[RF]_#|A|) : (M + N)^T = M^T + N^T by rewrite linearD.
  have -> : c_dPy c10 b = v_dPo v0 b + pick2 A (dm_dR_dq (D t) b) by rewrite c1E.
  rewrite trD; congr (_ + _).
    by rewrite -vt /= trD trmxK addrC.
  apply/matrixP => i j; rewrite !mxE.
  by have /matrixP /(_ (enum_val i) (enum_val j)) := pd2_Rsym PD2 b; rewrite mxE.
have SI := near_at (ct_Isym CT).
have SvI b : (c_dPyI c10 b)^T = c_dPyI c10 b.
  have trN (M : 'M[RF]_#|A|) : (- M)^T = - M^T by rewrite linearN.
  have -> : c_dPyI c10 b = - (c_PyI (c t) *m c_dPy c10 b *m c_PyI (c t)) by rewrite c1E.
  by rewrite trN !trmx_mul Sv SI mulmxA.
exists c1; split=> //; first by split=> // b; rewrite c1t.
have SP := near_at (ct_Psym CT).
clearbody c2 c1.
move=> b; have [Hxb HPb] := St2 b; split.
- apply: mderiv_eq (mderivD (mderivD Hxb (mderivM (ct_e CT) (mderiv_tr (HK b)))) (mderivM (He b) (mderiv_tr (ct_K CT)))) _.
  cbv beta; rewrite c1t /=.
  by mx_norm RC; ring.
- have HM := mderivM (mderivM (HK b) (mderiv_tr (ct_Py CT))) (mderiv_tr (ct_K CT)).
  have HN := mderivM (mderivM (ct_K CT) (mderiv_tr (HPy b))) (mderiv_tr (ct_K CT)).
  apply: mderiv_eq (mderivB (mderivB HPb HN) (mderivD HM (mderiv_tr HM))) _.
  cbv beta; rewrite c1t /=.
  have trD n (M N : 'M[RF]_n) : (M + N)^T = M^T + N^T by rewrite linearD.
  rewrite SP !mulmxDl !trD !trmx_mul !trmxK SP !Sv !mulmxA.
  by mx_norm RC; ring.
Qed.

Lemma lik_tangent2 (c : R -> corr0 nx kc A) (c1 : R -> corr1 nx nq kc A) c2 (dL : R -> 'I_nq -> RF) d2L l0 :
  corr_tangent c (c1 t) -> corr_tangent2 c1 c2 -> (forall b, sderiv (fun r => dL r b) t (d2L a b)) ->
  lik1 (c t) (c1 t) (dL t) = Ok l0 ->
  exists l, [/\ near t (fun r => lik1 (c r) (c1 r) (dL r) = Ok (l r)), l t = l0 &
    forall b, sderiv (fun r => (l r).2 b) t (lik2 (c t) (c1 t) c2 l0.1 d2L a b)].
Proof.
move=> CT CT2 HL; have [Ut Dt] := near_at (ct_C CT).
rewrite /lik1 (chol_diff_ok _ Ut Dt) /= => -[l0E].
pose S r b := unvecL (invmx (chol_AL (c_PyC (c r))) *m vecL (c_dPy (c1 r) b)).
pose l r := ((invmx (chol_AL (c_PyC (c r))), S r), fun b => dL r b - \sum_k' S r b k' k' / c_PyC (c r) k' k'
            - (c_de (c1 r) b *m c_PyI (c r) *m (c_e (c r))^T) 0 0
            - 2%:R^-1 * (c_e (c r) *m c_dPyI (c1 r) b *m (c_e (c r))^T) 0 0).
exists l; split=> //.
  by apply: near_mp (ct_C CT) _ => r [Ur Dr]; rewrite (chol_diff_ok _ Ur Dr).
move=> b.
have HS := @chol_diff_deriv t _ nq (fun r => c_PyC (c r)) (fun r => c_dPy (c1 r)) a b (c_d2Py c2) (S t) Ut Dt (ct_PyC CT) (ct2_Py CT2 b).
have Hk k' : sderiv (fun r => S r b k' k' / c_PyC (c r) k' k') t
   (chol_diff2 (invmx (chol_AL (c_PyC (c t)))) (c_dPy (c1 t)) (S t) (c_d2Py c2) a b k' k' / c_PyC (c t) k' k'
    - S t a k' k' * (S t b k' k' / c_PyC (c t) k' k' ^+ 2)).
  have nz : c_PyC (c t) k' k' != 0 by rewrite gt_eqF // Dt.
  apply: sderiv_eq (sderivM (HS k' k') (sderivV (f := fun r => c_PyC (c r) k' k') nz (ct_PyC CT k' k'))) _.
  by congr (_ + _); rewrite -/(S t a) -/(S t b) mulNr mulrN mulrCA.
have Hs : sderiv (fun r => \sum_k' S r b k' k' / c_PyC (c r) k' k') t (\sum_k' (chol_diff2 (invmx (chol_AL (c_PyC (c t)))) (c_dPy (c1 t)) (S t) (c_d2Py c2) a b k' k' / c_PyC (c t) k' k'
    - S t a k' k' * (S t b k' k' / c_PyC (c t) k' k' ^+ 2))).
  by apply: sderiv_sum => k' _; exact: Hk.
have H1 := mderivM (mderivM (ct2_e CT2 b) (ct_PyI CT)) (mderiv_tr (ct_e CT)).
have H2 := mderivM (mderivM (ct_e CT) (ct2_PyI CT2 b)) (mderiv_tr (ct_e CT)).
have Hh := sderivM (sderiv_const (2%:R^-1 : RF) t) (H2 0 0).
apply: sderiv_eq (sderivB (sderivB (sderivB (HL b) Hs) (H1 0 0)) Hh) _.
cbv beta; rewrite -l0E /= mul0r add0r /lik2 /= sumrB.
have E1 : (c_e (c t) *m c_dPyI (c1 t) b *m (c_de (c1 t) a)^T) 0 0 = (c_de (c1 t) a *m c_dPyI (c1 t) b *m (c_e (c t))^T) 0 0.
  by rewrite -sc_tr !trmx_mul trmxK (ct2_Isym CT2) mulmxA.
have E2 : (c_de (c1 t) b *m c_PyI (c t) *m (c_de (c1 t) a)^T) 0 0 = (c_de (c1 t) a *m c_PyI (c t) *m (c_de (c1 t) b)^T) 0 0.
  by rewrite -sc_tr !trmx_mul trmxK (near_at (ct_Isym CT)) mulmxA.
rewrite !mulmxDl !mxDE E1 E2.
set Z := (c_de (c1 t) a *m c_dPyI (c1 t) b *m (c_e (c t))^T) 0 0.
rewrite -[in RHS](halves Z).
move: (2%:R^-1) => h0; move: (d2L a b) => l1.
rewrite /S; set Q1 := \sum_(i < _) _; set Q2 := \sum_(i < _) _; clearbody Z Q1 Q2.
by mx_atoms; mc_norm RC; ring.
Qed.
End Corr.
End Filt.
