(** Derivatives of the unscented transform along paths. *)
From Coq Require Import String Reals Lra.
From Coquelicot Require Import Coquelicot.
From Verif Require Import Py.
From mathcomp Require Import all_ssreflect all_algebra.
From Verif Require Import RealField McRing MxCalc KalModel PsdLemmas CholLemmas UtLemmas KalDiffModel CholDiffLemmas PropsCholDiff.
Set Implicit Arguments.
Unset Strict Implicit.
Unset Printing Implicit Defensive.
Import Order.TTheory GRing.Theory Num.Theory.
Local Open Scope ring_scope.

(** A function of a state, changing with the path parameter: differentiable
    at [t] along every differentiable path of states that is in [X] at [t],
    with derivative [fq] by the parameter and [fx] by the components of the
    state. *)
Definition along t n m p (X : 'rV[RF]_n -> Prop) (f : R -> 'rV[RF]_n -> 'M[RF]_(m, p)) (fq : 'rV[RF]_n -> 'M[RF]_(m, p)) (fx : 'rV[RF]_n -> 'I_n -> 'M[RF]_(m, p)) : Prop :=
  forall x x', X (x t) -> mderiv x t x' -> mderiv (fun s => f s (x s)) t (fq (x t) + \sum_i x' 0 i *: fx (x t) i).

(** The derivative of a goal, found by the shape of the function. *)
Ltac md_step := first
  [ eassumption | eapply mderiv_const
  | eapply mderivB | eapply mderivD | eapply mderivN
  | eapply mderivMl | eapply mderivMr | eapply mderivM
  | eapply mderiv_tr | eapply mderivZ ].
Ltac md := repeat md_step.

Section Rules.
Variable t : R.

Lemma mderiv_every m n (v : R -> 'rV[RF]_n) d : mderiv v t d -> mderiv (fun s => every m (v s)) t (every m d).
Proof. by move=> H i j; rewrite mxE; apply: sderiv_ext (H 0 j) => s; rewrite mxE. Qed.
Lemma mderiv_deviations n kappa (S : R -> 'M[RF]_n) D : mderiv S t D -> mderiv (fun s => deviations kappa (S s)) t (deviations kappa D).
Proof.
move=> H; apply: mderiv_col_mx; last exact: mderiv_const.
by apply: mderiv_col_mx => //; apply: mderivN.
Qed.
Lemma mderiv_pick ny (A : {set 'I_ny}) m (M : R -> 'M[RF]_(m, ny)) D : mderiv M t D -> mderiv (fun s => pick A (M s)) t (pick A D).
Proof. by move=> H i j; rewrite mxE; apply: sderiv_ext (H i (enum_val j)) => s; rewrite mxE. Qed.
Lemma mderiv_pick2 ny (A : {set 'I_ny}) (M : R -> 'M[RF]_ny) D : mderiv M t D -> mderiv (fun s => pick2 A (M s)) t (pick2 A D).
Proof. by move=> H i j; rewrite mxE; apply: sderiv_ext (H (enum_val i) (enum_val j)) => s; rewrite mxE. Qed.

Lemma pick_sum ny (A : {set 'I_ny}) n m (c : 'I_n -> RF) (M : 'I_n -> 'M[RF]_(m, ny)) (B : 'M_(m, ny)) :
  pick A (B + \sum_i c i *: M i) = pick A B + \sum_i c i *: pick A (M i).
Proof.
apply/matrixP => i j; rewrite !mxE !summxE; congr (_ + _).
by apply: eq_bigr => k _; rewrite !mxE.
Qed.
Lemma along_pick ny (A : {set 'I_ny}) n m X (f : R -> 'rV[RF]_n -> 'M[RF]_(m, ny)) fq fx :
  along t X f fq fx -> along t X (fun s x => pick A (f s x)) (fun x => pick A (fq x)) (fun x i => pick A (fx x i)).
Proof. by move=> H x x' Xx Hx; apply: mderiv_eq (mderiv_pick (A := A) (H x x' Xx Hx)) _; rewrite pick_sum. Qed.
End Rules.

Let RC := [comRingType of RF].
Add Ring RfRing : (com_rt RC).

Section Ut.
Variables (t : R) (ni no nq : nat) (kappa : RF).
Notation ns := (nsigma ni kappa).
Notation W := (diag_mx (weights ni kappa)).
Notation m0 := (ni%:R + kappa).

(** The result of a successful transform as a function of the factor. *)
Definition ut_of (Sq : 'M[RF]_ni) (i : 'rV[RF]_ni) (f : 'rV[RF]_ni -> 'rV[RF]_no) : ut_data ni kappa no :=
  let idev := deviations kappa Sq in
  let isigma := idev + every _ i in
  let osigma := at_rows f isigma in
  let o := weights ni kappa *m osigma in
  let odev := osigma - every _ o in
  UT Sq isigma idev osigma odev o (odev^T *m W *m odev).
Lemma transformE rt i Pi f : transform kappa rt i Pi f = let* Sq := rt (m0 *: Pi) in Ok (ut_of Sq i f).
Proof. by []. Qed.

Definition utd_of (u : ut_data ni kappa no) (ALI : 'M[RF]_(ntril ni)) (df_dq : 'rV[RF]_ni -> 'I_nq -> 'rV[RF]_no) (df_di : 'rV[RF]_ni -> 'M[RF]_(ni, no))
    (di : 'I_nq -> 'rV[RF]_ni) (dPi : 'I_nq -> 'M[RF]_ni) : ut_diff ni no nq kappa :=
  let isigma := u_isigma u in
  let dQ a := m0 *: dPi a in
  let dS a := unvecL (ALI *m vecL (dQ a)) in
  let didev a := deviations kappa (dS a) in
  let disigma a := didev a + every _ (di a) in
  let Dosigma a := \matrix_(k, j) (df_dq (row k isigma) a 0 j + (row k (disigma a) *m df_di (row k isigma)) 0 j) in
  let do a := weights ni kappa *m Dosigma a in
  let dodev a := Dosigma a - every _ (do a) in
  let half a := (u_odev u)^T *m W *m dodev a in
  UTD ALI dQ dS didev disigma dodev do (fun a => half a + (half a)^T).
Lemma transform_diffE u df_dq df_di di dPi : upp (u_S u) -> posdiag (u_S u) ->
  transform_diff u df_dq df_di di dPi = Ok (utd_of u (invmx (chol_AL (u_S u))) df_dq df_di di dPi).
Proof. by move=> US PS; rewrite /transform_diff chol_diff_ok. Qed.

(** The derivatives of everything a transform computes. *)
Record ut_tangent (u : R -> ut_data ni kappa no) (v : ut_diff ni no nq kappa) (a : 'I_nq) : Prop := UtTangent {
  tan_S : mderiv (fun s => u_S (u s)) t (v_dS v a);
  tan_idev : mderiv (fun s => u_idev (u s)) t (v_didev v a);
  tan_isigma : mderiv (fun s => u_isigma (u s)) t (v_disigma v a);
  tan_odev : mderiv (fun s => u_odev (u s)) t (v_dodev v a);
  tan_o : mderiv (fun s => u_o (u s)) t (v_do v a);
  tan_Po : mderiv (fun s => u_Po (u s)) t (v_dPo v a) }.

Section First.
Variables (i : R -> 'rV[RF]_ni) (Pi : R -> 'M[RF]_ni) (f : R -> 'rV[RF]_ni -> 'rV[RF]_no).
Variables (df_dq : 'rV[RF]_ni -> 'I_nq -> 'rV[RF]_no) (df_di : 'rV[RF]_ni -> 'M[RF]_(ni, no)).
Variables (di : 'I_nq -> 'rV[RF]_ni) (dPi : 'I_nq -> 'M[RF]_ni) (a : 'I_nq).
Hypothesis Hi : mderiv i t (di a).
Hypothesis HP : mderiv Pi t (dPi a).
Hypothesis SP : symc t Pi.
Variable X : 'rV[RF]_ni -> Prop.
Hypothesis Hf : along t X f (fun x => df_dq x a) (fun x j => row j (df_di x)).

Lemma symcZ n c (Q : R -> 'M[RF]_n) : symc t Q -> symc t (fun s => c *: Q s).
Proof. by move=> H; apply: near_mp H _ => s E; rewrite linearZ /= E. Qed.

Lemma transform_tangent u0 v0 :
  transform kappa (@chol RF ni) (i t) (Pi t) (f t) = Ok u0 ->
  transform_diff u0 df_dq df_di di dPi = Ok v0 -> (forall k, X (row k (u_isigma u0))) ->
  exists u, [/\ near t (fun s => transform kappa (@chol RF ni) (i s) (Pi s) (f s) = Ok (u s)),
    u t = u0, near t (fun s => upp (u_S (u s)) /\ posdiag (u_S (u s))) & ut_tangent u v0 a].
Proof.
rewrite transformE; case ES: chol => [S0|//] /= [uE].
have HQ : mderiv (fun s => m0 *: Pi s) t (m0 *: dPi a) by apply: mderivZ.
have [S [nS St nU HS]] := chol_deriv (symcZ m0 SP) HQ ES.
have [US PS] := near_at nU.
pose u s := ut_of (S s) (i s) (f s).
have ut : u t = u0 by rewrite /u St.
rewrite -ut transform_diffE // => -[vE] Xu.
exists u; split=> //; first by apply: near_mp nS _ => s Es; rewrite transformE Es.
have dSE : unvecL (invmx (chol_AL S0) *m vecL (m0 *: dPi a)) = v_dS v0 a.
  by rewrite -vE /= St.
rewrite dSE in HS.
have Hid : mderiv (fun s => u_idev (u s)) t (v_didev v0 a).
  have -> : v_didev v0 a = deviations kappa (v_dS v0 a) by rewrite -vE.
  exact: mderiv_deviations HS.
have His : mderiv (fun s => u_isigma (u s)) t (v_disigma v0 a).
  by apply: mderiv_eq (mderivD Hid (mderiv_every Hi)) _; rewrite -vE.
pose D := \matrix_(k, j) (df_dq (row k (u_isigma (u t))) a 0 j + (row k (v_disigma v0 a) *m df_di (row k (u_isigma (u t)))) 0 j).
have Hos : mderiv (fun s => u_osigma (u s)) t D.
  move=> k j; rewrite mxE.
  have H := Hf (x := fun s => row k (u_isigma (u s))) (Xu k) (mderiv_row k His); apply: sderiv_eq; first apply: sderiv_ext (H 0 j) => s.
    by rewrite /u /= !mxE.
  rewrite !mxE summxE; congr (_ + _); apply: eq_bigr => l _; by rewrite !mxE.
have Ho : mderiv (fun s => u_o (u s)) t (v_do v0 a).
  by apply: mderiv_eq (mderivMl (weights ni kappa) Hos) _; rewrite /D -vE.
have Hod : mderiv (fun s => u_odev (u s)) t (v_dodev v0 a).
  by apply: mderiv_eq (mderivB Hos (mderiv_every Ho)) _; rewrite /D -vE.
split=> //.
apply: mderiv_eq (mderivM (mderivMr W (mderiv_tr Hod)) Hod) _.
by rewrite -vE /= trmx_mul trmx_mul trmxK tr_diag_mx addrC mulmxA.
Qed.
End First.

Lemma crosscov_tangent u v a : ut_tangent u v a -> mderiv (fun s => crosscov (u s)) t (crosscov_diff (u t) v a).
Proof.
move=> T; apply: mderiv_eq (mderivM (mderivMr W (mderiv_tr (tan_idev T))) (tan_odev T)) _.
by [].
Qed.

(** Second order: [w] holds the derivatives along direction [a] of the first
    derivatives in direction [b]. *)
Record ut_tangent2 (v : R -> ut_diff ni no nq kappa) (d2S : 'M[RF]_ni) (w : ut_diff2 ni no nq kappa) (a b : 'I_nq) : Prop := UtTangent2 {
  tan2_S : mderiv (fun s => v_dS (v s) b) t d2S;
  tan2_idev : mderiv (fun s => v_didev (v s) b) t (w_d2idev w a b);
  tan2_odev : mderiv (fun s => v_dodev (v s) b) t (w_d2odev w a b);
  tan2_o : mderiv (fun s => v_do (v s) b) t (w_d2o w a b);
  tan2_Po : mderiv (fun s => v_dPo (v s) b) t (w_d2Po w a b) }.

Section Second.
Variables (u : R -> ut_data ni kappa no) (v0 : ut_diff ni no nq kappa).
Variables (df_dq : R -> 'rV[RF]_ni -> 'I_nq -> 'rV[RF]_no) (df_di : R -> 'rV[RF]_ni -> 'M[RF]_(ni, no)).
Variables (d2f_dq2 : 'rV[RF]_ni -> 'I_nq -> 'I_nq -> 'rV[RF]_no) (d2f_di2 : 'rV[RF]_ni -> 'I_ni -> 'I_ni -> 'rV[RF]_no).
Variable (d2f_di_dq : 'rV[RF]_ni -> 'I_nq -> 'I_ni -> 'rV[RF]_no).
Variables (di : R -> 'I_nq -> 'rV[RF]_ni) (dPi : R -> 'I_nq -> 'M[RF]_ni).
Variables (d2i : 'I_nq -> 'I_nq -> 'rV[RF]_ni) (d2Pi : 'I_nq -> 'I_nq -> 'M[RF]_ni) (a b : 'I_nq).
Hypothesis nU : near t (fun s => upp (u_S (u s)) /\ posdiag (u_S (u s))).
Hypothesis Tu : ut_tangent u v0 a.
Hypothesis Ev : transform_diff (u t) (df_dq t) (df_di t) (di t) (dPi t) = Ok v0.
Hypothesis Hdi : mderiv (fun s => di s b) t (d2i a b).
Hypothesis HdP : mderiv (fun s => dPi s b) t (d2Pi a b).
Variable X : 'rV[RF]_ni -> Prop.
Hypothesis Xu : forall k, X (row k (u_isigma (u t))).
Hypothesis Hq : along t X (fun s x => df_dq s x b) (fun x => d2f_dq2 x a b) (fun x j => d2f_di_dq x b j).
Hypothesis Hx : forall j, along t X (fun s x => row j (df_di s x)) (fun x => d2f_di_dq x a j) (fun x l => d2f_di2 x l j).
Hypothesis Sym : forall x j l, X x -> d2f_di2 x j l = d2f_di2 x l j.

Notation v s := (utd_of (u s) (invmx (chol_AL (u_S (u s)))) (df_dq s) (df_di s) (di s) (dPi s)).
Notation w := (transform_diff2 (u t) (df_di t) d2f_dq2 d2f_di2 d2f_di_dq v0 d2i d2Pi).

Lemma transform_tangent2 :
  [/\ near t (fun s => transform_diff (u s) (df_dq s) (df_di s) (di s) (dPi s) = Ok (v s)),
    v t = v0 &
    ut_tangent2 (fun s => v s) (chol_diff2 (v_ALI v0) (v_dQ v0) (v_dS v0) (fun a b => m0 *: d2Pi a b) a b) w a b].
Proof.
have [US PS] := near_at nU.
have vt : v t = v0 by move: Ev; rewrite transform_diffE // => -[].
split=> //.
  by apply: near_mp nU _ => s [Us Ps]; rewrite transform_diffE.
have HS := @chol_diff_deriv t ni nq (fun s => u_S (u s)) (fun s c => m0 *: dPi s c) a b (fun a b => m0 *: d2Pi a b) (v_dS v0) US PS (tan_S Tu) (mderivZ m0 HdP).
set d2S := chol_diff2 _ _ _ _ _ _ in HS.
have d2SE : d2S = chol_diff2 (v_ALI v0) (v_dQ v0) (v_dS v0) (fun a b => m0 *: d2Pi a b) a b.
  have -> : v_ALI v0 = invmx (chol_AL (u_S (u t))) by rewrite -vt.
  by have -> : v_dQ v0 = (fun c => m0 *: dPi t c) by rewrite -vt.
rewrite -d2SE.
have Hid := mderiv_deviations (kappa := kappa) HS.
have His := mderivD Hid (mderiv_every (m := ns) Hdi).
have wid : w_d2idev w a b = deviations kappa d2S by rewrite d2SE.
pose D := \matrix_(k, j)
  (\sum_l d2f_di_dq (row k (u_isigma (u t))) b l 0 j * v_disigma v0 a k l
   + \sum_l d2f_di_dq (row k (u_isigma (u t))) a l 0 j * v_disigma v0 b k l
   + d2f_dq2 (row k (u_isigma (u t))) a b 0 j
   + \sum_l \sum_l' d2f_di2 (row k (u_isigma (u t))) l l' 0 j * v_disigma v0 b k l * v_disigma v0 a k l'
   + (row k (w_d2idev w a b + every _ (d2i a b)) *m df_di t (row k (u_isigma (u t)))) 0 j).
pose Dos s := \matrix_(k, j) (df_dq s (row k (u_isigma (u s))) b 0 j + (row k (v_disigma (v s) b) *m df_di s (row k (u_isigma (u s)))) 0 j).
have HD : mderiv Dos t D.
  move=> k j; have Hr := mderiv_row k (tan_isigma Tu).
  have H1 := Hq (x := fun s => row k (u_isigma (u s))) (Xu k) Hr 0 j.
  have H2 l := Hx l (x := fun s => row k (u_isigma (u s))) (Xu k) Hr 0 j.
  apply: sderiv_eq; first apply: (sderiv_ext (f := fun s => df_dq s (row k (u_isigma (u s))) b 0 j
     + \sum_l v_disigma (v s) b k l * row l (df_di s (row k (u_isigma (u s)))) 0 j)).
  - move=> s; rewrite [RHS]mxE [X in _ = _ + X]mxE; congr (_ + _).
    by apply: eq_bigr => l _; rewrite [row k _ 0 l]mxE [row l _ 0 j]mxE.
  - apply: sderivD H1 _; apply: sderiv_sum => l _; apply: sderivM (His k l) (H2 l).
  rewrite big_split /=.
  have E1 (c : 'I_nq) (z : 'rV_no) (g : 'I_ni -> 'rV_no) : (z + \sum_l row k (v_disigma v0 a) 0 l *: g l) 0 j = z 0 j + \sum_l g l 0 j * v_disigma v0 a k l.
    by rewrite mxE summxE; congr (_ + _); apply: eq_bigr => l _; rewrite !mxE mulrC.
  rewrite (E1 a) [RHS]mxE.
  set A1 := d2f_dq2 _ _ _ _ _; set A2 := \sum_l d2f_di_dq _ b _ _ _ * _; set A3 := \sum_l d2f_di_dq _ a _ _ _ * _.
  set A4 := \sum_l \sum_l' _; set A5 := (row k _ *m _) 0 j.
  set B1 := \sum_(l < ni) _; set B2 := \sum_(l < ni) _.
  have -> : B1 = A5.
    rewrite /B1 /A5 mxE; apply: eq_bigr => l _; rewrite [row l _ 0 j]mxE [row k _ 0 l]mxE wid.
    by [].
  have -> : B2 = A3 + A4.
    rewrite /B2 /A3 /A4 -big_split /=; apply: eq_bigr => l _.
    have -> : deviations kappa (unvecL (invmx (chol_AL (u_S (u t))) *m vecL (m0 *: dPi t b))) + every ns (di t b) = v_disigma v0 b by rewrite -vt.
    rewrite (E1 a) mulrDr; congr (_ + _); first by rewrite mulrC.
    rewrite mulr_sumr; apply: eq_bigr => l' _; rewrite (Sym _ _ (Xu k)) mulrA; congr (_ * _); exact: mulrC.
  clearbody A1 A2 A3 A4 A5.
  by mc_norm RC; ring.
have Ho : mderiv (fun s => v_do (v s) b) t (w_d2o w a b).
  have -> : w_d2o w a b = weights ni kappa *m D by [].
  by apply: mderiv_ext (mderivMl (weights ni kappa) HD) => s.
have Hod : mderiv (fun s => v_dodev (v s) b) t (w_d2odev w a b).
  have -> : w_d2odev w a b = D - every _ (w_d2o w a b) by [].
  by apply: mderiv_ext (mderivB HD (mderiv_every Ho)) => s.
split=> //.
- by rewrite wid.
- have Hh := mderivM (mderivMr W (mderiv_tr (tan_odev Tu))) Hod.
  apply: mderiv_eq (mderivD Hh (mderiv_tr Hh)) _.
  have vtb : v_dodev (v t) b = v_dodev v0 b by rewrite vt.
  rewrite vtb.
  have -> : w_d2Po w a b = (w_d2odev w a b)^T *m W *m u_odev (u t) + (v_dodev v0 b)^T *m W *m v_dodev v0 a
      + ((w_d2odev w a b)^T *m W *m u_odev (u t) + (v_dodev v0 b)^T *m W *m v_dodev v0 a)^T by [].
  move: (w_d2odev w a b) (v_dodev v0 b) (v_dodev v0 a) (u_odev (u t)) => M1 Y Z V.
  rewrite !linearD /= !trmx_mul !trmxK !tr_diag_mx !mulmxA.
  rewrite [RHS]addrC; congr (_ + _); rewrite addrC //.
Qed.

Lemma crosscov_tangent2 (v' : R -> ut_diff ni no nq kappa) d2S w' :
  ut_tangent2 v' d2S w' a b -> v' t = v0 ->
  mderiv (fun s => crosscov_diff (u s) (v' s) b) t (crosscov_diff2 (u t) v0 w' a b).
Proof.
move=> T E; apply: mderiv_eq.
  apply: mderivD.
    apply: mderivM (mderivMr W (mderiv_tr (tan2_idev T))) (tan_odev Tu).
  apply: mderivM (mderivMr W (mderiv_tr (tan_idev Tu))) (tan2_odev T).
rewrite /= E /crosscov_diff2.
by mx_norm RC; ring.
Qed.
End Second.
End Ut.
