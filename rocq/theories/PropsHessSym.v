(** C91: The matrix [pem_hessian] returns is symmetric, exactly, and so are
    the second derivatives of the estimates, whenever the model's second
    derivatives and the initial ones are. *)
From Verif Require Import Py.
From mathcomp Require Import all_ssreflect all_algebra.
From Verif Require Import KalModel KalDiffModel CholDiffLemmas.
Set Implicit Arguments.
Unset Strict Implicit.
Unset Printing Implicit Defensive.
Import Order.TTheory GRing.Theory Num.Theory.
Local Open Scope ring_scope.

Section HessSym.
Variable F : rcfType.

(** The order of the two derivatives does not matter. *)
Definition sym2 (I T : Type) (f : I -> I -> T) : Prop := forall a b, f a b = f b a.

Lemma z5 (V : zmodType) (w x y q r t : V) : w + (x + y + q + r + t) = w + (y + x + q + r + t).
Proof. by rewrite [x + y]addrC. Qed.
Lemma zx (V : zmodType) (x k a b e : V) : x + k + a + b + e = x + k + b + a + e.
Proof. by rewrite [_ + a + b]addrAC. Qed.
Lemma zP (V : zmodType) (p k x y z1 z2 k' y' : V) : p - k - x - y - (z1 + z2) - k' - y' = p - k - y - x - (z2 + z1) - k' - y'.
Proof. by rewrite [z1 + z2]addrC [_ - x - y]addrAC. Qed.
Lemma zK (V : zmodType) (x y z t : V) : x + y + z + t = t + y + z + x.
Proof. by rewrite addrC addrA [in LHS]addrA -!addrA; congr (_ + _); rewrite addrC -!addrA. Qed.
Lemma zL (V : zmodType) (l l' c q d e p x y : V) : (l - c + q - d - e - p - x - y) - (l' - c + q - d - e - p - y - x) = l - l'.
Proof.
have E m : m - c + q - d - e - p - x - y = m + (- c + q - d - e - p - x - y) by rewrite !addrA.
by rewrite [_ - y - x]addrAC !E opprD addrACA subrr addr0.
Qed.

Lemma chol_diff2_sym n nq (ALI : 'M[F]_(ntril n)) (dQ dS : 'I_nq -> 'M[F]_n) d2Q :
  (forall a, dS a = unvecL (ALI *m vecL (dQ a))) -> sym2 d2Q -> sym2 (chol_diff2 ALI dQ dS d2Q).
Proof.
move=> HS HQ a b; rewrite /chol_diff2 (HQ a b); congr (unvecL (_ + _)).
have E c e : - (ALI *m chol_AL (dS c) *m ALI) *m vecL (dQ e) = - (ALI *m vecL ((dS e)^T *m dS c + (dS c)^T *m dS e)).
  rewrite mulNmx -!mulmxA -[ALI *m vecL (dQ e)]vecL_unvecL -HS chol_ALE // HS; exact: unvecL_upp.
by rewrite !E [X in vecL X]addrC.
Qed.

Section Transform.
Variables (ni no nq : nat) (kappa : F).
Variables (u : ut_data ni kappa no) (df_dq : 'rV[F]_ni -> 'I_nq -> 'rV[F]_no) (df_di : 'rV[F]_ni -> 'M[F]_(ni, no)).
Variables (d2f_dq2 : 'rV[F]_ni -> 'I_nq -> 'I_nq -> 'rV[F]_no) (d2f_di2 : 'rV[F]_ni -> 'I_ni -> 'I_ni -> 'rV[F]_no) (d2f_di_dq : 'rV[F]_ni -> 'I_nq -> 'I_ni -> 'rV[F]_no).
Hypothesis Hqq : forall x, sym2 (d2f_dq2 x).
Hypothesis Hii : forall x, sym2 (d2f_di2 x).

Lemma transform_diff_S di dPi v : transform_diff u df_dq df_di di dPi = Ok v -> forall a, v_dS v a = unvecL (v_ALI v *m vecL (v_dQ v a)).
Proof. by rewrite /transform_diff /chol_diff; case: (inv _) => [ALI|//] /= [<-]. Qed.

Variables (v : ut_diff ni no nq kappa) (d2i : 'I_nq -> 'I_nq -> 'rV[F]_ni) (d2Pi : 'I_nq -> 'I_nq -> 'M[F]_ni).
Hypothesis Hv : forall a, v_dS v a = unvecL (v_ALI v *m vecL (v_dQ v a)).
Hypothesis Hi : sym2 d2i.
Hypothesis HP : sym2 d2Pi.
Notation w := (transform_diff2 u df_di d2f_dq2 d2f_di2 d2f_di_dq v d2i d2Pi).

Lemma transform_diff2_sym : [/\ sym2 (w_d2idev w), sym2 (w_d2odev w), sym2 (w_d2o w) & sym2 (w_d2Po w)].
Proof.
have SS : sym2 (chol_diff2 (v_ALI v) (v_dQ v) (v_dS v) (fun a b => (ni%:R + kappa) *: d2Pi a b)).
  by apply: chol_diff2_sym => // a b; rewrite (HP a b).
set d2S := chol_diff2 _ _ _ _ in SS.
pose X b a (k : 'I_(nsigma ni kappa)) j := \sum_i d2f_di_dq (row k (u_isigma u)) a i 0 j * v_disigma v b k i.
pose D2 (b a : 'I_nq) : 'M[F]_(nsigma ni kappa, no) := \matrix_(k, j)
  (X b a k j + X a b k j + d2f_dq2 (row k (u_isigma u)) b a 0 j
   + \sum_i \sum_i' d2f_di2 (row k (u_isigma u)) i i' 0 j * v_disigma v a k i * v_disigma v b k i'
   + (row k (deviations kappa (d2S b a) + every _ (d2i b a)) *m df_di (row k (u_isigma u))) 0 j).
pose dev a b := D2 a b - every _ (weights ni kappa *m D2 a b).
pose half a b := (dev a b)^T *m diag_mx (weights ni kappa) *m u_odev u + (v_dodev v b)^T *m diag_mx (weights ni kappa) *m v_dodev v a.
have -> : w = UTD2 (fun a b => deviations kappa (d2S a b)) dev (fun a b => weights ni kappa *m D2 a b) (fun a b => half a b + (half a b)^T) by [].
have SD : sym2 D2.
  move=> a b; apply/matrixP => k j; rewrite !mxE (Hi a b) (SS a b) (Hqq _ a b); congr (_ + _ + _ + _).
    by rewrite addrC.
  rewrite exchange_big; apply: eq_bigr => i _; apply: eq_bigr => i' _.
  by rewrite (Hii _ i' i) -!mulrA [X in _ * X]mulrC.
have Sdev : sym2 dev by move=> a b; rewrite /dev (SD a b).
split=> // a b; cbn [w_d2idev w_d2o w_d2Po]; rewrite ?(SS a b) ?(SD a b) //.
rewrite /half (Sdev a b) !linearD /= !trmx_mul !trmxK !tr_diag_mx !mulmxA.
rewrite -!addrA; congr (_ + _).
by rewrite addrCA [RHS]addrCA; congr (_ + _); rewrite addrC.
Qed.
Lemma crosscov_diff2_sym : sym2 (crosscov_diff2 u v w).
Proof.
have [H1 H2 _ _] := transform_diff2_sym; move: H1 H2; rewrite /crosscov_diff2; move: w => w0 H1 H2 a b.
by rewrite (H1 a b) (H2 a b); congr (_ + _ + _); rewrite addrC.
Qed.
End Transform.

Variables nx ny nq : nat.
Variables (dm : dmodel F nx ny nq) (log : F -> F).

(** The model's second derivatives do not depend on the order. *)
Record sym_model : Prop := SymModel {
  sm_fqq : forall k x, sym2 (dm_d2f_dq2 dm k x); sm_fxx : forall k x, sym2 (dm_d2f_dx2 dm k x);
  sm_Qqq : forall k x, sym2 (dm_d2Q_dq2 dm k x); sm_Qxx : forall k x, sym2 (dm_d2Q_dx2 dm k x);
  sm_hqq : forall k x, sym2 (dm_d2h_dq2 dm k x); sm_hxx : forall k x, sym2 (dm_d2h_dx2 dm k x);
  sm_Rqq : sym2 (dm_d2R_dq2 dm) }.
Hypothesis SM : sym_model.

Definition sym_d2 (d2 : d2state F nx nq) : Prop := sym2 (d2_x d2) /\ sym2 (d2_P d2).
(** How much the order of the two derivatives of the likelihood matters. *)
Definition asym (L : 'I_nq -> 'I_nq -> F) (a b : 'I_nq) : F := L a b - L b a.

Lemma pred_sym kappa s u v d d2 : pred_ut_diff dm s u d = Ok v -> sym_d2 d2 -> sym_d2 (@pred_d2state F nx ny nq dm kappa s u v d d2).
Proof.
move=> Hv [Hx HP]; have [_ _ H3 H4] := transform_diff2_sym u (md_df_dx (dm_md dm) (fs_k s)) (dm_d2f_dx_dq dm (fs_k s)) (sm_fqq SM (fs_k s)) (sm_fxx SM (fs_k s)) (transform_diff_S Hv) Hx HP.
split=> a b; cbn [d2_x d2_P pred_d2state]; first by rewrite (H3 a b).
have T : \sum_i \sum_j (ds_x d b 0 i * ds_x d a 0 j) *: dm_d2Q_dx2 dm (fs_k s) (fs_x s) j i = \sum_i \sum_j (ds_x d a 0 i * ds_x d b 0 j) *: dm_d2Q_dx2 dm (fs_k s) (fs_x s) j i.
  rewrite exchange_big; apply: eq_bigr => i _; apply: eq_bigr => j _.
  by rewrite (sm_Qxx SM _ _ i j) mulrC.
by rewrite (H4 a b) (sm_Qqq SM _ _ a b) (Hx a b) T; exact: z5.
Qed.

Lemma corr_sym kappa s A y (c : corr0 nx kappa A) c1 ch d d2 (dL : 'I_nq -> F) dL' d2L (c2 := correct2 dm s c c1 d2) :
  correct0 dm kappa s A y = Ok c -> correct1 dm s c d = Ok c1 -> lik1 c c1 dL = Ok (ch, dL') -> sym_d2 d2 ->
  sym_d2 (corr_d2state c c1 c2 d2) /\ forall a b, asym (lik2 c c1 c2 ch d2L) a b = asym d2L a b.
Proof.
move=> Hc H1 HL [Hx HP].
have SI : (c_PyI c)^T = c_PyI c.
  move: Hc; rewrite /correct0; case: (transform _ _ _ _ _) => [u|//]; cbn [bind].
  case: (chol _) => [PyC|//]; cbn [bind]; case: (inv _) => [I|//]; cbn [bind] => -[<-] /=.
  by rewrite trmx_mul trmxK.
have [Hv HyI] : (forall a, v_dS (c_v c1) a = unvecL (v_ALI (c_v c1) *m vecL (v_dQ (c_v c1) a))) /\ (forall a, c_dPyI c1 a = - (c_PyI c *m c_dPy c1 a *m c_PyI c)).
  move: H1; rewrite /correct1; case E : (transform_diff _ _ _ _ _) => [v|//]; cbn [bind] => -[<-] /=.
  by split=> //; apply: transform_diff_S E.
have Hch a : ch.2 a = unvecL (ch.1 *m vecL (c_dPy c1 a)).
  by move: HL; rewrite /lik1 /chol_diff; case: (inv _) => [I|//] /= [<- _].
set fq := fun (x : 'rV[F]_nx) (a b : 'I_nq) => pick A (dm_d2h_dq2 dm (fs_k s) x a b).
set fx := fun (x : 'rV[F]_nx) (i j : 'I_nx) => pick A (dm_d2h_dx2 dm (fs_k s) x i j).
have Sq x : sym2 (fq x) by move=> a b; rewrite /fq (sm_hqq SM _ _ a b).
have Sx x : sym2 (fx x) by move=> a b; rewrite /fx (sm_hxx SM _ _ a b).
set fxq := fun (x : 'rV[F]_nx) (a : 'I_nq) (i : 'I_nx) => pick A (dm_d2h_dx_dq dm (fs_k s) x a i).
set fd := fun x : 'rV[F]_nx => pick A (md_dh_dx (dm_md dm) (fs_k s) x).
have [_ _ H3 H4] := transform_diff2_sym (c_u c) fd (fxq) Sq Sx Hv Hx HP.
have H5 := crosscov_diff2_sym (c_u c) fd (fxq) Sq Sx Hv Hx HP.
have Se : sym2 (c_d2e c2) by move=> a b; exact: (congr1 (fun z => - z) (H3 a b)).
have Sy : sym2 (c_d2Py c2) by move=> a b; exact: (f_equal2 (fun p q => p + pick2 A q) (H4 a b) (sm_Rqq SM a b)).
have SyI : sym2 (c_d2PyI c2).
  move=> a b; rewrite -[c_d2PyI c2 a b]/(- (c_dPyI c1 a *m c_dPy c1 b *m c_PyI c) - c_PyI c *m c_d2Py c2 a b *m c_PyI c - c_PyI c *m c_dPy c1 b *m c_dPyI c1 a).
  rewrite -[c_d2PyI c2 b a]/(- (c_dPyI c1 b *m c_dPy c1 a *m c_PyI c) - c_PyI c *m c_d2Py c2 b a *m c_PyI c - c_PyI c *m c_dPy c1 a *m c_dPyI c1 b).
  rewrite (Sy a b) !HyI !(mulNmx, mulmxN) !mulmxA !opprK.
  by rewrite addrAC [RHS]addrAC; congr (_ + _); rewrite addrC.
have SK : sym2 (c_d2K c2).
  move=> a b; rewrite -[c_d2K c2 a b]/(c_dPxh c1 a *m c_dPyI c1 b + c_Pxh c *m c_d2PyI c2 a b + crosscov_diff2 (c_u c) (c_v c1) (transform_diff2 (c_u c) fd fq fx fxq (c_v c1) (d2_x d2) (d2_P d2)) a b *m c_PyI c + c_dPxh c1 b *m c_dPyI c1 a).
  rewrite -[c_d2K c2 b a]/(c_dPxh c1 b *m c_dPyI c1 a + c_Pxh c *m c_d2PyI c2 b a + crosscov_diff2 (c_u c) (c_v c1) (transform_diff2 (c_u c) fd fq fx fxq (c_v c1) (d2_x d2) (d2_P d2)) b a *m c_PyI c + c_dPxh c1 a *m c_dPyI c1 b).
  by rewrite (H5 a b) (SyI a b); exact: zK.
split; first split=> a b; cbn [d2_x d2_P corr_d2state].
- by rewrite (Hx a b) (SK a b) (Se a b); exact: zx.
- by rewrite (HP a b) (SK a b) (Sy a b); exact: zP.
have SS : sym2 (chol_diff2 ch.1 (c_dPy c1) ch.2 (c_d2Py c2)) by apply: chol_diff2_sym.
move=> a b; rewrite /asym /lik2 (SS b a) (Se b a) (SyI b a).
have T1 : \sum_k ch.2 b k k * (ch.2 a k k / c_PyC c k k ^+ 2) = \sum_k ch.2 a k k * (ch.2 b k k / c_PyC c k k ^+ 2).
  by apply: eq_bigr => k _; rewrite mulrCA.
have T2 : (c_de c1 b *m c_PyI c *m (c_de c1 a)^T) 0 0 = (c_de c1 a *m c_PyI c *m (c_de c1 b)^T) 0 0.
  have -> : c_de c1 a *m c_PyI c *m (c_de c1 b)^T = (c_de c1 b *m c_PyI c *m (c_de c1 a)^T)^T by rewrite !trmx_mul trmxK SI mulmxA.
  by rewrite [RHS]mxE.
by rewrite T1 T2; exact: zL.
Qed.

Variables kp kc : F.
Lemma loop_sym ys (h h' : hstate F nx nq) : hess_loop dm log kp kc h ys = Ok h' -> sym_d2 (h_d2 h) ->
  sym_d2 (h_d2 h') /\ forall a b, asym (h_d2L h') a b = asym (h_d2L h) a b.
Proof.
have HC g y g' : hess_correct dm log kc g y = Ok g' -> sym_d2 (h_d2 g) -> sym_d2 (h_d2 g') /\ forall a b, asym (h_d2L g') a b = asym (h_d2L g) a b.
  rewrite /hess_correct; case: ifP => _; first by move=> [<-].
  case E0 : (correct0 _ _ _ _ _) => [c|//]; cbn [bind]; case E1 : (correct1 _ _ _ _) => [c1|//]; cbn [bind].
  case E2 : (lik1 _ _ _) => [[ch dL]|//]; cbn [bind] => -[<-] S; cbn [h_d2 h_d2L fst snd].
  exact: (corr_sym _ E0 E1 E2 S).
have HP g g' : hess_predict dm kp g = Ok g' -> sym_d2 (h_d2 g) -> sym_d2 (h_d2 g') /\ forall a b, asym (h_d2L g') a b = asym (h_d2L g) a b.
  rewrite /hess_predict; case E0 : (pred_ut _ _ _) => [u|//]; cbn [bind]; case E1 : (pred_ut_diff _ _ _ _) => [v|//]; cbn [bind] => -[<-] S.
  by split=> //; exact: (pred_sym E1 S).
elim: ys h => [|y ys IH] h; cbn [hess_loop]; first by move=> [<-].
case E : (hess_correct _ _ _ _ _) => [h1|//]; cbn [bind]; case: ys IH => [|y' ys] IH.
  by move=> [<-]; apply: HC E.
case E' : (hess_predict _ _ _) => [h2|//]; cbn [bind] => H S.
have [S1 A1] := HC _ _ _ E S; have [S2 A2] := HP _ _ E' S1; have [S3 A3] := IH _ H S2.
by split=> // a b; rewrite A3 A2 A1.
Qed.

(** Exactly: the difference between the two orders stays what it was. *)
Theorem C91_kept ys h H : sym2 (d2_x (h_d2 h)) -> sym2 (d2_P (h_d2 h)) -> pem_hessian dm log kp kc h ys = Ok H ->
  forall a b, H a b - H b a = h_d2L h a b - h_d2L h b a.
Proof.
move=> S1 S2; rewrite /pem_hessian; case E : (hess_loop _ _ _ _ _ _) => [h'|//]; cbn [bind] => -[<-] a b.
exact: (proj2 (loop_sym E (conj S1 S2))).
Qed.
Theorem C91_symmetric ys h H : sym2 (d2_x (h_d2 h)) -> sym2 (d2_P (h_d2 h)) -> sym2 (h_d2L h) -> pem_hessian dm log kp kc h ys = Ok H ->
  forall a b, H a b = H b a.
Proof. by move=> S1 S2 S3 E a b; apply/eqP; rewrite -subr_eq0 (C91_kept S1 S2 E) (S3 a b) subrr. Qed.
(** The second derivatives left in the filter. *)
Theorem C91_state ys (h h' : hstate F nx nq) : hess_loop dm log kp kc h ys = Ok h' -> sym2 (d2_x (h_d2 h)) -> sym2 (d2_P (h_d2 h)) ->
  sym2 (d2_x (h_d2 h')) /\ sym2 (d2_P (h_d2 h')).
Proof. by move=> E S1 S2; exact: (proj1 (loop_sym E (conj S1 S2))). Qed.
End HessSym.
