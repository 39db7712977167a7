(** C89: Changing the coordinates of the state and the units of the outputs.
    The two filters, given the same model, initial estimate and measurements
    in other coordinates, return the same estimates in these coordinates, or
    raise the same exception; the log-likelihood changes by a constant. *)
From Verif Require Import Py.
From mathcomp Require Import all_ssreflect all_algebra.
From Verif Require Import PsdLemmas KalModel CholLemmas KalLemmas UtLemmas UnitsLemmas.
Set Implicit Arguments.
Unset Strict Implicit.
Unset Printing Implicit Defensive.
Import Order.TTheory GRing.Theory Num.Theory.
Local Open Scope ring_scope.

Section Units.
Variable F : rcfType.
Variables nx ny : nat.
Implicit Types (md : model F nx ny) (s : fstate F nx) (y : meas F ny).

(** ** The same model in other coordinates *)

(** The new state is [x *m T + c], the new output [y i * g i + d i]. *)
Variables (T : 'M[F]_nx) (c : 'rV[F]_nx) (g d : 'rV[F]_ny).
Notation D := (diag_mx g).

Definition new_x (x : 'rV[F]_nx) : 'rV[F]_nx := x *m T + c.
Definition old_x (x : 'rV[F]_nx) : 'rV[F]_nx := (x - c) *m invmx T.
Definition new_P (P : 'M[F]_nx) : 'M[F]_nx := T^T *m P *m T.
Definition new_model md : model F nx ny := Model
  (fun k x => new_x (md_f md k (old_x x)))
  (fun k x => invmx T *m md_df_dx md k (old_x x) *m T)
  (fun k x => new_P (md_Q md k (old_x x)))
  (fun k x => md_h md k (old_x x) *m D + d)
  (fun k x => invmx T *m md_dh_dx md k (old_x x) *m D)
  (D *m md_R md *m D).
Definition new_state s : fstate F nx := FS (fs_k s) (new_x (fs_x s)) (new_P (fs_P s)).
Definition new_meas y : meas F ny := Meas (\row_i (y_data y 0 i * g 0 i + d 0 i)) (y_mask y).
Definition new_est (e : 'rV[F]_nx * 'M[F]_nx) := (new_x e.1, new_P e.2).
(** A result in the new coordinates; exceptions are kept. *)
Definition new_run (r : res (seq ('rV[F]_nx * 'M[F]_nx) * fstate F nx)) :=
  match r with Ok p => Ok (map new_est p.1, new_state p.2) | Err e => Err e end.

Hypothesis HT : T \in unitmx.
Hypothesis Hg : forall i, g 0 i != 0.

Lemma old_new x : old_x (new_x x) = x.
Proof. by rewrite /old_x /new_x addrK mulmxK. Qed.
Let TT : T^T \in unitmx. Proof. by rewrite unitmx_tr. Qed.

(** ** Outputs *)
Section Pick.
Variable A : {set 'I_ny}.
Notation DA := (diag_mx (pick A g)).
Lemma DA_unit : DA \in unitmx. Proof. by apply: diag_unit => i; rewrite mxE. Qed.
Lemma pick_mul m (M : 'M[F]_(m, ny)) : pick A (M *m D) = pick A M *m DA.
Proof. by apply/matrixP => i j; rewrite mxE !mul_mx_diag !mxE. Qed.
Lemma pick_add m (M N : 'M[F]_(m, ny)) : pick A (M + N) = pick A M + pick A N.
Proof. by apply/matrixP => i j; rewrite !mxE. Qed.
Lemma pick_left m n (M : 'M[F]_(m, ny)) (B : 'M[F]_(n, m)) : pick A (B *m M) = B *m pick A M.
Proof. by apply/matrixP => i j; rewrite !mxE; apply: eq_bigr => k _; rewrite mxE. Qed.
Lemma pick2_mul (R : 'M[F]_ny) : pick2 A (D *m R *m D) = DA *m pick2 A R *m DA.
Proof. by apply/matrixP => i j; rewrite mxE !diag_mulE !mxE. Qed.
Lemma pick_data y : pick A (y_data (new_meas y)) = pick A (y_data y) *m DA + pick A d.
Proof. by apply/matrixP => i j; rewrite mul_mx_diag !mxE ord1. Qed.
End Pick.

Definition new_corr (cd : corr_data F nx ny) : corr_data F nx ny :=
  let DA := diag_mx (pick (cd_A cd) g) in
  @CD F nx ny (cd_A cd) (cd_e cd *m DA) (T^T *m cd_Pxh cd *m DA) (DA *m cd_Py cd *m DA) (invmx DA *m cd_PyI cd *m invmx DA)
    (T^T *m cd_K cd *m invmx DA) (omap (fun S => sgn_mx (pick (cd_A cd) g) *m S *m DA) (cd_PyC cd)).

Lemma corrected_new (A : {set 'I_ny}) s (e : 'rV[F]_#|A|) K Py (DA := diag_mx (pick A g)) :
  corrected (new_state s) (e *m DA) (T^T *m K *m invmx DA) (DA *m Py *m DA) = new_state (corrected s e K Py).
Proof.
have U : DA \in unitmx := DA_unit A; have E : DA^T = DA by rewrite tr_diag_mx.
rewrite /corrected /new_state /new_x /new_P /=; congr FS.
  rewrite !trmx_mul trmxK trmx_inv E mulmxDl addrAC; congr (_ + _ + _).
  by rewrite -!mulmxA (mulmxA DA) mulmxV // mul1mx.
rewrite mulmxBr mulmxBl !trmx_mul trmxK trmx_inv E; congr (_ - _).
by rewrite -!mulmxA (mulmxA (invmx DA) DA) mulVmx // mul1mx (mulmxA DA (invmx DA)) mulmxV // mul1mx.
Qed.

(** ** The loops, for filters that agree step by step *)
Section Loops.
Variables fl fl' : filter_class F nx ny.
Variable I : fstate F nx -> Prop.
Hypothesis Hp : forall s, I s ->
  predict fl' (new_state s) = rmap (fun p => (new_state p.1, new_P p.2)) (predict fl s) /\ (forall p, predict fl s = Ok p -> I p.1).
Hypothesis Hc : forall s y, I s ->
  correct fl' (new_state s) (new_meas y) = rmap (fun p => (new_state p.1, omap new_corr p.2)) (correct fl s y) /\
  (forall p, correct fl s y = Ok p -> I p.1).

Lemma filter_new s ys : I s -> filter fl' (new_state s) (map new_meas ys) = new_run (filter fl s ys).
Proof.
elim: ys s => [//|y ys IH] s Hs; cbn [filter map].
have [-> H1] := Hc y Hs; case E: (correct fl s y) => [[s1 o]|e] //=.
have {}H1 := H1 _ E; case: ys IH => [//|y2 ys] IH; rewrite -[map _ _]/(map new_meas (y2 :: ys)).
have [/= -> H2] := Hp H1; case E2: (predict fl s1) => [[s2 C]|e] //=.
have /= -> := IH _ (H2 _ E2).
by case: (let* c0 := correct fl s2 y2 in _) => [[l s3]|e].
Qed.

Definition new_step (t : step F nx) : step F nx := Step (new_est (st_pred t)) (new_P (st_Pxf t)) (new_est (st_est t)).

Lemma forward_new s ys : I s -> forward fl' (new_state s) (map new_meas ys) = rmap (fun r => (map new_step r.1, new_state r.2)) (forward fl s ys).
Proof.
elim: ys s => [//|y ys IH] s Hs; cbn [forward map].
have [-> H1] := Hp Hs; case E: (predict fl s) => [[s1 C]|e] //=.
have [-> H2] := Hc y (H1 _ E); case E2: (correct fl s1 y) => [[s2 o]|e] //=.
by rewrite (IH _ (H2 _ E2)); case: (forward fl s2 ys) => [[l s3]|e].
Qed.

Lemma smoother_new xp Pp C xs Ps :
  smoother_correction (new_x xp) (new_P Pp) (new_P C) (new_x xs) (new_P Ps) =
  rmap (fun i => (i.1 *m T, new_P i.2)) (smoother_correction xp Pp C xs Ps).
Proof.
rewrite /smoother_correction /new_P inv_congr //; case: (inv Pp) => [X|e] //=; congr Ok.
have -> : new_x xs - new_x xp = (xs - xp) *m T by rewrite /new_x opprD addrACA subrr addr0 mulmxBl.
have E : T^T *m C *m T *m (invmx T *m X *m invmx T^T) = T^T *m (C *m X) *m invmx T^T.
  by rewrite -!mulmxA (mulmxA T (invmx T)) mulmxV // mul1mx.
rewrite E; congr (_, _).
  by rewrite !trmx_mul trmx_inv trmxK -!mulmxA (mulmxA T (invmx T)) mulmxV // mul1mx.
rewrite -mulmxBl -mulmxBr !trmx_mul trmx_inv trmxK -!mulmxA (mulmxA T (invmx T)) mulmxV // mul1mx.
by rewrite (mulmxA (invmx T^T)) mulVmx // mul1mx.
Qed.

Lemma backward_new e0 l : backward (new_est e0) (map new_step l) = rmap (map new_est) (backward e0 l).
Proof.
elim: l e0 => [//|t l IH] e0; cbn [backward map].
rewrite [st_est (new_step t)]/= IH; case: (backward (st_est t) l) => [r|e] //=.
have -> : head (new_est (st_est t)) (map new_est r) = new_est (head (st_est t) r) by case: r.
move: (head _ r) => m; rewrite /= smoother_new; case: (smoother_correction _ _ _ _ _) => [i|e] //=; congr (Ok (_ :: _)).
by rewrite /new_est /new_x /new_P mulmxDr !mulmxDl /=; congr (_, _); rewrite addrAC.
Qed.

Lemma smooth_new s ys : I s -> smooth fl' (new_state s) (map new_meas ys) = new_run (smooth fl s ys).
Proof.
case: ys => [//|y ys] Hs; cbn [smooth map].
have [-> H1] := Hc y Hs; case E: (correct fl s y) => [[s1 o]|e] //=.
rewrite (forward_new _ (H1 _ E)); case: (forward fl s1 ys) => [[l s2]|e] //=.
by rewrite -[(new_x _, _)]/(new_est (fs_x s1, fs_P s1)) backward_new; case: (backward _ _) => [r|e].
Qed.

Section Merit.
Variable log : F -> F.
Hypothesis logM : forall a b, 0 < a -> 0 < b -> log (a * b) = log a + log b.
(** What the saved data satisfy. *)
Hypothesis Hd : forall s y s' cd, I s -> correct fl s y = Ok (s', Some cd) -> cd_A cd = active y /\ forall S, cd_PyC cd = Some S -> posdiag S.
Hypothesis Hn : forall s y s', correct fl s y = Ok (s', None) -> active y = set0.

Lemma likelihood_new L cd : (forall S, cd_PyC cd = Some S -> posdiag S) ->
  update_likelihood log L (Some (new_corr cd)) = rmap (fun v => v - \sum_(i in cd_A cd) log `|g 0 i|) (update_likelihood log L (Some cd)).
Proof.
case: cd => A e Pxh Py PyI K PyC /=; case: PyC => [S|//] /(_ S erefl) HS /=; congr Ok.
have U := DA_unit A; rewrite trmx_mul tr_diag_mx.
have -> : e *m diag_mx (pick A g) *m (invmx (diag_mx (pick A g)) *m PyI *m invmx (diag_mx (pick A g))) *m (diag_mx (pick A g) *m e^T) = e *m PyI *m e^T.
  by rewrite -!mulmxA (mulmxA (invmx _) (diag_mx _) e^T) mulVmx // mul1mx (mulmxA (diag_mx _) (invmx _)) mulmxV // mul1mx.
rewrite -[RHS]addrA -opprD; congr (_ - _); rewrite [in RHS](big_enum_val (fun i => log `|g 0 i|)) /= -big_split /=.
apply: eq_bigr => k _; rewrite diag_mulE !mxE mulrAC -normrEsg mulrC logM ?normr_gt0 //.
Qed.

Lemma merit_new s L ys : I s -> pem_merit fl' log (new_state s) L (map new_meas ys) =
  rmap (fun v => v - \sum_(y <- ys) \sum_(i in active y) log `|g 0 i|) (pem_merit fl log s L ys).
Proof.
have step s0 L0 y0 p : I s0 -> correct fl s0 y0 = Ok p ->
    update_likelihood log L0 (omap new_corr p.2) = rmap (fun v => v - \sum_(i in active y0) log `|g 0 i|) (update_likelihood log L0 p.2).
  case: p => s1 [cd|] Hs E; last by rewrite /= (Hn E) big_set0 subr0.
  by have [<- H] := Hd Hs E; apply: likelihood_new.
have shift s0 L0 a zs : pem_merit fl log s0 (L0 - a) zs = rmap (fun v => v - a) (pem_merit fl log s0 L0 zs).
  elim: zs s0 L0 => [//|z zs IHz] s0 L0; cbn [pem_merit].
  case: (correct fl s0 z) => [[s1 o]|e] //=.
  have -> : update_likelihood log (L0 - a) o = rmap (fun v => v - a) (update_likelihood log L0 o).
    case: o => [cd|//] /=; case: (cd_PyC cd) => [S|//] /=; congr Ok; by rewrite [L0 - a - _]addrAC [LHS]addrAC.
  case: (update_likelihood _ _ _) => [v|e] //=; case: zs IHz => [//|z2 zs] IHz.
  by case: (predict fl s1) => [p|e] //=; apply: IHz.
elim: ys s L => [|y ys IH] s L Hs; first by rewrite /= /rmap /= big_nil subr0.
rewrite [map _ _]/= {1}/pem_merit -/(pem_merit fl' log).
have [-> H1] := Hc y Hs; rewrite {2}/pem_merit -/(pem_merit fl log); case E: (correct fl s y) => [[s1 o]|e] //; cbn [rmap bind fst snd].
have := step _ L _ _ Hs E; cbn [snd] => ->; case: (update_likelihood log L o) => [v|e] //; cbn [rmap bind fst snd].
have {}H1 := H1 _ E; case: ys IH => [|y2 ys] IH; first by rewrite /= /rmap /= big_seq1.
have [E1 H2] := Hp H1; cbn [fst] in E1; rewrite [map _ _]/= E1; case E2: (predict fl s1) => [[s2 C]|e] //; cbn [rmap bind fst snd].
have := IH _ (v - \sum_(i in active y) log `|g 0 i|) (H2 _ E2); cbn [fst bind map] => ->.
rewrite shift; case: (pem_merit _ _ _ _ _) => [w|e] //=; rewrite /rmap /=; congr Ok.
by rewrite [in RHS]big_cons opprD addrA.
Qed.
End Merit.
End Loops.

(** ** The extended filter *)
Section Ekf.
Variable md : model F nx ny.

Lemma ekf_predict_new s : ekf_predict (new_model md) (new_state s) = rmap (fun p => (new_state p.1, new_P p.2)) (ekf_predict md s).
Proof.
rewrite /ekf_predict /rmap /=; rewrite old_new; set J := md_df_dx _ _ _; congr (Ok (_, _)).
  rewrite /new_state /new_P /=; congr FS; rewrite mulmxDr mulmxDl !trmx_mul trmx_inv; congr (_ + _).
  by rewrite -!mulmxA (mulmxA T (invmx T)) mulmxV // mul1mx (mulmxA (invmx T^T)) mulVmx // mul1mx.
by rewrite /new_P -!mulmxA (mulmxA T (invmx T)) mulmxV // mul1mx.
Qed.
Lemma ekf_correct_new s y : ekf_correct (new_model md) (new_state s) (new_meas y) =
  rmap (fun p => (new_state p.1, omap new_corr p.2)) (ekf_correct md s y).
Proof.
rewrite /ekf_correct -[active (new_meas y)]/(active y); case: ifP => // _.
cbn [md_h md_dh_dx md_R new_model fs_k fs_x fs_P new_state].
rewrite pick_data pick2_mul old_new pick_add !pick_mul pick_left /new_P.
set A := active y; set DA := diag_mx (pick A g); set H := pick A (md_dh_dx _ _ _).
have UA : DA \in unitmx := DA_unit A.
have E1 : T^T *m fs_P s *m T *m (invmx T *m H *m DA) = T^T *m (fs_P s *m H) *m DA.
  by rewrite -!mulmxA (mulmxA T (invmx T)) mulmxV // mul1mx.
have E2 : (invmx T *m H *m DA)^T *m (T^T *m (fs_P s *m H) *m DA) + DA *m pick2 A (md_R md) *m DA
    = DA *m (H^T *m (fs_P s *m H) + pick2 A (md_R md)) *m DA.
  rewrite mulmxDr mulmxDl !trmx_mul trmx_inv tr_diag_mx; congr (_ + _).
  by rewrite -!mulmxA (mulmxA (invmx T^T)) mulVmx // mul1mx.
rewrite E1 E2 inv_congr //; case: (inv _) => [X|e] //; cbn [bind rmap].
have E3 : T^T *m (fs_P s *m H) *m DA *m (invmx DA *m X *m invmx DA) = T^T *m (fs_P s *m H *m X) *m invmx DA.
  by rewrite -!mulmxA (mulmxA DA (invmx DA)) mulmxV // mul1mx.
rewrite E3; set yc := pick A (y_data y); set h := pick A (md_h _ _ _).
have -> : yc *m DA + pick A d - (h *m DA + pick A d) = (yc - h) *m DA by rewrite opprD addrACA subrr addr0 mulmxBl.
by rewrite corrected_new.
Qed.

Theorem C89_ekf_filter s ys : filter (ekf (new_model md)) (new_state s) (map new_meas ys) = new_run (filter (ekf md) s ys).
Proof.
apply: (@filter_new (ekf md) (ekf (new_model md)) (fun=> True)) => // [s0 _|s0 y _]; split=> //.
  exact: ekf_predict_new.
exact: ekf_correct_new.
Qed.
Theorem C89_ekf_smooth s ys : smooth (ekf (new_model md)) (new_state s) (map new_meas ys) = new_run (smooth (ekf md) s ys).
Proof.
apply: (@smooth_new (ekf md) (ekf (new_model md)) (fun=> True)) => // [s0 _|s0 y _]; split=> //.
  exact: ekf_predict_new.
exact: ekf_correct_new.
Qed.
End Ekf.

(** ** The unscented filter with Cholesky factors *)
Section Ukf.
Variables (md : model F nx ny) (kp kc : F).
Hypothesis Hkp : nx%:R + kp != 0.
Hypothesis Hkc : nx%:R + kc != 0.
Hypothesis HU : upp T.
Hypothesis HD : posdiag T.
Hypothesis HQ : forall k x, (md_Q md k x)^T = md_Q md k x.
Hypothesis HR : (md_R md)^T = md_R md.
Let I s := (fs_P s)^T = fs_P s.
Notation fl m := (ukf m kp kc (@chol F nx) (@chol F nx)).

Lemma ukf_predict_new s : I s -> ukf_predict (new_model md) kp (@chol F nx) (new_state s) =
  rmap (fun p => (new_state p.1, new_P p.2)) (ukf_predict md kp (@chol F nx) s) /\ forall p, ukf_predict md kp (@chol F nx) s = Ok p -> I p.1.
Proof.
move=> Hs; rewrite /ukf_predict (@transform_change _ _ _ _ T c T c (fs_x s) (fs_P s) (md_f md (fs_k s))) //; last first.
  by move=> x; rewrite /= -[x *m T + c]/(new_x x) old_new.
case E: (transform _ _ _ _ _) => [u|e] //; split.
  cbn [bind rmap]; cbn [md_Q new_model fs_k fs_x fs_P new_state]; rewrite old_new; congr (Ok (_, _)).
    by rewrite /new_state /new_P /=; congr FS; rewrite mulmxDr mulmxDl.
  by rewrite /crosscov /new_P /= trmx_mul !mulmxA.
by move=> p [<-]; rewrite /I /= linearD /= (transform_sym E) HQ.
Qed.

Lemma ukf_correct_new s y : I s -> ukf_correct (new_model md) kc (@chol F nx) (new_state s) (new_meas y) =
  rmap (fun p => (new_state p.1, omap new_corr p.2)) (ukf_correct md kc (@chol F nx) s y) /\ forall p, ukf_correct md kc (@chol F nx) s y = Ok p -> I p.1.
Proof.
move=> Hs; rewrite /ukf_correct -[active (new_meas y)]/(active y); case: ifP => [_|_]; first by split=> // p [<-].
cbn [md_h md_R new_model fs_k fs_x fs_P new_state].
rewrite pick_data pick2_mul.
set A := active y; set DA := diag_mx (pick A g).
have UA : DA \in unitmx := DA_unit A.
rewrite (@transform_change _ _ _ _ T c DA (pick A d) (fs_x s) (fs_P s) (fun x => pick A (md_h md (fs_k s) x))) //; last first.
  by move=> x; rewrite /= -[x *m T + c]/(new_x x) old_new pick_add pick_mul.
case E: (transform _ _ _ _ _) => [u|e] //; cbn [bind rmap u_Po u_o].
have SPy : (u_Po u + pick2 A (md_R md))^T = u_Po u + pick2 A (md_R md).
  by rewrite linearD /= (transform_sym E) -{2}HR; congr (_ + _); apply/matrixP => i j; rewrite !mxE.
have -> : DA^T *m u_Po u *m DA + DA *m pick2 A (md_R md) *m DA = DA *m (u_Po u + pick2 A (md_R md)) *m DA.
  by rewrite tr_diag_mx mulmxDr mulmxDl.
rewrite chol_scale //; last by move=> i; rewrite mxE.
case E2: (chol _) => [S|e] //; cbn [bind rmap].
have UE : sgn_mx (pick A g) \in unitmx.
  by apply: diag_unit => i; rewrite mxE sgr_eq0 mxE.
rewrite inv_congr //; case: (inv S) => [X|e] //; cbn [bind rmap]; split; last first.
  move=> p [<-]; rewrite /I /= linearB /= Hs; congr (_ - _).
  by move: (crosscov u *m _) => K; rewrite trmx_mul trmxK trmx_mul SPy mulmxA.
set K := crosscov u *m (X *m X^T).
have EI : invmx DA *m X *m invmx (sgn_mx (pick A g)) *m (invmx DA *m X *m invmx (sgn_mx (pick A g)))^T = invmx DA *m (X *m X^T) *m invmx DA.
  have Es : invmx (sgn_mx (pick A g)) = sgn_mx (pick A g).
    by apply: (can_inj (mulKmx UE)); rewrite mulmxV // sgn_sq // => i; rewrite mxE.
  rewrite Es !trmx_mul trmx_inv !tr_diag_mx -!mulmxA (mulmxA (sgn_mx _) (sgn_mx _)) sgn_sq; last by move=> i; rewrite mxE.
  by rewrite mul1mx.
set v := UT _ _ _ _ _ _ _.
have EX : crosscov v = T^T *m crosscov u *m DA by rewrite /crosscov /= trmx_mul !mulmxA.
rewrite EI EX.
have EK : T^T *m crosscov u *m DA *m (invmx DA *m (X *m X^T) *m invmx DA) = T^T *m K *m invmx DA.
  by rewrite -!mulmxA (mulmxA DA (invmx DA)) mulmxV // mul1mx.
rewrite EK; set yc := pick A (y_data y).
have -> : yc *m DA + pick A d - (u_o u *m DA + pick A d) = (yc - u_o u) *m DA by rewrite opprD addrACA subrr addr0 mulmxBl.
by rewrite corrected_new.
Qed.

Theorem C89_ukf_filter s ys : (fs_P s)^T = fs_P s ->
  filter (fl (new_model md)) (new_state s) (map new_meas ys) = new_run (filter (fl md) s ys).
Proof. by move=> Hs; apply: (@filter_new (fl md) (fl (new_model md)) I) => // *; [apply: ukf_predict_new|apply: ukf_correct_new]. Qed.
Theorem C89_ukf_smooth s ys : (fs_P s)^T = fs_P s ->
  smooth (fl (new_model md)) (new_state s) (map new_meas ys) = new_run (smooth (fl md) s ys).
Proof. by move=> Hs; apply: (@smooth_new (fl md) (fl (new_model md)) I) => // *; [apply: ukf_predict_new|apply: ukf_correct_new]. Qed.

(** The change of the log-likelihood does not depend on the model. *)
Theorem C89_merit (log : F -> F) s L ys : (fs_P s)^T = fs_P s -> (forall a b, 0 < a -> 0 < b -> log (a * b) = log a + log b) ->
  pem_merit (fl (new_model md)) log (new_state s) L (map new_meas ys) =
  match pem_merit (fl md) log s L ys with
  | Ok v => Ok (v - \sum_(y <- ys) \sum_(i in active y) log `|g 0 i|)
  | Err e => Err e
  end.
Proof.
move=> Hs HL; apply: (@merit_new (fl md) (fl (new_model md)) I) => //.
- by move=> *; apply: ukf_predict_new.
- by move=> *; apply: ukf_correct_new.
- move=> s0 y s' cd Hs0 /=; rewrite /ukf_correct; case: ifP => // _.
  case E: (transform _ _ _ _ _) => [u|e] //=; case E2: (chol _) => [S|e] //=; case: (inv S) => [X|e] //= [_ <-] /=.
  split=> // _ [<-]; have [|//] := proj1 (chol_spec S _) E2.
  by rewrite linearD /= (transform_sym E) -{2}HR; congr (_ + _); apply/matrixP => i j; rewrite !mxE.
move=> s0 y s' /=; rewrite /ukf_correct; case: ifP => [/eqP //|_].
by case: (transform _ _ _ _ _) => [u|e] //=; case: (chol _) => [S|e] //=; case: (inv S).
Qed.
End Ukf.
End Units.
