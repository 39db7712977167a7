(** Properties of the Kalman filters and smoothers: C36 to C41. *)
From Coq Require Import String.
From Verif Require Import Py.
From mathcomp Require Import all_ssreflect all_algebra.
From Verif Require Import KalModel PsdLemmas CholLemmas UtLemmas GainLemmas PropsUt KalLemmas.
Set Implicit Arguments.
Unset Strict Implicit.
Unset Printing Implicit Defensive.
Import Order.TTheory GRing.Theory Num.Theory.
Local Open Scope ring_scope.

Section Kal.
Variable F : rcfType.
Variables nx ny : nat.
Implicit Types (md : model F nx ny) (s : fstate F nx) (y : meas F ny) (flt : filter_class F nx ny).

Notation est := ('rV[F]_nx * 'M[F]_nx)%type.

(** Any sequence of method calls. *)
Inductive call := Predict | Correct of meas F ny.
Fixpoint run flt s (cs : seq call) : res (fstate F nx) :=
  match cs with
  | [::] => Ok s
  | Predict :: cs' => let* p := predict flt s in run flt p.1 cs'
  | Correct y :: cs' => let* c := correct flt s y in run flt c.1 cs'
  end.

Lemma run_predict flt s cs : run flt s (Predict :: cs) = bind (predict flt s) (fun p => run flt p.1 cs).
Proof. by []. Qed.
Lemma run_correct flt s y cs : run flt s (Correct y :: cs) = bind (correct flt s y) (fun c => run flt c.1 cs).
Proof. by []. Qed.

(** * C36 *)

(** Extended filter: no call of any sequence fails, and the covariance stays
    symmetric positive semidefinite. *)
Theorem C36_ekf md s cs : psd (fs_P s) -> (forall k x, psd (md_Q md k x)) -> pd (md_R md) ->
  exists2 s', run (ekf md) s cs = Ok s' & psd (fs_P s').
Proof.
move=> + PQ PR; elim: cs s => [|[|y] cs IH] s PP; first by exists s.
  have [s' [X [E _ PP']]] := ekf_predict_psd PP (PQ (fs_k s) (fs_x s)).
  by rewrite run_predict [predict _ _]E; apply: IH.
have [s' [c [E _ PP' _ _]]] := ekf_correct_pd y PP PR.
by rewrite run_correct [correct _ _ _]E; apply: IH.
Qed.

Theorem C36_ekf_correct_decreases md s y s' c : psd (fs_P s) -> pd (md_R md) ->
  ekf_correct md s y = Ok (s', c) -> loewner (fs_P s') (fs_P s).
Proof.
move=> PP PR E; have [s1 [c1 [E1 _ _ L _]]] := ekf_correct_pd y PP PR.
by move: E1; rewrite E => -[-> _].
Qed.

(** Unscented filter with nonnegative [kappa]: the same with definite noise. *)
Theorem C36_ukf md kp kc rp rc s cs :
  0 <= kp -> 0 < nx%:R + kp -> is_root rp -> 0 <= kc -> 0 < nx%:R + kc -> is_root rc ->
  pd (fs_P s) -> (forall k x, pd (md_Q md k x)) -> pd (md_R md) ->
  exists2 s', run (ukf md kp kc rp rc) s cs = Ok s' & pd (fs_P s').
Proof.
move=> kp0 mp rrp kc0 mc rrc + PQ PR; elim: cs s => [|[|y] cs IH] s PP; first by exists s.
  have [s' [X [E _ PP']]] := ukf_predict_pd kp0 mp rrp PP (PQ (fs_k s) (fs_x s)).
  by rewrite run_predict [predict _ _]E; apply: IH.
have [s' [c [E _ PP' _]]] := ukf_correct_pd y kc0 mc rrc PP PR.
by rewrite run_correct [correct _ _ _]E; apply: IH.
Qed.

Theorem C36_ukf_correct_decreases md kc rc s y s' c :
  0 <= kc -> 0 < nx%:R + kc -> is_root rc -> pd (fs_P s) -> pd (md_R md) ->
  ukf_correct md kc rc s y = Ok (s', c) -> loewner (fs_P s') (fs_P s).
Proof.
move=> kc0 mc rrc PP PR E; have [s1 [c1 [E1 _ _ L]]] := ukf_correct_pd y kc0 mc rrc PP PR.
by move: E1; rewrite E => -[-> _].
Qed.

(** * C37 *)

(** The covariance left by a correction of the extended filter, from the
    active Jacobian [H] and noise [R]: it is the Joseph form at the filter's
    gain, which is the least over all gains; it has the short form and, for an
    invertible prior, the information form. *)
Theorem C37_minimum_variance md s y s' d : psd (fs_P s) -> pd (md_R md) ->
  ekf_correct md s y = Ok (s', Some d) ->
  let P := fs_P s in
  let A := cd_A d in
  let H := pick A (md_dh_dx md (fs_k s) (fs_x s)) in
  let R := pick2 A (md_R md) in
  let J (G : 'M_(nx, #|A|)) := (1%:M - G *m H^T) *m P *m (1%:M - G *m H^T)^T + G *m R *m G^T in
  [/\ A = active y, fs_P s' = J (cd_K d), forall G, loewner (fs_P s') (J G),
      fs_P s' = (1%:M - cd_K d *m H^T) *m P &
      P \in unitmx -> fs_P s' \in unitmx /\ invmx (fs_P s') = invmx P + H *m invmx R *m H^T].
Proof.
move=> PP PR E /=; have [A0|nA] := eqVneq (active y) set0; first by move: E; rewrite ekf_correct0.
have PRA := pd_pick2 (active y) PR.
move: E; rewrite ekf_correctE //; last by apply: pd_unit; apply: inncov_pd.
move=> [<- <-] /=; split=> //.
- exact: post_joseph.
- by move=> G; apply: post_min.
- exact: post_short.
- by move=> UP; split; [apply: post_unit|apply: invmx_post].
Qed.

(** The minimiser is unique when [R] is definite: another gain with the same
    Joseph form is the same gain. *)
Theorem C37_unique md s y s' d : psd (fs_P s) -> pd (md_R md) ->
  ekf_correct md s y = Ok (s', Some d) ->
  let H := pick (cd_A d) (md_dh_dx md (fs_k s) (fs_x s)) in
  let R := pick2 (cd_A d) (md_R md) in
  forall G, joseph (fs_P s) H R G = fs_P s' -> G = cd_K d.
Proof.
move=> PP PR E /=; have [A0|nA] := eqVneq (active y) set0; first by move: E; rewrite ekf_correct0.
have PRA := pd_pick2 (active y) PR.
move: E; rewrite ekf_correctE //; last by apply: pd_unit; apply: inncov_pd.
move=> [<- <-] /=; set H := pick _ _; set R := pick2 _ _ => G.
have PI := inncov_pd H PP PRA.
rewrite joseph_errcov // (errcov_opt _ _ (pd_sym PI) (pd_unit PI)) -/(gain _ _ _) -/(post _ _ _) => /eqP.
rewrite -subr_eq0 addrAC subrr add0r => /eqP E.
apply/eqP; rewrite -subr_eq0; apply/eqP/row_matrixP => i; rewrite row0.
apply/eqP; apply: contraT => nz; have := proj2 PI _ nz.
have -> : row i (G - gain (fs_P s) H R) = delta_mx 0 i *m (G - gain (fs_P s) H R) by rewrite rowE.
by rewrite -qf_cong E qf0m ltxx.
Qed.

(** * C38 *)

(** Values under the mask have no influence. *)
Definition same_unmasked y y' := y_mask y = y_mask y' /\ forall i, i \notin y_mask y -> y_data y 0 i = y_data y' 0 i.
Theorem C38_masked_values md kc rc s y y' : same_unmasked y y' ->
  ekf_correct md s y = ekf_correct md s y' /\ ukf_correct md kc rc s y = ukf_correct md kc rc s y'.
Proof.
case: y y' => [v M] [v' M'] [/= <- E].
have pE : pick (~: M) v = pick (~: M) v'.
  apply/matrixP => i j; rewrite !mxE !ord1 E //.
  by have := enum_valP j; rewrite in_setC.
by rewrite /ekf_correct /ukf_correct /active /= pE.
Qed.

(** So whole measurement arrays that agree where unmasked give the same
    estimates, smoothed estimates and likelihood. *)
Theorem C38_masked_sequences md kp kc rp rc flt s (log : F -> F) L (ys ys' : seq (meas F ny)) :
  flt = ekf md \/ flt = ukf md kp kc rp rc -> size ys = size ys' ->
  (forall i y0, (i < size ys)%N -> same_unmasked (nth y0 ys i) (nth y0 ys' i)) ->
  [/\ filter flt s ys = filter flt s ys', smooth flt s ys = smooth flt s ys' & pem_merit flt log s L ys = pem_merit flt log s L ys'].
Proof.
move=> Ef sz E.
have cE s0 y y' : same_unmasked y y' -> correct flt s0 y = correct flt s0 y'.
  by move=> sy; case: Ef => -> /=; have [] := C38_masked_values md kc rc s0 sy.
have S i : (i < size ys)%N -> forall y0, same_unmasked (nth y0 ys i) (nth y0 ys' i) by move=> li y0; apply: E.
have FW : forall l l' s0, size l = size l' -> (forall i, (i < size l)%N -> forall y0, same_unmasked (nth y0 l i) (nth y0 l' i)) ->
    forward flt s0 l = forward flt s0 l'.
  elim=> [|y l IH] [|y' l'] s0 //= [szl] H; rewrite /=.
  case: (predict flt s0) => [p|e] //=; rewrite (cE _ _ _ (H 0%N isT y)) /=.
  case: (correct flt p.1 y') => [c|e] //=; rewrite (IH l') // => i li y0; exact: (H i.+1).
split.
- elim: ys ys' s sz S {E} => [|y l IH] [|y' l'] s0 //= [szl] H.
  rewrite (cE _ _ _ (H 0%N isT y)) /=; case: (correct flt s0 y') => [c|e] //=.
  have H' i : (i < size l)%N -> forall y0, same_unmasked (nth y0 l i) (nth y0 l' i) by move=> li y0; apply: (H i.+1).
  case: l l' szl H' {H} IH => [|z l] [|z' l'] // szl H' IH.
  case: (predict flt c.1) => [p|e] //=; by have /= -> := IH (z' :: l') p.1 szl H'.
- case: ys ys' sz S {E} => [|y l] [|y' l'] //= [szl] H.
  rewrite (cE _ _ _ (H 0%N isT y)) /=; case: (correct flt s y') => [c|e] //=.
  by rewrite (FW l l') // => i li y0; apply: (H i.+1).
- elim: ys ys' s L sz S {E} => [|y l IH] [|y' l'] s0 L //= [szl] H.
  rewrite (cE _ _ _ (H 0%N isT y)) /=; case: (correct flt s0 y') => [c|e] //=.
  case: (update_likelihood _ _ _) => [L1|e] //=.
  have H' i : (i < size l)%N -> forall y0, same_unmasked (nth y0 l i) (nth y0 l' i) by move=> li y0; apply: (H i.+1).
  case: l l' szl H' {H} IH => [|z l] [|z' l'] // szl H' IH.
  case: (predict flt c.1) => [p|e] //=; by have /= -> := IH (z' :: l') p.1 L1 szl H'.
Qed.

(** A fully masked sample changes nothing, not even the likelihood. *)
Theorem C38_fully_masked md kc rc s y (log : F -> F) L : active y = set0 ->
  [/\ ekf_correct md s y = Ok (s, None), ukf_correct md kc rc s y = Ok (s, None) &
      @update_likelihood F nx ny log L None = Ok L].
Proof. by move=> A0; rewrite ekf_correct0 // ukf_correct0. Qed.

(** The model with the outputs in [A] only. *)
Definition only (A : {set 'I_ny}) md : model F nx #|A| :=
  Model (md_f md) (md_df_dx md) (md_Q md) (fun k x => pick A (md_h md k x)) (fun k x => pick A (md_dh_dx md k x)) (pick2 A (md_R md)).
(** The unmasked part of a measurement. *)
Definition only_meas y : meas F #|active y| := Meas (pick (active y) (y_data y)) set0.

Definition state_of T (r : res (fstate F nx * T)) : res (fstate F nx) := let* p := r in Ok p.1.

Section Cores.
Variables (m : nat) (s : fstate F nx).
Definition ekf_upd (yc h : 'rV[F]_m) (H : 'M[F]_(nx, m)) (R : 'M[F]_m) : res (fstate F nx) :=
  let* PyI := inv (H^T *m (fs_P s *m H) + R) in
  let K := fs_P s *m H *m PyI in
  Ok (FS (fs_k s) (fs_x s + (yc - h) *m K^T) (fs_P s - K *m (H^T *m (fs_P s *m H) + R) *m K^T)).
Definition ukf_upd kc rc (yc : 'rV[F]_m) (h : 'rV[F]_nx -> 'rV[F]_m) (R : 'M[F]_m) : res (fstate F nx) :=
  let* u := @transform F nx kc rc m (fs_x s) (fs_P s) h in
  let* PyC := chol (u_Po u + R) in
  let* PyCI := inv PyC in
  let K := crosscov u *m (PyCI *m PyCI^T) in
  Ok (FS (fs_k s) (fs_x s + (yc - u_o u) *m K^T) (fs_P s - K *m (u_Po u + R) *m K^T)).
End Cores.

Lemma at_rows_ext m n p (f g : 'rV[F]_n -> 'rV[F]_p) (X : 'M[F]_(m, n)) : f =1 g -> at_rows f X = at_rows g X.
Proof. by move=> E; apply/matrixP => i j; rewrite !mxE E. Qed.
Lemma ukf_upd_ext m s kc rc yc (h h' : 'rV[F]_nx -> 'rV[F]_m) R : h =1 h' ->
  ukf_upd s kc rc yc h R = ukf_upd s kc rc yc h' R.
Proof.
move=> E; rewrite /ukf_upd; suff -> : transform kc rc (fs_x s) (fs_P s) h = transform kc rc (fs_x s) (fs_P s) h' by [].
by rewrite /transform; case: (rc _) => //= Sq; rewrite (at_rows_ext _ E).
Qed.

Lemma ekf_upd_cast m m' (E : m = m') s yc h H R :
  ekf_upd s (castmx (erefl, E) yc) (castmx (erefl, E) h) (castmx (erefl, E) H) (castmx (E, E) R) = @ekf_upd m s yc h H R.
Proof. by case: m' / E; rewrite !castmx_id. Qed.
Lemma ukf_upd_cast m m' (E : m = m') s kc rc yc (h : 'rV[F]_nx -> 'rV[F]_m) R :
  ukf_upd s kc rc (castmx (erefl, E) yc) (fun x => castmx (erefl, E) (h x)) (castmx (E, E) R) = @ukf_upd m s kc rc yc h R.
Proof. by case: m' / E; rewrite !castmx_id. Qed.

End Kal.

Section Reduced.
Variable F : rcfType.
Variables nx ny : nat.
Implicit Types (md : model F nx ny) (s : fstate F nx) (y : meas F ny).

Lemma state_ekf md s y : active y != set0 ->
  state_of (ekf_correct md s y)
    = ekf_upd s (pick (active y) (y_data y)) (pick (active y) (md_h md (fs_k s) (fs_x s)))
        (pick (active y) (md_dh_dx md (fs_k s) (fs_x s))) (pick2 (active y) (md_R md)).
Proof. by move=> nA; rewrite /ekf_correct /ekf_upd (negbTE nA) /inv; case: ifP. Qed.
Lemma state_ukf md kc rc s y : active y != set0 ->
  state_of (ukf_correct md kc rc s y)
    = ukf_upd s kc rc (pick (active y) (y_data y)) (fun x => pick (active y) (md_h md (fs_k s) x)) (pick2 (active y) (md_R md)).
Proof.
move=> nA; rewrite /ukf_correct /ukf_upd (negbTE nA).
by case: (transform _ _ _ _ _) => //= u; case: (chol _) => //= PyC; case: (inv _).
Qed.
End Reduced.

Section Reduced2.
Variable F : rcfType.
Variables nx ny : nat.
Implicit Types (md : model F nx ny) (s : fstate F nx) (y : meas F ny).

Lemma card_all n : n = #|[set: 'I_n]|.
Proof. by rewrite cardsT card_ord. Qed.
Lemma enum_val_all n (j : 'I_#|[set: 'I_n]|) : enum_val j = cast_ord (esym (card_all n)) j.
Proof.
apply: val_inj; rewrite /= /enum_val enum_setT -enumT.
have lj : (j < n)%N by have := ltn_ord j; rewrite [X in (_ < X)%N]cardsT card_ord.
by rewrite (nth_enum_ord _ lj).
Qed.
Lemma pick_all m n (M : 'M[F]_(m, n)) : pick [set: 'I_n] M = castmx (erefl, card_all n) M.
Proof.
by apply/matrixP => i j; rewrite mxE castmxE /= enum_val_all cast_ord_id; congr (M _ _).
Qed.
Lemma pick2_all n (M : 'M[F]_n) : pick2 [set: 'I_n] M = castmx (card_all n, card_all n) M.
Proof. by apply/matrixP => i j; rewrite mxE castmxE /= !enum_val_all. Qed.

(** A partially masked sample is a sample of the model that only has the
    unmasked outputs. *)
Theorem C38_reduced_model md kc rc s y :
  state_of (ekf_correct md s y) = state_of (ekf_correct (only (active y) md) s (only_meas y)) /\
  state_of (ukf_correct md kc rc s y) = state_of (ukf_correct (only (active y) md) kc rc s (only_meas y)).
Proof.
have aE : active (only_meas y) = [set: _] by rewrite /active /= setC0.
have [A0|nA] := eqVneq (active y) set0.
  have A0' : active (only_meas y) = set0.
    by apply/setP => i; have := ltn_ord i; rewrite {2}A0 cards0.
  by rewrite !ekf_correct0 // !ukf_correct0.
have nA' : active (only_meas y) != set0.
  by rewrite aE -card_gt0 cardsT card_ord card_gt0.
rewrite !state_ekf // !state_ukf //= aE !pick_all pick2_all ekf_upd_cast; split=> //.
rewrite -(@ukf_upd_cast F nx _ _ (card_all #|active y|)) //.
by apply: ukf_upd_ext => x; rewrite pick_all.
Qed.
End Reduced2.

(** * A concrete case: one state, two outputs, the second one masked *)
Section Examples.
Variable F : rcfType.
Definition ex_md : model F 1 2 :=
  Model (fun _ x => x) (fun _ _ => 1%:M) (fun _ _ => 1%:M) (fun _ x => x *m const_mx 1) (fun _ _ => const_mx 1) 1%:M.
Definition ex_s : fstate F 1 := FS 0 0 1%:M.
Definition ex_y : meas F 2 := Meas (const_mx 1) [set 1].

Example C36_C38_nonvacuous :
  [/\ pd (fs_P ex_s), forall k x, pd (md_Q ex_md k x), pd (md_R ex_md),
      active ex_y != set0 & active ex_y != [set: 'I_2]] /\
  exists s' d, [/\ ekf_correct ex_md ex_s ex_y = Ok (s', Some d), invmx (fs_P ex_s) 0 0 = 1 & invmx (fs_P s') 0 0 = 2%:R].
Proof.
have aE : active ex_y = [set 0].
  by apply/setP => i; rewrite !inE; case: i => [[|[|]]].
have nA : active ex_y != set0 by rewrite aE; apply/eqP => /setP /(_ 0); rewrite !inE.
split.
  split; [exact: pd1|by move=> *; apply: pd1|exact: pd1|by [] |]; rewrite aE.
  by apply/eqP => /setP /(_ 1); rewrite !inE.
have [s' [c [E _ _ _ _]]] := ekf_correct_pd ex_y (psd1 F 1 : psd (fs_P ex_s)) (pd1 F 2 : pd (md_R ex_md)).
case: c E => [d|] E; last by move: E; rewrite /ekf_correct (negbTE nA) /inv; case: ifP.
exists s', d; split=> //; first by rewrite invmx1 mxE.
have [dE _ _ _ /(_ (unitmx1 _ _)) [_ ->]] := C37_minimum_variance (psd1 F 1 : psd (fs_P ex_s)) (pd1 F 2 : pd (md_R ex_md)) E.
have -> : pick2 (cd_A d) (md_R ex_md) = 1%:M.
  by apply/matrixP => i j; rewrite !mxE (inj_eq enum_val_inj).
rewrite !invmx1 mulmx1 !mxE eqxx; congr (_ + _).
under eq_bigr do rewrite !mxE mulr1.
by rewrite sumr_const card_ord dE aE cards1.
Qed.
End Examples.
