(** Properties of [filter] and [smooth]: C39, C40, C41. *)
From Coq Require Import String.
From Verif Require Import Py.
From mathcomp Require Import all_ssreflect all_algebra.
From Verif Require Import McRing KalModel PsdLemmas CholLemmas UtLemmas GainLemmas PropsUt KalLemmas PropsKal.
Set Implicit Arguments.
Unset Strict Implicit.
Unset Printing Implicit Defensive.
Import Order.TTheory GRing.Theory Num.Theory.
Local Open Scope ring_scope.

Section Smooth.
Variable F : rcfType.
Variables nx ny : nat.
Implicit Types (md : model F nx ny) (s : fstate F nx) (y : meas F ny) (flt : filter_class F nx ny).
Notation est := ('rV[F]_nx * 'M[F]_nx)%type.

#[local] Arguments filter : simpl never.
#[local] Arguments smooth : simpl never.
#[local] Arguments smoother_correction : simpl never.

(** Unfoldings. *)
Lemma filter1 flt s y : filter flt s [:: y] = bind (correct flt s y) (fun c => Ok ([:: (fs_x c.1, fs_P c.1)], c.1)).
Proof. by []. Qed.
Lemma filter_cons flt s y y' ys :
  filter flt s (y :: y' :: ys) =
    bind (correct flt s y) (fun c => bind (predict flt c.1) (fun p => bind (filter flt p.1 (y' :: ys)) (fun r =>
      Ok ((fs_x c.1, fs_P c.1) :: r.1, r.2)))).
Proof. by []. Qed.
Lemma smooth1 flt s y : smooth flt s [:: y] = bind (correct flt s y) (fun c => Ok ([:: (fs_x c.1, fs_P c.1)], c.1)).
Proof. by rewrite /smooth; case: (correct flt s y). Qed.

Lemma backward_cons (e : est) (l : seq (step F nx)) r : backward e l = Ok r -> exists e' r', r = e' :: r' /\ size r' = size l.
Proof.
elim: l e r => [|st l IH] e r /=; first by move=> [<-]; exists e, [::].
case E : (backward (st_est st) l) => [r'|e'] //=.
case: (smoother_correction _ _ _ _ _) => [inc|e'] //= [<-].
have [e1 [r1 [-> sz]]] := IH _ _ E.
by exists (e.1 + inc.1, e.2 + inc.2), (e1 :: r1); rewrite /= sz.
Qed.

Lemma smooth_cons flt s y y' ys :
  smooth flt s (y :: y' :: ys) =
    bind (correct flt s y) (fun c => bind (predict flt c.1) (fun p => bind (smooth flt p.1 (y' :: ys)) (fun r =>
      let sm := head (0, 0) r.1 in
      bind (smoother_correction (fs_x p.1) (fs_P p.1) p.2 sm.1 sm.2) (fun inc =>
      Ok ((fs_x c.1 + inc.1, fs_P c.1 + inc.2) :: r.1, r.2))))).
Proof.
rewrite /smooth [forward]lock; case: (correct flt s y) => [c|e] //=; rewrite -[locked _]lock /=.
case: (predict flt c.1) => [p|e] //=; case: (correct flt p.1 y') => [c'|e] //=.
case: (forward flt c'.1 ys) => [fw|e] //=.
case E : (backward _ fw.1) => [r|e] //=.
have [e1 [r1 [-> _]]] := backward_cons E.
by case: (smoother_correction _ _ _ _ _).
Qed.

Lemma filter_end flt s y s1 c : correct flt s y = Ok (s1, c) -> filter flt s [:: y] = Ok ([:: (fs_x s1, fs_P s1)], s1).
Proof. by rewrite filter1 => ->. Qed.
Lemma smooth_end flt s y s1 c : correct flt s y = Ok (s1, c) -> smooth flt s [:: y] = Ok ([:: (fs_x s1, fs_P s1)], s1).
Proof. by rewrite smooth1 => ->. Qed.
Lemma filter_step flt s y y' ys s1 c s2 X : correct flt s y = Ok (s1, c) -> predict flt s1 = Ok (s2, X) ->
  filter flt s (y :: y' :: ys) = bind (filter flt s2 (y' :: ys)) (fun r => Ok ((fs_x s1, fs_P s1) :: r.1, r.2)).
Proof. by rewrite filter_cons => -> /= ->. Qed.
Lemma smooth_step flt s y y' ys s1 c s2 X : correct flt s y = Ok (s1, c) -> predict flt s1 = Ok (s2, X) ->
  smooth flt s (y :: y' :: ys) = bind (smooth flt s2 (y' :: ys)) (fun r =>
    let sm := head (0, 0) r.1 in
    bind (smoother_correction (fs_x s2) (fs_P s2) X sm.1 sm.2) (fun inc =>
    Ok ((fs_x s1 + inc.1, fs_P s1 + inc.2) :: r.1, r.2))).
Proof. by rewrite smooth_cons => -> /= ->. Qed.

(** Inversion of successful runs. *)
Lemma filter_inv flt s y y' ys l s' : filter flt s (y :: y' :: ys) = Ok (l, s') ->
  exists s1 c s2 X l', [/\ correct flt s y = Ok (s1, c), predict flt s1 = Ok (s2, X),
    filter flt s2 (y' :: ys) = Ok (l', s') & l = (fs_x s1, fs_P s1) :: l'].
Proof.
rewrite filter_cons; case E1 : (correct flt s y) => [[s1 c]|e] //=.
case E2 : (predict flt s1) => [[s2 X]|e] //=.
case E3 : (filter flt s2 (y' :: ys)) => [[l' s3]|e] //= [<- <-].
by exists s1, c, s2, X, l'.
Qed.
Lemma smooth_inv flt s y y' ys l s' : smooth flt s (y :: y' :: ys) = Ok (l, s') ->
  exists s1 c s2 X l' inc, [/\ correct flt s y = Ok (s1, c), predict flt s1 = Ok (s2, X),
    smooth flt s2 (y' :: ys) = Ok (l', s'),
    smoother_correction (fs_x s2) (fs_P s2) X (head (0, 0) l').1 (head (0, 0) l').2 = Ok inc &
    l = (fs_x s1 + inc.1, fs_P s1 + inc.2) :: l'].
Proof.
rewrite smooth_cons; case E1 : (correct flt s y) => [[s1 c]|e] //=.
case E2 : (predict flt s1) => [[s2 X]|e] //=.
case E3 : (smooth flt s2 (y' :: ys)) => [[l' s3]|e] //=.
case E4 : (smoother_correction _ _ _ _ _) => [inc|e] //= [<- <-].
by exists s1, c, s2, X, l', inc.
Qed.

(** * C39 *)

(** For affine models with definite covariances, filtering and smoothing with
    either filter give the same results (and do not fail). *)
Theorem C39_filter_smooth md A b C d kp kc rp rc s ys :
  affine md A b C d -> 0 < nx%:R + kp -> sound_root rp -> is_root rp -> 0 < nx%:R + kc -> sound_root rc -> is_root rc ->
  pd (fs_P s) -> (forall k x, pd (md_Q md k x)) -> pd (md_R md) ->
  filter (ukf md kp kc rp rc) s ys = filter (ekf md) s ys /\
  smooth (ukf md kp kc rp rc) s ys = smooth (ekf md) s ys /\
  exists r, filter (ekf md) s ys = Ok r.
Proof.
move=> aff mp srp rrp mc src rrc + PQ PR.
elim: ys s => [|y [|y' ys] IH] s PP; first by split=> //; split=> //; exists ([::], s).
  have [s' [c [E1 E2]]] := affine_correct_pd y aff mc src rrc PP PR.
  rewrite (@filter_end (ukf md kp kc rp rc) s y s' c E1) (@filter_end (ekf md) s y _ _ E2).
  rewrite (@smooth_end (ukf md kp kc rp rc) s y s' c E1) (@smooth_end (ekf md) s y _ _ E2).
  by split=> //; split=> //; eexists; reflexivity.
have [s' [c [E1 E2]]] := affine_correct_pd y aff mc src rrc PP PR.
have [s1 [c1 [E3 _ _ _ PP']]] := ekf_correct_pd y (pd_psd PP) PR.
move: E3 PP'; rewrite E2 => -[<- _] /(_ PP) PP'.
have E4 := affine_predict_pd aff mp srp rrp PP'.
have [s2 [X [E5 _ PP2]]] := ekf_predict_pd (pd_psd PP') (PQ (fs_k s') (fs_x s')).
rewrite E5 in E4.
have [I1 [I2 [r I3]]] := IH s2 PP2.
rewrite (@filter_step (ukf md kp kc rp rc) _ _ y' ys _ _ _ _ E1 E4) (@filter_step (ekf md) _ _ y' ys _ _ _ _ E2 E5).
rewrite (@smooth_step (ukf md kp kc rp rc) _ _ y' ys _ _ _ _ E1 E4) (@smooth_step (ekf md) _ _ y' ys _ _ _ _ E2 E5).
rewrite I1 I2 I3.
by split=> //; split=> //; eexists; reflexivity.
Qed.

(** The Cholesky option is such a square root. *)
Corollary C39_cholesky md A b C d kp kc s ys :
  affine md A b C d -> 0 < nx%:R + kp -> 0 < nx%:R + kc ->
  pd (fs_P s) -> (forall k x, pd (md_Q md k x)) -> pd (md_R md) ->
  filter (ukf md kp kc (@chol F nx) (@chol F nx)) s ys = filter (ekf md) s ys /\
  smooth (ukf md kp kc (@chol F nx) (@chol F nx)) s ys = smooth (ekf md) s ys /\
  exists r, filter (ekf md) s ys = Ok r.
Proof.
by move=> aff mp mc; apply: (C39_filter_smooth _ aff) => //;
  [apply: chol_sound|apply: chol_is_root|apply: chol_sound|apply: chol_is_root].
Qed.

(** The same innovations: the data of every correction agree, up to the
    Cholesky factor that only the unscented filter saves. *)
Theorem C39_innovations md A b C d kc rc s y s' c :
  affine md A b C d -> 0 < nx%:R + kc -> sound_root rc -> psd (fs_P s) -> (md_R md)^T = md_R md ->
  ukf_correct md kc rc s y = Ok (s', c) -> ekf_correct md s y = Ok (s', omap (@strip F nx ny) c).
Proof. by move=> aff; apply: (affine_correct aff). Qed.

(** With semidefinite covariances: whatever the unscented filter computes
    without failing, the extended filter computes too. *)
Theorem C39_semidefinite md A b C d kp kc rp rc s cs s' :
  affine md A b C d -> 0 < nx%:R + kp -> sound_root rp -> 0 < nx%:R + kc -> sound_root rc ->
  psd (fs_P s) -> (forall k x, psd (md_Q md k x)) -> pd (md_R md) ->
  run (ukf md kp kc rp rc) s cs = Ok s' -> run (ekf md) s cs = Ok s'.
Proof.
move=> aff mp srp mc src + PQ PR; elim: cs s => [|[|y] cs IH] s PP //.
  rewrite [run (ukf _ _ _ _ _) _ _]run_predict; case E : (predict (ukf _ _ _ _ _) s) => [[s1 X]|e] // R.
  have E2 := affine_predict aff mp srp PP E.
  have [s2 [X2 [E3 _ PP2]]] := ekf_predict_psd PP (PQ (fs_k s) (fs_x s)).
  move: E3; rewrite E2 => -[e1 _]; rewrite -e1 in PP2.
  by rewrite run_predict [predict _ _]E2; apply: IH.
rewrite [run (ukf _ _ _ _ _) _ _]run_correct; case E : (correct (ukf _ _ _ _ _) s y) => [[s1 c]|e] // R.
have E2 := affine_correct aff mc src PP (pd_sym PR) E.
have [s2 [c2 [E3 _ PP2 _ _]]] := ekf_correct_pd y PP PR.
move: E3; rewrite E2 => -[e1 _]; rewrite -e1 in PP2.
by rewrite run_correct [correct _ _ _]E2; apply: IH.
Qed.

(** * C40 *)

(** Both filters count time alike. *)
Definition timed flt :=
  (forall s s' X, predict flt s = Ok (s', X) -> fs_k s' = (fs_k s).+1) /\
  (forall s y s' c, correct flt s y = Ok (s', c) -> fs_k s' = fs_k s).
Lemma ekf_timed md : timed (ekf md).
Proof.
split=> [s s' X [<- _]|s y s' c] //=; rewrite /ekf_correct; case: ifP => _; first by move=> [<-].
by rewrite /inv; case: ifP => _ //= [<-].
Qed.
Lemma ukf_timed md kp kc rp rc : timed (ukf md kp kc rp rc).
Proof.
split=> [s s' X|s y s' c] /=.
  by rewrite /ukf_predict; case: (transform _ _ _ _ _) => [u|e] //= [<-].
rewrite /ukf_correct; case: ifP => _; first by move=> [<-].
case: (transform _ _ _ _ _) => [u|e] //=; case: (chol _) => [PyC|e] //=.
by rewrite /inv; case: ifP => _ //= [<-].
Qed.

Section Causal.
Variable flt : filter_class F nx ny.
Hypothesis T : timed flt.

(** One estimate per sample; time advances by one per sample but the last;
    the final state is the last estimate. *)
Lemma filter_shape s ys l s' : filter flt s ys = Ok (l, s') ->
  [/\ size l = size ys, fs_k s' = (fs_k s + (size ys).-1)%N & ys <> [::] -> forall e0, last e0 l = (fs_x s', fs_P s')].
Proof.
elim: ys s l => [|y [|y' ys] IH] s l; first by move=> [<- <-]; rewrite addn0.
  rewrite filter1; case E : (correct flt s y) => [[s1 c]|e] //= [<- <-].
  by rewrite /= (proj2 T _ _ _ _ E) addn0.
case/filter_inv => s1 [c [s2 [X [l' [E1 E2 E3 ->]]]]].
have [sz k L] := IH _ _ E3; split; first by rewrite /= sz.
  by rewrite k (proj1 T _ _ _ E2) (proj2 T _ _ _ _ E1) /= addSnnS.
by move=> _ e0 /=; apply: L.
Qed.

Lemma filter_size s ys l s' : filter flt s ys = Ok (l, s') -> size l = size ys.
Proof.
elim: ys s l => [|y [|y' ys] IH] s l; first by move=> [<- _].
  by rewrite filter1; case: (correct flt s y) => [[s1 c]|e] //= [<- _].
by case/filter_inv => s1 [c [s2 [X [l' [E1 E2 E3 ->]]]]] /=; rewrite (IH _ _ E3).
Qed.

(** An estimate does not depend on later samples. *)
Lemma filter_prefix s ys zs l s' : ys <> [::] -> filter flt s (ys ++ zs) = Ok (l, s') ->
  exists s1, filter flt s ys = Ok (take (size ys) l, s1).
Proof.
case: zs => [|z zs]; first by move=> _; rewrite cats0 => E; exists s'; rewrite -(filter_size E) take_size.
elim: ys s l => [|y [|y' ys] IH] s l // _.
  rewrite [_ ++ _]/=; case/filter_inv => s1 [c [s2 [X [l' [E1 _ _ ->]]]]].
  by exists s1; rewrite (filter_end E1) /= take0.
rewrite [_ ++ _]/=; case/filter_inv => s1 [c [s2 [X [l' [E1 E2 E3 ->]]]]].
have [|s3 E4] := IH _ _ _ E3; first by [].
by exists s3; rewrite (filter_step _ _ E1 E2) E4.
Qed.

Lemma smooth_filter s ys l s' : smooth flt s ys = Ok (l, s') ->
  exists l', [/\ filter flt s ys = Ok (l', s'), size l = size l', size l = size ys & forall e0, last e0 l = last e0 l'].
Proof.
elim: ys s l => [|y [|y' ys] IH] s l; first by [].
  rewrite smooth1; case E : (correct flt s y) => [[s1 c]|e] //= [<- <-].
  by eexists; split; [apply: filter_end E| | |].
case/smooth_inv => s1 [c [s2 [X [l' [inc [E1 E2 E3 E4 ->]]]]]].
have [l1 [F1 F2 F3 F4]] := IH _ _ E3.
exists ((fs_x s1, fs_P s1) :: l1); rewrite (filter_step _ _ E1 E2) F1; split=> //=.
- by rewrite F2.
- by rewrite F3.
- move=> _; case: l' F2 F3 F4 {E3 E4} => [|e' l'] //; case: l1 {F1} => [|e1 l1] //= _ _ /(_ e') //.
Qed.
End Causal.

Theorem C40_filter md kp kc rp rc flt s ys l s' : flt = ekf md \/ flt = ukf md kp kc rp rc ->
  filter flt s ys = Ok (l, s') ->
  [/\ size l = size ys, fs_k s' = (fs_k s + (size ys).-1)%N & ys <> [::] -> forall e0, last e0 l = (fs_x s', fs_P s')].
Proof. by case=> ->; apply: filter_shape; [apply: ekf_timed|apply: ukf_timed]. Qed.
(** Estimate [i] only depends on the samples up to [i]. *)
Theorem C40_causal flt s ys zs zs' l l' s1 s2 :
  filter flt s (ys ++ zs) = Ok (l, s1) -> filter flt s (ys ++ zs') = Ok (l', s2) ->
  take (size ys) l = take (size ys) l'.
Proof.
case: ys => [|y ys]; first by rewrite !take0.
move=> /filter_prefix []// s3 E1 /filter_prefix []// s4; rewrite E1 => -[] //.
Qed.
(** [filter] of a prefix. *)
Theorem C40_prefix flt s ys zs l s' : ys <> [::] -> filter flt s (ys ++ zs) = Ok (l, s') ->
  exists s1, filter flt s ys = Ok (take (size ys) l, s1).
Proof. exact: filter_prefix. Qed.

(** * C41 *)

Theorem C41_last_sample flt s ys l s' : smooth flt s ys = Ok (l, s') ->
  exists l', [/\ filter flt s ys = Ok (l', s'), size l = size l', size l = size ys & forall e0, last e0 l = last e0 l'].
Proof. exact: smooth_filter. Qed.
End Smooth.
