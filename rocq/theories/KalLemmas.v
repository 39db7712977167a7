(** Facts about single steps of the filters of [KalModel]. *)
From Coq Require Import String.
From Verif Require Import Py.
From mathcomp Require Import all_ssreflect all_algebra.
From Verif Require Import KalModel PsdLemmas CholLemmas UtLemmas GainLemmas PropsUt.
Set Implicit Arguments.
Unset Strict Implicit.
Unset Printing Implicit Defensive.
Import Order.TTheory GRing.Theory Num.Theory.
Local Open Scope ring_scope.

Section Steps.
Variable F : rcfType.
Variables nx ny : nat.
Implicit Types (md : model F nx ny) (s : fstate F nx) (y : meas F ny).

Lemma pick_mul (A : {set 'I_ny}) m n (M : 'M[F]_(m, n)) (N : 'M[F]_(n, ny)) :
  pick A (M *m N) = M *m pick A N.
Proof. by apply/matrixP => i j; rewrite !mxE; apply: eq_bigr => k _; rewrite !mxE. Qed.
Lemma pickD (A : {set 'I_ny}) m (M N : 'M[F]_(m, ny)) : pick A (M + N) = pick A M + pick A N.
Proof. by apply/matrixP => i j; rewrite !mxE. Qed.
Lemma pd_pick2 (A : {set 'I_ny}) (M : 'M[F]_ny) : pd M -> pd (pick2 A M).
Proof. by move=> PM; apply: (@pd_sel F #|A| ny (fun i => enum_val i)) => //; apply: enum_val_inj. Qed.
Lemma psd_pick2 (A : {set 'I_ny}) (M : 'M[F]_ny) : psd M -> psd (pick2 A M).
Proof. by move=> PM; rewrite /pick2 (sel_mxE (fun i : 'I_#|A| => enum_val i)); apply: psd_cong. Qed.
Lemma sym_pick2 (A : {set 'I_ny}) (M : 'M[F]_ny) : M^T = M -> (pick2 A M)^T = pick2 A M.
Proof. by move=> SM; apply/matrixP => i j; rewrite !mxE -[in LHS]SM mxE. Qed.

(** The correction of the extended filter with definite noise. *)
Lemma ekf_correctE md s y (A := active y) (H := pick A (md_dh_dx md (fs_k s) (fs_x s))) (R := pick2 A (md_R md))
    (e := pick A (y_data y) - pick A (md_h md (fs_k s) (fs_x s))) :
  A != set0 -> inncov (fs_P s) H R \in unitmx ->
  ekf_correct md s y
    = Ok (FS (fs_k s) (fs_x s + e *m (gain (fs_P s) H R)^T) (post (fs_P s) H R),
          Some (@CD F nx ny A e (fs_P s *m H) (inncov (fs_P s) H R) (invmx (inncov (fs_P s) H R)) (gain (fs_P s) H R) None)).
Proof.
move=> nA U; rewrite /ekf_correct -/A (negbTE nA) -/H -/R -/(inncov (fs_P s) H R).
by rewrite (inv_unit U) /=.
Qed.

Lemma ekf_correct0 md s y : active y = set0 -> ekf_correct md s y = Ok (s, None).
Proof. by rewrite /ekf_correct => ->; rewrite eqxx. Qed.
Lemma ukf_correct0 md k r s y : active y = set0 -> ukf_correct md k r s y = Ok (s, None).
Proof. by rewrite /ukf_correct => ->; rewrite eqxx. Qed.

Lemma ekf_correct_pd md s y : psd (fs_P s) -> pd (md_R md) ->
  exists s' c, [/\ ekf_correct md s y = Ok (s', c), fs_k s' = fs_k s, psd (fs_P s'), loewner (fs_P s') (fs_P s) & (pd (fs_P s) -> pd (fs_P s'))].
Proof.
move=> PP PR; have [E|nA] := eqVneq (active y) set0.
  by exists s, None; rewrite ekf_correct0 //; split=> //; apply: loewner_refl.
have PRA := pd_pick2 (active y) PR.
rewrite ekf_correctE //; last by apply: pd_unit; apply: inncov_pd.
eexists; eexists; split; [reflexivity|by []|exact: post_psd|exact: post_le|].
by move=> PP'; apply: post_pd => //; apply: pd_unit.
Qed.

Lemma ekf_predict_psd md s : psd (fs_P s) -> psd (md_Q md (fs_k s) (fs_x s)) ->
  exists s' C, [/\ ekf_predict md s = Ok (s', C), fs_k s' = (fs_k s).+1 & psd (fs_P s')].
Proof.
move=> PP PQ; eexists; eexists; split; [reflexivity|by []|].
by apply: psdD => //=; rewrite mulmxA; apply: psd_congT.
Qed.
Lemma ekf_predict_pd md s : psd (fs_P s) -> pd (md_Q md (fs_k s) (fs_x s)) ->
  exists s' C, [/\ ekf_predict md s = Ok (s', C), fs_k s' = (fs_k s).+1 & pd (fs_P s')].
Proof.
move=> PP PQ; eexists; eexists; split; [reflexivity|by []|].
by apply: psd_pdD => //=; rewrite mulmxA; apply: psd_congT.
Qed.

(** A square root option that works on definite matrices. *)
Definition is_root (r : 'M[F]_nx -> res 'M[F]_nx) := forall M, pd M -> exists2 S, r M = Ok S & root_of M S.
(** What it returns on semidefinite matrices is a square root. *)
Definition sound_root (r : 'M[F]_nx -> res 'M[F]_nx) := forall M S, psd M -> r M = Ok S -> root_of M S.

Lemma chol_is_root : is_root (@chol F nx).
Proof.
move=> M PM; have [S E] := chol_pd PM; exists S => //.
by have [] := proj1 (chol_spec S (pd_sym PM)) E.
Qed.
Lemma chol_sound : sound_root (@chol F nx).
Proof. by move=> M S PM E; have [] := proj1 (chol_spec S (psd_sym PM)) E. Qed.

(** The unscented correction. *)
Lemma chol_inverse m (Py PyC : 'M[F]_m) : Py^T = Py -> chol Py = Ok PyC ->
  [/\ PyC \in unitmx, Py \in unitmx & invmx PyC *m (invmx PyC)^T = invmx Py].
Proof.
move=> SPy E; have [U D R] := proj1 (chol_spec PyC SPy) E.
have UC := upp_unit U D; have UT : PyC^T \in unitmx by rewrite unitmx_tr.
have UPy : Py \in unitmx by rewrite -R unitmx_mul UT UC.
split=> //; rewrite trmx_inv; apply: (can_inj (mulKmx UPy)).
by rewrite mulmxV // -R -!mulmxA (mulmxA PyC) mulmxV // mul1mx mulmxV.
Qed.

Lemma ukf_correct_ok md kc r s y s' c : ukf_correct md kc r s y = Ok (s', c) -> active y != set0 ->
  exists (u : ut_data nx kc #|active y|) PyC,
  let A := active y in
  let Py := u_Po u + pick2 A (md_R md) in
  let e := pick A (y_data y) - u_o u in
  [/\ transform kc r (fs_x s) (fs_P s) (fun x => pick A (md_h md (fs_k s) x)) = Ok u,
      chol Py = Ok PyC, PyC \in unitmx,
      s' = corrected s e (crosscov u *m (invmx PyC *m (invmx PyC)^T)) Py &
      c = Some (@CD F nx ny A e (crosscov u) Py (invmx PyC *m (invmx PyC)^T) (crosscov u *m (invmx PyC *m (invmx PyC)^T)) (Some PyC))].
Proof.
rewrite /ukf_correct => + nA; rewrite (negbTE nA).
case E1 : (transform _ _ _ _ _) => [u|e] //=; case E2 : (chol _) => [PyC|e] //=.
rewrite /inv; case: ifP => //= U [<- <-].
by exists u, PyC.
Qed.

Lemma ukf_correct_pd md kc r s y : 0 <= kc -> 0 < nx%:R + kc -> is_root r -> pd (fs_P s) -> pd (md_R md) ->
  exists s' c, [/\ ukf_correct md kc r s y = Ok (s', c), fs_k s' = fs_k s, pd (fs_P s') & loewner (fs_P s') (fs_P s)].
Proof.
move=> k0 m0 rr PP PR; have [E|nA] := eqVneq (active y) set0.
  by exists s, None; rewrite ukf_correct0 //; split=> //; apply: loewner_refl.
have PRA := pd_pick2 (active y) PR.
rewrite /ukf_correct (negbTE nA).
have [Sq ES RS] := rr _ (pdZ m0 PP).
case ET : (transform _ _ _ _ _) => [u|e]; last by move: ET; rewrite /transform ES.
have ESu : u_S u = Sq by have := u_SE ET; rewrite ES => -[->].
have mn : nx%:R + kc != 0 by rewrite gt_eqF.
rewrite -ESu in RS.
have PyP : pd (u_Po u + pick2 (active y) (md_R md)) by apply: psd_pdD => //; apply: psd_u_Po ET k0.
have [PyC EC] := chol_pd PyP; rewrite /= EC /=.
have [UC UPy EI] := chol_inverse (pd_sym PyP) EC.
rewrite (inv_unit UC) /= EI; eexists; eexists; split; [reflexivity|by []|rewrite /corrected /=|].
  rewrite -(errcov_gain _ _ (pd_sym PyP) UPy); apply: errcov_pd => //.
  exact: (joint_psd mn ET).
rewrite /loewner /= opprB addrC subrK; apply: psd_cong; exact: pd_psd.
Qed.

Lemma ukf_predict_pd md kp r s : 0 <= kp -> 0 < nx%:R + kp -> is_root r -> pd (fs_P s) -> pd (md_Q md (fs_k s) (fs_x s)) ->
  exists s' C, [/\ ukf_predict md kp r s = Ok (s', C), fs_k s' = (fs_k s).+1 & pd (fs_P s')].
Proof.
move=> k0 m0 rr PP PQ; rewrite /ukf_predict.
have [Sq ES RS] := rr _ (pdZ m0 PP).
case ET : (transform _ _ _ _ _) => [u|e]; last by move: ET; rewrite /transform ES.
eexists; eexists; split; [reflexivity|by []|].
by apply: psd_pdD => //=; apply: psd_u_Po ET k0.
Qed.

(** Affine models. *)
Definition affine md (A : nat -> 'M[F]_nx) (b : nat -> 'rV[F]_nx) (C : nat -> 'M[F]_(nx, ny)) (d : nat -> 'rV[F]_ny) :=
  [/\ forall k x, md_f md k x = x *m A k + b k, forall k x, md_df_dx md k x = A k,
      forall k x, md_h md k x = x *m C k + d k & forall k x, md_dh_dx md k x = C k].

(** Correction data without the Cholesky factor. *)
Definition strip (c : corr_data F nx ny) : corr_data F nx ny :=
  CD (cd_e c) (cd_Pxh c) (cd_Py c) (cd_PyI c) (cd_K c) None.

Section Affine.
Variables (md : model F nx ny) (A : nat -> 'M[F]_nx) (b : nat -> 'rV[F]_nx) (C : nat -> 'M[F]_(nx, ny)) (d : nat -> 'rV[F]_ny).
Hypothesis aff : affine md A b C d.

Lemma affine_predict kp r s s' X : 0 < nx%:R + kp -> sound_root r -> psd (fs_P s) ->
  ukf_predict md kp r s = Ok (s', X) -> ekf_predict md s = Ok (s', X).
Proof.
case: aff => fE dfE _ _ m0 rs PP; rewrite /ukf_predict /ekf_predict.
case ET : (transform _ _ _ _ _) => [u|e] //= [<- <-].
have mn : nx%:R + kp != 0 by rewrite gt_eqF.
have RS := rs _ _ (psdZ (ltW m0) PP) (u_SE ET).
have [-> _ -> ->] := transform_affine mn ET RS (fE (fs_k s)).
by rewrite dfE fE mulmxA.
Qed.

Lemma affine_correct kc r s y s' c : 0 < nx%:R + kc -> sound_root r -> psd (fs_P s) -> (md_R md)^T = md_R md ->
  ukf_correct md kc r s y = Ok (s', c) -> ekf_correct md s y = Ok (s', omap strip c).
Proof.
case: aff => _ _ hE dhE m0 rs PP SR E; have [A0|nA] := eqVneq (active y) set0.
  by move: E; rewrite ukf_correct0 // ekf_correct0 // => -[<- <-].
have [u [PyC [ET EC UC -> ->]]] := ukf_correct_ok E nA.
have mn : nx%:R + kc != 0 by rewrite gt_eqF.
have RS := rs _ _ (psdZ (ltW m0) PP) (u_SE ET).
have hA x : pick (active y) (md_h md (fs_k s) x) = x *m pick (active y) (C (fs_k s)) + pick (active y) (d (fs_k s)).
  by rewrite hE pickD pick_mul.
have [oE _ PoE XE] := transform_affine mn ET RS hA.
have SPy : (u_Po u + pick2 (active y) (md_R md))^T = u_Po u + pick2 (active y) (md_R md).
  by rewrite linearD /= (u_Po_sym ET) sym_pick2.
have [_ UPy EI] := chol_inverse SPy EC.
have iE : inncov (fs_P s) (pick (active y) (C (fs_k s))) (pick2 (active y) (md_R md)) = u_Po u + pick2 (active y) (md_R md).
  by rewrite /inncov mulmxA PoE.
rewrite ekf_correctE // dhE iE //.
rewrite EI XE oE hA /strip /corrected /=.
by rewrite /gain /post /gain iE.
Qed.
End Affine.

(** Converse direction when everything is definite. *)
Lemma affine_predict_pd md A b C d kp r s : affine md A b C d -> 0 < nx%:R + kp -> sound_root r -> is_root r ->
  pd (fs_P s) -> ukf_predict md kp r s = ekf_predict md s.
Proof.
move=> aff m0 sr rr PP; have [Sq ES _] := rr _ (pdZ m0 PP).
case E : (ukf_predict _ _ _ _) => [[s' X]|e].
  by rewrite (affine_predict aff m0 sr (pd_psd PP) E).
by move: E; rewrite /ukf_predict /transform ES.
Qed.

Lemma affine_correct_pd md A b C d kc r s y : affine md A b C d -> 0 < nx%:R + kc -> sound_root r -> is_root r ->
  pd (fs_P s) -> pd (md_R md) ->
  exists s' c, ukf_correct md kc r s y = Ok (s', c) /\ ekf_correct md s y = Ok (s', omap strip c).
Proof.
move=> aff m0 sr rr PP PR; have [Sq ES RS] := rr _ (pdZ m0 PP).
suff [s' [c E]] : exists s' c, ukf_correct md kc r s y = Ok (s', c).
  by exists s', c; split=> //; apply: (affine_correct aff m0 sr (pd_psd PP) (pd_sym PR) E).
have [A0|nA] := eqVneq (active y) set0; first by exists s, None; rewrite ukf_correct0.
rewrite /ukf_correct (negbTE nA).
case ET : (transform _ _ _ _ _) => [u|e]; last by move: ET; rewrite /transform ES.
have mn : nx%:R + kc != 0 by rewrite gt_eqF.
have ESu : u_S u = Sq by have := u_SE ET; rewrite ES => -[->].
rewrite -ESu in RS; case: (aff) => _ _ hE dhE.
have hA x : pick (active y) (md_h md (fs_k s) x) = x *m pick (active y) (C (fs_k s)) + pick (active y) (d (fs_k s)).
  by rewrite hE pickD pick_mul.
have [_ _ PoE _] := transform_affine mn ET RS hA.
have PyP : pd (u_Po u + pick2 (active y) (md_R md)).
  by rewrite PoE; apply: psd_pdD; [apply: psd_congT; apply: pd_psd|apply: pd_pick2].
have [PyC EC] := chol_pd PyP; rewrite /= EC /=.
have [UC _ _] := chol_inverse (pd_sym PyP) EC.
by rewrite (inv_unit UC) /=; eexists; eexists.
Qed.
End Steps.
