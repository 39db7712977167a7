(** Lemmas about [ObjModel]: the methods of the filter. *)
From Coq Require Import String Ascii.
From Verif Require Import Py.
From mathcomp Require Import all_ssreflect all_algebra.
From Verif Require Import KalModel NpModel NdKalModel ObjModel ObjLemmas ObjShape.
Set Implicit Arguments.
Unset Strict Implicit.
Unset Printing Implicit Defensive.
Import Order.TTheory GRing.Theory Num.Theory.
Local Open Scope ring_scope.

Ltac cch := match goal with H : cache_ok ?c _ |- cache_ok ?c _ => apply: (cache_eq H); lk; fail end.

Section Filter.
Variable F : rcfType.
Local Notation nd := (nd F).
Local Notation obj := (obj F).
Local Open Scope string_scope.
Variables (nx : nat) (dm : ndmodel F) (log : F -> F) (kp kc : F).
Notation md := (nm_md dm).

Lemma wiredP : wired PUt PCh. Proof. by left. Qed.
Lemma wiredC : wired CUt CCh. Proof. by right. Qed.

(** What [__init__] bound, apart from the initial values. *)
Definition f_ok (st : obj) : Prop :=
  [/\ st Self "_DTPredictor__ut" = Some (VO F PUt), st Self "_DTCorrector__ut" = Some (VO F CUt),
      ut_ok PUt PCh nx kp st & ut_ok CUt CCh nx kc st].
Definition at_state (s : nstate F) (st : obj) : Prop :=
  [/\ st Self "k" = Some (VN F (ns_k s)), st Self "x" = Some (VA (ns_x s)) & st Self "Px" = Some (VA (ns_P s))].
Definition at_diff (d : ndstate F) (st : obj) : Prop :=
  st Self "dx_dq" = Some (VA (nds_x d)) /\ st Self "dPx_dq" = Some (VA (nds_P d)).
Definition at_diff2 (d : ndstate F) (st : obj) : Prop :=
  st Self "d2x_dq2" = Some (VA (nds_x d)) /\ st Self "d2Px_dq2" = Some (VA (nds_P d)).

Definition predict_keys : seq pat :=
  ut_keys PUt PCh ++ [:: (Self, "prev_x"); (Self, "prev_Px"); (Self, "k"); (Self, "x"); (Self, "Px")].

Lemma predict_sim s st : f_ok st -> at_state s st ->
  sim (frame predict_keys st) (nd_ukf_predict nx md kp (@nd_chol F) s) (ob_predict dm st)
    (fun a b st' => [/\ b = (ns_x a.2, ns_P a.2), at_state a.2 st', ut_mem PUt PCh a.1 st', st' Self "prev_x" = Some (VA (ns_x s)) &
                        frame predict_keys st st']).
Proof.
move=> [P1 P2 P3 P4] [A1 A2 A3]; rewrite /nd_ukf_predict /ob_predict.
steps.
eapply sim_call; [eapply (transform_sim (f := fun X => Ok (nm_f md (ns_k s) X)) _ _ wiredP P3)|intros ? ?; fr|move=> u ? st1 _ [-> [U1 U2 U3 U4] Uf]; cbv beta iota].
  by move=> X st' Ha; rewrite /bnd /geta /getv /bnd Ha A1.
steps.
by apply: sim_ok; split; [reflexivity|split; lk|split; lk|lk|fr].
Qed.

Definition prediction_diff_keys : seq pat :=
  utd_keys PUt PCh ++ [:: (Self, "dQ_dx"); (Self, "prev_dx_dq"); (Self, "dx_dq"); (Self, "dPx_dq")].

Lemma prediction_diff_sim s u d st : f_ok st -> st Self "k" = Some (VN F (ns_k s).+1) -> st Self "prev_x" = Some (VA (ns_x s)) ->
  ut_mem PUt PCh u st -> at_diff d st -> last 0%N (shape (nu_S u)) != 0%N ->
  sim (frame prediction_diff_keys st) (nd_prediction_diff nx dm kp s u d) (ob_prediction_diff dm st)
    (fun a b st' => [/\ at_diff a.2 st', utd_mem PUt PCh a.1 st', st' Self "prev_dx_dq" = Some (VA (nds_x d)),
                        st' Self "dQ_dx" = Some (VA (nm_dQ_dx dm (ns_k s) (ns_x s))) /\ cache_ok PCh st' & frame prediction_diff_keys st st']).
Proof.
move=> [P1 P2 P3 P4] Hk Hx U [D1 D2] N; rewrite /nd_prediction_diff /ob_prediction_diff.
steps; rewrite /=.
eapply sim_call; [eapply (transform_diff_sim (fq := fun X => Ok (nm_df_dq dm (ns_k s) X)) (fi := fun X => Ok (nm_df_dx md (ns_k s) X)) _ _ wiredP P3 U N)|intros ? ?; fr|move=> v ? st1 _ [-> [[V1 V2 V3] V4 V5 V6 V7] Vc Vf]; cbv beta iota].
- by [].
- by [].
steps; apply: sim_tail; steps.
by apply: sim_ok; split; [split; lk|split; [split; lk|lk..]|lk|split; [lk|cch]|fr].
Qed.

Definition prediction_diff2_keys : seq pat := utd2_keys PUt PCh ++ [:: (Self, "d2x_dq2"); (Self, "d2Px_dq2")].

Lemma prediction_diff2_sim s u v d d2 st : f_ok st -> st Self "k" = Some (VN F (ns_k s).+1) -> st Self "prev_x" = Some (VA (ns_x s)) ->
  ut_mem PUt PCh u st -> utd_mem PUt PCh v st -> st Self "prev_dx_dq" = Some (VA (nds_x d)) ->
  st Self "dQ_dx" = Some (VA (nm_dQ_dx dm (ns_k s) (ns_x s))) -> at_diff2 d2 st -> last 0%N (shape (nu_S u)) != 0%N ->
  sim (frame prediction_diff2_keys st) (nd_prediction_diff2 nx dm kp s u v d d2) (ob_prediction_diff2 dm st)
    (fun a b st' => [/\ at_diff2 a st', cache_ok PCh st' & frame prediction_diff2_keys st st']).
Proof.
move=> [P1 P2 P3 P4] Hk Hx U V Hd HQ [D1 D2] N; rewrite /nd_prediction_diff2 /ob_prediction_diff2.
steps; rewrite /=.
eapply sim_call; [eapply (transform_diff2_sim (gq := fun X => Ok (nm_d2f_dq2 dm (ns_k s) X)) (gi := fun X => Ok (nm_d2f_dx2 dm (ns_k s) X)) (gx := fun X => Ok (nm_d2f_dx_dq dm (ns_k s) X)) _ _ wiredP P3 U V N)|intros ? ?; fr|move=> w ? st1 _ [-> [W1 W2] Vc Vf]; cbv beta iota].
1-3: by [].
steps; apply: sim_tail; steps.
by apply: sim_ok; split; [split; lk|cch|fr].
Qed.

(** ** Corrections *)

(** What [correct] leaves behind, besides the state. *)
Definition corr_mem (c : ncorr F) (st : obj) : Prop :=
  [/\ st Self "e" = Some (VA (nk_e c)), st Self "Pxh" = Some (VA (nk_Pxh c)), st Self "Py" = Some (VA (nk_Py c)),
      st Self "PyI" = Some (VA (nk_PyI c)) /\ st Self "K" = Some (VA (nk_K c)) &
      exists PyC, [/\ nk_PyC c = Some PyC, st Self "PyC" = Some (VA PyC), st YCh "S" = Some (VA PyC),
                      st Self "_DTCorrector__chol" = Some (VO F YCh) & cache_ok YCh st]].
Definition corr1_mem (c : ncorr1 F) (st : obj) : Prop :=
  [/\ utd_mem CUt CCh (nk_v c) st, st Self "de_dq" = Some (VA (nk_de c)), st Self "dPxh_dq" = Some (VA (nk_dPxh c)),
      st Self "dPy_dq" = Some (VA (nk_dPy c)) & st Self "dPyI_dq" = Some (VA (nk_dPyI c)) /\ st Self "dK_dq" = Some (VA (nk_dK c))].
Definition corr2_mem (c : ncorr2 F) (st : obj) : Prop :=
  [/\ st Self "d2e_dq2" = Some (VA (nk_d2e c)), st Self "d2Py_dq2" = Some (VA (nk_d2Py c)) & st Self "d2PyI_dq2" = Some (VA (nk_d2PyI c))].

(** Bound when [correct] raises, and when it does not. *)
Definition correct_err_keys : seq pat := ut_keys CUt CCh ++ [:: (YCh, "*"); (Self, "active"); (Self, "_DTCorrector__chol")].
Definition correct_keys : seq pat := correct_err_keys ++
  [:: (Self, "prev_x"); (Self, "prev_Px"); (Self, "e"); (Self, "x"); (Self, "Px"); (Self, "Pxh"); (Self, "Py"); (Self, "PyI");
      (Self, "PyC"); (Self, "PyCI"); (Self, "K")].

Lemma correct_sim s y st : f_ok st -> at_state s st ->
  sim (frame correct_err_keys st) (nd_ukf_correct nx md kc (@nd_chol F) s y) (ob_correct dm y st)
    (fun a b st' => [/\ b = (ns_x a.2, ns_P a.2), at_state a.2 st', st' Self "active" = Some (VB F (nd_active y)),
       match a.1 with
       | None => st' = upd st Self "active" (VB F (nd_active y))
       | Some (u, c) => ut_mem CUt CCh u st' /\ corr_mem c st'
       end & frame correct_keys st st']).
Proof.
move=> [P1 P2 P3 P4] [A1 A2 A3]; rewrite /nd_ukf_correct /ob_correct.
apply: sim_set; case: (all id (nm_mask y)).
  by steps; apply: sim_ok; split; [reflexivity|split; lk|lk|reflexivity|fr].
set st0 := upd st _ _ _.
have F0 : frame [:: (Self, "active")] st st0 by rewrite /st0; fr.
have U0 := ut_ok_frame F0 P4 isT.
steps.
eapply sim_call; [eapply (transform_sim (f := fun X => getmask (nd_active y) (nm_h md (ns_k s) X)) _ _ wiredC U0)|intros ? ?; fr|move=> u ? st1 _ [-> Um Uf]; cbv beta iota].
  by move=> X st' Ha; rewrite /bnd /geta /getv /bnd Ha /st0 upd_miss // A1.
have U1 : ut_ok CUt CCh nx kc st1 by apply: (ut_ok_frame Uf U0).
have [M1 M2 M3 M4] := Um.
steps.
eapply sim_pure; [apply: (crosscov_sim wiredC U1 Um)|fr|intros Pxh ?; cbv beta].
steps.
eapply sim_call; [eapply ch_call_sim|intros ? ->; fr|move=> PyC ? ? ? [-> ->]; cbv beta].
rewrite /nd_corrected.
steps.
apply: sim_ok; split; [reflexivity|split; lk|lk| |fr].
split; first by split; lk.
split; [lk..|split; lk|].
exists PyC; split; [reflexivity|lk|lk|lk|left; lk].
Qed.

(** ** Derivatives of a correction *)

Lemma if_active_sim A (E : obj -> Prop) (r : res A) (m : met F unit) act st P : st Self "active" = Some (VB F act) -> has id act ->
  sim E r (m st) P -> sim E r (if_active m st) P.
Proof. by rewrite /if_active /geta /bnd /getv => -> /= ->. Qed.
Lemma if_active_none (m : met F unit) act st : st Self "active" = Some (VB F act) -> ~~ has id act -> if_active m st = (Ok tt, st).
Proof. by rewrite /if_active /geta /bnd /getv => -> /= ->. Qed.

Lemma active_reads (st : obj) k act (g : nat -> nd -> nd) : st Self "k" = Some (VN F k) -> st Self "active" = Some (VB F act) ->
  reads st (active_fun g) (fun X => getmask act (g k X)).
Proof. by move=> H1 H2 X st' Ha; rewrite /active_fun /geta /bnd /getv Ha H1 /= Ha H2. Qed.

Lemma active_ix_pure act (A : nd) (st : obj) : st Self "active" = Some (VB F act) -> active_ix A st = (getmask2 act A, st).
Proof. by rewrite /active_ix /geta /bnd /getv => ->. Qed.

Lemma sim_iadd C D (E : obj -> Prop) (h : nd -> res C) (g : unit -> met F D) a A T st P : st Self a = Some (VA A) -> E st ->
  (forall B, sim E (h B) (g tt (upd st Self a (VA B))) P) -> sim E (bind (nd_iadd A T) h) (bnd (iadd_attr a T) g st) P.
Proof.
move=> H HE H1; rewrite /iadd_attr /geta /bnd /getv H /= /lift; by case: (nd_iadd A T) => [B|e] /=; [exact: H1|split].
Qed.
Lemma sim_isub C D (E : obj -> Prop) (h : nd -> res C) (g : unit -> met F D) a A T st P : st Self a = Some (VA A) -> E st ->
  (forall B, sim E (h B) (g tt (upd st Self a (VA B))) P) -> sim E (bind (nd_isub A T) h) (bnd (isub_attr a T) g st) P.
Proof.
move=> H HE H1; rewrite /isub_attr /geta /bnd /getv H /= /lift; by case: (nd_isub A T) => [B|e] /=; [exact: H1|split].
Qed.
Lemma sim_lsub C D (E : obj -> Prop) (h : nd -> res C) (g : unit -> met F D) a A T st P : st Self a = Some (VA A) -> E st ->
  (forall B, sim E (h B) (g tt (upd st Self a (VA B))) P) -> sim E (bind (nd_lsub A T) h) (bnd (lsub_attr a T) g st) P.
Proof.
move=> H HE H1; rewrite /lsub_attr /geta /bnd /getv H /= /lift; by case: (nd_lsub A T) => [B|e] /=; [exact: H1|split].
Qed.

Ltac st2 :=
  first [st1
        |lazymatch goal with
         | |- sim _ (bind (nd_iadd _ _) _) (bnd (iadd_attr _ _) _ _) _ => eapply sim_iadd; [lk; fail|fr; fail|intros ?; cbv beta]
         | |- sim _ (bind (nd_isub _ _) _) (bnd (isub_attr _ _) _ _) _ => eapply sim_isub; [lk; fail|fr; fail|intros ?; cbv beta]
         | |- sim _ (bind (nd_lsub _ _) _) (bnd (lsub_attr _ _) _ _) _ => eapply sim_lsub; [lk; fail|fr; fail|intros ?; cbv beta]
         end].
Ltac steps2 := repeat st2.

Definition correction_diff_keys : seq pat := utd_keys CUt CCh ++
  [:: (Self, "de_dq"); (Self, "dK_dq"); (Self, "dPy_dq"); (Self, "dPyI_dq"); (Self, "dPxh_dq"); (Self, "prev_dx_dq"); (Self, "prev_dPx_dq");
      (Self, "dx_dq"); (Self, "dPx_dq")].

Lemma correction_diff_sim s (y : nmeas F) u c d st : f_ok st -> st Self "k" = Some (VN F (ns_k s)) ->
  st Self "active" = Some (VB F (nd_active y)) -> has id (nd_active y) -> ut_mem CUt CCh u st -> corr_mem c st -> at_diff d st ->
  last 0%N (shape (nu_S u)) != 0%N ->
  sim (frame correction_diff_keys st) (nd_correction_diff nx dm kc s (nd_active y) u c d) (ob_correction_diff dm st)
    (fun a b st' => [/\ at_diff a.2 st', corr1_mem a.1 st', cache_ok CCh st' & frame correction_diff_keys st st']).
Proof.
move=> [P1 P2 P3 P4] Hk Ha Hh U [C1 C2 C3 [C4 C5] C6] [D1 D2] N; rewrite /nd_correction_diff /ob_correction_diff.
apply: (if_active_sim Ha Hh).
steps.
eapply sim_call; [eapply (transform_diff_sim _ _ wiredC P4 U N (active_reads (nm_dh_dq dm) Hk Ha) (active_reads (nm_dh_dx md) Hk Ha))|intros ? ?; fr|move=> v ? st1 _ [-> V Vc Vf]; cbv beta iota].
have U1 : ut_ok CUt CCh nx kc st1 by apply: (ut_ok_frame_cache Vf P4).
have M1 : ut_mem CUt CCh u st1 by apply: (ut_mem_frame Vf U).
have [[V1 V2 V3] V4 V5 V6 V7] := V.
steps.
eapply sim_pure; [apply: (crosscov_diff_sim wiredC U1 M1 V)|fr|intros dPxh ?; cbv beta].
eapply sim_pure; [apply: (active_ix_pure (act := nd_active y)); lk|fr|intros dR ?; cbv beta].
steps2; apply: sim_tail; steps2.
by apply: sim_ok; split; [split; lk|split; [split; [split; lk|lk..]|lk|lk|lk|split; lk]|cch|fr].
Qed.

Definition correction_diff2_keys : seq pat := utd2_keys CUt CCh ++
  [:: (Self, "d2x_dq2"); (Self, "d2Px_dq2"); (Self, "d2e_dq2"); (Self, "d2Py_dq2"); (Self, "d2PyI_dq2")].

Lemma correction_diff2_sim s (y : nmeas F) u c c1 d2 st : f_ok st -> st Self "k" = Some (VN F (ns_k s)) ->
  st Self "active" = Some (VB F (nd_active y)) -> has id (nd_active y) -> ut_mem CUt CCh u st -> corr_mem c st -> corr1_mem c1 st -> at_diff2 d2 st ->
  last 0%N (shape (nu_S u)) != 0%N ->
  sim (frame correction_diff2_keys st) (nd_correction_diff2 nx dm kc s (nd_active y) u c c1 d2) (ob_correction_diff2 dm st)
    (fun a b st' => [/\ at_diff2 a.2 st', corr2_mem a.1 st', cache_ok CCh st' & frame correction_diff2_keys st st']).
Proof.
move=> [P1 P2 P3 P4] Hk Ha Hh U [C1 C2 C3 [C4 C5] C6] [V B1 B2 B3 [B4 B5]] [D1 D2] N; rewrite /nd_correction_diff2 /ob_correction_diff2.
apply: (if_active_sim Ha Hh).
steps.
eapply sim_call; [eapply (transform_diff2_sim _ _ wiredC P4 U V N (active_reads (nm_d2h_dq2 dm) Hk Ha) (active_reads (nm_d2h_dx2 dm) Hk Ha) (active_reads (nm_d2h_dx_dq dm) Hk Ha))|intros ? ?; fr|move=> w ? st1 _ [-> W Vc Vf]; cbv beta iota].
have U1 : ut_ok CUt CCh nx kc st1 by apply: (ut_ok_frame_cache Vf P4).
have M1 : ut_mem CUt CCh u st1 by apply: (ut_mem_frame Vf U).
have V1 : utd_mem CUt CCh (nk_v c1) st1 by apply: (utd_mem_frame Vf V).
steps.
eapply sim_pure; [apply: (crosscov_diff2_sim wiredC U1 M1 V1 W)|fr|intros d2Pxh ?; cbv beta].
eapply sim_pure; [apply: (active_ix_pure (act := nd_active y)); lk|fr|intros d2R ?; cbv beta].
steps2; apply: sim_tail; steps2.
by apply: sim_ok; split; [split; lk|split; lk|cch|fr].
Qed.

(** ** Likelihood *)

Lemma update_likelihood_sim (y : nmeas F) c L st : st Self "active" = Some (VB F (nd_active y)) -> has id (nd_active y) -> corr_mem c st ->
  st Self "L" = Some (VA L) ->
  sim (frame [:: (Self, "PyCD"); (Self, "L")] st) (nd_update_likelihood log L (Some c)) (ob_update_likelihood log st)
    (fun a b st' => [/\ st' Self "L" = Some (VA a),
       exists PyC PyCD, [/\ nk_PyC c = Some PyC, einsum "...kk->...k" [:: PyC] = Ok PyCD & st' Self "PyCD" = Some (VA PyCD)] &
       frame [:: (Self, "PyCD"); (Self, "L")] st st']).
Proof.
move=> Ha Hh [C1 C2 C3 [C4 C5] [PyC [E S1 S2 S3 S4]]] HL; rewrite /nd_update_likelihood /ob_update_likelihood E.
apply: (if_active_sim Ha Hh).
st2; eapply sim_lift; [fr|intros PyCD EP; cbv beta].
steps2; apply: sim_tail; rewrite -[nd_lsub _ _]bind_ret; steps2.
by apply: sim_ok; split; [lk|exists PyC, PyCD; split; [by []|by []|lk]|fr].
Qed.

Definition likelihood_diff_keys : seq pat := ch_diff_keys YCh ++ [:: (Self, "dPyCD_dq"); (Self, "dL_dq")].

Lemma likelihood_diff_sim (y : nmeas F) c c1 dL PyC PyCD st : st Self "active" = Some (VB F (nd_active y)) -> has id (nd_active y) -> corr_mem c st ->
  corr1_mem c1 st -> nk_PyC c = Some PyC -> einsum "...kk->...k" [:: PyC] = Ok PyCD -> st Self "PyCD" = Some (VA PyCD) ->
  st Self "dL_dq" = Some (VA dL) -> last 0%N (shape PyC) != 0%N ->
  sim (frame likelihood_diff_keys st) (nd_likelihood_diff c c1 dL) (ob_likelihood_diff st)
    (fun a b st' => [/\ st' Self "dL_dq" = Some (VA a.2), st' Self "dPyCD_dq" = Some (VA a.1.2), chd_mem YCh a.1.1 st', cache_ok YCh st' &
       frame likelihood_diff_keys st st']).
Proof.
move=> Ha Hh [C1 C2 C3 [C4 C5] [PyC' [E S1 S2 S3 S4]]] [V B1 B2 B3 [B4 B5]] E' EP HP HL N.
move: E; rewrite E' => -[?]; subst PyC'.
rewrite /nd_likelihood_diff /ob_likelihood_diff /the_PyC E' bind_Ok EP bind_Ok.
apply: (if_active_sim Ha Hh).
steps.
eapply sim_call; [eapply (ch_diff_sim _ S2 S4 N)|intros ? ?; fr|move=> k ? st1 _ [-> [K1 K2 K3] Kc Kf]; cbv beta].
steps2; apply: sim_tail; steps2.
by apply: sim_ok; split; [lk|lk|split; lk|cch|fr].
Qed.

Lemma likelihood_diff2_sim (y : nmeas F) c c1 c2 ch dPyCD d2L PyC PyCD st : st Self "active" = Some (VB F (nd_active y)) -> has id (nd_active y) -> corr_mem c st ->
  corr1_mem c1 st -> corr2_mem c2 st -> nk_PyC c = Some PyC -> einsum "...kk->...k" [:: PyC] = Ok PyCD -> st Self "PyCD" = Some (VA PyCD) ->
  st Self "dPyCD_dq" = Some (VA dPyCD) -> chd_mem YCh ch st ->
  st Self "d2L_dq2" = Some (VA d2L) -> last 0%N (shape PyC) != 0%N ->
  sim (frame (cache_keys YCh ++ [:: (Self, "d2L_dq2")]) st) (nd_likelihood_diff2 c c1 c2 ch dPyCD d2L) (ob_likelihood_diff2 st)
    (fun a b st' => [/\ st' Self "d2L_dq2" = Some (VA a), cache_ok YCh st' & frame (cache_keys YCh ++ [:: (Self, "d2L_dq2")]) st st']).
Proof.
move=> Ha Hh [C1 C2 C3 [C4 C5] [PyC' [E S1 S2 S3 S4]]] [V B1 B2 B3 [B4 B5]] [G1 G2 G3] E' EP HP HD K HL N.
move: E; rewrite E' => -[?]; subst PyC'.
rewrite /nd_likelihood_diff2 /ob_likelihood_diff2 /the_PyC E' bind_Ok EP bind_Ok.
apply: (if_active_sim Ha Hh).
steps.
eapply sim_call; [eapply (ch_diff2_sim _ S2 K S4 N)|intros ? ?; fr|move=> k ? st1 _ [-> Kc Kf]; cbv beta].
steps2; apply: sim_tail; rewrite -[nd_isub _ (swapaxes _ _ _)]bind_ret; steps2.
by apply: sim_ok; split; [lk|cch|fr].
Qed.
End Filter.
