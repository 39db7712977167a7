(** The loops of [pem_gradient] and [pem_hessian] on stacks of filters. *)
From Coq Require Import String Ascii.
From Verif Require Import Py.
From mathcomp Require Import all_ssreflect all_algebra.
From Verif Require Import KalModel KalDiffModel NpModel NpLemmas NdKalModel NpOps NdCholLemmas NdTransLemmas NdFilterLemmas NdLoopLemmas NdDiffLemmas.
Set Implicit Arguments.
Unset Strict Implicit.
Unset Printing Implicit Defensive.
Import Order.TTheory GRing.Theory Num.Theory.
Local Open Scope ring_scope.

Section Grad.
Variable F : rcfType.
Local Notation nd := (nd F).
Variable b : seq nat.
Variables nx ny nq : nat.
Variable log : F -> F.
Local Notation rstate := (@rstate F b nx).
Local Notation rds := (@rds F b nx nq).
Local Notation rd2s := (@rd2s F b nx nq).
Variables (dm : ndmodel F) (mm : seq nat -> dmodel F nx ny nq).
Hypothesis Hdm : rdmodel b dm mm.
Let Hmd := rd_md Hdm.

Variables kp kc : F.

Definition rgs (g : ngstate F) (m : seq nat -> gstate F nx nq) : Prop :=
  [/\ rstate (ng_s g) (fun e => g_s (m e)), rL b (ng_L g) (fun e => g_L (m e)), rds (ng_d g) (fun e => g_d (m e)) &
      r1 b nq (ng_dL g) (fun e => g_dL (m e))].
Definition rhs (h : nhstate F) (m : seq nat -> hstate F nx nq) : Prop :=
  [/\ rgs (nh_g h) (fun e => h_g (m e)), rd2s (nh_d2 h) (fun e => h_d2 (m e)) & r2 b nq nq (nh_d2L h) (fun e => h_d2L (m e))].

Lemma nd_grad_correct_sim g gm y ym : rgs g gm -> rmeas y ym ->
  sim b rgs (nd_grad_correct nx dm log kc g y) (fun e => grad_correct (mm e) log kc (gm e) ym).
Proof.
move=> [Hs HL Hd HdL] Hy; rewrite /nd_grad_correct /grad_correct.
case HA: (active ym == set0).
  by rewrite (nd_ukf_correct_none _ _ Hy) //=; exists gm.
have HA' : active ym != set0 by rewrite HA.
have H0 := nd_ukf_correct_sim Hmd Hy Hs kc (@lifts_chol F b nx) HA'.
pose k' e (c : corr0 nx kc (active ym)) := let* c1 := correct1 (mm e) (g_s (gm e)) c (g_d (gm e)) in let* l := lik1 c c1 (g_dL (gm e)) in
   Ok (GS (corr_state (g_s (gm e)) c) (lik0 log c (g_L (gm e))) (corr_dstate c c1 (g_d (gm e))) l.2).
refine (sim_bind (k' := k') H0 _) => -[oc s'] cm [[u c] E [Hc Hs']] _; rewrite /k' {k' H0}; cbn [fst snd] in E, Hs'; cbn [fst snd]; rewrite E.
rewrite (active_bits Hy).
apply: (sim_ext (m := fun e => let* p := (let* c1 := correct1 (mm e) (g_s (gm e)) (cm e) (g_d (gm e)) in Ok (c1, corr_dstate (cm e) c1 (g_d (gm e)))) in
   let* l := lik1 (cm e) p.1 (g_dL (gm e)) in
   Ok (GS (corr_state (g_s (gm e)) (cm e)) (lik0 log (cm e) (g_L (gm e))) p.2 l.2))); last first.
  by move=> e He; case: (correct1 _ _ _ _).
pose k' e (p : corr1 nx nq kc (active ym) * dstate F nx nq) := let* l := lik1 (cm e) p.1 (g_dL (gm e)) in
   Ok (GS (corr_state (g_s (gm e)) (cm e)) (lik0 log (cm e) (g_L (gm e))) p.2 l.2).
refine (sim_bind (k' := k') (nd_correction_diff_sim Hdm Hs Hc Hd) _) => p pm [Hp1 Hp2] _; rewrite /k' {k'}.
have [L [-> HL2]] := nd_update_likelihood_ok log Hc HL; cbn [bind].
pose k' e (l : ('M[F]_(ntril #|active ym|) * ('I_nq -> 'M[F]_#|active ym|)) * ('I_nq -> F)) :=
   Ok (GS (corr_state (g_s (gm e)) (cm e)) (lik0 log (cm e) (g_L (gm e))) (pm e).2 l.2).
refine (sim_bind (k' := k') (nd_likelihood_diff_sim Hc Hp1 HdL) _) => l lm [Hl1 Hl2 Hl3] _; rewrite /k' {k'}.
by exists (fun e => GS (corr_state (g_s (gm e)) (cm e)) (lik0 log (cm e) (g_L (gm e))) (pm e).2 (lm e).2); split=> //; split=> //; left.
Qed.

Lemma nd_grad_predict_sim g gm : rgs g gm ->
  sim b rgs (nd_grad_predict nx dm kp g) (fun e => grad_predict (mm e) kp (gm e)).
Proof.
move=> [Hs HL Hd HdL]; rewrite /nd_grad_predict /grad_predict.
apply: (sim_ext (m := fun e => let* p := predict_u kp (@chol F nx) (dm_md (mm e)) (g_s (gm e)) in
   let* v := (let* v := pred_ut_diff (mm e) (g_s (gm e)) p.1 (g_d (gm e)) in Ok (v, pred_dstate (mm e) (g_s (gm e)) v (g_d (gm e)))) in
   Ok (GS p.2 (g_L (gm e)) v.2 (g_dL (gm e))))); last first.
  move=> e He; rewrite /predict_u /pred_ut /pred_state; case: (transform _ _ _ _ _) => //= u.
  by case: (pred_ut_diff _ _ _ _).
pose k' e (p : ut_data nx kp nx * fstate F nx) := 
   let* v := (let* v := pred_ut_diff (mm e) (g_s (gm e)) p.1 (g_d (gm e)) in Ok (v, pred_dstate (mm e) (g_s (gm e)) v (g_d (gm e)))) in
   Ok (GS p.2 (g_L (gm e)) v.2 (g_dL (gm e))).
refine (sim_bind (k' := k') (nd_ukf_predict_sim Hmd kp (@lifts_chol F b nx) Hs) _) => p pm [Hu Hs'] _; rewrite /k' {k'}.
pose k' e (v : ut_diff nx nx nq kp * dstate F nx nq) := Ok (GS (pm e).2 (g_L (gm e)) v.2 (g_dL (gm e))).
refine (sim_bind (k' := k') (nd_prediction_diff_sim Hdm Hs Hu Hd) _) => v vm [Hv1 Hv2] _; rewrite /k' {k'}.
by exists (fun e => GS (pm e).2 (g_L (gm e)) (vm e).2 (g_dL (gm e))).
Qed.

Lemma nd_grad_loop_sim g gm ys yms : rgs g gm -> rmeass ys yms ->
  sim b rgs (nd_grad_loop nx dm log kp kc g ys) (fun e => grad_loop (mm e) log kp kc (gm e) yms).
Proof.
elim: ys g gm yms => [|y ys IH] g gm [|ym yms] //= Hg; first by move=> _; exists gm.
case=> Hy Hys.
pose k' e g1 := match yms with [::] => Ok g1 | _ => let* g2 := grad_predict (mm e) kp g1 in grad_loop (mm e) log kp kc g2 yms end.
refine (sim_bind (k' := k') (nd_grad_correct_sim Hg Hy) _) => g1 gm1 Hg1 _; rewrite /k' {k'}.
case: ys yms IH Hys => [|y' ys] [|ym' yms] IH // Hys; first by exists gm1.
refine (sim_bind (k' := fun e g2 => grad_loop (mm e) log kp kc g2 (ym' :: yms)) (nd_grad_predict_sim Hg1) _) => g2 gm2 Hg2 _.
exact: IH.
Qed.

Lemma nd_pem_gradient_sim g gm ys yms : rgs g gm -> rmeass ys yms ->
  sim b (fun Z (z : seq nat -> 'I_nq -> F) => r1 b nq Z z) (nd_pem_gradient nx dm log kp kc g ys)
    (fun e => pem_gradient (mm e) log kp kc (gm e) yms).
Proof.
move=> Hg Hys; refine (sim_bind (k' := fun e g => Ok (g_dL g)) (nd_grad_loop_sim Hg Hys) _) => g1 gm1 [_ _ _ H] _.
by exists (fun e => g_dL (gm1 e)).
Qed.

Lemma nd_hess_correct_sim h hm y ym : rhs h hm -> rmeas y ym ->
  sim b rhs (nd_hess_correct nx dm log kc h y) (fun e => hess_correct (mm e) log kc (hm e) ym).
Proof.
move=> [Hg Hd2 Hd2L] Hy; rewrite /nd_hess_correct /hess_correct.
have [Hs HL Hd HdL] := Hg.
case HA: (active ym == set0).
  by rewrite (nd_ukf_correct_none _ _ Hy) //=; exists hm.
have HA' : active ym != set0 by rewrite HA.
pose gm e := h_g (hm e).
have H0 := nd_ukf_correct_sim Hmd Hy Hs kc (@lifts_chol F b nx) HA'.
pose k' e (c : corr0 nx kc (active ym)) := let* c1 := correct1 (mm e) (g_s (gm e)) c (g_d (gm e)) in
   let c2 := correct2 (mm e) (g_s (gm e)) c c1 (h_d2 (hm e)) in
   let* l := lik1 c c1 (g_dL (gm e)) in
   Ok (HS (GS (corr_state (g_s (gm e)) c) (lik0 log c (g_L (gm e))) (corr_dstate c c1 (g_d (gm e))) l.2)
          (corr_d2state c c1 c2 (h_d2 (hm e))) (lik2 c c1 c2 l.1 (h_d2L (hm e)))).
refine (sim_bind (k' := k') H0 _) => -[oc s'] cm [[u c] E [Hc Hs']] _; rewrite /k' {k' H0}; cbn [fst snd] in E, Hs'; cbn [fst snd]; rewrite E.
rewrite (active_bits Hy).
pose fin e (p : corr1 nx nq kc (active ym) * dstate F nx nq) l :=
   let c2 := correct2 (mm e) (g_s (gm e)) (cm e) p.1 (h_d2 (hm e)) in
   HS (GS (corr_state (g_s (gm e)) (cm e)) (lik0 log (cm e) (g_L (gm e))) p.2 l.2)
      (corr_d2state (cm e) p.1 c2 (h_d2 (hm e))) (lik2 (cm e) p.1 c2 l.1 (h_d2L (hm e))).
apply: (sim_ext (m := fun e => let* p := (let* c1 := correct1 (mm e) (g_s (gm e)) (cm e) (g_d (gm e)) in Ok (c1, corr_dstate (cm e) c1 (g_d (gm e)))) in
   let* l := lik1 (cm e) p.1 (g_dL (gm e)) in Ok (fin e p l))); last first.
  by move=> e He; case: (correct1 _ _ _ _).
pose k' e p := let* l := lik1 (cm e) p.1 (g_dL (gm e)) in Ok (fin e p l).
refine (sim_bind (k' := k') (nd_correction_diff_sim Hdm Hs Hc Hd) _) => p pm [Hp1 Hp2] _; rewrite /k' {k'}.
have [[c2 d2] [-> [Hc2 Hd2']]] := nd_correction_diff2_ok Hdm Hs Hc Hp1 Hd2; cbn [bind fst snd].
have [L [-> HL2]] := nd_update_likelihood_ok log Hc HL; cbn [bind].
pose k' e l := Ok (fin e (pm e) l).
refine (sim_bind (k' := k') (nd_likelihood_diff_sim Hc Hp1 HdL) _) => l lm Hl _; rewrite /k' {k'}.
have [L2 [-> HL22]] := nd_likelihood_diff2_ok Hc Hp1 Hc2 Hl Hd2L; cbn [bind].
have [_ _ Hl3] := Hl.
by exists (fun e => fin e (pm e) (lm e)); split=> //; split=> //; split=> //; left.
Qed.

Lemma nd_hess_predict_sim h hm : rhs h hm ->
  sim b rhs (nd_hess_predict nx dm kp h) (fun e => hess_predict (mm e) kp (hm e)).
Proof.
move=> [[Hs HL Hd HdL] Hd2 Hd2L]; rewrite /nd_hess_predict /hess_predict.
pose gm e := h_g (hm e).
pose fin e (p : ut_data nx kp nx * fstate F nx) (v : ut_diff nx nx nq kp * dstate F nx nq) :=
  HS (GS p.2 (g_L (gm e)) v.2 (g_dL (gm e))) (pred_d2state (mm e) (g_s (gm e)) p.1 v.1 (g_d (gm e)) (h_d2 (hm e))) (h_d2L (hm e)).
pose pd e (p : ut_data nx kp nx * fstate F nx) :=
  let* v := pred_ut_diff (mm e) (g_s (gm e)) p.1 (g_d (gm e)) in Ok (v, pred_dstate (mm e) (g_s (gm e)) v (g_d (gm e))).
apply: (sim_ext (m := fun e => let* p := predict_u kp (@chol F nx) (dm_md (mm e)) (g_s (gm e)) in
   let* v := pd e p in Ok (fin e p v))); last first.
  move=> e He; rewrite /predict_u /pred_ut /pred_state; case: (transform _ _ _ _ _) => //= u.
  by rewrite /pd /=; case: (pred_ut_diff _ _ _ _).
refine (sim_bind (k' := fun e p => let* v := pd e p in Ok (fin e p v)) (nd_ukf_predict_sim Hmd kp (@lifts_chol F b nx) Hs) _) => p pm [Hu Hs'] _.
refine (sim_bind (k' := fun e v => Ok (fin e (pm e) v)) (nd_prediction_diff_sim Hdm Hs Hu Hd) _) => v vm [Hv1 Hv2] _.
have [r [-> Hr]] := nd_prediction_diff2_ok Hdm Hs Hu Hd Hv1 Hd2; cbn [bind].
by exists (fun e => fin e (pm e) (vm e)).
Qed.

Lemma nd_hess_loop_sim h hm ys yms : rhs h hm -> rmeass ys yms ->
  sim b rhs (nd_hess_loop nx dm log kp kc h ys) (fun e => hess_loop (mm e) log kp kc (hm e) yms).
Proof.
elim: ys h hm yms => [|y ys IH] h hm [|ym yms] //= Hh; first by move=> _; exists hm.
case=> Hy Hys.
pose k' e h1 := match yms with [::] => Ok h1 | _ => let* h2 := hess_predict (mm e) kp h1 in hess_loop (mm e) log kp kc h2 yms end.
refine (sim_bind (k' := k') (nd_hess_correct_sim Hh Hy) _) => h1 hm1 Hh1 _; rewrite /k' {k'}.
case: ys yms IH Hys => [|y' ys] [|ym' yms] IH // Hys; first by exists hm1.
refine (sim_bind (k' := fun e h2 => hess_loop (mm e) log kp kc h2 (ym' :: yms)) (nd_hess_predict_sim Hh1) _) => h2 hm2 Hh2 _.
exact: IH.
Qed.

Lemma nd_pem_hessian_sim h hm ys yms : rhs h hm -> rmeass ys yms ->
  sim b (fun Z (z : seq nat -> 'I_nq -> 'I_nq -> F) => r2 b nq nq Z z) (nd_pem_hessian nx dm log kp kc h ys)
    (fun e => pem_hessian (mm e) log kp kc (hm e) yms).
Proof.
move=> Hh Hys; refine (sim_bind (k' := fun e h => Ok (h_d2L h)) (nd_hess_loop_sim Hh Hys) _) => h1 hm1 [_ _ H] _.
by exists (fun e => h_d2L (hm1 e)).
Qed.
End Grad.
