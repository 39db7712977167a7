(** Lemmas about [ObjModel]: the loops of the filter. *)
From Coq Require Import String Ascii.
From Verif Require Import Py.
From mathcomp Require Import all_ssreflect all_algebra.
From Verif Require Import KalModel NpModel NdKalModel ObjModel ObjLemmas ObjShape ObjFilterLemmas.
Set Implicit Arguments.
Unset Strict Implicit.
Unset Printing Implicit Defensive.
Import Order.TTheory GRing.Theory Num.Theory.
Local Open Scope ring_scope.

Ltac cch := match goal with H : cache_ok ?c _ |- cache_ok ?c _ => apply: (cache_eq H); lk; fail end.

Section Loops.
Variable F : rcfType.
Local Notation nd := (nd F).
Local Notation obj := (obj F).
Local Open Scope string_scope.
Variables (nx : nat) (dm : ndmodel F) (log : F -> F) (kp kc : F).
Notation md := (nm_md dm).
Hypothesis nx0 : (0 < nx)%N.
Hypothesis Hf : forall k X, nonempty (nm_f md k X).
Hypothesis HR : size (shape (nm_R md)) = 2%N.

Lemma correct_none s (y : nmeas F) s' : nd_ukf_correct nx md kc (@nd_chol F) s y = Ok (None, s') -> ~~ has id (nd_active y) /\ s' = s.
Proof.
rewrite any_active negbK /nd_ukf_correct; case: (all id (nm_mask y)); first by case.
by do ![case: (getmask _ _) => //= ?|case: (getmask_ix _ _) => //= ?|case: (nd_transform _ _ _ _ _ _) => //= ?|case: (nd_crosscov _ _ _) => //= ?
       |case: (nd_add _ _) => //= ?|case: (nd_sub _ _) => //= ?|case: (nd_chol _) => //= ?|case: (nd_inv _) => //= ?|case: (einsum _ _) => //= ?
       |case: (nd_corrected _ _ _ _) => //= ?].
Qed.
Lemma correct_some s (y : nmeas F) u c s' : nd_ukf_correct nx md kc (@nd_chol F) s y = Ok (Some (u, c), s') -> has id (nd_active y).
Proof. by rewrite any_active /nd_ukf_correct; case: (all id (nm_mask y)). Qed.
Lemma correct_k s (y : nmeas F) o s' : nd_ukf_correct nx md kc (@nd_chol F) s y = Ok (o, s') -> ns_k s' = ns_k s.
Proof.
rewrite /nd_ukf_correct /nd_corrected; case: (all id (nm_mask y)); first by case=> _ <-.
by do ![case: (getmask _ _) => //= ?|case: (getmask_ix _ _) => //= ?|case: (nd_transform _ _ _ _ _ _) => //= ?|case: (nd_crosscov _ _ _) => //= ?
       |case: (nd_add _ _) => //= ?|case: (nd_sub _ _) => //= ?|case: (nd_chol _) => //= ?|case: (nd_inv _) => //= ?|case: (einsum _ _) => //= ?]; case=> _ <-.
Qed.
Lemma predict_k s u s' : nd_ukf_predict nx md kp (@nd_chol F) s = Ok (u, s') -> ns_k s' = (ns_k s).+1.
Proof. by rewrite /nd_ukf_predict; case: (nd_transform _ _ _ _ _ _) => //= ?; case: (nd_add _ _) => //= ? [_ <-]. Qed.

Definition f_attrs : seq pat :=
  [:: (Self, "_DTPredictor__ut"); (Self, "_DTCorrector__ut");
      (PUt, "ni"); (PUt, "kappa"); (PUt, "nsigma"); (PUt, "weights"); (PUt, "cholesky");
      (CUt, "ni"); (CUt, "kappa"); (CUt, "nsigma"); (CUt, "weights"); (CUt, "cholesky")].
Lemma f_ok_frame ps (st st' : obj) : frame ps st st' -> f_ok nx kp kc st -> cache_ok PCh st' -> cache_ok CCh st' ->
  all (fun k => ~~ touched ps k.1 k.2) f_attrs -> f_ok nx kp kc st'.
Proof.
move=> H [P1 P2 P3 P4] C1 C2 /= /andP [/negbTE T1 /andP [/negbTE T2 /and5P [T3 T4 T5 T6 /andP [T7 T8]]]].
split; [by rewrite H|by rewrite H| |].
- by apply: (ut_ok_frame_cache H P3) => //=; rewrite T3 T4 T5 T6 T7.
- by apply: (ut_ok_frame_cache H P4).
Qed.
Lemma f_ok_cacheP (st : obj) : f_ok nx kp kc st -> cache_ok PCh st. Proof. by case=> _ _ [_ _ _ _ [_ H]] _. Qed.
Lemma f_ok_cacheC (st : obj) : f_ok nx kp kc st -> cache_ok CCh st. Proof. by case=> _ _ _ [_ _ _ _ [_ H]]. Qed.

Lemma f_ok_active v (st : obj) : f_ok nx kp kc st -> f_ok nx kp kc (upd st Self "active" v).
Proof.
move=> H; have C1 := f_ok_cacheP H; have C2 := f_ok_cacheC H.
have F0 : frame [:: (Self, "active")] st (upd st Self "active" v) by fr.
by apply: (f_ok_frame F0 H); [cch|cch|].
Qed.

(** ** The loop over the measurements *)

Definition ever : obj -> Prop := fun _ => True.

Section Loop.
Variables (A : Type) (R : A -> obj -> Prop) (cor : A -> nmeas F -> res A) (pre : A -> res A) (loop : A -> seq (nmeas F) -> res A).
Hypothesis loop0 : forall a, loop a [::] = Ok a.
Hypothesis loopS : forall a y ys, loop a (y :: ys) =
  bind (cor a y) (fun a1 => if ys is [::] then Ok a1 else bind (pre a1) (fun a2 => loop a2 ys)).

Lemma loop_sim (ys0 : seq (nmeas F)) (body : nat -> met F unit) :
  (forall k a st, R a st -> sim ever (bind (cor a (meas_at ys0 k)) (fun a1 => if (k < size ys0 - 1)%N then pre a1 else Ok a1)) (body k st)
                                (fun a' _ st' => R a' st')) ->
  forall ys a i st, drop i ys0 = ys -> R a st ->
  sim ever (loop a ys) (for_in (iota i (size ys)) body st) (fun a' _ st' => R a' st').
Proof.
move=> H; elim=> [|y ys IH] a i st E Ra; first by rewrite loop0.
have Hi : (i < size ys0)%N by rewrite ltnNge; apply/negP => Hi; rewrite drop_oversize in E.
have [E1 E2] : meas_at ys0 i = y /\ drop i.+1 ys0 = ys by move: E; rewrite (drop_nth (NMeas (zeros F [:: 0%N]) [::]) Hi) => -[].
rewrite loopS [for_in _ _ _]/=.
have Es : (i < size ys0 - 1)%N = (0 < size ys)%N by rewrite -E2 size_drop subn_gt0 ltn_subRL addnC addn1.
have := H i a st Ra; rewrite E1 Es /bnd.
case: (cor a y) => [a1|e] /=; last by case: (body i st) => [[b|e'] st'].
case: ys {E} IH E2 Es => [|y' ys] IH E2 Es /=; first by case: (body i st) => [[b|e'] st'] //=.
case: (pre a1) => [a2|e] /=; last by case: (body i st) => [[b|e'] st'].
case: (body i st) => [[b|e'] st'] //= R2; exact: IH.
Qed.
End Loop.

(** ** What holds between the steps *)

Definition s_inv (s : nstate F) (st : obj) : Prop := [/\ f_ok nx kp kc st, at_state s st & nonempty (ns_x s)].
Definition m_inv (p : nstate F * nd) (st : obj) : Prop := s_inv p.1 st /\ st Self "L" = Some (VA p.2).
Definition g_inv (g : ngstate F) (st : obj) : Prop :=
  [/\ s_inv (ng_s g) st, st Self "L" = Some (VA (ng_L g)), at_diff (ng_d g) st & st Self "dL_dq" = Some (VA (ng_dL g))].
Definition h_inv (h : nhstate F) (st : obj) : Prop :=
  [/\ g_inv (nh_g h) st, at_diff2 (nh_d2 h) st & st Self "d2L_dq2" = Some (VA (nh_d2L h))].

(** ** Without derivatives *)

Lemma correct_step s y (st : obj) : s_inv s st ->
  sim ever (nd_ukf_correct nx md kc (@nd_chol F) s y) (ob_correct dm y st)
    (fun a b st' => [/\ b = (ns_x a.2, ns_P a.2), s_inv a.2 st', st' Self "active" = Some (VB F (nd_active y)),
       match a.1 with
       | None => st' = upd st Self "active" (VB F (nd_active y))
       | Some (u, c) => ut_mem CUt CCh u st' /\ corr_mem c st'
       end & frame correct_keys st st']).
Proof.
move=> [Fo As Nx]; apply: (sim_weaken (correct_sim dm y Fo As)) => // -[o s'] b st' E [-> As' Ha M Hfr].
have C1 := f_ok_cacheP Fo; have C2 := f_ok_cacheC Fo.
split=> //; split=> //.
  by apply: (f_ok_frame Hfr Fo); [cch|cch|].
case: o E {As' M} => [[u c]|] E; last by have [_ ->] := correct_none E.
by have [_ _] := correct_pos nx0 HR Nx E.
Qed.

Lemma predict_step s (st : obj) : s_inv s st ->
  sim ever (nd_ukf_predict nx md kp (@nd_chol F) s) (ob_predict dm st)
    (fun a b st' => [/\ b = (ns_x a.2, ns_P a.2), s_inv a.2 st', ut_mem PUt PCh a.1 st' /\ last 0%N (shape (nu_S a.1)) != 0%N,
       st' Self "prev_x" = Some (VA (ns_x s)) & frame predict_keys st st']).
Proof.
move=> [Fo As Nx]; apply: (sim_weaken (predict_sim dm Fo As)) => // -[u s'] b st' E [-> As' M Hx Hfr].
have C1 := f_ok_cacheP Fo; have C2 := f_ok_cacheC Fo.
have [H1 H2] := predict_pos nx0 Hf Nx E.
split=> //; split=> //.
by apply: (f_ok_frame Hfr Fo); [cch|cch|].
Qed.

(** ** [pem_merit] *)

(** [predict] alone: without [prediction_crosscov], that only [smooth] calls. *)
Definition bare_ukf : nfilter F :=
  NFilter (fun s => let* p := nd_ukf_predict nx md kp (@nd_chol F) s in Ok (p.2, zeros F [::]))
          (n_correct (nd_ukf nx md kp kc (@nd_chol F) (@nd_chol F))).

Definition merit_correct (p : nstate F * nd) (y : nmeas F) : res (nstate F * nd) :=
  let* c := nd_ukf_correct nx md kc (@nd_chol F) p.1 y in
  let* L := nd_update_likelihood log p.2 (omap snd c.1) in Ok (c.2, L).
Definition merit_predict (p : nstate F * nd) : res (nstate F * nd) :=
  let* q := nd_ukf_predict nx md kp (@nd_chol F) p.1 in Ok (q.2, p.2).
Fixpoint merit_loop (p : nstate F * nd) (ys : seq (nmeas F)) : res (nstate F * nd) :=
  match ys with
  | [::] => Ok p
  | y :: ys' => let* p1 := merit_correct p y in
                if ys' is [::] then Ok p1 else let* p2 := merit_predict p1 in merit_loop p2 ys'
  end.
Lemma merit_loopE s L ys : nd_pem_merit bare_ukf log s L ys = let* p := merit_loop (s, L) ys in Ok p.2.
Proof.
elim: ys s L => [|y ys IH] s L //=; rewrite /merit_correct /=.
case: (nd_ukf_correct _ _ _ _ _ _) => [[o s1]|e] //=; case: (nd_update_likelihood _ _ _) => [L1|e] //=.
case: ys IH => [|y' ys] IH //; rewrite /merit_predict /=.
by case: (nd_ukf_predict _ _ _ _ _) => [[u s2]|e] //=; rewrite -IH.
Qed.

Lemma merit_correct_sim p y (st : obj) : m_inv p st ->
  sim ever (merit_correct p y) ((let! _ := ob_correct dm y in ob_update_likelihood log) st) (fun a _ st' => m_inv a st').
Proof.
move=> [Si HL]; rewrite /merit_correct.
eapply sim_call; [apply: (correct_step y Si)|by []|move=> [o s'] ? st1 E [_ Si1 Ha M Hfr]].
rewrite /= in Si1; case: o E M => [[u c]|] E M; rewrite /= in M; cbn [fst snd]; last first.
  have [Hn _] := correct_none E.
  by rewrite /ob_update_likelihood (if_active_none _ Ha Hn) /=; split=> //; rewrite M; lk.
have Hh := correct_some E; case: M => Um Cm.
have HL1 : st1 Self "L" = Some (VA p.2) by lk.
apply: sim_tail; eapply sim_call; [apply: (update_likelihood_sim log Ha Hh Cm HL1)|by []|move=> L b st2 _ [HL2 _ Hfr2]].
apply: sim_ok; split=> //; case: Si1 => Fo [A1 A2 A3] Nx; split=> //; last by split; lk.
have C1 := f_ok_cacheP Fo; have C2 := f_ok_cacheC Fo.
by apply: (f_ok_frame Hfr2 Fo); [cch|cch|].
Qed.
Lemma merit_predict_sim p (st : obj) : m_inv p st ->
  sim ever (merit_predict p) ((let! _ := ob_predict dm in ret tt) st) (fun a _ st' => m_inv a st').
Proof.
move=> [Si HL]; rewrite /merit_predict.
eapply sim_call; [apply: (predict_step Si)|by []|move=> [u s'] ? st1 E [_ Si1 _ _ Hfr]].
by apply: sim_ok; split=> //; lk.
Qed.

(** ** [pem_gradient] *)

Lemma s_inv_frame s ps (st st' : obj) : frame ps st st' -> s_inv s st -> cache_ok PCh st' -> cache_ok CCh st' ->
  all (fun k => ~~ touched ps k.1 k.2) (f_attrs ++ [:: (Self, "k"); (Self, "x"); (Self, "Px")]) -> s_inv s st'.
Proof.
move=> H [Fo [A1 A2 A3] Nx] C1 C2; rewrite all_cat => /andP [T1 /= /and4P [/negbTE T2 /negbTE T3 /negbTE T4 _]].
split=> //; first exact: (f_ok_frame H Fo).
by split; rewrite H.
Qed.
Lemma corr_mem_frame c ps (st st' : obj) : frame ps st st' -> corr_mem c st -> cache_ok YCh st' ->
  all (fun k => ~~ touched ps k.1 k.2) [:: (Self, "e"); (Self, "Pxh"); (Self, "Py"); (Self, "PyI"); (Self, "K"); (Self, "PyC");
    (YCh, "S"); (Self, "_DTCorrector__chol")] -> corr_mem c st'.
Proof.
move=> H [C1 C2 C3 [C4 C5] [PyC [E S1 S2 S3 S4]]] Cy /= /and5P [/negbTE T1 /negbTE T2 /negbTE T3 /negbTE T4 /and5P [/negbTE T5 /negbTE T6 /negbTE T7 /negbTE T8 _]].
split; [by rewrite H|by rewrite H|by rewrite H|by split; rewrite H|].
by exists PyC; split=> //; rewrite H.
Qed.
Lemma corr1_mem_frame c ps (st st' : obj) : frame ps st st' -> corr1_mem c st ->
  all (fun k => ~~ touched ps k.1 k.2) ([:: (CCh, "ALI"); (CCh, "dQL_dq"); (CCh, "dS_dq"); (CUt, "df_di"); (CUt, "didev_dq"); (CUt, "disigma_dq"); (CUt, "dodev_dq")]
    ++ [:: (Self, "de_dq"); (Self, "dPxh_dq"); (Self, "dPy_dq"); (Self, "dPyI_dq"); (Self, "dK_dq")]) -> corr1_mem c st'.
Proof.
move=> H [V B1 B2 B3 [B4 B5]]; rewrite all_cat => /andP [T /= /and5P [/negbTE T1 /negbTE T2 /negbTE T3 /negbTE T4 /andP [/negbTE T5 _]]].
split; [exact: (utd_mem_frame H V)|by rewrite H|by rewrite H|by rewrite H|by split; rewrite H].
Qed.
Lemma corr_cache c (st : obj) : corr_mem c st -> cache_ok YCh st.
Proof. by case=> _ _ _ _ [PyC [_ _ _ _ H]]. Qed.

Lemma grad_correct_sim g y (st : obj) : g_inv g st ->
  sim ever (nd_grad_correct nx dm log kc g y)
    ((let! _ := ob_correct dm y in let! _ := ob_correction_diff dm in let! _ := ob_update_likelihood log in ob_likelihood_diff (F := F)) st)
    (fun a _ st' => g_inv a st').
Proof.
move=> [Si HL [D1 D2] HdL]; have Nx : nonempty (ns_x (ng_s g)) by case: Si.
rewrite /nd_grad_correct.
eapply sim_call; [apply: (correct_step y Si)|by []|move=> [o s'] ? st1 E [_ Si1 Ha M Hfr]].
rewrite /= in Si1; case: o E M => [[u c]|] E M; rewrite /= in M; cbn [fst snd]; last first.
  have [Hn _] := correct_none E.
  rewrite /ob_correction_diff /ob_update_likelihood /ob_likelihood_diff.
  do 2![eapply sim_skip; [exact: (if_active_none _ Ha Hn)|]].
  by rewrite (if_active_none _ Ha Hn); split=> //=; [rewrite M; lk|rewrite M; split; lk|rewrite M; lk].
have Hh := correct_some E; case: M => Um Cm; have Ek := correct_k E.
have [N1 N2 _] := correct_pos nx0 HR Nx E.
have [Fo1 [A1 A2 A3] Nx1] := Si1.
have Dm : at_diff (ng_d g) st1 by split; lk.
have Hk : st1 Self "k" = Some (VN F (ns_k (ng_s g))) by rewrite A1 /= Ek.
eapply sim_call; [apply: (correction_diff_sim dm Fo1 Hk Ha Hh Um Cm Dm N1)|by []|move=> [c1 d'] ? st2 _ [Dm2 C1m Cc2 Hfr2]].
have CP2 : cache_ok PCh st2 by have H := f_ok_cacheP Fo1; cch.
have Si2 : s_inv s' st2 by apply: (s_inv_frame Hfr2 Si1).
have Cm2 : corr_mem c st2 by apply: (corr_mem_frame Hfr2 Cm); last by []; have H := corr_cache Cm; cch.
have Ha2 : st2 Self "active" = Some (VB F (nd_active y)) by lk.
have HL2 : st2 Self "L" = Some (VA (ng_L g)) by lk.
eapply sim_call; [apply: (update_likelihood_sim log Ha2 Hh Cm2 HL2)|by []|move=> L ? st3 _ [HL3 [PyC [PyCD [EC EP HP]]] Hfr3]].
have CP3 : cache_ok PCh st3 by cch.
have CC3 : cache_ok CCh st3 by cch.
have Si3 : s_inv s' st3 by apply: (s_inv_frame Hfr3 Si2).
have Cm3 : corr_mem c st3 by apply: (corr_mem_frame Hfr3 Cm2); last by []; have H := corr_cache Cm2; cch.
have C1m3 : corr1_mem c1 st3 by apply: (corr1_mem_frame Hfr3 C1m).
have Ha3 : st3 Self "active" = Some (VB F (nd_active y)) by lk.
have HdL3 : st3 Self "dL_dq" = Some (VA (ng_dL g)) by lk.
apply: sim_tail; eapply sim_call; [apply: (likelihood_diff_sim Ha3 Hh Cm3 C1m3 EC EP HP HdL3 (N2 _ EC))|by []|move=> [[ch dPyCD] dL] ? st4 _ [HdL4 _ _ _ Hfr4]].
case: Dm2 => D3 D4.
apply: sim_ok; split=> /=; [|lk|split; lk|lk].
by apply: (s_inv_frame Hfr4 Si3); [cch|cch|].
Qed.

Lemma grad_predict_sim g (st : obj) : g_inv g st ->
  sim ever (nd_grad_predict nx dm kp g) ((let! _ := ob_predict dm in ob_prediction_diff dm) st) (fun a _ st' => g_inv a st').
Proof.
move=> [Si HL [D1 D2] HdL]; rewrite /nd_grad_predict.
eapply sim_call; [apply: (predict_step Si)|by []|move=> [u s'] ? st1 E [_ Si1 [Um N1] Hx Hfr]]; cbn [fst snd] in *.
have Ek := predict_k E; have [Fo1 [A1 A2 A3] Nx1] := Si1.
have Dm : at_diff (ng_d g) st1 by split; lk.
have Hk : st1 Self "k" = Some (VN F (ns_k (ng_s g)).+1) by rewrite A1 /= Ek.
apply: sim_tail; eapply sim_call; [apply: (prediction_diff_sim dm Fo1 Hk Hx Um Dm N1)|by []|move=> [v d'] ? st2 _ [[D3 D4] Vm _ [_ Cc2] Hfr2]]; cbn [fst snd] in *.
apply: sim_ok; split=> /=; [|lk|split; lk|lk].
have H := f_ok_cacheC Fo1.
by apply: (s_inv_frame Hfr2 Si1); [cch|cch|].
Qed.

(** ** [pem_hessian] *)

Lemma hess_correct_sim h y (st : obj) : h_inv h st ->
  sim ever (nd_hess_correct nx dm log kc h y)
    ((let! _ := ob_correct dm y in let! _ := ob_correction_diff dm in let! _ := ob_correction_diff2 dm in
      let! _ := ob_update_likelihood log in let! _ := ob_likelihood_diff (F := F) in ob_likelihood_diff2 (F := F)) st)
    (fun a _ st' => h_inv a st').
Proof.
move=> [[Si HL [D1 D2] HdL] [G1 G2] Hd2L]; have Nx : nonempty (ns_x (ng_s (nh_g h))) by case: Si.
rewrite /nd_hess_correct.
eapply sim_call; [apply: (correct_step y Si)|by []|move=> [o s'] ? st1 E [_ Si1 Ha M Hfr]].
rewrite /= in Si1; case: o E M => [[u c]|] E M; rewrite /= in M; cbn [fst snd]; last first.
  have [Hn _] := correct_none E.
  rewrite /ob_correction_diff /ob_correction_diff2 /ob_update_likelihood /ob_likelihood_diff /ob_likelihood_diff2.
  do 4![eapply sim_skip; [exact: (if_active_none _ Ha Hn)|]].
  rewrite (if_active_none _ Ha Hn) /=; split=> /=; [split=> //=; rewrite M; [lk|split; lk|lk]|rewrite M; split; lk|rewrite M; lk].
have Hh := correct_some E; case: M => Um Cm; have Ek := correct_k E.
have [N1 N2 _] := correct_pos nx0 HR Nx E.
have [Fo1 [A1 A2 A3] Nx1] := Si1.
have Dm : at_diff (ng_d (nh_g h)) st1 by split; lk.
have Hk : st1 Self "k" = Some (VN F (ns_k (ng_s (nh_g h)))) by rewrite A1 /= Ek.
eapply sim_call; [apply: (correction_diff_sim dm Fo1 Hk Ha Hh Um Cm Dm N1)|by []|move=> [c1 d'] ? st2 _ [Dm2 C1m Cc2 Hfr2]].
cbn [fst snd] in *.
have CP2 : cache_ok PCh st2 by have H := f_ok_cacheP Fo1; cch.
have Si2 : s_inv s' st2 by apply: (s_inv_frame Hfr2 Si1).
have Cm2 : corr_mem c st2 by apply: (corr_mem_frame Hfr2 Cm); last by []; have H := corr_cache Cm; cch.
have Um2 : ut_mem CUt CCh u st2 by apply: (ut_mem_frame Hfr2 Um).
have Ha2 : st2 Self "active" = Some (VB F (nd_active y)) by lk.
have Hk2 : st2 Self "k" = Some (VN F (ns_k (ng_s (nh_g h)))) by lk.
have Gm2 : at_diff2 (nh_d2 h) st2 by split; lk.
have Fo2 : f_ok nx kp kc st2 by case: Si2.
case: Dm2 => D3 D4.
eapply sim_call; [apply: (correction_diff2_sim dm Fo2 Hk2 Ha2 Hh Um2 Cm2 C1m Gm2 N1)|by []|move=> [c2 d2'] ? st3 _ [[G3 G4] C2m Cc3 Hfr3]].
cbn [fst snd] in *.
have CP3 : cache_ok PCh st3 by cch.
have Si3 : s_inv s' st3 by apply: (s_inv_frame Hfr3 Si2).
have Cm3 : corr_mem c st3 by apply: (corr_mem_frame Hfr3 Cm2); last by []; have H := corr_cache Cm2; cch.
have C1m3 : corr1_mem c1 st3 by apply: (corr1_mem_frame Hfr3 C1m).
have Ha3 : st3 Self "active" = Some (VB F (nd_active y)) by lk.
have HL3 : st3 Self "L" = Some (VA (ng_L (nh_g h))) by lk.
eapply sim_call; [apply: (update_likelihood_sim log Ha3 Hh Cm3 HL3)|by []|move=> L ? st4 _ [HL4 [PyC [PyCD [EC EP HP]]] Hfr4]].
have CP4 : cache_ok PCh st4 by cch.
have CC4 : cache_ok CCh st4 by cch.
have Si4 : s_inv s' st4 by apply: (s_inv_frame Hfr4 Si3).
have Cm4 : corr_mem c st4 by apply: (corr_mem_frame Hfr4 Cm3); last by []; have H := corr_cache Cm3; cch.
have C1m4 : corr1_mem c1 st4 by apply: (corr1_mem_frame Hfr4 C1m3).
have Ha4 : st4 Self "active" = Some (VB F (nd_active y)) by lk.
have HdL4 : st4 Self "dL_dq" = Some (VA (ng_dL (nh_g h))) by lk.
eapply sim_call; [apply: (likelihood_diff_sim Ha4 Hh Cm4 C1m4 EC EP HP HdL4 (N2 _ EC))|by []|move=> [[ch dPyCD] dL] ? st5 _ [HdL5 HPD Km Kc Hfr5]].
cbn [fst snd] in *.
have CP5 : cache_ok PCh st5 by cch.
have CC5 : cache_ok CCh st5 by cch.
have Si5 : s_inv s' st5 by apply: (s_inv_frame Hfr5 Si4).
have Cm5 : corr_mem c st5 by apply: (corr_mem_frame Hfr5 Cm4).
have C1m5 : corr1_mem c1 st5 by apply: (corr1_mem_frame Hfr5 C1m4).
have C2m5 : corr2_mem c2 st5 by case: C2m => B1 B2 B3; split; lk.
have Ha5 : st5 Self "active" = Some (VB F (nd_active y)) by lk.
have HP5 : st5 Self "PyCD" = Some (VA PyCD) by lk.
have Hd2L5 : st5 Self "d2L_dq2" = Some (VA (nh_d2L h)) by lk.
apply: sim_tail; eapply sim_call; [apply: (likelihood_diff2_sim Ha5 Hh Cm5 C1m5 C2m5 EC EP HP5 HPD Km Hd2L5 (N2 _ EC))|by []|move=> d2L ? st6 _ [Hd2L6 _ Hfr6]].
apply: sim_ok; split=> /=; [split=> /=; [|lk|split; lk|lk]|split; lk|lk].
by apply: (s_inv_frame Hfr6 Si5); [cch|cch|].
Qed.

Lemma hess_predict_sim h (st : obj) : h_inv h st ->
  sim ever (nd_hess_predict nx dm kp h) ((let! _ := ob_predict dm in let! _ := ob_prediction_diff dm in ob_prediction_diff2 dm) st)
    (fun a _ st' => h_inv a st').
Proof.
move=> [[Si HL [D1 D2] HdL] [G1 G2] Hd2L]; rewrite /nd_hess_predict.
eapply sim_call; [apply: (predict_step Si)|by []|move=> [u s'] ? st1 E [_ Si1 [Um N1] Hx Hfr]]; cbn [fst snd] in *.
have Ek := predict_k E; have [Fo1 [A1 A2 A3] Nx1] := Si1.
have Dm : at_diff (ng_d (nh_g h)) st1 by split; lk.
have Hk : st1 Self "k" = Some (VN F (ns_k (ng_s (nh_g h))).+1) by rewrite A1 /= Ek.
eapply sim_call; [apply: (prediction_diff_sim dm Fo1 Hk Hx Um Dm N1)|by []|move=> [v d'] ? st2 _ [[D3 D4] Vm Hpd [HQ Cc2] Hfr2]]; cbn [fst snd] in *.
have CC2 : cache_ok CCh st2 by have H := f_ok_cacheC Fo1; cch.
have Si2 : s_inv s' st2 by apply: (s_inv_frame Hfr2 Si1).
have Um2 : ut_mem PUt PCh u st2 by apply: (ut_mem_frame Hfr2 Um).
have Hk2 : st2 Self "k" = Some (VN F (ns_k (ng_s (nh_g h))).+1) by lk.
have Hx2 : st2 Self "prev_x" = Some (VA (ns_x (ng_s (nh_g h)))) by lk.
have Gm2 : at_diff2 (nh_d2 h) st2 by split; lk.
have Fo2 : f_ok nx kp kc st2 by case: Si2.
apply: sim_tail; eapply sim_call; [apply: (prediction_diff2_sim Fo2 Hk2 Hx2 Um2 Vm Hpd HQ Gm2 N1)|by []|move=> d2' ? st3 _ [[G3 G4] Cc3 Hfr3]].
apply: sim_ok; split=> /=; [split=> /=; [|lk|split; lk|lk]|split; lk|lk].
by apply: (s_inv_frame Hfr3 Si2); [cch|cch|].
Qed.
End Loops.
