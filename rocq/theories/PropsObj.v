(** C87: the methods of the unscented filter exchange the intermediate
    results through attributes of the instance and of its transforms.  On an
    instance made by [__init__], whatever was called on it before as long as
    [between] holds, the loops of base.py find in the attributes what the
    methods before left there, so that they return the arrays, or raise the
    exceptions, of [NdKalModel], in which the intermediate results are passed
    as values.  A method called before those it relies on raises
    [AttributeError]; a measurement that is masked everywhere makes the
    methods that follow [correct] do nothing; a [correct] that raises leaves
    the estimate and its derivatives unchanged, a [predict] that raises does
    not.

    Specification: [ns_...], [ng_...] and [nh_...] are the values the loops
    carry; [between] says which attributes hold them. *)
From Coq Require Import String Ascii.
From Verif Require Import Py.
From mathcomp Require Import all_ssreflect all_algebra.
From Verif Require Import KalModel NpModel NdKalModel ObjModel ObjLemmas ObjShape ObjFilterLemmas ObjLoopLemmas.
Set Implicit Arguments.
Unset Strict Implicit.
Unset Printing Implicit Defensive.
Import Order.TTheory GRing.Theory Num.Theory.
Local Open Scope ring_scope.

Section Props.
Variable F : rcfType.
Local Notation nd := (nd F).
Local Notation obj := (obj F).
Local Open Scope string_scope.

(** A transform made by [CholeskyUnscentedTransform(nx, kappa)]; the index
    arrays its [cholesky] holds, if any, are those of the size it noted. *)
Definition transform_of (st : obj) (o c : owner) (nx : nat) (kappa : F) : Prop :=
  [/\ st o "ni" = Some (VN F nx), st o "kappa" = Some (VF kappa), st o "nsigma" = Some (VN F (nsigma nx kappa)),
      st o "weights" = Some (VA (nd_weights nx kappa)) &
      st o "cholesky" = Some (VO F c) /\
      (st c "diff_data_initialized" = None \/
       exists n, [/\ st c "diff_data_initialized" = Some (VN F n), st c "ni_range" = Some (VR F (iota 0 n)) &
                     st c "ni_tril_indices" = Some (VI F (tril_indices n))])].

(** The attributes between the calls of the methods. *)
Definition between (nx : nat) (kp kc : F) (h : nhstate F) (st : obj) : Prop :=
  let g := nh_g h in let s := ng_s g in
  [/\ st Self "_DTPredictor__ut" = Some (VO F PUt) /\ st Self "_DTCorrector__ut" = Some (VO F CUt),
      transform_of st PUt PCh nx kp /\ transform_of st CUt CCh nx kc,
      [/\ st Self "k" = Some (VN F (ns_k s)), st Self "x" = Some (VA (ns_x s)), st Self "Px" = Some (VA (ns_P s)) & lst (ns_x s) != 0%N],
      [/\ st Self "L" = Some (VA (ng_L g)), st Self "dL_dq" = Some (VA (ng_dL g)) & st Self "d2L_dq2" = Some (VA (nh_d2L h))] &
      [/\ st Self "dx_dq" = Some (VA (nds_x (ng_d g))), st Self "dPx_dq" = Some (VA (nds_P (ng_d g))),
          st Self "d2x_dq2" = Some (VA (nds_x (nh_d2 h))) & st Self "d2Px_dq2" = Some (VA (nds_P (nh_d2 h)))]].

Lemma between_inv nx kp kc h st : between nx kp kc h st <-> h_inv nx kp kc h st.
Proof.
split.
  by move=> [[H1 H2] [H3 H4] [A1 A2 A3 A4] [L1 L2 L3] [D1 D2 D3 D4]]; do ![split=> //].
by move=> [[[[H1 H2 H3 H4] [A1 A2 A3] A4] L1 [D1 D2] L2] [D3 D4] L3]; do ![split=> //].
Qed.

Section Loops.
Variables (nx : nat) (dm : ndmodel F) (log : F -> F) (kp kc : F).
Notation md := (nm_md dm).
(** There are states; the transition function returns arrays whose last axis
    is not empty; [R] is a matrix. *)
Hypothesis nx0 : (0 < nx)%N.
Hypothesis Hf : forall k X, lst (nm_f md k X) != 0%N.
Hypothesis HR : size (shape (nm_R md)) = 2%N.
Local Notation between := (between nx kp kc).

(** The value of [ob_init]. *)
Definition started (i : initial F) : nhstate F :=
  NHS (NGS (NS (i_k i) (i_x i) (i_Px i)) (i_L i) (NDS (i_dx i) (i_dPx i)) (i_dL i)) (NDS (i_d2x i) (i_d2Px i)) (i_d2L i).

Theorem C87_init (i : initial F) (st : obj) : lst (i_x i) != 0%N ->
  if (nx%:R + kc != 0) && (nx%:R + kp != 0)
  then exists st', ob_init nx kp kc i st = (Ok tt, st') /\ between (started i) st'
  else (ob_init nx kp kc i st).1 = Err AssertionError.
Proof.
move=> Hx; rewrite /ob_init /base_init /ut_init /bnd /renew /setv /lift /passert.
case: (nx%:R + kc != 0) => //=; case: (nx%:R + kp != 0) => //=; eexists; split; first reflexivity.
rewrite /between /transform_of /started /=.
by do ![split=> //]; left; lk.
Qed.

Lemma chain2 A (m1 : met F A) (m2 w : met F unit) st :
  (let! _ := m1 in let! _ := m2 in w) st = (let! _ := (let! _ := m1 in m2) in w) st.
Proof. by rewrite /bnd; case: (m1 st) => [[?|?] st1]. Qed.
Lemma chain4 A (m1 : met F A) (m2 m3 m4 w : met F unit) st :
  (let! _ := m1 in let! _ := m2 in let! _ := m3 in let! _ := m4 in w) st =
  (let! _ := (let! _ := m1 in let! _ := m2 in let! _ := m3 in m4) in w) st.
Proof. by rewrite /bnd; case: (m1 st) => [[?|?] st1] //; case: (m2 st1) => [[?|?] st2] //; case: (m3 st2) => [[?|?] st3]. Qed.
Lemma chain6 A (m1 : met F A) (m2 m3 m4 m5 m6 w : met F unit) st :
  (let! _ := m1 in let! _ := m2 in let! _ := m3 in let! _ := m4 in let! _ := m5 in let! _ := m6 in w) st =
  (let! _ := (let! _ := m1 in let! _ := m2 in let! _ := m3 in let! _ := m4 in let! _ := m5 in m6) in w) st.
Proof.
rewrite /bnd; case: (m1 st) => [[?|?] st1] //; case: (m2 st1) => [[?|?] st2] //; case: (m3 st2) => [[?|?] st3] //.
by case: (m4 st3) => [[?|?] st4] //; case: (m5 st4) => [[?|?] st5].
Qed.

Lemma body_sim A (R : A -> obj -> Prop) (r : res A) (pre : A -> res A) (b : bool) (m w : met F unit) st :
  sim (@ever F) r (m st) (fun a _ st' => R a st') ->
  (forall a st, R a st -> sim (@ever F) (pre a) (w st) (fun a _ st' => R a st')) ->
  sim (@ever F) (bind r (fun a => if b then pre a else Ok a)) ((let! _ := m in when b w) st) (fun a _ st' => R a st').
Proof.
move=> H1 H2; eapply sim_call; [exact: H1|by []|move=> a ? st' _ Ra]; rewrite /when.
by case: b; [apply: H2|].
Qed.

Lemma hess_loop_sim h ys st : h_inv nx kp kc h st ->
  sim (@ever F) (nd_hess_loop nx dm log kp kc h ys)
    (for_in (iota 0 (size ys)) (fun k =>
      let! _ := ob_correct dm (meas_at ys k) in
      let! _ := ob_correction_diff dm in
      let! _ := ob_correction_diff2 dm in
      let! _ := ob_update_likelihood log in
      let! _ := ob_likelihood_diff (F := F) in
      let! _ := ob_likelihood_diff2 (F := F) in
      when (k < size ys - 1)%N (
        let! _ := ob_predict dm in
        let! _ := ob_prediction_diff dm in
        ob_prediction_diff2 dm)) st) (fun a _ st' => h_inv nx kp kc a st').
Proof.
move=> Hi; apply: (loop_sim (cor := nd_hess_correct nx dm log kc) (pre := nd_hess_predict nx dm kp)) => //; last by rewrite drop0.
move=> k a st1 H1; rewrite chain6; apply: body_sim.
  exact: (hess_correct_sim log nx0 HR).
by move=> a2 st2; apply: hess_predict_sim.
Qed.
Lemma grad_loop_sim g ys st : g_inv nx kp kc g st ->
  sim (@ever F) (nd_grad_loop nx dm log kp kc g ys)
    (for_in (iota 0 (size ys)) (fun k =>
      let! _ := ob_correct dm (meas_at ys k) in
      let! _ := ob_correction_diff dm in
      let! _ := ob_update_likelihood log in
      let! _ := ob_likelihood_diff (F := F) in
      when (k < size ys - 1)%N (
        let! _ := ob_predict dm in
        ob_prediction_diff dm)) st) (fun a _ st' => g_inv nx kp kc a st').
Proof.
move=> Hi; apply: (loop_sim (cor := nd_grad_correct nx dm log kc) (pre := nd_grad_predict nx dm kp)) => //; last by rewrite drop0.
move=> k a st1 H1; rewrite chain4; apply: body_sim.
  exact: (grad_correct_sim log nx0 HR).
by move=> a2 st2; apply: grad_predict_sim.
Qed.
Lemma merit_loop_sim p ys st : m_inv nx kp kc p st ->
  sim (@ever F) (merit_loop nx dm log kp kc p ys)
    (for_in (iota 0 (size ys)) (fun k =>
      let! _ := ob_correct dm (meas_at ys k) in
      let! _ := ob_update_likelihood log in
      when (k < size ys - 1)%N (let! _ := ob_predict dm in ret tt)) st) (fun a _ st' => m_inv nx kp kc a st').
Proof.
move=> Hi; apply: (loop_sim (cor := merit_correct nx dm log kc) (pre := merit_predict nx dm kp)) => //; last by rewrite drop0.
move=> k a st1 H1; rewrite chain2; apply: body_sim.
  exact: (merit_correct_sim log nx0 HR).
by move=> a2 st2; apply: merit_predict_sim.
Qed.

(** [pem_hessian]: the same outcome, and afterwards the attributes hold what
    the loop ended with. *)
Theorem C87_hessian h ys st : between h st ->
  (ob_pem_hessian dm log ys st).1 = nd_pem_hessian nx dm log kp kc h ys /\
  (forall h', nd_hess_loop nx dm log kp kc h ys = Ok h' -> between h' (ob_pem_hessian dm log ys st).2).
Proof.
move=> /between_inv Hi; have := hess_loop_sim ys Hi; rewrite /ob_pem_hessian /nd_pem_hessian /bnd.
case: (nd_hess_loop _ _ _ _ _ _ _) => [h'|e]; case: (for_in _ _ _) => [[?|e'] st'] //= H; last by case: H => ->.
split; first by have [_ _ H3] := H; rewrite /geta /bnd /getv H3.
move=> _ [<-]; apply/between_inv; rewrite /geta /bnd /getv.
by have [_ _ H3] := H; rewrite H3.
Qed.

(** What [pem_gradient] relies on: no second derivatives. *)
Definition between1 (g : ngstate F) (st : obj) : Prop :=
  let s := ng_s g in
  [/\ st Self "_DTPredictor__ut" = Some (VO F PUt) /\ st Self "_DTCorrector__ut" = Some (VO F CUt),
      transform_of st PUt PCh nx kp /\ transform_of st CUt CCh nx kc,
      [/\ st Self "k" = Some (VN F (ns_k s)), st Self "x" = Some (VA (ns_x s)), st Self "Px" = Some (VA (ns_P s)) & lst (ns_x s) != 0%N],
      st Self "L" = Some (VA (ng_L g)) /\ st Self "dL_dq" = Some (VA (ng_dL g)) &
      st Self "dx_dq" = Some (VA (nds_x (ng_d g))) /\ st Self "dPx_dq" = Some (VA (nds_P (ng_d g)))].
Lemma between1_inv g st : between1 g st <-> g_inv nx kp kc g st.
Proof.
split.
  by move=> [[H1 H2] [H3 H4] [A1 A2 A3 A4] [L1 L2] [D1 D2]]; do ![split=> //].
by move=> [[[H1 H2 H3 H4] [A1 A2 A3] A4] L1 [D1 D2] L2]; do ![split=> //].
Qed.
Lemma between_between1 h st : between h st -> between1 (nh_g h) st.
Proof. by move=> [H1 H2 H3 [L1 L2 L3] [D1 D2 D3 D4]]. Qed.

Theorem C87_gradient g ys st : between1 g st ->
  (ob_pem_gradient dm log ys st).1 = nd_pem_gradient nx dm log kp kc g ys /\
  (forall g', nd_grad_loop nx dm log kp kc g ys = Ok g' -> between1 g' (ob_pem_gradient dm log ys st).2).
Proof.
move=> /between1_inv Hi; have := grad_loop_sim ys Hi; rewrite /ob_pem_gradient /nd_pem_gradient /bnd.
case: (nd_grad_loop _ _ _ _ _ _ _) => [h'|e]; case: (for_in _ _ _) => [[?|e'] st'] //= H; last by case: H => ->.
split; first by have [_ _ _ H3] := H; rewrite /geta /bnd /getv H3.
move=> _ [<-]; apply/between1_inv; rewrite /geta /bnd /getv.
by have [_ _ _ H3] := H; rewrite H3.
Qed.

(** What [pem_merit], [filter] and [smooth] rely on: no derivatives. *)
Definition between0 (s : nstate F) (st : obj) : Prop :=
  [/\ st Self "_DTPredictor__ut" = Some (VO F PUt) /\ st Self "_DTCorrector__ut" = Some (VO F CUt),
      transform_of st PUt PCh nx kp /\ transform_of st CUt CCh nx kc &
      [/\ st Self "k" = Some (VN F (ns_k s)), st Self "x" = Some (VA (ns_x s)), st Self "Px" = Some (VA (ns_P s)) & lst (ns_x s) != 0%N]].
Lemma between0_inv s st : between0 s st <-> s_inv nx kp kc s st.
Proof.
split; first by move=> [[H1 H2] [H3 H4] [A1 A2 A3 A4]]; do ![split=> //].
by move=> [[H1 H2 H3 H4] [A1 A2 A3] A4]; do ![split=> //].
Qed.
Lemma between1_between0 g st : between1 g st -> between0 (ng_s g) st.
Proof. by move=> [H1 H2 H3 L D]. Qed.

(** The filter of [NdKalModel] computes [prediction_crosscov] with every
    prediction; [pem_merit] and [filter] do not. *)
Local Notation bare := (bare_ukf nx dm kp kc).
Local Notation whole := (nd_ukf nx md kp kc (@nd_chol F) (@nd_chol F)).

Theorem C87_merit s L ys st : between0 s st -> st Self "L" = Some (VA L) ->
  (ob_pem_merit dm log ys st).1 = nd_pem_merit bare log s L ys.
Proof.
move=> /between0_inv Hi HL.
have Hm : m_inv nx kp kc (s, L) st by [].
have := merit_loop_sim ys Hm; rewrite /ob_pem_merit merit_loopE /bnd.
case: (merit_loop _ _ _ _ _ _ _) => [h'|e]; case: (for_in _ _ _) => [[?|e'] st'] //= H; last by case: H => ->.
by have [_ H3] := H; rewrite /geta /bnd /getv H3.
Qed.

Lemma bare_merit s L ys v : nd_pem_merit whole log s L ys = Ok v -> nd_pem_merit bare log s L ys = Ok v.
Proof.
elim: ys s L => [//|y ys IH] s L; cbn [nd_pem_merit n_correct bare_ukf].
case: (n_correct _ _ _) => [[s1 c]|//]; cbn [bind fst snd]; case: (nd_update_likelihood log L c) => [L1|//]; cbn [bind fst snd].
case: ys IH => [//|y' ys] IH; cbn [n_predict bare_ukf nd_ukf].
case: (nd_ukf_predict _ _ _ _ _) => [[u s2]|//]; cbn [bind fst snd].
by case: (nd_crosscov _ _ _) => [C|//]; cbn [bind fst snd]; apply: IH.
Qed.
Lemma bare_filter s ys v : nd_filter whole s ys = Ok v -> nd_filter bare s ys = Ok v.
Proof.
elim: ys s v => [//|y ys IH] s v; cbn [nd_filter n_correct bare_ukf].
case: (n_correct _ _ _) => [[s1 c]|//]; cbn [bind fst snd].
case: ys IH => [//|y' ys] IH; cbn [n_predict bare_ukf nd_ukf].
case: (nd_ukf_predict _ _ _ _ _) => [[u s2]|//]; cbn [bind fst snd].
case: (nd_crosscov _ _ _) => [C|//]; cbn [bind fst snd].
by case E: (nd_filter whole s2 _) => [r|//]; rewrite (IH _ _ E).
Qed.

(** Whenever the filter of [NdKalModel] succeeds. *)
Corollary C87_merit_value s L ys st v : between0 s st -> st Self "L" = Some (VA L) ->
  nd_pem_merit whole log s L ys = Ok v -> (ob_pem_merit dm log ys st).1 = Ok v.
Proof. by move=> Hb HL /bare_merit <-; apply: C87_merit. Qed.

Lemma filter_sim ys0 ys s i st : drop i ys0 = ys -> s_inv nx kp kc s st ->
  sim (@ever F) (nd_filter bare s ys)
    (for_list (iota i (size ys)) (fun k =>
      let! p := ob_correct dm (meas_at ys0 k) in
      let! _ := when (k < size ys0 - 1)%N (let! _ := ob_predict dm in ret tt) in
      ret p) st) (fun a b st' => b = a.1 /\ s_inv nx kp kc a.2 st').
Proof.
elim: ys s i st => [|y ys IH] s i st E Si; first by [].
have Hi : (i < size ys0)%N by rewrite ltnNge; apply/negP => Hi; rewrite drop_oversize in E.
have [E1 E2] : meas_at ys0 i = y /\ drop i.+1 ys0 = ys by move: E; rewrite (drop_nth (NMeas (zeros F [:: 0%N]) [::]) Hi) => -[].
have Es : (i < size ys0 - 1)%N = (0 < size ys)%N by rewrite -E2 size_drop subn_gt0 ltn_subRL addnC addn1.
cbn [nd_filter n_correct bare_ukf nd_ukf size iota for_list]; rewrite bnd_assoc bind_bind E1 Es.
eapply sim_call; [apply: (correct_step nx0 HR y Si)|by []|move=> [o s1] b st1 _ [-> Si1 _ _ _]]; cbn [bind fst snd] in *.
case: ys {E Es} IH E2 => [|y' ys] IH E2; cbn [when size ltn leq].
  by [].
cbn [n_predict bare_ukf]; rewrite 2!bnd_assoc bind_bind.
eapply sim_call; [apply: (predict_step nx0 Hf Si1)|by []|move=> [u s2] ? st2 _ [_ Si2 _ _ _]]; cbn [bind fst snd] in *.
eapply sim_skip; [reflexivity|]; cbv beta; eapply sim_skip; [reflexivity|]; cbv beta.
by eapply sim_call; [apply: (IH s2 i.+1 st2 E2 Si2)|by []|move=> [l s3] ? st3 _ [-> Si3]].
Qed.

Theorem C87_filter s ys st : between0 s st ->
  match nd_filter bare s ys with
  | Ok (l, s') => (ob_filter dm ys st).1 = Ok l /\ between0 s' (ob_filter dm ys st).2
  | Err e => (ob_filter dm ys st).1 = Err e
  end.
Proof.
move=> /between0_inv Si; have := filter_sim (drop0 ys) Si; rewrite /ob_filter.
case: (nd_filter _ _ _) => [[l s']|e]; case: (for_list _ _ _) => [[b|e'] st'] //=.
  by move=> [-> H]; split=> //; apply/between0_inv.
by case=> ->.
Qed.
Corollary C87_filter_value s ys st l s' : between0 s st -> nd_filter whole s ys = Ok (l, s') -> (ob_filter dm ys st).1 = Ok l.
Proof. by move=> Hb /bare_filter E; have := C87_filter ys Hb; rewrite E => -[]. Qed.

(** [smooth] *)
Definition fw_of (e0 : nd * nd) (l : seq (nstep F)) : seq ((nd * nd) * option ((nd * nd) * nd)) :=
  zip (e0 :: [seq nt_est t | t <- l]) (rcons [seq Some (nt_pred t, nt_Pxf t) | t <- l] None).

Lemma fw_of_cons e0 t l : fw_of e0 (t :: l) = (e0, Some (nt_pred t, nt_Pxf t)) :: fw_of (nt_est t) l.
Proof. by []. Qed.

(** The value of the first loop, from before a correction. *)
Definition fw_val (s : nstate F) (y : nmeas F) (ys : seq (nmeas F)) : res ((nd * nd) * seq (nstep F) * nstate F) :=
  let* c := n_correct whole s y in
  let* fw := nd_forward whole c.1 ys in
  Ok ((ns_x c.1, ns_P c.1), fw.1, fw.2).

Lemma smooth_forward_sim ys0 y ys s i st : drop i ys0 = y :: ys -> s_inv nx kp kc s st ->
  sim (@ever F) (fw_val s y ys)
    (for_list (iota i (size ys).+1) (fun k =>
      let! p := ob_correct dm (meas_at ys0 k) in
      if (k < size ys0 - 1)%N then
        let! q := ob_predict dm in
        let! C := ob_prediction_crosscov (F := F) in
        ret (p, Some (q, C))
      else ret (p, None)) st) (fun a b st' => b = fw_of a.1.1 a.1.2 /\ s_inv nx kp kc a.2 st').
Proof.
elim: ys y s i st => [|y' ys IH] y s i st E Si.
all: have Hi : (i < size ys0)%N by rewrite ltnNge; apply/negP => Hi; rewrite drop_oversize in E.
all: have := E; rewrite (drop_nth (NMeas (zeros F [:: 0%N]) [::]) Hi) => -[E1 E2]; rewrite -/(meas_at ys0 i) in E1.
all: have Es : (i < size ys0 - 1)%N = (0 < size (drop i.+1 ys0))%N by rewrite size_drop subn_gt0 ltn_subRL addnC addn1.
all: rewrite E2 in Es; rewrite /fw_val; cbn [n_correct nd_ukf iota for_list]; rewrite bnd_assoc bind_bind E1 Es.
all: eapply sim_call; [apply: (correct_step nx0 HR y Si)|by []|move=> [o s1] b st1 _ [-> Si1 _ _ _]]; cbn [bind fst snd] in *.
  by [].
cbn [size ltn leq nd_forward n_predict nd_ukf]; rewrite bnd_assoc 2!bind_bind.
eapply sim_call; [apply: (predict_step nx0 Hf Si1)|by []|move=> [u s2] ? st2 _ [-> Si2 [Um _] _ _]]; cbn [bind fst snd] in *.
have [Fo2 _ _] := Si2; have [P1 P2 P3 P4] := Fo2.
rewrite bnd_assoc bind_bind.
eapply sim_pure; [|by []|move=> C _].
  by rewrite /ob_prediction_crosscov /geta /bnd /getv P1 /= (crosscov_sim wiredP P3 Um).
cbn [bind fst snd]; eapply sim_skip; [reflexivity|]; cbv beta.
have := IH y' s2 i.+1 st2 E2 Si2; rewrite /fw_val.
move: (for_list _ _) => rest; rewrite /bnd.
case: (n_correct whole s2 y') => [[s3 c3]|e]; cbn [bind fst snd]; last by case: (rest st2) => [[?|?] ?].
case: (nd_forward whole s3 ys) => [[l s4]|e]; cbn [bind fst snd]; last by case: (rest st2) => [[?|?] ?].
case: (rest st2) => [[b'|e'] st'] //; rewrite /sim /ret; cbn [fst snd].
by move=> [-> H].
Qed.

Lemma nd_backward_pos (e0 : nd * nd) l r : nd_backward e0 l = Ok r -> (0 < size r)%N.
Proof.
case: l => [|t l] /=; first by case=> <-.
by case: (nd_backward _ _) => //= ?; case: (nd_smoother_correction _ _ _ _ _) => //= ?; do 2![case: (nd_iadd _ _) => //= ?]; case=> <-.
Qed.

Lemma smooth_backward_val l (e0 : nd * nd) pp qp ks tl : size pp = size qp ->
  ob_smooth_backward (qp ++ rcons [seq Some (nt_pred t, nt_Pxf t) | t <- l] None ++ tl)%SEQ (pp ++ e0 :: [seq nt_est t | t <- l])%SEQ
    (rev (iota (size pp).+1 (size l)) ++ ks)%SEQ =
  let* r := nd_backward e0 l in
  ob_smooth_backward (qp ++ rcons [seq Some (nt_pred t, nt_Pxf t) | t <- l] None ++ tl)%SEQ (pp ++ r)%SEQ ks.
Proof.
elim: l e0 pp qp ks tl => [|t l IH] e0 pp qp ks tl Hs //.
have := IH (nt_est t) (rcons pp e0) (rcons qp (Some (nt_pred t, nt_Pxf t))) ((size pp).+1 :: ks) tl.
rewrite !size_rcons Hs !cat_rcons => /(_ erefl) {IH} IH.
rewrite /= rev_cons cat_rcons IH {IH}.
case Eb: (nd_backward (nt_est t) l) => [r|e] //; cbn [bind]; have Hr := nd_backward_pos Eb.
case: r Eb Hr => [//|[rx rP] r] Eb _.
cbn [ob_smooth_backward]; rewrite -Hs.
set z := (zeros F [::], zeros F [::]).
have N1 : nth z (rcons pp e0 ++ (rx, rP) :: r)%SEQ (size pp).+1 = (rx, rP) by rewrite nth_cat size_rcons ltnn subnn.
have N2 : nth z (rcons pp e0 ++ (rx, rP) :: r)%SEQ (size pp).+1.-1 = e0 by rewrite nth_cat size_rcons ltnSn nth_rcons ltnn eqxx.
have N3 q : nth None (qp ++ q)%SEQ (size pp).+1.-1 = nth None q 0 by rewrite nth_cat Hs ltnn subnn.
have N4 v : set_nth z (rcons pp e0 ++ (rx, rP) :: r)%SEQ (size pp).+1.-1 v = (pp ++ v :: (rx, rP) :: r)%SEQ.
  by rewrite cat_rcons /=; elim: (pp) => [//|p' pp' /= ->].
rewrite N1 N2 N3 /=.
case: (nd_smoother_correction _ _ _ _ _) => //= ?; do 2![case: (nd_iadd _ _) => //= ?].
by rewrite N4.
Qed.

Lemma nd_forward_size flt (s : nstate F) ys r : nd_forward flt s ys = Ok r -> size r.1 = size ys.
Proof.
elim: ys s r => [|y ys IH] s r /=; first by case=> <-.
case: (n_predict _ _) => //= p; case: (n_correct _ _ _) => //= c; case E: (nd_forward _ _ _) => //= -[<-] /=.
by rewrite (IH _ _ E).
Qed.

Theorem C87_smooth s ys st : between0 s st ->
  match nd_smooth whole s ys with
  | Ok (l, s') => (ob_smooth dm ys st).1 = Ok l /\ between0 s' (ob_smooth dm ys st).2
  | Err e => (ob_smooth dm ys st).1 = Err e
  end.
Proof.
case: ys => [//|y ys] /between0_inv Si.
have : sim (@ever F) (fw_val s y ys) (ob_smooth_forward dm (y :: ys) st) (fun a b st' => b = fw_of a.1.1 a.1.2 /\ s_inv nx kp kc a.2 st').
  exact: (smooth_forward_sim (drop0 (y :: ys)) Si).
have -> : ob_smooth dm (y :: ys) st = (let! fw := ob_smooth_forward dm (y :: ys) in
    lift (ob_smooth_backward [seq p.2 | p <- fw] [seq p.1 | p <- fw] (rev (iota 1 ((size ys).+1 - 1))))) st by [].
rewrite /fw_val /nd_smooth; move: (ob_smooth_forward dm (y :: ys)) => rest; rewrite /bnd.
case: (n_correct whole s y) => [[s1 c1]|e]; cbn [bind fst snd]; last by case: (rest st) => [[?|?] ?] //= [->].
case Ef: (nd_forward whole s1 ys) => [[l s2]|e]; cbn [bind fst snd]; last by case: (rest st) => [[?|?] ?] //= [->].
case: (rest st) => [[b|e'] st'] //; rewrite /sim /lift; cbn [fst snd] => -[-> H].
have Hz : size (rcons [seq Some (nt_pred t, nt_Pxf t) | t <- l] None) = size (((ns_x s1, ns_P s1) :: [seq nt_est t | t <- l])) by rewrite size_rcons /= !size_map.
have /= Hl := nd_forward_size Ef; rewrite -Hl subn1 [(size l).+1.-1]/=.
have U1 : unzip1 (fw_of (ns_x s1, ns_P s1) l) = (ns_x s1, ns_P s1) :: [seq nt_est t | t <- l] by apply: unzip1_zip; rewrite Hz.
have U2 : unzip2 (fw_of (ns_x s1, ns_P s1) l) = rcons [seq Some (nt_pred t, nt_Pxf t) | t <- l] None by apply: unzip2_zip; rewrite Hz.
rewrite -/(unzip1 _) -/(unzip2 _) U1 U2.
have := smooth_backward_val l (ns_x s1, ns_P s1) [::] [::] (erefl : size (@nil (nd * nd)) = size (@nil (option ((nd * nd) * nd)))).
rewrite !cats0 !cat0s => ->.
case: (nd_backward _ _) => [r|e] //=.
by split=> //; apply/between0_inv.
Qed.
End Loops.

(** * Calls out of order *)

Section Order.
Variables (nx : nat) (dm : ndmodel F) (log : F -> F) (kp kc : F).
Notation md := (nm_md dm).
Local Notation between := (between nx kp kc).

(** Without a [correct] before: nothing is changed. *)
Theorem C87_no_correct (st : obj) : st Self "active" = None ->
  [/\ ob_correction_diff dm st = (Err AttributeError, st), ob_correction_diff2 dm st = (Err AttributeError, st),
      ob_update_likelihood log st = (Err AttributeError, st), ob_likelihood_diff st = (Err AttributeError, st) &
      ob_likelihood_diff2 st = (Err AttributeError, st)].
Proof.
move=> H; rewrite /ob_correction_diff /ob_correction_diff2 /ob_update_likelihood /ob_likelihood_diff /ob_likelihood_diff2 /if_active.
by rewrite /geta /getv /bnd H.
Qed.

(** Without a [predict] before: [prev_x] is bound by [correct] too, the sigma
    points of the predictor only by [predict]. *)
Definition array_or_none (st : obj) (a : string) : Prop := st Self a = None \/ exists A : nd, st Self a = Some (VA A).

Theorem C87_no_predict h (st : obj) : between h st -> array_or_none st "prev_x" -> st PUt "isigma" = None ->
  ob_prediction_diff dm st = (Err AttributeError, st) /\
  (st PUt "idev" = None -> ob_prediction_crosscov st = (Err AttributeError, st)).
Proof.
move=> [[P1 P2] [[U1 U2 U3 U4 _] _] [A1 A2 A3 _] _ [D1 D2 _ _]] Hx Hs; split.
  rewrite /ob_prediction_diff /ut_transform_diff /geta /getv /bnd A1 /=.
  case: Hx => [->|[A ->]] //=.
  by rewrite P1 /= D1 /= D2 /= U4 /= Hs.
by move=> Hd; rewrite /ob_prediction_crosscov /ut_crosscov /geta /getv /bnd P1 /= Hd.
Qed.

(** [prediction_diff2] without [prediction_diff], [correction_diff2] and
    [likelihood_diff] without [correction_diff]. *)
Theorem C87_no_prediction_diff h (st : obj) : between h st -> array_or_none st "prev_x" -> st Self "prev_dx_dq" = None ->
  ob_prediction_diff2 dm st = (Err AttributeError, st).
Proof.
move=> [[P1 P2] [[U1 U2 U3 U4 _] _] [A1 A2 A3 _] _ _] Hx Hs.
rewrite /ob_prediction_diff2 /geta /getv /bnd A1 /=.
by case: Hx => [->|[A ->]] //=; rewrite Hs.
Qed.
Theorem C87_no_correction_diff (st : obj) act (K PyI e : nd) : st Self "active" = Some (VB F act) -> has id act ->
  st Self "K" = Some (VA K) -> st Self "PyI" = Some (VA PyI) -> st Self "e" = Some (VA e) ->
  (st Self "dK_dq" = None -> ob_correction_diff2 dm st = (Err AttributeError, st)) /\
  (st Self "de_dq" = None -> ob_likelihood_diff st = (Err AttributeError, st)).
Proof.
move=> Ha Hh HK HP He; rewrite /ob_correction_diff2 /ob_likelihood_diff /if_active /geta /getv /bnd Ha /= Hh /=.
by split=> H; [rewrite HK /= HP /= H|rewrite He /= HP /= H].
Qed.

(** [likelihood_diff] without [update_likelihood] does not succeed, and
    [likelihood_diff2] raises [AttributeError]. *)
Definition ok_then A (Q : A -> obj -> Prop) (p : res A * obj) : Prop := match p with (Ok v, st') => Q v st' | _ => True end.
Lemma ok_bnd A B (m : met F A) (k : A -> met F B) Q st : ok_then (fun v st' => ok_then Q (k v st')) (m st) -> ok_then Q (bnd m k st).
Proof. by rewrite /ok_then /bnd; case: (m st) => [[v|e] st']. Qed.
Lemma ok_get A (as_ : val F -> res A) o a (Q : A -> obj -> Prop) st : (forall v, Q v st) -> ok_then Q (geta as_ o a st).
Proof. by move=> H; rewrite /geta /getv /bnd; case: (st o a) => [v|] //; rewrite /lift /=; case: (as_ v). Qed.
Lemma ok_lift A (r : res A) (Q : A -> obj -> Prop) st : (forall v, Q v st) -> ok_then Q (lift r st).
Proof. by rewrite /lift /=; case: r. Qed.
Lemma ok_set o a v (Q : unit -> obj -> Prop) st : Q tt (upd st o a v) -> ok_then Q (setv o a v st).
Proof. by []. Qed.
Ltac ok1 :=
  cbv beta;
  lazymatch goal with
  | |- ok_then _ (bnd _ _ _) => apply: ok_bnd
  | |- ok_then _ (geta _ _ _ _) => apply: ok_get => ?
  | |- ok_then _ (lift _ _) => apply: ok_lift => ?
  | |- ok_then _ (setv _ _ _ _) => apply: ok_set
  end.

Lemma ch_diff_keeps (dQ : nd) a st : ok_then (fun _ st' => st' Self a = st Self a) (ch_diff YCh dQ st).
Proof.
rewrite /ch_diff; do 2 ok1.
have Hi n (st0 : obj) (Q : unit -> obj -> Prop) : (forall st1, st1 Self a = st0 Self a -> Q tt st1) -> ok_then Q (initialize_diff_data YCh n st0).
  move=> H; rewrite /initialize_diff_data; apply: ok_bnd; rewrite /get_initialized.
  case: (st0 YCh _) => [v|] /=; last first.
    by case: ifP => _; [apply: H|apply: H; lk].
  rewrite /lift; case: (asN v) => //= n'; case: ifP => _; first by apply: H.
  by apply: H; lk.
cbv beta zeta; ok1; apply: Hi => st1 H; cbv zeta; repeat ok1.
by rewrite /ok_then /ret; lk.
Qed.

Theorem C87_no_update_likelihood (st : obj) act : st Self "active" = Some (VB F act) -> has id act -> st Self "PyCD" = None ->
  (st Self "_DTCorrector__chol" = Some (VO F YCh) -> forall v, (ob_likelihood_diff st).1 <> Ok v) /\
  (forall e PyI : nd, st Self "e" = Some (VA e) -> st Self "PyI" = Some (VA PyI) -> ob_likelihood_diff2 st = (Err AttributeError, st)).
Proof.
move=> Ha Hh HP; split; last first.
  move=> e PyI He HPI; rewrite /ob_likelihood_diff2 /if_active /geta /getv /bnd Ha /= Hh /=.
  by rewrite He /= HPI /= HP.
move=> Hc v; suff : ok_then (fun _ _ => False) (ob_likelihood_diff st) by case: (ob_likelihood_diff st) => [[?|?] ?].
have Hg A (as_ : val F -> res A) a w x (Q : A -> obj -> Prop) (st0 : obj) : st0 Self a = Some w -> as_ w = Ok x -> Q x st0 -> ok_then Q (geta as_ Self a st0).
  by move=> E1 E2 E3; rewrite /geta /getv /bnd E1 /lift /= E2.
rewrite /ob_likelihood_diff /if_active; apply: ok_bnd; apply: (Hg _ _ _ _ _ _ _ Ha erefl); rewrite Hh.
do 4![apply: ok_bnd; apply: ok_get => ?].
apply: ok_bnd; apply: (Hg _ _ _ _ _ _ _ Hc erefl).
apply: ok_bnd; apply: ok_get => dPy; apply: ok_bnd.
have := ch_diff_keeps dPy "PyCD" st; rewrite {1 3}/ok_then; case: (ch_diff YCh dPy st) => [[dC|//] st1] H1.
apply: ok_bnd; apply: ok_lift => T; apply: ok_bnd; apply: ok_set; apply: ok_bnd; apply: ok_get => D.
by apply: ok_bnd; rewrite {1}/geta /getv /bnd upd_miss // H1 HP.
Qed.

(** * A masked measurement *)

(** [correct] returns the estimate and only binds [active]; the methods that
    follow return at once. *)
Theorem C87_masked h y (st : obj) : between h st -> all id (nm_mask y) ->
  let st' := upd st Self "active" (VB F (nd_active y)) in
  ob_correct dm y st = (Ok (ns_x (ng_s (nh_g h)), ns_P (ng_s (nh_g h))), st') /\
  [/\ ob_correction_diff dm st' = (Ok tt, st'), ob_correction_diff2 dm st' = (Ok tt, st'), ob_update_likelihood log st' = (Ok tt, st'),
      ob_likelihood_diff st' = (Ok tt, st') & ob_likelihood_diff2 st' = (Ok tt, st')] /\ between h st'.
Proof.
move=> Hb Hm st'; have [[P1 P2] [U1 U2] [A1 A2 A3 A4] [L1 L2 L3] [D1 D2 D3 D4]] := Hb.
have Ha : st' Self "active" = Some (VB F (nd_active y)) by rewrite /st'; lk.
have Hn : ~~ has id (nd_active y) by rewrite any_active negbK.
split; last split.
- by rewrite /ob_correct Hm /bnd /setv /geta /getv /bnd -/st' /st' !upd_miss // A2 /= upd_miss // A3.
- by split; apply: (if_active_none _ Ha Hn).
- apply/between_inv; move/between_inv: Hb => [[[Fo [B1 B2 B3] B4] B5 [B6 B7] B8] [B9 B10] B11].
  by split=> //; split=> //; split=> //; apply: f_ok_active.
Qed.

(** * Exceptions *)

(** After a [correct] that raises, everything the other methods rely on is as
    before: the filter may be used again. *)
Theorem C87_correct_raises h y (st : obj) e st' : between h st -> ob_correct dm y st = (Err e, st') ->
  between h st' /\ (forall a, a <> "active" -> a <> "_DTCorrector__chol" -> st' Self a = st Self a).
Proof.
move=> /between_inv [[[Fo As B4] B5 [B6 B7] B8] [B9 B10] B11] Er.
have := correct_sim dm y Fo As; rewrite Er /sim; case: (nd_ukf_correct _ _ _ _ _ _) => [//|e'] [_ Hfr].
have C1 := f_ok_cacheP Fo; have C2 := f_ok_cacheC Fo; case: As => A1 A2 A3.
split.
  apply/between_inv; split; [split; [split=> //|lk|split; lk|lk]|split; lk|lk].
    by apply: (f_ok_frame Hfr Fo); [cch|cch|].
  by split; lk.
move=> a N1 N2; apply: Hfr.
have E1 : String.eqb "active" a = false by apply/negbTE/negP => /eqbP E; apply: N1.
have E2 : String.eqb "_DTCorrector__chol" a = false by apply/negbTE/negP => /eqbP E; apply: N2.
rewrite /touched /correct_err_keys /hits /ut_keys; cbn [cat has owner_eqb fst snd andb orb].
by rewrite E1 E2.
Qed.

(** A [predict] that raises in [Pf + Q] has already advanced the time and the
    mean, but not the covariance; one that raises before has changed nothing
    that the methods rely on. *)
Theorem C87_predict_raises h (st : obj) (s := ng_s (nh_g h)) : between h st ->
  match nd_transform nx kp (@nd_chol F) (ns_x s) (ns_P s) (fun X => Ok (nm_f md (ns_k s) X)) with
  | Ok u =>
      forall e, nd_add (nu_Po u) (nm_Q md (ns_k s) (ns_x s)) = Err e -> exists st', ob_predict dm st = (Err e, st') /\
        [/\ st' Self "k" = Some (VN F (ns_k s).+1), st' Self "x" = Some (VA (nu_o u)), st' Self "Px" = Some (VA (ns_P s)),
            st' Self "dx_dq" = st Self "dx_dq" & st' Self "dPx_dq" = st Self "dPx_dq"]
  | Err e => exists st', ob_predict dm st = (Err e, st') /\ between h st'
  end.
Proof.
move=> /between_inv [[[Fo [A1 A2 A3] B4] B5 [B6 B7] B8] [B9 B10] B11]; have [P1 P2 P3 P4] := Fo.
have Hr : reads st (fun X : nd => let! k := geta (@asN F) Self "k" in ret (nm_f md k X)) (fun X => Ok (nm_f md (ns_k s) X)).
  by move=> X st' Ha; rewrite /bnd /geta /getv /bnd Ha A1.
have := transform_sim (ns_x s) (ns_P s) wiredP P3 Hr.
case: (nd_transform _ _ _ _ _ _) => [u|e].
  case Et: (ut_transform _ _ _ _ _) => [[p|e'] st1] //= [Ep Um Hfr] e Ee; subst p.
  have Hk : st1 Self "k" = Some (VN F (ns_k s)) by lk.
  have Hx : st1 Self "x" = Some (VA (ns_x s)) by lk.
  have HP : st1 Self "Px" = Some (VA (ns_P s)) by lk.
  rewrite /ob_predict /geta /getv /setv /lift /bnd P1 /= A2 /= A3 /= Et Hk /= Hx /= Hx /=.
  rewrite !upd_miss // HP /= !upd_miss // Hk /= Ee.
  eexists; split; first reflexivity.
  by split; lk.
case Et: (ut_transform _ _ _ _ _) => [[p|e'] st1] //= [Ee Hfr]; subst e'.
exists st1; split; first by rewrite /ob_predict /geta /getv /bnd P1 /= A2 /= A3 /= Et.
have C1 := f_ok_cacheP Fo; have C2 := f_ok_cacheC Fo.
apply/between_inv; split; [split; [split=> //|lk|split; lk|lk]|split; lk|lk].
  by apply: (f_ok_frame Hfr Fo); [cch|cch|].
by split; lk.
Qed.

(** * The cached index arrays *)

(** Whatever sizes [diff] and [diff2] saw before, they use the index arrays
    of the present one, but for an empty matrix, for which nothing is ever
    cached. *)
Theorem C87_cache c (ns : seq nat) n (st : obj) : st c "diff_data_initialized" = None -> all (fun m => m != 0%N) ns -> n != 0%N ->
  let calls := foldr (fun m k => let! _ := initialize_diff_data c m in k) (@ret F unit tt) (rcons ns n) in
  (calls st).1 = Ok tt /\
  ((calls st).2 c "ni_range" = Some (VR F (iota 0 n)) /\ (calls st).2 c "ni_tril_indices" = Some (VI F (tril_indices n))).
Proof.
move=> H0; have C : cache_ok c st by left.
elim: ns st C {H0} => [|m ns IH] st C /= Hn N.
  by have [st' [E [_ H1 H2] _]] := initialize_ok C N; rewrite /bnd E.
move: Hn => /andP [Hm Hn]; have [st' [E [H0 H1 H2] _]] := initialize_ok C Hm; rewrite /bnd E.
by apply: IH => //; right; exists m.
Qed.
Theorem C87_cache_empty c dQ (S : nd) (st : obj) : st c "diff_data_initialized" = None -> st c "ni_range" = None ->
  st c "S" = Some (VA S) -> last 0%N (shape S) = 0%N -> ch_diff c dQ st = (Err AttributeError, st).
Proof. by move=> H1 H2 H3 H4; rewrite /ch_diff /initialize_diff_data /get_initialized /geta /getv /bnd H3 /= H1 H4 /= H2. Qed.
End Order.
End Props.
