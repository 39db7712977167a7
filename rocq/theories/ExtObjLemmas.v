(** Lemmas about [ExtObjModel]: the loops of base.py for any class whose
    methods compute what a filter of [NdKalModel] computes, and the attributes
    the methods of the extended filter bind. *)
From Coq Require Import String Ascii.
From Verif Require Import Py.
From mathcomp Require Import all_ssreflect all_algebra.
From Verif Require Import KalModel NpModel NdKalModel ObjModel ObjLemmas ObjShape ObjFilterLemmas ObjLoopLemmas ExtObjModel.
Set Implicit Arguments.
Unset Strict Implicit.
Unset Printing Implicit Defensive.
Import Order.TTheory GRing.Theory Num.Theory.
Local Open Scope ring_scope.

Section Lemmas.
Variable F : rcfType.
Local Notation nd := (nd F).
Local Notation obj := (obj F).
Local Notation met := (met F).

(** The loops over the measurements instead of their indices. *)
Fixpoint over (body : nmeas F -> bool -> met unit) (ys : seq (nmeas F)) : met unit :=
  match ys with
  | [::] => ret tt
  | y :: ys' => let! _ := body y (0 < size ys')%N in over body ys'
  end.
Fixpoint over_list A (body : nmeas F -> bool -> met A) (ys : seq (nmeas F)) : met (seq A) :=
  match ys with
  | [::] => ret [::]
  | y :: ys' => let! a := body y (0 < size ys')%N in let! r := over_list body ys' in ret (a :: r)
  end.

Lemma over_listS A (body : nmeas F -> bool -> met A) y ys :
  over_list body (y :: ys) = (let! a := body y (0 < size ys)%N in let! r := over_list body ys in ret (a :: r)).
Proof. by []. Qed.
Lemma overS body y ys : over body (y :: ys) = (let! _ := body y (0 < size ys)%N in over body ys).
Proof. by []. Qed.

Lemma drop_cons (ys0 : seq (nmeas F)) i y ys : drop i ys0 = y :: ys ->
  [/\ meas_at ys0 i = y, drop i.+1 ys0 = ys & (i < size ys0 - 1)%N = (0 < size ys)%N].
Proof.
move=> E; have Hi : (i < size ys0)%N by rewrite ltnNge; apply/negP => Hi; rewrite drop_oversize in E.
have := E; rewrite (drop_nth (NMeas (zeros F [:: 0%N]) [::]) Hi) => -[E1 E2]; rewrite -/(meas_at ys0 i) in E1.
by split=> //; rewrite -E2 size_drop subn_gt0 ltn_subRL addnC addn1.
Qed.

Lemma for_in_over body ys0 ys i st : drop i ys0 = ys ->
  for_in (iota i (size ys)) (fun k => body (meas_at ys0 k) (k < size ys0 - 1)%N) st = over body ys st.
Proof.
elim: ys i st => [//|y ys IH] i st /drop_cons [E1 E2 E3]; cbn [size iota for_in over].
by rewrite /bnd E1 E3; case: (body _ _ st) => [[a|e] st'] //; apply: IH.
Qed.
Lemma for_list_over A (body : nmeas F -> bool -> met A) ys0 ys i st : drop i ys0 = ys ->
  for_list (iota i (size ys)) (fun k => body (meas_at ys0 k) (k < size ys0 - 1)%N) st = over_list body ys st.
Proof.
elim: ys i st => [//|y ys IH] i st /drop_cons [E1 E2 E3]; cbn [size iota for_list over_list].
by rewrite /bnd E1 E3; case: (body _ _ st) => [[a|e] st'] //; rewrite IH.
Qed.

(** ** The loops of base.py *)
Section Loops.
Variables (c : dtclass F) (flt : nfilter F) (I : nstate F -> obj -> Prop).
Local Notation ever := (@ever F).
Hypothesis Hcor : forall s y st, I s st ->
  sim ever (n_correct flt s y) (m_correct c y st) (fun a b st' => b = (ns_x a.1, ns_P a.1) /\ I a.1 st').
Hypothesis Hpre : forall s st, I s st ->
  sim ever (n_predict flt s) ((let! q := m_predict c in let! C := m_prediction_crosscov c in ret (q, C)) st)
    (fun a b st' => b = ((ns_x a.1, ns_P a.1), a.2) /\ I a.1 st').
Hypothesis Hpre1 : forall s st, I s st ->
  sim ever (n_predict flt s) (m_predict c st) (fun a b st' => I a.1 st').

Lemma dt_filter_sim s ys st : I s st ->
  sim ever (nd_filter flt s ys) (dt_filter c ys st) (fun a b st' => b = a.1 /\ I a.2 st').
Proof.
rewrite /dt_filter (for_list_over (fun y b => let! p := m_correct c y in
  let! _ := when b (let! _ := m_predict c in ret tt) in ret p) st (drop0 ys)).
elim: ys s st => [|y ys IH] s st Hi; first by [].
cbn [nd_filter over_list]; rewrite bnd_assoc.
eapply sim_call; [apply: (Hcor y Hi)|by []|move=> [s1 o] b st1 _ [-> H1]]; cbn [bind fst snd] in *.
case: ys IH => [|y' ys] IH; first by cbn [when size ltn leq over_list]; rewrite /bnd /ret /sim.
cbn [when size ltn leq]; rewrite 2!bnd_assoc.
eapply sim_call; [apply: (Hpre1 H1)|by []|move=> [s2 C] q st2 _ H2]; cbn [bind fst snd] in *.
eapply sim_skip; [reflexivity|]; cbv beta; eapply sim_skip; [reflexivity|]; cbv beta.
eapply sim_call; [apply: (IH _ _ H2)|by []|move=> [l s3] b3 st3 _ [-> H3]].
by apply: sim_ok.
Qed.

Definition efw_of (e0 : nd * nd) (l : seq (nstep F)) : seq ((nd * nd) * option ((nd * nd) * nd)) :=
  zip (e0 :: [seq nt_est t | t <- l]) (rcons [seq Some (nt_pred t, nt_Pxf t) | t <- l] None).

Lemma regroup A B C (mp : met A) (mc : met B) p (k : (nd * nd) * option (A * B) -> met C) st :
  bnd (bnd mp (fun q => bnd mc (fun c0 => ret (p, Some (q, c0))))) k st = bnd (bnd mp (fun q => bnd mc (fun c0 => ret (q, c0)))) (fun qc => k (p, Some qc)) st.
Proof. by rewrite /bnd; case: (mp st) => [[q|e] st1] //; case: (mc st1) => [[]]. Qed.

Lemma dt_forward_sim s y ys st : I s st ->
  sim ever (let* c0 := n_correct flt s y in let* fw := nd_forward flt c0.1 ys in Ok ((ns_x c0.1, ns_P c0.1), fw.1, fw.2))
    (dt_smooth_forward c (y :: ys) st) (fun a b st' => b = efw_of a.1.1 a.1.2 /\ I a.2 st').
Proof.
rewrite /dt_smooth_forward (for_list_over (fun y (b : bool) => let! p := m_correct c y in
  if b then let! q := m_predict c in let! C := m_prediction_crosscov c in ret (p, Some (q, C)) else ret (p, None)) st (drop0 (y :: ys))).
elim: ys y s st => [|y' ys IH] y s st Hi.
all: rewrite over_listS bnd_assoc.
all: eapply sim_call; [apply: (Hcor y Hi)|by []|move=> [s1 o] b st1 _ [-> H1]]; cbn [bind fst snd] in *.
  by cbn [nd_forward size ltn leq over_list]; rewrite /bnd /ret /sim.
cbn [size ltn leq nd_forward]; rewrite bind_bind.
rewrite regroup.
eapply sim_call; [apply: (Hpre H1)|by []|move=> [s2 C] q st2 _ [-> H2]]; cbn [bind fst snd] in *.
have := IH y' _ _ H2; set rest := over_list _ _; rewrite /sim /bnd.
case: (n_correct flt s2 y') => [[s3 o3]|e]; cbn [bind fst snd]; last by case: (rest st2) => [[?|?] ?].
case: (nd_forward flt s3 ys) => [[l s4]|e]; cbn [bind fst snd]; last by case: (rest st2) => [[?|?] ?].
by case: (rest st2) => [[b'|e'] st'] // [-> H4].
Qed.
End Loops.
End Lemmas.
