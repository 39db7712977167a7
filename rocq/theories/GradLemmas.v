(** Closed forms of the objective and its gradient. *)
From Coq Require Import String List ZArith Bool Arith Lia Ring.
From Verif Require Import Py NdArray OptimModel ColModel DictLemmas Builder BuilderLemmas
  NdLemmas OptimSpec OptimLaws LawFacts LayoutLemmas ProblemSpec ProblemLemmas AssemblyLemmas.
Import ListNotations.

Section Grad.
  Context {T : Type} {NT : Num T}.
  Open Scope num_scope.
  Add Ring Tring : (num_rt (T := T)).

  Lemma lsum_nil : lsum (@nil T) = 0.
  Proof. reflexivity. Qed.
  Lemma lsum_cons a (l : list T) : lsum (a :: l) = a + lsum l.
  Proof. reflexivity. Qed.

  Variable p : problem T.
  Variable sel : string -> nat -> nat.
  Hypothesis R : reachable p.
  Hypothesis S : selects p sel.
  Let I : inv p := reachable_inv p R.

  Local Notation obj_at_ok := (ProblemSpec.obj_at_ok p).

  Lemma obj_value dvec vs : length dvec = ndec p ->
    Forall2 (obj_at_ok dvec) (p_objectives p) vs ->
    obj p dvec = Ok (lsum (map (fun v => lsum (adat v)) vs)).
  Proof.
    intros HD HF. destruct (variables_ok p sel dvec I S HD) as (vars & Ev & _).
    unfold obj. rewrite Ev. cbn [bind].
    assert (G : forall acc, foldM (fun acc o => let* v := o_call o vars in Ok (acc + lsum (adat v))) acc (p_objectives p)
      = Ok (acc + lsum (map (fun v => lsum (adat v)) vs))).
    { induction HF as [|o v os vs (F & A & EA & Hv) HF IH]; intros acc; cbn [foldM map].
      - rewrite lsum_nil. f_equal. ring.
      - unfold o_call at 1. unfold fun_args in EA. rewrite Ev in EA. simpl in EA. rewrite EA. cbn [bind].
        rewrite Hv. cbn [bind]. rewrite IH, lsum_cons. f_equal. ring. }
    rewrite G. f_equal. ring.
  Qed.

  Local Notation grad_at_ok := (ProblemSpec.grad_at_ok p).

  (** Pairing of a function's gradient arrays with a decision direction. *)
  Definition gpair (o : optfun T) (gs : sdict (arr T)) (d : nat -> T) : T :=
    lsum (map (fun g => sumn (length (adat (snd g)))
                         (fun i => nth i (adat (snd g)) 0 * d (sel (param o (fst g)) i))) gs).

  Lemma o_grad_ok dvec vars o gs : In o (p_objectives p) -> variables p dvec = Ok vars ->
    grad_at_ok dvec o gs -> o_grad o vars = Ok (map (fun g => (param o (fst g), snd g)) gs).
  Proof.
    intros Hin Ev (F & A & EA & Eg & Nd & Ho).
    destruct (obj_built p R o Hin) as (s & f & args & ->).
    destruct (fits_f p _ _ _ F) as (N1 & N2 & HL).
    destruct (mk_optfun_args s f args) as [Ef Es].
    unfold o_grad. unfold fun_args in EA. rewrite Ev in EA. simpl in EA. rewrite EA. cbn [bind].
    rewrite Eg. cbn [bind]. f_equal. apply rename_s_eq; auto.
    intros k Hk. apply in_map_iff in Hk. destruct Hk as (g & <- & Hg).
    rewrite Forall_forall in Ho. destruct (Ho g Hg) as [Ha _]. now apply (active_sig p) in Ha.
  Qed.

  Lemma add_grads o gs : (forall g, In g gs -> In (fst g) (active p o) /\
      ash (snd g) = param_shape p o (fst g) /\ awf (snd g)) ->
    forall g0, length g0 = ndec p ->
    exists g1, foldM (fun grad kv => let* sp := variable_spec p (fst kv) in s_add_to sp grad (snd kv)) g0
      (map (fun g => (param o (fst g), snd g)) gs) = Ok g1 /\ length g1 = ndec p /\
      forall d, dotp g1 d = dotp g0 d + gpair o gs d.
  Proof.
    induction gs as [|g gs IH]; intros H g0 HL; cbn [map foldM].
    - exists g0. split; [reflexivity|]. split; auto. intros d. unfold gpair. simpl. ring.
    - destruct (H g (or_introl eq_refl)) as (Ha & Es & W).
      destruct (active_var p o (fst g) I Ha) as (sp & Hin & Hv & Ep). cbn [fst snd]. rewrite Hv. cbn [bind].
      rewrite Ep in Es.
      destruct (law_add _ _ _ (S _ _ Hin) g0 (snd g) HL Es W) as (g1 & E1 & HL1 & Hd).
      rewrite E1. cbn [bind].
      destruct (IH (fun g' Hg => H g' (or_intror Hg)) g1 HL1) as (g2 & E2 & HL2 & Hd2).
      exists g2. split; [exact E2|]. split; auto. intros d. rewrite Hd2, Hd. unfold gpair.
      cbn [map]. rewrite lsum_cons. unfold awf in W. rewrite W, Es. ring.
  Qed.

  Lemma grad_value dvec gss : length dvec = ndec p ->
    Forall2 (grad_at_ok dvec) (p_objectives p) gss ->
    exists g, obj_grad p dvec = Ok g /\ length g = ndec p /\
      forall d, dotp g d = lsum (map (fun og => gpair (fst og) (snd og) d) (combine (p_objectives p) gss)).
  Proof.
    intros HD HF. destruct (variables_ok p sel dvec I S HD) as (vars & Ev & _).
    unfold obj_grad. rewrite Ev. cbn [bind].
    assert (G : forall os, (forall o, In o os -> In o (p_objectives p)) -> forall gss, Forall2 (grad_at_ok dvec) os gss ->
      forall g0, length g0 = ndec p -> exists g,
      foldM (fun grad o => let* d := o_grad o vars in
        foldM (fun grad kv => let* sp := variable_spec p (fst kv) in s_add_to sp grad (snd kv)) grad d) g0 os = Ok g
      /\ length g = ndec p /\
      forall d, dotp g d = dotp g0 d + lsum (map (fun og => gpair (fst og) (snd og) d) (combine os gss))).
    { intros os Hos gs' HF'. induction HF' as [|o gs os gss' Ho HF' IH]; intros g0 HL; cbn [foldM].
      - exists g0. split; [reflexivity|]. split; auto. intros d. simpl. ring.
      - rewrite (o_grad_ok dvec vars o gs (Hos o (or_introl eq_refl)) Ev Ho). cbn [bind].
        destruct Ho as (F & A & EA & Eg & Nd & Hg). rewrite Forall_forall in Hg.
        destruct (add_grads o gs Hg g0 HL) as (g1 & E1 & HL1 & Hd1). rewrite E1. cbn [bind].
        destruct (IH (fun o' H => Hos o' (or_intror H)) g1 HL1) as (g2 & E2 & HL2 & Hd2).
        exists g2. split; [exact E2|]. split; auto. intros d. rewrite Hd2, Hd1. cbn [combine map].
        rewrite lsum_cons. cbn [fst snd]. ring. }
    destruct (G (p_objectives p) (fun _ H => H) gss HF (repeat 0 (Z.to_nat (p_ndec p)))) as (g & E & HL & Hd).
    { apply repeat_length. }
    exists g. split; [exact E|]. split; auto. intros d. rewrite Hd, dotp_repeat0. ring.
  Qed.
End Grad.
