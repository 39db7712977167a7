(** Binding generated functions to the variables of a problem. *)
From Coq Require Import String List ZArith Bool Arith Lia Reals.
From Verif Require Import Py NdArray OptimModel ColModel DictLemmas Builder BuilderLemmas NdLemmas OptimSpec OptimLaws
  LawFacts LayoutLemmas ProblemSpec ProblemLemmas AssemblyLemmas ProblemFacts DerivSpec IndexLemmas GenModel GenSpec GenLemmas.
Import ListNotations.
Local Open Scope string_scope.
Local Open Scope list_scope.
Local Open Scope nat_scope.

Section Bind.
  Context {T : Type} {NT : Num T}.

  (** Shape of the value bound to name [v] in problem [p]. *)
  Inductive has_shape (p : problem T) (v : string) (s : shape) : Prop :=
  | HSvar sp : In (v, sp) (all_specs p) -> s_shape sp = s -> has_shape p v s
  | HSconst a : ~ In v (var_names p) -> dget String.eqb (p_extra p) v = Some a -> ash a = s -> awf a -> has_shape p v s.

  Lemma In_all_specs (p : problem T) v sp : In (v, sp) (all_specs p) -> In v (var_names p).
  Proof. intros H. rewrite <- fst_all_specs. now apply (in_map fst) in H. Qed.

  Section One.
  Variables (p : problem T) (sel : string -> nat -> nat).
  Hypothesis R : reachable p.
  Hypothesis S : selects p sel.
  Let I : inv p := reachable_inv p R.

  Lemma lookup_shape dvec v s : length dvec = ndec p -> has_shape p v s ->
    exists vars a, variables p dvec = Ok vars /\ dlookup String.eqb vars v = Ok a /\ ash a = s /\ awf a.
  Proof.
    intros HL H. destruct (variables_ok p sel dvec I S HL) as (vars & E & Hv & Hc). exists vars.
    destruct H as [sp Hin Hs|a Hn Hg Hs Hw].
    - exists (var_at sel dvec v sp). split; [auto|]. split; [now apply Hv|]. split; [exact Hs|]. apply awf_seq.
    - exists a. split; [auto|]. split; [|auto]. rewrite Hc by auto. unfold dlookup. now rewrite Hg.
  Qed.

  Variables (o : optfun T) (g : gfun T) (LE : string -> shape) (ext : shape).
  Hypothesis Hfun : o_fun o = gen_fn g.
  Hypothesis WF : gwf g.
  Hypothesis Hargs : NoDup (o_args o).
  Hypothesis Hlen : length (o_args o) = length (gf_args g).
  Hypothesis Hshape : forall w, In w (gf_args g) -> has_shape p (param o w) (LE w ++ base_of g w).
  Hypothesis Hext : bshapes (map (fun w => LE w) (gf_args g)) = Ok ext.

  Lemma bind_fits : fits p o.
  Proof.
    unfold fits. rewrite Hfun. cbn [gen_fn f_sig]. split; [apply (gw_args _ WF)|]. split; [exact Hargs|]. split; [exact Hlen|].
    intros v Hv. rewrite <- (map_param o) in Hv by (rewrite Hfun; cbn; auto; apply (gw_args _ WF)).
    apply in_map_iff in Hv as (w & <- & Hw). rewrite Hfun in Hw.
    destruct (Hshape w Hw) as [sp Hin _|a _ Hg _ _]; [left; eapply In_all_specs; eauto|right; eauto].
  Qed.

  Lemma bind_args dvec : length dvec = ndec p ->
    exists A, fun_args p dvec o = Ok A /\ args_fit g LE ext A.
  Proof.
    intros HL. unfold fun_args. destruct (variables_ok p sel dvec I S HL) as (vars & E & _). rewrite E. cbn [bind].
    assert (M : forall l, (forall w, In w l -> In w (gf_args g)) ->
      exists A, mapM (dlookup String.eqb vars) (map (param o) l) = Ok A /\
        Forall2 (fun w a => ash a = LE w ++ base_of g w /\ awf a) l A).
    { induction l as [|w l IH]; intros Hl; [exists []; split; [reflexivity|constructor]|].
      destruct IH as (A & EA & FA); [intros; apply Hl; simpl; auto|].
      destruct (lookup_shape dvec (param o w) _ HL (Hshape w (Hl w (or_introl eq_refl)))) as (vars' & a & E' & El & Es & Ew).
      rewrite E in E'. injection E' as <-. exists (a :: A). cbn [map mapM]. rewrite El. cbn [bind]. rewrite EA. cbn [bind].
      split; [reflexivity|]. constructor; auto. }
    destruct (M (gf_args g) (fun w H => H)) as (A & EA & FA). exists A. split.
    - unfold get_args. rewrite <- (map_param o) by (rewrite Hfun; cbn; auto; apply (gw_args _ WF)). rewrite Hfun. exact EA.
    - split; [|exact Hext]. pose proof (gw_args _ WF) as N. pose proof (gw_bases _ WF) as LB.
      assert (HB : forall w b, In (w, b) (combine (gf_args g) (gf_bases g)) -> base_of g w = b).
      { intros w b Hin. unfold base_of. rewrite (In_dget _ String.eqb_spec _ _ b); auto. now rewrite map_fst_combine. }
      clear - FA HB LB. revert HB LB. generalize (gf_bases g) as bs. revert A FA.
      generalize (gf_args g) as ws. induction ws as [|w ws IH]; intros A FA bs HB LB.
      + inversion FA; subst. constructor.
      + inversion FA as [|? a ? A' [H1 H2] H3]; subst. destruct bs as [|b bs]; [discriminate|]. cbn [combine].
        constructor; [|apply IH; auto; intros; apply HB; simpl; auto]. cbn [fst snd].
        rewrite <- (HB w b) by (simpl; auto). auto.
  Qed.

  (** The shape of an active parameter, from its batch and base shapes. *)
  Lemma bind_param_shape w : In w (gf_args g) -> In (param o w) (var_names p) -> param_shape p o w = LE w ++ base_of g w.
  Proof.
    intros Hw Hv. destruct (Hshape w Hw) as [sp Hin Hs|a Hn _ _ _]; [|contradiction].
    rewrite <- Hs. now apply param_shape_eq.
  Qed.
  End One.
End Bind.

(** *** Aliases in generated Hessians *)
Section Alias.
  Variables (g : gfun R) (WF : gwf g) (LE : string -> shape) (ext : shape).
  Lemma hcells_gen c1 c2 : In (c1, c2) (hcells (map (gen_hb g LE ext) (gf_hess g))) ->
    exists d e i j, In d (gf_hess g) /\ e < prodn ext /\
      let a := nth 0 (gd_wrt d) EmptyString in let b := nth 1 (gd_wrt d) EmptyString in
      gd_wrt d = [a; b] /\ i < prodn (base_of g a) /\ j < prodn (base_of g b) /\
      c1 = (a, Z.of_nat (at_elem (LE a) ext e * prodn (base_of g a) + i)) /\
      c2 = (b, Z.of_nat (at_elem (LE b) ext e * prodn (base_of g b) + j)).
  Proof.
    unfold hcells. intros H. apply in_flat_map in H as (h & Hh & Hc). apply in_map_iff in Hh as (d & <- & Hd).
    pose proof (gw_hess _ WF) as HW. rewrite List.Forall_forall in HW.
    destruct (HW d Hd) as (a & b & i & j & oo & E1 & E2 & _ & _ & L1 & L2 & L3 & R1 & R2 & R3 & _).
    unfold gen_hb, base_hb, nthrow in Hc. rewrite E1, E2 in Hc. cbn [nth hb_a hb_b hb_i hb_j] in Hc.
    set (fi := fun e => map (fun i0 : Z => (i0 + Z.of_nat (at_elem (LE a) ext e * prodn (base_of g a)))%Z) i) in Hc.
    set (fj := fun e => map (fun i0 : Z => (i0 + Z.of_nat (at_elem (LE b) ext e * prodn (base_of g b)))%Z) j) in Hc.
    assert (Q : forall l, In (c1, c2) (combine (map (fun z => (a, z)) (flat_map fi l)) (map (fun z => (b, z)) (flat_map fj l))) ->
              exists e, In e l /\ In (c1, c2) (combine (map (fun z => (a, z)) (fi e)) (map (fun z => (b, z)) (fj e)))).
    { induction l as [|e l IH]; cbn [flat_map]; [intros []|]. rewrite !map_app, combine_app2.
      - intros Hin. apply in_app_or in Hin as [Hin|Hin]; [exists e; simpl; auto|].
        destruct (IH Hin) as (e' & He' & H'). exists e'. simpl; auto.
      - unfold fi, fj. rewrite !map_length. congruence. }
    apply Q in Hc as (e & He & Hc). apply in_seq in He.
    unfold fi, fj in Hc. rewrite !map_map in Hc.
    assert (Q2 : forall (l m : list Z) (u v : Z -> string * Z), In (c1, c2) (combine (map u l) (map v m)) ->
              exists x y, In x l /\ In y m /\ c1 = u x /\ c2 = v y).
    { clear. induction l as [|x l IH]; intros [|y m] u v; cbn; try tauto. intros [E|H].
      - injection E as <- <-. exists x, y. auto 6.
      - destruct (IH m u v H) as (x' & y' & H1 & H2 & H3 & H4). exists x', y'. auto 6. }
    apply Q2 in Hc as (x & y & Hx & Hy & -> & ->).
    unfold in_range in R1, R2. rewrite List.Forall_forall in R1, R2. specialize (R1 x Hx). specialize (R2 y Hy).
    exists d, e, (Z.to_nat x), (Z.to_nat y). rewrite E1. cbn [nth]. split; [auto|]. split; [lia|].
    split; [auto|]. split; [lia|]. split; [lia|]. split; f_equal; lia.
  Qed.

  (** If within every batch element different argument elements are different
      decisions, then there are no aliases. *)
  Lemma gen_no_alias sel (o : optfun R) :
    (forall d, In d (gf_hess g) -> forall a b i j e, In a (gd_wrt d) -> In b (gd_wrt d) -> e < prodn ext ->
       i < prodn (base_of g a) -> j < prodn (base_of g b) ->
       sel (param o a) (at_elem (LE a) ext e * prodn (base_of g a) + i)
       = sel (param o b) (at_elem (LE b) ext e * prodn (base_of g b) + j) -> a = b /\ i = j) ->
    no_alias sel o (map (gen_hb g LE ext) (gf_hess g)).
  Proof.
    intros H c1 c2 Hin Hne E. destruct (hcells_gen c1 c2 Hin) as (d & e & i & j & Hd & He & Ew & Hi & Hj & -> & ->).
    cbn [fst snd] in E. rewrite !Nat2Z.id in E. apply Hne.
    assert (Ha : In (nth 0 (gd_wrt d) EmptyString) (gd_wrt d)) by (rewrite Ew; simpl; auto).
    assert (Hb : In (nth 1 (gd_wrt d) EmptyString) (gd_wrt d)) by (rewrite Ew; simpl; auto).
    destruct (H d Hd _ _ _ _ e Ha Hb He Hi Hj E) as [-> ->]. reflexivity.
  Qed.
End Alias.
