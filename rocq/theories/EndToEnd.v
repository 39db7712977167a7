(** From symbolic functions to the derivatives of a whole problem. *)
From Coq Require Import String List ZArith Bool Arith Lia Reals Lra.
From Coquelicot Require Import Coquelicot.
From Verif Require Import Py NdArray OptimModel ColModel DictLemmas Builder BuilderLemmas NdLemmas OptimSpec OptimLaws LawFacts LayoutLemmas
  ProblemSpec ProblemLemmas ProblemFacts DerivSpec CalcLemmas IndexLemmas GenModel GenSpec GenLemmas GenDeriv
  SymModel NameLemmas PropsNames SymLemmas SymDeriv PropsGen PropsSym RegModel RegLemmas
  ColLemmas ColBuild ColLaws AssemblyLemmas GradLemmas ColCalls PropsCol ColValues PropsProblem.
Import ListNotations.
Local Open Scope string_scope.
Local Open Scope list_scope.
Local Open Scope nat_scope.

(** *** Specification: symbolic differentiation is right at arguments [A] *)
Definition sym_right (shp : string -> shape) (f : sfun R) (W : list string) (A : list (list R)) : Prop :=
  sym_jac_law shp f W A /\ sym_hess_law shp f W A /\ sym_commute shp f W A.

(** Derivatives of a whole problem at [dvec]: Jacobian of the constraints,
    gradient of the merit function, Hessian of the Lagrangian. *)
Definition jacobian_right (p : problem R) (dvec : list R) : Prop :=
  exists i0 i1 vals, constr_jac_ind p = Ok (i0, i1) /\ constr_jac_val p dvec = Ok vals /\
    forall j q, j < ndec p -> q < ncons p ->
    is_derive (fun t => nth q (constrv p (vmove dvec (basis j) t)) 0%R) 0%R (dense i0 i1 vals j q).
Definition gradient_right (p : problem R) (dvec : list R) : Prop :=
  exists g, obj_grad p dvec = Ok g /\ length g = ndec p /\
    forall j, j < ndec p -> is_derive (fun t => objv p (vmove dvec (basis j) t)) 0%R (nth j g 0%R).
Definition hessian_right (p : problem R) (dvec : list R) : Prop :=
  forall s m, length m = ncons p ->
  exists i0 i1 vals, lag_hess_ind p = Ok (i0, i1) /\ lag_hess_val p dvec s m = Ok vals /\
    forall j k, d2 (fun u t => lagrangian p s m (vmove (vmove dvec (basis k) t) (basis j) u)) (dense_sym i0 i1 vals j k).
Definition derivatives_right (p : problem R) (dvec : list R) : Prop :=
  (exists v c, obj p dvec = Ok v /\ constr p dvec = Ok c /\ length c = ncons p) /\
  jacobian_right p dvec /\ gradient_right p dvec /\ hessian_right p dvec.

(** Function [o] of problem [p] is the generated function [g] of the symbolic
    function [f]; batch element [e] receives [arg e w] for parameter [w]. *)
Record attached (p : problem R) (sel : string -> nat -> nat) (dvec : list R) (shp : string -> shape) (f : sfun R) (W : list string)
    (o : optfun R) (g : gfun R) (LE : string -> shape) (ext : shape) (arg : nat -> string -> list R) : Prop := {
  at_fun : o_fun o = gen_fn g;
  at_nodup : NoDup (o_args o);
  at_len : length (o_args o) = length (sf_args f);
  at_shape : forall w, In w (sf_args f) -> has_shape p (param o w) (LE w ++ shp w);
  at_ext : bshapes (map LE (sf_args f)) = Ok ext;
  at_active : forall w, In w (sf_args f) -> (In (param o w) (var_names p) <-> In w W);
  at_arg : forall w, In w (sf_args f) -> good_arg p dvec (param o w) (LE w) (shp w) ext (fun e => arg e w);
  at_sep : forall e a b i j, e < prodn ext -> In a W -> In b W -> i < prodn (shp a) -> j < prodn (shp b) -> (a, i) <> (b, j) ->
    sel (param o a) (at_elem (LE a) ext e * prodn (shp a) + i) <> sel (param o b) (at_elem (LE b) ext e * prodn (shp b) + j)
}.

Section Attached.
  Variables (p : problem R) (sel : string -> nat -> nat).
  Hypothesis Rp : reachable p.
  Hypothesis Sp : selects p sel.
  Variables (dvec : list R).
  Hypothesis HL : length dvec = ndec p.
  Variables (sm : smodel R) (shp : string -> shape) (fs : string -> sfun R) (r : reg).
  Notation f := (fs (r_name r)).
  Notation W := (r_wrt r).
  Notation g := (wanted shp fs sm r).
  Hypothesis HF : known_fun shp fs sm r.
  Hypothesis HO : r_obj r = true -> sf_out f = [].
  Variables (o : optfun R) (LE : string -> shape) (ext : shape) (arg : nat -> string -> list R).
  Hypothesis AT : attached p sel dvec shp f W o g LE ext arg.

  Lemma wanted_gwf : gwf g.
  Proof.
    pose proof (hf_wf _ _ _ _ _ HF) as SW. unfold wanted. destruct (r_obj r) eqn:E.
    - apply (objective_gwf shp f W SW _ (hf_bsh_get _ _ _ _ _ HF)); auto.
    - apply (constraint_gwf shp f W SW _ (hf_bsh_get _ _ _ _ _ HF)).
  Qed.
  Lemma wanted_args : gf_args g = sf_args f.
  Proof. unfold wanted. destruct (r_obj r); reflexivity. Qed.
  Lemma wanted_bases : gf_bases g = map shp (sf_args f).
  Proof. unfold wanted. destruct (r_obj r); reflexivity. Qed.
  Lemma wanted_out : gf_out g = sf_out f.
  Proof. unfold wanted. destruct (r_obj r) eqn:E; [symmetry; now apply HO|reflexivity]. Qed.
  Lemma wanted_hess : gf_hess g = map (mk_gderiv (fun w => prodn (shp w)) f) (filter (has_nz (fun w => prodn (shp w)) f) (seconds W)).
  Proof. unfold wanted. destruct (r_obj r); reflexivity. Qed.
  Lemma wanted_base w : In w (sf_args f) -> base_of g w = shp w.
  Proof. intros Hw. apply (base_of_gen shp f g wanted_args wanted_bases w Hw). Qed.

  Lemma att_shape w : In w (gf_args g) -> has_shape p (param o w) (LE w ++ base_of g w).
  Proof. rewrite wanted_args. intros Hw. rewrite wanted_base by auto. now apply (at_shape _ _ _ _ _ _ _ _ _ _ _ AT). Qed.
  Lemma att_ext : bshapes (map (fun w => LE w) (gf_args g)) = Ok ext.
  Proof. rewrite wanted_args. apply (at_ext _ _ _ _ _ _ _ _ _ _ _ AT). Qed.
  Lemma att_fits : fits p o.
  Proof.
    eapply (bind_fits p o g LE); [apply (at_fun _ _ _ _ _ _ _ _ _ _ _ AT)|apply wanted_gwf|apply (at_nodup _ _ _ _ _ _ _ _ _ _ _ AT)| |apply att_shape].
    rewrite wanted_args. apply (at_len _ _ _ _ _ _ _ _ _ _ _ AT).
  Qed.

  (** Exactly the decision arguments are active. *)
  Lemma att_binds : exists A, binds p dvec o g shp W LE ext A /\
    forall e, e < prodn ext -> elems g LE ext A e = map (arg e) (sf_args f).
  Proof.
    pose proof (at_fun _ _ _ _ _ _ _ _ _ _ _ AT) as EF.
    destruct (bind_args p sel Rp Sp o g LE ext EF wanted_gwf) with (dvec := dvec) as (A & EA & FA); auto.
    { rewrite wanted_args. apply (at_len _ _ _ _ _ _ _ _ _ _ _ AT). }
    { apply att_shape. } { apply att_ext. }
    exists A. split.
    - constructor; auto; [apply att_fits| |].
      + intros w. unfold active. rewrite EF. cbn [gen_fn f_sig]. rewrite filter_In, wanted_args, existsb_exists. split.
        * intros [Hw (v & Hv & E)]. apply String.eqb_eq in E. subst v. now apply (at_active _ _ _ _ _ _ _ _ _ _ _ AT).
        * intros Hw. assert (In w (sf_args f)) as Hin by apply (sw_in _ _ _ (hf_wf _ _ _ _ _ HF) w Hw). split; auto.
          exists (param o w). split; [now apply (at_active _ _ _ _ _ _ _ _ _ _ _ AT)|apply String.eqb_refl].
      + intros w Hw. assert (In w (sf_args f)) as Hin by apply (sw_in _ _ _ (hf_wf _ _ _ _ _ HF) w Hw).
        unfold param_shape. destruct (at_shape _ _ _ _ _ _ _ _ _ _ _ AT w Hin) as [sp H1 H2|a H1 _ _ _].
        * rewrite (variable_spec_In p _ sp (reachable_inv _ Rp) H1). exact H2.
        * exfalso. apply H1. now apply (at_active _ _ _ _ _ _ _ _ _ _ _ AT).
    - intros e He. rewrite <- wanted_args. apply (elems_arg p o g LE ext EF wanted_gwf) with (dvec := dvec); auto.
      + rewrite wanted_args. apply (at_len _ _ _ _ _ _ _ _ _ _ _ AT).
      + rewrite wanted_args. intros w Hw. rewrite wanted_base by auto. apply (at_arg _ _ _ _ _ _ _ _ _ _ _ AT w Hw).
  Qed.

  Lemma att_no_alias : no_alias sel o (map (gen_hb g LE ext) (gf_hess g)).
  Proof.
    intros c1 c2 Hin Hne. unfold hcells in Hin. rewrite flat_map_map in Hin. apply in_flat_map in Hin as (d & Hd & Hin).
    pose proof (proj1 (List.Forall_forall _ _) (gw_hess _ wanted_gwf) d Hd)
      as (a & b & i & j & q & E1 & E2 & _ & _ & L1 & L2 & L3 & R1 & R2 & _).
    assert (In a W /\ In b W) as [Ha Hb].
    { rewrite wanted_hess in Hd. apply in_map_iff in Hd as (k & <- & Hk). apply filter_In in Hk as [Hk _].
      apply in_map_iff in Hk as ([a' b'] & <- & Hab). apply pairs2_In in Hab. cbn in E1. injection E1 as <- <-. exact Hab. }
    unfold gen_hb, base_hb, nthrow in Hin. rewrite E1, E2 in Hin. cbn [nth hb_a hb_b hb_i hb_j hb_o] in Hin.
    rewrite !map_flat_map in Hin. rewrite combine_flat_map in Hin by (intros; rewrite !map_length; congruence).
    apply in_flat_map in Hin as (e & He & Hin). apply in_seq in He.
    pose proof (in_combine_l _ _ _ _ Hin) as H1. pose proof (in_combine_r _ _ _ _ Hin) as H2.
    apply in_map_iff in H1 as (z1 & <- & H1). apply in_map_iff in H1 as (i1 & <- & H1).
    apply in_map_iff in H2 as (z2 & <- & H2). apply in_map_iff in H2 as (j1 & <- & H2).
    pose proof (proj1 (List.Forall_forall _ _) R1 i1 H1) as Q1. pose proof (proj1 (List.Forall_forall _ _) R2 j1 H2) as Q2. cbn beta in Q1, Q2.
    assert (Ha' : In a (sf_args f)) by apply (sw_in _ _ _ (hf_wf _ _ _ _ _ HF) a Ha).
    assert (Hb' : In b (sf_args f)) by apply (sw_in _ _ _ (hf_wf _ _ _ _ _ HF) b Hb).
    rewrite !wanted_base in * by auto. cbn [fst snd].
    replace (Z.to_nat (i1 + Z.of_nat (at_elem (LE a) ext e * prodn (shp a)))) with (at_elem (LE a) ext e * prodn (shp a) + Z.to_nat i1) by lia.
    replace (Z.to_nat (j1 + Z.of_nat (at_elem (LE b) ext e * prodn (shp b)))) with (at_elem (LE b) ext e * prodn (shp b) + Z.to_nat j1) by lia.
    apply (at_sep _ _ _ _ _ _ _ _ _ _ _ AT); auto; try lia.
    intros [= -> E]. apply Hne. f_equal. f_equal. lia.
  Qed.

  Hypothesis HR : forall e, e < prodn ext -> sym_right shp f W (map (arg e) (sf_args f)).

  Lemma att_diff2 s : s = ext ++ sf_out f ->
    exists d, fun_diff2 p dvec s o d /\ no_alias sel o (fst (snd d)).
  Proof.
    intros Es. destruct att_binds as (A & BD & EA).
    destruct (bound_hess shp f W g (hf_wf _ _ _ _ _ HF) wanted_gwf wanted_args wanted_bases wanted_hess p dvec o LE ext A BD s) as (d & H1 & H2).
    - now rewrite wanted_out.
    - intros e He. rewrite EA by auto. destruct (HR e He) as (_ & H1 & H2).
      pose proof (hf_wf _ _ _ _ _ HF) as SW. unfold wanted. destruct (r_obj r) eqn:E.
      + apply (objective_hess_law shp f W SW); auto.
      + apply (constraint_hess_law shp f W SW); auto.
    - exists d. split; auto. rewrite H2. apply att_no_alias.
  Qed.
  Lemma att_constr c : r_obj r = false -> c_shape c = ext ++ sf_out f -> exists d, constr_diff p dvec (c, o) d.
  Proof.
    intros E Es. destruct att_binds as (A & BD & EA). pose proof (hf_wf _ _ _ _ _ HF) as SW.
    pose proof (bd_fit _ _ _ _ _ _ _ _ _ BD) as FA. pose proof wanted_gwf as WF. pose proof wanted_out as EO.
    exists (A, (map (gen_jb g LE ext) (gf_jac g), map (gen_val g LE ext A) (gf_jac g))).
    unfold constr_diff. cbn [fst snd]. rewrite Es, <- EO. rewrite (bd_fun _ _ _ _ _ _ _ _ _ BD).
    split; [split; [apply (bd_fits _ _ _ _ _ _ _ _ _ BD)|]|split; [apply (bd_args _ _ _ _ _ _ _ _ _ BD)|split]].
    - cbn [snd fst]. rewrite (bd_fun _ _ _ _ _ _ _ _ _ BD), Es, <- EO. apply gen_jac_struct; auto. intros d Hd.
      apply (bound_w shp f W g SW wanted_args wanted_bases p dvec o LE ext A BD). unfold wanted in Hd. rewrite E in Hd. cbn [wanted_constraint gf_jac] in Hd.
      apply in_map_iff in Hd as (k & <- & Hk). apply filter_In in Hk as [Hk _]. apply in_map_iff in Hk as (w & <- & Hw). exact Hw.
    - apply (gen_calls g WF LE ext); auto.
    - apply gen_jac_law; auto. intros e He D q HD. rewrite EA by auto. destruct (HR e He) as (H1 & _).
      unfold wanted. rewrite E. apply (constraint_jac_law shp f W SW); auto.
      eapply supported_incl; [|eassumption]. intros w. apply (bd_active _ _ _ _ _ _ _ _ _ BD).
  Qed.
  Lemma att_obj : r_obj r = true -> o_shape o = ext -> (forall w, In w W -> exists pre, ext = pre ++ LE w) -> exists d, obj_diff p dvec o d.
  Proof.
    intros E Es HS. destruct att_binds as (A & BD & EA). pose proof (hf_wf _ _ _ _ _ HF) as SW.
    pose proof (bd_fit _ _ _ _ _ _ _ _ _ BD) as FA. pose proof wanted_gwf as WF.
    assert (EO : gf_out g = []) by (rewrite wanted_out; auto). assert (Eo : ext = ext ++ gf_out g) by (rewrite EO; now rewrite app_nil_r).
    destruct (C19_gradient_derivative g (active p o) (param_shape p o) LE ext A WF EO FA) as (gs & HG).
    + intros wf Hwf. unfold wanted in Hwf. rewrite E in Hwf. apply in_map_iff in Hwf as (w & <- & Hw). cbn [fst].
      destruct (bound_w shp f W g SW wanted_args wanted_bases p dvec o LE ext A BD w Hw) as (B1 & B2 & _). auto.
    + intros e He D HD. rewrite EA by auto. destruct (HR e He) as (H1 & _). unfold wanted. rewrite E.
      apply (objective_grad_law shp f W SW); auto.
      eapply supported_incl; [|eassumption]. intros w. apply (bd_active _ _ _ _ _ _ _ _ _ BD).
    + exists (A, gs). unfold obj_diff. rewrite (bd_fun _ _ _ _ _ _ _ _ _ BD), Es.
      split; [apply (bd_fits _ _ _ _ _ _ _ _ _ BD)|]. split; [apply (bd_args _ _ _ _ _ _ _ _ _ BD)|]. split; [|exact HG].
      rewrite Eo. now apply (gen_calls g WF LE ext).
  Qed.
End Attached.
