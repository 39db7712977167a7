(** Properties C08-C17: the assembled problem. *)
From Coq Require Import String List ZArith Bool Arith Lia Reals Lra.
From Coquelicot Require Import Coquelicot.
From Verif Require Import Py NdArray OptimModel ColModel DictLemmas Builder BuilderLemmas
  NdLemmas OptimSpec OptimLaws LawFacts LayoutLemmas ProblemSpec ProblemLemmas AssemblyLemmas
  GradLemmas ProblemFacts DerivSpec CalcLemmas DerivThms ExampleFn DenseLemmas.
Import ListNotations.
Local Open Scope R_scope.
Local Open Scope string_scope.
Local Open Scope list_scope.

(** The selector hypothesis of the theorems below can always be met when the
    dependent variables are well behaved (C05-C07 show the collocation ones are). *)
Theorem selector_exists (T : Type) (NT : Num T) (p : problem T) :
  reachable p -> dependents_lawful p -> exists sel, selects p sel.
Proof. exact (selects_exists p). Qed.
Print Assumptions selector_exists.

(** ** C08.  The constraint vector has [ncons] entries; reading the slice of a
    constraint gives that constraint's value at the unpacked variables,
    broadcast to its registered shape ... *)
Theorem C08_constraint_layout (T : Type) (NT : Num T) (p : problem T) sel dvec vs :
  reachable p -> selects p sel -> length dvec = ndec p ->
  Forall2 (cval_ok p dvec) (p_constraints p) vs ->
  exists cvec, constr p dvec = Ok cvec /\ length cvec = ncons p /\
    Forall2 (fun co v => c_unpack (fst co) cvec = Ok v) (p_constraints p) vs.
Proof. exact (fun R S => constr_slices p sel R S dvec vs). Qed.
Print Assumptions C08_constraint_layout.

(** ... and [unpack_constraints] returns it under the function's name (the
    last one registered, if a name repeats). *)
Theorem C08_unpack_constraints (T : Type) (NT : Num T) (p : problem T) sel dvec vs :
  reachable p -> selects p sel -> length dvec = ndec p ->
  Forall2 (cval_ok p dvec) (p_constraints p) vs ->
  exists cvec d, constr p dvec = Ok cvec /\ unpack_constraints p cvec = Ok d /\
    forall nm, nm <> "" -> dget String.eqb d nm = last_named nm (combine (p_constraints p) vs).
Proof.
  intros R S HL HF. destruct (constr_slices p sel R S dvec vs HL HF) as (cvec & E1 & E2 & E3).
  destruct (unpack_constraints_val p R cvec vs E2 E3) as (d & E4 & E5). eauto.
Qed.
Print Assumptions C08_unpack_constraints.

Example C08_nonvacuous x y :
  reachable ex_problem /\ selects ex_problem ex_sel /\
  Forall2 (cval_ok ex_problem [x; y]) (p_constraints ex_problem) [Arr [] [(y * y * x)%R]] /\
  constr ex_problem [x; y] = Ok [(y * y * x)%R].
Proof.
  split; [apply ex_reachable|]. split; [apply ex_selects|]. split; [|reflexivity].
  constructor; [|constructor]. split; [apply ex_fits_c|]. do 2 eexists. repeat split.
Qed.

(** ** C09.  For well-behaved functions no assertion of the assembly fires;
    index arrays and value vectors have exactly nnz entries, in range, and the
    k-th value is the one that belongs to the k-th index. *)
Theorem C09_jacobian (T : Type) (NT : Num T) (p : problem T) sel dvec jds :
  reachable p -> selects p sel -> length dvec = ndec p ->
  Forall2 (jac_at_ok p dvec) (p_constraints p) jds ->
  exists nnz i0 i1 vals,
    constr_jac_nnz p = Ok nnz /\ constr_jac_ind p = Ok (i0, i1) /\ constr_jac_val p dvec = Ok vals /\
    length i0 = nnz /\ length i1 = nnz /\ length vals = nnz /\
    in_range (ndec p) i0 /\ in_range (ncons p) i1 /\
    combine i0 (combine i1 vals)
    = flat_map (fun x => jentries sel (fst x) (snd x)) (combine (p_constraints p) jds).
Proof. exact (fun R S => jac_entries p sel R S dvec jds). Qed.
Print Assumptions C09_jacobian.

Theorem C09_constraint_hessian (T : Type) (NT : Num T) (p : problem T) sel dvec hds :
  reachable p -> selects p sel -> length dvec = ndec p ->
  Forall2 (chess_at_ok p dvec) (p_constraints p) hds ->
  exists nnz i0 i1 i2 vals,
    constr_hess_nnz p = Ok nnz /\ constr_hess_ind p = Ok (i0, i1, i2) /\ constr_hess_val p dvec = Ok vals /\
    length i0 = nnz /\ length i1 = nnz /\ length i2 = nnz /\ length vals = nnz /\
    in_range (ndec p) i0 /\ in_range (ndec p) i1 /\ in_range (ncons p) i2 /\
    combine (combine i0 i1) (combine i2 vals)
    = flat_map (fun x => hentries sel (c_off (fst (fst x))) (snd (fst x)) (snd x)) (combine (p_constraints p) hds).
Proof. exact (fun R S => chess_entries p sel R S dvec hds). Qed.
Print Assumptions C09_constraint_hessian.

Theorem C09_objective_hessian (T : Type) (NT : Num T) (p : problem T) sel dvec hds :
  reachable p -> selects p sel -> length dvec = ndec p ->
  Forall2 (ohess_at_ok p dvec) (p_objectives p) hds ->
  exists nnz i0 i1 vals,
    obj_hess_nnz p = Ok nnz /\ obj_hess_ind p = Ok (i0, i1) /\ obj_hess_val p dvec = Ok vals /\
    length i0 = nnz /\ length i1 = nnz /\ length vals = nnz /\
    in_range (ndec p) i0 /\ in_range (ndec p) i1 /\
    combine (combine i0 i1) vals
    = map (fun e => (fst e, snd (snd e)))
        (flat_map (fun x => hentries sel 0 (fst x) (snd x)) (combine (p_objectives p) hds)).
Proof. exact (fun R S => ohess_entries p sel R S dvec hds). Qed.
Print Assumptions C09_objective_hessian.

(** ** C09 (Lagrangian) and C14.  The Lagrangian Hessian is the objective
    entries times the objective multiplier, followed by the constraint entries
    each times the multiplier of its own constraint row. *)
Theorem C14_lagrangian_hessian (T : Type) (NT : Num T) (p : problem T) sel dvec ods cds s m :
  reachable p -> selects p sel -> length dvec = ndec p -> length m = ncons p ->
  Forall2 (ohess_at_ok p dvec) (p_objectives p) ods ->
  Forall2 (chess_at_ok p dvec) (p_constraints p) cds ->
  exists nnz i0 i1 vals,
    lag_hess_nnz p = Ok nnz /\ lag_hess_ind p = Ok (i0, i1) /\ lag_hess_val p dvec s m = Ok vals /\
    length i0 = nnz /\ length i1 = nnz /\ length vals = nnz /\
    in_range (ndec p) i0 /\ in_range (ndec p) i1 /\
    combine (combine i0 i1) vals
    = map (fun e => (fst e, nmul (snd (snd e)) s))
        (flat_map (fun x => hentries sel 0 (fst x) (snd x)) (combine (p_objectives p) ods))
      ++ map (fun e => (fst e, nmul (snd (snd e)) (nth (Z.to_nat (fst (snd e))) m n0)))
        (flat_map (fun x => hentries sel (c_off (fst (fst x))) (snd (fst x)) (snd x)) (combine (p_constraints p) cds)).
Proof.
  intros R S HL Hm HO HC.
  destruct (chess_entries p sel R S dvec cds HL HC)
    as (cn & c0 & c1 & c2 & cv & CN & CI & CV & Lc0 & Lc1 & Lc2 & Lcv & Rc0 & Rc1 & Rc2 & CE).
  destruct (ohess_entries p sel R S dvec ods HL HO)
    as (on & o0 & o1 & ov & ON & OI & OV & Lo0 & Lo1 & Lov & Ro0 & Ro1 & OE).
  destruct (lag_value p R dvec s m (o0, o1) (c0, c1) ov cv c2 Hm (ex_intro _ _ ON) (ex_intro _ _ CN) CI OI OV CV Rc2)
    as [LI LV]. cbn [fst snd] in LI.
  exists (on + cn)%nat. do 3 eexists. split; [unfold lag_hess_nnz; rewrite ON, CN; reflexivity|].
  split; [exact LI|]. split; [exact LV|].
  split; [rewrite app_length; lia|]. split; [rewrite app_length; lia|].
  split; [rewrite app_length, !map_length, combine_length; lia|].
  split; [now apply Forall_app|]. split; [now apply Forall_app|].
  rewrite (combine_app2 o0) by congruence.
  rewrite combine_app2 by (rewrite combine_length, map_length; lia). f_equal.
  - transitivity (map (fun e => (fst e, nmul (snd e) s)) (combine (combine o0 o1) ov)).
    + rewrite combine_map_r. reflexivity.
    + rewrite OE, map_map. reflexivity.
  - rewrite <- CE, combine_map_r. reflexivity.
Qed.
Print Assumptions C14_lagrangian_hessian.

(** ** C14.  It is linear in the multipliers. *)
Theorem C14_linear (T : Type) (NT : Num T) (p : problem T) sel dvec ods cds :
  reachable p -> selects p sel -> length dvec = ndec p ->
  Forall2 (ohess_at_ok p dvec) (p_objectives p) ods ->
  Forall2 (chess_at_ok p dvec) (p_constraints p) cds ->
  forall (a b s s' : T) m m', length m = ncons p -> length m' = ncons p ->
  exists v v', lag_hess_val p dvec s m = Ok v /\ lag_hess_val p dvec s' m' = Ok v' /\
    lag_hess_val p dvec (nadd (nmul a s) (nmul b s'))
      (map (fun mm => nadd (nmul a (fst mm)) (nmul b (snd mm))) (combine m m'))
    = Ok (map (fun vv => nadd (nmul a (fst vv)) (nmul b (snd vv))) (combine v v')).
Proof.
  intros R S HL HO HC a b s s' m m' Hm Hm'.
  destruct (chess_entries p sel R S dvec cds HL HC)
    as (cn & c0 & c1 & c2 & cv & CN & CI & CV & Lc0 & Lc1 & Lc2 & Lcv & Rc0 & Rc1 & Rc2 & CE).
  destruct (ohess_entries p sel R S dvec ods HL HO)
    as (on & o0 & o1 & ov & ON & OI & OV & Lo0 & Lo1 & Lov & Ro0 & Ro1 & OE).
  pose proof (fun s m Hm => proj2 (lag_value p R dvec s m (o0, o1) (c0, c1) ov cv c2 Hm
     (ex_intro _ _ ON) (ex_intro _ _ CN) CI OI OV CV Rc2)) as LV.
  do 2 eexists. split; [apply LV; auto|]. split; [apply LV; auto|].
  rewrite LV by (rewrite map_length, combine_length; lia).
  pose proof (num_rt (T := T)) as RT.
  f_equal. rewrite combine_app2 by now rewrite !map_length. rewrite map_app. f_equal.
  - clear - RT. induction ov as [|x ov IH]; cbn [map combine]; auto. f_equal; [|exact IH]. cbn [fst snd].
    rewrite (Rmul_comm RT x), (Rdistr_l RT), <- !(Rmul_assoc RT), (Rmul_comm RT s x), (Rmul_comm RT s' x). reflexivity.
  - clear - RT Rc2 Hm Hm'. revert cv. induction c2 as [|i c2 IH]; intros [|x cv]; cbn [map combine]; auto.
    inversion Rc2; subst. f_equal; [|now apply IH]. cbn [fst snd].
    rewrite (nth_map_d (fun mm => nadd (nmul a (fst mm)) (nmul b (snd mm))) _ _ (n0, n0))
      by (rewrite combine_length; lia).
    rewrite combine_nth by congruence. cbn [fst snd].
    rewrite (Rmul_comm RT x), (Rdistr_l RT), <- !(Rmul_assoc RT),
      (Rmul_comm RT (nth (Z.to_nat i) m n0) x), (Rmul_comm RT (nth (Z.to_nat i) m' n0) x). reflexivity.
Qed.
Print Assumptions C14_linear.

(** Hypotheses of C09 and C14 hold for the example problem, where two
    functions contribute. *)
Example C09_nonvacuous x y :
  Forall2 (jac_at_ok ex_problem [x; y]) (p_constraints ex_problem)
    [(sqmul_jac, [Arr [1%nat] [(2 * y * x)%R]; Arr [1%nat] [(y * y)%R]])] /\
  constr_jac_ind ex_problem = Ok ([1%Z; 0%Z], [0%Z; 0%Z]) /\
  constr_jac_val ex_problem [x; y] = Ok [(2 * y * x)%R; (y * y)%R] /\
  (forall s m, lag_hess_ind ex_problem = Ok ([0; 0; 1; 1]%Z, [0; 1; 1; 0]%Z) /\
   lag_hess_val ex_problem [x; y] s [m]
   = Ok [(2 * y * s)%R; (2 * x * s)%R; (2 * x * m)%R; (2 * y * m)%R]).
Proof.
  split; [|repeat split].
  constructor; [|constructor]. pose proof (ex_constr_diff x y) as H. inversion H as [|? ? ? ? H0 _]; subst; clear H.
  destruct H0 as (K1 & K2 & _ & K3 & _). split; auto. exists (ab y x). split; auto.
Qed.

Example C14_nonvacuous x y :
  (exists ods, Forall2 (ohess_at_ok ex_problem [x; y]) (p_objectives ex_problem) ods) /\
  (exists cds, Forall2 (chess_at_ok ex_problem [x; y]) (p_constraints ex_problem) cds) /\
  ncons ex_problem = 1%nat.
Proof.
  split; [|split; [|reflexivity]].
  - exists [(sqmul_hess, [Arr [1%nat] [(2 * y)%R]; Arr [1%nat] [(2 * x)%R]])]. constructor; [|constructor].
    pose proof (ex_obj_diff2 x y) as H. inversion H as [|? ? ? ? H0 _]; subst; clear H.
    destruct H0 as [(K1 & K2 & _ & K3 & _) _]. split; auto. exists (ab x y). split; auto.
  - exists [(sqmul_hess, [Arr [1%nat] [(2 * x)%R]; Arr [1%nat] [(2 * y)%R]])]. constructor; [|constructor].
    pose proof (ex_constr_diff2 x y) as H. inversion H as [|? ? ? ? H0 _]; subst; clear H.
    destruct H0 as [(K1 & K2 & _ & K3 & _) _]. split; auto. exists (ab y x). split; auto.
Qed.

(** ** C10.  If every constraint function's sparse Jacobian is its derivative
    then the assembled one is: along every direction e, the derivative of row
    q is the sum of the listed values in that row times e at their columns. *)
Theorem C10_jacobian_directional (p : problem R) sel dvec ds :
  reachable p -> selects p sel -> length dvec = ndec p ->
  Forall2 (constr_diff p dvec) (p_constraints p) ds ->
  exists i0 i1 vals,
    constr_jac_ind p = Ok (i0, i1) /\ constr_jac_val p dvec = Ok vals /\
    length i0 = length i1 /\ length i1 = length vals /\
    in_range (ndec p) i0 /\ in_range (ncons p) i1 /\
    (forall e t, exists c, constr p (vmove dvec e t) = Ok c /\ length c = ncons p) /\
    forall e q, (q < ncons p)%nat ->
    is_derive (fun t => nth q (constrv p (vmove dvec e t)) 0%R) 0
      (tsum i0 i1 vals (fun z => e (Z.to_nat z)) (Z.of_nat q)).
Proof. exact (fun R S => jac_is_derivative p sel R S dvec ds). Qed.
Print Assumptions C10_jacobian_directional.

(** In particular entry (q, j) of the matrix of listed values is the partial
    derivative of constraint row q with respect to decision j. *)
Theorem C10_jacobian (p : problem R) sel dvec ds :
  reachable p -> selects p sel -> length dvec = ndec p ->
  Forall2 (constr_diff p dvec) (p_constraints p) ds ->
  exists i0 i1 vals,
    constr_jac_ind p = Ok (i0, i1) /\ constr_jac_val p dvec = Ok vals /\
    forall j q, (j < ndec p)%nat -> (q < ncons p)%nat ->
    is_derive (fun t => nth q (constrv p (vmove dvec (basis j) t)) 0%R) 0 (dense i0 i1 vals j q).
Proof.
  intros R S HL HF.
  destruct (jac_is_derivative p sel R S dvec ds HL HF) as (i0 & i1 & vals & E1 & E2 & _ & _ & R0 & _ & _ & H).
  exists i0, i1, vals. split; [auto|]. split; [auto|]. intros j q Hj Hq.
  rewrite <- (tsum_dense (ndec p)) by auto. now apply H.
Qed.
Print Assumptions C10_jacobian.

Example C10_nonvacuous x y : exists ds,
  Forall2 (constr_diff ex_problem [x; y]) (p_constraints ex_problem) ds /\ reachable ex_problem /\
  selects ex_problem ex_sel /\ ncons ex_problem = 1%nat /\ ndec ex_problem = 2%nat.
Proof. eexists. split; [apply ex_constr_diff|]. split; [apply ex_reachable|]. split; [apply ex_selects|]. repeat split. Qed.

(** ** C11.  [obj_grad] is the gradient of [obj]. *)
Theorem C11_gradient (p : problem R) sel dvec ds :
  reachable p -> selects p sel -> length dvec = ndec p ->
  Forall2 (obj_diff p dvec) (p_objectives p) ds ->
  exists g, obj_grad p dvec = Ok g /\ length g = ndec p /\
    (forall e t, exists v, obj p (vmove dvec e t) = Ok v) /\
    (forall e, is_derive (fun t => objv p (vmove dvec e t)) 0
       (rsum (map (fun k => (nth k g 0 * e k)%R) (seq 0 (ndec p))))) /\
    forall j, (j < ndec p)%nat -> is_derive (fun t => objv p (vmove dvec (basis j) t)) 0 (nth j g 0%R).
Proof.
  intros R S HL HF. destruct (grad_is_derivative p sel R S dvec ds HL HF) as (g & E1 & E2 & E3 & H).
  exists g. do 4 (split; [auto|]). intros j Hj. rewrite <- (rsum_basis g j (ndec p)) by auto. apply H.
Qed.
Print Assumptions C11_gradient.

Example C11_nonvacuous x y : (exists ds, Forall2 (obj_diff ex_problem [x; y]) (p_objectives ex_problem) ds) /\
  obj_grad ex_problem [x; y] = Ok [(0 + 2 * x * y)%R; (0 + x * x)%R].
Proof. split; [eexists; apply ex_obj_diff|reflexivity]. Qed.

(** ** C12.  If every function's triangular sparse Hessian represents its
    second derivative, and no listed entry has two different argument elements
    that are the same decision, then the symmetric matrix represented by
    [lag_hess_ind] / [lag_hess_val] is the Hessian of the Lagrangian. *)
Theorem C12_lagrangian_hessian (p : problem R) sel dvec cds ods s m :
  reachable p -> selects p sel -> length dvec = ndec p -> length m = ncons p ->
  Forall2 (fun co d => fun_diff2 p dvec (c_shape (fst co)) (snd co) d /\ no_alias sel (snd co) (fst (snd d)))
          (p_constraints p) cds ->
  Forall2 (fun o d => fun_diff2 p dvec (o_shape o) o d /\ no_alias sel o (fst (snd d))) (p_objectives p) ods ->
  exists i0 i1 vals,
    lag_hess_ind p = Ok (i0, i1) /\ lag_hess_val p dvec s m = Ok vals /\
    length i0 = length vals /\ length i1 = length vals /\
    (forall D E u t, exists v c, obj p (vmove (vmove dvec E t) D u) = Ok v /\
       constr p (vmove (vmove dvec E t) D u) = Ok c /\ length c = ncons p) /\
    (forall D E, d2 (fun u t => lagrangian p s m (vmove (vmove dvec E t) D u)) (symform i0 i1 vals D E)) /\
    forall j k, d2 (fun u t => lagrangian p s m (vmove (vmove dvec (basis k) t) (basis j) u))
                   (dense_sym i0 i1 vals j k).
Proof.
  intros R S HL Hm HC HO.
  destruct (lag_is_second_derivative p sel R S dvec cds ods s m HL Hm HC HO)
    as (i0 & i1 & vals & E1 & E2 & E3 & E4 & R0 & R1 & H1 & H2).
  exists i0, i1, vals. do 6 (split; [auto|]). intros j k.
  rewrite <- (symform_dense (ndec p)) by auto. apply H2.
Qed.
Print Assumptions C12_lagrangian_hessian.

Example C12_nonvacuous x y :
  (exists cds, Forall2 (fun co d => fun_diff2 ex_problem [x; y] (c_shape (fst co)) (snd co) d
     /\ no_alias ex_sel (snd co) (fst (snd d))) (p_constraints ex_problem) cds) /\
  (exists ods, Forall2 (fun o d => fun_diff2 ex_problem [x; y] (o_shape o) o d
     /\ no_alias ex_sel o (fst (snd d))) (p_objectives ex_problem) ods).
Proof. split; eexists; [apply ex_constr_diff2|apply ex_obj_diff2]. Qed.

(** ** C13 (refuted).  Without the no-alias hypothesis C12 is false: x^2 z with
    z the same decision as x is x^3, whose second derivative at 1 is 6; the
    code represents 4. *)
Theorem C13_overlap_refuted :
  exists p sel dvec cds ods s m,
  reachable p /\ selects p sel /\ length dvec = ndec p /\ length m = ncons p /\
  Forall2 (fun co d => fun_diff2 p dvec (c_shape (fst co)) (snd co) d) (p_constraints p) cds /\
  Forall2 (fun o d => fun_diff2 p dvec (o_shape o) o d) (p_objectives p) ods /\
  exists i0 i1 vals,
    lag_hess_ind p = Ok (i0, i1) /\ lag_hess_val p dvec s m = Ok vals /\
    ~ d2 (fun u t => lagrangian p s m (vmove (vmove dvec (basis 0) t) (basis 0) u))
         (dense_sym i0 i1 vals 0 0).
Proof.
  exists alias_problem, alias_sel, [1%R], [], [(ab 1 1, (sqmul_hess, [Arr [1%nat] [(2 * 1)%R]; Arr [1%nat] [(2 * 1)%R]]))], 1%R, [].
  split; [apply alias_reachable|]. split; [apply alias_selects|]. split; [reflexivity|]. split; [reflexivity|].
  split; [constructor|]. split; [apply alias_diff2|].
  exists [0%Z; 0%Z], [0%Z; 0%Z], [(2 * 1 * 1)%R; (2 * 1 * 1)%R].
  split; [apply alias_facts|]. split; [apply alias_facts|].
  intros H. pose proof (d2_unique _ _ _ alias_derivative H) as E.
  unfold dense_sym, dense in E. simpl in E. lra.
Qed.
Print Assumptions C13_overlap_refuted.

(** ** C15.  What Ipopt receives: rows of the Jacobian are constraints,
    columns are decisions, aligned with the values; the element counts are the
    lengths the callbacks return. *)
Theorem C15_ipopt (T : Type) (NT : Num T) (p : problem T) sel dvec jds ods cds s m :
  reachable p -> selects p sel -> length dvec = ndec p -> length m = ncons p ->
  Forall2 (jac_at_ok p dvec) (p_constraints p) jds ->
  Forall2 (ohess_at_ok p dvec) (p_objectives p) ods ->
  Forall2 (chess_at_ok p dvec) (p_constraints p) cds ->
  exists a rows cols jv h0 h1 hv,
    ipopt p = Ok a /\
    ip_f a dvec = obj p dvec /\ ip_g a dvec = constr p dvec /\ ip_grad a dvec = obj_grad p dvec /\
    ip_jac_ind a = Ok (rows, cols) /\ ip_jac_val a dvec = Ok jv /\
    length rows = ip_nele_jac a /\ length cols = ip_nele_jac a /\ length jv = ip_nele_jac a /\
    in_range (ncons p) rows /\ in_range (ndec p) cols /\
    combine cols (combine rows jv)
    = flat_map (fun x => jentries sel (fst x) (snd x)) (combine (p_constraints p) jds) /\
    ip_hess_ind a = Ok (h0, h1) /\ ip_hess_val a dvec s m = Ok hv /\
    length h0 = ip_nele_hess a /\ length h1 = ip_nele_hess a /\ length hv = ip_nele_hess a /\
    in_range (ndec p) h0 /\ in_range (ndec p) h1.
Proof.
  intros R S HL Hm HJ HO HC.
  destruct (C09_jacobian T NT p sel dvec jds R S HL HJ) as (nj & i0 & i1 & jv & N1 & I1 & V1 & L1 & L2 & L3 & R1 & R2 & EJ).
  destruct (C14_lagrangian_hessian T NT p sel dvec ods cds s m R S HL Hm HO HC)
    as (nh & h0 & h1 & hv & N2 & I2 & V2 & M1 & M2 & M3 & S1 & S2 & _).
  do 7 eexists. split; [unfold ipopt; rewrite N1, N2; reflexivity|]. cbn.
  unfold ipopt_jac_ind, ipopt_hess_ind. rewrite I1. cbn [bind fst snd].
  split; [reflexivity|]. split; [reflexivity|]. split; [reflexivity|]. split; [reflexivity|].
  split; [exact V1|]. do 5 (split; [assumption|]). split; [exact EJ|].
  split; [exact I2|]. split; [exact V2|]. repeat split; assumption.
Qed.
Print Assumptions C15_ipopt.

Example C15_nonvacuous x y s m : exists a, ipopt ex_problem = Ok a /\
  ip_jac_ind a = Ok ([0%Z; 0%Z], [1%Z; 0%Z]) /\ ip_nele_jac a = 2%nat /\ ip_nele_hess a = 4%nat /\
  ip_hess_val a [x; y] s [m] = lag_hess_val ex_problem [x; y] s [m].
Proof. eexists. repeat split. Qed.

(** ** C16.  A function registered with distinct argument names gets those
    variables, in order; its i-th parameter's shape is that of the i-th
    argument; derivative blocks of its i-th parameter are attributed to the
    i-th argument, in every callback. *)
Theorem C16_renaming (T : Type) (NT : Num T) (s : shape) (f : fn T) (args : list string) :
  NoDup (f_sig f) -> NoDup args -> length args = length (f_sig f) ->
  let o := mk_optfun s f (Some args) in
  exists rn : string -> string,
  (forall i, (i < length args)%nat -> rn (nth i (f_sig f) "") = nth i args "") /\
  (forall vars vals, mapM (dlookup String.eqb vars) args = Ok vals ->
     o_call o vars = f_call f vals /\
     (forall d, f_grad f vals = Ok d -> NoDup (map fst d) -> (forall k, In k (map fst d) -> In k (f_sig f)) ->
        o_grad o vars = Ok (map (fun kv => (rn (fst kv), snd kv)) d)) /\
     (forall d, f_jac_val f vals = Ok d -> NoDup (map fst d) ->
        (forall k, In k (map fst d) -> List.Forall (fun w => In w (f_sig f)) k) ->
        o_jac_val o vars = Ok (map (fun kv => (map rn (fst kv), snd kv)) d)) /\
     (forall d, f_hess_val f vals = Ok d -> NoDup (map fst d) ->
        (forall k, In k (map fst d) -> List.Forall (fun w => In w (f_sig f)) k) ->
        o_hess_val o vars = Ok (map (fun kv => (map rn (fst kv), snd kv)) d))) /\
  (forall shapes, exists kw,
     (forall i sh, (i < length args)%nat -> dget String.eqb shapes (nth i args "") = Some sh ->
        dget String.eqb kw (nth i (f_sig f) "") = Some sh) /\
     o_jac_nnz o shapes = f_jac_nnz f kw s /\ o_hess_nnz o shapes = f_hess_nnz f kw s /\
     (forall d, f_jac_ind f kw s = Ok d -> NoDup (map fst d) ->
        (forall k, In k (map fst d) -> List.Forall (fun w => In w (f_sig f)) k) ->
        o_jac_ind o shapes = Ok (map (fun kv => (map rn (fst kv), snd kv)) d)) /\
     (forall d, f_hess_ind f kw s = Ok d -> NoDup (map fst d) ->
        (forall k, In k (map fst d) -> List.Forall (fun w => In w (f_sig f)) k) ->
        o_hess_ind o shapes = Ok (map (fun kv => (map rn (fst kv), snd kv)) d))).
Proof.
  intros N1 N2 HL o. exists (param o). split; [|split].
  - intros i Hi. apply (param_nth o); auto. simpl. lia.
  - intros vars vals EV.
    assert (EG : get_args o vars = Ok vals) by exact EV.
    split; [unfold o_call; rewrite EG; reflexivity|]. split; [|split].
    + intros d Ed Nd Hk. unfold o_grad. rewrite EG. cbn [bind]. change (o_fun o) with f. rewrite Ed. cbn [bind].
      f_equal. now apply rename_s_eq.
    + intros d Ed Nd Hk. unfold o_jac_val. rewrite EG. cbn [bind]. change (o_fun o) with f. rewrite Ed. cbn [bind].
      f_equal. now apply rename_t_eq.
    + intros d Ed Nd Hk. unfold o_hess_val. rewrite EG. cbn [bind]. change (o_fun o) with f. rewrite Ed. cbn [bind].
      f_equal. now apply rename_t_eq.
  - intros shapes. exists (rename_kwargs o shapes). split; [|split; [reflexivity|split; [reflexivity|split]]].
    + intros i sh Hi E. apply rename_kwargs_get; auto.
      * apply nth_In. lia.
      * fold o. pose proof (param_nth o i N1 HL ltac:(simpl; lia) "" "") as Ep. simpl in Ep. rewrite Ep. exact E.
    + intros d Ed Nd Hk. unfold o_jac_ind. change (o_fun o) with f. change (o_shape o) with s. rewrite Ed. cbn [bind].
      f_equal. now apply rename_t_eq.
    + intros d Ed Nd Hk. unfold o_hess_ind. change (o_fun o) with f. change (o_shape o) with s. rewrite Ed. cbn [bind].
      f_equal. now apply rename_t_eq.
Qed.
Print Assumptions C16_renaming.

(** A renaming that permutes the function's own parameter names. *)
Example C16_nonvacuous a b :
  let o := mk_optfun [] sqmul (Some ["b"; "a"]) in
  let vars := [("a", Arr [] [a]); ("b", Arr [] [b])] in
  o_call o vars = Ok (Arr [] [(b * b * a)%R]) /\
  o_grad o vars = Ok [("b", Arr [] [(2 * b * a)%R]); ("a", Arr [] [(b * b)%R])] /\
  rename_kwargs o [("a", [2%nat]); ("b", [3%nat])] = [("a", [3%nat]); ("b", [2%nat])].
Proof. repeat split. Qed.

(** ** C17 (refuted).  With a repeated argument the gradient is wrong: the
    function below is x^3, whose derivative at 1 is 3; [obj_grad] returns 1. *)
Theorem C17_repeated_argument_refuted :
  exists p dvec g,
  reachable p /\ dependents_lawful p /\ length dvec = ndec p /\
  (exists o, p_objectives p = [o] /\ NoDup (f_sig (o_fun o)) /\ length (o_args o) = length (f_sig (o_fun o)) /\
     incl (o_args o) (var_names p) /\
     exists A gs, fun_args p dvec o = Ok A /\ grad_law (o_fun o) (active p o) (param_shape p o) A gs) /\
  obj_grad p dvec = Ok g /\
  ~ is_derive (fun t => objv p (vmove dvec (basis 0) t)) 0 (nth 0 g 0%R).
Proof.
  exists twice_problem, [1%R], [(0 + 1 * 1)%R].
  split. { exists twice_ops, []. split; [repeat constructor|reflexivity]. }
  split. { intros name sp []. }
  split; [reflexivity|]. split.
  { eexists. split; [reflexivity|]. split; [apply nodup2; discriminate|]. split; [reflexivity|].
    split. { intros v [<-|[<-|[]]]; simpl; auto. }
    exists (ab 1 1). eexists. split; [reflexivity|]. apply sqmul_grad_law; simpl; auto. }
  split; [apply twice_facts|].
  intros H. pose proof (is_derive_unique _ _ _ H) as E1. pose proof (is_derive_unique _ _ _ twice_derivative) as E2.
  rewrite E1 in E2. simpl in E2. lra.
Qed.
Print Assumptions C17_repeated_argument_refuted.

(** What happens in general: for each problem variable only the block of the
    last parameter it was passed for survives.  (Also the reason the Jacobian
    and Hessian assembly raise AssertionError instead.) *)
Theorem C17_last_block_wins (T : Type) (NT : Num T) s (f : fn T) a args vars vals d v :
  let o := mk_optfun s f (Some (a :: args)) in
  f_sig f <> [] -> get_args o vars = Ok vals -> f_grad f vals = Ok d ->
  exists d', o_grad o vars = Ok d' /\
    dget String.eqb d' v
    = dget String.eqb (rev (map (fun kv => (ren1 (o_renamed o) (fst kv), snd kv)) d)) v.
Proof.
  intros o HS EG Ed. unfold o_grad. rewrite EG. cbn [bind]. change (o_fun o) with f. rewrite Ed. cbn [bind].
  eexists. split; [reflexivity|]. unfold rename_s.
  assert (Hr : o_renamed o <> []).
  { unfold o, mk_optfun. cbn [o_renamed]. destruct (f_sig f) as [|w ws]; [congruence|]. cbn [combine].
    unfold dmake, dmerge. cbn [fold_left fst snd dset].
    intros E. assert (H : forall l (d0 : sdict string), d0 <> [] ->
      fold_left (fun d kv => dset String.eqb d (fst kv) (snd kv)) l d0 <> []).
    { clear. induction l as [|[k w] l IH]; simpl; auto. intros d0 H. apply IH. destruct d0 as [|[k0 v0] d0]; [congruence|].
      simpl. destruct (String.eqb k k0); discriminate. }
    eapply H; [|exact E]. discriminate. }
  destruct (o_renamed o) as [|r rs] eqn:Er; [congruence|].
  unfold dmake. rewrite (dget_dmerge _ String.eqb_spec). destruct (dget _ (rev _) v); reflexivity.
Qed.
Print Assumptions C17_last_block_wins.

Example C17_last_block_nonvacuous :
  constr_jac_val twice_problem [1%R] = Err AssertionError /\
  get_args (mk_optfun [] sqmul (Some ["x"; "x"])) [("x", Arr [] [1%R])] = Ok (ab 1 1).
Proof. repeat split. Qed.
