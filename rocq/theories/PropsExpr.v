(** C70: from a model written as expressions to the optimisation problem. *)
From Coq Require Import String List ZArith Reals Lra.
From Coquelicot Require Import Coquelicot.
From Verif Require Import Py NdArray NdLemmas OptimModel ProblemSpec DerivSpec ColModel ColBuild ColLaws GenModel GenLemmas ColCalls AssemblyLemmas PropsCol ColValues
  SymModel SymLemmas RegModel RegLemmas EndToEnd PropsEnd PropsEndEst Expr ExprSym ExprModel ExprEnd ExprCases.
From mathcomp Require Import all_ssreflect all_algebra polyorder polyrcf.
From Verif Require Import McRing RealField RkModel LegendreLemmas QuadLemmas LobattoLemmas PropsRk SymColModel PropsSymCol NlpLemmas PropsNlp ExprValues.
Set Implicit Arguments.
Unset Strict Implicit.
Unset Printing Implicit Defensive.
Import Order.TTheory GRing.Theory Num.Theory.
Local Open Scope ring_scope.
Local Notation R := Rdefinitions.R.
Local Existing Instances num_R numord_R.

(** The function of (xe, p) that an expression stands for. *)
Definition fun2s (e : expr) (xe : seq (seq R)) (p : seq R) : R := eval (arg_env [:: "xe"; "p"]%string [:: flatten xe; p]) e.
Definition fun2 (es : seq expr) (xe : seq (seq R)) (p : seq R) : seq R := [seq fun2s e xe p | e <- es].

Lemma wanted_suits m fs sm r names : known_fun (base_shape m) fs sm r -> (r_obj r = true -> sf_out (fs (r_name r)) = [::]) ->
  List.incl (sf_args (fs (r_name r))) names -> suits m names (wanted (base_shape m) fs sm r).
Proof.
move=> HK HO HI; split; first exact: (wanted_gwf _ _ _ _ HK HO).
- by rewrite (wanted_args sm (base_shape m) fs r HO).
- by rewrite (wanted_bases sm (base_shape m) fs r HO) (wanted_args sm (base_shape m) fs r HO).
Qed.
Lemma wanted_base shp fs sm r : gf_base (wanted shp fs sm r) = evals (sf_expr (fs (r_name r))).
Proof. by rewrite /wanted; case: (r_obj r). Qed.

Lemma evals_sym args (es : seq expr) A : evals (List.map (sym_expr args) es) A = List.map (eval (arg_env args A)) es.
Proof. by rewrite /evals List.map_map. Qed.

Section Env.
Variable m : colmodel R.
Notation size_of := (fun w => prodn (base_shape m w)).
(** An argument list covering the variables of an expression gives it the
    value it has with all variables. *)
Lemma same_env args all (a : string -> seq R) e : List.NoDup args -> List.NoDup all -> List.incl args all -> scoped size_of args e ->
  eval (arg_env args (List.map a args)) e = eval (arg_env all (List.map a all)) e.
Proof.
move=> N1 N2 HI HS; apply: (eval_scoped _ _ _ _ _ HS) => w i Hw _.
by rewrite !arg_env_map //; apply: HI.
Qed.
Lemma map_ext_forall (A B : Type) (P : A -> Prop) (f g : A -> B) l : List.Forall P l -> (forall x, P x -> f x = g x) -> List.map f l = List.map g l.
Proof. by move=> H E; elim: H => //= x s Hx _ ->; rewrite E. Qed.
Lemma flat_tab k w (l : seq R) : size l = (k * w)%N -> flatten (tab2 k w l) = l.
Proof.
move=> Sl; have SB : size (flatten (tab2 k w l)) = (k * w)%N.
  by apply: (size_blocks (f := fun i => [seq l`_(i * w + j) | j <- iota 0 w])) => i _; rewrite size_map size_iota.
apply: (@eq_from_nth _ 0); rewrite SB // => i Hi.
have w0 : (0 < w)%N by case: w Hi {Sl SB}; rewrite ?muln0.
have Hd : (i %/ w < k)%N by rewrite ltn_divLR.
have HU : all (fun s => size s == w) (tab2 k w l).
  by apply/allP => s /mapP [q _ ->]; rewrite size_map size_iota.
by rewrite (divn_eq i w) (nth_uniform HU) ?ltn_mod ?size_map ?size_iota // tab_at ?ltn_mod.
Qed.
Lemma nodup3 : List.NoDup [:: "x"; "u"; "p"]%string. Proof. by repeat constructor; simpl; intuition discriminate. Qed.
Lemma nodup2 : List.NoDup [:: "xe"; "p"]%string. Proof. by repeat constructor; simpl; intuition discriminate. Qed.
Lemma ends_env args env e : List.NoDup args -> List.incl args [:: "xe"; "p"]%string ->
  (forall w, List.In w args -> size (env w) = prodn (base_shape m w)) -> scoped size_of args e ->
  eval (arg_env args (List.map env args)) e = fun2s e (tab2 2 (m_nx m) (env "xe"%string)) (env "p"%string).
Proof.
move=> N HI HL HS; apply: (eval_scoped _ _ _ _ _ HS) => w i Hw _.
rewrite arg_env_map //; have := HL w Hw; have := HI w Hw => -[<-|[<-|[]]] HZ.
- have SZ : size (env "xe"%string) = (2 * m_nx m)%N by rewrite HZ /= ?multE ?plusE ?muln1 ?addn0 ?mul2n ?addnn //.
  by rewrite -{1}(flat_tab SZ).
- by [].
Qed.
End Env.

Section Oc.
Variables (m0 : colmodel R) (c : RkModel.collocation R_rcfType) (X : ocexpr) (sm : smodel R) (W : string -> seq string).
Hypothesis LB : lobatto (F := R_rcfType) m0 c.
Hypothesis EO : expr_oc m0 (c_J c) (c_K c) X sm W.
Notation fs := (oc_sfun m0 (c_J c) (c_K c) X).
Variable q : string -> gfun R.
Hypothesis EQ : forall r, List.In r (symoc_regs W) -> q (r_name r) = wanted (base_shape m0) fs sm r.
Notation m := (with_fns m0 q).
Let SO := expr_symoc m0 (c_J c) (c_K c) X sm W EO.

Lemma q_wanted name : List.In name [:: "e"; "IL"; "M"; "g"; "h"]%string -> exists r, [/\ List.In r (symoc_regs W), r_name r = name,
  q name = wanted (base_shape m0) fs sm r & r_obj r = true -> sf_out (fs name) = [::]].
Proof.
move=> H; have : exists r, List.In r (symoc_regs W) /\ r_name r = name.
  case: H => [<-|[<-|[<-|[<-|[<-|[]]]]]];
    [exists (Reg false "e"%string (W "e"%string))|exists (Reg true "IL"%string (W "IL"%string))|exists (Reg true "M"%string (W "M"%string))
    |exists (Reg false "g"%string (W "g"%string))|exists (Reg false "h"%string (W "h"%string))]; (split; last by []); rewrite /symoc_regs; simpl; auto 8.
move=> [r [Hr En]]; exists r; split=> //; first by rewrite -(EQ Hr) En.
rewrite -En; move: Hr; rewrite /symoc_regs => -[<-|[<-|[<-|[<-|[<-|[]]]]]] //=.
Qed.
Lemma q_args name : List.In name [:: "e"; "IL"; "M"; "g"; "h"]%string -> gf_args (q name) = sf_args (fs name).
Proof. by move=> /q_wanted [r [Hr <- -> HO]]; exact: wanted_args. Qed.
Lemma q_out name : List.In name [:: "e"; "IL"; "M"; "g"; "h"]%string -> gf_out (q name) = sf_out (fs name).
Proof. by move=> /q_wanted [r [Hr <- -> HO]]; exact: wanted_out. Qed.
Lemma q_base name : List.In name [:: "e"; "IL"; "M"; "g"; "h"]%string -> gf_base (q name) = evals (sf_expr (fs name)).
Proof. by move=> /q_wanted [r [Hr <- -> HO]]; exact: wanted_base. Qed.
Lemma q_suits name names : List.In name [:: "e"; "IL"; "M"; "g"; "h"]%string -> List.incl (sf_args (fs name)) names -> suits m names (q name).
Proof.
move=> /q_wanted [r [Hr <- -> HO]] HI.
by apply: (@wanted_suits m) => //; exact: (so_known m0 sm _ W SO r Hr).
Qed.

Lemma oc_expr_generated : oc_generated m (q "e"%string) (q "IL"%string) (q "M"%string) (q "g"%string) (q "h"%string).
Proof.
split=> //; rewrite ?q_out ?q_args //; try (by simpl; auto 8); try (by exists "xp"%string; simpl; auto).
- by apply: q_suits; [simpl; auto 8|exact: (so_e _ _ _ _ SO)].
- by apply: q_suits; [simpl; auto 8|exact: (so_IL _ _ _ _ SO)].
- by apply: q_suits; [simpl; auto 8|exact: (so_M _ _ _ _ SO)].
- by apply: q_suits; [simpl; auto 8|exact: (so_g _ _ _ _ SO)].
- by apply: q_suits; [simpl; auto 8|exact: (so_h _ _ _ _ SO)].
- exact: (so_wg _ _ _ _ SO).
Qed.

Lemma oc_expr_expresses : oc_expresses (F := R_rcfType) m c (fun3 (xo_f X)) (fun3s (xo_L X)) (fun2s (xo_M X)) (fun3 (xo_g X)) (fun2 (xo_h X))
  (q "e"%string) (q "IL"%string) (q "M"%string) (q "g"%string) (q "h"%string).
Proof.
have [Ec _ n1] := lobatto_nodes LB; have n0 : (0 < col_n (m_col m0))%N by rewrite ltnW.
have cn : c_n c = col_n (m_col m0) by rewrite Ec.
have ci : c_ninterv c = (col_n (m_col m0)).-1 by rewrite Ec.
have NP : List.NoDup [:: "xp"; "up"; "p"; "piece_len"]%string by repeat constructor; simpl; intuition discriminate.
have IP : List.incl [:: "xp"; "up"; "p"; "piece_len"]%string [:: "xp"; "up"; "p"; "piece_len"]%string by exact: List.incl_refl.
have [NM IM] := eo_Ma _ _ _ _ _ _ EO; have [Ng [Ig _]] := eo_ga _ _ _ _ _ _ EO; have [Nh Ih] := eo_ha _ _ _ _ _ _ EO.
split=> env; rewrite /sized ?q_args; try (by simpl; auto 8); rewrite q_base; try (by simpl; auto 8); move=> HS; cbn [oc_sfun String.eqb Ascii.eqb Bool.eqb sym_fun sf_expr sf_args] in HS |- *; rewrite evals_sym.
- exact: (e_val cn n0 env NP IP (eo_f _ _ _ _ _ _ EO)).
- by congr [:: _]; exact: (IL_val cn env NP IP (eo_L _ _ _ _ _ _ EO)).
- by congr [:: _]; exact: (ends_env NM IM HS (eo_M _ _ _ _ _ _ EO)).
- by apply: (map_ext_forall (eo_g _ _ _ _ _ _ EO)) => e He; exact: (same_env env Ng nodup3 Ig He).
- by apply: (map_ext_forall (eo_h _ _ _ _ _ _ EO)) => e He; exact: (ends_env Nh Ih HS He).
Qed.

End Oc.

(** *** Specification: what the problem must mean

    The defect constraints vanish exactly when the trajectory in the decision
    vector satisfies the differential equation at the collocation points; the
    remaining constraints are the path and endpoint functions of that
    trajectory; the objective is the quadrature of the running cost plus the
    endpoint cost. *)
Definition oc_meaning (m : colmodel R) (c : RkModel.collocation R_rcfType) (t : seq R) (f : seq R -> seq R -> seq R -> seq R)
    (L : seq R -> seq R -> seq R -> R) (M : seq (seq R) -> seq R -> R) (g : seq R -> seq R -> seq R -> seq R) (h : seq (seq R) -> seq R -> seq R)
    (q : problem R) (dvec : seq R) : Prop :=
  let n := col_n (m_col m) in let nx := m_nx m in let K := (size t).-1 in let N := (K * n.-1).+1 in
  let x := oc_state (F := R_rcfType) m dvec in let u := oc_input (F := R_rcfType) m t dvec in let p := oc_par (F := R_rcfType) m t dvec in
  let pt k j := (k * n.-1 + j)%N in
  exists tc cv : seq R_rcfType, [/\ ColModel.grid (m_col m) t = Ok tc, constr q dvec = Ok cv,
    (forall i, (i < K * (n.-1 * nx))%N -> cv`_i = 0) <->
    (forall k a, (k < K)%N -> (a < nx)%N ->
       collocates (F := R_rcfType) n (fun j => tc`_(pt k j)) (fun j => (x (pt k j))`_a) (fun j => (f (x (pt k j)) (u (pt k j)) p)`_a)),
    drop (K * (n.-1 * nx)) cv = flatten [seq g (x i) (u i) p | i <- iota 0 N] ++ h [:: x 0%N; x N.-1] p &
    obj q dvec = Ok (\sum_(k < K) (t`_k.+1 - t`_k) * (\sum_(j < n) (c_K c)`_j * L (x (pt k j)) (u (pt k j)) p)
                     + M [:: x 0%N; x N.-1] p)].

Lemma good_grid_R (m : colmodel R) (c : RkModel.collocation R_rcfType) (t : seq R) :
  lobatto (F := R_rcfType) m c -> sorted <%R (t : seq R_rcfType) -> (1 < size t)%N -> good_grid m t.
Proof. by move=> LB St t1; have := lobatto_grid LB St t1; rewrite num_eq ord_eq. Qed.

(** C70: a model of the optimal control class whose dynamics, costs and
    constraints are written as expressions.  Registering and generating its
    functions succeeds; the problem the generated class builds means what the
    expressions say, and all its derivatives are the true ones wherever the
    expressions are differentiable. *)
Theorem C70_optimal_control (m : colmodel R) (c : RkModel.collocation R_rcfType) (t : seq R) X sm W :
  lobatto (F := R_rcfType) m c -> sorted <%R (t : seq R_rcfType) -> (1 < size t)%N -> oc_small m t ->
  expr_oc m (c_J c) (c_K c) X sm W ->
  exists sm' q prob, [/\ register_all sm (symoc_regs W) = Ok sm', (forall r, List.In r (symoc_regs W) -> generate_reg sm' r = Ok (q (r_name r))),
    oc_problem (with_fns m q) t = Ok prob &
    forall dvec, size dvec = ndec prob ->
      oc_meaning m c t (fun3 (xo_f X)) (fun3s (xo_L X)) (fun2s (xo_M X)) (fun3 (xo_g X)) (fun2 (xo_h X)) prob dvec /\
      (oc_smooth m t X dvec -> derivatives_right prob dvec)].
Proof.
move=> LB St t1 SM EO.
have [sm' [q [E1 [E2 [E3 [p [Ep HD]]]]]]] := oc_expr_derivatives m t (c_J c) (c_K c) X sm W (good_grid_R LB St t1) SM EO.
exists sm', q, p; split=> // dvec Hd; split; last exact: HD.
have := @C64_optimal_control R_rcfType (with_fns m q) t c (fun3 (xo_f X)) (fun3s (xo_L X)) (fun2s (xo_M X)) (fun3 (xo_g X)) (fun2 (xo_h X))
  (q "e"%string) (q "IL"%string) (q "M"%string) (q "g"%string) (q "h"%string) p dvec.
rewrite num_eq ord_eq => H; exact: (H LB St t1 SM (oc_expr_generated EO E3) (oc_expr_expresses LB EO E3) Ep Hd).
Qed.
Print Assumptions C70_optimal_control.

(** ** Estimation *)
(** The likelihood function of (y, x, u, p) that an expression stands for. *)
Definition fun4s (e : expr) (y x u p : seq R) : R := eval (arg_env L_names [:: y; x; u; p]) e.

Section Est.
Variables (m0 : colmodel R) (c : RkModel.collocation R_rcfType) (JT : seq (seq R)) (X : estexpr) (jme : bool) (sm : smodel R) (W : string -> seq string).
Hypothesis LB : lobatto (F := R_rcfType) m0 c.
Hypothesis SJ : jme -> size JT = col_n (m_col m0).
Hypothesis EE : expr_est m0 (c_J c) (c_K c) JT X jme sm W.
Notation fs := (est_sfun m0 (c_J c) (c_K c) JT X jme).
Variable q : string -> gfun R.
Hypothesis EQ : forall r, List.In r (est_regs m0 jme W) -> q (r_name r) = wanted (base_shape m0) fs sm r.
Notation m := (with_fns m0 q).
Let SO := expr_symest m0 (c_J c) (c_K c) JT X jme sm W EE.

Lemma reg_e : List.In (Reg false "e"%string (W "e"%string)) (est_regs m0 jme W).
Proof. by rewrite /est_regs /symjme_regs /symoem_regs; case: jme; simpl; auto. Qed.
Lemma reg_L : List.In (Reg true "L"%string (W "L"%string)) (est_regs m0 jme W).
Proof. by rewrite /est_regs /symjme_regs /symoem_regs; case: jme; simpl; auto. Qed.
Lemma reg_t : jme -> List.In (Reg true "tube_L"%string (W "tube_L"%string)) (est_regs m0 jme W).
Proof. by rewrite /est_regs /symjme_regs /symoem_regs; case: jme => // _; simpl; auto. Qed.
Lemma reg_p : jme -> m_use_penalty m0 = true -> List.In (Reg true "penalty"%string (W "penalty"%string)) (est_regs m0 jme W).
Proof. by rewrite /est_regs /symjme_regs /symoem_regs; case: jme => // _ ->; simpl; auto 8. Qed.

Lemma est_out r : List.In r (est_regs m0 jme W) -> r_obj r = true -> sf_out (fs (r_name r)) = [::].
Proof. by move=> Hr; have := est_reg_cases _ _ _ _ _ SO r Hr => -[->|[->|[_ [->|->]]]]. Qed.
Lemma est_q r : List.In r (est_regs m0 jme W) ->
  [/\ gf_args (q (r_name r)) = sf_args (fs (r_name r)), gf_out (q (r_name r)) = sf_out (fs (r_name r)),
    gf_base (q (r_name r)) = evals (sf_expr (fs (r_name r))) &
    forall names, List.incl (sf_args (fs (r_name r))) names -> suits m names (q (r_name r))].
Proof.
move=> Hr; have HO := est_out Hr; rewrite (EQ Hr); split.
- exact: wanted_args. - exact: wanted_out. - exact: wanted_base.
- by move=> names HI; apply: (@wanted_suits m) => //; exact: (est_known m0 jme sm _ W SO r Hr).
Qed.

Lemma est_expr_oem : oem_generated m jme (q "e"%string) (q "L"%string).
Proof.
have [A1 O1 _ S1] := est_q reg_e; have [A2 O2 _ S2] := est_q reg_L; cbn [r_name] in A1, O1, S1, A2, O2, S2.
split=> //; rewrite ?O1 ?O2 ?A1 ?A2.
- by apply: S1; rewrite /est_sfun /e_names /=; case: jme => w /=; tauto.
- exact: S2.
- by rewrite /est_sfun /=; case: jme.
- by exists "xp"%string; rewrite /est_sfun /=; case: jme; simpl; auto.
Qed.
Lemma est_expr_jme : jme -> jme_generated m (q "tube_L"%string) (q "penalty"%string).
Proof.
move=> Ej; have [A1 O1 _ S1] := est_q (reg_t Ej); cbn [r_name] in A1, O1, S1.
split=> //; rewrite ?O1 ?A1 //.
- by apply: S1; rewrite /= => w /=; tauto.
- by move=> UP; have [_ _ _ S2] := est_q (reg_p Ej UP); apply: S2.
- by move=> UP; have [_ O2 _ _] := est_q (reg_p Ej UP).
- by exists "xp"%string; simpl; auto.
- by move=> UP; have [A2 _ _ _] := est_q (reg_p Ej UP); cbn [r_name] in A2; rewrite A2; exists "xp"%string; simpl; auto.
Qed.
Let n1 : (1 < col_n (m_col m0))%N. Proof. by have [] := lobatto_nodes LB. Qed.
Let n0 : (0 < col_n (m_col m0))%N. Proof. by rewrite ltnW. Qed.
Let cn : c_n c = col_n (m_col m0). Proof. by have [-> _ _] := lobatto_nodes LB. Qed.
Let ci : c_ninterv c = (col_n (m_col m0)).-1. Proof. by have [-> _ _] := lobatto_nodes LB. Qed.
Let NP : List.NoDup [:: "xp"; "up"; "p"; "piece_len"]%string. Proof. by repeat constructor; simpl; intuition discriminate. Qed.

Lemma L_expresses env : gf_base (q "L"%string) (List.map env (gf_args (q "L"%string))) =
  [:: fun4s (xe_L X) (env "y"%string) (env "x"%string) (env "u"%string) (env "p"%string)].
Proof. by have [A1 _ B1 _] := est_q reg_L; cbn [r_name] in A1, B1; rewrite A1 B1 evals_sym. Qed.

Lemma oem_expr_expresses : jme = false -> oem_expresses (F := R_rcfType) m c (fun3 (xe_f X)) (fun4s (xe_L X)) (q "e"%string) (q "L"%string).
Proof.
move=> Ej; split=> env HS; last exact: L_expresses.
have [A1 _ B1 _] := est_q reg_e; cbn [r_name] in A1, B1; rewrite A1 B1 /est_sfun Ej /= evals_sym.
exact: (e_val cn n0 env NP (List.incl_refl _) (ee_f _ _ _ _ _ _ _ _ EE)).
Qed.
Lemma jme_expr_expresses : jme -> jme_expresses (F := R_rcfType) m c (fun3 (xe_f X)) (fun4s (xe_L X)) (xe_om X) (drift_jac m0 (xe_f X)) JT
  (q "e"%string) (q "L"%string) (q "tube_L"%string) (q "penalty"%string).
Proof.
move=> Ej; have Hf := ee_f _ _ _ _ _ _ _ _ EE.
have nd s : List.incl s s := @List.incl_refl _ s.
split=> [env|env|env|UP env] HS; last 2 first.
- have [A1 _ B1 _] := est_q (reg_t Ej); cbn [r_name] in A1, B1; rewrite A1 B1 evals_sym; congr [:: _].
  apply: (tube_val cn ci env _ _ (SJ Ej)) => //; first by repeat constructor; simpl; intuition discriminate.
  + by move=> w /=; tauto.
  + by simpl; auto 8.
- have [A1 _ B1 _] := est_q (reg_p Ej UP); cbn [r_name] in A1, B1; rewrite A1 B1 evals_sym; congr [:: _].
  apply: (penalty_val cn ci n0 env _ _ (SJ Ej)) => //; try (by repeat constructor; simpl; intuition discriminate); try (by simpl; auto 9).
  by move=> w /=; tauto.
- have [A1 _ B1 _] := est_q reg_e; cbn [r_name] in A1, B1; rewrite A1 B1 /est_sfun Ej /= evals_sym.
  apply: (jme_e_val cn ci n0 env _ _ (SJ Ej)) => //; try (by repeat constructor; simpl; intuition discriminate); try (by simpl; auto 9).
  by move=> w /=; tauto.
- exact: L_expresses.
Qed.
End Est.

(** *** Specification: what an estimation problem must mean *)
Definition oem_meaning (m : colmodel R) (t : seq R) (y : seq (yrow R)) (uv : arr R) (f : seq R -> seq R -> seq R -> seq R)
    (L : seq R -> seq R -> seq R -> seq R -> R) (q : problem R) (dvec : seq R) : Prop :=
  let n := col_n (m_col m) in let nx := m_nx m in let K := (size t).-1 in
  let x := traj (F := R_rcfType) m dvec in let p := par_of (F := R_rcfType) m t false dvec in let v := inp (F := R_rcfType) m uv in
  let pt k j := (k * n.-1 + j)%N in
  exists tc cv : seq R_rcfType, [/\ ColModel.grid (m_col m) t = Ok tc, constr q dvec = Ok cv, size cv = (K * (n.-1 * nx))%N,
    (forall i, (i < size cv)%N -> cv`_i = 0) <->
    (forall k a, (k < K)%N -> (a < nx)%N ->
       collocates (F := R_rcfType) n (fun j => tc`_(pt k j)) (fun j => (x (pt k j))`_a) (fun j => (f (x (pt k j)) (v (pt k j)) p)`_a)) &
    obj q dvec = Ok (\sum_(k <- kept (F := R_rcfType) y) L (meas (F := R_rcfType) y k) (x (k * n.-1)%N) (v (k * n.-1)%N) p)].

Definition jme_meaning (m : colmodel R) (c : RkModel.collocation R_rcfType) (t : seq R) (y : seq (yrow R)) (uv : arr R) (f : seq R -> seq R -> seq R -> seq R)
    (L : seq R -> seq R -> seq R -> seq R -> R) (om : bool) (df : seq R -> seq R -> seq R -> seq (seq R)) (JT : seq (seq R)) (q : problem R) (dvec : seq R) : Prop :=
  let n := col_n (m_col m) in let nx := m_nx m in let nw := m_nw m in let K := (size t).-1 in
  let x := traj (F := R_rcfType) m dvec in let p := par_of (F := R_rcfType) m t true dvec in let v := inp (F := R_rcfType) m uv in
  let pt k j := (k * n.-1 + j)%N in
  let w k := noise_at n JT (noise_of (F := R_rcfType) m t dvec k) in let Gm a i := (adat (m_G m) : seq R_rcfType)`_(a * nw + i) in
  exists tc cv : seq R_rcfType, [/\ ColModel.grid (m_col m) t = Ok tc, constr q dvec = Ok cv, size cv = (K * (n.-1 * nx))%N,
    (forall i, (i < size cv)%N -> cv`_i = 0) <->
    (forall k a, (k < K)%N -> (a < nx)%N ->
       collocates (F := R_rcfType) n (fun j => tc`_(pt k j)) (fun j => (x (pt k j))`_a)
         (fun j => (f (x (pt k j)) (v (pt k j)) p)`_a + \sum_(i < nw) Gm a i * w k j i)) &
    obj q dvec = Ok (\sum_(k <- kept (F := R_rcfType) y) L (meas (F := R_rcfType) y k) (x (k * n.-1)%N) (v (k * n.-1)%N) p
      - 2%:R^-1 * (\sum_(k < K) ((t : seq R_rcfType)`_k.+1 - (t : seq R_rcfType)`_k) * (\sum_(j < n) (c_K c)`_j * (\sum_(i < nw) w k j i ^+ 2 +
          if om then \sum_(i < nx | (nw == 0%N) || (nx <= i + nw)%N) elem (F := R_rcfType) (df (x (pt k j)) (v (pt k j)) p) i i else 0)))
      - (if m_use_penalty m then
           \sum_(k < K) \sum_(i < n.-1) \sum_(a < nx) (adat (m_penweight m) : seq R_rcfType)`_a * cv`_(k * (n.-1 * nx) + (i * nx + a)) ^+ 2 else 0))].

(** The matrix [drift_jac] in the divergence term holds the derivatives of
    the drift with respect to the state. *)
Theorem C70_drift_jacobian (m : colmodel R) (f : seq expr) (x u p : seq R) i k :
  (i < m_nx m)%N -> (k < m_nx m)%N -> size x = m_nx m ->
  List.Forall (scoped (fun w => prodn (base_shape m w)) [:: "x"; "u"; "p"]%string) f ->
  List.Forall (dom (arg_env [:: "x"; "u"; "p"]%string [:: x; u; p])) f ->
  is_derive (fun h : R => (fun3 f (set_nth 0 x i (x`_i + h)) u p : seq R_rcfType)`_k) 0 (elem (F := R_rcfType) (drift_jac m f x u p) i k).
Proof.
move=> Hi Hk Sx Hf Hd.
have Ek : elem (F := R_rcfType) (drift_jac m f x u p) i k = fun3s (dif "x" i (List.nth k f (Cst 0))) x u p by rewrite /drift_jac tab_elem.
rewrite Ek; set e := List.nth k f (Cst 0).
have De : dom (arg_env [:: "x"; "u"; "p"]%string [:: x; u; p]) e.
  by rewrite /e; elim: f k {Hk Ek e Hf} Hd => [|e f IH] [|k] H //=; inversion H => //; exact: IH.
have He : scoped (fun w => prodn (base_shape m w)) [:: "x"; "u"; "p"]%string e := scoped_at k Hf.
apply: (is_derive_ext _ _ _ _ _ (eval_derive (unit_dir "x" i) _ _ De)) => h.
rewrite nth_fun3 -/e /fun3s; apply: (eval_scoped _ _ _ _ _ He) => w j Hw Hj; rewrite /shift /unit_dir.
case: Hw Hj => [<-|[<-|[<-|[]]]] Hj; cbn [String.eqb Ascii.eqb Bool.eqb andb]; rewrite /arg_env /=.
- rewrite !nthE nth_set_nth /=; case: (PeanoNat.Nat.eqb_spec i j) => [->|Hij].
    by rewrite eqxx Rmult_1_r.
  by case: eqP => [E|_]; [case: Hij|rewrite Rmult_0_r Rplus_0_r].
- by rewrite Rmult_0_r Rplus_0_r.
- by rewrite Rmult_0_r Rplus_0_r.
Qed.

Theorem C70_output_error (m : colmodel R) (c : RkModel.collocation R_rcfType) (t : seq R) y u uv JT X sm W :
  lobatto (F := R_rcfType) m c -> sorted <%R (t : seq R_rcfType) -> (1 < size t)%N -> good_data m t y uv -> input_values m t u = uv ->
  oem_small m t false -> expr_est m (c_J c) (c_K c) JT X false sm W ->
  exists sm' q prob, [/\ register_all sm (symoem_regs W) = Ok sm', (forall r, List.In r (symoem_regs W) -> generate_reg sm' r = Ok (q (r_name r))),
    oem_problem (with_fns m q) false t y u = Ok prob &
    forall dvec, size dvec = ndec prob ->
      oem_meaning m t y uv (fun3 (xe_f X)) (fun4s (xe_L X)) prob dvec /\
      (est_smooth m t y uv X false dvec -> derivatives_right prob dvec)].
Proof.
move=> LB St t1 D EU SM EE; have SJ : false -> size JT = col_n (m_col m) by [].
have [sm' [q [E1 [E2 [E3 [p [Ep HD]]]]]]] := est_expr_derivatives m t y u uv (c_J c) (c_K c) JT X false sm W (good_grid_R LB St t1) D EU SM (fun e => False_ind _ (Bool.diff_false_true e)) EE.
exists sm', q, p; split=> // dvec Hd; split; last exact: HD.
have := @C65_output_error R_rcfType (with_fns m q) t c y uv (fun3 (xe_f X)) (fun4s (xe_L X)) (q "e"%string) (q "L"%string) u p dvec.
rewrite num_eq ord_eq => H; exact: (H LB St t1 (with_data _ _ _ _ _ D) EU SM (est_expr_oem EE E3) (oem_expr_expresses LB EE E3 erefl) Ep Hd).
Qed.
Theorem C70_joint_map (m : colmodel R) (c : RkModel.collocation R_rcfType) (t : seq R) y u uv JT X sm W :
  lobatto (F := R_rcfType) m c -> sorted <%R (t : seq R_rcfType) -> (1 < size t)%N -> good_data m t y uv -> input_values m t u = uv ->
  oem_small m t true -> jme_constants m -> size JT = col_n (m_col m) -> expr_est m (c_J c) (c_K c) JT X true sm W ->
  exists sm' q prob, [/\ register_all sm (symjme_regs (m_use_penalty m) W) = Ok sm',
    (forall r, List.In r (symjme_regs (m_use_penalty m) W) -> generate_reg sm' r = Ok (q (r_name r))),
    jme_problem (with_fns m q) t y u = Ok prob &
    forall dvec, size dvec = ndec prob ->
      jme_meaning m c t y uv (fun3 (xe_f X)) (fun4s (xe_L X)) (xe_om X) (drift_jac m (xe_f X)) JT prob dvec /\
      (est_smooth m t y uv X true dvec -> derivatives_right prob dvec)].
Proof.
move=> LB St t1 D EU SM JC SJ EE; have SJ' : true -> size JT = col_n (m_col m) by [].
have [sm' [q [E1 [E2 [E3 [p [Ep HD]]]]]]] := est_expr_derivatives m t y u uv (c_J c) (c_K c) JT X true sm W (good_grid_R LB St t1) D EU SM (fun _ => JC) EE.
exists sm', q, p; split=> // dvec Hd; split; last exact: HD.
have := @C66_joint_map R_rcfType (with_fns m q) t c y uv (fun3 (xe_f X)) (fun4s (xe_L X)) (xe_om X) (drift_jac m (xe_f X)) JT
  (q "e"%string) (q "L"%string) (q "tube_L"%string) (q "penalty"%string) u p dvec.
rewrite num_eq ord_eq => H.
exact: (H LB St t1 (with_data _ _ _ _ _ D) EU SM (est_expr_oem EE E3) (est_expr_jme SJ' EE E3 isT) JC SJ (jme_expr_expresses LB SJ' EE E3 isT) Ep Hd).
Qed.

(** *** Concrete models

    One state, one input, one parameter, two nodes per piece, two unequal
    pieces.  Optimal control: x' = sin (p x) + u, running cost x^2 + u^2,
    endpoint cost ln (1 + x_end^2), path constraint x u, initial state. *)
Section Concrete.
Let d : fn R_rcfType := dummy R_rcfType.
Definition mx : colmodel R := dims (F := R_rcfType) d d d d d d d d.
Definition fxe : seq expr := [:: Add (Un Sin (Mul (Var "p" 0) (Var "x" 0))) (Var "u" 0)].
Definition Xoc : ocexpr := OcExpr fxe (Add (esq (Var "x" 0)) (esq (Var "u" 0)))
  (Un Ln (Add (Cst 1) (esq (Var "xe" 1)))) [:: "xe"]%string [:: Mul (Var "x" 0) (Var "u" 0)] [:: "x"; "u"]%string [:: Var "xe" 0] [:: "xe"]%string.
Definition Xest : estexpr := EstExpr fxe (eneg (esq (esub (Var "y" 0) (Var "x" 0)))) true.
Notation cR := (cx R_rcfType).
Notation tR := (t1 R_rcfType).

Lemma sorted_tR : sorted <%R tR. Proof. by rewrite /t1 /= ltr01 (ltr_nat R_rcfType 1 3). Qed.

Example C70_oc_nonvacuous : [/\ lobatto (F := R_rcfType) mx cR, sorted <%R tR /\ (1 < size tR)%N, oc_small mx tR,
  expr_oc mx (c_J cR) (c_K cR) Xoc (oc_symbolic mx (c_J cR) (c_K cR) Xoc) (oc_wrt mx (c_J cR) (c_K cR) Xoc) & forall dvec, oc_smooth mx tR Xoc dvec].
Proof.
split; first exact: lobatto_concrete.
- by split; [exact: sorted_tR|].
- by do !split.
- apply: oc_symbolic_ok => //; try (by repeat constructor); try (by split; [repeat constructor; simpl; intuition discriminate|move=> w /=; tauto]).
  split; [by repeat constructor; simpl; intuition discriminate|split; [by move=> w /=; tauto|by exists "x"%string; simpl; auto]].
- move=> dvec; split; [|split; [|split]].
  + by move=> i _; repeat constructor.
  + by move=> i _; repeat constructor.
  + rewrite /Xoc /=; do !split=> //.
    match goal with |- Rlt _ (Rplus _ (Rmult ?a _)) => have := Rle_0_sqr a end; rewrite /Rsqr => H; lra.
  + by repeat constructor.
Qed.

Example C70_est_nonvacuous (jme : bool) : [/\ lobatto (F := R_rcfType) mx cR, sorted <%R tR /\ (1 < size tR)%N,
  good_data mx tR (y1 R_rcfType) (u1 R_rcfType) /\ input_values mx tR (UArr (u1 R_rcfType)) = u1 R_rcfType,
  oem_small mx tR jme /\ jme_constants mx /\ size (JTx R_rcfType) = col_n (m_col mx) &
  let W := est_wrt mx (c_J cR) (c_K cR) (JTx R_rcfType) Xest jme in
  expr_est mx (c_J cR) (c_K cR) (JTx R_rcfType) Xest jme (est_symbolic mx (c_J cR) (c_K cR) (JTx R_rcfType) Xest jme) W /\
  forall dvec, est_smooth mx tR (y1 R_rcfType) (u1 R_rcfType) Xest jme dvec].
Proof.
split; first exact: lobatto_concrete.
- by split; [exact: sorted_tR|].
- split; [exact: data_concrete|by []].
- by case: jme; do !split.
- split.
    apply: (est_symbolic_ok mx (c_J cR) (c_K cR) (JTx R_rcfType) Xest jme); [by []|by repeat constructor|by repeat constructor].
  by move=> dvec; split=> i _; repeat constructor.
Qed.

(** C67 is met by the same models. *)
Example C67_nonvacuous : 
  symoc_model mx (oc_symbolic mx (c_J cR) (c_K cR) Xoc) (oc_sfun mx (c_J cR) (c_K cR) Xoc) (oc_wrt mx (c_J cR) (c_K cR) Xoc) /\
  (forall dvec, oc_sym_right mx tR (oc_sfun mx (c_J cR) (c_K cR) Xoc) (oc_wrt mx (c_J cR) (c_K cR) Xoc) dvec) /\
  good_grid mx tR.
Proof.
have [LB [St t1] SM EO HS] := C70_oc_nonvacuous; split; [exact: expr_symoc|split; [|exact: (good_grid_R LB)]].
by move=> dvec; apply: (oc_smooth_right _ _ _ _ _ _ _ EO); [by apply: (elimT ssrnat.leP)|exact: HS].
Qed.
End Concrete.
Print Assumptions C70_drift_jacobian.
Print Assumptions C70_output_error.
Print Assumptions C70_joint_map.
