(** C84: the example scripts. *)
From Coq Require Import String List ZArith Reals Lra.
From Coquelicot Require Import Coquelicot.
From Verif Require Import Py NdArray NdLemmas OptimModel OptimSpec Builder ProblemSpec ProblemLemmas DerivSpec ColModel ColBuild ColLaws GenModel GenLemmas ColCalls AssemblyLemmas PropsCol ColValues
  SymModel SymLemmas RegModel RegLemmas EndToEnd PropsEnd PropsEndEst Expr ExprSym ExprModel ExprEnd ExprCases ViewModel ViewLemmas PropsView ScriptModel PropsScript ExampleModel ExampleBounds.
From mathcomp Require Import all_ssreflect all_algebra polyorder polyrcf.
From Verif Require Import McRing RealField RkModel LegendreLemmas QuadLemmas LobattoLemmas PropsRk SymColModel PropsSymCol NlpLemmas PropsNlp ExprValues PropsExpr.
Set Implicit Arguments.
Unset Strict Implicit.
Unset Printing Implicit Defensive.
Import Order.TTheory GRing.Theory Num.Theory.
Local Open Scope ring_scope.
Local Notation R := Rdefinitions.R.
Local Existing Instances num_R numord_R.

(** *** Specification

    A decision vector that satisfies the bounds set by a script: those on the
    decision vector, and zero for all constraints
    ([constr_bounds = np.zeros((2, problem.ncons))]). *)
Definition feasible (prob : problem R) (L U : seq Rbar) (d : seq R) : Prop :=
  within L U d /\ exists cv : seq R, [/\ constr prob d = Ok cv, size cv = ProblemSpec.ncons prob & forall i, (i < size cv)%N -> cv`_i = 0].

(** The columns of a trajectory solve, piece by piece, the differential
    equation whose right-hand side at point [i] is [rhs i a]. *)
Definition solves (m : colmodel R) (t : seq R) (x rhs : nat -> nat -> R) : Prop :=
  let n := col_n (m_col m) in
  exists tc : seq R, ColModel.grid (m_col m) t = Ok tc /\
    forall k a, (k < (size t).-1)%N -> (a < m_nx m)%N ->
      collocates (F := R_rcfType) n (fun j => tc`_(k * n.-1 + j)) (fun j => x (k * n.-1 + j)%N a) (fun j => rhs (k * n.-1 + j)%N a).

(** *** examples/brachistochrone.py: a bead sliding without friction from
    (0, 0) at rest to (10, -5), on a time scale normalised by the final time,
    which is the cost. *)
Definition brach_solution (m : colmodel R) (t : seq R) (N : nat) (d : seq R) : Prop :=
  let x i := d`_(i * 3) in let y i := d`_(i * 3 + 1) in let v i := d`_(i * 3 + 2) in
  let theta i := d`_(N * 3 + i) in let tf := d`_(N * 3 + N) in
  [/\ solves m t (fun i a => d`_(i * 3 + a)) (fun i a => [:: v i * sin (theta i) * tf; - v i * cos (theta i) * tf; (IZR 980665 / IZR 100000)%R * cos (theta i) * tf]`_a),
      [/\ x 0%N = 0, y 0%N = 0 & v 0%N = 0],
      x N.-1 = IZR 10 /\ y N.-1 = IZR (-5),
      forall i, (i < N)%N -> Rle (Ropp PI) (theta i) /\ Rle (theta i) PI &
      Rle (1 / IZR 100000)%R tf].

(** The constraints are zero. *)
Definition zero_constr (prob : problem R) (d : seq R) : Prop :=
  exists cv : seq R, [/\ constr prob d = Ok cv, size cv = ProblemSpec.ncons prob & forall i, (i < size cv)%N -> cv`_i = 0].
(** The result of the script: the rows have the lengths of the decision
    vector and hold what the statements say. *)
Definition bounds_set (asgs : seq (assignment Rbar)) nd dec (L U : seq Rbar) : Prop :=
  [/\ length L = nd, length U = nd, (forall q v, lt q nd -> settled m_infty nd dec m_infty asgs false q v -> List.nth q L m_infty = v) &
    forall q v, lt q nd -> settled m_infty nd dec p_infty asgs true q v -> List.nth q U m_infty = v].

Lemma oc_example (m : colmodel R) (c : RkModel.collocation R_rcfType) (t : seq R) X sm W asgs extra (h : memory Rbar) :
  lobatto (F := R_rcfType) m c -> sorted <%R (t : seq R_rcfType) -> (1 < size t)%N -> oc_small m t ->
  expr_oc m (c_J c) (c_K c) X sm W -> xo_g X = [::] -> xo_h X = [::] -> (forall d, oc_smooth m t X d) ->
  let N := ((size t).-1 * (col_n (m_col m)).-1).+1 in let nd := (N * m_nx m + N * m_nu m + m_np m)%N in
  let dec := oc_dec N (m_nx m) (m_nu m) (m_np m) in
  List.Forall (PropsScript.proper nd dec) asgs ->
  exists sm' q prob L U, [/\ register_all sm (symoc_regs W) = Ok sm', (forall r, List.In r (symoc_regs W) -> generate_reg sm' r = Ok (q (r_name r))),
    oc_problem (with_fns m q) t = Ok prob,
    bounds_script m_infty m_infty p_infty (ndec prob) (p_decision prob) (prob_deps prob (oc_sel m t)) extra h asgs = Ok (L, U) &
    [/\ ndec prob = nd, bounds_set asgs nd dec L U &
    forall d, size d = nd ->
      let x := oc_state (F := R_rcfType) m d in let u := oc_input (F := R_rcfType) m t d in let p := oc_par (F := R_rcfType) m t d in
      [/\ zero_constr prob d <-> solves m t (fun i a => (x i)`_a) (fun i a => (fun3 (xo_f X) (x i) (u i) p)`_a),
        obj prob d = Ok (\sum_(k < (size t).-1) ((t : seq R_rcfType)`_k.+1 - (t : seq R_rcfType)`_k) * (\sum_(j < col_n (m_col m)) (c_K c)`_j * fun3s (xo_L X) (x (k * (col_n (m_col m)).-1 + j)%N) (u (k * (col_n (m_col m)).-1 + j)%N) p)
                     + fun2s (xo_M X) [:: x 0%N; x N.-1] p) &
        derivatives_right prob d]]].
Proof.
move=> LB St t1 SM EO Eg Eh Sm N nd dec HP.
have n1 : (0 < col_n (m_col m))%N by have [_ _ n1] := lobatto_nodes LB; apply: ltnW.
have EN : npoints m t = N by exact: (@npointsE R_rcfType m t n1).
have [sm' [q [prob [E1 E2 E3 HD]]]] := C70_optimal_control LB St t1 SM EO.
have GG : good_grid (with_fns m q) t by apply: with_grid; exact: (good_grid_R LB).
have Ep : prob = oc_prob (with_fns m q) t by have := oc_problem_ok (with_fns m q) t GG; rewrite E3 => -[].
have SM' : oc_small (with_fns m q) t by exact: SM.
have Ed : p_decision prob = dec by rewrite Ep (oc_decision (with_fns m q) t SM') -[npoints (with_fns m q) t]/(npoints m t) EN.
have End : ndec prob = nd by rewrite Ep (oc_ndec (with_fns m q) t SM') -[npoints (with_fns m q) t]/(npoints m t) EN.
have RE : reachable prob by rewrite Ep; exact: oc_reachable.
have HP' : List.Forall (PropsScript.proper (ndec prob) (p_decision prob)) asgs by rewrite Ed End.
have [L [U [EB [LL [LU [SL SU]]]]]] := @C84_bounds Rbar m_infty m_infty p_infty R num_R prob (oc_sel m t) extra h asgs RE HP'.
exists sm', q, prob, L, U; split=> //; split=> //.
  by split; rewrite -?End // -Ed.
move=> d Hd x u p; have Hd' : size d = ndec prob by rewrite End.
have [OM DR] := HD d Hd'; have DRd := DR (Sm d); split=> //; last by case: OM => tc [cv []].
have [v [cv' [_ [Ec' Lc']]]] := proj1 DRd.
case: OM => tc [cv [Et Ec Z Dr _]].
have Ecv : cv' = cv by move: Ec'; rewrite Ec => -[].
move: Dr; rewrite Eg Eh /fun3 /fun2 /= cats0 => Dr.
have Scv : (size cv <= (size t).-1 * ((col_n (m_col m)).-1 * m_nx m))%N.
  rewrite -subn_eq0 -size_drop Dr; elim: (iota _ _) => //=.
split.
- move=> [cw [Ew Sw Zw]]; have E : cw = cv by move: Ew; rewrite Ec => -[].
  exists tc; split=> //; apply/Z => i Hi; case: (ltnP i (size cv)) => Hs; first by have := Zw i; rewrite E; exact.
  by rewrite nth_default.
- move=> [tc' [Et' HS]]; have E : tc' = tc by move: Et'; rewrite Et => -[].
  rewrite E in HS; exists cv; split=> //; first by rewrite -Ecv.
  by move=> i Hi; refine (proj2 Z _ i _) => //; exact: leq_trans Scv.
Qed.

Lemma lobatto_sized n c nx nu np ny nw pen pw G : LGLCollocation R_rcfType n = Ok c -> lobatto (F := R_rcfType) (sized_model n (c_points c) nx nu np ny nw pen pw G) c.
Proof. by move=> E; split. Qed.
Lemma N_ge2 n (c : RkModel.collocation R_rcfType) (t : seq R) : LGLCollocation R_rcfType n = Ok c -> (1 < size t)%N -> le 2 ((size t).-1 * n.-1).+1.
Proof.
move=> E t1; have n1 : (1 < n)%N by move: E; rewrite /LGLCollocation; case E: (lgl_points R_rcfType n) => //= _; case: ltnP E => // /C27_order_error ->.
by apply/ssrnat.leP; rewrite ltnS muln_gt0 -!subn1 !subn_gt0 t1 n1.
Qed.


Lemma collocates_ext n (tau x v x' v' : nat -> R_rcfType) : (forall j, x j = x' j) -> (forall j, v j = v' j) ->
  collocates n tau x v <-> collocates n tau x' v'.
Proof.
move=> Ex Ev; rewrite /collocates; apply: uniq_iff => P; split=> -[SP H]; split=> // j Hj; have [H1 H2] := H j Hj; by rewrite H1 H2.
Qed.
Lemma solves_ext m t x rhs x' rhs' : (forall i a, (a < m_nx m)%N -> x i a = x' i a /\ rhs i a = rhs' i a) ->
  solves m t x rhs <-> solves m t x' rhs'.
Proof.
move=> H; split=> -[tc [Et HS]]; exists tc; split=> // k a Hk Ha; apply: (proj1 (collocates_ext _ _ _ _) (HS k a Hk Ha)) => j;
  by have [E1 E2] := H (k * (col_n (m_col m)).-1 + j)%N a Ha.
Qed.
Theorem C84_brachistochrone n (c : RkModel.collocation R_rcfType) (t : seq R) extra (h : memory Rbar) :
  LGLCollocation R_rcfType n = Ok c -> sorted <%R (t : seq R_rcfType) -> (1 < size t)%N ->
  let m := brach_model n (c_points c) in oc_small m t ->
  let sm := oc_symbolic m (c_J c) (c_K c) brach_expr in let W := oc_wrt m (c_J c) (c_K c) brach_expr in
  let N := ((size t).-1 * n.-1).+1 in
  exists sm' q prob L U, [/\ register_all sm (symoc_regs W) = Ok sm', (forall r, List.In r (symoc_regs W) -> generate_reg sm' r = Ok (q (r_name r))),
    oc_problem (with_fns m q) t = Ok prob,
    bounds_script m_infty m_infty p_infty (ndec prob) (p_decision prob) (prob_deps prob (oc_sel m t)) extra h brach_bounds = Ok (L, U) &
    forall d, size d = ndec prob ->
      [/\ feasible prob L U d <-> brach_solution m t N d, obj prob d = Ok d`_(N * 3 + N) & derivatives_right prob d]].
Proof.
move=> EL St t1 m SM sm W N; have LB : lobatto (F := R_rcfType) m c by exact: lobatto_sized.
have Sc : List.Forall (scoped (fun w => prodn (base_shape m w)) [:: "x"; "u"; "p"]%string) brach_f.
  by repeat (apply: List.Forall_cons || exact: List.Forall_nil); rewrite /eneg; cbn [scoped]; repeat split; cbn; auto.
have EO : expr_oc m (c_J c) (c_K c) brach_expr sm W.
  refine (oc_symbolic_ok m (c_J c) (c_K c) brach_expr erefl erefl erefl Sc I _ (List.Forall_nil _) (List.Forall_nil _) _ _ _).
  - by split; cbn; auto.
  - by split; [repeat constructor; simpl; intuition discriminate|move=> w; cbn; tauto].
  - by split; [repeat constructor; simpl; intuition discriminate|move=> w; cbn; tauto].
  - by split; [repeat constructor; simpl; intuition discriminate|split; [move=> w; cbn; tauto|exists "x"%string; cbn; auto]].
have Sm d : oc_smooth m t brach_expr d by split; [move=> i _; repeat constructor|split; [|split]]; repeat constructor.
have HN := N_ge2 EL t1.
have [sm' [q [prob [L [U [E1 E2 E3 E4 [End [LL LU SL SU] HD]]]]]]] := oc_example extra h LB St t1 SM EO erefl erefl Sm (@brach_proper _ HN).
exists sm', q, prob, L, U; split=> // d Hd; have Hd' : size d = (N * 3 + N * 1 + 1)%N by rewrite Hd End.
have [Hc Ho Dr] := HD d Hd'; split=> //; last first.
  rewrite Ho; congr Ok; rewrite big1 => [|k _]; last by rewrite big1 ?mulr0 // => j _; exact: mulr0.
  by rewrite add0r /fun2s /= /oc_par /block /= /arg_env /= !addn0 muln1.
have HW := @brach_within N HN L U d Hd' LL LU SL SU.
rewrite /feasible -/(zero_constr prob d) HW Hc /brach_solution.
have EN : (N - 1)%coq_nat = N.-1 by rewrite minusE subn1.
rewrite !EN !nthE !multE !plusE muln1 -/N.
have HS := @solves_ext m t (fun i => [eta nth 0 (oc_state (F := R_rcfType) m d i)])
  (fun i => [eta nth 0 (fun3 (xo_f brach_expr) (oc_state (F := R_rcfType) m d i) (oc_input (F := R_rcfType) m t d i) (oc_par (F := R_rcfType) m t d))])
  (fun i a => d`_(i * 3 + a)) (fun i a => [:: d`_(i * 3 + 2) * sin d`_(N * 3 + i) * d`_(N * 3 + N); - d`_(i * 3 + 2) * cos d`_(N * 3 + i) * d`_(N * 3 + N);
     (IZR 980665 / IZR 100000)%R * cos d`_(N * 3 + i) * d`_(N * 3 + N)]`_a).
rewrite HS => {HS}; last first.
  move=> i a; rewrite /oc_state /oc_input /oc_par /block /fun3 /brach_expr /brach_f /eneg -/N; set gr := Rdiv _ _.
  case: a => [|[|[|a]]] // _; cbn -[N nth muln addn]; rewrite ?addn0 ?muln1; split=> //.
  by congr (_ * _ * _); exact: mulN1r.
set S := solves _ _ _ _; split.
- move=> [[C1 [C2 [C3 C4]]] HS]; split=> //.
    by split; rewrite ?mul0n ?add0n -nthE; apply: C1; apply/ssrnat.leP.
  by move=> i /ssrnat.leP Hi; have := C3 i Hi; rewrite nthE.
- move=> [HS [X0 X1 X2] C2 C3 C4]; split=> //; split=> //.
    by case=> [|[|[|j]]] Hj; rewrite nthE //; move/ssrnat.leP: Hj.
  by split=> //; split=> // i /ssrnat.leP Hi; rewrite nthE; exact: C3.
Qed.
(** *** examples/bryson_denham.py: the least integral of half the squared
    acceleration that takes a particle from 0 at speed 1 back to 0 at speed
    -1 without passing 1/9. *)
Definition bryson_solution (m : colmodel R) (t : seq R) (N : nat) (d : seq R) : Prop :=
  let x i := d`_(i * 2) in let v i := d`_(i * 2 + 1) in let a i := d`_(N * 2 + i) in
  [/\ solves m t (fun i b => d`_(i * 2 + b)) (fun i b => [:: v i; a i]`_b),
      x 0%N = 0 /\ v 0%N = 1, x N.-1 = 0 /\ v N.-1 = -1 &
      forall i, (i < N)%N -> Rle 0 (x i) /\ Rle (x i) (1 / IZR 9)%R].

Theorem C84_bryson_denham n (c : RkModel.collocation R_rcfType) (t : seq R) extra (h : memory Rbar) :
  LGLCollocation R_rcfType n = Ok c -> sorted <%R (t : seq R_rcfType) -> (1 < size t)%N ->
  let m := bryson_model n (c_points c) in oc_small m t ->
  let sm := oc_symbolic m (c_J c) (c_K c) bryson_expr in let W := oc_wrt m (c_J c) (c_K c) bryson_expr in
  let N := ((size t).-1 * n.-1).+1 in
  exists sm' q prob L U, [/\ register_all sm (symoc_regs W) = Ok sm', (forall r, List.In r (symoc_regs W) -> generate_reg sm' r = Ok (q (r_name r))),
    oc_problem (with_fns m q) t = Ok prob,
    bounds_script m_infty m_infty p_infty (ndec prob) (p_decision prob) (prob_deps prob (oc_sel m t)) extra h bryson_bounds = Ok (L, U) &
    forall d, size d = ndec prob ->
      [/\ feasible prob L U d <-> bryson_solution m t N d,
          obj prob d = Ok (\sum_(k < (size t).-1) ((t : seq R_rcfType)`_k.+1 - (t : seq R_rcfType)`_k) *
                        (\sum_(j < n) (c_K c)`_j * ((1 / 2)%R * (d : seq R_rcfType)`_(N * 2 + (k * n.-1 + j)) ^+ 2))) &
          derivatives_right prob d]].
Proof.
move=> EL St t1 m SM sm W N; have LB : lobatto (F := R_rcfType) m c by exact: lobatto_sized.
have Sc : List.Forall (scoped (fun w => prodn (base_shape m w)) [:: "x"; "u"; "p"]%string) bryson_f.
  by repeat (apply: List.Forall_cons || exact: List.Forall_nil); cbn [scoped]; repeat split; cbn; auto.
have EO : expr_oc m (c_J c) (c_K c) bryson_expr sm W.
  refine (oc_symbolic_ok m (c_J c) (c_K c) bryson_expr erefl erefl erefl Sc _ I (List.Forall_nil _) (List.Forall_nil _) _ _ _).
  - by rewrite /esq; cbn [scoped xo_L bryson_expr]; repeat split; cbn; auto.
  - by split; [repeat constructor; simpl; intuition discriminate|move=> w; cbn; tauto].
  - by split; [repeat constructor; simpl; intuition discriminate|move=> w; cbn; tauto].
  - by split; [repeat constructor; simpl; intuition discriminate|split; [move=> w; cbn; tauto|exists "x"%string; cbn; auto]].
have Sm d : oc_smooth m t bryson_expr d by split; [move=> i _; repeat constructor|split; [|split]]; repeat constructor.
have HN := N_ge2 EL t1.
have [sm' [q [prob [L [U [E1 E2 E3 E4 [End [LL LU SL SU] HD]]]]]]] := oc_example extra h LB St t1 SM EO erefl erefl Sm (@bryson_proper _ HN).
exists sm', q, prob, L, U; split=> // d Hd; have Hd' : size d = (N * 2 + N * 1 + 0)%N by rewrite Hd End.
have [Hc Ho Dr] := HD d Hd'; split=> //; last first.
  rewrite Ho; congr Ok; rewrite /fun2s /= addr0; apply: eq_bigr => k _; congr (_ * _); apply: eq_bigr => j _; congr (_ * _).
  rewrite expr2 /fun3s /oc_input /block /esq; set w := (1 / 2)%R; cbn -[N nth muln addn w]; by rewrite addn0 muln1.
have HW := @bryson_within N HN L U d Hd' LL LU SL SU.
rewrite /feasible -/(zero_constr prob d) HW Hc /bryson_solution.
have EN : (N - 1)%coq_nat = N.-1 by rewrite minusE subn1.
rewrite !EN !nthE !multE !plusE -/N.
have HS := @solves_ext m t (fun i => [eta nth 0 (oc_state (F := R_rcfType) m d i)])
  (fun i => [eta nth 0 (fun3 (xo_f bryson_expr) (oc_state (F := R_rcfType) m d i) (oc_input (F := R_rcfType) m t d i) (oc_par (F := R_rcfType) m t d))])
  (fun i a => d`_(i * 2 + a)) (fun i a => [:: d`_(i * 2 + 1); d`_(N * 2 + i)]`_a).
rewrite HS => {HS}; last first.
  move=> i a; rewrite /oc_state /oc_input /oc_par /block /fun3 /bryson_expr /bryson_f -/N.
  by case: a => [|[|a]] // _; cbn -[N nth muln addn]; rewrite ?addn0 ?muln1; split.
set S := solves _ _ _ _; split.
- move=> [[C1 [C2 C3]] HS]; split=> // i /ssrnat.leP Hi; have := C3 i Hi; by rewrite nthE.
- move=> [HS C1 C2 C3]; split=> //; split=> //; split=> // i /ssrnat.leP Hi; rewrite nthE; exact: C3.
Qed.
(** *** examples/attas_sp.py: the parameters of a linear short-period model
    with the likelihood [gauss] of independent Gaussian measurement errors. *)
(** Value [c] of measurement [k], and that no value is masked. *)
Definition ym (y : seq (yrow R)) k c : R := (nth (0, true) (nth [::] y k) c).1.
Definition unmasked (y : seq (yrow R)) : bool := all (all (fun yb : R * bool => ~~ yb.2)) y.

Definition attas_solution (m : colmodel R) (t : seq R) (uv : arr R) (N : nat) (d : seq R) : Prop :=
  let q i := d`_(i * 2) in let alpha i := d`_(i * 2 + 1) in let de i := (adat uv)`_i in
  let par j := d`_(N * 2 + j) in
  let Z0 := par 0%N in let Zalpha := par 1%N in let Zq := par 2%N in let Zde := par 3%N in
  let M0 := par 4%N in let Malpha := par 5%N in let Mq := par 6%N in let Mde := par 7%N in
  [/\ solves m t (fun i a => d`_(i * 2 + a))
        (fun i a => [:: M0 + Malpha * alpha i + Mq * q i + Mde * de i; Z0 + Zalpha * alpha i + (Zq + 1) * q i + Zde * de i]`_a),
      Rle (Rdiv (IZR 1) (IZR 10000)) (par 8%N) & Rle (Rdiv (IZR 25) (IZR 100000)) (par 9%N)].

Lemma ymE (y : seq (yrow R)) k c : (meas (F := R_rcfType) y k)`_c = ym y k c.
Proof. by rewrite /meas /ym; elim: (nth [::] y k) c => [|yb r IH] [|c] //=. Qed.
Lemma kept_unmasked (y : seq (yrow R)) ny : (0 < ny)%N -> unmasked y -> List.Forall (fun r : yrow R => length r = ny) y -> kept (F := R_rcfType) y = iota 0 (size y).
Proof.
move=> n0 U Fy; rewrite /kept; apply/all_filterP/allP => k; rewrite mem_iota add0n => /andP [_ Hk].
have Hr := proj1 (List.Forall_forall _ _) Fy _ (List.nth_In y [::] (elimT ssrnat.leP Hk)); rewrite nthE in Hr.
move/all_nthP: U => /(_ [::] k Hk); move: Hr; case: (nth _ _ _) => [|yb r] /= E; first by rewrite -E in n0.
by case/andP => ->.
Qed.

Lemma zero_solves (m : colmodel R) (t : seq R) prob (d : seq R) (tc cv : seq R_rcfType) (x rhs : nat -> nat -> R) :
  ColModel.grid (m_col m) t = Ok tc -> constr prob d = Ok cv -> size cv = ProblemSpec.ncons prob ->
  ((forall i, (i < size cv)%N -> cv`_i = 0) <->
   (forall k a, (k < (size t).-1)%N -> (a < m_nx m)%N ->
      collocates (F := R_rcfType) (col_n (m_col m)) (fun j => tc`_(k * (col_n (m_col m)).-1 + j)) (fun j => x (k * (col_n (m_col m)).-1 + j)%N a)
        (fun j => rhs (k * (col_n (m_col m)).-1 + j)%N a))) ->
  zero_constr prob d <-> solves m t x rhs.
Proof.
move=> Et Ec Sc Z; split.
- move=> [cw [Ew Sw Zw]]; have E : cw = cv by move: Ew; rewrite Ec => -[].
  by exists tc; split=> //; apply/Z; rewrite -E.
- move=> [tc' [Et' HS]]; have E : tc' = tc by move: Et'; rewrite Et => -[].
  by rewrite E in HS; exists cv; split=> //; apply/Z.
Qed.
Lemma and3_shuffle (A B C D : Prop) : (A <-> D) -> ((B /\ C) /\ A <-> [/\ D, B & C]).
Proof. by case=> H1 H2; split=> [[[? ?] ?]|[? ? ?]]; split=> //; auto. Qed.

Theorem C84_attas n (c : RkModel.collocation R_rcfType) (t : seq R) y u uv JT extra (h : memory Rbar) :
  LGLCollocation R_rcfType n = Ok c -> sorted <%R (t : seq R_rcfType) -> (1 < size t)%N ->
  let m := attas_model n (c_points c) in good_data m t y uv -> input_values m t u = uv -> oem_small m t false -> unmasked y ->
  let sm := est_symbolic m (c_J c) (c_K c) JT attas_expr false in let W := est_wrt m (c_J c) (c_K c) JT attas_expr false in
  let N := ((size t).-1 * n.-1).+1 in
  exists sm' q prob L U, [/\ register_all sm (symoem_regs W) = Ok sm', (forall r, List.In r (symoem_regs W) -> generate_reg sm' r = Ok (q (r_name r))),
    oem_problem (with_fns m q) false t y u = Ok prob,
    bounds_script m_infty m_infty p_infty (ndec prob) (p_decision prob) (prob_deps prob (oem_sel m t y false)) extra h attas_bounds = Ok (L, U) &
    forall d, size d = ndec prob ->
      (feasible prob L U d <-> attas_solution m t uv N d) /\
      (within L U d ->
         obj prob d = Ok (\sum_(k < size t) (gauss (ym y k 1) (d : seq R_rcfType)`_(k * n.-1 * 2 + 1) (d : seq R_rcfType)`_(N * 2 + 8) +
                                             gauss (ym y k 0) (d : seq R_rcfType)`_(k * n.-1 * 2) (d : seq R_rcfType)`_(N * 2 + 9))) /\
         derivatives_right prob d)].
Proof.
move=> EL St t1 m D EU SM UM sm W N; have LB : lobatto (F := R_rcfType) m c by exact: lobatto_sized.
have Sc : List.Forall (scoped (fun w => prodn (base_shape m w)) [:: "x"; "u"; "p"]%string) attas_f.
  by repeat (apply: List.Forall_cons || exact: List.Forall_nil); cbn [scoped]; repeat split; cbn; auto 20.
have ScL : scoped (fun w => prodn (base_shape m w)) L_names attas_L.
  by rewrite /attas_L /enormal1 /esub /eneg /esq; cbn [scoped]; repeat split; cbn; auto 20.
have EE : expr_est m (c_J c) (c_K c) JT attas_expr false sm W by exact: est_symbolic_ok.
have n1 : (0 < col_n (m_col m))%N by have [_ _ n1] := lobatto_nodes LB; apply: ltnW.
have EN : npoints m t = N by exact: (@npointsE R_rcfType m t n1).
have [sm' [q [prob [E1 E2 E3 HD]]]] := C70_output_error LB St t1 D EU SM EE.
have GG : good_grid (with_fns m q) t by apply: with_grid; exact: (good_grid_R LB).
have Ep : prob = oem_prob (with_fns m q) t y uv false by have := @oem_problem_ok R num_R numord_R (with_fns m q) t y uv false u GG (with_data _ _ _ _ _ D) EU; rewrite E3 => -[].
have SM' : oem_small (with_fns m q) t false by exact: SM.
have End : ndec prob = (N * 2 + 10)%N.
  rewrite Ep (@oem_ndec _ _ _ _ _ _ _ _ (@oem_is_like _ _ _ _ _ _ _) SM') -[npoints (with_fns m q) t]/(npoints m t) EN.
  by rewrite /nwc plusE multE addn0.
have RE : reachable prob by rewrite Ep; exact: oem_reachable.
have nd2 : le 2 (ndec prob) by rewrite End; apply/ssrnat.leP; rewrite addnC.
have [L [U [EB [LL [LU [SL SU]]]]]] := @C84_bounds Rbar m_infty m_infty p_infty R num_R prob (oem_sel m t y false) extra h attas_bounds RE (@attas_proper _ _ nd2).
exists sm', q, prob, L, U; split=> // d Hd.
have HW := @attas_within (ndec prob) (p_decision prob) L U d nd2 Hd LL LU SL SU.
have EP j : (j < 10)%N -> (par_of (F := R_rcfType) m t false d)`_j = d`_(N * 2 + j).
  by move=> Hj; rewrite /par_of /block (nth_map 0%N) ?size_iota // nth_iota // addn0.
have HW' : within L U d <-> Rle (Rdiv (IZR 1) (IZR 10000)) d`_(N * 2 + 8) /\ Rle (Rdiv (IZR 25) (IZR 100000)) d`_(N * 2 + 9).
  by rewrite HW End !nthE !minusE -!addnBA.
have [OM DR] := HD d Hd; case: OM => tc [cv [Et Ec Scv Z Ho]]; split.
  rewrite /attas_solution.
  have Nc : size cv = ProblemSpec.ncons prob by rewrite Scv Ep (@oem_ncons _ _ _ _ _ _ _ SM') /npieces !minusE !multE !subn1 mulnA.
  have HZ := zero_solves (x := fun i => [eta nth 0 (traj (F := R_rcfType) m d i)])
    (rhs := fun i => [eta nth 0 (fun3 attas_f (traj (F := R_rcfType) m d i) (inp (F := R_rcfType) m uv i) (par_of (F := R_rcfType) m t false d))]) Et Ec Nc Z.
  rewrite /feasible -/(zero_constr prob d) HW' HZ.
  apply: and3_shuffle; apply: solves_ext => i a Ha; split.
    by rewrite /traj /block (nth_map 0%N) ?size_iota // nth_iota // add0n.
  have E0 : (traj (F := R_rcfType) m d i)`_0 = d`_(i * 2) by rewrite /traj /block /= addn0.
  have E1' : (traj (F := R_rcfType) m d i)`_1 = d`_(i * 2 + 1) by [].
  have Eu : (inp (F := R_rcfType) m uv i)`_0 = (adat uv)`_i by rewrite /inp /block /= muln1 addn0.
  move: (EP 0%N isT) (EP 1%N isT) (EP 2%N isT) (EP 3%N isT) (EP 4%N isT) (EP 5%N isT) (EP 6%N isT) (EP 7%N isT).
  move: (traj _ _ _) E0 E1' (inp _ _ _) Eu (par_of _ _ _ _) => X E0 E1' V Eu P P0 P1 P2 P3 P4 P5 P6 P7.
  case: a Ha => [|[|a]] // _; rewrite /fun3 /attas_f; cbn -[nth muln addn List.nth]; rewrite !nthE.
  - by rewrite P4 P5 P6 P7 E0 E1' Eu.
  - by rewrite P0 P1 P2 P3 E0 E1' Eu.
move=> /HW' [W8 W9]; split; last first.
  apply: DR; split.
    by move=> i _; repeat constructor.
  move=> r Hr; have EA j : (j < 10)%N -> arg_env L_names (List.map (meas_arg m t y uv false d r) L_names) "p"%string j = d`_(N * 2 + j).
    move=> Hj; rewrite arg_env_map; [|by repeat constructor; simpl; intuition discriminate|by simpl; tauto].
    rewrite -[meas_arg _ _ _ _ _ _ _ _]/(map (est_p m t false d) (iota 0 10)) nthE (nth_map 0%N) ?size_iota // nth_iota // add0n.
    by rewrite /est_p EN nthE plusE multE addn0.
  by split; apply: enormal1_dom => //; cbn [eval]; rewrite EA //; [apply: Rlt_le_trans W8|apply: Rlt_le_trans W9]; lra.
have Sy : size y = size t := gd_y _ _ _ _ D.
rewrite Ho (kept_unmasked _ UM (gd_ny _ _ _ _ D)) // Sy -{1}[size t]subn0 big_mkord; congr Ok; apply: eq_bigr => k _.
rewrite /fun4s /attas_expr /attas_L; cbn [xe_L]; rewrite evalD !enormal1_val !evalV /L_names /arg_env; cbn -[nth muln addn List.nth traj inp par_of meas gauss].
rewrite !nthE !EP //.
have Et0 : (traj (F := R_rcfType) m d (k * n.-1))`_0 = d`_(k * n.-1 * 2) by rewrite /traj /block /= addn0.
by rewrite !ymE Et0.
Qed.
(** *** examples/duffing_jme.py: a Duffing oscillator driven by noise on its
    acceleration. *)
(** The noise at point [j] of piece [k], from its [n - 1] coefficients. *)
Definition duffing_noise (n : nat) (JT : seq (seq R)) (N : nat) (d : seq R) (k j : nat) : R :=
  \sum_(b < n.-1) (nth [::] JT j : seq R_rcfType)`_b * (d : seq R_rcfType)`_(N * 2 + (k * n.-1 + b)).
Definition duffing_solution (m : colmodel R) (t : seq R) (uv : arr R) (JT : seq (seq R)) (g2 : R) (N : nat) (d : seq R) : Prop :=
  let n := col_n (m_col m) in
  let x1 i := (d : seq R_rcfType)`_(i * 2) in let x2 i := (d : seq R_rcfType)`_(i * 2 + 1) in let u1 i := (adat uv : seq R_rcfType)`_i in
  let par j := (d : seq R_rcfType)`_(N * 2 + (size t).-1 * n.-1 + j) in
  let gamma := par 0%N in let alpha := par 1%N in let beta := par 2%N in let delta := par 3%N in
  (exists tc : seq R, ColModel.grid (m_col m) t = Ok tc /\
     forall k a, (k < (size t).-1)%N -> (a < 2)%N ->
      collocates (F := R_rcfType) n (fun j => tc`_(k * n.-1 + j)) (fun j => d`_((k * n.-1 + j) * 2 + a))
        (fun j => let i := (k * n.-1 + j)%N in
                  [:: x2 i; - delta * x2 i - beta * x1 i - alpha * x1 i ^+ 3 + gamma * u1 i + g2 * duffing_noise n JT N d k j]`_a)) /\
  Rle (Rdiv (IZR 1) (IZR 100000)) (par 4%N).
(** Its objective: the likelihood of the measurements that are not masked,
    minus half the integral of the squared noise and of the divergence of the
    drift, which is -delta. *)
Definition duffing_merit (n : nat) (Kw t : seq R) (y : seq (yrow R)) (JT : seq (seq R)) (N : nat) (d : seq R) : R :=
  let par j := (d : seq R_rcfType)`_(N * 2 + (size t).-1 * n.-1 + j) in
  \sum_(k <- iota 0 (size y) | ~~ (nth (0, true) (nth [::] y k) 0).2) (gauss (ym y k 0) (d : seq R_rcfType)`_(k * n.-1 * 2) (par 4%N) : R_rcfType)
  - 2%:R^-1 * \sum_(k < (size t).-1) ((t : seq R_rcfType)`_k.+1 - (t : seq R_rcfType)`_k) *
      \sum_(j < n) (Kw : seq R_rcfType)`_j * ((duffing_noise n JT N d k j : R_rcfType) ^+ 2 - par 3%N).

Theorem C84_duffing n (c : RkModel.collocation R_rcfType) (t : seq R) y u uv JT g2 extra (h : memory Rbar) :
  LGLCollocation R_rcfType n = Ok c -> sorted <%R (t : seq R_rcfType) -> (1 < size t)%N ->
  let m := duffing_model n (c_points c) g2 in good_data m t y uv -> input_values m t u = uv -> oem_small m t true -> size JT = n ->
  let sm := est_symbolic m (c_J c) (c_K c) JT duffing_expr true in let W := est_wrt m (c_J c) (c_K c) JT duffing_expr true in
  let N := ((size t).-1 * n.-1).+1 in
  exists sm' q prob L U, [/\ register_all sm (symjme_regs false W) = Ok sm', (forall r, List.In r (symjme_regs false W) -> generate_reg sm' r = Ok (q (r_name r))),
    jme_problem (with_fns m q) t y u = Ok prob,
    bounds_script m_infty m_infty p_infty (ndec prob) (p_decision prob) (prob_deps prob (oem_sel m t y true)) extra h duffing_bounds = Ok (L, U) &
    forall d, size d = ndec prob ->
      (feasible prob L U d <-> duffing_solution m t uv JT g2 N d) /\
      (within L U d -> obj prob d = Ok (duffing_merit n (c_K c) t y JT N d) /\ derivatives_right prob d)].
Proof.
move=> EL St t1 m D EU SM SJ sm W N; have LB : lobatto (F := R_rcfType) m c by exact: lobatto_sized.
have Sc : List.Forall (scoped (fun w => prodn (base_shape m w)) [:: "x"; "u"; "p"]%string) duffing_f.
  by repeat (apply: List.Forall_cons || exact: List.Forall_nil); rewrite /esub /eneg; cbn [scoped]; repeat split; cbn; auto 20.
have ScL : scoped (fun w => prodn (base_shape m w)) L_names duffing_L.
  by rewrite /duffing_L /enormal1 /esub /eneg /esq; cbn [scoped]; repeat split; cbn; auto 20.
have EE : expr_est m (c_J c) (c_K c) JT duffing_expr true sm W by exact: est_symbolic_ok.
have JC : jme_constants m by [].
have n1 : (0 < col_n (m_col m))%N by have [_ _ n1] := lobatto_nodes LB; apply: ltnW.
have EN : npoints m t = N by exact: (@npointsE R_rcfType m t n1).
have [sm' [q [prob [E1 E2 E3 HD]]]] := C70_joint_map LB St t1 D EU SM JC SJ EE.
have GG : good_grid (with_fns m q) t by apply: with_grid; exact: (good_grid_R LB).
have Ep : prob = jme_prob (with_fns m q) t y uv by have := @jme_problem_ok R num_R numord_R (with_fns m q) t y uv u GG (with_data _ _ _ _ _ D) EU; rewrite E3 => -[].
have SM' : oem_small (with_fns m q) t true by exact: SM.
set o := (N * 2 + (size t).-1 * n.-1)%N.
have Enw : nwc m t true = ((size t).-1 * n.-1)%N by rewrite /nwc /npieces !minusE !multE !subn1 muln1.
have End : ndec prob = (o + 5)%N.
  rewrite Ep (@oem_ndec _ _ _ _ _ _ _ _ (@jme_is_like _ _ _ _ _ _) SM') -[npoints (with_fns m q) t]/(npoints m t) EN.
  by rewrite -[nwc (with_fns m q) t true]/(nwc m t true) Enw.
have RE : reachable prob by rewrite Ep; exact: jme_reachable.
have Ed : p_decision prob = jme_dec m t (nwc m t true) (wc_shape m t) by rewrite Ep (@jme_decision (with_fns m q) t y uv SM').
have RP := @jme_region m t (ndec prob) (nwc m t true) (wc_shape m t).
rewrite -Ed EN Enw in RP.
have HP := @duffing_proper (ndec prob) (p_decision prob) _ _ RP (le_n_S _ _ (Nat.le_0_l 4)).
have [L [U [EB [LL [LU [SL SU]]]]]] := @C84_bounds Rbar m_infty m_infty p_infty R num_R prob (oem_sel m t y true) extra h duffing_bounds RE HP.
exists sm', q, prob, L, U; split=> // d Hd.
have Ho5 : le (addn (muln N (m_nx m)) (muln (size t).-1 n.-1) + m_np m)%coq_nat (ndec prob) by rewrite End; apply/ssrnat.leP.
have HW := @duffing_within (ndec prob) (p_decision prob) _ _ RP L U d (le_n_S _ _ (Nat.le_0_l 4)) Ho5 Hd LL LU SL SU.
have EP j : (j < 5)%N -> (par_of (F := R_rcfType) m t true d)`_j = d`_(o + j).
  by move=> Hj; rewrite /par_of /block (nth_map 0%N) ?size_iota // nth_iota // add0n -[m_nw m]/1%N muln1.
have HW' : within L U d <-> Rle (Rdiv (IZR 1) (IZR 100000)) d`_(o + 4) by rewrite HW nthE.
have EW k j : noise_at n JT (noise_of (F := R_rcfType) m t d k) j 0 = duffing_noise n JT N d k j.
  rewrite /noise_at /duffing_noise; apply: eq_bigr => b _; congr (_ * _).
  by rewrite /noise_of /elem /row (nth_map 0%N) ?size_iota // nth_iota // add0n /block /= addn0 muln1.
have E0 i : (traj (F := R_rcfType) m d i)`_0 = d`_(i * 2) by rewrite /traj /block /= addn0.
have E1' i : (traj (F := R_rcfType) m d i)`_1 = d`_(i * 2 + 1) by [].
have Eu i : (inp (F := R_rcfType) m uv i)`_0 = (adat uv)`_i by rewrite /inp /block /= muln1 addn0.
have [OM DR] := HD d Hd; case: OM => tc [cv [Et Ec Scv Z Ho]]; split.
  have Nc : size cv = ProblemSpec.ncons prob by rewrite Scv Ep (@jme_ncons _ _ _ _ _ _ SM') /npieces !minusE !multE !subn1 mulnA.
  rewrite /feasible -/(zero_constr prob d) HW' /duffing_solution -/N -/o.
  have HE k a : (a < 2)%N -> collocates (F := R_rcfType) n (fun j => tc`_(k * n.-1 + j)) (fun j => (traj (F := R_rcfType) m d (k * n.-1 + j))`_a)
         (fun j => (fun3 duffing_f (traj (F := R_rcfType) m d (k * n.-1 + j)) (inp (F := R_rcfType) m uv (k * n.-1 + j)) (par_of (F := R_rcfType) m t true d))`_a
            + \sum_(i < 1) (adat (m_G m) : seq R_rcfType)`_(a * 1 + i) * noise_at n JT (noise_of (F := R_rcfType) m t d k) j i) <->
      collocates (F := R_rcfType) n (fun j => tc`_(k * n.-1 + j)) (fun j => d`_((k * n.-1 + j) * 2 + a))
        (fun j => let i := (k * n.-1 + j)%N in
                  [:: (d : seq R_rcfType)`_(i * 2 + 1); - (d : seq R_rcfType)`_(o + 3) * (d : seq R_rcfType)`_(i * 2 + 1) - (d : seq R_rcfType)`_(o + 2) * (d : seq R_rcfType)`_(i * 2)
                      - (d : seq R_rcfType)`_(o + 1) * (d : seq R_rcfType)`_(i * 2) ^+ 3 + (d : seq R_rcfType)`_(o + 0) * (adat uv : seq R_rcfType)`_i + g2 * duffing_noise n JT N d k j]`_a).
    move=> Ha; apply: collocates_ext => j.
      by rewrite /traj /block (nth_map 0%N) ?size_iota // nth_iota // add0n.
    rewrite big_ord1 EW; move: (EP 0%N isT) (EP 1%N isT) (EP 2%N isT) (EP 3%N isT) (E0 (k * n.-1 + j)%N) (E1' (k * n.-1 + j)%N) (Eu (k * n.-1 + j)%N).
    move: (traj _ _ _) (inp _ _ _) (par_of _ _ _ _) => X V P P0 P1 P2 P3 X0 X1 V0.
    case: a Ha => [|[|a]] // _; rewrite /fun3 /duffing_f muln1 addn0; cbn [map nth adat m_G m duffing_model sized_model].
      by rewrite !evalV /arg_env; cbn -[nth List.nth muln addn duffing_noise]; rewrite nthE X1 Rmult_0_l Rplus_0_r.
    rewrite /esub /eneg !evalD !evalM !evalC !evalV (_ : IZR (-1) = -1 :> R_rcfType) // !mulN1r /arg_env; cbn -[nth List.nth muln addn duffing_noise o N GRing.add GRing.mul GRing.opp GRing.exp].
    by rewrite !nthE P0 P1 P2 P3 X0 X1 V0 exprS expr2 !addn0. 
  split.
  - move=> [HB [cw [Ew Sw Zw]]]; split=> //; exists tc; split=> // k a Hk Ha; apply/HE => //.
    have E : cw = cv by move: Ew; rewrite Ec => -[].
    by refine (proj1 Z _ k a Hk Ha); rewrite -E.
  - move=> [[tc' [Et' HS]] HB]; split=> //; exists cv; split=> //; apply/Z => k a Hk Ha.
    have E : tc' = tc by move: Et'; rewrite Et => -[].
    by rewrite E in HS; apply/(HE k a Ha); exact: HS.
move=> /HW' W4; split; last first.
  apply: DR; split.
    by move=> i _; repeat constructor.
  move=> r Hr; have EA j : (j < 5)%N -> arg_env L_names (List.map (meas_arg m t y uv true d r) L_names) "p"%string j = d`_(o + j).
    move=> Hj; rewrite arg_env_map; [|by repeat constructor; simpl; intuition discriminate|by simpl; tauto].
    rewrite -[meas_arg _ _ _ _ _ _ _ _]/(map (est_p m t true d) (iota 0 5)) nthE (nth_map 0%N) ?size_iota // nth_iota // add0n.
    by rewrite /est_p EN nthE -/(nwc m t true) Enw.
  by apply: enormal1_dom => //; cbn [eval]; rewrite EA //; apply: Rlt_le_trans W4; lra.
rewrite Ho subr0 /duffing_merit -/N -/o; congr Ok; congr (_ - _).
  have -> : kept (F := R_rcfType) y = [seq k <- iota 0 (size y) | ~~ (nth (0, true) (nth [::] y k) 0).2].
    apply: eq_in_filter => k; rewrite mem_iota add0n => /andP [_ Hk].
    have Hr := proj1 (List.Forall_forall _ _) (gd_ny _ _ _ _ D) _ (List.nth_In y [::] (elimT ssrnat.leP Hk)); rewrite nthE in Hr.
    by move: Hr; case: (nth _ _ _) => [|yb [|]] //= _; rewrite orbF.
  rewrite big_filter; apply: eq_bigr => k _.
  rewrite /fun4s /duffing_expr /duffing_L; cbn [xe_L]; rewrite enormal1_val !evalV /L_names /arg_env; cbn -[nth muln addn List.nth traj inp par_of meas gauss o].
  by rewrite !nthE EP // ymE E0.
congr (_ * _); apply: eq_bigr => k _; congr (_ * _); apply: eq_bigr => j _; congr (_ * _); rewrite big_ord1 EW; congr (_ + _).
rewrite big_mkcond !big_ord_recl big_ord0 /= add0r addr0.
have -> : elem (F := R_rcfType) (drift_jac m (xe_f duffing_expr) (traj (F := R_rcfType) m d (k * n.-1 + j)) (inp (F := R_rcfType) m uv (k * n.-1 + j)) (par_of (F := R_rcfType) m t true d)) 1 1
  = fun3s (dif "x" 1 (List.nth 1 duffing_f (Cst 0))) (traj (F := R_rcfType) m d (k * n.-1 + j)) (inp (F := R_rcfType) m uv (k * n.-1 + j)) (par_of (F := R_rcfType) m t true d) by [].
rewrite -(EP 3%N) //; move: (traj _ _ _) (inp _ _ _) (par_of _ _ _ _) => X V P; rewrite /fun3s /duffing_f /esub /eneg.
cbn [List.nth]; rewrite /arg_env; cbn -[nth List.nth]; rewrite !nthE; ring.
Qed.
(** *** The problems have feasible points *)
Lemma collocates_poly n (tau x v : nat -> R_rcfType) (P : {poly R_rcfType}) : (0 < n)%N ->
  (forall i j, (i < n)%N -> (j < n)%N -> tau i = tau j -> i = j) -> (size P <= n.+1)%N ->
  (forall j, (j < n)%N -> P.[tau j] = x j /\ P^`().[tau j] = v j) -> collocates n tau x v.
Proof.
move=> n0 inj SP HP; exists P; split=> // Q [SQ HQ].
have E : (P - Q)^`() = 0.
  apply: (@roots_geq_poly_eq0 _ _ [seq tau j | j <- iota 0 n]).
  - apply/allP => z /mapP [j]; rewrite mem_iota add0n => /andP [_ Hj] ->; rewrite /root derivB hornerD hornerN.
    by rewrite (proj2 (HP j Hj)) (proj2 (HQ j Hj)) subrr.
  - by rewrite map_inj_in_uniq ?iota_uniq // => i j; rewrite !mem_iota !add0n => /andP [_ Hi] /andP [_ Hj]; exact: inj.
  - rewrite size_map size_iota derivB; apply: leq_trans (size_add _ _) _; rewrite size_opp geq_max.
    have S1 (A : {poly R_rcfType}) : (size A <= n.+1)%N -> (size A^`() <= n)%N.
      by move=> H; rewrite /deriv; apply: leq_trans (size_poly _ _) _; case: (size A) H.
    by rewrite !S1.
have := deriv_eq0 E; rewrite -[Q in _ -> _ = Q]addr0 => E'.
have Z : P - Q = 0.
  rewrite E' -(hornerC ((P - Q).[0]) (tau 0%N)) -E' hornerD hornerN.
  by rewrite (proj1 (HP _ n0)) (proj1 (HQ _ n0)) subrr polyC0.
by rewrite addr0; apply/eqP; rewrite -subr_eq0; apply/eqP.
Qed.

Lemma grid_nodes m (c : RkModel.collocation R_rcfType) (t : seq R) : lobatto (F := R_rcfType) m c -> sorted <%R (t : seq R_rcfType) -> (1 < size t)%N ->
  let n := col_n (m_col m) in
  exists tc : seq R_rcfType, [/\ ColModel.grid (m_col m) t = Ok tc, tc`_0 = t`_0, tc`_((size t).-1 * n.-1) = t`_(size t).-1 &
    forall k, (k < (size t).-1)%N -> forall i j, (i < n)%N -> (j < n)%N -> tc`_(k * n.-1 + i) = tc`_(k * n.-1 + j) -> i = j].
Proof.
move=> LB St t1 n; have [tc [Et H]] := grid_times LB St t1; have [_ [Sn So P0 P1] n1] := lobatto_nodes LB.
rewrite -/n in n1 H P1 Sn; rewrite num_eq in Et.
exists tc; split=> //.
- have := H 0%N 0%N; rewrite mul0n addn0 P0 mul0r addr0; apply; last exact: ltnW.
  by case: (size t) t1 => [|[]].
- case E: (size t) t1 => [|[|K]] // _; rewrite [in LHS]/=.
  have := H K n.-1; rewrite E -mulSnr P1 mul1r addrCA subrr addr0; apply=> //.
  by case: (n) n1.
- move=> k Hk i j Hi Hj; rewrite !H // => /addrI/mulIf.
  have Hs : t`_k.+1 - t`_k != 0 :> R_rcfType.
    rewrite subr_eq0 gt_eqF //; apply: (elimT (sortedP 0) St); by case: (size t) Hk.
  have NU : uniq (c_points c) by exact: lt_sorted_uniq.
  move=> /(_ Hs) E; apply/eqP; rewrite -(nth_uniq 0 _ _ NU) ?Sn //; exact/eqP.
Qed.

(** Sliding down the straight line is feasible, for every order and grid. *)
Definition slide (N : nat) (tc : seq R) : seq R :=
  mkseq (fun q => if (q < N * 3)%N then [:: IZR 10 * ((tc : seq R_rcfType)`_(q %/ 3) ^+ 2); IZR (-5) * ((tc : seq R_rcfType)`_(q %/ 3) ^+ 2);
      Rdiv (IZR 980665) (IZR 100000) * cos slide_theta * slide_tf * (tc : seq R_rcfType)`_(q %/ 3) : R_rcfType]`_(q %% 3)
    else if (q < N * 3 + N)%N then slide_theta else slide_tf) (N * 3 + N + 1).
Theorem C84_brachistochrone_feasible n (c : RkModel.collocation R_rcfType) (t : seq R) :
  LGLCollocation R_rcfType n = Ok c -> sorted <%R (t : seq R_rcfType) -> (1 < size t)%N -> t`_0 = 0 -> t`_(size t).-1 = 1 ->
  let m := brach_model n (c_points c) in let N := ((size t).-1 * n.-1).+1 in
  exists d, size d = (N * 3 + N + 1)%N /\ brach_solution m t N d.
Proof.
move=> EL St t1 T0 T1 m N; have LB : lobatto (F := R_rcfType) m c by exact: lobatto_sized.
have [tc [Et G0 G1 inj]] := grid_nodes LB St t1; have [_ _ n1] := lobatto_nodes LB; rewrite -[col_n (m_col m)]/n in n1 G1 inj.
exists (slide N tc); split; first by rewrite size_mkseq.
have X i a : (i < N)%N -> (a < 3)%N -> (slide N tc)`_(i * 3 + a) = [:: IZR 10 * (tc`_i ^+ 2); IZR (-5) * (tc`_i ^+ 2);
      Rdiv (IZR 980665) (IZR 100000) * cos slide_theta * slide_tf * tc`_i : R_rcfType]`_a.
  move=> Hi Ha; have H : (i * 3 + a < N * 3)%N by apply: leq_trans (_ : i.+1 * 3 <= _)%N; rewrite ?leq_mul2r ?orbT // mulSn addnC ltn_add2r.
  have H' : (i * 3 + a < N * 3 + N + 1)%N by rewrite addn1 ltnS; apply: leq_trans (ltnW H) (leq_addr _ _).
  by rewrite nth_mkseq // H divnMDl // divn_small // addn0 modnMDl modn_small.
have TH i : (i < N)%N -> (slide N tc)`_(N * 3 + i) = slide_theta.
  move=> Hi; have H' : (N * 3 + i < N * 3 + N + 1)%N by rewrite addn1 ltnS leq_add2l ltnW.
  by rewrite nth_mkseq // ltnNge leq_addr /= ltn_add2l Hi.
have TF : (slide N tc)`_(N * 3 + N) = slide_tf.
  by rewrite nth_mkseq ?addn1 // !ltnNge leq_addr leqnn.
have N0 : (0 < N)%N by []. 
have NL : (N.-1 < N)%N by [].
have PT k j : (k < (size t).-1)%N -> (j < n)%N -> (k * n.-1 + j < N)%N.
  move=> Hk Hj; rewrite ltnS; apply: leq_trans (_ : k.+1 * n.-1 <= _)%N; last by rewrite leq_mul2r Hk orbT.
  by rewrite mulSn addnC leq_add2r; case: (n) Hj.
have X0 i : (i < N)%N -> (slide N tc)`_(i * 3) = IZR 10 * (tc`_i ^+ 2) by move=> Hi; rewrite -[(i * 3)%N]addn0 X.
split.
- exists tc; split=> // k a Hk Ha; rewrite -[col_n (m_col m)]/n.
  pose P : {poly R_rcfType} := [:: IZR 10 *: 'X^2; IZR (-5) *: 'X^2; (Rdiv (IZR 980665) (IZR 100000) * cos slide_theta * slide_tf : R_rcfType) *: 'X]`_a.
  apply: (collocates_poly (P := P)) => //; [exact: ltnW|exact: inj| |].
    rewrite {}/P; case: a Ha => [|[|[|a]]] // _; apply: leq_trans (size_scale_leq _ _) _; rewrite ?size_polyXn ?size_polyX ltnS //; exact: ltnW.
  move=> j Hj; have Hi := PT k j Hk Hj; set i := (k * n.-1 + j)%N in Hi *; rewrite X // TH // TF (X i 2%N) //.
  rewrite {}/P; case: a Ha => [|[|[|a]]] // _; cbn [nth].
  + split; first by rewrite hornerZ hornerXn.
    by rewrite derivZ derivXn hornerZ hornerMn hornerXn expr1 mulr2n; exact: slide_dx.
  + split; first by rewrite hornerZ hornerXn.
    by rewrite derivZ derivXn hornerZ hornerMn hornerXn expr1 mulr2n; exact: slide_dy.
  + split; first by rewrite hornerZ hornerX.
    by rewrite derivZ derivX hornerZ hornerC mulr1 mulrAC.
- have T00 : tc`_0 = 0 by rewrite G0.
  by split; rewrite ?X0 ?X // T00 ?expr2 /= ?mulr0 ?mul0r ?mulr0.
- have TN : tc`_N.-1 = 1 by rewrite G1.
  by split; rewrite ?X0 ?X //; cbn [nth]; rewrite TN expr1n mulr1.
- by move=> i Hi; rewrite TH //; exact: (proj1 slide_bounds).
- by rewrite TF; exact: (proj2 slide_bounds).
Qed.

(** The order of the scripts, on a grid of one piece. *)
Definition ex_times : seq R := [:: IZR 0; IZR 1].
Example C84_nonvacuous : exists c : RkModel.collocation R_rcfType, [/\ LGLCollocation R_rcfType 3 = Ok c,
  sorted <%R (ex_times : seq R_rcfType) /\ (1 < size ex_times)%N /\ ex_times`_0 = 0 /\ ex_times`_(size ex_times).-1 = 1,
  oc_small (brach_model 3 (c_points c)) ex_times /\ oc_small (bryson_model 3 (c_points c)) ex_times,
  let y := [:: [:: (IZR 1, false); (IZR 2, false)]; [:: (IZR 0, false); (IZR 1, false)]] in let uv := Arr [:: 3; 1]%N [:: IZR 0; IZR 1; IZR 0] in
  let m := attas_model 3 (c_points c) in good_data m ex_times y uv /\ input_values m ex_times (UArr uv) = uv /\ oem_small m ex_times false /\ unmasked y &
  let y := [:: [:: (IZR 1, false)]; [:: (IZR 0, true)]] in let uv := Arr [:: 3; 1]%N [:: IZR 0; IZR 1; IZR 0] in
  let m := duffing_model 3 (c_points c) (IZR 1) in good_data m ex_times y uv /\ input_values m ex_times (UArr uv) = uv /\ oem_small m ex_times true].
Proof.
have [c [Ec _]] := @C25_nonvacuous R_rcfType; exists c; split=> //.
- have H : (IZR 0 : R_rcfType) < IZR 1 by exact: ltr01.
  by split=> //; rewrite /ex_times; cbn [sorted path]; rewrite H.
- by split; [split=> //; repeat constructor|repeat split; move=> *; vm_compute].
- by split; [split=> //; repeat constructor|repeat split; move=> *; vm_compute].
Qed.
Print Assumptions C84_duffing.
