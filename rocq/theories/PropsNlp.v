(** Properties C64-C66: the optimisation problems as a whole are the
    collocation transcriptions of the continuous-time problems. *)
From Coq Require Import Ring String List ZArith.
From Verif Require Import Py NdArray OptimModel ProblemSpec ColModel ColBuild ColLaws GenModel ColCalls AssemblyLemmas PropsCol ColValues.
From mathcomp Require Import all_ssreflect all_algebra polyorder polyrcf.
From Verif Require Import McRing RkModel LegendreLemmas QuadLemmas LobattoLemmas PropsRk SymColModel PropsSymCol NlpLemmas.
Set Implicit Arguments.
Unset Strict Implicit.
Unset Printing Implicit Defensive.
Import Order.TTheory GRing.Theory Num.Theory.
Local Open Scope ring_scope.

Section Pieces.
Variable F : rcfType.

Lemma uniq_iff (A : Type) (P Q : A -> Prop) : (forall x, P x <-> Q x) -> (exists! x, P x) <-> (exists! x, Q x).
Proof. by move=> H; split=> -[x [/H Hx U]]; exists x; split=> // y /H /U. Qed.

(** A polynomial in time through the states of a piece that satisfies the
    differential equation x' = v at the collocation points [tau]. *)
Definition collocates n (tau x v : nat -> F) : Prop :=
  exists! P : {poly F}, (size P <= n.+1)%N /\ forall j, (j < n)%N -> P.[tau j] = x j /\ P^`().[tau j] = v j.

Lemma flatten_zero (g : nat -> nat -> F) k w (M := [seq [seq g i a | a <- iota 0 w] | i <- iota 0 k]) :
  (forall i, (i < k * w)%N -> (flatten M)`_i = 0) <-> (forall i a, (i < k)%N -> (a < w)%N -> elem M i a = 0).
Proof.
rewrite /M (zero_blocks (w := w)) => [|i _]; last by rewrite size_map size_iota.
split=> H i; last first.
  by move=> Hi a Ha; have := H i a Hi Ha; rewrite tab_elem // (nth_map 0%N) ?size_iota // nth_iota.
by move=> a Hi Ha; rewrite tab_elem //; have := H i Hi a Ha; rewrite (nth_map 0%N) ?size_iota // nth_iota.
Qed.

Lemma piece_zero n pts f nx (X U : nat -> seq F) p t0 h (c := make_collocation n pts) : nodes n pts -> (0 < n)%N -> h != 0 ->
  (forall i, (i < n.-1 * nx)%N -> (flatten (defects f nx c [seq X j | j <- iota 0 n] [seq U j | j <- iota 0 n] p h))`_i = 0) <->
  (forall a, (a < nx)%N -> collocates n (fun j => t0 + pts`_j * h) (fun j => (X j)`_a) (fun j => (f (X j) (U j) p)`_a)).
Proof.
move=> N n0 h0; rewrite flatten_zero.
have EX (Y : nat -> seq F) j : (j < n)%N -> nth [::] [seq Y j | j <- iota 0 n] j = Y j.
  by move=> Hj; rewrite (nth_map 0%N) ?size_iota // nth_iota.
have C := C26_defects f nx [seq X j | j <- iota 0 n] [seq U j | j <- iota 0 n] p h N n0.
have E a : (a < nx)%N -> (exists! Q : {poly F}, (size Q <= n.+1)%N /\
     forall j, (j < n)%N -> Q.[pts`_j] = (nth [::] [seq X j | j <- iota 0 n] j)`_a /\
       Q^`().[pts`_j] = h * (f (nth [::] [seq X j | j <- iota 0 n] j) (nth [::] [seq U j | j <- iota 0 n] j) p)`_a)
   <-> collocates n (fun j => t0 + pts`_j * h) (fun j => (X j)`_a) (fun j => (f (X j) (U j) p)`_a).
  move=> Ha; apply: iff_trans (affine_unique n.+1 n (fun j => pts`_j) (fun j => (X j)`_a) (fun j => (f (X j) (U j) p)`_a) t0 h0).
  by apply: uniq_iff => Q; split=> -[SQ HQ]; split=> // j Hj; have := HQ j Hj; rewrite !EX.
split=> H.
  move=> a Ha; apply/E => //; apply: (proj1 C) => // i k Hi Hk; apply: H => //.
  by clear -Hi; case: n Hi.
move=> i a Hi Ha; apply: (proj2 C) => //; first by move=> k Hk; apply/E => //; apply: H.
by clear -Hi; case: n Hi => // n; rewrite /= ltnS.
Qed.

Lemma noisy_zero n pts f nx nw JT (X U : nat -> seq F) p t0 h wc G (c := make_collocation n pts) :
  nodes n pts -> (0 < n)%N -> size JT = n -> h != 0 ->
  (forall i, (i < n.-1 * nx)%N -> (flatten (jme_e f nx nw c JT [seq X j | j <- iota 0 n] [seq U j | j <- iota 0 n] p h wc G))`_i = 0) <->
  (forall a, (a < nx)%N -> collocates n (fun j => t0 + pts`_j * h) (fun j => (X j)`_a)
     (fun j => (f (X j) (U j) p)`_a + \sum_(i < nw) elem G a i * noise_at n JT wc j i)).
Proof.
move=> N n0 SJ h0; rewrite flatten_zero.
have EX (Y : nat -> seq F) j : (j < n)%N -> nth [::] [seq Y j | j <- iota 0 n] j = Y j.
  by move=> Hj; rewrite (nth_map 0%N) ?size_iota // nth_iota.
have C := C58_defects f nx nw [seq X j | j <- iota 0 n] [seq U j | j <- iota 0 n] p h wc G N n0 SJ.
have E a : (a < nx)%N -> (exists! Q : {poly F}, (size Q <= n.+1)%N /\
     forall j, (j < n)%N -> Q.[pts`_j] = elem [seq X j | j <- iota 0 n] j a /\
       Q^`().[pts`_j] = h * ((f (nth [::] [seq X j | j <- iota 0 n] j) (nth [::] [seq U j | j <- iota 0 n] j) p)`_a
          + \sum_(i < nw) elem G a i * noise_at n JT wc j i))
   <-> collocates n (fun j => t0 + pts`_j * h) (fun j => (X j)`_a)
        (fun j => (f (X j) (U j) p)`_a + \sum_(i < nw) elem G a i * noise_at n JT wc j i).
  move=> Ha; apply: iff_trans (affine_unique n.+1 n (fun j => pts`_j) (fun j => (X j)`_a)
    (fun j => (f (X j) (U j) p)`_a + \sum_(i < nw) elem G a i * noise_at n JT wc j i) t0 h0).
  by apply: uniq_iff => Q; split=> -[SQ HQ]; split=> // j Hj; have := HQ j Hj; rewrite /elem /row !EX.
split=> H.
  move=> a Ha; apply/E => //; apply: (proj1 C) => // i k Hi Hk; apply: H => //.
  by clear -Hi; case: n Hi.
move=> i a Hi Ha; apply: (proj2 C) => //; first by move=> k Hk; apply/E => //; apply: H.
by clear -Hi; case: n Hi => // n; rewrite /= ltnS.
Qed.

(** The two models of the collocation grid agree. *)
Lemma diff_agree (t : seq F) : ColModel.diff t = RkModel.diff t.
Proof.
elim: t => [|a [|b t] IH] //; change (ColModel.diff [:: a, b & t]) with ((b - a) :: ColModel.diff (b :: t)).
rewrite IH /RkModel.diff /= -[1%N]add1n iotaDl -map_comp; congr cons; apply/eq_in_map => i _ /=; by rewrite add1n.
Qed.
Lemma removelastE (A : Type) (l : seq A) : List.removelast l = take (size l).-1 l.
Proof. elim: l => [|a [|b l] IH] //; change (List.removelast [:: a, b & l]) with (a :: List.removelast (b :: l)); by rewrite IH. Qed.
Lemma lastE (A : Type) (d : A) (l : seq A) : List.last l d = last d l.
Proof. elim: l d => [|a [|b l] IH] d //; change (List.last [:: a, b & l] d) with (List.last (b :: l) d); by rewrite IH. Qed.
Lemma grid_agree (k : ColModel.collocation F) t : ColModel.grid k t = RkModel.grid (col_points k) t.
Proof.
case: t => [|a t] //; rewrite /ColModel.grid /RkModel.grid; congr Ok.
set s := a :: t; rewrite -cats1 lastE !removelastE diff_agree.
have E : forall (u v : seq F), concat (List.map (fun tl : F * F => List.map (fun q => tl.1 + tl.2 * q) (take (size (col_points k)).-1 (col_points k)))
    (List.combine u v)) =
  flatten [seq [seq tds.1 + d | d <- tds.2] | tds <- zip u [seq [seq l * p | p <- take (size (col_points k)).-1 (col_points k)] | l <- v]].
  elim=> [|x u IH] [|y v] //=; rewrite -IH -map_comp //.
exact: (congr1 (fun z => z ++ [:: last 0 s]) (E _ _)).
Qed.
End Pieces.

Section Oc.
Variables (F : rcfType) (m : colmodel F) (t : seq F) (c : RkModel.collocation F).
Notation n := (col_n (m_col m)).
Notation nx := (m_nx m).
Notation nu := (m_nu m).
Notation K := (size t).-1.
Notation N := (K * n.-1).+1.

(** The model uses Lobatto collocation: the collocation [c] and its points. *)
Definition lobatto : Prop := LGLCollocation F n = Ok c /\ col_points (m_col m) = c_points c.

Lemma lobatto_nodes : lobatto -> [/\ c = make_collocation n (c_points c), nodes n (c_points c) & (1 < n)%N].
Proof.
move=> [E _]; move: E; rewrite /LGLCollocation; case E: (lgl_points F n) => [pts|] //= -[<-] /=; split=> //; first exact: C24_nodes.
by case: ltnP E => // /C27_order_error ->.
Qed.

Lemma incr_diff (s : seq F) : sorted <%R s -> List.Forall (fun h => nltb n0 h = true) (ColModel.diff s).
Proof.
elim: s => [|a [|b s] IH] //; try by constructor.
move=> /= /andP [Hab Hs]; constructor; last exact: IH.
by rewrite /= subr_gt0.
Qed.

Lemma lobatto_grid : lobatto -> sorted <%R t -> (1 < size t)%N -> good_grid m t.
Proof.
move=> L St t1; have [_ [Sn _ _ _] n1] := lobatto_nodes L; split.
- exact: (elimT ssrnat.leP n1). - by rewrite (proj2 L) -[RHS]Sn. - exact: (elimT ssrnat.leP t1). - exact: incr_diff.
Qed.

Lemma npiecesE : npieces t = K. Proof. by rewrite /npieces minusE subn1. Qed.
Lemma npointsE : (0 < n)%N -> npoints m t = N.
Proof. by move=> n1; rewrite /npoints npiecesE minusE subn1 plusE multE addn1. Qed.

(** The time of collocation point [j] of piece [k]. *)
Lemma grid_times : lobatto -> sorted <%R t -> (1 < size t)%N -> exists tc, ColModel.grid (m_col m) t = Ok tc /\
  forall k j, (k < K)%N -> (j < n)%N -> tc`_(k * n.-1 + j) = t`_k + (c_points c)`_j * (t`_k.+1 - t`_k).
Proof.
move=> L St t1; have [_ N n1] := lobatto_nodes L; rewrite grid_agree (proj2 L).
have t0 : t != [::] by case: t t1.
have [g [-> _ _ _ H]] := C23_grid N n1 St t0; exists g; split=> // k j Hk Hj; apply: H => //.
by case: t t1 Hk.
Qed.

(** *** Specification: what the generated functions compute *)
Definition sized (g : gfun F) (env : string -> seq F) : Prop :=
  forall w, List.In w (gf_args g) -> size (env w) = prodn (base_shape m w).
Record oc_expresses (f : seq F -> seq F -> seq F -> seq F) (L : seq F -> seq F -> seq F -> F) (M : seq (seq F) -> seq F -> F)
    (g : seq F -> seq F -> seq F -> seq F) (h : seq (seq F) -> seq F -> seq F) (ge gIL gM gg gh : gfun F) : Prop := {
  oce_e : forall env, sized ge env -> gf_base ge (List.map env (gf_args ge)) =
    flatten (defects f nx c (tab2 n nx (env "xp"%string)) (tab2 n nu (env "up"%string)) (env "p"%string) (env "piece_len"%string)`_0);
  oce_IL : forall env, sized gIL env -> gf_base gIL (List.map env (gf_args gIL)) =
    [:: IL L c (tab2 n nx (env "xp"%string)) (tab2 n nu (env "up"%string)) (env "p"%string) (env "piece_len"%string)`_0];
  oce_M : forall env, sized gM env -> gf_base gM (List.map env (gf_args gM)) = [:: M (tab2 2 nx (env "xe"%string)) (env "p"%string)];
  oce_g : forall env, sized gg env -> gf_base gg (List.map env (gf_args gg)) = g (env "x"%string) (env "u"%string) (env "p"%string);
  oce_h : forall env, sized gh env -> gf_base gh (List.map env (gf_args gh)) = h (tab2 2 nx (env "xe"%string)) (env "p"%string)
}.

(** *** Specification: the trajectory in a decision vector *)
Definition block (dvec : seq F) (start w : nat) : seq F := [seq dvec`_(start + a) | a <- iota 0 w].
Definition oc_state dvec i := block dvec (i * nx) nx.
Definition oc_input dvec i := block dvec (N * nx + i * nu) nu.
Definition oc_par dvec := block dvec (N * nx + N * nu) (m_np m).

Lemma oc_arg_size dvec e w : List.In w oc_names -> size (oc_arg m t dvec e w) = prodn (base_shape m w).
Proof.
move=> Hw; rewrite /oc_names /= in Hw.
have Sm k (f : nat -> F) : size (List.map f (List.seq 0 k)) = (k * 1)%N by rewrite (size_map f (iota 0 k)) size_iota muln1.
have Ss a k : size (List.seq a k) = k by rewrite (size_iota a k).
by case: Hw => [<-|[<-|[<-|[<-|[<-|[<-|[<-|[]]]]]]]]; rewrite /oc_arg; cbn [String.eqb Ascii.eqb Bool.eqb]; rewrite ?Sm ?rows_size ?Ss /= ?multE ?muln1 ?plusE ?addn0 ?addnn ?mul2n.
Qed.

Lemma start_eq e : (e * (n - 1))%coq_nat = (e * n.-1)%N.
Proof. by rewrite -subn1. Qed.

Section Args.
Hypothesis n1 : (0 < n)%N.
Variable dvec : seq F.
Lemma oc_arg_x e : oc_arg m t dvec e "x" = oc_state dvec e.
Proof. by apply/eq_in_map => a _; rewrite /oc_x nthE. Qed.
Lemma oc_arg_u e : oc_arg m t dvec e "u" = oc_input dvec e.
Proof. by apply/eq_in_map => a _; rewrite /oc_u nthE npointsE // !plusE !multE addnA. Qed.
Lemma oc_arg_p e : oc_arg m t dvec e "p" = oc_par dvec.
Proof. by apply/eq_in_map => a _; rewrite /oc_p nthE npointsE // !plusE !multE. Qed.
Lemma oc_arg_xp e : tab2 n nx (oc_arg m t dvec e "xp") = [seq oc_state dvec (e * n.-1 + j) | j <- iota 0 n].
Proof.
rewrite [oc_arg _ _ _ _ _]/(rows (oc_x m dvec) (List.seq (e * (n - 1))%coq_nat n) nx) tab2_rows start_eq.
by apply/eq_in_map => j _; apply/eq_in_map => a _; rewrite /oc_x nthE.
Qed.
Lemma oc_arg_up e : tab2 n nu (oc_arg m t dvec e "up") = [seq oc_input dvec (e * n.-1 + j) | j <- iota 0 n].
Proof.
rewrite [oc_arg _ _ _ _ _]/(rows (oc_u m t dvec) (List.seq (e * (n - 1))%coq_nat n) nu) tab2_rows start_eq.
by apply/eq_in_map => j _; apply/eq_in_map => a _; rewrite /oc_u nthE npointsE // !plusE !multE addnA.
Qed.
Lemma oc_arg_xe e : tab2 2 nx (oc_arg m t dvec e "xe") = [:: oc_state dvec 0; oc_state dvec N.-1].
Proof.
rewrite [oc_arg _ _ _ _ _]/(rows (oc_x m dvec) [:: 0%N; (npoints m t - 1)%coq_nat] nx).
rewrite (tab2_list (oc_x m dvec) [:: 0%N; (npoints m t - 1)%coq_nat] nx) /= npointsE // minusE subn1.
by congr [:: _; _]; apply/eq_in_map => a _; rewrite /oc_x nthE.
Qed.
Lemma oc_arg_len e : (oc_arg m t dvec e "piece_len")`_0 = t`_e.+1 - t`_e.
Proof. by rewrite /oc_arg /= !nthE plusE addn1. Qed.
End Args.

(** ** C64: optimal control *)
(** The equality constraints vanish exactly when, on every piece and for every
    component, one polynomial of degree at most n passes through the states
    and satisfies x' = f(x, u, p) at every point of the fine grid.  The other
    constraints are the path constraints at every grid point and the endpoint
    constraints at the first and last states; the merit is the Lobatto
    quadrature of the running cost over all pieces plus the endpoint cost. *)
Theorem C64_optimal_control f L M g h ge gIL gM gg gh q dvec :
  lobatto -> sorted <%R t -> (1 < size t)%N -> oc_small m t ->
  oc_generated m ge gIL gM gg gh -> oc_expresses f L M g h ge gIL gM gg gh ->
  oc_problem m t = Ok q -> size dvec = ndec q ->
  let x := oc_state dvec in let u := oc_input dvec in let p := oc_par dvec in let pt k j := (k * n.-1 + j)%N in
  exists tc cv, [/\ ColModel.grid (m_col m) t = Ok tc, constr q dvec = Ok cv,
    (forall i, (i < K * (n.-1 * nx))%N -> cv`_i = 0) <->
    (forall k a, (k < K)%N -> (a < nx)%N ->
       collocates n (fun j => tc`_(pt k j)) (fun j => (x (pt k j))`_a) (fun j => (f (x (pt k j)) (u (pt k j)) p)`_a)),
    drop (K * (n.-1 * nx)) cv = flatten [seq g (x i) (u i) p | i <- iota 0 N] ++ h [:: x 0%N; x N.-1] p &
    obj q dvec = Ok (\sum_(k < K) (t`_k.+1 - t`_k) * (\sum_(j < n) (c_K c)`_j * L (x (pt k j)) (u (pt k j)) p)
                     + M [:: x 0%N; x N.-1] p)].
Proof.
move=> LB St t1 SM HG HE; have GG := lobatto_grid LB St t1; rewrite (oc_problem_ok m t GG) => -[<-] HL x u p pt.
have [Ec HN n1] := lobatto_nodes LB; have n0 : (0 < n)%N by rewrite ltnW.
have [tc [Etc Htc]] := grid_times LB St t1.
have [Econ Eobj] := oc_values m t GG SM dvec HL ge gIL gM gg gh HG.
have sz gx names e : List.incl names oc_names -> suits m names gx -> sized gx (oc_arg m t dvec e).
  by move=> HI [_ HA _] w Hw; apply: oc_arg_size; apply/HI/HA.
have I1 : List.incl [:: "xp"%string; "up"%string; "p"%string; "piece_len"%string] oc_names by move=> v /=; tauto.
have I2 : List.incl [:: "xe"%string; "p"%string] oc_names by move=> v /=; tauto.
have I3 : List.incl [:: "x"%string; "u"%string; "p"%string] oc_names by move=> v /=; tauto.
have Ve e : gf_base ge (List.map (oc_arg m t dvec e) (gf_args ge)) =
    flatten (defects f nx c [seq x (pt e j) | j <- iota 0 n] [seq u (pt e j) | j <- iota 0 n] p (t`_e.+1 - t`_e)).
  by rewrite (oce_e HE (sz _ _ _ I1 (ocs_e _ _ _ _ _ _ HG))) oc_arg_xp // oc_arg_up // oc_arg_p // oc_arg_len.
have VI e : gf_base gIL (List.map (oc_arg m t dvec e) (gf_args gIL)) =
    [:: IL L c [seq x (pt e j) | j <- iota 0 n] [seq u (pt e j) | j <- iota 0 n] p (t`_e.+1 - t`_e)].
  by rewrite (oce_IL HE (sz _ _ _ I1 (ocs_IL _ _ _ _ _ _ HG))) oc_arg_xp // oc_arg_up // oc_arg_p // oc_arg_len.
have VM : gf_base gM (List.map (oc_arg m t dvec 0) (gf_args gM)) = [:: M [:: x 0%N; x N.-1] p].
  by rewrite (oce_M HE (sz _ _ _ I2 (ocs_M _ _ _ _ _ _ HG))) oc_arg_xe // oc_arg_p.
have Vg e : gf_base gg (List.map (oc_arg m t dvec e) (gf_args gg)) = g (x e) (u e) p.
  by rewrite (oce_g HE (sz _ _ _ I3 (ocs_g _ _ _ _ _ _ HG))) oc_arg_x oc_arg_u // oc_arg_p.
have Vh : gf_base gh (List.map (oc_arg m t dvec 0) (gf_args gh)) = h [:: x 0%N; x N.-1] p.
  by rewrite (oce_h HE (sz _ _ _ I2 (ocs_h _ _ _ _ _ _ HG))) oc_arg_xe // oc_arg_p.
pose E e := flatten (defects f nx c [seq x (pt e j) | j <- iota 0 n] [seq u (pt e j) | j <- iota 0 n] p (t`_e.+1 - t`_e)).
have SE e : size (E e) = (n.-1 * nx)%N.
  rewrite /E {1}Ec /defects; apply: size_blocks => i _; by rewrite size_map size_iota.
have h0 k : (k < K)%N -> t`_k.+1 - t`_k != 0.
  move=> Hk; rewrite subr_eq0; apply/eqP => Et.
  have Hk1 : (k.+1 < size t)%N by case: t t1 Hk.
  by have := (lt_sorted_ltn_nth 0 St) k k.+1; rewrite !inE Hk1 (ltn_trans _ Hk1) // ltnSn Et ltxx => /(_ isT isT).
exists tc, (flatten [seq E e | e <- iota 0 K] ++ flatten [seq g (x i) (u i) p | i <- iota 0 N] ++ h [:: x 0%N; x N.-1] p).
split=> //.
- rewrite Econ !flat_mapE npointsE // npiecesE Vh; congr (Ok (_ ++ (_ ++ _))); congr flatten; apply/eq_in_map => e _; [exact: Ve|exact: Vg].
- have SEE : size (flatten [seq E e | e <- iota 0 K]) = (K * (n.-1 * nx))%N by apply: size_blocks => i _; exact: SE.
  have -> : (forall i, (i < K * (n.-1 * nx))%N -> (flatten [seq E e | e <- iota 0 K] ++ flatten [seq g (x i) (u i) p | i <- iota 0 N] ++ h [:: x 0%N; x N.-1] p)`_i = 0)
    <-> (forall i, (i < K * (n.-1 * nx))%N -> (flatten [seq E e | e <- iota 0 K])`_i = 0).
    by split=> H i Hi; have := H i Hi; rewrite nth_cat SEE Hi.
  rewrite zero_blocks; last by move=> i _; exact: SE.
  have PZ k : (k < K)%N -> _ := fun Hk => piece_zero f nx (fun j => x (pt k j)) (fun j => u (pt k j)) p t`_k HN n0 (h0 k Hk).
  have EQ k a : (k < K)%N -> collocates n (fun j => t`_k + (c_points c)`_j * (t`_k.+1 - t`_k)) (fun j => (x (pt k j))`_a) (fun j => (f (x (pt k j)) (u (pt k j)) p)`_a)
     <-> collocates n (fun j => tc`_(pt k j)) (fun j => (x (pt k j))`_a) (fun j => (f (x (pt k j)) (u (pt k j)) p)`_a).
    by move=> Hk; apply: uniq_iff => P; split=> -[SP HP]; split=> // j Hj; have := HP j Hj; rewrite Htc.
  split=> H.
    move=> k a Hk Ha; apply/EQ => //; move: a Ha; apply: (proj1 (PZ k Hk)) => i Hi.
    by have := H k Hk i Hi; rewrite /E {1}Ec.
  move=> k Hk i Hi; rewrite /E {1}Ec; apply: (proj2 (PZ k Hk)) => // a Ha; apply/EQ => //; exact: H.
- rewrite drop_cat (size_blocks (w := (n.-1 * nx)%N)) => [|i _]; last exact: SE. by rewrite ltnn subnn drop0.
- rewrite Eobj lsum_flat VM npiecesE [lsum [:: _]]/=; congr Ok; congr (_ + _); last by rewrite addr0.
  by apply: eq_bigr => k _; rewrite VI big_seq1 {1}Ec C57_running_cost -Ec; congr (_ * _); apply: eq_bigr => j _; rewrite !(nth_map 0%N) ?size_iota // !nth_iota.
Qed.
End Oc.

Section Est.
Variables (F : rcfType) (m : colmodel F) (t : seq F) (c : RkModel.collocation F).
Variables (y : seq (yrow F)) (uv : arr F).
Notation n := (col_n (m_col m)).
Notation nx := (m_nx m).
Notation nu := (m_nu m).
Notation nw := (m_nw m).
Notation K := (size t).-1.
Notation N := (K * n.-1).+1.

(** *** Specification: trajectory, noise and parameters in a decision vector;
    inputs and measurements in the data *)
Definition traj dvec i : seq F := block dvec (i * nx) nx.
Definition noise_of dvec k : seq (seq F) := [seq block dvec (N * nx + (k * n.-1 + a) * nw) nw | a <- iota 0 n.-1].
Definition par_of (jme : bool) dvec : seq F := block dvec (N * nx + (if jme then K * n.-1 * nw else 0))%N (m_np m).
Definition inp i : seq F := block (adat uv) (i * nu) nu.
Definition meas k : seq F := [seq yb.1 | yb <- nth [::] y k].
(** Coarse time indices with at least one unmasked measurement. *)
Definition kept : seq nat := [seq k <- iota 0 (size y) | has (fun yb => ~~ yb.2) (nth [::] y k)].

Lemma keptE : kmeas_coarse y = kept.
Proof.
rewrite /kmeas_coarse /kept -[List.filter _ _]/(filter _ _); apply/eq_in_filter => k _; rewrite nthE.
by elim: (nth _ _ _) => [|b r IH] //=; rewrite IH.
Qed.

Record oem_expresses (f : seq F -> seq F -> seq F -> seq F) (L : seq F -> seq F -> seq F -> seq F -> F) (ge gL : gfun F) : Prop := {
  oee_e : forall env, sized m ge env -> gf_base ge (List.map env (gf_args ge)) =
    flatten (defects f nx c (tab2 n nx (env "xp"%string)) (tab2 n nu (env "up"%string)) (env "p"%string) (env "piece_len"%string)`_0);
  oee_L : forall env, sized m gL env -> gf_base gL (List.map env (gf_args gL)) =
    [:: L (env "y"%string) (env "x"%string) (env "u"%string) (env "p"%string)] }.
Record jme_expresses (f : seq F -> seq F -> seq F -> seq F) (L : seq F -> seq F -> seq F -> seq F -> F)
    (om : bool) (df : seq F -> seq F -> seq F -> seq (seq F)) (JT : seq (seq F)) (ge gL gt gp : gfun F) : Prop := {
  jee_e : forall env, sized m ge env -> gf_base ge (List.map env (gf_args ge)) =
    flatten (jme_e f nx nw c JT (tab2 n nx (env "xp"%string)) (tab2 n nu (env "up"%string)) (env "p"%string) (env "piece_len"%string)`_0
      (tab2 n.-1 nw (env "wc"%string)) (tab2 nx nw (env "G"%string)));
  jee_L : forall env, sized m gL env -> gf_base gL (List.map env (gf_args gL)) =
    [:: L (env "y"%string) (env "x"%string) (env "u"%string) (env "p"%string)];
  jee_t : forall env, sized m gt env -> gf_base gt (List.map env (gf_args gt)) =
    [:: tube_L om df nx nw c JT (tab2 n nx (env "xp"%string)) (tab2 n nu (env "up"%string)) (env "p"%string) (env "piece_len"%string)`_0
      (tab2 n.-1 nw (env "wc"%string))];
  jee_p : m_use_penalty m = true -> forall env, sized m gp env -> gf_base gp (List.map env (gf_args gp)) =
    [:: penalty nx (jme_e f nx nw c JT (tab2 n nx (env "xp"%string)) (tab2 n nu (env "up"%string)) (env "p"%string) (env "piece_len"%string)`_0
      (tab2 n.-1 nw (env "wc"%string)) (tab2 nx nw (env "G"%string))) (env "penweight"%string)] }.

Section Args.
Hypothesis n1 : (0 < n)%N.
Hypothesis D : good_data m t y uv.
Variables (jme : bool) (dvec : seq F).
Hypothesis J : jme -> jme_constants m.

Lemma Sm k (f : nat -> F) : size (List.map f (List.seq 0 k)) = (k * 1)%N.
Proof. by rewrite (size_map f (iota 0 k)) size_iota muln1. Qed.
Lemma Ss a k : size (List.seq a k) = k. Proof. by rewrite (size_iota a k). Qed.

Lemma est_arg_size e w : List.In w (e_names jme ++ (if jme then [:: "penweight"%string] else [::])) ->
  size (est_arg m t uv jme dvec e w) = prodn (base_shape m w).
Proof.
move=> Hw; have {Hw} [Hw|[Ej Hw]] : List.In w [:: "xp"; "up"; "p"; "piece_len"]%string \/ jme = true /\ List.In w [:: "wc"; "G"; "penweight"]%string.
  by move: Hw; rewrite /e_names; clear; case: jme => /=; tauto.
  by case: Hw => [<-|[<-|[<-|[<-|[]]]]]; rewrite /est_arg; cbn [String.eqb Ascii.eqb Bool.eqb]; rewrite ?Sm ?rows_size ?Ss /= ?multE ?muln1 ?plusE ?addn0.
have [J1 [J2 [J3 J4]]] := J Ej.
case: Hw => [<-|[<-|[<-|[]]]].
- rewrite -[est_arg _ _ _ _ _ _ _]/(rows (est_wc m t dvec) (List.seq (e * (n - 1))%coq_nat (n - 1)%coq_nat) nw) rows_size Ss /= !multE muln1; by [].
- by rewrite -[est_arg _ _ _ _ _ _ _]/(adat (m_G m)) -[base_shape _ _]/([:: nx; nw]) -J1.
- by rewrite -[est_arg _ _ _ _ _ _ _]/(adat (m_penweight m)) -[base_shape _ _]/([:: nx]) -J3.
Qed.
Lemma meas_arg_size r w : List.In w L_names -> size (meas_arg m t y uv jme dvec r w) = prodn (base_shape m w).
Proof.
by move=> Hw; case: Hw => [<-|[<-|[<-|[<-|[]]]]]; rewrite /meas_arg; cbn [String.eqb Ascii.eqb Bool.eqb]; rewrite ?Sm /= ?multE ?muln1.
Qed.

Lemma est_arg_xp e : tab2 n nx (est_arg m t uv jme dvec e "xp") = [seq traj dvec (e * n.-1 + j) | j <- iota 0 n].
Proof.
rewrite [est_arg _ _ _ _ _ _ _]/(rows (est_x m dvec) (List.seq (e * (n - 1))%coq_nat n) nx) tab2_rows start_eq.
by apply/eq_in_map => j _; apply/eq_in_map => a _; rewrite /est_x nthE.
Qed.
Lemma est_arg_up e : tab2 n nu (est_arg m t uv jme dvec e "up") = [seq inp (e * n.-1 + j) | j <- iota 0 n].
Proof.
rewrite [est_arg _ _ _ _ _ _ _]/(rows (rowat uv nu) (List.seq (e * (n - 1))%coq_nat n) nu) tab2_rows start_eq.
by apply/eq_in_map => j _; apply/eq_in_map => a _; rewrite /rowat nthE.
Qed.
Lemma est_parE : List.map (est_p m t jme dvec) (List.seq 0 (m_np m)) = par_of jme dvec.
Proof.
have E1 : (n - 1)%coq_nat = n.-1 by rewrite -subn1.
by apply/eq_in_map => a _; rewrite /est_p nthE npointsE // npiecesE E1.
Qed.
Lemma est_arg_p e : est_arg m t uv jme dvec e "p" = par_of jme dvec.
Proof. exact: est_parE. Qed.
Lemma est_arg_len e : (est_arg m t uv jme dvec e "piece_len")`_0 = t`_e.+1 - t`_e.
Proof. by rewrite /est_arg /= !nthE plusE addn1. Qed.
Lemma est_arg_wc e : tab2 n.-1 nw (est_arg m t uv jme dvec e "wc") = noise_of dvec e.
Proof.
rewrite [est_arg _ _ _ _ _ _ _]/(rows (est_wc m t dvec) (List.seq (e * (n - 1))%coq_nat (n - 1)%coq_nat) nw).
have -> : (n - 1)%coq_nat = n.-1 by rewrite -subn1.
rewrite tab2_rows; apply/eq_in_map => j _; apply/eq_in_map => a _; rewrite /est_wc nthE npointsE //; congr (nth _ _ _); rewrite start_eq; exact: (addnA (N * nx)%N ((e * n.-1 + j) * nw)%N a).
Qed.
Lemma meas_y r : (r < size kept)%N -> meas_arg m t y uv jme dvec r "y" = meas (nth 0%N kept r).
Proof.
move=> Hr; rewrite -[meas_arg _ _ _ _ _ _ _ _]/(List.map _ (List.seq 0 (m_ny m))) nthE keptE nthE /meas.
set k := nth 0%N kept r; have Hk : k \in kept by rewrite mem_nth.
move: Hk; rewrite mem_filter mem_iota => /andP [_ /andP [_ Hk]].
have Sy : size (nth [::] y k) = m_ny m.
  have := gd_ny _ _ _ _ D; move/List.Forall_forall; apply; rewrite -(nthE [::] y k).
  by apply: List.nth_In; apply/ssrnat.ltP.
apply: (@eq_from_nth _ 0); first by rewrite (size_map _ (iota 0 _)) size_iota size_map Sy.
move=> i; rewrite (size_map _ (iota 0 _)) size_iota => Hi.
rewrite (nth_map 0%N _ _ (s := iota 0 (m_ny m))) ?size_iota // nth_iota // nthE (nth_map ((0 : F), true)) ?Sy //.
Qed.
Lemma meas_x r : meas_arg m t y uv jme dvec r "x" = traj dvec (nth 0%N kept r * n.-1).
Proof.
rewrite -[meas_arg _ _ _ _ _ _ _ _]/(List.map _ (List.seq 0 nx)) keptE nthE start_eq; apply/eq_in_map => a _; by rewrite /est_x nthE.
Qed.
Lemma meas_u r : meas_arg m t y uv jme dvec r "u" = inp (nth 0%N kept r * n.-1).
Proof.
rewrite -[meas_arg _ _ _ _ _ _ _ _]/(List.map _ (List.seq 0 nu)) keptE nthE start_eq; apply/eq_in_map => a _; by rewrite /rowat nthE.
Qed.
Lemma meas_p r : meas_arg m t y uv jme dvec r "p" = par_of jme dvec.
Proof. exact: est_parE. Qed.
End Args.

Lemma sum_kept (g : nat -> F) : \sum_(r < length (kmeas (m_col m) y)) g (nth 0%N kept r) = \sum_(k <- kept) g k.
Proof. by rewrite [RHS](big_nth 0%N) big_mkord /kmeas List.map_length keptE. Qed.
Lemma size_kept : length (kmeas (m_col m) y) = size kept.
Proof. by rewrite /kmeas List.map_length keptE. Qed.

Lemma pieces_zero (E : nat -> seq F) (x v : nat -> nat -> nat -> F) tc :
  (forall k, size (E k) = (n.-1 * nx)%N) ->
  (forall k j, (k < K)%N -> (j < n)%N -> tc`_(k * n.-1 + j) = t`_k + (c_points c)`_j * (t`_k.+1 - t`_k)) ->
  (forall k, (k < K)%N -> (forall i, (i < n.-1 * nx)%N -> (E k)`_i = 0) <->
     forall a, (a < nx)%N -> collocates n (fun j => t`_k + (c_points c)`_j * (t`_k.+1 - t`_k)) (x k a) (v k a)) ->
  (forall i, (i < K * (n.-1 * nx))%N -> (flatten [seq E k | k <- iota 0 K])`_i = 0) <->
  (forall k a, (k < K)%N -> (a < nx)%N -> collocates n (fun j => tc`_(k * n.-1 + j)) (x k a) (v k a)).
Proof.
move=> SE Htc PZ; rewrite (zero_blocks (w := (n.-1 * nx)%N)) => [|i _]; last exact: SE.
have EQ k a : (k < K)%N -> collocates n (fun j => t`_k + (c_points c)`_j * (t`_k.+1 - t`_k)) (x k a) (v k a)
   <-> collocates n (fun j => tc`_(k * n.-1 + j)) (x k a) (v k a).
  by move=> Hk; apply: uniq_iff => P; split=> -[SP HP]; split=> // j Hj; have := HP j Hj; rewrite Htc.
split=> H.
  by move=> k a Hk Ha; apply/EQ => //; move: a Ha; apply: (proj1 (PZ k Hk)) => i Hi; exact: H.
by move=> k Hk; apply: (proj2 (PZ k Hk)) => // a Ha; apply/EQ => //; exact: H.
Qed.

Lemma incr_neq0 : sorted <%R t -> forall k, (k < K)%N -> t`_k.+1 - t`_k != 0.
Proof.
move=> St k Hk; rewrite subr_eq0; apply/eqP => Et.
have Hk1 : (k.+1 < size t)%N by case: t Hk.
by have := (lt_sorted_ltn_nth 0 St) k k.+1; rewrite !inE Hk1 (ltn_trans _ Hk1) // ltnSn Et ltxx => /(_ isT isT).
Qed.

(** ** C65: output-error estimation *)
(** The constraints vanish exactly when a polynomial per piece and component
    interpolates the states and satisfies x' = f(x, u, p), with u the given
    inputs, at every point of the fine grid; the merit is the sum over the
    times with a measurement of the likelihood of that measurement at the
    state of the same time. *)
Theorem C65_output_error f L ge gL u q dvec :
  lobatto m c -> sorted <%R t -> (1 < size t)%N -> good_data m t y uv -> input_values m t u = uv -> oem_small m t false ->
  oem_generated m false ge gL -> oem_expresses f L ge gL ->
  oem_problem m false t y u = Ok q -> size dvec = ndec q ->
  let x := traj dvec in let p := par_of false dvec in let pt k j := (k * n.-1 + j)%N in
  exists tc cv, [/\ ColModel.grid (m_col m) t = Ok tc, constr q dvec = Ok cv, size cv = (K * (n.-1 * nx))%N,
    (forall i, (i < size cv)%N -> cv`_i = 0) <->
    (forall k a, (k < K)%N -> (a < nx)%N ->
       collocates n (fun j => tc`_(pt k j)) (fun j => (x (pt k j))`_a) (fun j => (f (x (pt k j)) (inp (pt k j)) p)`_a)) &
    obj q dvec = Ok (\sum_(k <- kept) L (meas k) (x (k * n.-1)%N) (inp (k * n.-1)) p)].
Proof.
move=> LB St t1 D EU SM HG HE; have GG := lobatto_grid LB St t1; rewrite (oem_problem_ok m t y uv false u GG D EU) => -[<-] HL x p pt.
have [Ec HN n1] := lobatto_nodes LB; have n0 : (0 < n)%N by rewrite ltnW.
have [tc [Etc Htc]] := grid_times LB St t1.
have [Econ Eobj] := oem_values m t GG y uv D ge gL dvec SM HG HL.
have Ve e : gf_base ge (List.map (est_arg m t uv false dvec e) (gf_args ge)) =
    flatten (defects f nx c [seq x (pt e j) | j <- iota 0 n] [seq inp (pt e j) | j <- iota 0 n] p (t`_e.+1 - t`_e)).
  rewrite (oee_e HE) ?est_arg_xp ?est_arg_up ?est_arg_p ?est_arg_len // => w Hw; apply: est_arg_size => //.
  by have := su_args _ _ _ (oes_e _ _ _ _ HG) w Hw; rewrite /e_names /=; tauto.
have VL r : (r < size kept)%N -> gf_base gL (List.map (meas_arg m t y uv false dvec r) (gf_args gL)) =
    [:: L (meas (nth 0%N kept r)) (x (nth 0%N kept r * n.-1)%N) (inp (nth 0%N kept r * n.-1)) p].
  move=> Hr; rewrite (oee_L HE) ?meas_y ?meas_x ?meas_u ?meas_p // => w Hw; apply: meas_arg_size.
  by apply: (su_args _ _ _ (oes_L _ _ _ _ HG)).
pose E e := flatten (defects f nx c [seq x (pt e j) | j <- iota 0 n] [seq inp (pt e j) | j <- iota 0 n] p (t`_e.+1 - t`_e)).
have SE e : size (E e) = (n.-1 * nx)%N.
  rewrite /E {1}Ec /defects; apply: size_blocks => i _; by rewrite size_map size_iota.
have SEE : size (flatten [seq E e | e <- iota 0 K]) = (K * (n.-1 * nx))%N by apply: size_blocks => i _; exact: SE.
exists tc, (flatten [seq E e | e <- iota 0 K]); split=> //.
- by rewrite Econ !flat_mapE npiecesE; congr (Ok _); congr flatten; apply/eq_in_map => e _; exact: Ve.
- rewrite SEE; apply: (pieces_zero SE Htc) => k Hk; rewrite /E {1}Ec.
  exact: (piece_zero f nx (fun j => x (pt k j)) (fun j => inp (pt k j)) p t`_k HN n0 (incr_neq0 St Hk)).
- rewrite Eobj lsum_flat -(sum_kept (fun k => L (meas k) (x (k * n.-1)%N) (inp (k * n.-1)) p)); congr Ok.
  by apply: eq_bigr => r _; rewrite VL ?big_seq1 // -size_kept.
Qed.

(** ** C66: joint MAP estimation *)
(** As C65, for the equation driven by the noise, x' = f(x, u, p) + G w, and
    with two more terms in the merit: minus half the quadrature of the squared
    noise (and of the divergence of the drift), and minus the weighted squares
    of the constraint values when the model uses a penalty. *)
Theorem C66_joint_map f L om df JT ge gL gt gp u q dvec :
  lobatto m c -> sorted <%R t -> (1 < size t)%N -> good_data m t y uv -> input_values m t u = uv -> oem_small m t true ->
  oem_generated m true ge gL -> jme_generated m gt gp -> jme_constants m -> size JT = n ->
  jme_expresses f L om df JT ge gL gt gp ->
  jme_problem m t y u = Ok q -> size dvec = ndec q ->
  let x := traj dvec in let p := par_of true dvec in let pt k j := (k * n.-1 + j)%N in
  let w k := noise_at n JT (noise_of dvec k) in let Gm a i := (adat (m_G m))`_(a * nw + i) in
  exists tc cv, [/\ ColModel.grid (m_col m) t = Ok tc, constr q dvec = Ok cv, size cv = (K * (n.-1 * nx))%N,
    (forall i, (i < size cv)%N -> cv`_i = 0) <->
    (forall k a, (k < K)%N -> (a < nx)%N ->
       collocates n (fun j => tc`_(pt k j)) (fun j => (x (pt k j))`_a)
         (fun j => (f (x (pt k j)) (inp (pt k j)) p)`_a + \sum_(i < nw) Gm a i * w k j i)) &
    obj q dvec = Ok (\sum_(k <- kept) L (meas k) (x (k * n.-1)%N) (inp (k * n.-1)) p
      - 2%:R^-1 * (\sum_(k < K) (t`_k.+1 - t`_k) * (\sum_(j < n) (c_K c)`_j * (\sum_(i < nw) w k j i ^+ 2 +
          if om then \sum_(i < nx | (nw == 0%N) || (nx <= i + nw)%N) elem (df (x (pt k j)) (inp (pt k j)) p) i i else 0)))
      - (if m_use_penalty m then
           \sum_(k < K) \sum_(i < n.-1) \sum_(a < nx) (adat (m_penweight m))`_a * cv`_(k * (n.-1 * nx) + (i * nx + a)) ^+ 2 else 0))].
Proof.
move=> LB St t1 D EU SM HG HJ JC SJ HE; have GG := lobatto_grid LB St t1; rewrite (jme_problem_ok m t y uv u GG D EU) => -[<-] HL x p pt w Gm.
have [Ec HN n1] := lobatto_nodes LB; have n0 : (0 < n)%N by rewrite ltnW.
have [tc [Etc Htc]] := grid_times LB St t1.
have [Econ Eobj] := jme_values m t GG y uv D ge gL gt gp dvec SM HG HJ JC HL.
pose G := tab2 nx nw (adat (m_G m)).
pose D' e := jme_e f nx nw c JT [seq x (pt e j) | j <- iota 0 n] [seq inp (pt e j) | j <- iota 0 n] p (t`_e.+1 - t`_e) (noise_of dvec e) G.
pose E e := flatten (D' e).
have sz g names e : List.incl names (e_names true ++ [:: "penweight"%string]) -> suits m names g -> sized m g (est_arg m t uv true dvec e).
  by move=> HI [_ HA _] v Hv; apply: est_arg_size => //; apply/HI/HA.
have I1 : List.incl (e_names true) (e_names true ++ [:: "penweight"%string]) by move=> v; rewrite /e_names /=; tauto.
have I2 : List.incl (e_names true ++ [:: "penweight"%string]) (e_names true ++ [:: "penweight"%string]) by [].
have Ve e : gf_base ge (List.map (est_arg m t uv true dvec e) (gf_args ge)) = E e.
  by rewrite (jee_e HE (sz _ _ _ I1 (oes_e _ _ _ _ HG))) est_arg_xp est_arg_up est_arg_p // est_arg_len est_arg_wc.
have Vt e : gf_base gt (List.map (est_arg m t uv true dvec e) (gf_args gt)) =
    [:: tube_L om df nx nw c JT [seq x (pt e j) | j <- iota 0 n] [seq inp (pt e j) | j <- iota 0 n] p (t`_e.+1 - t`_e) (noise_of dvec e)].
  by rewrite (jee_t HE (sz _ _ _ I1 (jms_t _ _ _ HJ))) est_arg_xp est_arg_up est_arg_p // est_arg_len est_arg_wc.
have Vp e : m_use_penalty m = true -> gf_base gp (List.map (est_arg m t uv true dvec e) (gf_args gp)) = [:: penalty nx (D' e) (adat (m_penweight m))].
  by move=> UP; rewrite (jee_p HE UP (sz _ _ _ I2 (jms_p _ _ _ HJ UP))) est_arg_xp est_arg_up est_arg_p // est_arg_len est_arg_wc.
have VL r : (r < size kept)%N -> gf_base gL (List.map (meas_arg m t y uv true dvec r) (gf_args gL)) =
    [:: L (meas (nth 0%N kept r)) (x (nth 0%N kept r * n.-1)%N) (inp (nth 0%N kept r * n.-1)) p].
  move=> Hr; rewrite (jee_L HE) ?meas_y ?meas_x ?meas_u ?meas_p // => v Hv; apply: meas_arg_size.
  by apply: (su_args _ _ _ (oes_L _ _ _ _ HG)).
have SE e : size (E e) = (n.-1 * nx)%N.
  rewrite /E /D' {1}Ec /jme_e; apply: size_blocks => i _; by rewrite size_map size_iota.
have SEE : size (flatten [seq E e | e <- iota 0 K]) = (K * (n.-1 * nx))%N by apply: size_blocks => i _; exact: SE.
have EG a i : (a < nx)%N -> (i < nw)%N -> elem G a i = Gm a i by move=> Ha Hi; rewrite tab_elem.
exists tc, (flatten [seq E e | e <- iota 0 K]); split=> //.
- by rewrite Econ !flat_mapE npiecesE; congr (Ok _); congr flatten; apply/eq_in_map => e _; exact: Ve.
- rewrite SEE; apply: (pieces_zero SE Htc) => k Hk; rewrite /E /D' {1}Ec.
  apply: iff_trans (noisy_zero f nx nw (fun j => x (pt k j)) (fun j => inp (pt k j)) p t`_k (noise_of dvec k) G HN n0 SJ (incr_neq0 St Hk)) _.
  have EV a j : (a < nx)%N -> \sum_(i < nw) elem G a i * noise_at n JT (noise_of dvec k) j i = \sum_(i < nw) Gm a i * w k j i.
    by move=> Ha; apply: eq_bigr => i _; rewrite EG.
  split=> H a Ha; have := H a Ha; apply: (proj1 (uniq_iff _)) => P; split=> -[SP HP]; split=> // j Hj; have := HP j Hj; by rewrite EV.
- rewrite Eobj !lsum_flat !npiecesE -[_ - _ - _]addrA -(sum_kept (fun k => L (meas k) (x (k * n.-1)%N) (inp (k * n.-1)) p)); congr Ok.
  congr (_ + (_ + _)).
  + by apply: eq_bigr => r _; rewrite VL ?big_seq1 // -size_kept.
  + rewrite mulr_sumr -sumrN; apply: eq_bigr => k _; rewrite Vt big_seq1 {1}Ec C58_tube_value // -Ec -mulrA mulNr; congr (- (_ * (_ * _))).
    by apply: eq_bigr => j _; rewrite !(nth_map 0%N) ?size_iota // !nth_iota.
  + case UP: (m_use_penalty m); last by rewrite oppr0.
    rewrite -sumrN; apply: eq_bigr => k _; rewrite Vp // big_seq1 /D' {1}Ec C58_penalty_value -Ec; congr (- _).
    apply: eq_bigr => i _; apply: eq_bigr => a _; congr (_ * _ ^+ 2).
    have HA : all (fun s : seq F => size s == (n.-1 * nx)%N) [seq E e | e <- iota 0 K] by apply/allP => s /mapP [e _ ->]; rewrite SE.
    have Hia : (i * nx + a < n.-1 * nx)%N.
      by apply: (@leq_trans (i.+1 * nx)); rewrite ?leq_mul2r ?ltn_ord ?orbT // mulSn addnC ltn_add2r.
    rewrite (nth_uniform HA) ?size_map ?size_iota ?ltn_ord // (nth_map 0%N) ?size_iota ?ltn_ord // nth_iota ?ltn_ord // add0n.
    have HB : all (fun s : seq F => size s == nx) (D' k).
      by rewrite /D' {1}Ec; apply/allP => s /mapP [e _ ->]; rewrite size_map size_iota.
    have SD : size (D' k) = n.-1 by rewrite /D' {1}Ec size_map size_iota.
    by rewrite /E (nth_uniform HB) ?SD ?ltn_ord.
Qed.
End Est.

(** *** A concrete model meeting all hypotheses: two nodes per piece, two
    unequal pieces, f(x, u, p) = p x + u, one measurement dropped. *)
Section Concrete.
Variable F : rcfType.

Fixpoint env_of (names : seq string) (A : seq (seq F)) (w : string) : seq F :=
  match names, A with
  | v :: ns, a :: A' => if String.eqb v w then a else env_of ns A' w
  | _, _ => [::]
  end.
Definition fit k (s : seq F) : seq F := block s 0 k.
Lemma fit_size k s : size (fit k s) = k. Proof. by rewrite size_map size_iota. Qed.
Lemma fit_id k s : size s = k -> fit k s = s.
Proof. by move=> <-; rewrite /fit /block; exact: (mkseq_nth 0 s). Qed.

Definition made (base : string -> seq nat) names (out : seq nat) (spec : (string -> seq F) -> seq F) : gfun F :=
  GF "f" names (List.map base names) out (fun A => fit (prodn out) (spec (env_of names A))) [::] [::] [::] [::].
Lemma made_suits m names out spec : List.NoDup names -> suits m names (made (base_shape m) names out spec).
Proof.
move=> ND; split=> //; split=> //=; try by constructor.
  by rewrite List.map_length.
by move=> A; exact: fit_size.
Qed.

Definition dims (e IL M g h Lm tb pn : fn F) : colmodel F :=
  @ColModel F (Colloc 2 [:: 0; 1]) 1 1 1 1 1 1 1 e IL M g h Lm tb pn true (Arr [:: 1%N] [:: 3%:R]) (Arr [:: 1; 1]%N [:: 2%:R]).
Definition dummy : fn F := gen_fn (made (fun _ => [::]) [::] [::] (fun _ => [::])).
Definition bs := base_shape (dims dummy dummy dummy dummy dummy dummy dummy dummy).
Definition fx (x u p : seq F) : seq F := [:: p`_0 * x`_0 + u`_0].
Definition Lx (x u p : seq F) : F := x`_0 ^+ 2 + u`_0 ^+ 2.
Definition Mx (xe : seq (seq F)) (p : seq F) : F := elem xe 1 0.
Definition gx (x u p : seq F) : seq F := [:: x`_0 * u`_0].
Definition hx (xe : seq (seq F)) (p : seq F) : seq F := [:: elem xe 0 0].
Definition Lm (y x u p : seq F) : F := - (y`_0 - x`_0) ^+ 2.
Definition cx : RkModel.collocation F := make_collocation 2 [:: 0; 1].
Definition JTx : seq (seq F) := [:: [:: 1]; [:: 1]].

Notation pn := [:: "xp"; "up"; "p"; "piece_len"]%string.
Definition ge1 := made bs pn [:: 1; 1]%N (fun env => flatten (defects fx 1 cx (tab2 2 1 (env "xp"%string)) (tab2 2 1 (env "up"%string)) (env "p"%string) (env "piece_len"%string)`_0)).
Definition gIL1 := made bs pn [::] (fun env => [:: IL Lx cx (tab2 2 1 (env "xp"%string)) (tab2 2 1 (env "up"%string)) (env "p"%string) (env "piece_len"%string)`_0]).
Definition gM1 := made bs [:: "xe"; "p"]%string [::] (fun env => [:: Mx (tab2 2 1 (env "xe"%string)) (env "p"%string)]).
Definition gg1 := made bs [:: "x"; "u"; "p"]%string [:: 1%N] (fun env => gx (env "x"%string) (env "u"%string) (env "p"%string)).
Definition gh1 := made bs [:: "xe"; "p"]%string [:: 1%N] (fun env => hx (tab2 2 1 (env "xe"%string)) (env "p"%string)).
Definition gL1 := made bs [:: "y"; "x"; "u"; "p"]%string [::] (fun env => [:: Lm (env "y"%string) (env "x"%string) (env "u"%string) (env "p"%string)]).
Definition je env := jme_e fx 1 1 cx JTx (tab2 2 1 (env "xp"%string)) (tab2 2 1 (env "up"%string)) (env "p"%string) (env "piece_len"%string)`_0
      (tab2 1 1 (env "wc"%string)) (tab2 1 1 (env "G"%string)).
Definition ge2 := made bs (e_names true) [:: 1; 1]%N (fun env => flatten (je env)).
Definition gt2 := made bs (e_names true) [::] (fun env =>
    [:: tube_L true (fun _ _ p => [:: p]) 1 1 cx JTx (tab2 2 1 (env "xp"%string)) (tab2 2 1 (env "up"%string)) (env "p"%string) (env "piece_len"%string)`_0
      (tab2 1 1 (env "wc"%string))]).
Definition gp2 := made bs (List.app (e_names true) [:: "penweight"%string]) [::] (fun env => [:: penalty 1 (je env) (env "penweight"%string)]).
Definition m1 := dims (gen_fn ge1) (gen_fn gIL1) (gen_fn gM1) (gen_fn gg1) (gen_fn gh1) (gen_fn gL1) dummy dummy.
Definition m2 := dims (gen_fn ge2) dummy dummy dummy dummy (gen_fn gL1) (gen_fn gt2) (gen_fn gp2).
Definition t1 : seq F := [:: 0; 1; 3%:R].
Definition y1 : seq (yrow F) := [:: [:: (1, false)]; [:: (0, true)]; [:: (2%:R, false)]].
Definition u1 : arr F := Arr [:: 3; 1]%N [:: 4%:R; 5%:R; 6%:R].

Lemma lobatto_concrete e IL M g h L' tb pen : lobatto (dims e IL M g h L' tb pen) cx.
Proof.
split=> //=; rewrite /LGLCollocation; have [pts [-> Sp _ [H0 H1] _]] := C27_points F (isT : (1 < 2)%N).
case: pts Sp H0 H1 => [|a [|b []]] //= _ -> ->; by [].
Qed.

Ltac nd := repeat constructor; simpl; intuition discriminate.
Lemma flat1 f nx c xp up p h : c = cx -> nx = 1%N -> size (flatten (@defects F f nx c xp up p h)) = 1%N.
Proof. by move=> -> ->. Qed.

Example C64_nonvacuous : [/\ lobatto m1 cx, sorted <%R t1 /\ (1 < size t1)%N, oc_small m1 t1 /\ (exists q, oc_problem m1 t1 = Ok q /\ ndec q = 7%N),
  oc_generated m1 ge1 gIL1 gM1 gg1 gh1 & oc_expresses m1 cx fx Lx Mx gx hx ge1 gIL1 gM1 gg1 gh1].
Proof.
have LB : lobatto m1 cx by exact: lobatto_concrete.
have St : sorted <%R t1 by rewrite /t1 /= ltr01 (ltr_nat F 1 3).
split=> //.
- split; first by do !split.
  exists (oc_prob m1 t1); split; last by [].
  exact: (oc_problem_ok m1 t1 (lobatto_grid LB St isT)).
- split=> //; try (by apply: made_suits; nd); try (by exists "xp"%string; simpl; tauto). by exists "x"%string; simpl; tauto.
Qed.

Lemma data_concrete e IL M g h L' tb pen : good_data (dims e IL M g h L' tb pen) t1 y1 u1.
Proof. by split=> //; repeat constructor. Qed.

Example C65_nonvacuous : [/\ lobatto m1 cx, sorted <%R t1 /\ (1 < size t1)%N, good_data m1 t1 y1 u1 /\ kept y1 = [:: 0; 2]%N,
  oem_small m1 t1 false /\ (exists q, oem_problem m1 false t1 y1 (UArr u1) = Ok q /\ ndec q = 4%N) &
  oem_generated m1 false ge1 gL1 /\ oem_expresses m1 cx fx Lm ge1 gL1].
Proof.
have LB : lobatto m1 cx by exact: lobatto_concrete.
have St : sorted <%R t1 by rewrite /t1 /= ltr01 (ltr_nat F 1 3).
split=> //; [split=> //; exact: data_concrete| |].
- split; first by do !split.
  exists (oem_prob m1 t1 y1 u1 false); split; last by [].
  by apply: (oem_problem_ok m1 t1 y1 u1 false (UArr u1) (lobatto_grid LB St isT) (data_concrete _ _ _ _ _ _ _ _)).
- split; last by split=> env _.
  by split=> //; try (by apply: made_suits; nd); try (by exists "xp"%string; simpl; tauto).
Qed.

Example C66_nonvacuous : [/\ lobatto m2 cx, sorted <%R t1 /\ (1 < size t1)%N, good_data m2 t1 y1 u1 /\ jme_constants m2 /\ size JTx = 2%N,
  oem_small m2 t1 true /\ (exists q, jme_problem m2 t1 y1 (UArr u1) = Ok q /\ ndec q = 6%N) &
  [/\ oem_generated m2 true ge2 gL1, jme_generated m2 gt2 gp2 & jme_expresses m2 cx fx Lm true (fun _ _ p => [:: p]) JTx ge2 gL1 gt2 gp2]].
Proof.
have LB : lobatto m2 cx by exact: lobatto_concrete.
have St : sorted <%R t1 by rewrite /t1 /= ltr01 (ltr_nat F 1 3).
split=> //; [split=> //; exact: data_concrete| |].
- split; first by do !split.
  exists (jme_prob m2 t1 y1 u1); split; last by [].
  by apply: (jme_problem_ok m2 t1 y1 u1 (UArr u1) (lobatto_grid LB St isT) (data_concrete _ _ _ _ _ _ _ _)).
- split; last by split=> // _ env _.
  by split=> //; try (by apply: made_suits; nd); try (by exists "xp"%string; simpl; tauto).
  by split=> // *; try (by apply: made_suits; nd); try (by exists "xp"%string; simpl; tauto).
Qed.
End Concrete.
Print Assumptions C64_optimal_control.
Print Assumptions C65_output_error.
Print Assumptions C66_joint_map.
