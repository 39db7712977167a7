(** What the functions built from expressions compute. *)
From Coq Require Import String List ZArith Reals Eqdep_dec FunctionalExtensionality.
From Coquelicot Require Import Coquelicot.
From Verif Require Import Py NdArray NdLemmas OptimModel ProblemSpec DerivSpec ColModel ColBuild ColLaws GenModel ColCalls AssemblyLemmas PropsCol ColValues
  SymModel SymLemmas RegModel RegLemmas EndToEnd PropsEnd PropsEndEst Expr ExprSym ExprModel ExprEnd.
From mathcomp Require Import all_ssreflect all_algebra polyorder polyrcf.
From Verif Require Import McRing RealField RkModel LegendreLemmas QuadLemmas LobattoLemmas PropsRk SymColModel PropsSymCol NlpLemmas PropsNlp.
Set Implicit Arguments.
Unset Strict Implicit.
Unset Printing Implicit Defensive.
Import Order.TTheory GRing.Theory Num.Theory.
Local Open Scope ring_scope.
Local Notation R := Rdefinitions.R.

(** *** The two instances of arithmetic on the reals are the same *)
Lemma ring_theory_irrel (T : Type) (dec : forall x y : T, {x = y} + {x <> y}) z o a m s i (p q : Ring_theory.ring_theory z o a m s i (@eq T)) : p = q.
Proof.
have U (x y : T) (e e' : x = y) : e = e' by exact: (UIP_dec dec).
case: p => *; case: q => *; congr Ring_theory.mk_rt; repeat (apply: functional_extensionality_dep => ?); exact: U.
Qed.
Lemma num_eq : num_F R_rcfType = num_R.
Proof.
rewrite /num_F /num_R; congr Build_Num; exact: (ring_theory_irrel Req_EM_T).
Qed.
Lemma ord_eq : ord_F R_rcfType = numord_R.
Proof.
rewrite /ord_F /numord_R; congr Build_NumOrd; apply: functional_extensionality => x; apply: functional_extensionality => y.
by case: Rlt_dec => H; [apply/RltP|apply/negbTE/negP => /RltP].
Qed.

(** *** Values of the builders *)
Lemma esumE v (g : nat -> expr) a k : eval v (esum (List.map g (List.seq a k))) = \sum_(a <= j < a + k) eval v (g j).
Proof.
rewrite eval_esum List.map_map /index_iota addKn; change (List.seq a k) with (iota a k).
by elim: (iota a k) => [|i s IH] /=; rewrite ?big_nil // big_cons -IH.
Qed.
Lemma esum0E v (g : nat -> expr) k : eval v (esum (List.map g (List.seq 0 k))) = \sum_(j < k) eval v (g j).
Proof. by rewrite esumE add0n big_mkord. Qed.
Lemma evalD v a b : eval v (Add a b) = eval v a + eval v b. Proof. by []. Qed.
Lemma evalM v a b : eval v (Mul a b) = eval v a * eval v b. Proof. by []. Qed.
Lemma evalC v c : eval v (Cst c) = c. Proof. by []. Qed.
Lemma evalV v w i : eval v (Var w i) = v w i. Proof. by []. Qed.
Lemma evalN v a : eval v (eneg a) = - eval v a. Proof. by rewrite /eneg evalM evalC -[RHS]mulN1r. Qed.
Lemma evalB v a b : eval v (esub a b) = eval v a - eval v b. Proof. by rewrite /esub evalD evalN. Qed.
Lemma evalX v a : eval v (esq a) = eval v a ^+ 2. Proof. by rewrite expr2. Qed.

Section Values.
Variables (m : colmodel R) (c : RkModel.collocation R_rcfType).
Notation n := (col_n (m_col m)).
Notation nx := (m_nx m).
Notation nu := (m_nu m).
Notation nw := (m_nw m).
Notation size_of := (fun w => prodn (base_shape m w)).
Hypothesis cn : c_n c = n.
Hypothesis ci : c_ninterv c = n.-1.
Hypothesis n0 : (0 < n)%N.

(** The function of (x, u, p) that a list of expressions stands for. *)
Definition fun3 (es : seq expr) (x u p : seq R) : seq R := [seq eval (arg_env [:: "x"; "u"; "p"]%string [:: x; u; p]) e | e <- es].
Definition fun3s (e : expr) (x u p : seq R) : R := eval (arg_env [:: "x"; "u"; "p"]%string [:: x; u; p]) e.

Variables (args : seq string) (a : string -> seq R).
Hypothesis NA : List.NoDup args.
Hypothesis HA : List.incl [:: "xp"; "up"; "p"; "piece_len"]%string args.
Notation v := (arg_env args (List.map a args)).
Notation xp := (tab2 n nx (a "xp"%string)).
Notation up := (tab2 n nu (a "up"%string)).
Notation p := (a "p"%string).
Notation len := ((a "piece_len"%string)`_0).

Lemma arg_val w i : List.In w args -> v w i = (a w)`_i.
Proof. by move=> Hw; rewrite arg_env_map // nthE. Qed.
Lemma tab_row k w (l : seq R) i : (i < k)%N -> nth [::] (tab2 k w l) i = [seq l`_(i * w + j) | j <- iota 0 w].
Proof. by move=> Hi; rewrite (nth_map 0%N) ?size_iota // nth_iota. Qed.
Lemma tab_at k w (l : seq R) i j : (i < k)%N -> (j < w)%N -> (nth [::] (tab2 k w l) i)`_j = l`_(i * w + j).
Proof. by move=> Hi Hj; rewrite tab_row // (nth_map 0%N) ?size_iota // nth_iota. Qed.

Lemma point_val j e : (j < n)%N -> scoped size_of [:: "x"; "u"; "p"]%string e ->
  eval v (at_point nx nu j e) = fun3s e (nth [::] xp j) (nth [::] up j) p.
Proof.
move=> Hj HS; rewrite /at_point eval_esubst; apply: (eval_scoped _ _ _ _ _ HS) => w i Hw /ssrnat.ltP.
have I w' : List.In w' [:: "xp"; "up"; "p"; "piece_len"]%string -> List.In w' args by exact: HA.
rewrite /at_row; case: Hw => [<-|[<-|[<-|[]]]]; cbn [String.eqb Ascii.eqb Bool.eqb base_shape]; rewrite ?prodn1 => Hi; rewrite evalV arg_val; try (by apply: I; simpl; tauto).
- by rewrite /arg_env /= nthE tab_at // !plusE !multE.
- by rewrite /arg_env /= nthE tab_at // !plusE !multE.
- by rewrite /arg_env /= nthE.
Qed.
Lemma nth_fun3 es x u q k : (fun3 es x u q)`_k = fun3s (List.nth k es (Cst 0)) x u q.
Proof.
rewrite /fun3 /fun3s nthE; case: (ltnP k (size es)) => Hk; first by rewrite (nth_map (Cst R0)).
by rewrite !nth_default ?size_map.
Qed.
Lemma scoped_at es k : List.Forall (scoped size_of [:: "x"; "u"; "p"]%string) es -> scoped size_of [:: "x"; "u"; "p"]%string (List.nth k es (Cst 0)).
Proof. exact: scoped_nth. Qed.
Lemma drift_val f j k : List.Forall (scoped size_of [:: "x"; "u"; "p"]%string) f -> (j < n)%N ->
  eval v (drift nx nu f j k) = (fun3 f (nth [::] xp j) (nth [::] up j) p)`_k.
Proof. by move=> Hf Hj; rewrite /drift point_val ?nth_fun3 //; exact: scoped_at. Qed.

Lemma defect_val d (D : nat -> nat -> R) i k : (i.+1 < n)%N -> (k < nx)%N -> (forall j, (j < n)%N -> eval v (d j k) = D j k) ->
  eval v (defect n nx (c_J c) d i k) = elem xp i.+1 k - elem xp i k - (\sum_(j < n) elem (c_J c) i j * D j k) * len.
Proof.
move=> Hi Hk Hd; rewrite /defect !evalB evalM esum0E !evalV !arg_val; try (by apply: HA; simpl; tauto).
rewrite /elem /row !tab_at ?(ltnW Hi) // !plusE !multE addn1; congr (_ - _ * _).
by apply: eq_bigr => j _; rewrite evalM Hd // /cmat evalC !nthE.
Qed.
Lemma defects_val d (D : nat -> nat -> R) : (forall j k, (j < n)%N -> (k < nx)%N -> eval v (d j k) = D j k) ->
  List.map (eval v) (all_defects n nx (c_J c) d) =
  flatten [seq [seq elem xp i.+1 k - elem xp i k - (\sum_(j < n) elem (c_J c) i j * D j k) * len | k <- iota 0 nx] | i <- iota 0 n.-1].
Proof.
move=> Hd; rewrite /all_defects flat_mapE -[List.map _ _]/(map _ _) map_flatten -map_comp; congr flatten.
change (List.seq 0 (n - 1)%coq_nat) with (iota 0 (n - 1)%N); rewrite subn1; apply/eq_in_map => i; rewrite mem_iota add0n => /andP [_ Hi] /=.
rewrite -[List.map _ _]/(map _ _) -map_comp -[List.seq _ _]/(iota 0 nx); apply/eq_in_map => k; rewrite mem_iota add0n => /andP [_ Hk] /=.
by apply: defect_val => // [|j Hj]; [case: n Hi n0|exact: Hd].
Qed.

Lemma e_val f : List.Forall (scoped size_of [:: "x"; "u"; "p"]%string) f ->
  List.map (eval v) (e_expr n nx nu (c_J c) f) = flatten (defects (fun3 f) nx c xp up p len).
Proof.
move=> Hf; rewrite /e_expr (defects_val (D := fun j k => (fun3 f (nth [::] xp j) (nth [::] up j) p)`_k)) => [|j k Hj _]; last exact: drift_val.
rewrite /defects cn; congr flatten; apply/eq_in_map => i _; apply/eq_in_map => k _; congr (_ - _ * _).
by apply: eq_bigr => j _; rewrite (nth_map 0%N) ?size_iota // nth_iota.
Qed.

Lemma IL_val L : scoped size_of [:: "x"; "u"; "p"]%string L ->
  eval v (IL_expr n nx nu (c_K c) L) = IL (fun3s L) c xp up p len.
Proof.
move=> HL; rewrite /IL_expr /IL /dot evalM esum0E evalV arg_val; last by apply: HA; simpl; tauto.
congr (_ * _); rewrite cn; apply: eq_bigr => j _; rewrite evalM point_val // evalC nthE; congr (_ * _).
by rewrite [RHS](nth_map 0%N) ?size_iota // nth_iota.
Qed.

(** *** Joint MAP estimation *)
Section Noise.
Variable JT : seq (seq R).
Hypothesis SJ : size JT = n.
Hypothesis Hwc : List.In "wc"%string args.
Notation wc := (tab2 n.-1 nw (a "wc"%string)).
Notation G := (tab2 nx nw (a "G"%string)).

Lemma wp_val j i : (j < n)%N -> (i < nw)%N -> eval v (wp n nw JT j i) = elem (noise c nw JT wc) j i.
Proof.
move=> Hj Hi; rewrite /wp esum0E /noise /matmul /elem /row (nth_map [::]) ?SJ // (nth_map 0%N) ?size_iota // nth_iota // add0n ci minusE subn1.
by apply: eq_bigr => b _; rewrite evalM evalV arg_val // /cmat evalC !nthE tab_at.
Qed.
Lemma noisy_val f j k : List.In "G"%string args -> List.Forall (scoped size_of [:: "x"; "u"; "p"]%string) f -> (j < n)%N -> (k < nx)%N ->
  eval v (noisy n nx nu nw JT f j k) = (fun3 f (nth [::] xp j) (nth [::] up j) p)`_k + \sum_(l < nw) elem (noise c nw JT wc) j l * elem G k l.
Proof.
move=> HG Hf Hj Hk; rewrite /noisy evalD drift_val // esum0E; congr (_ + _); apply: eq_bigr => l _.
by rewrite evalM wp_val // evalV arg_val // /elem /row tab_at.
Qed.
Lemma jme_e_val f : List.In "G"%string args -> List.Forall (scoped size_of [:: "x"; "u"; "p"]%string) f ->
  List.map (eval v) (jme_e_expr n nx nu nw (c_J c) JT f) = flatten (jme_e (fun3 f) nx nw c JT xp up p len wc G).
Proof.
move=> HG Hf; rewrite /jme_e_expr (defects_val (D := fun j k => (fun3 f (nth [::] xp j) (nth [::] up j) p)`_k + \sum_(l < nw) elem (noise c nw JT wc) j l * elem G k l)) => [|j k Hj Hk]; last exact: noisy_val.
rewrite /jme_e cn; congr flatten; apply/eq_in_map => i _; apply/eq_in_map => k; rewrite mem_iota add0n => /andP [_ Hk]; congr (_ - _ * _).
by apply: eq_bigr => j _; rewrite tab_elem.
Qed.
Lemma jme_defect_val f i k : List.In "G"%string args -> List.Forall (scoped size_of [:: "x"; "u"; "p"]%string) f -> (i < n.-1)%N -> (k < nx)%N ->
  eval v (defect n nx (c_J c) (noisy n nx nu nw JT f) i k) = elem (jme_e (fun3 f) nx nw c JT xp up p len wc G) i k.
Proof.
move=> HG Hf Hi Hk; rewrite (defect_val (D := fun j k => (fun3 f (nth [::] xp j) (nth [::] up j) p)`_k + \sum_(l < nw) elem (noise c nw JT wc) j l * elem G k l)) //; first last.
- by move=> j Hj; exact: noisy_val.
- by case: n Hi n0.
rewrite /jme_e cn [RHS]tab_elem //; congr (_ - _ * _); apply: eq_bigr => j _; congr (_ * _); by rewrite [RHS]tab_elem.
Qed.
Lemma penalty_val f : List.In "G"%string args -> List.In "penweight"%string args -> List.Forall (scoped size_of [:: "x"; "u"; "p"]%string) f ->
  eval v (penalty_expr n nx nu nw (c_J c) JT f) = penalty nx (jme_e (fun3 f) nx nw c JT xp up p len wc G) (a "penweight"%string).
Proof.
move=> HG HP Hf; rewrite /penalty_expr esumE add0n /penalty /jme_e cn big_map minusE subn1.
rewrite /index_iota subn0; apply: eq_big_seq => i; rewrite mem_iota add0n => /andP [_ Hi].
rewrite esum0E /dot; apply: eq_bigr => k _; rewrite evalM evalV arg_val // evalN evalX jme_defect_val //.
by rewrite (nth_map 0) ?size_map ?size_iota //; congr (- _ ^+ 2 * _); rewrite /jme_e cn /elem /row (nth_map 0%N) ?size_iota // nth_iota.
Qed.
(** The derivative of the drift with respect to the state: element (i, k) is
    the derivative of component k with respect to state i. *)
Definition drift_jac (f : seq expr) (x u q : seq R) : seq (seq R) :=
  [seq [seq fun3s (dif "x" i (List.nth k f (Cst 0))) x u q | k <- iota 0 nx] | i <- iota 0 nx].
Lemma half : Rdiv (IZR (Zneg xH)) (IZR (Zpos (xO xH))) = - (2%:R)^-1 :> R.
Proof. by rewrite -[RHS]mulN1r. Qed.
Lemma tube_val om f : List.Forall (scoped size_of [:: "x"; "u"; "p"]%string) f ->
  eval v (tube_expr n nx nu nw (c_K c) JT om f) = tube_L om (drift_jac f) nx nw c JT xp up p len wc.
Proof.
move=> Hf; rewrite /tube_expr /tube_L /dot evalM esum0E evalV arg_val; last by apply: HA; simpl; tauto.
congr (_ * _); rewrite cn; apply: eq_bigr => j _; rewrite !evalM !evalC evalD nthE.
rewrite (nth_map (0 : R)) ?size_map ?size_iota // (nth_map 0%N) ?size_iota // nth_iota // add0n.
congr (_ * _ * _); first exact: half.
congr (_ + _); last first.
  by rewrite esum0E; apply: eq_bigr => i _; rewrite evalX wp_val.
case: om => //; rewrite /drift_div_expr /drift_div /tail_rows esumE /tail_start.
set s := (if (nw == 0%N) then _ else _);
have Hs : (s <= nx)%N by rewrite /s; case: eqP => // _; exact: leq_subr.
rewrite minusE subnKC //; apply: eq_big_nat => i /andP [_ Hi].
by rewrite point_val ?tab_elem //; apply: scoped_ddir; exact: scoped_at.
Qed.
End Noise.
End Values.
