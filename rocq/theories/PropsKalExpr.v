(** C71 and C72: filters of models written as expressions, and of stochastic
    differential equations written as expressions and discretised. *)
From Coq Require Import String Reals Lra.
From Coquelicot Require Import Coquelicot.
From Verif Require Import Py Expr ExprCalc.
From mathcomp Require Import all_ssreflect all_algebra.
From Verif Require Import RealField McRing MxCalc KalModel PsdLemmas CholLemmas KalDiffModel UtDiffLemmas FiltDiffLemmas KalLemmas PropsPem PropsPemDiff SdeModel PropsSde KalExpr KalExprLemmas.
Set Implicit Arguments.
Unset Strict Implicit.
Unset Printing Implicit Defensive.
Import Order.TTheory GRing.Theory Num.Theory.
Local Open Scope ring_scope.
Local Open Scope string_scope.
Local Notation R := Rdefinitions.R.

(** * C71 *)

Section C71.
Variables nx ny nq : nat.
Variables (m : kexpr nx ny) (c : env).
Hypotheses (SQ : esym (ke_Q m)) (SR : esym (ke_R m)) (SP : esym (ke_P0 m)).
Variables (kp kc : RF) (k : nat) (ys : seq (meas RF ny)).
Notation merit := (merit (@kmodel nx ny nq m c) (kstart nq m c) kp kc k ys).
Notation gradient := (gradient (@kmodel nx ny nq m c) (kstart nq m c) kp kc k ys).
Notation hessian := (hessian (@kmodel nx ny nq m c) (kstart nq m c) kp kc k ys).

(** The run at [q] evaluates every expression where it is smooth. *)
Definition smooth_run (q : 'rV[RF]_nq) : Prop := regular (kmodel m c) (kregions m c) (kparams m c) (kstart nq m c) kp kc k ys q.

Theorem C71_total q : (exists l, merit q = Ok l) <-> (exists g h, gradient q = Ok g /\ hessian q = Ok h).
Proof.
have T1 := C43_total kp kc k ys (kmodel_diff nq c SQ SR) (kstart_diff nq c SP) q.
have T2 := C44_total kp kc k ys (kmodel_diff nq c SQ SR) (kstart_diff nq c SP) q.
split=> [H|[g [h [Eg _]]]]; last by apply/T1; exists g.
by have [[g Eg] [h Eh]] := (proj1 T1 H, proj1 T2 H); exists g, h.
Qed.
Theorem C71_gradient q g : smooth_run q -> gradient q = Ok g -> forall a, partial merit q a (g a).
Proof. move=> S E; exact: C43_gradient (kmodel_diff nq c SQ SR) (kstart_diff nq c SP) _ _ S E. Qed.
Theorem C71_hessian q h : smooth_run q -> hessian q = Ok h -> forall a b, exists G : R -> RF,
  near (0 : RF) (fun r => partial merit (q + (r : RF) *: delta_mx 0 a) b (G r)) /\ sderiv G (0 : RF) (h a b).
Proof.
move=> S E; exact: C44_hessian (kmodel_diff nq c SQ SR) (kmodel_diff2 nq m c) (kmodel_open nq m c) (kstart_diff nq c SP) (kstart_diff2 nq m c) _ _ S E.
Qed.
End C71.

(** * C72 *)

Lemma eval_osum v n (f : 'I_n -> expr) : eval v (osum f) = \sum_i eval v (f i) :> RF.
Proof.
rewrite /osum eval_esum -[RHS]big_enum /=; elim: (enum _) => [|i l IH]; first by rewrite big_nil.
by rewrite big_cons /= IH.
Qed.
Lemma dom_osum v n (f : 'I_n -> expr) : (forall i, dom v (f i)) -> dom v (osum f).
Proof. by move=> H; apply: dom_esum; elim: (enum _) => [|i l IH] /=; constructor. Qed.
Lemma esym_gram nx n (g : 'I_nx -> 'I_n -> expr) : esym (egram g).
Proof. by move=> v i j; rewrite /egram !eval_osum; apply: eq_bigr => l _; exact: mulrC. Qed.
Lemma dom_gram v nx n (g : 'I_nx -> 'I_n -> expr) i j : (forall i l, dom v (g i l)) -> dom v (egram g i j).
Proof. by move=> H; apply: dom_osum => l /=. Qed.

(** A run in a region is a run in any larger one. *)
Lemma stays_sub nx ny (md : model RF nx ny) kp kc (X Y : regions nx) s ys :
  (forall k x, in_f X k x -> in_f Y k x) -> (forall k x, in_Q X k x -> in_Q Y k x) -> (forall k x, in_h X k x -> in_h Y k x) ->
  stays md kp kc X s ys -> stays md kp kc Y s ys.
Proof.
move=> Hf HQ Hh; elim: ys s => [//|y ys IH] s [H1 H2]; split=> [ny' z Hz|s1 c' E n]; first exact/Hh/H1.
by have [Af AQ An] := H2 _ _ E n; split=> [z Hz||s2 P E2]; [exact/Hf/Af | exact/HQ | exact/IH/An/E2].
Qed.

Section C72.
Variables nx nw ny nq : nat.
Variables (m : cexpr nx nw ny) (c : env).
Notation dt := (c "dt" 0%N : RF).

(** The continuous-time model at parameters [q]: the expressions evaluated
    at time [t] and state [x]. *)
Definition cenv (q : 'rV[RF]_nq) (t : R) (x : 'rV[RF]_nx) : env := fun w i =>
  if String.eqb w "t" then (if i is 0 then t else 0) else if String.eqb w "x" then elem x i else if String.eqb w "q" then elem q i else c w i.
Definition ct_of (q : 'rV[RF]_nq) : ct_model RF nx nw ny :=
  CT (fun t x => \col_i eval (cenv q t x^T) (ce_f m i)) (fun t x => \matrix_(i, l) eval (cenv q t x^T) (ce_g m i l))
    (fun t x => \col_i eval (cenv q t x^T) (ce_h m i))
    (fun t x => \col_i eval (cenv q t x^T) (dif "t" 0 (ce_f m i)))
    (fun t x => \matrix_(i, j) eval (cenv q t x^T) (dif "x" i (ce_f m j)))
    (fun t x p r => \col_i eval (cenv q t x^T) (dif "x" p (dif "x" r (ce_f m i)))).

(** No function of the continuous-time model mentions the sample index. *)
Definition no_k : Prop :=
  [/\ forall i, mentions "k" (ce_f m i) = false, forall i l, mentions "k" (ce_g m i l) = false & forall i, mentions "k" (ce_h m i) = false].
Hypothesis NK : no_k.

Lemma env_at q k x T w i : w <> "k" ->
  eval (kenv c q k x) (if String.eqb w "t" then (if i is 0 then T else Cst 0) else Var w i) = cenv q (eval (kenv c q k x) T) x w i.
Proof.
rewrite /cenv => nk; case: String.eqb_spec => [_|_] /=; first by case: i.
rewrite /kenv.
by case: (String.eqb_spec w "k").
Qed.
Lemma eval_at q k x T e : mentions "k" e = false -> eval (kenv c q k x) (at_time T e) = eval (cenv q (eval (kenv c q k x) T) x) e.
Proof. by move=> H; rewrite /at_time eval_subst; apply: eval_agree H _ => w i nk; exact: env_at. Qed.
Lemma dom_at q k x T e : mentions "k" e = false -> dom (kenv c q k x) T -> dom (cenv q (eval (kenv c q k x) T) x) e -> dom (kenv c q k x) (at_time T e).
Proof.
move=> H HT D; apply: dom_subst => [w i|]; first by case: String.eqb => //; case: i.
by apply: dom_agree H _ D => w i nk; rewrite env_at.
Qed.

Lemma dtE (q : 'rV[RF]_nq) k (x : 'rV[RF]_nx) : eval (kenv c q k x) edt = dt. Proof. by []. Qed.
Lemma kE (q : 'rV[RF]_nq) k (x : 'rV[RF]_nx) : eval (kenv c q k x) ek = k%:R :> RF. Proof. by []. Qed.
Lemma xE (q : 'rV[RF]_nq) k (x : 'rV[RF]_nx) j : eval (kenv c q k x) (ex j) = x 0 j. Proof. exact: elem_ord. Qed.
Lemma evM v a b : eval v (Mul a b) = eval v a * eval v b :> RF. Proof. by []. Qed.
Lemma evD v a b : eval v (Add a b) = eval v a + eval v b :> RF. Proof. by []. Qed.
Lemma halfE v : eval v (Cst (/ 2)) = 2%:R^-1 :> RF. Proof. by []. Qed.

Let RC := [comRingType of RF].
Add Ring C72Ring : (com_rt RC).

Hypothesis dt0 : 0 < dt.
Lemma sdtE (q : 'rV[RF]_nq) k (x : 'rV[RF]_nx) : eval (kenv c q k x) (Un Sqrt edt) = Num.sqrt dt.
Proof. by rewrite sqrtE ?ltW. Qed.
Lemma s3E v : eval v (Un Inv (Un Sqrt (Cst 3))) = (Num.sqrt 3%:R)^-1 :> RF.
Proof. by rewrite sqrtE ?ler0n. Qed.

(** The discretised expressions are the discretised model. *)
Theorem C72_h q k x : md_h (dm_md (kmodel (euler m) c q)) k x = (sde_h (ct_of q) dt k x^T)^T.
Proof.
have [_ _ NH] := NK.
by apply/rowP => j; rewrite !mxE /sde_eh eval_at // trmxK evM dtE kE.
Qed.
Theorem C72_euler_f q k x : md_f (dm_md (kmodel (euler m) c q)) k x = (euler_f (ct_of q) dt k x^T)^T.
Proof.
have [NF _ _] := NK.
apply/rowP => j; rewrite !mxE /euler_ef evD xE evM eval_at // trmxK !evM dtE kE.
by rewrite [RHS]addrC [LHS]addrC [in RHS]mulrC.
Qed.
Theorem C72_euler_Q q k x : md_Q (dm_md (kmodel (euler m) c q)) k x = sde_Q (euler_g (ct_of q) dt k x^T).
Proof.
have [_ NG _] := NK.
apply/matrixP => i j; rewrite !mxE /egram eval_osum; apply: eq_bigr => l _.
by rewrite !mxE /euler_eg !evM !eval_at // trmxK !sdtE !evM dtE kE ![_ * Num.sqrt _]mulrC.
Qed.

Lemma as15_L0fE q k x i : eval (kenv c q k x) (as15_eL0f m i) = as15_L0f (ct_of q) (dt * k%:R) x^T i 0 :> RF.
Proof.
have [NF NG _] := NK.
rewrite /as15_eL0f /as15_L0f !evD !eval_osum !mxE trmxK; congr (_ + _ + _).
- by rewrite eval_at ?mentions_ddir.
- by apply: eq_bigr => p _; rewrite evM !eval_at ?mentions_ddir // !mxE trmxK.
- apply: eq_bigr => j _; rewrite eval_osum; apply: eq_bigr => p _; rewrite eval_osum; apply: eq_bigr => r _.
  by rewrite !evM !eval_at ?mentions_ddir // !mxE trmxK.
Qed.
Theorem C72_as15_f q k x : md_f (dm_md (kmodel (as15 m) c q)) k x = (as15_f (ct_of q) dt k x^T)^T.
Proof.
have [NF _ _] := NK.
apply/rowP => j; have := as15_L0fE q k x j; rewrite /as15_f; move: (as15_L0f _ _ _) => L EL.
rewrite !mxE /as15_ef !evD xE !evM eval_at // trmxK EL !evM dtE kE halfE; congr (_ + _).
by move: (eval _ _ : RF) (L _ _ : RF) (2%:R^-1 : RF) => a b h; mc_norm RC; ring.
Qed.
Lemma as15_LfE q k x i l : eval (kenv c q k x) (as15_eLf m i l) = ((ct_df_dx (ct_of q) (dt * k%:R) x^T)^T *m ct_g (ct_of q) (dt * k%:R) x^T) i l :> RF.
Proof.
have [NF NG _] := NK.
rewrite /as15_eLf eval_osum mxE; apply: eq_bigr => p _.
by rewrite evM !eval_at ?mentions_ddir // !mxE trmxK.
Qed.
Theorem C72_as15_Q q k x : md_Q (dm_md (kmodel (as15 m) c q)) k x = sde_Q (as15_g (ct_of q) dt k x^T).
Proof.
have [_ NG _] := NK.
have gE i l : eval (kenv c q k x) (as15_eg m i l) = as15_g (ct_of q) dt k x^T i l.
  have := as15_LfE q k x; rewrite /as15_eg /as15_g; move: (_^T *m _) => L EL.
  rewrite mxE; case: (split l) => l'.
    rewrite evD !evM EL sdtE dtE halfE eval_at // !evM dtE kE !mxE trmxK.
    by move: (eval _ _ : RF) (L _ _ : RF) (2%:R^-1 : RF) (Num.sqrt _ : RF) => a b h s; mc_norm RC; ring.
  rewrite !evM EL sdtE dtE halfE s3E !mxE.
  by move: (L _ _ : RF) (2%:R^-1 : RF) (Num.sqrt dt : RF) ((Num.sqrt _)^-1 : RF) => b h s r; mc_norm RC; ring.
apply/matrixP => i j; rewrite [LHS]mxE [RHS]mxE /egram eval_osum; apply: eq_bigr => l _.
by rewrite [(_^T) _ _]mxE -!gE.
Qed.

(** Where the continuous-time model is smooth. *)
Definition ct_smooth (q : 'rV[RF]_nq) (t : R) (x : 'rV[RF]_nx) : Prop :=
  (forall i, dom (cenv q t x) (ce_f m i)) /\ (forall i l, dom (cenv q t x) (ce_g m i l)).
Definition ct_regions (q : 'rV[RF]_nq) : regions nx :=
  Regions (fun k x => ct_smooth q (dt * k%:R) x) (fun k x => ct_smooth q (dt * k%:R) x)
    (fun k x => forall i, dom (cenv q (dt * k%:R) x) (ce_h m i)).
Definition ct_params (q : 'rV[RF]_nq) : Prop :=
  [/\ forall i j, dom (penv c q) (ce_R m i j), forall j, dom (penv c q) (ce_x0 m j) & forall i j, dom (penv c q) (ce_P0 m i j)].

Lemma dom_dtk (q : 'rV[RF]_nq) k (x : 'rV[RF]_nx) e : mentions "k" e = false ->
  dom (cenv q (dt * k%:R) x) e -> dom (kenv c q k x) (at_time (Mul edt ek) e).
Proof. by move=> H D; apply: dom_at. Qed.
Lemma dom_sdt (q : 'rV[RF]_nq) k (x : 'rV[RF]_nx) : dom (kenv c q k x) (Un Sqrt edt).
Proof. by split=> //; exact/RltP. Qed.

Lemma ct_in_f s q k x : ct_smooth q (dt * k%:R) x -> forall j, dom (kenv c q k x) (ke_f (discretize m s) j).
Proof.
have [NF NG _] := NK; move=> [Df Dg] j.
have DF i : dom (kenv c q k x) (at_time (Mul edt ek) (ce_f m i)) by exact: dom_dtk.
have DG i l : dom (kenv c q k x) (at_time (Mul edt ek) (ce_g m i l)) by exact: dom_dtk.
have DD D i : dom (kenv c q k x) (at_time (Mul edt ek) (ddir D (ce_f m i))) by apply: dom_dtk; [exact: mentions_ddir | exact: dom_ddir].
have DDD D E i : dom (kenv c q k x) (at_time (Mul edt ek) (ddir D (ddir E (ce_f m i)))) by apply: dom_dtk; [do 2 apply: mentions_ddir | do 2 apply: dom_ddir].
have L0 : dom (kenv c q k x) (as15_eL0f m j).
  split; first by split; [exact: DD | apply: dom_osum => i; split; [exact: DD | exact: DF]].
  by apply: dom_osum => p; apply: dom_osum => r; apply: dom_osum => i; split; [split; [split|] | exact: DDD].
case: s.
  by split; [split; [exact: DF|]|].
by split; [split; [split; [exact: DF|] | split; [split|]]|].
Qed.
Lemma ct_in_Q s q k x : ct_smooth q (dt * k%:R) x -> forall i j, dom (kenv c q k x) (ke_Q (discretize m s) i j).
Proof.
have [NF NG _] := NK; move=> [Df Dg] i j.
have DF i' : dom (kenv c q k x) (at_time (Mul edt ek) (ce_f m i')) by exact: dom_dtk.
have DG i' l : dom (kenv c q k x) (at_time (Mul edt ek) (ce_g m i' l)) by exact: dom_dtk.
have DD D i' : dom (kenv c q k x) (at_time (Mul edt ek) (ddir D (ce_f m i'))) by apply: dom_dtk; [exact: mentions_ddir | exact: dom_ddir].
have S := dom_sdt q k x.
case: s; apply: dom_gram => i' l; first by split.
have DL l' : dom (kenv c q k x) (as15_eLf m i' l') by apply: dom_osum => p; split; [exact: DD | exact: DG].
rewrite /as15_eg; case: (split l) => l'.
  by split; [split; [exact: DG|] | split; split].
have D3 : dom (kenv c q k x) (Un Inv (Un Sqrt (Cst 3))).
  by split; [split=> //=; lra | apply: Rgt_not_eq; apply: sqrt_lt_R0; lra].
by split; [split; [split|split] |].
Qed.
Lemma ct_in_h s q k x : (forall i, dom (cenv q (dt * k%:R) x) (ce_h m i)) -> forall i, dom (kenv c q k x) (ke_h (discretize m s) i).
Proof.
have [_ _ NH] := NK; move=> D i.
have -> : ke_h (discretize m s) i = sde_eh m i by case: s.
by apply: dom_at => //; rewrite evM dtE kE mulrC.
Qed.

(** The derivatives in the continuous-time model are derivatives, so what
    C50 says of the schemes holds of the expressions. *)
Definition cdir (tau : RF) (x' : 'cV[RF]_nx) : env := fun w i =>
  if String.eqb w "t" then (if i is 0 then tau else 0) else if String.eqb w "x" then elem x'^T i else 0.
Lemma ddir_c tau x' v e : eval v (ddir (cdir tau x') e) = tau * eval v (dif "t" 0 e) + \sum_i x' i 0 * eval v (dif "x" (nat_of_ord i) e).
Proof.
rewrite -[X in _ + X]ddir_big; apply: etrans (ddir_lin _ _ _ v e); apply: ddir_ext => w i; rewrite /cdir -[RHS]/(_ * _ + _ : RF).
case: String.eqb_spec => [->|nt].
  rewrite big1 => [|j _]; last by rewrite [X in _ * X]/= mulr0.
  by rewrite addr0 /unit_dir; case: i => [|i] /=; rewrite ?mulr1 ?mulr0.
have -> : unit_dir "t" 0 w i = 0 by rewrite /unit_dir; case: String.eqb_spec => // E; case: nt.
rewrite mulr0 add0r; case: String.eqb_spec => [->|nx'].
  by rewrite (elem_sum _ "x"); apply: eq_bigr => j _; rewrite mxE.
rewrite big1 // => j _; rewrite /unit_dir; case: String.eqb_spec => [E|_]; last by rewrite mulr0.
by case: nx'.
Qed.
Lemma cenv_deriv q (ti : R -> RF) s tau x x' w i : sderiv ti s tau -> mderiv x s x' -> sderiv (fun r => cenv q (ti r) (x r)^T w i) s (cdir tau x' w i).
Proof.
move=> Ht Hx; rewrite /cenv /cdir; case: (String.eqb w "t").
  by case: i => [|i]; [exact: Ht | exact: sderiv_const].
case: (String.eqb w "x"); first by apply: elem_deriv => a b; rewrite mxE; apply: sderiv_ext (Hx b a) => r; rewrite mxE.
by case: (String.eqb w "q"); exact: sderiv_const.
Qed.
Lemma eval_cderiv q (ti : R -> RF) s tau x x' e : (forall t y, dom (cenv q t y) e) -> sderiv ti s tau -> mderiv x s x' ->
  sderiv (fun r => eval (cenv q (ti r) (x r)^T) e) s
    (tau * eval (cenv q (ti s) (x s)^T) (dif "t" 0 e) + \sum_i x' i 0 * eval (cenv q (ti s) (x s)^T) (dif "x" (nat_of_ord i) e)).
Proof.
move=> D Ht Hx; rewrite -ddir_c; apply: (@eval_curve (fun r => cenv q (ti r) (x r)^T)) => // w i; exact: cenv_deriv.
Qed.
Theorem C72_derivatives q : (forall t x i, dom (cenv q t x) (ce_f m i)) -> ct_diff (ct_of q).
Proof.
move=> D; split=> [t x x' Hx|t s x x' Hx|t s x x' Hx] i j.
- apply: (sderiv_ext (f := fun r => eval (cenv q r (x r)^T) (ce_f m i))) => [r|]; first by rewrite mxE.
  apply: sderiv_eq (eval_cderiv (fun t y => D t y i) (sderiv_id t) Hx) _; rewrite !mxE mul1r; congr (_ + _).
  by apply: eq_bigr => l _; rewrite !mxE mulrC (ord1 j).
- apply: (sderiv_ext (f := fun r => eval (cenv q t (x r)^T) (ce_f m i))) => [r|]; first by rewrite mxE.
  apply: sderiv_eq (eval_cderiv (fun t y => D t y i) (sderiv_const t s) Hx) _; rewrite !mxE mul0r add0r.
  by apply: eq_bigr => l _; rewrite !mxE mulrC (ord1 j).
- apply: (sderiv_ext (f := fun r => eval (cenv q t (x r)^T) (dif "x" i (ce_f m j)))) => [r|]; first by rewrite mxE.
  apply: sderiv_eq (eval_cderiv (e := dif "x" i (ce_f m j)) _ (sderiv_const t s) Hx) _; first by move=> t' y; exact/dom_ddir/D.
  by rewrite !mxE mul0r add0r; apply: eq_bigr => l _; rewrite !mxE.
Qed.

(** The filter of the discretised model. *)
Variables (s : scheme) (kp kc : RF) (k : nat) (ys : seq (meas RF ny)).
Notation dmod := (@kmodel nx ny nq (discretize m s) c).
Notation dst := (kstart nq (discretize m s) c).
Hypotheses (SR : esym (ce_R m)) (SP : esym (ce_P0 m)).

(** The run at [q] evaluates the stochastic differential equation where its
    expressions are smooth. *)
Definition ct_run (q : 'rV[RF]_nq) : Prop := regular dmod ct_regions ct_params dst kp kc k ys q.

Lemma ct_run_smooth q : ct_run q -> smooth_run (discretize m s) c kp kc k ys q.
Proof.
move=> [P S]; split; first by move: P; case: (s).
by apply: stays_sub S => k' x; [exact: ct_in_f | exact: ct_in_Q | exact: ct_in_h].
Qed.
Lemma disc_sym : [/\ esym (ke_Q (discretize m s)), esym (ke_R (discretize m s)) & esym (ke_P0 (discretize m s))].
Proof. by case: (s); split=> //; exact: esym_gram. Qed.

Theorem C72_gradient q g : ct_run q -> gradient dmod dst kp kc k ys q = Ok g ->
  forall a, partial (merit dmod dst kp kc k ys) q a (g a).
Proof. by move=> /ct_run_smooth S E; have [S1 S2 S3] := disc_sym; exact: (C71_gradient S1 S2 S3 S E). Qed.
Theorem C72_hessian q h : ct_run q -> hessian dmod dst kp kc k ys q = Ok h -> forall a b, exists G : R -> RF,
  near (0 : RF) (fun r => partial (merit dmod dst kp kc k ys) (q + (r : RF) *: delta_mx 0 a) b (G r)) /\ sderiv G (0 : RF) (h a b).
Proof. by move=> /ct_run_smooth S E; have [S1 S2 S3] := disc_sym; exact: (C71_hessian S1 S2 S3 S E). Qed.
Theorem C72_total q : (exists l, merit dmod dst kp kc k ys q = Ok l)
  <-> (exists g h, gradient dmod dst kp kc k ys q = Ok g /\ hessian dmod dst kp kc k ys q = Ok h).
Proof. by have [S1 S2 S3] := disc_sym; exact: C71_total. Qed.

End C72.

(** * The Duffing oscillator of examples/duffing_old.py *)

Section Duffing.
Definition neg (e : expr) : expr := Mul (Cst (-1)) e.
Definition par (i : nat) : expr := Var "q" i.   (* alpha, beta, delta, g2, x_meas_std, x0, v0 *)
Definition con (i : nat) : expr := Var "c" i.   (* gamma, omega, x0_std, v0_std *)
Definition sq (e : expr) : expr := Mul e e.
Definition vec2 (a b : expr) (i : 'I_2) : expr := if (i : nat) is 0 then a else b.

(** examples/duffing_old.py:39-70 [f, g, h, R, x0, Px0]. *)
Definition duffing : cexpr 2 2 1 :=
  let x := Var "x" 0 in let v := Var "x" 1 in
  CExpr
    (vec2 v (Add (Add (Add (neg (Mul (par 2) v)) (neg (Mul (par 1) x))) (neg (Mul (par 0) (Mul x (Mul x x)))))
                 (Mul (con 0) (Un Cos (Mul (Var "t" 0) (con 1))))))
    (fun i => vec2 (Cst 0) (vec2 (Cst 0) (par 3) i))
    (fun _ => x) (fun _ _ => sq (par 4))
    (vec2 (par 5) (par 6))
    (fun i j => if i == j then sq (vec2 (con 2) (con 3) i) else Cst 0).

(** Constants of examples/duffing_old.py:120-130. *)
Variable c : env.
Notation dt := (c "dt" 0%N : RF).
Hypotheses (dt0 : 0 < dt) (s0 : (c "c" 2%N : RF) != 0) (s1 : (c "c" 3%N : RF) != 0).

Lemma duffing_no_k : no_k duffing.
Proof. by split=> [[[|[|]] //]|[[|[|]] //] ? [[|[|]] //]|i]. Qed.
Lemma duffing_syms : esym (ce_R duffing) /\ esym (ce_P0 duffing).
Proof. by split=> v i j //=; case: (eqVneq i j) => [->|n]; rewrite ?eqxx // eq_sym (negbTE n). Qed.
Lemma duffing_dom v : [/\ forall i, dom v (ce_f duffing i), forall i l, dom v (ce_g duffing i l), forall i, dom v (ce_h duffing i),
  forall i j, dom v (ce_R duffing i j) & (forall i, dom v (ce_x0 duffing i)) /\ forall i j, dom v (ce_P0 duffing i j)].
Proof.
split=> [[[|[|]] //= _]|[[|[|]] //= _] [[|[|]] //=]|i //|i j //|]; do !split=> //; first by case=> -[|[|]].
by move=> i j /=; case: (i == j) => //; case: i => -[|[|]].
Qed.

(** It is smooth everywhere, so the gradient and the Hessian are exact for
    all parameters and data, and with a positive measurement deviation and
    diffusion they exist. *)
Lemma duffing_run s kp kc k ys (q : 'rV[RF]_7) : ct_run duffing c s kp kc k ys q.
Proof.
split.
  by have [_ _ _ HR [Hx HP]] := duffing_dom (penv c q).
elim: ys (FS _ _ _) => [//|y ys IH] st; split=> [_ z _|s1' c' _ _] /=.
  by have [] := duffing_dom (cenv c q (dt * (fs_k st)%:R) z).
split=> [z _||s2 P _]; last exact: IH.
  by have [] := duffing_dom (cenv c q (dt * (fs_k s1')%:R) z).
by have [] := duffing_dom (cenv c q (dt * (fs_k s1')%:R) (fs_x s1')).
Qed.

Lemma duffing_pd (q : 'rV[RF]_7) k x : q 0 (inord 3) != 0 -> pd (md_Q (dm_md (kmodel (discretize duffing AS15) c q)) k x).
Proof.
move=> g0; have E3 : elem q 3 = q 0 (inord 3) by rewrite -elem_ord inordK.
rewrite [discretize _ _]/(as15 duffing) (C72_as15_Q duffing_no_k dt0); apply: pd_gram; apply/(C69_as15_rank _ _ _ dt0).
move=> v vG vL.
have v1 : v 0 1 = 0.
  move/rowP: vG => /(_ 1); rewrite mxE big_ord_recr big_ord1 /= !mxE /= mulr0 add0r.
  have -> : ord_max = 1 :> 'I_2 by apply: val_inj.
  by rewrite /cenv /= E3 => /eqP; rewrite mulf_eq0 (negbTE g0) orbF => /eqP.
have v0 : v 0 0 = 0.
  move/rowP: vL => /(_ 1); rewrite mxE big_ord_recr big_ord1 /=.
  have -> : ord_max = 1 :> 'I_2 by apply: val_inj.
  rewrite v1 mul0r addr0 mxE big_ord_recr big_ord1 /= !mxE /=.
  rewrite mulr0 add0r [unit_dir _ _ _ _]/= mul1r /cenv /= E3 => /eqP; rewrite mulf_eq0 (negbTE g0) orbF => /eqP <-.
  by congr (v 0 _); apply: val_inj.
by apply/rowP => j; rewrite mxE; case: j => -[|[|//]] p; [rewrite -[RHS]v0 | rewrite -[RHS]v1]; congr (v 0 _); apply: val_inj.
Qed.

(** For every noise intensity and measurement deviation but zero, the
    gradient and the Hessian of the example exist and are exact. *)
Example duffing_exact (q : 'rV[RF]_7) (ys : seq (meas RF 1)) (dm := kmodel (discretize duffing AS15) c) (st := kstart 7 (discretize duffing AS15) c) :
  q 0 (inord 3) != 0 -> q 0 (inord 4) != 0 ->
  exists g h, [/\ gradient dm st 1 1 0 ys q = Ok g, hessian dm st 1 1 0 ys q = Ok h &
    (forall a, partial (merit dm st 1 1 0 ys) q a (g a)) /\
    forall a b, exists G : R -> RF, near (0 : RF) (fun r => partial (merit dm st 1 1 0 ys) (q + (r : RF) *: delta_mx 0 a) b (G r)) /\ sderiv G (0 : RF) (h a b)].
Proof.
move=> g0 r0; have [SR SP] := duffing_syms.
have pdR : pd (md_R (dm_md (dm q))).
  split=> [|v nv]; first by apply/matrixP => i j; rewrite !mxE.
  have -> : md_R (dm_md (dm q)) = (elem q 4 ^+ 2)%:M.
    by apply/matrixP => i j; rewrite !ord1 !mxE eqxx mulr1n expr2.
  rewrite /qf mul_mx_scalar -scalemxAl mxE mulr_gt0 //.
    have -> : elem q 4 = q 0 (inord 4) by rewrite -elem_ord inordK.
    by rewrite exprn_even_gt0.
  by have [_ /(_ _ nv)] := pd1 RF 1; rewrite /qf mulmx1.
have pdP : pd (i_P st q).
  pose d : 'rV[RF]_2 := \row_j (if (j : nat) is 0 then (c "c" 2%N : RF) else c "c" 3%N).
  have -> : i_P st q = sde_Q (diag_mx d).
    rewrite /sde_Q tr_diag_mx mulmx_diag; apply/matrixP => i j; rewrite !mxE /=; case: (eqVneq i j) => [->|n] //=.
    by rewrite mulr1n; case: j => -[|[|//]].
  apply: pd_gram; rewrite row_free_unit unitmxE det_diag unitfE; apply/prodf_neq0 => j _.
  by rewrite mxE; case: j => -[|[|//]].
have [l _ E] := @C42_total 2 1 (dm_md (dm q)) 1 1 (@chol RF 2) (@chol RF 2) (FS 0 (i_x st q) (i_P st q)) (i_L st q) ys
  ler01 (ltr_paddl (ler0n _ _) ltr01) (@chol_is_root RF 2) ler01 (ltr_paddl (ler0n _ _) ltr01) (@chol_is_root RF 2) pdP (fun k x => duffing_pd k x g0) pdR.
have [g [h [Eg Eh]]] := proj1 (C72_total c AS15 1 1 0 ys SR SP q) (ex_intro _ _ E).
exists g, h; split=> //; split; last exact: (C72_hessian duffing_no_k dt0 SR SP (duffing_run AS15 1 1 0 ys q) Eh).
exact: (C72_gradient duffing_no_k dt0 SR SP (duffing_run AS15 1 1 0 ys q) Eg).
Qed.
End Duffing.
