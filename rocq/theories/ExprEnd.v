(** C70: collocation problems whose models are written as expressions; the
    symbolic model and the correctness of its derivatives. *)
From Coq Require Import String List ZArith Bool Arith Lia Reals Lra.
From Coquelicot Require Import Coquelicot.
From Verif Require Import Py NdArray OptimModel ColModel DictLemmas Builder BuilderLemmas NdLemmas OptimSpec OptimLaws LawFacts LayoutLemmas
  ProblemSpec ProblemLemmas ProblemFacts DerivSpec CalcLemmas IndexLemmas GenModel GenSpec GenLemmas GenDeriv
  SymModel NameLemmas PropsNames SymLemmas SymDeriv PropsGen PropsSym RegModel RegLemmas
  ColLemmas ColBuild ColLaws AssemblyLemmas GradLemmas ColCalls PropsCol ColValues PropsProblem EndToEnd PropsEnd PropsEndEst
  Expr ExprSym ExprModel.
Import ListNotations.
Local Open Scope string_scope.
Local Open Scope list_scope.
Local Open Scope nat_scope.

Lemma rows_nth {T} (d : T) (f : nat -> nat -> T) s k w j c : j < k -> c < w -> nth (j * w + c) (rows f (seq s k) w) d = f (s + j) c.
Proof.
  revert s j. induction k as [|k IH]; intros s j Hj Hc; [lia|].
  change (rows f (seq s (S k)) w) with (map (f s) (seq 0 w) ++ rows f (seq (S s) k) w).
  assert (LM : length (map (f s) (seq 0 w)) = w) by now rewrite map_length, seq_length. destruct j as [|j].
  - rewrite app_nth1 by lia. rewrite nth_map_d with (a := 0) by now rewrite seq_length. rewrite seq_nth, Nat.add_0_r by auto. reflexivity.
  - rewrite app_nth2 by nia. rewrite LM. replace (S j * w + c - w) with (j * w + c) by lia. rewrite IH by lia. f_equal. lia.
Qed.
Lemma rows_length {T} (f : nat -> nat -> T) l w : length (rows f l w) = length l * w.
Proof. unfold rows. induction l as [|a l IH]; cbn; [reflexivity|]. rewrite app_length, map_length, seq_length, IH. lia. Qed.

(** Domain of expressions in the state, input and parameters. *)
Definition smooth_at (es : list expr) (x u p : list R) : Prop := List.Forall (dom (arg_env ["x"; "u"; "p"] [x; u; p])) es.

Section Point.
  Variable m : colmodel R.
  Notation n := (col_n (m_col m)).
  Notation nx := (m_nx m).
  Notation nu := (m_nu m).
  Notation size := (fun w => prodn (base_shape m w)).
  Variables (args : list string) (a : string -> list R) (s : nat) (X U : nat -> nat -> R).
  Hypothesis NA : NoDup args.
  Hypothesis HA : incl ["xp"; "up"; "p"; "piece_len"] args.
  Hypothesis Exp : a "xp" = rows X (seq s n) nx.
  Hypothesis Eup : a "up" = rows U (seq s n) nu.
  Notation v := (arg_env args (map a args)).
  Notation xv i := (map (X i) (seq 0 nx)).
  Notation uv i := (map (U i) (seq 0 nu)).

  Lemma point_env j w i : j < n -> In w ["x"; "u"; "p"] -> i < size w ->
    eval v (at_row nx nu j w i) = arg_env ["x"; "u"; "p"] [xv (s + j); uv (s + j); a "p"] w i.
  Proof.
    intros Hj Hw Hi. cbn [In] in Hw. unfold at_row.
    destruct Hw as [<-|[<-|[<-|[]]]]; cbn [String.eqb Ascii.eqb Bool.eqb eval]; rewrite arg_env_map by (auto; apply HA; cbn; auto);
      unfold arg_env; cbn [combine dget String.eqb Ascii.eqb Bool.eqb]; cbn [base_shape String.eqb Ascii.eqb Bool.eqb] in Hi; rewrite ?prodn1 in Hi.
    - rewrite Exp, rows_nth by auto. rewrite nth_map_d with (a := 0) by now rewrite seq_length. now rewrite seq_nth.
    - rewrite Eup, rows_nth by auto. rewrite nth_map_d with (a := 0) by now rewrite seq_length. now rewrite seq_nth.
    - reflexivity.
  Qed.
  Lemma point_dom j es : j < n -> List.Forall (scoped size ["x"; "u"; "p"]) es -> smooth_at es (xv (s + j)) (uv (s + j)) (a "p") ->
    List.Forall (dom (fun w i => eval v (at_row nx nu j w i))) es.
  Proof.
    intros Hj HS HD. apply List.Forall_forall. intros e He. pose proof (proj1 (List.Forall_forall _ _) HS e He) as S1. pose proof (proj1 (List.Forall_forall _ _) HD e He) as D1.
    apply (dom_scoped size ["x"; "u"; "p"]) with (v := arg_env ["x"; "u"; "p"] [xv (s + j); uv (s + j); a "p"]); auto.
    intros w i Hw Hi. symmetry. now apply point_env.
  Qed.
End Point.

(** *** Optimal control models as expressions *)
(** The functions a user of symoc.Model writes; f and L take (x, u, p)
    (symcol.py:74, symoc.py:42), the other ones name their arguments. *)
Record ocexpr := OcExpr {
  xo_f : list expr; xo_L : expr;
  xo_M : expr; xo_Margs : list string;
  xo_g : list expr; xo_gargs : list string;
  xo_h : list expr; xo_hargs : list string
}.
(** symoc.py:48-62, the defaults. *)
Definition oc_default (f : list expr) : ocexpr := OcExpr f (Cst 0) (Cst 0) ["xe"; "p"] [] ["x"; "u"; "p"] [] ["xe"; "p"].

Section OcExpr.
  Variable m : colmodel R.
  Variable t : list R.
  (** Matrices of the collocation method. *)
  Variables (J : list (list R)) (Kw : list R).
  Variable X : ocexpr.
  Notation K := (npieces t).
  Notation N := (npoints m t).
  Notation n := (col_n (m_col m)).
  Notation nx := (m_nx m).
  Notation nu := (m_nu m).
  Notation shp := (base_shape m).
  Notation size := (fun w => prodn (base_shape m w)).
  Notation pargs := ["xp"; "up"; "p"; "piece_len"].

  (** The symbolic functions of the model; "e" and "IL" are inherited. *)
  Definition oc_sfun (name : string) : sfun R :=
    if String.eqb name "e" then sym_fun size pargs [n - 1; nx] (e_expr n nx nu J (xo_f X)) else
    if String.eqb name "IL" then sym_fun size pargs [] [IL_expr n nx nu Kw (xo_L X)] else
    if String.eqb name "M" then sym_fun size (xo_Margs X) [] [xo_M X] else
    if String.eqb name "g" then sym_fun size (xo_gargs X) [m_ng m] (xo_g X) else
    sym_fun size (xo_hargs X) [m_nh m] (xo_h X).

  (** *** Specification: a symbolic model with these functions *)
  Record expr_oc (sm : smodel R) (W : string -> list string) : Prop := {
    eo_dec : forall w, In w (m_dec sm) <-> In w symoc_decision;
    eo_vars : forall w, In w oc_names -> dget String.eqb (m_vars sm) w = Some (shp w);
    eo_fun : forall f, In f ["e"; "IL"; "M"; "g"; "h"] -> dget String.eqb (m_fun sm) f = Some (oc_sfun f);
    eo_W : forall f, In f ["e"; "IL"; "M"; "g"; "h"] ->
      NoDup (W f) /\ forall w, In w (W f) <-> In w (sf_args (oc_sfun f)) /\ In w symoc_decision;
    (* every function has its declared number of elements, and uses its
       arguments only *)
    eo_nf : length (xo_f X) = nx; eo_ng : length (xo_g X) = m_ng m; eo_nh : length (xo_h X) = m_nh m;
    eo_f : List.Forall (scoped size ["x"; "u"; "p"]) (xo_f X);
    eo_L : scoped size ["x"; "u"; "p"] (xo_L X);
    eo_M : scoped size (xo_Margs X) (xo_M X);
    eo_g : List.Forall (scoped size (xo_gargs X)) (xo_g X);
    eo_h : List.Forall (scoped size (xo_hargs X)) (xo_h X);
    eo_Ma : NoDup (xo_Margs X) /\ incl (xo_Margs X) ["xe"; "p"];
    eo_ha : NoDup (xo_hargs X) /\ incl (xo_hargs X) ["xe"; "p"];
    eo_ga : NoDup (xo_gargs X) /\ incl (xo_gargs X) ["x"; "u"; "p"] /\ exists w, In w (xo_gargs X) /\ In w ["x"; "u"]
  }.

  Section Model.
  Variables (sm : smodel R) (W : string -> list string).
  Hypothesis EO : expr_oc sm W.
  Hypothesis n2 : 2 <= n.

  Lemma pargs_nodup : NoDup pargs.
  Proof. repeat constructor; cbn; intuition discriminate. Qed.

  Lemma oc_sfun_swf f : In f ["e"; "IL"; "M"; "g"; "h"] -> swf shp (oc_sfun f) (W f).
  Proof.
    intros Hf. destruct (eo_W _ _ EO f Hf) as [NW HW].
    assert (WA : incl (W f) (sf_args (oc_sfun f))) by (intros w Hw; now apply HW in Hw).
    cbn [In] in Hf. destruct Hf as [<-|[<-|[<-|[<-|[<-|[]]]]]]; cbn [oc_sfun String.eqb Ascii.eqb Bool.eqb sym_fun sf_args] in *; apply sym_fun_swf; auto.
    - apply pargs_nodup.
    - unfold e_expr. rewrite length_defects. now rewrite prodn2.
    - apply pargs_nodup.
    - apply (eo_Ma _ _ EO).
    - apply (eo_ga _ _ EO).
    - rewrite (eo_ng _ _ EO). now rewrite prodn1.
    - apply (eo_ha _ _ EO).
    - rewrite (eo_nh _ _ EO). now rewrite prodn1.
  Qed.

  Lemma expr_symoc : symoc_model m sm oc_sfun W.
  Proof.
    assert (AI : forall f w, In f ["e"; "IL"; "M"; "g"; "h"] -> In w (sf_args (oc_sfun f)) \/ In w (m_dec sm) -> In w oc_names).
    { intros f w Hf [Hw|Hw].
      - cbn [In] in Hf. destruct Hf as [<-|[<-|[<-|[<-|[<-|[]]]]]]; cbn [oc_sfun String.eqb Ascii.eqb Bool.eqb sym_fun sf_args] in Hw.
        + cbn in Hw |- *. tauto.
        + cbn in Hw |- *. tauto.
        + apply (eo_Ma _ _ EO) in Hw. cbn in Hw |- *. tauto.
        + apply (eo_ga _ _ EO) in Hw. cbn in Hw |- *. tauto.
        + apply (eo_ha _ _ EO) in Hw. cbn in Hw |- *. tauto.
      - apply (eo_dec _ _ EO) in Hw. cbn in Hw |- *. tauto. }
    constructor; try reflexivity; cbn [oc_sfun String.eqb Ascii.eqb Bool.eqb sym_fun sf_args sf_out].
    - apply (eo_dec _ _ EO).
    - intros f Hf. constructor.
      + now apply (eo_fun _ _ EO).
      + intros w Hw. apply (eo_vars _ _ EO). eapply AI; eauto.
      + intros w. rewrite (eo_dec _ _ EO w). now apply (eo_W _ _ EO).
      + now apply oc_sfun_swf.
    - apply incl_refl.
    - apply incl_refl.
    - apply (eo_Ma _ _ EO).
    - apply (eo_ga _ _ EO).
    - apply (eo_ha _ _ EO).
    - exists "xp". cbn. auto.
    - exists "xp". cbn. auto.
    - apply (eo_ga _ _ EO).
  Qed.

  (** *** Specification: where the functions are smooth *)
  Definition oc_smooth (dvec : list R) : Prop :=
    (forall i, i < N -> smooth_at (xo_L X :: xo_f X) (oc_arg m t dvec i "x") (oc_arg m t dvec i "u") (oc_arg m t dvec i "p")) /\
    (forall i, i < N -> List.Forall (dom (arg_env (xo_gargs X) (map (oc_arg m t dvec i) (xo_gargs X)))) (xo_g X)) /\
    dom (arg_env (xo_Margs X) (map (oc_arg m t dvec 0) (xo_Margs X))) (xo_M X) /\
    List.Forall (dom (arg_env (xo_hargs X) (map (oc_arg m t dvec 0) (xo_hargs X)))) (xo_h X).

  Lemma oc_arg_length dvec e w : In w oc_names -> length (oc_arg m t dvec e w) = size w.
  Proof.
    intros Hw. cbn in Hw. destruct Hw as [<-|[<-|[<-|[<-|[<-|[<-|[<-|[]]]]]]]]; unfold oc_arg; cbn [String.eqb Ascii.eqb Bool.eqb base_shape];
      rewrite ?map_length, ?rows_length, ?seq_length, ?prodn1, ?prodn2; auto.
  Qed.

  Lemma oc_smooth_right dvec : oc_smooth dvec -> oc_sym_right m t oc_sfun W dvec.
  Proof.
    intros (S1 & S2 & S3 & S4). unfold oc_sym_right.
    assert (WI : forall f, In f ["e"; "IL"; "M"; "g"; "h"] -> NoDup (W f) /\ incl (W f) (sf_args (oc_sfun f))).
    { intros f Hf. destruct (eo_W _ _ EO f Hf) as [NW HW]. split; auto. intros w Hw. now apply HW in Hw. }
    assert (HP : incl pargs pargs) by apply incl_refl.
    assert (PL : forall k w, In w pargs -> length (oc_arg m t dvec k w) = size w) by (intros k w Hw; apply oc_arg_length; cbn in Hw |- *; tauto).
    assert (PD : forall k j, k < K -> j < n -> List.Forall (dom (fun w i => eval (arg_env pargs (map (oc_arg m t dvec k) pargs)) (at_row nx nu j w i))) (xo_L X :: xo_f X)).
    { intros k j Hk Hj. apply (point_dom m pargs (oc_arg m t dvec k) (k * (n - 1)) (oc_x m dvec) (oc_u m t dvec)); auto using pargs_nodup.
      - apply List.Forall_cons; [apply (eo_L _ _ EO)|apply (eo_f _ _ EO)].
      - apply (S1 (k * (n - 1) + j)). unfold npoints. assert ((k + 1) * (n - 1) <= K * (n - 1)) by (apply Nat.mul_le_mono_r; lia). nia. }
    assert (Szs : size "x" = nx /\ size "u" = nu /\ size "xp" = n * nx /\ size "up" = n * nu /\ size "piece_len" = 1)
      by (cbn [base_shape String.eqb Ascii.eqb Bool.eqb]; rewrite !prodn1, !prodn2; auto).
    destruct Szs as (Z1 & Z2 & Z3 & Z4 & Z5).
    split; [|split].
    - intros f k Hf Hk. destruct Hf as [<-|[<-|[]]].
      + destruct (WI "e") as [NW WA]; [cbn; auto 9|]. cbn [oc_sfun String.eqb Ascii.eqb Bool.eqb sym_fun sf_args] in WA |- *. apply sym_fun_right; auto using pargs_nodup.
        * unfold e_expr. rewrite length_defects. now rewrite prodn2.
        * apply (scoped_defects n nx nu J size); auto; [lia|]. intros. apply (scoped_drift n nx nu size); auto; [lia|]. apply (eo_f _ _ EO).
        * apply dom_defects. intros j a Hj. apply dom_drift. now apply List.Forall_inv_tail with (1 := PD k j Hk Hj).
      + destruct (WI "IL") as [NW WA]; [cbn; auto 9|]. cbn [oc_sfun String.eqb Ascii.eqb Bool.eqb sym_fun sf_args] in WA |- *. apply sym_fun_right; auto using pargs_nodup.
        * apply List.Forall_cons; [|apply List.Forall_nil]. apply (scoped_IL n nx nu Kw size); auto; [lia|]. apply (eo_L _ _ EO).
        * apply List.Forall_cons; [|apply List.Forall_nil]. apply dom_IL. intros j Hj. now apply List.Forall_inv with (1 := PD k j Hk Hj).
    - intros i Hi. destruct (WI "g") as [NW WA]; [cbn; auto 9|]. cbn [oc_sfun String.eqb Ascii.eqb Bool.eqb sym_fun sf_args] in WA |- *.
      destruct (eo_ga _ _ EO) as (GN & GI & _). apply sym_fun_right; auto.
      + rewrite (eo_ng _ _ EO). now rewrite prodn1.
      + intros w Hw. apply oc_arg_length. apply GI in Hw. cbn in Hw |- *. tauto.
      + apply (eo_g _ _ EO).
    - intros f Hf. destruct Hf as [<-|[<-|[]]].
      + destruct (WI "M") as [NW WA]; [cbn; auto 9|]. cbn [oc_sfun String.eqb Ascii.eqb Bool.eqb sym_fun sf_args] in WA |- *.
        destruct (eo_Ma _ _ EO) as (GN & GI). apply sym_fun_right; auto.
        * intros w Hw. apply oc_arg_length. apply GI in Hw. cbn in Hw |- *. tauto.
        * apply List.Forall_cons; [|apply List.Forall_nil]. apply (eo_M _ _ EO).
      + destruct (WI "h") as [NW WA]; [cbn; auto 9|]. cbn [oc_sfun String.eqb Ascii.eqb Bool.eqb sym_fun sf_args] in WA |- *.
        destruct (eo_ha _ _ EO) as (GN & GI). apply sym_fun_right; auto.
        * rewrite (eo_nh _ _ EO). now rewrite prodn1.
        * intros w Hw. apply oc_arg_length. apply GI in Hw. cbn in Hw |- *. tauto.
        * apply (eo_h _ _ EO).
  Qed.
  End Model.
End OcExpr.

(** The functions generated from a model are the wanted ones. *)
Lemma generated_wanted shp fs sm rs sm' (q : string -> gfun R) : all_apart rs -> (forall r, In r rs -> known_fun shp fs sm r) ->
  register_all sm rs = Ok sm' -> (forall r, In r rs -> generate_reg sm' r = Ok (q (r_name r))) ->
  forall r, In r rs -> q (r_name r) = wanted shp fs sm r.
Proof.
  intros HA HK E1 E2 r Hr. destruct (generate_all_ok shp fs rs sm HA HK) as (sm2 & F1 & F2).
  rewrite F1 in E1. injection E1 as <-. specialize (E2 r Hr). rewrite (F2 r Hr) in E2. congruence.
Qed.

(** The model class generated from a symbolic model: the sizes and constants
    of [m], the generated functions. *)
Definition with_fns (m : colmodel R) (q : string -> gfun R) : colmodel R :=
  ColModel (m_col m) (m_nx m) (m_nu m) (m_np m) (m_ng m) (m_nh m) (m_ny m) (m_nw m)
    (gen_fn (q "e")) (gen_fn (q "IL")) (gen_fn (q "M")) (gen_fn (q "g")) (gen_fn (q "h")) (gen_fn (q "L"))
    (gen_fn (q "tube_L")) (gen_fn (q "penalty")) (m_use_penalty m) (m_penweight m) (m_G m).

Lemma with_grid m q t : good_grid m t -> good_grid (with_fns m q) t.
Proof. intros []. constructor; auto. Qed.
Lemma with_symoc m q sm fs W : symoc_model m sm fs W -> symoc_model (with_fns m q) sm fs W.
Proof. intros []. constructor; auto. Qed.
Lemma with_symest m q jme sm fs W : symest_model m jme sm fs W -> symest_model (with_fns m q) jme sm fs W.
Proof. intros []. constructor; auto. Qed.
Lemma with_data m q t y uv : good_data m t y uv -> good_data (with_fns m q) t y uv.
Proof. intros []. constructor; auto. Qed.

(** The derivatives of an optimal control problem written as expressions are
    exact wherever the expressions are smooth. *)
Lemma oc_expr_derivatives (m : colmodel R) t J Kw X sm W :
  good_grid m t -> oc_small m t -> expr_oc m J Kw X sm W ->
  exists sm' q, register_all sm (symoc_regs W) = Ok sm' /\
    (forall r, In r (symoc_regs W) -> generate_reg sm' r = Ok (q (r_name r))) /\
    (forall r, In r (symoc_regs W) -> q (r_name r) = wanted (base_shape m) (oc_sfun m J Kw X) sm r) /\
    exists p, oc_problem (with_fns m q) t = Ok p /\
      forall dvec, length dvec = ndec p -> oc_smooth m t X dvec -> derivatives_right p dvec.
Proof.
  intros G SM EO. pose proof (gg_n _ _ G) as n2. pose proof (expr_symoc m J Kw X sm W EO) as SO.
  destruct (C67_oc m t sm (oc_sfun m J Kw X) W G SM SO) as (sm' & q & E1 & E2 & _).
  pose proof (generated_wanted (base_shape m) (oc_sfun m J Kw X) sm (symoc_regs W) sm' q (so_apart m sm _ W SO) (so_known m sm _ W SO) E1 E2) as E3.
  set (m' := with_fns m q).
  destruct (C67_oc m' t sm (oc_sfun m J Kw X) W (with_grid m q t G) SM (with_symoc m q sm _ W SO)) as (sm2 & q2 & F1 & F2 & H).
  rewrite E1 in F1. injection F1 as <-.
  assert (EQ : forall r, In r (symoc_regs W) -> q (r_name r) = q2 (r_name r)).
  { intros r Hr. specialize (E2 r Hr). rewrite (F2 r Hr) in E2. congruence. }
  exists sm', q. split; [exact E1|]. split; [exact E2|]. split; [exact E3|].
  destruct H as (p & Ep & HD).
  { unfold oc_uses. cbn [m' with_fns m_e m_IL m_M m_g m_h].
    pose proof (EQ _ (or_introl eq_refl)). pose proof (EQ _ (or_intror (or_introl eq_refl))). pose proof (EQ _ (or_intror (or_intror (or_introl eq_refl)))).
    pose proof (EQ _ (or_intror (or_intror (or_intror (or_introl eq_refl))))). pose proof (EQ _ (or_intror (or_intror (or_intror (or_intror (or_introl eq_refl)))))).
    cbn [r_name] in *. repeat split; congruence. }
  exists p. split; [exact Ep|]. intros dvec HL HS. apply HD; auto. apply (oc_smooth_right m t J Kw X sm W EO n2 dvec HS).
Qed.

(** *** Estimation models as expressions *)
(** The drift f(x, u, p) and the measurement log-likelihood L(y, x, u, p) of
    a symoem.Model or symjme.Model; [xe_om] is the attribute use_om. *)
Record estexpr := EstExpr { xe_f : list expr; xe_L : expr; xe_om : bool }.

Section EstExpr.
  Variable m : colmodel R.
  Variable t : list R.
  Variables (y : list (yrow R)) (uv : arr R).
  Variables (J : list (list R)) (Kw : list R) (JT : list (list R)).
  Variable X : estexpr.
  Notation K := (npieces t).
  Notation N := (npoints m t).
  Notation n := (col_n (m_col m)).
  Notation nx := (m_nx m).
  Notation nu := (m_nu m).
  Notation nw := (m_nw m).
  Notation shp := (base_shape m).
  Notation size := (fun w => prodn (base_shape m w)).
  Notation pargs := ["xp"; "up"; "p"; "piece_len"].
  Notation jargs := ["xp"; "up"; "p"; "piece_len"; "wc"; "G"].

  (** The symbolic functions of the model; "e", "tube_L" and "penalty" are
      inherited. *)
  Definition est_sfun (jme : bool) (name : string) : sfun R :=
    if String.eqb name "e" then
      (if jme then sym_fun size jargs [n - 1; nx] (jme_e_expr n nx nu nw J JT (xe_f X))
       else sym_fun size pargs [n - 1; nx] (e_expr n nx nu J (xe_f X))) else
    if String.eqb name "L" then sym_fun size L_names [] [xe_L X] else
    if String.eqb name "tube_L" then sym_fun size (pargs ++ ["wc"]) [] [tube_expr n nx nu nw Kw JT (xe_om X) (xe_f X)] else
    sym_fun size (jargs ++ ["penweight"]) [] [penalty_expr n nx nu nw J JT (xe_f X)].

  (** *** Specification: a symbolic model with these functions *)
  Definition est_vars (jme : bool) : list string := L_names ++ pargs ++ (if jme then ["wc"; "G"; "penweight"] else []).
  Record expr_est (jme : bool) (sm : smodel R) (W : string -> list string) : Prop := {
    ee_dec : forall w, In w (m_dec sm) <-> In w (est_decision jme);
    ee_vars : forall w, In w (est_vars jme) -> dget String.eqb (m_vars sm) w = Some (shp w);
    ee_fun : forall r, In r (est_regs m jme W) -> dget String.eqb (m_fun sm) (r_name r) = Some (est_sfun jme (r_name r));
    ee_W : forall f, NoDup (W f) /\ forall w, In w (W f) <-> In w (sf_args (est_sfun jme f)) /\ In w (est_decision jme);
    ee_nf : length (xe_f X) = nx;
    ee_f : List.Forall (scoped size ["x"; "u"; "p"]) (xe_f X);
    ee_L : scoped size L_names (xe_L X)
  }.

  Lemma sizes_of_vars : size "x" = nx /\ size "u" = nu /\ size "xp" = n * nx /\ size "up" = n * nu /\ size "piece_len" = 1 /\
    size "wc" = (n - 1) * nw /\ size "G" = nx * nw /\ size "penweight" = nx.
  Proof. cbn [base_shape String.eqb Ascii.eqb Bool.eqb]; rewrite !prodn1, !prodn2; auto 10. Qed.

  Section Model.
  Variables (jme : bool) (sm : smodel R) (W : string -> list string).
  Hypothesis EE : expr_est jme sm W.
  Hypothesis n2 : 2 <= n.

  Lemma est_args_nodup f : NoDup (sf_args (est_sfun jme f)).
  Proof.
    unfold est_sfun. destruct (String.eqb f "e"); [destruct jme|destruct (String.eqb f "L"); [|destruct (String.eqb f "tube_L")]]; cbn;
      repeat constructor; cbn; intuition discriminate.
  Qed.
  Lemma est_args_vars f : jme = true \/ f = "e" \/ f = "L" -> incl (sf_args (est_sfun jme f)) (est_vars jme).
  Proof.
    intros Hf w Hw. unfold est_sfun in Hw. destruct (String.eqb_spec f "e"); [|destruct (String.eqb_spec f "L"); [|destruct Hf as [->|[->| ->]]; try congruence; destruct (String.eqb_spec f "tube_L")]];
      [destruct jme|..]; cbn in Hw |- *; tauto.
  Qed.
  Lemma est_sfun_size f : length (sf_expr (est_sfun jme f)) = prodn (sf_out (est_sfun jme f)).
  Proof.
    unfold est_sfun. destruct (String.eqb f "e"); [destruct jme|destruct (String.eqb f "L"); [|destruct (String.eqb f "tube_L")]]; cbn [sym_fun sf_expr sf_out map length];
      rewrite ?map_length, ?prodn2; auto; apply length_defects.
  Qed.
  Lemma est_sfun_form f : exists out es, est_sfun jme f = sym_fun size (sf_args (est_sfun jme f)) out es.
  Proof. unfold est_sfun. destruct (String.eqb f "e"); [destruct jme|destruct (String.eqb f "L"); [|destruct (String.eqb f "tube_L")]]; cbn [sym_fun sf_args]; eauto. Qed.
  Lemma est_sfun_swf f : swf shp (est_sfun jme f) (W f).
  Proof.
    destruct (ee_W _ _ _ EE f) as [NW HW]. assert (WA : incl (W f) (sf_args (est_sfun jme f))) by (intros w Hw; now apply HW in Hw).
    pose proof (est_args_nodup f) as NA. pose proof (est_sfun_size f) as SZ. destruct (est_sfun_form f) as (out & es & E).
    rewrite E in SZ |- *. cbn [sym_fun sf_expr sf_out] in SZ. rewrite map_length in SZ. now apply sym_fun_swf.
  Qed.

  Lemma expr_symest : symest_model m jme sm (est_sfun jme) W.
  Proof.
    assert (RF : forall r, In r (est_regs m jme W) -> jme = true \/ r_name r = "e" \/ r_name r = "L").
    { intros r Hr. unfold est_regs, symjme_regs, symoem_regs in Hr. destruct jme; [auto|]. cbn in Hr. destruct Hr as [<-|[<-|[]]]; auto. }
    constructor; try reflexivity.
    - apply (ee_dec _ _ _ EE).
    - intros r Hr. constructor.
      + now apply (ee_fun _ _ _ EE).
      + intros w [Hw|Hw].
        * apply (ee_vars _ _ _ EE). eapply est_args_vars; eauto.
        * apply (ee_vars _ _ _ EE). apply (ee_dec _ _ _ EE) in Hw. unfold est_decision, est_vars in *. destruct jme; cbn in Hw |- *; tauto.
      + intros w. rewrite (ee_dec _ _ _ EE w). now apply (ee_W _ _ _ EE).
      + apply est_sfun_swf.
    - cbn. now destruct jme.
    - intros r Hr NL. pose proof (RF r Hr) as Hf. unfold piece_names, e_names, est_sfun.
      destruct (String.eqb_spec (r_name r) "e") as [Ee|Ne]; [|destruct (String.eqb_spec (r_name r) "L") as [El|Nl]; [congruence|destruct Hf as [->|[Hf|Hf]]; try congruence; destruct (String.eqb_spec (r_name r) "tube_L")]].
      + split; [|split; [|congruence]].
        * destruct jme; intros w Hw; cbn in Hw |- *; tauto.
        * exists "xp". destruct jme; cbn; auto.
      + split; [|split; [|reflexivity]]; [intros w Hw; cbn in Hw |- *; tauto|exists "xp"; cbn; auto].
      + split; [|split; [|reflexivity]]; [intros w Hw; cbn in Hw |- *; tauto|exists "xp"; cbn; auto].
  Qed.

  (** *** Specification: where the functions are smooth *)
  Definition est_smooth (dvec : list R) : Prop :=
    (forall i, i < N -> smooth_at (xe_f X) (map (est_x m dvec i) (seq 0 nx)) (map (rowat uv nu i) (seq 0 nu)) (map (est_p m t jme dvec) (seq 0 (m_np m)))) /\
    (forall r, r < length (kmeas_coarse y) -> dom (arg_env L_names (map (meas_arg m t y uv jme dvec r) L_names)) (xe_L X)).

  Hypothesis JC : jme = true -> jme_constants m.

  Lemma est_arg_length dvec e w : In w (est_vars jme) -> ~ In w ["y"; "x"; "u"] -> length (est_arg m t uv jme dvec e w) = size w.
  Proof.
    intros Hw Hn. unfold est_vars in Hw.
    assert (In w pargs \/ jme = true /\ In w ["wc"; "G"; "penweight"]) as [H|[Ej H]].
    { destruct jme; cbn in Hw, Hn |- *; tauto. }
    - cbn in H. destruct H as [<-|[<-|[<-|[<-|[]]]]]; unfold est_arg; cbn [String.eqb Ascii.eqb Bool.eqb base_shape];
        rewrite ?map_length, ?rows_length, ?seq_length, ?prodn1, ?prodn2; auto.
    - destruct (JC Ej) as (HG & WG & HP & WP). unfold awf in *. rewrite HG in WG. rewrite HP in WP.
      cbn in H. destruct H as [<-|[<-|[<-|[]]]]; unfold est_arg; cbn [String.eqb Ascii.eqb Bool.eqb base_shape];
        rewrite ?map_length, ?rows_length, ?seq_length, ?prodn1, ?prodn2; auto.
      + now rewrite WG, prodn2.
      + now rewrite WP, prodn1.
  Qed.
  Lemma meas_arg_length dvec r w : In w L_names -> length (meas_arg m t y uv jme dvec r w) = size w.
  Proof.
    intros Hw. cbn in Hw. destruct Hw as [<-|[<-|[<-|[<-|[]]]]]; unfold meas_arg; cbn [String.eqb Ascii.eqb Bool.eqb base_shape];
      rewrite ?map_length, ?seq_length, ?prodn1; auto.
  Qed.

  Lemma est_smooth_right dvec : est_smooth dvec -> est_sym_right m t y uv jme (est_sfun jme) W dvec.
  Proof.
    intros (S1 & S2). unfold est_sym_right. destruct sizes_of_vars as (Z1 & Z2 & Z3 & Z4 & Z5 & Z6 & Z7 & Z8).
    assert (WI : forall f, NoDup (W f) /\ incl (W f) (sf_args (est_sfun jme f))).
    { intros f. destruct (ee_W _ _ _ EE f) as [NW HW]. split; auto. intros w Hw. now apply HW in Hw. }
    assert (PD : forall args k j, NoDup args -> incl pargs args -> k < K -> j < n ->
      List.Forall (dom (fun w i => eval (arg_env args (map (est_arg m t uv jme dvec k) args)) (at_row nx nu j w i))) (xe_f X)).
    { intros args k j NA HA Hk Hj.
      apply (point_dom m args (est_arg m t uv jme dvec k) (k * (n - 1)) (est_x m dvec) (rowat uv nu)); auto.
      - apply (ee_f _ _ _ EE).
      - apply (S1 (k * (n - 1) + j)). unfold npoints. assert ((k + 1) * (n - 1) <= K * (n - 1)) by (apply Nat.mul_le_mono_r; lia). nia. }
    pose proof (ee_f _ _ _ EE) as HF.
    assert (n1 : 1 <= n) by lia.
    split.
    - intros r k Hr NL Hk. set (f := r_name r) in *. pose proof (est_args_nodup f) as NA. destruct (WI f) as [NW WA].
      pose proof (est_sfun_size f) as SZ.
      assert (LA : forall w, In w (sf_args (est_sfun jme f)) -> length (est_arg m t uv jme dvec k w) = size w).
      { intros w Hw. apply est_arg_length.
        - apply (est_args_vars f); auto. destruct (est_reg_cases m jme sm _ W expr_symest r Hr) as [->|[->|[-> _]]]; auto.
        - destruct (proj1 (se_args _ _ _ _ _ expr_symest r Hr NL) w Hw) as [<-|Hw']; [cbn; intuition discriminate|].
          unfold piece_names, e_names in Hw'. destruct jme; cbn in Hw' |- *; intuition (subst; discriminate). }
      assert (HA : incl pargs (sf_args (est_sfun jme f))).
      { unfold est_sfun. destruct (String.eqb_spec f "e"); [|destruct (String.eqb_spec f "L"); [congruence|destruct (String.eqb_spec f "tube_L")]];
          [destruct jme|..]; intros w Hw; cbn in Hw |- *; tauto. }
      assert (PD' := fun j => PD _ k j NA HA Hk).
      unfold est_sfun in *. destruct (String.eqb_spec f "e") as [Ee|Ne]; [|destruct (String.eqb_spec f "L") as [El|Nl]; [congruence|destruct (String.eqb_spec f "tube_L") as [Et|Nt]]].
      + destruct jme; cbn [sym_fun sf_args sf_expr sf_out] in *; rewrite map_length in SZ; apply sym_fun_right; auto.
        * apply (scoped_defects n nx nu J size); auto. intros. apply (scoped_noisy n nx nu nw JT size); auto; cbn; auto 8.
        * apply dom_defects. intros j a Hj. apply dom_noisy. now apply PD'.
        * apply (scoped_defects n nx nu J size); auto. intros. apply (scoped_drift n nx nu size); auto.
        * apply dom_defects. intros j a Hj. apply dom_drift. now apply PD'.
      + cbn [sym_fun sf_args sf_expr sf_out] in *. apply sym_fun_right; auto.
        * apply List.Forall_cons; [|apply List.Forall_nil]. apply (scoped_tube n nx nu nw Kw JT size); auto. cbn; auto 8.
        * apply List.Forall_cons; [|apply List.Forall_nil]. apply dom_tube. auto.
      + cbn [sym_fun sf_args sf_expr sf_out] in *. apply sym_fun_right; auto.
        * apply List.Forall_cons; [|apply List.Forall_nil]. apply (scoped_penalty n nx nu nw J JT size); auto; cbn; auto 9.
        * apply List.Forall_cons; [|apply List.Forall_nil]. apply dom_penalty. auto.
    - intros r Hr. destruct (WI "L") as [NW WA]. pose proof (est_args_nodup "L") as NA.
      cbn [est_sfun String.eqb Ascii.eqb Bool.eqb sym_fun sf_args] in *. apply sym_fun_right; auto.
      + intros w Hw. now apply meas_arg_length.
      + apply List.Forall_cons; [|apply List.Forall_nil]. apply (ee_L _ _ _ EE).
  Qed.
  End Model.
End EstExpr.

Definition est_build (jme : bool) (m : colmodel R) t y u : res (problem R) :=
  if jme then jme_problem m t y u else oem_problem m false t y u.
Lemma est_expr_derivatives (m : colmodel R) t y u uv J Kw JT X (jme : bool) sm W :
  good_grid m t -> good_data m t y uv -> input_values m t u = uv -> oem_small m t jme -> (jme = true -> jme_constants m) ->
  expr_est m J Kw JT X jme sm W ->
  exists sm' q, register_all sm (est_regs m jme W) = Ok sm' /\
    (forall r, In r (est_regs m jme W) -> generate_reg sm' r = Ok (q (r_name r))) /\
    (forall r, In r (est_regs m jme W) -> q (r_name r) = wanted (base_shape m) (est_sfun m J Kw JT X jme) sm r) /\
    exists p, est_build jme (with_fns m q) t y u = Ok p /\
      forall dvec, length dvec = ndec p -> est_smooth m t y uv X jme dvec -> derivatives_right p dvec.
Proof.
  intros G D EU SM JC EE. pose proof (gg_n _ _ G) as n2. pose proof (expr_symest m J Kw JT X jme sm W EE) as SO.
  destruct (est_generated m jme sm _ W SO) as (sm' & q & E1 & E2 & E3).
  exists sm', q. split; [exact E1|]. split; [exact E2|]. split; [exact E3|].
  set (m' := with_fns m q).
  assert (HU : forall h, (forall r, In r (est_regs m jme W) -> q (r_name r) = h (r_name r)) -> est_uses m' jme h).
  { intros h EQ. unfold est_uses. cbn [m' with_fns m_e m_Lmeas m_tube_L m_penalty m_use_penalty].
    assert (Q : forall f o, In (Reg o f (W f)) (est_regs m jme W) -> gen_fn (q f) = gen_fn (h f)) by (intros f o Hf; f_equal; exact (EQ _ Hf)).
    unfold est_regs, symjme_regs, symoem_regs in Q. split; [|split].
    - apply (Q "e" false). destruct jme; cbn; auto.
    - apply (Q "L" true). destruct jme; cbn; auto.
    - intros ->. split; [apply (Q "tube_L" true); cbn; auto|]. intros EP. rewrite EP in Q. apply (Q "penalty" true). cbn. auto 8. }
  assert (DET : forall sm2 (q2 : string -> gfun R), register_all sm (est_regs m jme W) = Ok sm2 -> (forall r, In r (est_regs m jme W) -> generate_reg sm2 r = Ok (q2 (r_name r))) ->
    forall r, In r (est_regs m jme W) -> q (r_name r) = q2 (r_name r)).
  { intros sm2 q2 F1 F2 r Hr. rewrite E1 in F1. injection F1 as <-. specialize (E2 r Hr). rewrite (F2 r Hr) in E2. congruence. }
  destruct jme; unfold est_build.
  - destruct (C67_jme m' t y u uv sm (est_sfun m J Kw JT X true) W (with_grid m q t G) (with_data m q t y uv D) EU SM (JC eq_refl) (with_symest m q true sm _ W SO)) as (sm2 & q2 & F1 & F2 & H).
    destruct (H (HU q2 (DET sm2 q2 F1 F2))) as (p & Ep & HD). exists p. split; [exact Ep|].
    intros dvec HL HS. apply HD; auto. exact (est_smooth_right m t y uv J Kw JT X true sm W EE n2 JC dvec HS).
  - destruct (C67_oem m' t y u uv sm (est_sfun m J Kw JT X false) W (with_grid m q t G) (with_data m q t y uv D) EU SM (with_symest m q false sm _ W SO)) as (sm2 & q2 & F1 & F2 & H).
    destruct (H (HU q2 (DET sm2 q2 F1 F2))) as (p & Ep & HD). exists p. split; [exact Ep|].
    intros dvec HL HS. apply HD; auto. exact (est_smooth_right m t y uv J Kw JT X false sm W EE n2 JC dvec HS).
Qed.
