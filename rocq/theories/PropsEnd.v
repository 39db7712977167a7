(** C67: the derivatives of a collocation problem whose functions are
    generated from a symbolic model. *)
From Coq Require Import String List ZArith Bool Arith Lia Reals Lra.
From Coquelicot Require Import Coquelicot.
From Verif Require Import Py NdArray OptimModel ColModel DictLemmas Builder BuilderLemmas NdLemmas OptimSpec OptimLaws LawFacts LayoutLemmas
  ProblemSpec ProblemLemmas ProblemFacts DerivSpec CalcLemmas IndexLemmas GenModel GenSpec GenLemmas GenDeriv
  SymModel NameLemmas PropsNames SymLemmas SymDeriv PropsGen PropsSym RegModel RegLemmas
  ColLemmas ColBuild ColLaws AssemblyLemmas GradLemmas ColCalls PropsCol ColValues PropsProblem EndToEnd.
Import ListNotations.
Local Open Scope string_scope.
Local Open Scope list_scope.
Local Open Scope nat_scope.

Lemma Forall_Forall2 {X Y} (P : X -> Y -> Prop) l : List.Forall (fun x => exists y, P x y) l -> exists ys, List.Forall2 P l ys.
Proof. induction 1 as [|x l (y & H) _ (ys & IH)]; [exists []|exists (y :: ys)]; constructor; auto. Qed.

(** *** Problems all of whose functions are differentiated correctly *)
Lemma assembled (p : problem R) sel dvec : reachable p -> selects p sel -> length dvec = ndec p ->
  List.Forall (fun co => (exists d, constr_diff p dvec co d) /\
    exists d, fun_diff2 p dvec (c_shape (fst co)) (snd co) d /\ no_alias sel (snd co) (fst (snd d))) (p_constraints p) ->
  List.Forall (fun o => (exists d, obj_diff p dvec o d) /\
    exists d, fun_diff2 p dvec (o_shape o) o d /\ no_alias sel o (fst (snd d))) (p_objectives p) ->
  derivatives_right p dvec.
Proof.
  intros RE SE HL HC HO.
  assert (C1 := List.Forall_impl (fun co => exists d, constr_diff p dvec co d) (fun _ => @proj1 _ _) HC).
  assert (C2 := List.Forall_impl (fun co => exists d, fun_diff2 p dvec (c_shape (fst co)) (snd co) d /\ no_alias sel (snd co) (fst (snd d))) (fun _ => @proj2 _ _) HC).
  assert (O1 := List.Forall_impl (fun o => exists d, obj_diff p dvec o d) (fun _ => @proj1 _ _) HO).
  assert (O2 := List.Forall_impl (fun o => exists d, fun_diff2 p dvec (o_shape o) o d /\ no_alias sel o (fst (snd d))) (fun _ => @proj2 _ _) HO).
  apply Forall_Forall2 in C1 as (c1 & C1). apply Forall_Forall2 in C2 as (c2 & C2).
  apply Forall_Forall2 in O1 as (o1 & O1). apply Forall_Forall2 in O2 as (o2 & O2).
  assert (HH : forall s m, length m = ncons p -> _) by exact (fun s m Hm => C12_lagrangian_hessian p sel dvec c2 o2 s m RE SE HL Hm C2 O2).
  split; [|split; [|split]].
  - destruct (HH 0%R (repeat 0%R (ncons p)) (repeat_length _ _)) as (i0 & i1 & vals & _ & _ & _ & _ & H & _).
    destruct (H (fun _ => 0%R) (fun _ => 0%R) 0%R 0%R) as (v & c & H1 & H2 & H3).
    assert (E : forall d : list R, vmove d (fun _ => 0%R) 0 = d).
    { intros d. unfold vmove. apply (nth_ext _ _ 0%R 0%R); [now rewrite map_length, seq_length|].
      rewrite map_length, seq_length. intros i Hi.
      rewrite nth_map_d with (a := 0) by now rewrite seq_length. rewrite seq_nth by auto. cbn [Nat.add]. ring. }
    rewrite !E in *. eauto.
  - exact (C10_jacobian p sel dvec c1 RE SE HL C1).
  - destruct (C11_gradient p sel dvec o1 RE SE HL O1) as (g & E1 & E2 & _ & _ & E3). exists g. auto.
  - intros s m Hm. destruct (HH s m Hm) as (i0 & i1 & vals & E1 & E2 & _ & _ & _ & _ & E3). exists i0, i1, vals. auto.
Qed.

(** *** Specification: a symbolic function over declared variables *)
Record declared (sm : smodel R) (shp : string -> shape) (name : string) (f : sfun R) (W : list string) : Prop := {
  dc_fun : dget String.eqb (m_fun sm) name = Some f;
  dc_vars : forall w, In w (sf_args f) \/ In w (m_dec sm) -> dget String.eqb (m_vars sm) w = Some (shp w);
  dc_dec : forall w, In w W <-> In w (sf_args f) /\ In w (m_dec sm);
  dc_wf : swf shp f W
}.

Lemma nice_names w : In w ["p"; "u"; "up"; "xe"; "x"; "xp"; "wc"] -> nice w.
Proof.
  intros H. cbn [In] in H.
  repeat (destruct H as [<-|H]; [split; [apply plain_check; reflexivity|intros v E; destruct v as [|c [|c' [|c'' v]]]; discriminate]|]). destruct H.
Qed.
Lemma declared_known sm shp fs r : declared sm shp (r_name r) (fs (r_name r)) (r_wrt r) ->
  incl (m_dec sm) ["p"; "u"; "up"; "xe"; "x"; "xp"; "wc"] -> known_fun shp fs sm r.
Proof.
  intros [H1 H2 H3 H4] HI. constructor; auto. apply List.Forall_forall. intros w Hw. apply nice_names, HI. now apply H3.
Qed.

(** Separation: [off w e] is where the argument [w] of element [e] starts. *)
Lemma eqb_pair (a b : string) (i j : nat) : (a, i) <> (b, j) -> a <> b \/ (a = b /\ i <> j).
Proof. intros H. destruct (String.string_dec a b) as [->|]; [right; split; congruence|auto]. Qed.
Lemma piece_cell n w e i : i < n * w -> piece_ind n w (e * (n * w) + i) = e * (n - 1) * w + i.
Proof.
  intros H. assert (w <> 0) by nia. pose proof (Nat.div_mod i w ltac:(auto)) as E. pose proof (Nat.mod_upper_bound i w ltac:(auto)) as B.
  assert (i / w < n) by (apply Nat.div_lt_upper_bound; nia).
  replace (e * (n * w) + i) with (e * (n * w) + (i / w * w + i mod w)) by lia.
  rewrite piece_ind_radix by auto. nia.
Qed.

Section Oc.
  Variable m : colmodel R.
  Variable t : list R.
  Hypothesis G : good_grid m t.
  Hypothesis SM : oc_small m t.
  Notation K := (npieces t).
  Notation N := (npoints m t).
  Notation n := (col_n (m_col m)).
  Notation shp := (base_shape m).

  (** *** Specification: a symbolic optimal control model with the sizes of
      [m] (symoc.py:15-37); [W] gives the iteration orders of the sets of
      decision arguments. *)
  Record symoc_model (sm : smodel R) (fs : string -> sfun R) (W : string -> list string) : Prop := {
    so_dec : forall w, In w (m_dec sm) <-> In w symoc_decision;
    so_decl : forall f, In f ["e"; "IL"; "M"; "g"; "h"] -> declared sm shp f (fs f) (W f);
    so_e : incl (sf_args (fs "e")) ["xp"; "up"; "p"; "piece_len"];
    so_IL : incl (sf_args (fs "IL")) ["xp"; "up"; "p"; "piece_len"];
    so_M : incl (sf_args (fs "M")) ["xe"; "p"];
    so_g : incl (sf_args (fs "g")) ["x"; "u"; "p"];
    so_h : incl (sf_args (fs "h")) ["xe"; "p"];
    so_oe : sf_out (fs "e") = [n - 1; m_nx m]; so_oIL : sf_out (fs "IL") = []; so_oM : sf_out (fs "M") = [];
    so_og : sf_out (fs "g") = [m_ng m]; so_oh : sf_out (fs "h") = [m_nh m];
    so_we : exists w, In w (sf_args (fs "e")) /\ In w ["xp"; "up"; "piece_len"];
    so_wIL : exists w, In w (sf_args (fs "IL")) /\ In w ["xp"; "up"; "piece_len"];
    so_wg : exists w, In w (sf_args (fs "g")) /\ In w ["x"; "u"]
  }.

  Definition oc_off (w : string) (e : nat) : nat :=
    if String.eqb w "x" then e * m_nx m else if String.eqb w "xp" then e * (n - 1) * m_nx m else
    if String.eqb w "u" then N * m_nx m + e * m_nu m else if String.eqb w "up" then N * m_nx m + e * (n - 1) * m_nu m else
    N * m_nx m + N * m_nu m.
  Lemma oc_off_ok w ext e i : In w ["x"; "u"; "p"; "xp"; "up"] -> (ext = batch_shape m t w \/ (batch_shape m t w = [] /\ length ext <= 1)) ->
    e < prodn ext -> i < prodn (shp w) ->
    oc_sel m t w (at_elem (batch_shape m t w) ext e * prodn (shp w) + i) = oc_off w e + i.
  Proof.
    intros Hw He Hlt Hi.
    assert (A : at_elem (batch_shape m t w) ext e = (if String.eqb w "p" then 0 else e)).
    { cbn [In] in Hw. destruct Hw as [<-|[<-|[<-|[<-|[<-|[]]]]]]; cbn [batch_shape existsb String.eqb Ascii.eqb Bool.eqb orb] in *;
      try (destruct He as [->|[E _]]; [|discriminate]; apply at_same; cbn in Hlt; lia).
      destruct He as [->|[_ E]]; apply at_none; cbn; lia. }
    rewrite A. cbn [In] in Hw. destruct Hw as [<-|[<-|[<-|[<-|[<-|[]]]]]]; cbn [base_shape String.eqb Ascii.eqb Bool.eqb] in *;
      cbn [oc_sel oc_off String.eqb Ascii.eqb Bool.eqb]; rewrite ?prodn1, ?prodn2 in *; try lia.
    - now apply piece_cell.
    - rewrite piece_cell by auto. lia.
  Qed.

  (** Which functions go with which batch axis. *)
  Definition oc_group (names : list string) (ext : shape) : Prop :=
    (names = ["xp"; "up"; "p"; "piece_len"] /\ ext = [K]) \/ (names = ["x"; "u"; "p"] /\ ext = [N]) \/ (names = ["xe"; "p"] /\ ext = []).
  Lemma group_ext names ext w : oc_group names ext -> In w names -> ext = batch_shape m t w \/ (batch_shape m t w = [] /\ length ext <= 1).
  Proof.
    intros [[-> ->]|[[-> ->]|[-> ->]]] Hw; cbn [In] in Hw; repeat (destruct Hw as [<-|Hw]; [cbn; auto|]); destruct Hw.
  Qed.
  Lemma group_suffix names ext w : oc_group names ext -> In w names -> exists pre, ext = pre ++ batch_shape m t w.
  Proof.
    intros HG Hw. destruct (group_ext _ _ _ HG Hw) as [->|[-> _]]; [exists []; reflexivity|exists ext; now rewrite app_nil_r].
  Qed.
  Lemma group_bshapes names ext args : oc_group names ext -> incl args names ->
    (names = ["xp"; "up"; "p"; "piece_len"] -> exists w, In w args /\ In w ["xp"; "up"; "piece_len"]) ->
    (names = ["x"; "u"; "p"] -> exists w, In w args /\ In w ["x"; "u"]) ->
    bshapes (map (batch_shape m t) args) = Ok ext.
  Proof.
    intros HG HI H1 H2. set (k := match ext with k :: _ => k | [] => 0 end).
    rewrite (bshapes_one k).
    - unfold k. clear k. destruct HG as [[-> ->]|[[-> ->]|[-> ->]]].
      + destruct (H1 eq_refl) as (w & Hw & Hb). match goal with |- context [existsb ?f ?l] => replace (existsb f l) with true end; auto. symmetry. apply existsb_exists.
        exists (batch_shape m t w). split; [now apply in_map|]. cbn in Hb. intuition (subst; reflexivity).
      + destruct (H2 eq_refl) as (w & Hw & Hb). match goal with |- context [existsb ?f ?l] => replace (existsb f l) with true end; auto. symmetry. apply existsb_exists.
        exists (batch_shape m t w). split; [now apply in_map|]. cbn in Hb. intuition (subst; reflexivity).
      + match goal with |- context [existsb ?f ?l] => replace (existsb f l) with false end; auto. symmetry. apply not_true_is_false. intros E. apply existsb_exists in E as (x & Hx & Ex).
        apply in_map_iff in Hx as (v & <- & Hv). apply HI in Hv. cbn in Hv. intuition (subst; discriminate).
    - intros x Hx. apply in_map_iff in Hx as (v & <- & Hv). apply HI in Hv. unfold k.
      destruct HG as [[-> ->]|[[-> ->]|[-> ->]]]; cbn in Hv; intuition (subst; auto).
  Qed.

  Lemma oc_sep names ext e a b i j : oc_group names ext -> e < prodn ext -> In a names -> In b names ->
    In a symoc_decision -> In b symoc_decision -> i < prodn (shp a) -> j < prodn (shp b) -> (a, i) <> (b, j) ->
    oc_sel m t a (at_elem (batch_shape m t a) ext e * prodn (shp a) + i) <> oc_sel m t b (at_elem (batch_shape m t b) ext e * prodn (shp b) + j).
  Proof.
    intros HG He Ha Hb Da Db Hi Hj Hne. pose proof (N_ge2 m t G) as HN. pose proof (gg_n _ _ G) as Hn.
    assert (Q : forall w k, In w names -> In w symoc_decision -> k < prodn (shp w) -> In w ["x"; "u"; "p"; "xp"; "up"] ->
      oc_sel m t w (at_elem (batch_shape m t w) ext e * prodn (shp w) + k) = oc_off w e + k).
    { intros w k H1 H2 H3 H4. apply oc_off_ok; auto. eapply group_ext; eauto. }
    assert (XE : forall k, ext = [] -> k < prodn (shp "xe") -> oc_sel m t "xe" (at_elem (batch_shape m t "xe") ext e * prodn (shp "xe") + k) = xe_ind N (m_nx m) k).
    { intros k -> Hk. reflexivity. }
    apply eqb_pair in Hne.
    assert (X0 : forall k, k < 2 * m_nx m -> xe_ind N (m_nx m) k < N * m_nx m).
    { intros k Hk. unfold xe_ind. destruct (Nat.ltb_spec k (m_nx m)); nia. }
    destruct HG as [[-> ->]|[[-> ->]|[-> ->]]].
    - rewrite prodn1 in He. assert (Hp : forall w k, e * (n - 1) * w + k < N * w \/ n * w <= k).
      { intros w k. unfold npoints. destruct (Nat.lt_ge_cases k (n * w)) as [Hk|]; [left|auto].
        assert (Hm : (e + 1) * ((n - 1) * w) <= K * ((n - 1) * w)) by (apply Nat.mul_le_mono_r; lia).
        destruct n as [|d]; [lia|]. replace (S d - 1) with d in * by lia. nia. }
      cbn [In] in Ha, Hb, Da, Db.
      destruct Ha as [<-|[<-|[<-|[<-|[]]]]]; try (exfalso; clear - Da; cbn in Da; intuition discriminate);
      (destruct Hb as [<-|[<-|[<-|[<-|[]]]]]; try (exfalso; clear - Db; cbn in Db; intuition discriminate));
      rewrite (Q _ i), (Q _ j) by (assumption || (cbn; auto 9)); cbn [oc_off base_shape String.eqb Ascii.eqb Bool.eqb] in *; rewrite ?prodn1, ?prodn2 in *;
      pose proof (Hp (m_nx m) i); pose proof (Hp (m_nx m) j); pose proof (Hp (m_nu m) i); pose proof (Hp (m_nu m) j);
      (destruct Hne as [Hne|[_ Hne]]; try congruence; clear - Hi Hj Hne H H0 H1 H2;
        set (A := e * (n - 1) * m_nx m) in *; set (B := e * (n - 1) * m_nu m) in *; clearbody A B; lia).
    - rewrite prodn1 in He. assert (Hp : forall w k, k < w -> e * w + k < N * w) by (intros; nia).
      cbn [In] in Ha, Hb, Da, Db.
      destruct Ha as [<-|[<-|[<-|[]]]];
      (destruct Hb as [<-|[<-|[<-|[]]]]);
      rewrite (Q _ i), (Q _ j) by (assumption || (cbn; auto 9)); cbn [oc_off base_shape String.eqb Ascii.eqb Bool.eqb] in *; rewrite ?prodn1, ?prodn2 in *;
      pose proof (Hp (m_nx m) i); pose proof (Hp (m_nx m) j); pose proof (Hp (m_nu m) i); pose proof (Hp (m_nu m) j);
      (destruct Hne as [Hne|[_ Hne]]; [|lia]); try congruence; lia.
    - cbn [In] in Ha, Hb.
      destruct Ha as [<-|[<-|[]]]; (destruct Hb as [<-|[<-|[]]]);
      rewrite ?XE, ?Q by (assumption || reflexivity || (cbn; auto 9)); cbn [oc_off base_shape String.eqb Ascii.eqb Bool.eqb] in *; rewrite ?prodn1, ?prodn2 in *.
      + destruct Hne as [Hne|[_ Hne]]; [congruence|]. unfold xe_ind. destruct (Nat.ltb_spec i (m_nx m)), (Nat.ltb_spec j (m_nx m)); nia.
      + pose proof (X0 i Hi). lia.
      + pose proof (X0 j Hj). lia.
      + destruct Hne as [Hne|[_ Hne]]; [congruence|]. lia.
  Qed.

  Section Model.
  Variables (sm : smodel R) (fs : string -> sfun R) (W : string -> list string).
  Hypothesis MO : symoc_model sm fs W.
  Lemma so_dec_incl : incl (m_dec sm) ["p"; "u"; "up"; "xe"; "x"; "xp"; "wc"].
  Proof. intros w Hw. apply (so_dec _ _ _ MO) in Hw. cbn in Hw |- *. tauto. Qed.
  Lemma so_known r : In r (symoc_regs W) -> known_fun shp fs sm r.
  Proof.
    intros Hr. apply declared_known; [|apply so_dec_incl].
    cbn [symoc_regs In] in Hr. destruct Hr as [<-|[<-|[<-|[<-|[<-|[]]]]]]; apply (so_decl _ _ _ MO); cbn; auto 8.
  Qed.
  Lemma so_apart : all_apart (symoc_regs W).
  Proof.
    pose (V := fun f : string => if existsb (String.eqb f) ["e"; "IL"] then ["xp"; "up"; "p"] else
      if String.eqb f "g" then ["x"; "u"; "p"] else ["xe"; "p"]).
    apply apartb_ok with (V := V); [cbn; repeat constructor; cbn; intuition discriminate| |vm_compute; reflexivity].
    assert (Q : forall f, In f ["e"; "IL"; "M"; "g"; "h"] -> forall w, In w (W f) -> In w (sf_args (fs f)) /\ In w symoc_decision).
    { intros f Hf w Hw. apply (dc_dec _ _ _ _ _ (so_decl _ _ _ MO f Hf)) in Hw as [H1 H2]. split; auto. now apply (so_dec _ _ _ MO). }
    intros r Hr w Hw. cbn [symoc_regs In] in Hr. 
    destruct Hr as [<-|[<-|[<-|[<-|[<-|[]]]]]]; cbn [r_name r_wrt] in *; (apply Q in Hw as [Hw Hd]; [|cbn; auto 8]);
      [apply (so_e _ _ _ MO) in Hw|apply (so_IL _ _ _ MO) in Hw|apply (so_M _ _ _ MO) in Hw|apply (so_g _ _ _ MO) in Hw|apply (so_h _ _ _ MO) in Hw];
      cbn in Hw, Hd |- *; intuition (subst; auto; discriminate).
  Qed.
  Notation g r := (wanted shp fs sm r).

  Variable dvec : list R.
  Hypothesis HL : length dvec = ndec (oc_prob m t).

  Lemma oc_attached r names ext s : In r (symoc_regs W) -> oc_group names ext -> incl (sf_args (fs (r_name r))) names ->
    bshapes (map (batch_shape m t) (sf_args (fs (r_name r)))) = Ok ext ->
    attached (oc_prob m t) (oc_sel m t) dvec shp (fs (r_name r)) (r_wrt r) (mk_optfun s (gen_fn (g r)) None) (g r) (batch_shape m t) ext
      (oc_arg m t dvec).
  Proof.
    intros Hr HG HI HB. pose proof (so_known r Hr) as HK. pose proof (hf_wf _ _ _ _ _ HK) as SW.
    assert (EA : gf_args (g r) = sf_args (fs (r_name r))) by (unfold wanted; now destruct (r_obj r)).
    assert (NI : incl names oc_names) by (destruct HG as [[-> _]|[[-> _]|[-> _]]]; intros w Hw; cbn in Hw |- *; tauto).
    assert (EP : forall w, In w (sf_args (fs (r_name r))) -> param (mk_optfun s (gen_fn (g r)) None) w = w).
    { intros w Hw. apply param_none; cbn [gen_fn f_sig]; rewrite EA; auto. apply (sw_args _ _ _ SW). }
    constructor.
    - reflexivity.
    - cbn [mk_optfun o_args gen_fn f_sig]. rewrite EA. apply (sw_args _ _ _ SW).
    - cbn [mk_optfun o_args gen_fn f_sig]. now rewrite EA.
    - intros w Hw. rewrite EP by auto. apply oc_shapes; auto.
    - exact HB.
    - intros w Hw. rewrite EP by auto. rewrite <- fst_all_specs, oc_all_specs by auto. cbn [oc_specs map fst].
      rewrite (hf_dec _ _ _ _ _ HK w), (so_dec _ _ _ MO w). unfold symoc_decision. cbn [In]. tauto.
    - intros w Hw. rewrite EP by auto. apply oc_good_arg; auto. apply group_ext with (names := names); auto.
    - intros e a b i j He Ha Hb Hi Hj Hne.
      pose proof (sw_in _ _ _ SW a Ha) as Ia. pose proof (sw_in _ _ _ SW b Hb) as Ib. rewrite !EP by auto.
      apply (hf_dec _ _ _ _ _ HK) in Ha as [_ Ha], Hb as [_ Hb]. apply (so_dec _ _ _ MO) in Ha, Hb.
      apply oc_sep with (names := names); auto.
  Qed.

  (** The functions of [m] are the generated ones. *)
  Definition oc_uses (q : string -> gfun R) : Prop :=
    m_e m = gen_fn (q "e") /\ m_IL m = gen_fn (q "IL") /\ m_M m = gen_fn (q "M") /\ m_g m = gen_fn (q "g") /\ m_h m = gen_fn (q "h").
  (** Symbolic differentiation is right wherever the problem evaluates it. *)
  Definition oc_sym_right : Prop :=
    (forall f k, In f ["e"; "IL"] -> k < K -> sym_right shp (fs f) (W f) (map (oc_arg m t dvec k) (sf_args (fs f)))) /\
    (forall i, i < N -> sym_right shp (fs "g") (W "g") (map (oc_arg m t dvec i) (sf_args (fs "g")))) /\
    (forall f, In f ["M"; "h"] -> sym_right shp (fs f) (W f) (map (oc_arg m t dvec 0) (sf_args (fs f)))).

  Lemma oc_derivatives (q : string -> gfun R) : (forall r, In r (symoc_regs W) -> q (r_name r) = g r) -> oc_uses q -> oc_sym_right ->
    derivatives_right (oc_prob m t) dvec.
  Proof.
    intros HQ (Ee & EIL & EM & Eg & Eh) (R1 & R2 & R3). destruct (oc_fns m t) as [EO EC].
    pose proof (oc_reachable m t SM) as RE. pose proof (oc_selects m t G SM) as SE.
    assert (GP : oc_group ["xp"; "up"; "p"; "piece_len"] [K]) by (left; auto).
    assert (GN : oc_group ["x"; "u"; "p"] [N]) by (right; left; auto).
    assert (GE : oc_group ["xe"; "p"] []) by (right; right; auto).
    assert (FC : forall r names ext s, In r (symoc_regs W) -> r_obj r = false -> oc_group names ext -> incl (sf_args (fs (r_name r))) names ->
      bshapes (map (batch_shape m t) (sf_args (fs (r_name r)))) = Ok ext -> s = ext ++ sf_out (fs (r_name r)) ->
      (forall e, e < prodn ext -> sym_right shp (fs (r_name r)) (r_wrt r) (map (oc_arg m t dvec e) (sf_args (fs (r_name r))))) ->
      forall c, c_shape c = s -> (exists d, constr_diff (oc_prob m t) dvec (c, mk_optfun s (gen_fn (g r)) None) d) /\
        exists d, fun_diff2 (oc_prob m t) dvec s (mk_optfun s (gen_fn (g r)) None) d /\
          no_alias (oc_sel m t) (mk_optfun s (gen_fn (g r)) None) (fst (snd d))).
    { intros r names ext s Hr Ho HG HI HB Es HR c Ec.
      pose proof (oc_attached r names ext s Hr HG HI HB) as AT. pose proof (so_known r Hr) as HK.
      assert (HO : r_obj r = true -> sf_out (fs (r_name r)) = []) by (intros; congruence). split.
      - eapply (att_constr _ _ RE SE dvec HL sm shp fs r HK HO _ _ _ _ AT HR c); auto. congruence.
      - eapply (att_diff2 _ _ RE SE dvec HL sm shp fs r HK HO _ _ _ _ AT HR); auto. }
    assert (FO : forall r names ext, In r (symoc_regs W) -> r_obj r = true -> sf_out (fs (r_name r)) = [] -> oc_group names ext -> incl (sf_args (fs (r_name r))) names ->
      bshapes (map (batch_shape m t) (sf_args (fs (r_name r)))) = Ok ext ->
      (forall e, e < prodn ext -> sym_right shp (fs (r_name r)) (r_wrt r) (map (oc_arg m t dvec e) (sf_args (fs (r_name r))))) ->
      let o := mk_optfun ext (gen_fn (g r)) None in
      (exists d, obj_diff (oc_prob m t) dvec o d) /\
        exists d, fun_diff2 (oc_prob m t) dvec (o_shape o) o d /\ no_alias (oc_sel m t) o (fst (snd d))).
    { intros r names ext Hr Ho HO HG HI HB HR o.
      pose proof (oc_attached r names ext ext Hr HG HI HB) as AT. pose proof (so_known r Hr) as HK.
      split.
      - eapply (att_obj _ _ RE SE dvec HL sm shp fs r HK (fun _ => HO) _ _ _ _ AT HR); auto.
        intros w Hw. eapply group_suffix; eauto. apply HI, (sw_in _ _ _ (hf_wf _ _ _ _ _ HK) w Hw).
      - eapply (att_diff2 _ _ RE SE dvec HL sm shp fs r HK (fun _ => HO) _ _ _ _ AT HR); auto. cbn [mk_optfun o_shape]. now rewrite HO, app_nil_r. }
    apply (assembled _ (oc_sel m t)); auto.
    - assert (Q : List.Forall (fun so => forall c, c_shape c = fst so -> (exists d, constr_diff (oc_prob m t) dvec (c, snd so) d) /\
        exists d, fun_diff2 (oc_prob m t) dvec (fst so) (snd so) d /\ no_alias (oc_sel m t) (snd so) (fst (snd d)))
        (map (fun co => (c_shape (fst co), snd co)) (p_constraints (oc_prob m t)))).
      { rewrite EC, Ee, Eg, Eh. apply List.Forall_cons; [|apply List.Forall_cons; [|apply List.Forall_cons; [|apply List.Forall_nil]]]; cbn [fst snd].
        - assert (Qe : q "e" = g (Reg false "e" (W "e"))) by (apply (HQ (Reg false "e" (W "e"))); cbn; auto 8); rewrite Qe. apply (FC (Reg false "e" (W "e")) ["xp"; "up"; "p"; "piece_len"] [K] _); auto; cbn [r_name r_wrt]; [cbn; auto|apply (so_e _ _ _ MO)| | |].
          + eapply group_bshapes; [exact GP|apply (so_e _ _ _ MO)|intros _; apply (so_we _ _ _ MO)|discriminate].
          + now rewrite (so_oe _ _ _ MO).
          + rewrite prodn1. intros k Hk. apply R1; cbn; auto.
        - assert (Qg : q "g" = g (Reg false "g" (W "g"))) by (apply (HQ (Reg false "g" (W "g"))); cbn; auto 8); rewrite Qg. apply (FC (Reg false "g" (W "g")) ["x"; "u"; "p"] [N] _); auto; cbn [r_name r_wrt]; [cbn; auto 8|apply (so_g _ _ _ MO)| | |].
          + eapply group_bshapes; [exact GN|apply (so_g _ _ _ MO)|discriminate|intros _; apply (so_wg _ _ _ MO)].
          + now rewrite (so_og _ _ _ MO).
          + rewrite prodn1. intros k Hk. now apply R2.
        - assert (Qh : q "h" = g (Reg false "h" (W "h"))) by (apply (HQ (Reg false "h" (W "h"))); cbn; auto 8); rewrite Qh. apply (FC (Reg false "h" (W "h")) ["xe"; "p"] [] _); auto; cbn [r_name r_wrt]; [cbn; auto 8|apply (so_h _ _ _ MO)| | |].
          + eapply group_bshapes; [exact GE|apply (so_h _ _ _ MO)|discriminate|discriminate].
          + now rewrite (so_oh _ _ _ MO).
          + intros k Hk. replace k with 0 by (cbn in Hk; lia). apply R3. cbn; auto. }
      rewrite List.Forall_map in Q. eapply List.Forall_impl; [|exact Q]. intros [c o] H. apply (H c eq_refl).
    - rewrite EO, EIL, EM. apply List.Forall_cons; [|apply List.Forall_cons; [|apply List.Forall_nil]].
      + assert (QIL : q "IL" = g (Reg true "IL" (W "IL"))) by (apply (HQ (Reg true "IL" (W "IL"))); cbn; auto 8); rewrite QIL. apply (FO (Reg true "IL" (W "IL")) ["xp"; "up"; "p"; "piece_len"] [K]); auto; cbn [r_name r_wrt]; [cbn; auto|apply (so_oIL _ _ _ MO)|apply (so_IL _ _ _ MO)| |].
        * eapply group_bshapes; [exact GP|apply (so_IL _ _ _ MO)|intros _; apply (so_wIL _ _ _ MO)|discriminate].
        * rewrite prodn1. intros k Hk. apply R1; cbn; auto.
      + assert (QM : q "M" = g (Reg true "M" (W "M"))) by (apply (HQ (Reg true "M" (W "M"))); cbn; auto 8); rewrite QM. apply (FO (Reg true "M" (W "M")) ["xe"; "p"] []); auto; cbn [r_name r_wrt]; [cbn; auto|apply (so_oM _ _ _ MO)|apply (so_M _ _ _ MO)| |].
        * eapply group_bshapes; [exact GE|apply (so_M _ _ _ MO)|discriminate|discriminate].
        * intros k Hk. replace k with 0 by (cbn in Hk; lia). apply R3. cbn; auto.
  Qed.
  End Model.
End Oc.

(** C67, optimal control: the symbolic model registers its functions, the
    code is generated, and the problem built from it returns the exact
    derivatives wherever symbolic differentiation is right. *)
Theorem C67_oc (m : colmodel R) t sm fs W : good_grid m t -> oc_small m t -> symoc_model m sm fs W ->
  exists sm' q, register_all sm (symoc_regs W) = Ok sm' /\
    (forall r, In r (symoc_regs W) -> generate_reg sm' r = Ok (q (r_name r))) /\
    (oc_uses m q -> exists p, oc_problem m t = Ok p /\
      forall dvec, length dvec = ndec p -> oc_sym_right m t fs W dvec -> derivatives_right p dvec).
Proof.
  intros G SM MO. destruct (generate_all_ok (base_shape m) fs (symoc_regs W) sm (so_apart m sm fs W MO) (so_known m sm fs W MO)) as (sm' & E1 & E2).
  set (q := fun f => match filter (fun r => String.eqb (r_name r) f) (symoc_regs W) with r :: _ => wanted (base_shape m) fs sm r | [] => wanted (base_shape m) fs sm (Reg true f []) end).
  assert (HQ : forall r, In r (symoc_regs W) -> q (r_name r) = wanted (base_shape m) fs sm r).
  { intros r Hr. cbn [symoc_regs In] in Hr. destruct Hr as [<-|[<-|[<-|[<-|[<-|[]]]]]]; reflexivity. }
  exists sm', q. split; [exact E1|]. split; [intros r Hr; rewrite HQ by auto; auto|].
  intros HU. exists (oc_prob m t). split; [now apply oc_problem_ok|]. intros dvec HL HR.
  now apply (oc_derivatives m t G SM sm fs W MO dvec HL q).
Qed.
Print Assumptions C67_oc.
