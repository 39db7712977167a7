(** C67, continued: output error and joint MAP estimation problems. *)
From Coq Require Import String List ZArith Bool Arith Lia Reals Lra.
From Coquelicot Require Import Coquelicot.
From Verif Require Import Py NdArray OptimModel ColModel DictLemmas Builder BuilderLemmas NdLemmas OptimSpec OptimLaws LawFacts LayoutLemmas
  ProblemSpec ProblemLemmas ProblemFacts DerivSpec CalcLemmas IndexLemmas GenModel GenSpec GenLemmas GenDeriv
  SymModel NameLemmas PropsNames SymLemmas SymDeriv PropsGen PropsSym RegModel RegLemmas
  ColLemmas ColBuild ColLaws AssemblyLemmas GradLemmas ColCalls PropsCol ColValues PropsProblem EndToEnd PropsEnd.
Import ListNotations.
Local Open Scope string_scope.
Local Open Scope list_scope.
Local Open Scope nat_scope.

Section Est.
  Variable m : colmodel R.
  Variable t : list R.
  Hypothesis G : good_grid m t.
  Variable y : list (yrow R).
  Variable uv : arr R.
  Hypothesis D : good_data m t y uv.
  Notation K := (npieces t).
  Notation N := (npoints m t).
  Notation n := (col_n (m_col m)).
  Notation KM := (kmeas (m_col m) y).
  Notation nm := (length KM).
  Notation shp := (base_shape m).

  (** Functions evaluated once per piece, and all functions, in the order of
      registration. *)
  Definition est_regs (jme : bool) (W : string -> list string) : list reg :=
    if jme then symjme_regs (m_use_penalty m) W else symoem_regs W.
  Definition est_decision (jme : bool) : list string := if jme then symjme_decision else symoem_decision.
  Definition piece_names (jme : bool) : list string := e_names jme ++ (if jme then ["penweight"] else []).

  (** *** Specification: a symbolic estimation model with the sizes of [m]
      (symoem.py:12-21, symjme.py:22-37) *)
  Record symest_model (jme : bool) (sm : smodel R) (fs : string -> sfun R) (W : string -> list string) : Prop := {
    se_dec : forall w, In w (m_dec sm) <-> In w (est_decision jme);
    se_decl : forall r, In r (est_regs jme W) -> declared sm shp (r_name r) (fs (r_name r)) (W (r_name r));
    se_L : sf_args (fs "L") = L_names;
    se_oL : sf_out (fs "L") = [];
    se_oe : sf_out (fs "e") = [n - 1; m_nx m];
    se_args : forall r, In r (est_regs jme W) -> r_name r <> "L" ->
      incl (sf_args (fs (r_name r))) (piece_names jme) /\
      (exists w, In w (sf_args (fs (r_name r))) /\ In w ["xp"; "up"; "piece_len"; "wc"]) /\
      (r_name r <> "e" -> sf_out (fs (r_name r)) = [])
  }.

  Section Names.
  Variables (jme : bool) (sm : smodel R) (fs : string -> sfun R) (W : string -> list string).
  Hypothesis MO : symest_model jme sm fs W.
  Lemma est_reg_cases r : In r (est_regs jme W) -> r = Reg false "e" (W "e") \/ r = Reg true "L" (W "L") \/
    (jme = true /\ (r = Reg true "tube_L" (W "tube_L") \/ r = Reg true "penalty" (W "penalty"))).
  Proof.
    unfold est_regs, symjme_regs, symoem_regs. destruct jme, (m_use_penalty m); cbn; intuition auto.
  Qed.
  Lemma est_reg_wrt r : In r (est_regs jme W) -> r_wrt r = W (r_name r).
  Proof. intros Hr. destruct (est_reg_cases r Hr) as [->|[->|[_ [->| ->]]]]; reflexivity. Qed.
  Lemma est_dec_incl : incl (m_dec sm) ["p"; "u"; "up"; "xe"; "x"; "xp"; "wc"].
  Proof. intros w Hw. apply (se_dec _ _ _ _ MO) in Hw. unfold est_decision in Hw. destruct jme; cbn in Hw |- *; tauto. Qed.
  Lemma est_known r : In r (est_regs jme W) -> known_fun shp fs sm r.
  Proof. intros Hr. apply declared_known; [|apply est_dec_incl]. rewrite (est_reg_wrt r Hr). now apply (se_decl _ _ _ _ MO). Qed.

  Lemma est_apart : all_apart (est_regs jme W).
  Proof.
    pose (V := fun f : string => if String.eqb f "L" then ["x"; "p"] else ["xp"; "p"; "wc"]).
    apply apartb_ok with (V := V).
    - unfold est_regs, symjme_regs, symoem_regs. destruct jme, (m_use_penalty m); cbn; repeat constructor; cbn; intuition discriminate.
    - intros r Hr w Hw. rewrite (est_reg_wrt r Hr) in Hw. apply (dc_dec _ _ _ _ _ (se_decl _ _ _ _ MO r Hr)) in Hw as [Hw Hd].
      apply (se_dec _ _ _ _ MO) in Hd. unfold V. destruct (String.eqb_spec (r_name r) "L") as [EL|NL].
      + rewrite EL, (se_L _ _ _ _ MO) in Hw. unfold est_decision in Hd. destruct jme; cbn in Hw, Hd |- *; intuition (subst; auto; discriminate).
      + apply (proj1 (se_args _ _ _ _ MO r Hr NL)) in Hw. unfold est_decision in Hd. unfold piece_names, e_names in Hw.
        destruct jme; cbn in Hw, Hd |- *; intuition (subst; auto; discriminate).
    - unfold est_regs, symjme_regs, symoem_regs. destruct jme, (m_use_penalty m); vm_compute; reflexivity.
  Qed.
  End Names.

  Section Q.
  Variables (jme : bool) (q : problem R).
  Hypothesis L : oem_like m t y uv jme q.
  Hypothesis S : oem_small m t jme.
  Hypothesis E : est_extra m t y uv jme q.
  Hypothesis J : jme = true -> jme_constants m.
  Hypothesis RE : reachable q.
  Variables (sm : smodel R) (fs : string -> sfun R) (W : string -> list string).
  Hypothesis MO : symest_model jme sm fs W.

  Notation g r := (wanted shp fs sm r).

  (** Where the argument [w] of piece [e] starts. *)
  Definition est_off (w : string) (e : nat) : nat :=
    if String.eqb w "xp" then e * (n - 1) * m_nx m else
    if String.eqb w "wc" then N * m_nx m + e * ((n - 1) * m_nw m) else N * m_nx m + nwc m t jme.
  Lemma est_off_ok w e i : In w ["xp"; "wc"; "p"] -> e < K -> i < prodn (shp w) ->
    oem_sel m t y jme w (at_elem (batch_shape m t w) [K] e * prodn (shp w) + i) = est_off w e + i.
  Proof.
    intros Hw He Hi.
    assert (A : at_elem (batch_shape m t w) [K] e = (if String.eqb w "p" then 0 else e)).
    { cbn [In] in Hw. destruct Hw as [<-|[<-|[<-|[]]]]; cbn [batch_shape existsb String.eqb Ascii.eqb Bool.eqb orb] in *; [now apply at_same..|].
      apply at_none. cbn; lia. }
    rewrite A. cbn [In] in Hw. destruct Hw as [<-|[<-|[<-|[]]]]; cbn [base_shape String.eqb Ascii.eqb Bool.eqb] in *;
      cbn [oem_sel est_off String.eqb Ascii.eqb Bool.eqb]; rewrite ?prodn1, ?prodn2 in *; try lia.
    now apply piece_cell.
  Qed.
  Lemma est_sep e a b i j : e < K -> In a ["xp"; "wc"; "p"] -> In b ["xp"; "wc"; "p"] -> (In "wc" [a; b] -> jme = true) ->
    i < prodn (shp a) -> j < prodn (shp b) -> (a, i) <> (b, j) ->
    oem_sel m t y jme a (at_elem (batch_shape m t a) [K] e * prodn (shp a) + i)
    <> oem_sel m t y jme b (at_elem (batch_shape m t b) [K] e * prodn (shp b) + j).
  Proof.
    intros He Ha Hb HW Hi Hj Hne. rewrite !est_off_ok by auto. apply eqb_pair in Hne. pose proof (gg_n _ _ G) as Hn.
    assert (Hp : forall k, k < n * m_nx m -> e * (n - 1) * m_nx m + k < N * m_nx m).
    { intros k Hk. unfold npoints.
      assert (Hm : (e + 1) * ((n - 1) * m_nx m) <= K * ((n - 1) * m_nx m)) by (apply Nat.mul_le_mono_r; lia).
      destruct n as [|d]; [lia|]. replace (Datatypes.S d - 1) with d in * by lia. nia. }
    assert (Hc : forall k, k < (n - 1) * m_nw m -> In "wc" [a; b] -> e * ((n - 1) * m_nw m) + k < nwc m t jme).
    { intros k Hk Hin. rewrite (HW Hin). unfold nwc. assert (Hm : (e + 1) * ((n - 1) * m_nw m) <= K * ((n - 1) * m_nw m)) by (apply Nat.mul_le_mono_r; lia). nia. }
    cbn [In] in Ha, Hb. destruct Ha as [<-|[<-|[<-|[]]]]; (destruct Hb as [<-|[<-|[<-|[]]]]);
      cbn [est_off base_shape String.eqb Ascii.eqb Bool.eqb] in *; rewrite ?prodn1, ?prodn2 in *;
      pose proof (Hp i) as P1; pose proof (Hp j) as P2; pose proof (Hc i) as C1; pose proof (Hc j) as C2;
      cbn [In] in C1, C2;
      (destruct Hne as [Hne|[_ Hne]]; try congruence); clear - Hi Hj Hne P1 P2 C1 C2;
      set (A := e * (n - 1) * m_nx m) in *; set (B := e * ((n - 1) * m_nw m)) in *; set (C := (n - 1) * m_nw m) in *; clearbody A B C; 
      try (specialize (P1 Hi)); try (specialize (P2 Hj)); try (specialize (C1 Hi ltac:(auto))); try (specialize (C2 Hj ltac:(auto))); lia.
  Qed.

  Variable dvec : list R.
  Hypothesis HL : length dvec = ndec q.
  Lemma est_bshapes args : incl args (piece_names jme) -> (exists w, In w args /\ In w ["xp"; "up"; "piece_len"; "wc"]) ->
    bshapes (map (batch_shape m t) args) = Ok [K].
  Proof.
    intros HI (w & Hw & Hb). rewrite (bshapes_one K).
    - match goal with |- context [existsb ?f ?l] => replace (existsb f l) with true end; auto. symmetry. apply existsb_exists.
      exists (batch_shape m t w). split; [now apply in_map|]. cbn in Hb. intuition (subst; reflexivity).
    - intros x Hx. apply in_map_iff in Hx as (v & <- & Hv). apply HI in Hv. unfold piece_names, e_names in Hv.
      destruct jme; cbn in Hv; intuition (subst; auto).
  Qed.

  Lemma est_attached r s : In r (est_regs jme W) -> r_name r <> "L" ->
    attached q (oem_sel m t y jme) dvec shp (fs (r_name r)) (r_wrt r) (mk_optfun s (gen_fn (g r)) None) (g r) (batch_shape m t) [K]
      (est_arg m t uv jme dvec).
  Proof.
    intros Hr NL. pose proof (est_known _ _ _ _ MO r Hr) as HK. pose proof (hf_wf _ _ _ _ _ HK) as SW.
    destruct (se_args _ _ _ _ MO r Hr NL) as (HI & HB & _).
    assert (EA : gf_args (g r) = sf_args (fs (r_name r))) by (unfold wanted; now destruct (r_obj r)).
    assert (EP : forall w, In w (sf_args (fs (r_name r))) -> param (mk_optfun s (gen_fn (g r)) None) w = w).
    { intros w Hw. apply param_none; cbn [gen_fn f_sig]; rewrite EA; auto. apply (sw_args _ _ _ SW). }
    constructor.
    - reflexivity.
    - cbn [mk_optfun o_args gen_fn f_sig]. rewrite EA. apply (sw_args _ _ _ SW).
    - cbn [mk_optfun o_args gen_fn f_sig]. now rewrite EA.
    - intros w Hw. rewrite EP by auto. apply (est_shapes m t y uv jme q L S E J). now apply HI.
    - now apply est_bshapes.
    - intros w Hw. rewrite EP by auto. rewrite <- fst_all_specs, (oem_all_specs m t y uv jme q L S).
      rewrite (hf_dec _ _ _ _ _ HK w), (se_dec _ _ _ _ MO w). apply HI in Hw as Hn. unfold piece_names, e_names in Hn.
      unfold oem_specs, est_decision. destruct jme; cbn in Hn |- *; intuition (subst; auto; discriminate).
    - intros w Hw. rewrite EP by auto. apply (est_good_arg m t G y uv D jme q L S E J RE dvec HL). now apply HI.
    - intros e a b i j He Ha Hb Hi Hj Hne. rewrite prodn1 in He.
      pose proof (sw_in _ _ _ SW a Ha) as Ia. pose proof (sw_in _ _ _ SW b Hb) as Ib. rewrite !EP by auto.
      apply (hf_dec _ _ _ _ _ HK) in Ha as [_ Ha], Hb as [_ Hb]. apply (se_dec _ _ _ _ MO) in Ha, Hb. apply HI in Ia, Ib.
      assert (Q : forall w, In w (piece_names jme) -> In w (est_decision jme) -> In w ["xp"; "wc"; "p"] /\ (w = "wc" -> jme = true)).
      { intros w H1 H2. unfold piece_names, e_names in H1. unfold est_decision in H2. destruct jme; cbn in H1, H2 |- *; intuition (subst; auto; discriminate). }
      destruct (Q a Ia Ha), (Q b Ib Hb). apply est_sep; auto. cbn [In]. intuition auto.
  Qed.

  Let oL := mk_optfun [nm] (gen_fn (g (Reg true "L" (W "L")))) (Some ["y"; "xm"; "um"; "p"]).
  Lemma L_attached : In (Reg true "L" (W "L")) (est_regs jme W) ->
    attached q (oem_sel m t y jme) dvec shp (fs "L") (W "L") oL (g (Reg true "L" (W "L"))) (L_batch m y) [nm] (meas_arg m t y uv jme dvec).
  Proof.
    intros Hr. pose proof (est_known _ _ _ _ MO _ Hr) as HK. unfold known_fun in HK. cbn [r_name r_wrt] in HK. pose proof (hf_wf _ _ _ _ _ HK) as SW.
    set (gL := g (Reg true "L" (W "L"))) in *.
    assert (EA : gf_args gL = L_names) by (change (gf_args gL) with (sf_args (fs "L")); apply (se_L _ _ _ _ MO)).
    assert (U : suits m L_names gL).
    { constructor; [apply wanted_gwf; [exact HK|intros _; apply (se_oL _ _ _ _ MO)]|rewrite EA; apply incl_refl|].
      change (gf_args gL) with (sf_args (fs "L")). reflexivity. }
    assert (EP : forall w, In w (sf_args (fs "L")) -> param oL w = (if String.eqb w "x" then "xm" else if String.eqb w "u" then "um" else w)).
    { intros w Hw. rewrite (se_L _ _ _ _ MO) in Hw. apply (L_param m y gL w EA Hw). }
    constructor.
    - reflexivity.
    - cbn. repeat constructor; cbn; intuition discriminate.
    - rewrite (se_L _ _ _ _ MO). reflexivity.
    - intros w Hw. rewrite <- (base_of_suits m L_names gL w U); [|exact Hw]. apply (L_shape m t y uv D jme q L S E J gL w U EA). exact Hw.
    - rewrite (se_L _ _ _ _ MO). rewrite <- EA at 1. now apply L_ext.
    - intros w Hw. rewrite EP by auto. rewrite <- fst_all_specs, (oem_all_specs m t y uv jme q L S).
      rewrite (hf_dec _ _ _ _ _ HK w), (se_dec _ _ _ _ MO w). rewrite (se_L _ _ _ _ MO) in *.
      unfold oem_specs, est_decision. destruct jme; cbn in Hw |- *; intuition (subst; cbn in *; auto; intuition discriminate).
    - intros w Hw. rewrite EP by auto. apply (L_good_arg m t G y uv D jme q L S E RE dvec HL). now rewrite <- (se_L _ _ _ _ MO).
    - intros e a b i j He Ha Hb Hi Hj Hne. rewrite prodn1 in He.
      pose proof (sw_in _ _ _ SW a Ha) as Ia. pose proof (sw_in _ _ _ SW b Hb) as Ib. rewrite !EP by auto.
      apply (hf_dec _ _ _ _ _ HK) in Ha as [_ Ha], Hb as [_ Hb]. apply (se_dec _ _ _ _ MO) in Ha, Hb. rewrite (se_L _ _ _ _ MO) in Ia, Ib.
      assert (Q : forall w, In w L_names -> In w (est_decision jme) -> w = "x" \/ w = "p").
      { intros w H1 H2. unfold est_decision in H2. destruct jme; cbn in H1, H2; intuition (subst; auto; discriminate). }
      assert (HM : nth e KM 0 < N) by (apply (kmeas_lt m t y); auto; [apply (gd_y _ _ _ _ D)|now apply nth_In]).
      apply eqb_pair in Hne.
      destruct (Q a Ia Ha) as [->| ->], (Q b Ib Hb) as [->| ->]; cbn [String.eqb Ascii.eqb Bool.eqb base_shape] in *;
        cbn [L_batch String.eqb Ascii.eqb Bool.eqb] in *; rewrite ?prodn1 in *; rewrite ?at_same by auto; rewrite ?(at_none [nm]) by (cbn; lia);
        cbn [oem_sel String.eqb Ascii.eqb Bool.eqb]; rewrite ?xm_ind_radix by auto;
        (destruct Hne as [Hne|[_ Hne]]; [try congruence|]); nia.
  Qed.

  (** Symbolic differentiation is right wherever the problem evaluates it. *)
  Definition est_sym_right : Prop :=
    (forall r k, In r (est_regs jme W) -> r_name r <> "L" -> k < K ->
       sym_right shp (fs (r_name r)) (W (r_name r)) (map (est_arg m t uv jme dvec k) (sf_args (fs (r_name r))))) /\
    (forall i, i < length (kmeas_coarse y) -> sym_right shp (fs "L") (W "L") (map (meas_arg m t y uv jme dvec i) (sf_args (fs "L")))).
  Hypothesis HR : est_sym_right.

  Lemma est_constr r : In r (est_regs jme W) -> r_name r <> "L" -> r_obj r = false -> forall c s, c_shape c = s -> s = [K] ++ sf_out (fs (r_name r)) ->
    let o := mk_optfun s (gen_fn (g r)) None in
    (exists d, constr_diff q dvec (c, o) d) /\
      exists d, fun_diff2 q dvec (c_shape c) o d /\ no_alias (oem_sel m t y jme) o (fst (snd d)).
  Proof.
    intros Hr NL Ho c s Ec Es o. pose proof (est_attached r s Hr NL) as AT. pose proof (est_known _ _ _ _ MO r Hr) as HK.
    pose proof (oem_selects m t G y uv D jme q L S) as SE.
    assert (HO : r_obj r = true -> sf_out (fs (r_name r)) = []) by (intros; congruence).
    assert (HS : forall e, e < prodn [K] -> sym_right shp (fs (r_name r)) (r_wrt r) (map (est_arg m t uv jme dvec e) (sf_args (fs (r_name r))))).
    { intros e He. rewrite prodn1 in He. rewrite (est_reg_wrt _ _ _ _ MO r Hr). now apply HR. }
    split.
    - apply (att_constr _ _ RE SE dvec HL sm shp fs r HK HO _ _ _ _ AT HS c); auto. congruence.
    - rewrite Ec. apply (att_diff2 _ _ RE SE dvec HL sm shp fs r HK HO _ _ _ _ AT HS); auto.
  Qed.
  Lemma est_obj r : In r (est_regs jme W) -> r_name r <> "L" -> r_obj r = true -> sf_out (fs (r_name r)) = [] ->
    let o := mk_optfun [K] (gen_fn (g r)) None in
    (exists d, obj_diff q dvec o d) /\
      exists d, fun_diff2 q dvec (o_shape o) o d /\ no_alias (oem_sel m t y jme) o (fst (snd d)).
  Proof.
    intros Hr NL Ho HO o. pose proof (est_attached r [K] Hr NL) as AT. pose proof (est_known _ _ _ _ MO r Hr) as HK.
    pose proof (oem_selects m t G y uv D jme q L S) as SE.
    assert (HS : forall e, e < prodn [K] -> sym_right shp (fs (r_name r)) (r_wrt r) (map (est_arg m t uv jme dvec e) (sf_args (fs (r_name r))))).
    { intros e He. rewrite prodn1 in He. rewrite (est_reg_wrt _ _ _ _ MO r Hr). now apply HR. }
    split.
    - apply (att_obj _ _ RE SE dvec HL sm shp fs r HK (fun _ => HO) _ _ _ _ AT HS); auto.
      intros w Hw. apply (sw_in _ _ _ (hf_wf _ _ _ _ _ HK)) in Hw. apply (proj1 (se_args _ _ _ _ MO r Hr NL)) in Hw.
      unfold piece_names, e_names in Hw. assert (Hb : batch_shape m t w = [] \/ batch_shape m t w = [K]).
      { destruct jme; cbn in Hw; intuition (subst; auto). }
      destruct Hb as [->| ->]; [exists [K]; reflexivity|exists []; reflexivity].
    - apply (att_diff2 _ _ RE SE dvec HL sm shp fs r HK (fun _ => HO) _ _ _ _ AT HS); auto. cbn [mk_optfun o_shape o]. now rewrite HO.
  Qed.
  Lemma L_obj : In (Reg true "L" (W "L")) (est_regs jme W) ->
    (exists d, obj_diff q dvec oL d) /\
      exists d, fun_diff2 q dvec (o_shape oL) oL d /\ no_alias (oem_sel m t y jme) oL (fst (snd d)).
  Proof.
    intros Hr. pose proof (L_attached Hr) as AT. pose proof (est_known _ _ _ _ MO _ Hr) as HK.
    pose proof (oem_selects m t G y uv D jme q L S) as SE. pose proof (se_oL _ _ _ _ MO) as HO.
    assert (HS : forall e, e < prodn [nm] -> sym_right shp (fs "L") (W "L") (map (meas_arg m t y uv jme dvec e) (sf_args (fs "L")))).
    { intros e He. rewrite prodn1 in He. unfold kmeas in He. rewrite map_length in He. now apply HR. }
    split.
    - apply (att_obj _ _ RE SE dvec HL sm shp fs _ HK (fun _ => HO) _ _ _ _ AT HS); auto.
      intros w Hw. unfold L_batch. destruct (String.eqb w "p"); [exists [nm]; reflexivity|exists []; reflexivity].
    - apply (att_diff2 _ _ RE SE dvec HL sm shp fs _ HK (fun _ => HO) _ _ _ _ AT HS); auto. cbn [mk_optfun o_shape oL r_name]. now rewrite HO.
  Qed.
  End Q.
End Est.

(** The functions of [m] are the generated ones. *)
Definition est_uses (m : colmodel R) (jme : bool) (h : string -> gfun R) : Prop :=
  m_e m = gen_fn (h "e") /\ m_Lmeas m = gen_fn (h "L") /\
  (jme = true -> m_tube_L m = gen_fn (h "tube_L") /\ (m_use_penalty m = true -> m_penalty m = gen_fn (h "penalty"))).

Lemma est_generated (m : colmodel R) jme sm fs W : symest_model m jme sm fs W ->
  exists sm' h, register_all sm (est_regs m jme W) = Ok sm' /\
    (forall r, In r (est_regs m jme W) -> generate_reg sm' r = Ok (h (r_name r))) /\
    (forall r, In r (est_regs m jme W) -> h (r_name r) = wanted (base_shape m) fs sm r).
Proof.
  intros MO. destruct (generate_all_ok (base_shape m) fs (est_regs m jme W) sm (est_apart m jme sm fs W MO) (est_known m jme sm fs W MO)) as (sm' & E1 & E2).
  set (h := fun f => wanted (base_shape m) fs sm (Reg (negb (String.eqb f "e")) f (W f))).
  assert (HQ : forall r, In r (est_regs m jme W) -> h (r_name r) = wanted (base_shape m) fs sm r).
  { intros r Hr. destruct (est_reg_cases m jme sm fs W MO r Hr) as [->|[->|[_ [->| ->]]]]; reflexivity. }
  exists sm', h. split; [exact E1|]. split; [|exact HQ]. intros r Hr. rewrite HQ by auto. auto.
Qed.

(** C67, output error estimation. *)
Theorem C67_oem (m : colmodel R) t y u uv sm fs W :
  good_grid m t -> good_data m t y uv -> input_values m t u = uv -> oem_small m t false -> symest_model m false sm fs W ->
  exists sm' h, register_all sm (symoem_regs W) = Ok sm' /\
    (forall r, In r (symoem_regs W) -> generate_reg sm' r = Ok (h (r_name r))) /\
    (est_uses m false h -> exists p, oem_problem m false t y u = Ok p /\
      forall dvec, length dvec = ndec p -> est_sym_right m t y uv false fs W dvec -> derivatives_right p dvec).
Proof.
  intros G D EU S MO. destruct (est_generated m false sm fs W MO) as (sm' & h & E1 & E2 & HQ). exists sm', h. split; [exact E1|]. split; [exact E2|].
  intros (Ue & UL & _). set (q := oem_prob m t y uv false). exists q. split; [now apply oem_problem_ok|]. intros dvec HL HR.
  assert (RE : reachable q) by exact (oem_reachable m t y uv false S).
  assert (LK : oem_like m t y uv false q) by apply oem_is_like. assert (EX : est_extra m t y uv false q) by apply oem_est_extra.
  assert (J : false = true -> jme_constants m) by discriminate.
  apply (assembled q (oem_sel m t y false)); auto.
  - exact (oem_selects m t G y uv D false q LK S).
  - change (p_constraints q) with [(Comp [npieces t; col_n (m_col m) - 1; m_nx m] 0, mk_optfun [npieces t; col_n (m_col m) - 1; m_nx m] (m_e m) None)].
    apply List.Forall_cons; [|apply List.Forall_nil]. cbn [fst snd].
    rewrite Ue. assert (Q : h "e" = wanted (base_shape m) fs sm (Reg false "e" (W "e"))) by (apply (HQ (Reg false "e" (W "e"))); cbn; auto). rewrite Q.
    apply (est_constr m t G y uv D false q LK S EX J RE sm fs W MO dvec HL HR (Reg false "e" (W "e"))); cbn; auto; try discriminate.
    now rewrite (se_oe _ _ _ _ _ MO).
  - change (p_objectives q) with [mk_optfun [length (kmeas (m_col m) y)] (m_Lmeas m) (Some ["y"; "xm"; "um"; "p"])].
    apply List.Forall_cons; [|apply List.Forall_nil].
    rewrite UL. assert (Q : h "L" = wanted (base_shape m) fs sm (Reg true "L" (W "L"))) by (apply (HQ (Reg true "L" (W "L"))); cbn; auto). rewrite Q.
    apply (L_obj m t G y uv D false q LK S EX J RE sm fs W MO dvec HL HR). cbn; auto.
Qed.
Print Assumptions C67_oem.

(** C67, joint MAP estimation, with and without the defect penalty. *)
Theorem C67_jme (m : colmodel R) t y u uv sm fs W :
  good_grid m t -> good_data m t y uv -> input_values m t u = uv -> oem_small m t true -> jme_constants m -> symest_model m true sm fs W ->
  exists sm' h, register_all sm (symjme_regs (m_use_penalty m) W) = Ok sm' /\
    (forall r, In r (symjme_regs (m_use_penalty m) W) -> generate_reg sm' r = Ok (h (r_name r))) /\
    (est_uses m true h -> exists p, jme_problem m t y u = Ok p /\
      forall dvec, length dvec = ndec p -> est_sym_right m t y uv true fs W dvec -> derivatives_right p dvec).
Proof.
  intros G D EU S JC MO. destruct (est_generated m true sm fs W MO) as (sm' & h & E1 & E2 & HQ). exists sm', h. split; [exact E1|]. split; [exact E2|].
  intros (Ue & UL & UJ). destruct (UJ eq_refl) as [Ut Up]. set (q := jme_prob m t y uv). exists q. split; [now apply jme_problem_ok|]. intros dvec HL HR.
  assert (RE : reachable q) by exact (jme_reachable m t y uv S).
  assert (LK : oem_like m t y uv true q) by apply jme_is_like. assert (EX : est_extra m t y uv true q) by apply jme_est_extra.
  assert (J : true = true -> jme_constants m) by auto.
  assert (Ie : In (Reg false "e" (W "e")) (est_regs m true W)) by (cbn; auto).
  assert (IL : In (Reg true "L" (W "L")) (est_regs m true W)) by (cbn; auto).
  assert (It : In (Reg true "tube_L" (W "tube_L")) (est_regs m true W)) by (cbn; auto).
  assert (Ip : m_use_penalty m = true -> In (Reg true "penalty" (W "penalty")) (est_regs m true W))
    by (intros EP; unfold est_regs, symjme_regs; rewrite EP; cbn; auto 8).
  assert (HO : forall r, In r (est_regs m true W) -> r_name r <> "L" -> r_name r <> "e" -> sf_out (fs (r_name r)) = []).
  { intros r Hr NL NE. now apply (se_args _ _ _ _ _ MO r Hr NL). }
  apply (assembled q (oem_sel m t y true)); auto.
  - exact (oem_selects m t G y uv D true q LK S).
  - replace (p_constraints q) with [(Comp [npieces t; col_n (m_col m) - 1; m_nx m] 0, mk_optfun [npieces t; col_n (m_col m) - 1; m_nx m] (m_e m) None)]
      by (unfold q, jme_prob, jme_ops; destruct (m_use_penalty m); reflexivity).
    apply List.Forall_cons; [|apply List.Forall_nil]. cbn [fst snd].
    rewrite Ue. assert (Q : h "e" = wanted (base_shape m) fs sm (Reg false "e" (W "e"))) by exact (HQ _ Ie). rewrite Q.
    apply (est_constr m t G y uv D true q LK S EX J RE sm fs W MO dvec HL HR (Reg false "e" (W "e"))); auto; try discriminate.
    cbn [r_name]. now rewrite (se_oe _ _ _ _ _ MO).
  - replace (p_objectives q) with ([mk_optfun [length (kmeas (m_col m) y)] (m_Lmeas m) (Some ["y"; "xm"; "um"; "p"]); mk_optfun [npieces t] (m_tube_L m) None]
         ++ (if m_use_penalty m then [mk_optfun [npieces t] (m_penalty m) None] else []))
        by (unfold q, jme_prob, jme_ops; destruct (m_use_penalty m); reflexivity).
    apply List.Forall_app. split; [apply List.Forall_cons; [|apply List.Forall_cons; [|apply List.Forall_nil]]|].
    + rewrite UL. assert (Q : h "L" = wanted (base_shape m) fs sm (Reg true "L" (W "L"))) by exact (HQ _ IL). rewrite Q.
      now apply (L_obj m t G y uv D true q LK S EX J RE sm fs W MO dvec HL HR).
    + rewrite Ut. assert (Q : h "tube_L" = wanted (base_shape m) fs sm (Reg true "tube_L" (W "tube_L"))) by exact (HQ _ It). rewrite Q.
      apply (est_obj m t G y uv D true q LK S EX J RE sm fs W MO dvec HL HR (Reg true "tube_L" (W "tube_L"))); auto; try discriminate.
      apply HO; auto; discriminate.
    + destruct (m_use_penalty m) eqn:EP; [|apply List.Forall_nil]. apply List.Forall_cons; [|apply List.Forall_nil].
      specialize (Ip eq_refl). rewrite (Up eq_refl).
      assert (Q : h "penalty" = wanted (base_shape m) fs sm (Reg true "penalty" (W "penalty"))) by exact (HQ _ Ip). rewrite Q.
      apply (est_obj m t G y uv D true q LK S EX J RE sm fs W MO dvec HL HR (Reg true "penalty" (W "penalty"))); auto; try discriminate.
      apply HO; auto; discriminate.
Qed.
Print Assumptions C67_jme.
