(** C86, continued: when the elements of a model are different symbols, and
    what differentiation and evaluation make of symbols that coincide. *)
From Coq Require Import String Ascii List ZArith Bool Arith Lia Reals Lra.
Require Import Verif.Py Verif.NdArray Verif.SymModel Verif.DictLemmas Verif.Expr Verif.ExprModel Verif.ExprSym Verif.ElemModel Verif.ElemLemmas Verif.PropsElem.
Import ListNotations.
Local Open Scope string_scope.

(** *** C86_layout: which element has which name *)
Lemma nth_rows {A} (f : nat -> list A) c j k n d : (forall k, length (f k) = c) -> k < n -> j < c -> nth (k * c + j) (flat_map f (seq 0 n)) d = nth j (f k) d.
Proof.
  intros Hc Hk Hj. assert (H : forall s, nth (k * c + j) (flat_map f (seq s n)) d = nth j (f (s + k)) d); [|apply (H 0)].
  revert k Hk. induction n; intros k Hk s; [lia|]. cbn [seq flat_map]. destruct k.
  - rewrite app_nth1 by (rewrite Hc; lia). now rewrite Nat.add_0_r.
  - rewrite app_nth2 by (rewrite Hc; lia). rewrite Hc. replace (S k * c + j - c) with (k * c + j) by lia. rewrite IHn by lia. f_equal. f_equal. lia.
Qed.
Lemma flat_rows_length {A} (f : nat -> list A) c n : (forall k, length (f k) = c) -> length (flat_map f (seq 0 n)) = n * c.
Proof. intros Hc. generalize 0 as s. induction n; intros s; auto. cbn [seq flat_map]. rewrite app_length, IHn, Hc. lia. Qed.

Theorem C86_layout : forall ncol (l : list string), length (piece_names ncol l) = ncol * length l
  /\ (forall k j, k < ncol -> j < length l -> nth (k * length l + j) (piece_names ncol l) "" = nth j l "" ++ "_piece_" ++ decimal k)
  /\ length (end_names l) = 2 * length l
  /\ (forall j, j < length l -> nth j (end_names l) "" = nth j l "" ++ "_initial" /\ nth (length l + j) (end_names l) "" = nth j l "" ++ "_final")
  /\ (forall nw ni, length (wc_names nw ni) = ni * nw
      /\ forall i j, i < ni -> j < nw -> nth (i * nw + j) (wc_names nw ni) "" = "wc" ++ decimal j ++ "_interv_" ++ decimal i)
  /\ (forall nx, length (penweight_names nx) = nx /\ forall i, i < nx -> nth i (penweight_names nx) "" = "penweight" ++ decimal i).
Proof.
  intros ncol l. split; [apply piece_names_length|]. split; [|split; [|split; [|split]]].
  - intros k j Hk Hj. unfold piece_names. rewrite nth_rows by (auto; intros; apply map_length).
    rewrite (nth_indep _ _ (piece_name "" k)) by now rewrite map_length. now rewrite map_nth with (f := fun n => piece_name n k).
  - unfold end_names. rewrite app_length, !map_length. lia.
  - intros j Hj. unfold end_names. split.
    + rewrite app_nth1 by now rewrite map_length. rewrite (nth_indep _ _ (initial_name "")) by now rewrite map_length. now rewrite map_nth.
    + rewrite app_nth2 by (rewrite map_length; lia). rewrite map_length. replace (length l + j - length l) with j by lia.
      rewrite (nth_indep _ _ (final_name "")) by now rewrite map_length. now rewrite map_nth.
  - intros nw ni. unfold wc_names. split; [apply flat_rows_length; intros; now rewrite map_length, seq_length|]. intros i j Hi Hj.
    rewrite nth_rows by (auto; intros; now rewrite map_length, seq_length).
    rewrite (nth_indep _ _ (wc_name 0 i)) by now rewrite map_length, seq_length. rewrite map_nth with (f := fun j => wc_name j i). now rewrite seq_nth.
  - intros nx. unfold penweight_names. split; [now rewrite map_length, seq_length|]. intros i Hi.
    rewrite (nth_indep _ _ (penweight_name 0)) by now rewrite map_length, seq_length. rewrite map_nth. now rewrite seq_nth.
Qed.

(** *** C86_distinct: when no two elements share a name *)
Lemma own_x gens m w : dget String.eqb gens w = None -> forall l, m w = Some l -> own gens (completed m) w = Some l.
Proof. intros H l Hl. unfold own, completed. now rewrite H, Hl. Qed.
Lemma own_NoDup gens m w : dget String.eqb gens w = None -> distinct (own gens (completed m)) -> NoDup (names m w).
Proof.
  intros Hg H. apply distinct_alt in H as (H & _). unfold names. destruct (m w) eqn:E; [|constructor]. apply (H w). now apply own_x.
Qed.
Lemma own_disj gens m w w' n : dget String.eqb gens w = None -> dget String.eqb gens w' = None -> w <> w' -> distinct (own gens (completed m)) ->
  In n (names m w) -> ~ In n (names m w').
Proof.
  intros Hg Hg' Hw H Hn Hn'. apply distinct_alt in H as (_ & H). unfold names in *. destruct (m w) eqn:E; [|destruct Hn]. destruct (m w') eqn:E'; [|destruct Hn'].
  apply Hw. apply (H w w' l l0 n); auto using own_x.
Qed.
Lemma gens_pieces ncol (x u : list string) : NoDup x -> NoDup u -> (forall n, In n x -> ~ In n u) -> NoDup (piece_names ncol x ++ piece_names ncol u).
Proof.
  intros Hx Hu Hd. apply NoDup_app_intro; auto using NoDup_piece_names. intros s H H'.
  apply In_piece_names in H as (n & k & Hn & _ & ->). apply In_piece_names in H' as (n' & k' & Hn' & _ & E).
  apply piece_name_inj in E as (<- & _). now apply (Hd n).
Qed.
Lemma In_pieces2 ncol x u s : In s (piece_names ncol x ++ piece_names ncol u)%list -> exists n k, s = piece_name n k.
Proof. rewrite in_app_iff. intros [H|H]; apply In_piece_names in H as (n & k & _ & _ & ->); eauto. Qed.
Ltac keys := repeat constructor; cbn; intuition discriminate.

Theorem C86_distinct_col : forall ncol (m : naming), let gens := col_gens ncol m in
  distinct (overlay gens (completed m)) <-> distinct (own gens (completed m)) /\ apart gens (completed m).
Proof.
  intros ncol m gens. rewrite distinct_overlay. split; [tauto|]. intros (H & A). split; auto. split; auto.
  apply distinct_dget; [|keys]. cbn [gens col_gens flat_map snd]. rewrite app_nil_r.
  apply gens_pieces; eauto using (own_NoDup gens). intros n. now apply (own_disj gens).
Qed.
Theorem C86_distinct_oc : forall ncol (m : naming), let gens := oc_gens ncol m in
  distinct (overlay gens (completed m)) <-> distinct (own gens (completed m)) /\ apart gens (completed m).
Proof.
  intros ncol m gens. rewrite distinct_overlay. split; [tauto|]. intros (H & A). split; auto. split; auto.
  apply distinct_dget; [|keys]. cbn [gens oc_gens col_gens flat_map snd app]. rewrite app_nil_r, app_assoc.
  apply NoDup_app_intro; [apply gens_pieces| |]; eauto using (own_NoDup gens), NoDup_end_names.
  - intros n. now apply (own_disj gens).
  - intros s Hs Hs'. apply In_pieces2 in Hs as (n & k & ->). apply In_end_names in Hs' as (n' & _ & [E|E]); [now apply piece_initial in E|now apply piece_final in E].
Qed.
Theorem C86_distinct_jme : forall pen ncol ninterv nw (m : naming), let gens := jme_gens pen ncol ninterv nw m in
  distinct (overlay gens (completed m)) <-> distinct (own gens (completed m)) /\ apart gens (completed m).
Proof.
  intros pen ncol ni nw m gens. rewrite distinct_overlay. split; [tauto|]. intros (H & A). split; auto. split; auto.
  assert (HP : NoDup (piece_names ncol (names m "x") ++ piece_names ncol (names m "u"))).
  { apply gens_pieces; eauto using (own_NoDup gens); try (apply (own_NoDup gens); auto; now destruct pen). intros n. apply (own_disj gens); auto; try now destruct pen. }
  apply distinct_dget; [|destruct pen; keys]. destruct pen; cbn [gens jme_gens col_gens flat_map snd app]; rewrite app_nil_r, app_assoc.
  - apply NoDup_app_intro; auto.
    + apply NoDup_app_intro; auto using NoDup_wc_names, NoDup_penweight_names. intros s Hs Hs'.
      apply In_wc_names in Hs as (j & i & _ & _ & ->). apply In_penweight_names in Hs' as (i' & _ & E). now apply wc_pen in E.
    + intros s Hs Hs'. apply In_pieces2 in Hs as (n & k & ->). apply in_app_iff in Hs' as [Hs'|Hs'].
      * apply In_wc_names in Hs' as (j & i & _ & _ & E). now apply piece_wc in E.
      * apply In_penweight_names in Hs' as (i' & _ & E). now apply piece_pen in E.
  - apply NoDup_app_intro; auto using NoDup_wc_names. intros s Hs Hs'. apply In_pieces2 in Hs as (n & k & ->).
    apply In_wc_names in Hs' as (j & i & _ & _ & E). now apply piece_wc in E.
Qed.

(** Names of the user without the endings of derived names are enough. *)
Definition ends_with (t s : string) : Prop := exists b, s = b ++ t.
Definition plain (s : string) : Prop :=
  ~ ends_with "_initial" s /\ ~ ends_with "_final" s /\ (forall k, ~ ends_with ("_piece_" ++ decimal k) s)
  /\ (forall k, ~ ends_with ("_interv_" ++ decimal k) s) /\ (forall k, s <> "penweight" ++ decimal k).
Lemma sapp_assoc (a b c : string) : ((a ++ b) ++ c = a ++ (b ++ c)).
Proof. induction a; cbn; congruence. Qed.
Theorem C86_plain : forall pen ncol ninterv nw (m : naming),
  (forall w l n, completed m w = Some l -> In n l -> plain n) ->
  apart (col_gens ncol m) (completed m) /\ apart (oc_gens ncol m) (completed m) /\ apart (jme_gens pen ncol ninterv nw m) (completed m).
Proof.
  intros pen ncol ni nw m H.
  assert (HO : forall gens w l n, own gens (completed m) w = Some l -> In n l -> plain n).
  { intros gens w l n. unfold own. destruct (dget String.eqb gens w); [discriminate|]. apply H. }
  assert (HA : forall gens, (forall kg s, In kg gens -> In s (snd kg) -> ~ plain s) -> apart gens (completed m)).
  { intros gens Hg w l n k g Hl Hn Hk Hi. apply (dget_In _ String.eqb_spec) in Hk. apply (Hg _ _ Hk Hi). eapply HO; eauto. }
  assert (P : forall l s, In s (piece_names ncol l) -> ~ plain s).
  { intros l s Hs (_ & _ & Hp & _). apply In_piece_names in Hs as (n & k & _ & _ & ->). apply (Hp k). now exists n. }
  assert (E : forall l s, In s (end_names l) -> ~ plain s).
  { intros l s Hs (H1 & H2 & _). apply In_end_names in Hs as (n & _ & [->| ->]); [apply H1|apply H2]; now exists n. }
  assert (W : forall s, In s (wc_names nw ni) -> ~ plain s).
  { intros s Hs (_ & _ & _ & Hp & _). apply In_wc_names in Hs as (j & i & _ & _ & ->). apply (Hp i). exists ("wc" ++ decimal j). unfold wc_name. now rewrite sapp_assoc. }
  assert (Q : forall l s, In s (penweight_names l) -> ~ plain s).
  { intros l s Hs (_ & _ & _ & _ & Hp). apply In_penweight_names in Hs as (i & _ & ->). now apply (Hp i). }
  split; [|split]; apply HA; intros [k g] s Hk Hs; cbn [snd] in Hs.
  - cbn in Hk. destruct Hk as [[= <- <-]|[[= <- <-]|[]]]; eauto.
  - cbn in Hk. destruct Hk as [[= <- <-]|[[= <- <-]|[[= <- <-]|[]]]]; eauto.
  - unfold jme_gens in Hk. cbn in Hk. destruct Hk as [[= <- <-]|[[= <- <-]|[[= <- <-]|Hk]]]; eauto. destruct pen; [|destruct Hk]. destruct Hk as [[= <- <-]|[]]; eauto.
Qed.

(** *** C86_derivative: differentiating by the symbols *)
Lemma with_symbols_udiff m u a : with_symbols m (udiff u a) = udiff u (with_symbols m a).
Proof. destruct u; reflexivity. Qed.
Theorem C86_derivative : forall (m : naming) args e w i, distinct m -> scoped (size_of m) args e -> i < size_of m w ->
  symbol_diff m w i (with_symbols m e) = with_symbols m (dif w i e).
Proof.
  intros m args e w i D S Hi. unfold symbol_diff, dif. induction e; cbn [with_symbols esubst ddir scoped] in *; auto.
  - destruct S as (_ & Hj). unfold unit_dir. cbn [Nat.eqb]. rewrite Bool.andb_true_r.
    destruct (String.eqb_spec (name_of m w i) (name_of m w0 i0)) as [E|E].
    + apply D in E as (-> & ->); auto. now rewrite String.eqb_refl, Nat.eqb_refl.
    + destruct (String.eqb_spec w w0) as [->|]; auto. destruct (Nat.eqb_spec i i0) as [->|]; auto. congruence.
  - destruct S. f_equal; auto.
  - destruct S. f_equal; f_equal; auto.
  - f_equal; auto. symmetry. apply with_symbols_udiff.
Qed.
Theorem C86_derivative2 : forall (m : naming) args e w i w' i', distinct m -> scoped (size_of m) args e -> i < size_of m w -> i' < size_of m w' ->
  symbol_diff m w' i' (symbol_diff m w i (with_symbols m e)) = with_symbols m (dif w' i' (dif w i e)).
Proof.
  intros. rewrite (C86_derivative m args) by auto. apply (C86_derivative m args); auto. now apply scoped_ddir.
Qed.
(** Conversely symbols in common give a wrong derivative, already of a single
    element. *)
Theorem C86_derivative_only : forall (m : naming),
  (forall w i w' i', i < size_of m w -> i' < size_of m w' ->
     symbol_diff m w i (with_symbols m (Var w' i')) = with_symbols m (dif w i (Var w' i'))) -> distinct m.
Proof.
  intros m H w i w' i' Hi Hi' E. specialize (H w i w' i' Hi Hi'). unfold symbol_diff, dif in H. cbn in H. unfold unit_dir in H.
  rewrite E, String.eqb_refl in H. cbn in H. destruct (String.eqb_spec w w') as [->|]; cbn in H; [|exfalso; injection H; lra].
  destruct (Nat.eqb_spec i i') as [->|]; auto. exfalso. injection H. lra.
Qed.

(** *** C86_value: evaluating at the arguments *)
Lemma unpacked_keys m args (arg : string -> list R) : (forall w, In w args -> length (arg w) = size_of m w) ->
  map fst (unpacked m args (map arg args)) = flat_map (names m) args.
Proof.
  unfold unpacked. induction args as [|w args IH]; intros H; auto. cbn [map combine flat_map fst snd]. rewrite map_app, IH by (intros; apply H; now right).
  f_equal. unfold names. pose proof (H w (or_introl eq_refl)) as Hl. unfold size_of in Hl. destruct (m w); auto. now apply map_fst_combine.
Qed.
Lemma unpacked_In m args (arg : string -> list R) w i : (forall w, In w args -> length (arg w) = size_of m w) -> In w args -> i < size_of m w ->
  In (name_of m w i, nth i (arg w) 0%R) (unpacked m args (map arg args)).
Proof.
  intros H Hw Hi. unfold unpacked. apply in_flat_map. exists (w, arg w). split.
  - clear -Hw. induction args; cbn in *; [easy|]. destruct Hw as [->|]; auto.
  - cbn [fst snd]. specialize (H w Hw). unfold name_of, size_of in *. destruct (m w) as [l|]; [|lia].
    assert (E : (nth i l "", nth i (arg w) 0%R) = nth i (combine l (arg w)) ("", 0%R)) by (rewrite combine_nth; auto).
    rewrite E. apply nth_In. rewrite combine_length, H. lia.
Qed.
Theorem C86_value : forall (m : naming) args e (arg : string -> list R), distinct m -> NoDup args -> scoped (size_of m) args e ->
  (forall w, In w args -> length (arg w) = size_of m w) ->
  eval (symbol_env m args (map arg args)) (with_symbols m e) = eval (fun w i => nth i (arg w) 0%R) e.
Proof.
  intros m args e arg D HN S HL.
  assert (K : NoDup (map fst (unpacked m args (map arg args)))).
  { rewrite unpacked_keys by auto. apply distinct_alt in D as (D1 & D2). apply NoDup_flat; auto.
    - intros w _. unfold names. destruct (m w) eqn:E; [eauto|constructor].
    - intros w w' n. unfold names. destruct (m w) eqn:E; [|intros []]. destruct (m w') eqn:E'; [|intros _ []]. eauto. }
  induction e; cbn [with_symbols esubst eval scoped] in *; auto.
  - destruct S as (Hw & Hi). unfold symbol_env. rewrite (dget_rev _ String.eqb_spec) by auto.
    now rewrite (In_dget _ String.eqb_spec _ _ (nth i (arg w) 0%R)) by auto using unpacked_In.
  - destruct S. f_equal; auto.
  - destruct S. f_equal; auto.
  - f_equal; auto.
Qed.
(** Elements with a common symbol are read from one of the arguments. *)
Theorem C86_value_only : forall (m : naming) args w i w' i' (A : list (list R)), name_of m w i = name_of m w' i' ->
  eval (symbol_env m args A) (with_symbols m (Var w i)) = eval (symbol_env m args A) (with_symbols m (Var w' i')).
Proof. intros m args w i w' i' A E. cbn. now rewrite E. Qed.

(** *** C86_generated: the functions generated from the symbols *)
(** As [sym_fun], with the expressions written in symbols, differentiated by
    symbols and evaluated with the arguments unpacked into symbols. *)
Definition symbol_expr (m : naming) (args : list string) (e : expr) : SymModel.sexpr R := SymModel.SE (negb (zerob e)) (fun A => eval (symbol_env m args A) e).
Definition symbol_fun (m : naming) (args : list string) (out : NdArray.shape) (es : list expr) : SymModel.sfun R :=
  SymModel.SF args out (map (fun e => symbol_expr m args (with_symbols m e)) es) (fun k =>
    match k with
    | [a] => flat_map (fun i => map (fun e => symbol_expr m args (symbol_diff m a i (with_symbols m e))) es) (seq 0 (size_of m a))
    | [a; b] => flat_map (fun i => flat_map (fun j => map (fun e => symbol_expr m args (symbol_diff m b j (symbol_diff m a i (with_symbols m e)))) es)
                  (seq 0 (size_of m b))) (seq 0 (size_of m a))
    | _ => []
    end).
Definition agree (m : naming) (args : list string) (s t : SymModel.sexpr R) : Prop :=
  SymModel.se_nz s = SymModel.se_nz t /\ forall arg, (forall w, In w args -> length (arg w) = size_of m w) ->
    SymModel.se_eval s (map arg args) = SymModel.se_eval t (map arg args).
Lemma zerob_symbols m e : zerob (with_symbols m e) = zerob e.
Proof. unfold with_symbols. induction e; cbn [esubst zerob]; auto; congruence. Qed.
Lemma agree_expr m args e : distinct m -> NoDup args -> scoped (size_of m) args e -> agree m args (symbol_expr m args (with_symbols m e)) (sym_expr args e).
Proof.
  intros D HN S. split; cbn; [now rewrite zerob_symbols|]. intros arg HL. rewrite C86_value by auto. apply (eval_scoped (size_of m) args); auto.
  intros w i Hw Hi. now rewrite arg_env_map.
Qed.
Lemma Forall2_flat {A B C} (P : B -> C -> Prop) (f : A -> list B) (g : A -> list C) l : (forall a, In a l -> Forall2 P (f a) (g a)) -> Forall2 P (flat_map f l) (flat_map g l).
Proof. induction l; cbn; intros H; [constructor|]. apply Forall2_app; auto. Qed.
Lemma Forall2_maps {A B C} (P : B -> C -> Prop) (f : A -> B) (g : A -> C) l : (forall a, In a l -> P (f a) (g a)) -> Forall2 P (map f l) (map g l).
Proof. induction l; cbn; intros H; constructor; auto. Qed.
Theorem C86_generated : forall (m : naming) args out es, distinct m -> NoDup args -> (forall e, In e es -> scoped (size_of m) args e) ->
  let f := symbol_fun m args out es in let g := sym_fun (size_of m) args out es in
  SymModel.sf_args f = SymModel.sf_args g /\ SymModel.sf_out f = SymModel.sf_out g
  /\ Forall2 (agree m args) (SymModel.sf_expr f) (SymModel.sf_expr g)
  /\ forall k, Forall2 (agree m args) (SymModel.sf_deriv f k) (SymModel.sf_deriv g k).
Proof.
  intros m args out es D HN S f g. split; [reflexivity|]. split; [reflexivity|]. split.
  - apply Forall2_maps. intros e He. apply agree_expr; auto.
  - intros k. destruct k as [|a [|b [|c k]]]; try constructor; cbn [f g symbol_fun sym_fun SymModel.sf_deriv].
    + apply Forall2_flat. intros i Hi. apply in_seq in Hi. apply Forall2_maps. intros e He.
      rewrite (C86_derivative m args) by (auto; lia). apply agree_expr; auto. apply scoped_ddir; auto.
    + apply Forall2_flat. intros i Hi. apply in_seq in Hi. apply Forall2_flat. intros j Hj. apply in_seq in Hj. apply Forall2_maps. intros e He.
      rewrite (C86_derivative2 m args) by (auto; lia). apply agree_expr; auto. do 2 apply scoped_ddir; auto.
Qed.

(** *** C86_model: for the models of the code *)
(** The elements of an optimal control model are different symbols exactly when
    the user's names are different and none of them is a derived name. *)
Theorem C86_model : forall ncol (user : vdict) after v, NoDup (map fst user) -> symoc_init ncol user = (after, Ok v) ->
  let m := completed (naming_of user) in let gens := oc_gens ncol (naming_of user) in
  (distinct (naming_of v) <-> distinct (own gens m) /\ apart gens m)
  (* another model from the dictionary left behind has the same variables *)
  /\ exists v', symoc_init ncol after = (after, Ok v') /\ forall w, naming_of v' w = naming_of v w.
Proof.
  intros ncol user after v HN H m gens. destruct (C86_symoc ncol user HN) as (HV & HO).
  destruct (dget String.eqb user "x") as [X|] eqn:EX; [|rewrite HV in H by auto; discriminate].
  destruct HO as (after' & v1 & E & HK & HKv & Hv & Ha); [discriminate|]. rewrite E in H. injection H as <- <-. split.
  - subst m gens. rewrite <- (C86_distinct_oc ncol (naming_of user)). split; apply distinct_ext; intros w; now rewrite Hv.
  - assert (Ex : naming_of after' "x" = naming_of user "x") by (rewrite Ha; cbn; unfold naming_of; rewrite EX; reflexivity).
    assert (NX : names (naming_of after') "x" = names (naming_of user) "x") by (unfold names; now rewrite Ex).
    assert (NU : names (naming_of after') "u" = names (naming_of user) "u") by (unfold names; rewrite Ha; cbn; destruct (naming_of user "u"); auto).
    assert (HS : fst (symoc_init ncol after') = after').
    { unfold symoc_init. assert (EXA : exists XA, dget String.eqb after' "x" = Some XA /\ v_elems XA = names (naming_of user) "x").
      { unfold naming_of in Ex. rewrite EX in Ex. destruct (dget String.eqb after' "x") as [XA|] eqn:E'; [|discriminate]. exists XA. split; auto.
        cbn in Ex. injection Ex as ->. unfold names, naming_of. now rewrite EX. }
      destruct EXA as (XA & -> & EA). cbn [fst]. unfold symoc_init in E. rewrite EX in E. injection E as E _.
      assert (EE : end_names (v_elems XA) = end_names (v_elems X)) by (rewrite EA; unfold names, naming_of; now rewrite EX).
      rewrite EE. clear -E. set (s := listed (end_names (v_elems X))) in *.
      assert (S1 : forall (d : vdict) k x, dget String.eqb d k = Some x -> dset String.eqb d k x = d).
      { induction d as [|[k0 v0] d IH]; cbn; [discriminate|]. intros k x. destruct (String.eqb_spec k k0) as [->|]; [now intros [= ->]|]. intros. now rewrite IH. }
      assert (S2 : forall d k x, dget String.eqb d k <> None -> setdefault d k x = d).
      { intros d k x Hd. unfold setdefault, dmem. destruct (dget String.eqb d k); auto. congruence. }
      assert (A : dget String.eqb after' "xe" = Some s) by (rewrite <- E, !dget_setdefault, (dget_dset _ String.eqb_spec); reflexivity).
      assert (B : dget String.eqb after' "p" <> None).
      { rewrite <- E, !dget_setdefault. now destruct (dget String.eqb (dset String.eqb user "xe" s) "p"). }
      assert (C : dget String.eqb after' "u" <> None).
      { rewrite <- E, !dget_setdefault. now destruct (dget String.eqb (dset String.eqb user "xe" s) "u"). }
      now rewrite (S1 _ _ _ A), (S2 _ _ _ B), (S2 _ _ _ C). }
    destruct (C86_symoc ncol after' HK) as (_ & HO'). destruct HO' as (a2 & v2 & E2 & _ & _ & Hv2 & _).
    { intros En. apply naming_None in En. rewrite Ex in En. unfold naming_of in En. now rewrite EX in En. }
    rewrite E2 in HS. cbn in HS. subst a2. exists v2. split; auto. intros w. rewrite Hv2, Hv. unfold overlay, oc_gens, col_gens, completed.
    rewrite NX, NU, Ha. cbn [app dget]. destruct (String.eqb w "xp"); auto. destruct (String.eqb w "up"); auto. destruct (String.eqb_spec w "xe"); auto.
    destruct (naming_of user w); auto. destruct (String.eqb_spec w "p"); subst; auto. destruct (String.eqb_spec w "u"); subst; auto.
Qed.

(** A variable of the user with the name of a derived element. *)
Theorem C86_collision : forall ncol (user : vdict) v w l n k, NoDup (map fst user) -> symcol_variables ncol user = Ok v ->
  In n (names (naming_of user) "x") -> k < ncol -> w <> "xp" -> w <> "up" -> naming_of user w = Some l -> In (n ++ "_piece_" ++ decimal k) l ->
  ~ distinct (naming_of v).
Proof.
  intros ncol user v w l n k HN H Hn Hk H1 H2 Hl Hi D. destruct (C86_symcol ncol user HN) as (HV & HO).
  destruct (dget String.eqb user "x") as [X|] eqn:EX; [|rewrite HV in H by auto; discriminate].
  destruct HO as (v' & E & _ & Hv); [discriminate|]. rewrite E in H. injection H as <-.
  apply (distinct_ext _ _ Hv) in D. apply C86_distinct_col in D as (_ & A).
  apply (A w l (piece_name n k) "xp" (piece_names ncol (names (naming_of user) "x"))); auto.
  - unfold own, col_gens, completed. cbn [dget]. destruct (String.eqb_spec w "xp"); [easy|]. destruct (String.eqb_spec w "up"); [easy|]. now rewrite Hl.
  - apply In_piece_names. eauto.
Qed.

(** *** Examples *)
(** A model with two states, an input and a parameter: the hypotheses hold. *)
Definition ex_user : vdict := [("x", listed ["x1"; "x2"]); ("u", listed ["u"]); ("p", listed ["k"])].
Lemma ex_own : distinct (own (oc_gens 3 (naming_of ex_user)) (completed (naming_of ex_user))).
Proof.
  apply distinct_ext with (m := dget String.eqb [("x", ["x1"; "x2"]); ("u", ["u"]); ("p", ["k"]); ("piece_len", ["piece_len"])]).
  - intros w. unfold own, completed, naming_of, oc_gens, col_gens, ex_user. cbn [app dget names]. 
    destruct (String.eqb_spec w "x"); [subst; reflexivity|]. destruct (String.eqb_spec w "u"); [subst; reflexivity|].
    destruct (String.eqb_spec w "p"); [subst; reflexivity|]. destruct (String.eqb_spec w "piece_len"); [subst; reflexivity|].
    destruct (String.eqb w "xp"); auto. destruct (String.eqb w "up"); auto. destruct (String.eqb w "xe"); auto.
  - apply distinct_dget; cbn; repeat constructor; cbn; intuition discriminate.
Qed.
Example C86_nonvacuous : exists after v, symoc_init 3 ex_user = (after, Ok v) /\ distinct (naming_of v)
  /\ naming_of v "xp" = Some ["x1_piece_0"; "x2_piece_0"; "x1_piece_1"; "x2_piece_1"; "x1_piece_2"; "x2_piece_2"]
  /\ naming_of v "xe" = Some ["x1_initial"; "x2_initial"; "x1_final"; "x2_final"].
Proof.
  assert (HN : NoDup (map fst ex_user)) by (cbn; repeat constructor; cbn; intuition discriminate).
  destruct (C86_symoc 3 ex_user HN) as (_ & H). destruct H as (after & v & E & _); [discriminate|]. exists after, v. split; auto.
  destruct (C86_model 3 ex_user after v HN E) as (D & _). split.
  - apply D. split; [apply ex_own|]. apply (C86_plain false 3 2 1). intros w l n Hl Hn.
    assert (HC : In n ["x1"; "x2"; "u"; "k"; "piece_len"]).
    { unfold completed, naming_of, ex_user in Hl. cbn [dget] in Hl.
      destruct (String.eqb w "x"); [cbn in Hl; injection Hl as <-; cbn in Hn |- *; intuition|].
      destruct (String.eqb w "u"); [cbn in Hl; injection Hl as <-; cbn in Hn |- *; intuition|].
      destruct (String.eqb w "p"); [cbn in Hl; injection Hl as <-; cbn in Hn |- *; intuition|].
      cbn in Hl. destruct (String.eqb w "piece_len"); [|discriminate].
      injection Hl as <-. cbn in Hn |- *. intuition. }
    assert (HL : String.length n <= 9 /\ (n = "piece_len" \/ String.length n < 6)) by (cbn in HC; intuition; subst; cbn; lia).
    assert (EW : forall t, ends_with t n -> exists b, rl n = (rl t ++ rl b)%list) by (intros t (b & ->); exists b; apply rl_app).
    assert (LL : forall s, length (rl s) = String.length s).
    { intros s. unfold rl. rewrite rev_length. induction s; cbn; auto. }
    assert (DL : forall k, exists d r, digit d = true /\ rl (decimal k) = d :: r).
    { intros k. pose proof (digits_decimal k) as F. destruct (C86_decimal k) as (NE & _). destruct (rl (decimal k)) as [|d r] eqn:ER.
      - exfalso. apply NE. apply rl_inj. now rewrite ER.
      - inversion_clear F. eauto. }
    assert (LN : forall t, 6 <= String.length t -> n <> "piece_len" -> ~ ends_with t n).
    { intros t Ht Hne He. apply EW in He as (b & He). apply (f_equal (@length _)) in He. rewrite app_length, !LL in He. destruct HL as (_ & [?|?]); [easy|lia]. }
    destruct (string_dec n "piece_len") as [->|Hne].
    + repeat split.
      * intros He. apply EW in He as (b & He). discriminate.
      * intros He. apply EW in He as (b & He). discriminate.
      * intros k He. apply EW in He as (b & He). rewrite rl_app in He. destruct (DL k) as (d & r & Hd & Er). rewrite Er in He. cbn in He. injection He as He _. now subst d.
      * intros k He. apply EW in He as (b & He). rewrite rl_app in He. destruct (DL k) as (d & r & Hd & Er). rewrite Er in He. cbn in He. injection He as He _. now subst d.
      * intros k He. discriminate.
    + assert (PL : forall k, 6 <= String.length ("_piece_" ++ decimal k) /\ 6 <= String.length ("_interv_" ++ decimal k) /\ 6 <= String.length ("penweight" ++ decimal k)).
      { intros k. rewrite <- !LL, !rl_app, !app_length. change (length (rl "_piece_")) with 7. change (length (rl "_interv_")) with 8. change (length (rl "penweight")) with 9. lia. }
      repeat split; try (apply LN; auto; cbn; lia).
      * intros k. apply LN; auto. apply PL.
      * intros k. apply LN; auto. apply PL.
      * intros k ->. pose proof (PL k). destruct HL as (_ & [?|?]); [easy|lia].
  - vm_compute in E. injection E as _ <-. now vm_compute.
Qed.
(** A parameter called [a_piece_0] beside a state [a]: the derivative of the
    first collocation point by the parameter is 1, and the value of the point
    is that of the parameter. *)
Example C86_alias : exists v, symcol_variables 2 [("x", listed ["a"]); ("p", listed ["a_piece_0"])] = Ok v
  /\ ~ distinct (naming_of v)
  /\ symbol_diff (naming_of v) "p" 0 (with_symbols (naming_of v) (Var "xp" 0)) = Cst 1
  /\ dif "p" 0 (Var "xp" 0) = Cst 0
  /\ eval (symbol_env (naming_of v) ["xp"; "p"] [[3; 4]; [7]]%R) (with_symbols (naming_of v) (Var "xp" 0)) = 7%R.
Proof.
  eexists. split; [reflexivity|]. split.
  - eapply (C86_collision 2 [("x", listed ["a"]); ("p", listed ["a_piece_0"])] _ "p" ["a_piece_0"] "a" 0); try reflexivity; try discriminate; auto.
    + cbn; repeat constructor; cbn; intuition discriminate.
    + cbn. auto.
    + cbn. auto.
  - repeat split.
Qed.
