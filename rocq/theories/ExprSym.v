(** Functions of a symbolic model given by expressions. *)
From Coq Require Import String List ZArith Bool Arith Lia Reals Lra.
From Coquelicot Require Import Coquelicot.
From Verif Require Import Py NdArray OptimModel DictLemmas NdLemmas OptimSpec OptimLaws LawFacts LayoutLemmas
  ProblemSpec ProblemFacts DerivSpec CalcLemmas IndexLemmas GenModel GenSpec GenLemmas GenDeriv
  SymModel NameLemmas SymLemmas SymDeriv PropsSym RegLemmas EndToEnd Expr.
Import ListNotations.
Local Open Scope string_scope.
Local Open Scope list_scope.
Local Open Scope R_scope.

(** *** Sums over the elements of the variables *)
Definition cells (size : string -> nat) (W : list string) : list (string * nat) :=
  flat_map (fun w => map (pair w) (seq 0 (size w))) W.
Lemma rsum_cells size W (h : string -> nat -> R) :
  rsum (map (fun c => h (fst c) (snd c)) (cells size W)) = rsum (map (fun w => sumn (size w) (h w)) W).
Proof.
  unfold cells. induction W as [|w W IH]; [reflexivity|]. cbn [flat_map map]. rewrite map_app, rsum_app, IH.
  cbn [rsum fold_right]. rewrite sumn_rsum, map_map. reflexivity.
Qed.
Lemma cells_In size W w i : In (w, i) (cells size W) <-> In w W /\ (i < size w)%nat.
Proof.
  unfold cells. rewrite in_flat_map. split.
  - intros (w' & Hw & H). apply in_map_iff in H as (i' & E & H). injection E as <- <-. apply in_seq in H. split; auto. lia.
  - intros [Hw Hi]. exists w. split; auto. apply in_map_iff. exists i. split; auto. apply in_seq. lia.
Qed.
Lemma cells_NoDup size W : NoDup W -> NoDup (cells size W).
Proof.
  induction 1 as [|w W Hw HN IH]; [constructor|]. unfold cells. cbn [flat_map]. apply NoDup_app_intro; auto.
  - apply NoDup_map_inj; [intros a b _ _ E; now injection E|apply seq_NoDup].
  - intros [w' i] H1 H2. apply in_map_iff in H1 as (i' & E & _). injection E as <- <-. apply cells_In in H2. now apply Hw.
Qed.

(** The variables an expression may use. *)
Fixpoint scoped (size : string -> nat) (args : list string) (e : expr) : Prop :=
  match e with
  | Cst _ => True
  | Var w i => In w args /\ (i < size w)%nat
  | Add a b | Mul a b => scoped size args a /\ scoped size args b
  | Un _ a => scoped size args a
  end.
Lemma scoped_udiff size args u a : scoped size args a -> scoped size args (udiff u a).
Proof. destruct u; cbn; auto. Qed.
Lemma scoped_ddir size args D e : scoped size args e -> scoped size args (ddir D e).
Proof. induction e; cbn; try tauto. intros H. split; auto. now apply scoped_udiff. Qed.
Lemma eval_scoped size args v v' e : scoped size args e -> (forall w i, In w args -> (i < size w)%nat -> v w i = v' w i) -> eval v e = eval v' e.
Proof.
  intros HS H. induction e; cbn in *; auto.
  - apply H; tauto.
  - destruct HS. rewrite IHe1, IHe2; auto.
  - destruct HS. rewrite IHe1, IHe2; auto.
  - rewrite IHe; auto.
Qed.
Lemma dom_scoped size args v v' e : scoped size args e -> (forall w i, In w args -> (i < size w)%nat -> v w i = v' w i) -> dom v e -> dom v' e.
Proof.
  intros HS H. induction e; cbn in *; try tauto. rewrite (eval_scoped size args v v') by auto. tauto.
Qed.

(** Directional derivatives are sums of partial ones. *)
Lemma rsum_pick_cell (l : list (string * nat)) x (h : string * nat -> R) : NoDup l -> In x l -> (forall y, In y l -> y <> x -> h y = 0) ->
  rsum (map h l) = h x.
Proof.
  induction 1 as [|a l Ha HN IH]; intros Hin Hz; [contradiction|]. cbn [map rsum fold_right]. destruct Hin as [->|Hin].
  - fold (rsum (map h l)). rewrite rsum_map_zero; [ring|]. intros y Hy. apply Hz; [simpl; auto|]. congruence.
  - fold (rsum (map h l)). rewrite IH, (Hz a); [ring|simpl; auto|congruence|auto|]. intros; apply Hz; simpl; auto.
Qed.
Lemma ddir_sum size args W D e v : NoDup W -> scoped size args e -> (forall w i, ~ In w W -> D w i = 0) ->
  eval v (ddir D e) = rsum (map (fun c => eval v (dif (fst c) (snd c) e) * D (fst c) (snd c)) (cells size W)).
Proof.
  intros HN HS HD. induction e; cbn [ddir dif eval] in *.
  - symmetry. apply rsum_map_zero. intros. ring.
  - destruct HS as [_ Hi]. destruct (in_dec String.string_dec w W) as [Hw|Hw].
    + rewrite (rsum_pick_cell (cells size W) (w, i)).
      * cbn [fst snd]. unfold unit_dir. rewrite String.eqb_refl, Nat.eqb_refl. cbn. ring.
      * now apply cells_NoDup.
      * apply cells_In. auto.
      * intros [w' i'] _ Hne. cbn [fst snd]. unfold unit_dir.
        destruct (String.eqb_spec w' w), (Nat.eqb_spec i' i); cbn; try ring. congruence.
    + rewrite HD by auto. symmetry. apply rsum_map_zero. intros [w' i'] Hc. apply cells_In in Hc as [Hc _]. cbn [fst snd]. unfold unit_dir.
      destruct (String.eqb_spec w' w); cbn; [congruence|ring].
  - destruct HS. rewrite IHe1, IHe2, <- rsum_map_plus by auto. apply rsum_map_ext. intros. unfold dif. cbn. ring.
  - destruct HS. rewrite IHe1, IHe2 by auto. rewrite (Rmult_comm _ (eval v e2)), <- !rsum_map_scal, <- rsum_map_plus.
    apply rsum_map_ext. intros. unfold dif. cbn. ring.
  - rewrite IHe, <- rsum_map_scal by auto. apply rsum_map_ext. intros. unfold dif. cbn. ring.
Qed.

(** Partial derivatives commute. *)
Lemma udiff_twice v u a : dom v a -> udom u (eval v a) -> exists k, forall D, eval v (ddir D (udiff u a)) = k * eval v (ddir D a).
Proof.
  intros Ha Hu. destruct u; cbn in *; eexists; intros D0.
  - instantiate (1 := - sin (eval v a)). ring.
  - instantiate (1 := - cos (eval v a)). ring.
  - reflexivity.
  - instantiate (1 := -1 * (/ eval v a * / eval v a)). reflexivity.
  - instantiate (1 := 2 * (/ eval v a * / eval v a * / eval v a)). ring.
  - instantiate (1 := - (1/2) * (/ sqrt (eval v a) * / sqrt (eval v a)) * ((1/2) * / sqrt (eval v a))). ring.
  - instantiate (1 := -2 * eval v a * (/ (1 + eval v a * eval v a) * / (1 + eval v a * eval v a))). ring.
Qed.
Lemma ddir_comm v D E e : dom v e -> eval v (ddir E (ddir D e)) = eval v (ddir D (ddir E e)).
Proof.
  induction e; cbn [dom ddir eval]; intros H; auto; try (destruct H).
  - rewrite IHe1, IHe2; auto.
  - rewrite IHe1, IHe2; auto. ring.
  - destruct (udiff_twice v u e) as (k & Hk); auto. rewrite !Hk, IHe by auto. ring.
Qed.

(** *** The arguments of a function as an environment *)
Definition arg_env (args : list string) (A : list (list R)) : env :=
  fun w i => match dget String.eqb (combine args A) w with Some l => nth i l 0 | None => 0 end.
Lemma arg_env_map args (arg : string -> list R) w i : NoDup args -> In w args -> arg_env args (map arg args) w i = nth i (arg w) 0.
Proof.
  intros HN Hw. unfold arg_env. rewrite (In_dget _ String.eqb_spec _ _ (arg w)); auto.
  - now rewrite map_fst_combine by now rewrite map_length.
  - revert Hw. clear. induction args as [|a l IH]; cbn; [tauto|]. intros [->|H]; auto.
Qed.
Lemma bmove_map args (arg : string -> list R) D t : bmove args (map arg args) D t = map (fun w => vmove (arg w) (D w) t) args.
Proof. unfold bmove. induction args as [|a l IH]; cbn; [reflexivity|]. now rewrite IH. Qed.
Lemma vmove_nth l D t i : (i < length l)%nat -> nth i (vmove l D t) 0 = nth i l 0 + t * D i.
Proof. intros H. unfold vmove. rewrite nth_map_d with (a := O) by now rewrite seq_length. now rewrite seq_nth. Qed.

(** The function with the given expressions; derivatives in the order
    [add_derivative] puts them. *)
Definition sym_expr (args : list string) (e : expr) : sexpr R := SE (negb (zerob e)) (fun A => eval (arg_env args A) e).
Definition sym_fun (size : string -> nat) (args : list string) (out : shape) (es : list expr) : sfun R :=
  SF args out (map (sym_expr args) es) (fun k =>
    match k with
    | [a] => flat_map (fun i => map (fun e => sym_expr args (dif a i e)) es) (seq 0 (size a))
    | [a; b] => flat_map (fun i => flat_map (fun j => map (fun e => sym_expr args (dif b j (dif a i e))) es) (seq 0 (size b))) (seq 0 (size a))
    | _ => []
    end).

Lemma nth_flat_seq {X} (d : X) w (F : nat -> list X) k i o : (forall i, length (F i) = w) -> (i < k)%nat -> (o < w)%nat ->
  nth (i * w + o) (flat_map F (seq 0 k)) d = nth o (F i) d.
Proof.
  intros HF. assert (Q : forall s, (i < k)%nat -> (o < w)%nat -> nth (i * w + o) (flat_map F (seq s k)) d = nth o (F (s + i)%nat) d).
  { revert i. induction k as [|k IH]; intros i s Hi Ho; [lia|]. cbn [seq flat_map]. destruct i as [|i].
    - rewrite app_nth1 by (rewrite HF; lia). now rewrite Nat.add_0_r.
    - rewrite app_nth2 by (rewrite HF; nia). rewrite HF. replace (S i * w + o - w)%nat with (i * w + o)%nat by lia.
      rewrite IH by lia. f_equal. f_equal. lia. }
  intros Hi Ho. apply (Q O Hi Ho).
Qed.
Lemma length_flat_seq {X} w (F : nat -> list X) k s : (forall i, length (F i) = w) -> length (flat_map F (seq s k)) = (k * w)%nat.
Proof. intros HF. revert s. induction k as [|k IH]; intros s; cbn [seq flat_map]; [reflexivity|]. rewrite app_length, IH, HF. lia. Qed.

Section SymFun.
  Variables (shp : string -> shape) (args W : list string) (out : shape) (es : list expr).
  Notation size := (fun w => prodn (shp w)).
  Hypothesis NA : NoDup args.
  Hypothesis NW : NoDup W.
  Hypothesis WA : incl W args.
  Hypothesis LE : length es = prodn out.
  Notation f := (sym_fun size args out es).

  Lemma sym_fun_swf : swf shp f W.
  Proof.
    constructor; cbn [sym_fun sf_args sf_out sf_expr sf_deriv]; auto.
    - now rewrite map_length.
    - intros w _. rewrite (length_flat_seq (prodn out)); [reflexivity|]. intros. now rewrite map_length.
    - intros a b _ _. rewrite (length_flat_seq (size b * prodn out)); [reflexivity|]. intros.
      rewrite (length_flat_seq (prodn out)); [reflexivity|]. intros. now rewrite map_length.
    - intros w e _ He. apply in_flat_map in He as (i & _ & He). apply in_map_iff in He as (e' & <- & _).
      intros H A. cbn in *. apply zerob_ok. now destruct (zerob _).
    - intros a b e _ _ He. apply in_flat_map in He as (i & _ & He). apply in_flat_map in He as (j & _ & He). apply in_map_iff in He as (e' & <- & _).
      intros H A. cbn in *. apply zerob_ok. now destruct (zerob _).
  Qed.

  Variable arg : string -> list R.
  Hypothesis LA : forall w, In w args -> length (arg w) = size w.
  Hypothesis SC : List.Forall (scoped size args) es.
  Notation A0 := (map arg args).
  Notation v := (arg_env args A0).
  Hypothesis DM : List.Forall (dom v) es.
  Notation ex o := (nth o es (Cst 0)).

  Lemma ex_scoped o : scoped size args (ex o).
  Proof. destruct (Nat.lt_ge_cases o (length es)); [now apply List.Forall_nth|rewrite nth_overflow by auto; exact I]. Qed.
  Lemma ex_dom o : dom v (ex o).
  Proof. destruct (Nat.lt_ge_cases o (length es)); [now apply List.Forall_nth|rewrite nth_overflow by auto; exact I]. Qed.

  Lemma moved_env D t w i : In w args -> (i < size w)%nat -> arg_env args (bmove args A0 D t) w i = shift v D t w i.
  Proof.
    intros Hw Hi. rewrite bmove_map. unfold shift. rewrite !arg_env_map by auto. apply vmove_nth. now rewrite LA.
  Qed.
  Lemma moved_env2 D E s t w i : In w args -> (i < size w)%nat ->
    arg_env args (bmove args (bmove args A0 E t) D s) w i = shift (shift v E t) D s w i.
  Proof.
    intros Hw Hi. rewrite !bmove_map. unfold shift. rewrite !arg_env_map by auto. rewrite !vmove_nth; auto.
    - now rewrite LA.
    - unfold vmove. rewrite map_length, seq_length. now rewrite LA.
  Qed.
  Lemma sym_value_eval A o : (o < prodn out)%nat -> sym_value f A o = eval (arg_env args A) (ex o).
  Proof.
    intros Ho. unfold sym_value. cbn [sym_fun sf_expr]. unfold evals. rewrite map_map. rewrite nth_map_d with (a := Cst 0) by lia. reflexivity.
  Qed.
  Lemma sder_eval A w i o : (i < size w)%nat -> (o < prodn out)%nat -> sder f A w i o = eval (arg_env args A) (dif w i (ex o)).
  Proof.
    intros Hi Ho. unfold sder. cbn [sym_fun sf_deriv sf_out]. rewrite nth_flat_seq; auto.
    - rewrite nth_map_d with (a := Cst 0) by lia. reflexivity.
    - intros. now rewrite map_length.
  Qed.
  Lemma sder2_eval A a b i j o : (i < size a)%nat -> (j < size b)%nat -> (o < prodn out)%nat ->
    sder2 shp f A a b i j o = eval (arg_env args A) (dif b j (dif a i (ex o))).
  Proof.
    intros Hi Hj Ho. unfold sder2. cbn [sym_fun sf_deriv sf_out].
    replace ((i * size b + j) * prodn out + o)%nat with (i * (size b * prodn out) + (j * prodn out + o))%nat by ring.
    rewrite nth_flat_seq; [|intros; apply length_flat_seq; intros; now rewrite map_length|auto|nia].
    rewrite nth_flat_seq; [|intros; now rewrite map_length|auto|auto].
    rewrite nth_map_d with (a := Cst 0) by lia. reflexivity.
  Qed.

  Theorem sym_fun_right : sym_right shp f W A0.
  Proof.
    split; [|split].
    - intros D o HD Ho. cbn [sym_fun sf_out] in Ho.
      apply (is_derive_ext (fun t => eval (shift v D t) (ex o))).
      { intros t. rewrite sym_value_eval by auto. cbn [sym_fun sf_args]. symmetry. apply (eval_scoped size args); [apply ex_scoped|]. intros; now apply moved_env. }
      evar_last; [apply eval_derive, ex_dom|]. rewrite (ddir_sum size args W D) by (auto using ex_scoped).
      rewrite (rsum_cells size W (fun w i => eval v (dif w i (ex o)) * D w i)). apply rsum_map_ext. intros w Hw. apply sumn_ext. intros i Hi.
      now rewrite sder_eval.
    - intros D E o HD HE Ho. cbn [sym_fun sf_out] in Ho.
      apply d2_ext with (F := fun s t => eval (shift (shift v E t) D s) (ex o)).
      { intros s t. rewrite sym_value_eval by auto. cbn [sym_fun sf_args]. symmetry. apply (eval_scoped size args); [apply ex_scoped|]. intros; now apply moved_env2. }
      pose proof (dom_locally E v (ex o) (ex_dom o)) as LO. split.
      + eapply filter_imp; [|exact LO]. intros t Ht. eexists. now apply eval_derive.
      + apply (is_derive_ext_loc (fun t => rsum (map (fun c => D (fst c) (snd c) * eval (shift v E t) (dif (fst c) (snd c) (ex o))) (cells size W)))).
        * eapply filter_imp; [|exact LO]. intros t Ht. transitivity (eval (shift v E t) (ddir D (ex o))).
          2: { symmetry. apply is_derive_unique. now apply eval_derive. }
          rewrite (ddir_sum size args W D) by (auto using ex_scoped). apply rsum_map_ext. intros. ring.
        * evar_last.
          { apply (is_derive_rsum (fun c t => D (fst c) (snd c) * eval (shift v E t) (dif (fst c) (snd c) (ex o)))
              (fun c => D (fst c) (snd c) * eval v (ddir E (dif (fst c) (snd c) (ex o))))).
            intros c _. apply (is_derive_scal (fun t => eval (shift v E t) (dif (fst c) (snd c) (ex o)))). apply eval_derive. apply dom_ddir, ex_dom. }
          rewrite (rsum_cells size W (fun w i => D w i * eval v (ddir E (dif w i (ex o))))). apply rsum_map_ext. intros a Ha.
          transitivity (sumn (size a) (fun i => rsum (map (fun b => sumn (size b) (fun j => sder2 shp f A0 a b i j o * (D a i * E b j))) W))).
          -- apply sumn_ext. intros i Hi. rewrite (ddir_sum size args W E) by (auto; apply scoped_ddir, ex_scoped).
             rewrite (rsum_cells size W (fun w j => eval v (dif w j (dif a i (ex o))) * E w j)). rewrite <- rsum_map_scal. apply rsum_map_ext. intros b Hb.
             rewrite !sumn_rsum, <- rsum_map_scal. apply rsum_map_ext. intros j Hj. apply in_seq in Hj.
             rewrite sder2_eval by (auto; lia). ring.
          -- rewrite sumn_rsum, rsum_swap. apply rsum_map_ext. intros b Hb. now rewrite sumn_rsum.
    - intros a b i j o Ha Hb Hi Hj Ho. cbn [sym_fun sf_out] in Ho. rewrite !sder2_eval by auto. apply ddir_comm, ex_dom.
  Qed.
End SymFun.
