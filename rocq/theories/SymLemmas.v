(** Lemmas about symbolic models (any number type). *)
From Coq Require Import String List ZArith Bool Arith Lia Sorted.
From Verif Require Import Py NdArray OptimModel DictLemmas NdLemmas OptimSpec OptimLaws LawFacts
  IndexLemmas GenModel SymModel NameLemmas.
Import ListNotations.
Local Open Scope string_scope.
Local Open Scope list_scope.

(** *** Multi-indices *)
Lemma ndindex_length s : List.length (ndindex s) = prodn s.
Proof.
  induction s as [|d s IH]; [reflexivity|]. cbn [ndindex].
  rewrite (flat_map_uniform_length _ _ (prodn s)) by (intros; now rewrite map_length).
  now rewrite seq_length.
Qed.

Lemma ndindex_nth s ix : index_in s ix -> nth (ravel s ix) (ndindex s) [] = ix.
Proof.
  revert ix. induction s as [|d s IH]; intros ix [H1 H2].
  - destruct ix; [reflexivity|discriminate].
  - destruct ix as [|i ix]; [discriminate|].
    assert (Hix : index_in s ix).
    { split; [simpl in H1; lia|]. intros k Hk. apply (H2 (S k)). simpl. lia. }
    cbn [ndindex ravel]. pose proof (index_in_lt _ _ Hix) as Hlt.
    assert (i < d)%nat by (apply (H2 O); simpl; lia).
    rewrite (flat_map_uniform_nth _ _ (prodn s) 0); auto.
    + rewrite seq_nth by auto. rewrite (nth_map_d _ _ _ []) by (rewrite ndindex_length; auto). now rewrite IH.
    + intros; rewrite map_length; apply ndindex_length.
    + now rewrite seq_length.
Qed.

Lemma ndindex_spec s k : k < prodn s ->
  index_in s (nth k (ndindex s) []) /\ ravel s (nth k (ndindex s) []) = k.
Proof. intros H. destruct (unravel s k H) as (ix & HI & <-). rewrite ndindex_nth; auto. Qed.

Lemma combine_as_map {A B} (a : A) (b : B) l1 l2 : List.length l1 = List.length l2 ->
  combine l1 l2 = map (fun k => (nth k l1 a, nth k l2 b)) (seq 0 (List.length l1)).
Proof.
  intros H. apply (list_eq_nth (a, b)).
  - rewrite combine_length, map_length, seq_length. lia.
  - intros i Hi. rewrite combine_length in Hi. rewrite combine_nth_lt by auto.
    rewrite (nth_map_seq (fun k => (nth k l1 a, nth k l2 b))) by lia. reflexivity.
Qed.

Lemma filter_map {A B} (f : A -> B) (P : B -> bool) l : filter P (map f l) = map f (filter (fun a => P (f a)) l).
Proof. induction l; simpl; auto. destruct (P (f a)); simpl; congruence. Qed.

Lemma filter_seq_sorted P a n : StronglySorted lt (filter P (seq a n)).
Proof.
  revert a. induction n; intros a; simpl; [constructor|].
  destruct (P a); auto. constructor; auto. apply Forall_forall. intros x Hx.
  apply filter_In in Hx as [Hx _]. apply in_seq in Hx. lia.
Qed.

Lemma sapp_eq_inv_tail (a b c : string) : (a ++ c = b ++ c)%string -> a = b.
Proof. apply sapp_inv_tail. Qed.

Section SymLemmas.
  Context {T : Type} {NT : Num T}.
  Definition zero_expr : sexpr T := SE false (fun _ => n0).

  (** *** Specification vocabulary *)
  (** The zero test is sound: an expression found equal to zero evaluates to
      zero. *)
  Definition sound (e : sexpr T) : Prop := se_nz e = false -> forall A, se_eval e A = n0.

  (** Positions kept of a derivative array. *)
  Definition kept (wrt : list string) (dims : shape) (expr : list (sexpr T)) : list nat :=
    filter (fun k => keepind wrt (nth k (ndindex dims) []) && se_nz (nth k expr zero_expr)) (seq 0 (prodn dims)).

  Lemma nonzeros_kept wrt dims expr : List.length expr = prodn dims ->
    nonzeros wrt dims expr = map (fun k => (nth k (ndindex dims) [], nth k expr zero_expr)) (kept wrt dims expr).
  Proof.
    intros H. unfold nonzeros, kept. rewrite (combine_as_map [] zero_expr) by (now rewrite ndindex_length).
    rewrite ndindex_length. now rewrite filter_map.
  Qed.

  Lemma kept_In wrt dims expr k : In k (kept wrt dims expr) ->
    k < prodn dims /\ keepind wrt (nth k (ndindex dims) []) = true /\ se_nz (nth k expr zero_expr) = true.
  Proof. intros H. apply filter_In in H as [H1 H2]. apply in_seq in H1. apply andb_prop in H2. intuition lia. Qed.

  Lemma kept_ravel wrt dims expr : List.length expr = prodn dims ->
    map (fun ie => ravel dims (fst ie)) (nonzeros wrt dims expr) = kept wrt dims expr.
  Proof.
    intros H. rewrite nonzeros_kept by auto. rewrite map_map. rewrite <- (map_id (kept wrt dims expr)) at 2.
    apply map_ext_in. intros k Hk. cbn [fst]. apply kept_In in Hk as [Hk _]. now apply ndindex_spec.
  Qed.

  (** *** add_sparse_derivative *)
  Variable sizes : string -> nat.
  Definition dims_of (f : sfun T) (wrt : list string) : shape := map sizes wrt ++ [prodn (sf_out f)].
  Definition nz_of (f : sfun T) (wrt : list string) := nonzeros wrt (dims_of f wrt) (sf_deriv f wrt).

  (** The variables are declared with these sizes. *)
  Definition declares (m : smodel T) (ws : list string) : Prop :=
    forall w, In w ws -> exists s, dget String.eqb (m_vars m) w = Some s /\ prodn s = sizes w.

  Lemma add_sparse_derivative_ok m fname f wrt d :
    dget String.eqb (m_fun m) fname = Some f -> declares m wrt ->
    List.length (sf_deriv f wrt) = prodn (dims_of f wrt) ->
    add_sparse_derivative m fname wrt d
    = Ok (set_nz m
            (dset String.eqb (m_nzind m) d (transpose_ind (S (List.length wrt)) (map fst (nz_of f wrt))))
            (dset String.eqb (m_nnz m) d (List.length (nz_of f wrt)))
            (dset String.eqb (dset String.eqb (m_attr m) d (sf_deriv f wrt)) (d ++ "_val")%string (map snd (nz_of f wrt))),
          List.length (nz_of f wrt)).
  Proof.
    intros Hf HD HL. unfold add_sparse_derivative, dlookup. rewrite Hf. cbn [bind].
    replace (mapM (fun w => let* s := match dget String.eqb (m_vars m) w with Some v => Ok v | None => Err KeyError end in Ok (prodn s)) wrt)
      with (Ok (map sizes wrt)).
    - cbn [bind]. fold (dims_of f wrt). rewrite HL, Nat.eqb_refl. reflexivity.
    - symmetry. clear HL. induction wrt as [|w wrt IH]; [reflexivity|]. cbn [mapM map].
      destruct (HD w (or_introl eq_refl)) as (s & -> & Hs). cbn [bind]. rewrite IH by (intros x Hx; apply HD; simpl; auto).
      cbn [bind]. now rewrite Hs.
  Qed.

  (** *** What registration leaves behind *)
  Notation valname d := (d ++ "_val")%string.

  Record frame (K : list string) (m m' : smodel T) : Prop := {
    fr_vars : m_vars m' = m_vars m; fr_dec : m_dec m' = m_dec m; fr_fun : m_fun m' = m_fun m;
    fr_nnz : forall k, ~ In k K -> dget String.eqb (m_nnz m') k = dget String.eqb (m_nnz m) k;
    fr_ind : forall k, ~ In k K -> dget String.eqb (m_nzind m') k = dget String.eqb (m_nzind m) k;
    fr_attr : forall k, ~ In k K -> ~ In k (map (fun d => valname d) K) ->
              dget String.eqb (m_attr m') k = dget String.eqb (m_attr m) k
  }.

  Lemma frame_refl K m : frame K m m.
  Proof. constructor; auto. Qed.
  Lemma frame_trans K m1 m2 m3 : frame K m1 m2 -> frame K m2 m3 -> frame K m1 m3.
  Proof.
    intros [A1 A2 A3 A4 A5 A6] [B1 B2 B3 B4 B5 B6]. constructor; try congruence; intros.
    - now rewrite B4, A4. - now rewrite B5, A5. - now rewrite B6, A6.
  Qed.
  Lemma frame_incl K K' m m' : incl K K' -> frame K m m' -> frame K' m m'.
  Proof.
    intros H [A1 A2 A3 A4 A5 A6]. constructor; auto.
    intros k H1 H2. apply A6; auto. intros Hin. apply H2. apply in_map_iff in Hin as (d & <- & Hd).
    apply in_map_iff. eauto.
  Qed.

  (** A dense (gradient) derivative is stored. *)
  Definition stored_d (m : smodel T) (f : sfun T) (wd : tkey * string) : Prop :=
    dget String.eqb (m_attr m) (snd wd) = Some (sf_deriv f (fst wd)).
  (** A sparse derivative is stored. *)
  Definition stored_s (m : smodel T) (f : sfun T) (wd : tkey * string) : Prop :=
    dget String.eqb (m_nnz m) (snd wd) = Some (List.length (nz_of f (fst wd))) /\
    dget String.eqb (m_nzind m) (snd wd) = Some (transpose_ind (S (List.length (fst wd))) (map fst (nz_of f (fst wd)))) /\
    dget String.eqb (m_attr m) (valname (snd wd)) = Some (map snd (nz_of f (fst wd))).

  Definition free (K : list string) (d : string) : Prop :=
    ~ In d K /\ ~ In (valname d) K /\ forall d', In d' K -> d <> valname d'.

  Lemma val_free K d : free K d -> ~ In (valname d) (map (fun d => valname d) K).
  Proof.
    intros (H & _) Hin. apply in_map_iff in Hin as (d' & E & Hd'). apply sapp_eq_inv_tail in E. congruence.
  Qed.

  Lemma stored_frame K m m' f wd : frame K m m' -> free K (snd wd) ->
    (stored_d m f wd -> stored_d m' f wd) /\ (stored_s m f wd -> stored_s m' f wd).
  Proof.
    intros FR HF. pose proof (val_free _ _ HF) as HV. destruct HF as (F1 & F2 & F3). split.
    - unfold stored_d. intros H. rewrite (fr_attr _ _ _ FR); auto.
      intros Hin. apply in_map_iff in Hin as (d' & E & Hd'). now apply (F3 d').
    - intros (H1 & H2 & H3). unfold stored_s.
      rewrite (fr_nnz _ _ _ FR), (fr_ind _ _ _ FR), (fr_attr _ _ _ FR); auto.
  Qed.

  Notation dg := (dget_dset String.eqb String.eqb_spec).

  Lemma add_sparse_step fname f m acc (wd : tkey * string) :
    dget String.eqb (m_fun m) fname = Some f -> declares m (fst wd) ->
    List.length (sf_deriv f (fst wd)) = prodn (dims_of f (fst wd)) ->
    exists m', add_sparse fname (m, acc) wd
        = Ok (m', if (List.length (nz_of f (fst wd)) =? 0)%nat then acc else acc ++ [wd]) /\
      frame [snd wd] m m' /\ stored_s m' f wd /\ m_cons m' = m_cons m /\ m_objs m' = m_objs m.
  Proof.
    intros Hf HD HL. destruct wd as [wrt d]. cbn [fst snd] in *. unfold add_sparse. cbn [fst snd].
    rewrite (add_sparse_derivative_ok m fname f) by auto. cbn [bind fst snd].
    eexists. split; [reflexivity|]. split; [|split].
    - constructor; try reflexivity; cbn [set_nz m_nnz m_nzind m_attr]; intros k Hk.
      + rewrite dg. destruct (String.eqb_spec k d); auto. subst. exfalso. apply Hk. simpl; auto.
      + rewrite dg. destruct (String.eqb_spec k d); auto. subst. exfalso. apply Hk. simpl; auto.
      + intros Hv. rewrite dg. destruct (String.eqb_spec k (valname d)); [subst; exfalso; apply Hv; simpl; auto|].
        rewrite dg. destruct (String.eqb_spec k d); auto. subst. exfalso. apply Hk. simpl; auto.
    - unfold stored_s. cbn [set_nz m_nnz m_nzind m_attr fst snd]. rewrite !dg, !String.eqb_refl. auto.
    - auto.
  Qed.

  (** No value name is a derivative name. *)
  Definition no_val_clash (K : list string) : Prop := forall d d', In d K -> In d' K -> valname d <> d'.

  Lemma free_of K L d : no_val_clash (d :: K) -> incl L K -> ~ In d L -> free L d.
  Proof.
    intros H HI Hn. split; auto. split.
    - intros Hin. apply (H d (valname d)); simpl; auto.
    - intros d' Hd' E. apply (H d' d); simpl; auto.
  Qed.

  Definition nonempty (f : sfun T) (wd : tkey * string) : bool := negb (List.length (nz_of f (fst wd)) =? 0)%nat.

  Lemma add_sparse_fold fname f (names : list (tkey * string)) : forall m acc,
    dget String.eqb (m_fun m) fname = Some f ->
    (forall wd : tkey * string, In wd names -> declares m (fst wd) /\ List.length (sf_deriv f (fst wd)) = prodn (dims_of f (fst wd))) ->
    NoDup (map snd names) -> no_val_clash (map snd names) ->
    exists m', foldM (add_sparse fname) (m, acc) names = Ok (m', acc ++ filter (nonempty f) names) /\
      frame (map snd names) m m' /\ (forall wd : tkey * string, In wd names -> stored_s m' f wd) /\
      m_cons m' = m_cons m /\ m_objs m' = m_objs m.
  Proof.
    induction names as [|wd names IH]; intros m acc Hf HD HN HV; cbn [foldM filter map].
    - exists m. rewrite app_nil_r. split; [reflexivity|]. split; [apply frame_refl|]. split; [intros ? []|auto].
    - destruct (HD wd (or_introl eq_refl)) as [HD1 HL1].
      destruct (add_sparse_step fname f m acc wd Hf HD1 HL1) as (m1 & E1 & F1 & S1 & C1 & O1).
      rewrite E1. cbn [bind]. inversion HN as [|x l Hnin HN']; subst.
      destruct (IH m1 (if (List.length (nz_of f (fst wd)) =? 0)%nat then acc else acc ++ [wd])) as (m2 & E2 & F2 & S2 & C2 & O2).
      + now rewrite (fr_fun _ _ _ F1).
      + intros wd' Hin. destruct (HD wd' (or_intror Hin)) as [A B]. split; auto.
        intros w Hw. rewrite (fr_vars _ _ _ F1). now apply A.
      + auto.
      + intros d d' H1 H2. apply HV; simpl; auto.
      + exists m2. rewrite E2. split.
        { destruct (nonempty f wd) eqn:En; unfold nonempty in En;
            destruct (List.length (nz_of f (fst wd)) =? 0)%nat; try discriminate En; [|reflexivity].
          exact (f_equal (fun l => Ok (m2, l)) (eq_sym (app_assoc acc [wd] (filter (nonempty f) names)))). }
        split.
        { eapply frame_trans; [eapply frame_incl; [|exact F1]|eapply frame_incl; [|exact F2]]; intros x Hx; simpl in *; intuition. }
        split; [|split; congruence].
        intros wd' [<-|Hin]; [|now apply S2].
        apply (stored_frame _ _ _ f wd F2); auto. apply (free_of (map snd names)); auto using incl_refl.
  Qed.

  (** Gradient functions. *)
  Lemma add_grad_ok fname f wrt m :
    dget String.eqb (m_fun m) fname = Some f ->
    NoDup (map (first_derivative_name fname) wrt) ->
    exists m', add_grad m fname wrt = Ok (m', map (fun w => (w, first_derivative_name fname w)) wrt) /\
      frame (map (first_derivative_name fname) wrt) m m' /\
      (forall w, In w wrt -> stored_d m' f ([w], first_derivative_name fname w)) /\
      m_cons m' = m_cons m /\ m_objs m' = m_objs m.
  Proof.
    intros Hf HN. unfold add_grad, dlookup. rewrite Hf. cbn [bind]. eexists. split; [reflexivity|].
    assert (HG : forall wrt (a : sdict (list (sexpr T))), NoDup (map (first_derivative_name fname) wrt) ->
      let a' := fold_left (fun a w => dset String.eqb a (first_derivative_name fname w) (sf_deriv f [w])) wrt a in
      (forall k, ~ In k (map (first_derivative_name fname) wrt) -> dget String.eqb a' k = dget String.eqb a k) /\
      (forall w, In w wrt -> dget String.eqb a' (first_derivative_name fname w) = Some (sf_deriv f [w]))).
    { clear. induction wrt as [|w wrt IH]; intros a HN; cbn [fold_left map] in *; [split; [auto|intros ? []]|].
      inversion HN; subst. destruct (IH (dset String.eqb a (first_derivative_name fname w) (sf_deriv f [w])) H2) as [I1 I2].
      split.
      - intros k Hk. rewrite I1 by (simpl in Hk; tauto). rewrite dg. destruct (String.eqb_spec k (first_derivative_name fname w)); auto.
        subst. exfalso. apply Hk. simpl; auto.
      - intros v [<-|Hv]; [|now apply I2]. rewrite I1 by auto. rewrite dg, String.eqb_refl. reflexivity. }
    destruct (HG wrt (m_attr m) HN) as [I1 I2]. split; [|split; [|auto]].
    - constructor; try reflexivity. intros k Hk _. cbn [set_nz m_attr]. now apply I1.
    - intros w Hw. unfold stored_d. cbn [set_nz m_attr fst snd]. now apply I2.
  Qed.

  (** *** The generated function that registration should lead to *)
  Definition mk_gderiv (f : sfun T) (wrt : list string) : gderiv T :=
    GD wrt (List.length (nz_of f wrt)) (transpose_ind (S (List.length wrt)) (map fst (nz_of f wrt)))
       (evals (map snd (nz_of f wrt))).
  Definition has_nz (f : sfun T) (wrt : list string) : bool := negb (List.length (nz_of f wrt) =? 0)%nat.
  Definition firsts (wrt : list string) : list tkey := map (fun w => [w]) wrt.
  Definition seconds (wrt : list string) : list tkey := map (fun ab => [fst ab; snd ab]) (pairs2 wrt).
  Definition wanted_constraint (f : sfun T) (fname : string) (bases : list shape) (bsh : sdict shape) (wrt : list string) : gfun T :=
    GF fname (sf_args f) bases (sf_out f) (evals (sf_expr f)) []
      (map (mk_gderiv f) (filter (has_nz f) (firsts wrt)))
      (map (mk_gderiv f) (filter (has_nz f) (seconds wrt))) bsh.
  Definition wanted_objective (f : sfun T) (fname : string) (bases : list shape) (bsh : sdict shape) (wrt : list string) : gfun T :=
    GF fname (sf_args f) bases [] (evals (sf_expr f))
      (map (fun w => (w, evals (sf_deriv f [w]))) wrt) []
      (map (mk_gderiv f) (filter (has_nz f) (seconds wrt))) bsh.

  Lemma gen_deriv_stored m f (wd : tkey * string) : stored_s m f wd -> gen_deriv m wd = Ok (mk_gderiv f (fst wd)).
  Proof.
    intros (H1 & H2 & H3). unfold gen_deriv, dlookup. rewrite H1, H2, H3. reflexivity.
  Qed.

  Lemma mapM_gen_deriv m f (names : list (tkey * string)) : (forall wd : tkey * string, In wd names -> stored_s m f wd) ->
    mapM (gen_deriv m) (filter (nonempty f) names) = Ok (map (mk_gderiv f) (filter (has_nz f) (map fst names))).
  Proof.
    intros H. induction names as [|wd names IH]; [reflexivity|]. cbn [filter map].
    change (nonempty f wd) with (has_nz f (fst wd)).
    destruct (has_nz f (fst wd)); [|apply IH; intros; apply H; simpl; auto].
    cbn [mapM map]. rewrite (gen_deriv_stored m f wd) by (apply H; simpl; auto). cbn [bind].
    rewrite IH by (intros; apply H; simpl; auto). reflexivity.
  Qed.

  Lemma first_names_fst fname wrt : map fst (first_names fname wrt) = firsts wrt.
  Proof. unfold first_names, firsts. rewrite map_map. reflexivity. Qed.
  Lemma second_names_fst fname wrt : map fst (second_names fname wrt) = seconds wrt.
  Proof. unfold second_names, seconds. rewrite map_map. reflexivity. Qed.
  Lemma pairs2_In {X} (l : list X) a b : In (a, b) (pairs2 l) -> In a l /\ In b l.
  Proof.
    induction l as [|x l IH]; [intros []|]. cbn [pairs2]. intros H. apply in_app_or in H as [H|H].
    - apply in_map_iff in H as (c & [= <- <-] & Hc). simpl; auto.
    - apply IH in H as [H1 H2]. simpl; auto.
  Qed.

  Definition all_names (fname : string) (wrt : list string) : list string :=
    map snd (first_names fname wrt) ++ map snd (second_names fname wrt).

  (** The symbolic function has derivative arrays of the right sizes. *)
  Definition derivs_sized (f : sfun T) (wrt : list string) : Prop :=
    forall k, In k (firsts wrt) \/ In k (seconds wrt) -> List.length (sf_deriv f k) = prodn (dims_of f k).

  Lemma names_declared m f fname wrt : declares m wrt -> derivs_sized f wrt ->
    forall wd : tkey * string, In wd (first_names fname wrt) \/ In wd (second_names fname wrt) ->
    declares m (fst wd) /\ List.length (sf_deriv f (fst wd)) = prodn (dims_of f (fst wd)).
  Proof.
    intros HD HS wd H. split.
    - intros w Hw. apply HD. destruct H as [H|H].
      + apply in_map_iff in H as (v & <- & Hv). cbn [fst] in Hw. destruct Hw as [<-|[]]. auto.
      + apply in_map_iff in H as ([a b] & <- & Hv). apply pairs2_In in Hv as [Ha Hb]. cbn [fst snd] in Hw.
        destruct Hw as [<-|[<-|[]]]; auto.
    - apply HS. destruct H as [H|H].
      + left. rewrite <- (first_names_fst fname). now apply in_map.
      + right. rewrite <- (second_names_fst fname). now apply in_map.
  Qed.

  (** State after registering a constraint / an objective. *)
  Definition cons_stored (m : smodel T) (fname : string) (f : sfun T) (wrt : list string) : Prop :=
    dget String.eqb (m_fun m) fname = Some f /\
    dget String.eqb (m_cons m) fname = Some (SDesc (sf_out f) [] (filter (nonempty f) (first_names fname wrt))
                                                   (filter (nonempty f) (second_names fname wrt))) /\
    (forall wd : tkey * string, In wd (first_names fname wrt) \/ In wd (second_names fname wrt) -> stored_s m f wd).
  Definition obj_stored (m : smodel T) (fname : string) (f : sfun T) (wrt : list string) : Prop :=
    dget String.eqb (m_fun m) fname = Some f /\
    dget String.eqb (m_objs m) fname = Some (SDesc [] (map (fun w => (w, first_derivative_name fname w)) wrt) []
                                                   (filter (nonempty f) (second_names fname wrt))) /\
    (forall wd : tkey * string, In wd (first_names fname wrt) -> stored_d m f wd) /\
    (forall wd : tkey * string, In wd (second_names fname wrt) -> stored_s m f wd).

  Lemma NoDup_app_l {X} (a b : list X) : NoDup (a ++ b) -> NoDup a.
  Proof. induction a; simpl; intros H; [constructor|]. inversion H; subst. constructor; auto. intros Hin; apply H2, in_or_app; auto. Qed.
  Lemma NoDup_app_r {X} (a b : list X) : NoDup (a ++ b) -> NoDup b.
  Proof. induction a; simpl; auto. intros H. inversion H; auto. Qed.
  Lemma NoDup_app_disj {X} (a b : list X) x : NoDup (a ++ b) -> In x a -> ~ In x b.
  Proof. induction a; simpl; [tauto|]. intros H. inversion H; subst. intros [->|Hx]; auto. intros Hb. apply H2, in_or_app; auto. Qed.

  Lemma free_names K L d : no_val_clash K -> In d K -> incl L K -> ~ In d L -> free L d.
  Proof.
    intros H Hd HI Hn. split; auto. split.
    - intros Hin. apply (H d (valname d)); auto.
    - intros d' Hd' E. apply (H d' d); auto.
  Qed.

  Lemma add_constraint_ok m fname f wrt :
    dget String.eqb (m_fun m) fname = Some f -> declares m wrt -> derivs_sized f wrt ->
    NoDup (all_names fname wrt) -> no_val_clash (all_names fname wrt) ->
    exists m', add_constraint m wrt fname 2 = Ok m' /\ cons_stored m' fname f wrt /\
      frame (all_names fname wrt) m m' /\ m_objs m' = m_objs m /\
      (forall k, k <> fname -> dget String.eqb (m_cons m') k = dget String.eqb (m_cons m) k).
  Proof.
    intros Hf HD HS HN HV. unfold add_constraint. unfold dlookup at 1. rewrite Hf. cbn [bind Nat.leb].
    pose proof (names_declared m f fname wrt HD HS) as HND.
    destruct (add_sparse_fold fname f (first_names fname wrt) m []) as (m1 & E1 & F1 & S1 & C1 & O1); auto.
    { now apply NoDup_app_l in HN. }
    { intros d d' H1 H2. apply HV; apply in_or_app; auto. }
    rewrite E1. cbn [bind fst snd].
    destruct (add_sparse_fold fname f (second_names fname wrt) m1 []) as (m2 & E2 & F2 & S2 & C2 & O2); auto.
    { now rewrite (fr_fun _ _ _ F1). }
    { intros wd Hwd. destruct (HND wd (or_intror Hwd)) as [A B]. split; auto.
      intros w Hw. rewrite (fr_vars _ _ _ F1). now apply A. }
    { now apply NoDup_app_r in HN. }
    { intros d d' H1 H2. apply HV; apply in_or_app; auto. }
    rewrite E2. cbn [bind fst snd]. eexists. split; [reflexivity|]. split; [|split; [|split]].
    - split; [cbn [set_cons m_fun]; now rewrite (fr_fun _ _ _ F2), (fr_fun _ _ _ F1)|]. split.
      + cbn [set_cons m_cons]. rewrite dg, String.eqb_refl. reflexivity.
      + intros wd [H|H].
        * apply (stored_frame _ _ _ f wd F2); [|now apply S1].
          apply (free_names (all_names fname wrt)); auto.
          -- apply in_or_app. left. now apply in_map.
          -- intros x Hx. apply in_or_app. auto.
          -- apply (NoDup_app_disj _ _ _ HN). now apply in_map.
        * now apply S2.
    - assert (frame (all_names fname wrt) m m2) as [A1 A2 A3 A4 A5 A6].
      { eapply frame_trans; [eapply frame_incl; [|exact F1]|eapply frame_incl; [|exact F2]]; intros x Hx; apply in_or_app; auto. }
      constructor; auto.
    - cbn [set_cons m_objs]. congruence.
    - intros k Hk. cbn [set_cons m_cons]. rewrite dg. destruct (String.eqb_spec k fname); [contradiction|]. congruence.
  Qed.

  Lemma add_objective_ok m fname f wrt :
    dget String.eqb (m_fun m) fname = Some f -> declares m wrt -> derivs_sized f wrt ->
    NoDup (all_names fname wrt) -> no_val_clash (all_names fname wrt) ->
    exists m', add_objective m wrt fname 2 = Ok m' /\ obj_stored m' fname f wrt /\
      frame (all_names fname wrt) m m' /\ m_cons m' = m_cons m /\
      (forall k, k <> fname -> dget String.eqb (m_objs m') k = dget String.eqb (m_objs m) k).
  Proof.
    intros Hf HD HS HN HV. unfold add_objective. cbn [Nat.leb].
    pose proof (names_declared m f fname wrt HD HS) as HND.
    assert (EN : map snd (first_names fname wrt) = map (first_derivative_name fname) wrt).
    { unfold first_names. now rewrite map_map. }
    destruct (add_grad_ok fname f wrt m) as (m1 & E1 & F1 & S1 & C1 & O1); auto.
    { rewrite <- EN. now apply NoDup_app_l in HN. }
    rewrite E1. cbn [bind fst snd].
    destruct (add_sparse_fold fname f (second_names fname wrt) m1 []) as (m2 & E2 & F2 & S2 & C2 & O2); auto.
    { now rewrite (fr_fun _ _ _ F1). }
    { intros wd Hwd. destruct (HND wd (or_intror Hwd)) as [A B]. split; auto.
      intros w Hw. rewrite (fr_vars _ _ _ F1). now apply A. }
    { now apply NoDup_app_r in HN. }
    { intros d d' H1 H2. apply HV; apply in_or_app; auto. }
    rewrite E2. cbn [bind fst snd]. eexists. split; [reflexivity|]. split; [|split; [|split]].
    - split; [cbn [set_objs m_fun]; now rewrite (fr_fun _ _ _ F2), (fr_fun _ _ _ F1)|]. split; [|split].
      + cbn [set_objs m_objs]. rewrite dg, String.eqb_refl. reflexivity.
      + intros wd H. apply (stored_frame _ _ _ f wd F2).
        * apply (free_names (all_names fname wrt)); auto.
          -- apply in_or_app. left. now apply in_map.
          -- intros x Hx. apply in_or_app. auto.
          -- apply (NoDup_app_disj _ _ _ HN). now apply in_map.
        * apply in_map_iff in H as (w & <- & Hw). now apply S1.
      + intros wd H. now apply S2.
    - assert (frame (all_names fname wrt) m m2) as [A1 A2 A3 A4 A5 A6].
      { eapply frame_trans; [eapply frame_incl; [|exact F1]|eapply frame_incl; [|exact F2]]; intros x Hx; apply in_or_app; rewrite ?EN; auto. }
      constructor; auto.
    - cbn [set_objs m_cons]. congruence.
    - intros k Hk. cbn [set_objs m_objs]. rewrite dg. destruct (String.eqb_spec k fname); [contradiction|]. congruence.
  Qed.

  Lemma generate_constraint_ok m fname f wrt bases bsh :
    cons_stored m fname f wrt ->
    mapM (dlookup String.eqb (m_vars m)) (sf_args f) = Ok bases ->
    mapM (fun w => let* s := dlookup String.eqb (m_vars m) w in Ok (w, s)) (m_dec m) = Ok bsh ->
    generate_constraint m fname = Ok (wanted_constraint f fname bases bsh wrt).
  Proof.
    intros (Hf & Hd & Hs) HB HS. unfold generate_constraint, generate. unfold dlookup at 1. rewrite Hd. cbn [bind].
    unfold dlookup at 1. rewrite Hf. cbn [bind]. rewrite HB. cbn [bind]. rewrite HS. cbn [bind sd_grad sd_jac sd_hess mapM sd_shape].
    rewrite !(mapM_gen_deriv m f) by auto. cbn [bind]. now rewrite first_names_fst, second_names_fst.
  Qed.

  Lemma generate_objective_ok m fname f wrt bases bsh :
    obj_stored m fname f wrt ->
    mapM (dlookup String.eqb (m_vars m)) (sf_args f) = Ok bases ->
    mapM (fun w => let* s := dlookup String.eqb (m_vars m) w in Ok (w, s)) (m_dec m) = Ok bsh ->
    generate_objective m fname = Ok (wanted_objective f fname bases bsh wrt).
  Proof.
    intros (Hf & Hd & Hg & Hs) HB HS. unfold generate_objective, generate. unfold dlookup at 1. rewrite Hd. cbn [bind].
    unfold dlookup at 1. rewrite Hf. cbn [bind]. rewrite HB. cbn [bind]. rewrite HS. cbn [bind sd_grad sd_jac sd_hess sd_shape].
    replace (mapM (fun wd : string * string => let* e := dlookup String.eqb (m_attr m) (snd wd) in Ok (fst wd, evals e))
               (map (fun w => (w, first_derivative_name fname w)) wrt))
      with (Ok (map (fun w => (w, evals (sf_deriv f [w]))) wrt)).
    - cbn [bind mapM]. rewrite (mapM_gen_deriv m f) by auto. cbn [bind]. now rewrite second_names_fst.
    - symmetry. assert (HG : forall w, In w wrt -> stored_d m f ([w], first_derivative_name fname w)).
      { intros w Hw. apply Hg. apply in_map_iff. eauto. }
      clear - HG. induction wrt as [|w wrt IH]; [reflexivity|]. cbn [map mapM fst snd].
      specialize (HG w (or_introl eq_refl)) as H1. unfold stored_d in H1. cbn [fst snd] in H1.
      unfold dlookup at 1. rewrite H1. cbn [bind]. rewrite IH by (intros; apply HG; simpl; auto). reflexivity.
  Qed.
End SymLemmas.
