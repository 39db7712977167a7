(** C77: the generated class carries what the symbolic model recorded. *)
From Coq Require Import String List ZArith Bool Arith Lia.
From Verif Require Import Py NdArray OptimModel DictLemmas GenModel SymModel RegModel ClassModel.
Import ListNotations.
Local Open Scope string_scope.
Local Open Scope list_scope.

(** * Specification *)

Section Spec.
  Context {T : Type} {NT : Num T}.

  (** The class [c] records the sparse structures and the descriptions of [m]. *)
  Definition records (m : smodel T) (c : namespace) : Prop :=
    (forall k v, dget String.eqb (m_nzind m) k = Some v -> dget String.eqb c (k ++ "_ind")%string = Some (CInd v)) /\
    (forall k v, dget String.eqb (m_nnz m) k = Some v -> dget String.eqb c (k ++ "_nnz")%string = Some (CNat v)) /\
    dget String.eqb c "constraints" = Some (CDesc (m_cons m)) /\
    dget String.eqb c "objectives" = Some (CDesc (m_objs m)) /\
    exists sh, dget String.eqb c "base_shapes" = Some (CShapes sh) /\
      Forall2 (fun d ds => fst ds = d /\ dget String.eqb (m_vars m) d = Some (snd ds)) (m_dec m) sh.
End Spec.

(** * Proofs *)

Lemma slen_app a b : String.length (a ++ b) = String.length a + String.length b.
Proof. induction a; simpl; auto. Qed.
Lemma app_split (a b x y : string) : String.length x = String.length y -> (a ++ x = b ++ y)%string -> a = b /\ x = y.
Proof.
  revert b. induction a as [|c a IH]; intros [|d b] L H; simpl in *; auto.
  - apply (f_equal String.length) in H. simpl in H. rewrite slen_app in H. lia.
  - apply (f_equal String.length) in H. simpl in H. rewrite slen_app in H. lia.
  - injection H as -> H. destruct (IH b L H) as [-> ->]. auto.
Qed.

Lemma fold_dset_other {V W} (d : list (string * W)) (name : string -> string) (val : W -> V) k : forall a,
  (forall x, In x (map fst d) -> name x <> k) ->
  dget String.eqb (fold_left (fun a kv => dset String.eqb a (name (fst kv)) (val (snd kv))) d a) k = dget String.eqb a k.
Proof.
  induction d as [|[x w] d IH]; intros a H; [reflexivity|]. cbn [fold_left]. rewrite IH by (intros; apply H; simpl; auto).
  cbn [fst snd]. rewrite (dget_dset _ String.eqb_spec). destruct (String.eqb_spec k (name x)) as [->|]; [|reflexivity].
  exfalso. apply (H x); simpl; auto.
Qed.

Lemma fold_dset_last {V W} (d : list (string * W)) (name : string -> string) (val : W -> V) k v : forall a,
  (forall x y, name x = name y -> x = y) -> NoDup (map fst d) ->
  dget String.eqb d k = Some v ->
  dget String.eqb (fold_left (fun a kv => dset String.eqb a (name (fst kv)) (val (snd kv))) d a) (name k) = Some (val v).
Proof.
  induction d as [|[x w] d IH]; intros a I N G; [discriminate|]. cbn [fold_left fst snd].
  inversion N as [|? ? N1 N2]; subst. cbn [dget] in G. destruct (String.eqb_spec k x) as [->|E].
  - injection G as ->. rewrite fold_dset_other.
    + rewrite (dget_dset _ String.eqb_spec), String.eqb_refl. reflexivity.
    + intros y Hy Q. apply I in Q. subst. contradiction.
  - now apply IH.
Qed.

Lemma sname_inj suf x y : ((x ++ suf) = (y ++ suf) -> x = y)%string.
Proof. intros H. now apply app_split in H as [H _]. Qed.

(** Python dictionaries have each key once. *)
Definition dict_ok {V} (d : sdict V) : Prop := NoDup (map fst d).

Lemma nodup_dset {V} (d : sdict V) k v : dict_ok d -> dict_ok (dset String.eqb d k v).
Proof.
  unfold dict_ok. induction d as [|[x w] d IH]; simpl; intros H; [repeat constructor; auto|].
  inversion H as [|? ? H1 H2]; subst. destruct (String.eqb_spec k x) as [->|N]; simpl; constructor; auto.
  intros I. apply H1. clear -I N. induction d as [|[y z] d IH]; simpl in *; [tauto|].
  destruct (String.eqb_spec k y) as [->|]; simpl in *; [tauto|]. destruct I as [->|I]; auto.
Qed.
Lemma nodup_fold {V W} (d : list (string * W)) (name : string -> string) (val : W -> V) : forall a, dict_ok a ->
  dict_ok (fold_left (fun a kv => dset String.eqb a (name (fst kv)) (val (snd kv))) d a).
Proof. induction d as [|x d IH]; intros a H; [exact H|]. cbn [fold_left]. apply IH, nodup_dset, H. Qed.

Lemma extend_sup own sup k v : dict_ok sup -> dget String.eqb sup k = Some v -> dget String.eqb (extend own sup) k = Some v.
Proof.
  intros N G. unfold extend. apply (fold_dset_last sup (fun x => x) (fun x => x) k v); auto.
Qed.
Lemma extend_own own sup k : dget String.eqb sup k = None -> dget String.eqb (extend own sup) k = dget String.eqb own k.
Proof.
  intros G. unfold extend. apply (fold_dset_other sup (fun x => x) (fun x => x) k).
  intros x I ->. apply (dget_None _ String.eqb_spec) in G. contradiction.
Qed.
Lemma extend_ok own sup : dict_ok own -> dict_ok (extend own sup).
Proof. apply (nodup_fold sup (fun x => x) (fun x => x)). Qed.
Lemma extend_none own sup k : dget String.eqb own k = None -> dget String.eqb sup k = None -> dget String.eqb (extend own sup) k = None.
Proof. intros O S. now rewrite extend_own. Qed.

Fixpoint ends_b (suf s : string) : bool :=
  String.eqb s suf || match s with EmptyString => false | String _ s' => ends_b suf s' end.
Lemma ends_b_app suf p : ends_b suf (p ++ suf)%string = true.
Proof.
  induction p as [|c p IH]; cbn [append].
  - destruct suf; simpl; [reflexivity|]. rewrite Ascii.eqb_refl, String.eqb_refl. reflexivity.
  - cbn [ends_b]. rewrite IH. apply orb_true_r.
Qed.
Lemma not_suffix suf k x : ends_b suf k = false -> (x ++ suf)%string <> k.
Proof. intros H <-. rewrite ends_b_app in H. discriminate. Qed.

Section Proofs.
  Context {T : Type} {NT : Num T}.
  Variable m : smodel T.
  Hypothesis Dnz : dict_ok (m_nzind m).
  Hypothesis Dnn : dict_ok (m_nnz m).

  Lemma base_ok a : base_assignments m = Ok a -> dict_ok a /\ records m a /\
    (forall k, ends_b "_ind" k = false -> ends_b "_nnz" k = false ->
       k <> "constraints" -> k <> "objectives" -> k <> "base_shapes" -> dget String.eqb a k = None).
  Proof.
    unfold base_assignments.
    destruct (mapM _ (m_dec m)) as [sh|] eqn:Esh; cbn [bind]; [|discriminate]. intros [= <-].
    set (a0 := [_; _; _]).
    set (a1 := fold_left _ (m_nzind m) a0).
    set (a2 := fold_left _ (m_nnz m) a1).
    assert (G : forall k, ends_b "_ind" k = false -> ends_b "_nnz" k = false -> dget String.eqb a2 k = dget String.eqb a0 k).
    { intros k H1 H2. unfold a2.
      rewrite (fold_dset_other (m_nnz m) (fun x => x ++ "_nnz")%string CNat k) by (intros; now apply not_suffix).
      apply (fold_dset_other (m_nzind m) (fun x => x ++ "_ind")%string CInd k). intros; now apply not_suffix. }
    split; [|split].
    - apply (nodup_fold (m_nnz m) (fun x => x ++ "_nnz")%string CNat), (nodup_fold (m_nzind m) (fun x => x ++ "_ind")%string CInd).
      repeat constructor; simpl; intuition discriminate.
    - split; [|split; [|split; [|split]]].
      + intros k v H. unfold a2.
        rewrite (fold_dset_other (m_nnz m) (fun x => x ++ "_nnz")%string CNat).
        * apply (fold_dset_last (m_nzind m) (fun x => x ++ "_ind")%string CInd k v); auto. apply sname_inj.
        * intros x _ Q. apply app_split in Q as [_ Q]; [discriminate|reflexivity].
      + intros k v H. apply (fold_dset_last (m_nnz m) (fun x => x ++ "_nnz")%string CNat k v); auto. apply sname_inj.
      + now rewrite G.
      + now rewrite G.
      + exists sh. split; [now rewrite G|].
        clear -Esh. revert sh Esh. induction (m_dec m) as [|d0 l IH]; intros sh H; [injection H as <-; constructor|].
        cbn [mapM] in H. unfold dlookup in H at 1. destruct (dget String.eqb (m_vars m) d0) as [s0|] eqn:E0; [|discriminate].
        cbn [bind] in H. destruct (mapM _ l) as [r|] eqn:Er; [|discriminate]. cbn [bind] in H. injection H as <-.
        constructor; auto.
    - intros k H1 H2 N1 N2 N3. rewrite G by auto. unfold a0. cbn [dget].
      destruct (String.eqb_spec k "constraints"), (String.eqb_spec k "objectives"), (String.eqb_spec k "base_shapes"); congruence || reflexivity.
  Qed.

  Lemma extend_records own sup : dict_ok sup -> records m sup -> records m (extend own sup).
  Proof.
    intros D (R1 & R2 & R3 & R4 & sh & R5 & R6). split; [|split; [|split; [|split]]].
    - intros k v H. apply extend_sup; auto.
    - intros k v H. apply extend_sup; auto.
    - apply extend_sup; auto.
    - apply extend_sup; auto.
    - exists sh. split; [apply extend_sup; auto|exact R6].
  Qed.

  Definition len_of (v : string) (n : nat) : Prop := exists s, dget String.eqb (m_vars m) v = Some (n :: s).
  Lemma vlen_ok v n : vlen m v = Ok n -> len_of v n.
  Proof.
    unfold vlen, dlookup. destruct (dget String.eqb (m_vars m) v) as [[|k s]|] eqn:E; cbn; try discriminate.
    intros [= <-]. now exists s.
  Qed.

  (** The sizes that every collocation problem reads. *)
  Definition col_sizes (order : option nat) (c : namespace) : Prop := exists nx nu np,
    len_of "x" nx /\ len_of "u" nu /\ len_of "p" np /\
    dget String.eqb c "nx" = Some (CNat nx) /\ dget String.eqb c "nu" = Some (CNat nu) /\ dget String.eqb c "np" = Some (CNat np) /\
    dget String.eqb c "collocation_order" = Some (CNat (match order with Some n => n | None => 2 end)).

  Definition keys (l : list string) (c : namespace) : Prop :=
    forall k, ends_b "_ind" k = false -> ends_b "_nnz" k = false ->
      ~ In k ("constraints" :: "objectives" :: "base_shapes" :: l) -> dget String.eqb c k = None.

  Lemma col_ok order c : symcol_assignments m order = Ok c ->
    dict_ok c /\ records m c /\ col_sizes order c /\ keys ["nx"; "nu"; "np"; "collocation_order"] c.
  Proof.
    unfold symcol_assignments. destruct (vlen m "x") as [nx|] eqn:Ex; cbn [bind]; [|discriminate].
    destruct (vlen m "u") as [nu|] eqn:Eu; cbn [bind]; [|discriminate].
    destruct (vlen m "p") as [np|] eqn:Ep; cbn [bind]; [|discriminate].
    destruct (base_assignments m) as [sup|] eqn:Eb; cbn [bind]; [|discriminate]. intros [= <-].
    destruct (base_ok sup Eb) as (D & R & K). split; [|split; [|split]].
    - apply extend_ok. repeat constructor; simpl; intuition discriminate.
    - now apply extend_records.
    - exists nx, nu, np. repeat (split; [now apply vlen_ok|]).
      repeat split; rewrite extend_own by (apply K; reflexivity || discriminate); reflexivity.
    - intros k H1 H2 N. apply extend_none.
      + cbn [dget]. repeat match goal with |- (if String.eqb k ?x then _ else _) = _ => destruct (String.eqb_spec k x); [exfalso; apply N; subst; simpl; tauto|] end. reflexivity.
      + apply K; auto; intros ->; apply N; simpl; tauto.
  Qed.

  (** [extend] with new names keeps the rest. *)
  Lemma extend_col order own sup : dict_ok sup -> col_sizes order sup -> col_sizes order (extend own sup).
  Proof.
    intros D (nx & nu & np & A & B & C & X & U & P & O). exists nx, nu, np.
    repeat (split; [assumption|]). repeat split; apply extend_sup; assumption.
  Qed.

  (** The class of an optimal-control model: what [col.Problem] and
      [oc.Problem] read is there, with the sizes of the variables and of the
      outputs of the constraints. *)
  Theorem C77_optimal_control order c : symoc_assignments m order = Ok c ->
    records m c /\ col_sizes order c /\
    exists g h ng nh, dget String.eqb (m_fun m) "g" = Some g /\ dget String.eqb (m_fun m) "h" = Some h /\
      (exists s, sf_out g = ng :: s) /\ (exists s, sf_out h = nh :: s) /\
      dget String.eqb c "ng" = Some (CNat ng) /\ dget String.eqb c "nh" = Some (CNat nh).
  Proof.
    unfold symoc_assignments, dlookup.
    destruct (dget String.eqb (m_fun m) "g") as [g|] eqn:Eg; cbn [bind]; [|discriminate].
    destruct (sf_out g) as [|ng sg] eqn:Sg; cbn [alen bind]; [discriminate|].
    destruct (dget String.eqb (m_fun m) "h") as [h|] eqn:Eh; cbn [bind]; [|discriminate].
    destruct (sf_out h) as [|nh sh] eqn:Sh; cbn [alen bind]; [discriminate|].
    destruct (symcol_assignments m order) as [sup|] eqn:Es; cbn [bind]; [|discriminate]. intros [= <-].
    destruct (col_ok order sup Es) as (D & R & C & K). split; [now apply extend_records|]. split; [now apply extend_col|].
    exists g, h, ng, nh. do 4 (split; [eauto|]).
    split; rewrite extend_own by (apply K; [reflexivity|reflexivity|simpl; intuition discriminate]); reflexivity.
  Qed.

  Lemma oem_ok order c : symoem_assignments m order = Ok c ->
    dict_ok c /\ records m c /\ col_sizes order c /\ keys ["nx"; "nu"; "np"; "collocation_order"; "ny"] c /\
    exists ny, len_of "y" ny /\ dget String.eqb c "ny" = Some (CNat ny).
  Proof.
    unfold symoem_assignments. destruct (vlen m "y") as [ny|] eqn:Ey; cbn [bind]; [|discriminate].
    destruct (symcol_assignments m order) as [sup|] eqn:Es; cbn [bind]; [|discriminate]. intros [= <-].
    destruct (col_ok order sup Es) as (D & R & C & K). split; [|split; [|split; [|split]]].
    - apply extend_ok. repeat constructor; simpl; intuition discriminate.
    - now apply extend_records.
    - now apply extend_col.
    - intros k H1 H2 N. apply extend_none.
      + cbn [dget]. destruct (String.eqb_spec k "ny"); [exfalso; apply N; subst; simpl; tauto|]. reflexivity.
      + apply K; auto. intros I. apply N. simpl in *; tauto.
    - exists ny. split; [now apply vlen_ok|].
      rewrite extend_own by (apply K; [reflexivity|reflexivity|simpl; intuition discriminate]); reflexivity.
  Qed.

  (** The class of an output-error model, for [oem.Problem]. *)
  Theorem C77_output_error order c : symoem_assignments m order = Ok c ->
    records m c /\ col_sizes order c /\ exists ny, len_of "y" ny /\ dget String.eqb c "ny" = Some (CNat ny).
  Proof. intros H. apply oem_ok in H. tauto. Qed.

  (** The class of a joint-MAP model, for [jme.Problem]. *)
  Theorem C77_joint_map order pen om c : symjme_assignments m order pen om = Ok c ->
    records m c /\ col_sizes order c /\ (exists ny, len_of "y" ny /\ dget String.eqb c "ny" = Some (CNat ny)) /\
    (exists r nw s, dget String.eqb (m_vars m) "G" = Some (r :: nw :: s) /\ dget String.eqb c "nw" = Some (CNat nw)) /\
    dget String.eqb c "use_penalty" = Some (CBool pen) /\ dget String.eqb c "use_om" = Some (CBool om).
  Proof.
    unfold symjme_assignments, dlookup.
    destruct (dget String.eqb (m_vars m) "G") as [G|] eqn:EG; cbn [bind]; [|discriminate].
    destruct G as [|r [|nw s]]; cbn [nth_error bind]; try discriminate.
    destruct (symoem_assignments m order) as [sup|] eqn:Es; cbn [bind]; [|discriminate]. intros [= <-].
    destruct (oem_ok order sup Es) as (D & R & C & K & ny & Y1 & Y2).
    split; [now apply extend_records|]. split; [now apply extend_col|].
    split; [exists ny; split; [exact Y1|now apply extend_sup]|].
    split; [exists r, nw, s; split; [reflexivity|]|split];
      rewrite extend_own by (apply K; [reflexivity|reflexivity|simpl; intuition discriminate]); reflexivity.
  Qed.

  (** Reading the class gives the functions that SymModel generates from the
      symbolic model. *)
  Lemma class_deriv_ok c wd d : records m c -> gen_deriv m wd = Ok d -> class_deriv c (m_attr m) wd = Ok d.
  Proof.
    intros (R1 & R2 & _) H. unfold gen_deriv, class_deriv, dlookup in *.
    destruct (dget String.eqb (m_nnz m) (snd wd)) as [n|] eqn:E1; [|discriminate]. cbn [bind] in H.
    destruct (dget String.eqb (m_nzind m) (snd wd)) as [i|] eqn:E2; [|discriminate]. cbn [bind] in H.
    unfold attr_nat, attr_ind, attr. rewrite (R1 _ _ E2), (R2 _ _ E1). exact H.
  Qed.
  Lemma mapM_class c l r : records m c -> mapM (gen_deriv m) l = Ok r -> mapM (class_deriv c (m_attr m)) l = Ok r.
  Proof.
    intros R. revert r. induction l as [|wd l IH]; intros r H; [exact H|]. cbn [mapM] in *.
    destruct (gen_deriv m wd) as [d|] eqn:E; [|discriminate]. cbn [bind] in H.
    rewrite (class_deriv_ok c wd d R E). cbn [bind]. destruct (mapM (gen_deriv m) l) as [r'|]; [|discriminate].
    now rewrite (IH r' eq_refl).
  Qed.

  Theorem C77_generated c kind fname g : records m c ->
    (kind = "constraints" /\ generate_constraint m fname = Ok g \/ kind = "objectives" /\ generate_objective m fname = Ok g) ->
    class_function m c kind fname = Ok g.
  Proof.
    intros R H. pose proof R as (_ & _ & R3 & R4 & sh & R5 & R6).
    assert (SH : mapM (fun w => let* s := dlookup String.eqb (m_vars m) w in Ok (w, s)) (m_dec m) = Ok sh).
    { clear -R6. induction R6 as [|d [d' s] l l' [E1 E2] _ IH]; [reflexivity|]. cbn [mapM fst snd] in *. subst d'.
      unfold dlookup at 1. rewrite E2. cbn [bind]. rewrite IH. reflexivity. }
    assert (Q : exists d, (let* ds := attr_desc c kind in dlookup String.eqb ds fname) = Ok d /\ generate m d fname = Ok g).
    { unfold attr_desc, attr. destruct H as [[-> H]|[-> H]]; rewrite ?R3, ?R4; cbn [bind];
        unfold generate_constraint, generate_objective, dlookup in *;
        destruct (dget String.eqb _ fname) as [d|]; try discriminate; exists d; split; auto. }
    destruct Q as (d & Qd & Qg). unfold class_function.
    destruct (attr_desc c kind) as [ds|]; [|discriminate]. cbn [bind] in *. rewrite Qd. cbn [bind].
    unfold generate in Qg. destruct (dlookup String.eqb (m_fun m) fname) as [f|]; [|discriminate]. cbn [bind] in *.
    destruct (mapM (dlookup String.eqb (m_vars m)) (sf_args f)) as [bs|]; [|discriminate]. cbn [bind] in *.
    rewrite SH in Qg. cbn [bind] in Qg. unfold attr_shapes, attr. rewrite R5. cbn [bind].
    destruct (mapM _ (sd_grad d)) as [gr|]; [|discriminate]. cbn [bind] in *.
    destruct (mapM (gen_deriv m) (sd_jac d)) as [ja|] eqn:Ej; [|discriminate]. cbn [bind] in *.
    destruct (mapM (gen_deriv m) (sd_hess d)) as [he|] eqn:Eh; [|discriminate]. cbn [bind] in *.
    rewrite (mapM_class c _ _ R Ej), (mapM_class c _ _ R Eh). exact Qg.
  Qed.
End Proofs.

(** The dictionaries of a model have each key once, whatever is registered. *)
Section Dicts.
  Context {T : Type} {NT : Num T}.
  Definition dicts_ok (m : smodel T) : Prop := dict_ok (m_nzind m) /\ dict_ok (m_nnz m).
  Lemma add_sparse_dicts fname l : forall st st', dicts_ok (fst st) -> foldM (add_sparse fname) st l = Ok st' -> dicts_ok (fst st').
  Proof.
    induction l as [|wd l IH]; intros st st' D H; [injection H as <-; exact D|]. cbn [foldM] in H.
    unfold add_sparse in H at 1. unfold add_sparse_derivative in H.
    destruct (dlookup String.eqb (m_fun (fst st)) fname) as [f|]; [|discriminate]. cbn [bind] in H.
    destruct (mapM _ (fst wd)) as [ws|]; [|discriminate]. cbn [bind] in H.
    destruct (negb _); [discriminate|]. cbn [bind fst snd] in H. eapply IH; [|exact H]. destruct D as [D1 D2].
    split; cbn; now apply nodup_dset.
  Qed.
  Theorem C77_dictionaries : forall rs (m m' : smodel T), dicts_ok m -> register_all m rs = Ok m' -> dicts_ok m'.
  Proof.
    induction rs as [|r rs IH]; intros m m' D H; [injection H as <-; exact D|]. unfold register_all in *. cbn [foldM] in H.
    destruct (register m r) as [m1|] eqn:E; [|discriminate]. cbn [bind] in H. apply (IH m1 m'); [|exact H]. clear IH H.
    unfold register, add_objective, add_constraint in E. cbn [Nat.leb] in E. destruct (r_obj r).
    - unfold add_grad in E. destruct (dlookup String.eqb (m_fun m) (r_name r)) as [f|]; [|discriminate]. cbn [bind fst snd] in E.
      destruct (foldM _ _ _) as [st|] eqn:F; [|discriminate]. cbn [bind] in E. injection E as <-.
      eapply add_sparse_dicts in F; [exact F|exact D].
    - destruct (dlookup String.eqb (m_fun m) (r_name r)) as [f|]; [|discriminate]. cbn [bind] in E.
      destruct (foldM (add_sparse (r_name r)) (m, []) _) as [st1|] eqn:F1; [|discriminate]. cbn [bind] in E.
      destruct (foldM (add_sparse (r_name r)) (fst st1, []) _) as [st2|] eqn:F2; [|discriminate]. cbn [bind] in E.
      injection E as <-. eapply add_sparse_dicts in F2; [exact F2|]. eapply add_sparse_dicts in F1; [exact F1|exact D].
  Qed.
End Dicts.

(** Attributes that the class does not have: AttributeError for the dictionary
    of descriptions and for the structure of a derivative, KeyError for a function
    that was not registered. *)
Theorem C77_missing {T} {NT : Num T} (m : smodel T) c kind fname :
  (dget String.eqb c kind = None -> class_function m c kind fname = Err AttributeError) /\
  (forall ds, dget String.eqb c kind = Some (CDesc ds) -> dget String.eqb ds fname = None -> class_function m c kind fname = Err KeyError) /\
  (forall fs wd, dget String.eqb c (snd wd ++ "_nnz")%string = None \/
      (exists k, dget String.eqb c (snd wd ++ "_nnz")%string = Some (CNat k)) /\ dget String.eqb c (snd wd ++ "_ind")%string = None ->
    class_deriv (T := T) c fs wd = Err AttributeError).
Proof.
  unfold class_function, class_deriv, attr_desc, attr_nat, attr_ind, attr, dlookup. split; [|split].
  - intros ->. reflexivity.
  - intros ds -> E. cbn [bind]. now rewrite E.
  - intros fs wd [->|[[k ->] ->]]; reflexivity.
Qed.

(** A model with two states, an input, a parameter and an output, and a linear
    [g]: the class records its Jacobian. *)
Section Example.
  Let v (i : nat) : sexpr Z := SE true (fun A => nth i (nth 0 A []) 0%Z).
  Let k : sexpr Z := SE true (fun _ => 1%Z).
  Let z : sexpr Z := SE false (fun _ => 0%Z).
  Let g : sfun Z := SF ["x"] [2] [v 0; v 1] (fun w => match w with [_] => [k; z; z; k] | _ => repeat z 8 end).
  Let m0 : smodel Z := SM [("x", [2]); ("u", [1]); ("p", [1]); ("y", [1]); ("G", [2; 1])] ["x"; "p"] [("g", g); ("h", g)] [] [] [] [] [].
  Example C77_nonvacuous : exists m c, dicts_ok m0 /\ register_all m0 [Reg false "g" ["x"]] = Ok m /\
    symoc_assignments m None = Ok c /\ dget String.eqb c "dg_dx_ind" = Some (CInd [[0; 1]; [0; 1]]%Z) /\
    dget String.eqb c "dg_dx_nnz" = Some (CNat 2) /\ dget String.eqb c "ng" = Some (CNat 2) /\
    (exists c', symjme_assignments m (Some 4) true false = Ok c' /\ dget String.eqb c' "collocation_order" = Some (CNat 4)) /\
    exists f, generate_constraint m "g" = Ok f /\ class_function m c "constraints" "g" = Ok f.
  Proof.
    do 2 eexists. split; [split; constructor|]. split; [reflexivity|]. split; [reflexivity|].
    do 3 (split; [reflexivity|]). split; [eexists; split; reflexivity|]. eexists; split; reflexivity.
  Qed.
End Example.
