(** C81: arguments reach the parameters they are meant for. *)
From Coq Require Import String List Bool Arith Lia.
From Verif Require Import Py DictLemmas GenModel GenDeriv SigModel.
Import ListNotations.
Open Scope string_scope.
Open Scope list_scope.

Section Sig.
  Context {V A D : Type}.
  Implicit Types (names : list string) (args vs : list V) (kw : sdict V).

  (** The rule of a Python call without defaults: the first parameters take the
      positional arguments, each of the others the keyword argument of its
      name, and nothing is left over. *)
  Definition binds names args kw vs : Prop :=
    length vs = length names /\ length args <= length names /\
    (forall i, i < length args -> nth_error vs i = nth_error args i) /\
    (forall i n, length args <= i -> nth_error names i = Some n -> nth_error vs i = dget String.eqb kw n) /\
    (forall n, In n (map fst kw) <-> exists i, length args <= i /\ nth_error names i = Some n).

  Lemma dget_filter kw n m : n <> m ->
    dget String.eqb (filter (fun p => negb (String.eqb n (fst p))) kw) m = dget String.eqb kw m.
  Proof.
    intros H. induction kw as [|[k v] kw IH]; simpl; auto.
    destruct (String.eqb_spec n k); simpl; [subst; destruct (String.eqb_spec m k); [congruence|auto]|].
    destruct (String.eqb m k); auto.
  Qed.
  Lemma keys_filter kw n m :
    In m (map fst (filter (fun p => negb (String.eqb n (fst p))) kw)) <-> In m (map fst kw) /\ m <> n.
  Proof.
    rewrite !in_map_iff. split.
    - intros ((k & v) & E & H). apply filter_In in H as [H1 H2]. simpl in *. subst.
      destruct (String.eqb_spec n m); [discriminate|]. split; [now exists (m, v)|congruence].
    - intros (((k & v) & E & H) & N). simpl in E; subst. exists (m, v). split; auto. apply filter_In; split; auto.
      simpl. destruct (String.eqb_spec n m); [congruence|auto].
  Qed.

  Theorem C81_binding names args kw : NoDup names ->
    match pybind names args kw with
    | Ok vs => binds names args kw vs
    | Err e => e = TypeError /\ forall vs, ~ binds names args kw vs
    end.
  Proof.
    revert args kw. induction names as [|n names IH]; intros args kw Hn; simpl.
    - destruct args as [|a args]; [destruct kw as [|[k v] kw]|].
      + split; [reflexivity|]. split; [simpl; lia|]. split; [intros i H; simpl in H; lia|].
        split; [intros i m _ E; destruct i; discriminate|].
        intros m. split; [intros []|]. intros (i & _ & E); destruct i; discriminate.
      + split; auto. intros vs (_ & _ & _ & _ & H). destruct (proj1 (H k)) as (i & _ & E); [simpl; auto|destruct i; discriminate].
      + split; auto. intros vs (_ & H & _). simpl in H; lia.
    - inversion Hn as [|? ? Hin Hn']; subst. destruct args as [|a args].
      + destruct (dget String.eqb kw n) as [v|] eqn:E.
        * specialize (IH [] (filter (fun p => negb (String.eqb n (fst p))) kw) Hn').
          destruct (pybind names [] _) as [vs|e]; simpl.
          -- destruct IH as (H1 & _ & _ & H4 & H5). split; [simpl; congruence|]. split; [simpl; lia|].
             split; [intros i H; simpl in H; lia|]. split.
             ++ intros [|i] m _ Hi; simpl in Hi |- *; [congruence|].
                rewrite (H4 i m) by (auto; simpl; lia). apply dget_filter. intros ->. apply Hin. eapply nth_error_In; eauto.
             ++ intros m. split.
                ** intros Hm. destruct (string_dec m n); [exists 0; subst; auto|].
                   destruct (proj1 (H5 m)) as (i & _ & Ei); [now apply keys_filter|]. exists (S i). simpl; auto with arith.
                ** intros (i & _ & Ei). destruct i as [|i]; simpl in Ei.
                   { injection Ei as ->. apply dget_In in E; [|apply String.eqb_spec]. apply in_map_iff. now exists (m, v). }
                   apply (keys_filter kw n m), H5. exists i; split; simpl; auto with arith.
          -- destruct IH as (-> & IH). split; auto. intros vs (H1 & H2 & H3 & H4 & H5). destruct vs as [|w vs]; [discriminate|].
             apply (IH vs). split; [simpl in H1; congruence|]. split; [simpl; lia|]. split; [intros i H; simpl in H; lia|]. split.
             ++ intros i m _ Hi. specialize (H4 (S i) m). simpl in H4. rewrite H4 by (auto; lia). symmetry. apply dget_filter.
                intros ->. apply Hin. eapply nth_error_In; eauto.
             ++ intros m. rewrite keys_filter, H5. split.
                ** intros ((i & _ & Ei) & Hm). destruct i as [|i]; simpl in Ei; [congruence|]. exists i; simpl; auto with arith.
                ** intros (i & _ & Ei). split; [exists (S i); simpl; auto with arith|]. intros ->. apply Hin. eapply nth_error_In; eauto.
        * split; auto. intros vs (H1 & _ & _ & H4 & _). specialize (H4 0 n (le_n _) eq_refl). rewrite E in H4.
          destruct vs; simpl in *; discriminate.
      + destruct (dmem String.eqb kw n) eqn:E.
        * split; auto. intros vs (_ & _ & _ & _ & H). rewrite dmem_In in E by apply String.eqb_spec.
          apply H in E as (i & Hi & Ei). destruct i as [|i]; simpl in *; [lia|]. apply Hin. eapply nth_error_In; eauto.
        * assert (Nn : ~ In n (map fst kw)) by (rewrite <- (dmem_In String.eqb String.eqb_spec), E; discriminate).
          specialize (IH args kw Hn'). destruct (pybind names args kw) as [vs|e]; simpl.
          -- destruct IH as (H1 & H2 & H3 & H4 & H5). split; [simpl; congruence|]. split; [simpl; lia|]. split; [|split].
             ++ intros [|i] H; simpl in *; auto. apply H3; lia.
             ++ intros [|i] m H; simpl in *; [lia|]. apply H4; lia.
             ++ intros m. rewrite H5. split; intros (i & Hi & Ei); [exists (S i); simpl; split; auto; lia|].
                destruct i as [|i]; simpl in *; [lia|]. exists i; split; auto; lia.
          -- destruct IH as (-> & IH). split; auto. intros vs (H1 & H2 & H3 & H4 & H5). destruct vs as [|w vs]; [discriminate|].
             apply (IH vs). simpl in H1, H2. split; [congruence|]. split; [lia|]. split; [|split].
             ++ intros i H. specialize (H3 (S i)). simpl in H3. apply H3; lia.
             ++ intros i m H Hi. specialize (H4 (S i) m). simpl in H4. apply H4; auto; lia.
             ++ intros m. rewrite H5. split; intros (i & Hi & Ei).
                ** destruct i as [|i]; simpl in *; [lia|]. exists i; split; auto; lia.
                ** exists (S i); simpl; split; auto; lia.
  Qed.

  (** A call is bound in one way only. *)
  Theorem C81_binding_unique names args kw vs vs' : binds names args kw vs -> binds names args kw vs' -> vs = vs'.
  Proof.
    intros (L & _ & H1 & H2 & _) (L' & _ & H1' & H2' & _).
    assert (E : forall i, nth_error vs i = nth_error vs' i).
    { intros i. destruct (lt_dec i (length args)) as [Hi|Hi]; [now rewrite H1, H1'|].
      destruct (nth_error names i) as [n|] eqn:En; [rewrite (H2 i n), (H2' i n); auto; lia|].
      apply nth_error_None in En. rewrite (proj2 (nth_error_None vs i)), (proj2 (nth_error_None vs' i)); auto; lia. }
    clear - E. revert vs' E. induction vs as [|v vs IH]; intros [|v' vs'] E; auto; try (specialize (E 0); discriminate).
    f_equal; [specialize (E 0); simpl in E; congruence|]. apply IH. intros i. exact (E (S i)).
  Qed.

  (** [with_signature] changes no call, and the signature is the given one. *)
  Theorem C81_with_signature {R} (c : callable (V := V) R) s :
    (forall args kw, pycall (CFun _ (with_signature c s)) args kw = pycall c args kw) /\
    signature (CFun _ (with_signature c s)) = Ok s.
  Proof. split; reflexivity. Qed.

  (** ** Objects of the generated classes

      [method] is the generated function, with the parameters [self] and [ps];
      [first] is the body of [grad] or [jac_val] and [hess] that of
      [hess_val]. *)
  Section Object.
  Variables (slf : string) (ps : list string) (body : list V -> res A).
  Variables (first hess : V -> list V -> sdict V -> res D) (meta : bool) (o model : V).
  Hypothesis Hps : NoDup (slf :: ps).
  Variables (c : fcls (V := V) (A := A) (D := D)) (x : fobj (V := V) (A := A) (D := D)).
  Hypothesis Hc : (if meta then objective_meta (deff (slf :: ps) body) first hess
                   else constraint_meta (deff (slf :: ps) body) first hess) = Ok c.
  Hypothesis Hx : fobj_init c o model = Ok x.

  Lemma obj_eq : k_method c = deff (slf :: ps) body /\ fo_cls x = c /\ fo_sig x = PSig ps false /\ fo_model x = model.
  Proof.
    assert (k_method c = deff (slf :: ps) body) as E by (destruct meta; injection Hc as <-; reflexivity).
    split; auto. revert Hx. unfold fobj_init. rewrite E. simpl. intros [= <-]. auto.
  Qed.

  (** The object is called with the parameters of the method but the first,
      which is the model. *)
  Theorem C81_call args kw : ~ In slf (map fst kw) ->
    match pycall (fobj_call x) args kw with
    | Ok r => exists vs, binds ps args kw vs /\ body (model :: vs) = Ok r
    | Err e => (e = TypeError /\ forall vs, ~ binds ps args kw vs) \/ exists vs, binds ps args kw vs /\ body (model :: vs) = Err e
    end.
  Proof.
    intros Hk. destruct obj_eq as (E1 & E2 & E3 & E4). unfold fobj_call. rewrite E2, E1, E4. cbn [pycall fu_run deff pybind].
    replace (dmem String.eqb kw slf) with false
      by (symmetry; apply not_true_iff_false; rewrite (dmem_In String.eqb String.eqb_spec); auto).
    assert (N : NoDup ps) by (now inversion Hps).
    pose proof (C81_binding ps args kw N) as B. destruct (pybind ps args kw) as [vs|e]; simpl.
    - destruct (body (model :: vs)) as [r|e] eqn:Eb; [|right]; exists vs; auto.
    - left; auto.
  Qed.

  (** The names that the optimization problem reads are those of the method
      without [self]; so are those of [grad] and [jac_val], but [hess_val]
      shows [self] as well. *)
  Theorem C81_names :
    sig_arg_names (fobj_call x) = Ok ps /\ sig_arg_names (fobj_first o x) = Ok ps /\
    sig_arg_names (fobj_hess_val x) = Ok (slf :: ps).
  Proof.
    destruct obj_eq as (E1 & E2 & E3 & E4). unfold fobj_call, fobj_first, fobj_hess_val, sig_arg_names. rewrite E2, E3.
    split; [|split].
    - simpl. now rewrite app_nil_r.
    - destruct meta; injection Hc as <-; simpl; now rewrite app_nil_r.
    - revert Hx. unfold fobj_init. rewrite E1. simpl. intros [= <-]. simpl. now rewrite app_nil_r.
  Qed.

  (** Calls of the derivatives reach the bodies, with the object as [self]. *)
  Theorem C81_derivatives args kw :
    pycall (fobj_first o x) args kw = first o args kw /\ pycall (fobj_hess_val x) args kw = hess o args kw.
  Proof.
    destruct obj_eq as (E1 & E2 & E3 & E4). unfold fobj_first, fobj_hess_val. rewrite E2.
    destruct meta; injection Hc as <-; revert Hx; unfold fobj_init; simpl; intros [= <-]; auto.
  Qed.

  (** [grad] takes the shape of a variable from the argument bound to it, given
      by position or by keyword; a name that is not a parameter raises KeyError. *)
  Theorem C81_gradient_argument args kw vs : binds ps args kw vs ->
    (forall i wrt, nth_error ps i = Some wrt -> exists v, wrt_arg x args kw wrt = Ok v /\ nth_error vs i = Some v) /\
    (forall wrt, ~ In wrt ps -> wrt_arg x args kw wrt = Err KeyError).
  Proof.
    destruct obj_eq as (_ & _ & E3 & _). intros (L & L' & H1 & H2 & H3). unfold wrt_arg. rewrite E3. cbn [ps_names]. unfold dlookup.
    assert (N : NoDup ps) by (now inversion Hps).
    split.
    - intros i wrt Hi. assert (Li : i < length ps) by (apply nth_error_Some; congruence).
      destruct (dget String.eqb kw wrt) as [v|] eqn:E.
      + exists v; split; auto. assert (Hin : In wrt (map fst kw)) by (apply dget_In in E; [|apply String.eqb_spec]; apply in_map_iff; now exists (wrt, v)).
        apply H3 in Hin as (j & Hj & Ej). assert (i = j) as -> by (eapply NoDup_nth_error; eauto; congruence).
        now rewrite (H2 j wrt).
      + assert (Hlt : i < length args).
        { destruct (lt_dec i (length args)); auto. exfalso. apply (dget_None String.eqb String.eqb_spec) in E. apply E, H3. exists i; split; auto; lia. }
        destruct (index_of_nth ps wrt) as (j & Ej & Lj & Nj); [eapply nth_error_In; eauto|]. rewrite Ej.
        assert (i = j) as <-.
        { eapply NoDup_nth_error; eauto. rewrite Hi. rewrite (nth_error_nth' ps EmptyString) by auto. congruence. }
        destruct (nth_error args i) as [v|] eqn:Ea; [|apply nth_error_None in Ea; lia].
        exists v; split; auto. rewrite H1; auto.
    - intros wrt Hw. destruct (dget String.eqb kw wrt) as [v|] eqn:E.
      + exfalso. assert (Hin : In wrt (map fst kw)) by (apply dget_In in E; [|apply String.eqb_spec]; apply in_map_iff; now exists (wrt, v)).
        apply H3 in Hin as (j & _ & Ej). apply Hw. eapply nth_error_In; eauto.
      + destruct (index_of ps wrt) as [i|] eqn:Ei; auto. exfalso. apply Hw. clear - Ei.
        revert i Ei. induction ps as [|p l IH]; simpl; [discriminate|]. intros i.
        destruct (String.eqb_spec wrt p); auto. destruct (index_of l wrt) as [j|]; [|discriminate]. eauto.
  Qed.

  (** A parameter given neither by position nor by keyword raises IndexError. *)
  Theorem C81_gradient_too_few args kw i wrt : nth_error ps i = Some wrt -> ~ In wrt (map fst kw) -> length args <= i ->
    wrt_arg x args kw wrt = Err IndexError.
  Proof.
    destruct obj_eq as (_ & _ & E3 & _). intros Hi Hk La. unfold wrt_arg. rewrite E3. cbn [ps_names]. unfold dlookup.
    rewrite (proj2 (dget_None String.eqb String.eqb_spec kw wrt) Hk).
    assert (N : NoDup ps) by (now inversion Hps). assert (Li : i < length ps) by (apply nth_error_Some; congruence).
    destruct (index_of_nth ps wrt) as (j & Ej & Lj & Nj); [eapply nth_error_In; eauto|]. rewrite Ej.
    assert (i = j) as <- by (eapply NoDup_nth_error; eauto; rewrite Hi; rewrite (nth_error_nth' ps EmptyString) by auto; congruence).
    now rewrite (proj2 (nth_error_None args i) La).
  Qed.

  (** ** The optimization problem *)

  Lemma binds_positional vs : binds ps vs [] vs <-> length vs = length ps.
  Proof.
    unfold binds; split; [tauto|]. intros L. split; [auto|]. split; [lia|]. split; [auto|]. split.
    - intros i n Hi E. assert (i < length ps) by (apply nth_error_Some; congruence). lia.
    - intros n; split; [intros []|]. intros (i & Hi & E). assert (i < length ps) by (apply nth_error_Some; congruence). lia.
  Qed.

  (** A registered function without argument names is called with the variable
      of each parameter's name; with argument names, with these variables, in
      order, if there are as many as parameters, and TypeError otherwise. *)
  Theorem C81_problem (args : option (list string)) f variables vals :
    ofun_init x args = Ok f ->
    let used := match args with Some a => a | None => ps end in
    Forall2 (fun n v => dget String.eqb variables n = Some v) used vals ->
    ofun_call x f variables = (if Nat.eqb (length used) (length ps) then body (model :: vals) else Err TypeError).
  Proof.
    intros Hf used HF. unfold ofun_init in Hf. destruct C81_names as (En & _ & _). rewrite En in Hf. cbn [bind] in Hf.
    assert (of_args f = used) as Ea by (unfold used; destruct args; injection Hf as <-; reflexivity).
    unfold ofun_call. rewrite Ea.
    assert (mapM (dlookup String.eqb variables) used = Ok vals) as ->.
    { clear - HF. induction HF as [|n v ns vs E HF IH]; simpl; auto. unfold dlookup at 1. rewrite E. simpl. now rewrite IH. }
    cbn [bind]. pose proof (C81_call vals []) as B. specialize (B (fun H => H)).
    assert (length used = length vals) as -> by (eapply Forall2_length; eauto).
    destruct (Nat.eqb_spec (length vals) (length ps)) as [L|L].
    - assert (U : forall vs, binds ps vals [] vs -> vs = vals) by (intros vs H; eapply C81_binding_unique; eauto; now apply binds_positional).
      destruct (pycall (fobj_call x) vals []) as [r|e].
      + destruct B as (vs & Hb & E). now rewrite (U vs Hb) in E.
      + destruct B as [(_ & H)|(vs & Hb & E)]; [now elim (H vals); apply binds_positional|]. now rewrite (U vs Hb) in E.
    - assert (U : forall vs, ~ binds ps vals [] vs).
      { intros vs (L1 & L2 & _ & H4 & H5). assert (length vals < length ps) by lia.
        destruct (nth_error ps (length vals)) as [n|] eqn:E; [|apply nth_error_None in E; lia].
        apply (H5 n). exists (length vals); auto. }
      destruct (pycall (fobj_call x) vals []) as [r|e].
      + destruct B as (vs & Hb & _). now elim (U vs).
      + destruct B as [(-> & _)|(vs & Hb & _)]; auto. now elim (U vs).
  Qed.

  (** A variable that does not exist raises KeyError. *)
  Theorem C81_missing (args : option (list string)) f variables n :
    ofun_init x args = Ok f -> In n (match args with Some a => a | None => ps end) ->
    ~ In n (map fst variables) -> ofun_call x f variables = Err KeyError.
  Proof.
    intros Hf Hn Hv. unfold ofun_init in Hf. destruct C81_names as (En & _ & _). rewrite En in Hf. cbn [bind] in Hf.
    assert (In n (of_args f)) as Ha by (destruct args; injection Hf as <-; exact Hn).
    unfold ofun_call. revert Ha. generalize (of_args f) as l. intros l Ha.
    assert (mapM (dlookup String.eqb variables) l = Err KeyError) as ->; [|reflexivity].
    induction l as [|m l IH]; [destruct Ha|]. simpl. unfold dlookup at 1.
    destruct (dget String.eqb variables m) as [v|] eqn:E; simpl; auto.
    destruct Ha as [->|Ha]; [apply (dget_None String.eqb String.eqb_spec) in Hv; congruence|]. now rewrite IH.
  Qed.

  (** [renamed] takes the parameters, in order, to the names given. *)
  Theorem C81_renamed (args : option (list string)) f : ofun_init x args = Ok f ->
    match args with
    | None => of_renamed f = []
    | Some a => forall n v, dget String.eqb (of_renamed f) n = Some v <-> exists i, nth_error ps i = Some n /\ nth_error a i = Some v
    end.
  Proof.
    unfold ofun_init. destruct C81_names as (En & _ & _). rewrite En. cbn [bind]. destruct args as [a|]; intros [= <-]; auto. cbn [of_renamed].
    assert (N : NoDup ps) by (now inversion Hps).
    assert (Hm : NoDup (map fst (combine ps a))).
    { clear - N. revert a. induction N as [|p l Hp N IH]; intros [|b a]; simpl; constructor; auto.
      intros Hin. apply in_map_iff in Hin as ([p' b'] & E & Hin). simpl in E; subst p'. now apply in_combine_l in Hin. }
    rewrite (dmake_NoDup _ String.eqb_spec) by exact Hm. intros n v. transitivity (In (n, v) (combine ps a)).
    - split; [apply dget_In, String.eqb_spec|]. intros H. now apply (In_dget _ String.eqb_spec).
    - clear. revert a. induction ps as [|p l IH]; intros a; [split; [intros []|intros ([|i] & E & _); discriminate]|].
      destruct a as [|b a]; [split; [intros []|intros ([|i] & _ & E); discriminate]|]. simpl. rewrite IH. split.
      + intros [[= -> ->]|(i & H)]; [now exists 0|now exists (S i)].
      + intros ([|i] & E1 & E2); simpl in *; [left; congruence|right; eauto].
  Qed.

  (** Without [with_signature] the derivatives would be methods of any
      arguments, as [hess_val] in the class of an objective is. *)
  Theorem C81_plain (m : V -> list V -> sdict V -> res D) :
    sig_arg_names (CFun _ (defm m)) = Ok ["self"; "args"; "kwargs"] /\ sig_arg_names (CBound _ o (defm m)) = Ok ["args"; "kwargs"] /\
    bound_signature (CBound _ o (defm m)) = Ok (PSig [] true) /\
    (forall kw, pycall (CFun _ (defm m)) [] kw = Err TypeError) /\
    sig_arg_names (CFun _ (k_hess_val c)) = Ok (if meta then ["self"; "args"; "kwargs"] else slf :: ps).
  Proof. do 4 (split; [reflexivity|]). destruct meta; injection Hc as <-; [reflexivity|]. cbn. now rewrite app_nil_r. Qed.
  End Object.

  (** A method without parameters, not even [self]: the objects can be made,
      their signature is empty, and calls raise. *)
  Theorem C81_no_self (body : list V -> res A) (first hess : V -> list V -> sdict V -> res D) (meta : bool) (o model : V) :
    exists c x, (if meta then objective_meta (deff [] body) first hess else constraint_meta (deff [] body) first hess) = Ok c /\
      fobj_init c o model = Ok x /\ sig_arg_names (fobj_call x) = Ok [] /\
      (forall args kw, pycall (fobj_call x) args kw = Err TypeError) /\
      sig_arg_names (fobj_first o x) = Err ValueError.
  Proof. destruct meta; do 2 eexists; repeat split. Qed.
End Sig.

(** A constraint [g(self, x, u)] on numbers: calls by position and by keyword,
    a call with an argument given twice, and the problem's call with renamed
    arguments. *)
Example C81_nonvacuous :
  let body l := match l with [m; x; u] => Ok (m + 10 * x + 100 * u) | _ => Err TypeError end in
  let none (_ : nat) (_ : list nat) (_ : sdict nat) : res nat := Err KeyError in
  exists c x f, constraint_meta (deff ["self"; "x"; "u"] body) none none = Ok c /\ fobj_init c 7 5 = Ok x /\
    pycall (fobj_call x) [1; 2] [] = Ok 215 /\ pycall (fobj_call x) [1] [("u", 2)] = Ok 215 /\
    pycall (fobj_call x) [] [("u", 2); ("x", 1)] = Ok 215 /\ pycall (fobj_call x) [1; 2] [("x", 1)] = Err TypeError /\
    sig_arg_names (fobj_hess_val x) = Ok ["self"; "x"; "u"] /\
    ofun_init x (Some ["xm"; "um"]) = Ok f /\ ofun_call x f [("um", 2); ("xm", 1); ("x", 9)] = Ok 215.
Proof. intros body none. do 3 eexists. repeat split. Qed.
