(** Calculus lemmas for problems over R. *)
From Coq Require Import String List ZArith Bool Arith Lia Reals Lra.
From Coquelicot Require Import Coquelicot.
From Verif Require Import Py NdArray OptimModel ColModel DictLemmas Builder BuilderLemmas
  NdLemmas OptimSpec OptimLaws LawFacts LayoutLemmas ProblemSpec ProblemLemmas AssemblyLemmas
  GradLemmas DerivSpec.
Import ListNotations.
Local Open Scope R_scope.

(** *** Sums *)
Lemma rsum_lsum l : rsum l = lsum l.
Proof. reflexivity. Qed.

Lemma rsum_app a b : rsum (a ++ b) = rsum a + rsum b.
Proof. unfold rsum. induction a; simpl; [lra|]. rewrite IHa. lra. Qed.

Lemma rsum_flat_map {A} (f : A -> list R) l : rsum (flat_map f l) = rsum (map (fun a => rsum (f a)) l).
Proof. induction l; simpl; auto. rewrite rsum_app, IHl. reflexivity. Qed.

Lemma rsum_map_ext {A} (f g : A -> R) l : (forall a, In a l -> f a = g a) -> rsum (map f l) = rsum (map g l).
Proof. intros H. f_equal. now apply map_ext_in. Qed.

Lemma rsum_map_scal {A} (f : A -> R) c l : rsum (map (fun a => c * f a) l) = c * rsum (map f l).
Proof. unfold rsum. induction l; simpl; [lra|]. rewrite IHl. lra. Qed.

Lemma rsum_map_plus {A} (f g : A -> R) l : rsum (map (fun a => f a + g a) l) = rsum (map f l) + rsum (map g l).
Proof. unfold rsum. induction l; simpl; [lra|]. rewrite IHl. lra. Qed.

Lemma rsum_map_zero {A} (f : A -> R) l : (forall a, In a l -> f a = 0) -> rsum (map f l) = 0.
Proof. unfold rsum. induction l; simpl; intros H; [lra|]. rewrite H, IHl; auto. lra. Qed.

Lemma rsum_swap {A B} (f : A -> B -> R) la lb :
  rsum (map (fun a => rsum (map (f a) lb)) la) = rsum (map (fun b => rsum (map (fun a => f a b) la)) lb).
Proof.
  induction la as [|a la IH]; simpl.
  - symmetry. apply rsum_map_zero. auto.
  - rewrite IH. symmetry. apply (rsum_map_plus (f a)).
Qed.

Lemma rsum_nth l : rsum l = rsum (map (fun i => nth i l 0) (seq 0 (length l))).
Proof. f_equal. symmetry. apply map_nth_seq. Qed.

Lemma rsum_ind n (q : Z) (g : nat -> R) : (0 <= q < Z.of_nat n)%Z ->
  rsum (map (fun i => if (q =? Z.of_nat i)%Z then g i else 0) (seq 0 n)) = g (Z.to_nat q).
Proof.
  intros H. induction n; [lia|]. rewrite seq_S, map_app, rsum_app. simpl.
  destruct (Z.eqb_spec q (Z.of_nat n)).
  - rewrite rsum_map_zero; [subst; rewrite Nat2Z.id; lra|].
    intros i Hi. apply in_seq in Hi. destruct (Z.eqb_spec q (Z.of_nat i)); [lia|auto].
  - rewrite IHn by lia. lra.
Qed.

Lemma sumn_rsum n (f : nat -> R) : sumn n f = rsum (map f (seq 0 n)).
Proof.
  induction n; [reflexivity|]. rewrite (sumn_S n), seq_S, map_app, rsum_app, IHn. simpl. lra.
Qed.

(** *** Sparse sums *)
Lemma combine_app {A B} (a1 a2 : list A) (b1 b2 : list B) : length a1 = length b1 ->
  combine (a1 ++ a2) (b1 ++ b2) = combine a1 b1 ++ combine a2 b2.
Proof. revert b1; induction a1; intros [|b b1] H; simpl in *; try discriminate; auto. f_equal. auto. Qed.

Lemma tsum_app {C} (c1 c2 : list C) o1 o2 v1 v2 D q :
  length c1 = length o1 -> length o1 = length v1 ->
  tsum (c1 ++ c2) (o1 ++ o2) (v1 ++ v2) D q = tsum c1 o1 v1 D q + tsum c2 o2 v2 D q.
Proof.
  intros H1 H2. unfold tsum. rewrite (combine_app o1) by auto.
  rewrite combine_app by (rewrite combine_length; lia). now rewrite map_app, rsum_app.
Qed.

Lemma combine_map_l {A B C} (f : A -> B) (l : list A) (m : list C) :
  combine (map f l) m = map (fun x => (f (fst x), snd x)) (combine l m).
Proof. revert m; induction l; intros [|y m]; simpl; auto. f_equal; auto. Qed.

Lemma combine_map_r {A B C} (f : A -> B) (l : list C) (m : list A) :
  combine l (map f m) = map (fun x => (fst x, f (snd x))) (combine l m).
Proof. revert m; induction l; intros [|y m]; simpl; auto. f_equal; auto. Qed.

Lemma tsum_map_cells {B C} (g : B -> C) cells outs vals D q :
  tsum (map g cells) outs vals D q = tsum cells outs vals (fun b => D (g b)) q.
Proof. unfold tsum. rewrite combine_map_l, map_map. reflexivity. Qed.

Lemma tsum_shift {C} (cells : list C) outs vals D q off :
  tsum cells (map (fun i => i + off)%Z outs) vals D q = tsum cells outs vals D (q - off).
Proof.
  unfold tsum. rewrite (combine_map_l (fun i => (i + off)%Z)), combine_map_r, map_map. apply rsum_map_ext.
  intros [c [o v]] _. simpl. destruct (Z.eqb_spec (o + off) q), (Z.eqb_spec o (q - off)); auto; lia.
Qed.

Lemma tsum_none {C} (cells : list C) outs vals D q :
  (forall o, In o outs -> o <> q) -> tsum cells outs vals D q = 0.
Proof.
  intros H. unfold tsum. apply rsum_map_zero. intros [c [o v]] Hin. simpl.
  apply in_combine_r in Hin. apply in_combine_l in Hin.
  destruct (Z.eqb_spec o q); auto. exfalso. eapply H; eauto.
Qed.

Lemma tsum_ext {C} (cells : list C) outs vals D D' q :
  (forall c, In c cells -> D c = D' c) -> tsum cells outs vals D q = tsum cells outs vals D' q.
Proof.
  intros H. unfold tsum. apply rsum_map_ext. intros [c [o v]] Hin. simpl.
  apply in_combine_l in Hin. now rewrite (H c Hin).
Qed.

(** Weighted over all outputs. *)
Lemma tsum_weighted {C} (cells : list C) outs vals D n (mu : nat -> R) :
  (forall o, In o outs -> (0 <= o < Z.of_nat n)%Z) ->
  rsum (map (fun q => mu q * tsum cells outs vals D (Z.of_nat q)) (seq 0 n))
  = rsum (map (fun e => mu (Z.to_nat (fst (snd e))) * snd (snd e) * D (fst e))
              (combine cells (combine outs vals))).
Proof.
  intros H. unfold tsum.
  erewrite rsum_map_ext by (intros q _; symmetry; apply rsum_map_scal).
  rewrite rsum_swap. apply rsum_map_ext. intros [c [o v]] Hin. simpl.
  apply in_combine_r in Hin. apply in_combine_l in Hin. specialize (H o Hin).
  erewrite rsum_map_ext.
  2: { intros i Hi. instantiate (1 := fun i => if (o =? Z.of_nat i)%Z then mu i * v * D c else 0).
       simpl. destruct (o =? Z.of_nat i)%Z; lra. }
  rewrite rsum_ind by auto. reflexivity.
Qed.

(** *** Derivatives of sums *)
Lemma is_derive_rsum {A} (f : A -> R -> R) (d : A -> R) l x :
  (forall a, In a l -> is_derive (f a) x (d a)) ->
  is_derive (fun t => rsum (map (fun a => f a t) l)) x (rsum (map d l)).
Proof.
  unfold rsum. induction l; simpl; intros H; [apply (is_derive_const 0)|].
  apply (is_derive_plus (f a)); auto.
Qed.

Lemma is_derive_eq (f : R -> R) x a b : is_derive f x a -> a = b -> is_derive f x b.
Proof. now intros H <-. Qed.

Lemma d2_ext F G v : (forall s t, F s t = G s t) -> d2 F v -> d2 G v.
Proof.
  intros H [H1 H2]. split.
  - revert H1. apply filter_imp. intros t. apply ex_derive_ext. auto.
  - revert H2. apply is_derive_ext. intros t. apply Derive_ext. auto.
Qed.

Lemma d2_zero : d2 (fun _ _ => 0) 0.
Proof.
  split.
  - apply filter_forall. intros t. apply ex_derive_const.
  - apply (is_derive_ext (fun _ => 0)); [|apply (is_derive_const 0)].
    intros t. now rewrite Derive_const.
Qed.

Lemma d2_plus F G u v : d2 F u -> d2 G v -> d2 (fun s t => F s t + G s t) (u + v).
Proof.
  intros [F1 F2] [G1 G2]. split.
  - generalize (filter_and _ _ F1 G1). apply filter_imp. intros t [H1 H2]. now apply (ex_derive_plus (fun s => F s t)).
  - apply (is_derive_ext_loc (fun t => Derive (fun s => F s t) 0 + Derive (fun s => G s t) 0)).
    + generalize (filter_and _ _ F1 G1). apply filter_imp. intros t [H1 H2]. symmetry. now apply Derive_plus.
    + now apply (is_derive_plus (fun t => Derive (fun s => F s t) 0)).
Qed.

Lemma d2_scal F u c : d2 F u -> d2 (fun s t => c * F s t) (c * u).
Proof.
  intros [F1 F2]. split.
  - revert F1. apply filter_imp. intros t H. now apply (ex_derive_scal (fun s => F s t)).
  - apply (is_derive_ext (fun t => c * Derive (fun s => F s t) 0)).
    + intros t. symmetry. apply Derive_scal.
    + now apply (is_derive_scal (fun t => Derive (fun s => F s t) 0)).
Qed.

Lemma d2_rsum {A} (F : A -> R -> R -> R) (d : A -> R) l :
  (forall a, In a l -> d2 (F a) (d a)) ->
  d2 (fun s t => rsum (map (fun a => F a s t) l)) (rsum (map d l)).
Proof.
  unfold rsum. induction l; simpl; intros H; [apply d2_zero|]. apply (d2_plus (F a)); auto.
Qed.

(** *** Moving decisions moves arguments *)
Lemma vmove_length x e t : length (vmove x e t) = length x.
Proof. unfold vmove. now rewrite map_length, seq_length. Qed.

Lemma vmove_nth x e t q : (q < length x)%nat -> nth q (vmove x e t) 0 = nth q x 0 + t * e q.
Proof. intros H. unfold vmove. now rewrite nth_map_seq. Qed.

Lemma vmove_0 x e : vmove x e 0 = x.
Proof.
  unfold vmove. transitivity (map (fun i => nth i x 0) (seq 0 (length x))).
  - apply map_ext. intros q. lra.
  - apply map_nth_seq.
Qed.

Section Lines.
  Variable p : problem R.
  Variable sel : string -> nat -> nat.
  Hypothesis RP : reachable p.
  Hypothesis S : selects p sel.
  Let I : inv p := reachable_inv p RP.

  (** Direction seen by the parameters of [o]. *)
  Definition dir (o : optfun R) (e : nat -> R) (w : string) (i : nat) : R :=
    if existsb (String.eqb w) (active p o) then e (sel (param o w) i) else 0.

  Lemma dir_active o e w i : In w (active p o) -> dir o e w i = e (sel (param o w) i).
  Proof.
    intros H. unfold dir. replace (existsb (String.eqb w) (active p o)) with true; auto.
    symmetry. apply existsb_exists. exists w. split; auto. apply String.eqb_refl.
  Qed.

  Lemma dir_supported o e : supported (active p o) (dir o e).
  Proof.
    intros w i H. unfold dir. destruct (existsb (String.eqb w) (active p o)) eqn:E; auto.
    apply existsb_exists in E. destruct E as (w' & H1 & H2). apply String.eqb_eq in H2. subst. tauto.
  Qed.

  Lemma arg_at_move o dvec e t w : length dvec = ndec p -> In w (f_sig (o_fun o)) ->
    arg_at p sel (vmove dvec e t) o w
    = Arr (ash (arg_at p sel dvec o w)) (vmove (adat (arg_at p sel dvec o w)) (dir o e w) t).
  Proof.
    intros HL Hw. unfold arg_at. destruct (variable_spec p (param o w)) as [sp|] eqn:Ev.
    - assert (Hin : In (param o w, sp) (all_specs p)).
      { rewrite variable_spec_dget in Ev. destruct (dget String.eqb (all_specs p) (param o w)) eqn:E; [|discriminate].
        injection Ev as ->. now apply (dget_In _ String.eqb_spec) in E. }
      assert (Ha : In w (active p o)).
      { apply active_spec. split; auto. apply (in_map fst) in Hin. now rewrite fst_all_specs in Hin. }
      unfold var_at. cbn [ash adat]. f_equal. unfold vmove at 2. rewrite map_length, seq_length.
      apply map_ext_in. intros i Hi. apply in_seq in Hi. rewrite nth_map_seq by lia.
      rewrite vmove_nth; [now rewrite dir_active|]. rewrite HL. apply (law_sel _ _ _ (S _ _ Hin)). lia.
    - assert (Hz : forall i, dir o e w i = 0).
      { intros i. apply dir_supported. intros Ha. destruct (active_var p o w I Ha) as (sp & _ & E & _). congruence. }
      destruct (dget String.eqb (p_extra p) (param o w)) as [a|]; [|reflexivity].
      destruct a as [s l]. simpl. f_equal. unfold vmove. rewrite <- (map_nth_seq 0 l) at 1.
      apply map_ext. intros i. rewrite Hz. lra.
  Qed.

  Lemma move_map sig (g : string -> arr R) D t :
    move sig (map g sig) D t = map (fun w => Arr (ash (g w)) (vmove (adat (g w)) (D w) t)) sig.
  Proof.
    unfold move. induction sig; simpl; auto. f_equal. auto.
  Qed.

  Lemma fun_args_move o dvec e t A : length dvec = ndec p -> fits p o ->
    fun_args p dvec o = Ok A ->
    fun_args p (vmove dvec e t) o = Ok (move (f_sig (o_fun o)) A (dir o e) t).
  Proof.
    intros HL F. rewrite (fun_args_ok p sel dvec o I S HL F). intros [= <-].
    rewrite (fun_args_ok p sel _ o I S) by (rewrite ?vmove_length; auto).
    f_equal. rewrite move_map. apply map_ext_in. intros w Hw. now apply arg_at_move.
  Qed.

  (** The value of one function along the plane dvec + t E + s D. *)
  Definition plane (o : optfun R) (A : list (arr R)) (D E : nat -> R) (s t : R) : list R :=
    callv (o_fun o) (move (f_sig (o_fun o)) (move (f_sig (o_fun o)) A (dir o E) t) (dir o D) s).

  Lemma plane_args o dvec D E s t A : length dvec = ndec p -> fits p o -> fun_args p dvec o = Ok A ->
    fun_args p (vmove (vmove dvec E t) D s) o
    = Ok (move (f_sig (o_fun o)) (move (f_sig (o_fun o)) A (dir o E) t) (dir o D) s).
  Proof.
    intros HL F HA. apply fun_args_move; auto; [now rewrite vmove_length|]. now apply fun_args_move.
  Qed.

  (** *** Constraints along a plane *)
  Definition fcall_ok (dvec : list R) (s : shape) (o : optfun R) (A : list (arr R)) : Prop :=
    fits p o /\ fun_args p dvec o = Ok A /\ calls_ok (o_fun o) (active p o) s A.

  Lemma fcall_plane dvec s o A D E u t : length dvec = ndec p -> fcall_ok dvec s o A ->
    exists v, call_ok (o_fun o) (move (f_sig (o_fun o)) (move (f_sig (o_fun o)) A (dir o E) t) (dir o D) u) s v
      /\ adat v = plane o A D E u t /\ length (plane o A D E u t) = prodn s.
  Proof.
    intros HL (F & HA & HC). destruct (HC (dir o D) (dir o E) u t) as (v & Hv); try apply dir_supported.
    exists v. split; [exact Hv|]. destruct Hv as (H1 & H2 & H3). unfold plane, callv. rewrite H1.
    split; auto. rewrite <- H2. exact H3.
  Qed.

  Lemma constr_plane dvec As D E s t : length dvec = ndec p ->
    Forall2 (fun co A => fcall_ok dvec (c_shape (fst co)) (snd co) A) (p_constraints p) As ->
    constr p (vmove (vmove dvec E t) D s)
    = Ok (flat_map (fun x => plane (snd (fst x)) (snd x) D E s t) (combine (p_constraints p) As)) /\
    length (flat_map (fun x => plane (snd (fst x)) (snd x) D E s t) (combine (p_constraints p) As)) = ncons p.
  Proof.
    intros HL HF.
    assert (exists vs, Forall2 (cval_ok p (vmove (vmove dvec E t) D s)) (p_constraints p) vs /\
       flat_map adat vs = flat_map (fun x => plane (snd (fst x)) (snd x) D E s t) (combine (p_constraints p) As))
      as (vs & HV & <-).
    { clear -HF HL RP S I. induction HF as [|co A cs As H HF IH].
      - exists []. split; [constructor|reflexivity].
      - destruct IH as (vs & HV & EV). destruct (fcall_plane dvec _ _ _ D E s t HL H) as (v & Hv & Ed & _).
        exists (v :: vs). split.
        + constructor; auto. destruct H as (F & HA & _). apply cval_exact; auto. eexists. split; [|exact Hv].
          now apply plane_args.
        + cbn [flat_map combine fst snd]. now rewrite EV, Ed. }
    apply (constr_value p sel RP S); auto. now rewrite !vmove_length.
  Qed.

  Lemma obj_plane dvec As D E s t : length dvec = ndec p ->
    Forall2 (fun o A => fcall_ok dvec (o_shape o) o A) (p_objectives p) As ->
    obj p (vmove (vmove dvec E t) D s)
    = Ok (rsum (map (fun x => rsum (plane (fst x) (snd x) D E s t)) (combine (p_objectives p) As))).
  Proof.
    intros HL HF.
    assert (exists vs, Forall2 (obj_at_ok p (vmove (vmove dvec E t) D s)) (p_objectives p) vs /\
       map (fun v => rsum (adat v)) vs = map (fun x => rsum (plane (fst x) (snd x) D E s t)) (combine (p_objectives p) As))
      as (vs & HV & <-).
    { clear -HF HL RP S I. induction HF as [|o A cs As H HF IH].
      - exists []. split; [constructor|reflexivity].
      - destruct IH as (vs & HV & EV). destruct (fcall_plane dvec _ _ _ D E s t HL H) as (v & Hv & Ed & _).
        exists (v :: vs). split.
        + constructor; auto. destruct H as (F & HA & _). split; auto. eexists. split; [|exact (proj1 Hv)].
          now apply plane_args.
        + cbn [map combine fst snd]. now rewrite EV, Ed. }
    apply (obj_value p sel RP S); auto. now rewrite !vmove_length.
  Qed.

  (** Locate one row in the stacked constraint values. *)
  Lemma stacked_row {X} (cs : list X) (cmp : X -> comp) (V : X -> list R) start stop q :
    adjacent start (map (fun x => cslice (cmp x)) cs) stop ->
    (forall x, In x cs -> csize (cmp x) = Z.of_nat (length (V x))) ->
    (start <= q < stop)%Z ->
    nth (Z.to_nat (q - start)) (flat_map V cs) 0
    = rsum (map (fun x => if ((c_off (cmp x) <=? q) && (q <? c_off (cmp x) + Z.of_nat (length (V x))))%Z%bool
                          then nth (Z.to_nat (q - c_off (cmp x))) (V x) 0 else 0) cs).
  Proof.
    revert start; induction cs as [|x cs IH]; intros start A HV Hq; cbn [map flat_map adjacent] in *.
    - lia.
    - unfold cslice at 1 in A. destruct A as (Ea & Hab & A).
      rewrite HV in A, Hab by (simpl; auto). set (m := length (V x)) in *. simpl rsum.
      assert (Hrest : (q < c_off (cmp x) + Z.of_nat m)%Z ->
        rsum (map (fun x => if ((c_off (cmp x) <=? q) && (q <? c_off (cmp x) + Z.of_nat (length (V x))))%Z%bool
                          then nth (Z.to_nat (q - c_off (cmp x))) (V x) 0 else 0) cs) = 0).
      { intros Hlt. apply rsum_map_zero. intros y Hy.
        assert (Hb : In (cslice (cmp y)) (map (fun x => cslice (cmp x)) cs)) by (apply in_map_iff; eauto).
        unfold cslice in Hb. apply (adjacent_bounds _ _ _ _ _ A) in Hb.
        destruct (Z.leb_spec (c_off (cmp y)) q); [lia|]. reflexivity. }
      destruct (Z.ltb_spec q (c_off (cmp x) + Z.of_nat m)).
      + rewrite app_nth1 by (fold m; lia). rewrite Hrest by auto.
        destruct (Z.leb_spec (c_off (cmp x)) q); [|lia]. simpl. rewrite Ea. lra.
      + rewrite app_nth2 by (fold m; lia). destruct (Z.leb_spec (c_off (cmp x)) q); [|lia]. simpl.
        fold m. replace (Z.to_nat (q - start) - m)%nat with (Z.to_nat (q - (c_off (cmp x) + Z.of_nat m))) by lia.
        rewrite IH; auto; [lra| |lia]. intros; apply HV; simpl; auto.
  Qed.
End Lines.
