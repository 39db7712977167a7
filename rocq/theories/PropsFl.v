(** C85: the collocation grid and finite differences in binary64 arithmetic. *)
From Coq Require Import List Bool Arith ZArith Reals Lra Lia Sorting.Sorted.
From Flocq Require Import Core Binary Bits.
From Verif Require Import Py NdArray NdLemmas LawFacts UtilModel DerivSpec ColModel ColBuild PropsCol PropsDiff FlModel FlLemmas.
Import ListNotations.
Local Open Scope R_scope.

Notation fin := (is_finite 53 1024).
Notation val := (B2R 53 1024).

(** ** With exact arithmetic these are the models of C23 and C54 *)
Lemma fl_diff_exact (t : list R) : fl_diff r_ops t = diff t.
Proof. unfold fl_diff. induction t as [|a [|b t] IH]; auto. cbn [tl combine map diff] in *. now rewrite IH. Qed.
Lemma move_exact x i d : fl_move r_ops Rplus x i d = bump x i d /\ fl_move r_ops Rminus x i d = bump x i (- d).
Proof. split; reflexivity. Qed.
Lemma foldM_ext {A B} (f g : A -> B -> res A) l : (forall a b, f a b = g a b) -> forall a, foldM f a l = foldM g a l.
Proof. intros H. induction l as [|b l IH]; intros a; auto. cbn [foldM]. rewrite H. destruct (g a b); cbn [bind]; auto. Qed.
Theorem C85_exact :
  (forall n pts (t : list R), fl_grid r_ops pts t = grid (Colloc n pts) t) /\
  (forall t, fl_piece_ok r_ops t = true <-> forall h, In h (diff t) -> 0 < h) /\
  (forall f x min rel, fl_central_diff r_ops f x min rel = central_diff f x min rel) /\
  (forall f x min rel, fl_forward_diff r_ops f x min rel = forward_diff f x min rel).
Proof.
  split; [|split; [|split]].
  2: { intros t. unfold fl_piece_ok. rewrite fl_diff_exact, forallb_forall. unfold r_ops, fgtb, fzero.
    split; intros H h Hh; specialize (H h Hh); destruct (Rlt_dec 0 h); auto; discriminate. }
  - intros n pts t. unfold fl_grid, grid. destruct t as [|t0 t']; auto. rewrite fl_diff_exact. cbn [col_points].
    set (l := removelast (t0 :: t')). set (q := removelast pts). do 3 f_equal. generalize (diff (t0 :: t')). clearbody l q. clear.
    induction l as [|a l IH]; intros [|b m]; auto. cbn [map combine fst snd]. rewrite IH. f_equal. now rewrite map_map.
  - intros f x min rel. unfold fl_central_diff, central_diff. change (fl_steps r_ops x min rel) with (steps x min rel).
    rewrite (foldM_ext _ (central_row f x (steps x min rel))); [reflexivity|]. reflexivity.
  - intros f x min rel. unfold fl_forward_diff, forward_diff. change (fl_steps r_ops x min rel) with (steps x min rel). cbv zeta.
    erewrite foldM_ext; [reflexivity|]. intros l i. unfold fl_quotient, quotient. cbn [r_ops fzero fadd fdiv fsub].
    change (fl_move r_ops Rplus x i (nth i (steps x min rel) 0)) with (bump x i (nth i (steps x min rel) 0)).
    destruct (shape_eqb _ _); auto. cbn [bind adat]. do 2 f_equal. apply map_ext. intros [a b]. cbn [fst snd]. now rewrite Rmult_1_l.
Qed.

(** ** Operations without overflow *)
Lemma isfl_val a : isfl (val a). Proof. apply (generic_format_B2R 53 1024). Qed.
Lemma rnd_bounded x k : (-1074 <= k)%Z -> Rabs x <= pow2 k -> Rabs (rnd x) <= pow2 k.
Proof.
  intros Hk H. apply Rabs_le_inv in H. apply Rabs_le. split.
  - apply rnd_ge_l; [apply isfl_opp, isfl_pow2; auto|lra].
  - apply rnd_le_r; [apply isfl_pow2; auto|lra].
Qed.
Lemma no_overflow x : Rabs x <= pow2 1023 -> Rlt_bool (Rabs (rnd x)) (pow2 1024) = true.
Proof.
  intros H. apply Rlt_bool_true. eapply Rle_lt_trans; [apply (rnd_bounded x 1023); [lia|auto]|]. apply bpow_lt. lia.
Qed.
Lemma add_ok a b : fin a = true -> fin b = true -> Rabs (val a + val b) <= pow2 1023 ->
  fin (fadd b64_ops a b) = true /\ val (fadd b64_ops a b) = rnd (val a + val b).
Proof.
  intros Fa Fb H. pose proof (Bplus_correct 53 1024 eq_refl eq_refl binop_nan_pl64 BinarySingleNaN.mode_NE a b Fa Fb) as C.
  pose proof (no_overflow _ H) as N. unfold rnd in N. cbn [BinarySingleNaN.round_mode] in C. change (SpecFloat.fexp 53 1024) with fmt in C.
  rewrite N in C. destruct C as (E & F & _). split; [exact F|exact E].
Qed.
Lemma sub_ok a b : fin a = true -> fin b = true -> Rabs (val a - val b) <= pow2 1023 ->
  fin (fsub b64_ops a b) = true /\ val (fsub b64_ops a b) = rnd (val a - val b).
Proof.
  intros Fa Fb H. pose proof (Bminus_correct 53 1024 eq_refl eq_refl binop_nan_pl64 BinarySingleNaN.mode_NE a b Fa Fb) as C.
  pose proof (no_overflow _ H) as N. unfold rnd in N. cbn [BinarySingleNaN.round_mode] in C. change (SpecFloat.fexp 53 1024) with fmt in C.
  rewrite N in C. destruct C as (E & F & _). split; [exact F|exact E].
Qed.
Lemma mul_ok a b : fin a = true -> fin b = true -> Rabs (val a * val b) <= pow2 1023 ->
  fin (fmul b64_ops a b) = true /\ val (fmul b64_ops a b) = rnd (val a * val b).
Proof.
  intros Fa Fb H. pose proof (Bmult_correct 53 1024 eq_refl eq_refl binop_nan_pl64 BinarySingleNaN.mode_NE a b) as C.
  pose proof (no_overflow _ H) as N. unfold rnd in N. cbn [BinarySingleNaN.round_mode] in C. change (SpecFloat.fexp 53 1024) with fmt in C.
  rewrite N in C. destruct C as (E & F & _). rewrite Fa, Fb in F. split; [exact F|exact E].
Qed.
Lemma div_ok a b : fin a = true -> val b <> 0 -> Rabs (val a / val b) <= pow2 1023 ->
  fin (fdiv b64_ops a b) = true /\ val (fdiv b64_ops a b) = rnd (val a / val b).
Proof.
  intros Fa Fb H. pose proof (Bdiv_correct 53 1024 eq_refl eq_refl binop_nan_pl64 BinarySingleNaN.mode_NE a b Fb) as C.
  pose proof (no_overflow _ H) as N. unfold rnd in N. cbn [BinarySingleNaN.round_mode] in C. change (SpecFloat.fexp 53 1024) with fmt in C.
  rewrite N in C. destruct C as (E & F & _). rewrite Fa in F. split; [exact F|exact E].
Qed.
Lemma gtb_ok a b : fin a = true -> fin b = true -> b64_gtb a b = true <-> val b < val a.
Proof.
  intros Fa Fb. unfold b64_gtb, b64_compare. rewrite Bcompare_correct by auto.
  destruct (Rcompare_spec (val a) (val b)); split; intros; try lra; try discriminate; auto.
Qed.
Lemma fin_nan a : fin a = true -> is_nan 53 1024 a = false.
Proof. destruct a; auto; discriminate. Qed.
Lemma max_ok a b : fin a = true -> fin b = true -> fin (b64_maximum a b) = true /\ val (b64_maximum a b) = Rmax (val a) (val b).
Proof.
  intros Fa Fb. unfold b64_maximum. rewrite !fin_nan by auto. destruct (b64_gtb b a) eqn:E.
  - apply gtb_ok in E; auto. split; auto. rewrite Rmax_right; lra.
  - split; auto. rewrite Rmax_left; auto. apply Rnot_lt_le. intros L. apply gtb_ok in L; auto. congruence.
Qed.

(** A computed difference is positive exactly when the numbers are in order, also when
    it overflows or is subnormal. *)
Lemma sub_positive a b : fin a = true -> fin b = true -> fgtb b64_ops (fsub b64_ops b a) (fzero b64_ops) = true <-> val a < val b.
Proof.
  intros Fa Fb. pose proof (Bminus_correct 53 1024 eq_refl eq_refl binop_nan_pl64 BinarySingleNaN.mode_NE b a Fb Fa) as C.
  cbn [BinarySingleNaN.round_mode] in C. change (SpecFloat.fexp 53 1024) with fmt in C. fold (rnd (val b - val a)) in C.
  change (Bminus 53 1024 eq_refl eq_refl binop_nan_pl64 BinarySingleNaN.mode_NE b a) with (fsub b64_ops b a) in C.
  destruct (Rlt_bool_spec (Rabs (rnd (val b - val a))) (pow2 1024)) as [H|H].
  - destruct C as (E & F & _). change (fgtb b64_ops) with b64_gtb. rewrite gtb_ok by auto. rewrite E.
    change (val (fzero b64_ops)) with 0. apply rnd_minus_pos; apply isfl_val.
  - destruct C as (E & F).
    assert (D : val a < val b <-> Bsign 53 1024 b = false).
    { assert (N : val b - val a <> 0).
      { intros Z. rewrite Z, rnd_0, Rabs_R0 in H. pose proof (bpow_gt_0 radix2 1024). lra. }
      assert (Sg : forall c, fin c = true -> (Bsign 53 1024 c = false -> 0 <= val c) /\ (Bsign 53 1024 c = true -> val c <= 0)).
      { intros [s|s|s p Hp|s m e Hm] Fc; try discriminate Fc; cbn [B2R Bsign]; [split; intros; lra|]. destruct s; split; intros Q; try discriminate Q.
        - apply F2R_le_0. cbn. lia.
        - apply F2R_ge_0. cbn. lia. }
      destruct (Sg a Fa) as [A1 A2], (Sg b Fb) as [B1 B2]. destruct (Bsign 53 1024 b), (Bsign 53 1024 a); try discriminate F; split; intros; auto; try discriminate.
      - specialize (A1 eq_refl). specialize (B2 eq_refl). lra.
      - specialize (A2 eq_refl). specialize (B1 eq_refl). lra. }
    rewrite D. destruct (fsub b64_ops b a) as [s|s|s p Hp|s m e Hm]; cbn in E; try discriminate E. injection E as <-.
    destruct s; cbn; split; intros; congruence.
Qed.

(** ** The grid *)
Definition ascending (t : list binary64) : Prop := forall k, (k + 1 < length t)%nat -> val (nth k t (fzero b64_ops)) < val (nth (k + 1) t (fzero b64_ops)).

Lemma fl_diff_length {T} (o : fops T) t : length (fl_diff o t) = (length t - 1)%nat.
Proof. unfold fl_diff. rewrite map_length, combine_length. destruct t; cbn [tl length]; lia. Qed.
Lemma fl_diff_nth {T} (o : fops T) d t k : (k + 1 < length t)%nat -> nth k (fl_diff o t) d = fsub o (nth (k + 1) t d) (nth k t d).
Proof.
  intros H. assert (K : (k < length (combine t (tl t)))%nat) by (rewrite combine_length; destruct t; cbn [tl length] in *; lia).
  unfold fl_diff. rewrite nth_map_d with (a := (d, d)) by auto.
  assert (Q : forall (l m : list T) i, (i < length l)%nat -> (i < length m)%nat -> nth i (combine l m) (d, d) = (nth i l d, nth i m d)).
  { induction l as [|a l IH]; intros [|b m] [|i] Hl Hm; cbn in *; try lia; auto. apply IH; lia. }
  rewrite Q by (destruct t; cbn [tl length] in *; lia). cbn [fst snd]. f_equal.
  destruct t; cbn [tl length] in *; [lia|]. now rewrite Nat.add_1_r.
Qed.

(** The assertion of the collocated problems accepts exactly the increasing grids. *)
Theorem C85_piece_len t : List.Forall (fun a => fin a = true) t -> fl_piece_ok b64_ops t = true <-> ascending t.
Proof.
  intros Ft. unfold fl_piece_ok, ascending. rewrite forallb_forall. rewrite Forall_forall in Ft. split.
  - intros H k Hk. apply sub_positive; [apply Ft, nth_In; lia..|]. rewrite <- fl_diff_nth by auto. apply H, nth_In. rewrite fl_diff_length. lia.
  - intros H h Hh. destruct (In_nth _ _ (fzero b64_ops) Hh) as (k & Hk & <-). rewrite fl_diff_length in Hk.
    rewrite fl_diff_nth by lia. apply sub_positive; [apply Ft, nth_In; lia..|]. apply H. lia.
Qed.

Lemma fl_grid_nth {T} (o : fops T) (pts t : list T) n d : length pts = n -> (2 <= n)%nat -> (1 <= length t)%nat ->
  exists g, fl_grid o pts t = Ok g /\ length g = ((length t - 1) * (n - 1) + 1)%nat /\
  (forall k j, (k + 1 < length t)%nat -> (j < n - 1)%nat ->
    nth (k * (n - 1) + j) g d = fadd o (nth k t d) (fmul o (fsub o (nth (k + 1) t d) (nth k t d)) (nth j pts d))) /\
  nth ((length t - 1) * (n - 1)) g d = nth (length t - 1) t d.
Proof.
  intros Hp Hn Ht. unfold fl_grid. destruct t as [|t0 t'] eqn:Et; [cbn in Ht; lia|]. rewrite <- Et in *.
  set (incs := map _ (fl_diff o t)). set (rows := map _ (combine (removelast t) incs)). eexists. split; [reflexivity|].
  assert (HI : length incs = (length t - 1)%nat) by (unfold incs; now rewrite map_length, fl_diff_length).
  assert (Hr0 : forall r, In r incs -> length r = (n - 1)%nat).
  { intros r Hr. apply in_map_iff in Hr as (a & <- & _). now rewrite map_length, removelast_length, Hp. }
  assert (Hr : forall r, In r rows -> length r = (n - 1)%nat).
  { intros r Hr. apply in_map_iff in Hr as (a & <- & Ha). rewrite map_length. apply Hr0. destruct a as [a b]. now apply in_combine_r in Ha. }
  assert (HK : length rows = (length t - 1)%nat) by (unfold rows; rewrite map_length, combine_length, removelast_length; lia).
  split; [|split].
  - rewrite app_length, (concat_const_length (n - 1)), HK by auto. reflexivity.
  - intros k j Hk Hj. rewrite app_nth1 by (rewrite (concat_const_length (n - 1)), HK by auto; nia).
    rewrite nth_concat with (w := (n - 1)%nat) by (auto; lia). unfold rows.
    rewrite nth_map_d with (a := (d, [])) by (unfold rows in HK; rewrite map_length in HK; lia).
    rewrite combine_nth by (rewrite removelast_length; auto). cbn [fst snd].
    assert (HL : length (nth k incs []) = (n - 1)%nat) by (apply Hr0, nth_In; lia).
    rewrite nth_map_d with (a := d) by lia. unfold incs.
    rewrite (nth_map_d (fun l => map (fun q => fmul o l q) (removelast pts)) (fl_diff o t) k d []) by (rewrite fl_diff_length; lia).
    rewrite nth_map_d with (a := d) by (rewrite removelast_length; lia).
    rewrite !removelast_nth by lia. rewrite fl_diff_nth by lia. reflexivity.
  - rewrite app_nth2 by (rewrite (concat_const_length (n - 1)), HK by auto; lia).
    rewrite (concat_const_length (n - 1)), HK, Nat.sub_diag by auto. cbn [nth]. apply last_nth. rewrite Et. discriminate.
Qed.

(** What [lgl_points] returns, in binary64: from zero on, not decreasing, the points
    before the last at least two units in the last place below one. *)
Record good_points (pts : list binary64) : Prop := {
  gp_len : (2 <= length pts)%nat;
  gp_fin : List.Forall (fun a => fin a = true) pts;
  gp_0 : val (nth 0 pts (fzero b64_ops)) = 0;
  gp_mono : forall i j, (i <= j)%nat -> (j < length pts)%nat -> val (nth i pts (fzero b64_ops)) <= val (nth j pts (fzero b64_ops));
  gp_1 : forall j, (j + 1 < length pts)%nat -> val (nth j pts (fzero b64_ops)) <= 1 - pow2 (-52) }.
(** Coarse grids far from overflow. *)
Record good_times (t : list binary64) : Prop := {
  gt_len : (1 <= length t)%nat;
  gt_fin : List.Forall (fun a => fin a = true) t;
  gt_bnd : forall k, Rabs (val (nth k t (fzero b64_ops))) <= pow2 1022;
  gt_inc : ascending t }.

Definition err_bound (t0 t1 : R) : R := pow2 (-53) * Rmax (Rabs t0) (Rabs t1) + pow2 (-51) * (t1 - t0) + pow2 (-1075).

Section Grid.
  Variables pts t : list binary64.
  Hypothesis GP : good_points pts.
  Hypothesis GT : good_times t.
  Notation z := (fzero b64_ops).
  Notation n := (length pts).
  Notation T k := (val (nth k t z)).
  Notation P j := (val (nth j pts z)).

  Lemma pts_range j : (j + 1 < n)%nat -> 0 <= P j <= 1 - pow2 (-52).
  Proof. intros H. split; [|now apply GP]. rewrite <- (gp_0 _ GP). apply GP; lia. Qed.
  Lemma point_ok k j : (k + 1 < length t)%nat -> (j + 1 < n)%nat ->
    let g := fadd b64_ops (nth k t z) (fmul b64_ops (fsub b64_ops (nth (k + 1) t z) (nth k t z)) (nth j pts z)) in
    fin g = true /\ val g = point (T k) (T (k + 1)) (P j).
  Proof.
    intros Hk Hj g. destruct GT as [_ Ft Bt It]. rewrite Forall_forall in Ft. specialize (It k Hk).
    pose proof (Bt k) as B0. pose proof (Bt (k + 1)%nat) as B1. pose proof (pts_range j Hj) as [P0 P1].
    pose proof (Forall_forall (fun a => fin a = true) pts) as [Fp _]. specialize (Fp (gp_fin _ GP)).
    assert (D : pow2 1023 = 2 * pow2 1022) by (change 2 with (pow2 1) at 1; now rewrite <- bpow_plus).
    pose proof (bpow_gt_0 radix2 (-52)) as U. apply Rabs_le_inv in B0. apply Rabs_le_inv in B1.
    destruct (sub_ok (nth (k + 1) t z) (nth k t z)) as [F1 V1]; [apply Ft, nth_In; lia..| |].
    { apply Rabs_le. lra. }
    set (d := fsub b64_ops _ _) in *.
    assert (Dp : 0 < val d) by (rewrite V1; apply rnd_minus_pos; auto using isfl_val).
    assert (Db : val d <= pow2 1023) by (rewrite V1; apply rnd_le_r; [apply isfl_pow2; lia|lra]).
    destruct (mul_ok d (nth j pts z)) as [F2 V2]; [auto|apply Fp, nth_In; lia| |].
    { rewrite Rabs_pos_eq by (apply Rmult_le_pos; lra). apply Rle_trans with (val d * 1); [apply Rmult_le_compat_l; lra|lra]. }
    set (s := fmul b64_ops d _) in *.
    assert (Sb : 0 <= val s <= T (k + 1) - T k).
    { rewrite V2, V1. split; [apply inc_ge; auto using isfl_val|apply inc_le; auto using isfl_val]. }
    destruct (add_ok (nth k t z) s) as [F3 V3]; [apply Ft, nth_In; lia|auto| |].
    { apply Rabs_le. lra. }
    split; [exact F3|]. change (val (fadd b64_ops (nth k t z) s) = point (T k) (T (k + 1)) (P j)). rewrite V3, V2, V1. reflexivity.
  Qed.

  (** The grid in binary64: the coarse points are in it exactly, the others lie in their
      pieces, in order, within a few roundings of their exact places. *)
  Theorem C85_grid : exists g, fl_grid b64_ops pts t = Ok g /\
    length g = ((length t - 1) * (n - 1) + 1)%nat /\ List.Forall (fun a => fin a = true) g /\
    (forall k, (k < length t)%nat -> val (nth (k * (n - 1)) g z) = T k) /\
    (forall k j, (k + 1 < length t)%nat -> (j + 1 < n)%nat -> T k <= val (nth (k * (n - 1) + j) g z) <= T (k + 1) /\
      Rabs (val (nth (k * (n - 1) + j) g z) - (T k + (T (k + 1) - T k) * P j)) <= err_bound (T k) (T (k + 1))) /\
    (forall i j, (i <= j)%nat -> (j < length g)%nat -> val (nth i g z) <= val (nth j g z)).
  Proof.
    pose proof (gp_len _ GP) as Hn. destruct (fl_grid_nth b64_ops pts t n z eq_refl Hn (gt_len _ GT)) as (g & E & Lg & Vg & Vl).
    pose proof (gt_fin _ GT) as Ft. rewrite Forall_forall in Ft.
    assert (Q : forall k j, (k + 1 < length t)%nat -> (j + 1 < n)%nat ->
      fin (nth (k * (n - 1) + j) g z) = true /\ val (nth (k * (n - 1) + j) g z) = point (T k) (T (k + 1)) (P j)).
    { intros k j Hk Hj. rewrite Vg by lia. now apply point_ok. }
    assert (IX : forall i, (i < length g)%nat -> (exists k j, i = (k * (n - 1) + j)%nat /\ (k + 1 < length t)%nat /\ (j + 1 < n)%nat) \/ i = ((length t - 1) * (n - 1))%nat).
    { intros i Hi. destruct (Nat.eq_dec i ((length t - 1) * (n - 1))) as [->|N]; [now right|left].
      exists (i / (n - 1))%nat, (i mod (n - 1))%nat. pose proof (Nat.div_mod i (n - 1) ltac:(lia)).
      pose proof (Nat.mod_upper_bound i (n - 1) ltac:(lia)). split; [lia|]. split; [|lia].
      assert (i / (n - 1) < length t - 1)%nat; [|lia]. apply Nat.div_lt_upper_bound; lia. }
    assert (Gk : forall k, (k < length t)%nat -> val (nth (k * (n - 1)) g z) = T k).
    { intros k Hk. destruct (Nat.eq_dec (k + 1) (length t)) as [Ek|Ek].
      - replace k with (length t - 1)%nat by lia. now rewrite Vl.
      - rewrite <- (Nat.add_0_r (k * (n - 1))). destruct (Q k 0%nat) as [_ ->]; [lia..|]. rewrite (gp_0 _ GP). apply point_0, isfl_val. }
    assert (In1 : forall k j, (k + 1 < length t)%nat -> (j + 1 < n)%nat -> T k <= val (nth (k * (n - 1) + j) g z) <= T (k + 1)).
    { intros k j Hk Hj. destruct (Q k j Hk Hj) as [_ ->]. pose proof (pts_range j Hj). pose proof (gt_inc _ GT k Hk).
      split; [apply point_ge|apply point_le]; auto using isfl_val; lra. }
    exists g. split; [exact E|]. split; [exact Lg|]. split; [|split; [exact Gk|split]].
    - apply Forall_forall. intros a Ha. destruct (In_nth _ _ z Ha) as (i & Hi & <-). destruct (IX i Hi) as [(k & j & -> & Hk & Hj)| ->].
      + now apply Q.
      + rewrite Vl. apply Ft, nth_In. pose proof (gt_len _ GT). lia.
    - intros k j Hk Hj. split; [now apply In1|]. destruct (Q k j Hk Hj) as [_ ->]. pose proof (pts_range j Hj).
      apply point_error; auto using isfl_val; try lra. now apply GT.
    - assert (St : forall i, (i + 1 < length g)%nat -> val (nth i g z) <= val (nth (i + 1) g z)).
      { intros i Hi. destruct (IX i ltac:(lia)) as [(k & j & -> & Hk & Hj)| ->]; [|lia].
        destruct (Nat.eq_dec (j + 2) n) as [Ej|Ej].
        - replace (k * (n - 1) + j + 1)%nat with ((k + 1) * (n - 1))%nat by nia. rewrite Gk by lia. now apply In1.
        - rewrite <- Nat.add_assoc. destruct (Q k j Hk Hj) as [_ ->]. destruct (Q k (j + 1)%nat Hk ltac:(lia)) as [_ ->].
          apply point_mono; auto using isfl_val; [now apply GT|]. apply GP; lia. }
      intros i j Hij. induction Hij as [|j Hij IH]; intros Hj; [lra|]. eapply Rle_trans; [apply IH; lia|].
      rewrite <- Nat.add_1_r. apply St. lia.
  Qed.

  (** Strictly increasing, when the exact distances exceed twice the error. *)
  Theorem C85_grid_strict g : fl_grid b64_ops pts t = Ok g -> val (nth (n - 1) pts z) = 1 ->
    (forall k j, (k + 1 < length t)%nat -> (j + 1 < n)%nat -> 2 * err_bound (T k) (T (k + 1)) < (T (k + 1) - T k) * (P (j + 1) - P j)) ->
    forall i j, (i < j)%nat -> (j < length g)%nat -> val (nth i g z) < val (nth j g z).
  Proof.
    intros Eg P1 Sep. destruct C85_grid as (g' & E & Lg & _ & Gk & Er & Mo). rewrite Eg in E. injection E as <-.
    pose proof (gp_len _ GP) as Hn. pose proof (gt_len _ GT) as Ht.
    assert (Pb : forall k, (k + 1 < length t)%nat -> 0 < err_bound (T k) (T (k + 1))).
    { intros k Hk. pose proof (gt_inc _ GT k Hk). unfold err_bound. pose proof (bpow_gt_0 radix2 (-53)). pose proof (bpow_gt_0 radix2 (-51)).
      pose proof (bpow_gt_0 radix2 (-1075)). pose proof (Rmax_l (Rabs (T k)) (Rabs (T (k + 1)))). pose proof (Rabs_pos (T k)).
      assert (0 <= pow2 (-53) * Rmax (Rabs (T k)) (Rabs (T (k + 1)))) by (apply Rmult_le_pos; lra).
      assert (0 < pow2 (-51) * (T (k + 1) - T k)) by (apply Rmult_lt_0_compat; lra). lra. }
    assert (St : forall i, (i + 1 < length g)%nat -> val (nth i g z) < val (nth (i + 1) g z)).
    { intros i Hi. rewrite Lg in Hi. pose proof (Nat.div_mod i (n - 1) ltac:(lia)) as Di. set (k := (i / (n - 1))%nat) in *. set (j := (i mod (n - 1))%nat) in *.
      assert (Hj : (j < n - 1)%nat) by (apply Nat.mod_upper_bound; lia).
      assert (Hk : (k < length t - 1)%nat) by (apply Nat.div_lt_upper_bound; lia).
      replace i with (k * (n - 1) + j)%nat by lia.
      destruct (Er k j ltac:(lia) ltac:(lia)) as [_ E1]. apply Rabs_le_inv in E1. specialize (Sep k j ltac:(lia) ltac:(lia)).
      specialize (Pb k ltac:(lia)).
      destruct (Nat.eq_dec (j + 2) n) as [Ej|Ej].
      - replace (k * (n - 1) + j + 1)%nat with ((k + 1) * (n - 1))%nat by nia. rewrite Gk by lia.
        replace (n - 1)%nat with (j + 1)%nat in P1 by lia. rewrite P1 in Sep. lra.
      - rewrite <- Nat.add_assoc. destruct (Er k (j + 1)%nat ltac:(lia) ltac:(lia)) as [_ E2]. apply Rabs_le_inv in E2. lra. }
    intros i j Hij Hj. eapply Rlt_le_trans; [apply St; lia|]. apply Mo; lia.
  Qed.

  (** A piece between consecutive floating-point numbers has no interior point, so that the
      fine grid repeats one. *)
  Theorem C85_grid_repeats g k : fl_grid b64_ops pts t = Ok g -> (3 <= n)%nat -> (k + 1 < length t)%nat -> succ radix2 fmt (T k) = T (k + 1) ->
    (forall j, (j + 1 < n)%nat -> val (nth (k * (n - 1) + j) g z) = T k \/ val (nth (k * (n - 1) + j) g z) = T (k + 1)) /\
    exists i, (k * (n - 1) <= i < (k + 1) * (n - 1))%nat /\ val (nth i g z) = val (nth (i + 1) g z).
  Proof.
    intros Eg Hn Hk Es. destruct C85_grid as (g' & E & Lg & _ & Gk & Er & Mo). rewrite Eg in E. injection E as <-.
    assert (A : forall j, (j + 1 < n)%nat -> val (nth (k * (n - 1) + j) g z) = T k \/ val (nth (k * (n - 1) + j) g z) = T (k + 1)).
    { intros j Hj. destruct (Er k j Hk Hj) as [[L1 L2] _]. destruct L1 as [L1|L1]; [|now left]. right. apply Rle_antisym; auto.
      rewrite <- Es. apply succ_le_lt; auto using isfl_val. typeclasses eauto. }
    split; [exact A|]. destruct (A 1%nat ltac:(lia)) as [B|B].
    - exists (k * (n - 1))%nat. split; [nia|]. now rewrite B, Gk by lia.
    - exists ((k + 1) * (n - 1) - 1)%nat. split; [nia|]. replace ((k + 1) * (n - 1) - 1 + 1)%nat with ((k + 1) * (n - 1))%nat by nia. rewrite Gk by lia.
      apply Rle_antisym.
      + replace ((k + 1) * (n - 1) - 1)%nat with (k * (n - 1) + (n - 2))%nat by nia. now apply Er; lia.
      + rewrite <- B. apply Mo; [nia|]. rewrite Lg. nia.
  Qed.
End Grid.
