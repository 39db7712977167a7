(** C85, finite differences: which steps move the point in binary64 arithmetic. *)
From Coq Require Import List Bool Arith ZArith Reals Lra Lia.
From Flocq Require Import Core Binary Bits.
From Verif Require Import Py NdArray NdLemmas OptimSpec LawFacts PropsCol PropsDiff FlModel FlLemmas PropsFl.
Import ListNotations.
Local Open Scope R_scope.

(** ** Entries of the results, for any arithmetic *)
Section Value.
  Context {T : Type} (o : fops T).
  Notation z := (fzero o).
  Definition fl_regular (f : arr T -> arr T) (x : arr T) (s : shape) : Prop :=
    forall y, ash y = ash x -> length (adat y) = length (adat x) -> ash (f y) = s /\ length (adat (f y)) = prodn s.
  Lemma move_shape op x i d : ash (fl_move o op x i d) = ash x /\ length (adat (fl_move o op x i d)) = length (adat x).
  Proof. unfold fl_move; cbn [ash adat]. now rewrite map_length, seq_length. Qed.
  Lemma fl_quotient_ok post a b h s : ash a = s -> ash b = s -> length (adat a) = prodn s -> length (adat b) = prodn s ->
    exists r, fl_quotient o post a b h = Ok r /\ ash r = s /\ length (adat r) = prodn s /\
    forall e, (e < prodn s)%nat -> nth e (adat r) z = fdiv o (post (fsub o (nth e (adat a) z) (nth e (adat b) z))) h.
  Proof.
    intros Ha Hb La Lb. unfold fl_quotient. rewrite Ha, Hb, shape_eqb_refl. eexists. split; [reflexivity|]. cbn [ash adat]. split; [auto|]. split.
    - rewrite map_length, combine_length. lia.
    - intros e He. rewrite nth_map_d with (a := (z, z)) by (rewrite combine_length; lia). rewrite combine_nth by lia. reflexivity.
  Qed.
  Definition central_entry (f : arr T -> arr T) (x : arr T) (h : list T) (i e : nat) : T :=
    let hi := nth i h z in
    fdiv o (fmul o (fhalf o) (fsub o (nth e (adat (f (fl_move o (fadd o) x i hi))) z) (nth e (adat (f (fl_move o (fsub o) x i hi))) z))) hi.
  Definition forward_entry (f : arr T -> arr T) (x : arr T) (h : list T) (i e : nat) : T :=
    let hi := nth i h z in fdiv o (fsub o (nth e (adat (f (fl_move o (fadd o) x i hi))) z) (nth e (adat (f x)) z)) hi.
  Lemma concat_length_all {X} m (l : list (list X)) : List.Forall (fun r => length r = m) l -> length (concat l) = (length l * m)%nat.
  Proof. induction 1 as [|y l' Hy Hl IHl]; simpl; [auto|]. rewrite app_length, IHl, Hy. reflexivity. Qed.
  Lemma row_of f x s h i : fl_regular f x s -> exists r, fl_quotient o (fmul o (fhalf o)) (f (fl_move o (fadd o) x i (nth i h z))) (f (fl_move o (fsub o) x i (nth i h z))) (nth i h z) = Ok r /\
    ash (f (fl_move o (fadd o) x i (nth i h z))) = s /\ ash r = s /\ length (adat r) = prodn s /\ forall e, (e < prodn s)%nat -> nth e (adat r) z = central_entry f x h i e.
  Proof.
    intros Rg. destruct (move_shape (fadd o) x i (nth i h z)) as [B1 B2]. destruct (move_shape (fsub o) x i (nth i h z)) as [B3 B4].
    destruct (Rg _ B1 B2) as [S1 L1]. destruct (Rg _ B3 B4) as [S2 L2].
    destruct (fl_quotient_ok (fmul o (fhalf o)) _ _ (nth i h z) s S1 S2 L1 L2) as (r & E & Sr & Lr & V). eauto 10.
  Qed.
  Lemma fl_central_rows f x s h : fl_regular f x s -> forall is acc, exists rows,
    foldM (fl_central_row o f x h) (Some (s, acc)) is = Ok (Some (s, acc ++ concat rows)) /\
    length rows = length is /\ List.Forall (fun r => length r = prodn s) rows /\
    forall k e, (k < length is)%nat -> (e < prodn s)%nat -> nth e (nth k rows []) z = central_entry f x h (nth k is O) e.
  Proof.
    intros Rg is. induction is as [|i is IH]; intros acc.
    - exists []. simpl. rewrite app_nil_r. repeat split; auto. intros; lia.
    - cbn [foldM]. unfold fl_central_row at 1. destruct (row_of f x s h i Rg) as (r & E & S1 & Sr & Lr & V).
      rewrite E. cbn [bind]. rewrite Sr, shape_eqb_refl. cbn [bind]. destruct (IH (acc ++ adat r)) as (rows & E' & Lrows & F & V').
      exists (adat r :: rows). rewrite E'. simpl concat. rewrite <- app_assoc.
      split; [reflexivity|]. split; [simpl; lia|]. split; [constructor; auto|].
      intros [|k] e Hk He; [simpl nth; apply V; auto|]. simpl nth. apply V'; auto. simpl in Hk. lia.
  Qed.
  Lemma fl_central_value f x s min rel : awf x -> fl_regular f x s -> (0 < length (adat x))%nat ->
    exists r, fl_central_diff o f x min rel = Ok (Some r) /\ ash r = (ash x ++ s)%list /\ awf r /\
    forall i e, (i < length (adat x))%nat -> (e < prodn s)%nat -> nth (i * prodn s + e) (adat r) z = central_entry f x (fl_steps o x min rel) i e.
  Proof.
    intros W Rg N. unfold fl_central_diff. set (h := fl_steps o x min rel).
    assert (Lh : length h = length (adat x)) by (unfold h, fl_steps; now rewrite map_length).
    destruct (length h) as [|n] eqn:E; [lia|]. cbn [seq foldM]. unfold fl_central_row at 1.
    destruct (row_of f x s h 0 Rg) as (r & Er & S1 & Sr & Lr & V). rewrite Er. cbn [bind]. rewrite S1.
    destruct (fl_central_rows f x s h Rg (seq 1 n) (adat r)) as (rows & E' & Lrows & F & V'). rewrite E'. cbn [bind].
    eexists. split; [reflexivity|]. cbn [ash adat]. split; [reflexivity|].
    change (adat r ++ concat rows)%list with (concat (adat r :: rows)).
    assert (F' : List.Forall (fun r => length r = prodn s) (adat r :: rows)) by (constructor; auto).
    rewrite seq_length in Lrows. assert (Lall : length (adat r :: rows) = length (adat x)) by (simpl; lia).
    split.
    - unfold awf in *. cbn [ash adat]. rewrite (concat_length_all _ _ F'), Lall, W, prodn_app. reflexivity.
    - intros i e Hi He. rewrite nth_concat with (w := prodn s); auto; [|intros q Hq; rewrite Forall_forall in F'; now apply F'|rewrite Lall; exact Hi].
      destruct i as [|i]; simpl nth; [now apply V|]. rewrite V' by (rewrite ?seq_length; lia). rewrite seq_nth by lia. reflexivity.
  Qed.
  Lemma fl_forward_value f x s min rel : awf x -> fl_regular f x s ->
    exists r, fl_forward_diff o f x min rel = Ok r /\ ash r = (ash x ++ s)%list /\ awf r /\
    forall i e, (i < length (adat x))%nat -> (e < prodn s)%nat -> nth (i * prodn s + e) (adat r) z = forward_entry f x (fl_steps o x min rel) i e.
  Proof.
    intros W Rg. unfold fl_forward_diff. set (h := fl_steps o x min rel).
    assert (Lh : length h = length (adat x)) by (unfold h, fl_steps; now rewrite map_length).
    destruct (Rg x eq_refl eq_refl) as [S0 L0]. cbv zeta.
    assert (Q : forall is acc, exists rows,
      foldM (fun l i => let* row := fl_quotient o (fun v => v) (f (fl_move o (fadd o) x i (nth i h z))) (f x) (nth i h z) in Ok (l ++ adat row)%list) acc is
        = Ok (acc ++ concat rows)%list /\ length rows = length is /\ List.Forall (fun r => length r = prodn s) rows /\
      forall k e, (k < length is)%nat -> (e < prodn s)%nat -> nth e (nth k rows []) z = forward_entry f x h (nth k is O) e).
    { induction is as [|i is IH]; intros acc.
      - exists []. simpl. rewrite app_nil_r. repeat split; auto. intros; lia.
      - cbn [foldM]. destruct (move_shape (fadd o) x i (nth i h z)) as [B1 B2]. destruct (Rg _ B1 B2) as [S1 L1].
        destruct (fl_quotient_ok (fun v => v) _ _ (nth i h z) s S1 S0 L1 L0) as (r & E & Sr & Lr & V). rewrite E. cbn [bind].
        destruct (IH (acc ++ adat r)%list) as (rows & E' & Lrows & F & V'). exists (adat r :: rows). rewrite E'. simpl concat. rewrite <- app_assoc.
        split; [reflexivity|]. split; [simpl; lia|]. split; [constructor; auto|].
        intros [|k] e Hk He; [simpl nth; apply V; auto|]. simpl nth. apply V'; auto. simpl in Hk. lia. }
    destruct (Q (seq 0 (length h)) []) as (rows & E & Lrows & F & V). rewrite E. cbn [bind app]. eexists. split; [reflexivity|].
    cbn [ash adat]. rewrite S0. split; [reflexivity|]. rewrite seq_length in Lrows. split.
    - unfold awf in *. cbn [ash adat]. rewrite (concat_length_all _ _ F), Lrows, Lh, W, prodn_app. reflexivity.
    - intros i e Hi He. rewrite nth_concat with (w := prodn s); auto; [|intros q Hq; rewrite Forall_forall in F; now apply F|lia].
      rewrite V by (rewrite ?seq_length; lia). rewrite seq_nth by lia. reflexivity.
  Qed.
End Value.

(** ** The default step in binary64 *)
Lemma lit_val : fin b64_1em7 = true /\ val b64_1em7 = IZR 0x1AD7F29ABCAF48 * pow2 (-76).
Proof. split; [vm_compute; reflexivity|]. unfold B2R. vm_compute b64_1em7. cbv [F2R Fnum Fexp SpecFloat.cond_Zopp]. reflexivity. Qed.
(** The literal is the number nearest to one ten-millionth. *)
Lemma lit_near : Rabs (val b64_1em7 - / 10000000) <= / 2 * ulp radix2 fmt (val b64_1em7) /\ pow2 (-24) < val b64_1em7 < pow2 (-23).
Proof.
  destruct lit_val as [_ E].
  assert (B : pow2 (-24) < val b64_1em7 < pow2 (-23)) by (rewrite E; cbn -[IZR]; lra).
  split; [|exact B]. rewrite ulp_neq_0 by (pose proof (bpow_gt_0 radix2 (-24)); lra). unfold cexp, FLT_exp.
  rewrite (mag_unique radix2 _ (-23)). 2: { pose proof (bpow_gt_0 radix2 (-24)). rewrite Rabs_pos_eq by lra. cbn in *. lra. }
  rewrite E. cbn -[IZR Rabs]. apply Rabs_le. lra.
Qed.
Notation m := b64_1em7.
Lemma mul_np a b : a <= 0 -> 0 <= b -> a * b <= 0.
Proof. intros. rewrite <- (Rmult_0_l b). now apply Rmult_le_compat_r. Qed.
Lemma fin_strict a : fin a = true -> val a <> 0 -> is_finite_strict 53 1024 a = true.
Proof. destruct a; auto; cbn; intros; congruence. Qed.
Lemma add_ok2 a b : fin a = true -> fin b = true -> Rabs (rnd (val a + val b)) < pow2 1024 ->
  fin (fadd b64_ops a b) = true /\ val (fadd b64_ops a b) = rnd (val a + val b).
Proof.
  intros Fa Fb H. pose proof (Bplus_correct 53 1024 eq_refl eq_refl binop_nan_pl64 BinarySingleNaN.mode_NE a b Fa Fb) as C.
  cbn [BinarySingleNaN.round_mode] in C. change (SpecFloat.fexp 53 1024) with fmt in C. fold (rnd (val a + val b)) in C.
  rewrite Rlt_bool_true in C by auto. destruct C as (E & F & _). split; [exact F|exact E].
Qed.
Lemma sub_ok2 a b : fin a = true -> fin b = true -> Rabs (rnd (val a - val b)) < pow2 1024 ->
  fin (fsub b64_ops a b) = true /\ val (fsub b64_ops a b) = rnd (val a - val b).
Proof.
  intros Fa Fb H. pose proof (Bminus_correct 53 1024 eq_refl eq_refl binop_nan_pl64 BinarySingleNaN.mode_NE a b Fa Fb) as C.
  cbn [BinarySingleNaN.round_mode] in C. change (SpecFloat.fexp 53 1024) with fmt in C. fold (rnd (val a - val b)) in C.
  rewrite Rlt_bool_true in C by auto. destruct C as (E & F & _). split; [exact F|exact E].
Qed.
Lemma val_lt a : Rabs (val a) < pow2 1024. Proof. apply (abs_B2R_lt_emax 53 1024). Qed.

(** The step at a coordinate: at least the default, and the default itself for
    negative coordinates, however large. *)
Definition step (a : binary64) : binary64 := fmaximum b64_ops (fmul b64_ops a m) m.
Lemma step_ok a : fin a = true -> fin (step a) = true /\ val (step a) = Rmax (rnd (val a * val m)) (val m).
Proof.
  intros Fa. destruct lit_near as [_ [M1 M2]]. pose proof (bpow_gt_0 radix2 (-24)) as Z. pose proof (val_lt a) as La.
  destruct (mul_ok a m Fa (proj1 lit_val)) as [F V].
  { rewrite Rabs_mult, (Rabs_pos_eq (val m)) by lra. apply Rle_trans with (pow2 1024 * pow2 (-1)).
    - apply Rmult_le_compat; try lra; [apply Rabs_pos|]. apply Rlt_le. eapply Rlt_trans; [exact M2|]. apply bpow_lt. lia.
    - rewrite <- bpow_plus. apply Rle_refl. }
  destruct (max_ok _ _ F (proj1 lit_val)) as [F' V']. split; [exact F'|]. change (step a) with (b64_maximum (fmul b64_ops a m) m). now rewrite V', V.
Qed.
Lemma step_neg a : fin a = true -> val a <= 0 -> val (step a) = val m.
Proof.
  intros Fa Ha. destruct (step_ok a Fa) as [_ ->]. destruct lit_near as [_ [M1 M2]]. pose proof (bpow_gt_0 radix2 (-24)).
  apply Rmax_right. apply Rle_trans with 0; [|lra]. apply rnd_le_r; [apply isfl_0|]. apply mul_np; lra.
Qed.
Lemma steps_nth x i : (i < length (adat x))%nat -> nth i (fl_steps b64_ops x m m) (fzero b64_ops) = step (nth i (adat x) (fzero b64_ops)).
Proof. intros H. unfold fl_steps. now rewrite nth_map_d with (a := fzero b64_ops) by auto. Qed.

(** Above -2^30 both points differ from [x]; at or below it the lower one does not, and below it
    neither does. *)
Theorem C85_moves a : fin a = true -> - pow2 30 < val a <= pow2 1000 ->
  let h := step a in val (fsub b64_ops a h) < val a < val (fadd b64_ops a h) /\ fin (fsub b64_ops a h) = true /\ fin (fadd b64_ops a h) = true.
Proof.
  intros Fa Ha h. destruct (step_ok a Fa) as [Fh Vh]. fold h in Fh, Vh. destruct lit_near as [_ [M1 M2]]. pose proof (isfl_val a) as Ia.
  pose proof (bpow_gt_0 radix2 30) as P30.
  assert (D : pow2 (-23) = 2 * pow2 (-24)) by (change 2 with (pow2 1) at 1; now rewrite <- bpow_plus).
  assert (Hm : val m <= val h) by (rewrite Vh; apply Rmax_r).
  assert (C1 : pow2 1000 <= pow2 1022 /\ pow2 30 <= pow2 1000 /\ pow2 (-23) <= pow2 1000) by (split; [|split]; apply bpow_le; lia).
  assert (C2 : pow2 1023 = 2 * pow2 1022) by (change 2 with (pow2 1) at 1; now rewrite <- bpow_plus).
  assert (Hb : 0 <= val h <= pow2 1000).
  { pose proof (bpow_gt_0 radix2 (-24)). split; [lra|]. rewrite Vh. apply Rmax_lub; [|lra]. destruct (Rle_or_lt (val a) 0) as [N|N].
    - apply Rle_trans with 0; [|lra]. apply rnd_le_r; [apply isfl_0|]. apply mul_np; lra.
    - apply rnd_le_r; [apply isfl_pow2; lia|]. apply Rle_trans with (pow2 1000 * 1); [|lra]. apply Rmult_le_compat; try lra.
      apply Rlt_le. eapply Rlt_trans; [exact M2|]. apply (bpow_lt radix2 (-23) 0). lia. }
  assert (U : / 2 * ulp radix2 fmt (val a) < val h).
  { destruct (Rlt_or_le (Rabs (val a)) (pow2 30)) as [S|S].
    - pose proof (ulp_small _ S). lra.
    - assert (A : pow2 30 <= val a).
      { destruct (Rle_or_lt 0 (val a)) as [N|N]; [now rewrite Rabs_pos_eq in S|]. rewrite Rabs_left in S by auto. lra. }
      pose proof (ulp_large _ S) as V. rewrite Rabs_pos_eq in V by lra.
      pose proof (rnd_any (val a * val m)) as E. assert (Q : val a * pow2 (-24) <= val a * val m) by (apply Rmult_le_compat_l; lra).
      assert (Q0 : pow2 30 * pow2 (-24) <= val a * pow2 (-24)) by (apply Rmult_le_compat_r; [apply bpow_ge_0|lra]).
      rewrite <- bpow_plus in Q0. change (pow2 (30 + -24)) with 64 in Q0. rewrite (Rabs_pos_eq (val a * val m)) in E by lra.
      apply Rabs_le_inv in E. pose proof u_pos as [U0 U1]. assert (E1 : pow2 (-1075) < / 8) by (change (/ 8) with (pow2 (-3)); apply bpow_lt; lia).
      assert (Ux : pow2 (-53) * (val a * val m) <= / 8 * (val a * val m)) by (apply Rmult_le_compat_r; lra).
      assert (Hr : rnd (val a * val m) <= val h) by (rewrite Vh; apply Rmax_l).
      assert (Sm : val a * pow2 (-52) <= val a * pow2 (-26)) by (apply Rmult_le_compat_l; [lra|apply bpow_le; lia]).
      assert (D2 : pow2 (-24) = 4 * pow2 (-26)) by (change 4 with (pow2 2) at 1; now rewrite <- bpow_plus).
      rewrite D2 in Q, Q0. lra. }
  destruct (add_ok a h Fa Fh) as [F1 V1]. { apply Rabs_le. lra. }
  destruct (sub_ok a h Fa Fh) as [F2 V2]. { apply Rabs_le. lra. }
  rewrite V1, V2. split; [split; [now apply moves_down|now apply moves_up]|auto].
Qed.
Theorem C85_stuck a : fin a = true -> val a < - pow2 30 -> fadd b64_ops a (step a) = a /\ fsub b64_ops a (step a) = a.
Proof.
  intros Fa Ha. destruct (step_ok a Fa) as [Fh _]. destruct lit_near as [_ [M1 M2]]. pose proof (bpow_gt_0 radix2 30). pose proof (bpow_gt_0 radix2 (-24)).
  pose proof (step_neg a Fa ltac:(lra)) as Vh.
  destruct (stuck_neg (val a) (val (step a)) (isfl_val a) Ha ltac:(lra)) as [E1 E2]. pose proof (val_lt a) as La.
  destruct (add_ok2 a (step a) Fa Fh) as [F1 V1]; [now rewrite E1|]. destruct (sub_ok2 a (step a) Fa Fh) as [F2 V2]; [now rewrite E2|].
  split; (apply (B2R_inj 53 1024); [apply fin_strict; [auto|]|apply fin_strict; [auto|]|]); rewrite ?V1, ?V2, ?E1, ?E2; auto; lra.
Qed.
Theorem C85_stuck_below a : fin a = true -> val a = - pow2 30 -> fsub b64_ops a (step a) = a.
Proof.
  intros Fa Ha. destruct (step_ok a Fa) as [Fh _]. destruct lit_near as [_ [M1 M2]]. pose proof (bpow_gt_0 radix2 30). pose proof (bpow_gt_0 radix2 (-24)).
  pose proof (step_neg a Fa ltac:(lra)) as Vh.
  assert (E2 : rnd (val a - val (step a)) = val a).
  { rewrite Vh, Ha. replace (- pow2 30 - val m) with (- (pow2 30 + val m)) by ring. rewrite rnd_opp. f_equal. apply stuck_up; [apply isfl_pow2; lia|lra|lra]. }
  pose proof (val_lt a) as La. destruct (sub_ok2 a (step a) Fa Fh) as [F2 V2]; [now rewrite E2|].
  apply (B2R_inj 53 1024); [apply fin_strict; [auto|]|apply fin_strict; [auto|]|]; rewrite ?V2, ?E2; auto; lra.
Qed.

Lemma zero_quotient a h : fin a = true -> fin h = true -> 0 < val h ->
  let q := fdiv b64_ops (fmul b64_ops (fhalf b64_ops) (fsub b64_ops a a)) h in let q' := fdiv b64_ops (fsub b64_ops a a) h in
  (fin q = true /\ val q = 0) /\ (fin q' = true /\ val q' = 0).
Proof.
  intros Fa Fh Hh. pose proof (bpow_ge_0 radix2 1023) as P.
  destruct (sub_ok a a Fa Fa) as [F1 V1]; [now rewrite Rminus_eq_0, Rabs_R0|]. rewrite Rminus_eq_0, rnd_0 in V1.
  destruct (mul_ok (fhalf b64_ops) _ eq_refl F1) as [F2 V2]; [rewrite V1, Rmult_0_r, Rabs_R0; lra|]. rewrite V1, Rmult_0_r, rnd_0 in V2.
  cbv zeta. split.
  - destruct (div_ok _ h F2 ltac:(lra)) as [F3 V3]; rewrite V2 in *; unfold Rdiv in *; rewrite Rmult_0_l, ?Rabs_R0, ?rnd_0 in *; auto.
  - destruct (div_ok _ h F1 ltac:(lra)) as [F3 V3]; rewrite V1 in *; unfold Rdiv in *; rewrite Rmult_0_l, ?Rabs_R0, ?rnd_0 in *; auto.
Qed.
Lemma move_same op x i h : (i < length (adat x))%nat -> op (nth i (adat x) (fzero b64_ops)) h = nth i (adat x) (fzero b64_ops) -> fl_move b64_ops op x i h = x.
Proof.
  intros Hi E. destruct x as [s l]. unfold fl_move. cbn [ash adat] in *. f_equal.
  apply nth_ext with (d := fzero b64_ops) (d' := fzero b64_ops); rewrite map_length, seq_length; auto. intros k Hk.
  rewrite nth_map_d with (a := 0%nat) by (now rewrite seq_length). rewrite seq_nth by auto. cbn [Nat.add].
  destruct (Nat.eqb_spec k i) as [->|]; auto.
Qed.

(** Below -2^30 both finite differences are zero, whatever the function. *)
Theorem C85_negative f x s i e : awf x -> fl_regular f x s -> (i < length (adat x))%nat -> (e < prodn s)%nat ->
  fin (nth i (adat x) (fzero b64_ops)) = true -> val (nth i (adat x) (fzero b64_ops)) < - pow2 30 ->
  fin (nth e (adat (f x)) (fzero b64_ops)) = true ->
  (exists r, fl_central_diff b64_ops f x m m = Ok (Some r) /\ fin (nth (i * prodn s + e) (adat r) (fzero b64_ops)) = true /\ val (nth (i * prodn s + e) (adat r) (fzero b64_ops)) = 0) /\
  (exists r, fl_forward_diff b64_ops f x m m = Ok r /\ fin (nth (i * prodn s + e) (adat r) (fzero b64_ops)) = true /\ val (nth (i * prodn s + e) (adat r) (fzero b64_ops)) = 0).
Proof.
  intros W Rg Hi He Fx Vx Fe. destruct (C85_stuck _ Fx Vx) as [S1 S2]. destruct (step_ok _ Fx) as [Fh Vh].
  assert (Hp : 0 < val (step (nth i (adat x) (fzero b64_ops)))).
  { rewrite Vh. destruct lit_near as [_ [M1 M2]]. pose proof (bpow_gt_0 radix2 (-24)). eapply Rlt_le_trans; [|apply Rmax_r]. lra. }
  destruct (zero_quotient _ _ Fe Fh Hp) as [Q1 Q2]. cbv zeta in Q1, Q2. split.
  - destruct (fl_central_value b64_ops f x s m m W Rg ltac:(lia)) as (r & E & _ & _ & V). exists r. split; [exact E|].
    rewrite V by auto. unfold central_entry. rewrite steps_nth by auto. rewrite !move_same by auto. exact Q1.
  - destruct (fl_forward_value b64_ops f x s m m W Rg) as (r & E & _ & _ & V). exists r. split; [exact E|].
    rewrite V by auto. unfold forward_entry. rewrite steps_nth by auto. rewrite !move_same by auto. exact Q2.
Qed.

(** ** Concrete cases *)
Definition lits (l : list Z) : list binary64 := map b64_of_bits l.
(** Points 0, 1/2, 1 and times 1, 1 + 2^-52, 2: the first midpoint is rounded to the first point. *)
Definition ex_pts := lits [0; 0x3FE0000000000000; 0x3FF0000000000000]%Z.
Definition ex_t := lits [0x3FF0000000000000; 0x3FF0000000000001; 0x4000000000000000]%Z.
Lemma ex_vals : map (B2R 53 1024) ex_pts = [0; / 2; 1] /\ map (B2R 53 1024) ex_t = [1; 1 + pow2 (-52); 2].
Proof.
  split; unfold ex_pts, ex_t, lits; cbn [map]; repeat match goal with |- context [b64_of_bits ?z] =>
    let v := eval vm_compute in (b64_of_bits z) in change (b64_of_bits z) with v end;
  unfold B2R; cbv [F2R Fnum Fexp SpecFloat.cond_Zopp]; repeat (f_equal; try (cbn -[IZR]; lra)).
Qed.
Lemma ex_nth l v k : map (B2R 53 1024) l = v -> val (nth k l (fzero b64_ops)) = nth k v 0.
Proof. intros <-. change 0 with (val (fzero b64_ops)). now rewrite map_nth. Qed.
Example C85_nonvacuous : good_points ex_pts /\ good_times ex_t /\
  (exists g, fl_grid b64_ops ex_pts ex_t = Ok g /\
    map bits_of_b64 g = [0x3FF0000000000000; 0x3FF0000000000000; 0x3FF0000000000001; 0x3FF8000000000000; 0x4000000000000000]%Z) /\
  (exists r, fl_central_diff b64_ops (fun x => x) (Arr [1%nat] (lits [0xC1E0000000000000]%Z)) m m = Ok (Some r) /\ map bits_of_b64 (adat r) = [0]%Z) /\
  val (b64_of_bits 0xC1E0000000000000) < - pow2 30.
Proof.
  destruct ex_vals as [Vp Vt].
  assert (E : 0 < pow2 (-52) < / 8) by (split; [apply bpow_gt_0|]; change (/ 8) with (pow2 (-3)); apply bpow_lt; lia).
  assert (B : 8 < pow2 1022) by (change 8 with (pow2 3); apply bpow_lt; lia).
  split; [|split; [|split; [|split]]].
  - constructor.
    + cbn. lia.
    + repeat constructor.
    + now rewrite (ex_nth _ _ _ Vp).
    + intros i j Hij Hj. rewrite !(ex_nth _ _ _ Vp). cbn [ex_pts lits map length] in Hj.
      destruct i as [|[|[|i]]], j as [|[|[|j]]]; cbn [nth]; try lia; lra.
    + intros j Hj. rewrite !(ex_nth _ _ _ Vp). cbn [ex_pts lits map length] in Hj. destruct j as [|[|j]]; cbn [nth]; try lia; lra.
  - constructor.
    + cbn. lia.
    + repeat constructor.
    + intros k. rewrite (ex_nth _ _ _ Vt). apply Rabs_le. destruct k as [|[|[|k]]]; cbn [nth]; try lra. destruct k; lra.
    + intros k Hk. rewrite !(ex_nth _ _ _ Vt). cbn [ex_t lits map length] in Hk. destruct k as [|[|k]]; cbn [nth Nat.add]; try lia; lra.
  - eexists. split; [reflexivity|]. vm_compute. reflexivity.
  - eexists. split; [reflexivity|]. vm_compute. reflexivity.
  - let v := eval vm_compute in (b64_of_bits 0xC1E0000000000000) in change (b64_of_bits 0xC1E0000000000000) with v.
    unfold B2R; cbv [F2R Fnum Fexp SpecFloat.cond_Zopp]; cbn -[IZR]; lra.
Qed.
