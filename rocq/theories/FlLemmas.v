(** Rounding to nearest even in the format of binary64: what the floating-point
    properties need about one operation and about the points of one piece. *)
From Coq Require Import Reals ZArith Lra Lia.
From Flocq Require Import Core Relative Plus_error.
Open Scope R_scope.

Notation fmt := (FLT_exp (-1074) 53).
Notation isfl := (generic_format radix2 fmt).
Definition rnd (x : R) : R := round radix2 fmt ZnearestE x.
Notation pow2 := (bpow radix2).

#[export] Instance prec53 : Prec_gt_0 53. Proof. reflexivity. Qed.

Lemma isfl_rnd x : isfl (rnd x). Proof. apply generic_format_round; typeclasses eauto. Qed.
Lemma rnd_id x : isfl x -> rnd x = x. Proof. intros. apply round_generic; [typeclasses eauto|auto]. Qed.
Lemma rnd_le x y : x <= y -> rnd x <= rnd y. Proof. intros. apply round_le; [typeclasses eauto..|auto]. Qed.
Lemma rnd_0 : rnd 0 = 0. Proof. apply round_0. typeclasses eauto. Qed.
Lemma isfl_0 : isfl 0. Proof. apply generic_format_0. Qed.
Lemma isfl_opp x : isfl x -> isfl (- x). Proof. apply generic_format_opp. Qed.
Lemma isfl_pow2 e : (-1074 <= e)%Z -> isfl (pow2 e).
Proof. intros. apply generic_format_bpow. unfold FLT_exp. lia. Qed.
Lemma rnd_ge_l x y : isfl x -> x <= y -> x <= rnd y.
Proof. intros. rewrite <- (rnd_id x) by auto. now apply rnd_le. Qed.
Lemma rnd_le_r x y : isfl y -> x <= y -> rnd x <= y.
Proof. intros. rewrite <- (rnd_id y) by auto. now apply rnd_le. Qed.
Lemma rnd_opp x : rnd (- x) = - rnd x. Proof. apply round_NE_opp. Qed.

(** Sums and differences have a relative error, without underflow. *)
Lemma rnd_plus x y : isfl x -> isfl y -> Rabs (rnd (x + y) - (x + y)) <= pow2 (-53) * Rabs (x + y).
Proof.
  intros Fx Fy. destruct (FLT_plus_error_N_ex radix2 (-1074) 53 (fun x => negb (Z.even x)) x y Fx Fy) as (e & He & E).
  unfold rnd. rewrite E. replace ((x + y) * (1 + e) - (x + y)) with (e * (x + y)) by ring. rewrite Rabs_mult.
  apply Rmult_le_compat_r; [apply Rabs_pos|]. eapply Rle_trans; [exact He|].
  eapply Rle_trans; [apply u_rod1pu_ro_le_u_ro|]. unfold u_ro. right.
  change (/ 2) with (pow2 (-1)). rewrite <- bpow_plus. reflexivity.
Qed.
Lemma rnd_minus x y : isfl x -> isfl y -> Rabs (rnd (x - y) - (x - y)) <= pow2 (-53) * Rabs (x - y).
Proof. intros Fx Fy. apply (rnd_plus x (- y)); auto. now apply isfl_opp. Qed.
(** Any operation has a relative error, up to half the smallest number. *)
Lemma rnd_any x : Rabs (rnd x - x) <= pow2 (-53) * Rabs x + pow2 (-1075).
Proof.
  destruct (error_N_FLT radix2 (-1074) 53 ltac:(lia) (fun x => negb (Z.even x)) x) as (e & h & He & Hh & _ & E).
  unfold rnd. change ZnearestE with (Znearest (fun x => negb (Z.even x))). rewrite E.
  replace (x * (1 + e) + h - x) with (e * x + h) by ring. eapply Rle_trans; [apply Rabs_triang|].
  assert (P : forall k, / 2 * pow2 k = pow2 (k - 1)) by (intros k; change (/ 2) with (pow2 (-1)); rewrite <- bpow_plus; f_equal; lia).
  rewrite !P in *. cbn in He, Hh. apply Rplus_le_compat; [|exact Hh]. rewrite Rabs_mult. apply Rmult_le_compat_r; [apply Rabs_pos|exact He].
Qed.
(** A difference of two different numbers does not round to zero. *)
Lemma rnd_minus_pos x y : isfl x -> isfl y -> 0 < rnd (y - x) <-> x < y.
Proof.
  intros Fx Fy. assert (N : y - x <> 0 -> rnd (y - x) <> 0).
  { intros H. apply (round_plus_neq_0 radix2 fmt ZnearestE y (- x)); auto. now apply isfl_opp. }
  split; intros H.
  - apply Rnot_le_lt. intros L. assert (rnd (y - x) <= 0) by (apply rnd_le_r; [apply isfl_0|lra]). lra.
  - assert (0 <= rnd (y - x)) by (apply rnd_ge_l; [apply isfl_0|lra]). assert (rnd (y - x) <> 0) by (apply N; lra). lra.
Qed.

Lemma u_pos : 0 < pow2 (-53) < / 8.
Proof. split; [apply bpow_gt_0|]. change (/ 8) with (pow2 (-3)). apply bpow_lt. lia. Qed.
Lemma pow2_52 : pow2 (-52) = 2 * pow2 (-53). Proof. change 2 with (pow2 1) at 1. now rewrite <- bpow_plus. Qed.
Lemma pow2_51 : pow2 (-51) = 4 * pow2 (-53). Proof. change 4 with (pow2 2) at 1. now rewrite <- bpow_plus. Qed.

(** ** A point of a piece: [t0 + (t1 - t0) * p] *)
Section Piece.
  Variables t0 t1 : R.
  Hypothesis F0 : isfl t0.
  Hypothesis F1 : isfl t1.
  Hypothesis L : t0 < t1.
  Let d := rnd (t1 - t0).
  Let inc p := rnd (d * p).
  Definition point (p : R) : R := rnd (t0 + rnd (rnd (t1 - t0) * p)).

  Lemma d_pos : 0 < d. Proof. now apply rnd_minus_pos. Qed.
  Lemma inc_ge p : 0 <= p -> 0 <= inc p.
  Proof. intros. apply rnd_ge_l; [apply isfl_0|]. apply Rmult_le_pos; [apply Rlt_le, d_pos|auto]. Qed.
  Lemma inc_le p : p <= 1 - pow2 (-52) -> inc p <= t1 - t0.
  Proof.
    intros Hp. pose proof d_pos as Dp. destruct (Rle_or_lt d (t1 - t0)) as [H|H].
    - eapply Rle_trans; [|exact H]. apply rnd_le_r; [apply isfl_rnd|]. rewrite <- (Rmult_1_r d) at 2.
      apply Rmult_le_compat_l; [lra|]. pose proof (bpow_gt_0 radix2 (-52)). lra.
    - destruct (Rle_or_lt (t1 - t0) (pow2 (-1021))) as [Sm|Sm].
      { exfalso. assert (rnd (t1 - t0) = t1 - t0); [|unfold d in *; lra]. apply rnd_id.
        apply (FLT_format_plus_small radix2 (-1074) 53 t1 (- t0)); auto; [now apply isfl_opp|].
        rewrite Rabs_pos_eq by lra. exact Sm. }
      assert (Pd : pred radix2 fmt d <= t1 - t0).
      { apply Rnot_lt_le. intros C. assert (d <= pred radix2 fmt d).
        { apply rnd_le_r; [apply generic_format_pred; [typeclasses eauto|apply isfl_rnd]|lra]. }
        pose proof (pred_lt_id radix2 fmt d ltac:(lra)). lra. }
      eapply Rle_trans; [|exact Pd]. apply rnd_le_r; [apply generic_format_pred; [typeclasses eauto|apply isfl_rnd]|].
      assert (E : pred radix2 fmt d + ulp radix2 fmt (pred radix2 fmt d) = d) by (apply pred_plus_ulp; [typeclasses eauto|lra|apply isfl_rnd]).
      assert (U : ulp radix2 fmt (pred radix2 fmt d) <= ulp radix2 fmt d).
      { apply ulp_le; [typeclasses eauto..|]. pose proof (pred_lt_id radix2 fmt d ltac:(lra)).
        assert (0 <= pred radix2 fmt d) by (apply pred_ge_0; [typeclasses eauto|lra|apply isfl_rnd]). rewrite !Rabs_pos_eq; lra. }
      assert (V : ulp radix2 fmt d <= Rabs d * pow2 (1 - 53)).
      { apply ulp_FLT_le. rewrite Rabs_pos_eq by lra. apply Rlt_le, Rle_lt_trans with (pow2 (-1021)); [apply bpow_le; lia|lra]. }
      rewrite Rabs_pos_eq in V by lra. change (1 - 53)%Z with (-52)%Z in V.
      assert (d * p <= d * (1 - pow2 (-52))) by (apply Rmult_le_compat_l; lra). lra.
  Qed.
  Lemma point_ge p : 0 <= p -> t0 <= point p.
  Proof. intros H. apply rnd_ge_l; [auto|]. pose proof (inc_ge p H). unfold inc, d in *. lra. Qed.
  Lemma point_le p : p <= 1 - pow2 (-52) -> point p <= t1.
  Proof. intros H. apply rnd_le_r; [auto|]. pose proof (inc_le p H). unfold inc, d in *. lra. Qed.
  Lemma point_mono p q : p <= q -> point p <= point q.
  Proof.
    intros H. apply rnd_le, Rplus_le_compat_l, rnd_le, Rmult_le_compat_l; auto. apply Rlt_le, d_pos.
  Qed.
  Lemma point_0 : point 0 = t0.
  Proof. unfold point. now rewrite Rmult_0_r, rnd_0, Rplus_0_r, rnd_id. Qed.
  Lemma point_error p : 0 <= p -> p <= 1 - pow2 (-52) ->
    Rabs (point p - (t0 + (t1 - t0) * p)) <= pow2 (-53) * Rmax (Rabs t0) (Rabs t1) + pow2 (-51) * (t1 - t0) + pow2 (-1075).
  Proof.
    intros H0 H1. pose proof u_pos as [U0 U1]. pose proof (inc_ge p H0) as I0. pose proof (inc_le p H1) as I1.
    pose proof (rnd_plus t0 (inc p) F0 (isfl_rnd _)) as E3.
    pose proof (rnd_minus t1 t0 F1 F0) as E1. fold d in E1. rewrite (Rabs_pos_eq (t1 - t0)) in E1 by lra.
    pose proof (rnd_any (d * p)) as E2. fold (inc p) in E2.
    rewrite pow2_52 in H1. rewrite pow2_51.
    pose proof d_pos. set (u := pow2 (-53)) in *. set (e := pow2 (-1075)) in *. set (w := t1 - t0) in *.
    assert (W : 0 < w) by (unfold w; lra).
    assert (A3 : Rabs (t0 + inc p) <= Rmax (Rabs t0) (Rabs t1)).
    { apply Rabs_le. pose proof (Rmax_l (Rabs t0) (Rabs t1)). pose proof (Rmax_r (Rabs t0) (Rabs t1)).
      pose proof (Rle_abs t1). assert (- Rabs t0 <= t0) by (pose proof (Rle_abs (- t0)) as Q; rewrite Rabs_Ropp in Q; lra). unfold w in *. lra. }
    assert (A2 : Rabs (d * p) <= (1 + u) * w).
    { rewrite Rabs_pos_eq by (apply Rmult_le_pos; lra).
      apply Rabs_le_inv in E1. apply Rle_trans with (d * 1); [apply Rmult_le_compat_l; lra|]. lra. }
    assert (B1 : Rabs (d * p - w * p) <= u * w).
    { replace (d * p - w * p) with ((d - w) * p) by ring. rewrite Rabs_mult, (Rabs_pos_eq p) by lra.
      apply Rle_trans with (Rabs (d - w) * 1); [apply Rmult_le_compat_l; [apply Rabs_pos|lra]|lra]. }
    assert (B2 : Rabs (inc p - d * p) <= u * ((1 + u) * w) + e).
    { eapply Rle_trans; [exact E2|]. apply Rplus_le_compat_r, Rmult_le_compat_l; [lra|exact A2]. }
    assert (B3 : Rabs (rnd (t0 + inc p) - (t0 + inc p)) <= u * Rmax (Rabs t0) (Rabs t1)).
    { eapply Rle_trans; [exact E3|]. apply Rmult_le_compat_l; [lra|exact A3]. }
    assert (C : u * ((1 + u) * w) <= 2 * (u * w)).
    { replace (u * ((1 + u) * w)) with ((1 + u) * (u * w)) by ring. apply Rmult_le_compat_r; [|lra].
      apply Rmult_le_pos; lra. }
    replace (point p - (t0 + w * p)) with ((rnd (t0 + inc p) - (t0 + inc p)) + ((inc p - d * p) + (d * p - w * p))).
    2: { change (point p) with (rnd (t0 + inc p)). ring. }
    eapply Rle_trans; [apply Rabs_triang|]. eapply Rle_trans; [apply Rplus_le_compat_l, Rabs_triang|].
    assert (0 <= u * w) by (apply Rmult_le_pos; lra). lra.
  Qed.
  (** Between neighbours there is nothing. *)
  Lemma point_between p : succ radix2 fmt t0 = t1 -> 0 <= p -> p <= 1 - pow2 (-52) -> point p = t0 \/ point p = t1.
  Proof.
    intros E H0 H1. pose proof (point_ge p H0). pose proof (point_le p H1).
    destruct (Rle_lt_or_eq_dec t0 (point p) ltac:(auto)) as [G|G]; [|now left]. right.
    assert (succ radix2 fmt t0 <= point p) by (apply succ_le_lt; [typeclasses eauto|auto|apply isfl_rnd|auto]). lra.
  Qed.
End Piece.

(** ** Moving by a small step *)
Lemma moves_up x h : isfl x -> / 2 * ulp radix2 fmt x < h -> x < rnd (x + h).
Proof.
  intros Fx H. assert (0 <= ulp radix2 fmt x) by apply ulp_ge_0.
  assert (G : x <= rnd (x + h)) by (apply rnd_ge_l; auto; lra). destruct G as [G|G]; auto. exfalso.
  pose proof (error_le_half_ulp_round radix2 fmt (fun x => negb (Z.even x)) (x + h)) as E. fold (rnd (x + h)) in E.
  rewrite <- G in E. replace (x - (x + h)) with (- h) in E by ring. rewrite Rabs_Ropp, Rabs_pos_eq in E; lra.
Qed.
Lemma moves_down x h : isfl x -> / 2 * ulp radix2 fmt x < h -> rnd (x - h) < x.
Proof.
  intros Fx H. pose proof (moves_up (- x) h (isfl_opp _ Fx)) as M. rewrite ulp_opp in M. specialize (M H).
  replace (- x + h) with (- (x - h)) in M by ring. rewrite rnd_opp in M. lra.
Qed.
Lemma stuck_up y h : isfl y -> pow2 30 <= y -> 0 <= h < pow2 (-23) -> rnd (y + h) = y.
Proof.
  intros Fy Y H. pose proof (bpow_gt_0 radix2 30) as P.
  assert (U : pow2 (-22) <= ulp radix2 fmt y).
  { change (pow2 (-22)) with (pow2 (fmt (30 + 1))). rewrite <- ulp_bpow. apply ulp_le; [typeclasses eauto..|]. rewrite !Rabs_pos_eq; lra. }
  assert (D : pow2 (-22) = 2 * pow2 (-23)) by (change 2 with (pow2 1) at 1; now rewrite <- bpow_plus).
  assert (Es : succ radix2 fmt y = y + ulp radix2 fmt y) by (apply succ_eq_pos; lra).
  apply Rle_antisym; [apply round_N_le_midp; [typeclasses eauto|auto|lra]|apply rnd_ge_l; auto; lra].
Qed.
(** From [2^30] on, consecutive numbers are at least [2^-22] apart. *)
Lemma stuck y h : isfl y -> pow2 30 < y -> 0 <= h < pow2 (-23) -> rnd (y + h) = y /\ rnd (y - h) = y.
Proof.
  intros Fy Y H. pose proof (bpow_gt_0 radix2 30) as P.
  assert (Pr : pow2 30 <= pred radix2 fmt y) by (apply pred_ge_gt; [typeclasses eauto|apply isfl_pow2; lia|auto|auto]).
  assert (U : forall z, pow2 30 <= z -> pow2 (-22) <= ulp radix2 fmt z).
  { intros z Hz. change (pow2 (-22)) with (pow2 (fmt (30 + 1))). rewrite <- ulp_bpow. apply ulp_le; [typeclasses eauto..|].
    rewrite !Rabs_pos_eq; lra. }
  assert (D : pow2 (-22) = 2 * pow2 (-23)) by (change 2 with (pow2 1) at 1; now rewrite <- bpow_plus).
  assert (E : pred radix2 fmt y + ulp radix2 fmt (pred radix2 fmt y) = y) by (apply pred_plus_ulp; [typeclasses eauto|lra|auto]).
  pose proof (U _ Pr). pose proof (U y ltac:(lra)).
  assert (Es : succ radix2 fmt y = y + ulp radix2 fmt y) by (apply succ_eq_pos; lra).
  split; apply Rle_antisym.
  - apply round_N_le_midp; [typeclasses eauto|auto|]. lra.
  - apply rnd_ge_l; auto; lra.
  - apply rnd_le_r; auto; lra.
  - apply round_N_ge_midp; [typeclasses eauto|auto|]. lra.
Qed.
Lemma stuck_neg x h : isfl x -> x < - pow2 30 -> 0 <= h < pow2 (-23) -> rnd (x + h) = x /\ rnd (x - h) = x.
Proof.
  intros Fx X H. destruct (stuck (- x) h (isfl_opp _ Fx) ltac:(lra) H) as [A B]. split.
  - replace (x + h) with (- (- x - h)) by ring. rewrite rnd_opp, B. ring.
  - replace (x - h) with (- (- x + h)) by ring. rewrite rnd_opp, A. ring.
Qed.
(** Numbers up to [2^30] are at most [2^-23] apart; larger ones at most one part in [2^52]. *)
Lemma ulp_small x : Rabs x < pow2 30 -> ulp radix2 fmt x <= pow2 (-23).
Proof.
  intros H. destruct (Req_dec x 0) as [->|N].
  - rewrite ulp_FLT_0 by reflexivity. apply bpow_le. lia.
  - rewrite ulp_neq_0 by auto. apply bpow_le. unfold cexp, FLT_exp.
    assert (mag radix2 x <= 30)%Z by (apply mag_le_bpow; auto). lia.
Qed.
Lemma ulp_large x : pow2 30 <= Rabs x -> ulp radix2 fmt x <= Rabs x * pow2 (-52).
Proof.
  intros H. apply (ulp_FLT_le radix2 (-1074) 53). eapply Rle_trans; [|exact H]. apply bpow_le. lia.
Qed.
