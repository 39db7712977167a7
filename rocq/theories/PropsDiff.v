(** C53, C54, C59: normal densities, finite differences, array comparison. *)
From Coq Require Import String List Bool Arith ZArith Reals Lra Lia Psatz.
From Coquelicot Require Import Coquelicot.
From Verif Require Import Py NdArray NdLemmas UtilModel OptimSpec OptimLaws LawFacts IndexLemmas DictLemmas.
Import ListNotations.
Local Open Scope R_scope.

(** * C54 *)

(** The function returns well-formed arrays of shape [s] for every argument
    of the shape and size of [x]. *)
Definition regular (f : arr R -> arr R) (x : arr R) (s : shape) : Prop :=
  forall y, ash y = ash x -> length (adat y) = length (adat x) ->
  ash (f y) = s /\ length (adat (f y)) = prodn s.

(** Element [o] of the value when entry [i] of the point moves by [d]. *)
Definition along (f : arr R -> arr R) (x : arr R) (i o : nat) (d : R) : R :=
  nth o (adat (f (bump x i d))) 0.

(** The point moved by [d] along axis [i]. *)
Lemma bump_entry x i d k : (k < length (adat x))%nat ->
  nth k (adat (bump x i d)) 0 = nth k (adat x) 0 + (if Nat.eqb k i then d else 0).
Proof.
  intros H. unfold bump; cbn [adat].
  rewrite nth_map_d with (a := 0%nat) by (now rewrite seq_length).
  rewrite seq_nth by auto. simpl. destruct (Nat.eqb k i); ring.
Qed.
Lemma bump_0 x i : bump x i 0 = x.
Proof.
  destruct x as [s l]. unfold bump; cbn [ash adat]. f_equal.
  apply nth_ext with (d := 0) (d' := 0); rewrite map_length, seq_length; auto.
  intros k H. rewrite nth_map_d with (a := 0%nat) by (now rewrite seq_length).
  rewrite seq_nth by auto. simpl. destruct (Nat.eqb k i); ring.
Qed.
Lemma bump_shape x i d : ash (bump x i d) = ash x /\ length (adat (bump x i d)) = length (adat x).
Proof. unfold bump; cbn [ash adat]. now rewrite map_length, seq_length. Qed.

Lemma shape_eqb_refl s : shape_eqb s s = true.
Proof. induction s as [|a s IH]; simpl; auto. now rewrite Nat.eqb_refl. Qed.

Lemma quotient_ok a b c h s : ash a = s -> ash b = s -> length (adat a) = prodn s -> length (adat b) = prodn s ->
  exists r, quotient a b c h = Ok r /\ ash r = s /\ length (adat r) = prodn s /\
  forall o, (o < prodn s)%nat -> nth o (adat r) 0 = c * (nth o (adat a) 0 - nth o (adat b) 0) / h.
Proof.
  intros Ha Hb La Lb. unfold quotient. rewrite Ha, Hb, shape_eqb_refl.
  eexists. split; [reflexivity|]. cbn [ash adat]. split; [auto|]. split.
  - rewrite map_length, combine_length. lia.
  - intros o Ho. rewrite nth_map_d with (a := (0, 0)) by (rewrite combine_length; lia).
    rewrite combine_nth by lia. reflexivity.
Qed.

Lemma flat_nth (rows : list (list R)) m i o : List.Forall (fun r => length r = m) rows ->
  (i < length rows)%nat -> (o < m)%nat ->
  nth (i * m + o) (concat rows) 0 = nth o (nth i rows []) 0.
Proof.
  revert i. induction rows as [|r rows IH]; intros i F Hi Ho; [simpl in Hi; lia|].
  inversion F; subst. simpl concat. destruct i as [|i].
  - simpl. rewrite app_nth1 by lia. reflexivity.
  - rewrite app_nth2 by (simpl; lia). simpl nth at 2. rewrite <- IH by (auto; simpl in Hi; lia).
    f_equal. simpl. lia.
Qed.

Lemma prodn_app s t : prodn (s ++ t)%list = (prodn s * prodn t)%nat.
Proof. induction s as [|a l IH]; simpl; [lia|]. fold (prodn (l ++ t)%list). fold (prodn l). rewrite IH. nia. Qed.
Lemma concat_len m (l : list (list R)) : List.Forall (fun r => length r = m) l -> length (concat l) = (length l * m)%nat.
Proof. induction 1 as [|y l' Hy Hl IHl]; simpl; [auto|]. rewrite app_length, IHl, Hy. reflexivity. Qed.

(** The rows collected by the loops. *)
Lemma central_rows f x s h : regular f x s -> forall is acc, exists rows,
  foldM (central_row f x h) (Some (s, acc)) is = Ok (Some (s, acc ++ concat rows)) /\
  length rows = length is /\ List.Forall (fun r => length r = prodn s) rows /\
  forall k o, (k < length is)%nat -> (o < prodn s)%nat ->
    let i := nth k is O in let hi := nth i h 0 in
    nth o (nth k rows []) 0 = 1/2 * (along f x i o hi - along f x i o (- hi)) / hi.
Proof.
  intros Rg is. induction is as [|i is IH]; intros acc.
  - exists []. simpl. rewrite app_nil_r. repeat split; auto. intros; lia.
  - cbn [foldM]. unfold central_row at 1.
    pose proof (bump_shape x i (nth i h 0)) as [B1 B2].
    pose proof (bump_shape x i (- nth i h 0)) as [B3 B4].
    destruct (Rg _ B1 B2) as [S1 L1]. destruct (Rg _ B3 B4) as [S2 L2].
    destruct (quotient_ok _ _ (1/2) (nth i h 0) s S1 S2 L1 L2) as (r & E & Sr & Lr & V).
    rewrite E. cbn [bind]. rewrite Sr, shape_eqb_refl. cbn [bind].
    destruct (IH (acc ++ adat r)) as (rows & E' & Lrows & F & V').
    exists (adat r :: rows). rewrite E'. simpl concat. rewrite <- app_assoc. 
    split; [reflexivity|]. split; [simpl; lia|]. split; [constructor; auto|].
    intros [|k] o Hk Ho; [simpl nth; apply V; auto|]. simpl nth. apply V'; auto. simpl in Hk. lia.
Qed.

Theorem C54_central_value : forall f x s min rel, awf x -> regular f x s -> (0 < length (adat x))%nat ->
  exists r, central_diff f x min rel = Ok (Some r) /\ ash r = (ash x ++ s)%list /\ awf r /\
  forall i o, (i < length (adat x))%nat -> (o < prodn s)%nat ->
    let h := Rmax (nth i (adat x) 0 * rel) min in
    nth (i * prodn s + o) (adat r) 0 = (along f x i o h - along f x i o (- h)) / (2 * h).
Proof.
  intros f x s min rel W Rg N. unfold central_diff.
  set (h := steps x min rel).
  assert (Lh : length h = length (adat x)) by (unfold h, steps; now rewrite map_length).
  destruct (length h) as [|n] eqn:E; [lia|]. cbn [seq foldM].
  (* first row *)
  unfold central_row at 1.
  pose proof (bump_shape x 0 (nth 0 h 0)) as [B1 B2].
  pose proof (bump_shape x 0 (- nth 0 h 0)) as [B3 B4].
  destruct (Rg _ B1 B2) as [S1 L1]. destruct (Rg _ B3 B4) as [S2 L2].
  destruct (quotient_ok _ _ (1/2) (nth 0 h 0) s S1 S2 L1 L2) as (r & Er & Sr & Lr & V).
  rewrite Er. cbn [bind]. rewrite S1.
  destruct (central_rows f x s h Rg (seq 1 n) (adat r)) as (rows & E' & Lrows & F & V').
  rewrite E'. cbn [bind].
  eexists. split; [reflexivity|]. cbn [ash adat]. split; [reflexivity|].
  change (adat r ++ concat rows)%list with (concat (adat r :: rows)).
  assert (F' : List.Forall (fun r => length r = prodn s) (adat r :: rows)) by (constructor; auto).
  rewrite seq_length in Lrows.
  assert (Lall : length (adat r :: rows) = length (adat x)) by (simpl; lia).
  split.
  - unfold awf in *. cbn [ash adat].
    rewrite (concat_len _ _ F'), Lall, W, prodn_app. reflexivity.
  - intros i o Hi Ho; cbv zeta; set (hh := Rmax (nth i (adat x) 0 * rel) min). rewrite flat_nth; auto; [|rewrite Lall; exact Hi].
    assert (Hh : nth i h 0 = hh).
    { unfold h, steps, hh. rewrite nth_map_d with (a := 0) by auto. reflexivity. }
    destruct i as [|i]; simpl nth.
    + rewrite V by auto. rewrite Hh. unfold along, Rdiv. rewrite Rinv_mult. ring.
    + assert (Hk : (i < length (seq 1 n))%nat) by (rewrite seq_length; lia).
      specialize (V' i o Hk Ho). rewrite seq_nth in V' by lia. cbn [Nat.add] in V'.
      rewrite V', Hh. unfold Rdiv. rewrite Rinv_mult. ring.
Qed.

(** An empty point gives [None], not an array: the documented result is
    refuted for it. *)
Theorem C54_central_empty : forall f x min rel, adat x = [] -> central_diff f x min rel = Ok None.
Proof. intros f x min rel E. unfold central_diff, steps. rewrite E. reflexivity. Qed.

Lemma forward_rows f x s h f0 : regular f x s -> ash f0 = s -> length (adat f0) = prodn s ->
  forall is acc, exists rows,
  foldM (fun l i => let* row := quotient (f (bump x i (nth i h 0%R))) f0 1%R (nth i h 0%R) in
               Ok (l ++ adat row)%list) acc is = Ok (acc ++ concat rows)%list /\
  length rows = length is /\ List.Forall (fun r => length r = prodn s) rows /\
  forall k o, (k < length is)%nat -> (o < prodn s)%nat ->
    let i := nth k is O in let hi := nth i h 0 in
    nth o (nth k rows []) 0 = (along f x i o hi - nth o (adat f0) 0) / hi.
Proof.
  intros Rg S0 L0 is. induction is as [|i is IH]; intros acc.
  - exists []. simpl. rewrite app_nil_r. repeat split; auto. intros; lia.
  - cbn [foldM].
    pose proof (bump_shape x i (nth i h 0)) as [B1 B2].
    destruct (Rg _ B1 B2) as [S1 L1].
    destruct (quotient_ok _ _ 1 (nth i h 0) s S1 S0 L1 L0) as (r & E & Sr & Lr & V).
    rewrite E. cbn [bind].
    destruct (IH (acc ++ adat r)%list) as (rows & E' & Lrows & F & V').
    exists (adat r :: rows). rewrite E'. simpl concat. rewrite <- app_assoc.
    split; [reflexivity|]. split; [simpl; lia|]. split; [constructor; auto|].
    intros [|k] o Hk Ho.
    + simpl nth. rewrite V by auto. unfold along. f_equal. ring.
    + simpl nth. apply V'; auto. simpl in Hk. lia.
Qed.

Theorem C54_forward_value : forall f x s min rel, awf x -> regular f x s ->
  exists r, forward_diff f x min rel = Ok r /\ ash r = (ash x ++ s)%list /\ awf r /\
  forall i o, (i < length (adat x))%nat -> (o < prodn s)%nat ->
    let h := Rmax (nth i (adat x) 0 * rel) min in
    nth (i * prodn s + o) (adat r) 0 = (along f x i o h - along f x i o 0) / h.
Proof.
  intros f x s min rel W Rg. unfold forward_diff.
  set (h := steps x min rel).
  assert (Lh : length h = length (adat x)) by (unfold h, steps; now rewrite map_length).
  destruct (Rg x eq_refl eq_refl) as [S0 L0].
  destruct (forward_rows f x s h (f x) Rg S0 L0 (seq 0 (length h)) []) as (rows & E & Lrows & F & V).
  rewrite E. cbn [bind]. eexists. split; [reflexivity|]. cbn [ash adat app]. rewrite S0.
  split; [reflexivity|]. rewrite seq_length in Lrows. split.
  - unfold awf. cbn [ash adat]. rewrite (concat_len _ _ F), prodn_app, Lrows, Lh, W. reflexivity.
  - intros i o Hi Ho; cbv zeta; set (hh := Rmax (nth i (adat x) 0 * rel) min). rewrite flat_nth; auto; [|lia].
    assert (Hk : (i < length (seq 0 (length h)))%nat) by (rewrite seq_length; lia).
    specialize (V i o Hk Ho). rewrite seq_nth in V by lia. cbn [Nat.add] in V.
    rewrite V. unfold along. rewrite bump_0. do 2 f_equal.
    all: unfold h, steps, hh; rewrite nth_map_d with (a := 0) by auto; reflexivity.
Qed.

(** Steps are never smaller than [min_step]. *)
Theorem C54_step : forall x min rel i, (i < length (adat x))%nat -> min <= nth i (steps x min rel) 0.
Proof.
  intros x min rel i H. unfold steps. rewrite nth_map_d with (a := 0) by auto. apply Rmax_r.
Qed.

(** Central differences are exact for functions quadratic in each coordinate. *)
Theorem C54_central_quadratic : forall f x s min rel r i o a b c,
  awf x -> regular f x s -> 0 < min -> central_diff f x min rel = Ok (Some r) ->
  (i < length (adat x))%nat -> (o < prodn s)%nat ->
  (forall d, along f x i o d = a * d ^ 2 + b * d + c) ->
  is_derive (along f x i o) 0 (nth (i * prodn s + o) (adat r) 0).
Proof.
  intros f x s min rel r i o a b c W Rg M E Hi Ho Q.
  destruct (C54_central_value f x s min rel W Rg ltac:(lia)) as (r' & E' & _ & _ & V).
  rewrite E in E'. injection E' as <-. specialize (V i o Hi Ho). cbv zeta in V. rewrite V, !Q.
  set (h := Rmax _ _). assert (0 < h) by (eapply Rlt_le_trans; [exact M|apply Rmax_r]).
  eapply is_derive_ext; [intros t; symmetry; apply Q|]. auto_derive; [exact I|]. field. lra.
Qed.

(** Forward differences are exact for affine functions. *)
Theorem C54_forward_affine : forall f x s min rel r i o b c,
  awf x -> regular f x s -> 0 < min -> forward_diff f x min rel = Ok r ->
  (i < length (adat x))%nat -> (o < prodn s)%nat ->
  (forall d, along f x i o d = b * d + c) ->
  is_derive (along f x i o) 0 (nth (i * prodn s + o) (adat r) 0).
Proof.
  intros f x s min rel r i o b c W Rg M E Hi Ho Q.
  destruct (C54_forward_value f x s min rel W Rg) as (r' & E' & _ & _ & V).
  rewrite E in E'. injection E' as <-. specialize (V i o Hi Ho). cbv zeta in V. rewrite V, !Q.
  set (h := Rmax _ _). assert (0 < h) by (eapply Rlt_le_trans; [exact M|apply Rmax_r]).
  eapply is_derive_ext; [intros t; symmetry; apply Q|]. auto_derive; [exact I|]. field. lra.
Qed.

Lemma central_taylor (g : R -> R) h M : 0 < h ->
  (forall t k, (k <= 3)%nat -> ex_derive_n g k t) ->
  (forall t, - h <= t <= h -> Rabs (Derive_n g 3 t) <= M) ->
  Rabs ((g h - g (- h)) / (2 * h) - Derive g 0) <= h ^ 2 / 6 * M.
Proof.
  intros H D B.
  destruct (Taylor_Lagrange g 2 0 h H) as (z1 & Z1 & E1).
  { intros t Ht k Hk. apply D; lia. }
  assert (L : forall y k, (k <= 3)%nat -> locally (- y) (fun z => forall n, (n <= k)%nat -> ex_derive_n g n z)).
  { intros y k Hk. apply filter_forall. intros z n Hn. apply D. lia. }
  destruct (Taylor_Lagrange (fun u => g (- u)) 2 0 h H) as (z2 & Z2 & E2).
  { intros t Ht k Hk. apply ex_derive_n_comp_opp, L. lia. }
  cbn [sum_f_R0] in E2. rewrite !Derive_n_comp_opp in E2 by (apply L; lia).
  cbn [sum_f_R0] in E1. rewrite Ropp_0 in E2.
  change (Derive_n g 0 0) with (g 0) in *. change (Derive_n g 1 0) with (Derive g 0) in *.
  pose proof (B z1 ltac:(lra)) as B1. pose proof (B (- z2) ltac:(lra)) as B2.
  rewrite E1, E2. set (d3 := Derive_n g 3 z1) in *. set (e3 := Derive_n g 3 (- z2)) in *.
  set (d2 := Derive_n g 2 0). set (d1 := Derive g 0).
  replace (_ - d1) with (h ^ 2 / 12 * (d3 + e3)) by (simpl; field; lra).
  rewrite Rabs_mult, (Rabs_right (h ^ 2 / 12)) by nra.
  assert (Rabs (d3 + e3) <= 2 * M) by (eapply Rle_trans; [apply Rabs_triang|lra]).
  assert (0 <= h ^ 2 / 12) by nra. nra.
Qed.

(** The error of a central difference is at most h^2/6 times a bound of the
    third derivative. *)
Theorem C54_central_error : forall f x s min rel r i o M,
  awf x -> regular f x s -> 0 < min -> central_diff f x min rel = Ok (Some r) ->
  (i < length (adat x))%nat -> (o < prodn s)%nat ->
  let h := Rmax (nth i (adat x) 0 * rel) min in
  (forall t k, (k <= 3)%nat -> ex_derive_n (along f x i o) k t) ->
  (forall t, - h <= t <= h -> Rabs (Derive_n (along f x i o) 3 t) <= M) ->
  Rabs (nth (i * prodn s + o) (adat r) 0 - Derive (along f x i o) 0) <= h ^ 2 / 6 * M.
Proof.
  intros f x s min rel r i o M W Rg P E Hi Ho h D B.
  destruct (C54_central_value f x s min rel W Rg ltac:(lia)) as (r' & E' & _ & _ & V).
  rewrite E in E'. injection E' as <-. specialize (V i o Hi Ho). cbv zeta in V. rewrite V. fold h.
  apply central_taylor; auto. eapply Rlt_le_trans; [exact P|apply Rmax_r].
Qed.

(** The error of a forward difference is at most h/2 times a bound of the
    second derivative. *)
Theorem C54_forward_error : forall f x s min rel r i o M,
  awf x -> regular f x s -> 0 < min -> forward_diff f x min rel = Ok r ->
  (i < length (adat x))%nat -> (o < prodn s)%nat ->
  let h := Rmax (nth i (adat x) 0 * rel) min in
  (forall t k, (k <= 2)%nat -> ex_derive_n (along f x i o) k t) ->
  (forall t, 0 <= t <= h -> Rabs (Derive_n (along f x i o) 2 t) <= M) ->
  Rabs (nth (i * prodn s + o) (adat r) 0 - Derive (along f x i o) 0) <= h / 2 * M.
Proof.
  intros f x s min rel r i o M W Rg P E Hi Ho h D B.
  destruct (C54_forward_value f x s min rel W Rg) as (r' & E' & _ & _ & V).
  rewrite E in E'. injection E' as <-. specialize (V i o Hi Ho). cbv zeta in V. rewrite V. fold h.
  assert (H : 0 < h) by (eapply Rlt_le_trans; [exact P|apply Rmax_r]).
  set (g := along f x i o) in *. clearbody g h.
  destruct (Taylor_Lagrange g 1 0 h H) as (z & Z & E1).
  { intros t Ht k Hk. apply D; lia. }
  cbn [sum_f_R0] in E1.
  change (Derive_n g 0 0) with (g 0) in *. change (Derive_n g 1 0) with (Derive g 0) in *.
  pose proof (B z ltac:(lra)) as B1. rewrite E1.
  set (e := Derive_n g 2 z) in *. set (d1 := Derive g 0).
  replace (_ - d1) with (h / 2 * e) by (simpl; field; lra).
  rewrite Rabs_mult, (Rabs_right (h / 2)) by lra. apply Rmult_le_compat_l; lra.
Qed.

(** A function of two variables meets the hypotheses: f(u, v) = [u^2 v, u v]. *)
Definition ex_fun (x : arr R) : arr R :=
  let u := nth 0 (adat x) 0 in let v := nth 1 (adat x) 0 in Arr [2%nat] [u ^ 2 * v; u * v].
Example C54_nonvacuous : let x := Arr [2%nat] [3; 5] in
  awf x /\ regular ex_fun x [2%nat] /\
  exists r, central_diff ex_fun x (1/8) (1/8) = Ok (Some r) /\
    nth (0 * 2 + 0) (adat r) 0 = 30 /\ nth (0 * 2 + 1) (adat r) 0 = 5 /\
    nth (1 * 2 + 0) (adat r) 0 = 9 /\ nth (1 * 2 + 1) (adat r) 0 = 3.
Proof.
  intros x. assert (W : awf x) by reflexivity.
  assert (Rg : regular ex_fun x [2%nat]) by (intros y _ _; split; reflexivity).
  split; [exact W|]. split; [exact Rg|].
  destruct (C54_central_value ex_fun x [2%nat] (1/8) (1/8) W Rg ltac:(simpl; lia)) as (r & E & _ & _ & V).
  exists r. split; [exact E|]. change (prodn [2%nat]) with 2%nat in V.
  assert (P : forall a, 0 < Rmax a (1/8)) by (intros; eapply Rlt_le_trans; [|apply Rmax_r]; lra).
  assert (V00 := V 0%nat 0%nat ltac:(simpl; lia) ltac:(lia)). assert (V01 := V 0%nat 1%nat ltac:(simpl; lia) ltac:(lia)).
  assert (V10 := V 1%nat 0%nat ltac:(simpl; lia) ltac:(lia)). assert (V11 := V 1%nat 1%nat ltac:(simpl; lia) ltac:(lia)).
  cbv zeta in V00, V01, V10, V11. rewrite V00, V01, V10, V11.
  unfold along, ex_fun, bump, x; cbn [adat ash length seq map nth Nat.eqb].
  repeat split; field; apply Rgt_not_eq, P.
Qed.

(** * C53 *)

Lemma ln_div_sqrt std : 0 < std -> ln (/ std) = - ln std.
Proof. apply ln_Rinv. Qed.
Lemma ln_sqrt u : 0 < u -> ln (sqrt u) = ln u / 2.
Proof.
  intros H. assert (E : ln u = 2 * ln (sqrt u)); [|lra].
  rewrite <- (sqrt_sqrt u) at 1 by lra. rewrite ln_mult by (apply sqrt_lt_R0; auto). ring.
Qed.

Theorem C53_log_density : forall x mean std, 0 < std ->
  normal_logpdf (Masked x false) mean std = ln (normal_pdf x mean std) /\
  normal_logpdf1 (Masked x false) mean std = ln (normal_pdf1 x mean std) /\
  0 < normal_pdf x mean std /\ 0 < normal_pdf1 x mean std /\
  normal_pdf x mean std = normal_pdf1 x mean std / sqrt (2 * PI).
Proof.
  intros x mean std H. pose proof PI_RGT_0 as P.
  assert (S : 0 < sqrt (2 * PI)) by (apply sqrt_lt_R0; lra).
  assert (E := exp_pos (- (1/2) * ((x - mean) / std) ^ 2)).
  unfold normal_logpdf, normal_logpdf1, normal_pdf, normal_pdf1, active_factor, Rdiv; cbn [m_data m_mask].
  assert (I1 := Rinv_0_lt_compat _ H). assert (I2 := Rinv_0_lt_compat _ S).
  assert (E1 : 0 < exp (- (1 * / 2) * ((x - mean) * / std) ^ 2)) by apply exp_pos.
  assert (E2 : 0 < exp (- (1 * / 2) * ((x - mean) * / std) ^ 2) * / std) by (apply Rmult_lt_0_compat; auto).
  split; [|split; [|split; [|split]]].
  - set (e := exp _) in *. rewrite (ln_mult (e * / std)), (ln_mult e) by auto. unfold e.
    rewrite ln_exp, !ln_Rinv, ln_sqrt by (auto; lra). field. lra.
  - rewrite ln_mult, ln_exp, ln_Rinv by auto. field. lra.
  - apply Rmult_lt_0_compat; auto.
  - auto.
  - reflexivity.
Qed.

(** Masked samples contribute nothing, whatever the data under the mask. *)
Theorem C53_masked : forall x mean std,
  normal_logpdf (Masked x true) mean std = 0 /\ normal_logpdf1 (Masked x true) mean std = 0.
Proof. intros; unfold normal_logpdf, normal_logpdf1, active_factor; cbn [m_mask]; split; ring. Qed.

(** The two logarithms differ by a constant, so they have the same gradient
    and the same maximisers: the mean as a function of the data, and the
    standard deviation |x - mean|. *)
Theorem C53_constant : forall x mean std mean' std',
  normal_logpdf (Masked x false) mean std - normal_logpdf1 (Masked x false) mean std
  = normal_logpdf (Masked x false) mean' std' - normal_logpdf1 (Masked x false) mean' std'.
Proof. intros; unfold normal_logpdf, normal_logpdf1, active_factor; cbn [m_mask m_data]; ring. Qed.

Theorem C53_maximum : forall x mean std, 0 < std ->
  normal_logpdf1 (Masked x false) mean std <= normal_logpdf1 (Masked x false) x std.
Proof.
  intros x mean std H. unfold normal_logpdf1, active_factor; cbn [m_mask m_data].
  assert (0 <= (x - mean) ^ 2 / (2 * std ^ 2)).
  { apply Rdiv_le_0_compat; [apply pow2_ge_0|]. assert (0 < std ^ 2) by (apply pow_lt; auto). lra. }
  replace (- (x - mean) ^ 2 / (2 * std ^ 2)) with (- ((x - mean) ^ 2 / (2 * std ^ 2))) by (field; lra).
  replace (- (x - x) ^ 2 / (2 * std ^ 2)) with 0 by (field; lra). lra.
Qed.

Example C53_nonvacuous : normal_logpdf1 (Masked 1 false) 0 1 = - (1/2).
Proof. unfold normal_logpdf1, active_factor; cbn [m_mask m_data]. rewrite ln_1. field. Qed.

(** * C59 *)

(** Specification: element of [a] read at a multi-index of the common shape,
    by NumPy's broadcasting rule. *)
Definition elem (a : arr fl) (ix : list nat) : fl :=
  nth (ravel (ash a) (bcast_index (ash a) ix)) (adat a) NaN.
(** [ix] is a multi-index of an array of shape [s]. *)
Definition index_of (s : shape) (ix : list nat) : Prop :=
  length ix = length s /\ forall k, (k < length s)%nat -> (nth k ix O < nth k s O)%nat.
(** [s] and [t] broadcast together to [u]: same right-aligned rule as NumPy's
    documentation. *)
Definition dim_at (s : shape) (k : nat) : nat := nth k (rev s) 1%nat.
Definition broadcasts (s t u : shape) : Prop :=
  length u = Nat.max (length s) (length t) /\
  forall k, (k < length u)%nat ->
    (dim_at s k = dim_at u k /\ dim_at t k = dim_at u k) \/
    (dim_at s k = 1%nat /\ dim_at t k = dim_at u k) \/
    (dim_at t k = 1%nat /\ dim_at s k = dim_at u k).
(** Closeness of two numbers. *)
Definition close (atol rtol : R) (x y : fl) : Prop :=
  match x, y with Fin a, Fin b => Rabs (a - b) < atol + rtol * Rabs b | _, _ => False end.

Lemma bmerge_nth s : forall t u, bmerge s t = Some u <->
  length s = length t /\ length u = length t /\
  forall k, (k < length u)%nat ->
    (nth k s 1 = nth k u 1 /\ nth k t 1 = nth k u 1 \/
     nth k s 1 = 1 /\ nth k t 1 = nth k u 1 \/
     nth k t 1 = 1 /\ nth k s 1 = nth k u 1)%nat.
Proof.
  induction s as [|a s IH]; intros [|b t] u; simpl.
  - split; [intros [= <-]; simpl; repeat split; auto; intros; lia|].
    intros (_ & L & _). destruct u; [reflexivity|simpl in L; lia].
  - split; [discriminate|intros (L & _); simpl in L; lia].
  - split; [discriminate|intros (L & _); simpl in L; lia].
  - split.
    + destruct (bmerge s t) as [w|] eqn:E; [|discriminate].
      apply IH in E as (L1 & L2 & P). intros Hu.
      assert (X : exists c, u = c :: w /\ (a = c /\ b = c \/ a = 1 /\ b = c \/ b = 1 /\ a = c)%nat).
      { destruct (Nat.eqb_spec a b); [injection Hu as <-; exists a; split; [auto|left; split; congruence]|].
        destruct (Nat.eqb_spec a 1); [injection Hu as <-; exists b; split; [auto|tauto]|].
        destruct (Nat.eqb_spec b 1); [injection Hu as <-; exists a; split; [auto|tauto]|discriminate]. }
      destruct X as (c & -> & X). simpl. split; [lia|]. split; [lia|].
      intros [|k] Hk; [exact X|]. apply P. lia.
    + intros (L1 & L2 & P). destruct u as [|c u]; [simpl in L2; lia|]. simpl in L1, L2.
      assert (E : bmerge s t = Some u).
      { apply IH. split; [lia|]. split; [lia|]. intros k Hk. apply (P (S k)). simpl. lia. }
      rewrite E. specialize (P 0%nat ltac:(simpl; lia)). simpl in P.
      destruct (Nat.eqb_spec a b); [do 2 f_equal; lia|].
      destruct (Nat.eqb_spec a 1); [do 2 f_equal; lia|].
      destruct (Nat.eqb_spec b 1); [do 2 f_equal; lia|lia].
Qed.

Lemma pad_dim s n k : (length s <= n)%nat -> (k < n)%nat ->
  nth k (repeat 1%nat (n - length s) ++ s) 1%nat = dim_at s (n - 1 - k).
Proof.
  intros L K. unfold dim_at.
  destruct (Nat.lt_ge_cases k (n - length s)).
  - rewrite app_nth1 by (rewrite repeat_length; lia). rewrite nth_repeat.
    rewrite nth_overflow; auto. rewrite rev_length. lia.
  - rewrite app_nth2 by (rewrite repeat_length; lia). rewrite repeat_length.
    rewrite rev_nth by lia. f_equal. lia.
Qed.

Lemma bshape_spec s t u : bshape s t = Some u <-> broadcasts s t u.
Proof.
  unfold bshape. set (n := Nat.max (length s) (length t)). rewrite bmerge_nth.
  rewrite !app_length, !repeat_length. unfold broadcasts. fold n.
  assert (Hs : (length s <= n)%nat) by (unfold n; lia).
  assert (Ht : (length t <= n)%nat) by (unfold n; lia).
  split.
  - intros (_ & Lu & P). split; [lia|]. intros k Hk.
    specialize (P (n - 1 - k)%nat ltac:(lia)).
    rewrite !pad_dim in P by lia. replace (n - 1 - (n - 1 - k))%nat with k in P by lia.
    unfold dim_at in *. rewrite (rev_nth u) by lia.
    replace (length u - S k)%nat with (n - 1 - k)%nat by lia. exact P.
  - intros (Lu & P). split; [lia|]. split; [lia|]. intros k Hk.
    specialize (P (n - 1 - k)%nat ltac:(lia)).
    rewrite !pad_dim by lia. unfold dim_at in *. rewrite (rev_nth u) in P by lia.
    replace (length u - S (n - 1 - k))%nat with k in P by lia. exact P.
Qed.

Lemma broadcasts_to (a : arr fl) u : (length (ash a) <= length u)%nat ->
  (forall k, (k < length u)%nat -> dim_at (ash a) k = dim_at u k \/ dim_at (ash a) k = 1%nat) ->
  exists a', broadcast_to NaN a u = Ok a' /\ length (adat a') = prodn u /\
  forall ix, index_of u ix -> (ravel u ix < prodn u)%nat /\ nth (ravel u ix) (adat a') NaN = elem a ix.
Proof.
  intros L P. unfold broadcast_to.
  assert (C : bcompat (bpad (ash a) u) u = true).
  { apply bcompat_spec; [unfold bpad; rewrite app_length, repeat_length; lia|].
    intros k Hk. unfold bpad in *. rewrite app_length, repeat_length in Hk.
    specialize (P (length u - 1 - k)%nat ltac:(lia)).
    rewrite (nth_indep _ O 1%nat) by (rewrite app_length, repeat_length; lia).
    rewrite (nth_indep u O 1%nat) by lia.
    rewrite pad_dim by lia. unfold dim_at in *. rewrite (rev_nth u) in P by lia.
    replace (length u - S (length u - 1 - k))%nat with k in P by lia. exact P. }
  rewrite C. destruct (Nat.leb_spec (length (ash a)) (length u)); [|lia]. simpl.
  eexists. split; [reflexivity|]. cbn [adat]. split; [now rewrite map_length, seq_length|].
  intros ix [HL Hb]. destruct (bpos_ravel _ _ _ C HL Hb) as [E Hlt]. split; [exact Hlt|].
  rewrite nth_map_d with (a := 0%nat) by (now rewrite seq_length). rewrite seq_nth by auto. cbn [Nat.add].
  rewrite E. unfold elem, bpad, bcast_index. rewrite HL. f_equal. apply ravel_pad.
Qed.

Lemma all_indices u (P : nat -> Prop) :
  (forall i, (i < prodn u)%nat -> P i) <-> (forall ix, index_of u ix -> P (ravel u ix)).
Proof.
  split.
  - intros H ix [HL Hb]. apply H.
    assert (C : bcompat u u = true) by (apply bcompat_spec; auto).
    exact (proj2 (bpos_ravel u u ix C HL Hb)).
  - intros H i Hi. destruct (IndexLemmas.unravel u i Hi) as (ix & Hix & <-). apply H. exact Hix.
Qed.

Lemma close_test atol rtol x y :
  fl_lt (fl_abs (fl_sub x y)) (fl_bound atol rtol (fl_abs y)) = true <-> close atol rtol x y.
Proof.
  destruct x as [|x], y as [|y]; simpl; try (split; [discriminate|tauto]).
  destruct (Rlt_dec _ _); split; auto; discriminate.
Qed.

Lemma within_tol_spec a b atol rtol : within_tol a b atol rtol = true <->
  exists u, broadcasts (ash a) (ash b) u /\
  forall ix, index_of u ix -> close atol rtol (elem a ix) (elem b ix).
Proof.
  unfold within_tol. destruct (bshape (ash a) (ash b)) as [u|] eqn:E.
  2:{ split; [discriminate|]. intros (u & B & _). apply bshape_spec in B. congruence. }
  apply bshape_spec in E.
  assert (Uq : forall u', broadcasts (ash a) (ash b) u' -> u' = u).
  { intros u' B. apply bshape_spec in B, E. congruence. }
  destruct E as [Lu P].
  destruct (broadcasts_to a u) as (a' & Ea & La & Va); [lia|intros k Hk; specialize (P k Hk); lia|].
  destruct (broadcasts_to b u) as (b' & Eb & Lb & Vb); [lia|intros k Hk; specialize (P k Hk); lia|].
  rewrite Ea, Eb, forallb_forall.
  assert (T : (forall x, In x (map (fun ey => fl_lt (fl_abs (fst ey)) (fl_bound atol rtol (fl_abs (snd ey))))
     (combine (map (fun xy => fl_sub (fst xy) (snd xy)) (combine (adat a') (adat b'))) (adat b'))) -> x = true)
     <-> forall i, (i < prodn u)%nat -> close atol rtol (nth i (adat a') NaN) (nth i (adat b') NaN)).
  { set (l := map _ (combine (adat a') (adat b'))).
    assert (Ll : length l = prodn u) by (unfold l; rewrite map_length, combine_length; lia).
    split.
    - intros H i Hi. rewrite <- close_test. apply H. apply in_map_iff.
      exists (nth i l NaN, nth i (adat b') NaN). split.
      + cbn [fst snd]. unfold l. rewrite nth_map_d with (a := (NaN, NaN)) by (rewrite combine_length; lia).
        rewrite combine_nth by lia. reflexivity.
      + rewrite <- combine_nth by lia. apply nth_In. rewrite combine_length. lia.
    - intros H x Hx. apply in_map_iff in Hx as ([e y] & <- & I). 
      apply (In_nth _ _ (NaN, NaN)) in I as (i & Hi & I). rewrite combine_length in Hi.
      rewrite combine_nth in I by lia. injection I as <- <-. cbn [fst snd].
      unfold l. rewrite nth_map_d with (a := (NaN, NaN)) by (rewrite combine_length; lia).
      rewrite combine_nth by lia. apply close_test, H. lia. }
  rewrite T, all_indices. split.
  - intros H. exists u. split; [split; auto|]. intros ix Hix.
    specialize (H ix Hix). rewrite (proj2 (Va ix Hix)), (proj2 (Vb ix Hix)) in H. exact H.
  - intros (u' & B & H). rewrite (Uq u' B) in H. intros ix Hix.
    rewrite (proj2 (Va ix Hix)), (proj2 (Vb ix Hix)). auto.
Qed.

(** The comparison is true exactly when the shapes broadcast and every pair
    of elements is within tolerance. *)
Theorem C59_comparison : forall a b atol rtol,
  (within_tol a b atol rtol = true <->
   exists u, broadcasts (ash a) (ash b) u /\
   forall ix, index_of u ix -> close atol rtol (elem a ix) (elem b ix)) /\
  array_lt a b (TolDict (Some atol) (Some rtol) None) = within_tol a b atol rtol /\
  array_lt a b (TolNum atol) = within_tol a b atol atol.
Proof. intros. split; [apply within_tol_spec|split; reflexivity]. Qed.

(** A NaN anywhere (in a position read) makes the comparison false. *)
Theorem C59_nan : forall a b atol rtol u ix, broadcasts (ash a) (ash b) u -> index_of u ix ->
  elem a ix = NaN \/ elem b ix = NaN -> within_tol a b atol rtol = false.
Proof.
  intros a b atol rtol u ix B I H. destruct (within_tol a b atol rtol) eqn:E; [|reflexivity].
  apply within_tol_spec in E as (u' & B' & C).
  assert (u' = u) by (apply bshape_spec in B, B'; congruence). subst u'.
  specialize (C ix I). destruct H as [H|H]; rewrite H in C; [|destruct (elem a ix)]; simpl in C; tauto.
Qed.

(** Zero tolerance rejects even equal arrays: the comparison is strict. *)
Theorem C59_strict : forall a b u ix, broadcasts (ash a) (ash b) u -> index_of u ix ->
  array_lt a b (TolNum 0) = false.
Proof.
  intros a b u ix B I. simpl. destruct (within_tol a b 0 0) eqn:E; [|reflexivity].
  apply within_tol_spec in E as (u' & B' & C).
  assert (u' = u) by (apply bshape_spec in B, B'; congruence). subst u'.
  specialize (C ix I). unfold close in C. destruct (elem a ix), (elem b ix); try tauto.
  pose proof (Rabs_pos (r - r0)). rewrite Rmult_0_l in C. lra.
Qed.

(** The comparison is not symmetric in general: the relative tolerance refers
    to the second array. *)
Theorem C59_asymmetric :
  array_lt (Arr [] [Fin 1]) (Arr [] [Fin 3]) (TolDict None (Some 1) None) = true /\
  array_lt (Arr [] [Fin 3]) (Arr [] [Fin 1]) (TolDict None (Some 1) None) = false.
Proof.
  simpl array_lt. split.
  - apply within_tol_spec. exists []. split; [split; [reflexivity|intros k K; simpl in K; lia]|].
    intros ix [L _]. destruct ix; [|simpl in L; lia]. unfold elem; simpl.
    rewrite Rabs_left, Rabs_right by lra. lra.
  - destruct (within_tol _ _ _ _) eqn:E; [|reflexivity]. apply within_tol_spec in E as (u & B & C).
    assert (u = []) by (destruct B as [B _]; destruct u; [reflexivity|simpl in B; lia]). subst u.
    specialize (C [] ltac:(split; [reflexivity|intros k K; simpl in K; lia])).
    unfold elem in C; simpl in C. rewrite !Rabs_right in C by lra. lra.
Qed.

Example C59_nonvacuous :
  broadcasts [2%nat; 1%nat] [3%nat] [2%nat; 3%nat] /\
  (forall u, ~ broadcasts [2%nat] [3%nat] u) /\
  array_lt (Arr [2%nat] [Fin 1; Fin 2]) (Arr [1%nat] [Fin (3/2)]) (TolNum 1) = true.
Proof.
  split; [apply bshape_spec; reflexivity|]. split.
  - intros u B. apply bshape_spec in B. discriminate.
  - simpl array_lt. apply within_tol_spec. exists [2%nat]. split; [apply bshape_spec; reflexivity|].
    intros ix [L H]. destruct ix as [|i [|? ?]]; simpl in L; try lia.
    specialize (H 0%nat ltac:(simpl; lia)). simpl in H.
    destruct i as [|[|i]]; [| |lia]; unfold elem; simpl;
      (unfold Rabs; repeat destruct Rcase_abs; lra).
Qed.

Print Assumptions C53_log_density.
Print Assumptions C54_central_error.
Print Assumptions C59_comparison.
