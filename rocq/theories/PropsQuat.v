(** C47-C49: quaternion rotations, kinematics and Euler angles. *)
From Coq Require Import Reals Lra Psatz.
From Coquelicot Require Import Coquelicot.
From Verif Require Import QuatModel.
Local Open Scope R_scope.

(** * Specification vocabulary (independent of the model's functions) *)

Definition norm2 (x : quat) : R := q0 x * q0 x + q1 x * q1 x + q2 x * q2 x + q3 x * q3 x.
Definition qopp (x : quat) : quat := Quat (- q0 x) (- q1 x) (- q2 x) (- q3 x).
(** Hamilton's product. *)
Definition qmul (a b : quat) : quat :=
  Quat (q0 a * q0 b - q1 a * q1 b - q2 a * q2 b - q3 a * q3 b)
       (q0 a * q1 b + q1 a * q0 b + q2 a * q3 b - q3 a * q2 b)
       (q0 a * q2 b - q1 a * q3 b + q2 a * q0 b + q3 a * q1 b)
       (q0 a * q3 b + q1 a * q2 b - q2 a * q1 b + q3 a * q0 b).
Definition qdot (a b : quat) : R := q0 a * q0 b + q1 a * q1 b + q2 a * q2 b + q3 a * q3 b.

Definition vdot (a b : vec3) : R := v0 a * v0 b + v1 a * v1 b + v2 a * v2 b.
Definition vscale (c : R) (a : vec3) : vec3 := Vec3 (c * v0 a) (c * v1 a) (c * v2 a).
Definition vadd (a b : vec3) : vec3 := Vec3 (v0 a + v0 b) (v1 a + v1 b) (v2 a + v2 b).
Definition cross (a b : vec3) : vec3 :=
  Vec3 (v1 a * v2 b - v2 a * v1 b) (v2 a * v0 b - v0 a * v2 b) (v0 a * v1 b - v1 a * v0 b).
Definition mtr (m : mat3) : mat3 :=
  Mat3 (Vec3 (v0 (r0 m)) (v0 (r1 m)) (v0 (r2 m)))
       (Vec3 (v1 (r0 m)) (v1 (r1 m)) (v1 (r2 m)))
       (Vec3 (v2 (r0 m)) (v2 (r1 m)) (v2 (r2 m))).
Definition mvec (m : mat3) (x : vec3) : vec3 := Vec3 (vdot (r0 m) x) (vdot (r1 m) x) (vdot (r2 m) x).
Definition mmul (a b : mat3) : mat3 :=
  let c := mtr b in
  Mat3 (mvec c (r0 a)) (mvec c (r1 a)) (mvec c (r2 a)).
Definition mscale (c : R) (m : mat3) : mat3 := Mat3 (vscale c (r0 m)) (vscale c (r1 m)) (vscale c (r2 m)).
Definition madd (a b : mat3) : mat3 := Mat3 (vadd (r0 a) (r0 b)) (vadd (r1 a) (r1 b)) (vadd (r2 a) (r2 b)).
Definition id3 : mat3 := Mat3 (Vec3 1 0 0) (Vec3 0 1 0) (Vec3 0 0 1).
Definition det3 (m : mat3) : R := vdot (r0 m) (cross (r1 m) (r2 m)).
(** The matrix [w]x of [cross w]. *)
Definition skew (w : vec3) : mat3 :=
  Mat3 (Vec3 0 (- v2 w) (v1 w)) (Vec3 (v2 w) 0 (- v0 w)) (Vec3 (- v1 w) (v0 w) 0).
(** Elementary frame rotations about x, y and z. *)
Definition rotx (a : R) : mat3 := Mat3 (Vec3 1 0 0) (Vec3 0 (cos a) (sin a)) (Vec3 0 (- sin a) (cos a)).
Definition roty (a : R) : mat3 := Mat3 (Vec3 (cos a) 0 (- sin a)) (Vec3 0 1 0) (Vec3 (sin a) 0 (cos a)).
Definition rotz (a : R) : mat3 := Mat3 (Vec3 (cos a) (sin a) 0) (Vec3 (- sin a) (cos a) 0) (Vec3 0 0 1).

(** Sanity of the vocabulary: [skew w] is the cross product, and the norm of
    Hamilton's product is the product of norms. *)
Lemma skew_cross w x : mvec (skew w) x = cross w x.
Proof. destruct w, x; unfold mvec, vdot, cross; simpl; f_equal; ring. Qed.
Lemma qmul_norm2 a b : norm2 (qmul a b) = norm2 a * norm2 b.
Proof. destruct a, b; unfold norm2, qmul; simpl; ring. Qed.

(** * C47 *)

Ltac quat_ring := unfold det3; unfold mmul, mtr, mvec, mscale, madd, vdot, vscale, vadd, cross, det3, norm2, qmul, qopp, qdot, id3, skew; simpl;
  repeat match goal with |- Mat3 _ _ _ = _ => f_equal | |- Vec3 _ _ _ = _ => f_equal | |- Quat _ _ _ _ = _ => f_equal end; ring.

Theorem C47_orthogonal : forall x : quat,
  mmul (rotmat x) (mtr (rotmat x)) = mscale (norm2 x ^ 2) id3 /\
  mmul (mtr (rotmat x)) (rotmat x) = mscale (norm2 x ^ 2) id3 /\
  det3 (rotmat x) = norm2 x ^ 3.
Proof. intros []; split; [|split]; quat_ring. Qed.

Theorem C47_proper_rotation : forall x : quat, norm2 x = 1 ->
  mmul (rotmat x) (mtr (rotmat x)) = id3 /\ mmul (mtr (rotmat x)) (rotmat x) = id3 /\ det3 (rotmat x) = 1.
Proof.
  intros x H; destruct (C47_orthogonal x) as (A & B & C); rewrite A, B, C, H.
  split; [|split]; [| |ring]; unfold mscale, vscale, id3; simpl; f_equal; f_equal; ring.
Qed.

Theorem C47_double_cover : forall x : quat, rotmat (qopp x) = rotmat x.
Proof. intros []; quat_ring. Qed.

(** The matrix maps reference to body coordinates, so products reverse. *)
Theorem C47_product : forall a b : quat, rotmat (qmul a b) = mmul (rotmat b) (rotmat a).
Proof. intros [] []; quat_ring. Qed.

(** Two quaternions with the same non-zero norm and the same rotation matrix
    are equal or opposite: the double cover is exact. *)
Theorem C47_cover_exact : forall a b : quat, norm2 a = norm2 b -> norm2 a <> 0 ->
  rotmat a = rotmat b -> a = b \/ a = qopp b.
Proof.
  intros [a0 a1 a2 a3] [b0 b1 b2 b3] N Z E.
  unfold norm2 in *; simpl in *. injection E; clear E; intros.
  (* all products of pairs agree *)
  assert (E00 : a0 * a0 = b0 * b0) by lra. assert (E11 : a1 * a1 = b1 * b1) by lra.
  assert (E22 : a2 * a2 = b2 * b2) by lra. assert (E33 : a3 * a3 = b3 * b3) by lra.
  assert (E01 : a0 * a1 = b0 * b1) by lra. assert (E02 : a0 * a2 = b0 * b2) by lra.
  assert (E03 : a0 * a3 = b0 * b3) by lra. assert (E12 : a1 * a2 = b1 * b2) by lra.
  assert (E13 : a1 * a3 = b1 * b3) by lra. assert (E23 : a2 * a3 = b2 * b3) by lra.
  unfold qopp; simpl.
  assert (S : forall u v, u * u = v * v -> u = v \/ u = - v).
  { intros u v H'. assert (P : (u - v) * (u + v) = 0) by lra.
    apply Rmult_integral in P; destruct P; [left|right]; lra. }
  assert (D : forall u v x y, u = v -> v <> 0 -> u * x = v * y -> x = y).
  { intros u v x y -> V Q. apply (Rmult_eq_reg_l v); assumption. }
  assert (D' : forall u v x y, u = - v -> v <> 0 -> u * x = v * y -> x = - y).
  { intros u v x y -> V Q. apply (Rmult_eq_reg_l v); lra. }
  destruct (Req_dec b0 0) as [Z0|Z0].
  2:{ destruct (S _ _ E00) as [K|K]; [left|right]; f_equal; try assumption;
      first [eapply D; [exact K|exact Z0|assumption] | eapply D'; [exact K|exact Z0|assumption]]. }
  assert (a0 = 0) by (subst; nra).
  destruct (Req_dec b1 0) as [Z1|Z1].
  2:{ destruct (S _ _ E11) as [K|K]; [left|right]; f_equal; try lra;
      first [eapply D; [exact K|exact Z1|lra] | eapply D'; [exact K|exact Z1|lra]]. }
  assert (a1 = 0) by (subst; nra).
  destruct (Req_dec b2 0) as [Z2|Z2].
  2:{ destruct (S _ _ E22) as [K|K]; [left|right]; f_equal; try lra;
      first [eapply D; [exact K|exact Z2|lra] | eapply D'; [exact K|exact Z2|lra]]. }
  assert (a2 = 0) by (subst; nra).
  destruct (S _ _ E33) as [K|K]; [left|right]; f_equal; lra.
Qed.

Example C47_nonvacuous : let x := Quat (1/2) (1/2) (-1/2) (1/2) in
  norm2 x = 1 /\ rotmat x = Mat3 (Vec3 0 0 1) (Vec3 (-1) 0 0) (Vec3 0 (-1) 0).
Proof. simpl; unfold norm2; simpl; split; [lra|]. f_equal; f_equal; lra. Qed.

(** * C48 *)

(** The kinematic equation is Hamilton's q' = q (0, w) / 2 plus the
    renormalisation term. *)
Theorem C48_hamilton : forall x w g,
  derivative x w g =
  let h := qmul x (Quat 0 (v0 w) (v1 w) (v2 w)) in
  let c := g * (1 - norm2 x) in
  Quat (q0 h / 2 + c * q0 x) (q1 h / 2 + c * q1 x) (q2 h / 2 + c * q2 x) (q3 h / 2 + c * q3 x).
Proof. intros [] [] g; unfold norm2, qmul; simpl; f_equal; field. Qed.

Theorem C48_tangent : forall x w g,
  qdot x (derivative x w 0) = 0 /\
  2 * qdot x (derivative x w g) = 2 * g * (1 - norm2 x) * norm2 x.
Proof. intros [] [] g; unfold qdot, norm2; simpl; split; field. Qed.

(** A quaternion trajectory driven by an angular velocity history. *)
Definition solution (x : R -> quat) (w : R -> vec3) (g : R) (t : R) : Prop :=
  is_derive (fun s => q0 (x s)) t (q0 (derivative (x t) (w t) g)) /\
  is_derive (fun s => q1 (x s)) t (q1 (derivative (x t) (w t) g)) /\
  is_derive (fun s => q2 (x s)) t (q2 (derivative (x t) (w t) g)) /\
  is_derive (fun s => q3 (x s)) t (q3 (derivative (x t) (w t) g)).

Definition vderive (f : R -> vec3) (t : R) (d : vec3) : Prop :=
  is_derive (fun s => v0 (f s)) t (v0 d) /\ is_derive (fun s => v1 (f s)) t (v1 d) /\
  is_derive (fun s => v2 (f s)) t (v2 d).
Definition mderive (f : R -> mat3) (t : R) (d : mat3) : Prop :=
  vderive (fun s => r0 (f s)) t (r0 d) /\ vderive (fun s => r1 (f s)) t (r1 d) /\
  vderive (fun s => r2 (f s)) t (r2 d).

(** [auto_derive] needs the components as opaque functions. *)
Lemma is_derive_replace (f : R -> R) t l l' : is_derive f t l -> l = l' -> is_derive f t l'.
Proof. intros H <-; exact H. Qed.

Section Along.
  Variables (a b c d : R -> R) (t a' b' c' d' : R).
  Hypotheses (Ha : is_derive a t a') (Hb : is_derive b t b') (Hc : is_derive c t c') (Hd : is_derive d t d').

  Lemma along_norm2 :
    is_derive (fun s => a s * a s + b s * b s + c s * c s + d s * d s) t
              (2 * (a t * a' + b t * b' + c t * c' + d t * d')).
  Proof.
    assert (Ea := is_derive_unique _ _ _ Ha). assert (Eb := is_derive_unique _ _ _ Hb).
    assert (Ec := is_derive_unique _ _ _ Hc). assert (Ed := is_derive_unique _ _ _ Hd).
    auto_derive.
    - repeat split; try (eexists; eassumption).
    - change (fun x => a x) with a; change (fun x => b x) with b; change (fun x => c x) with c;
      change (fun x => d x) with d; rewrite Ea, Eb, Ec, Ed; ring.
  Qed.
End Along.

Lemma norm2_rate x w g t : solution x w g t ->
  is_derive (fun s => norm2 (x s)) t (2 * g * (1 - norm2 (x t)) * norm2 (x t)).
Proof.
  intros (H0 & H1 & H2 & H3).
  eapply is_derive_replace; [exact (along_norm2 _ _ _ _ _ _ _ _ _ H0 H1 H2 H3)|].
  rewrite <- (proj2 (C48_tangent (x t) (w t) g)). reflexivity.
Qed.

(** The squared norm changes at rate 2 g (1 - |q|^2) |q|^2. *)
Theorem C48_norm_rate : forall x w g t, solution x w g t ->
  is_derive (fun s => norm2 (x s)) t (2 * g * (1 - norm2 (x t)) * norm2 (x t)).
Proof. exact norm2_rate. Qed.

Lemma deriv_zero_const (f : R -> R) : (forall t, is_derive f t 0) -> forall s t, f s = f t.
Proof.
  intros H s t. 
  destruct (MVT_gen f s t (fun _ => 0)) as [c [_ E]].
  - intros; apply H.
  - intros u _. apply derivable_continuous_pt. exists 0. apply is_derive_Reals, H.
  - lra.
Qed.

(** Without renormalisation the norm is constant along a solution. *)
Theorem C48_norm_preserved : forall x w, (forall t, solution x w 0 t) ->
  forall s t, norm2 (x s) = norm2 (x t).
Proof.
  intros x w H. apply (deriv_zero_const (fun t => norm2 (x t))). intros t.
  eapply is_derive_replace; [apply (norm2_rate _ _ _ _ (H t))|cbv beta; lra].
Qed.

(** With a non-negative gain the norm error never grows. *)
Theorem C48_renormalisation_stable : forall x w g, 0 <= g -> (forall t, solution x w g t) ->
  forall s t, s <= t -> (norm2 (x t) - 1) ^ 2 <= (norm2 (x s) - 1) ^ 2.
Proof.
  intros x w g G H s t L.
  assert (D : forall u : R, is_derive (fun u => (norm2 (x u) - 1) ^ 2) u
                        (- (4 * g * norm2 (x u) * (norm2 (x u) - 1) ^ 2))).
  { intros u. assert (K := norm2_rate _ _ _ _ (H u)).
    set (nf := fun s => norm2 (x s)) in *.
    assert (E : Derive nf u = 2 * g * (1 - nf u) * nf u) by (apply is_derive_unique; exact K).
    change (is_derive (fun u => (nf u - 1) ^ 2) u (- (4 * g * nf u * (nf u - 1) ^ 2))).
    assert (X : ex_derive nf u) by (eexists; exact K).
    clearbody nf. clear K. auto_derive; [exact X|].
    change (fun x0 => nf x0) with nf. rewrite E. ring. }
  destruct (MVT_gen (fun u => (norm2 (x u) - 1) ^ 2) s t
              (fun u => - (4 * g * norm2 (x u) * (norm2 (x u) - 1) ^ 2))) as [c [_ E]].
  - intros u _. apply D.
  - intros u _. apply derivable_continuous_pt. eexists. apply is_derive_Reals, D.
  - assert (P : 0 <= 4 * g * norm2 (x c) * (norm2 (x c) - 1) ^ 2).
    { apply Rmult_le_pos; [|apply pow2_ge_0]. apply Rmult_le_pos; [lra|].
      unfold norm2. assert (Z := fun y => Rle_0_sqr y). unfold Rsqr in Z.
      pose proof (Z (q0 (x c))); pose proof (Z (q1 (x c))); pose proof (Z (q2 (x c))); pose proof (Z (q3 (x c))); lra. }
    assert (Q : 0 <= (4 * g * norm2 (x c) * (norm2 (x c) - 1) ^ 2) * (t - s)) by (apply Rmult_le_pos; lra).
    lra.
Qed.

Lemma rotmat_rate x w g t : solution x w g t ->
  mderive (fun s => rotmat (x s)) t
    (madd (mscale (-1) (mmul (skew (w t)) (rotmat (x t))))
          (mscale (2 * g * (1 - norm2 (x t))) (rotmat (x t)))).
Proof.
  intros (H0 & H1 & H2 & H3).
  assert (E0 := is_derive_unique _ _ _ H0). assert (E1 := is_derive_unique _ _ _ H1).
  assert (E2 := is_derive_unique _ _ _ H2). assert (E3 := is_derive_unique _ _ _ H3).
  unfold mderive, vderive.
  assert (A : forall (f h : R -> R) (l l' : R), (forall s, f s = h s) -> is_derive h t l -> l = l' -> is_derive f t l').
  { intros f h l l' E K <-. eapply is_derive_ext; [|exact K]. intros; symmetry; apply E. }
  pose (a := fun s => q0 (x s)). pose (b := fun s => q1 (x s)).
  pose (c := fun s => q2 (x s)). pose (d := fun s => q3 (x s)).
  change (fun s => q0 (x s)) with a in H0, E0. change (fun s => q1 (x s)) with b in H1, E1.
  change (fun s => q2 (x s)) with c in H2, E2. change (fun s => q3 (x s)) with d in H3, E3.
  assert (X : forall s, x s = Quat (a s) (b s) (c s) (d s)) by (intros s; unfold a, b, c, d; destruct (x s); reflexivity).
  rewrite (X t) in *.
  assert (Xa : ex_derive a t) by (eexists; exact H0). assert (Xb : ex_derive b t) by (eexists; exact H1).
  assert (Xc : ex_derive c t) by (eexists; exact H2). assert (Xd : ex_derive d t) by (eexists; exact H3).
  clearbody a b c d.
  destruct (w t) as [p q r]; unfold derivative in *; cbn [q0 q1 q2 q3] in *.
  refine (conj (conj _ (conj _ _)) (conj (conj _ (conj _ _)) (conj _ (conj _ _))));
    (eapply A; [intros s; cbv beta; rewrite (X s); cbn -[pow]; reflexivity | | ];
     [auto_derive; [repeat split; first [exact Xa|exact Xb|exact Xc|exact Xd] | reflexivity]|]);
    change (fun x0 => a x0) with a; change (fun x0 => b x0) with b;
    change (fun x0 => c x0) with c; change (fun x0 => d x0) with d;
    rewrite ?E0, ?E1, ?E2, ?E3; simpl; unfold vdot, norm2; simpl; field.
Qed.

(** Rotation matrices follow dR/dt = -[w]x R (+ the renormalisation term). *)
Theorem C48_rotation_rate : forall x w g t, solution x w g t ->
  mderive (fun s => rotmat (x s)) t
    (madd (mscale (-1) (mmul (skew (w t)) (rotmat (x t))))
          (mscale (2 * g * (1 - norm2 (x t))) (rotmat (x t)))).
Proof. exact rotmat_rate. Qed.

Theorem C48_attitude_kinematics : forall x w g t, solution x w g t -> norm2 (x t) = 1 ->
  mderive (fun s => rotmat (x s)) t (mscale (-1) (mmul (skew (w t)) (rotmat (x t)))).
Proof.
  intros x w g t H N. pose proof (rotmat_rate _ _ _ _ H) as K.
  replace (madd _ _) with (mscale (-1) (mmul (skew (w t)) (rotmat (x t)))) in K; [exact K|].
  rewrite N. destruct (rotmat (x t)) as [[] [] []]. unfold madd, mscale, vadd, vscale; simpl.
  f_equal; f_equal; ring.
Qed.

(** A solution: rotation about z at constant rate. *)
Example C48_nonvacuous : forall t,
  solution (fun s => Quat (cos s) 0 0 (sin s)) (fun _ => Vec3 0 0 2) 3 t /\
  norm2 (Quat (cos t) 0 0 (sin t)) = 1.
Proof.
  intros t. pose proof (sin2_cos2 t) as T. unfold Rsqr in T.
  assert (N : 1 - (cos t ^ 2 + 0 ^ 2 + 0 ^ 2 + sin t ^ 2) = 0) by (simpl; lra).
  split; [|unfold norm2; simpl; lra].
  unfold solution, derivative; cbn [q0 q1 q2 q3]; rewrite N.
  refine (conj _ (conj _ (conj _ _))); auto_derive; try exact I; field.
Qed.

(** * C49 *)

Lemma atan_cos u : cos (atan u) = / sqrt (1 + u * u).
Proof. 
  rewrite cos_atan. unfold Rdiv. rewrite Rmult_1_l. reflexivity.
Qed.
Lemma atan_sin u : sin (atan u) = u / sqrt (1 + u * u).
Proof. rewrite sin_atan. reflexivity. Qed.

Lemma sqrt_ratio (x y c : R) : x <> 0 -> 0 < c -> x * x + y * y = c * c ->
  sqrt (1 + y / x * (y / x)) = c / Rabs x.
Proof.
  intros X C E. replace (1 + y / x * (y / x)) with ((c / Rabs x) * (c / Rabs x)).
  - apply sqrt_square. apply Rlt_le, Rdiv_lt_0_compat; [exact C|apply Rabs_pos_lt, X].
  - assert (A : Rabs x * Rabs x = x * x) by (rewrite <- Rabs_mult; apply Rabs_right; nra).
    assert (Rabs x <> 0) by (apply Rabs_no_R0, X).
    replace (c / Rabs x * (c / Rabs x)) with (c * c / (Rabs x * Rabs x)) by (field; assumption).
    rewrite A, <- E. field; assumption.
Qed.

(** The angle computed by [atan2] has the right cosine and sine. *)
Lemma atan2_polar (x y c : R) : 0 < c -> x * x + y * y = c * c ->
  cos (atan2 y x) = x / c /\ sin (atan2 y x) = y / c.
Proof.
  intros C E. unfold atan2.
  destruct (Rlt_dec 0 x) as [X|X].
  { rewrite atan_cos, atan_sin, (sqrt_ratio x y c) by lra.
    rewrite Rabs_right by lra. split; field; lra. }
  destruct (Rlt_dec x 0) as [X'|X'].
  { destruct (Rle_dec 0 y).
    - rewrite neg_cos, neg_sin, atan_cos, atan_sin, (sqrt_ratio x y c) by lra.
      rewrite Rabs_left by lra. split; field; lra.
    - unfold Rminus. rewrite cos_plus, sin_plus, cos_neg, sin_neg, cos_PI, sin_PI.
      rewrite atan_cos, atan_sin, (sqrt_ratio x y c) by lra.
      rewrite Rabs_left by lra. split; field; lra. }
  assert (x = 0) by lra. subst x.
  destruct (Rlt_dec 0 y).
  { rewrite cos_PI2, sin_PI2. assert (y = c) by nra. subst. split; field; lra. }
  destruct (Rlt_dec y 0).
  { rewrite cos_neg, sin_neg, cos_PI2, sin_PI2. assert (y = - c) by nra. subst. split; field; lra. }
  assert (y = 0) by lra. subst. nra.
Qed.

Lemma atan2_range (x y : R) : - PI < atan2 y x <= PI.
Proof.
  unfold atan2. assert (P := PI_RGT_0). pose proof (atan_bound (y / x)) as B.
  destruct (Rlt_dec 0 x); [lra|]. destruct (Rlt_dec x 0).
  - destruct (Rle_dec 0 y) as [Y|Y].
    + split; [lra|]. assert (atan (y / x) <= 0); [|lra].
      rewrite <- atan_0. assert (Q : y / x <= 0).
      { unfold Rdiv. assert (/ x < 0) by (apply Rinv_lt_0_compat; lra). nra. }
      destruct Q as [Q| ->]; [left; apply atan_increasing; exact Q|right; reflexivity].
    + assert (0 < atan (y / x)); [|lra]. rewrite <- atan_0. apply atan_increasing.
      unfold Rdiv. assert (/ x < 0) by (apply Rinv_lt_0_compat; lra). nra.
  - destruct (Rlt_dec 0 y); [lra|]. destruct (Rlt_dec y 0); lra.
Qed.

(** The sine of the pitch angle is minus entry (0, 2) of the matrix. *)
Theorem C49_euler_angles : forall x : quat, norm2 x = 1 -> -1 < v2 (r0 (rotmat x)) < 1 ->
  mmul (rotx (v0 (toeuler x))) (mmul (roty (v1 (toeuler x))) (rotz (v2 (toeuler x)))) = rotmat x.
Proof.
  intros [a b c d] N G. unfold norm2 in N; cbn [q0 q1 q2 q3 rotmat r0 v2] in N, G.
  unfold toeuler; cbn [v0 v1 v2].
  set (s := 2 * (b * d - a * c)) in *.
  set (k := sqrt (1 - s * s)).
  assert (K2 : k * k = 1 - s * s) by (apply sqrt_sqrt; nra).
  assert (K : 0 < k) by (apply sqrt_lt_R0; nra).
  destruct (atan2_polar (a^2 - b^2 - c^2 + d^2) (2 * (c * d + a * b)) k K) as [C1 S1].
  { rewrite K2. unfold s. replace 1 with ((a * a + b * b + c * c + d * d) ^ 2) by (rewrite N; ring). ring. }
  destruct (atan2_polar (a^2 + b^2 - c^2 - d^2) (2 * (b * c + a * d)) k K) as [C2 S2].
  { rewrite K2. unfold s. replace 1 with ((a * a + b * b + c * c + d * d) ^ 2) by (rewrite N; ring). ring. }
  assert (CA : cos (asin s) = k) by (rewrite cos_asin by lra; unfold k, Rsqr; reflexivity).
  assert (SA : sin (asin s) = s) by (apply sin_asin; lra).
  unfold rotx, roty, rotz, mmul, mtr, mvec, vdot; cbn [r0 r1 r2 v0 v1 v2].
  rewrite C1, S1, C2, S2, cos_neg, sin_neg, CA, SA.
  unfold rotmat; fold s.
  assert (KK : k <> 0) by lra.
  assert (Fin : forall u v, u * (k * k) = v -> u = v / (k * k)).
  { intros u v <-. field. assumption. }
  assert (n1 : 1 = a * a + b * b + c * c + d * d) by lra.
  assert (K2' : k * k = (a * a + b * b + c * c + d * d) ^ 2 - s * s) by (rewrite K2, N; ring).
  assert (Hm : forall P Q, P * (k * k) = (a * a + b * b + c * c + d * d) * Q -> P * (k * k) = Q)
    by (intros P Q HH; rewrite HH, <- n1; ring).
  f_equal; f_equal; try (field; assumption).
  - symmetry; etransitivity; [apply Fin, (Hm _ (- (a^2 + b^2 - c^2 - d^2) * s * (2 * (c * d + a * b)) / (a * a + b * b + c * c + d * d) - 2 * (b * c + a * d) * (a^2 - b^2 - c^2 + d^2)))|].
    + rewrite K2'. unfold s. field. lra.
    + rewrite <- n1. field. assumption.
  - symmetry; etransitivity; [apply Fin, (Hm _ (- (2 * (b * c + a * d)) * s * (2 * (c * d + a * b)) / (a * a + b * b + c * c + d * d) + (a^2 + b^2 - c^2 - d^2) * (a^2 - b^2 - c^2 + d^2)))|].
    + rewrite K2'. unfold s. field. lra.
    + rewrite <- n1. field. assumption.
  - symmetry; etransitivity; [apply Fin, (Hm _ (- (a^2 + b^2 - c^2 - d^2) * s * (a^2 - b^2 - c^2 + d^2) / (a * a + b * b + c * c + d * d) + 2 * (b * c + a * d) * (2 * (c * d + a * b))))|].
    + rewrite K2'. unfold s. field. lra.
    + rewrite <- n1. field. assumption.
  - symmetry; etransitivity; [apply Fin, (Hm _ (- (2 * (b * c + a * d)) * s * (a^2 - b^2 - c^2 + d^2) / (a * a + b * b + c * c + d * d) - (a^2 + b^2 - c^2 - d^2) * (2 * (c * d + a * b))))|].
    + rewrite K2'. unfold s. field. lra.
    + rewrite <- n1. field. assumption.
Qed.

Theorem C49_ranges : forall x : quat, norm2 x = 1 -> -1 < v2 (r0 (rotmat x)) < 1 ->
  - PI < v0 (toeuler x) <= PI /\ - (PI / 2) < v1 (toeuler x) < PI / 2 /\ - PI < v2 (toeuler x) <= PI.
Proof.
  intros [a b c d] N G. unfold toeuler; cbn [v0 v1 v2 r0 rotmat] in *.
  split; [apply atan2_range|]. split; [|apply atan2_range].
  assert (S : sin (asin (2 * (b * d - a * c))) = 2 * (b * d - a * c)) by (apply sin_asin; lra).
  pose proof (asin_bound (2 * (b * d - a * c))) as B.
  pose proof PI_RGT_0. destruct B as [[B1|B1] [B2|B2]]; try lra.
  - rewrite B2, sin_PI2 in S. lra.
  - rewrite <- B1, sin_neg, sin_PI2 in S. lra.
Qed.

Example C49_nonvacuous : let x := Quat (1/2) (1/2) (1/2) (1/2) in
  norm2 x = 1 /\ v2 (r0 (rotmat x)) = 0.
Proof. simpl; unfold norm2; simpl; lra. Qed.

Print Assumptions C47_orthogonal.
Print Assumptions C48_attitude_kinematics.
Print Assumptions C49_euler_angles.
