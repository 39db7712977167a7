(** Model of ceacoest/modelling/symquat.py.

    The functions are symbolic (SymPy) in the repository; the model gives
    their values over the reals.  [sympy.atan2] is modelled by its
    mathematical definition (0 at the origin, where SymPy returns nan). *)
From Coq Require Import Reals.
Local Open Scope R_scope.

Record quat := Quat { q0 : R; q1 : R; q2 : R; q3 : R }.
Record vec3 := Vec3 { v0 : R; v1 : R; v2 : R }.
(** 3 x 3 arrays by rows. *)
Record mat3 := Mat3 { r0 : vec3; r1 : vec3; r2 : vec3 }.

(** symquat.py:8-16 [derivative(quat, omega, renorm_gain)]. *)
Definition derivative (x : quat) (omega : vec3) (renorm_gain : R) : quat :=
  let (q0, q1, q2, q3) := x in
  let (p, q, r) := omega in
  let err := 1 - (q0^2 + q1^2 + q2^2 + q3^2) in
  Quat (- (1/2) * (p*q1 + q*q2 + r*q3) + renorm_gain*err*q0)
       (- (1/2) * (- p*q0 - r*q2 + q*q3) + renorm_gain*err*q1)
       (- (1/2) * (- q*q0 + r*q1 - p*q3) + renorm_gain*err*q2)
       (- (1/2) * (- r*q0 - q*q1 + p*q2) + renorm_gain*err*q3).

(** symquat.py:19-26 [rotmat(quat)]. *)
Definition rotmat (x : quat) : mat3 :=
  let (q0, q1, q2, q3) := x in
  Mat3
    (Vec3 (q0^2 + q1^2 - q2^2 - q3^2) (2*(q1*q2 + q0*q3)) (2*(q1*q3 - q0*q2)))
    (Vec3 (2*(q1*q2 - q0*q3)) (q0^2 - q1^2 + q2^2 - q3^2) (2*(q2*q3 + q0*q1)))
    (Vec3 (2*(q1*q3 + q0*q2)) (2*(q2*q3 - q0*q1)) (q0^2 - q1^2 - q2^2 + q3^2)).

(** [sympy.atan2(y, x)]: angle of the point (x, y), in (-pi, pi]. *)
Definition atan2 (y x : R) : R :=
  if Rlt_dec 0 x then atan (y / x)
  else if Rlt_dec x 0 then
    if Rle_dec 0 y then atan (y / x) + PI else atan (y / x) - PI
  else if Rlt_dec 0 y then PI / 2
  else if Rlt_dec y 0 then - (PI / 2)
  else 0.

(** symquat.py:29-35 [toeuler(quat)]: roll, pitch, yaw. *)
Definition toeuler (x : quat) : vec3 :=
  let (q0, q1, q2, q3) := x in
  let roll := atan2 (2*(q2*q3 + q0*q1)) (q0^2 - q1^2 - q2^2 + q3^2) in
  let pitch := - asin (2*(q1*q3 - q0*q2)) in
  let yaw := atan2 (2*(q1*q2 + q0*q3)) (q0^2 + q1^2 - q2^2 - q3^2) in
  Vec3 roll pitch yaw.
