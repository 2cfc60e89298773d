(** C14: positions round-trip between rectangular, cylindrical and spherical coordinates. *)
From Coq Require Import Reals Lra.
From Verif.Lib Require Import Atan2.
From Verif.Model Require Import Coords.
From Verif.Proofs Require Import VecProofs SkyProofs.
Open Scope R_scope.

Theorem C14_rect_cyl_rect : forall X Y Z,
  (let '(R, phi, z) := rect_to_cyl X Y Z in cyl_to_rect R phi z) = (X, Y, Z).
Proof. exact rect_cyl_roundtrip. Qed.
Print Assumptions C14_rect_cyl_rect.

Theorem C14_cyl_rect_cyl : forall R phi Z, 0 < R -> - PI < phi <= PI ->
  (let '(x, y, z) := cyl_to_rect R phi Z in rect_to_cyl x y z) = (R, phi, Z).
Proof. exact cyl_rect_roundtrip. Qed.
Print Assumptions C14_cyl_rect_cyl.

(** What the cylindrical coordinates mean: R is the distance from the axis, phi the angle that turns the x axis
    towards the point, in (-pi, pi]. *)
Theorem C14_cyl_meaning : forall X Y Z, let '(R, phi, z) := rect_to_cyl X Y Z in
  0 <= R /\ R ^ 2 = X ^ 2 + Y ^ 2 /\ X = R * cos phi /\ Y = R * sin phi /\ z = Z /\ - PI < phi <= PI.
Proof.
  intros. unfold rect_to_cyl. split; [apply sqrt_pos|]. split.
  { replace (sqrt (X ^ 2 + Y ^ 2) ^ 2) with (sqrt (X ^ 2 + Y ^ 2) * sqrt (X ^ 2 + Y ^ 2)) by ring. apply sqrt_sqrt.
    apply Rplus_le_le_0_compat; apply pow2_ge_0. }
  rewrite atan2_cos, atan2_sin. split; [auto|]. split; [auto|]. split; [auto|]. apply atan2_range.
Qed.
Print Assumptions C14_cyl_meaning.

Theorem C14_cyl_spher_cyl : forall R Z phi,
  (let '(r, theta, p) := cyl_to_spher R Z phi in spher_to_cyl r theta p) = (R, Z, phi).
Proof. exact cyl_spher_roundtrip. Qed.
Print Assumptions C14_cyl_spher_cyl.

Theorem C14_spher_cyl_spher : forall r theta phi, 0 < r -> 0 <= theta <= PI ->
  (let '(R, z, p) := spher_to_cyl r theta phi in cyl_to_spher R z p) = (r, theta, phi).
Proof. exact spher_cyl_roundtrip. Qed.
Print Assumptions C14_spher_cyl_spher.

(** The colatitude of a point off the axis is measured from the positive z axis. *)
Theorem C14_spher_meaning : forall R Z phi, 0 <= R -> let '(r, theta, p) := cyl_to_spher R Z phi in
  0 <= r /\ r ^ 2 = R ^ 2 + Z ^ 2 /\ Z = r * cos theta /\ R = r * sin theta /\ p = phi.
Proof.
  intros R Z phi HR. unfold cyl_to_spher. split; [apply sqrt_pos|]. split.
  { replace (sqrt (R ^ 2 + Z ^ 2) ^ 2) with (sqrt (R ^ 2 + Z ^ 2) * sqrt (R ^ 2 + Z ^ 2)) by ring. apply sqrt_sqrt.
    apply Rplus_le_le_0_compat; apply pow2_ge_0. }
  rewrite (Rplus_comm (R ^ 2)), atan2_cos, atan2_sin. auto.
Qed.
Print Assumptions C14_spher_meaning.

(** On the axis phi is 0 by convention; in the plane below the axis phi is negative. *)
Example C14_case : rect_to_cyl 0 (-2) 3 = (2, - PI / 2, 3).
Proof.
  pose proof PI_RGT_0.
  pose proof (cyl_rect_roundtrip 2 (- PI / 2) 3 ltac:(lra) ltac:(lra)) as E. unfold cyl_to_rect in E.
  replace (- PI / 2) with (- (PI / 2)) in * by lra. rewrite cos_neg, sin_neg, cos_PI2, sin_PI2 in E.
  replace (2 * 0) with 0 in E by ring. replace (2 * - (1)) with (-2) in E by ring. exact E.
Qed.
