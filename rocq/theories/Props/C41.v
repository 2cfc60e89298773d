(** C41: in-plane heliocentric and Galactocentric polar coordinates. *)
From Coq Require Import Reals Lra.
From Verif.Lib Require Import RealAux.
From Verif.Model Require Import CoordsVec.
From Verif.Spec Require Import SkySpec.
From Verif.Proofs Require Import SkyProofs SkyProofs2 VecProofs.
Open Scope R_scope.

(** The triangle Sun, centre, star: (R, phi) and (d, l) are the same point.  The Sun is on the line phi = phio. *)
Theorem C41_dl_to_rphi_triangle : forall degree ro phio d l, let u := unit_angle degree in
  0 <= ro -> 0 <= d -> let '(R, phi) := dl_to_rphi_2d degree ro phio d l in 0 < R ->
  R * cos ((phi - phio) * u) = ro - d * cos (l * u) /\ R * sin ((phi - phio) * u) = d * sin (l * u) /\
  - PI / 2 <= (phi - phio) * u < 3 * PI / 2.
Proof. exact dl_geom. Qed.
Print Assumptions C41_dl_to_rphi_triangle.

Theorem C41_rphi_to_dl_triangle : forall degree ro phio R phi, let u := unit_angle degree in
  0 <= ro -> 0 <= R -> let '(d, l) := rphi_to_dl_2d degree ro phio R phi in 0 < d ->
  d * cos (l * u) = ro - R * cos ((phi - phio) * u) /\ d * sin (l * u) = R * sin ((phi - phio) * u) /\
  - PI / 2 <= l * u < 3 * PI / 2.
Proof.
  intros degree ro phio R phi u Hro HR. rewrite rphi_is_dl.
  pose proof (dl_geom degree ro 0 R (phi - phio) Hro HR) as G. fold u in G.
  destruct (dl_to_rphi_2d degree ro 0 R (phi - phio)) as [d l]. rewrite Rminus_0_r in G. auto.
Qed.
Print Assumptions C41_rphi_to_dl_triangle.

Theorem C41_dl_roundtrip : forall degree ro phio d l, let u := unit_angle degree in
  0 < ro -> 0 < d -> - PI / 2 <= l * u < 3 * PI / 2 ->
  let '(R, phi) := dl_to_rphi_2d degree ro phio d l in 0 < R -> rphi_to_dl_2d degree ro phio R phi = (d, l).
Proof. exact dl_roundtrip. Qed.
Print Assumptions C41_dl_roundtrip.

Theorem C41_rphi_roundtrip : forall degree ro phio R phi, let u := unit_angle degree in
  0 < ro -> 0 < R -> - PI / 2 <= (phi - phio) * u < 3 * PI / 2 ->
  let '(d, l) := rphi_to_dl_2d degree ro phio R phi in 0 < d -> dl_to_rphi_2d degree ro phio d l = (R, phi).
Proof. exact rphi_roundtrip. Qed.
Print Assumptions C41_rphi_roundtrip.

(** A star behind the centre: twice as far as the centre, in the same direction. *)
Example C41_case : dl_to_rphi_2d false 1 0 2 0 = (1, PI).
Proof.
  unfold dl_to_rphi_2d. rewrite cos_0, sin_0. replace (1 ^ 2 + 2 ^ 2 - 2 * 2 * 1 * 1) with 1 by ring. rewrite sqrt_1, Rmult_0_r, asin_0.
  destruct (Rlt_dec 0 1); [|lra]. destruct (Rlt_dec (1 / 1) 2); [|lra]. f_equal. ring.
Qed.
