(** C16: sky coordinates and proper motions round-trip. *)
From Coq Require Import Reals Lra.
From Verif.Lib Require Import RealAux Atan2 Vec3.
From Verif.Model Require Import CoordsVec CoordsSky.
From Verif.Spec Require Import SkySpec.
From Verif.Proofs Require Import SkyProofs SkyProofs2.
Open Scope R_scope.

(** (l,b) is the same direction as (ra,dec), seen in the frame rotated by [T_eq_to_gal e]. *)
Theorem C16_radec_to_lb_direction : forall degree e ra dec,
  let '(l, b) := radec_to_lb degree e ra dec in
  let u := unit_angle degree in
  direction (l * u) (b * u) = mulMV (T_eq_to_gal e) (direction (ra * u) (dec * u)) /\
  0 <= l * u < 2 * PI /\ - PI / 2 <= b * u <= PI / 2.
Proof. exact radec_lb_direction. Qed.
Print Assumptions C16_radec_to_lb_direction.

Theorem C16_lb_to_radec_direction : forall degree e l b,
  let '(ra, dec) := lb_to_radec degree e l b in
  let u := unit_angle degree in
  mulMV (T_eq_to_gal e) (direction (ra * u) (dec * u)) = direction (l * u) (b * u) /\
  0 <= ra * u < 2 * PI /\ - PI / 2 <= dec * u <= PI / 2.
Proof. exact lb_radec_direction. Qed.
Print Assumptions C16_lb_to_radec_direction.

(** That frame is the Galactic one: a rotation under which the North Galactic Pole (ra_ngp, dec_ngp) is the pole
    and the North Celestial Pole has longitude theta. *)
Theorem C16_galactic_frame : forall e,
  rotation (T_eq_to_gal e) /\
  mulMV (T_eq_to_gal e) (direction (ra_ngp e) (dec_ngp e)) = mkV 0 0 1 /\
  mulMV (T_eq_to_gal e) (mkV 0 0 1) = direction (theta e) (dec_ngp e).
Proof. intros. split; [apply T_rotation|]. split; [apply T_pole|apply T_north]. Qed.
Print Assumptions C16_galactic_frame.

Theorem C16_radec_lb_radec : forall degree e ra dec, sky_range degree ra dec ->
  (let '(l, b) := radec_to_lb degree e ra dec in lb_to_radec degree e l b) = (ra, dec).
Proof. exact radec_roundtrip. Qed.
Print Assumptions C16_radec_lb_radec.

Theorem C16_lb_radec_lb : forall degree e l b, sky_range degree l b ->
  (let '(ra, dec) := lb_to_radec degree e l b in radec_to_lb degree e ra dec) = (l, b).
Proof. exact lb_roundtrip. Qed.
Print Assumptions C16_lb_radec_lb.

(** Distances. *)
Theorem C16_XYZ_lbd_XYZ : forall degree X Y Z, (X, Y, Z) <> (0, 0, 0) ->
  let p := XYZ_to_lbd degree X Y Z in lbd_to_XYZ degree (vx p) (vy p) (vz p) = mkV X Y Z.
Proof. exact XYZ_lbd_roundtrip. Qed.
Print Assumptions C16_XYZ_lbd_XYZ.
Theorem C16_lbd_XYZ_lbd : forall degree l b d, sky_range degree l b -> 0 < d ->
  let p := lbd_to_XYZ degree l b d in XYZ_to_lbd degree (vx p) (vy p) (vz p) = mkV l b d.
Proof. exact lbd_XYZ_roundtrip. Qed.
Print Assumptions C16_lbd_XYZ_lbd.
Theorem C16_lbd_meaning : forall degree l b d,
  lbd_to_XYZ degree l b d = vscal d (direction (l * unit_angle degree) (b * unit_angle degree)).
Proof. exact lbd_direction. Qed.
Print Assumptions C16_lbd_meaning.

(** Proper motions: the converted components are those of the same motion on the sphere, rotated with it.
    [dec <> dec_ngp] because there the code moves dec by 1e-16 (651, 708). *)
Theorem C16_pm_same_motion : forall degree e pmra pmdec ra dec, let u := unit_angle degree in
  dec * u <> dec_ngp e ->
  let '(l, b) := radec_to_lb degree e ra dec in
  let '(pmll, pmbb) := pmrapmdec_to_pmllpmbb degree e pmra pmdec ra dec in
  - PI / 2 < b * u < PI / 2 ->
  mulMV (T_eq_to_gal e) (proper_motion (ra * u) (dec * u) pmra pmdec) = proper_motion (l * u) (b * u) pmll pmbb.
Proof.
  intros degree e pmra pmdec ra dec u Hn. pose proof (radec_lb_direction degree e ra dec) as D.
  destruct (radec_to_lb degree e ra dec) as [l b]. cbv zeta in D. destruct D as [D _].
  pose proof (pm_gal_geom degree e pmra pmdec ra dec l b (eq_sym D)) as G. fold u in G.
  destruct (pmrapmdec_to_pmllpmbb degree e pmra pmdec ra dec). intros Hb. apply G; auto.
Qed.
Print Assumptions C16_pm_same_motion.

Theorem C16_pm_magnitude : forall degree e pmra pmdec ra dec, let u := unit_angle degree in
  dec * u <> dec_ngp e ->
  let '(l, b) := radec_to_lb degree e ra dec in
  let '(pmll, pmbb) := pmrapmdec_to_pmllpmbb degree e pmra pmdec ra dec in
  - PI / 2 < b * u < PI / 2 -> pmll ^ 2 + pmbb ^ 2 = pmra ^ 2 + pmdec ^ 2.
Proof.
  intros degree e pmra pmdec ra dec u Hn. pose proof (C16_pm_same_motion degree e pmra pmdec ra dec Hn) as G.
  destruct (radec_to_lb degree e ra dec) as [l b].
  destruct (pmrapmdec_to_pmllpmbb degree e pmra pmdec ra dec). intros Hb. specialize (G Hb).
  apply (f_equal vnorm2) in G. rewrite rot_norm, !proper_motion_norm in G by apply T_rotation. auto.
Qed.
Print Assumptions C16_pm_magnitude.

Theorem C16_pm_roundtrip : forall degree e pmra pmdec ra dec,
  sky_range degree ra dec -> dec * unit_angle degree <> dec_ngp e ->
  let '(l, b) := radec_to_lb degree e ra dec in
  let u := unit_angle degree in - PI / 2 < b * u < PI / 2 ->
  (let '(pmll, pmbb) := pmrapmdec_to_pmllpmbb degree e pmra pmdec ra dec in
   pmllpmbb_to_pmrapmdec degree e pmll pmbb l b) = (pmra, pmdec).
Proof. exact pm_roundtrip. Qed.
Print Assumptions C16_pm_roundtrip.

(** Custom frames. *)
Theorem C16_custom_direction : forall degree T ra dec, rotation T ->
  let '(l, b) := radec_to_custom degree T ra dec in
  let u := unit_angle degree in
  direction (l * u) (b * u) = mulMV T (direction (ra * u) (dec * u)) /\
  0 <= l * u < 2 * PI /\ - PI / 2 <= b * u <= PI / 2.
Proof. exact custom_direction. Qed.
Print Assumptions C16_custom_direction.
Theorem C16_custom_roundtrip : forall degree T ra dec, rotation T -> sky_range degree ra dec ->
  (let '(p1, p2) := radec_to_custom degree T ra dec in custom_to_radec degree T p1 p2) = (ra, dec) /\
  (let '(p1, p2) := custom_to_radec degree T ra dec in radec_to_custom degree T p1 p2) = (ra, dec).
Proof. intros. split; [apply custom_roundtrip|apply custom_roundtrip2]; auto. Qed.
Print Assumptions C16_custom_roundtrip.
Theorem C16_custom_pm_same_motion : forall degree T pmra pmdec ra dec, rotation T -> let u := unit_angle degree in
  dec * u <> snd (custom_to_radec false T 0 (PI / 2)) ->
  let '(p1, p2) := radec_to_custom degree T ra dec in
  let '(pm1, pm2) := pmrapmdec_to_custom degree T pmra pmdec ra dec in
  - PI / 2 < p2 * u < PI / 2 ->
  mulMV T (proper_motion (ra * u) (dec * u) pmra pmdec) = proper_motion (p1 * u) (p2 * u) pm1 pm2.
Proof.
  intros degree T pmra pmdec ra dec HT u Hn. pose proof (custom_direction degree T ra dec HT) as D.
  destruct (radec_to_custom degree T ra dec) as [l b]. cbv zeta in D. destruct D as [D _].
  pose proof (pm_custom_geom degree T pmra pmdec ra dec l b HT (eq_sym D)) as G. fold u in G.
  destruct (pmrapmdec_to_custom degree T pmra pmdec ra dec). intros Hb. apply G; auto.
Qed.
Print Assumptions C16_custom_pm_same_motion.
Theorem C16_custom_pm_roundtrip : forall degree T pmra pmdec ra dec, rotation T -> sky_range degree ra dec ->
  dec * unit_angle degree <> snd (custom_to_radec false T 0 (PI / 2)) ->
  let '(p1, p2) := radec_to_custom degree T ra dec in
  sky_range degree p1 p2 -> p2 * unit_angle degree <> snd (radec_to_custom false T 0 (PI / 2)) ->
  (let '(pm1, pm2) := pmrapmdec_to_custom degree T pmra pmdec ra dec in
   custom_to_pmrapmdec degree T pm1 pm2 p1 p2) = (pmra, pmdec).
Proof. exact pm_custom_roundtrip. Qed.
Print Assumptions C16_custom_pm_roundtrip.

(** The hypotheses are met: e.g. by ra=10 deg, dec=20 deg in the 2000.0 frame, whose pole is elsewhere. *)
Example C16_case : exists e, get_epoch_angles J2000 = Some e /\ sky_range true 10 20 /\ 20 * unit_angle true <> dec_ngp e.
Proof.
  eexists. split; [reflexivity|]. pose proof PI_RGT_0. split; [unfold sky_range; simpl; lra|].
  simpl dec_ngp. simpl unit_angle. intros E.
  assert (X : (20 / 180 - 2712825118085622 / 10 ^ 14 / 180) * PI = 0) by lra.
  apply Rmult_integral in X. destruct X; [|lra].
  apply (f_equal (fun r => r * 10 ^ 14)) in H0. replace ((20 / 180 - 2712825118085622 / 10 ^ 14 / 180) * 10 ^ 14) with
    (20 / 180 * 10 ^ 14 - 2712825118085622 / 180) in H0 by field. revert H0. unfold pow. lra.
Qed.
(** With the identity as custom frame nothing moves. *)
Example C16_custom_case : rotation eye /\ radec_to_custom false eye 1 0 = (1, 0).
Proof.
  assert (R : rotation eye) by (split; [unfold orthogonal; vring|vring]). split; auto.
  pose proof PI2_1. pose proof (custom_roundtrip false eye 1 0 R) as C. pose proof (custom_direction false eye 1 0 R) as D.
  destruct (radec_to_custom false eye 1 0) as [a b]. destruct D as [D [Ra Rb]]. rewrite mulMV_eye in D.
  apply (range_of_direction false); auto. unfold sky_range; simpl. lra.
Qed.
