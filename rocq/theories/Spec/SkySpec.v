(** Specification of sky frames: what a pair of angles on the celestial sphere means. *)
From Coq Require Import Reals.
From Verif.Lib Require Import Vec3.
Open Scope R_scope.

(** The direction with longitude [a] and latitude [d]. *)
Definition direction (a d : R) : V3 := mkV (cos d * cos a) (cos d * sin a) (sin d).
(** The unit vectors in which longitude and latitude grow there. *)
Definition east (a : R) : V3 := mkV (- sin a) (cos a) 0.
Definition north (a d : R) : V3 := mkV (- (sin d * cos a)) (- (sin d * sin a)) (cos d).
(** The velocity on the sphere that a proper motion (with the cos-latitude factor included) stands for. *)
Definition proper_motion (a d pma pmd : R) : V3 := vadd (vscal pma (east a)) (vscal pmd (north a d)).

(** A rotation: orthogonal and orientation preserving. *)
Definition rotation (T : M3) : Prop := orthogonal T /\ det3 T = 1.

(** Angles in the unit the caller asked for. *)
Definition unit_angle (degree : bool) : R := if degree then PI / 180 else 1.
(** Longitude in [0, 360) and latitude strictly between the poles. *)
Definition sky_range (degree : bool) (a d : R) : Prop :=
  0 <= a * unit_angle degree < 2 * PI /\ - PI / 2 < d * unit_angle degree < PI / 2.
