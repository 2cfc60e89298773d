(** Motion in a spherical potential and in one dimension. *)
From Coq Require Import Reals.
From Coquelicot Require Import Coquelicot.
Open Scope R_scope.
Notation RR := RbaseSymbolsImpl.R (only parsing).

(** [F] is the radial force of the potential [Phi], both functions of the distance from the centre. *)
Definition radial_force (Phi F : RR -> RR) : Prop := forall r, 0 < r -> is_derive Phi r (- F r).
(** Its components in cylindrical coordinates. *)
Definition central_R (F : RR -> RR) (R z : RR) : RR := F (sqrt (R ^ 2 + z ^ 2)) * (R / sqrt (R ^ 2 + z ^ 2)).
Definition central_z (F : RR -> RR) (R z : RR) : RR := F (sqrt (R ^ 2 + z ^ 2)) * (z / sqrt (R ^ 2 + z ^ 2)).
(** Energy and angular momentum of a point of phase space. *)
Definition sph_energy (Phi : RR -> RR) (R vR vT z vz : RR) : RR := Phi (sqrt (R ^ 2 + z ^ 2)) + (vR ^ 2 + vT ^ 2 + vz ^ 2) / 2.
Definition sph_momentum (R vR vT z vz : RR) : RR := sqrt ((R * vT) ^ 2 + (z * vT) ^ 2 + (z * vR - R * vz) ^ 2).
(** Distance from the centre and its rate of change. *)
Definition sph_radius (R z : RR) : RR := sqrt (R ^ 2 + z ^ 2).
Definition sph_speed (R vR z vz : RR) : RR := (R * vR + z * vz) / sqrt (R ^ 2 + z ^ 2).
(** The square of the radial velocity on an orbit with energy E and angular momentum L. *)
Definition sph_radial2 (Phi : RR -> RR) (E L r : RR) : RR := 2 * (E - Phi r) - L ^ 2 / r ^ 2.

(** Motion of a unit mass in one dimension in the potential [Phi] with force [F]. *)
Definition moves1 (F x v : RR -> RR) (t : RR) : Prop := is_derive x t (v t) /\ is_derive v t (F (x t)).
