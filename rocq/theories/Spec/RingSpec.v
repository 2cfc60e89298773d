(** The Newtonian potential of a ring and of a razor-thin disk, G = 1. *)
From Coq Require Import Reals.
From Coquelicot Require Import Coquelicot.
Open Scope R_scope.
Notation RR := RbaseSymbolsImpl.R (only parsing).

(** The distance from the point (R, z) to the point of the ring of radius a at the azimuth phi from it. *)
Definition ring_distance (a R z phi : RR) : RR := sqrt (R ^ 2 + a ^ 2 - 2 * a * R * cos phi + z ^ 2).
(** The average of 1 / distance over the ring, times 2 pi. *)
Definition around (a R z : RR) : RR := RInt (fun phi => / ring_distance a R z phi) 0 (2 * PI).
(** A ring of mass M, and a disk of surface density sigma inside the radius top. *)
Definition newton_ring (M a R z : RR) : RR := - M / (2 * PI) * around a R z.
Definition newton_disk (sigma : RR -> RR) (top R z : RR) : RR := - RInt (fun a => sigma a * a * around a R z) 0 top.
Definition off_ring (a R z : RR) : Prop := 0 < R /\ (R <> a \/ z <> 0).
(** A continuous surface density that vanishes beyond the radius top. *)
Definition razor (sigma : RR -> RR) (top : RR) : Prop := 0 <= top /\ (forall a, continuous sigma a) /\ (forall a, top <= a -> sigma a = 0).
