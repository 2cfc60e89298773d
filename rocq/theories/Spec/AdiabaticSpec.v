(** Motion in the plane of a disk, and potentials in which the motions along the plane and across it do not influence each other. *)
From Coq Require Import Reals.
From Coquelicot Require Import Coquelicot.
Open Scope R_scope.
Notation RR := RbaseSymbolsImpl.R (only parsing).

(** The equations of motion in the plane in polar coordinates, for the radial force [F]. *)
Definition moves2 (F : RR -> RR) (R vR vT phi : RR -> RR) (t : RR) : Prop :=
  0 < R t /\ is_derive R t (vR t) /\ is_derive phi t (vT t / R t) /\ is_derive vR t (vT t ^ 2 / R t + F (R t)) /\ is_derive vT t (- vR t * vT t / R t).
(** The two motions are independent. *)
Definition separable (Phi : RR -> RR -> RR) (f g : RR -> RR) : Prop := forall R z, Phi R z = f R + g z.
(** The energy of the motion in the plane. *)
Definition plane_energy (f : RR -> RR) (R vR vT : RR) : RR := f R + (vR ^ 2 + vT ^ 2) / 2.
