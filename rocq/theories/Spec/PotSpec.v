(** Specification vocabulary for potentials.  These predicates talk about real functions
    only; they do not mention how the library computes them.

    [Phi], [FR], ... are functions of (R, z, phi, t) in cylindrical coordinates. *)
From Coq Require Import Reals.
From Coquelicot Require Import Coquelicot.
Open Scope R_scope.

Definition Fun4 := R -> R -> R -> R -> R.
(** A domain in (R, z, phi, t). *)
Definition Dom := R -> R -> R -> R -> Prop.

(** Forces are minus the partial derivatives of the potential. *)
Definition is_force_field (D : Dom) (Phi FR Fz Fphi : Fun4) : Prop :=
  forall R z phi t, D R z phi t ->
    is_derive (fun x => Phi x z phi t) R (- FR R z phi t) /\
    is_derive (fun x => Phi R x phi t) z (- Fz R z phi t) /\
    is_derive (fun x => Phi R z x t) phi (- Fphi R z phi t).

(** [PRR], [Pzz], [PRz] are the second partial derivatives in the meridional plane, as
    derivatives of minus the force; the mixed one from both sides. *)
Definition is_meridional_hessian (D : Dom) (FR Fz PRR Pzz PRz : Fun4) : Prop :=
  forall R z phi t, D R z phi t ->
    is_derive (fun x => - FR x z phi t) R (PRR R z phi t) /\
    is_derive (fun x => - Fz R x phi t) z (Pzz R z phi t) /\
    is_derive (fun x => - FR R x phi t) z (PRz R z phi t) /\
    is_derive (fun x => - Fz x z phi t) R (PRz R z phi t).

(** Azimuthal second derivatives. *)
Definition is_azimuthal_hessian (D : Dom) (FR Fz Fphi Ppp PRp Ppz : Fun4) : Prop :=
  forall R z phi t, D R z phi t ->
    is_derive (fun x => - Fphi R z x t) phi (Ppp R z phi t) /\
    is_derive (fun x => - FR R z x t) phi (PRp R z phi t) /\
    is_derive (fun x => - Fphi x z phi t) R (PRp R z phi t) /\
    is_derive (fun x => - Fz R z x t) phi (Ppz R z phi t) /\
    is_derive (fun x => - Fphi R x phi t) z (Ppz R z phi t).

(** [lap] is the Laplacian of [Phi] in cylindrical coordinates:
    Phi_RR + Phi_R / R + Phi_phiphi / R^2 + Phi_zz, with genuine iterated derivatives. *)
Definition is_laplacian_at (Phi : Fun4) (R z phi t lap : Rdefinitions.R) : Prop :=
  exists PR PRR Ppp Pzz,
    is_derive (fun x => Phi x z phi t) R PR /\
    is_derive (fun x => Derive (fun y => Phi y z phi t) x) R PRR /\
    is_derive (fun x => Derive (fun y => Phi R z y t) x) phi Ppp /\
    is_derive (fun x => Derive (fun y => Phi R y phi t) x) z Pzz /\
    lap = PRR + PR / R + Ppp / R ^ 2 + Pzz.

(** Poisson's equation with G = 1. *)
Definition satisfies_poisson (D : Dom) (Phi dens : Fun4) : Prop :=
  forall R z phi t, D R z phi t -> 0 < R ->
    is_laplacian_at Phi R z phi t (4 * PI * dens R z phi t).

(** Spherically symmetric mass profile: [M] is r^2 times the inward radial force and
    grows as 4 pi r^2 rho. *)
Definition is_mass_profile (force dens mass : R -> R) : Prop :=
  forall r, 0 < r ->
    mass r = r ^ 2 * (- force r) /\
    is_derive mass r (4 * PI * r ^ 2 * dens r).
