(** The specification predicates applied to what the public API of a potential returns.
    [p] is any object the API accepts: a single potential or a composite. *)
From Coq Require Import Reals.
From Verif.Model Require Import PotAPI.
From Verif.Spec Require Import PotSpec.
Open Scope R_scope.

(** Velocity argument of the force methods when none is given. *)
Definition v0 : R * R * R := (0, 0, 0).

(** evaluatePotentials, evaluateRforces, evaluatezforces, evaluatephitorques all return a
    value, and the forces are minus the gradient of the potential. *)
Definition forces_are_gradient (D : Dom) (p : Pot) : Prop :=
  exists Phi Fphi, apiEv p = Some Phi /\ apiPt p v0 = Some Fphi /\
    is_force_field D Phi (apiRf p v0) (apizf p v0) Fphi.

(** R2deriv, z2deriv, Rzderiv return the second derivatives. *)
Definition hessian_is_correct (D : Dom) (p : Pot) : Prop :=
  exists P2R P2z PRz, apiR2 p = Some P2R /\ apiz2 p = Some P2z /\ apiRz p = Some PRz /\
    is_meridional_hessian D (apiRf p v0) (apizf p v0) P2R P2z PRz.

(** phi2deriv, Rphideriv, phizderiv return the azimuthal second derivatives. *)
Definition azimuthal_hessian_is_correct (D : Dom) (p : Pot) : Prop :=
  exists Fphi P2p PRp Ppz, apiPt p v0 = Some Fphi /\
    apip2 p = Some P2p /\ apiRp p = Some PRp /\ apipz p = Some Ppz /\
    is_azimuthal_hessian D (apiRf p v0) (apizf p v0) Fphi P2p PRp Ppz.

(** dens (both the analytic density and, when [fp], the forcepoisson one) is the source of
    the potential. *)
Definition density_is_source (D : Dom) (p : Pot) : Prop :=
  exists Phi dens, apiEv p = Some Phi /\ apiDens p = Some dens /\ satisfies_poisson D Phi dens.
Definition poisson_density_is_source (D : Dom) (p : Pot) : Prop :=
  exists Phi dens, apiEv p = Some Phi /\ apiDensPoisson p = Some dens /\
    satisfies_poisson D Phi dens.

(** Domains that contain a neighbourhood of each of their points along each coordinate. *)
From Coquelicot Require Import Coquelicot.
Definition slice_open (D : Dom) : Prop :=
  forall R z phi t, D R z phi t ->
    locally R (fun x => D x z phi t) /\ locally z (fun x => D R x phi t) /\
    locally phi (fun x => D R z x t).
