(** Density profiles on similar ellipsoids. *)
From Coq Require Import Reals List.
From Coquelicot Require Import Coquelicot.
From Verif.Lib Require Import RealAux Vec3.
From Verif.Spec Require Import PotSpec.
Import ListNotations.
Open Scope R_scope.
Notation RR := RbaseSymbolsImpl.R (only parsing).

(** psi is the integral of 2 m rho(m) and rho' is the derivative of rho. *)
Definition is_profile (psi dens deriv : RR -> RR) : Prop :=
  forall m, 0 < m -> is_derive psi m (2 * m * dens m) /\ is_derive dens m (deriv m).
(** The density rises towards the centre more slowly than 1 / m^2, and psi has a limit there. *)
Definition mild_cusp (psi dens deriv : RR -> RR) : Prop :=
  (forall m, 0 < m -> continuous deriv m) /\
  (exists l, filterlim psi (at_right 0) (locally l)) /\
  filterlim (fun m => m ^ 2 * dens m) (at_right 0) (locally 0) /\
  filterlim (fun m => m ^ 3 * deriv m) (at_right 0) (locally 0).
(** Nodes of a quadrature rule inside the interval of integration; the weights are not restricted. *)
Definition inside (gl : list (RR * RR)) : Prop := List.Forall (fun p => 0 < fst p <= 1) gl.
Definition off_centre : Dom := fun R z _ _ => R ^ 2 + z ^ 2 <> 0.
(** The mass inside the ellipsoid x^2 + y^2/b^2 + z^2/c^2 = R^2: the shell between m and m + dm has the volume 4 pi b c m^2 dm. *)
Definition is_enclosed_mass (b c : RR) (dens mass : RR -> RR) : Prop :=
  (forall R, 0 < R -> is_derive mass R (4 * PI * b * c * R ^ 2 * dens R)) /\
  filterlim mass (at_right 0) (locally 0).
(** The standard derivative of the hypergeometric function 2F1(a, b; a + 1; -x). *)
Definition hyp2f1_law (F : RR -> RR -> RR -> RR -> RR) (a b : RR) : Prop :=
  forall x, 0 < x -> is_derive (fun x => rpow x a / a * F a b (a + 1) (- x)) x (rpow x (a - 1) / rpow (1 + x) b).
(** 2F1 is bounded at the origin, so that this function vanishes there for a > 0. *)
Definition hyp2f1_zero (F : RR -> RR -> RR -> RR -> RR) (a b : RR) : Prop :=
  filterlim (fun x => rpow x a / a * F a b (a + 1) (- x)) (at_right 0) (locally 0).
Definition is_erf (erf : RR -> RR) : Prop :=
  erf 0 = 0 /\ forall x, is_derive erf x (2 / sqrt PI * exp (- x ^ 2)).
