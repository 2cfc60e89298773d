(** The King (lowered isothermal) model in its own words, G = 1. *)
From Coq Require Import Reals List.
From Coquelicot Require Import Coquelicot.
Import ListNotations.
Open Scope R_scope.
Notation RR := RbaseSymbolsImpl.R (only parsing).

(** The lowered Maxwellian: phi_t is the potential at the tidal radius, sigma the velocity parameter, rho1 the density parameter. *)
Definition lowered_maxwellian (phi_t sigma rho1 : RR) (f : RR -> RR) : Prop := forall E,
  (E < phi_t -> f E = rho1 / (sqrt (2 * PI) * sigma) ^ 3 * (exp ((phi_t - E) / sigma ^ 2) - 1)) /\ (phi_t <= E -> f E = 0).
(** The density of stars with the isotropic distribution f(E) at a place where the potential is phi: the integral of f over all velocities
    below any speed top beyond which there are no stars. *)
Definition has_density (f : RR -> RR) (phi rho : RR) : Prop := exists v, 0 <= v /\ (forall u, v <= u -> f (phi + u ^ 2 / 2) = 0) /\
  forall top, v <= top -> is_RInt (fun u => 4 * PI * u ^ 2 * f (phi + u ^ 2 / 2)) 0 top rho.
(** The spherical Poisson equation at r: (r^2 phi')' = 4 pi r^2 rho. *)
Definition poisson_at (phi rho : RR -> RR) (r : RR) : Prop := exists g, locally r (fun x => is_derive phi x (g x)) /\ is_derive (fun x => x ^ 2 * g x) r (4 * PI * r ^ 2 * rho r).
(** A list that never decreases. *)
Definition never_decreases (l : list RR) : Prop := forall i j, (i <= j < length l)%nat -> nth i l 0 <= nth j l 0.
