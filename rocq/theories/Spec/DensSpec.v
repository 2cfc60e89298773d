(** What it means for radial functions to be the gravity of a spherical density (G = 1), and the special functions by which galpy
    writes them down.  Nothing here mentions how the library computes them. *)
From Coq Require Import Reals.
From Coquelicot Require Import Coquelicot.
From Verif.Lib Require Import RealAux.
Open Scope R_scope.
Notation RR := RbaseSymbolsImpl.R (only parsing).

(** On the radii of [D]: the radial force [F] is minus the derivative of the potential [Phi], [D2] is its second derivative, the radial
    Poisson equation holds with the density [rho], and [M] is the mass inside r, both as r^2 times the attraction and as the integral
    of the density over the ball. *)
Definition gravity_of (D : RR -> Prop) (rho Phi F D2 M : RR -> RR) : Prop :=
  forall r, 0 < r -> D r ->
    is_derive Phi r (- F r) /\
    is_derive (fun x => - F x) r (D2 r) /\
    D2 r - 2 * F r / r = 4 * PI * rho r /\
    M r = r ^ 2 * (- F r) /\
    is_RInt_gen (fun s => 4 * PI * s ^ 2 * rho s) (at_right 0) (at_point r) (M r).

(** The potential of a spherical density that vanishes at infinity: minus the inner mass over r, minus the shells outside. *)
Definition shell_potential (rho M Phi : RR -> RR) : Prop :=
  forall r, 0 < r -> exists outer,
    is_RInt_gen (fun s => 4 * PI * s * rho s) (at_point r) (Rbar_locally p_infty) outer /\ Phi r = - M r / r - outer.

(** In cylindrical coordinates: the points off the centre whose spherical radius is one of [D]. *)
Definition off_centre (D : RR -> Prop) (R z phi t : RR) : Prop :=
  (R <> 0 \/ z <> 0) /\ 0 < sqrt (R ^ 2 + z ^ 2) /\ D (sqrt (R ^ 2 + z ^ 2)).

(** Limits at the centre and at infinity. *)
Definition at_centre (f : RR -> RR) (l : RR) : Prop := filterlim f (at_right 0) (locally l).
Definition at_infinity (f : RR -> RR) (l : RR) : Prop := filterlim f (Rbar_locally p_infty) (locally l).

(** ** Special functions, by their textbook integrals and series *)
Definition gamma_int (a t : RR) : RR := rpow t (a - 1) * exp (- t).
(** Euler's Gamma function. *)
Definition Gamma (a : RR) : RR := RInt_gen (V := R_CompleteNormedModule) (gamma_int a) (at_right 0) (Rbar_locally p_infty).
(** The lower and upper incomplete Gamma functions. *)
Definition Gamma_low (a x : RR) : RR := RInt_gen (V := R_CompleteNormedModule) (gamma_int a) (at_right 0) (at_point x).
Definition Gamma_up (a x : RR) : RR := RInt_gen (V := R_CompleteNormedModule) (gamma_int a) (at_point x) (Rbar_locally p_infty).
(** Rising factorials and Kummer's confluent hypergeometric series. *)
Fixpoint rising (a : RR) (n : nat) : RR := match n with O => 1 | S m => rising a m * (a + INR m) end.
Definition Kummer (a b z : RR) : RR := PSeries (fun n => rising a n / rising b n / INR (fact n)) z.
(** The exponential integral E_1. *)
Definition ExpInt (x : RR) : RR := RInt_gen (V := R_CompleteNormedModule) (fun t => exp (- t) / t) (at_point x) (Rbar_locally p_infty).

(** ** Densities *)
Definition einasto_density (amp h n r : RR) : RR := amp * exp (- rpow (r / h) (1 / n)).
Definition cutoff_density (amp r1 alpha rc r : RR) : RR := amp * rpow (r1 / r) alpha * exp (- (r / rc) ^ 2).
Definition nfw_density (amp a r : RR) : RR := amp / (4 * PI * a ^ 3) / (r / a * (1 + r / a) ^ 2).
(** The three forms in the documentation of the Einasto profile (the first two take the density at the given radius as amplitude). *)
Definition einasto_half (amp rs dn n r : RR) : RR := amp * exp (- dn * (rpow (r / rs) (1 / n) - 1)).
Definition einasto_rm2 (amp rm2 n r : RR) : RR := amp * exp (- (2 * n) * (rpow (r / rm2) (1 / n) - 1)).
