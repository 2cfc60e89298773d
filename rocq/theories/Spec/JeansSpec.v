(** The spherical Jeans equation and the projection of a velocity dispersion along the line of sight, for a tracer of density [nu] with radial
    velocity variance [s2] and anisotropy [beta] = 1 - (tangential variance in one direction) / (radial variance). *)
From Coq Require Import Reals.
From Coquelicot Require Import Coquelicot.
Open Scope R_scope.
Notation RR := RbaseSymbolsImpl.R (only parsing).

(** d(nu s2)/dr + 2 beta / r nu s2 = nu F. *)
Definition solves_jeans (nu F beta s2 : RR -> RR) : Prop :=
  forall r, 0 < r -> exists d, is_derive (fun x => nu x * s2 x) r d /\ d + 2 * beta r / r * (nu r * s2 r) = nu r * F r.
(** The integrating factor of that equation. *)
Definition jeans_weight (beta : RR -> RR) (r : RR) : RR := exp (2 * RInt (fun y => beta y / y) 1 r).
(** The boundary condition: no pressure at infinity. *)
Definition no_pressure_at_infinity (nu beta s2 : RR -> RR) : Prop :=
  filterlim (fun r => jeans_weight beta r * (nu r * s2 r)) (Rbar_locally p_infty) (locally 0).

Definition continuous_outside (f : RR -> RR) : Prop := forall r, 0 < r -> continuous f r.
(** A positive density, an attractive force, and a total pressure that converges. *)
Definition jeans_setting (nu F beta : RR -> RR) : Prop :=
  (forall r, 0 < r -> 0 < nu r) /\ (forall r, 0 < r -> F r <= 0) /\ continuous_outside nu /\ continuous_outside F /\ continuous_outside beta /\
  ex_RInt_gen (fun r => jeans_weight beta r * (nu r * F r)) (at_point 1) (Rbar_locally p_infty).

(** The variance of the velocity component along a line of sight that passes the centre at distance [R], at distance [z] along it from the
    point of closest approach: the radial direction is seen under the cosine z / r, the tangential one under the sine R / r. *)
Definition los_variance (s2 beta : RR -> RR) (R z : RR) : RR :=
  let r := sqrt (R ^ 2 + z ^ 2) in s2 r * (z / r) ^ 2 + (1 - beta r) * s2 r * (R / r) ^ 2.
(** Integral over half a line of sight; the other half is the same. *)
Definition half_los (g : RR -> RR) (l : RR) : Prop := is_RInt_gen g (at_point 0) (Rbar_locally p_infty) l.
