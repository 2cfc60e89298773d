(** Action-angle coordinates: what is meant by energy, equations of motion, equality of angles and canonical maps. *)
From Coq Require Import Reals.
From Coquelicot Require Import Coquelicot.
Open Scope R_scope.
Notation RR := RbaseSymbolsImpl.R (only parsing).

(** Angles that differ by full turns *)
Definition same_angle (a b : RR) : Prop := exists k : Z, a = b + 2 * PI * IZR k.

(** Energy of a unit mass in the potential omega^2 x^2 / 2, and its equations of motion *)
Definition oscillator_energy (omega x v : RR) : RR := v ^ 2 / 2 + omega ^ 2 * x ^ 2 / 2.
Definition oscillates (omega : RR) (x v : RR -> RR) : Prop :=
  forall t, is_derive x t (v t) /\ is_derive v t (- omega ^ 2 * x t).

(** A map (j, theta) -> (x, v) is canonical at a point: the Poisson bracket of x and v with respect to (theta, j) is 1 *)
Definition canonical_at (X V : RR -> RR -> RR) (j theta : RR) : Prop :=
  exists xj xa vj va, is_derive (fun j => X j theta) j xj /\ is_derive (fun a => X j a) theta xa /\
    is_derive (fun j => V j theta) j vj /\ is_derive (fun a => V j a) theta va /\ xa * vj - xj * va = 1.

(** Motion of a unit mass in the isochrone potential - GM / (b + sqrt(b^2 + r^2)), in cylindrical coordinates off the axis *)
Definition isochrone_pull (GM b R z : RR) : RR := let s := sqrt (b ^ 2 + R ^ 2 + z ^ 2) in GM / (s * (b + s) ^ 2).
Definition isochrone_energy (GM b R vR vT z vz : RR) : RR := (vR ^ 2 + vT ^ 2 + vz ^ 2) / 2 - GM / (b + sqrt (b ^ 2 + R ^ 2 + z ^ 2)).
Definition isochrone_motion (GM b : RR) (R vR vT z vz phi : RR -> RR) : Prop :=
  forall t, 0 < R t /\ is_derive R t (vR t) /\ is_derive z t (vz t) /\ is_derive phi t (vT t / R t) /\
    is_derive vR t (vT t ^ 2 / R t - isochrone_pull GM b (R t) (z t) * R t) /\
    is_derive vT t (- vR t * vT t / R t) /\
    is_derive vz t (- isochrone_pull GM b (R t) (z t) * z t).
(** Radial speed (times r) and angular momentum squared *)
Definition radial_product (R vR z vz : RR) : RR := R * vR + z * vz.
Definition angular_momentum2 (R vR vT z vz : RR) : RR := (R * vT) ^ 2 + (z * vT) ^ 2 + (z * vR - R * vz) ^ 2.
(** Neither circular nor radial; not in the plane z = 0 *)
Definition circular (GM b R vR vT z vz : RR) : Prop :=
  radial_product R vR z vz = 0 /\ vR ^ 2 + vT ^ 2 + vz ^ 2 = isochrone_pull GM b R z * (R ^ 2 + z ^ 2).
Definition inclined (R vR vT z vz : RR) : Prop := z <> 0 \/ vz <> 0.
(** x solves x - k sin x = m (Kepler's equation), for 0 <= k < 1 *)
Definition kepler_solver (K : RR -> RR -> RR) : Prop := forall k m, 0 <= k < 1 -> K k m - k * sin (K k m) = m.

(** Square of the radial speed at radius r on an orbit with energy E and angular momentum squared L2 *)
Definition radial_speed2 (GM b E L2 r : RR) : RR := 2 * (E + GM / (b + sqrt (b ^ 2 + r ^ 2))) - L2 / r ^ 2.
