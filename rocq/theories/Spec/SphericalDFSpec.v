(** What a spherical distribution function promises. *)
From Coq Require Import Reals List ZArith.
From Coquelicot Require Import Coquelicot.
From Verif.Model Require Import PotAPI SOS EOM.
Import ListNotations.
Open Scope R_scope.
Notation RR := RbaseSymbolsImpl.R (only parsing).

(** The velocity moment of f(E, L, Lz) at radius r, where the potential is [pot] and the escape speed [vesc]: the integral over all
    velocities of f vr^n vt^m, in spherical coordinates (v, eta) around the radial direction. *)
Definition velocity_moment (f : RR -> RR -> RR -> RR) (pot vesc r : RR) (n m : nat) : RR :=
  2 * PI * RInt (fun eta =>
    RInt (fun v => v ^ 2 * v ^ n * v ^ m * f (pot + v ^ 2 / 2) (r * (v * sin eta)) (r * (v * sin eta))) 0 vesc
    * (cos eta ^ n * sin eta ^ m * sin eta)) 0 PI.

(** Position, velocity and angular momentum of a row *)
Definition row_r (w : cyl) : RR := sqrt (y_R w ^ 2 + y_z w ^ 2).
Definition row_speed2 (w : cyl) : RR := y_vR w ^ 2 + y_vT w ^ 2 + y_vz w ^ 2.
Definition row_vr (w : cyl) : RR := (y_R w * y_vR w + y_z w * y_vz w) / row_r w.
Definition norm3 (L : RR * RR * RR) : RR := sqrt (fst (fst L) ^ 2 + snd (fst L) ^ 2 + snd L ^ 2).

(** [draw u] draws from the distribution on the positive numbers with cumulative distribution [cdf], for uniform u *)
Definition inverts (draw cdf : RR -> RR) : Prop := forall u x, 0 < u < 1 -> 0 < x -> (draw u <= x <-> u <= cdf x).

(** An entry of an array is what the function returns for that entry alone *)
Definition elementwise (f : RR -> RR) (out rows : list (list RR)) : Prop := out = map (map f) rows.

(** The weight of the stars at radius r with speed between 0 and x, and those at any speed, whose velocity makes the angle eta with the
    radial direction *)
Definition speed_weight (f : RR -> RR -> RR -> RR) (pot r eta x : RR) : RR :=
  RInt (fun v => v ^ 2 * f (pot + v ^ 2 / 2) (r * (v * sin eta)) (r * (v * sin eta))) 0 x.
Definition angle_weight (f : RR -> RR -> RR -> RR) (pot vesc r eta : RR) : RR := speed_weight f pot r eta vesc * sin eta.
