(** What the searches for radii are relied on to return. *)
From Coq Require Import Reals.
From Coquelicot Require Import Coquelicot.
From Verif.Model Require Import PotAPI Derived.
Open Scope R_scope.
Notation RR := RbaseSymbolsImpl.R (only parsing).

Definition between (a b x : RR) : Prop := Rmin a b <= x <= Rmax a b.
(** f is a continuous function without nan and without exceptions between a and b *)
Definition continuous_between (f : RR -> num) (a b : RR) : Prop :=
  exists g : RR -> RR, forall x, between a b x -> f x = Val (g x) /\ continuous g x.

(** The contract of scipy.optimize.brentq with tolerance tol: it answers only when the signs at the two ends differ (or one value is zero), inside
    the bracket, within tol of a root of a continuous function; and it does answer for a continuous function with a sign change. *)
Record root_finder (tol : RR) (brentq : (RR -> num) -> RR -> RR -> option RR) : Prop := {
  rf_signs : forall f a b r, brentq f a b = Some r ->
    exists va vb, f a = Val va /\ f b = Val vb /\ va * vb <= 0 /\ between a b r;
  rf_root : forall f a b r, brentq f a b = Some r -> continuous_between f a b ->
    exists x, between a b x /\ f x = Val 0 /\ Rabs (r - x) <= tol;
  rf_answers : forall f a b va vb, continuous_between f a b -> f a = Val va -> f b = Val vb -> va * vb <= 0 ->
    exists r, brentq f a b = Some r
}.

(** A level is crossed between two abscissae *)
Definition opposite (h : RR -> RR) (level a b : RR) : Prop :=
  (h a <= level /\ level <= h b) \/ (h b <= level /\ level <= h a).

(** vc is the circular velocity of the potential in the plane, at every positive radius *)
Definition rotation_curve (p : Pot) (t : RR) (vc : RR -> RR) : Prop :=
  forall R, 0 < R -> fun_vcirc p R None t = Val (vc R) /\ continuous vc R.
Definition increasing_on_radii (h : RR -> RR) : Prop := forall x y, 0 < x -> x < y -> h x < h y.
