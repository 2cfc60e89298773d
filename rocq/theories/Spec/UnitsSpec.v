(** What galpy's internal units are: lengths in units of ro kpc, velocities in units of vo km/s, and G = 1, so that masses are in units of (vo km/s)^2 (ro kpc) / G.
    Every quantity is a product of powers of a length, a velocity and a mass. *)
From Coq Require Import Reals List String ZArith.
From Verif Require Import Model.Conversion.
Import ListNotations.
Open Scope string_scope. Open Scope R_scope.

Record exps := mkExps { of_length : Z; of_velocity : Z; of_mass : Z }.
Section Units.
  (** Parsec and gravitational constant in SI; ro in kpc, vo in km/s *)
  Variables parsec grav ro vo : R.
  Definition unit_length : R := ro * (1000 * parsec).
  Definition unit_velocity : R := vo * 1000.
  Definition unit_mass : R := unit_velocity ^ 2 * unit_length / grav.
  (** The SI value of the internal unit of a quantity *)
  Definition internal (e : exps) : R := powerRZ unit_length (of_length e) * powerRZ unit_velocity (of_velocity e) * powerRZ unit_mass (of_mass e).
End Units.
(** Its dimension: a velocity is a length per time *)
Definition exps_dim (e : exps) : dim := mkDim (of_mass e) (of_length e + of_velocity e) (- of_velocity e).
Definition exps_add (a b : exps) : exps := mkExps (of_length a + of_length b) (of_velocity a + of_velocity b) (of_mass a + of_mass b).
Definition exps_mul (n : Z) (a : exps) : exps := mkExps (n * of_length a) (n * of_velocity a) (n * of_mass a).

(** The kinds of output galpy knows, except those that are always in given units (with an underscore) *)
Definition kinds : list (string * exps) :=
  [("time", mkExps 1 (-1) 0);                              (* R / v *)
   ("position", mkExps 1 0 0);
   ("velocity", mkExps 0 1 0);
   ("velocity2", mkExps 0 2 0);
   ("frequency", mkExps (-1) 1 0);                         (* v / R *)
   ("frequency-kmskpc", mkExps (-1) 1 0);
   ("action", mkExps 1 1 0);                               (* R v *)
   ("energy", mkExps 0 2 0);                               (* v^2, per unit mass *)
   ("angle", mkExps 0 0 0);
   ("force", mkExps (-1) 2 0);                             (* v^2 / R, per unit mass *)
   ("density", mkExps (-3) 0 1);
   ("numberdensity", mkExps (-3) 0 0);
   ("velocity2surfacedensity", mkExps (-2) 2 1);
   ("surfacedensity", mkExps (-2) 0 1);
   ("numbersurfacedensity", mkExps (-2) 0 0);
   ("surfacedensitydistance", mkExps (-1) 0 1);
   ("mass", mkExps 0 0 1);
   ("forcederivative", mkExps (-2) 2 0);
   ("phasespacedensity", mkExps (-3) (-3) 0);
   ("phasespacedensity2d", mkExps (-2) (-2) 0);
   ("phasespacedensityvelocity", mkExps (-3) (-2) 0);      (* times a velocity *)
   ("phasespacedensityvelocity2", mkExps (-3) (-1) 0);     (* times a velocity squared *)
   ("massphasespacedensity", mkExps (-3) (-3) 1);
   ("massenergydensity", mkExps 0 (-2) 1);
   ("dimensionless", mkExps 0 0 0)].
