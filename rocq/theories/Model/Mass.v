(** Model of the mass method: Potential.py 718-786, CompositePotential.py 285-308, for z=None
    (mass within a sphere).  A massed object is a potential together with its [_mass(R)]. *)
From Coq Require Import Reals List.
From Coquelicot Require Import Coquelicot.
From Verif.Model Require Import PotAPI PotAxi PotNonAxi.
Import ListNotations.
Open Scope R_scope.
Notation RR := RbaseSymbolsImpl.R (only parsing).

(** An instance whose class defines [_mass] (a function of (R, t)), or a composite of such. *)
Inductive MPot :=
| MSingle (amp : RR) (c : PotC) (m : RR -> RR -> RR)
| MComp (amp : RR) (ps : list MPot).

(** The underlying object. *)
Fixpoint mpot (p : MPot) : Pot :=
  match p with
  | MSingle a c _ => Single a c
  | MComp a ps => Comp a (map mpot ps)
  end.

(** Potential.mass with z=None and forceint=False: lines 760-763; the sum over members is
    CompositePotential.py 304-308 (Python's sum). *)
Fixpoint apiMass (p : MPot) (r t : RR) : RR :=
  match p with
  | MSingle a _ m => a * m r t
  | MComp a ps => a * fold_left Rplus (map (fun q => apiMass q r t) ps) 0
  end.

(** Force.rforce, Force.py 320-351: (R FR + z Fz)/r, velocity-independent forces. *)
Definition apirforce (p : Pot) (R z t : RR) : RR :=
  let r := sqrt (R ^ 2 + z ^ 2) in
  apiRf p (0, 0, 0) R z 0 t * R / r + apizf p (0, 0, 0) R z 0 t * z / r.

(** Potential.mass with forceint=True, or for a class without [_mass]: lines 766-775.
    [integrate.quad] is the Riemann integral. *)
Definition apiMassInt (p : Pot) (r t : RR) : RR :=
  - (r ^ 2) * RInt (fun th => apirforce p (r * sin th) (r * cos th) t * sin th) 0 PI / 2.

(** KeplerPotential._mass, PowerSphericalPotential.py 438-460. *)
Definition Ke_mass (r : RR) : RR := 1.

(** The classes with a closed-form [_mass]; time-independent ones ignore t. *)
Definition static (m : RR -> RR) : RR -> RR -> RR := fun r _ => m r.
