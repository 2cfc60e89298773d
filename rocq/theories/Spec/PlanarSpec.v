(** Potentials in the plane and on a line: derivatives of what is returned, and the documented formulas. *)
From Coq Require Import Reals.
From Coquelicot Require Import Coquelicot.
From Verif.Lib Require Import RealAux.
From Verif.Model Require Import Reduce.
Open Scope R_scope.
Notation RR := RbaseSymbolsImpl.R (only parsing).

Definition Dom3 := RR -> RR -> RR -> Prop.
(** evaluateplanarPotentials, evaluateplanarRforces and evaluateplanarphitorques all return, whatever the velocity passed, and the forces are minus the gradient. *)
Definition planar_forces_are_gradient (D : Dom3) (p : Planar) : Prop :=
  exists Phi FR Fphi, plEv p = Some Phi /\ (forall v, plRf p v = Some FR) /\ (forall v, plPt p v = Some Fphi) /\
    forall R phi t, D R phi t ->
      is_derive (fun x => Phi x phi t) R (- FR R phi t) /\ is_derive (fun x => Phi R x t) phi (- Fphi R phi t).
(** R2deriv, phi2deriv and Rphideriv return, and are the derivatives of the forces; the mixed one of both. *)
Definition planar_hessian_is_correct (D : Dom3) (p : Planar) : Prop :=
  exists FR Fphi PRR Ppp PRp, (forall v, plRf p v = Some FR) /\ (forall v, plPt p v = Some Fphi) /\ plR2 p = Some PRR /\ plp2 p = Some Ppp /\ plRp p = Some PRp /\
    forall R phi t, D R phi t ->
      is_derive (fun x => - FR x phi t) R (PRR R phi t) /\ is_derive (fun x => - Fphi R x t) phi (Ppp R phi t) /\
      is_derive (fun x => - FR R x t) phi (PRp R phi t) /\ is_derive (fun x => - Fphi x phi t) R (PRp R phi t).
Definition linear_force_is_gradient (p : Linear) : Prop :=
  exists Phi F, liEv p = Some Phi /\ liF p = Some F /\ forall x t, is_derive (fun y => Phi y t) x (- F x t).
Definition linear_second_is_correct (p : Linear) : Prop :=
  exists F F2, liF p = Some F /\ liF2 p = Some F2 /\ forall x t, is_derive (fun y => - F y t) x (F2 x t).

(** The value the object returns *)
Definition planar_potential (p : Planar) (Phi : F3) : Prop := exists f, plEv p = Some f /\ forall R phi t, 0 < R -> f R phi t = Phi R phi t.

(** The documented formulas (class docstrings) *)
Definition elliptical_doc (amp phio R1 p phib : RR) : F3 := fun R phi _ => amp * phio * rpow (R / R1) p * cos (2 * (phi - phib)).
Definition cosmphi_doc (amp phio m phib R1 p Rb : RR) : F3 := fun R phi _ =>
  amp * phio * cos (m * (phi - phib)) * (if Rle_dec Rb R then rpow (R / R1) p else (2 - rpow (Rb / R) p) * rpow (Rb / R1) p).
Definition spiral_doc (amp A alpha m Omega gamma : RR) : F3 := fun R phi t => amp * A / alpha * cos (alpha * ln R - m * (phi - Omega * t - gamma)).
(** Density of the self-gravitating isothermal sheet *)
Definition sech (x : RR) : RR := 2 / (exp x + exp (- x)).
Definition isothermal_density (amp H x : RR) : RR := amp * sech (x / (2 * H)) ^ 2.
