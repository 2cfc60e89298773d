(** Parameter ranges, regions and resonances for the spiral-arm and bar potentials. *)
From Coq Require Import Reals.
From Coquelicot Require Import Coquelicot.
From Verif.Model Require Import PotAPI PotSpiral PotBars.
From Verif.Spec Require Import PotSpec.
Open Scope R_scope.
Notation RR := RbaseSymbolsImpl.R (only parsing).

(** At least one arm, trailing arms with a pitch angle below 90 degrees, positive lengths
    (the radial scale may have either sign). *)
Definition spiral_ok (s : Spiral) : Prop :=
  0 < a_N s /\ 0 < a_alpha s < PI / 2 /\ 0 < a_rref s /\ a_Rs s <> 0 /\ 0 < a_H s.
Definition needle_ok (k : NBar) : Prop := 0 < n_a k /\ 0 <= n_b k /\ 0 < n_c2 k.

Definition off_axis : Dom := fun R _ _ _ => 0 < R.
Definition all_space : Dom := fun _ _ _ _ => True.
(** Off the axis and off the sphere at the bar's end. *)
Definition off_sphere (rb : RR) : Dom := fun R z _ _ => 0 < R /\ R ^ 2 + z ^ 2 <> rb ^ 2.

(** A pattern that turns rigidly with angular speed [Omega] as long as [steady] holds. *)
Definition turns_rigidly (Omega : RR) (steady : RR -> Prop) (f : Fun4) : Prop :=
  forall R z phi t dt, steady t -> steady (t + dt) ->
    f R z (phi + Omega * dt) (t + dt) = f R z phi t.

(** The rotation curve v(R) = R^beta, its angular and its epicyclic frequency. *)
Definition circular_frequency (beta R : RR) : RR := Rpower R beta / R.
Definition is_epicyclic_frequency (Omega : RR -> RR) (R kappa : RR) : Prop :=
  0 <= kappa /\ exists d, is_derive (fun x => Omega x ^ 2) R d /\ kappa ^ 2 = R * d + 4 * Omega R ^ 2.
