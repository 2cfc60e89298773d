(** C04: enclosed mass, force and density are consistent. *)
From Coq Require Import Reals List Lra.
From Verif.Model Require Import PotAPI PotAxi PotNonAxi Mass.
From Verif.Spec Require Import PotSpec PotApiSpec MassSpec.
From Verif.Proofs Require Import MassProofs.
Import ListNotations.
Open Scope R_scope.

(** mass(r) is r^2 times the inward radial force. *)
Theorem C04_mass_is_force : forall k D p, MassCatalog k D p ->
  mass_matches_force D (mpot p) (apiMass p).
Proof. intros k D p H. exact (proj1 (mass_catalog_api k D p H)). Qed.
Print Assumptions C04_mass_is_force.

(** Its derivative is 4 pi r^2 times the density. *)
Theorem C04_mass_derivative : forall k D p, MassCatalog k D p ->
  mass_matches_density D (mpot p) (apiMass p).
Proof. intros k D p H. exact (proj2 (mass_catalog_api k D p H)). Qed.
Print Assumptions C04_mass_derivative.

(** Without a point mass, mass(r) tends to 0 at the centre. *)
Theorem C04_mass_centre : forall D p, MassCatalog false D p -> mass_vanishes_at_centre (apiMass p).
Proof. intros D p H. exact (mass_catalog_centre false D p H eq_refl). Qed.
Print Assumptions C04_mass_centre.

(** mass(r, forceint=True), the integral of the force over the sphere, gives the same number. *)
Theorem C04_forceint : forall k (D : R -> Prop) p r t, MassCatalog k D p -> 0 < r -> D r ->
  apiMassInt (mpot p) r t = apiMass p r t.
Proof.
  intros k D p r t H Hr HD.
  exact (mass_int_eq D (mpot p) (apiMass p) r t Hr HD (proj1 (mass_catalog_api k D p H))).
Qed.
Print Assumptions C04_forceint.

Example C04_nonvacuous : MassCatalog false (fun r => r <> 2)
  (MComp 1 [MSingle 3 (NFW 2) (static (NFW_mass 2));
            MComp 2 [MSingle 1 (DehnenSpherical 1 (3/2)) (static (De_mass 1 (3/2)));
                     MSingle 5 (SphericalShell 2) (Sph_mass (SS_rf 2))]]).
Proof.
  apply mc_comp. intros p [<-|[<-|[]]].
  - eapply mc_sub; [apply mc_NFW; lra|]. intros; exact I.
  - apply mc_comp. intros p [<-|[<-|[]]].
    + eapply mc_sub; [apply mc_Dehnen; lra|]. intros; exact I.
    + apply mc_Shell; lra.
Qed.
