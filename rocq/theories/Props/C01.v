(** C01: forces are minus the gradient of the potential. *)
From Coq Require Import Reals List Lra.
From Verif.Model Require Import PotAPI PotAxi PotNonAxi.
From Verif.Spec Require Import PotSpec PotApiSpec Catalog.
From Verif.Proofs Require Import CatalogProofs PotLift.
Import ListNotations.
Open Scope R_scope.

(** For every catalogued potential, every parameter value in range, every amplitude and every
    composite built from them, the R, z and phi forces the API returns are minus the partial
    derivatives of the value it returns, at every point of the region. *)
Theorem C01_forces_are_gradient : forall D p, Catalog D p -> forces_are_gradient D p.
Proof. exact catalog_forces. Qed.
Print Assumptions C01_forces_are_gradient.

(** The same for a composite of arbitrary conservative potentials, catalogued or not: it
    inherits the property from its members. *)
Theorem C01_composite : forall (D : Dom) amp ps,
  (forall p, In p ps -> isDiss p = false /\ forces_are_gradient D p) ->
  forces_are_gradient D (Comp amp ps).
Proof. exact comp_forces. Qed.
Print Assumptions C01_composite.

(** Non-vacuity: a Milky-Way-like model (disc, halo, bulge) away from the origin. *)
Definition mw : Pot :=
  Comp 1 [Single 2 (MiyamotoNagai 3 (1/4) true); Single 5 (NFW 2); Comp 3 [Single 1 (Hernquist (1/10)); Single 2 (Plummer 1)]].
Example C01_nonvacuous : Catalog off_origin mw.
Proof.
  assert (O : slice_open off_origin) by exact open_off.
  apply cat_comp; auto. intros p [<-|[<-|[<-|[]]]].
  - eapply cat_sub; [apply cat_single, cat_MiyamotoNagai; lra | auto |].
    intros R z phi t _. right. apply Rgt_not_eq. pose proof (sqrt_pos (z ^ 2 + (1 / 4) ^ 2)). lra.
  - apply cat_single, cat_NFW; lra.
  - apply cat_comp; auto. intros p [<-|[<-|[]]].
    + apply cat_single, cat_Hernquist; lra.
    + eapply cat_sub; [apply cat_single, cat_Plummer; lra | auto |]. intros; exact I.
Qed.
Example C01_triaxial : Catalog (fun R z phi _ => R <> 0 /\
        0 < R ^ 2 * (1 - (1 - 1 / (4/5) ^ 2) * sin phi ^ 2) + (z / (9/10)) ^ 2 + 1 / 100)
   (Single 7 (LogarithmicHalo (1/100) (9/10) (Some (4/5)))).
Proof. apply cat_single, cat_LogHaloTri; lra. Qed.
