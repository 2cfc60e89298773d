(** C03: the density is the source of the potential. *)
From Coq Require Import Reals List Lra.
From Verif.Model Require Import PotAPI PotAxi PotNonAxi.
From Verif.Spec Require Import PotSpec PotApiSpec Catalog.
From Verif.Proofs Require Import CatalogProofs PotLift.
From Verif.Props Require Import C01.
Import ListNotations.
Open Scope R_scope.

(** dens() satisfies Poisson's equation with the Laplacian of the value the API returns. *)
Theorem C03_density : forall D p, Catalog D p -> density_is_source D p.
Proof. exact catalog_density. Qed.
Print Assumptions C03_density.

(** dens(forcepoisson=True) satisfies it too; hence the two agree (below). *)
Theorem C03_forcepoisson : forall D p, Catalog D p -> poisson_density_is_source D p.
Proof. exact catalog_poisson_density. Qed.
Print Assumptions C03_forcepoisson.

Theorem C03_densities_agree : forall D p dens densP R z phi t,
  Catalog D p -> apiDens p = Some dens -> apiDensPoisson p = Some densP ->
  D R z phi t -> 0 < R -> dens R z phi t = densP R z phi t.
Proof. exact catalog_densities_agree. Qed.
Print Assumptions C03_densities_agree.

Example C03_nonvacuous : density_is_source off_origin mw.
Proof. exact (C03_density _ _ C01_nonvacuous). Qed.
