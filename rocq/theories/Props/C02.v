(** C02: second derivatives. *)
From Coq Require Import Reals List Lra.
From Verif.Model Require Import PotAPI PotAxi PotNonAxi.
From Verif.Spec Require Import PotSpec PotApiSpec Catalog.
From Verif.Proofs Require Import CatalogProofs PotLift.
From Verif.Props Require Import C01.
Import ListNotations.
Open Scope R_scope.

(** R2deriv, z2deriv and Rzderiv are the second partial derivatives (the mixed one is the
    derivative of the R force along z and of the z force along R). *)
Theorem C02_meridional : forall D p, Catalog D p -> hessian_is_correct D p.
Proof. exact catalog_hessian. Qed.
Print Assumptions C02_meridional.

(** phi2deriv, Rphideriv and phizderiv. *)
Theorem C02_azimuthal : forall D p, Catalog D p -> azimuthal_hessian_is_correct D p.
Proof. exact catalog_azimuthal. Qed.
Print Assumptions C02_azimuthal.

Theorem C02_composite : forall (D : Dom) amp ps,
  (forall p, In p ps -> isDiss p = false /\ hessian_is_correct D p) ->
  hessian_is_correct D (Comp amp ps).
Proof. exact comp_hessian. Qed.
Print Assumptions C02_composite.

Example C02_nonvacuous : hessian_is_correct off_origin mw.
Proof. exact (C02_meridional _ _ C01_nonvacuous). Qed.
