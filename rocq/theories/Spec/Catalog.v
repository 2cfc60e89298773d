(** The closed-form potentials covered by the derivative theorems, with the parameter values
    and the region of space for which the theorems are stated, and everything that can be
    built from them with CompositePotential.  [Catalog D p] reads "p is a covered object and
    D is a region where it is smooth". *)
From Coq Require Import Reals List.
From Verif.Model Require Import PotAPI PotAxi PotNonAxi.
From Verif.Spec Require Import PotSpec PotApiSpec.
Open Scope R_scope.
Notation RR := RbaseSymbolsImpl.R (only parsing).

Definition everywhere : Dom := fun _ _ _ _ => True.
Definition off_origin : Dom := fun R z _ _ => R <> 0 \/ z <> 0.

Inductive CatalogSingle : Dom -> PotC -> Prop :=
| cat_MiyamotoNagai a b isfloat : b <> 0 ->
    CatalogSingle (fun R z _ _ => R <> 0 \/ a + sqrt (z ^ 2 + b ^ 2) <> 0) (MiyamotoNagai a b isfloat)
| cat_Plummer b : b <> 0 -> CatalogSingle everywhere (Plummer b)
| cat_Isochrone b : 0 < b -> CatalogSingle everywhere (Isochrone b)
| cat_KuzminDisk a : 0 <= a -> CatalogSingle (fun _ z _ _ => z <> 0) (KuzminDisk a)
| cat_PseudoIsothermal a : 0 < a -> CatalogSingle off_origin (PseudoIsothermal a)
| cat_HomogeneousSphere Rs : 0 < Rs ->
    CatalogSingle (fun R z _ _ => R ^ 2 + z ^ 2 <> Rs ^ 2) (HomogeneousSphere Rs)
| cat_FlattenedPower alpha q2 core2 : 0 < q2 ->
    CatalogSingle (fun R z _ _ => 0 < core2 + R ^ 2 + z ^ 2 / q2) (FlattenedPower alpha q2 core2)
| cat_PowerSpherical alpha : CatalogSingle off_origin (PowerSpherical alpha)
| cat_Kepler : CatalogSingle off_origin Kepler
| cat_DehnenSpherical a alpha : 0 < a -> alpha <> 2 -> alpha <> 3 ->
    CatalogSingle off_origin (DehnenSpherical a alpha)
| cat_DehnenCore a : 0 < a -> CatalogSingle off_origin (DehnenCore a)
| cat_Hernquist a : 0 < a -> CatalogSingle off_origin (Hernquist a)
| cat_Jaffe a : 0 < a -> CatalogSingle off_origin (Jaffe a)
| cat_NFW a : 0 < a -> CatalogSingle off_origin (NFW a)
| cat_Burkert a : 0 < a -> CatalogSingle off_origin (Burkert a)
| cat_SphericalShell a : 0 < a ->
    CatalogSingle (fun R z _ _ => (R <> 0 \/ z <> 0) /\ sqrt (R ^ 2 + z ^ 2) <> a) (SphericalShell a)
| cat_LogHaloAxi core2 q : q <> 0 ->
    CatalogSingle (fun R z _ _ => 0 < R ^ 2 + (z / q) ^ 2 + core2) (LogarithmicHalo core2 q None)
| cat_LogHaloTri core2 q b : q <> 0 -> b <> 0 ->
    CatalogSingle (fun R z phi _ => R <> 0 /\
        0 < R ^ 2 * (1 - (1 - 1 / b ^ 2) * sin phi ^ 2) + (z / q) ^ 2 + core2)
      (LogarithmicHalo core2 q (Some b)).

(** Closure: any amplitude, any smaller open region, composites of any length and depth. *)
Inductive Catalog : Dom -> Pot -> Prop :=
| cat_single D amp c : CatalogSingle D c -> Catalog D (Single amp c)
| cat_sub (D E : Dom) p : Catalog D p -> slice_open E ->
    (forall R z phi t, E R z phi t -> D R z phi t) -> Catalog E p
| cat_comp D amp ps : slice_open D -> (forall p, In p ps -> Catalog D p) ->
    Catalog D (Comp amp ps).
