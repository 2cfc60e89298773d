(** Specification of the enclosed mass, in terms of what the API returns. *)
From Coq Require Import Reals List.
From Coquelicot Require Import Coquelicot.
From Verif.Model Require Import PotAPI PotAxi PotNonAxi Mass.
From Verif.Spec Require Import PotSpec PotApiSpec.
Open Scope R_scope.
Notation RR := RbaseSymbolsImpl.R (only parsing).

(** The radius of the point (R, z). *)
Definition radius (R z : RR) : RR := sqrt (R ^ 2 + z ^ 2).

(** Newton: mass(r) is r^2 times the inward radial force at every point at radius r.
    The inward radial force at (R, z) is -(R F_R + z F_z)/r. *)
Definition mass_matches_force (D : RR -> Prop) (p : Pot) (mass : RR -> RR -> RR) : Prop :=
  forall R z phi t, 0 < R ^ 2 + z ^ 2 -> D (radius R z) ->
    mass (radius R z) t =
    radius R z ^ 2 * - ((R * apiRf p v0 R z phi t + z * apizf p v0 R z phi t) / radius R z).

(** d mass / d r = 4 pi r^2 rho, with rho the density at every point at radius r. *)
Definition mass_matches_density (D : RR -> Prop) (p : Pot) (mass : RR -> RR -> RR) : Prop :=
  exists dens, apiDens p = Some dens /\
  forall R z phi t, 0 < R ^ 2 + z ^ 2 -> D (radius R z) ->
    is_derive (fun r => mass r t) (radius R z) (4 * PI * radius R z ^ 2 * dens R z phi t).

(** No mass is hidden at the centre. *)
Definition mass_vanishes_at_centre (mass : RR -> RR -> RR) : Prop :=
  forall t, filterlim (fun r => mass r t) (at_right 0) (locally 0).

(** The objects covered: [point] tells whether a point mass (Kepler) may be inside, [D] is the
    set of radii considered. *)
Definition all_radii (r : RR) : Prop := True.
Inductive MassCatalog : bool -> (RR -> Prop) -> MPot -> Prop :=
| mc_Plummer k amp b : b <> 0 -> MassCatalog k all_radii (MSingle amp (Plummer b) (static (Pl_mass b)))
| mc_Dehnen k amp a alpha : 0 < a -> alpha < 3 ->
    MassCatalog k all_radii (MSingle amp (DehnenSpherical a alpha) (static (De_mass a alpha)))
| mc_DehnenCore k amp a : 0 < a ->
    MassCatalog k all_radii (MSingle amp (DehnenCore a) (static (DC_mass a)))
| mc_Hernquist k amp a : 0 < a ->
    MassCatalog k all_radii (MSingle amp (Hernquist a) (static (He_mass a)))
| mc_Jaffe k amp a : 0 < a -> MassCatalog k all_radii (MSingle amp (Jaffe a) (static (Ja_mass a)))
| mc_NFW k amp a : 0 < a -> MassCatalog k all_radii (MSingle amp (NFW a) (static (NFW_mass a)))
| mc_Burkert k amp a : 0 < a ->
    MassCatalog k all_radii (MSingle amp (Burkert a) (Sph_mass (Bu_rf a)))
| mc_Shell k amp a : 0 < a ->
    MassCatalog k (fun r => r <> a) (MSingle amp (SphericalShell a) (Sph_mass (SS_rf a)))
| mc_Kepler amp : MassCatalog true all_radii (MSingle amp Kepler (static Ke_mass))
| mc_sub k (D E : RR -> Prop) p : MassCatalog k D p -> (forall r, E r -> D r) -> MassCatalog k E p
| mc_comp k D amp ps : (forall p, In p ps -> MassCatalog k D p) -> MassCatalog k D (MComp amp ps).
