(** potential/MultipoleExpansionPotential.py over exact reals, for static densities, at one point (arrays are evaluated point by point, 1329-1343).
    A spline is the function [nu r] of its derivative of order nu at r; k = 0 are the cosine splines and k = 1 the sine splines.
    Not modelled: units, the time-dependent path, the caches, points at infinity, from_density, from_scf and the C version. *)
From Coq Require Import Reals Arith ZArith.
From Verif.Lib Require Import RealAux Atan2.
From Verif.Model Require Import Coords PotAPI SphHarm.
Open Scope R_scope.
Notation RR := RbaseSymbolsImpl.R (only parsing).

Definition spline := nat -> RR -> RR.

(** ** 1113-1190 of _precompute_radial_integrals: value, first and second derivative that the splines of the integrals take at a grid radius g,
    from the density spline rho and the integrals of the splines of the integrands (InterpolatedUnivariateSpline.integral) *)
Section Precompute.
  Variable l : nat.
  Variable rho : spline.
  Variables int_inner int_outer : RR -> RR -> RR.
  Variables rmin rmax : RR.
  Definition pref : RR := - 4 * PI / (2 * INR l + 1).
  Definition f_inner (g : RR) : RR := g ^ (l + 2) * rho 0%nat g.
  Definition f_outer (g : RR) : RR := powerRZ g (1 - Z.of_nat l) * rho 0%nat g.
  Definition d2I_inner (g : RR) : RR := (INR l + 2) * g ^ (l + 1) * rho 0%nat g + g ^ (l + 2) * rho 1%nat g.
  Definition d2I_outer (g : RR) : RR := - (1 - INR l) * powerRZ g (- Z.of_nat l) * rho 0%nat g - powerRZ g (1 - Z.of_nat l) * rho 1%nat g.
  Definition node_inner (nu : nat) (g : RR) : RR := match nu with O => pref * int_inner rmin g | S O => pref * f_inner g | _ => pref * d2I_inner g end.
  Definition node_outer (nu : nat) (g : RR) : RR := match nu with O => pref * (int_outer rmin rmax - int_outer rmin g) | S O => pref * (- f_outer g) | _ => pref * d2I_outer g end.
End Precompute.

(** ** The radial functions *)
Section Radial.
  Variables rmin rmax : RR.
  Variable l : nat.
  Variables Ii Io : spline.
  Notation zl := (Z.of_nat l).
  (** 1345-1366 *)
  Definition P_rho0 : RR := Ii 1%nat rmin / rmin ^ (l + 2).
  Definition I_inner_ext (r : RR) : RR := P_rho0 / (INR l + 3) * r ^ (l + 3).
  Definition I_outer_ext (r : RR) : RR := Io 0%nat rmin +
    (if Nat.eqb l 2 then P_rho0 * ln (rmin / r) else P_rho0 / (2 - INR l) * (powerRZ rmin (2 - zl) - powerRZ r (2 - zl))).
  (** 1368-1389 *)
  Definition eval_R (r : RR) : RR :=
    if Rlt_dec r rmin then powerRZ r (- (zl + 1)) * I_inner_ext r + r ^ l * I_outer_ext r
    else if Rle_dec r rmax then powerRZ r (- (zl + 1)) * Ii 0%nat r + r ^ l * Io 0%nat r
    else Ii 0%nat rmax * powerRZ r (- (zl + 1)).
  (** 1391-1424 *)
  Definition eval_dR (r : RR) : RR :=
    if Rlt_dec r rmin then - (INR l + 1) * powerRZ r (- (zl + 2)) * I_inner_ext r + INR l * powerRZ r (zl - 1) * I_outer_ext r
    else if Rle_dec r rmax then - (INR l + 1) * powerRZ r (- (zl + 2)) * Ii 0%nat r + powerRZ r (- (zl + 1)) * Ii 1%nat r + INR l * powerRZ r (zl - 1) * Io 0%nat r + r ^ l * Io 1%nat r
    else - (INR l + 1) * Ii 0%nat rmax * powerRZ r (- (zl + 2)).
  (** 1426-1467 *)
  Definition eval_d2R (r : RR) : RR :=
    if Rlt_dec r rmin then (INR l + 1) * (INR l + 2) * powerRZ r (- (zl + 3)) * I_inner_ext r + INR l * (INR l - 1) * powerRZ r (zl - 2) * I_outer_ext r - (2 * INR l + 1) * P_rho0
    else if Rle_dec r rmax then (INR l + 1) * (INR l + 2) * powerRZ r (- (zl + 3)) * Ii 0%nat r - 2 * (INR l + 1) * powerRZ r (- (zl + 2)) * Ii 1%nat r + powerRZ r (- (zl + 1)) * Ii 2%nat r
      + INR l * (INR l - 1) * powerRZ r (zl - 2) * Io 0%nat r + 2 * INR l * powerRZ r (zl - 1) * Io 1%nat r + r ^ l * Io 2%nat r
    else (INR l + 1) * (INR l + 2) * Ii 0%nat rmax * powerRZ r (- (zl + 3)).
End Radial.

(** ** The expansion *)
Section Expansion.
  Variables (L M : nat) (rmin rmax : RR).
  Variables rho Ii Io : nat -> nat -> nat -> spline.               (* k, l, m *)
  Variable nax : bool.                                              (* self.isNonAxi *)
  Definition Rl (k l m : nat) (r : RR) : RR := eval_R rmin rmax l (Ii k l m) (Io k l m) r.
  Definition dRl (k l m : nat) (r : RR) : RR := eval_dR rmin rmax l (Ii k l m) (Io k l m) r.
  Definition d2Rl (k l m : nat) (r : RR) : RR := eval_d2R rmin rmax l (Ii k l m) (Io k l m) r.
  (** for l in range(L): for m in range(min(l + 1, M)); the sine term only for m > 0 *)
  Definition loop (f : nat -> nat -> nat -> RR) : RR := sum1 L (fun l => sum1 (Nat.min (l + 1) M) (fun m => f 0%nat l m + if Nat.ltb 0 m then f 1%nat l m else 0)).
  (** the azimuthal factor and its derivative *)
  Definition az (k m : nat) (phi : RR) : RR := match k with O => cos (INR m * phi) | _ => sin (INR m * phi) end.
  Definition daz (k m : nat) (phi : RR) : RR := match k with O => - INR m * sin (INR m * phi) | _ => INR m * cos (INR m * phi) end.
  (** 1632-1695 *)
  Definition mp_ev : F4 := fun R z phi t => let '(r, theta, phi) := cyl_to_spher R z phi in
    if Req_EM_T r 0 then Io 0%nat 0%nat 0%nat 0%nat rmin * lpm 0 0 (cos theta)
    else loop (fun k l m => lpm l m (cos theta) * az k m phi * Rl k l m r).
  (** 1766-1791 *)
  Definition mp_dens : F4 := fun R z phi t => let '(r, theta, phi) := cyl_to_spher R z phi in
    if Rlt_dec rmax r then 0 else
    let r := if Rlt_dec r rmin then rmin else r in
    loop (fun k l m => lpm l m (cos theta) * az k m phi * rho k l m 0%nat r).
  (** 1793-1906 *)
  Definition mp_spher (R z phi : RR) : RR * RR * RR := let '(r, theta, phi) := cyl_to_spher R z phi in
    if Req_EM_T r 0 then (0, 0, 0) else
    (- loop (fun k l m => lpm l m (cos theta) * az k m phi * dRl k l m r),
     - loop (fun k l m => dlpm l m (cos theta) * (- sin theta) * az k m phi * Rl k l m r),
     - loop (fun k l m => lpm l m (cos theta) * daz k m phi * Rl k l m r)).
  (** SphericalHarmonicPotentialMixin.py 56-86; 88-94, 96-102, 104-107 *)
  Definition mp_force (dr_dx dtheta_dx dphi_dx R z phi : RR) : RR :=
    let '(Fr, Ft, Fp) := mp_spher R z phi in dr_dx * Fr + dtheta_dx * Ft + Fp * dphi_dx.
  Definition mp_Rf : F4 := fun R z phi t => let r := sqrt (R ^ 2 + z ^ 2) in mp_force (R / r) (z / r ^ 2) 0 R z phi.
  Definition mp_zf : F4 := fun R z phi t => let r := sqrt (R ^ 2 + z ^ 2) in mp_force (z / r) (- R / r ^ 2) 0 R z phi.
  Definition mp_pt : F4 := fun R z phi t => mp_force 0 0 1 R z phi.
  (** MultipoleExpansionPotential.py 1908-2078 *)
  Definition mp_2nd (R z phi : RR) : spher2 := let '(r, theta, phi) := cyl_to_spher R z phi in
    if Req_EM_T r 0 then mkS2 0 0 0 0 0 0 0 0 else
    let costheta := if near_pole M theta then sgn (cos theta) * (1 - / 10 ^ 7) else cos theta in
    let sintheta := if near_pole M theta then sqrt (1 - costheta ^ 2) else sin theta in
    let Plm l m := lpm l m costheta in
    let dPlm l m := dlpm l m costheta * (- sintheta) in
    let d2Plm l m := d2lpm l m costheta * sintheta ^ 2 - dlpm l m costheta * costheta in
    mkS2 (loop (fun k l m => Plm l m * az k m phi * d2Rl k l m r))
         (loop (fun k l m => d2Plm l m * az k m phi * Rl k l m r))
         (loop (fun k l m => Plm l m * (- INR m * INR m * az k m phi) * Rl k l m r))
         (loop (fun k l m => dPlm l m * az k m phi * dRl k l m r))
         (loop (fun k l m => Plm l m * daz k m phi * dRl k l m r))
         (loop (fun k l m => dPlm l m * daz k m phi * Rl k l m r))
         (loop (fun k l m => Plm l m * az k m phi * dRl k l m r))
         (loop (fun k l m => dPlm l m * az k m phi * Rl k l m r)).
  (** SphericalHarmonicPotentialMixin.py 149-203 *)
  Definition mp_cyl (d : deriv) (R z phi t : RR) : RR :=
    let s := mp_2nd R z phi in
    let r2 := R * R + z * z in let r := sqrt r2 in
    if Req_EM_T r 0 then 0 else
    let r3 := r * r2 in let r4 := r2 * r2 in
    match d with
    | dR2 => Phi_rr s * R * R / r2 + Phi_r s * z * z / r3 + 2 * Phi_rt s * R * z / r3 + Phi_tt s * z * z / r4 + Phi_t s * (- 2 * R * z) / r4
    | dz2 => Phi_rr s * z * z / r2 + Phi_r s * R * R / r3 - 2 * Phi_rt s * z * R / r3 + Phi_tt s * R * R / r4 + Phi_t s * 2 * R * z / r4
    | dRz => Phi_rr s * R * z / r2 + Phi_r s * (- R * z) / r3 + Phi_rt s * (z * z - R * R) / r3 + Phi_tt s * (- z * R) / r4 + Phi_t s * (R * R - z * z) / r4
    | dphi2 => Phi_pp s
    | dRphi => Phi_rp s * R / r + Phi_tp s * z / r2
    | dphiz => Phi_rp s * z / r + Phi_tp s * (- R) / r2
    end.
  Definition mp_class : PotC := mkPotC nax mp_ev mp_Rf mp_zf (Some mp_pt) (Some (mp_cyl dR2)) (Some (mp_cyl dz2)) (Some (mp_cyl dRz))
    (Some (mp_cyl dphi2)) (Some (mp_cyl dRphi)) (Some (mp_cyl dphiz)) (Some mp_dens).
  Definition Multipole (amp : RR) : Pot := Single amp mp_class.
End Expansion.

(** 1178-1190: BPoly.from_derivatives: every spline takes the three values above at every grid radius, from the density splines rho and the
    integrals ii, io of the splines through the integrands. The indices outside the arrays and the unused sine splines with m = 0 are included. *)
Definition built (rmin rmax : RR) (grid : RR -> Prop) (rho Ii Io : nat -> nat -> nat -> spline) (ii io : nat -> nat -> nat -> RR -> RR -> RR) : Prop :=
  forall k l m nu g, (nu <= 2)%nat -> grid g ->
    Ii k l m nu g = node_inner l (rho k l m) (ii k l m) rmin nu g /\ Io k l m nu g = node_outer l (rho k l m) (io k l m) rmin rmax nu g.
