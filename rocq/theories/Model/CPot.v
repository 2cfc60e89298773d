(** The functions that the C code evaluates for each potential: galpy/potential/potential_c_ext (X is X.c there), the function pointers set by the switch of
    galpy/orbit/orbit_c_ext/integrateFullOrbit.c:parse_leapFuncArgs_Full 69-1003, and the sums of galpy_potentials.c.
    Potentials given by elementary functions and the wrappers that only change the amplitude, the angle or the radius; the others are [None].
    double is the exact reals; x*x is written x ^ 2, pow(x,-2.) is / x ^ 2, pow(x,0.5) is sqrt x, other powers are rpow, M_1_PI is / PI.  args[i] is a pattern variable. *)
From Coq Require Import Reals List ZArith Bool.
From Verif.Lib Require Import RealAux.
From Verif.Model Require Import PotAPI CSerial.
Import ListNotations.
Open Scope R_scope.
Notation RR := RbaseSymbolsImpl.R (only parsing).

(** The members of struct potentialArg that parse_leapFuncArgs_Full sets.  [None]: NULL for the six second derivatives (init_potentialArgs, galpy_potentials.c 2-14),
    never assigned (so not to be called) for potentialEval and dens. *)
Record cfuns := mkCf { cf_ev : option F4; cf_Rf : F4; cf_zf : F4; cf_pt : F4; cf_R2 : option F4; cf_z2 : option F4; cf_Rz : option F4;
                       cf_p2 : option F4; cf_Rp : option F4; cf_pz : option F4; cf_dn : option F4 }.
Definition of_Rz (f : RR -> RR -> RR) : F4 := fun R z _ _ => f R z.
(** Cases with phitorque = ZeroForce (ZeroPotential.c 7-10) and phi2deriv, Rphideriv, zphideriv left NULL *)
Definition axi (ev Rf zf R2 z2 Rz : RR -> RR -> RR) (dn : option (RR -> RR -> RR)) : cfuns :=
  mkCf (Some (of_Rz ev)) (of_Rz Rf) (of_Rz zf) zero4 (Some (of_Rz R2)) (Some (of_Rz z2)) (Some (of_Rz Rz)) None None None (option_map of_Rz dn).

(** The three second derivatives that most spherical potentials write out in the same words in terms of their PlanarR2deriv and PlanarRforce at r:
    PowerSpherical 58-94, Isochrone 64-100, PseudoIsothermal 65-101, Burkert 66-102, Dehnen 66-102, DehnenCore 60-96, HomogeneousSphere 80-116 *)
Definition sphR2 (PlR2 PlRf : RR -> RR) (R Z : RR) : RR :=
  let r2 := R ^ 2 + Z ^ 2 in let r := sqrt r2 in
  let Phipp := PlR2 r in let Phip := - PlRf r in
  let ir2 := 1 / r2 in let ir3 := ir2 / r in
  Phipp * R * R * ir2 + Phip * Z * Z * ir3.
Definition sphz2 (PlR2 PlRf : RR -> RR) (R Z : RR) : RR :=
  let r2 := R ^ 2 + Z ^ 2 in let r := sqrt r2 in
  let Phipp := PlR2 r in let Phip := - PlRf r in
  let ir2 := 1 / r2 in let ir3 := ir2 / r in
  Phipp * Z * Z * ir2 + Phip * R * R * ir3.
Definition sphRz (PlR2 PlRf : RR -> RR) (R Z : RR) : RR :=
  let r2 := R ^ 2 + Z ^ 2 in let r := sqrt r2 in
  let Phipp := PlR2 r in let Phip := - PlRf r in
  let ir2 := 1 / r2 in let ir3 := ir2 / r in
  R * Z * (Phipp * ir2 - Phip * ir3).

(** MiyamotoNagaiPotential.c *)
Section MN.
  Variables amp a b : RR.
  Definition cMN_Eval (R z : RR) : RR := - amp * / sqrt (R ^ 2 + (a + sqrt (z ^ 2 + b ^ 2)) ^ 2).                                          (* 5-15 *)
  Definition cMN_Rforce (R z : RR) : RR := - amp * R * rpow (R ^ 2 + (a + sqrt (z ^ 2 + b ^ 2)) ^ 2) (- (3 / 2)).                          (* 16-26 *)
  Definition cMN_PlanarRforce (R : RR) : RR := - amp * R * rpow (R ^ 2 + (a + b) ^ 2) (- (3 / 2)).                                         (* 27-37 *)
  Definition cMN_zforce (R z : RR) : RR :=                                                                                                 (* 38-53 *)
    let sqrtbz := sqrt (b ^ 2 + z ^ 2) in let asqrtbz := a + sqrtbz in
    if Req_EM_T a 0 then amp * (- z * rpow (R ^ 2 + asqrtbz ^ 2) (- (3 / 2)))
    else amp * (- z * asqrtbz / sqrtbz * rpow (R ^ 2 + asqrtbz ^ 2) (- (3 / 2))).
  Definition cMN_PlanarR2deriv (R : RR) : RR :=                                                                                            (* 54-65 *)
    let denom := R ^ 2 + (a + b) ^ 2 in amp * (rpow denom (- (3 / 2)) - 3 * R * R * rpow denom (- (5 / 2))).
  Definition cMN_R2deriv (R z : RR) : RR :=                                                                                                (* 66-79 *)
    let sqrtbz := sqrt (b ^ 2 + z ^ 2) in let asqrtbz := a + sqrtbz in let denom := R ^ 2 + asqrtbz ^ 2 in
    amp * (rpow denom (- (3 / 2)) - 3 * R * R * rpow denom (- (5 / 2))).
  Definition cMN_z2deriv (R z : RR) : RR :=                                                                                                (* 80-100 *)
    let b2 := b ^ 2 in let sqrtbz := sqrt (b2 + z ^ 2) in let asqrtbz := a + sqrtbz in
    if Req_EM_T a 0 then amp * (b2 + R ^ 2 - 2 * z ^ 2) * rpow (b2 + R ^ 2 + z ^ 2) (- (5 / 2))
    else amp * (a ^ 3 * b2 + a ^ 2 * (3 * b2 - 2 * z ^ 2) * sqrtbz + (b2 + R ^ 2 - 2 * z ^ 2) * rpow (b2 + z ^ 2) (3 / 2)
                + a * (3 * b2 ^ 2 - 4 * z ^ 4 + b2 * (R ^ 2 - z ^ 2)))
         / (rpow (b2 + z ^ 2) (3 / 2) * rpow (R ^ 2 + asqrtbz ^ 2) (5 / 2)).
  Definition cMN_Rzderiv (R z : RR) : RR :=                                                                                                (* 101-117 *)
    let sqrtbz := sqrt (b ^ 2 + z ^ 2) in let asqrtbz := a + sqrtbz in
    if Req_EM_T a 0 then amp * (- 3 * R * z * rpow (R ^ 2 + asqrtbz ^ 2) (- (5 / 2)))
    else amp * (- 3 * R * z * asqrtbz / sqrtbz * rpow (R ^ 2 + asqrtbz ^ 2) (- (5 / 2))).
  Definition cMN_Dens (R z : RR) : RR :=                                                                                                   (* 118-137 *)
    let b2 := b ^ 2 in let sqrtbz := sqrt (b2 + z ^ 2) in let asqrtbz2 := (a + sqrtbz) ^ 2 in
    if Req_EM_T a 0 then 3 * amp * / PI / 4 * b2 * rpow (R ^ 2 + sqrtbz ^ 2) (- (5 / 2))
    else amp * / PI / 4 * b2 * (a * R ^ 2 + (a + 3 * sqrtbz) * asqrtbz2) * rpow (R ^ 2 + asqrtbz2) (- (5 / 2)) * / sqrtbz ^ 3.
End MN.

(** PowerSphericalPotential.c *)
Section PS.
  Variables amp alpha : RR.
  Definition cPS_Eval (R Z : RR) : RR :=                                                                                                   (* 5-17 *)
    if Req_EM_T alpha 2 then / 2 * amp * ln (R ^ 2 + Z ^ 2) else - amp * rpow (R ^ 2 + Z ^ 2) (1 - / 2 * alpha) / (alpha - 2).
  Definition cPS_Rforce (R Z : RR) : RR := - amp * R * rpow (R ^ 2 + Z ^ 2) (- / 2 * alpha).                                               (* 18-27 *)
  Definition cPS_PlanarRforce (R : RR) : RR := - amp * rpow R (- alpha + 1).                                                               (* 28-37 *)
  Definition cPS_zforce (R Z : RR) : RR := - amp * Z * rpow (R ^ 2 + Z ^ 2) (- / 2 * alpha).                                               (* 38-47 *)
  Definition cPS_PlanarR2deriv (R : RR) : RR := amp * (1 - alpha) * rpow R (- alpha).                                                      (* 48-57 *)
  Definition cPS_Dens (R Z : RR) : RR := amp * / PI / 4 * (3 - alpha) * rpow (R ^ 2 + Z ^ 2) (- / 2 * alpha).                              (* 95-104 *)
End PS.

(** HernquistPotential.c *)
Section Hernquist.
  Variables amp a : RR.
  Definition cHe_Eval (R Z : RR) : RR := let sqrtRz := sqrt (R ^ 2 + Z ^ 2) in - amp / (1 + sqrtRz / a) / 2 / a.                           (* 5-14 *)
  Definition cHe_Rforce (R Z : RR) : RR := let sqrtRz := sqrt (R ^ 2 + Z ^ 2) in - amp * R / a / sqrtRz * / (1 + sqrtRz / a) ^ 2 / 2 / a.   (* 15-25 *)
  Definition cHe_PlanarRforce (R : RR) : RR := - amp / a * / (1 + R / a) ^ 2 / 2 / a.                                                      (* 26-35 *)
  Definition cHe_zforce (R Z : RR) : RR := let sqrtRz := sqrt (R ^ 2 + Z ^ 2) in - amp * Z / a / sqrtRz * / (1 + sqrtRz / a) ^ 2 / 2 / a.   (* 36-46 *)
  Definition cHe_PlanarR2deriv (R : RR) : RR := - amp / a / a / a * / (1 + R / a) ^ 3.                                                     (* 47-56 *)
  Definition cHe_dphi (r : RR) : RR := 1 / 2 / a / a * / (1 + r / a) ^ 2.                                                                  (* 66, 80, 94 *)
  Definition cHe_d2phi (r : RR) : RR := - 1 / a / a / a * / (1 + r / a) ^ 3.                                                               (* 67, 81, 95 *)
  Definition cHe_R2deriv (R Z : RR) : RR :=                                                                                                (* 57-70 *)
    let r := sqrt (R ^ 2 + Z ^ 2) in amp * (cHe_d2phi r * R * R / r / r + cHe_dphi r * Z * Z / r / r / r).
  Definition cHe_z2deriv (R Z : RR) : RR :=                                                                                                (* 71-84 *)
    let r := sqrt (R ^ 2 + Z ^ 2) in amp * (cHe_d2phi r * Z * Z / r / r + cHe_dphi r * R * R / r / r / r).
  Definition cHe_Rzderiv (R Z : RR) : RR :=                                                                                                (* 85-98 *)
    let r := sqrt (R ^ 2 + Z ^ 2) in amp * R * Z * (cHe_d2phi r / r / r - cHe_dphi r / r / r / r).
  Definition cHe_Dens (R Z : RR) : RR := let r := sqrt (R ^ 2 + Z ^ 2) in amp * / PI / 4 / a / a / r * / (1 + r / a) ^ 3.                  (* 99-108 *)
End Hernquist.

(** NFWPotential.c *)
Section NFW.
  Variables amp a : RR.
  Definition cNFW_Eval (R Z : RR) : RR := let sqrtRz := sqrt (R ^ 2 + Z ^ 2) in - amp * ln (1 + sqrtRz / a) / sqrtRz.                      (* 5-15 *)
  Definition cNFW_Rforce (R Z : RR) : RR :=                                                                                                (* 16-27 *)
    let Rz := R ^ 2 + Z ^ 2 in let sqrtRz := sqrt Rz in amp * R * (1 / Rz / (a + sqrtRz) - ln (1 + sqrtRz / a) / sqrtRz / Rz).
  Definition cNFW_PlanarRforce (R : RR) : RR := amp / R * (1 / (a + R) - ln (1 + R / a) / R).                                              (* 28-37 *)
  Definition cNFW_zforce (R Z : RR) : RR :=                                                                                                (* 38-49 *)
    let Rz := R ^ 2 + Z ^ 2 in let sqrtRz := sqrt Rz in amp * Z * (1 / Rz / (a + sqrtRz) - ln (1 + sqrtRz / a) / sqrtRz / Rz).
  Definition cNFW_PlanarR2deriv (R : RR) : RR :=                                                                                           (* 50-61 *)
    let aR := a + R in let aR2 := aR ^ 2 in amp * ((R * (2 * a + 3 * R) - 2 * aR2 * ln (1 + R / a)) / R / R / R / aR2).
  Definition cNFW_dphi (r : RR) : RR := ln (1 + r / a) / r / r - 1 / r / (a + r).                                                          (* 71, 86, 101 *)
  Definition cNFW_d2phi (r : RR) : RR :=                                                                                                   (* 72-73, 87-88, 102-103 *)
    let ar := a + r in (r * (2 * a + 3 * r) - 2 * ar * ar * ln (1 + r / a)) / r / r / r / ar / ar.
  Definition cNFW_R2deriv (R Z : RR) : RR :=                                                                                               (* 62-76 *)
    let r := sqrt (R ^ 2 + Z ^ 2) in amp * (cNFW_d2phi r * R * R / r / r + cNFW_dphi r * Z * Z / r / r / r).
  Definition cNFW_z2deriv (R Z : RR) : RR :=                                                                                               (* 77-91 *)
    let r := sqrt (R ^ 2 + Z ^ 2) in amp * (cNFW_d2phi r * Z * Z / r / r + cNFW_dphi r * R * R / r / r / r).
  Definition cNFW_Rzderiv (R Z : RR) : RR :=                                                                                               (* 92-106 *)
    let r := sqrt (R ^ 2 + Z ^ 2) in amp * R * Z * (cNFW_d2phi r / r / r - cNFW_dphi r / r / r / r).
  Definition cNFW_Dens (R Z : RR) : RR :=                                                                                                  (* 107-118 *)
    let sqrtRz := sqrt (R ^ 2 + Z ^ 2) in amp * / PI / 4 / a / a / (1 + sqrtRz / a) / (1 + sqrtRz / a) / sqrtRz.
End NFW.

(** JaffePotential.c *)
Section Jaffe.
  Variables amp a : RR.
  Definition cJa_Eval (R Z : RR) : RR := let sqrtRz := sqrt (R ^ 2 + Z ^ 2) in - amp * ln (1 + a / sqrtRz) / a.                            (* 5-15 *)
  Definition cJa_Rforce (R Z : RR) : RR := let sqrtRz := sqrt (R ^ 2 + Z ^ 2) in - amp * R * / sqrtRz ^ 3 / (1 + a / sqrtRz).              (* 16-26 *)
  Definition cJa_PlanarRforce (R : RR) : RR := - amp * / R ^ 2 / (1 + a / R).                                                              (* 27-36 *)
  Definition cJa_zforce (R Z : RR) : RR := let sqrtRz := sqrt (R ^ 2 + Z ^ 2) in - amp * Z * / sqrtRz ^ 3 / (1 + a / sqrtRz).              (* 37-47 *)
  Definition cJa_PlanarR2deriv (R : RR) : RR := - amp * (a + 2 * R) * / R ^ 4 * / (1 + a / R) ^ 2.                                         (* 48-57 *)
  Definition cJa_dphi (r : RR) : RR := / r ^ 2 / (1 + a / r).                                                                              (* 67, 81, 95 *)
  Definition cJa_d2phi (r : RR) : RR := - (a + 2 * r) * / r ^ 4 * / (1 + a / r) ^ 2.                                                       (* 68, 82, 96 *)
  Definition cJa_R2deriv (R Z : RR) : RR :=                                                                                                (* 58-71 *)
    let r := sqrt (R ^ 2 + Z ^ 2) in amp * (cJa_d2phi r * R * R / r / r + cJa_dphi r * Z * Z / r / r / r).
  Definition cJa_z2deriv (R Z : RR) : RR :=                                                                                                (* 72-85 *)
    let r := sqrt (R ^ 2 + Z ^ 2) in amp * (cJa_d2phi r * Z * Z / r / r + cJa_dphi r * R * R / r / r / r).
  Definition cJa_Rzderiv (R Z : RR) : RR :=                                                                                                (* 86-99 *)
    let r := sqrt (R ^ 2 + Z ^ 2) in amp * R * Z * (cJa_d2phi r / r / r - cJa_dphi r / r / r / r).
  Definition cJa_Dens (R Z : RR) : RR := let r := sqrt (R ^ 2 + Z ^ 2) in amp * / PI / 4 / a * / (r * (1 + r / a)) ^ 2.                    (* 100-110 *)
End Jaffe.

(** FlattenedPowerPotential.c *)
Section FlatP.
  Variables amp alpha q2 core2 : RR.
  Definition cFP_Eval (R Z : RR) : RR :=                                                                                                   (* 5-22 *)
    if Req_EM_T alpha 0 then / 2 * amp * ln (R ^ 2 + Z ^ 2 / q2 + core2)
    else let m2 := core2 + R ^ 2 + Z ^ 2 / q2 in - amp * rpow m2 (- / 2 * alpha) / alpha.
  Definition cFP_Rforce (R Z : RR) : RR :=                                                                                                 (* 23-40 *)
    if Req_EM_T alpha 0 then - amp * R / (R ^ 2 + Z ^ 2 / q2 + core2)
    else let m2 := core2 + R ^ 2 + Z ^ 2 / q2 in - amp * rpow m2 (- / 2 * alpha - 1) * R.
  Definition cFP_PlanarRforce (R : RR) : RR :=                                                                                             (* 41-57; args[2] is core2 *)
    if Req_EM_T alpha 0 then - amp * R / (R ^ 2 + core2)
    else let m2 := core2 + R ^ 2 in - amp * rpow m2 (- / 2 * alpha - 1) * R.
  Definition cFP_zforce (R Z : RR) : RR :=                                                                                                 (* 58-75 *)
    if Req_EM_T alpha 0 then - amp * Z / q2 / (R ^ 2 + Z ^ 2 / q2 + core2)
    else let m2 := core2 + R ^ 2 + Z ^ 2 / q2 in - amp * rpow m2 (- / 2 * alpha - 1) * Z / q2.
  Definition cFP_PlanarR2deriv (R : RR) : RR :=                                                                                            (* 76-92 *)
    if Req_EM_T alpha 0 then amp * (1 - 2 * R * R / (R ^ 2 + core2)) / (R ^ 2 + core2)
    else let m2 := core2 + R ^ 2 in - amp * rpow m2 (- / 2 * alpha - 1) * ((alpha + 2) * R * R / m2 - 1).
  Definition cFP_R2deriv (R Z : RR) : RR :=                                                                                                (* 93-112 *)
    if Req_EM_T alpha 0 then let denom := 1 / (R ^ 2 + Z ^ 2 / q2 + core2) in amp * (denom - 2 * R * R * denom * denom)
    else let m2 := core2 + R ^ 2 + Z ^ 2 / q2 in - amp * rpow m2 (- / 2 * alpha - 1) * ((alpha + 2) * R * R / m2 - 1).
  Definition cFP_z2deriv (R Z : RR) : RR :=                                                                                                (* 113-133 *)
    if Req_EM_T alpha 0 then let denom := 1 / (R ^ 2 + Z ^ 2 / q2 + core2) in amp / q2 * (denom - 2 * Z * Z * denom * denom / q2)
    else let m2 := core2 + R ^ 2 + Z ^ 2 / q2 in - amp / q2 * rpow m2 (- / 2 * alpha - 1) * ((alpha + 2) * Z * Z / m2 / q2 - 1).
  Definition cFP_Rzderiv (R Z : RR) : RR :=                                                                                                (* 134-153 *)
    if Req_EM_T alpha 0 then let denom := 1 / (R ^ 2 + Z ^ 2 / q2 + core2) in - 2 * amp * R * Z / q2 * denom * denom
    else let m2 := core2 + R ^ 2 + Z ^ 2 / q2 in - amp * (alpha + 2) * R * Z / q2 * rpow m2 (- / 2 * alpha - 2).
  Definition cFP_Dens (R Z : RR) : RR :=                                                                                                   (* 154-174 *)
    if Req_EM_T alpha 0
    then amp * / PI / 4 / q2 * ((2 * q2 + 1) * core2 + R ^ 2 + (2 - 1 / q2) * Z * Z) * / (R ^ 2 + Z ^ 2 / q2 + core2) ^ 2
    else amp * / PI / 4 / q2 * ((2 * q2 + 1) * core2 + R ^ 2 * (1 - alpha * q2) + Z ^ 2 * (2 - (1 + alpha) / q2)) * rpow (R ^ 2 + Z ^ 2 / q2 + core2) (- alpha / 2 - 2).
End FlatP.

(** IsochronePotential.c *)
Section Iso.
  Variables amp b : RR.
  Definition cIso_Eval (R Z : RR) : RR := let r2 := R ^ 2 + Z ^ 2 in - amp / (b + sqrt (r2 + b ^ 2)).                                      (* 5-15 *)
  Definition cIso_Rforce (R Z : RR) : RR := let r2 := R ^ 2 + Z ^ 2 in let rb := sqrt (r2 + b ^ 2) in - amp * R / rb * / (b + rb) ^ 2.     (* 16-27 *)
  Definition cIso_PlanarRforce (R : RR) : RR := let r2 := R ^ 2 in let rb := sqrt (r2 + b ^ 2) in - amp * R / rb * / (b + rb) ^ 2.         (* 28-39 *)
  Definition cIso_zforce (R Z : RR) : RR := let r2 := R ^ 2 + Z ^ 2 in let rb := sqrt (r2 + b ^ 2) in - amp * Z / rb * / (b + rb) ^ 2.     (* 40-51 *)
  Definition cIso_PlanarR2deriv (R : RR) : RR :=                                                                                           (* 52-63 *)
    let r2 := R ^ 2 in let rb := sqrt (r2 + b ^ 2) in - amp * (- b ^ 3 - b * b * rb + 2 * r2 * rb) * / (rb * (b + rb)) ^ 3.
  Definition cIso_Dens (R Z : RR) : RR :=                                                                                                  (* 101-115 *)
    let r2 := R ^ 2 + Z ^ 2 in let rb := sqrt (r2 + b ^ 2) in let brbrb := (b + rb) * rb in
    amp * / PI / 4 * (3 * brbrb * rb - r2 * (b + 3 * rb)) * / brbrb ^ 3.
End Iso.

(** PlummerPotential.c *)
Section Plummer.
  Variables amp b : RR.
  Definition cPl_Eval (R Z : RR) : RR := - amp / sqrt (R ^ 2 + Z ^ 2 + b ^ 2).                                                             (* 5-14 *)
  Definition cPl_Rforce (R Z : RR) : RR := - amp * R * rpow (R ^ 2 + Z ^ 2 + b ^ 2) (- (3 / 2)).                                           (* 15-24 *)
  Definition cPl_PlanarRforce (R : RR) : RR := - amp * R * rpow (R ^ 2 + b ^ 2) (- (3 / 2)).                                               (* 25-34 *)
  Definition cPl_zforce (R Z : RR) : RR := - amp * Z * rpow (R ^ 2 + Z ^ 2 + b ^ 2) (- (3 / 2)).                                           (* 35-44 *)
  Definition cPl_PlanarR2deriv (R : RR) : RR := amp * (b ^ 2 - 2 * R * R) * rpow (R ^ 2 + b ^ 2) (- (5 / 2)).                              (* 45-54 *)
  Definition cPl_R2deriv (R Z : RR) : RR := amp * (b ^ 2 - 2 * R * R + Z * Z) * rpow (R ^ 2 + Z ^ 2 + b ^ 2) (- (5 / 2)).                  (* 55-64 *)
  Definition cPl_z2deriv (R Z : RR) : RR := amp * (b ^ 2 + R * R - 2 * Z * Z) * rpow (R ^ 2 + Z ^ 2 + b ^ 2) (- (5 / 2)).                  (* 65-74 *)
  Definition cPl_Rzderiv (R Z : RR) : RR := amp * (- 3 * R * Z * rpow (R ^ 2 + Z ^ 2 + b ^ 2) (- (5 / 2))).                                (* 75-84 *)
  Definition cPl_Dens (R Z : RR) : RR := 3 * amp * / PI / 4 * b ^ 2 * rpow (R ^ 2 + Z ^ 2 + b ^ 2) (- (5 / 2)).                            (* 85-94 *)
End Plummer.

(** PseudoIsothermalPotential.c *)
Section PI_.
  Variables amp a : RR.
  Definition cPI_Eval (R Z : RR) : RR :=                                                                                                   (* 5-17 *)
    let r2 := R ^ 2 + Z ^ 2 in let r := sqrt r2 in amp * (/ 2 * ln (1 + r2 / a ^ 2) + a / r * atan (r / a)) / a.
  Definition cPI_Rforce (R Z : RR) : RR :=                                                                                                 (* 18-29 *)
    let r2 := R ^ 2 + Z ^ 2 in let r := sqrt r2 in - amp * (1 / r - a / r2 * atan (r / a)) / a * R / r.
  Definition cPI_PlanarRforce (R : RR) : RR := - amp * (1 / R - a / R / R * atan (R / a)) / a.                                             (* 30-39 *)
  Definition cPI_zforce (R z : RR) : RR :=                                                                                                 (* 40-51 *)
    let r2 := R ^ 2 + z ^ 2 in let r := sqrt r2 in - amp * (1 / r - a / r2 * atan (r / a)) / a * z / r.
  Definition cPI_PlanarR2deriv (R : RR) : RR :=                                                                                            (* 52-64 *)
    let a2 := a ^ 2 in let R2 := R ^ 2 in amp / R2 * (2 * a / R * atan (R / a) - (2 * a2 + R2) / (a2 + R2)) / a.
  Definition cPI_Dens (R Z : RR) : RR := let r2 := R ^ 2 + Z ^ 2 in amp * / PI / 4 / (1 + r2 / a ^ 2) / a ^ 2 / a.                         (* 102-113 *)
End PI_.

(** KuzminDiskPotential.c; zsign of lines 45 and 97 is (z > 0) - (z < 0) *)
Definition zsign (z : RR) : RR := (if Rlt_dec 0 z then 1 else 0) - (if Rlt_dec z 0 then 1 else 0).
Section Kuzmin.
  Variables amp a : RR.
  Definition cKu_Eval (R z : RR) : RR := - amp * / sqrt (R ^ 2 + (a + Rabs z) ^ 2).                                                        (* 5-14 *)
  Definition cKu_Rforce (R z : RR) : RR := - amp * R * rpow (R ^ 2 + (a + Rabs z) ^ 2) (- (3 / 2)).                                        (* 15-24 *)
  Definition cKu_PlanarRforce (R : RR) : RR := - amp * R * rpow (R ^ 2 + a ^ 2) (- (3 / 2)).                                               (* 26-35 *)
  Definition cKu_zforce (R z : RR) : RR := - zsign z * amp * rpow (R ^ 2 + (a + Rabs z) ^ 2) (- (3 / 2)) * (a + Rabs z).                   (* 37-47 *)
  Definition cKu_PlanarR2deriv (R : RR) : RR :=                                                                                            (* 49-59 *)
    let denom := R ^ 2 + a ^ 2 in amp * (- rpow denom (- (3 / 2)) + 3 * R * R * rpow denom (- (5 / 2))).
  Definition cKu_R2deriv (R z : RR) : RR :=                                                                                                (* 61-74 *)
    let az := a + Rabs z in let denom := R ^ 2 + az ^ 2 in let denomm15 := 1 / (denom * sqrt denom) in
    amp * (denomm15 - 3 * R * R * denomm15 / denom).
  Definition cKu_z2deriv (R z : RR) : RR :=                                                                                                (* 75-88 *)
    let az := a + Rabs z in let denom := R ^ 2 + az ^ 2 in let denomm15 := 1 / (denom * sqrt denom) in
    amp * (denomm15 - 3 * az * az * denomm15 / denom).
  Definition cKu_Rzderiv (R z : RR) : RR :=                                                                                                (* 89-102 *)
    let az := a + Rabs z in let denom := R ^ 2 + az ^ 2 in let denomm25 := 1 / (denom * denom * sqrt denom) in
    amp * (- 3 * zsign z * R * az * denomm25).
End Kuzmin.

(** BurkertPotential.c *)
Section Burkert.
  Variables amp a : RR.
  Definition cBu_br (x : RR) : RR := PI - 2 * atan (1 / x) - 2 * ln (1 + x) - ln (1 + x ^ 2).                                              (* the bracket of 29, 40, 52, 64 *)
  Definition cBu_Eval (R Z : RR) : RR :=                                                                                                   (* 8-18 *)
    let x := sqrt (R ^ 2 + Z ^ 2) / a in
    - amp * a * a * PI / x * (- PI + 2 * (1 + x) * atan (1 / x) + 2 * (1 + x) * ln (1 + x) + (1 - x) * ln (1 + x ^ 2)).
  Definition cBu_Rforce (R Z : RR) : RR := let r := sqrt (R ^ 2 + Z ^ 2) in let x := r / a in amp * a * PI / x / x * cBu_br x * R / r.     (* 19-30 *)
  Definition cBu_PlanarRforce (R : RR) : RR := let x := R / a in amp * a * PI / x / x * cBu_br x.                                          (* 31-41 *)
  Definition cBu_zforce (R Z : RR) : RR := let r := sqrt (R ^ 2 + Z ^ 2) in let x := r / a in amp * a * PI / x / x * cBu_br x * Z / r.     (* 42-53 *)
  Definition cBu_PlanarR2deriv (R : RR) : RR :=                                                                                            (* 54-65 *)
    let x := R / a in let R5 := R ^ 5 in
    - amp * PI * a ^ 3 / R5 * (- 4 * R5 / (a * a + R * R) / (a + R) - 2 * R * R * cBu_br x).
  Definition cBu_Dens (R Z : RR) : RR := let x := sqrt (R ^ 2 + Z ^ 2) / a in amp / (1 + x) / (1 + x ^ 2).                                 (* 103-113 *)
End Burkert.

(** DehnenPotential.c *)
Section DehnenS.
  Variables amp a alpha : RR.
  Definition cDe_Eval (R Z : RR) : RR :=                                                                                                   (* 5-16 *)
    let sqrtRz := sqrt (R ^ 2 + Z ^ 2) in - amp * (1 - rpow (sqrtRz / (sqrtRz + a)) (2 - alpha)) / (a * (2 - alpha) * (3 - alpha)).
  Definition cDe_Rforce (R Z : RR) : RR :=                                                                                                 (* 18-28 *)
    let sqrtRz := sqrt (R ^ 2 + Z ^ 2) in - amp * (R * rpow (1 + a / sqrtRz) alpha / (a + sqrtRz) ^ 3 / (3 - alpha)).
  Definition cDe_PlanarRforce (R : RR) : RR := - amp * (R * rpow (1 + a / R) alpha / (a + R) ^ 3 / (3 - alpha)).                           (* 30-40 *)
  Definition cDe_zforce (R Z : RR) : RR :=                                                                                                 (* 42-53 *)
    let sqrtRz := sqrt (R ^ 2 + Z ^ 2) in - amp * (Z * rpow (1 + a / sqrtRz) alpha / (a + sqrtRz) ^ 3 / (3 - alpha)).
  Definition cDe_PlanarR2deriv (R : RR) : RR :=                                                                                            (* 55-65 *)
    - amp * (rpow (1 + a / R) alpha * / (a + R) ^ 4 * (2 * R + a * (alpha - 1))) / (3 - alpha).
  Definition cDe_Dens (R Z : RR) : RR :=                                                                                                   (* 103-114 *)
    let r := sqrt (R ^ 2 + Z ^ 2) in amp * / PI / 4 * rpow r (- alpha) * rpow (1 + r / a) (alpha - 4) * rpow a (alpha - 3).
End DehnenS.

(** DehnenCorePotential.c *)
Section DehnenC.
  Variables amp a : RR.
  Definition cDC_Eval (R Z : RR) : RR := let sqrtRz := sqrt (R ^ 2 + Z ^ 2) in - amp * (1 - (sqrtRz / (sqrtRz + a)) ^ 2) / (6 * a).        (* 5-14 *)
  Definition cDC_Rforce (R Z : RR) : RR := let sqrtRz := sqrt (R ^ 2 + Z ^ 2) in - amp * (R / (a + sqrtRz) ^ 3 / 3).                       (* 16-25 *)
  Definition cDC_PlanarRforce (R : RR) : RR := - amp * (R / (a + R) ^ 3 / 3).                                                              (* 27-36 *)
  Definition cDC_zforce (R Z : RR) : RR := let sqrtRz := sqrt (R ^ 2 + Z ^ 2) in - amp * (Z / (a + sqrtRz) ^ 3 / 3).                       (* 38-48 *)
  Definition cDC_PlanarR2deriv (R : RR) : RR := - amp * (/ (a + R) ^ 4 * (2 * R - a)) / 3.                                                 (* 50-59 *)
  Definition cDC_Dens (R Z : RR) : RR := let r := sqrt (R ^ 2 + Z ^ 2) in amp * / PI / 4 * / (1 + r / a) ^ 4 * / a ^ 3.                    (* 97-106 *)
End DehnenC.

(** HomogeneousSpherePotential.c *)
Section Homog.
  Variables amp R2 R3 : RR.
  Definition cHS_Eval (R Z : RR) : RR := let r2 := R ^ 2 + Z ^ 2 in if Rlt_dec r2 R2 then amp * (r2 - 3 * R2) else - 2 * amp * R3 / sqrt r2.       (* 5-19 *)
  Definition cHS_Rforce (R Z : RR) : RR := let r2 := R ^ 2 + Z ^ 2 in if Rlt_dec r2 R2 then - 2 * amp * R else - 2 * amp * R3 * R / rpow r2 (3 / 2). (* 20-34 *)
  Definition cHS_PlanarRforce (R : RR) : RR := let r2 := R ^ 2 in if Rlt_dec r2 R2 then - 2 * amp * R else - 2 * amp * R3 / r2.                    (* 35-49 *)
  Definition cHS_zforce (R Z : RR) : RR := let r2 := R ^ 2 + Z ^ 2 in if Rlt_dec r2 R2 then - 2 * amp * Z else - 2 * amp * R3 * Z / rpow r2 (3 / 2). (* 50-64 *)
  Definition cHS_PlanarR2deriv (R : RR) : RR := let r2 := R ^ 2 in if Rlt_dec r2 R2 then 2 * amp else - 4 * amp * R3 / rpow r2 (3 / 2).            (* 65-79 *)
  Definition cHS_Dens (R Z : RR) : RR := let r2 := R ^ 2 + Z ^ 2 in if Rlt_dec r2 R2 then 3 / 2 * amp * / PI else 0.                               (* 117-130 *)
End Homog.

(** LogarithmicHaloPotential.c; the branch is the test onem1overb2 < 1 *)
Section LogHalo.
  Variables amp q c onem1overb2 : RR.
  Definition tri : bool := if Rlt_dec onem1overb2 1 then true else false.
  Definition Rt2 (R phi : RR) : RR := R ^ 2 * (1 - onem1overb2 * sin phi ^ 2).
  Definition cLH_Eval : F4 := fun R Z phi t => let zq := Z / q in                                                                          (* 5-20 *)
    if tri then / 2 * amp * ln (Rt2 R phi + zq ^ 2 + c) else / 2 * amp * ln (R ^ 2 + zq ^ 2 + c).
  Definition cLH_Rforce : F4 := fun R Z phi t => let zq := Z / q in                                                                        (* 21-38 *)
    if tri then - amp * Rt2 R phi / R / (Rt2 R phi + zq ^ 2 + c) else - amp * R / (R ^ 2 + zq ^ 2 + c).
  Definition cLH_PlanarRforce (R phi : RR) : RR :=                                                                                         (* 39-54 *)
    if tri then - amp * Rt2 R phi / R / (Rt2 R phi + c) else - amp * R / (R ^ 2 + c).
  Definition cLH_zforce : F4 := fun R z phi t => let zq := z / q in                                                                        (* 55-72 *)
    if tri then - amp * zq / q / (Rt2 R phi + zq ^ 2 + c) else - amp * zq / q / (R ^ 2 + zq ^ 2 + c).
  Definition cLH_phitorque : F4 := fun R z phi t =>                                                                                        (* 73-91 *)
    if tri then let zq := z / q in amp * R ^ 2 / (Rt2 R phi + zq ^ 2 + c) * sin (2 * phi) * onem1overb2 / 2 else 0.
  Definition cLH_Planarphitorque (R phi : RR) : RR :=                                                                                      (* 92-107 *)
    if tri then amp * R ^ 2 / (Rt2 R phi + c) * sin (2 * phi) * onem1overb2 / 2 else 0.
  Definition cLH_PlanarR2deriv (R phi : RR) : RR :=                                                                                        (* 108-123 *)
    if tri then amp * (1 - 2 * Rt2 R phi / (Rt2 R phi + c)) / (Rt2 R phi + c) * Rt2 R phi / R / R else amp * (1 - 2 * R * R / (R ^ 2 + c)) / (R ^ 2 + c).
  Definition cLH_Planarphi2deriv (R phi : RR) : RR :=                                                                                      (* 124-140 *)
    if tri then - amp * onem1overb2 * (/ 2 * (R * R * sin (2 * phi)) ^ 2 * onem1overb2 / (Rt2 R phi + c) / (Rt2 R phi + c) + R * R / (Rt2 R phi + c) * cos (2 * phi)) else 0.
  Definition cLH_PlanarRphideriv (R phi : RR) : RR :=                                                                                      (* 141-156 *)
    if tri then - amp * c / (Rt2 R phi + c) / (Rt2 R phi + c) * R * sin (2 * phi) * onem1overb2 else 0.
  Definition cLH_R2deriv : F4 := fun R Z phi t => let zq := Z / q in                                                                       (* 157-177 *)
    if tri then let denom := 1 / (Rt2 R phi + zq ^ 2 + c) in amp * (denom - 2 * Rt2 R phi * denom * denom) * Rt2 R phi / (R * R)
    else let denom := 1 / (R ^ 2 + zq ^ 2 + c) in amp * (denom - 2 * R * R * denom * denom).
  Definition cLH_z2deriv : F4 := fun R Z phi t => let zq := Z / q in let q2 := q ^ 2 in                                                    (* 178-197 *)
    let Rt := if tri then Rt2 R phi else R ^ 2 in let denom := 1 / (Rt + zq ^ 2 + c) in
    amp * (denom / q2 - 2 * Z * Z * denom * denom / (q2 * q2)).
  Definition cLH_Rzderiv : F4 := fun R Z phi t => let zq := Z / q in let q2 := q ^ 2 in                                                    (* 198-219 *)
    if tri then let denom := 1 / (Rt2 R phi + zq ^ 2 + c) in - amp * 2 * Rt2 R phi / R * Z / q2 * denom * denom
    else let denom := 1 / (R ^ 2 + zq ^ 2 + c) in - amp * 2 * R * Z / q2 * denom * denom.
  Definition cLH_phi2deriv : F4 := fun R Z phi t => let zq := Z / q in let R2 := R ^ 2 in                                                  (* 220-242 *)
    if tri then let denom := 1 / (Rt2 R phi + zq ^ 2 + c) in let s2phi := sin (2 * phi) in
      - amp * onem1overb2 * (/ 2 * R2 * R2 * s2phi * s2phi * onem1overb2 * denom * denom + R2 * denom * cos (2 * phi))
    else 0.
  Definition cLH_Rphideriv : F4 := fun R Z phi t => let zq := Z / q in                                                                     (* 243-262 *)
    if tri then let denom := 1 / (Rt2 R phi + zq ^ 2 + c) in - amp * (denom - Rt2 R phi * denom * denom) * R * sin (2 * phi) * onem1overb2 else 0.
  Definition cLH_zphideriv : F4 := fun R Z phi t => let zq := Z / q in let q2 := q ^ 2 in                                                  (* 263-283 *)
    if tri then let denom := 1 / (Rt2 R phi + zq ^ 2 + c) in amp * 2 * R * R * Z * sin phi * cos phi * onem1overb2 * denom * denom / q2 else 0.
  Definition cLH_Dens : F4 := fun R Z phi t => let zq := Z / q in let q2 := q ^ 2 in                                                       (* 284-311 *)
    if tri then
      let R2 := R ^ 2 in let denom := 1 / (Rt2 R phi + zq ^ 2 + c) in let denom2 := denom * denom in
      amp * / PI / 4 * (2 * Rt2 R phi / R2 * (denom - Rt2 R phi * denom2) + denom / q2 - 2 * zq * zq * denom2 / q2
                        - onem1overb2 * (2 * R2 * sin (2 * phi) ^ 2 / 4 * onem1overb2 * denom2 + denom * cos (2 * phi)))
    else amp * / PI / 4 / q2 * ((2 * q2 + 1) * c + R ^ 2 + (2 - 1 / q2) * Z * Z) / (R ^ 2 + zq ^ 2 + c) ^ 2.
  Definition cLH : cfuns := mkCf (Some cLH_Eval) cLH_Rforce cLH_zforce cLH_phitorque (Some cLH_R2deriv) (Some cLH_z2deriv) (Some cLH_Rzderiv)
    (Some cLH_phi2deriv) (Some cLH_Rphideriv) (Some cLH_zphideriv) (Some cLH_Dens).
End LogHalo.

(** The cases of the switch, integrateFullOrbit.c 80-95 (0), 111-126 (5), 127-140 (7), 141-156 (8), 157-172 (9), 173-188 (10), 207-222 (12), 318-331 (14), 361-376 (17),
    377-390 (18), 391-405 (19), 406-419 (20), 572-585 (33), 586-599 (34), 600-613 (35) *)
Definition c_leaf (ty : Z) (args : list RR) : option cfuns :=
  match ty, args with
  | 0%Z, [amp; q; c; o] => Some (cLH amp q c o)
  | 5%Z, [amp; a; b] => Some (axi (cMN_Eval amp a b) (cMN_Rforce amp a b) (cMN_zforce amp a b) (cMN_R2deriv amp a b) (cMN_z2deriv amp a b) (cMN_Rzderiv amp a b) (Some (cMN_Dens amp a b)))
  | 7%Z, [amp; al] => let P2 := cPS_PlanarR2deriv amp al in let P1 := cPS_PlanarRforce amp al in
      Some (axi (cPS_Eval amp al) (cPS_Rforce amp al) (cPS_zforce amp al) (sphR2 P2 P1) (sphz2 P2 P1) (sphRz P2 P1) (Some (cPS_Dens amp al)))
  | 8%Z, [amp; a] => Some (axi (cHe_Eval amp a) (cHe_Rforce amp a) (cHe_zforce amp a) (cHe_R2deriv amp a) (cHe_z2deriv amp a) (cHe_Rzderiv amp a) (Some (cHe_Dens amp a)))
  | 9%Z, [amp; a] => Some (axi (cNFW_Eval amp a) (cNFW_Rforce amp a) (cNFW_zforce amp a) (cNFW_R2deriv amp a) (cNFW_z2deriv amp a) (cNFW_Rzderiv amp a) (Some (cNFW_Dens amp a)))
  | 10%Z, [amp; a] => Some (axi (cJa_Eval amp a) (cJa_Rforce amp a) (cJa_zforce amp a) (cJa_R2deriv amp a) (cJa_z2deriv amp a) (cJa_Rzderiv amp a) (Some (cJa_Dens amp a)))
  | 12%Z, [amp; al; q2; c2] => Some (axi (cFP_Eval amp al q2 c2) (cFP_Rforce amp al q2 c2) (cFP_zforce amp al q2 c2) (cFP_R2deriv amp al q2 c2) (cFP_z2deriv amp al q2 c2) (cFP_Rzderiv amp al q2 c2)
      (Some (cFP_Dens amp al q2 c2)))
  | 14%Z, [amp; b] => let P2 := cIso_PlanarR2deriv amp b in let P1 := cIso_PlanarRforce amp b in
      Some (axi (cIso_Eval amp b) (cIso_Rforce amp b) (cIso_zforce amp b) (sphR2 P2 P1) (sphz2 P2 P1) (sphRz P2 P1) (Some (cIso_Dens amp b)))
  | 17%Z, [amp; b] => Some (axi (cPl_Eval amp b) (cPl_Rforce amp b) (cPl_zforce amp b) (cPl_R2deriv amp b) (cPl_z2deriv amp b) (cPl_Rzderiv amp b) (Some (cPl_Dens amp b)))
  | 18%Z, [amp; a] => let P2 := cPI_PlanarR2deriv amp a in let P1 := cPI_PlanarRforce amp a in
      Some (axi (cPI_Eval amp a) (cPI_Rforce amp a) (cPI_zforce amp a) (sphR2 P2 P1) (sphz2 P2 P1) (sphRz P2 P1) (Some (cPI_Dens amp a)))
  | 19%Z, [amp; a] => Some (axi (cKu_Eval amp a) (cKu_Rforce amp a) (cKu_zforce amp a) (cKu_R2deriv amp a) (cKu_z2deriv amp a) (cKu_Rzderiv amp a) None)
  | 20%Z, [amp; a] => let P2 := cBu_PlanarR2deriv amp a in let P1 := cBu_PlanarRforce amp a in
      Some (axi (cBu_Eval amp a) (cBu_Rforce amp a) (cBu_zforce amp a) (sphR2 P2 P1) (sphz2 P2 P1) (sphRz P2 P1) (Some (cBu_Dens amp a)))
  | 33%Z, [amp; a] => let P2 := cDC_PlanarR2deriv amp a in let P1 := cDC_PlanarRforce amp a in
      Some (axi (cDC_Eval amp a) (cDC_Rforce amp a) (cDC_zforce amp a) (sphR2 P2 P1) (sphz2 P2 P1) (sphRz P2 P1) (Some (cDC_Dens amp a)))
  | 34%Z, [amp; a; al] => let P2 := cDe_PlanarR2deriv amp a al in let P1 := cDe_PlanarRforce amp a al in
      Some (axi (cDe_Eval amp a al) (cDe_Rforce amp a al) (cDe_zforce amp a al) (sphR2 P2 P1) (sphz2 P2 P1) (sphRz P2 P1) (Some (cDe_Dens amp a al)))
  | 35%Z, [amp; R2; R3] => let P2 := cHS_PlanarR2deriv amp R2 R3 in let P1 := cHS_PlanarRforce amp R2 R3 in
      Some (axi (cHS_Eval amp R2 R3) (cHS_Rforce amp R2 R3) (cHS_zforce amp R2 R3) (sphR2 P2 P1) (sphz2 P2 P1) (sphRz P2 P1) (Some (cHS_Dens amp R2)))
  | _, _ => None
  end.

(** The sums of galpy_potentials.c over the entries of the array: calcRforce 120-139, calczforce 140-159, calcphitorque 160-179 (no velocity-dependent entry);
    the second derivatives 241-317, where a NULL pointer is skipped; evaluatePotentials 106-117 at phi = 0 and t = 0; calcDensity 380-390.
    The last two call the pointer without looking: [None] when one was never assigned. *)
Definition calc (g : cfuns -> F4) (l : list cfuns) : F4 := fun R z phi t => fold_left (fun s f => s + g f R z phi t) l 0.
Definition calc2 (g : cfuns -> option F4) (l : list cfuns) : F4 := fun R z phi t => fold_left (fun s f => match g f with Some h => s + h R z phi t | None => s end) l 0.
Definition calcall (g : cfuns -> option F4) (l : list cfuns) : option F4 :=
  option_map (fun fs R z phi t => fold_left (fun s (f : F4) => s + f R z phi t) fs 0) (sequence (map g l)).
Definition evaluatePotentials (l : list cfuns) : option (RR -> RR -> RR) := option_map (fun (f : F4) R Z => f R Z 0 0) (calcall cf_ev l).

(** DehnenSmoothWrapperPotential.c 6-18; (bool) of a double is false for 0 only *)
Definition dehnenSmooth (t tform tsteady grow : RR) : RR :=
  let smooth := if Rlt_dec t tform then 0
                else if Rlt_dec t tsteady then
                  let deltat := t - tform in let xi := 2 * deltat / (tsteady - tform) - 1 in
                  3 / 16 * xi ^ 5 - 5 / 8 * xi ^ 3 + 15 / 16 * xi + / 2
                else 1 in
  if Req_EM_T grow 0 then 1 - smooth else smooth.
(** GaussianAmplitudeWrapperPotential.c 5-7 *)
Definition gaussSmooth (t to sigma2 : RR) : RR := exp (- / 2 * (t - to) * (t - to) / sigma2).

(** Wrappers whose eleven functions are one factor of time times the sum over the wrapped potentials: DehnenSmoothWrapperPotential.c 19-55, 105-146,
    GaussianAmplitudeWrapperPotential.c 8-44, 94-135, TimeDependentAmplitudeWrapperPotential.c 3-38, 83-124 *)
Definition w_amp (amp : RR) (s : RR -> RR) (l : list cfuns) : cfuns :=
  let m (f : F4) : F4 := fun R z phi t => amp * s t * f R z phi t in
  mkCf (option_map (fun (f : RR -> RR -> RR) R z (phi t : RR) => amp * s t * f R z) (evaluatePotentials l))
    (m (calc cf_Rf l)) (m (calc cf_zf l)) (m (calc cf_pt l)) (Some (m (calc2 cf_R2 l))) (Some (m (calc2 cf_z2 l))) (Some (m (calc2 cf_Rz l)))
    (Some (m (calc2 cf_p2 l))) (Some (m (calc2 cf_Rp l))) (Some (m (calc2 cf_pz l))) None.
(** SolidBodyRotationWrapperPotential.c 5-28, 73-114; potentialEval is not set (integrateFullOrbit.c 836-849) *)
Definition w_solid (amp omega pa : RR) (l : list cfuns) : cfuns :=
  let m (f : F4) : F4 := fun R z phi t => amp * f R z (phi - omega * t - pa) t in
  mkCf None (m (calc cf_Rf l)) (m (calc cf_zf l)) (m (calc cf_pt l)) (Some (m (calc2 cf_R2 l))) (Some (m (calc2 cf_z2 l))) (Some (m (calc2 cf_Rz l)))
    (Some (m (calc2 cf_p2 l))) (Some (m (calc2 cf_Rp l))) (Some (m (calc2 cf_pz l))) None.
(** CorotatingRotationWrapperPotential.c 5-37, 129-218; potentialEval is not set (integrateFullOrbit.c 869-882) *)
Definition w_corot (amp vpo beta pa to : RR) (l : list cfuns) : cfuns :=
  let phi_new R phi t : RR := phi - vpo * rpow R (beta - 1) * (t - to) - pa in
  let at_ (f : F4) : F4 := fun R z phi t => f R z (phi_new R phi t) t in
  let phiRderiv R t : RR := - vpo * (beta - 1) * rpow R (beta - 2) * (t - to) in
  mkCf None
    (fun R z phi t => amp * (at_ (calc cf_Rf l) R z phi t - at_ (calc cf_pt l) R z phi t * vpo * (beta - 1) * rpow R (beta - 2) * (t - to)))
    (fun R z phi t => amp * at_ (calc cf_zf l) R z phi t)
    (fun R z phi t => amp * at_ (calc cf_pt l) R z phi t)
    (Some (fun R z phi t => amp * (at_ (calc2 cf_R2 l) R z phi t + 2 * phiRderiv R t * at_ (calc2 cf_Rp l) R z phi t
        + phiRderiv R t * phiRderiv R t * at_ (calc2 cf_p2 l) R z phi t
        + at_ (calc cf_pt l) R z phi t * vpo * (beta - 1) * (beta - 2) * rpow R (beta - 3) * (t - to))))
    (Some (fun R z phi t => amp * at_ (calc2 cf_z2 l) R z phi t))
    (Some (fun R z phi t => amp * (at_ (calc2 cf_Rz l) R z phi t + phiRderiv R t * at_ (calc2 cf_pz l) R z phi t)))
    (Some (fun R z phi t => amp * at_ (calc2 cf_p2 l) R z phi t))
    (Some (fun R z phi t => amp * (at_ (calc2 cf_Rp l) R z phi t + phiRderiv R t * at_ (calc2 cf_p2 l) R z phi t)))
    (Some (fun R z phi t => amp * at_ (calc2 cf_pz l) R z phi t))
    None.
(** KuzminLikeWrapperPotential.c *)
Section KuzminLikeC.
  Variables amp a b2 : RR.
  Definition cKL_xi (R z : RR) : RR := sqrt (R ^ 2 + (a + sqrt (z ^ 2 + b2)) ^ 2).                                                         (* 5-8 *)
  Definition cKL_dxidR (R z : RR) : RR := R / sqrt (R ^ 2 + (a + sqrt (z ^ 2 + b2)) ^ 2).                                                  (* 9-12 *)
  Definition cKL_dxidz (R z : RR) : RR := let sqrtbz := sqrt (z ^ 2 + b2) in let asqrtbz := a + sqrtbz in asqrtbz * z / sqrt (R ^ 2 + asqrtbz ^ 2) / sqrtbz.  (* 13-17 *)
  Definition cKL_d2xidR2 (R z : RR) : RR := let asqrtbz := a + sqrt (z ^ 2 + b2) in asqrtbz ^ 2 / rpow (R ^ 2 + asqrtbz ^ 2) (3 / 2).      (* 18-24 *)
  Definition cKL_d2xidz2 (R z : RR) : RR := let sqrtbz := sqrt (z ^ 2 + b2) in                                                             (* 25-34 *)
    (a ^ 3 * b2 + 3 * a ^ 2 * b2 * sqrtbz + a * b2 * (3 * b2 + R ^ 2 + 3 * z ^ 2) + (b2 + R ^ 2) * sqrtbz ^ 3) / sqrtbz ^ 3 / cKL_xi R z ^ 3.
  Definition cKL_d2xidRdz (R z : RR) : RR := let sqrtbz := sqrt (z ^ 2 + b2) in let asqrtbz := a + sqrtbz in                               (* 35-41 *)
    - R * z * asqrtbz / sqrtbz / rpow (R ^ 2 + asqrtbz ^ 2) (3 / 2).
  (** 44-92, 142-195 *)
  Definition w_kuzmin (l : list cfuns) : cfuns :=
    let at_ (f : F4) : F4 := fun R z phi t => f (cKL_xi R z) 0 0 t in
    mkCf (option_map (fun (f : RR -> RR -> RR) R z (phi t : RR) => amp * f (cKL_xi R z) 0) (evaluatePotentials l))
      (fun R z phi t => amp * at_ (calc cf_Rf l) R z phi t * cKL_dxidR R z)
      (fun R z phi t => amp * at_ (calc cf_Rf l) R z phi t * cKL_dxidz R z)
      zero4
      (Some (fun R z phi t => amp * (at_ (calc2 cf_R2 l) R z phi t * cKL_dxidR R z * cKL_dxidR R z - at_ (calc cf_Rf l) R z phi t * cKL_d2xidR2 R z)))
      (Some (fun R z phi t => amp * (at_ (calc2 cf_R2 l) R z phi t * cKL_dxidz R z * cKL_dxidz R z - at_ (calc cf_Rf l) R z phi t * cKL_d2xidz2 R z)))
      (Some (fun R z phi t => amp * (at_ (calc2 cf_R2 l) R z phi t * cKL_dxidR R z * cKL_dxidz R z - at_ (calc cf_Rf l) R z phi t * cKL_d2xidRdz R z)))
      None None None None.
End KuzminLikeC.
(** CylindricallySeparablePotentialWrapper.c 3-28, 45-60 *)
Definition w_cyl (amp Rp refpot : RR) (l : list cfuns) : cfuns :=
  mkCf (option_map (fun (f : RR -> RR -> RR) R z (phi t : RR) => amp * (f R 0 + f Rp z - refpot)) (evaluatePotentials l))
    (fun R z phi t => amp * calc cf_Rf l R 0 0 0) (fun R z phi t => amp * calc cf_zf l Rp z 0 0) zero4
    (Some (fun R z phi t => amp * calc2 cf_R2 l R 0 0 0)) (Some (fun R z phi t => amp * calc2 cf_z2 l Rp z 0 0)) None None None None None.

(** An entry of the array as parse_leapFuncArgs_Full has filled it (type, arguments, time functions, wrapped entries).
    Wrappers: integrateFullOrbit.c 821-835 (-1), 836-849 (-2), 869-882 (-4), 883-897 (-5), 943-957 (-9), 958-974 (-10), 986-1002 (-12) *)
Fixpoint c_funs (c : carg) : option cfuns :=
  match c with
  | CArg ty _ _ args tfs wrapped =>
      match sequence (map c_funs wrapped) with
      | None => None
      | Some l =>
          match ty, args, tfs with
          | (-1)%Z, [amp; tform; tsteady; grow], [] => Some (w_amp amp (fun t => dehnenSmooth t tform tsteady grow) l)
          | (-2)%Z, [amp; omega; pa], [] => Some (w_solid amp omega pa l)
          | (-4)%Z, [amp; vpo; beta; pa; to], [] => Some (w_corot amp vpo beta pa to l)
          | (-5)%Z, [amp; to; sigma2], [] => Some (w_amp amp (fun t => gaussSmooth t to sigma2) l)
          | (-9)%Z, [amp], [A] => Some (w_amp amp A l)
          | (-10)%Z, [amp; a; b2], [] => Some (w_kuzmin amp a b2 l)
          | (-12)%Z, [amp; Rp; refpot], [] => Some (w_cyl amp Rp refpot l)
          | _, _, _ => match wrapped with [] => c_leaf ty args | _ => None end
          end
      end
  end.
