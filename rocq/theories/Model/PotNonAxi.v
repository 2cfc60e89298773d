(** Models of closed-form potentials that may depend on phi and t. *)
From Coq Require Import Reals.
From Verif.Lib Require Import RealAux.
From Verif.Model Require Import PotAPI PotAxi.
Open Scope R_scope.
Notation RR := RbaseSymbolsImpl.R (only parsing).

(** LogarithmicHaloPotential.py 59-237.  [b = None] is the axisymmetric case. *)
Section LogHalo.
  Variables (core2 q : RR) (b : option RR).
  Definition LH_nonaxi : bool := match b with Some _ => true | None => false end.   (* 68-69 *)
  Definition LH_1m1overb2 : RR := match b with Some b => 1 - 1 / b ^ 2 | None => 0 end. (* 70 *)
  Definition LH_Rt2 (R phi : RR) : RR := R ^ 2 * (1 - LH_1m1overb2 * sin phi ^ 2).
  Definition LH_m (R z phi : RR) : RR := LH_Rt2 R phi + (z / q) ^ 2 + core2.
  Definition LH_ma (R z : RR) : RR := R ^ 2 + (z / q) ^ 2 + core2.
  Definition LH_ev : F4 := fun R z phi t =>                                         (* 78-90 *)
    if LH_nonaxi then 1 / 2 * ln (LH_m R z phi) else 1 / 2 * ln (LH_ma R z).
  Definition LH_Rf : F4 := fun R z phi t =>                                         (* 92-97 *)
    if LH_nonaxi then - LH_Rt2 R phi / R / LH_m R z phi else - R / LH_ma R z.
  Definition LH_zf : F4 := fun R z phi t =>                                         (* 99-104 *)
    if LH_nonaxi then - z / q ^ 2 / LH_m R z phi else - z / q ^ 2 / LH_ma R z.
  Definition LH_pt : F4 := fun R z phi t =>                                         (* 106-117 *)
    if LH_nonaxi then R ^ 2 / LH_m R z phi * sin (2 * phi) * LH_1m1overb2 / 2 else 0.
  Definition LH_dens : F4 := fun R z phi t =>                                       (* 119-157 *)
    if LH_nonaxi then
      let R2 := R ^ 2 in let Rt2 := LH_Rt2 R phi in
      let denom := 1 / LH_m R z phi in let denom2 := denom ^ 2 in
      1 / 4 / PI * (2 * Rt2 / R2 * (denom - Rt2 * denom2) + denom / q ^ 2
                    - 2 * z ^ 2 * denom2 / q ^ 4
                    - LH_1m1overb2 * (2 * R2 * sin (2 * phi) ^ 2 / 4 * LH_1m1overb2 * denom2
                                      + denom * cos (2 * phi)))
    else 1 / 4 / PI / q ^ 2 * ((2 * q ^ 2 + 1) * core2 + R ^ 2 + (2 - / q ^ 2) * z ^ 2)
         / LH_ma R z ^ 2.
  Definition LH_R2 : F4 := fun R z phi t =>                                         (* 159-166 *)
    if LH_nonaxi then
      let denom := 1 / LH_m R z phi in
      (denom - 2 * LH_Rt2 R phi * denom ^ 2) * LH_Rt2 R phi / R ^ 2
    else let denom := 1 / LH_ma R z in denom - 2 * R ^ 2 * denom ^ 2.
  Definition LH_z2 : F4 := fun R z phi t =>                                         (* 168-175 *)
    let denom := 1 / (if LH_nonaxi then LH_m R z phi else LH_ma R z) in
    denom / q ^ 2 - 2 * z ^ 2 * denom ^ 2 / q ^ 4.
  Definition LH_Rz : F4 := fun R z phi t =>                                         (* 177-195 *)
    if LH_nonaxi then - 2 * LH_Rt2 R phi / R * z / q ^ 2 / LH_m R z phi ^ 2
    else - 2 * R * z / q ^ 2 / LH_ma R z ^ 2.
  Definition LH_p2 : F4 := fun R z phi t =>                                         (* 197-210 *)
    if LH_nonaxi then
      let denom := 1 / LH_m R z phi in
      - LH_1m1overb2 * (R ^ 4 * sin (2 * phi) ^ 2 / 2 * LH_1m1overb2 * denom ^ 2
                        + R ^ 2 * denom * cos (2 * phi))
    else 0.
  Definition LH_Rp : F4 := fun R z phi t =>                                         (* 212-220 *)
    if LH_nonaxi then
      let denom := 1 / LH_m R z phi in
      - (denom - LH_Rt2 R phi * denom ^ 2) * R * sin (2 * phi) * LH_1m1overb2
    else 0.
  Definition LH_pz : F4 := fun R z phi t =>                                         (* 222-237 *)
    if LH_nonaxi then
      let denom := 1 / LH_m R z phi in
      2 * R ^ 2 * z * sin phi * cos phi * LH_1m1overb2 * denom ^ 2 / q ^ 2
    else 0.
  Definition LogarithmicHalo : PotC :=
    mkPotC LH_nonaxi LH_ev LH_Rf LH_zf (Some LH_pt) (Some LH_R2) (Some LH_z2) (Some LH_Rz)
      (Some LH_p2) (Some LH_Rp) (Some LH_pz) (Some LH_dens).
End LogHalo.

(** SphericalShellPotential.py 59-100, scalar branches.  [_rdens] at r = a is infinite and
    outside the domain. *)
Section Shell.
  Variable a : RR.
  Definition SS_in (r : RR) : bool := if Rle_dec r a then true else false.
  Definition SS_rev (r t : RR) : RR := if SS_in r then - 1 / a else - 1 / r.        (* 59-71 *)
  Definition SS_rf (r t : RR) : RR := if SS_in r then 0 else - 1 / r ^ 2.           (* 73-81 *)
  Definition SS_r2 (r t : RR) : RR := if SS_in r then 0 else - 2 / r ^ 3.           (* 83-91 *)
  Definition SS_rdens (r t : RR) : RR := 0.                                         (* 93-100 *)
  Definition SphericalShell : PotC := Spherical SS_rev SS_rf SS_r2 (Some SS_rdens).
End Shell.
