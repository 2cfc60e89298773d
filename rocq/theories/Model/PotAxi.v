(** Models of the closed-form axisymmetric potentials of galpy/potential.
    Every definition is the Python expression over exact reals; [x ** 2.0] is [x ^ 2],
    half-integer and real exponents of positive bases are [rpow].
    Parameters ([a], [b], ...) are the attributes after the constructor has parsed them. *)
From Coq Require Import Reals.
From Verif.Lib Require Import RealAux.
From Verif.Model Require Import PotAPI.
Open Scope R_scope.
(** [RR] is Coq's type of real numbers, so that [R] can name the cylindrical radius. *)
Notation RR := RbaseSymbolsImpl.R (only parsing).

(** numpy.sign *)
Definition rsign (x : RR) : RR :=
  if Rlt_dec 0 x then 1 else if Rlt_dec x 0 then -1 else 0.

(* ------------------------------------------------------------------ *)
(** MiyamotoNagaiPotential.py 68-141.  [fl] is the outcome of [isinstance(R, float)]
    (false for arrays). *)
Section MN.
  Variables (a b : RR) (fl : bool).
  Definition MN_b2 : RR := b ^ 2.                                   (* line 57 *)
  (** 68-71 *)
  Definition MN_ev (R z : RR) : RR :=
    - 1 / sqrt (R ^ 2 + (a + sqrt (z ^ 2 + MN_b2)) ^ 2).
  (** 73-76 *)
  Definition MN_Rf (R z : RR) : RR :=
    - R / rpow (R ^ 2 + (a + sqrt (z ^ 2 + MN_b2)) ^ 2) (3 / 2).
  Definition MN_sq (z : RR) : RR := sqrt (MN_b2 + z ^ 2).            (* sqrtbz *)
  Definition MN_asq (z : RR) : RR := a + MN_sq z.                    (* asqrtbz *)
  (** the test of lines 81, 97, 120, 138 *)
  Definition MN_special (z : RR) : bool :=
    if fl then (if Req_EM_T (MN_sq z) (MN_asq z) then true else false) else false.
  (** 78-92 *)
  Definition MN_zf (R z : RR) : RR :=
    if MN_special z
    then - z / rpow (R ^ 2 + (a + sqrt (z ^ 2 + MN_b2)) ^ 2) (3 / 2)
    else - z * MN_asq z / MN_sq z / rpow (R ^ 2 + (a + sqrt (z ^ 2 + MN_b2)) ^ 2) (3 / 2).
  (** 94-107 *)
  Definition MN_dens (R z : RR) : RR :=
    if MN_special z
    then 3 / rpow (R ^ 2 + MN_sq z ^ 2) (5 / 2) / 4 / PI * MN_b2
    else (a * R ^ 2 + (a + 3 * MN_sq z) * MN_asq z ^ 2)
         / rpow (R ^ 2 + MN_asq z ^ 2) (5 / 2) / MN_sq z ^ 3 / 4 / PI * MN_b2.
  (** 109-115 *)
  Definition MN_R2 (R z : RR) : RR :=
    1 / rpow (R ^ 2 + (a + sqrt (z ^ 2 + MN_b2)) ^ 2) (3 / 2)
    - 3 * R ^ 2 / rpow (R ^ 2 + (a + sqrt (z ^ 2 + MN_b2)) ^ 2) (5 / 2).
  (** 117-133 *)
  Definition MN_z2 (R z : RR) : RR :=
    if MN_special z
    then (MN_b2 + R ^ 2 - 2 * z ^ 2) * rpow (MN_b2 + R ^ 2 + z ^ 2) (- (5 / 2))
    else (a ^ 3 * MN_b2
          + a ^ 2 * (3 * MN_b2 - 2 * z ^ 2) * sqrt (MN_b2 + z ^ 2)
          + (MN_b2 + R ^ 2 - 2 * z ^ 2) * rpow (MN_b2 + z ^ 2) (3 / 2)
          + a * (3 * MN_b2 ^ 2 - 4 * z ^ 4 + MN_b2 * (R ^ 2 - z ^ 2)))
         / (rpow (MN_b2 + z ^ 2) (3 / 2) * rpow (R ^ 2 + MN_asq z ^ 2) (5 / 2)).
  (** 135-141 *)
  Definition MN_Rz (R z : RR) : RR :=
    if MN_special z
    then - (3 * R * z / rpow (R ^ 2 + MN_asq z ^ 2) (5 / 2))
    else - (3 * R * z * MN_asq z / MN_sq z / rpow (R ^ 2 + MN_asq z ^ 2) (5 / 2)).
  Definition MiyamotoNagai : PotC :=
    mkAxi MN_ev MN_Rf MN_zf (Some MN_R2) (Some MN_z2) (Some MN_Rz) (Some MN_dens).
End MN.

(* ------------------------------------------------------------------ *)
(** PlummerPotential.py 58-156. *)
Section Plummer.
  Variable b : RR.
  Definition Pl_b2 : RR := b ^ 2.
  Definition Pl_ev (R z : RR) : RR := - 1 / sqrt (R ^ 2 + z ^ 2 + Pl_b2).       (* 58-59 *)
  Definition Pl_dPhidrr (R z : RR) : RR := - rpow (R ^ 2 + z ^ 2 + Pl_b2) (- (3 / 2)).
  Definition Pl_Rf (R z : RR) : RR := Pl_dPhidrr R z * R.                        (* 61-63 *)
  Definition Pl_zf (R z : RR) : RR := Pl_dPhidrr R z * z.                        (* 65-67 *)
  Definition Pl_dens (R z : RR) : RR :=                                          (* 73-74 *)
    3 / 4 / PI * Pl_b2 * rpow (R ^ 2 + z ^ 2 + Pl_b2) (- (5 / 2)).
  Definition Pl_R2 (R z : RR) : RR :=                                            (* 88-89 *)
    (Pl_b2 - 2 * R ^ 2 + z ^ 2) * rpow (R ^ 2 + z ^ 2 + Pl_b2) (- (5 / 2)).
  Definition Pl_z2 (R z : RR) : RR :=                                            (* 91-92 *)
    (Pl_b2 + R ^ 2 - 2 * z ^ 2) * rpow (R ^ 2 + z ^ 2 + Pl_b2) (- (5 / 2)).
  Definition Pl_Rz (R z : RR) : RR :=                                            (* 94-95 *)
    - 3 * R * z * rpow (R ^ 2 + z ^ 2 + Pl_b2) (- (5 / 2)).
  (** 76-86 *)
  Definition Pl_surfdens (R z : RR) : RR :=
    Pl_b2 * z * (3 * (R ^ 2 + Pl_b2) + 2 * z ^ 2) / (R ^ 2 + Pl_b2) ^ 2
      * rpow (R ^ 2 + Pl_b2 + z ^ 2) (- (3 / 2)) / 2 / PI.
  (** 97-106; [amp] is self._amp *)
  Definition Pl_ddensdr (amp r : RR) : RR :=
    amp * (- 15) / 4 / PI * Pl_b2 * r * rpow (r ^ 2 + Pl_b2) (- (7 / 2)).
  (** 108-116 *)
  Definition Pl_d2densdr2 (amp r : RR) : RR :=
    amp * (- 15) / 4 / PI * Pl_b2
      * (rpow (r ^ 2 + Pl_b2) (- (7 / 2)) - 7 * r ^ 2 * rpow (r ^ 2 + Pl_b2) (- (9 / 2))).
  (** 118-150 *)
  Definition Pl_ddenstwobetadr (amp beta r : RR) : RR :=
    amp * 3 / 4 / PI * Pl_b2 * rpow r (2 * beta - 1)
      * (2 * beta * rpow (r ^ 2 + Pl_b2) (- (5 / 2))
         - 5 * r ^ 2 * rpow (r ^ 2 + Pl_b2) (- (7 / 2))).
  (** 152-156, z=None *)
  Definition Pl_mass (r : RR) : RR := rpow (1 + Pl_b2 / r ^ 2) (- (3 / 2)).
  Definition Plummer : PotC :=
    mkAxi Pl_ev Pl_Rf Pl_zf (Some Pl_R2) (Some Pl_z2) (Some Pl_Rz) (Some Pl_dens).
End Plummer.

(* ------------------------------------------------------------------ *)
(** IsochronePotential.py 59-133. *)
Section Isochrone.
  Variable b : RR.
  Definition Iso_rb (R z : RR) : RR := sqrt (R ^ 2 + z ^ 2 + b ^ 2).
  Definition Iso_ev (R z : RR) : RR := - 1 / (b + Iso_rb R z).                   (* 59-62 *)
  Definition Iso_dPhidrr (R z : RR) : RR := - 1 / Iso_rb R z / (b + Iso_rb R z) ^ 2.
  Definition Iso_Rf (R z : RR) : RR := Iso_dPhidrr R z * R.                      (* 64-68 *)
  Definition Iso_zf (R z : RR) : RR := Iso_dPhidrr R z * z.                      (* 70-74 *)
  Definition Iso_R2 (R z : RR) : RR :=                                           (* 76-87 *)
    - (- b ^ 3 - b * z ^ 2 + (2 * R ^ 2 - z ^ 2 - b ^ 2) * Iso_rb R z)
      / Iso_rb R z ^ 3 / (b + Iso_rb R z) ^ 3.
  Definition Iso_z2 (R z : RR) : RR :=                                           (* 89-100 *)
    - (- b ^ 3 - b * R ^ 2 - (R ^ 2 - 2 * z ^ 2 + b ^ 2) * Iso_rb R z)
      / Iso_rb R z ^ 3 / (b + Iso_rb R z) ^ 3.
  Definition Iso_Rz (R z : RR) : RR :=                                           (* 102-105 *)
    - R * z * (b + 3 * Iso_rb R z) / Iso_rb R z ^ 3 / (b + Iso_rb R z) ^ 3.
  Definition Iso_dens (R z : RR) : RR :=                                         (* 107-116 *)
    (3 * (b + Iso_rb R z) * Iso_rb R z ^ 2 - (R ^ 2 + z ^ 2) * (b + 3 * Iso_rb R z))
      / Iso_rb R z ^ 3 / (b + Iso_rb R z) ^ 3 / 4 / PI.
  (** 118-133 *)
  Definition Iso_surfdens (R z : RR) : RR :=
    let r2 := R ^ 2 + z ^ 2 in
    b * (R * z / r2
         - b * R * z * (b ^ 2 + 2 * R ^ 2 + z ^ 2) / ((b ^ 2 + R ^ 2) * r2 * Iso_rb R z)
         + atan (z / R) - atan (b * z / R / Iso_rb R z))
      / R ^ 3 / 2 / PI.
  Definition Isochrone : PotC :=
    mkAxi Iso_ev Iso_Rf Iso_zf (Some Iso_R2) (Some Iso_z2) (Some Iso_Rz) (Some Iso_dens).
End Isochrone.

(* ------------------------------------------------------------------ *)
(** KuzminDiskPotential.py 58-93 (no [_dens]). *)
Section Kuzmin.
  Variable a : RR.
  Definition Kz_den (R z : RR) : RR := R ^ 2 + (a + Rabs z) ^ 2.                 (* 92-93 *)
  Definition Kz_ev (R z : RR) : RR := - rpow (Kz_den R z) (- (1 / 2)).           (* 58-59 *)
  Definition Kz_Rf (R z : RR) : RR := - rpow (Kz_den R z) (- (3 / 2)) * R.       (* 61-62 *)
  Definition Kz_zf (R z : RR) : RR :=                                            (* 64-65 *)
    - rsign z * rpow (Kz_den R z) (- (3 / 2)) * (a + Rabs z).
  Definition Kz_R2 (R z : RR) : RR :=                                            (* 67-68 *)
    rpow (Kz_den R z) (- (3 / 2)) - 3 * R ^ 2 * rpow (Kz_den R z) (- (5 / 2)).
  Definition Kz_z2 (R z : RR) : RR :=                                            (* 70-75 *)
    rpow (Kz_den R z) (- (3 / 2)) - 3 * (a + Rabs z) ^ 2 * rpow (Kz_den R z) (- (5 / 2)).
  Definition Kz_Rz (R z : RR) : RR :=                                            (* 77-84 *)
    - 3 * rsign z * R * (a + Rabs z) * rpow (Kz_den R z) (- (5 / 2)).
  Definition Kz_surfdens (R : RR) : RR := a * rpow (R ^ 2 + a ^ 2) (- (3 / 2)) / 2 / PI. (* 86-87 *)
  Definition Kz_mass (R : RR) : RR := 1 - a / sqrt (R ^ 2 + a ^ 2).              (* 89-90 *)
  Definition KuzminDisk : PotC :=
    mkAxi Kz_ev Kz_Rf Kz_zf (Some Kz_R2) (Some Kz_z2) (Some Kz_Rz) None.
End Kuzmin.

(* ------------------------------------------------------------------ *)
(** PseudoIsothermalPotential.py 56-116. *)
Section PseudoIso.
  Variable a : RR.
  Definition PI_r (R z : RR) : RR := sqrt (R ^ 2 + z ^ 2).
  Definition PI_ev (R z : RR) : RR :=                                            (* 56-69 *)
    if Req_EM_T (PI_r R z) 0 then 1 / a
    else (/ 2 * ln (1 + (R ^ 2 + z ^ 2) / a ^ 2)
          + a / PI_r R z * atan (PI_r R z / a)) / a.
  Definition PI_Rf (R z : RR) : RR :=                                            (* 71-74 *)
    - (1 / PI_r R z - a / (R ^ 2 + z ^ 2) * atan (PI_r R z / a)) / a * R / PI_r R z.
  Definition PI_zf (R z : RR) : RR :=                                            (* 76-79 *)
    - (1 / PI_r R z - a / (R ^ 2 + z ^ 2) * atan (PI_r R z / a)) / a * z / PI_r R z.
  Definition PI_dens (R z : RR) : RR :=                                          (* 81-82 *)
    1 / (1 + (R ^ 2 + z ^ 2) / a ^ 2) / 4 / PI / a ^ 3.
  Definition PI_R2 (R z : RR) : RR :=                                            (* 84-92 *)
    let r2 := R ^ 2 + z ^ 2 in
    (1 / r2 * (1 - R ^ 2 / r2 * (3 * a ^ 2 + 2 * r2) / (a ^ 2 + r2))
     + a / r2 / PI_r R z * (3 * R ^ 2 / r2 - 1) * atan (PI_r R z / a)) / a.
  Definition PI_z2 (R z : RR) : RR :=                                            (* 94-102 *)
    let r2 := R ^ 2 + z ^ 2 in
    (1 / r2 * (1 - z ^ 2 / r2 * (3 * a ^ 2 + 2 * r2) / (a ^ 2 + r2))
     + a / r2 / PI_r R z * (3 * z ^ 2 / r2 - 1) * atan (PI_r R z / a)) / a.
  Definition PI_Rz (R z : RR) : RR :=                                            (* 104-116 *)
    let r2 := R ^ 2 + z ^ 2 in
    (3 * a / r2 / r2 * atan (PI_r R z / a)
     - 1 / r2 / PI_r R z * ((3 * a ^ 2 + 2 * r2) / (r2 + a ^ 2))) * R * z / PI_r R z / a.
  Definition PseudoIsothermal : PotC :=
    mkAxi PI_ev PI_Rf PI_zf (Some PI_R2) (Some PI_z2) (Some PI_Rz) (Some PI_dens).
End PseudoIso.

(* ------------------------------------------------------------------ *)
(** HomogeneousSpherePotential.py 58-161, scalar branches (the array branches use
    numpy.where with the same formulas).  [Rs] is self.R. *)
Section Homog.
  Variable Rs : RR.
  Definition HS_in (R z : RR) : bool := if Rlt_dec (R ^ 2 + z ^ 2) (Rs ^ 2) then true else false.
  Definition HS_ev (R z : RR) : RR :=                                            (* 58-71 *)
    if HS_in R z then R ^ 2 + z ^ 2 - 3 * Rs ^ 2
    else - 2 * Rs ^ 3 / sqrt (R ^ 2 + z ^ 2).
  Definition HS_Rf (R z : RR) : RR :=                                            (* 73-84 *)
    if HS_in R z then - 2 * R else - 2 * Rs ^ 3 * R / rpow (R ^ 2 + z ^ 2) (3 / 2).
  Definition HS_zf (R z : RR) : RR :=                                            (* 86-97 *)
    if HS_in R z then - 2 * z else - 2 * Rs ^ 3 * z / rpow (R ^ 2 + z ^ 2) (3 / 2).
  Definition HS_R2 (R z : RR) : RR :=                                            (* 99-114 *)
    if HS_in R z then 2
    else 2 * Rs ^ 3 / rpow (R ^ 2 + z ^ 2) (3 / 2)
         - 6 * Rs ^ 3 * R ^ 2 / rpow (R ^ 2 + z ^ 2) (5 / 2).
  Definition HS_z2 (R z : RR) : RR :=                                            (* 116-131 *)
    if HS_in R z then 2
    else 2 * Rs ^ 3 / rpow (R ^ 2 + z ^ 2) (3 / 2)
         - 6 * Rs ^ 3 * z ^ 2 / rpow (R ^ 2 + z ^ 2) (5 / 2).
  Definition HS_Rz (R z : RR) : RR :=                                            (* 133-146 *)
    if HS_in R z then 0 else - 6 * Rs ^ 3 * R * z / rpow (R ^ 2 + z ^ 2) (5 / 2).
  Definition HS_dens (R z : RR) : RR := if HS_in R z then 3 / 2 / PI else 0.     (* 148-161 *)
  Definition HomogeneousSphere : PotC :=
    mkAxi HS_ev HS_Rf HS_zf (Some HS_R2) (Some HS_z2) (Some HS_Rz) (Some HS_dens).
End Homog.

(* ------------------------------------------------------------------ *)
(** FlattenedPowerPotential.py 84-165. [q2], [core2] are attributes (lines 71-72). *)
Section FlatPow.
  Variables alpha q2 core2 : RR.
  Definition FP_m2 (R z : RR) : RR := core2 + R ^ 2 + z ^ 2 / q2.
  Definition FP_is0 : bool := if Req_EM_T alpha 0 then true else false.
  Definition FP_d (R z : RR) : RR := R ^ 2 + z ^ 2 / q2 + core2.
  Definition FP_ev (R z : RR) : RR :=                                            (* 84-89 *)
    if FP_is0 then 1 / 2 * ln (FP_d R z)
    else - rpow (FP_m2 R z) (- alpha / 2) / alpha.
  Definition FP_Rf (R z : RR) : RR :=                                            (* 91-96 *)
    if FP_is0 then - R / FP_d R z else - rpow (FP_m2 R z) (- alpha / 2 - 1) * R.
  Definition FP_zf (R z : RR) : RR :=                                            (* 98-103 *)
    if FP_is0 then - z / q2 / FP_d R z
    else - rpow (FP_m2 R z) (- alpha / 2 - 1) * z / q2.
  Definition FP_R2 (R z : RR) : RR :=                                            (* 105-113 *)
    if FP_is0 then 1 / FP_d R z - 2 * R ^ 2 * (1 / FP_d R z) ^ 2
    else - rpow (FP_m2 R z) (- alpha / 2 - 1) * ((alpha + 2) * R ^ 2 / FP_m2 R z - 1).
  Definition FP_z2 (R z : RR) : RR :=                                            (* 115-126 *)
    if FP_is0 then 1 / FP_d R z / q2 - 2 * z ^ 2 * (1 / FP_d R z) ^ 2 / q2 ^ 2
    else - 1 / q2 * rpow (FP_m2 R z) (- alpha / 2 - 1)
         * ((alpha + 2) * z ^ 2 / FP_m2 R z / q2 - 1).
  Definition FP_Rz (R z : RR) : RR :=                                            (* 128-136 *)
    if FP_is0 then - 2 * R * z / q2 * (1 / FP_d R z) ^ 2
    else - (alpha + 2) * R * z / q2 * rpow (FP_m2 R z) (- alpha / 2 - 2).
  Definition FP_dens (R z : RR) : RR :=                                          (* 138-165 *)
    if FP_is0
    then 1 / 4 / PI / q2 * ((2 * q2 + 1) * core2 + R ^ 2 + (2 - 1 / q2) * z ^ 2)
         / FP_d R z ^ 2
    else 1 / q2 * (core2 * (1 + 2 * q2) + R ^ 2 * (1 - alpha * q2)
                   + z ^ 2 * (2 - (1 + alpha) / q2))
         * rpow (FP_m2 R z) (- alpha / 2 - 2) / 4 / PI.
  Definition FlattenedPower : PotC :=
    mkAxi FP_ev FP_Rf FP_zf (Some FP_R2) (Some FP_z2) (Some FP_Rz) (Some FP_dens).
End FlatPow.

(* ------------------------------------------------------------------ *)
(** PowerSphericalPotential.py 63-276, KeplerPotential 400-460 (alpha=3).
    The branch r2 = 0 with alpha > 2 returns -inf and is outside the model's domain. *)
Section PowSph.
  Variable alpha : RR.
  Definition PS_ev (R z : RR) : RR :=                                            (* 63-96 *)
    if Req_EM_T alpha 2 then ln (R ^ 2 + z ^ 2) / 2
    else - rpow (R ^ 2 + z ^ 2) (1 - alpha / 2) / (alpha - 2).
  Definition PS_Rf (R z : RR) : RR := - R / rpow (R ^ 2 + z ^ 2) (alpha / 2).    (* 98-122 *)
  Definition PS_zf (R z : RR) : RR := - z / rpow (R ^ 2 + z ^ 2) (alpha / 2).    (* 124-148 *)
  Definition PS_R2 (R z : RR) : RR :=                                            (* 171-197 *)
    1 / rpow (R ^ 2 + z ^ 2) (alpha / 2)
    - alpha * R ^ 2 / rpow (R ^ 2 + z ^ 2) (alpha / 2 + 1).
  Definition PS_z2 (R z : RR) : RR := PS_R2 z R.                                 (* 199-223 *)
  Definition PS_Rz (R z : RR) : RR :=                                            (* 225-249 *)
    - alpha * R * z * rpow (R ^ 2 + z ^ 2) (- 1 - alpha / 2).
  Definition PS_dens (R z : RR) : RR :=                                          (* 251-276 *)
    (3 - alpha) / 4 / PI / rpow (sqrt (R ^ 2 + z ^ 2)) alpha.
  (** 278-305 *)
  Definition PS_ddensdr (amp r : RR) : RR :=
    - amp * alpha * (3 - alpha) / 4 / PI / rpow r (alpha + 1).
  (** 307-335 *)
  Definition PS_d2densdr2 (amp r : RR) : RR :=
    amp * (alpha + 1) * alpha * (3 - alpha) / 4 / PI / rpow r (alpha + 2).
  (** 337-364 *)
  Definition PS_ddenstwobetadr (amp beta r : RR) : RR :=
    - amp * (alpha - 2 * beta) * (3 - alpha) / 4 / PI / rpow r (alpha + 1 - 2 * beta).
  (** constructor, lines 52-53 *)
  Definition PS_amp (amp r1 : RR) : RR :=
    if Req_EM_T alpha 3 then amp else amp * (rpow r1 (alpha - 3) * 4 * PI / (3 - alpha)).
  Definition PowerSpherical : PotC :=
    mkAxi PS_ev PS_Rf PS_zf (Some PS_R2) (Some PS_z2) (Some PS_Rz) (Some PS_dens).
End PowSph.
Definition Kepler : PotC := PowerSpherical 3.

(* ------------------------------------------------------------------ *)
(** DehnenSphericalPotential, TwoPowerSphericalPotential.py 356-433, without special self
    (alpha not 0, 1, 2). *)
Section Dehnen.
  Variables a alpha : RR.
  Definition De_r (R z : RR) : RR := sqrt (R ^ 2 + z ^ 2).
  Definition De_ev (R z : RR) : RR :=                                            (* 356-363 *)
    - (1 - 1 / rpow (1 + a / De_r R z) (2 - alpha)) / (a * (2 - alpha) * (3 - alpha)).
  Definition De_Rf (R z : RR) : RR :=                                            (* 365-375 *)
    - R / rpow (De_r R z) alpha * rpow (a + De_r R z) (alpha - 3) / (3 - alpha).
  Definition De_R2 (R z : RR) : RR :=                                            (* 377-388 *)
    rpow (De_r R z) (- 2 - alpha) * rpow (De_r R z + a) (alpha - 4)
    * (- a * De_r R z ^ 2 + (2 * R ^ 2 - z ^ 2) * De_r R z + a * alpha * R ^ 2)
    / (alpha - 3).
  Definition De_zf (R z : RR) : RR :=                                            (* 390-400 *)
    - z / rpow (De_r R z) alpha * rpow (a + De_r R z) (alpha - 3) / (3 - alpha).
  Definition De_z2 (R z : RR) : RR := De_R2 z R.                                 (* 402-403 *)
  Definition De_Rz (R z : RR) : RR :=                                            (* 405-416 *)
    R * z * rpow (De_r R z) (- 2 - alpha) * rpow (a + De_r R z) (alpha - 4)
    * (3 * De_r R z + a * alpha) / (alpha - 3).
  Definition De_dens (R z : RR) : RR :=                                          (* 418-426 *)
    rpow (a / De_r R z) alpha / rpow (1 + De_r R z / a) (4 - alpha) / 4 / PI / a ^ 3.
  Definition De_mass (r : RR) : RR := 1 / rpow (1 + a / r) (3 - alpha) / (3 - alpha). (* 428-433 *)
  Definition DehnenSpherical : PotC :=
    mkAxi De_ev De_Rf De_zf (Some De_R2) (Some De_z2) (Some De_Rz) (Some De_dens).
End Dehnen.

(** DehnenCoreSphericalPotential, TwoPowerSphericalPotential.py 475-514. *)
Section DehnenCore.
  Variable a : RR.
  Definition DC_r (R z : RR) : RR := sqrt (R ^ 2 + z ^ 2).
  Definition DC_ev (R z : RR) : RR := - (1 - 1 / (1 + a / DC_r R z) ^ 2) / (6 * a). (* 475-477 *)
  Definition DC_Rf (R z : RR) : RR := - R / (DC_r R z + a) ^ 3 / 3.              (* 479-480 *)
  Definition DC_R2 (R z : RR) : RR :=                                            (* 486-491 *)
    - ((2 * R ^ 2 - z ^ 2 - a * DC_r R z) / (3 * DC_r R z * (DC_r R z + a) ^ 4)).
  Definition DC_zf (R z : RR) : RR := - z / (a + DC_r R z) ^ 3 / 3.              (* 493-495 *)
  Definition DC_z2 (R z : RR) : RR := DC_R2 z R.                                 (* 497-498 *)
  Definition DC_Rz (R z : RR) : RR := - (R * z / DC_r R z / (a + DC_r R z) ^ 4). (* 500-503 *)
  Definition DC_dens (R z : RR) : RR := 1 / (1 + DC_r R z / a) ^ 4 / 4 / PI / a ^ 3. (* 505-507 *)
  Definition DC_mass (r : RR) : RR := 1 / (1 + a / r) ^ 3 / 3.                   (* 509-514 *)
  Definition DehnenCore : PotC :=
    mkAxi DC_ev DC_Rf DC_zf (Some DC_R2) (Some DC_z2) (Some DC_Rz) (Some DC_dens).
End DehnenCore.

(** HernquistPotential, TwoPowerSphericalPotential.py 559-635; [_dens] and [_z2deriv] are
    inherited from DehnenSpherical with alpha=1 (lines 402-403, 418-426). *)
Section Hernquist.
  Variable a : RR.
  Definition He_r (R z : RR) : RR := sqrt (R ^ 2 + z ^ 2).
  Definition He_ev (R z : RR) : RR := - 1 / (1 + He_r R z / a) / 2 / a.          (* 559-560 *)
  Definition He_Rf (R z : RR) : RR :=                                            (* 562-564 *)
    - R / a / He_r R z / (1 + He_r R z / a) ^ 2 / 2 / a.
  Definition He_zf (R z : RR) : RR :=                                            (* 566-568 *)
    - z / a / He_r R z / (1 + He_r R z / a) ^ 2 / 2 / a.
  Definition He_R2 (R z : RR) : RR :=                                            (* 574-581 *)
    (a * z ^ 2 + (z ^ 2 - 2 * R ^ 2) * He_r R z) / He_r R z ^ 3 / (a + He_r R z) ^ 3 / 2.
  Definition He_z2 (R z : RR) : RR := He_R2 z R.
  Definition He_Rz (R z : RR) : RR :=                                            (* 583-591 *)
    - R * z * (a + 3 * He_r R z) * / (He_r R z * (a + He_r R z)) ^ 3 / 2.
  Definition He_dens (R z : RR) : RR := De_dens a 1 R z.
  Definition He_mass (r : RR) : RR := 1 / (1 + a / r) ^ 2 / 2.                   (* 630-635 *)
  Definition Hernquist : PotC :=
    mkAxi He_ev He_Rf He_zf (Some He_R2) (Some He_z2) (Some He_Rz) (Some He_dens).
End Hernquist.

(** JaffePotential, TwoPowerSphericalPotential.py 709-773; [_dens] and [_z2deriv]
    inherited with alpha=2. *)
Section Jaffe.
  Variable a : RR.
  Definition Ja_r (R z : RR) : RR := sqrt (R ^ 2 + z ^ 2).
  Definition Ja_ev (R z : RR) : RR := - ln (1 + a / Ja_r R z) / a.               (* 709-710 *)
  Definition Ja_Rf (R z : RR) : RR := - R / Ja_r R z ^ 3 / (1 + a / Ja_r R z).   (* 712-714 *)
  Definition Ja_zf (R z : RR) : RR := - z / Ja_r R z ^ 3 / (1 + a / Ja_r R z).   (* 716-718 *)
  Definition Ja_R2 (R z : RR) : RR :=                                            (* 720-726 *)
    (a * (z ^ 2 - R ^ 2) + (z ^ 2 - 2 * R ^ 2) * Ja_r R z) / Ja_r R z ^ 4 / (a + Ja_r R z) ^ 2.
  Definition Ja_z2 (R z : RR) : RR := Ja_R2 z R.
  Definition Ja_Rz (R z : RR) : RR :=                                            (* 728-736 *)
    - R * z * (2 * a + 3 * Ja_r R z) * / Ja_r R z ^ 4 * / (a + Ja_r R z) ^ 2.
  Definition Ja_dens (R z : RR) : RR := De_dens a 2 R z.
  Definition Ja_mass (r : RR) : RR := 1 / (1 + a / r).                           (* 770-773 *)
  Definition Jaffe : PotC :=
    mkAxi Ja_ev Ja_Rf Ja_zf (Some Ja_R2) (Some Ja_z2) (Some Ja_Rz) (Some Ja_dens).
End Jaffe.

(** NFWPotential, TwoPowerSphericalPotential.py 885-979; [_dens] (171-179) with
    alpha=1, beta=3 and [_z2deriv] (286-287) inherited from TwoPowerSphericalPotential. *)
Section NFW.
  Variable a : RR.
  Definition TP_dens (alpha beta R z : RR) : RR :=                               (* 171-179 *)
    rpow (a / sqrt (R ^ 2 + z ^ 2)) alpha
    / rpow (1 + sqrt (R ^ 2 + z ^ 2) / a) (beta - alpha) / 4 / PI / a ^ 3.
  (** 181-191 *)
  Definition TP_ddensdr (amp alpha beta r : RR) : RR :=
    - amp * rpow (a / r) (alpha - 1) * rpow (1 + r / a) (alpha - beta - 1)
    * (a * alpha + r * beta) / r ^ 2 / 4 / PI / a ^ 3.
  (** 193-207 *)
  Definition TP_d2densdr2 (amp alpha beta r : RR) : RR :=
    amp * rpow (a / r) (alpha - 2) * rpow (1 + r / a) (alpha - beta - 2)
    * (alpha * (alpha + 1) * a ^ 2 + 2 * alpha * a * (beta + 1) * r
       + beta * (beta + 1) * r ^ 2) / r ^ 4 / 4 / PI / a ^ 3.
  (** 209-239; [bet] is the anisotropy argument *)
  Definition TP_ddenstwobetadr (amp alpha beta bet r : RR) : RR :=
    amp / 4 / PI / a ^ 3 * rpow r (2 * bet - 2) * rpow (a / r) (alpha - 1)
    * rpow (1 + r / a) (alpha - beta - 1)
    * (a * (2 * bet - alpha) + r * (2 * bet - beta)).
  Definition NFW_r (R z : RR) : RR := sqrt (R ^ 2 + z ^ 2).
  (** 885-894; scipy.special.xlogy(x, y) is x * log(y) for y > 0 *)
  Definition NFW_ev (R z : RR) : RR :=
    if Req_EM_T (NFW_r R z) 0 then - 1 / a
    else - (1 / NFW_r R z * ln (1 + NFW_r R z / a)).
  Definition NFW_Rf (R z : RR) : RR :=                                           (* 896-902 *)
    R * (1 / (R ^ 2 + z ^ 2) / (a + NFW_r R z)
         - ln (1 + NFW_r R z / a) / NFW_r R z / (R ^ 2 + z ^ 2)).
  Definition NFW_zf (R z : RR) : RR :=                                           (* 904-910 *)
    z * (1 / (R ^ 2 + z ^ 2) / (a + NFW_r R z)
         - ln (1 + NFW_r R z / a) / NFW_r R z / (R ^ 2 + z ^ 2)).
  Definition NFW_R2 (R z : RR) : RR :=                                           (* 919-933 *)
    (3 * R ^ 4 + 2 * R ^ 2 * (z ^ 2 + a * NFW_r R z) - z ^ 2 * (z ^ 2 + a * NFW_r R z)
     - (2 * R ^ 2 - z ^ 2) * (a ^ 2 + R ^ 2 + z ^ 2 + 2 * a * NFW_r R z)
       * ln (1 + NFW_r R z / a))
    / rpow (R ^ 2 + z ^ 2) (5 / 2) / (a + NFW_r R z) ^ 2.
  Definition NFW_z2 (R z : RR) : RR := NFW_R2 (Rabs z) R.                        (* 286-287 *)
  Definition NFW_Rz (R z : RR) : RR :=                                           (* 935-950 *)
    - R * z * (- 4 * (R ^ 2 + z ^ 2) - 3 * a * NFW_r R z
               + 3 * (a ^ 2 + (R ^ 2 + z ^ 2) + 2 * a * NFW_r R z) * ln (1 + NFW_r R z / a))
    * rpow (R ^ 2 + z ^ 2) (- (5 / 2)) * / (a + NFW_r R z) ^ 2.
  Definition NFW_dens (R z : RR) : RR := TP_dens 1 3 R z.
  Definition NFW_mass (r : RR) : RR := ln (1 + r / a) - r / a / (1 + r / a).     (* 976-979 *)
  Definition NFW : PotC :=
    mkAxi NFW_ev NFW_Rf NFW_zf (Some NFW_R2) (Some NFW_z2) (Some NFW_Rz) (Some NFW_dens).
End NFW.

(* ------------------------------------------------------------------ *)
(** SphericalPotential.py 48-93: a 3D potential from radial functions of (r, t). *)
Section Spherical.
  Variables (rev rf r2d : RR -> RR -> RR).         (* _revaluate, _rforce, _r2deriv (r, t) *)
  Variable rdens : option (RR -> RR -> RR).        (* an overriding _rdens *)
  Definition Sph_r (R z : RR) : RR := sqrt (R ^ 2 + z ^ 2).
  Definition Sph_rdens (r t : RR) : RR :=                                        (* 48-50 *)
    match rdens with
    | Some f => f r t
    | None => (r2d r t - 2 * rf r t / r) / 4 / PI
    end.
  Definition Spherical : PotC :=
    mkPotC false
      (fun R z _ t => rev (Sph_r R z) t)                                       (* 52-54 *)
      (fun R z _ t => rf (Sph_r R z) t * R / Sph_r R z)                        (* 56-58 *)
      (fun R z _ t => rf (Sph_r R z) t * z / Sph_r R z)                        (* 60-62 *)
      None
      (Some (fun R z _ t => r2d (Sph_r R z) t * R ^ 2 / Sph_r R z ^ 2
                            - rf (Sph_r R z) t * z ^ 2 / Sph_r R z ^ 3))       (* 64-69 *)
      (Some (fun R z _ t => r2d (Sph_r R z) t * z ^ 2 / Sph_r R z ^ 2
                            - rf (Sph_r R z) t * R ^ 2 / Sph_r R z ^ 3))       (* 71-76 *)
      (Some (fun R z _ t => r2d (Sph_r R z) t * R * z / Sph_r R z ^ 2
                            + rf (Sph_r R z) t * R * z / Sph_r R z ^ 3))       (* 78-83 *)
      None None None
      (Some (fun R z _ t => Sph_rdens (Sph_r R z) t)).                         (* 85-87 *)
  Definition Sph_mass (r t : RR) : RR := - (r ^ 2) * rf r t.                     (* 89-93 *)
End Spherical.

(** BurkertPotential.py 60-102. *)
Section Burkert.
  Variable a : RR.
  Definition Bu_rev (r t : RR) : RR :=                                           (* 60-72 *)
    let x := r / a in
    - a ^ 2 * PI * (- PI / x + 2 * (1 / x + 1) * atan (1 / x)
      + (1 / x + 1) * ln ((1 + 1 / x) ^ 2 / (1 + 1 / x ^ 2)) + 2 / x * ln (1 + x ^ 2)).
  Definition Bu_rf (r t : RR) : RR :=                                            (* 79-91 *)
    let x := r / a in
    a * PI / x ^ 2 * (PI - 2 * atan (1 / x) - 2 * ln (1 + x) - ln (1 + x ^ 2)).
  Definition Bu_r2 (r t : RR) : RR :=                                            (* 93-98 *)
    let x := r / a in
    4 * PI / (1 + x ^ 2) / (1 + x) + 2 * Bu_rf r t / x / a.
  Definition Bu_rdens (r t : RR) : RR :=                                         (* 100-102 *)
    let x := r / a in 1 / (1 + x) / (1 + x ^ 2).
  Definition Burkert : PotC := Spherical Bu_rev Bu_rf Bu_r2 (Some Bu_rdens).
End Burkert.
