(** Analytic action-angle transformations: galpy/actionAngle/actionAngleHarmonic.py, actionAngleHarmonicInverse.py, actionAngleIsochrone.py and
    actionAngleIsochroneInverse.py.  Arrays are treated pointwise and values are those with use_physical=False.  [None] is a result with nan or
    infinity in it. *)
From Coq Require Import Reals ZArith.
From Verif.Lib Require Import RealAux Atan2.
From Verif.Model Require Import PotAxi.
Open Scope R_scope.
Notation RR := RbaseSymbolsImpl.R (only parsing).

(** x % m for floats (numpy.mod): the sign of the result is that of m *)
Definition modulo (x m : RR) : RR := x - m * IZR (Int_part (x / m)).

(** ** Harmonic oscillator *)
Section Harmonic.
  Variable omega : RR.
  (** actionAngleHarmonic._evaluate 69-71, _actionsFreqs 95-100, _actionsFreqsAngles 124-130 *)
  Definition ha_action (x vx : RR) : RR := (vx ^ 2 / omega + omega * x ^ 2) / 2.
  Definition ha_freq (x vx : RR) : RR := omega.
  Definition ha_angle (x vx : RR) : RR := atan2 (omega * x) vx.
  (** actionAngleHarmonicInverse._xvFreqs 91-94 *)
  Definition hi_x (j angle : RR) : RR := let amp := sqrt (2 * j / omega) in amp * sin angle.
  Definition hi_v (j angle : RR) : RR := let amp := sqrt (2 * j / omega) in amp * omega * cos angle.
  Definition hi_freq (j : RR) : RR := omega.                                       (* _Freqs 115 *)
End Harmonic.

(** ** Isochrone *)
Section Isochrone.
  Variables (amp b : RR).
  (** self._ip(R, z) *)
  Definition ia_Phi (R z : RR) : RR := amp * Iso_ev b R z.
  (** actionAngleIsochrone._evaluate, _actionsFreqs, 124-136 and 180-198 *)
  Definition ia_Lz (R vT : RR) : RR := R * vT.
  Definition ia_L2 (R vR vT z vz : RR) : RR :=
    let Lz := R * vT in let Lx := - z * vT in let Ly := z * vR - R * vz in Lx * Lx + Ly * Ly + Lz * Lz.
  Definition ia_E (R vR vT z vz : RR) : RR := ia_Phi R z + vR ^ 2 / 2 + vT ^ 2 / 2 + vz ^ 2 / 2.
  Record actions := mkActions { Jr : RR; Jphi : RR; Jz : RR }.
  Record freqs := mkFreqs { Or : RR; Op : RR; Oz : RR }.
  Record angles := mkAngles { Ar : RR; Ap : RR; Az : RR }.
  Definition ia_actions (R vR vT z vz : RR) : option actions :=
    let L2 := ia_L2 R vR vT z vz in
    let E := ia_E R vR vT z vz in
    let L := sqrt L2 in
    if Rlt_dec E 0 then
      Some (mkActions (amp / sqrt (- 2 * E) - / 2 * (L + sqrt (L2 + 4 * amp * b))) (ia_Lz R vT) (L - Rabs (ia_Lz R vT)))
    else None.
  Definition ia_freqs (R vR vT z vz : RR) : option freqs :=
    let L2 := ia_L2 R vR vT z vz in
    let E := ia_E R vR vT z vz in
    let L := sqrt L2 in
    if Rlt_dec E 0 then
      let Omegar := rpow (- 2 * E) (3 / 2) / amp in
      let Omegaz := / 2 * (1 + L / sqrt (L2 + 4 * amp * b)) * Omegar in
      Some (mkFreqs Omegar (if Rlt_dec (ia_Lz R vT) 0 then Omegaz * -1 else Omegaz) Omegaz)
    else None.
  (** _actionsFreqsAngles 244-329 *)
  Definition clip (x : RR) : RR := if Rlt_dec 1 x then 1 else if Rlt_dec x (-1) then -1 else x.     (* 271-274, 298-301, 314-317 *)
  Definition up_pi (x : RR) : RR := if Rlt_dec x 0 then x + PI else x.                              (* 289-290 *)
  Definition ia_c (E : RR) : RR := - amp / 2 / E - b.                                               (* 263 *)
  Definition ia_e2 (E L2 : RR) : RR := let c := ia_c E in 1 - L2 / amp / c * (1 + b / c).           (* 264 *)
  Definition ia_coseta (E L2 r2 : RR) : RR :=                                                       (* 265-274 *)
    let c := ia_c E in let e := sqrt (ia_e2 E L2) in
    clip (if Req_EM_T b 0 then 1 / e * (1 - sqrt r2 / c)
          else let s := 1 + sqrt (1 + r2 / b ^ 2) in 1 / e * (1 - b / c * (s - 2))).
  Definition ia_eta (E L2 R vR z vz : RR) : RR :=                                                   (* 275-279 *)
    let eta := acos (ia_coseta E L2 (R ^ 2 + z ^ 2)) in
    let costheta := z / sqrt (R ^ 2 + z ^ 2) in
    let sintheta := R / sqrt (R ^ 2 + z ^ 2) in
    if Rlt_dec (vR * sintheta + vz * costheta) 0 then 2 * PI - eta else eta.
  (** numpy.arctan(g * numpy.tan(x)), 281-287; the tangent of the float nearest to pi/2 is 1.6e16, whose arctangent is pi/2 *)
  Definition arctan_tan (g x : RR) : RR := if Req_EM_T (cos x) 0 then PI / 2 else atan (g * tan x).
  Definition ia_tan11 (e eta : RR) : RR := up_pi (arctan_tan (sqrt ((1 + e) / (1 - e))) (/ 2 * eta)).
  Definition ia_tan12 (c e eta : RR) : RR := up_pi (arctan_tan (sqrt ((1 + e + 2 * b / c) / (1 - e + 2 * b / c))) (/ 2 * eta)).
  (** psi 288-306 (Lz is not beyond L in exact arithmetic: 291-294); without inclination the quotient is nan and psi is phi *)
  Definition ia_down (R vR z vz : RR) : bool :=                                                     (* vzindx 288 *)
    let costheta := z / sqrt (R ^ 2 + z ^ 2) in
    let sintheta := R / sqrt (R ^ 2 + z ^ 2) in
    if Rlt_dec 0 (- vz * sintheta + vR * costheta) then true else false.
  Definition ia_psi (L2 Lz R vR z vz phi : RR) : RR :=
    let L := sqrt L2 in
    let sini := sqrt (L ^ 2 - Lz ^ 2) / L in
    let costheta := z / sqrt (R ^ 2 + z ^ 2) in
    let psi := if Req_EM_T sini 0 then phi
               else let psi := asin (clip (costheta / sini)) in if ia_down R vR z vz then PI - psi else psi in
    modulo psi (2 * PI).
  (** u 313-321: tani is infinite for Lz = 0, which makes sinu zero; without inclination the quotient is nan and u is phi *)
  Definition ia_u (L2 Lz R vR z vz phi : RR) : RR :=
    let L := sqrt L2 in
    if Req_EM_T Lz 0 then (if ia_down R vR z vz then PI - asin 0 else asin 0)
    else
      let tani := sqrt (L ^ 2 - Lz ^ 2) / Lz in
      if Req_EM_T tani 0 then phi
      else let u := asin (clip (z / R / tani)) in if ia_down R vR z vz then PI - u else u.
  Definition ia_angles (R vR vT z vz phi : RR) : option angles :=
    match ia_freqs R vR vT z vz with
    | None => None
    | Some F =>
      let L2 := ia_L2 R vR vT z vz in
      let E := ia_E R vR vT z vz in
      let Lz := ia_Lz R vT in
      let c := ia_c E in
      let e2 := ia_e2 E L2 in
      let e := sqrt e2 in
      if Rle_dec e2 0 then None else          (* 1/e *)
      if Req_EM_T L2 0 then None else
      let eta := ia_eta E L2 R vR z vz in
      let angler := eta - e * c / (c + b) * sin eta in
      let psi := ia_psi L2 Lz R vR z vz phi in
      let anglez := psi + Oz F / Or F * angler - ia_tan11 e eta - 1 / sqrt (1 + 4 * amp * b / L2) * ia_tan12 c e eta in
      let Omega := phi - ia_u L2 Lz R vR z vz phi in
      let anglephi := if Rlt_dec Lz 0 then Omega - anglez else Omega + anglez in
      Some (mkAngles (modulo angler (2 * PI)) (modulo anglephi (2 * PI)) (modulo anglez (2 * PI)))
    end.
  (** _EccZmaxRperiRap 352-387: eccentricity, maximal height, peri- and apocentre *)
  Definition ia_rperi_rap (R vR vT z vz : RR) : RR * RR :=
    let L2 := ia_L2 R vR vT z vz in
    let E := ia_E R vR vT z vz in
    if Req_EM_T b 0 then
      let a := - amp / 2 / E in
      let me2 := L2 / amp / a in
      let e := sqrt (1 - me2) in
      (a * (1 - e), a * (1 + e))
    else
      let smin := / 2 * ((2 * E - amp / b) + sqrt ((2 * E - amp / b) ^ 2 + 2 * E * (4 * amp / b + L2 / b ^ 2))) / E in
      let smax := 2 - amp / E / b - smin in
      (smin * sqrt (1 - 2 / smin) * b, smax * sqrt (1 - 2 / smax) * b).

  Definition ia_zmax (R vR vT z vz : RR) : RR := snd (ia_rperi_rap R vR vT z vz) * sqrt (1 - ia_Lz R vT ^ 2 / ia_L2 R vR vT z vz).     (* 384 *)
  Definition ia_ecc (R vR vT z vz : RR) : RR := let (rperi, rap) := ia_rperi_rap R vR vT z vz in (rap - rperi) / (rap + rperi).       (* 383 *)

  (** actionAngleIsochroneInverse._Freqs 216-222 and 134-140; numpy.sign *)
  Definition sign (x : RR) : RR := if Rlt_dec x 0 then -1 else if Rlt_dec 0 x then 1 else 0.
  Definition ii_L (J : actions) : RR := Jz J + Rabs (Jphi J).
  Definition ii_sqrt (J : actions) : RR := sqrt (ii_L J ^ 2 + 4 * b * amp).
  Definition ii_H (J : actions) : RR := - 2 * amp ^ 2 / (2 * Jr J + ii_L J + ii_sqrt J) ^ 2.
  Definition ii_freqs (J : actions) : freqs :=
    let omegar := rpow (- 2 * ii_H J) (3 / 2) / amp in
    let omegaz := (1 + ii_L J / ii_sqrt J) / 2 * omegar in
    mkFreqs omegar (sign (Jphi J) * omegaz) omegaz.
  (** _xvFreqs 142-192.  [kepler k m] is the solution of x - k sin x = m, found by Newton iterations or brentq (149-162). *)
  Record phase := mkPhase { ph_R : RR; ph_vR : RR; ph_vT : RR; ph_z : RR; ph_vz : RR; ph_phi : RR }.
  Variable kepler : RR -> RR -> RR.
  Definition ii_xv (J : actions) (A : angles) : phase :=
    let L := ii_L J in
    let L2 := L ^ 2 in
    let H := ii_H J in
    let a := - amp / 2 / H - b in
    let ab := a + b in
    let e := sqrt (1 + L2 / (2 * H * a ^ 2)) in
    let angler := modulo (modulo (Ar A) (-2 * PI)) (2 * PI) in
    let eta := kepler (a * e / ab) angler in
    let coseta := cos eta in
    let r := a * sqrt ((1 - e * coseta) * (1 - e * coseta + 2 * b / a)) in
    let vr := sqrt (amp / ab) * a * e * sin eta / r in
    let tan11 := up_pi (arctan_tan (sqrt ((1 + e) / (1 - e))) (eta / 2)) in
    let tan12 := up_pi (arctan_tan (sqrt ((a * (1 + e) + 2 * b) / (a * (1 - e) + 2 * b))) (eta / 2)) in
    let Lambdaeta := tan11 + L / ii_sqrt J * tan12 in
    let F := ii_freqs J in
    let psi := Az A - Oz F / Or F * angler + Lambdaeta in
    let lowerl := sqrt (1 - Jphi J ^ 2 / L2) in
    let sintheta := sin psi * lowerl in
    let costheta := sqrt (1 - sintheta ^ 2) in
    let vtheta := L * lowerl * cos psi / costheta / r in
    let R := r * costheta in
    let z := r * sintheta in
    let vR := vr * costheta - vtheta * sintheta in
    let vz := vr * sintheta + vtheta * costheta in
    let phi :=
      if Req_EM_T lowerl 0 then psi                                                 (* sinu is 0/0 = nan: 189 *)
      else
        let sinu := sintheta / costheta * Jphi J / L / lowerl in
        let u := asin sinu in
        let u := if Rlt_dec vtheta 0 then PI - u else u in
        Ap A - sign (Jphi J) * Az A + u in
    let phi := modulo phi (2 * PI) in
    mkPhase R vR (Jphi J / R) z vz (if Rlt_dec phi 0 then phi + 2 * PI else phi).
End Isochrone.
