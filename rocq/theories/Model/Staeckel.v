(** galpy/actionAngle/actionAngleStaeckel.py and galpy/actionAngle/actionAngle_c_ext/actionAngleStaeckel.c over exact reals: the momenta,
    the approximate third integrals, the integrands of the actions and of their derivatives, the quadratures in the regularised
    variable chi, the frequencies, the angles, and estimateDeltaStaeckel.
    Simplifications: Phi, FR, Fz, ... stand for _evaluatePotentials, _evaluateRforces, _evaluatezforces, ... of the axisymmetric
    potential at t = 0 (C01-C12 model them); Gauss-Legendre sums are replaced by the integrals they approximate; umin, umax and vmin
    are arguments (calcUminUmax and calcVmin are modelled in Brackets.v). *)
From Coq Require Import Reals List.
From Coquelicot Require Import Coquelicot.
From Verif.Model Require Import CoordsSpheroid.
From Verif.Model Require ActionAngle.
Import ListNotations.
Open Scope R_scope.
Notation RR := RbaseSymbolsImpl.R (only parsing).
Notation F2 := (RR -> RR -> RR) (only parsing).

(** actionAngleStaeckel.py 1777-1802 potentialStaeckel *)
Definition potentialStaeckel (u v : RR) (pot : F2) (delta : RR) : RR :=
  let '(R, z) := uv_to_Rz false delta u v in pot R z.
(** 1870-1879 *)
Definition JRSquared (u E Lz I3U delta u0 sinh2u0 v0 sin2v0 potu0v0 : RR) (pot : F2) : RR :=
  let sinh2u := sinh u ^ 2 in
  let dU := (sinh2u + sin2v0) * potentialStaeckel u v0 pot delta - (sinh2u0 + sin2v0) * potu0v0 in
  E * sinh2u - I3U - dU - Lz ^ 2 / 2 / delta ^ 2 / sinh2u.
(** 1890-1897 *)
Definition JzSquared (v E Lz I3V delta u0 cosh2u0 sinh2u0 potu0pi2 : RR) (pot : F2) : RR :=
  let sin2v := sin v ^ 2 in
  let dV := cosh2u0 * potu0pi2 - (sinh2u0 + sin2v) * potentialStaeckel u0 v pot delta in
  E * sin2v + I3V + dV - Lz ^ 2 / 2 / delta ^ 2 / sin2v.
(** 1903-1916 *)
Definition dJRSquareddu (u E Lz I3U delta u0 sinh2u0 v0 sin2v0 potu0v0 : RR) (pot FR Fz : F2) : RR :=
  let '(R, z) := uv_to_Rz false delta u v0 in
  let dPhidu := - delta * (FR R z * cosh u * sin v0 + Fz R z * sinh u * cos v0) in
  E * sinh (2 * u) - sinh (2 * u) * potentialStaeckel u v0 pot delta - (sinh u ^ 2 + sin2v0) * dPhidu
  + Lz ^ 2 / delta ^ 2 * cosh u / sinh u ^ 3.
(** 1919-1932 *)
Definition dJzSquareddv (v E Lz I3V delta u0 cosh2u0 sinh2u0 potu0pi2 : RR) (pot FR Fz : F2) : RR :=
  let '(R, z) := uv_to_Rz false delta u0 v in
  let dPhidv := - delta * (FR R z * sinh u0 * cos v - Fz R z * cosh u0 * sin v) in
  E * sin (2 * v) - sin (2 * v) * potentialStaeckel u0 v pot delta - (sinh2u0 + sin v ^ 2) * dPhidv
  + Lz ^ 2 / delta ^ 2 * cos v / sin v ^ 3.

(** The attributes of actionAngleStaeckelSingle. *)
Record single := mkSingle { g_ux : RR; g_vx : RR; g_pux : RR; g_pvx : RR; g_E : RR; g_Lz : RR; g_u0 : RR; g_v0u : RR; g_potu0v0 : RR;
                            g_I3U : RR; g_potupi2 : RR; g_I3V : RR }.
(** actionAngleStaeckelSingle.__init__ 788-853 (and calcELStaeckel 1771-1774); [u0] is the keyword u0, None when it is not given *)
Definition single_init (pot : F2) (delta R vR vT z vz : RR) (u0 : option RR) (v0u : RR) : single :=
  let '(ux, vx) := Rz_to_uv false delta R z in
  let pux := delta * (vR * cosh ux * sin vx + vz * sinh ux * cos vx) in
  let pvx := delta * (vR * sinh ux * cos vx - vz * cosh ux * sin vx) in
  let E := pot R z + vR ^ 2 / 2 + vT ^ 2 / 2 + vz ^ 2 / 2 in
  let Lz := R * vT in
  let u0 := match u0 with Some u => u | None => ux end in
  let potu0v0 := potentialStaeckel u0 v0u pot delta in
  let I3U := E * sinh ux ^ 2 - pux ^ 2 / 2 / delta ^ 2 - Lz ^ 2 / 2 / delta ^ 2 / sinh ux ^ 2
             - (sinh ux ^ 2 + sin v0u ^ 2) * potentialStaeckel ux v0u pot delta + (sinh u0 ^ 2 + sin v0u ^ 2) * potu0v0 in
  let potupi2 := potentialStaeckel u0 (PI / 2) pot delta in
  let dV := cosh u0 ^ 2 * potupi2 - (sinh u0 ^ 2 + sin vx ^ 2) * potentialStaeckel u0 vx pot delta in
  let I3V := - E * sin vx ^ 2 + pvx ^ 2 / 2 / delta ^ 2 + Lz ^ 2 / 2 / delta ^ 2 / sin vx ^ 2 - dV in
  mkSingle ux vx pux pvx E Lz u0 v0u potu0v0 I3U potupi2 I3V.
(** actionAngleStaeckel.c 188-236, 455-491: the same quantities in C; v0 is pi / 2 *)
Definition c_single (pot : F2) (delta R vR vT z vz u0 : RR) : single :=
  let d12 := (z + delta) * (z + delta) + R * R in
  let d22 := (z - delta) * (z - delta) + R * R in
  let ux := acosh (0.5 / delta * (sqrt d12 + sqrt d22)) in
  let vx := acos (0.5 / delta * (sqrt d12 - sqrt d22)) in
  let E := pot R z + 0.5 * vR * vR + 0.5 * vT * vT + 0.5 * vz * vz in
  let Lz := R * vT in
  let pux := delta * (vR * cosh ux * sin vx + vz * sinh ux * cos vx) in
  let pvx := delta * (vR * sinh ux * cos vx - vz * cosh ux * sin vx) in
  let sinh2u0 := sinh u0 * sinh u0 in
  let cosh2u0 := cosh u0 * cosh u0 in
  let v0 := 0.5 * PI in
  let sin2v0 := sin v0 * sin v0 in
  let uv u v := pot (delta * sinh u * sin v) (delta * cosh u * cos v) in
  let potu0v0 := uv u0 v0 in
  let I3U := E * sinh ux * sinh ux - 0.5 * pux * pux / delta / delta - 0.5 * Lz * Lz / delta / delta / sinh ux / sinh ux
             - (sinh ux * sinh ux + sin2v0) * uv ux v0 + (sinh2u0 + sin2v0) * potu0v0 in
  let potupi2 := uv u0 (0.5 * PI) in
  let I3V := - E * sin vx * sin vx + 0.5 * pvx * pvx / delta / delta + 0.5 * Lz * Lz / delta / delta / sin vx / sin vx
             - cosh2u0 * potupi2 + (sinh2u0 + sin vx * sin vx) * uv u0 vx in
  mkSingle ux vx pux pvx E Lz u0 v0 potu0v0 I3U potupi2 I3V.

(** The two functions whose square roots are integrated, with the arguments that the class passes (1346-1371). *)
Definition SU (pot : F2) (delta : RR) (s : single) (u : RR) : RR :=
  JRSquared u (g_E s) (g_Lz s) (g_I3U s) delta (g_u0 s) (sinh (g_u0 s) ^ 2) (g_v0u s) (sin (g_v0u s) ^ 2) (g_potu0v0 s) pot.
Definition SV (pot : F2) (delta : RR) (s : single) (v : RR) : RR :=
  JzSquared v (g_E s) (g_Lz s) (g_I3V s) delta (g_u0 s) (cosh (g_u0 s) ^ 2) (sinh (g_u0 s) ^ 2) (g_potupi2 s) pot.
Definition dSU (pot FR Fz : F2) (delta : RR) (s : single) (u : RR) : RR :=
  dJRSquareddu u (g_E s) (g_Lz s) (g_I3U s) delta (g_u0 s) (sinh (g_u0 s) ^ 2) (g_v0u s) (sin (g_v0u s) ^ 2) (g_potu0v0 s) pot FR Fz.
Definition dSV (pot FR Fz : F2) (delta : RR) (s : single) (v : RR) : RR :=
  dJzSquareddv v (g_E s) (g_Lz s) (g_I3V s) delta (g_u0 s) (cosh (g_u0 s) ^ 2) (sinh (g_u0 s) ^ 2) (g_potupi2 s) pot FR Fz.
(** actionAngleStaeckel.c 1842-1851, 1888-1898 with Lz22delta = 0.5 Lz^2 / delta^2 (554, 630) *)
Definition c_SU (pot : F2) (delta : RR) (s : single) (u : RR) : RR :=
  let sinh2u := sinh u * sinh u in
  let sin2v0 := sin (g_v0u s) * sin (g_v0u s) in
  let dU := (sinh2u + sin2v0) * pot (delta * sinh u * sin (g_v0u s)) (delta * cosh u * cos (g_v0u s))
            - (sinh (g_u0 s) * sinh (g_u0 s) + sin2v0) * g_potu0v0 s in
  g_E s * sinh2u - g_I3U s - dU - (0.5 * g_Lz s * g_Lz s / delta / delta) / sinh2u.
Definition c_SV (pot : F2) (delta : RR) (s : single) (v : RR) : RR :=
  let sin2v := sin v * sin v in
  let dV := cosh (g_u0 s) * cosh (g_u0 s) * g_potupi2 s
            - (sinh (g_u0 s) * sinh (g_u0 s) + sin2v) * pot (delta * sinh (g_u0 s) * sin v) (delta * cosh (g_u0 s) * cos v) in
  g_E s * sin2v + g_I3V s + dV - (0.5 * g_Lz s * g_Lz s / delta / delta) / sin2v.
(** 2153-2158 _u0Equation; actionAngleStaeckel.c 2017-2024 u0Equation *)
Definition u0Equation (u E Lz22delta delta : RR) (pot : F2) : RR :=
  let sinh2u := sinh u ^ 2 in
  let dU := cosh u ^ 2 * potentialStaeckel u (PI / 2) pot delta in
  - (E * sinh2u - dU - Lz22delta / sinh2u).

(** 904-942: JR without fixed_quad *)
Definition JR_quad (pot : F2) (delta umin umax : RR) (s : single) : RR :=
  if Rlt_dec ((umax - umin) / umax) (/ 10 ^ 6) then 0
  else 1 / PI * sqrt 2 * delta * RInt (fun u => sqrt (SU pot delta s u)) umin umax.
(** 969-1008: Jz without fixed_quad *)
Definition Jz_quad (pot : F2) (delta vmin : RR) (s : single) : RR :=
  if Rlt_dec (PI / 2 - vmin) (/ 10 ^ 7) then 0
  else 2 / PI * sqrt 2 * delta * RInt (fun v => sqrt (SV pot delta s v)) vmin (PI / 2).

(** 1954-2032 _staeckelChiQuadratures: the substitution q = qmin + D sin^2(chi/2).  [edge] is the threshold 1e-6 of line 2020 below
    which S / (y (1 - y)) is replaced by its linear expansion.  The floor at the smallest positive double (2029) is left out. *)
Definition chi_q (qmin D chi : RR) : RR := qmin + D * sin (chi / 2) ^ 2.
Definition chi_Q (edge : RR) (S dS : RR -> RR) (qmin D chi : RR) : RR :=
  let y := sin (chi / 2) ^ 2 in
  let y1my := y * (1 - y) in
  let q := qmin + D * y in
  if Rle_dec y1my edge then
    if Rlt_dec y (1 / 2) then D * (dS qmin + dS q) / 2 / (1 - y) else D * (- dS (qmin + D) - dS q) / 2 / y
  else S q / y1my.
Definition chi_action (edge : RR) (S dS : RR -> RR) (qmin D chimax : RR) : RR :=
  RInt (fun chi => D / 4 * (sqrt (chi_Q edge S dS qmin D chi) * sin chi ^ 2)) 0 chimax.
Definition chi_weight (edge : RR) (S dS f : RR -> RR) (qmin D chimax : RR) : RR :=
  RInt (fun chi => D * (f (chi_q qmin D chi) / sqrt (chi_Q edge S dS qmin D chi))) 0 chimax.
(** 1942-1951 *)
Definition wU (k : nat) (q : RR) : RR := match k with O => sinh q ^ 2 | S O => 1 | _ => 1 / sinh q ^ 2 end.
Definition wV (k : nat) (q : RR) : RR := match k with O => sin q ^ 2 | S O => 1 | _ => 1 / sin q ^ 2 end.
(** numpy.clip(x, 0, 1) and the upper limits 1381-1388, 1414-1423 *)
Definition clip01 (x : RR) : RR := Rmin (Rmax x 0) 1.
Definition chimaxU (umin umax : RR) (uupp : option RR) : RR :=
  match uupp with None => PI | Some u => 2 * asin (sqrt (clip01 ((u - umin) / (umax - umin)))) end.
Definition chimaxV (vmin : RR) (vupp : option RR) : RR :=
  match vupp with None => PI / 2 | Some v => 2 * asin (sqrt (clip01 ((v - vmin) / (PI - 2 * vmin)))) end.

Section Quads.
  Variables (edge : RR) (pot FR Fz : F2) (delta umin umax vmin : RR) (s : single).
  (** 1373-1402, 1404-1437 *)
  Definition quadsU (uupp : option RR) (k : nat) : RR :=
    chi_weight edge (SU pot delta s) (dSU pot FR Fz delta s) (wU k) umin (umax - umin) (chimaxU umin umax uupp).
  Definition quadsV (vupp : option RR) (k : nat) : RR :=
    chi_weight edge (SV pot delta s) (dSV pot FR Fz delta s) (wV k) vmin (PI - 2 * vmin) (chimaxV vmin vupp).
  (** 907-917 and 973-983: the actions with fixed_quad *)
  Definition JR_fixed : RR :=
    if Rlt_dec ((umax - umin) / umax) (/ 10 ^ 6) then 0
    else 1 / PI * sqrt 2 * delta * chi_action edge (SU pot delta s) (dSU pot FR Fz delta s) umin (umax - umin) PI.
  Definition Jz_fixed : RR :=
    if Rlt_dec (PI / 2 - vmin) (/ 10 ^ 7) then 0
    else 2 / PI * sqrt 2 * delta * chi_action edge (SV pot delta s) (dSV pot FR Fz delta s) vmin (PI - 2 * vmin) (PI / 2).
  (** 1439-1473 calcdJR, 1475-1509 calcdJz: (d/dE, d/dLz, d/dI3) *)
  Definition calcdJR : RR * RR * RR :=
    if Rlt_dec ((umax - umin) / umax) (/ 10 ^ 6) then (0, 0, 0)
    else (quadsU None 0 * (delta / PI / sqrt 2), quadsU None 2 * (- g_Lz s / PI / sqrt 2 / delta), quadsU None 1 * (- delta / PI / sqrt 2)).
  Definition calcdJz : RR * RR * RR :=
    if Rlt_dec ((PI / 2 - vmin) / PI * 2) (/ 10 ^ 6) then (0, 0, 0)
    else (quadsV None 0 * (sqrt 2 * delta / PI), quadsV None 2 * (- g_Lz s * sqrt 2 / PI / delta), quadsV None 1 * (sqrt 2 * delta / PI)).
End Quads.

(** 1530-1546 calcFreqs from the two rows of derivatives; None stands for the NaN results *)
Record freqs := mkFreqs { Or_ : RR; Op_ : RR; Oz_ : RR; I3r_ : RR; I3z_ : RR; I3p_ : RR }.
Definition calcFreqs (dr dz : RR * RR * RR) : option freqs :=
  let '(djrdE, djrdLz, djrdI3) := dr in
  let '(djzdE, djzdLz, djzdI3) := dz in
  let detA := djrdE * djzdI3 - djzdE * djrdI3 in
  if Req_EM_T detA 0 then None
  else Some (mkFreqs (djzdI3 / detA) ((djrdI3 * djzdLz - djzdI3 * djrdLz) / detA) (- djrdI3 / detA)
                     (- djzdE / detA) (djrdE / detA) (- (djrdE * djzdLz - djzdE * djrdLz) / detA)).
(** actionAngleStaeckel.c 992-1041: without the sentinel 9999.99 of a failed integral; no test of the determinant *)
Definition c_calcFreqs (dr dz : RR * RR * RR) : freqs :=
  let '(djrdE, djrdLz, djrdI3) := dr in
  let '(djzdE, djzdLz, djzdI3) := dz in
  let detA := djrdE * djzdI3 - djzdE * djrdI3 in
  mkFreqs (djzdI3 / detA) ((djrdI3 * djzdLz - djzdI3 * djrdLz) / detA) (- djrdI3 / detA)
          (- djzdE / detA) (djrdE / detA) (- (djrdE * djzdLz - djzdE * djrdLz) / detA).

(** 1548-1735 calcAngles, up to the reduction to [0, 2 pi) of lines 1722-1734.  [qU uupp k] and [qV vupp k] are the quadratures with
    weight k = 0 (E), 1 (I3), 2 (Lz). *)
Section Angles.
  Variables (delta umin umax vmin : RR) (s : single) (qU qV : option RR -> nat -> RR) (dr dz : RR * RR * RR).
  (** 1591-1598 uquad, 1600-1607 vquad *)
  Definition uquad (k : nat) (low : bool) (mid : RR) : RR :=
    if low then qU (Some (umin + mid ^ 2)) k else qU None k - qU (Some (umax - mid ^ 2)) k.
  Definition vquad (k : nat) (low : bool) (mid : RR) : RR :=
    if low then qV (Some (vmin + mid ^ 2)) k else qV None k - qV (Some (PI / 2 - mid ^ 2)) k.
  (** 1610-1655: (Or1, I3r1, anglephi) *)
  Definition u_part : RR * RR * RR :=
    let '(djrdE, djrdLz, djrdI3) := dr in
    let ux := g_ux s in let Lz := g_Lz s in let sqrt2 := sqrt 2 in
    let midpoint_u := umin + 1 / 2 * (umax - umin) in
    if Rlt_dec 0 (g_pux s) then
      if Rlt_dec midpoint_u ux then
        let mid := sqrt (umax - ux) in
        (PI * djrdE - uquad 0 false mid * (delta / sqrt2),
         PI * djrdI3 - - uquad 1 false mid * (delta / sqrt2),
         PI * djrdLz + Lz * uquad 2 false mid / delta / sqrt2)
      else
        let mid := sqrt (ux - umin) in
        (uquad 0 true mid * (delta / sqrt2), - uquad 1 true mid * (delta / sqrt2), - Lz * uquad 2 true mid / delta / sqrt2)
    else
      if Rlt_dec midpoint_u ux then
        let mid := sqrt (umax - ux) in
        (PI * djrdE + uquad 0 false mid * (delta / sqrt2),
         PI * djrdI3 + - uquad 1 false mid * (delta / sqrt2),
         PI * djrdLz - Lz * uquad 2 false mid / delta / sqrt2)
      else
        let mid := sqrt (ux - umin) in
        (2 * PI * djrdE - uquad 0 true mid * (delta / sqrt2),
         2 * PI * djrdI3 - - uquad 1 true mid * (delta / sqrt2),
         2 * PI * djrdLz + Lz * uquad 2 true mid / delta / sqrt2).
  (** 1658-1716: (Or2, I3r2, phitmp) *)
  Definition v_part : RR * RR * RR :=
    let '(djzdE, djzdLz, djzdI3) := dz in
    let vx := g_vx s in let Lz := g_Lz s in let sqrt2 := sqrt 2 in
    let midpoint_v := vmin + 1 / 2 * (1 / 2 * PI - vmin) in
    let outer := if Rlt_dec vx midpoint_v then true else if Rlt_dec (PI - midpoint_v) vx then true else false in
    let lowmid := if Rlt_dec (1 / 2 * PI) vx then sqrt (PI - vx - vmin) else sqrt (vx - vmin) in
    let highmid := sqrt (Rabs (1 / 2 * PI - vx)) in
    let low := (vquad 0 true lowmid * delta / sqrt2, vquad 1 true lowmid * delta / sqrt2, vquad 2 true lowmid * - Lz / delta / sqrt2) in
    let high := (vquad 0 false highmid * delta / sqrt2, vquad 1 false highmid * delta / sqrt2, vquad 2 false highmid * - Lz / delta / sqrt2) in
    let comb c sg q := let '(a, b, p) := q in (c * djzdE + sg * a, c * djzdI3 + sg * b, c * djzdLz + sg * p) in
    if Rlt_dec 0 (g_pvx s) then
      if outer then
        if Rlt_dec (1 / 2 * PI) vx then comb PI (-1) low else low
      else
        if Rlt_dec (1 / 2 * PI) vx then comb (1 / 2 * PI) 1 high else comb (1 / 2 * PI) (-1) high
    else
      if outer then
        if Rlt_dec vx (1 / 2 * PI) then comb (2 * PI) (-1) low else comb PI 1 low
      else
        if Rlt_dec vx (1 / 2 * PI) then comb (3 / 2 * PI) 1 high else comb (3 / 2 * PI) (-1) high.
  (** 1718-1721: (angler, anglephi, anglez) *)
  Definition angles (f : freqs) : RR * RR * RR :=
    let '(Or1, I3r1, p1) := u_part in
    let '(Or2, I3r2, p2) := v_part in
    (Or_ f * (Or1 + Or2) + I3r_ f * (I3r1 + I3r2),
     p1 + p2 + (Op_ f * (Or1 + Or2) + I3p_ f * (I3r1 + I3r2)),
     Oz_ f * (Or1 + Or2) + I3z_ f * (I3r1 + I3r2) + 1 / 2 * PI).
End Angles.

(** numpy.fmod, and the reduction of lines 1722-1734: the loops run at most once *)
Definition fmod (x m : RR) : RR := x - m * IZR (if Rle_dec 0 (x / m) then Int_part (x / m) else (- Int_part (- (x / m)))%Z).
Definition wrap (x : RR) : RR :=
  let r := fmod x (2 * PI) in
  if Rlt_dec r 0 then r + 2 * PI else if Rlt_dec (2 * PI) r then r - 2 * PI else r.
(** 1548-1735 calcAngles: the frequencies (None: NaN) and the angles (None: NaN) *)
Definition calcAngles (edge : RR) (pot FR Fz : F2) (delta umin umax vmin : RR) (s : single) : option freqs * option (RR * RR * RR) :=
  let dr := calcdJR edge pot FR Fz delta umin umax s in
  let dz := calcdJz edge pot FR Fz delta vmin s in
  let f := calcFreqs dr dz in
  if Rlt_dec ((umax - umin) / umax) (/ 10 ^ 6) then (f, Some (0, 0, 0))
  else match f with
       | None => (None, None)
       | Some fr => let '(ar, ap, az) := angles delta umin umax vmin s (quadsU edge pot FR Fz delta umin umax s) (quadsV edge pot FR Fz delta vmin s) dr dz fr in
                    (f, Some (wrap ar, ap, wrap az))
       end.
(** 576-606, the loop body and the end of _actionsFreqsAngles for one object: ((Omegar, Omegaphi, Omegaz), (angler, anglephi, anglez)).
    [epi], [circ], [vert] are epifreq, omegac and verticalfreq of the potential. *)
Definition freqsAngles (epi circ vert : RR -> RR) (R phi jr jz : RR) (out : option freqs * option (RR * RR * RR)) : option (RR * RR * RR) * option (RR * RR * RR) :=
  (match fst out with
   | Some f => Some (Or_ f, Op_ f, Oz_ f)
   | None => if Rlt_dec jr (/ 10 ^ 3) then Some (epi R, circ R, vert R) else if Rlt_dec jz (/ 10 ^ 3) then Some (epi R, circ R, vert R) else None
   end,
   match snd out with
   | Some (ar, ap, az) => Some (ar, ActionAngle.modulo (ap + ActionAngle.modulo phi (2 * PI)) (2 * PI), az)
   | None => None
   end).

(** ** estimateDeltaStaeckel, 2206-2300; [scf]: the potential includes an SCF component *)
Definition delta2_of (FR Fz P2R P2z PRz : F2) (R z : RR) : RR :=
  z ^ 2 - R ^ 2 + (3 * R * Fz R z - 3 * z * FR R z + R * z * (P2R R z - P2z R z)) / PRz R z.
(** 2278-2279, 2298-2299 *)
Definition delta2_floor (scf : bool) (delta0 delta2 : RR) : RR :=
  if Rlt_dec delta2 (delta0 ^ 2) then
    if scf then delta0 ^ 2 else if Rlt_dec (- / 10 ^ 10) delta2 then delta0 ^ 2 else delta2
  else delta2.
(** 2252-2256 *)
Definition off_plane (z : RR) : RR := if Req_EM_T z 0 then / 10 ^ 4 else z.
(** scalar R, z: 2282-2300 *)
Definition estimateDelta (FR Fz P2R P2z PRz : F2) (scf : bool) (delta0 R z : RR) : RR :=
  sqrt (delta2_floor scf delta0 (delta2_of FR Fz P2R P2z PRz R (off_plane z))).
(** arrays: 2257-2281, 2300; no element is NaN.  numpy.median: the middle element of the sorted array, or the mean of the two middle
    ones; [sort] is the sort.  The array z is changed in place (2254): the second component is the caller's array afterwards. *)
Definition median (sort : list RR -> list RR) (l : list RR) : RR :=
  let n := length l in
  let m := sort l in
  if Nat.even n then (nth (Nat.div n 2 - 1) m 0 + nth (Nat.div n 2) m 0) / 2 else nth (Nat.div n 2) m 0.
Definition estimateDelta_arr (sort : list RR -> list RR) (FR Fz P2R P2z PRz : F2) (scf no_median : bool) (delta0 : RR) (Rz : list (RR * RR)) :
  list RR * list RR :=
  let zs := map (fun p => off_plane (snd p)) Rz in
  let d2 := map (fun p => delta2_floor scf delta0 (delta2_of FR Fz P2R P2z PRz (fst p) (off_plane (snd p)))) Rz in
  (if no_median then map sqrt d2 else [sqrt (median sort d2)], zs).
