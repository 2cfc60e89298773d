(** potential/RingPotential.py and potential/AnyAxisymmetricRazorThinDiskPotential.py over exact reals; quadratures are integrals.
    [ellipk], [ellipe] are scipy.special's complete elliptic integrals of the parameter m, ellipkm1(p) = ellipk(1 - p).
    [top] is a radius beyond which the surface density vanishes, so that an integral up to infinity is one up to [top].
    Not modelled: units; the test for an infinite radius. *)
From Coq Require Import Reals.
From Coquelicot Require Import Coquelicot.
From Verif.Lib Require Import RealAux.
From Verif.Model Require Import PotAPI.
Open Scope R_scope.
Notation RR := RbaseSymbolsImpl.R (only parsing).

Definition ellipk (m : RR) : RR := RInt (fun th => / sqrt (1 - m * sin th ^ 2)) 0 (PI / 2).
Definition ellipe (m : RR) : RR := RInt (fun th => sqrt (1 - m * sin th ^ 2)) 0 (PI / 2).
Definition ellipkm1 (p : RR) : RR := ellipk (1 - p).

(** ** RingPotential.py *)
Section Ring.
  Variable a : RR.
  Definition a2 : RR := a ^ 2.                                                                (* 45 *)
  Definition raz2 (R z : RR) : RR := (R + a) ^ 2 + z ^ 2.
  Definition rm (R z : RR) : RR := 4 * R * a / raz2 R z.
  (** 59-62 *)
  Definition ring_ev (R z : RR) : RR := let m := 4 * a / ((sqrt R + a / sqrt R) ^ 2 + z ^ 2 / R) in - 4 * a / sqrt (raz2 R z) * ellipk m.
  (** 64-81 *)
  Definition ring_Rf (R z : RR) : RR := let m := rm R z in
    - 2 * a / R / sqrt (raz2 R z) * (m * (R ^ 2 - a2 - z ^ 2) / 4 / (1 - m) / a / R * ellipe m + ellipk m).
  (** 83-92 *)
  Definition ring_zf (R z : RR) : RR := let m := rm R z in - 4 * z * a / (1 - m) * rpow (raz2 R z) (- (3 / 2)) * ellipe m.
  (** 94-119 *)
  Definition ring_R2 (R z : RR) : RR := let Raz2 := raz2 R z in let Raz := sqrt Raz2 in let m := rm R z in
    let R2ma2mz2o4aR1m := (R ^ 2 - a2 - z ^ 2) / 4 / a / R / (1 - m) in
    (2 * R ^ 2 + a2 + 3 * R * a + z ^ 2) / R / Raz2 * ring_Rf R z
    + 2 * a / R / Raz * (m * (R ^ 2 + a2 + z ^ 2) / 4 / (1 - m) / a / R ^ 2 * ellipe m
        + (R2ma2mz2o4aR1m / (1 - m) * ellipe m + 1 / 2 * R2ma2mz2o4aR1m * (ellipe m - ellipk m) + 1 / 2 * (ellipe m / (1 - m) - ellipk m) / m)
          * 4 * a * (a2 + z ^ 2 - R ^ 2) / Raz2 ^ 2).
  (** 121-142 *)
  Definition ring_z2 (R z : RR) : RR := let Raz2 := raz2 R z in let m := rm R z in
    - 4 * (3 * z ^ 2 / Raz2 - 1 + 4 * ((1 + m) / (1 - m) - ellipk m / ellipe m) * a * R * z ^ 2 / Raz2 ^ 2 / m) * a / (1 - m) * rpow (raz2 R z) (- (3 / 2)) * ellipe m.
  (** 144-154 *)
  Definition ring_Rz (R z : RR) : RR := let Raz2 := raz2 R z in let m := rm R z in
    (3 * (R + a) / Raz2 - 2 * ((1 + m) / (1 - m) - ellipk m / ellipe m) * a * (a2 + z ^ 2 - R ^ 2) / Raz2 ^ 2 / m) * ring_zf R z.
  Definition ring_class : PotC := mkAxi ring_ev ring_Rf ring_zf (Some ring_R2) (Some ring_z2) (Some ring_Rz) None.
  (** 46: the amplitude handed to the class is divided by the length of the ring *)
  Definition ring_amp (amp : RR) : RR := amp / (2 * PI * a).
  Definition ring_pot (amp : RR) : Pot := Single (ring_amp amp) ring_class.
  (** 47-55: ValueError for a > 1 *)
  Definition ring_normalize (amp norm : RR) : option Pot := if Rlt_dec 1 a then None else Some (normalize (ring_pot amp) norm).
End Ring.

(** ** AnyAxisymmetricRazorThinDiskPotential.py *)
Section Disk.
  Variables (sdens : RR -> RR) (top : RR).
  Definition quad_inf (g : RR -> RR) (x : RR) : RR := RInt g x (Rmax x top).
  (** 58-88 _quad_apeak *)
  Definition quad_apeak (f : RR -> RR -> RR -> RR) (R z : RR) : RR :=
    let az := Rabs z in let g a := f a (a - R) ((a - R) ^ 2 + z ^ 2) in
    let plain := RInt g 0 R + RInt g R (2 * R) + quad_inf g (2 * R) in
    if Req_EM_T az 0 then plain else if Rle_dec (/ 10 ^ 4 * R) az then plain
    else let z2 := z ^ 2 in let tlim := Rmin (10 ^ 4) (R / az) in let lo := R - az * tlim in let hi := R + az * tlim in
      RInt (fun t => f (R + az * t) (az * t) (z2 * (1 + t * t)) * az) (- tlim) tlim + RInt g 0 lo + RInt g hi (2 * R) + quad_inf g (2 * R).
  (** 91-127 _finite_part_quad *)
  Definition finite_part_quad (f : RR -> RR) (R az C : RR) : RR :=
    let sym u := f u + f (- u) in
    let inner := if Req_EM_T az 0 then RInt (fun u => sym u - 2 * C / (u * u)) 0 R - 2 * C / R
                 else RInt (fun t => sym (az * sinh t) * az * cosh t) 0 (arcsinh (R / az)) in
    - 4 * (inner + RInt f R (Rmax R (top - R))).
  (** 200-203 *)
  Definition pot_zero : RR := - 2 * PI * RInt sdens 0 top.
  (** 209-233 *)
  Definition disk_ev (R z : RR) : RR :=
    let potint a (u d2 : RR) := let aRz := (R + a) ^ 2 + z ^ 2 in a * sdens a / sqrt aRz * ellipkm1 (d2 / aRz) in
    if Req_EM_T R 0 then (if Req_EM_T z 0 then pot_zero else - 4 * quad_apeak potint R z) else - 4 * quad_apeak potint R z.
  (** 235-264 *)
  Definition disk_Rf (R z : RR) : RR := let R2 := R ^ 2 in let z2 := z ^ 2 in
    let rforceint a := let a2 := a ^ 2 in let aRz := (a + R) ^ 2 + z2 in let m := Rmin (4 * a * R / aRz) 1 in let km1 := ((a - R) ^ 2 + z2) / aRz in
      a * sdens a * ((a2 - R2 + z2) * ellipe m - ((a - R) ^ 2 + z2) * ellipkm1 km1) / R / ((a - R) ^ 2 + z2) / sqrt aRz in
    2 * (RInt rforceint 0 R + RInt rforceint R (2 * R) + quad_inf rforceint (2 * R)).
  (** 266-282 *)
  Definition disk_zf (R z : RR) : RR := if Req_EM_T z 0 then 0 else let z2 := z ^ 2 in
    let zforceint a (u d2 : RR) := let aRz := (a + R) ^ 2 + z2 in let m := Rmin (4 * a * R / aRz) 1 in a * sdens a * ellipe m / d2 / sqrt aRz in
    - 4 * z * quad_apeak zforceint R z.
  Definition zfloor : RR := / 10 ^ 9.                                                          (* 30 *)
  Definition floored (z : RR) : RR := let az := Rabs z in if Rlt_dec az zfloor then 0 else az.
  (** 284-327 *)
  Definition disk_R2 (R z : RR) : RR := let R2 := R ^ 2 in let az := floored z in let z2 := az ^ 2 in
    let r2derivint d := let a := R + d in let a2 := R2 + 2 * R * d + d * d in let dz := d * d + z2 in let a2mR2 := d * (2 * R + d) in let aRz := (2 * R + d) ^ 2 + z2 in
      let m := Rmin (4 * a * R / aRz) 1 in
      a * sdens a * (- (((a2 - 3 * R2) * a2mR2 ^ 2 + (3 * a2 ^ 2 + 2 * a2 * R2 + 3 * R2 ^ 2) * z2 + (3 * a2 + 7 * R2) * z2 ^ 2 + z2 ^ 3) * ellipe m)
        + dz * (a2mR2 ^ 2 + 2 * (a2 + 2 * R2) * z2 + z2 ^ 2) * ellipkm1 (dz / aRz)) / (2 * R2 * dz ^ 2 * rpow aRz (3 / 2)) in
    finite_part_quad r2derivint R az (sdens R / 2).
  (** 329-361 *)
  Definition disk_z2 (R z : RR) : RR := let R2 := R ^ 2 in let az := floored z in let z2 := az ^ 2 in
    let z2derivint d := let a := R + d in let a2 := R2 + 2 * R * d + d * d in let dz := d * d + z2 in let a2mR2 := d * (2 * R + d) in let aRz := (2 * R + d) ^ 2 + z2 in
      let m := Rmin (4 * a * R / aRz) 1 in
      a * sdens a * (- ((a2mR2 ^ 2 - 2 * (a2 + R2) * z2 - 3 * z2 ^ 2) * ellipe m) - z2 * dz * ellipkm1 (dz / aRz)) / (dz ^ 2 * rpow aRz (3 / 2)) in
    finite_part_quad z2derivint R az (- sdens R / 2).
  (** 363-395 *)
  Definition disk_Rz (R z : RR) : RR := let R2 := R ^ 2 in let z2 := z ^ 2 in
    let rzderivint a u d2 := let aRz := (a + R) ^ 2 + z2 in let m := Rmin (4 * a * R / aRz) 1 in
      let ecoeff := u * (16 * R2 * R + 4 * R * z2 + 4 * R * u * u) + u * u * (12 * R2 + 2 * z2) + u ^ 4 - 4 * R2 * z2 + z2 * z2 in
      let kcoeff := d2 * (2 * R * u + d2) in
      a * sdens a * (- ecoeff * ellipe m + kcoeff * ellipkm1 (d2 / aRz)) / R / d2 ^ 2 / rpow aRz (3 / 2) in
    - 2 * z * quad_apeak rzderivint R z.
  (** 397-398 *)
  Definition disk_sigma (R : RR) : RR := sdens R.
  Definition disk_class : PotC := mkAxi disk_ev disk_Rf disk_zf (Some disk_R2) (Some disk_z2) (Some disk_Rz) None.
End Disk.
