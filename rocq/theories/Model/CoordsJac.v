(** Jacobian matrices of galpy/util/coords.py. *)
From Coq Require Import Reals.
From Verif.Lib Require Import Atan2 Vec3.
From Verif.Model Require Import Coords CoordsVec CoordsSky.
Open Scope R_scope.
Notation RR := RbaseSymbolsImpl.R (only parsing).

(** Six-component arrays are a pair of three-component ones, 6x6 matrices four 3x3 blocks. *)
Definition V6 : Type := V3 * V3.
Record M6 := mkM6 { b00 : M3; b01 : M3; b10 : M3; b11 : M3 }.
Definition mulM6 (m : M6) (x : V6) : V6 :=
  (vadd (mulMV (b00 m) (fst x)) (mulMV (b01 m) (snd x)), vadd (mulMV (b10 m) (fst x)) (mulMV (b11 m) (snd x))).
Definition zero33 : M3 := mkM vzero vzero vzero.

(** coords.py 1637-1690 with six arguments; columns are R, vR, vT | Z, vZ, phi *)
Definition cyl_to_rect_jac6 (R vR vT Z vZ phi : RR) : M6 :=
  let cp := cos phi in let sp := sin phi in
  mkM6 (mkM (mkV cp 0 0) (mkV sp 0 0) (mkV 0 0 0))
       (mkM (mkV 0 0 (- R * sp)) (mkV 0 0 (R * cp)) (mkV 1 0 0))
       (mkM (mkV 0 cp (- sp)) (mkV 0 sp cp) (mkV 0 0 0))
       (mkM (mkV 0 0 (- vT * cp - vR * sp)) (mkV 0 0 (- vT * sp + vR * cp)) (mkV 0 1 0)).
(** the same with three arguments: the columns R, Z, phi are selected and the last two swapped (1688-1689) *)
Definition cyl_to_rect_jac3 (R phi Z : RR) : M3 :=
  let cp := cos phi in let sp := sin phi in
  mkM (mkV cp (- R * sp) 0) (mkV sp (R * cp) 0) (mkV 0 0 1).

(** coords.py 1693-1740 *)
Definition galcenrect_to_XYZ_jac3 (Xsun Zsun : RR) : M3 :=
  let dgc := sqrt (Xsun ^ 2 + Zsun ^ 2) in
  let c := Xsun / dgc in let s := Zsun / dgc in
  mkM (mkV (- c) 0 (- s)) (mkV 0 1 0) (mkV (- nsign Xsun * s) 0 (nsign Xsun * c)).
Definition galcenrect_to_XYZ_jac6 (Xsun Zsun : RR) : M6 :=
  mkM6 (galcenrect_to_XYZ_jac3 Xsun Zsun) zero33 zero33 (galcenrect_to_XYZ_jac3 Xsun Zsun).

(** Multiplying the first two columns (lines 1796-1797, 1816-1817), or the first two rows (1901-1902, 1944-1945) *)
Definition colscale (k : RR) (m : M3) : M3 :=
  let f r := mkV (vx r * k) (vy r * k) (vz r) in mkM (f (r0 m)) (f (r1 m)) (f (r2 m)).
Definition rowscale (k : RR) (m : M3) : M3 :=
  let f r := mkV (vx r * k) (vy r * k) (vz r * k) in mkM (f (r0 m)) (f (r1 m)) (r2 m).
Definition degtorad : RR := PI / 180.

(** coords.py 1773-1798 *)
Definition lbd_to_XYZ_jac3 (degree : bool) (l b D : RR) : M3 :=
  let l := if degree then l * degtorad else l in
  let b := if degree then b * degtorad else b in
  let cl := cos l in let sl := sin l in let cb := cos b in let sb := sin b in
  let out := mkM (mkV (- D * cb * sl) (- D * sb * cl) (cb * cl))
                 (mkV (D * cb * cl) (- D * sb * sl) (cb * sl))
                 (mkV 0 (D * cb) sb) in
  if degree then colscale degtorad out else out.
(** coords.py 1773-1793, 1799-1818 *)
Definition lbd_to_XYZ_jac6 (K : RR) (degree : bool) (l b D vlos pmll pmbb : RR) : M6 :=
  let l := if degree then l * degtorad else l in
  let b := if degree then b * degtorad else b in
  let cl := cos l in let sl := sin l in let cb := cos b in let sb := sin b in
  let o00 := mkM (mkV (- D * cb * sl) (- D * sb * cl) (cb * cl))
                 (mkV (D * cb * cl) (- D * sb * sl) (cb * sl))
                 (mkV 0 (D * cb) sb) in
  let o10 := mkM (mkV (- sl * cb * vlos - cl * K * D * pmll + sb * sl * K * D * pmbb)
                      (- cl * sb * vlos - cb * cl * K * D * pmbb)
                      (- sl * K * pmll - sb * cl * K * pmbb))
                 (mkV (cl * cb * vlos - sl * K * D * pmll - cl * sb * K * D * pmbb)
                      (- sl * sb * vlos - sl * cb * K * D * pmbb)
                      (cl * K * pmll - sl * sb * K * pmbb))
                 (mkV 0 (cb * vlos - sb * K * D * pmbb) (cb * K * pmbb)) in
  let o11 := mkM (mkV (cl * cb) (- sl * K * D) (- cl * sb * K * D))
                 (mkV (sl * cb) (cl * K * D) (- sl * sb * K * D))
                 (mkV sb 0 (cb * K * D)) in
  mkM6 (if degree then colscale degtorad o00 else o00) zero33 (if degree then colscale degtorad o10 else o10) o11.

(** coords.py 1865-1903 and 1905-1946 *)
Definition XYZ_to_lbd_block (X Y Z : RR) : M3 :=
  let R2 := X * X + Y * Y in
  let D := sqrt (R2 + Z * Z) in
  let r := sqrt R2 in
  let cb := r / D in let sb := Z / D in
  let cl := if Req_EM_T r 0 then 1 else X / r in
  let sl := if Req_EM_T r 0 then 0 else Y / r in
  mkM (if Req_EM_T cb 0 then mkV 0 0 0 else mkV (- sl / (D * cb)) (cl / (D * cb)) 0)
      (mkV (- sb * cl / D) (- sb * sl / D) (cb / D))
      (mkV (cb * cl) (cb * sl) sb).
Definition XYZ_to_lbd_jac3 (degree : bool) (X Y Z : RR) : M3 :=
  let out := XYZ_to_lbd_block X Y Z in if degree then rowscale (1 / degtorad) out else out.
Definition XYZ_to_lbd_jac6 (K : RR) (degree : bool) (X Y Z vX vY vZ : RR) : M6 :=
  let R2 := X * X + Y * Y in
  let D := sqrt (R2 + Z * Z) in
  let r := sqrt R2 in
  let cb := r / D in let sb := Z / D in
  let cl := if Req_EM_T r 0 then 1 else X / r in
  let sl := if Req_EM_T r 0 then 0 else Y / r in
  let o00 := XYZ_to_lbd_block X Y Z in
  let KD := K * D in
  let o11 := if Req_EM_T KD 0 then mkM (mkV (cl * cb) (sl * cb) sb) vzero vzero
             else mkM (mkV (cl * cb) (sl * cb) sb) (mkV (- sl / KD) (cl / KD) 0)
                      (mkV (- cl * sb / KD) (- sl * sb / KD) (cb / KD)) in
  let vlos := cl * cb * vX + sl * cb * vY + sb * vZ in
  let pmll := if Req_EM_T KD 0 then 0 else (- sl * vX + cl * vY) / KD in
  let pmbb := if Req_EM_T KD 0 then 0 else (- cl * sb * vX - sl * sb * vY + cb * vZ) / KD in
  let Q := mkM (mkV (- sl * cb * vlos - cl * KD * pmll + sb * sl * KD * pmbb)
                    (- cl * sb * vlos - cb * cl * KD * pmbb)
                    (- sl * K * pmll - sb * cl * K * pmbb))
               (mkV (cl * cb * vlos - sl * KD * pmll - cl * sb * KD * pmbb)
                    (- sl * sb * vlos - sl * cb * KD * pmbb)
                    (cl * K * pmll - sl * sb * K * pmbb))
               (mkV 0 (cb * vlos - sb * KD * pmbb) (cb * K * pmbb)) in
  let o10 := mulMM (mulMM (scalM (-1) o11) Q) o00 in
  mkM6 (if degree then rowscale (1 / degtorad) o00 else o00) zero33 o10 o11.

(** coords.py 1975-2024; rows are R, vR, vT | z, vz, phi *)
Definition galcenrect_to_galcencyl_jac (x y z vx vy vz : RR) : M6 :=
  let R := sqrt (x * x + y * y) in
  let R := if Req_EM_T R 0 then 1 / 10 ^ 30 else R in
  let cp := x / R in let sp := y / R in
  let vR := cp * vx + sp * vy in
  let vT := - sp * vx + cp * vy in
  mkM6 (mkM (mkV cp sp 0) (mkV (- sp * vT / R) (cp * vT / R) 0) (mkV (sp * vR / R) (- cp * vR / R) 0))
       (mkM (mkV 0 0 0) (mkV cp sp 0) (mkV (- sp) cp 0))
       (mkM (mkV 0 0 1) (mkV 0 0 0) (mkV (- sp / R) (cp / R) 0))
       (mkM (mkV 0 0 0) (mkV 0 0 1) (mkV 0 0 0)).

(** The derivatives of the angle of [pm_angle] with respect to ra and dec: 2088-2099 and 2195-2209.  The result is
    (cosa, sina, dalpha_dra, dalpha_ddec). *)
Definition pm_angle_jac (dec_p ra_p ra dec : RR) : RR * RR * RR * RR :=
  let kappa := sin dec_p * cos dec - cos dec_p * sin dec * cos (ra - ra_p) in
  let sigma := sin (ra - ra_p) * cos dec_p in
  let nrm2 := kappa * kappa + sigma * sigma in
  let nrm := sqrt nrm2 in
  let dsig_dra := cos dec_p * cos (ra - ra_p) in
  let dkap_dra := cos dec_p * sin dec * sin (ra - ra_p) in
  let dkap_ddec := - sin dec_p * sin dec - cos dec_p * cos dec * cos (ra - ra_p) in
  (kappa / nrm, sigma / nrm, (kappa * dsig_dra - sigma * dkap_dra) / nrm2, (- sigma * dkap_ddec) / nrm2).

(** coords.py 2027-2135.  [e] are the angles of the requested epoch, used for the angle between the frames; [e0] those of the
    default epoch 2000.0, which line 2077 uses for the position whatever the epoch requested.  Rows and columns are
    (longitude, latitude, D | pm longitude, pm latitude, vlos). *)
Definition galsky_to_sky_jac (degree : bool) (e0 e : epoch_angles) (l b pmll pmbb : RR) : M6 :=
  let l := if degree then l * degtorad else l in
  let b := if degree then b * degtorad else b in
  let cosb := cos b in
  let '(ra, dec) := lb_to_radec false e0 l b in
  let cosdec := cos dec in
  let '(cosa, sina, dalpha_dra, dalpha_ddec) := pm_angle_jac (dec_ngp e) (ra_ngp e) ra dec in
  let dra_dl := cosa * cosb / cosdec in
  let dra_db := - sina / cosdec in
  let ddec_dl := sina * cosb in
  let ddec_db := cosa in
  let pmra := cosa * pmll - sina * pmbb in
  let pmdec := sina * pmll + cosa * pmbb in
  let dalpha_dl := dalpha_dra * dra_dl + dalpha_ddec * ddec_dl in
  let dalpha_db := dalpha_dra * dra_db + dalpha_ddec * ddec_db in
  let k := if degree then degtorad else 1 in
  mkM6 (mkM (mkV dra_dl dra_db 0) (mkV ddec_dl ddec_db 0) (mkV 0 0 1)) zero33
       (mkM (mkV (- pmdec * dalpha_dl * k) (- pmdec * dalpha_db * k) 0)
            (mkV (pmra * dalpha_dl * k) (pmra * dalpha_db * k) 0) vzero)
       (mkM (mkV cosa (- sina) 0) (mkV sina cosa 0) (mkV 0 0 1)).

(** coords.py 2138-2237 (with T given; without it a ValueError is raised) *)
Definition sky_to_customsky_jac (degree : bool) (T : M3) (ra dec pmra pmdec : RR) : M6 :=
  let ra := if degree then ra * degtorad else ra in
  let dec := if degree then dec * degtorad else dec in
  let cosdec := cos dec in
  let '(ra_pole, dec_pole) := custom_to_radec false T 0 (PI / 2) in
  let '(cosa2, sina2, dalpha2_dra, dalpha2_ddec) := pm_angle_jac dec_pole ra_pole ra dec in
  let cosphi2 := cos (snd (radec_to_custom false T ra dec)) in
  let pmphi1 := cosa2 * pmra + sina2 * pmdec in
  let pmphi2 := - sina2 * pmra + cosa2 * pmdec in
  let k := if degree then degtorad else 1 in
  mkM6 (mkM (mkV (cosa2 * cosdec / cosphi2) (sina2 / cosphi2) 0) (mkV (- sina2 * cosdec) cosa2 0) (mkV 0 0 1)) zero33
       (mkM (mkV (pmphi2 * dalpha2_dra * k) (pmphi2 * dalpha2_ddec * k) 0)
            (mkV (- pmphi1 * dalpha2_dra * k) (- pmphi1 * dalpha2_ddec * k) 0) vzero)
       (mkM (mkV cosa2 sina2 0) (mkV (- sina2) cosa2 0) (mkV 0 0 1)).
