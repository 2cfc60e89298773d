(** Celestial and custom sky frames of galpy/util/coords.py over exact reals, for the branch taken
    when astropy's coordinates are not used ([_APY_COORDS] false; the astropy branch 210-216, 286-295
    is not modelled).  Arrays are modelled element by element. *)
From Coq Require Import Reals.
From Verif.Lib Require Import Atan2 Vec3.
From Verif.Model Require Import CoordsVec.
Open Scope R_scope.
Notation RR := RbaseSymbolsImpl.R (only parsing).

(** The result of get_epoch_angles *)
Record epoch_angles := mkE { theta : RR; dec_ngp : RR; ra_ngp : RR }.
(** The epochs get_epoch_angles distinguishes without astropy *)
Inductive epoch := J2000 | B1950 | ICRS | OtherEpoch.
(** coords.py 3013-3069 with _APY_LOADED false; [None] is the OSError of 3066 *)
Definition get_epoch_angles (e : epoch) : option epoch_angles :=
  match e with
  | J2000 => Some (mkE (1229319185680026 / 10 ^ 13 / 180 * PI) (2712825118085622 / 10 ^ 14 / 180 * PI)
                       (1928594812065348 / 10 ^ 13 / 180 * PI))
  | B1950 => Some (mkE (123 / 180 * PI) (274 / 10 / 180 * PI) (19225 / 100 / 180 * PI))
  | ICRS => Some (mkE (21455668515225916 / 10 ^ 16) (4734773249532947 / 10 ^ 16) (3366032882941063 / 10 ^ 15))
  | OtherEpoch => None
  end.

(** coords.py 245-247, 324-326, 2774-2776 *)
Definition unit_vector (a d : RR) : V3 := mkV (cos d * cos a) (cos d * sin a) (sin d).

(** coords.py 219-243 *)
Definition T_eq_to_gal (e : epoch_angles) : M3 :=
  mulMM (mkM (mkV (cos (theta e)) (sin (theta e)) 0) (mkV (sin (theta e)) (- cos (theta e)) 0) (mkV 0 0 1))
 (mulMM (mkM (mkV (- sin (dec_ngp e)) 0 (cos (dec_ngp e))) (mkV 0 1 0) (mkV (cos (dec_ngp e)) 0 (sin (dec_ngp e))))
        (mkM (mkV (cos (ra_ngp e)) (sin (ra_ngp e)) 0) (mkV (- sin (ra_ngp e)) (cos (ra_ngp e)) 0) (mkV 0 0 1))).
(** coords.py 298-322 *)
Definition T_gal_to_eq (e : epoch_angles) : M3 :=
  mulMM (mkM (mkV (cos (ra_ngp e)) (- sin (ra_ngp e)) 0) (mkV (sin (ra_ngp e)) (cos (ra_ngp e)) 0) (mkV 0 0 1))
 (mulMM (mkM (mkV (- sin (dec_ngp e)) 0 (cos (dec_ngp e))) (mkV 0 1 0) (mkV (cos (dec_ngp e)) 0 (sin (dec_ngp e))))
        (mkM (mkV (cos (theta e)) (sin (theta e)) 0) (mkV (sin (theta e)) (- cos (theta e)) 0) (mkV 0 0 1))).

(** coords.py 249-250 *)
Definition clamp (z : RR) : RR :=
  let z := if Rlt_dec 1 z then 1 else z in if Rlt_dec z (-1) then -1 else z.

(** coords.py 184-255 *)
Definition radec_to_lb (degree : bool) (e : epoch_angles) (ra dec : RR) : RR * RR :=
  let ra := deg_in degree ra in let dec := deg_in degree dec in
  let g := mulMV (T_eq_to_gal e) (unit_vector ra dec) in
  let b := asin (clamp (vz g)) in
  let l := wrap2pi (atan2 (vy g / cos b) (vx g / cos b)) in
  (deg_out degree l, deg_out degree b).
(** coords.py 260-331 *)
Definition lb_to_radec (degree : bool) (e : epoch_angles) (l b : RR) : RR * RR :=
  let l := deg_in degree l in let b := deg_in degree b in
  let q := mulMV (T_gal_to_eq e) (unit_vector l b) in
  let dec := asin (vz q) in
  let ra := wrap2pi (atan2 (vy q) (vx q)) in
  (deg_out degree ra, deg_out degree dec).

(** coords.py 651, 708, 2821: [dec[dec == dec_ngp] += 10.0**-16] *)
Definition nudge (dec_ngp dec : RR) : RR := if Req_EM_T dec dec_ngp then dec + 1 / 10 ^ 16 else dec.
(** coords.py 652-665, 709-722, 2822-2832: (cosphi, sinphi), normalised *)
Definition pm_angle (dec_ngp ra_ngp ra dec : RR) : RR * RR :=
  let dec := nudge dec_ngp dec in
  let c := sin dec_ngp * cos dec - cos dec_ngp * sin dec * cos (ra - ra_ngp) in
  let s := sin (ra - ra_ngp) * cos dec_ngp in
  let norm := sqrt (c ^ 2 + s ^ 2) in
  (c / norm, s / norm).
(** coords.py 620-669: the array product, summed over its last axis, is
    (cosphi pmra + sinphi pmdec, -sinphi pmra + cosphi pmdec) *)
Definition pmrapmdec_to_pmllpmbb (degree : bool) (e : epoch_angles) (pmra pmdec ra dec : RR) : RR * RR :=
  let ra := deg_in degree ra in let dec := deg_in degree dec in
  let '(c, s) := pm_angle (dec_ngp e) (ra_ngp e) ra dec in
  (c * pmra + s * pmdec, - s * pmra + c * pmdec).
(** coords.py 674-726 *)
Definition pmllpmbb_to_pmrapmdec (degree : bool) (e : epoch_angles) (pmll pmbb l b : RR) : RR * RR :=
  let l := deg_in degree l in let b := deg_in degree b in
  let '(ra, dec) := lb_to_radec false e l b in
  let '(c, s) := pm_angle (dec_ngp e) (ra_ngp e) ra dec in
  (c * pmll + - s * pmbb, s * pmll + c * pmbb).

(** coords.py 2745-2782 (with T given; without it a ValueError is raised) *)
Definition radec_to_custom (degree : bool) (T : M3) (ra dec : RR) : RR * RR :=
  let ra := deg_in degree ra in let dec := deg_in degree dec in
  let g := mulMV T (unit_vector ra dec) in
  let b := asin (vz g) in
  let l := wrap2pi (atan2 (vy g) (vx g)) in
  (deg_out degree l, deg_out degree b).
(** coords.py 2839-2870 *)
Definition custom_to_radec (degree : bool) (T : M3) (phi1 phi2 : RR) : RR * RR :=
  radec_to_custom degree (transp T) phi1 phi2.
(** coords.py 2787-2836 *)
Definition pmrapmdec_to_custom (degree : bool) (T : M3) (pmra pmdec ra dec : RR) : RR * RR :=
  let ra := deg_in degree ra in let dec := deg_in degree dec in
  let '(ra_p, dec_p) := custom_to_radec false T 0 (PI / 2) in
  let '(c, s) := pm_angle dec_p ra_p ra dec in
  (c * pmra + s * pmdec, - s * pmra + c * pmdec).
(** coords.py 2873-2910 *)
Definition custom_to_pmrapmdec (degree : bool) (T : M3) (pmphi1 pmphi2 phi1 phi2 : RR) : RR * RR :=
  pmrapmdec_to_custom degree (transp T) pmphi1 pmphi2 phi1 phi2.
