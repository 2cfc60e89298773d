(** Covariance propagation of galpy/util/coords.py, for one object (the code loops over the first axis with einsum). *)
From Coq Require Import Reals.
From Verif.Lib Require Import Atan2 Vec3.
From Verif.Model Require Import Coords CoordsVec CoordsSky.
Open Scope R_scope.
Notation RR := RbaseSymbolsImpl.R (only parsing).

(** Two by two matrices, entries row by row. *)
Record M2 := mkM2 { m00 : RR; m01 : RR; m10 : RR; m11 : RR }.
Definition mul2 (a b : M2) : M2 :=
  mkM2 (m00 a * m00 b + m01 a * m10 b) (m00 a * m01 b + m01 a * m11 b)
       (m10 a * m00 b + m11 a * m10 b) (m10 a * m01 b + m11 a * m11 b).
Definition transp2 (a : M2) : M2 := mkM2 (m00 a) (m10 a) (m01 a) (m11 a).

(** coords.py 729-793; no treatment of the pole here *)
Definition cov_pmrapmdec_to_pmllpmbb (degree : bool) (e : epoch_angles) (cov : M2) (ra dec : RR) : M2 :=
  let ra := if degree then ra * (PI / 180) else ra in
  let dec := if degree then dec * (PI / 180) else dec in
  let cosphi := sin (dec_ngp e) * cos dec - cos (dec_ngp e) * sin dec * cos (ra - ra_ngp e) in
  let sinphi := sin (ra - ra_ngp e) * cos (dec_ngp e) in
  let norm := sqrt (cosphi ^ 2 + sinphi ^ 2) in
  let cosphi := cosphi / norm in
  let sinphi := sinphi / norm in
  let P := mkM2 cosphi sinphi (- sinphi) cosphi in
  mul2 P (mul2 cov (transp2 P)).

(** A 2x3 matrix as its two rows; M C M^T for a 3x3 matrix C *)
Definition congr23 (a b : V3) (c : M3) : M2 :=
  mkM2 (vdot a (mulMV c a)) (vdot a (mulMV c b)) (vdot b (mulMV c a)) (vdot b (mulMV c b)).
(** The block matrix diag(x, m): lines 851-853 and 859-861 *)
Definition block12 (x : RR) (m : M2) : M3 :=
  mkM (mkV x 0 0) (mkV 0 (m00 m) (m01 m)) (mkV 0 (m10 m) (m11 m)).
(** coords.py 796-875 *)
Definition cov_dvrpmllbb_to_vxyz (K : RR) (plx degree : bool) (d e_d e_vr pmll pmbb : RR) (cov : M2) (l b : RR) : M3 :=
  let d1 := if plx then 1 / d else d in
  let e_d := if plx then e_d * d1 ^ 2 else e_d in
  let l := if degree then l * (PI / 180) else l in
  let b := if degree then b * (PI / 180) else b in
  let Ml := vscal K (mkV pmll d1 0) in
  let Mb := vscal K (mkV pmbb 0 d1) in
  let cov_vlvb := congr23 Ml Mb (block12 (e_d ^ 2) cov) in
  let cov_vrvlvb := block12 (e_vr ^ 2) cov_vlvb in
  let Rm := sky_matrix l b in
  mulMM (transp Rm) (mulMM cov_vrvlvb Rm).

(** coords.py 908-944 *)
Definition cov_vxyz_to_galcenrect (Xsun Zsun : RR) (cov : M3) : M3 :=
  let Rm := tilt Xsun Zsun in mulMM (transp Rm) (mulMM cov Rm).
(** coords.py 947-985 *)
Definition cov_galcenrect_to_galcencyl (cov : M3) (phi : RR) : M3 :=
  let Rm := mkM (mkV (cos phi) (sin phi) 0) (mkV (- sin phi) (cos phi) 0) (mkV 0 0 1) in
  mulMM Rm (mulMM cov (transp Rm)).
(** coords.py 878-905 *)
Definition cov_vxyz_to_galcencyl (Xsun Zsun : RR) (cov : M3) (phi : RR) : M3 :=
  cov_galcenrect_to_galcencyl (cov_vxyz_to_galcenrect Xsun Zsun cov) phi.
