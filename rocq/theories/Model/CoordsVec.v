(** Velocity transformations of galpy/util/coords.py over exact reals.
    Arrays are modelled element by element: every function below is applied by the code to
    each entry of its array arguments independently. *)
From Coq Require Import Reals.
From Verif.Lib Require Import Atan2 Vec3.
From Verif.Model Require Import Coords.
Open Scope R_scope.
Notation RR := RbaseSymbolsImpl.R (only parsing).

(** coords.py 100: _K, the conversion from mas/yr times kpc to km/s.  (With astropy the
    module computes it instead: 95-98.)  Theorems hold for any non-zero value, so it is a parameter. *)
Definition K_default : RR := 474047 / 100000.

(** coords.py 1504-1536 *)
Definition cyl_to_spher_vec (vR vT vz R z : RR) : V3 :=
  let r := sqrt (R ^ 2 + z ^ 2) in
  mkV ((R * vR + z * vz) / r) vT ((z * vR - R * vz) / r).
(** coords.py 1539-1565 *)
Definition spher_to_cyl_vec (vr vT vtheta theta : RR) : V3 :=
  mkV (vr * sin theta + vtheta * cos theta) vT (vr * cos theta - vtheta * sin theta).
(** coords.py 1568-1605; [cyl] says that X, Y, Z are really R, phi, Z *)
Definition rect_to_cyl_vec (vx vy vz X Y Z : RR) (cyl : bool) : V3 :=
  let phi := if cyl then Y else (let '(_, phi, _) := rect_to_cyl X Y Z in phi) in
  mkV (vx * cos phi + vy * sin phi) (- vx * sin phi + vy * cos phi) vz.
(** coords.py 1608-1634 *)
Definition cyl_to_rect_vec (vr vt vz phi : RR) : V3 :=
  mkV (vr * cos phi - vt * sin phi) (vr * sin phi + vt * cos phi) vz.

(** coords.py 167-171 and 172-174: degreeDecorator *)
Definition deg_in (degree : bool) (a : RR) : RR := if degree then a * PI / 180 else a.
Definition deg_out (degree : bool) (a : RR) : RR := if degree then a * (180 / PI) else a.

(** coords.py 253, 330, 610, 2780: [l[l < 0] += 2*pi] *)
Definition wrap2pi (l : RR) : RR := if Rlt_dec l 0 then l + 2 * PI else l.

(** coords.py 581-615; the result is (l, b, d) *)
Definition XYZ_to_lbd (degree : bool) (X Y Z : RR) : V3 :=
  let d := sqrt (X ^ 2 + Y ^ 2 + Z ^ 2) in
  let b := asin (Z / d) in
  let l := wrap2pi (atan2 Y X) in
  mkV (deg_out degree l) (deg_out degree b) d.
(** coords.py 336-369 *)
Definition lbd_to_XYZ (degree : bool) (l b d : RR) : V3 :=
  let l := deg_in degree l in let b := deg_in degree b in
  mkV (d * cos b * cos l) (d * cos b * sin l) (d * sin b).

(** The matrix of coords.py 500-508 (and, transposed, of 563-571): rows are the radial, l and b directions *)
Definition sky_matrix (l b : RR) : M3 :=
  mkM (mkV (cos l * cos b) (sin l * cos b) (sin b))
      (mkV (- sin l) (cos l) 0)
      (mkV (- cos l * sin b) (- sin l * sin b) (cos b)).

(** coords.py 456-516.  [XYZ]: the three last arguments are X,Y,Z; the conversion to radians
    that the decorator made of two of them is undone (492-495). *)
Definition vrpmllpmbb_to_vxvyvz (K : RR) (degree XYZ : bool) (vr pmll pmbb a1 a2 a3 : RR) : V3 :=
  let a1 := deg_in degree a1 in let a2 := deg_in degree a2 in
  let lbd := if XYZ then
               (let a1 := if degree then a1 * (180 / PI) else a1 in
                let a2 := if degree then a2 * (180 / PI) else a2 in
                XYZ_to_lbd false a1 a2 a3)
             else mkV a1 a2 a3 in
  let l := vx lbd in let b := vy lbd in let d := vz lbd in
  (* 509-516: R.T * invr.T summed over the last axis is the transpose of [sky_matrix] times (vr, d pmll K, d pmbb K) *)
  mulMV (transp (sky_matrix l b)) (mkV vr (d * pmll * K) (d * pmbb * K)).
(** coords.py 519-576 *)
Definition vxvyvz_to_vrpmllpmbb (K : RR) (degree XYZ : bool) (v1 v2 v3 a1 a2 a3 : RR) : V3 :=
  let a1 := deg_in degree a1 in let a2 := deg_in degree a2 in
  let lbd := if XYZ then
               (let a1 := if degree then a1 * (180 / PI) else a1 in
                let a2 := if degree then a2 * (180 / PI) else a2 in
                XYZ_to_lbd false a1 a2 a3)
             else mkV a1 a2 a3 in
  let l := vx lbd in let b := vy lbd in let d := vz lbd in
  let vrvlvb := mulMV (sky_matrix l b) (mkV v1 v2 v3) in
  mkV (vx vrvlvb) (vy vrvlvb / (d * K)) (vz vrvlvb / (d * K)).

(** coords.py 372-412 *)
Definition rectgal_to_sphergal (K : RR) (degree : bool) (x v : V3) : V3 * V3 :=
  (XYZ_to_lbd degree (vx x) (vy x) (vz x),
   vxvyvz_to_vrpmllpmbb K false true (vx v) (vy v) (vz v) (vx x) (vy x) (vz x)).
(** coords.py 415-453 *)
Definition sphergal_to_rectgal (K : RR) (degree : bool) (x v : V3) : V3 * V3 :=
  (lbd_to_XYZ degree (vx x) (vy x) (vz x),
   vrpmllpmbb_to_vxvyvz K degree false (vx v) (vy v) (vz v) (vx x) (vy x) (vz x)).

(** coords.py 1949-1972 *)
Definition galcencyl_to_galcenrect (R vR vT z vz phi : RR) : V3 * V3 :=
  let '(x, y, zc) := cyl_to_rect R phi z in (mkV x y zc, cyl_to_rect_vec vR vT vz phi).

(** numpy.sign *)
Definition nsign (x : RR) : RR := if Rlt_dec x 0 then -1 else if Rlt_dec 0 x then 1 else 0.

(** coords.py 1035-1037: the rotation by the angle of the Sun's height *)
Definition tilt (Xsun Zsun : RR) : M3 :=
  let dgc := sqrt (Xsun ^ 2 + Zsun ^ 2) in
  let c := Xsun / dgc in let s := Zsun / dgc in
  mkM (mkV c 0 (- s)) (mkV 0 1 0) (mkV s 0 c).
(** coords.py 1086-1092 *)
Definition untilt (Xsun Zsun : RR) : M3 :=
  let dgc := sqrt (Xsun ^ 2 + Zsun ^ 2) in
  let c := Xsun / dgc in let s := Zsun / dgc in
  mkM (mkV (- c) 0 (- s)) (mkV 0 1 0) (mkV (- nsign Xsun * s) 0 (nsign Xsun * c)).

(** coords.py 989-1039.  [E] is galcen_extra_rot (3107-3168), a constant matrix of the module: [None] is
    _extra_rot=False. *)
Definition XYZ_to_galcenrect (E : option M3) (Xsun Zsun : RR) (x : V3) : V3 :=
  let x := match E with Some m => mulMV m x | None => x end in
  let dgc := sqrt (Xsun ^ 2 + Zsun ^ 2) in
  mulMV (tilt Xsun Zsun) (mkV (- vx x + dgc) (vy x) (nsign Xsun * vz x)).
(** coords.py 1043-1100 *)
Definition galcenrect_to_XYZ (E : option M3) (Xsun Zsun : RR) (x : V3) : V3 :=
  let dgc := sqrt (Xsun ^ 2 + Zsun ^ 2) in
  let out := vadd (mulMV (untilt Xsun Zsun) x) (mkV dgc 0 0) in
  match E with Some m => mulMV (transp m) out | None => out end.
(** coords.py 1279-1337 *)
Definition vxvyvz_to_galcenrect (E : option M3) (vsun : V3) (Xsun Zsun : RR) (v : V3) : V3 :=
  let v := match E with Some m => mulMV m v | None => v end in
  vadd (mulMV (tilt Xsun Zsun) (mkV (- vx v) (vy v) (nsign Xsun * vz v))) vsun.
(** coords.py 1401-1458 *)
Definition galcenrect_to_vxvyvz (E : option M3) (vsun : V3) (Xsun Zsun : RR) (v : V3) : V3 :=
  let out := mulMV (untilt Xsun Zsun) (mkV (vx v - vx vsun) (vy v - vy vsun) (vz v - vz vsun)) in
  match E with Some m => mulMV (transp m) out | None => out end.
(** coords.py 1209-1241; the result is (R, phi, z) *)
Definition XYZ_to_galcencyl (E : option M3) (Xsun Zsun : RR) (x : V3) : V3 :=
  let g := XYZ_to_galcenrect E Xsun Zsun x in
  let '(R, phi, z) := rect_to_cyl (vx g) (vy g) (vz g) in mkV R phi z.
(** coords.py 1245-1275 *)
Definition galcencyl_to_XYZ (E : option M3) (Xsun Zsun : RR) (c : V3) : V3 :=
  let '(x, y, z) := cyl_to_rect (vx c) (vy c) (vz c) in galcenrect_to_XYZ E Xsun Zsun (mkV x y z).
(** coords.py 1341-1397; [galcen]: the position is Galactocentric cylindrical, else Galactocentric rectangular *)
Definition vxvyvz_to_galcencyl (E : option M3) (vsun : V3) (Xsun Zsun : RR) (galcen : bool) (v x : V3) : V3 :=
  let g := vxvyvz_to_galcenrect E vsun Xsun Zsun v in
  rect_to_cyl_vec (vx g) (vy g) (vz g) (vx x) (vy x) (vz x) galcen.
(** coords.py 1462-1501 *)
Definition galcencyl_to_vxvyvz (E : option M3) (vsun : V3) (Xsun Zsun : RR) (v : V3) (phi : RR) : V3 :=
  let g := cyl_to_rect_vec (vx v) (vy v) (vz v) phi in galcenrect_to_vxvyvz E vsun Xsun Zsun g.

(** coords.py 2240-2291; the result is (R, phi) *)
Definition dl_to_rphi_2d (degree : bool) (ro phio d l : RR) : RR * RR :=
  let l := if degree then l * (PI / 180) else l in
  let R := sqrt (ro ^ 2 + d ^ 2 - 2 * d * ro * cos l) in
  let phi := if Rlt_dec 0 (cos l) then if Rlt_dec (ro / cos l) d then PI - asin (d / R * sin l) else asin (d / R * sin l)
             else asin (d / R * sin l) in
  let phi := if degree then phi / (PI / 180) else phi in
  (R, phi + phio).
(** coords.py 2294-2345; the result is (d, l) *)
Definition rphi_to_dl_2d (degree : bool) (ro phio R phi : RR) : RR * RR :=
  let phi := phi - phio in
  let phi := if degree then phi * (PI / 180) else phi in
  let d := sqrt (R ^ 2 + ro ^ 2 - 2 * R * ro * cos phi) in
  let l := if Rlt_dec 0 (cos phi) then if Rlt_dec (ro / cos phi) R then PI - asin (R / d * sin phi) else asin (R / d * sin phi)
           else asin (R / d * sin phi) in
  let l := if degree then l / (PI / 180) else l in
  (d, l).
