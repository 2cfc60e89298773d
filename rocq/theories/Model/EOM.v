(** The differential equations that Orbit.integrate hands to its solvers, the conversions before and after, and the integrals of
    the motion an Orbit reports: galpy/orbit/integrateFullOrbit.py 1042-1212, 1488-1558; integratePlanarOrbit.py 1228-1389, 1865-1928;
    integrateLinearOrbit.py 377-400; galpy/orbit/orbit_c_ext/integrateFullOrbit.c 1307-1351, integratePlanarOrbit.c 1015-1054,
    integrateLinearOrbit.c 230-237; galpy/util/bovy_coords.c 56-138; galpy/orbit/Orbits.py 2902-3375.  Numbers are exact reals; the solvers
    themselves are not modelled: a solution is a function of time whose derivative is the right-hand side. *)
From Coq Require Import Reals List ZArith.
From Verif.Lib Require Import Atan2.
From Verif.Model Require Import PotAPI RectForce SOS.
Import ListNotations.
Open Scope R_scope.
Notation RR := RbaseSymbolsImpl.R (only parsing).

(** ** Three dimensions *)
(** The state of _EOM: (R, vR, phi, dphi/dt, z, vz) *)
Record eom := mkE { e_R : RR; e_vR : RR; e_phi : RR; e_w : RR; e_z : RR; e_vz : RR }.
(** _EOM, integrateFullOrbit.py 1520-1558 *)
Definition py_eom (l : list comp3) (y : eom) (t : RR) : eom :=
  let l2 := (e_R y ^ 2 * e_w y) ^ 2 in
  let F s := py_force s l (e_vR y) (e_R y * e_w y) (e_vz y) (e_R y) (e_z y) (e_phi y) t in
  mkE (e_vR y) (l2 / e_R y ^ 3 + F PR) (e_w y) (1 / e_R y ^ 2 * (F PP - 2 * e_R y * e_vR y * e_w y)) (e_vz y) (F PZ).
(** 1163-1166: the initial state *)
Definition eom_init (w : cyl) : eom := mkE (y_R w) (y_vR w) (y_phi w) (y_vT w / y_R w) (y_z w) (y_vz w).
(** 1170-1181: the returned row; 1178-1181 "remove negative radii" *)
Definition eom_out (y : eom) : cyl :=
  if Rlt_dec (e_R y) 0 then mkCyl (- e_R y) (e_vR y) (e_R y * e_w y) (e_z y + PI) (e_vz y) (e_phi y)
  else mkCyl (e_R y) (e_vR y) (e_R y * e_w y) (e_z y) (e_vz y) (e_phi y).

(** The state of _RZEOM, for orbits without azimuth: (R, vR, z, vz) *)
Record rzeom := mkRZ { r_R : RR; r_vR : RR; r_z : RR; r_vz : RR }.
(** _RZEOM, 1488-1517.  The forces are asked for without azimuth and velocity, which only axisymmetric potentials allow: azimuth and velocity are 0 here. *)
Definition py_rzeom (l : list comp3) (l2 : RR) (y : rzeom) (t : RR) : rzeom :=
  mkRZ (r_vR y) (l2 / r_R y ^ 3 + py_force PR l 0 0 0 (r_R y) (r_z y) 0 t) (r_vz y) (py_force PZ l 0 0 0 (r_R y) (r_z y) 0 t).
(** A row without azimuth *)
Record cyl5 := mkCyl5 { v_R : RR; v_vR : RR; v_vT : RR; v_z : RR; v_vz : RR }.
(** 1139-1142 *)
Definition rz_l (w : cyl5) : RR := v_R w * v_vT w.
Definition rz_init (w : cyl5) : rzeom := mkRZ (v_R w) (v_vR w) (v_z w) (v_vz w).
(** 1146-1154 *)
Definition rz_out (l : RR) (y : rzeom) : cyl5 :=
  mkCyl5 (if Rlt_dec (r_R y) 0 then - r_R y else r_R y) (r_vR y) (l / r_R y) (r_z y) (r_vz y).

(** The rectangular state (x, y, z, vx, vy, vz) of leapfrog and of C *)
Record rect := mkRect { q_x : RR; q_y : RR; q_z : RR; q_vx : RR; q_vy : RR; q_vz : RR }.
(** integrateFullOrbit.py 1104-1114; cyl_to_rect_galpy, bovy_coords.c 101-115 *)
Definition rect_init (w : cyl) : rect :=
  mkRect (y_R w * cos (y_phi w)) (y_R w * sin (y_phi w)) (y_z w)
         (y_vR w * cos (y_phi w) - y_vT w * sin (y_phi w)) (y_vT w * cos (y_phi w) + y_vR w * sin (y_phi w)) (y_vz w).
(** integrateFullOrbit.py 1119-1130 *)
Definition leap_out (q : rect) : cyl :=
  let R := sqrt (q_x q ^ 2 + q_y q ^ 2) in
  let phi0 := acos (q_x q / R) in
  let phi := if Rlt_dec (q_y q) 0 then 2 * PI - phi0 else phi0 in
  mkCyl R (q_vx q * cos phi + q_vy q * sin phi) (q_vy q * cos phi - q_vx q * sin phi) (q_z q) (q_vz q) phi.
(** rect_to_cyl_galpy, bovy_coords.c 125-140 *)
Definition rect_to_cyl (q : rect) : cyl :=
  let phi := atan2 (q_y q) (q_x q) in
  mkCyl (sqrt (q_x q * q_x q + q_y q * q_y q)) (q_vx q * cos phi + q_vy q * sin phi) (- q_vx q * sin phi + q_vy q * cos phi) (q_z q) (q_vz q) phi.
(** evalRectDeriv, integrateFullOrbit.c 1326-1351; the macros pass 1, vR, vT, vz *)
Definition c_rect_deriv (l : list comp3) (q : rect) (t : RR) : rect :=
  let x := q_x q in let y := q_y q in
  let R := sqrt (x * x + y * y) in
  let phi0 := acos (x / R) in
  let sinphi := y / R in let cosphi := x / R in
  let phi := if Rlt_dec y 0 then 2 * PI - phi0 else phi0 in
  let vR := q_vx q * cosphi + q_vy q * sinphi in
  let vT := - q_vx q * sinphi + q_vy q * cosphi in
  let F s := c_force_macro4 s l 1 vR vT (q_vz q) R (q_z q) phi t in
  mkRect (q_vx q) (q_vy q) (q_vz q) (cosphi * F PR - 1 / R * sinphi * F PP) (sinphi * F PR + 1 / R * cosphi * F PP) (F PZ).
(** evalRectForce, integrateFullOrbit.c 1307-1325, for the symplectic integrators: without velocities the macros pass 1, 0, 0, 0 *)
Definition c_rect_force (l : list comp3) (x y z t : RR) : RR * RR * RR :=
  let R := sqrt (x * x + y * y) in
  let phi0 := acos (x / R) in
  let sinphi := y / R in let cosphi := x / R in
  let phi := if Rlt_dec y 0 then 2 * PI - phi0 else phi0 in
  let F s := c_force_macro4 s l 1 0 0 0 R z phi t in
  (cosphi * F PR - 1 / R * sinphi * F PP, sinphi * F PR + 1 / R * cosphi * F PP, F PZ).

(** ** The plane *)
(** The state of _planarEOM: (R, vR, phi, dphi/dt) *)
Record peom := mkPE { f_R : RR; f_vR : RR; f_phi : RR; f_w : RR }.
(** _planarEOM, integratePlanarOrbit.py 1894-1928 *)
Definition py_peom (l : list comp2) (y : peom) (t : RR) : peom :=
  let l2 := (f_R y ^ 2 * f_w y) ^ 2 in
  let F s := force2 s l (f_vR y) (f_R y * f_w y) (f_R y) (f_phi y) t in
  mkPE (f_vR y) (l2 / f_R y ^ 3 + F QR) (f_w y) (1 / f_R y ^ 2 * (F QP - 2 * f_R y * f_vR y * f_w y)).
(** 1350-1365 *)
Definition peom_init (w : pol) : peom := mkPE (o_R w) (o_vR w) (o_phi w) (o_vT w / o_R w).
Definition peom_out (y : peom) : pol :=
  if Rlt_dec (f_R y) 0 then mkPol (- f_R y) (f_vR y) (f_R y * f_w y) (f_phi y + PI)
  else mkPol (f_R y) (f_vR y) (f_R y * f_w y) (f_phi y).
(** _planarREOM, 1865-1891, without azimuth *)
Record preom := mkPR { g_R : RR; g_vR : RR }.
Definition py_preom (l : list comp2) (l2 : RR) (y : preom) (t : RR) : preom :=
  mkPR (g_vR y) (l2 / g_R y ^ 3 + force2 QR l 0 0 (g_R y) 0 t).
(** The rectangular state (x, y, vx, vy) *)
Record rect2 := mkRect2 { q2_x : RR; q2_y : RR; q2_vx : RR; q2_vy : RR }.
(** 1290-1297; polar_to_rect_galpy, bovy_coords.c 56-69 *)
Definition rect2_init (w : pol) : rect2 :=
  mkRect2 (o_R w * cos (o_phi w)) (o_R w * sin (o_phi w))
          (o_vR w * cos (o_phi w) - o_vT w * sin (o_phi w)) (o_vT w * cos (o_phi w) + o_vR w * sin (o_phi w)).
(** 1303-1312 *)
Definition leap2_out (q : rect2) : pol :=
  let R := sqrt (q2_x q ^ 2 + q2_y q ^ 2) in
  let phi0 := acos (q2_x q / R) in
  let phi := if Rlt_dec (q2_y q) 0 then 2 * PI - phi0 else phi0 in
  mkPol R (q2_vx q * cos phi + q2_vy q * sin phi) (q2_vy q * cos phi - q2_vx q * sin phi) phi.
(** rect_to_polar_galpy, bovy_coords.c 79-91 *)
Definition rect_to_polar (q : rect2) : pol :=
  let phi := atan2 (q2_y q) (q2_x q) in
  mkPol (sqrt (q2_x q * q2_x q + q2_y q * q2_y q)) (q2_vx q * cos phi + q2_vy q * sin phi) (- q2_vx q * sin phi + q2_vy q * cos phi) phi.
(** evalPlanarRectDeriv, integratePlanarOrbit.c 1032-1054 *)
Definition c_prect_deriv (l : list comp2) (q : rect2) (t : RR) : rect2 :=
  let x := q2_x q in let y := q2_y q in
  let R := sqrt (x * x + y * y) in
  let phi0 := acos (x / R) in
  let sinphi := y / R in let cosphi := x / R in
  let phi := if Rlt_dec y 0 then 2 * PI - phi0 else phi0 in
  let vR := q2_vx q * cosphi + q2_vy q * sinphi in
  let vT := - q2_vx q * sinphi + q2_vy q * cosphi in
  let F s := force2 s l vR vT R phi t in
  mkRect2 (q2_vx q) (q2_vy q) (cosphi * F QR - 1 / R * sinphi * F QP) (sinphi * F QR + 1 / R * cosphi * F QP).

(** ** One dimension *)
Record lin := mkLin { n_x : RR; n_v : RR }.
(** _linearEOM, integrateLinearOrbit.py 377-400; evalLinearDeriv, integrateLinearOrbit.c 234-238.  The force is the sum over the components. *)
Definition lin_force1 (l : list (RR -> RR -> RR)) (x t : RR) : RR := fold_left (fun acc f => acc + f x t) l 0.
Definition py_linear (l : list (RR -> RR -> RR)) (y : lin) (t : RR) : lin := mkLin (n_v y) (lin_force1 l (n_x y) t).

(** ** Integrals of the motion, for one row at one time *)
(** Orbit.E, Orbits.py 2902-3111, phasedim 6, with evaluatePotentials of the potential as [Phi]; [_z] and [_vz] are factors on z and vz (ER and Ez) *)
Definition orb_E_z (Phi : F4) (fz fvz : RR) (w : cyl) (t : RR) : RR :=
  let z := fz * y_z w in
  let vz := fvz * y_vz w in
  Phi (y_R w) z (y_phi w) t + y_vR w ^ 2 / 2 + y_vT w ^ 2 / 2 + vz ^ 2 / 2.
Definition orb_E (Phi : F4) (w : cyl) (t : RR) : RR := orb_E_z Phi 1 1 w t.
(** Orbit.ER 3209-3248, Orbit.Ez 3253-3293 *)
Definition orb_ER (Phi : F4) (w : cyl) (t : RR) : RR := orb_E_z Phi 0 0 w t.
Definition orb_Ez (Phi : F4) (w : cyl) (t : RR) : RR := orb_E Phi w t - orb_E_z Phi 0 0 w t.
(** Orbit.Lz 3177-3204 *)
Definition orb_Lz (w : cyl) : RR := y_R w * y_vT w.
(** Orbit.x, y, vx, vy (Orbits.py 4788-4922: R cos(phi), ..., vR cos(phi) - vT sin(phi), ...) and Orbit.L 3117-3172 *)
Definition orb_L (w : cyl) : RR * RR * RR :=
  let x := y_R w * cos (y_phi w) in
  let y := y_R w * sin (y_phi w) in
  let z := y_z w in
  let vx := y_vR w * cos (y_phi w) - y_vT w * sin (y_phi w) in
  let vy := y_vT w * cos (y_phi w) + y_vR w * sin (y_phi w) in
  let vz := y_vz w in
  (y * vz - z * vy, z * vx - x * vz, x * vy - y * vx).
(** Orbit.Jacobi 3298-3375; a scalar pattern speed, or a vector *)
Definition orb_Jacobi (Phi : F4) (OmegaP : RR) (w : cyl) (t : RR) : RR := orb_E Phi w t - OmegaP * orb_Lz w.
Definition orb_Jacobi3 (Phi : F4) (OmegaP : RR * RR * RR) (w : cyl) (t : RR) : RR :=
  let '(ox, oy, oz) := OmegaP in let '(lx, ly, lz) := orb_L w in orb_E Phi w t - (ox * lx + oy * ly + oz * lz).
(** The pattern speed when none is given, 3331-3349: of the first component that has one, or else 1 *)
Fixpoint first_OmegaP (l : list (option RR)) : RR := match l with [] => 1 | Some o :: _ => o | None :: l => first_OmegaP l end.
Definition orb_Jacobi_default (omegas : list (option RR)) (Phi : F4) (w : cyl) (t : RR) : RR := orb_Jacobi Phi (first_OmegaP omegas) w t.
(** Orbit.E of a planar orbit, phasedim 4 (2993-3020), and of a one-dimensional one, phasedim 2 (2940-2964) *)
Definition orb_E2 (Phi : RR -> RR -> RR -> RR) (w : pol) (t : RR) : RR := Phi (o_R w) (o_phi w) t + o_vR w ^ 2 / 2 + o_vT w ^ 2 / 2.
Definition orb_E1 (Phi : RR -> RR -> RR) (y : lin) (t : RR) : RR := Phi (n_x y) t + n_v y ^ 2 / 2.
