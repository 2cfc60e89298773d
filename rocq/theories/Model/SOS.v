(** Surface-of-section integration: Orbit.integrate_SOS and Orbit.SOS (galpy/orbit/Orbits.py 2103-2290, 6132-6307), the Python
    right-hand sides (galpy/orbit/integrateFullOrbit.py 1425-1465, 1561-1640; integratePlanarOrbit.py 1766-1830, 2009-2120), the C
    right-hand sides (galpy/orbit/orbit_c_ext/integrateFullOrbit.c 1353-1392, integratePlanarOrbit.c 1056-1122) and the C coordinate
    conversions (galpy/util/bovy_coords.c 149-260).  Numbers are exact reals and the ODE solver is not modelled: it enters as a
    function of the angle whose derivative is the right-hand side. *)
From Coq Require Import Reals List ZArith.
From Verif.Lib Require Import Atan2.
From Verif.Model Require Import PotAPI RectForce.
Import ListNotations.
Open Scope R_scope.
Notation RR := RbaseSymbolsImpl.R (only parsing).

(** A component of the potential: its radial force, vertical force and torque.  Velocity-dependent components
    (DissipativeForce subclasses; requiresVelocity in C) also read (vR, vT, vz). *)
Inductive comp3 :=
| Static3 (fR fz fp : F4)
| Veloc3 (fR fz fp : RR -> RR -> RR -> F4).
Inductive part := PR | PZ | PP.
Definition pick {A} (s : part) (a b c : A) : A := match s with PR => a | PZ => b | PP => c end.

(** _evaluateRforces, _evaluatezforces, _evaluatephitorques over a list of components (galpy/potential/Potential.py 2141-2194,
    2251-2304, 2196-2249): dissipative components get v, the others do not.  Composite flattening is modelled in Super.v. *)
Definition py_force (s : part) (l : list comp3) (vR vT vz R z phi t : RR) : RR :=
  fold_left (fun acc c => acc + match c with
                                | Static3 fR fz fp => pick s fR fz fp R z phi t
                                | Veloc3 fR fz fp => pick s fR fz fp vR vT vz R z phi t
                                end) l 0.
(** C cast of a double to int: truncation towards zero *)
Definition c_int (x : RR) : Z := if Rle_dec 0 x then (up x - 1)%Z else (1 - up (- x))%Z.
(** calcRforce, calczforce, calcphitorque as C functions (galpy/potential/potential_c_ext/galpy_potentials.c 120-179) *)
Definition c_force (s : part) (l : list comp3) (include_dissipative : Z) (vR vT vz R z phi t : RR) : RR :=
  fold_left (fun acc c => match c with
                          | Static3 fR fz fp => acc + pick s fR fz fp R z phi t
                          | Veloc3 fR fz fp => if Z.eqb include_dissipative 0 then acc
                                               else acc + pick s fR fz fp vR vT vz R z phi t
                          end) l 0.
(** The macro calcRforce(R,Z,phi,t,nargs,potentialArgs,a,b,c) with three trailing arguments (galpy_potentials.h 146-154): the macro
    appends 1,0.,0.,0. and keeps the first four, so a becomes the int include_dissipative and b, c, 1 the velocities. *)
Definition c_force_macro3 (s : part) (l : list comp3) (a b c R z phi t : RR) : RR := c_force s l (c_int a) b c 1 R z phi t.
(** The macro with four trailing arguments, as the ordinary orbit integration calls it (integrateFullOrbit.c 1346-1350). *)
Definition c_force_macro4 (s : part) (l : list comp3) (incl : Z) (a b c R z phi t : RR) : RR := c_force s l incl a b c R z phi t.

(** The Python state (x,vx,y,vy,A,t). *)
Record sos := mkSos { s_x : RR; s_vx : RR; s_y : RR; s_vy : RR; s_A : RR; s_t : RR }.
(** _rectForce, integrateFullOrbit.py 1594-1640 *)
Definition py_rect_force (l : list comp3) (x y z t vx vy vz : RR) : RR * RR * RR :=
  let R := sqrt (x ^ 2 + y ^ 2) in
  let phi0 := acos (x / R) in
  let sinphi := y / R in
  let cosphi := x / R in
  let phi := if Rlt_dec y 0 then 2 * PI - phi0 else phi0 in
  let vR := vx * cosphi + vy * sinphi in
  let vT := - vx * sinphi + vy * cosphi in
  let Rforce := py_force PR l vR vT vz R z phi t in
  let phitorque := py_force PP l vR vT vz R z phi t in
  (cosphi * Rforce - 1 / R * sinphi * phitorque,
   sinphi * Rforce + 1 / R * cosphi * phitorque,
   py_force PZ l vR vT vz R z phi t).
(** _SOSEOM, integrateFullOrbit.py 1561-1591 *)
Definition py_sos_eom (l : list comp3) (s : sos) (psi : RR) : sos :=
  let sp := sin psi in
  let cp := cos psi in
  let z := s_A s * sp in
  let g := py_rect_force l (s_x s) (s_y s) z (s_t s) (s_vx s) (s_vy s) (s_A s * cp) in
  let psidot := cp ^ 2 - sp / s_A s * snd g in
  let Adot := s_A s * cp * sp + snd g * cp in
  mkSos (s_vx s / psidot) (fst (fst g) / psidot) (s_vy s / psidot) (snd (fst g) / psidot) (Adot / psidot) (1 / psidot).

(** The C state (x,y,vx,vy,A,t,psi). *)
Record csos := mkC { c_x : RR; c_y : RR; c_vx : RR; c_vy : RR; c_A : RR; c_t : RR; c_psi : RR }.
(** evalSOSDeriv, integrateFullOrbit.c 1353-1392 *)
Definition c_sos_deriv (l : list comp3) (q : csos) : csos :=
  let sinpsi := sin (c_psi q) in
  let cospsi := cos (c_psi q) in
  let x := c_x q in let y := c_y q in
  let z := c_A q * sinpsi in
  let R := sqrt (x * x + y * y) in
  let phi := atan2 y x in
  let sinphi := y / R in
  let cosphi := x / R in
  let vR := c_vx q * cosphi + c_vy q * sinphi in
  let vT := - c_vx q * sinphi + c_vy q * cosphi in
  let vz := c_A q * cospsi in
  let Rforce := c_force_macro3 PR l vR vT vz R z phi (c_t q) in
  let phitorque := c_force_macro3 PP l vR vT vz R z phi (c_t q) in
  let a3 := cosphi * Rforce - 1 / R * sinphi * phitorque in
  let a4 := sinphi * Rforce + 1 / R * cosphi * phitorque in
  let a5 := c_force_macro3 PZ l vR vT vz R z phi (c_t q) in
  let psidot := cospsi * cospsi - sinpsi * a5 / c_A q in
  mkC (c_vx q / psidot) (c_vy q / psidot) (a3 / psidot) (a4 / psidot) (cospsi * (c_A q * sinpsi + a5) / psidot) (1 / psidot) 1.

(** A cylindrical phase-space point (R,vR,vT,z,vz,phi). *)
Record cyl := mkCyl { y_R : RR; y_vR : RR; y_vT : RR; y_z : RR; y_vz : RR; y_phi : RR }.
(** integrateFullOrbit.py 1428-1438: the starting angle and state *)
Definition py_init_psi (w : cyl) : RR := atan2 (y_z w) (y_vz w).
Definition py_init (w : cyl) (t0 : RR) : sos :=
  mkSos (y_R w * cos (y_phi w)) (y_vR w * cos (y_phi w) - y_vT w * sin (y_phi w)) (y_R w * sin (y_phi w))
        (y_vT w * cos (y_phi w) + y_vR w * sin (y_phi w)) (sqrt (y_z w ^ 2 + y_vz w ^ 2)) t0.
(** integrateFullOrbit.py 1443-1455: the returned row at the angle psi (psi + init_psi there), without its time *)
Definition py_out (s : sos) (psi : RR) : cyl :=
  let phi := atan2 (s_y s) (s_x s) in
  mkCyl (sqrt (s_x s ^ 2 + s_y s ^ 2)) (s_vx s * cos phi + s_vy s * sin phi) (s_vy s * cos phi - s_vx s * sin phi)
        (s_A s * sin psi) (s_A s * cos psi) phi.
(** cyl_to_sos_galpy, bovy_coords.c 149-164: in place on (R,vR,vT,z,vz,phi,t) *)
Definition cyl_to_sos (w : cyl) (t : RR) : csos :=
  let cp := cos (y_phi w) in let sp := sin (y_phi w) in
  mkC (y_R w * cp) (y_R w * sp) (y_vR w * cp - y_vT w * sp) (y_vR w * sp + y_vT w * cp)
      (sqrt (y_z w * y_z w + y_vz w * y_vz w)) t (atan2 (y_z w) (y_vz w)).
(** sos_to_cyl_galpy, bovy_coords.c 175-190 *)
Definition sos_to_cyl (q : csos) : cyl * RR :=
  let phi := atan2 (c_y q) (c_x q) in
  let cp := cos phi in let sp := sin phi in
  (mkCyl (sqrt (c_x q * c_x q + c_y q * c_y q)) (c_vx q * cp + c_vy q * sp) (- c_vx q * sp + c_vy q * cp)
         (c_A q * sin (c_psi q)) (c_A q * cos (c_psi q)) phi, c_t q).

(** ** Planar orbits *)
Inductive comp2 :=
| Static2 (fR fp : RR -> RR -> RR -> RR)            (* functions of (R, phi, t) *)
| Veloc2 (fR fp : RR -> RR -> RR -> RR -> RR -> RR). (* functions of (vR, vT, R, phi, t) *)
Inductive part2 := QR | QP.
Definition pick2 {A} (s : part2) (a b : A) : A := match s with QR => a | QP => b end.
(** _evaluateplanarRforces, _evaluateplanarphitorques (galpy/potential/planarPotential.py 1088-1203); calcPlanarRforce and
    calcPlanarphitorque with the velocities passed (galpy_potentials.c 180-210) add the same terms. *)
Definition force2 (s : part2) (l : list comp2) (vR vT R phi t : RR) : RR :=
  fold_left (fun acc c => acc + match c with
                                | Static2 fR fp => pick2 s fR fp R phi t
                                | Veloc2 fR fp => pick2 s fR fp vR vT R phi t
                                end) l 0.
(** _planarRectForce, integratePlanarOrbit.py 2074-2120 *)
Definition py_prect_force (l : list comp2) (x y t vx vy : RR) : RR * RR :=
  let R := sqrt (x ^ 2 + y ^ 2) in
  let phi0 := acos (x / R) in
  let sinphi := y / R in
  let cosphi := x / R in
  let phi := if Rlt_dec y 0 then 2 * PI - phi0 else phi0 in
  let vR := vx * cosphi + vy * sinphi in
  let vT := - vx * sinphi + vy * cosphi in
  let Rforce := force2 QR l vR vT R phi t in
  let phitorque := force2 QP l vR vT R phi t in
  (cosphi * Rforce - 1 / R * sinphi * phitorque, sinphi * Rforce + 1 / R * cosphi * phitorque).
(** The planar state: (y,vy,A,t) for the surface x=0, (x,vx,A,t) for the surface y=0. *)
Record psos := mkP { p_u : RR; p_vu : RR; p_A : RR; p_t : RR }.
(** _planarSOSEOMx, integratePlanarOrbit.py 2009-2038 *)
Definition py_psos_eomx (l : list comp2) (s : psos) (psi : RR) : psos :=
  let sp := sin psi in let cp := cos psi in
  let g := py_prect_force l (p_A s * sp) (p_u s) (p_t s) (p_A s * cp) (p_vu s) in
  let psidot := cp ^ 2 - sp / p_A s * fst g in
  let Adot := p_A s * cp * sp + fst g * cp in
  mkP (p_vu s / psidot) (snd g / psidot) (Adot / psidot) (1 / psidot).
(** _planarSOSEOMy, integratePlanarOrbit.py 2041-2071 *)
Definition py_psos_eomy (l : list comp2) (s : psos) (psi : RR) : psos :=
  let sp := sin psi in let cp := cos psi in
  let g := py_prect_force l (p_u s) (p_A s * sp) (p_t s) (p_vu s) (p_A s * cp) in
  let psidot := cp ^ 2 - sp / p_A s * snd g in
  let Adot := p_A s * cp * sp + snd g * cp in
  mkP (p_vu s / psidot) (fst g / psidot) (Adot / psidot) (1 / psidot).
(** evalPlanarSOSDerivx, integratePlanarOrbit.c 1056-1088; the fifth entry, psi itself, has derivative 1 *)
Definition c_psos_derivx (l : list comp2) (q : psos) (psi : RR) : psos * RR :=
  let sinpsi := sin psi in let cospsi := cos psi in
  let x := p_A q * sinpsi in let y := p_u q in
  let R := sqrt (x * x + y * y) in
  let phi := atan2 y x in
  let sinphi := y / R in let cosphi := x / R in
  let vR := p_A q * cospsi * cosphi + p_vu q * sinphi in
  let vT := - p_A q * cospsi * sinphi + p_vu q * cosphi in
  let Rforce := force2 QR l vR vT R phi (p_t q) in
  let phitorque := force2 QP l vR vT R phi (p_t q) in
  let a2 := cosphi * Rforce - 1 / R * sinphi * phitorque in
  let a3 := sinphi * Rforce + 1 / R * cosphi * phitorque in
  let psidot := cospsi * cospsi - sinpsi * a2 / p_A q in
  (mkP (p_vu q / psidot) (a3 / psidot) (cospsi * (p_A q * sinpsi + a2) / psidot) (1 / psidot), 1).
(** evalPlanarSOSDerivy, integratePlanarOrbit.c 1090-1122 *)
Definition c_psos_derivy (l : list comp2) (q : psos) (psi : RR) : psos * RR :=
  let sinpsi := sin psi in let cospsi := cos psi in
  let x := p_u q in let y := p_A q * sinpsi in
  let R := sqrt (x * x + y * y) in
  let phi := atan2 y x in
  let sinphi := y / R in let cosphi := x / R in
  let vR := p_vu q * cosphi + p_A q * cospsi * sinphi in
  let vT := - p_vu q * sinphi + p_A q * cospsi * cosphi in
  let Rforce := force2 QR l vR vT R phi (p_t q) in
  let phitorque := force2 QP l vR vT R phi (p_t q) in
  let a2 := cosphi * Rforce - 1 / R * sinphi * phitorque in
  let a3 := sinphi * Rforce + 1 / R * cosphi * phitorque in
  let psidot := cospsi * cospsi - sinpsi * a3 / p_A q in
  (mkP (p_vu q / psidot) (a2 / psidot) (cospsi * (p_A q * sinpsi + a3) / psidot) (1 / psidot), 1).
(** A polar phase-space point (R,vR,vT,phi). *)
Record pol := mkPol { o_R : RR; o_vR : RR; o_vT : RR; o_phi : RR }.
(** integratePlanarOrbit.py 1769-1781 (surface "x") and 1798-1809 (surface "y"); polar_to_sos_galpy, bovy_coords.c 200-226 *)
Definition pol_x (w : pol) : RR := o_R w * cos (o_phi w).
Definition pol_y (w : pol) : RR := o_R w * sin (o_phi w).
Definition pol_vx (w : pol) : RR := o_vR w * cos (o_phi w) - o_vT w * sin (o_phi w).
Definition pol_vy (w : pol) : RR := o_vT w * cos (o_phi w) + o_vR w * sin (o_phi w).
Definition pinit_psi (surface_y : bool) (w : pol) : RR :=
  if surface_y then atan2 (pol_y w) (pol_vy w) else atan2 (pol_x w) (pol_vx w).
Definition pinit (surface_y : bool) (w : pol) (t0 : RR) : psos :=
  if surface_y then mkP (pol_x w) (pol_vx w) (sqrt (pol_y w ^ 2 + pol_vy w ^ 2)) t0
  else mkP (pol_y w) (pol_vy w) (sqrt (pol_x w ^ 2 + pol_vx w ^ 2)) t0.
(** integratePlanarOrbit.py 1790-1795, 1818-1830; sos_to_polar_galpy, bovy_coords.c 238-262 *)
Definition pout (surface_y : bool) (s : psos) (psi : RR) : pol :=
  let x := if surface_y then p_u s else p_A s * sin psi in
  let vx := if surface_y then p_vu s else p_A s * cos psi in
  let y := if surface_y then p_A s * sin psi else p_u s in
  let vy := if surface_y then p_A s * cos psi else p_vu s in
  let phi := atan2 y x in
  mkPol (sqrt (x ^ 2 + y ^ 2)) (vx * cos phi + vy * sin phi) (vy * cos phi - vx * sin phi) phi.

(** ** Orbit.SOS for one 3D orbit, Orbits.py 6200-6307 *)
(** numpy.linspace(0, b, n) for n >= 2 *)
Definition linspace0 (b : RR) (n : nat) : list RR := map (fun j => INR j * (b / INR (n - 1))) (seq 0 n).
(** (init_psi + 2 pi) % (2 pi) for init_psi in (-pi, pi] *)
Definition wrap_psi (psi0 : RR) : RR := if Rlt_dec psi0 0 then psi0 + 2 * PI else psi0.
(** 6280: numpy.arange(ncross * iskip) * 2 * pi / iskip *)
Definition sos_angles (ncross iskip : nat) : list RR := map (fun j => INR j * 2 * PI / INR iskip) (seq 0 (ncross * iskip)).
(** 6293-6294: orbit[:, ::iskip] for iskip >= 1 *)
Fixpoint stride_aux {A} (k left : nat) (l : list A) : list A :=
  match l with
  | [] => []
  | x :: r => match left with O => x :: stride_aux k (k - 1) r | Datatypes.S m => stride_aux k m r end
  end.
Definition stride {A} (k : nat) (l : list A) : list A := stride_aux k 0 l.

Section SOSmethod.
  (** integrate_SOS: the rows of the solver at the given angles (increments from the starting angle) *)
  Variable integrate_SOS : RR -> cyl -> list RR -> list (cyl * RR).
  (** 6245-6270: integrate to the next crossing, and restart from there (at the same t0) *)
  Definition sos_start (t0 : RR) (w : cyl) : cyl :=
    let psi0 := py_init_psi w in
    if Rlt_dec (1 / 10 ^ 10) (Rabs psi0) then
      fst (last (integrate_SOS t0 w (linspace0 (2 * PI - wrap_psi psi0) 101)) (w, t0))
    else w.
  (** 6271-6307 *)
  Definition sos_method (t0 : RR) (w : cyl) (ncross iskip : nat) : list (cyl * RR) :=
    stride iskip (integrate_SOS t0 (sos_start t0 w) (sos_angles ncross iskip)).
End SOSmethod.
