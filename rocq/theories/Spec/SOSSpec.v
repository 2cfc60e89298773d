(** What surface-of-section integration promises, without reference to angles and amplitudes: the curve it computes is an orbit
    of the equations of motion, and the points it returns lie on the surface. *)
From Coq Require Import Reals List.
From Coquelicot Require Import Coquelicot.
From Verif.Model Require Import PotAPI SOS.
Import ListNotations.
Open Scope R_scope.
Notation RR := RbaseSymbolsImpl.R (only parsing).

(** A Cartesian phase-space point. *)
Record cart := mkCart { k_x : RR; k_y : RR; k_z : RR; k_vx : RR; k_vy : RR; k_vz : RR }.
Record cart2 := mkCart2 { k2_x : RR; k2_y : RR; k2_vx : RR; k2_vy : RR }.

(** The force of a component on a body at (R,z,phi) with cylindrical velocity (vR,vT,vz) at time t. *)
Definition comp_R c vR vT vz R z phi t := match c with Static3 f _ _ => f R z phi t | Veloc3 f _ _ => f vR vT vz R z phi t end.
Definition comp_z c vR vT vz R z phi t := match c with Static3 _ f _ => f R z phi t | Veloc3 _ f _ => f vR vT vz R z phi t end.
Definition comp_p c vR vT vz R z phi t := match c with Static3 _ _ f => f R z phi t | Veloc3 _ _ f => f vR vT vz R z phi t end.
Definition add_up {A} (f : A -> RR) (l : list A) : RR := fold_right Rplus 0 (map f l).
(** [a] is the acceleration of a body at [k] at time [t], in whichever cylindrical coordinates the position is written. *)
Definition acceleration (l : list comp3) (t : RR) (k : cart) (a : RR * RR * RR) : Prop :=
  forall R phi, 0 < R -> k_x k = R * cos phi -> k_y k = R * sin phi ->
    let vR := k_vx k * cos phi + k_vy k * sin phi in
    let vT := - k_vx k * sin phi + k_vy k * cos phi in
    let F f := add_up (fun c => f c vR vT (k_vz k) R (k_z k) phi t) l in
    a = (cos phi * F comp_R - sin phi * (F comp_p / R), sin phi * F comp_R + cos phi * (F comp_p / R), F comp_z).
(** [w] obeys the equations of motion at time [t]. *)
Definition newton (l : list comp3) (w : RR -> cart) (t : RR) : Prop :=
  is_derive (fun s => k_x (w s)) t (k_vx (w t)) /\ is_derive (fun s => k_y (w s)) t (k_vy (w t)) /\
  is_derive (fun s => k_z (w s)) t (k_vz (w t)) /\
  exists a, acceleration l t (w t) a /\
    is_derive (fun s => k_vx (w s)) t (fst (fst a)) /\ is_derive (fun s => k_vy (w s)) t (snd (fst a)) /\
    is_derive (fun s => k_vz (w s)) t (snd a).

Definition comp2_R c vR vT R phi t := match c with Static2 f _ => f R phi t | Veloc2 f _ => f vR vT R phi t end.
Definition comp2_p c vR vT R phi t := match c with Static2 _ f => f R phi t | Veloc2 _ f => f vR vT R phi t end.
Definition acceleration2 (l : list comp2) (t : RR) (k : cart2) (a : RR * RR) : Prop :=
  forall R phi, 0 < R -> k2_x k = R * cos phi -> k2_y k = R * sin phi ->
    let vR := k2_vx k * cos phi + k2_vy k * sin phi in
    let vT := - k2_vx k * sin phi + k2_vy k * cos phi in
    let F f := add_up (fun c => f c vR vT R phi t) l in
    a = (cos phi * F comp2_R - sin phi * (F comp2_p / R), sin phi * F comp2_R + cos phi * (F comp2_p / R)).
Definition newton2 (l : list comp2) (w : RR -> cart2) (t : RR) : Prop :=
  is_derive (fun s => k2_x (w s)) t (k2_vx (w t)) /\ is_derive (fun s => k2_y (w s)) t (k2_vy (w t)) /\
  exists a, acceleration2 l t (w t) a /\
    is_derive (fun s => k2_vx (w s)) t (fst a) /\ is_derive (fun s => k2_vy (w s)) t (snd a).

(** Forces do not depend on which multiple of 2 pi is added to the azimuth. *)
Definition turns (f : F4) : Prop := forall R z phi t, f R z (phi + 2 * PI) t = f R z phi t.
Definition azimuthal (c : comp3) : Prop :=
  match c with
  | Static3 fR fz fp => turns fR /\ turns fz /\ turns fp
  | Veloc3 fR fz fp => forall vR vT vz, turns (fR vR vT vz) /\ turns (fz vR vT vz) /\ turns (fp vR vT vz)
  end.
Definition turns2 (f : RR -> RR -> RR -> RR) : Prop := forall R phi t, f R (phi + 2 * PI) t = f R phi t.
Definition azimuthal2 (c : comp2) : Prop :=
  match c with
  | Static2 fR fp => turns2 fR /\ turns2 fp
  | Veloc2 fR fp => forall vR vT, turns2 (fR vR vT) /\ turns2 (fp vR vT)
  end.
Definition conservative (c : comp3) : Prop := match c with Static3 _ _ _ => True | Veloc3 _ _ _ => False end.
(** Forces that do not depend on time. *)
Definition steady (c : comp3) : Prop :=
  match c with
  | Static3 fR fz fp => forall R z phi t t', fR R z phi t = fR R z phi t' /\ fz R z phi t = fz R z phi t' /\ fp R z phi t = fp R z phi t'
  | Veloc3 fR fz fp => forall vR vT vz R z phi t t',
      fR vR vT vz R z phi t = fR vR vT vz R z phi t' /\ fz vR vT vz R z phi t = fz vR vT vz R z phi t' /\
      fp vR vT vz R z phi t = fp vR vT vz R z phi t'
  end.

(** [Y], a function of the angle, solves dY/dpsi = rhs Y psi. *)
Definition solves (rhs : sos -> RR -> sos) (Y : RR -> sos) (psi : RR) : Prop :=
  let d := rhs (Y psi) psi in
  is_derive (fun p => s_x (Y p)) psi (s_x d) /\ is_derive (fun p => s_vx (Y p)) psi (s_vx d) /\
  is_derive (fun p => s_y (Y p)) psi (s_y d) /\ is_derive (fun p => s_vy (Y p)) psi (s_vy d) /\
  is_derive (fun p => s_A (Y p)) psi (s_A d) /\ is_derive (fun p => s_t (Y p)) psi (s_t d).
Definition psolves (rhs : psos -> RR -> psos) (Y : RR -> psos) (psi : RR) : Prop :=
  let d := rhs (Y psi) psi in
  is_derive (fun p => p_u (Y p)) psi (p_u d) /\ is_derive (fun p => p_vu (Y p)) psi (p_vu d) /\
  is_derive (fun p => p_A (Y p)) psi (p_A d) /\ is_derive (fun p => p_t (Y p)) psi (p_t d).
(** The C integrators carry the angle as a last entry of the state: the system is autonomous and the variable is an increment. *)
Definition csolves (rhs : csos -> csos) (Q : RR -> csos) (s : RR) : Prop :=
  let d := rhs (Q s) in
  is_derive (fun p => c_x (Q p)) s (c_x d) /\ is_derive (fun p => c_y (Q p)) s (c_y d) /\
  is_derive (fun p => c_vx (Q p)) s (c_vx d) /\ is_derive (fun p => c_vy (Q p)) s (c_vy d) /\
  is_derive (fun p => c_A (Q p)) s (c_A d) /\ is_derive (fun p => c_t (Q p)) s (c_t d) /\ is_derive (fun p => c_psi (Q p)) s (c_psi d).

(** The phase-space point the variables stand for. *)
Definition point (s : sos) (psi : RR) : cart := mkCart (s_x s) (s_y s) (s_A s * sin psi) (s_vx s) (s_vy s) (s_A s * cos psi).
Definition cpoint (q : csos) : cart :=
  mkCart (c_x q) (c_y q) (c_A q * sin (c_psi q)) (c_vx q) (c_vy q) (c_A q * cos (c_psi q)).
Definition pointx (s : psos) (psi : RR) : cart2 := mkCart2 (p_A s * sin psi) (p_u s) (p_A s * cos psi) (p_vu s).
Definition pointy (s : psos) (psi : RR) : cart2 := mkCart2 (p_u s) (p_A s * sin psi) (p_vu s) (p_A s * cos psi).
(** The Cartesian point of a cylindrical phase-space point. *)
Definition cart_of (w : cyl) : cart :=
  mkCart (y_R w * cos (y_phi w)) (y_R w * sin (y_phi w)) (y_z w)
         (y_vR w * cos (y_phi w) - y_vT w * sin (y_phi w)) (y_vR w * sin (y_phi w) + y_vT w * cos (y_phi w)) (y_vz w).
Definition cart2_of (w : pol) : cart2 :=
  mkCart2 (o_R w * cos (o_phi w)) (o_R w * sin (o_phi w))
          (o_vR w * cos (o_phi w) - o_vT w * sin (o_phi w)) (o_vR w * sin (o_phi w) + o_vT w * cos (o_phi w)).

(** [clock] reads off the angle (or increment) at which the computed time is t: it inverts the time of the solution near t. *)
Definition clock (T : RR -> RR) (s : RR -> RR) (t : RR) : Prop :=
  ex_derive s t /\ locally t (fun u => T (s u) = u).

(** Exact integration from [w] at time [t0]: the returned rows are values of one solution, along which the amplitude and the
    rate of the angle stay away from zero (the right-hand side divides by both). *)
Definition rate_ok (l : list comp3) (Y : RR -> sos) (psi : RR) : Prop :=
  s_A (Y psi) <> 0 /\ s_t (py_sos_eom l (Y psi) psi) <> 0.
Definition exact_from (l : list comp3) (t0 : RR) (w : cyl) (len : RR) (Y : RR -> sos) : Prop :=
  Y (py_init_psi w) = py_init w t0 /\
  forall p, py_init_psi w <= p <= py_init_psi w + len -> solves (py_sos_eom l) Y p /\ rate_ok l Y p.
Definition rows (w : cyl) (Y : RR -> sos) (psis : list RR) : list (cyl * RR) :=
  map (fun p => (py_out (Y (p + py_init_psi w)) (p + py_init_psi w), s_t (Y (p + py_init_psi w)))) psis.
Definition exact_solver (l : list comp3) (integrate : RR -> cyl -> list RR -> list (cyl * RR)) (t0 : RR) (w : cyl) (psis : list RR) : Prop :=
  exists Y, exact_from l t0 w (last psis 0) Y /\ integrate t0 w psis = rows w Y psis.
(** The returned points are successive crossings of one orbit through [w]: [Y] is an exact solution from [w], and the points
    are its values one turn of the angle apart, the first one at most one turn after the start. *)
Definition crossings_of_one_orbit (l : list comp3) (t0 : RR) (w : cyl) (pts : list cyl) : Prop :=
  exists Y first len, exact_from l t0 w len Y /\ py_init_psi w <= first <= py_init_psi w + 2 * PI /\
    (forall j, (j < length pts)%nat -> first + 2 * PI * INR j <= py_init_psi w + len) /\
    pts = map (fun j => py_out (Y (first + 2 * PI * INR j)) (first + 2 * PI * INR j)) (seq 0 (length pts)).

(** The SOS method first integrates to the next crossing unless the starting angle is within 1e-10 of zero. *)
Definition needs_leg (w : cyl) : Prop := 1 / 10 ^ 10 < Rabs (py_init_psi w).
Definition first_leg (w : cyl) : RR := 2 * PI - wrap_psi (py_init_psi w).
(** On the surface z = 0 moving up, to within 1e-10 of the vertical amplitude. *)
Definition on_surface (r : cyl * RR) : Prop :=
  0 < y_vz (fst r) /\ Rabs (y_z (fst r)) <= 1 / 10 ^ 10 * sqrt (y_z (fst r) ^ 2 + y_vz (fst r) ^ 2).
