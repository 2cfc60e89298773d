(** What integrating an orbit promises: the rows follow Newton's second law, and the integrals of the motion stay constant. *)
From Coq Require Import Reals List.
From Coquelicot Require Import Coquelicot.
From Verif.Model Require Import PotAPI SOS EOM.
From Verif.Spec Require Import PotSpec PotApiSpec SmoothSpec SOSSpec.
Import ListNotations.
Open Scope R_scope.
Notation RR := RbaseSymbolsImpl.R (only parsing).

(** [Y] solves dY/dt = rhs Y t at time t, entry by entry. *)
Definition solves_eom (rhs : eom -> RR -> eom) (Y : RR -> eom) (t : RR) : Prop :=
  let d := rhs (Y t) t in
  is_derive (fun s => e_R (Y s)) t (e_R d) /\ is_derive (fun s => e_vR (Y s)) t (e_vR d) /\
  is_derive (fun s => e_phi (Y s)) t (e_phi d) /\ is_derive (fun s => e_w (Y s)) t (e_w d) /\
  is_derive (fun s => e_z (Y s)) t (e_z d) /\ is_derive (fun s => e_vz (Y s)) t (e_vz d).
Definition solves_rz (rhs : rzeom -> RR -> rzeom) (Y : RR -> rzeom) (t : RR) : Prop :=
  let d := rhs (Y t) t in
  is_derive (fun s => r_R (Y s)) t (r_R d) /\ is_derive (fun s => r_vR (Y s)) t (r_vR d) /\
  is_derive (fun s => r_z (Y s)) t (r_z d) /\ is_derive (fun s => r_vz (Y s)) t (r_vz d).
Definition solves_rect (rhs : rect -> RR -> rect) (Y : RR -> rect) (t : RR) : Prop :=
  let d := rhs (Y t) t in
  is_derive (fun s => q_x (Y s)) t (q_x d) /\ is_derive (fun s => q_y (Y s)) t (q_y d) /\ is_derive (fun s => q_z (Y s)) t (q_z d) /\
  is_derive (fun s => q_vx (Y s)) t (q_vx d) /\ is_derive (fun s => q_vy (Y s)) t (q_vy d) /\ is_derive (fun s => q_vz (Y s)) t (q_vz d).
Definition solves_peom (rhs : peom -> RR -> peom) (Y : RR -> peom) (t : RR) : Prop :=
  let d := rhs (Y t) t in
  is_derive (fun s => f_R (Y s)) t (f_R d) /\ is_derive (fun s => f_vR (Y s)) t (f_vR d) /\
  is_derive (fun s => f_phi (Y s)) t (f_phi d) /\ is_derive (fun s => f_w (Y s)) t (f_w d).
Definition solves_preom (rhs : preom -> RR -> preom) (Y : RR -> preom) (t : RR) : Prop :=
  let d := rhs (Y t) t in is_derive (fun s => g_R (Y s)) t (g_R d) /\ is_derive (fun s => g_vR (Y s)) t (g_vR d).
Definition solves_rect2 (rhs : rect2 -> RR -> rect2) (Y : RR -> rect2) (t : RR) : Prop :=
  let d := rhs (Y t) t in
  is_derive (fun s => q2_x (Y s)) t (q2_x d) /\ is_derive (fun s => q2_y (Y s)) t (q2_y d) /\
  is_derive (fun s => q2_vx (Y s)) t (q2_vx d) /\ is_derive (fun s => q2_vy (Y s)) t (q2_vy d).
Definition solves_lin (rhs : lin -> RR -> lin) (Y : RR -> lin) (t : RR) : Prop :=
  let d := rhs (Y t) t in is_derive (fun s => n_x (Y s)) t (n_x d) /\ is_derive (fun s => n_v (Y s)) t (n_v d).

(** The Cartesian point of a rectangular state. *)
Definition cart_rect (q : rect) : cart := mkCart (q_x q) (q_y q) (q_z q) (q_vx q) (q_vy q) (q_vz q).
Definition cart2_rect (q : rect2) : cart2 := mkCart2 (q2_x q) (q2_y q) (q2_vx q) (q2_vy q).
(** The Cartesian point an _EOM state stands for, whatever the sign of R. *)
Definition cart_eom (y : eom) : cart :=
  mkCart (e_R y * cos (e_phi y)) (e_R y * sin (e_phi y)) (e_z y)
         (e_vR y * cos (e_phi y) - e_R y * e_w y * sin (e_phi y)) (e_vR y * sin (e_phi y) + e_R y * e_w y * cos (e_phi y)) (e_vz y).
Definition cart_peom (y : peom) : cart2 :=
  mkCart2 (f_R y * cos (f_phi y)) (f_R y * sin (f_phi y))
          (f_vR y * cos (f_phi y) - f_R y * f_w y * sin (f_phi y)) (f_vR y * sin (f_phi y) + f_R y * f_w y * cos (f_phi y)).

(** Components whose forces do not depend on azimuth or velocity and have no torque. *)
Definition axisymmetric (c : comp3) : Prop :=
  match c with
  | Static3 fR fz fp => phi_free fR /\ phi_free fz /\ forall R z phi t, fp R z phi t = 0
  | Veloc3 _ _ _ => False
  end.
Definition axisymmetric2 (c : comp2) : Prop :=
  match c with
  | Static2 fR fp => (forall R phi phi' t, fR R phi t = fR R phi' t) /\ forall R phi t, fp R phi t = 0
  | Veloc2 _ _ => False
  end.
(** The row (R, vR, vT, z, vz) completed with the azimuth phi. *)
Definition with_phi (w : cyl5) (phi : RR) : cyl := mkCyl (v_R w) (v_vR w) (v_vT w) (v_z w) (v_vz w) phi.

(** ** Integrals of the motion *)
(** The rows [y] of an orbit between times a and b, away from the axis, obey the equations of motion. *)
Definition orbit_rows (l : list comp3) (y : RR -> cyl) (a b : RR) : Prop :=
  forall t, a <= t <= b -> 0 < y_R (y t) /\ newton l (fun s => cart_of (y s)) t.
Definition constant_on (f : RR -> RR) (a b : RR) : Prop := forall t t', a <= t <= b -> a <= t' <= b -> f t = f t'.
(** [Phi] is a potential of the forces of [l] on D: the forces are minus its derivative, in the sense of the chain rule. *)
Definition total (s : comp3 -> RR -> RR -> RR -> F4) (l : list comp3) : F4 := fun R z phi t => add_up (fun c => s c 0 0 0 R z phi t) l.
Definition potential_of (D : Dom) (l : list comp3) (Phi : F4) : Prop :=
  List.Forall conservative l /\ differentiable_with D Phi (neg (total comp_R l)) (neg (total comp_z l)) (neg (total comp_p l)).
(** The orbit stays where the potential is smooth, whichever azimuth is used for its position. *)
Definition stays_in (D : Dom) (y : RR -> cyl) (a b : RR) : Prop :=
  forall t, a <= t <= b -> forall phi, cos phi = cos (y_phi (y t)) -> sin phi = sin (y_phi (y t)) -> D (y_R (y t)) (y_z (y t)) phi t.
Definition time_free (F : F4) : Prop := forall R z phi t t', F R z phi t = F R z phi t'.
(** The potential rotates rigidly with angular speed Omega. *)
Definition rotates (Omega : RR) (F : F4) : Prop := forall R z phi t t', F R z phi t = F R z (phi - Omega * (t - t')) t'.
(** No torque about the z axis, and a force along the line to the origin. *)
Definition torque_free (c : comp3) : Prop :=
  match c with Static3 _ _ fp => forall R z phi t, fp R z phi t = 0 | Veloc3 _ _ fp => forall vR vT vz R z phi t, fp vR vT vz R z phi t = 0 end.
Definition central (c : comp3) : Prop :=
  match c with
  | Static3 fR fz fp => forall R z phi t, z * fR R z phi t = R * fz R z phi t /\ fp R z phi t = 0
  | Veloc3 fR fz fp => forall vR vT vz R z phi t, z * fR vR vT vz R z phi t = R * fz vR vT vz R z phi t /\ fp vR vT vz R z phi t = 0
  end.
(** Separable: a function of R plus a function of z. *)
Definition separable (F : F4) : Prop := exists f g : RR -> RR, forall R z phi t, F R z phi t = f R + g z.
(** What Orbit.integrate is given: potentials, each with its forces and torque; and evaluatePotentials of the list. *)
Definition comp_pot (p : Pot) : comp3 := Static3 (apiRf p v0) (apizf p v0) (match apiPt p v0 with Some f => f | None => fun _ _ _ _ => 0 end).
Definition pot_value (p : Pot) : F4 := match apiEv p with Some f => f | None => fun _ _ _ _ => 0 end.
Definition pots_value (ps : list Pot) : F4 := fun R z phi t => add_up (fun p => pot_value p R z phi t) ps.

(** The plane and the line. *)
Definition orbit_rows2 (l : list comp2) (y : RR -> pol) (a b : RR) : Prop :=
  forall t, a <= t <= b -> 0 < o_R (y t) /\ newton2 l (fun s => cart2_of (y s)) t.
Definition conservative2 (c : comp2) : Prop := match c with Static2 _ _ => True | Veloc2 _ _ => False end.
Definition torque_free2 (c : comp2) : Prop :=
  match c with Static2 _ fp => forall R phi t, fp R phi t = 0 | Veloc2 _ fp => forall vR vT R phi t, fp vR vT R phi t = 0 end.
Definition total2 (s : comp2 -> RR -> RR -> RR -> RR -> RR -> RR) (l : list comp2) (R phi t : RR) : RR := add_up (fun c => s c 0 0 R phi t) l.
Definition potential_of2 (D : RR -> RR -> RR -> Prop) (l : list comp2) (Phi : RR -> RR -> RR -> RR) : Prop :=
  List.Forall conservative2 l /\
  forall t (R phi : RR -> RR) (s dR dphi : RR), D (R s) (phi s) t -> is_derive R s dR -> is_derive phi s dphi ->
    is_derive (fun u => Phi (R u) (phi u) t) s (- total2 comp2_R l (R s) (phi s) t * dR + - total2 comp2_p l (R s) (phi s) t * dphi).
Definition stays_in2 (D : RR -> RR -> RR -> Prop) (y : RR -> pol) (a b : RR) : Prop :=
  forall t, a <= t <= b -> forall phi, cos phi = cos (o_phi (y t)) -> sin phi = sin (o_phi (y t)) -> D (o_R (y t)) phi t.
