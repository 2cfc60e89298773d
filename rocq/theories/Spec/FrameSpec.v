(** Specification of the forces in a non-inertial frame. *)
From Coq Require Import Reals List.
From Coquelicot Require Import Coquelicot.
From Verif.Lib Require Import Vec3.
From Verif.Model Require Import NonInertial.
From Verif.Spec Require Import CovSpec.
Open Scope R_scope.
Notation RR := RbaseSymbolsImpl.R (only parsing).

(** The fictitious acceleration: minus the acceleration of the origin, the Coriolis, centrifugal and Euler terms. *)
Definition fictitious (Om Omdot x0 v0 a0 r v : V3) : V3 :=
  vsub (vsub (vsub (vopp a0) (vscal 2 (vcross Om (vadd v v0)))) (vcross Om (vcross Om (vadd r x0)))) (vcross Omdot (vadd r x0)).

(** The rotation a pair of arguments describes, as a function of time, and its derivative. *)
Definition about_z (w : RR) : V3 := mkV 0 0 w.
Definition rotation_rate (Om Od : freq) (t : RR) : V3 :=
  match Om with
  | FNone => vzero
  | FNum w => match Od with FNum d => about_z (w + d * t) | _ => about_z w end
  | FArr w | FList w => match Od with FArr d => vadd w (vscal t d) | _ => w end
  | FFun f => about_z (f t)
  | FFuns f => f t
  end.
Definition rotation_accel (Om Od : freq) (t : RR) : V3 :=
  match Om, Od with
  | FNum _, FNum d => about_z d
  | FArr _, FArr d => d
  | FFun _, FFun g => about_z (g t)
  | FFuns _, FFuns g => g t
  | FFun f, FNone => about_z (time_derivative f t)
  | FFuns f, FNone => mkV (time_derivative (fun t => vx (f t)) t) (time_derivative (fun t => vy (f t)) t) (time_derivative (fun t => vz (f t)) t)
  | _, _ => vzero
  end.
(** Omegadot has the same shape as Omega, or is omitted. *)
Definition same_shape (Om Od : freq) : Prop :=
  match Om, Od with
  | FNone, _ | _, FNone | FNum _, FNum _ | FArr _, FArr _ | FFun _, FFun _ | FFuns _, FFuns _ => True
  | _, _ => False
  end.
Definition origin_acc (a : acc) (t : RR) : V3 := match a with ANone => vzero | AConst a => a | AFuns f => f t end.
Definition origin (x : option (RR -> V3)) (t : RR) : V3 := match x with Some f => f t | None => vzero end.

(** Position and velocity of the arguments of a call, and the force the three methods report: the component along R, the torque
    about the z axis and the component along z. *)
Definition call_pos (a : ncall) : V3 := let '(R, z, phi, v, t) := a in mkV (R * cos phi) (R * sin phi) z.
Definition call_vel (a : ncall) : V3 :=
  let '(R, z, phi, v, t) := a in mkV (vx v * cos phi - vy v * sin phi) (vx v * sin phi + vy v * cos phi) (vz v).
Definition call_time (a : ncall) : RR := let '(R, z, phi, v, t) := a in t.
Definition reported (c : ncomp) (a : ncall) (F : V3) : RR :=
  let '(R, z, phi, v, t) := a in
  match c with NR => vdot F (mkV (cos phi) (sin phi) 0) | Nphi => vz (vcross (call_pos a) F) | Nz => vz F end.

(** Rot is the motion of a frame rotating at the rate Om (components along the axes of the frame). *)
Definition rotating_frame (Rot : RR -> M3) (Om : RR -> V3) : Prop :=
  forall t u, velocity3 (fun t => mulMV (Rot t) u) t (mulMV (Rot t) (vcross (Om t) u)).
