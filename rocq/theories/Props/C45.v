(** C45: surface-of-section integration follows the orbit and returns its crossings. *)
From Coq Require Import Reals List ZArith Lia Lra.
From Coquelicot Require Import Coquelicot.
From Verif.Lib Require Import Atan2.
From Verif.Model Require Import PotAPI RectForce SOS.
From Verif.Spec Require Import SOSSpec.
From Verif.Proofs Require Import SOSProofs SOSMethod.
Import ListNotations.
Open Scope R_scope.
Notation RR := RbaseSymbolsImpl.R (only parsing).

(** A solution of the Python equations in the angle, read as a function of its own time, is an orbit (velocity-dependent and
    time-dependent forces included). *)
Theorem C45_python_follows_the_orbit : forall l (Y : RR -> sos) (s : RR -> RR) t, List.Forall azimuthal l ->
  s_A (Y (s t)) <> 0 -> 0 < s_x (Y (s t)) ^ 2 + s_y (Y (s t)) ^ 2 ->
  solves (py_sos_eom l) Y (s t) -> clock (fun p => s_t (Y p)) s t -> newton l (fun u => point (Y (s u)) (s u)) t.
Proof. exact sos_newton. Qed.
Print Assumptions C45_python_follows_the_orbit.
(** The same for the C equations, for forces that do not depend on velocity. *)
Theorem C45_c_follows_the_orbit : forall l (Q : RR -> csos) (s : RR -> RR) t, List.Forall conservative l -> List.Forall azimuthal l ->
  c_A (Q (s t)) <> 0 -> 0 < c_x (Q (s t)) ^ 2 + c_y (Q (s t)) ^ 2 ->
  csolves (c_sos_deriv l) Q (s t) -> clock (fun p => c_t (Q p)) s t -> newton l (fun u => cpoint (Q (s u))) t.
Proof. exact csos_newton. Qed.
Print Assumptions C45_c_follows_the_orbit.
Theorem C45_planar_follows_the_orbit : forall l (Y : RR -> psos) (s : RR -> RR) t, List.Forall azimuthal2 l -> p_A (Y (s t)) <> 0 ->
  clock (fun p => p_t (Y p)) s t ->
  (0 < (p_A (Y (s t)) * sin (s t)) ^ 2 + p_u (Y (s t)) ^ 2 -> psolves (py_psos_eomx l) Y (s t) -> newton2 l (fun u => pointx (Y (s u)) (s u)) t) /\
  (0 < p_u (Y (s t)) ^ 2 + (p_A (Y (s t)) * sin (s t)) ^ 2 -> psolves (py_psos_eomy l) Y (s t) -> newton2 l (fun u => pointy (Y (s u)) (s u)) t).
Proof. intros l Y s t Az HA CL. split; intros HR HS; [apply psosx_newton|apply psosy_newton]; assumption. Qed.
Print Assumptions C45_planar_follows_the_orbit.
(** Conversely every orbit with a differentiable amplitude and angle solves the equations in the angle. *)
Theorem C45_every_orbit_is_followed : forall l (w : RR -> cart) (A th s : RR -> RR) psi, List.Forall azimuthal l ->
  newton l w (s psi) -> A (s psi) <> 0 -> ex_derive A (s psi) -> ex_derive th (s psi) ->
  locally (s psi) (fun u => k_z (w u) = A u * sin (th u)) -> locally (s psi) (fun u => k_vz (w u) = A u * cos (th u)) ->
  0 < k_x (w (s psi)) ^ 2 + k_y (w (s psi)) ^ 2 -> clock th s psi ->
  solves (py_sos_eom l) (fun p => mkSos (k_x (w (s p))) (k_vx (w (s p))) (k_y (w (s p))) (k_vy (w (s p))) (A (s p)) (s p)) psi.
Proof. exact newton_sos. Qed.
Print Assumptions C45_every_orbit_is_followed.
(** C and Python integrate the same equations from the same starting point and convert back in the same way. *)
Theorem C45_c_and_python_agree : forall l (q : csos) (w : cyl) (t0 : RR), List.Forall conservative l -> List.Forall azimuthal l ->
  0 < c_x q ^ 2 + c_y q ^ 2 ->
  (let d := c_sos_deriv l q in let e := py_sos_eom l (mkSos (c_x q) (c_vx q) (c_y q) (c_vy q) (c_A q) (c_t q)) (c_psi q) in
   c_x d = s_x e /\ c_y d = s_y e /\ c_vx d = s_vx e /\ c_vy d = s_vy e /\ c_A d = s_A e /\ c_t d = s_t e /\ c_psi d = 1) /\
  (let i := cyl_to_sos w t0 in let j := py_init w t0 in
   c_x i = s_x j /\ c_y i = s_y j /\ c_vx i = s_vx j /\ c_vy i = s_vy j /\ c_A i = s_A j /\ c_t i = s_t j /\ c_psi i = py_init_psi w) /\
  sos_to_cyl q = (py_out (mkSos (c_x q) (c_vx q) (c_y q) (c_vy q) (c_A q) (c_t q)) (c_psi q), c_t q).
Proof.
  intros l q w t0 Cn Az H. destruct (c_is_py l q Cn Az H) as [E E1]. destruct (c_conversions w t0 q) as (F1 & F2 & F3).
  unfold py_of at 2 in E. split; [|split; [|exact F3]].
  - cbv zeta. rewrite <- E. repeat (split; [reflexivity|]). exact E1.
  - cbv zeta. rewrite <- F1. repeat (split; [reflexivity|]). exact F2.
Qed.
Print Assumptions C45_c_and_python_agree.
Theorem C45_planar_c_and_python_agree : forall l q psi, List.Forall azimuthal2 l ->
  (0 < (p_A q * sin psi) ^ 2 + p_u q ^ 2 -> c_psos_derivx l q psi = (py_psos_eomx l q psi, 1)) /\
  (0 < p_u q ^ 2 + (p_A q * sin psi) ^ 2 -> c_psos_derivy l q psi = (py_psos_eomy l q psi, 1)).
Proof. intros l q psi Az. split; intros H; [apply c_is_pyx|apply c_is_pyy]; assumption. Qed.
Print Assumptions C45_planar_c_and_python_agree.
(** The integration starts at the given point and every row is the point its variables stand for. *)
Theorem C45_starts_at_the_given_point : forall w t0,
  point (py_init w t0) (py_init_psi w) = cart_of w /\ (forall s psi, cart_of (py_out s psi) = point s psi) /\
  (0 < y_R w -> - PI < y_phi w <= PI -> py_out (py_init w t0) (py_init_psi w) = w).
Proof. intros w t0. split; [apply init_point|]. split; [apply out_point|]. apply out_init. Qed.
Print Assumptions C45_starts_at_the_given_point.
Theorem C45_planar_starts_at_the_given_point : forall (surface_y : bool) w t0,
  (if surface_y then pointy else pointx) (pinit surface_y w t0) (pinit_psi surface_y w) = cart2_of w /\
  (forall s psi, cart2_of (pout surface_y s psi) = (if surface_y then pointy else pointx) s psi).
Proof. intros b w t0. split; [apply pinit_point|]. intros. apply pout_point. Qed.
Print Assumptions C45_planar_starts_at_the_given_point.
(** The surface is crossed upwards exactly at whole turns of the angle. *)
Theorem C45_crossings_are_whole_turns : forall A psi, 0 < A ->
  (A * sin psi = 0 /\ 0 < A * cos psi) <-> exists k : Z, psi = 2 * PI * IZR k.
Proof. exact crossing. Qed.
Print Assumptions C45_crossings_are_whole_turns.
(** SOS returns [ncross] points on the surface, whatever the start. *)
Theorem C45_points_are_on_the_surface : forall l integrate t0 w ncross skip, (1 <= skip)%nat ->
  (needs_leg w -> exact_solver l integrate t0 w (linspace0 (first_leg w) 101)) ->
  exact_solver l integrate t0 (sos_start integrate t0 w) (sos_angles ncross skip) ->
  length (sos_method integrate t0 w ncross skip) = ncross /\ List.Forall on_surface (sos_method integrate t0 w ncross skip) /\
  (needs_leg w -> List.Forall (fun r => y_z (fst r) = 0) (sos_method integrate t0 w ncross skip)).
Proof. exact method_on_surface. Qed.
Print Assumptions C45_points_are_on_the_surface.
(** For forces that do not depend on time the points are successive crossings of the orbit through the given point. *)
Theorem C45_points_are_on_one_orbit : forall l integrate t0 w ncross skip, List.Forall steady l -> (1 <= skip)%nat ->
  (needs_leg w -> exact_solver l integrate t0 w (linspace0 (first_leg w) 101)) ->
  exact_solver l integrate t0 (sos_start integrate t0 w) (sos_angles ncross skip) ->
  crossings_of_one_orbit l t0 w (map fst (sos_method integrate t0 w ncross skip)).
Proof. exact method_one_orbit. Qed.
Print Assumptions C45_points_are_on_one_orbit.

(** Hypotheses met: an orbit oscillating about the plane, started below it. *)
Example C45_nonvacuous :
  List.Forall azimuthal [spring] /\ List.Forall steady [spring] /\ List.Forall conservative [spring] /\ needs_leg w0 /\
  exact_solver [spring] straight_solver 0 w0 (linspace0 (first_leg w0) 101) /\
  exact_solver [spring] straight_solver 0 (sos_start straight_solver 0 w0) (sos_angles 2 1) /\
  newton [spring] (fun u => point (straight 0 w0 (u - PI / 2)) (u - PI / 2)) 1.
Proof.
  destruct spring_ok as (H1 & H2 & H3). destruct w0_leg as [Hl _].
  assert (HA : s_A (py_init w0 0) <> 0) by (rewrite w0_init; cbn; lra).
  split; [auto|]. split; [auto|]. split; [auto|]. split; [exact Hl|]. split; [apply straight_solves, HA|]. split; [exact straight_start|].
  destruct (straight_exact 0 w0 (10 + PI) HA) as [_ S]. rewrite w0_psi in S. pose proof PI_RGT_0 as HP.
  apply (C45_python_follows_the_orbit [spring] (straight 0 w0) (fun u => u - PI / 2) 1); [auto|exact HA| | |].
  - unfold straight. rewrite w0_init. cbn [s_x s_vx s_y s_vy s_A s_t]. nra.
  - apply S. pose proof PI_4. lra.
  - split.
    + auto_derive. exact I.
    + exists (mkposreal 1 Rlt_0_1). intros u _. unfold straight. cbn [s_t]. rewrite w0_psi. ring.
Qed.

(** SOS restarts the clock at t0 when it starts the second leg, so in a time-dependent potential the points it returns are not
    crossings of one orbit: the returned points after the first do not follow from it. *)
Theorem C45_time_dependent_refuted : ~ (forall l integrate t0 w ncross skip, List.Forall azimuthal l -> (1 <= skip)%nat ->
  (needs_leg w -> exact_solver l integrate t0 w (linspace0 (first_leg w) 101)) ->
  exact_solver l integrate t0 (sos_start integrate t0 w) (sos_angles ncross skip) ->
  crossings_of_one_orbit l t0 w (map fst (sos_method integrate t0 w ncross skip))).
Proof.
  intros H. apply growing_not_one_orbit. apply H; [constructor; [exact growing_azimuthal|constructor]|lia|intros _; apply w0_exact1|].
  fold w1. apply w0_exact2.
Qed.
Print Assumptions C45_time_dependent_refuted.
(** evalSOSDeriv passes three velocity arguments to macros that expect an include flag before them: when |vR| < 1 every
    velocity-dependent force is left out ... *)
Theorem C45_c_leaves_out_slow_friction : forall l q,
  Rabs ((c_x q * c_vx q + c_y q * c_vy q) / sqrt (c_x q ^ 2 + c_y q ^ 2)) < 1 ->
  c_sos_deriv l q = c_sos_deriv (filter (fun c => match c with Static3 _ _ _ => true | Veloc3 _ _ _ => false end) l) q.
Proof. exact c_drops. Qed.
Print Assumptions C45_c_leaves_out_slow_friction.
(** ... and otherwise it is evaluated at the wrong velocity; Python includes it. *)
Theorem C45_c_velocity_dependent_refuted : ~ (forall l (q : csos), List.Forall azimuthal l -> 0 < c_x q ^ 2 + c_y q ^ 2 ->
  c_vx (c_sos_deriv l q) = s_vx (py_sos_eom l (mkSos (c_x q) (c_vx q) (c_y q) (c_vy q) (c_A q) (c_t q)) (c_psi q))).
Proof.
  intros H. pose proof (H [drag] q_slow ltac:(constructor; [exact drag_azimuthal|constructor]) ltac:(cbn; lra)) as E.
  rewrite c_drag_slow in E. cbn [q_slow c_x c_y c_vx c_vy c_A c_t c_psi] in E. rewrite py_drag in E. lra.
Qed.
Print Assumptions C45_c_velocity_dependent_refuted.
Theorem C45_c_fast_friction_refuted : ~ (forall l (q : csos), List.Forall azimuthal l -> 0 < c_x q ^ 2 + c_y q ^ 2 ->
  1 <= Rabs ((c_x q * c_vx q + c_y q * c_vy q) / sqrt (c_x q ^ 2 + c_y q ^ 2)) ->
  c_vx (c_sos_deriv l q) = s_vx (py_sos_eom l (mkSos (c_x q) (c_vx q) (c_y q) (c_vy q) (c_A q) (c_t q)) (c_psi q))).
Proof.
  intros H. assert (F : 1 <= Rabs ((c_x q_fast * c_vx q_fast + c_y q_fast * c_vy q_fast) / sqrt (c_x q_fast ^ 2 + c_y q_fast ^ 2))).
  { cbn [q_fast c_x c_y c_vx c_vy]. replace (1 ^ 2 + 0 ^ 2) with 1 by ring. rewrite sqrt_1, Rabs_pos_eq; lra. }
  pose proof (H [drag] q_fast ltac:(constructor; [exact drag_azimuthal|constructor]) ltac:(cbn; lra) F) as E.
  rewrite c_drag_fast in E. cbn [q_fast c_x c_y c_vx c_vy c_A c_t c_psi] in E. rewrite py_drag in E. lra.
Qed.
Print Assumptions C45_c_fast_friction_refuted.
