(** C46: integrating an orbit follows Newton's second law, whichever integrator is used, and conserves the integrals of the motion. *)
From Coq Require Import Reals List ZArith Lra.
From Coquelicot Require Import Coquelicot.
From Verif.Lib Require Import Atan2.
From Verif.Model Require Import PotAPI RectForce SOS EOM.
From Verif.Spec Require Import PotSpec PotApiSpec SmoothSpec Catalog SOSSpec EOMSpec.
From Verif.Proofs Require Import RectProofs SOSProofs EOMProofs EOMIntegrals EOMCatalog.
Import ListNotations.
Open Scope R_scope.
Notation RR := RbaseSymbolsImpl.R (only parsing).

(** ** Newton's second law *)
(** The rows returned by the Python integrators for solutions of their differential equation obey Newton's second law; forces may
    depend on time and velocity. *)
Theorem C46_python_follows_newton : forall l (Y : RR -> eom) t, List.Forall azimuthal l -> 0 < e_R (Y t) ->
  solves_eom (py_eom l) Y t -> newton l (fun s => cart_of (eom_out (Y s))) t.
Proof. exact eom_rows. Qed.
Print Assumptions C46_python_follows_newton.
(** Conversely, every orbit off the axis with differentiable R and phi is a solution. *)
Theorem C46_every_orbit_is_a_solution : forall l (y : RR -> cyl) t, List.Forall azimuthal l -> 0 < y_R (y t) ->
  ex_derive (fun s => y_R (y s)) t -> ex_derive (fun s => y_phi (y s)) t ->
  newton l (fun s => cart_of (y s)) t -> solves_eom (py_eom l) (fun s => eom_init (y s)) t.
Proof. exact newton_eom. Qed.
Print Assumptions C46_every_orbit_is_a_solution.
(** Orbits without azimuth in axisymmetric potentials: whatever the initial azimuth, there is an azimuth that completes the rows
    to an orbit. *)
Theorem C46_python_without_azimuth_follows_newton : forall l (L : RR) (Y : RR -> rzeom) a b t0 phi0, List.Forall axisymmetric l -> a < t0 < b ->
  (forall t, a < t < b -> 0 < r_R (Y t) /\ solves_rz (py_rzeom l (L ^ 2)) Y t) ->
  exists phi : RR -> RR, phi t0 = phi0 /\ forall t, a < t < b -> newton l (fun s => cart_of (with_phi (rz_out L (Y s)) (phi s))) t.
Proof.
  intros l L Y a b t0 phi0 Ax Ht H.
  destruct (azimuth L (fun s => r_R (Y s)) (fun s => r_vR (Y s)) a b t0 phi0 Ht) as (phi & E & D).
  { intros t Hi. destruct (H t Hi) as (P & S & _). split; [exact P|exact S]. }
  exists phi. split; [exact E|]. intros t Hi. destruct (H t Hi) as [P S]. exact (rz_rows l L Y phi t Ax P (D t Hi) S).
Qed.
Print Assumptions C46_python_without_azimuth_follows_newton.
(** The C integrators: their differential equation is Newton's second law. *)
Theorem C46_c_follows_newton : forall l (Y : RR -> rect) t, List.Forall azimuthal l -> 0 < q_x (Y t) ^ 2 + q_y (Y t) ^ 2 ->
  (solves_rect (c_rect_deriv l) Y t <-> newton l (fun s => cart_rect (Y s)) t).
Proof. exact c_rect_newton. Qed.
Print Assumptions C46_c_follows_newton.
(** The force that the symplectic integrators of C and Python use is the acceleration. *)
Theorem C46_symplectic_force : forall l x y z t vx vy vz, List.Forall azimuthal l -> List.Forall conservative l -> 0 < x ^ 2 + y ^ 2 ->
  acceleration l t (mkCart x y z vx vy vz) (c_rect_force l x y z t) /\
  py_rect_force l x y z t 0 0 0 = c_rect_force l x y z t.
Proof. intros l x y z t vx vy vz Az Co H. split; [exact (c_rect_force_acc l x y z t vx vy vz Az Co H)|symmetry; exact (py_rect_force_conservative l x y z t Co)]. Qed.
Print Assumptions C46_symplectic_force.
(** Conversions: the initial state and the returned row stand for the same phase-space point, and the first row is the given one. *)
Theorem C46_conversions : forall (w : cyl) (q : rect) (y : eom),
  (y_R w <> 0 -> cart_eom (eom_init w) = cart_of w) /\ (0 < y_R w -> eom_out (eom_init w) = w) /\ (0 <= e_R y -> cart_of (eom_out y) = cart_eom y) /\
  cart_rect (rect_init w) = cart_of w /\
  (0 < q_x q ^ 2 + q_y q ^ 2 -> cart_of (leap_out q) = cart_rect q /\ cart_of (rect_to_cyl q) = cart_rect q /\ 0 < y_R (leap_out q) /\ 0 < y_R (rect_to_cyl q)).
Proof.
  intros w q y. split; [apply init_cart|]. split; [apply out_init|]. split; [apply out_cart|]. split; [apply rect_init_cart|].
  intros H. destruct (leap_out_cart q H), (rect_to_cyl_cart q H). auto.
Qed.
Print Assumptions C46_conversions.
(** The plane. *)
Theorem C46_planar_follows_newton : forall l t, List.Forall azimuthal2 l ->
  (forall Y : RR -> peom, 0 < f_R (Y t) -> solves_peom (py_peom l) Y t -> newton2 l (fun s => cart2_of (peom_out (Y s))) t) /\
  (forall y : RR -> pol, 0 < o_R (y t) -> ex_derive (fun s => o_R (y s)) t -> ex_derive (fun s => o_phi (y s)) t ->
     newton2 l (fun s => cart2_of (y s)) t -> solves_peom (py_peom l) (fun s => peom_init (y s)) t) /\
  (forall Y : RR -> rect2, 0 < q2_x (Y t) ^ 2 + q2_y (Y t) ^ 2 -> (solves_rect2 (c_prect_deriv l) Y t <-> newton2 l (fun s => cart2_rect (Y s)) t)).
Proof.
  intros l t Az. split; [intros Y; apply peom_rows; exact Az|]. split; [intros y; apply newton_peom; exact Az|intros Y; apply c_prect_newton; exact Az].
Qed.
Print Assumptions C46_planar_follows_newton.
Theorem C46_planar_without_azimuth_follows_newton : forall l (L : RR) (Y : RR -> preom) a b t0 phi0, List.Forall axisymmetric2 l -> a < t0 < b ->
  (forall t, a < t < b -> 0 < g_R (Y t) /\ solves_preom (py_preom l (L ^ 2)) Y t) ->
  exists phi : RR -> RR, phi t0 = phi0 /\
    forall t, a < t < b -> newton2 l (fun s => cart2_of (mkPol (g_R (Y s)) (g_vR (Y s)) (L / g_R (Y s)) (phi s))) t.
Proof.
  intros l L Y a b t0 phi0 Ax Ht H.
  destruct (azimuth L (fun s => g_R (Y s)) (fun s => g_vR (Y s)) a b t0 phi0 Ht) as (phi & E & D).
  { intros t Hi. destruct (H t Hi) as (P & S & _). split; [exact P|exact S]. }
  exists phi. split; [exact E|]. intros t Hi. destruct (H t Hi) as [P S]. exact (preom_rows l L Y phi t Ax P (D t Hi) S).
Qed.
Print Assumptions C46_planar_without_azimuth_follows_newton.
Theorem C46_planar_conversions : forall (w : pol) (q : rect2),
  (0 < o_R w -> peom_out (peom_init w) = w) /\ cart2_rect (rect2_init w) = cart2_of w /\
  (0 < q2_x q ^ 2 + q2_y q ^ 2 ->
   cart2_of (leap2_out q) = cart2_rect q /\ cart2_of (rect_to_polar q) = cart2_rect q /\ 0 < o_R (leap2_out q) /\ 0 < o_R (rect_to_polar q)).
Proof.
  intros w q. split; [apply peom_out_init|]. split; [apply rect2_init_cart|]. intros H. destruct (leap2_out_cart q H), (rect_to_polar_cart q H). auto.
Qed.
Print Assumptions C46_planar_conversions.

(** ** Integrals of the motion *)
(** Orbit.E is constant along every orbit in a potential that does not depend on time. *)
Theorem C46_energy : forall D l Phi (y : RR -> cyl) a b, potential_of D l Phi -> turns Phi -> time_free Phi ->
  stays_in D y a b -> orbit_rows l y a b -> constant_on (fun t => orb_E Phi (y t) t) a b.
Proof. exact E_law. Qed.
Print Assumptions C46_energy.
(** In particular for the rows computed in Python in any combination of the potentials of the catalogue. *)
Theorem C46_energy_of_integrated_orbits : forall D ps (Y : RR -> eom) a b, List.Forall (Catalog D) ps -> time_free (pots_value ps) ->
  (forall t, a <= t <= b -> 0 < e_R (Y t) /\ solves_eom (py_eom (map comp_pot ps)) Y t) -> stays_in D (fun s => eom_out (Y s)) a b ->
  constant_on (fun t => orb_E (pots_value ps) (eom_out (Y t)) t) a b.
Proof.
  intros D ps Y a b Ca Tf H St. destruct (catalog_turns D ps Ca) as [Tu Az].
  apply (E_law D (map comp_pot ps) (pots_value ps) (fun s => eom_out (Y s)) a b (catalog_potential D ps Ca) Tu Tf St).
  intros t Ht. destruct (H t Ht) as [P S]. split; [|exact (eom_rows _ Y t Az P S)].
  unfold eom_out. destruct (Rlt_dec (e_R (Y t)) 0); cbn; lra.
Qed.
Print Assumptions C46_energy_of_integrated_orbits.
(** And for the rows computed in C. *)
Theorem C46_energy_of_c_orbits : forall D ps (Y : RR -> rect) a b, List.Forall (Catalog D) ps -> time_free (pots_value ps) ->
  (forall t, a <= t <= b -> 0 < q_x (Y t) ^ 2 + q_y (Y t) ^ 2 /\ solves_rect (c_rect_deriv (map comp_pot ps)) Y t) -> stays_in D (fun s => rect_to_cyl (Y s)) a b ->
  constant_on (fun t => orb_E (pots_value ps) (rect_to_cyl (Y t)) t) a b.
Proof.
  intros D ps Y a b Ca Tf H St. destruct (catalog_turns D ps Ca) as [Tu Az].
  apply (E_law D (map comp_pot ps) (pots_value ps) (fun s => rect_to_cyl (Y s)) a b (catalog_potential D ps Ca) Tu Tf St).
  intros t Ht. destruct (H t Ht) as [P S]. split; [exact (proj2 (rect_to_cyl_cart (Y t) P))|].
  refine (newton_loc _ _ _ t _ (proj1 (c_rect_newton _ Y t Az P) S)). destruct S as (Dx & Dy & _).
  assert (L : locally t (fun s => 0 < q_x (Y s) ^ 2 + q_y (Y s) ^ 2)).
  { apply (d_locally_pos (fun s => q_x (Y s) ^ 2 + q_y (Y s) ^ 2) t
      (INR 2 * q_x (c_rect_deriv (map comp_pot ps) (Y t) t) * q_x (Y t) ^ 1 + INR 2 * q_y (c_rect_deriv (map comp_pot ps) (Y t) t) * q_y (Y t) ^ 1)); [|exact P].
    exact (is_derive_plus _ _ t _ _ (is_derive_pow _ 2 t _ Dx) (is_derive_pow _ 2 t _ Dy)). }
  revert L. apply filter_imp. intros s Hs. symmetry. exact (proj1 (rect_to_cyl_cart (Y s) Hs)).
Qed.
Print Assumptions C46_energy_of_c_orbits.
(** Orbit.Lz is constant without torque, and Orbit.L is constant in a central force. *)
Theorem C46_angular_momentum : forall l (y : RR -> cyl) a b, orbit_rows l y a b ->
  (List.Forall torque_free l -> constant_on (fun t => orb_Lz (y t)) a b) /\
  (List.Forall central l -> constant_on (fun t => fst (fst (orb_L (y t)))) a b /\ constant_on (fun t => snd (fst (orb_L (y t)))) a b /\
                            constant_on (fun t => snd (orb_L (y t))) a b) /\
  (forall w, snd (orb_L w) = orb_Lz w).
Proof. intros l y a b Or. split; [intros H; exact (Lz_law l y a b H Or)|]. split; [intros H; exact (L_law l y a b H Or)|exact L_z]. Qed.
Print Assumptions C46_angular_momentum.
(** Orbit.Jacobi with the pattern speed of a rigidly rotating potential is constant. *)
Theorem C46_jacobi : forall D l Phi Om (y : RR -> cyl) a b, potential_of D l Phi -> turns Phi -> rotates Om Phi ->
  stays_in D y a b -> orbit_rows l y a b ->
  constant_on (fun t => orb_Jacobi Phi Om (y t) t) a b /\ constant_on (fun t => orb_Jacobi3 Phi (0, 0, Om) (y t) t) a b.
Proof.
  intros D l Phi Om y a b Po Tu Ro St Or. pose proof (E_Lz_law D l Phi Om y a b Po Tu Ro St Or) as H. split; [exact H|].
  apply (constant_ext (fun t => orb_Jacobi Phi Om (y t) t)); [|exact H]. intros t _. unfold orb_Jacobi, orb_Jacobi3. rewrite <- L_z.
  destruct (orb_L (y t)) as [[lx ly] lz]. cbn. ring.
Qed.
Print Assumptions C46_jacobi.
(** The radial and vertical energies are constant in a separable potential. *)
Theorem C46_separate_energies : forall D l Phi (y : RR -> cyl) a b, potential_of D l Phi -> separable Phi -> stays_in D y a b -> orbit_rows l y a b ->
  constant_on (fun t => orb_ER Phi (y t) t) a b /\ constant_on (fun t => orb_Ez Phi (y t) t) a b /\
  forall t, orb_ER Phi (y t) t + orb_Ez Phi (y t) t = orb_E Phi (y t) t.
Proof.
  intros D l Phi y a b Po Se St Or. destruct (ER_law D l Phi y a b Po Se St Or) as [A B]. split; [exact A|]. split; [exact B|].
  intros t. unfold orb_ER, orb_Ez. ring.
Qed.
Print Assumptions C46_separate_energies.
(** The plane and the line. *)
Theorem C46_planar_integrals : forall l (y : RR -> pol) a b, orbit_rows2 l y a b ->
  (forall D Phi, potential_of2 D l Phi -> turns2 Phi -> (forall R phi t t', Phi R phi t = Phi R phi t') -> stays_in2 D y a b ->
     constant_on (fun t => orb_E2 Phi (y t) t) a b) /\
  (List.Forall torque_free2 l -> constant_on (fun t => o_R (y t) * o_vT (y t)) a b).
Proof. intros l y a b Or. split; [intros D Phi Po Tu Tf St; exact (E2_law D l Phi y a b Po Tu Tf St Or)|intros H; exact (Lz2_law l y a b H Or)]. Qed.
Print Assumptions C46_planar_integrals.
Theorem C46_linear : forall (l : list (RR -> RR -> RR)) (Y : RR -> lin) a b, (forall t, a <= t <= b -> solves_lin (py_linear l) Y t) ->
  (forall t, a <= t <= b -> is_derive (fun s => n_x (Y s)) t (n_v (Y t)) /\ is_derive (fun s => n_v (Y s)) t (add_up (fun f => f (n_x (Y t)) t) l)) /\
  (forall Phi : RR -> RR, (forall x t, is_derive Phi x (- add_up (fun f => f x t) l)) -> constant_on (fun t => orb_E1 (fun x _ => Phi x) (Y t) t) a b).
Proof.
  intros l Y a b H. split.
  - intros t Ht. destruct (H t Ht) as [A B]. split; [exact A|]. rewrite <- lin_sum. exact B.
  - intros Phi Dp. exact (E1_law l Phi Y a b Dp H).
Qed.
Print Assumptions C46_linear.

(** ** The hypotheses are met *)
(** An inclined ellipse in a homogeneous sphere: energy and angular momentum. *)
Example C46_nonvacuous : Catalog (fun R z _ _ => R ^ 2 + z ^ 2 <> 10 ^ 2) sphere /\ orbit_rows (map comp_pot [sphere]) ellipse_row 0 1 /\
  constant_on (fun t => orb_E (pots_value [sphere]) (ellipse_row t) t) 0 1 /\ constant_on (fun t => orb_Lz (ellipse_row t)) 0 1 /\
  constant_on (fun t => orb_Jacobi (pots_value [sphere]) 7 (ellipse_row t) t) 0 1.
Proof.
  assert (Ca : List.Forall (Catalog (fun R z _ _ => R ^ 2 + z ^ 2 <> 10 ^ 2)) [sphere]) by (constructor; [exact sphere_catalog|constructor]).
  pose proof (catalog_potential _ _ Ca) as Po. destruct (catalog_turns _ _ Ca) as [Tu _].
  split; [exact sphere_catalog|]. split; [exact (ellipse_orbit 0 1)|].
  split; [exact (C46_energy _ _ _ _ _ _ Po Tu sphere_time_free (ellipse_stays 0 1) (ellipse_orbit 0 1))|]. split.
  - destruct (C46_angular_momentum _ _ 0 1 (ellipse_orbit 0 1)) as [H _]. apply H. apply central_torque_free. constructor; [exact sphere_central|constructor].
  - exact (proj1 (C46_jacobi _ _ _ 7 _ _ _ Po Tu (sphere_rotates 7) (ellipse_stays 0 1) (ellipse_orbit 0 1))).
Qed.
(** A body that corotates with a bar. *)
Example C46_rotating_bar : constant_on (fun t => orb_Jacobi (bar_Phi 1) 1 (corotating t) t) 0 1.
Proof. exact (proj1 (C46_jacobi everywhere _ _ 1 _ _ _ (bar_potential 1) (bar_turns 1) (bar_rotates 1) (fun _ _ _ _ _ => I) (corotating_orbit 0 1))). Qed.
Example C46_separable : constant_on (fun t => orb_Ez osc_Phi (osc_row t) t) 0 1.
Proof. exact (proj1 (proj2 (C46_separate_energies everywhere _ _ _ 0 1 osc_potential osc_separable (fun _ _ _ _ _ => I) (osc_orbit 0 1)))). Qed.
(** A body falling towards the axis is a solution of the Python equations while R > 0. *)
Example C46_solution : 0 < e_R (through 0) /\ solves_eom (py_eom [harm]) through 0 /\ newton [harm] (fun s => cart_of (eom_out (through s))) 0.
Proof.
  assert (P : 0 < e_R (through 0)) by (cbn; rewrite cos_0; lra). split; [exact P|]. split; [apply through_solves|].
  apply C46_python_follows_newton; [|exact P|apply through_solves]. constructor; [|constructor]. cbn. split; [|split]; intros R z phi t; reflexivity.
Qed.

(** ** Where it fails *)
(** "Remove negative radii": when the integration passes through the axis, the returned row stands for another point, because pi is
    added to z instead of phi ... *)
Theorem C46_negative_radius_refuted : ~ (forall l (Y : RR -> eom) T, List.Forall azimuthal l -> 0 < e_R (Y 0) -> 0 <= T ->
  (forall t, 0 <= t <= T -> solves_eom (py_eom l) Y t) -> cart_of (eom_out (Y T)) = cart_eom (Y T)).
Proof.
  intros H. pose proof PI_RGT_0 as P. specialize (H [harm] through PI).
  assert (E : cart_of (eom_out (through PI)) = cart_eom (through PI)).
  { apply H; [constructor; [|constructor]; cbn; split; [|split]; intros R z phi t; reflexivity|cbn; rewrite cos_0; lra|lra|intros t _; apply through_solves]. }
  apply (f_equal k_z) in E. unfold eom_out, through in E. cbn [e_R] in E. rewrite cos_PI in E. destruct (Rlt_dec (-1) 0); [|lra]. cbn in E. lra.
Qed.
Print Assumptions C46_negative_radius_refuted.
(** ... and in the plane because the velocity is not turned with the azimuth. *)
Theorem C46_planar_negative_radius_refuted : ~ (forall l (Y : RR -> peom) T, List.Forall azimuthal2 l -> 0 < f_R (Y 0) -> 0 <= T ->
  (forall t, 0 <= t <= T -> solves_peom (py_peom l) Y t) -> cart2_of (peom_out (Y T)) = cart_peom (Y T)).
Proof.
  intros H. pose proof PI_RGT_0 as P. specialize (H [harm2] through2 PI).
  assert (E : cart2_of (peom_out (through2 PI)) = cart_peom (through2 PI)).
  { apply H; [constructor; [|constructor]; cbn; split; intros R phi t; reflexivity|cbn; rewrite cos_0, sin_0; lra|lra|intros t _; apply through2_solves]. }
  apply (f_equal k2_vx) in E. unfold peom_out, through2 in E. cbn [f_R] in E. rewrite cos_PI, sin_PI in E. destruct (Rlt_dec (-1 - 0) 0); [|lra].
  cbn in E. rewrite Rplus_0_l, cos_PI, sin_PI, cos_0, sin_0 in E. lra.
Qed.
Print Assumptions C46_planar_negative_radius_refuted.
(** Without a pattern speed, Orbit.Jacobi uses 1: in a static potential that is not axisymmetric the result is not constant. *)
Theorem C46_default_jacobi_refuted : ~ (forall D l Phi (y : RR -> cyl) a b, potential_of D l Phi -> turns Phi -> time_free Phi ->
  stays_in D y a b -> orbit_rows l y a b -> constant_on (fun t => orb_Jacobi_default [None] Phi (y t) t) a b).
Proof.
  intros H. pose proof PI_RGT_0 as P. assert (Tf : time_free aniso_Phi) by (intros R z phi t t'; reflexivity).
  pose proof (H everywhere _ _ _ _ _ aniso_potential aniso_turns Tf (fun _ _ _ _ _ => I) aniso_orbit 0 (PI / 4) ltac:(lra) ltac:(lra)) as E.
  pose proof (E_law everywhere _ _ _ _ _ aniso_potential aniso_turns Tf (fun _ _ _ _ _ => I) aniso_orbit 0 (PI / 4) ltac:(lra) ltac:(lra)) as E2.
  cbn beta in E, E2. unfold orb_Jacobi_default, orb_Jacobi in E. cbn [first_OmegaP] in E. rewrite E2 in E. apply aniso_drifts. lra.
Qed.
Print Assumptions C46_default_jacobi_refuted.
