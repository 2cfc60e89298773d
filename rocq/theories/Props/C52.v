(** C52: the spiral-arm potential and the bar potentials (Dehnen bar, softened needle bar): forces, second derivatives, densities and
    the motion of the pattern. *)
From Coq Require Import Reals Lra List.
From Coquelicot Require Import Coquelicot.
From Verif.Lib Require Import RealAux.
From Verif.Model Require Import PotAPI PotSpiral PotBars.
From Verif.Spec Require Import PotSpec PotApiSpec SpiralBarSpec.
From Verif.Proofs Require Import PotLift NonAxiProofs SpiralBar.
Import ListNotations.
Open Scope R_scope.
Notation RR := RbaseSymbolsImpl.R (only parsing).

(** ** SpiralArmsPotential *)
(** Any number of harmonics with any coefficients, any amplitude. *)
Theorem C52_spiral_forces : forall s amp, spiral_ok s -> forces_are_gradient off_axis (Single amp (SpiralArms s)).
Proof. intros s amp H. destruct (spiral_class s (SpiralArms s) H (or_introl eq_refl)) as [Hf _ _]. apply Hf. Qed.
Print Assumptions C52_spiral_forces.
Theorem C52_spiral_second_derivatives : forall s amp, spiral_ok s ->
  hessian_is_correct off_axis (Single amp (SpiralArms s)) /\ azimuthal_hessian_is_correct off_axis (Single amp (SpiralArms s)).
Proof. intros s amp H. destruct (spiral_class s (SpiralArms s) H (or_introl eq_refl)) as [_ Hh Ha]. split; [apply Hh|apply Ha]. Qed.
Print Assumptions C52_spiral_second_derivatives.
(** dens(forcepoisson=True) is the source of the potential. *)
Theorem C52_spiral_poisson_density : forall s amp, spiral_ok s -> poisson_density_is_source off_axis (Single amp (SpiralArms s)).
Proof.
  intros s amp H. destruct (spiral_class s (SpiralArms s) H (or_introl eq_refl)) as [Hf Hh Ha]. apply poisson_density; auto. exact off_axis_open.
Qed.
Print Assumptions C52_spiral_poisson_density.
(** The analytic density is not: with one harmonic it is wrong at every point where the cosine of the spiral phase does not vanish
    (SpiralArmsPotential.py 990-1000: a term that should be squared is not). *)
Theorem C52_spiral_density_refuted : forall s amp C R z phi t, spiral_ok s -> a_Cs s = [C] -> C <> 0 -> amp <> 0 -> 0 < R ->
  cos (a_N s * (phi - a_omega s * t - a_phiref s + ln (R / a_rref s) / tan (a_alpha s))) <> 0 ->
  exists Phi dens, apiEv (Single amp (SpiralArms s)) = Some Phi /\ apiDens (Single amp (SpiralArms s)) = Some dens /\
    ~ is_laplacian_at Phi R z phi t (4 * PI * dens R z phi t).
Proof.
  intros s amp C R z phi t H EC HC Ha HR Hc. apply (spiral_density_off s amp C R z phi t H EC HC Ha HR).
  intros E. apply Hc. rewrite <- cos_neg. rewrite <- E. f_equal. symmetry. apply phase_eq. exact H.
Qed.
Print Assumptions C52_spiral_density_refuted.
(** With that term squared the density is the source of the potential, for all harmonics. *)
Theorem C52_spiral_density_squared : forall s amp, spiral_ok s -> density_is_source off_axis (Single amp (SpiralArms_squared s)).
Proof. intros s amp H. apply spiral_squared_density. exact H. Qed.
Print Assumptions C52_spiral_density_squared.
(** The whole pattern turns with the pattern speed, and a turn by one arm spacing leaves it as it is. *)
Theorem C52_spiral_pattern : forall s, a_N s <> 0 ->
  (let rot := turns_rigidly (a_omega s) (fun _ => True) in
   rot (c_ev (SpiralArms s)) /\ rot (c_Rf (SpiralArms s)) /\ rot (c_zf (SpiralArms s)) /\
   (exists Fp, c_pt (SpiralArms s) = Some Fp /\ rot Fp) /\ (exists dn, c_dn (SpiralArms s) = Some dn /\ rot dn)) /\
  forall R z phi t, c_ev (SpiralArms s) R z (phi + 2 * PI / a_N s) t = c_ev (SpiralArms s) R z phi t.
Proof.
  intros s HN. destruct (spiral_turns s) as (A & B & C & D & E). split; [|intros; apply spiral_arms_equal; exact HN].
  split; [exact A|]. split; [exact B|]. split; [exact C|]. split; eexists; (split; [reflexivity|assumption]).
Qed.
Print Assumptions C52_spiral_pattern.

(** ** DehnenBarPotential *)
(** The forces are the gradient at every point off the axis, also on the sphere where the two formulas meet and while the bar grows. *)
Theorem C52_dehnen_forces : forall b amp, 0 < b_rb b -> forces_are_gradient off_axis (Single amp (DehnenBar b)).
Proof. exact bar_forces. Qed.
Print Assumptions C52_dehnen_forces.
Theorem C52_dehnen_second_derivatives : forall b amp, 0 < b_rb b ->
  hessian_is_correct (off_sphere (b_rb b)) (Single amp (DehnenBar b)) /\
  azimuthal_hessian_is_correct (off_sphere (b_rb b)) (Single amp (DehnenBar b)).
Proof. intros b amp H. split; [apply bar_hess|apply bar_azimuthal]; exact H. Qed.
Print Assumptions C52_dehnen_second_derivatives.
(** The class has no analytic density; dens() is the source by Poisson's equation. *)
Theorem C52_dehnen_density : forall b amp, 0 < b_rb b -> density_is_source (off_sphere (b_rb b)) (Single amp (DehnenBar b)).
Proof. intros b amp H. exact (bar_density b amp H). Qed.
Print Assumptions C52_dehnen_density.
(** Nothing before the bar forms; a fraction of the full bar while it grows; rigid rotation from then on. *)
Theorem C52_dehnen_history : forall b, b_tform b < b_tsteady b ->
  (forall R z phi t, t < b_tform b -> c_ev (DehnenBar b) R z phi t = 0 /\ c_Rf (DehnenBar b) R z phi t = 0 /\ c_zf (DehnenBar b) R z phi t = 0) /\
  (forall R z phi t, b_tform b <= t < b_tsteady b -> exists f, 0 <= f <= 1 /\
     c_ev (DehnenBar b) R z phi t = f * c_ev (DehnenBar b) R z (phi + b_omegab b * (b_tsteady b - t)) (b_tsteady b)) /\
  (let rot := turns_rigidly (b_omegab b) (fun t => b_tsteady b <= t) in
   rot (c_ev (DehnenBar b)) /\ rot (c_Rf (DehnenBar b)) /\ rot (c_zf (DehnenBar b)) /\ exists Fp, c_pt (DehnenBar b) = Some Fp /\ rot Fp).
Proof.
  intros b Hb. split; [|split].
  - intros R z phi t Ht. destruct (bar_before b R z phi t Ht) as (A & B & C & _). repeat split; assumption.
  - intros R z phi t Ht. exists (db_smooth b t). split; [apply bar_growth; exact Hb|apply bar_growing; assumption].
  - destruct (bar_turns b) as (A & B & C & D); [lra|]. split; [exact A|]. split; [exact B|]. split; [exact C|]. eexists; split; [reflexivity|exact D].
Qed.
Print Assumptions C52_dehnen_history.
(** Placed by its outer Lindblad resonance in the rotation curve v = R^beta: the pattern speed is Omega + kappa / 2 there, the bar ends at
    chi times the corotation radius, and the radial force on its axis at R = 1 is -alpha. *)
Theorem C52_dehnen_resonance : forall rolr chi beta alpha barphi tform tsteady, 0 < rolr -> 0 < chi -> -1 < beta -> beta <> 1 ->
  let b := db_from_olr rolr chi beta alpha barphi tform tsteady in
  (exists kappa, is_epicyclic_frequency (circular_frequency beta) rolr kappa /\ b_omegab b = circular_frequency beta rolr + kappa / 2) /\
  (exists Rcr, 0 < Rcr /\ circular_frequency beta Rcr = b_omegab b /\ b_rb b = chi * Rcr) /\ 0 < b_rb b /\
  (forall t, b_rb b <= 1 -> b_tform b <= t -> b_tsteady b <= t -> c_Rf (DehnenBar b) 1 0 (barphi + b_omegab b * t) t = - alpha).
Proof.
  intros rolr chi beta alpha barphi tform tsteady Hr Hc Hb Hb1 b.
  destruct (bar_resonance rolr chi beta alpha barphi tform tsteady Hr Hc Hb Hb1) as (A & B & C & _). split; [|split; [exact B|split; [exact C|]]].
  - eexists. split; [apply (epicyclic_power beta rolr Hr Hb)|]. apply A. apply (epicyclic_power beta rolr Hr Hb).
  - intros t. apply bar_strength; assumption.
Qed.
Print Assumptions C52_dehnen_resonance.
(** Growth in units of the bar's period Tb, the time in which the pattern turns once: nothing before [tform] periods; full strength, turning
    rigidly, from [tsteady] periods after that, or from half of [tform] when [tsteady] is not given; and only half of it half-way in between. *)
Theorem C52_dehnen_times : forall omegab rb af barphi tform tsteady Tb, 0 < omegab -> omegab * Tb = 2 * PI ->
  (match tsteady with Some ts => 0 < ts | None => tform < 0 end) ->
  let b := db_finish omegab rb af barphi tform tsteady in
  let start := tform * Tb in
  let full := match tsteady with Some ts => (tform + ts) * Tb | None => tform * Tb / 2 end in
  start < full /\
  (forall R z phi t, t < start -> c_ev (DehnenBar b) R z phi t = 0) /\
  turns_rigidly omegab (fun t => full <= t) (c_ev (DehnenBar b)) /\
  (forall R z phi, c_ev (DehnenBar b) R z phi ((start + full) / 2)
     = 1 / 2 * c_ev (DehnenBar b) R z (phi + omegab * (full - (start + full) / 2)) full).
Proof.
  intros omegab rb af barphi tform tsteady Tb Ho HT Hs b start full. assert (Hne : omegab <> 0) by lra.
  assert (ET : Tb = db_tb omegab). { unfold db_tb. destruct (Req_EM_T omegab 0); [contradiction|]. rewrite <- HT. field. exact Hne. }
  assert (PT : 0 < Tb). { pose proof PI_RGT_0. apply Rmult_lt_reg_l with omegab; [exact Ho|]. lra. }
  assert (Es : b_tform b = start) by (unfold b, start; cbn; rewrite ET; reflexivity).
  assert (Ef : b_tsteady b = full) by (unfold b, full, db_finish; cbn; rewrite <- ET; destruct tsteady; ring).
  assert (LT : start < full).
  { unfold start, full. destruct tsteady as [ts|].
    - assert (0 < ts * Tb) by (apply Rmult_lt_0_compat; assumption). lra.
    - assert (0 < - tform * Tb) by (apply Rmult_lt_0_compat; lra). lra. }
  assert (Hb : b_tform b < b_tsteady b) by (rewrite Es, Ef; exact LT).
  split; [exact LT|]. split; [|split].
  - intros R z phi t Ht. apply (bar_before b R z phi t). rewrite Es. exact Ht.
  - rewrite <- Ef. apply bar_turns. lra.
  - intros R z phi. assert (Ht : b_tform b <= (start + full) / 2 < b_tsteady b) by (rewrite Es, Ef; lra).
    pose proof (bar_growing b R z phi ((start + full) / 2) Ht) as G. rewrite Ef in G. change (b_omegab b) with omegab in G. change (c_ev (DehnenBar b)) with (db_ev b). rewrite G. f_equal.
    unfold db_smooth. rewrite Es, Ef. destruct (Rlt_dec _ start); [lra|]. destruct (Rlt_dec _ full); [|lra].
    cbv zeta. replace (2 * ((start + full) / 2 - start) / (full - start) - 1) with 0 by (field; lra). field.
Qed.
Print Assumptions C52_dehnen_times.
Example C52_times_met : exists Tb, 1 * Tb = 2 * PI /\ 0 < 1 /\ (match Some 2 with Some ts => 0 < ts | None => False end).
Proof. exists (2 * PI). repeat split; lra. Qed.
(** Arrays of positions off the axis give the values of their entries, ... *)
Theorem C52_dehnen_arrays : forall b Rs zs phi t, List.Forall (fun R => R <> 0) Rs ->
  db_ev_array b Rs zs phi t = List.map (fun Rz => db_ev_scalar b (fst Rz) (snd Rz) phi t) (combine Rs zs).
Proof. exact bar_array. Qed.
Print Assumptions C52_dehnen_arrays.
(** ... but not on the axis, within the bar's radius: the value of the single position is 0 and that of the array is not. *)
Theorem C52_dehnen_arrays_refuted : forall b z phi t, z <> 0 -> Rabs z <= b_rb b ->
  b_af b <> 0 -> b_tform b <= b_tsteady b <= t -> cos (2 * (phi - b_omegab b * t - b_barphi b)) <> 0 ->
  db_ev_scalar b 0 z phi t = 0 /\ exists v, db_ev_array b [0] [z] phi t = [v] /\ v <> 0.
Proof.
  intros b z phi t Hz Hle Ha Ht Hc.
  assert (S : db_smooth b t = 1). { unfold db_smooth. destruct (Rlt_dec _ _); [lra|]. destruct (Rlt_dec _ _); [lra|reflexivity]. }
  destruct (bar_array_off b z phi t Hz Hle) as (N & E).
  { rewrite S, Rmult_1_r. apply Rmult_integral_contrapositive_currified; [exact Ha|exact Hc]. }
  split; [exact E|]. eexists. split; [reflexivity|]. intros V. apply N. rewrite E. unfold db_ev_array. cbn [combine map]. rewrite V. reflexivity.
Qed.
Print Assumptions C52_dehnen_arrays_refuted.

(** ** SoftenedNeedleBarPotential *)
(** Everywhere, on the axis as well. *)
Theorem C52_needle_forces : forall k amp, needle_ok k -> forces_are_gradient all_space (Single amp (SoftenedNeedleBar k)).
Proof. intros k amp H. destruct (needle_class k H) as [Hf _ _]. apply Hf. Qed.
Print Assumptions C52_needle_forces.
Theorem C52_needle_second_derivatives : forall k amp, needle_ok k ->
  hessian_is_correct all_space (Single amp (SoftenedNeedleBar k)) /\ azimuthal_hessian_is_correct all_space (Single amp (SoftenedNeedleBar k)).
Proof. intros k amp H. destruct (needle_class k H) as [_ Hh Ha]. split; [apply Hh|apply Ha]. Qed.
Print Assumptions C52_needle_second_derivatives.
Theorem C52_needle_density : forall k amp, needle_ok k ->
  density_is_source all_space (Single amp (SoftenedNeedleBar k)) /\ poisson_density_is_source all_space (Single amp (SoftenedNeedleBar k)).
Proof.
  intros k amp H. split; [apply needle_density; exact H|]. destruct (needle_class k H) as [Hf Hh Ha].
  apply poisson_density; auto. exact all_space_open.
Qed.
Print Assumptions C52_needle_density.
Theorem C52_needle_pattern : forall k, let rot := turns_rigidly (n_omegab k) (fun _ => True) in
  rot (c_ev (SoftenedNeedleBar k)) /\ rot (c_Rf (SoftenedNeedleBar k)) /\ rot (c_zf (SoftenedNeedleBar k)) /\
  (exists Fp, c_pt (SoftenedNeedleBar k) = Some Fp /\ rot Fp) /\ (exists dn, c_dn (SoftenedNeedleBar k) = Some dn /\ rot dn).
Proof.
  intros k rot. destruct (needle_turns k) as (A & B & C & D & E). split; [exact A|]. split; [exact B|]. split; [exact C|].
  split; eexists; (split; [reflexivity|assumption]).
Qed.
Print Assumptions C52_needle_pattern.

(** ** The hypotheses are met *)
Definition two_arms : Spiral := mkSpiral 2 (PI / 6) 1 0 2 (1 / 8) (1 / 2) [1].
Example C52_two_arms : spiral_ok two_arms /\
  cos (a_N two_arms * (0 - a_omega two_arms * 0 - a_phiref two_arms + ln (1 / a_rref two_arms) / tan (a_alpha two_arms))) <> 0.
Proof.
  pose proof PI_RGT_0. unfold spiral_ok, two_arms; cbn. split; [repeat split; lra|].
  replace (1 / 1) with 1 by field. rewrite ln_1. unfold Rdiv. replace (2 * (0 - 1 * / 2 * 0 - 0 + 0 * / tan (PI * / 6))) with 0 by ring. rewrite cos_0. lra.
Qed.
Example C52_three_harmonics : spiral_ok (mkSpiral 4 (PI / 6) 1 0 2 (1 / 8) (1 / 2) [8 / (3 * PI); 1 / 2; 8 / (15 * PI)]).
Proof. pose proof PI_RGT_0. unfold spiral_ok; cbn. repeat split; lra. Qed.
Definition local_bar : DBar := db_from_olr 2 (1 / 2) 0 (1 / 100) 0 (-4) None.
Example C52_local_bar : 0 < b_rb local_bar /\ b_tform local_bar < b_tsteady local_bar.
Proof.
  destruct (C52_dehnen_resonance 2 (1 / 2) 0 (1 / 100) 0 (-4) None) as (_ & _ & P & _); try lra. split; [exact P|].
  destruct (bar_resonance 2 (1 / 2) 0 (1 / 100) 0 (-4) None) as (_ & _ & _ & O & _); try lra. cbv zeta in O.
  unfold local_bar. unfold db_from_olr, db_finish in O |- *. cbn [b_tform b_tsteady b_omegab] in O |- *. set (om := 1 / (rpow _ _ / _)) in *. clearbody om.
  unfold db_tb. destruct (Req_EM_T om 0); [lra|]. assert (0 < 2 * PI / om) by (apply Rdiv_lt_0_compat; [pose proof PI_RGT_0; lra|exact O]).
  set (tb := 2 * PI / om) in *. clearbody tb. lra.
Qed.
Example C52_array_witness : let b := mkDBar 1 2 1 0 (-2) (-1) in
  1 <> 0 /\ Rabs 1 <= b_rb b /\ b_af b <> 0 /\ b_tform b <= b_tsteady b <= 0 /\ cos (2 * (0 - b_omegab b * 0 - b_barphi b)) <> 0.
Proof.
  cbn. rewrite Rabs_pos_eq by lra. replace (2 * (0 - 1 * 0 - 0)) with 0 by ring. rewrite cos_0. repeat split; lra.
Qed.
Example C52_needle : needle_ok (nb_make 4 0 1 (1 / 2) 2).
Proof. unfold needle_ok; cbn. repeat split; lra. Qed.
