(** C49: the samples of a spherical distribution function follow it. *)
From Coq Require Import Reals List ZArith Lra Lia Bool.
From Coquelicot Require Import Coquelicot.
From Verif.Lib Require Import RealAux Atan2.
From Verif.Model Require Import PotAPI PotAxi SOS EOM SphericalDF.
From Verif.Spec Require Import SphericalDFSpec.
From Verif.Proofs Require Import SphericalDFIntegrals SphericalDFModels SphericalDFProofs SphericalDFSampling SphericalDFWitness.
Import ListNotations.
Open Scope R_scope.
Notation RR := RbaseSymbolsImpl.R (only parsing).

(** ** Radii *)
(** A uniform mass fraction gives a radius below r exactly with the fraction of the mass within r. *)
Theorem C49_radii_follow_the_mass : forall amp s, 0 < amp -> 0 < s ->
  inverts (plummer_icmf s) (fun r => amp * Pl_mass s r / amp) /\
  inverts (hernquist_icmf s) (fun r => amp * He_mass s r / (amp / 2)).
Proof. intros amp s Ha Hs. split; [exact (plummer_inverts s amp Hs Ha)|exact (hernquist_inverts s amp Hs Ha)]. Qed.
Print Assumptions C49_radii_follow_the_mass.
Theorem C49_powerlaw_radii_follow_the_mass : forall gamma rmin rmax u x, gamma < 3 -> 0 < rmin < rmax -> 0 < u < 1 -> rmin <= x ->
  (powerlaw_icmf gamma rmin rmax u <= x <->
   u <= RInt (fun r => r ^ 2 * rpow r (- gamma)) rmin x / RInt (fun r => r ^ 2 * rpow r (- gamma)) rmin rmax).
Proof. exact powerlaw_inverts. Qed.
Print Assumptions C49_powerlaw_radii_follow_the_mass.
(** sample(rmin=) does not keep the radii above rmin for these classes. *)
Theorem C49_rmin_refuted : forall s cmf rmin, 0 < s -> 0 < rmin ->
  (exists u, 0 < u < 1 /\ sample_r (Some (plummer_icmf s)) cmf rmin u < rmin) /\
  (exists u, 0 < u < 1 /\ sample_r (Some (hernquist_icmf s)) cmf rmin u < rmin).
Proof.
  intros s cmf rmin Hs Hr. split.
  - apply (rmin_ignored _ _ cmf rmin Hr (plummer_inverts s 1 Hs Rlt_0_1)). unfold Pl_mass, Pl_b2.
    replace (1 * rpow (1 + s ^ 2 / (rmin / 2) ^ 2) (- (3 / 2)) / 1) with (/ rpow (1 + s ^ 2 / (rmin / 2) ^ 2) (3 / 2)) by (rewrite rpow_opp; field; apply Rgt_not_eq, rpow_pos).
    assert (B : 0 < s ^ 2 / (rmin / 2) ^ 2) by (apply Rdiv_lt_0_compat; apply pow_lt; lra).
    split; [apply Rinv_0_lt_compat, rpow_pos|]. rewrite <- Rinv_1. apply Rinv_lt_contravar; [rewrite Rmult_1_l; apply rpow_pos|].
    assert (E : 1 = rpow 1 (3 / 2)) by (unfold rpow, Rpower; rewrite ln_1, Rmult_0_r, exp_0; reflexivity). rewrite E at 1. unfold rpow. apply Rlt_Rpower_l; lra.
  - apply (rmin_ignored _ _ cmf rmin Hr (hernquist_inverts s 1 Hs Rlt_0_1)). unfold He_mass.
    replace (1 * (1 / (1 + s / (rmin / 2)) ^ 2 / 2) / (1 / 2)) with ((rmin / (rmin + 2 * s)) ^ 2) by (field; split; lra).
    assert (A : 0 < rmin / (rmin + 2 * s)) by (apply Rdiv_lt_0_compat; lra).
    assert (B : rmin / (rmin + 2 * s) < 1) by (apply (Rdiv_lt_1 rmin (rmin + 2 * s)); lra). nra.
Qed.
Print Assumptions C49_rmin_refuted.

(** ** Angles and speeds *)
(** The polar angle of the position: the fraction of the sphere within theta of the pole. *)
Theorem C49_positions_are_isotropic : forall u t, 0 <= u <= 1 -> 0 <= t <= PI ->
  (sample_theta u <= t <-> u <= RInt sin 0 t / RInt sin 0 PI) /\ 0 <= sample_theta u <= PI /\ (0 <= u < 1 -> 0 <= sample_phi u < 2 * PI).
Proof.
  intros u t Hu Ht. rewrite !sin_int, cos_0, cos_PI. rewrite (theta_draw u t Hu Ht).
  split; [replace ((1 - cos t) / (1 - -1)) with ((1 - cos t) / 2) by field; reflexivity|]. split; [apply acos_bound|].
  unfold sample_phi. pose proof PI_RGT_0. intros. split; nra.
Qed.
Print Assumptions C49_positions_are_isotropic.
(** The angle between the velocity and the radial direction: the fraction of the stars at radius r with a smaller angle, for the
    isotropic classes. *)
Theorem C49_isotropic_velocity_angle : forall fE pot vesc r u t, speed_weight (iso_call fE) pot r 0 vesc <> 0 -> 0 <= u <= 1 -> 0 <= t <= PI ->
  (sample_theta u <= t <-> u <= RInt (angle_weight (iso_call fE) pot vesc r) 0 t / RInt (angle_weight (iso_call fE) pot vesc r) 0 PI).
Proof. exact iso_eta_draw. Qed.
Print Assumptions C49_isotropic_velocity_angle.
(** For Osipkov-Merritt: |cos eta| and its sign. *)
Theorem C49_osipkov_merritt_velocity_angle : forall ra fQ pot r, 0 < ra -> pot < 0 -> (forall q, q < 0 -> fQ q = 0) ->
  (forall x, ex_RInt (fun v => v ^ 2 * fQ (- pot - 0.5 * v ^ 2)) 0 x) ->
  RInt (fun v => v ^ 2 * fQ (- pot - 0.5 * v ^ 2)) 0 (sqrt (2 * - pot)) <> 0 ->
  forall c, 0 <= c <= 1 ->
  (forall neg t, 0 <= t <= PI / 2 ->
    (Rabs (cos (om_sample_eta ra r c neg)) <= cos t <->
     c <= RInt (angle_weight (om_call ra fQ) pot (sqrt (2 * - pot)) r) t (PI / 2) / RInt (angle_weight (om_call ra fQ) pot (sqrt (2 * - pot)) r) 0 (PI / 2))) /\
  0 <= cos (om_sample_eta ra r c false) /\ cos (om_sample_eta ra r c true) = - cos (om_sample_eta ra r c false).
Proof.
  intros ra fQ pot r Hra Hp Hq X NZ c Hc. split; [intros neg t Ht; exact (om_eta_draw ra fQ pot r c neg t Hra Hp Hq X NZ Hc Ht)|exact (om_eta_sign ra r c Hra Hc)].
Qed.
Print Assumptions C49_osipkov_merritt_velocity_angle.
(** If the speeds drawn from the interpolator follow v^2 fQ, then the speeds returned for Osipkov-Merritt follow the distribution
    function at the angle eta. *)
Theorem C49_osipkov_merritt_speed : forall ra fQ pot r eta (draw : RR -> RR), 0 < ra -> pot < 0 -> (forall q, q < 0 -> fQ q = 0) ->
  (forall x, ex_RInt (fun v => v ^ 2 * fQ (- pot - 0.5 * v ^ 2)) 0 x) ->
  inverts draw (fun x => RInt (fun v => v ^ 2 * fQ (- pot - 0.5 * v ^ 2)) 0 x / RInt (fun v => v ^ 2 * fQ (- pot - 0.5 * v ^ 2)) 0 (sqrt (2 * - pot))) ->
  RInt (fun v => v ^ 2 * fQ (- pot - 0.5 * v ^ 2)) 0 (sqrt (2 * - pot)) <> 0 ->
  inverts (fun u => om_sample_v ra r eta (draw u))
          (fun x => speed_weight (om_call ra fQ) pot r eta x / speed_weight (om_call ra fQ) pot r eta (sqrt (2 * - pot))).
Proof. exact om_v_draw. Qed.
Print Assumptions C49_osipkov_merritt_speed.

(** ** Rows *)
(** The row of a sample has the radius, the speed, the radial velocity and the angular momentum that were drawn, so that the
    distribution function at the row is the one the weights above use. *)
Theorem C49_rows : forall r theta phi eta psi v, 0 < r -> 0 <= v -> 0 <= eta <= PI -> 0 <= theta <= PI ->
  let w := sample_row r theta phi eta psi v in
  row_r w = r /\ row_speed2 w = v ^ 2 /\ row_vr w = v * cos eta /\ norm3 (orb_L w) = r * (v * sin eta) /\ 0 <= y_R w /\ y_z w = r * cos theta /\ y_phi w = phi /\
  (forall f Phi, (forall R z, Phi R z = Phi (sqrt (R ^ 2 + z ^ 2)) 0) -> (forall E L Lz Lz', f E L Lz = f E L Lz') ->
     call_coords f Phi (y_R w) (y_vR w) (y_vT w) (y_z w) (y_vz w) = f (Phi r 0 + v ^ 2 / 2) (r * (v * sin eta)) (r * (v * sin eta))).
Proof.
  intros r theta phi eta psi v Hr Hv He Ht w. assert (Hs : 0 <= sin eta) by (apply sin_ge_0; lra).
  destruct (sample_row_ok r theta phi eta psi v Hr Hv Hs) as (A & B & C & D). fold w in A, B, C, D.
  split; [exact A|]. split; [exact B|]. split; [exact C|]. split; [exact D|].
  split; [unfold w, sample_row; cbn; apply Rmult_le_pos; [lra|apply sin_ge_0; lra]|]. split; [reflexivity|]. split; [reflexivity|].
  intros f Phi Sp Fz. pose proof (sample_row_value f Phi r theta phi eta psi v Hr Hv Hs Sp) as V. cbn zeta in V. fold w in V. rewrite V. apply Fz.
Qed.
Print Assumptions C49_rows.
(** sample(R=, z=, phi=) keeps the position it was given. *)
Theorem C49_rows_at_a_position : forall R z phi eta psi v, 0 < R ^ 2 + z ^ 2 ->
  let w := sample_row_at R z phi eta psi v in
  y_R w = R /\ y_z w = z /\ y_phi w = phi /\ w = sample_row (sqrt (R ^ 2 + z ^ 2)) (atan2 R z) phi eta psi v.
Proof. intros R z phi eta psi v H w. split; [reflexivity|]. split; [reflexivity|]. split; [reflexivity|]. exact (sample_row_at_eq R z phi eta psi v H). Qed.
Print Assumptions C49_rows_at_a_position.

(** ** Caches *)
(** Whatever samples were drawn before, the interpolators that a call uses are those for its own minimum radius. *)
Theorem C49_interpolators_are_current : forall has_icmf calls full rmin,
  snd (sample_step has_icmf (after has_icmf calls) full rmin) = (if full && negb has_icmf then Some rmin else None, rmin).
Proof. intros h calls full rmin. exact (proj2 (step_current h _ full rmin (after_current h calls))). Qed.
Print Assumptions C49_interpolators_are_current.

(** ** The hypotheses are met *)
(** A distribution function that is 1 for the bound stars, at a radius with potential -1/2: the escape speed is 1. *)
Example C49_osipkov_merritt_met :
  (Rabs (cos (om_sample_eta 1 1 (1 / 2) true)) <= cos 0 <->
   1 / 2 <= RInt (angle_weight (om_call 1 step) (- (1 / 2)) (sqrt (2 * - - (1 / 2))) 1) 0 (PI / 2) / RInt (angle_weight (om_call 1 step) (- (1 / 2)) (sqrt (2 * - - (1 / 2))) 1) 0 (PI / 2)) /\
  inverts (fun u => om_sample_v 1 1 1 (rpow u (1 / 3)))
          (fun x => speed_weight (om_call 1 step) (- (1 / 2)) 1 1 x / speed_weight (om_call 1 step) (- (1 / 2)) 1 1 (sqrt (2 * - - (1 / 2)))).
Proof.
  assert (NZ : RInt sf 0 (sqrt (2 * - - (1 / 2))) <> 0) by (rewrite sf_total; lra). pose proof PI_RGT_0 as Pi. split.
  - apply (C49_osipkov_merritt_velocity_angle 1 step (- (1 / 2)) 1 Rlt_0_1 ltac:(lra) step_neg sf_ex NZ); lra.
  - exact (C49_osipkov_merritt_speed 1 step (- (1 / 2)) 1 1 _ Rlt_0_1 ltac:(lra) step_neg sf_ex sf_draw NZ).
Qed.
Example C49_isotropic_met : speed_weight (iso_call (fun _ => 1)) (-1) 1 0 1 <> 0.
Proof.
  unfold speed_weight, iso_call. rewrite (RInt_ext _ (fun v => v ^ 2)) by (intros; apply Rmult_1_r).
  rewrite (is_RInt_unique (V := R_CompleteNormedModule) _ _ _ _ (cube_int 0 1)). lra.
Qed.
Example C49_history : snd (sample_step false (after false [(true, 0); (false, 1); (true, 0)]) true 1) = (Some 1, 1).
Proof. apply C49_interpolators_are_current. Qed.
