(** Spiral arms and bars: the statements about the public API. *)
From Coq Require Import Reals Lra Psatz List.
From Coquelicot Require Import Coquelicot.
From Verif.Lib Require Import RealAux.
From Verif.Model Require Import PotAPI Coords PotSpiral PotBars.
From Verif.Spec Require Import PotSpec PotApiSpec SpiralBarSpec.
From Verif.Proofs Require Import PotLift NonAxiProofs CatalogProofs SpiralProofs SpiralProofs2 SpiralDensity BarProofs NeedleProofs.
Import ListNotations.
Open Scope R_scope.
Notation RR := RbaseSymbolsImpl.R (only parsing).
Ltac rr := match goal with |- ?a = ?b => change (@eq RR a b) end.

Lemma off_axis_open : slice_open off_axis.
Proof. intros R z phi t H. repeat split; try (apply filter_forall; intros; exact H). apply locally_pos. exact H. Qed.
Lemma all_space_open : slice_open all_space.
Proof. intros R z phi t H. repeat split; apply filter_forall; intros; exact I. Qed.

(** ** Spiral arms *)
Lemma spiral_class (s : Spiral) c : spiral_ok s -> c = SpiralArms s \/ c = SpiralArms_squared s -> ClassOK off_axis c.
Proof.
  intros Hs Hc. split; intros amp.
  - apply class_forces with (Fp := sp_pt s). { left. destruct Hc as [-> | ->]; reflexivity. }
    replace (c_ev c) with (sp_ev s) by (destruct Hc as [-> | ->]; reflexivity).
    replace (c_Rf c) with (sp_Rf s) by (destruct Hc as [-> | ->]; reflexivity).
    replace (c_zf c) with (sp_zf s) by (destruct Hc as [-> | ->]; reflexivity).
    intros R z phi t HR. splits; [apply force_R|apply force_z|apply force_phi]; auto.
  - apply class_hess with (a := sp_R2 s) (b := sp_z2 s) (e := sp_Rz s); try (destruct Hc as [-> | ->]; reflexivity).
    replace (c_Rf c) with (sp_Rf s) by (destruct Hc as [-> | ->]; reflexivity).
    replace (c_zf c) with (sp_zf s) by (destruct Hc as [-> | ->]; reflexivity).
    intros R z phi t HR. splits; [apply hess_R2|apply hess_z2|apply hess_Rz|apply hess_zR]; auto.
  - apply class_azi. { destruct Hc as [-> | ->]; cbn; intros; repeat split; discriminate. }
    replace (c_Rf c) with (sp_Rf s) by (destruct Hc as [-> | ->]; reflexivity).
    replace (c_zf c) with (sp_zf s) by (destruct Hc as [-> | ->]; reflexivity).
    intros R z phi t HR. destruct Hc as [-> | ->]; cbn; (splits; [apply hess_p2|apply hess_Rp|apply hess_pR|apply hess_zp|apply hess_pz]; auto).
Qed.
Lemma spiral_squared_density (s : Spiral) amp : spiral_ok s -> density_is_source off_axis (Single amp (SpiralArms_squared s)).
Proof.
  intros Hs. eapply class_density; try reflexivity.
  - exact off_axis_open.
  - apply (spiral_class s); auto.
  - discriminate.
  - apply spiral_poisson. exact Hs.
Qed.
Lemma y_bounds (h : RR) : 0 < h -> let y := h / ((3 / 10 * h ^ 2 + h + 1) / (3 / 10 * h + 1)) * (1 - 3 / 10 / (1 + 3 / 10 * h) ^ 2) in 0 < y < 1.
Proof.
  intros H y. assert (E : y = (h * (3 / 10 * h + 1)) / (3 / 10 * h ^ 2 + h + 1) * (((1 + 3 / 10 * h) ^ 2 - 3 / 10) / (1 + 3 / 10 * h) ^ 2)).
  { unfold y. field. repeat split; nra. }
  assert (A : 0 < (h * (3 / 10 * h + 1)) / (3 / 10 * h ^ 2 + h + 1) < 1).
  { split; [apply Rdiv_lt_0_compat; nra|]. apply (Rmult_lt_reg_r (3 / 10 * h ^ 2 + h + 1)); [nra|]. unfold Rdiv at 1. rewrite Rmult_assoc, Rinv_l by nra. nra. }
  assert (Q : 0 < (1 + 3 / 10 * h) ^ 2) by nra.
  assert (B : 0 < (((1 + 3 / 10 * h) ^ 2 - 3 / 10) / (1 + 3 / 10 * h) ^ 2) < 1).
  { split; [apply Rdiv_lt_0_compat; nra|]. apply (Rmult_lt_reg_r ((1 + 3 / 10 * h) ^ 2)); [nra|]. unfold Rdiv at 1. rewrite Rmult_assoc, Rinv_l by nra. lra. }
  rewrite E. split; nra.
Qed.
(** The code's density of a single harmonic is off wherever the cosine does not vanish. *)
Lemma spiral_dens_off (s : Spiral) C R z phi t : spiral_ok s -> a_Cs s = [C] -> C <> 0 -> 0 < R ->
  cos (sgamma s R (phi - a_omega s * t)) <> 0 -> sp_dens s R z phi t <> sp_dens_with s 2 R z phi t.
Proof.
  intros Hs EC HC HR Hc E. unfold sp_dens, sp_dens_with, harmonics in E. rewrite EC in E. cbn [length seq map combine hsum fold_right fst snd] in E.
  change (INR 1) with 1 in E. assert (H1 : 0 < 1) by lra.
  pose proof (K_pos s Hs 1 H1 R HR) as HK. pose proof (D_pos s Hs 1 H1 R HR) as HD.
  assert (HH : 0 < a_H s) by apply Hs.
  pose proof (rpow_pos (1 / cosh (z * sK s 1 R / sB s 1 R)) (sB s 1 R)) as HP.
  pose proof (exp_pos (- (R - a_rref s) / a_Rs s)) as HE. pose proof PI_RGT_0 as HPI.
  unfold sp_rE in E. cbv zeta in E.
  set (h := sK s 1 R * a_H s) in *.
  assert (Hh : 0 < h) by (unfold h; apply Rmult_lt_0_compat; assumption).
  assert (EqD : sD s 1 R = (3 / 10 * h ^ 2 + h + 1) / (3 / 10 * h + 1)).
  { rewrite (sD_eq s Hs 1 H1 R HR). cbv zeta. unfold h. rewrite (sK_eq s Hs 1 R HR). cbv zeta.
    replace (1 * a_N s / sin (a_alpha s) / R * a_H s) with (a_H s * (1 * a_N s / sin (a_alpha s)) / R) by (unfold Rdiv; ring). reflexivity. }
  destruct (y_bounds h Hh) as (Y0 & Y1). rewrite <- EqD in Y0, Y1. cbv zeta in Y0, Y1.
  set (y := h / sD s 1 R * (1 - 3 / 10 / (1 + 3 / 10 * h) ^ 2)) in *.
  rewrite Rmult_1_l in E.
  set (W := C * srho0 * (a_H s / (sD s 1 R * R)) * exp (- (R - a_rref s) / a_Rs s) * rpow (1 / cosh (z * sK s 1 R / sB s 1 R)) (sB s 1 R)) in E.
  assert (HW : W <> 0).
  { assert (S0 : srho0 <> 0). { unfold srho0. apply Rgt_not_eq. apply Rdiv_lt_0_compat; [lra|]. apply Rmult_lt_0_compat; [lra|exact HPI]. }
    assert (S1 : a_H s / (sD s 1 R * R) <> 0). { apply Rgt_not_eq. apply Rdiv_lt_0_compat; [exact HH|]. apply Rmult_lt_0_compat; assumption. }
    unfold W. generalize dependent srho0. intros. apply Rmult_integral_contrapositive_currified; [|lra]. apply Rmult_integral_contrapositive_currified; [|lra].
    apply Rmult_integral_contrapositive_currified; [|assumption]. apply Rmult_integral_contrapositive_currified; assumption. }
  assert (Z : W * (cos (sgamma s R (phi - a_omega s * t)) * (1 / sK s 1 R / R * (y * (y - 1)))) = 0).
  { match type of E with ?l = ?r => assert (E2 : l - r = 0) by (rewrite E; ring) end.
    rewrite <- E2. clearbody W y h. clear. rr. unfold Rdiv. ring. }
  assert (P : 0 < 1 / sK s 1 R / R). { unfold Rdiv. rewrite Rmult_1_l. apply Rmult_lt_0_compat; apply Rinv_0_lt_compat; assumption. }
  revert Z. apply Rmult_integral_contrapositive_currified; [assumption|]. apply Rmult_integral_contrapositive_currified; [assumption|].
  apply Rmult_integral_contrapositive_currified; [lra|]. apply Rmult_integral_contrapositive_currified; lra.
Qed.
Lemma spiral_density_off (s : Spiral) amp C R z phi t : spiral_ok s -> a_Cs s = [C] -> C <> 0 -> amp <> 0 -> 0 < R ->
  cos (sgamma s R (phi - a_omega s * t)) <> 0 ->
  exists Phi dens, apiEv (Single amp (SpiralArms s)) = Some Phi /\ apiDens (Single amp (SpiralArms s)) = Some dens /\
    ~ is_laplacian_at Phi R z phi t (4 * PI * dens R z phi t).
Proof.
  intros Hs EC HC Ha HR Hc. do 2 eexists. split; [reflexivity|]. split; [reflexivity|]. intros L.
  destruct (spiral_squared_density s amp Hs) as (Phi & dn & E1 & E2 & HP). inversion E1; subst Phi. inversion E2; subst dn. clear E1 E2.
  specialize (HP R z phi t HR HR). cbn in L, HP. pose proof (laplacian_unique _ _ _ _ _ _ _ L HP) as E. clear L HP.
  pose proof PI_RGT_0. apply (spiral_dens_off s C R z phi t Hs EC HC HR Hc).
  unfold scale4 in E. apply (Rmult_eq_reg_l (4 * PI * amp)); [lra|]. apply Rmult_integral_contrapositive_currified; lra.
Qed.
Lemma spiral_turns (s : Spiral) : let rot := turns_rigidly (a_omega s) (fun _ => True) in
  rot (sp_ev s) /\ rot (sp_Rf s) /\ rot (sp_zf s) /\ rot (sp_pt s) /\ rot (sp_dens s).
Proof.
  cbv zeta. unfold turns_rigidly. splits; intros R z phi t dt _ _;
    unfold sp_ev, sp_Rf, sp_zf, sp_pt, sp_dens, sp_dens_with;
    replace (phi + a_omega s * dt - a_omega s * (t + dt)) with (phi - a_omega s * t) by ring; reflexivity.
Qed.
(** The arms: the potential is invariant under a turn by one arm spacing. *)
Lemma hsum_ext l (f g : RR -> RR -> RR) : (forall n C, In (n, C) l -> f n C = g n C) -> hsum l f = hsum l g.
Proof.
  induction l as [|(n, C) l IH]; intros H; [reflexivity|]. unfold hsum in *. cbn. rewrite (H n C) by (left; reflexivity).
  rewrite IH; [reflexivity|]. intros; apply H; right; assumption.
Qed.
Lemma harmonic_nat s n C : In (n, C) (harmonics s) -> exists m, n = INR m.
Proof. intros H. apply in_combine_l in H. apply in_map_iff in H. destruct H as (m & <- & _). exists m; reflexivity. Qed.
Lemma spiral_arms_equal (s : Spiral) R z phi t : a_N s <> 0 -> sp_ev s R z (phi + 2 * PI / a_N s) t = sp_ev s R z phi t.
Proof.
  intros HN. unfold sp_ev. f_equal. apply hsum_ext. intros n C Hin. destruct (harmonic_nat _ _ _ Hin) as (m & ->).
  f_equal. f_equal. symmetry. replace (INR m * sgamma s R (phi - a_omega s * t)) with (INR m * sgamma s R (phi + 2 * PI / a_N s - a_omega s * t) + 2 * INR m * PI).
  - apply cos_period.
  - unfold sgamma, sN. set (q := ln (R / a_rref s) / _). clearbody q. rr. field. assumption.
Qed.
(** ** Needle bar *)
Lemma needle_class k : needle_ok k -> ClassOK all_space (SoftenedNeedleBar k).
Proof.
  intros Hk. split; intros amp.
  - apply class_forces with (Fp := nb_pt k). { left; reflexivity. } apply needle_force; exact Hk.
  - eapply class_hess; try reflexivity. apply needle_mer; exact Hk.
  - apply class_azi. { intros _; repeat split; discriminate. } apply needle_azi; exact Hk.
Qed.
Lemma needle_density k amp : needle_ok k -> density_is_source all_space (Single amp (SoftenedNeedleBar k)).
Proof.
  intros Hk. eapply class_density; try reflexivity.
  - exact all_space_open.
  - apply needle_class; auto.
  - discriminate.
  - apply needle_poisson. exact Hk.
Qed.
Lemma needle_turns k : let rot := turns_rigidly (n_omegab k) (fun _ => True) in
  rot (nb_ev k) /\ rot (nb_Rf k) /\ rot (nb_zf k) /\ rot (nb_pt k) /\ rot (nb_dens k).
Proof.
  cbv zeta. unfold turns_rigidly. splits; intros R z phi t dt _ _;
    unfold nb_ev, nb_Rf, nb_zf, nb_pt, nb_dens, nb_xyz;
    replace (phi + n_omegab k * dt - n_pa k - n_omegab k * (t + dt)) with (phi - n_pa k - n_omegab k * t) by ring; try reflexivity;
    unfold nb_xyzforces, nb_xyz;
    replace (phi + n_omegab k * dt - n_pa k - n_omegab k * (t + dt)) with (phi - n_pa k - n_omegab k * t) by ring;
    destruct (cyl_to_rect R (phi - n_pa k - n_omegab k * t) z) as ((x & y) & z'); destruct (nb_TpTm k x y z') as (Tp & Tm); try reflexivity;
    replace (n_pa k + n_omegab k * (t + dt)) with (n_pa k + n_omegab k * t + n_omegab k * dt) by ring;
    rewrite 2!(cos_plus _ (n_omegab k * dt)), 2!(sin_plus _ (n_omegab k * dt));
    pose proof (sin2_cos2 (n_omegab k * dt)) as Q; unfold Rsqr in Q;
    set (C := cos (n_omegab k * dt)) in *; set (S := sin (n_omegab k * dt)) in *; clearbody C S.
  - rr. transitivity ((S * S + C * C) * (cos phi * (cos (n_pa k + n_omegab k * t) * nb_xforce x y z' Tp Tm - sin (n_pa k + n_omegab k * t) * nb_yforce k x y z' Tp Tm) +
       sin phi * (sin (n_pa k + n_omegab k * t) * nb_xforce x y z' Tp Tm + cos (n_pa k + n_omegab k * t) * nb_yforce k x y z' Tp Tm))); [ring|rewrite Q; ring].
  - rr. transitivity ((S * S + C * C) * (R * (- sin phi * (cos (n_pa k + n_omegab k * t) * nb_xforce x y z' Tp Tm - sin (n_pa k + n_omegab k * t) * nb_yforce k x y z' Tp Tm) +
       cos phi * (sin (n_pa k + n_omegab k * t) * nb_xforce x y z' Tp Tm + cos (n_pa k + n_omegab k * t) * nb_yforce k x y z' Tp Tm)))); [ring|rewrite Q; ring].
Qed.
(** ** Dehnen bar *)
Lemma bar_forces b amp : 0 < b_rb b -> forces_are_gradient off_axis (Single amp (DehnenBar b)).
Proof.
  intros Hb. apply class_forces with (Fp := db_pt b). { left; reflexivity. }
  intros R z phi t HR. splits; [apply bar_R|apply bar_z|apply bar_phi]; auto.
Qed.
Lemma bar_hess b amp : 0 < b_rb b -> hessian_is_correct (off_sphere (b_rb b)) (Single amp (DehnenBar b)).
Proof. intros Hb. eapply class_hess; try reflexivity. apply bar_mer; exact Hb. Qed.
Lemma bar_azimuthal b amp : 0 < b_rb b -> azimuthal_hessian_is_correct (off_sphere (b_rb b)) (Single amp (DehnenBar b)).
Proof. intros Hb. apply class_azi. { intros _; repeat split; discriminate. } apply bar_azi; exact Hb. Qed.
Lemma bar_density b amp : 0 < b_rb b -> poisson_density_is_source (off_sphere (b_rb b)) (Single amp (DehnenBar b)).
Proof.
  intros Hb. apply poisson_density. { apply off_open; exact Hb. }
  - destruct (bar_forces b amp Hb) as (Phi & Fp & A & B & H). exists Phi, Fp. splits; [exact A|exact B|]. intros R z phi t (HR & _). apply H. exact HR.
  - apply bar_hess; exact Hb.
  - apply bar_azimuthal; exact Hb.
Qed.
Lemma bar_turns b : b_tform b <= b_tsteady b -> let rot := turns_rigidly (b_omegab b) (fun t => b_tsteady b <= t) in
  rot (db_ev b) /\ rot (db_Rf b) /\ rot (db_zf b) /\ rot (db_pt b).
Proof.
  intros Hle. cbv zeta. assert (S : forall t, b_tsteady b <= t -> db_smooth b t = 1).
  { intros t Ht. unfold db_smooth. destruct (Rlt_dec _ _); [lra|]. destruct (Rlt_dec _ _); [lra|reflexivity]. }
  assert (C : forall phi t dt, db_cos b (phi + b_omegab b * dt) (t + dt) = db_cos b phi t) by (intros; unfold db_cos; f_equal; ring).
  assert (C' : forall phi t dt, db_sin b (phi + b_omegab b * dt) (t + dt) = db_sin b phi t) by (intros; unfold db_sin; f_equal; ring).
  unfold turns_rigidly. splits; intros R z phi t dt H1 H2; unfold db_ev, db_Rf, db_zf, db_pt; rewrite (S t H1), (S _ H2), ?C, ?C'; reflexivity.
Qed.
Lemma bar_before b R z phi t : t < b_tform b -> db_ev b R z phi t = 0 /\ db_Rf b R z phi t = 0 /\ db_zf b R z phi t = 0 /\ db_pt b R z phi t = 0.
Proof.
  intros Ht. assert (S : db_smooth b t = 0). { unfold db_smooth. destruct (Rlt_dec _ _); [reflexivity|lra]. }
  unfold db_ev, db_Rf, db_zf, db_pt; rewrite S. cbv zeta.
  splits; repeat match goal with |- context [if ?c then _ else _] => destruct c end; rr; unfold Rdiv; ring.
Qed.
(** The growth is continuous and stays between 0 and 1. *)
Lemma bar_growth b t : b_tform b < b_tsteady b -> 0 <= db_smooth b t <= 1.
Proof.
  intros H. unfold db_smooth. destruct (Rlt_dec _ _); [lra|]. destruct (Rlt_dec _ _); [|lra]. cbv zeta.
  set (xi := 2 * (t - b_tform b) / (b_tsteady b - b_tform b) - 1).
  assert (X : -1 <= xi <= 1).
  { assert (0 <= (t - b_tform b) / (b_tsteady b - b_tform b) <= 1). { split; [apply Rle_mult_inv_pos; lra|]. apply (Rmult_le_reg_r (b_tsteady b - b_tform b)); [lra|]. unfold Rdiv. rewrite Rmult_assoc, Rinv_l by lra. lra. }
    unfold xi. unfold Rdiv in *. lra. }
  clearbody xi.
  replace (3 / 16 * xi ^ 5 - 5 / 8 * xi ^ 3 + 15 / 16 * xi + 1 / 2) with (1 / 16 * (1 + xi) ^ 3 * (3 * xi ^ 2 - 9 * xi + 8)) by field.
  assert (E : 1 / 16 * (1 + xi) ^ 3 * (3 * xi ^ 2 - 9 * xi + 8) = 1 - 1 / 16 * (1 - xi) ^ 3 * (3 * xi ^ 2 + 9 * xi + 8)) by field.
  assert (A : 0 <= (1 + xi) ^ 3) by (apply pow_le; lra). assert (B : 0 <= (1 - xi) ^ 3) by (apply pow_le; lra).
  assert (A2 : 0 <= 3 * xi ^ 2 - 9 * xi + 8) by (pose proof (pow2_ge_0 (2 * xi - 3)); lra).
  assert (B2 : 0 <= 3 * xi ^ 2 + 9 * xi + 8) by (pose proof (pow2_ge_0 (2 * xi + 3)); lra).
  pose proof (Rmult_le_pos _ _ A A2). pose proof (Rmult_le_pos _ _ B B2). split; [|rewrite E]; lra.
Qed.
(** The bar is placed by its resonance. *)
Lemma omegab_olr (rolr beta : RR) : 0 < rolr -> -1 < beta ->
  1 / (rpow rolr (1 - beta) / (1 + sqrt ((1 + beta) / 2))) = circular_frequency beta rolr * (1 + sqrt ((1 + beta) / 2)).
Proof.
  intros Hr Hb. unfold circular_frequency. unfold rpow.
  assert (E : Rpower rolr (1 - beta) * Rpower rolr beta = rolr). { rewrite <- Rpower_plus. replace (1 - beta + beta) with 1 by ring. apply Rpower_1; exact Hr. }
  assert (P : 0 < Rpower rolr (1 - beta)) by (unfold Rpower; apply exp_pos).
  pose proof (sqrt_pos ((1 + beta) / 2)).
  replace (Rpower rolr beta / rolr) with (/ Rpower rolr (1 - beta)).
  - set (A := Rpower rolr (1 - beta)) in *. set (q := sqrt ((1 + beta) / 2)) in *. clearbody A q. rr. field. split; lra.
  - set (A := Rpower rolr (1 - beta)) in *. set (B := Rpower rolr beta) in *. clearbody A B. apply (Rmult_eq_reg_l (A * rolr)); [|nra].
    transitivity rolr; [rr; field; lra|]. rewrite <- E at 1. rr. field. lra.
Qed.
Lemma epicyclic_power (beta R : RR) : 0 < R -> -1 < beta ->
  is_epicyclic_frequency (circular_frequency beta) R (2 * circular_frequency beta R * sqrt ((1 + beta) / 2)).
Proof.
  intros HR Hb. assert (Q : 0 < circular_frequency beta R). { unfold circular_frequency. apply Rdiv_lt_0_compat; [unfold Rpower; apply exp_pos|exact HR]. }
  pose proof (sqrt_pos ((1 + beta) / 2)). split; [nra|].
  exists (2 * (beta - 1) * circular_frequency beta R ^ 2 / R). split.
  - unfold circular_frequency at 1. assert (D : is_derive (fun x => Rpower x beta) R (beta * Rpower R beta / R)).
    { apply (is_derive_loc (fun x => exp (beta * ln x)) _ R _ (fun x => 0 < x)); [apply locally_pos; exact HR|intros; reflexivity|].
      auto_derive; [exact HR|]. unfold Rpower. field. lra. }
    assert (I : is_derive (fun x : RR => x) R 1) by (apply (is_derive_id (K := R_AbsRing))).
    refine (is_derive_eq _ _ _ _ _ _); [dv; try lra|]. cbv beta. cbn [INR pred]. unfold circular_frequency. rr. field. lra.
  - replace ((2 * circular_frequency beta R * sqrt ((1 + beta) / 2)) ^ 2) with (4 * circular_frequency beta R ^ 2 * (sqrt ((1 + beta) / 2) * sqrt ((1 + beta) / 2))) by ring.
    rewrite sqrt_sqrt by lra. rr. field. lra.
Qed.
Lemma bar_resonance rolr chi beta alpha barphi tform tsteady : 0 < rolr -> 0 < chi -> -1 < beta -> beta <> 1 ->
  let b := db_from_olr rolr chi beta alpha barphi tform tsteady in
  (forall kappa, is_epicyclic_frequency (circular_frequency beta) rolr kappa -> b_omegab b = circular_frequency beta rolr + kappa / 2)
  /\ (exists Rcr, 0 < Rcr /\ circular_frequency beta Rcr = b_omegab b /\ b_rb b = chi * Rcr)
  /\ 0 < b_rb b /\ 0 < b_omegab b /\ b_barphi b = barphi.
Proof.
  intros Hr Hchi Hb Hb1. cbv zeta. unfold db_from_olr, db_finish. cbn [b_omegab b_rb b_barphi].
  set (om := 1 / (rpow rolr (1 - beta) / (1 + sqrt ((1 + beta) / 2)))). assert (Om : om = circular_frequency beta rolr * (1 + sqrt ((1 + beta) / 2))) by (apply omegab_olr; assumption).
  clearbody om.
  assert (Q : 0 < circular_frequency beta rolr). { unfold circular_frequency. apply Rdiv_lt_0_compat; [unfold Rpower; apply exp_pos|exact Hr]. }
  pose proof (sqrt_pos ((1 + beta) / 2)) as Sq.
  assert (P : 0 < om) by (rewrite Om; nra).
  splits.
  - intros kappa (K0 & d & D & K2). destruct (epicyclic_power beta rolr Hr Hb) as (L0 & d' & D' & L2).
    assert (d = d') by (rewrite <- (is_derive_unique _ _ _ D); apply is_derive_unique; exact D'). subst d'.
    assert (kappa = 2 * circular_frequency beta rolr * sqrt ((1 + beta) / 2)).
    { apply Rsqr_inj; try assumption. unfold Rsqr. replace (kappa * kappa) with (kappa ^ 2) by ring. rewrite K2, <- L2. ring. }
    subst kappa. rewrite Om. field.
  - exists (rpow om (1 / (beta - 1))). splits; [apply rpow_pos| |reflexivity].
    unfold circular_frequency, rpow. rewrite Rpower_mult.
    unfold Rdiv at 1. rewrite <- Rpower_Ropp, <- Rpower_plus.
    replace (1 / (beta - 1) * beta + - (1 / (beta - 1))) with 1 by (field; lra). apply Rpower_1; exact P.
  - apply Rmult_lt_0_compat; [exact Hchi|apply rpow_pos].
  - exact P.
  - reflexivity.
Qed.
Lemma bar_strength rolr chi beta alpha barphi tform tsteady t : 0 < rolr -> 0 < chi -> -1 < beta -> beta <> 1 ->
  let b := db_from_olr rolr chi beta alpha barphi tform tsteady in
  b_rb b <= 1 -> b_tform b <= t -> b_tsteady b <= t ->
  db_Rf b 1 0 (barphi + b_omegab b * t) t = - alpha.
Proof.
  intros Hr Hchi Hb Hb1. cbv zeta. intros H1 H2 H3.
  destruct (bar_resonance rolr chi beta alpha barphi tform tsteady Hr Hchi Hb Hb1) as (_ & _ & Prb & _ & Eb). cbv zeta in *.
  assert (Eaf : b_af (db_from_olr rolr chi beta alpha barphi tform tsteady) = alpha / 3 / b_rb (db_from_olr rolr chi beta alpha barphi tform tsteady) ^ 3) by reflexivity.
  set (b := db_from_olr rolr chi beta alpha barphi tform tsteady) in *. clearbody b.
  assert (S : db_smooth b t = 1). { unfold db_smooth. destruct (Rlt_dec _ _); [lra|]. destruct (Rlt_dec _ _); [lra|reflexivity]. }
  assert (C : db_cos b (barphi + b_omegab b * t) t = 1). { unfold db_cos. rewrite Eb. replace (2 * _) with 0 by ring. apply cos_0. }
  assert (Er : db_r 1 0 = 1). { unfold db_r. replace (1 ^ 2 + 0 ^ 2) with 1 by ring. apply sqrt_1. }
  unfold db_Rf. cbv zeta. rewrite S, C, Er, Eaf. unfold db_in. rewrite Er. destruct (Rle_dec 1 (b_rb b)) as [L|L].
  - assert (E1 : b_rb b = 1) by lra. rewrite E1. rr. field.
  - rr. field. lra.
Qed.
(** Arrays. *)
Lemma bar_elem_ok b R z phi t : R <> 0 -> db_ev_elem b R z phi t = db_ev_scalar b R z phi t.
Proof.
  intros HR. assert (0 < R ^ 2) by (destruct (Rdichotomy R 0 HR); nra). pose proof (pow2_ge_0 z).
  assert (Hr : db_r R z <> 0). { unfold db_r. apply Rgt_not_eq. apply sqrt_lt_R0. lra. }
  unfold db_ev_elem, db_ev_scalar, db_ev. cbv zeta. destruct (Req_EM_T (db_r R z) 0); [contradiction|]. destruct (Req_EM_T R 0); [contradiction|].
  set (q := (db_r R z / b_rb b) ^ 3). clearbody q. destruct (db_in b R z); rr; field; repeat split; try assumption; lra.
Qed.
Lemma bar_array b Rs zs phi t : List.Forall (fun R => R <> 0) Rs ->
  db_ev_array b Rs zs phi t = List.map (fun Rz => db_ev_scalar b (fst Rz) (snd Rz) phi t) (combine Rs zs).
Proof.
  intros H. unfold db_ev_array. apply map_ext_in. intros (R, z) Hin. cbn. apply bar_elem_ok.
  apply in_combine_l in Hin. rewrite Forall_forall in H. apply H. exact Hin.
Qed.
Lemma bar_array_off b z phi t : z <> 0 -> Rabs z <= b_rb b -> b_af b * db_smooth b t * db_cos b phi t <> 0 ->
  db_ev_array b [0] [z] phi t <> [db_ev_scalar b 0 z phi t] /\ db_ev_scalar b 0 z phi t = 0.
Proof.
  intros Hz Hle Hc. assert (Er : db_r 0 z = Rabs z). { unfold db_r. replace (0 ^ 2 + z ^ 2) with (z²) by (unfold Rsqr; ring). apply sqrt_Rsqr_abs. }
  pose proof (Rabs_pos_lt z Hz) as Pz.
  assert (In : db_in b 0 z = true). { unfold db_in. rewrite Er. destruct (Rle_dec _ _); [reflexivity|contradiction]. }
  assert (E0 : db_ev_scalar b 0 z phi t = 0).
  { unfold db_ev_scalar, db_ev. cbv zeta. rewrite In, Er. destruct (Req_EM_T (Rabs z) 0); [lra|]. rr. unfold Rdiv. ring. }
  split; [|exact E0]. rewrite E0. unfold db_ev_array. cbn [combine map fst snd]. intros E. inversion E as [E1]. clear E.
  unfold db_ev_elem in E1. cbv zeta in E1. rewrite In, Er in E1. destruct (Req_EM_T 0 0) as [_|N]; [|lra].
  apply Rmult_integral in E1. destruct E1 as [E1|E1]; [|contradiction].
  assert (0 <= Rabs z / b_rb b <= 1).
  { split; [apply Rle_mult_inv_pos; lra|]. apply (Rmult_le_reg_r (b_rb b)); [lra|]. unfold Rdiv. rewrite Rmult_assoc, Rinv_l by lra. lra. }
  assert ((Rabs z / b_rb b) ^ 3 <= 1 ^ 3) by (apply pow_incr; assumption). lra.
Qed.
Lemma phase_eq s R phi t : spiral_ok s ->
  sgamma s R (phi - a_omega s * t) = - (a_N s * (phi - a_omega s * t - a_phiref s + ln (R / a_rref s) / tan (a_alpha s))).
Proof.
  intros (_ & Ha & _). unfold sgamma, sN, tana. rewrite tan_neg.
  assert (0 < tan (a_alpha s)) by (apply tan_gt_0; apply Ha). rr. field. lra.
Qed.
Lemma bar_growing b R z phi t : b_tform b <= t < b_tsteady b ->
  db_ev b R z phi t = db_smooth b t * db_ev b R z (phi + b_omegab b * (b_tsteady b - t)) (b_tsteady b).
Proof.
  intros Ht. assert (S : db_smooth b (b_tsteady b) = 1). { unfold db_smooth. destruct (Rlt_dec _ _); [lra|]. destruct (Rlt_dec _ _); [lra|reflexivity]. }
  assert (C : db_cos b (phi + b_omegab b * (b_tsteady b - t)) (b_tsteady b) = db_cos b phi t) by (unfold db_cos; f_equal; ring).
  unfold db_ev. cbv zeta. rewrite S, C. repeat match goal with |- context [if ?c then _ else _] => destruct c end; rr; unfold Rdiv; ring.
Qed.
