(** C08: wrapped potentials obey the chain rule. *)
From Coq Require Import Reals List Lra.
From Coquelicot Require Import Coquelicot.
From Verif.Lib Require Import RealAux Atan2 Vec3.
From Verif.Model Require Import PotAPI PotAxi PotNonAxi Wrappers.
From Verif.Spec Require Import PotSpec PotApiSpec Catalog SmoothSpec.
From Verif.Proofs Require Import AxiProofs PotLift SmoothProofs SmoothCatalog WrapProofs WrapProofs2 WrapProofs3.
From Verif.Props Require Import C01.
Import ListNotations.
Open Scope R_scope.

(** Below, [smooth D p] says that everything the API returns for [p] is defined and that on
    [D] the forces are minus the total derivative of the potential and the second derivatives
    the total derivative of minus the forces (Spec/SmoothSpec.v).  It implies the
    statements of C01 and C02: *)
Theorem C08_smooth_implies_derivatives : forall D p, smooth D p ->
  forces_are_gradient D p /\ hessian_is_correct D p /\ azimuthal_hessian_is_correct D p.
Proof. intros; split; [|split]; auto using smooth_forces, smooth_hessian, smooth_azimuthal. Qed.
Print Assumptions C08_smooth_implies_derivatives.
(** and every catalogued potential and composite has it. *)
Theorem C08_catalog_is_smooth : forall D p, Catalog D p -> smooth D p.
Proof. exact catalog_smooth. Qed.
Print Assumptions C08_catalog_is_smooth.
Theorem C08_composite_is_smooth : forall (D : Dom) amp ps,
  (forall p, In p ps -> isDiss p = false /\ smooth D p) -> smooth D (Comp amp ps).
Proof. exact comp_smooth. Qed.
Print Assumptions C08_composite_is_smooth.

(** Each wrapper, around any object with that property and for any amplitude, has it again. *)
Theorem C08_time_dependent_amplitude : forall (A : R -> R) D p, isDiss p = false -> smooth D p ->
  exists c, TimeDependentAmplitude A p = Some c /\ forall amp, smooth D (Single amp c).
Proof. intros; apply amplitude_smooth; auto. Qed.
Print Assumptions C08_time_dependent_amplitude.

Theorem C08_gaussian_amplitude : forall to_ sigma D p, isDiss p = false -> smooth D p ->
  exists c, GaussianAmplitude to_ sigma p = Some c /\ forall amp, smooth D (Single amp c).
Proof. intros; apply (amplitude_smooth (gaussAmp to_ sigma)); auto. Qed.
Print Assumptions C08_gaussian_amplitude.

Theorem C08_dehnen_smooth : forall tform tsteady grow D p, isDiss p = false -> smooth D p ->
  exists c, DehnenSmooth tform tsteady grow p = Some c /\ forall amp, smooth D (Single amp c).
Proof. intros; apply (amplitude_smooth (dehnen_smooth tform (dehnen_tsteady tform tsteady) grow)); auto. Qed.
Print Assumptions C08_dehnen_smooth.

Theorem C08_solid_body_rotation : forall omega pa (D : Dom) p, isDiss p = false -> smooth D p ->
  exists c, SolidBodyRotation omega pa p = Some c /\
    forall amp, smooth (fun R z phi t => D R z (phi - omega * t - pa) t) (Single amp c).
Proof. exact solid_smooth. Qed.
Print Assumptions C08_solid_body_rotation.

Theorem C08_corotating_rotation : forall vpo beta to_ pa (D : Dom) p, isDiss p = false -> smooth D p ->
  exists c, CorotatingRotation vpo beta to_ pa p = Some c /\
    forall amp, smooth (fun R z phi t => 0 < R /\
      D R z (phi - vpo * rpow R (beta - 1) * (t - to_) - pa) t) (Single amp c).
Proof. exact corot_smooth. Qed.
Print Assumptions C08_corotating_rotation.

(** The wrapped object has no azimuthal dependence and its physical output is off ([fac] = 1). *)
Theorem C08_kuzmin_like : forall a b (D : Dom) p,
  isDiss p = false -> isNonAxi p = false -> phi_independent p -> smooth D p ->
  exists c, KuzminLike a b 1 p = Some c /\
    forall amp, smooth (fun R z phi t => 0 < z ^ 2 + b ^ 2 /\ 0 < R ^ 2 + (a + sqrt (z ^ 2 + b ^ 2)) ^ 2 /\
      D (sqrt (R ^ 2 + (a + sqrt (z ^ 2 + b ^ 2)) ^ 2)) 0 phi t) (Single amp c).
Proof. exact kuzmin_smooth. Qed.
Print Assumptions C08_kuzmin_like.

Theorem C08_cylindrically_separable : forall Rp (D : Dom) p, isDiss p = false -> isNonAxi p = false -> smooth D p ->
  exists c, CylSeparable Rp p = Some c /\
    forall amp, smooth (fun R z _ _ => D R 0 0 0 /\ D Rp z 0 0) (Single amp c).
Proof. exact cylsep_smooth. Qed.
Print Assumptions C08_cylindrically_separable.

(** Off the vertical axis through the moving object. *)
Theorem C08_moving_object : forall oR ophi oz (D : Dom) p, isDiss p = false -> isNonAxi p = false -> smooth D p ->
  exists c, MovingObject oR ophi oz p = Some c /\
    forall amp, smooth (fun R z phi t =>
      let dx := oR t * cos (ophi t) - R * cos phi in
      let dy := oR t * sin (ophi t) - R * sin phi in
      0 < dx ^ 2 + dy ^ 2 /\
      D (sqrt (R ^ 2 + oR t ^ 2 - 2 * R * oR t * cos (phi - ophi t))) (oz t - z) 0 t) (Single amp c).
Proof. exact moving_smooth. Qed.
Print Assumptions C08_moving_object.

(** [rot] any rotation matrix with inverse [inv_rot], off the axis of the wrapped object. *)
Theorem C08_rotate_and_tilt : forall rot inv_rot offset (D : Dom) p,
  orthogonal rot -> mulMM rot inv_rot = eye -> isDiss p = false -> api_periodic p -> smooth D p ->
  exists c, RotateAndTilt rot inv_rot offset p = Some c /\
    forall amp, smooth (fun R z phi t =>
      let v := rt_xyz rot offset R z phi in
      0 < sqrt (vx v ^ 2 + vy v ^ 2) /\ D (sqrt (vx v ^ 2 + vy v ^ 2)) (vz v) (atan2 (vy v) (vx v)) t) (Single amp c).
Proof. exact rotate_smooth. Qed.
Print Assumptions C08_rotate_and_tilt.

(** Non-vacuity: the Milky-Way-like composite of C01 meets all hypotheses. *)
Example C08_mw_smooth : smooth off_origin mw.
Proof. exact (catalog_smooth _ _ C01_nonvacuous). Qed.
Example C08_mw_phi_independent : isDiss mw = false /\ isNonAxi mw = false /\ phi_independent mw.
Proof.
  split; [reflexivity|split; [reflexivity|]]. eexists. split; [reflexivity|].
  split; [|split]; intros R z phi phi' t; reflexivity.
Qed.
Example C08_mw_periodic : api_periodic mw.
Proof.
  split; [|split; [|split]]; [intros F E; inversion E; subst; clear E| | |intros F E; inversion E; subst; clear E];
    intros R z phi t; reflexivity.
Qed.
(** Triaxial halo in solid-body rotation, smoothly grown: nested wrappers. *)
Example C08_nested : exists c1 c2,
  SolidBodyRotation (1/2) (1/3) (Single 7 (LogarithmicHalo (1/100) (9/10) (Some (4/5)))) = Some c1 /\
  DehnenSmooth (-4) (Some 2) true (Single 1 c1) = Some c2 /\
  smooth (fun R z phi t => R <> 0 /\
        0 < R ^ 2 * (1 - (1 - 1 / (4/5) ^ 2) * sin (phi - 1/2 * t - 1/3) ^ 2) + (z / (9/10)) ^ 2 + 1 / 100)
    (Single 1 c2).
Proof.
  destruct (solid_smooth (1/2) (1/3) _ (Single 7 (LogarithmicHalo (1/100) (9/10) (Some (4/5)))) eq_refl (catalog_smooth _ _ C01_triaxial)) as (c1 & E1 & S1).
  destruct (C08_dehnen_smooth (-4) (Some 2) true _ (Single 1 c1) eq_refl (S1 1)) as (c2 & E2 & S2).
  exists c1, c2. split; [exact E1|split; [exact E2|exact (S2 1)]].
Qed.
(** A tilt by a right angle about the x axis. *)
Definition quarter : M3 := mkM (mkV 1 0 0) (mkV 0 0 1) (mkV 0 (-1) 0).
Example C08_tilt : orthogonal quarter /\ mulMM quarter (transp quarter) = eye /\
  (let v := rt_xyz quarter (Some (mkV 1 0 0)) 1 2 0 in 0 < sqrt (vx v ^ 2 + vy v ^ 2)).
Proof.
  assert (O : orthogonal quarter) by (unfold orthogonal, quarter; vring).
  split; [exact O|split; [exact O|]]. cbv zeta. apply sqrt_lt_R0.
  cbv [rt_xyz quarter vadd mulMV vdot vx vy vz r0 r1 r2]. rewrite cos_0, sin_0. nra.
Qed.

(** With the physical output of the wrapped object switched on ([fac] <> 1, the factor the
    decorated evaluateR2derivs applies), the second derivatives of KuzminLikeWrapperPotential
    are wrong. *)
Theorem C08_kuzmin_like_physical_refuted : forall fac, fac <> 1 ->
  exists a b p c, isDiss p = false /\ isNonAxi p = false /\ phi_independent p /\ smooth everywhere p /\
    KuzminLike a b fac p = Some c /\
    ~ hessian_is_correct (fun R z phi t => 0 < R /\ 0 < z) (Single 1 c).
Proof.
  intros fac Hf. exists 0, 0, (Single 1 (Plummer 1)).
  assert (S : smooth everywhere (Single 1 (Plummer 1))) by (apply catalog_smooth, cat_single, cat_Plummer; lra).
  assert (PI_ : phi_independent (Single 1 (Plummer 1))).
  { eexists. split; [reflexivity|]. split; [|split]; intros R z phi phi' t; reflexivity. }
  destruct (kuzmin_smooth 0 0 everywhere (Single 1 (Plummer 1)) eq_refl eq_refl PI_ S) as (c1 & E1 & S1).
  eexists. split; [reflexivity|split; [reflexivity|split; [exact PI_|split; [exact S|split; [reflexivity|]]]]].
  intros (P2R & P2z & PRz & F1 & F2 & F3 & Hh).
  destruct (smooth_hessian _ _ (S1 1)) as (Q2R & Q2z & QRz & G1 & G2 & G3 & Hq).
  inversion E1; subst c1; clear E1. inversion F1; subst P2R; clear F1. inversion G1; subst Q2R; clear G1.
  destruct (Hh 1 1 0 0 (conj Rlt_0_1 Rlt_0_1)) as (A & _).
  assert (W : 0 < 1 ^ 2 + 0 ^ 2) by lra.
  assert (W2 : 0 < 1 ^ 2 + (0 + sqrt (1 ^ 2 + 0 ^ 2)) ^ 2) by nra.
  destruct (Hq 1 1 0 0 (conj W (conj W2 I))) as (B & _).
  apply is_derive_unique in A. apply is_derive_unique in B.
  assert (X : forall u v w : R, u = v -> u = w -> v = w) by (intros; congruence).
  pose proof (X _ _ _ A B) as C. clear - C Hf W W2.
  unfold scale4, kl_d2xidR2, kl_dxidR in C. cbn [apiRf c_Rf Plummer mkAxi] in C. unfold scale4 in C.
  set (xi := kl_xi 0 0 1 1) in *.
  assert (Hxi : xi ^ 2 = 2).
  { unfold xi, kl_xi, kl_b2. rewrite sqrt_sq_eq by nra. replace (1 ^ 2 + 0 ^ 2) with 1 by ring. rewrite sqrt_1. ring. }
  assert (Hp : 0 < xi) by (apply sqrt_lt_R0; exact W2).
  assert (N : Pl_R2 1 xi 0 <> 0).
  { unfold Pl_R2, Pl_b2. rewrite Hxi. apply Rmult_integral_contrapositive_currified; [lra|]. apply Rgt_not_eq. unfold rpow, Rpower. apply exp_pos. }
  apply Hf. apply Rmult_eq_reg_r with (Pl_R2 1 xi 0 * (1 / xi) ^ 2).
  - lra.
  - apply Rmult_integral_contrapositive_currified; auto. apply pow_nonzero. apply Rgt_not_eq. apply Rdiv_lt_0_compat; lra.
Qed.
Print Assumptions C08_kuzmin_like_physical_refuted.
