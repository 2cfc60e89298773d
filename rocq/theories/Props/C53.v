(** C53: the ellipsoidal potentials (perfect ellipsoid, triaxial power law, Gaussian, Hernquist, Jaffe, NFW and two-power): forces,
    second derivatives, densities, masses and orientation. *)
From Coq Require Import Reals Lra List.
From Coquelicot Require Import Coquelicot.
From Verif.Lib Require Import RealAux Vec3.
From Verif.Model Require Import PotAPI PotEllipsoidal.
From Verif.Spec Require Import PotSpec PotApiSpec EllipsoidalSpec.
From Verif.Proofs Require Import PotLift NonAxiProofs EllProofs EllLaws EllClass EllExact EllExactLaws EllPoisson EllProfiles EllSetup.
Import ListNotations.
Open Scope R_scope.
Notation RR := RbaseSymbolsImpl.R (only parsing).

(** What the constructor makes of b, c, zvec, pa and of the nodes and weights numpy's leggauss returned (None for glorder=None). *)
Definition instance (p : EProfile) (b c : RR) (zvec : option V3) (pa : option RR) (nodes : option (list (RR * RR))) : Ell :=
  ell_of p b c (ell_setup_rot zvec pa) (ell_setup_gl nodes).
(** Arguments: positive axis ratios, a zvec that is not zero, nodes inside ]-1, 1[; a b that the code takes for 1 has to be 1. *)
Definition args_ok (b c : RR) (zvec : option V3) (nodes : option (list (RR * RR))) : Prop :=
  0 < b /\ 0 < c /\ (b = 1 \/ 1 / 10 ^ 10 < Rabs (b - 1)) /\ (forall v, zvec = Some v -> v <> vzero) /\
  (forall l, nodes = Some l -> List.Forall (fun p => -1 < fst p < 1) l).
(** The profile is consistent and, when the integral over [0, 1] is taken exactly, the integral exists at the centre. *)
Definition profile_ok (p : EProfile) (nodes : option (list (RR * RR))) : Prop :=
  is_profile (p_psi p) (p_dens p) (p_deriv p) /\ (nodes = None -> mild_cusp (p_psi p) (p_dens p) (p_deriv p)).

Lemma instance_laws p b c zvec pa nodes : args_ok b c zvec nodes -> profile_ok p nodes -> ell_laws (instance p b c zvec pa nodes).
Proof.
  intros (Hb & Hc & _ & _ & Hn) (Hp & Hq). unfold instance, ell_of. destruct nodes as [l|].
  - eapply gl_laws; cbn; [exact Hb|exact Hc|exact Hp|reflexivity|]. apply (setup_inside l); [reflexivity|]. apply Hn. reflexivity.
  - apply exact_laws; cbn; auto.
Qed.
Lemma instance_frame p b c zvec pa nodes : args_ok b c zvec nodes -> frame_ok (instance p b c zvec pa nodes).
Proof. intros (Hb & Hc & H1 & Hz & _). unfold instance, ell_of. apply (setup_frame b c _ _ _ zvec pa); [reflexivity|exact Hz|exact H1]. Qed.

(** The forces are the gradient of the potential at every point but the centre, in any orientation, whether the integral is exact or a
    sum over nodes with any weights. *)
Theorem C53_forces : forall p b c zvec pa nodes amp, args_ok b c zvec nodes -> profile_ok p nodes ->
  forces_are_gradient off_centre (Single amp (EllipsoidalC (instance p b c zvec pa nodes))).
Proof. intros. apply ell_class_forces; [apply instance_laws; assumption|eapply instance_frame; eassumption]. Qed.
Print Assumptions C53_forces.
(** Without rotation the six second derivatives are those of the potential; with rotation the code raises NotImplementedError. *)
Theorem C53_second_derivatives : forall p b c zvec pa nodes amp, args_ok b c zvec nodes -> profile_ok p nodes -> ell_setup_rot zvec pa = None ->
  let P := Single amp (EllipsoidalC (instance p b c zvec pa nodes)) in
  hessian_is_correct off_centre P /\ azimuthal_hessian_is_correct off_centre P /\ poisson_density_is_source off_centre P.
Proof.
  intros p b c zvec pa nodes amp Ha Hp Hr P.
  pose proof (instance_laws p b c zvec pa nodes Ha Hp) as L. pose proof (instance_frame p b c zvec pa nodes Ha) as F.
  split; [|split]; [apply ell_class_hess|apply ell_class_azi|apply ell_class_poisson]; assumption.
Qed.
Print Assumptions C53_second_derivatives.
(** A rotated instance refuses all six instead of returning those of the unrotated body. *)
Theorem C53_rotated_refused : forall p b c zvec pa nodes amp m, ell_setup_rot zvec pa = Some m ->
  let P := Single amp (EllipsoidalC (instance p b c zvec pa nodes)) in
  apiR2 P = None /\ apiz2 P = None /\ apiRz P = None /\ apip2 P = None /\ apiRp P = None /\ apipz P = None.
Proof.
  intros p b c zvec pa nodes amp m H P. unfold P, instance, ell_of. rewrite H.
  repeat split; cbn; unfold ell_aligned_only; cbn; repeat (destruct (ell_nonaxi _)); reflexivity.
Qed.
Print Assumptions C53_rotated_refused.
(** With the exact integral the density on the ellipsoids is the source of the potential, in any orientation. *)
Theorem C53_density : forall p b c zvec pa amp, args_ok b c zvec None -> profile_ok p None ->
  density_is_source off_centre (Single amp (EllipsoidalC (instance p b c zvec pa None))).
Proof.
  intros p b c zvec pa amp Ha (Hp & Hq). pose proof (instance_frame p b c zvec pa None Ha) as F. destruct Ha as (Hb & Hc & _).
  apply ell_class_density; cbn; auto.
Qed.
Print Assumptions C53_density.

(** ** The profiles: psi is the integral of 2 m rho and the derivative of rho is that of rho *)
Theorem C53_profiles : forall F psi_inf a alpha beta sigma, 0 < a -> 0 < sigma ->
  (forall nodes, profile_ok (perfect a) nodes) /\ (forall nodes, profile_ok (gaussian sigma) nodes) /\
  (forall nodes, profile_ok (tri_hernquist a) nodes) /\ (forall nodes, profile_ok (tri_nfw a) nodes) /\
  (forall l, profile_ok (tri_jaffe a) (Some l)) /\
  (alpha < 2 -> forall nodes, profile_ok (power_triaxial alpha) nodes) /\
  (alpha <> 2 -> forall l, profile_ok (power_triaxial alpha) (Some l)) /\
  (alpha < 2 -> hyp2f1_law F (2 - alpha) (beta - alpha) -> hyp2f1_zero F (2 - alpha) (beta - alpha) ->
     forall nodes, profile_ok (two_power F psi_inf a alpha beta) nodes) /\
  (alpha <> 2 -> hyp2f1_law F (2 - alpha) (beta - alpha) -> forall l, profile_ok (two_power F psi_inf a alpha beta) (Some l)) /\
  (hyp2f1_law F (beta - 2) (beta - 2) -> forall l, profile_ok (two_power F psi_inf a 2 beta) (Some l)).
Proof.
  intros F psi_inf a alpha beta sigma Ha Hs. repeat apply conj; intros; split; try discriminate; try (intros _).
  - apply perfect_ok; assumption.
  - apply perfect_mild; assumption.
  - apply gaussian_ok; assumption.
  - apply gaussian_mild; assumption.
  - apply hernquist_ok; assumption.
  - apply hernquist_mild; assumption.
  - apply nfw_ok; assumption.
  - apply nfw_mild; assumption.
  - apply jaffe_ok; assumption.
  - apply power_ok. lra.
  - apply power_mild; assumption.
  - apply power_ok. assumption.
  - apply two_power_ok; [assumption|intros _; assumption|intros; lra].
  - apply two_power_mild; assumption.
  - apply two_power_ok; [assumption|intros _; assumption|intros; contradiction].
  - apply two_power_ok; [assumption|intros N; exfalso; apply N; reflexivity|intros _; assumption].
Qed.
Print Assumptions C53_profiles.
(** The triaxial power law has the density of its documentation, amp / r1^3 (r1 / m)^alpha, for every exponent but 3. *)
Theorem C53_power_amplitude : forall amp alpha r1 m, alpha <> 3 -> 0 < r1 -> 0 < m ->
  power_amp amp alpha r1 * p_dens (power_triaxial alpha) m = amp / r1 ^ 3 * rpow (r1 / m) alpha.
Proof.
  intros amp alpha r1 m N H1 Hm. pose proof PI_RGT_0 as HP. unfold power_amp. destruct (Req_EM_T alpha 3) as [E|_]; [contradiction|]. cbn [p_dens power_triaxial].
  assert (E : rpow (r1 / m) alpha = rpow r1 alpha * rpow m (- alpha)).
  { unfold Rdiv, rpow. rewrite <- Rpower_mult_distr by (try apply Rinv_0_lt_compat; assumption). f_equal. unfold Rpower. rewrite ln_Rinv by assumption. f_equal. ring. }
  rewrite E, rpow_minus, rpow_3 by exact H1. field. repeat split; lra.
Qed.
Print Assumptions C53_power_amplitude.
(** For the exponent 3 the amplitude comes out as zero (PowerTriaxialPotential.py 87-90). *)
Theorem C53_power_amplitude_refuted : forall amp r1 m, amp <> 0 -> 0 < r1 -> 0 < m ->
  power_amp amp 3 r1 * p_dens (power_triaxial 3) m = 0 /\ amp / r1 ^ 3 * rpow (r1 / m) 3 <> 0.
Proof.
  intros amp r1 m Ha H1 Hm. pose proof PI_RGT_0 as HP. split.
  - unfold power_amp. destruct (Req_EM_T 3 3) as [_|E]; [|lra]. replace ((3 - 3) / 4 / PI) with 0 by (field; lra). ring.
  - pose proof (rpow_pos (r1 / m) 3) as Q. apply Rmult_integral_contrapositive_currified; [|lra]. apply Rmult_integral_contrapositive_currified; [exact Ha|]. apply Rinv_neq_0_compat, pow_nonzero. lra.
Qed.
Print Assumptions C53_power_amplitude_refuted.

(** ** Masses inside an ellipsoid *)
(** The method of the base class, for every profile with m^2 rho -> 0. *)
Theorem C53_base_mass : forall e, is_profile (e_psi e) (e_mdens e) (e_mderiv e) -> filterlim (fun m => m ^ 2 * e_mdens e m) (at_right 0) (locally 0) ->
  is_enclosed_mass (e_b e) (e_c e) (e_mdens e) (ell_mass e).
Proof. exact generic_mass. Qed.
Print Assumptions C53_base_mass.
(** The closed forms of the subclasses. *)
Theorem C53_masses : forall F erf a alpha beta psi_inf sigma b c, 0 < a -> 0 < sigma -> is_erf erf ->
  is_enclosed_mass b c (p_dens (gaussian sigma)) (gaussian_mass erf sigma b c) /\
  is_enclosed_mass b c (p_dens (tri_hernquist a)) (tri_hernquist_mass a b c) /\
  is_enclosed_mass b c (p_dens (tri_jaffe a)) (tri_jaffe_mass a b c) /\
  is_enclosed_mass b c (p_dens (tri_nfw a)) (tri_nfw_mass a b c) /\
  (two_power_accepts alpha beta = true -> hyp2f1_law F (3 - alpha) (beta - alpha) -> hyp2f1_zero F (3 - alpha) (beta - alpha) ->
     is_enclosed_mass b c (p_dens (two_power F psi_inf a alpha beta)) (two_power_mass F a alpha beta b c)).
Proof.
  intros F erf a alpha beta psi_inf sigma b c Ha Hs He. split; [apply gaussian_enclosed; assumption|]. split; [apply hernquist_enclosed; assumption|].
  split; [apply jaffe_enclosed; assumption|]. split; [apply nfw_enclosed; assumption|]. intros Hacc H1 H2. apply two_power_enclosed; try assumption.
  unfold two_power_accepts in Hacc. destruct (Rle_dec beta 2), (Rle_dec 3 alpha); cbn in Hacc; try discriminate. lra.
Qed.
Print Assumptions C53_masses.
(** The perfect ellipsoid's is wrong unless a = 1: 1 + R^2 stands for a^2 + R^2 (PerfectEllipsoidPotential.py 117-121). *)
Theorem C53_perfect_mass_refuted : forall a b c, 0 < a -> a <> 1 -> 0 < b -> 0 < c ->
  ~ is_enclosed_mass b c (p_dens (perfect a)) (perfect_mass a b c).
Proof. exact perfect_mass_wrong. Qed.
Print Assumptions C53_perfect_mass_refuted.
(** With the scale it is right; for a = 1 the code has the same value. *)
Theorem C53_perfect_mass_scaled : forall a b c, 0 < a ->
  is_enclosed_mass b c (p_dens (perfect a)) (perfect_mass_scaled a b c) /\ forall R, perfect_mass 1 b c R = perfect_mass_scaled 1 b c R.
Proof. intros a b c Ha. split; [apply perfect_scaled; exact Ha|]. intros R. unfold perfect_mass, perfect_mass_scaled. replace (1 ^ 2) with 1 by ring. reflexivity. Qed.
Print Assumptions C53_perfect_mass_scaled.
(** A density has one enclosed mass only. *)
Theorem C53_mass_unique : forall b c dens m1 m2, is_enclosed_mass b c dens m1 -> is_enclosed_mass b c dens m2 -> forall R, 0 < R -> m1 R = m2 R.
Proof. exact mass_unique. Qed.
Print Assumptions C53_mass_unique.

(** ** Orientation and quadrature *)
(** Outside the caps of about 1.4e-5 rad about the z axis, in which the code does not rotate, zvec becomes the third body axis, whatever
    the position angle. *)
Theorem C53_zvec : forall v pa m, v <> vzero -> Rabs (vz v) <= (1 - 1 / 10 ^ 10) * sqrt (vnorm2 v) -> ell_setup_rot (Some v) pa = Some m ->
  orthogonal m /\ mulMV m v = vscal (sqrt (vnorm2 v)) (mkV 0 0 1).
Proof.
  intros v pa m Hv Hc E. split; [|apply (setup_zvec v pa m); assumption].
  pose proof (setup_frame 1 1 (fun x => x) (fun x => x) (fun x => x) (Some v) pa None (Some m) E ltac:(intros w Ew; injection Ew as <-; exact Hv) (or_introl eq_refl)) as H. exact H.
Qed.
Print Assumptions C53_zvec.
(** Without zvec the first body axis is at the position angle and the third axis stays. *)
Theorem C53_pa : forall p m, ell_setup_rot None (Some p) = Some m -> mulMV m (mkV (cos p) (sin p) 0) = mkV 1 0 0 /\ mulMV m (mkV 0 0 1) = mkV 0 0 1.
Proof. exact setup_pa. Qed.
Print Assumptions C53_pa.
(** A rule that integrates f exactly over [-1, 1] is turned into one that integrates it exactly over [0, 1]. *)
Theorem C53_nodes : forall nw l f (I : RR), ell_setup_gl (Some nw) = Some l ->
  fold_left (fun acc p => acc + snd p * (f (1 / 2 * fst p + 1 / 2) : RR)) nw 0 = 2 * I -> fold_left (fun acc p => acc + snd p * f (fst p)) l 0 = I.
Proof. exact setup_exact. Qed.
Print Assumptions C53_nodes.

(** ** Cases *)
(** The two-point Gauss rule, b = 4/5, c = 1/2, tilted along (1, 0, 1) with a position angle. *)
Example C53_args : args_ok (4 / 5) (1 / 2) (Some (mkV 1 0 1)) (Some [(- / sqrt 3, 1); (/ sqrt 3, 1)]) /\ args_ok (4 / 5) (1 / 2) None None.
Proof.
  assert (S : 0 < / sqrt 3 < 1).
  { assert (P : 1 < sqrt 3) by (rewrite <- sqrt_1; apply sqrt_lt_1; lra). split; [apply Rinv_0_lt_compat; lra|]. rewrite <- Rinv_1. apply Rinv_lt_contravar; lra. }
  assert (B : 4 / 5 = 1 \/ 1 / 10 ^ 10 < Rabs (4 / 5 - 1)).
  { right. rewrite Rabs_left by lra. lra. }
  split; (split; [lra|]; split; [lra|]; split; [exact B|]; split).
  - intros v E. injection E as <-. intros E. injection E. lra.
  - intros l E. injection E as <-. repeat constructor; cbn; lra.
  - discriminate.
  - discriminate.
Qed.
Example C53_aligned : ell_setup_rot None None = None /\ exists m, ell_setup_rot (Some (mkV 1 0 1)) (Some (PI / 4)) = Some m.
Proof. split; [reflexivity|]. eexists. reflexivity. Qed.
Example C53_tilt : mkV 1 0 1 <> vzero /\ Rabs (vz (mkV 1 0 1)) <= (1 - 1 / 10 ^ 10) * sqrt (vnorm2 (mkV 1 0 1)).
Proof.
  split; [intros E; injection E; lra|]. cbn [vz]. replace (vnorm2 (mkV 1 0 1)) with 2 by (unfold vnorm2, vdot; cbn; ring).
  rewrite Rabs_right by lra. assert (14 / 10 < sqrt 2). { rewrite <- (sqrt_pow2 (14 / 10)) by lra. apply sqrt_lt_1; lra. } lra.
Qed.
(** The hypergeometric functions of the NFW exponents (1, 3) in closed form: 2F1(1, 2; 2; -x) = 1 / (1 + x) and
    2F1(2, 2; 3; -x) = 2 / x^2 (ln (1 + x) - x / (1 + x)). *)
Definition nfw_2f1 (a b c x : RR) : RR := if Req_EM_T a 1 then 1 / (1 - x) else 2 / x ^ 2 * (ln (1 - x) - (- x) / (1 - x)).
Example C53_hyp : hyp2f1_law nfw_2f1 (2 - 1) (3 - 1) /\ hyp2f1_zero nfw_2f1 (2 - 1) (3 - 1) /\
  hyp2f1_law nfw_2f1 (3 - 1) (3 - 1) /\ hyp2f1_zero nfw_2f1 (3 - 1) (3 - 1) /\ two_power_accepts 1 3 = true.
Proof.
  assert (E1 : forall x, 0 < x -> rpow x (2 - 1) / (2 - 1) * nfw_2f1 (2 - 1) (3 - 1) (2 - 1 + 1) (- x) = x / (1 + x)).
  { intros x Hx. replace (2 - 1) with 1 by ring. rewrite rpow_1 by exact Hx. unfold nfw_2f1. destruct (Req_EM_T 1 1) as [_|N]; [|lra]. field. lra. }
  assert (E2 : forall x, 0 < x -> rpow x (3 - 1) / (3 - 1) * nfw_2f1 (3 - 1) (3 - 1) (3 - 1 + 1) (- x) = ln (1 + x) - x / (1 + x)).
  { intros x Hx. replace (3 - 1) with 2 by ring. rewrite rpow_2 by exact Hx. unfold nfw_2f1. destruct (Req_EM_T 2 1) as [N|_]; [lra|]. replace (1 - - x) with (1 + x) by ring. field. lra. }
  split; [|split; [|split; [|split]]].
  - intros x Hx. apply (is_derive_ext_loc (fun x => x / (1 + x))).
    { apply (filter_imp (fun x => 0 < x)); [|apply locally_pos; exact Hx]. intros y Hy. symmetry. apply E1. exact Hy. }
    replace (2 - 1 - 1) with (1 - 1) by ring. rewrite rpow_minus, rpow_1 by exact Hx. replace (3 - 1) with 2 by ring. rewrite rpow_2 by lra. auto_derive; [lra|field; lra].
  - apply (lim_of _ (fun x => x / (1 + x))); [exact E1| |field; lra]. apply c_of_d. auto_derive. lra.
  - intros x Hx. apply (is_derive_ext_loc (fun x => ln (1 + x) - x / (1 + x))).
    { apply (filter_imp (fun x => 0 < x)); [|apply locally_pos; exact Hx]. intros y Hy. symmetry. apply E2. exact Hy. }
    replace (3 - 1 - 1) with 1 by ring. rewrite rpow_1 by exact Hx. replace (3 - 1) with 2 by ring. rewrite rpow_2 by lra. auto_derive; [lra|field; lra].
  - apply (lim_of _ (fun x => ln (1 + x) - x / (1 + x))); [exact E2| |]. { apply c_of_d. auto_derive. repeat split; lra. } rewrite Rplus_0_r, ln_1. field.
  - unfold two_power_accepts. destruct (Rle_dec 3 2), (Rle_dec 3 1); (reflexivity || lra).
Qed.
(** An error function. *)
Example C53_erf : exists erf, is_erf erf.
Proof.
  exists (fun x => RInt (fun t => 2 / sqrt PI * exp (- t ^ 2)) 0 x). split; [exact (RInt_point (V := R_CompleteNormedModule) 0 (fun t => 2 / sqrt PI * exp (- t ^ 2)))|]. intros x.
  assert (C : forall t, continuous (fun t => 2 / sqrt PI * exp (- t ^ 2)) t) by (intros t; apply c_of_d; auto_derive; exact I).
  apply (is_derive_RInt (V := R_NormedModule) (fun t => 2 / sqrt PI * exp (- t ^ 2)) (fun x => RInt (fun t => 2 / sqrt PI * exp (- t ^ 2)) 0 x) 0 x); [|apply C].
  apply filter_forall. intros y. apply (RInt_correct (V := R_CompleteNormedModule)). apply (ex_RInt_continuous (V := R_CompleteNormedModule)). intros; apply C.
Qed.
