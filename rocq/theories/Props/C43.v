(** C43: the potentials that exist only in the plane or in one dimension. *)
From Coq Require Import FunctionalExtensionality Reals Lra Lia Psatz List Bool ZArith.
From Coquelicot Require Import Coquelicot.
From Verif.Lib Require Import RealAux Atan2.
From Verif.Model Require Import PotAPI Reduce PotPlanar Wrappers WrappersPlanar.
From Verif.Spec Require Import PlanarSpec.
From Verif.Proofs Require Import DehnenProofs PlanarProofs.
Import ListNotations.
Open Scope R_scope.
Notation RR := RbaseSymbolsImpl.R (only parsing).
Ltac sides := repeat split; try assumption; try lra.
Ltac rr := match goal with |- ?a = ?b => change (@eq R a b) end.
Local Notation off_axis := (fun R _ _ : RR => 0 < R).

(** ** Forces and second derivatives *)
Theorem C43_elliptical_disk : forall amp phib p twophio r1 tform tsteady cpsp pot, EllipticalDisk amp phib p twophio r1 tform tsteady cpsp = Some pot ->
  planar_forces_are_gradient off_axis pot /\ planar_hessian_is_correct off_axis pot.
Proof.
  intros amp phib p twophio r1 tform tsteady cpsp pot E. unfold EllipticalDisk in E. destruct (ED_strength phib twophio cpsp) as [b o]. destruct (growth_args 1 tform tsteady) as [w|]; [|discriminate]. injection E as <-.
  split; [apply native_forces, ED_forces|apply native_hessian, ED_hess].
Qed.
Print Assumptions C43_elliptical_disk.
Theorem C43_steady_spiral : forall amp omegas A alpha m gamma pa tform tsteady pot, winding m alpha pa <> 0 -> SteadyLogSpiral amp omegas A alpha m gamma pa tform tsteady = Some pot ->
  planar_forces_are_gradient off_axis pot /\ planar_hessian_is_correct off_axis pot.
Proof.
  intros amp omegas A alpha m gamma pa tform tsteady pot N E. unfold SteadyLogSpiral in E. match type of E with option_map _ ?g = _ => destruct g as [w|] end; [|discriminate]. injection E as <-.
  split; [apply native_forces, SLS_forces, N|apply native_hessian, SLS_hess, N].
Qed.
Print Assumptions C43_steady_spiral.
Theorem C43_transient_spiral : forall amp omegas A alpha m gamma pa sigma to, winding m alpha pa <> 0 ->
  planar_forces_are_gradient off_axis (TransientLogSpiral amp omegas A alpha m gamma pa sigma to) /\ planar_hessian_is_correct off_axis (TransientLogSpiral amp omegas A alpha m gamma pa sigma to).
Proof. intros. split; [apply native_forces, TLS_forces; assumption|apply native_hessian, TLS_hess; assumption]. Qed.
Print Assumptions C43_transient_spiral.
Theorem C43_henon_heiles : forall amp, planar_forces_are_gradient (fun _ _ _ => True) (HenonHeiles amp) /\ planar_hessian_is_correct (fun _ _ _ => True) (HenonHeiles amp).
Proof. intros. split; [apply native_forces, HH_forces|apply native_hessian, HH_hess]. Qed.
Print Assumptions C43_henon_heiles.

Definition break_radius (rb : option RR) : RR := match rb with Some rb => rb | None => 0 end.
Lemma IZR_not_0 m : m <> 0%Z -> IZR m <> 0.
Proof. intros N E. apply N, eq_IZR. exact E. Qed.
Theorem C43_cosmphi_forces : forall amp phib p phio m r1 rb cpsp, m <> 0%Z ->
  planar_forces_are_gradient (fun R _ _ => 0 < R /\ R <> break_radius rb) (CosmphiDisk amp phib p phio m r1 rb cpsp).
Proof.
  intros amp phib p phio m r1 rb cpsp N. unfold CosmphiDisk. destruct (CD_strength m phib phio cpsp) as [o b]. fold (break_radius rb).
  apply native_forces. apply (CD_forces (IZR m) o (IZR m * b) p (break_radius rb) (rpow r1 p)). apply IZR_not_0, N.
Qed.
Print Assumptions C43_cosmphi_forces.
(** With r1 = 1 (the default) also at the break: the two pieces join with the same value and slope *)
Theorem C43_cosmphi_forces_at_break : forall amp phib p phio m rb cpsp, m <> 0%Z -> planar_forces_are_gradient off_axis (CosmphiDisk amp phib p phio m 1 rb cpsp).
Proof.
  intros amp phib p phio m rb cpsp N. unfold CosmphiDisk. destruct (CD_strength m phib phio cpsp) as [o b].
  apply native_forces. apply CD_forces_break; [apply IZR_not_0, N|]. unfold rpow, Rpower. rewrite ln_1, Rmult_0_r. apply exp_0.
Qed.
Print Assumptions C43_cosmphi_forces_at_break.
Theorem C43_cosmphi_hessian : forall amp phib p phio m r1 rb cpsp, m <> 0%Z ->
  planar_hessian_is_correct (fun R _ _ => 0 < R /\ R <> break_radius rb /\ (break_radius rb <= R \/ m = 1%Z)) (CosmphiDisk amp phib p phio m r1 rb cpsp).
Proof.
  intros amp phib p phio m r1 rb cpsp N. unfold CosmphiDisk. destruct (CD_strength m phib phio cpsp) as [o b]. fold (break_radius rb).
  apply native_hessian. intros R phi t (P & Q & H). apply CD_hess; [apply IZR_not_0, N|]. conjs; auto. destruct H as [H| ->]; auto.
Qed.
Print Assumptions C43_cosmphi_hessian.
(** Inside the break radius and for m other than one, Rphideriv is not the derivative of the forces: it is divided by m once too often *)
Theorem C43_cosmphi_Rphideriv_refuted : forall amp phib p phio m r1 rb, amp <> 0 -> p <> 0 -> phio <> 0 -> m <> 0%Z -> m <> 1%Z -> 0 < rb ->
  exists FR PRp R phi t, (forall v, plRf (CosmphiDisk amp phib p phio m r1 (Some rb) None) v = Some FR) /\ plRp (CosmphiDisk amp phib p phio m r1 (Some rb) None) = Some PRp /\
    0 < R < rb /\ PRp R phi t <> 0 /\ is_derive (fun x => - FR R x t) phi (IZR m * PRp R phi t).
Proof.
  intros amp phib p phio m r1 rb Na Np No Nm N1 Hb. pose proof (IZR_not_0 m Nm) as NM. set (a := amp / rpow r1 p).
  exists (scale3 a (CD_Rf (IZR m) (phio * IZR m) (IZR m * phib) p rb)), (scale3 a (CD_Rp (IZR m) (phio * IZR m) (IZR m * phib) p rb)), (rb / 2), (phib + PI / 2 / IZR m), 0.
  split; [reflexivity|]. split; [reflexivity|]. split; [lra|]. pose proof (rpow_pos (rb / 2) (p + 1)) as Q1. pose proof (rpow_pos r1 p) as Q2. pose proof (rpow_pos rb p) as Q3.
  assert (A : IZR m * (phib + PI / 2 / IZR m) - IZR m * phib = PI / 2) by (field; exact NM).
  split.
  - unfold scale3, CD_Rp. destruct (Rlt_dec (rb / 2) rb); [|lra]. rewrite A, sin_PI2. unfold a, CD_rb2p, CD_rbp. unfold Rdiv. intros X.
    repeat (apply Rmult_integral in X; destruct X as [X|X]; try lra);
      try (apply Rinv_neq_0_compat in X; auto; lra); try (revert X; apply Rinv_neq_0_compat; lra || assumption); try (apply pow_nonzero in X; auto; lra).
  - unfold scale3, CD_Rf, CD_Rp. destruct (Rlt_dec (rb / 2) rb); [|lra].
    eapply is_derive_ext; [|eapply is_derive_eq; [apply (is_derive_Rscal _ _ (a * p * phio * CD_rb2p p rb / rpow (rb / 2) (p + 1)) _ (ang_cos (IZR m) (IZR m * phib) (phib + PI / 2 / IZR m)))|]].
    + intros x. toR. field. split; [exact NM|]. lra.
    + toR. field. split; [exact NM|]. lra.
Qed.
Print Assumptions C43_cosmphi_Rphideriv_refuted.

(** Lists of planar potentials, nested to any depth, inherit both *)
Theorem C43_sums : forall D amp ps, (forall p, In p ps -> plDiss p = false) ->
  ((forall p, In p ps -> planar_forces_are_gradient D p) -> planar_forces_are_gradient D (PComp amp ps)) /\
  ((forall p, In p ps -> planar_hessian_is_correct D p) -> planar_hessian_is_correct D (PComp amp ps)).
Proof. intros D amp ps HD. split; intros H; [apply composite_forces|apply composite_hessian]; intros p Hp; auto. Qed.
Print Assumptions C43_sums.

(** ** One dimension *)
Theorem C43_linear : (forall amp sigma, 0 < amp -> sigma <> 0 -> linear_force_is_gradient (IsothermalDisk amp sigma) /\ linear_second_is_correct (IsothermalDisk amp sigma)) /\
  (forall amp K F D, D <> 0 -> linear_force_is_gradient (KG amp K F D) /\ linear_second_is_correct (KG amp K F D)).
Proof.
  assert (G : forall amp ev f f2, (forall x t, is_derive (fun y => ev y t) x (- f x t)) -> (forall x t, is_derive (fun y => - f y t) x (f2 x t)) ->
    linear_force_is_gradient (LNat amp (mkLiC ev f (Some f2))) /\ linear_second_is_correct (LNat amp (mkLiC ev f (Some f2)))).
  { intros amp ev f f2 A B. split.
    - exists (scale2 amp ev), (scale2 amp f). conjs; try reflexivity. intros x t. apply scal_ev, A.
    - exists (scale2 amp f), (scale2 amp f2). conjs; try reflexivity. intros x t. apply scal_opp, B. }
  split.
  - intros amp sigma Ha Hs. assert (N : sigma / sqrt (8 * PI * amp) <> 0).
    { pose proof PI_RGT_0. assert (0 < sqrt (8 * PI * amp)) by (apply sqrt_lt_R0; nra). intros E. apply Rmult_integral in E. destruct E as [E|E]; [lra|]. revert E. apply Rinv_neq_0_compat. lra. }
    apply G; intros x t; [apply ID_forces, N|apply ID_second, N].
  - intros amp K F D N. apply G; intros x t; [apply KG_forces, N|apply KG_second, N].
Qed.
Print Assumptions C43_linear.
(** The isothermal sheet is self-consistent: the second derivative is 4 pi times the density amp sech^2 (x / 2H) *)
Theorem C43_isothermal_poisson : forall amp sigma, 0 < amp -> sigma <> 0 -> exists F2, liF2 (IsothermalDisk amp sigma) = Some F2 /\
  forall x t, F2 x t = 4 * PI * isothermal_density amp (sigma / sqrt (8 * PI * amp)) x.
Proof.
  intros amp sigma Ha Hs. eexists. split; [reflexivity|]. intros x t. pose proof PI_RGT_0 as PP. assert (P : 0 < 8 * PI * amp) by nra. pose proof (sqrt_lt_R0 _ P) as Q. pose proof (sqrt_sqrt (8 * PI * amp) ltac:(lra)) as S2.
  unfold scale2, ID_f2, isothermal_density. set (s := sqrt (8 * PI * amp)) in *. rewrite tanh_sech.
  replace (/ 2 * x / (sigma / s)) with (x / (2 * (sigma / s))) by (field; lra).
  replace (sigma ^ 2 / (2 * (sigma / s) ^ 2)) with (s * s / 2) by (field; split; lra). rewrite S2. field.
Qed.
Print Assumptions C43_isothermal_poisson.

(** ** The documented formulas *)
Definition growth_of (ts : RR) (tform tsteady : option RR) (t : RR) : RR := match growth_args ts tform tsteady with Some w => growth w t | None => 1 end.
Lemma ratio_pow R r p : 0 < R -> 0 < r -> rpow R p / rpow r p = rpow (R / r) p.
Proof. intros A B. unfold rpow, Rpower. rewrite ln_div by assumption. unfold Rdiv. rewrite <- exp_Ropp, <- exp_plus. f_equal. ring. Qed.
Theorem C43_elliptical_documented : forall amp phib p twophio r1, 0 < r1 -> exists pot, EllipticalDisk amp phib p twophio r1 None None None = Some pot /\
  planar_potential pot (elliptical_doc amp (twophio / 2) r1 p phib).
Proof. intros amp phib p twophio r1 H. eexists. split; [reflexivity|]. exists (scale3 (amp / rpow r1 p) (ED_ev phib p twophio None)). split; [reflexivity|]. intros R phi t P. unfold scale3, ED_ev, elliptical_doc. cbn [growth]. rewrite <- ratio_pow by assumption. pose proof (rpow_pos r1 p). field. lra. Qed.
Print Assumptions C43_elliptical_documented.
Theorem C43_spirals_documented : forall amp omegas A alpha m gamma pa,
  (exists pot, SteadyLogSpiral amp omegas A alpha m gamma pa None None = Some pot /\ planar_potential pot (spiral_doc amp A (winding m alpha pa) m omegas gamma)) /\
  (forall sigma to, planar_potential (TransientLogSpiral amp omegas A alpha m gamma pa sigma to)
    (fun R phi t => spiral_doc amp A (winding m alpha pa) m omegas gamma R phi t * exp (- (t - to) ^ 2 / (2 * sigma ^ 2)))).
Proof.
  intros. split.
  - eexists. split; [reflexivity|]. exists (scale3 amp (SLS_ev omegas A (winding m alpha pa) m gamma None)). split; [reflexivity|]. intros R phi t P. unfold scale3, SLS_ev, spiral_doc, SLS_chi. cbn [growth]. unfold Rdiv. ring.
  - intros sigma to. exists (scale3 amp (TLS_ev omegas A (winding m alpha pa) m gamma (sigma ^ 2) to)). split; [reflexivity|]. intros R phi t P. unfold scale3, TLS_ev, TLS_amp, spiral_doc, SLS_chi.
    replace (- (t - to) ^ 2 / 2 / sigma ^ 2) with (- (t - to) ^ 2 / (2 * sigma ^ 2)) by (unfold Rdiv; rewrite Rinv_mult; ring). unfold Rdiv. ring.
Qed.
Print Assumptions C43_spirals_documented.
(** The winding given by the pitch angle: along a crest (constant phase, fixed time) the arm makes the angle pa with the azimuthal direction *)
Theorem C43_pitch_angle : forall m alpha gamma omegas pa R phi0 t, m <> 0 -> tan pa <> 0 -> 0 < R ->
  let crest := fun x => phi0 + winding m alpha (Some pa) / m * (ln x - ln R) in
  (forall x, 0 < x -> SLS_chi omegas (winding m alpha (Some pa)) m gamma x (crest x) t = SLS_chi omegas (winding m alpha (Some pa)) m gamma R phi0 t) /\
  exists dphi, is_derive crest R dphi /\ tan pa = 1 / (R * dphi).
Proof.
  intros m alpha gamma omegas pa R phi0 t Nm Nt P crest. split.
  - intros x Hx. unfold crest, SLS_chi, winding. field. split; assumption.
  - exists (/ (tan pa * R)). split; [|field; split; [lra|exact Nt]]. unfold crest, winding. auto_derive; [exact P|]. field. repeat split; try lra; assumption.
Qed.
Print Assumptions C43_pitch_angle.
Theorem C43_cosmphi_documented : forall amp phib p phio m r1 rb, m <> 0%Z -> 0 < r1 -> 0 <= break_radius rb ->
  exists f, plEv (CosmphiDisk amp phib p phio m r1 rb None) = Some f /\ forall R phi t, 0 < R -> break_radius rb <= R \/ r1 = 1 ->
    f R phi t = cosmphi_doc amp phio (IZR m) phib r1 p (break_radius rb) R phi t.
Proof.
  intros amp phib p phio m r1 rb N H1 Hb. pose proof (IZR_not_0 m N) as NM. exists (scale3 (amp / rpow r1 p) (CD_ev (IZR m) (phio * IZR m) (IZR m * phib) p (break_radius rb) (rpow r1 p))). split; [reflexivity|]. intros R phi t P H. unfold scale3, CD_ev, cosmphi_doc. fold (break_radius rb).
  pose proof (rpow_pos r1 p) as Q. pose proof (rpow_pos R p) as Q'. replace (IZR m * phi - IZR m * phib) with (IZR m * (phi - phib)) by ring.
  destruct (Rlt_dec R (break_radius rb)), (Rle_dec (break_radius rb) R); try lra.
  - destruct H as [H| ->]; [lra|]. assert (B : 0 < break_radius rb) by lra. rewrite <- !ratio_pow by (assumption || lra).
    assert (O : rpow 1 p = 1) by (unfold rpow, Rpower; rewrite ln_1, Rmult_0_r; apply exp_0). rewrite O. unfold CD_rbp. field. sides.
  - rewrite <- ratio_pow by assumption. field. sides.
Qed.
Print Assumptions C43_cosmphi_documented.
(** Inside the break radius with r1 other than one the documented formula is not what is computed, and the potential jumps at the break by 2 amp phio (r1^p - 1) (rb / r1)^p cos(m (phi - phib)) *)
Lemma left_limit (f g : RR -> RR) a : continuous f a -> continuous g a -> (forall x, x < a -> f x = g x) -> f a = g a.
Proof.
  intros Cf Cg E. destruct (Req_dec (f a) (g a)) as [|N]; [assumption|exfalso]. assert (P : 0 < Rabs (f a - g a)) by (apply Rabs_pos_lt; lra).
  pose proof (continuous_minus (K := R_AbsRing) (V := R_NormedModule) f g a Cf Cg) as C. specialize (C (fun y => Rabs (y - (f a - g a)) < Rabs (f a - g a))). cbv beta in C.
  destruct C as [d Hd]. { exists (mkposreal _ P). intros y Hy. exact Hy. }
  specialize (Hd (a - d / 2)). assert (B : ball a d (a - d / 2)). { change (Rabs (a - d / 2 - a) < d). replace (a - d / 2 - a) with (- (d / 2)) by ring. rewrite Rabs_Ropp, Rabs_pos_eq; pose proof (cond_pos d); lra. }
  specialize (Hd B). change (minus (f (a - d / 2)) (g (a - d / 2))) with (f (a - d / 2) - g (a - d / 2)) in Hd. rewrite (E (a - d / 2)) in Hd by (pose proof (cond_pos d); lra).
  replace (g (a - d / 2) - g (a - d / 2) - (f a - g a)) with (- (f a - g a)) in Hd by ring. rewrite Rabs_Ropp in Hd. lra.
Qed.
Theorem C43_cosmphi_documented_refuted : forall amp phib p phio m r1 rb, m <> 0%Z -> amp <> 0 -> phio <> 0 -> 0 < r1 -> rpow r1 p <> 1 -> 0 < rb ->
  exists f, plEv (CosmphiDisk amp phib p phio m r1 (Some rb) None) = Some f /\
    (forall R t, 0 < R < rb -> f R phib t <> cosmphi_doc amp phio (IZR m) phib r1 p rb R phib t) /\
    (forall t, ~ continuous (fun R => f R phib t) rb).
Proof.
  intros amp phib p phio m r1 rb N Na No H1 Np Hb. pose proof (IZR_not_0 m N) as NM. exists (scale3 (amp / rpow r1 p) (CD_ev (IZR m) (phio * IZR m) (IZR m * phib) p rb (rpow r1 p))). split; [reflexivity|].
  pose proof (rpow_pos r1 p) as Q. pose proof (rpow_pos rb p) as Qb.
  assert (NZ : amp * phio * (rpow rb p / rpow r1 p) * (2 * (rpow r1 p - 1)) <> 0).
  { repeat apply Rmult_integral_contrapositive_currified; try assumption; try lra. apply Rinv_neq_0_compat. lra. }
  split.
  - intros R t [P L] E. apply NZ. unfold scale3, CD_ev, cosmphi_doc in E. destruct (Rlt_dec R rb), (Rle_dec rb R); try lra. pose proof (rpow_pos R p) as Q'.
    replace (IZR m * phib - IZR m * phib) with 0 in E by ring. replace (IZR m * (phib - phib)) with 0 in E by ring. rewrite cos_0 in E. rewrite <- !ratio_pow in E by (assumption || lra). unfold CD_rbp in E.
    match type of E with ?l = ?r => replace (amp * phio * (rpow rb p / rpow r1 p) * (2 * (rpow r1 p - 1))) with (l - r) by (field; repeat split; lra || assumption) end. lra.
  - intros t C. apply NZ.
    set (inner := fun R => amp / rpow r1 p * (phio * IZR m / IZR m * 1 * rpow rb p * (2 * rpow r1 p - rpow rb p / rpow R p))).
    set (f := fun R : RR => scale3 (amp / rpow r1 p) (CD_ev (IZR m) (phio * IZR m) (IZR m * phib) p rb (rpow r1 p)) R phib t) in *.
    assert (CI : continuous inner rb).
    { apply (ex_derive_continuous (K := R_AbsRing) (V := R_NormedModule) inner rb). unfold inner. eexists. apply is_derive_Rscal, is_derive_Rscal. apply (inner_derive p rb (rpow r1 p) rb Hb). }
    assert (FB : f rb = amp * phio * (rpow rb p / rpow r1 p)).
    { unfold f, scale3, CD_ev. destruct (Rlt_dec rb rb); [lra|]. replace (IZR m * phib - IZR m * phib) with 0 by ring. rewrite cos_0. field. sides. }
    assert (IB : inner rb = amp * phio * (rpow rb p / rpow r1 p) * (2 * rpow r1 p - 1)).
    { unfold inner. field. repeat split; lra || assumption. }
    assert (EQ : f rb = inner rb) by (apply (left_limit f inner rb C CI); intros R L; unfold f, inner, scale3, CD_ev; destruct (Rlt_dec R rb); [|lra]; replace (IZR m * phib - IZR m * phib) with 0 by ring; rewrite cos_0; reflexivity).
    rewrite FB, IB in EQ. lra.
Qed.
Print Assumptions C43_cosmphi_documented_refuted.

(** LopsidedDisk is documented with a normalisation radius R1, which it accepts and ignores *)
Theorem C43_lopsided_documented_refuted : forall amp phib p phio r1, amp <> 0 -> phio <> 0 -> 0 < r1 -> rpow r1 p <> 1 ->
  LopsidedDisk amp phib p phio r1 None = LopsidedDisk amp phib p phio 1 None /\ ~ planar_potential (LopsidedDisk amp phib p phio r1 None) (cosmphi_doc amp phio 1 phib r1 p 0).
Proof.
  intros amp phib p phio r1 Na No H1 Np. split; [reflexivity|]. intros (f & E & H).
  assert (EF : f = scale3 (amp / rpow 1 p) (CD_ev 1 (phio * 1) (1 * phib) p 0 (rpow 1 p))) by (injection E as <-; reflexivity).
  specialize (H 1 phib 0 Rlt_0_1). rewrite EF in H. unfold scale3, CD_ev, cosmphi_doc in H. destruct (Rlt_dec 1 0); [lra|]. destruct (Rle_dec 0 1); [|lra].
  assert (O : rpow 1 p = 1) by (unfold rpow, Rpower; rewrite ln_1, Rmult_0_r; apply exp_0). rewrite <- ratio_pow in H by lra. rewrite O in H.
  replace (1 * phib - 1 * phib) with 0 in H by ring. replace (1 * (phib - phib)) with 0 in H by ring. rewrite cos_0 in H. pose proof (rpow_pos r1 p) as Q.
  assert (X : amp * phio * (rpow r1 p - 1) = 0). { replace (amp * phio * (rpow r1 p - 1)) with (rpow r1 p * (amp / 1 * (phio * 1 / 1 * 1 * 1) - amp * phio * 1 * (1 / rpow r1 p))) by (field; lra). rewrite H. ring. }
  apply Rmult_integral in X. destruct X as [X|X]; [|lra]. apply Rmult_integral in X. tauto.
Qed.
Print Assumptions C43_lopsided_documented_refuted.

(** ** Strengths as (cp, sp) *)
Theorem C43_elliptical_cp_sp : forall amp phib p twophio r1 cp sp, 0 < r1 -> exists pot, EllipticalDisk amp phib p twophio r1 None None (Some (cp, sp)) = Some pot /\
  planar_potential pot (fun R phi _ => amp / 2 * rpow (R / r1) p * (cp * cos (2 * phi) + sp * sin (2 * phi))).
Proof.
  intros amp phib p twophio r1 cp sp H1. eexists. split; [reflexivity|]. exists (scale3 (amp / rpow r1 p) (ED_ev (atan2 sp cp / 2) p (sqrt (cp * cp + sp * sp)) None)). split; [reflexivity|].
  intros R phi t P. unfold scale3, ED_ev. cbn [growth]. rewrite <- ratio_pow by assumption. pose proof (rpow_pos r1 p).
  replace (2 * (phi - atan2 sp cp / 2)) with (2 * phi - atan2 sp cp) by field. rewrite cos_minus.
  assert (C : sqrt (cp * cp + sp * sp) * cos (atan2 sp cp) = cp /\ sqrt (cp * cp + sp * sp) * sin (atan2 sp cp) = sp).
  { replace (cp * cp + sp * sp) with (cp ^ 2 + sp ^ 2) by ring. split; [apply atan2_cos|apply atan2_sin]. }
  destruct C as [C S]. set (s := sqrt (cp * cp + sp * sp)) in *. 
  transitivity (amp / rpow r1 p * rpow R p / 2 * ((s * cos (atan2 sp cp)) * cos (2 * phi) + (s * sin (atan2 sp cp)) * sin (2 * phi))); [field; lra|rewrite C, S; field; lra].
Qed.
Print Assumptions C43_elliptical_cp_sp.
Definition cp_sp_disk (amp p m r1 cp sp : RR) : F3 := fun R phi _ => amp / m * rpow (R / r1) p * (cp * cos (m * phi) + sp * sin (m * phi)).
Lemma cp_sp_phase cp sp : cp <> 0 -> let s := sqrt (cp * cp + sp * sp) in let g := if Rlt_dec cp 0 then -1 else 1 in s * cos (atan (sp / cp)) = g * cp /\ s * sin (atan (sp / cp)) = g * sp.
Proof.
  intros N s g. assert (G : 0 < g * cp /\ g * g = 1) by (unfold g; destruct (Rlt_dec cp 0); split; lra). destruct G as [G G2].
  assert (E : atan (sp / cp) = atan ((g * sp) / (g * cp))) by (f_equal; field; split; [lra|intros X; rewrite X in G2; lra]).
  pose proof (atan2_cos (g * cp) (g * sp)) as A. pose proof (atan2_sin (g * cp) (g * sp)) as B.
  replace ((g * cp) ^ 2 + (g * sp) ^ 2) with (cp * cp + sp * sp) in A, B by (replace ((g * cp) ^ 2 + (g * sp) ^ 2) with ((g * g) * (cp * cp + sp * sp)) by ring; rewrite G2; ring).
  rewrite E. unfold atan2 in A, B. destruct (Rlt_dec 0 (g * cp)); [|lra]. split; assumption.
Qed.
(** cp and sp are the coefficients of the cosine and the sine when cp is positive, or when m is one *)
Theorem C43_cosmphi_cp_sp : forall amp phib p phio m r1 cp sp, (0 < m)%Z -> 0 < r1 -> 0 < cp \/ (m = 1%Z /\ cp <> 0) ->
  planar_potential (CosmphiDisk amp phib p phio m r1 None (Some (cp, sp))) (cp_sp_disk amp p (IZR m) r1 cp sp).
Proof.
  intros amp phib p phio m r1 cp sp Hm H1 Hc. assert (Nc : cp <> 0) by (destruct Hc as [H|[_ H]]; lra). assert (NM : IZR m <> 0) by (apply IZR_not_0; lia).
  pose proof (cp_sp_phase cp sp Nc) as PH. cbv zeta in PH. destruct PH as [C S]. unfold planar_potential, CosmphiDisk. cbn [CD_strength].
  set (s := sqrt (cp * cp + sp * sp)) in *. set (a := atan (sp / cp)) in *.
  match goal with |- context [CD_class (IZR m) s (IZR m * ?b) p 0 _] => set (ph := b) end.
  exists (scale3 (amp / rpow r1 p) (CD_ev (IZR m) s (IZR m * ph) p 0 (rpow r1 p))). split; [reflexivity|]. intros R phi t P.
  unfold scale3, CD_ev, cp_sp_disk. destruct (Rlt_dec R 0); [lra|]. rewrite <- ratio_pow by assumption. pose proof (rpow_pos r1 p) as Q.
  assert (K : s * cos (IZR m * phi - IZR m * ph) = cp * cos (IZR m * phi) + sp * sin (IZR m * phi)).
  { rewrite cos_minus. unfold ph. destruct (m <? 2)%Z eqn:L2; cbn [andb].
    - assert (m = 1%Z) as -> by (apply Z.ltb_lt in L2; lia). destruct (Rlt_dec cp 0) as [NC|PC].
      + replace (1 * (PI + a / 1)) with (a + PI) by field. rewrite neg_cos, neg_sin. replace (s * (cos (1 * phi) * - cos a + sin (1 * phi) * - sin a)) with (- (s * cos a) * cos (1 * phi) - (s * sin a) * sin (1 * phi)) by ring. rewrite C, S. ring.
      + replace (1 * (a / 1)) with a by field. replace (s * (cos (1 * phi) * cos a + sin (1 * phi) * sin a)) with ((s * cos a) * cos (1 * phi) + (s * sin a) * sin (1 * phi)) by ring. rewrite C, S. ring.
    - apply Z.ltb_ge in L2. destruct Hc as [Hc|[Hc _]]; [|lia]. destruct (Rlt_dec cp 0); [lra|]. replace (IZR m * (a / IZR m)) with a by (field; exact NM).
      replace (s * (cos (IZR m * phi) * cos a + sin (IZR m * phi) * sin a)) with ((s * cos a) * cos (IZR m * phi) + (s * sin a) * sin (IZR m * phi)) by ring. rewrite C, S. ring. }
  replace (amp / rpow r1 p * (s / IZR m * rpow R p * cos (IZR m * phi - IZR m * ph))) with (amp / rpow r1 p * rpow R p / IZR m * (s * cos (IZR m * phi - IZR m * ph))) by (field; sides).
  rewrite K. field. sides.
Qed.
Print Assumptions C43_cosmphi_cp_sp.
(** With cp negative and m >= 2 the potential has the opposite sign: the phase is taken from arctan(sp / cp) *)
Theorem C43_cosmphi_cp_sp_refuted : forall amp phib p phio m r1 cp sp, (2 <= m)%Z -> 0 < r1 -> cp < 0 ->
  planar_potential (CosmphiDisk amp phib p phio m r1 None (Some (cp, sp))) (fun R phi t => - cp_sp_disk amp p (IZR m) r1 cp sp R phi t).
Proof.
  intros amp phib p phio m r1 cp sp Hm H1 Hc. assert (Nc : cp <> 0) by lra. assert (NM : IZR m <> 0) by (apply IZR_not_0; lia).
  pose proof (cp_sp_phase cp sp Nc) as PH. cbv zeta in PH. destruct PH as [C S]. unfold planar_potential, CosmphiDisk. cbn [CD_strength].
  replace (m <? 2)%Z with false by (symmetry; apply Z.ltb_ge; lia). cbn [andb]. destruct (Rlt_dec cp 0) as [_|]; [|lra].
  set (s := sqrt (cp * cp + sp * sp)) in *. set (a := atan (sp / cp)) in *.
  exists (scale3 (amp / rpow r1 p) (CD_ev (IZR m) s (IZR m * (a / IZR m)) p 0 (rpow r1 p))). split; [reflexivity|]. intros R phi t P.
  unfold scale3, CD_ev, cp_sp_disk. destruct (Rlt_dec R 0); [lra|]. rewrite <- ratio_pow by assumption. pose proof (rpow_pos r1 p) as Q.
  replace (IZR m * (a / IZR m)) with a by (field; exact NM). rewrite cos_minus.
  replace (amp / rpow r1 p * (s / IZR m * rpow R p * (cos (IZR m * phi) * cos a + sin (IZR m * phi) * sin a)))
    with (amp / rpow r1 p * rpow R p / IZR m * ((s * cos a) * cos (IZR m * phi) + (s * sin a) * sin (IZR m * phi))) by (field; sides).
  rewrite C, S. field. sides.
Qed.
Print Assumptions C43_cosmphi_cp_sp_refuted.

(** ** Growth *)
(** With both times given, and the steady state after the start, the factor goes smoothly and monotonically from zero at tform to one at tsteady; given in units of the period it needs a positive period *)
Theorem C43_growth : forall ts tform tsteady, 0 < ts -> 0 < match tsteady with Some s => s | None => 2 end ->
  exists w, growth_args ts (Some tform) tsteady = Some w /\
    (forall t, t <= tform * ts -> growth w t = 0) /\ (forall t, (tform + match tsteady with Some s => s | None => 2 end) * ts <= t -> growth w t = 1) /\
    (forall t, 0 <= growth w t <= 1) /\ (forall t u, t <= u -> growth w t <= growth w u) /\
    (forall t, ex_derive (growth w) t).
Proof.
  intros ts tform tsteady Ht Hs. set (d := match tsteady with Some s => s | None => 2 end) in *. assert (Hd : 0 < d * ts) by nra.
  exists (Some (tform * ts, tform * ts + d * ts)). split; [unfold growth_args, d; destruct tsteady; reflexivity|].
  assert (E : forall t, growth (Some (tform * ts, tform * ts + d * ts)) t = dehnen_smooth (tform * ts) (tform * ts + d * ts) true t).
  { intros t. unfold growth, dehnen_smooth. destruct (Rlt_dec t (tform * ts)); [reflexivity|]. destruct (Rlt_dec t (tform * ts + d * ts)); [|reflexivity]. cbv zeta. lra. }
  conjs.
  - intros t H. rewrite E. apply (s_before _ _ Hd). exact H.
  - intros t H. rewrite E. apply (s_after _ _ Hd). lra.
  - intros t. rewrite E. apply (s_range _ _ Hd).
  - intros t u H. rewrite !E. apply (s_mono _ _ Hd). exact H.
  - intros t. eexists. eapply is_derive_ext; [|apply (s_derive (tform * ts) (d * ts) Hd)]. intros u. cbv beta. symmetry. apply E.
Qed.
Print Assumptions C43_growth.
(** A spiral with a negative pattern speed is switched on abruptly, at minus the requested number of periods *)
Theorem C43_growth_refuted : forall amp omegas A alpha m gamma pa tform, omegas < 0 -> exists w,
  SteadyLogSpiral amp omegas A alpha m gamma pa (Some tform) None = Some (PNat amp (SLS_class omegas A (winding m alpha pa) m gamma w)) /\
  forall t, growth w t = if Rlt_dec t (- tform * (2 * PI / Rabs omegas)) then 0 else 1.
Proof.
  intros amp omegas A alpha m gamma pa tform Ho. unfold SteadyLogSpiral. destruct (Req_EM_T omegas 0); [lra|]. cbn [growth_args option_map]. eexists. split; [reflexivity|]. intros t. cbn [growth].
  pose proof PI_RGT_0. assert (N : 2 * PI / omegas < 0). { assert (/ omegas < 0) by (apply Rinv_lt_0_compat; lra). unfold Rdiv. nra. }
  replace (- tform * (2 * PI / Rabs omegas)) with (tform * (2 * PI / omegas)) by (rewrite Rabs_left by lra; field; lra).
  destruct (Rlt_dec t (tform * (2 * PI / omegas))); [reflexivity|]. destruct (Rlt_dec t (tform * (2 * PI / omegas) + 2 * (2 * PI / omegas))); [lra|reflexivity].
Qed.
Print Assumptions C43_growth_refuted.
(** tsteady without tform (its default) cannot be used *)
Theorem C43_tsteady_alone_refuted : forall amp omegas A alpha m gamma pa s phib p twophio r1 cpsp,
  SteadyLogSpiral amp omegas A alpha m gamma pa None (Some s) = None /\ EllipticalDisk amp phib p twophio r1 None (Some s) cpsp = None.
Proof. intros. split; [reflexivity|]. unfold EllipticalDisk. destruct (ED_strength phib twophio cpsp). reflexivity. Qed.
Print Assumptions C43_tsteady_alone_refuted.

(** ** Wrappers of two-dimensional objects *)
Lemma wrap3_inv g p c : wrapAll3 g p = Some c -> forall Phi FR Fphi, plEv p = Some Phi -> (forall v, plRf p v = Some FR) -> (forall v, plPt p v = Some Fphi) ->
  c = mkPlC (plNonAxi p) (g Phi) (g FR) (Some (g Fphi)) (option_map g (plR2 p)) (option_map g (plp2 p)) (option_map g (plRp p)).
Proof. intros E Phi FR Fphi E1 E2 E3. unfold wrapAll3 in E. rewrite E1, E2, E3 in E. now injection E as <-. Qed.
(** The potential of the wrapper is a factor times that of the wrapped object at a shifted angle; so are all its derivatives *)
Lemma wrap3_correct (A ph : RR -> RR) D p c amp : wrapAll3 (fun f R phi t => A t * f R (phi + ph t) t) p = Some c ->
  planar_forces_are_gradient D p -> planar_forces_are_gradient (fun R phi t => D R (phi + ph t) t) (PNat amp c) /\
  (planar_hessian_is_correct D p -> planar_hessian_is_correct (fun R phi t => D R (phi + ph t) t) (PNat amp c)).
Proof.
  intros E (Phi & FR & Fphi & E1 & E2 & E3 & H). rewrite (wrap3_inv _ _ _ E Phi FR Fphi E1 E2 E3).
  assert (SC : forall (f : RR -> RR) x k l, is_derive f x l -> is_derive (fun y => k * f y) x (k * l)) by (intros; now apply is_derive_Rscal).
  assert (SH : forall (f : RR -> RR) s x l, is_derive f (x + s) l -> is_derive (fun y => f (y + s)) x l).
  { intros f s x l Hf. eapply is_derive_eq; [apply (is_derive_Rchain f (fun y => y + s) x l 1); [exact Hf|auto_derive; [exact I|reflexivity]]|]. cbn; first [ring | apply Rmult_1_r | apply Rmult_1_l]. }
  split.
  - exists (scale3 amp (fun R phi t => A t * Phi R (phi + ph t) t)), (scale3 amp (fun R phi t => A t * FR R (phi + ph t) t)), (scale3 amp (fun R phi t => A t * Fphi R (phi + ph t) t)).
    conjs; try reflexivity. intros R phi t HD. destruct (H R (phi + ph t) t HD) as [H1 H2]. unfold scale3. split.
    + eapply is_derive_eq; [apply SC, SC, H1|rr; ring].
    + eapply is_derive_eq; [apply SC, SC; apply (SH (fun x => Phi R x t)), H2|rr; ring].
  - intros (FR' & Fphi' & PRR & Ppp & PRp & G1 & G2 & G3 & G4 & G5 & G). assert (FR' = FR) by (specialize (E2 (0, 0)); rewrite (G1 (0, 0)) in E2; now injection E2). assert (Fphi' = Fphi) by (specialize (E3 (0, 0)); rewrite (G2 (0, 0)) in E3; now injection E3). subst FR' Fphi'.
    rewrite G3, G4, G5. exists (scale3 amp (fun R phi t => A t * FR R (phi + ph t) t)), (scale3 amp (fun R phi t => A t * Fphi R (phi + ph t) t)), (scale3 amp (fun R phi t => A t * PRR R (phi + ph t) t)),
      (scale3 amp (fun R phi t => A t * Ppp R (phi + ph t) t)), (scale3 amp (fun R phi t => A t * PRp R (phi + ph t) t)).
    conjs; try reflexivity. intros R phi t HD. destruct (G R (phi + ph t) t HD) as [K1 [K2 [K3 K4]]]. unfold scale3.
    assert (N : forall (f : RR -> RR) x l, is_derive (fun y => - f y) x l -> is_derive (fun y => - (amp * (A t * f y))) x (amp * (A t * l))).
    { intros f x l Hf. apply (is_derive_ext (fun y => amp * (A t * (- f y)))); [intros; rr; ring|]. apply SC, SC, Hf. }
    conjs; apply N; auto; [apply (SH (fun x => - Fphi R x t)), K2 | apply (SH (fun x => - FR R x t)), K3].
Qed.
Lemma wrapAll3_ext g g' p : (forall f R phi t, g f R phi t = g' f R phi t) -> wrapAll3 g p = wrapAll3 g' p.
Proof. intros H. assert (g = g') as ->; [|reflexivity]. apply functional_extensionality; intros f. do 3 (apply functional_extensionality; intros ?). apply H. Qed.

(** An amplitude that depends on time only, or a rigid rotation: the wrapper is again a potential with consistent forces and second derivatives *)
Theorem C43_amplitude_wrappers : forall A D p c amp, TimeDependentAmplitude3 A p = Some c -> planar_forces_are_gradient D p ->
  planar_forces_are_gradient D (PNat amp c) /\ (planar_hessian_is_correct D p -> planar_hessian_is_correct D (PNat amp c)).
Proof.
  intros A D p c amp E H. unfold TimeDependentAmplitude3 in E. rewrite (wrapAll3_ext _ (fun f R phi t => A t * f R (phi + 0) t)) in E by (intros; unfold amplitude3; now rewrite Rplus_0_r).
  destruct (wrap3_correct A (fun _ => 0) D p c amp E H) as [K1 K2].
  assert (Q : (fun R phi t => D R (phi + 0) t) = D) by (do 3 (apply functional_extensionality; intros ?); now rewrite Rplus_0_r). cbv beta in K1, K2. rewrite Q in K1, K2. auto.
Qed.
Print Assumptions C43_amplitude_wrappers.
Theorem C43_growing_and_pulsing_wrappers : forall D p c amp,
  (exists tform ts grow, DehnenSmooth3 tform ts grow p = Some c) \/ (exists to sigma, GaussianAmplitude3 to sigma p = Some c) ->
  planar_forces_are_gradient D p -> planar_forces_are_gradient D (PNat amp c) /\ (planar_hessian_is_correct D p -> planar_hessian_is_correct D (PNat amp c)).
Proof. intros D p c amp [[tform [ts [grow E]]]|[to [sigma E]]] H; eapply C43_amplitude_wrappers; eauto. Qed.
Print Assumptions C43_growing_and_pulsing_wrappers.
Theorem C43_rotating_wrapper : forall omega pa D p c amp, SolidBodyRotation3 omega pa p = Some c -> planar_forces_are_gradient D p ->
  planar_forces_are_gradient (fun R phi t => D R (phi - omega * t - pa) t) (PNat amp c) /\
  (planar_hessian_is_correct D p -> planar_hessian_is_correct (fun R phi t => D R (phi - omega * t - pa) t) (PNat amp c)) /\
  forall Phi, plEv p = Some Phi -> plEv (PNat amp c) = Some (fun R phi t => amp * Phi R (phi - omega * t - pa) t).
Proof.
  intros omega pa D p c amp E H. pose proof E as E0. unfold SolidBodyRotation3 in E. rewrite (wrapAll3_ext _ (fun f R phi t => 1 * f R (phi + (- omega * t - pa)) t)) in E by (intros; unfold Wrappers.solid_phi; rewrite Rmult_1_l; f_equal; ring).
  destruct (wrap3_correct (fun _ => 1) (fun t => - omega * t - pa) D p c amp E H) as [K1 K2].
  assert (Q : (fun R phi t => D R (phi + (- omega * t - pa)) t) = (fun R phi t => D R (phi - omega * t - pa) t)) by (do 3 (apply functional_extensionality; intros ?); f_equal; ring). cbv beta in K1, K2. rewrite Q in K1, K2. conjs; auto.
  intros Phi EP. destruct H as (Phi' & FR & Fphi & E1 & E2 & E3 & _). rewrite EP in E1. injection E1 as <-. rewrite (wrap3_inv _ _ _ E0 Phi FR Fphi EP E2 E3). reflexivity.
Qed.
Print Assumptions C43_rotating_wrapper.
Example C43_wrapper_nonvacuous : exists el c d, EllipticalDisk 1 0 1 (1 / 100) 1 None None None = Some el /\ SolidBodyRotation3 2 0 el = Some c /\ DehnenSmooth3 0 (Some 5) true (PNat 1 c) = Some d /\
  planar_forces_are_gradient off_axis (PNat 1 d) /\ planar_hessian_is_correct off_axis (PNat 1 d).
Proof.
  eexists. assert (X : exists c, SolidBodyRotation3 2 0 (PNat (1 / rpow 1 1) (ED_class 0 1 (1 / 100) None)) = Some c) by (eexists; reflexivity). destruct X as [c E].
  assert (X : exists d, DehnenSmooth3 0 (Some 5) true (PNat 1 c) = Some d) by (eexists; reflexivity). destruct X as [d F]. exists c, d. split; [reflexivity|]. split; [exact E|]. split; [exact F|].
  destruct (C43_elliptical_disk 1 0 1 (1 / 100) 1 None None None _ eq_refl) as [A B]. destruct (C43_rotating_wrapper 2 0 off_axis _ c 1 E A) as [C [C' _]]. specialize (C' B).
  destruct (C43_growing_and_pulsing_wrappers (fun R _ _ => 0 < R) (PNat 1 c) d 1) as [G G']; [left; eauto | exact C |]. split; [exact G | exact (G' C')].
Qed.

(** Non-vacuity: a growing spiral on top of an elliptical disk and a broken cos(2 phi) disk *)
Example C43_nonvacuous : exists sp el pot, SteadyLogSpiral 1 (13 / 20) (- 7 / 200) (- 7) 2 (PI / 4) None (Some (- 4)) None = Some sp /\ EllipticalDisk 1 0 1 (1 / 100) 1 None None (Some (- 1 / 100, 1 / 50)) = Some el /\
  pot = PComp 2 [sp; el; CosmphiDisk 1 0 1 (1 / 100) 2 1 (Some (1 / 2)) None; HenonHeiles 1] /\ planar_forces_are_gradient off_axis pot /\
  planar_hessian_is_correct (fun R _ _ => 1 / 2 < R) pot.
Proof.
  destruct (SteadyLogSpiral 1 (13 / 20) (- 7 / 200) (- 7) 2 (PI / 4) None (Some (- 4)) None) as [sp|] eqn:E1; [|discriminate].
  destruct (EllipticalDisk 1 0 1 (1 / 100) 1 None None (Some (- 1 / 100, 1 / 50))) as [el|] eqn:E2; [|discriminate].
  exists sp, el, (PComp 2 [sp; el; CosmphiDisk 1 0 1 (1 / 100) 2 1 (Some (1 / 2)) None; HenonHeiles 1]).
  assert (D1 : plDiss sp = false) by (unfold SteadyLogSpiral in E1; match type of E1 with option_map _ ?g = _ => destruct g end; [injection E1 as <-; reflexivity|discriminate]).
  assert (D2 : plDiss el = false) by (injection E2 as <-; reflexivity).
  assert (DD : forall p, In p [sp; el; CosmphiDisk 1 0 1 (1 / 100) 2 1 (Some (1 / 2)) None; HenonHeiles 1] -> plDiss p = false).
  { intros p [<-|[<-|[<-|[<-|[]]]]]; auto. }
  assert (W : winding 2 (- 7) None <> 0) by (cbn [winding]; lra).
  destruct (C43_steady_spiral _ _ _ _ _ _ _ _ _ _ W E1) as [A1 B1]. destruct (C43_elliptical_disk _ _ _ _ _ _ _ _ _ E2) as [A2 B2]. destruct (C43_henon_heiles 1) as [A4 B4].
  pose proof (C43_cosmphi_forces_at_break 1 0 1 (1 / 100) 2 (Some (1 / 2)) None ltac:(lia)) as A3. pose proof (C43_cosmphi_hessian 1 0 1 (1 / 100) 2 1 (Some (1 / 2)) None ltac:(lia)) as B3.
  assert (WF : forall (D D' : Dom3) p, (forall R phi t, D' R phi t -> D R phi t) -> planar_forces_are_gradient D p -> planar_forces_are_gradient D' p).
  { intros D D' p I (a & b & c & X & Y & Z & G). exists a, b, c. conjs; auto. }
  assert (WH : forall (D D' : Dom3) p, (forall R phi t, D' R phi t -> D R phi t) -> planar_hessian_is_correct D p -> planar_hessian_is_correct D' p).
  { intros D D' p I (a & b & c & d & e & X & Y & Z & U & V & G). exists a, b, c, d, e. conjs; auto. }
  split; [reflexivity|]. split; [reflexivity|]. split; [reflexivity|]. split.
  - refine (proj1 (C43_sums off_axis 2 _ DD) _). intros p [<-|[<-|[<-|[<-|[]]]]]; auto. eapply WF; [|exact A4]. intros. exact I.
  - refine (proj2 (C43_sums (fun R _ _ => 1 / 2 < R) 2 _ DD) _).
    intros p [<-|[<-|[<-|[<-|[]]]]]; [eapply WH; [|exact B1]|eapply WH; [|exact B2]|eapply WH; [|exact B3]|eapply WH; [|exact B4]]; cbv beta; unfold break_radius; intros; conjs; try exact I; try (left; lra); lra.
Qed.
