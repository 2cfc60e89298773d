(** C56: the two-dimensional disk distribution functions have their textbook forms, are constant along orbits, and their derivatives, velocity
    moments, marginals and draws are those of the distribution function that is evaluated. *)
From Coq Require Import Reals Lra Lia.
From Coquelicot Require Import Coquelicot.
From Verif.Lib Require Import RealAux.
From Verif.Model Require Import DiskDF.
From Verif.Spec Require Import DiskDFSpec.
From Verif.Proofs Require Import DiskDFForm DiskDFDeriv DiskBox DiskDFMoments DiskDFMore DiskDFSample DiskDFRegular.
Open Scope R_scope.
Notation RR := RbaseSymbolsImpl.R (only parsing).
Ltac rr := match goal with |- ?a = ?b => change (@eq RR a b) end.

(** ** Profile, potential and circular orbits *)
Theorem C56_exp_profile : forall p0 p1 p2, p0 <> 0 -> p1 <> 0 -> 0 < p2 -> profile_ok (exp_ssp p0 p1 p2).
Proof. exact exp_ssp_ok. Qed.
Theorem C56_potential : forall beta R, 0 < R -> axipotential R beta = Phi_circ beta R /\ is_derive (fun R => axipotential R beta) R (v_circ beta R ^ 2 / R).
Proof.
  intros b R H. split; [apply axipot_eq|]. apply (is_derive_ext (Phi_circ b)); [intros; symmetry; apply axipot_eq|apply phi_derive; exact H].
Qed.
(** gamma = 2 Omega / kappa, and kappa^2 = 4 Omega^2 + R dOmega^2/dR. *)
Theorem C56_gamma : forall beta R, -1 < beta -> 0 < R -> gam beta = 2 * Omega_circ beta R / kappa beta R
  /\ exists d, is_derive (fun R => Omega_circ beta R ^ 2) R d /\ kappa beta R ^ 2 = 4 * Omega_circ beta R ^ 2 + R * d.
Proof.
  intros b R Hb HR. assert (P : 0 < rpow R (b - 1)) by apply rpow_pos. assert (E : forall y, 0 < y -> Omega_circ b y = rpow y (b - 1)).
  { intros y Hy. unfold Omega_circ, v_circ. rewrite rpow_minus, rpow_1 by exact Hy. reflexivity. }
  assert (S : 0 < sqrt (2 * (1 + b))) by (apply sqrt_lt_R0; lra). assert (S2 : sqrt (2 * (1 + b)) * sqrt (2 * (1 + b)) = 2 * (1 + b)) by (apply sqrt_sqrt; lra). split.
  - rewrite E by exact HR. unfold gam, kappa. replace (2 * rpow R (b - 1) / (sqrt (2 * (1 + b)) * rpow R (b - 1))) with (2 / sqrt (2 * (1 + b))) by (field; split; lra).
    apply Rsqr_inj; [apply sqrt_pos|left; apply Rdiv_lt_0_compat; lra|]. rewrite Rsqr_sqrt by (left; apply Rdiv_lt_0_compat; lra). unfold Rsqr. replace (2 / sqrt (2 * (1 + b)) * (2 / sqrt (2 * (1 + b)))) with (4 / (sqrt (2 * (1 + b)) * sqrt (2 * (1 + b)))) by (field; lra). rewrite S2. field. lra.
  - exists (2 * (b - 1) * rpow R (b - 1) * (rpow R (b - 1) / R)). split.
    + apply (is_derive_ext_loc (fun R => rpow R (b - 1) ^ 2)).
      * apply (filter_imp (fun y => 0 < y)); [intros y Hy; rewrite E by exact Hy; reflexivity|apply locally_pos; exact HR].
      * pose proof (is_derive_rpow (fun x => x) (b - 1) R 1 HR (is_derive_id R)) as A. cbv beta in A.
        eapply is_derive_eq; [apply (is_derive_pow (fun R => rpow R (b - 1)) 2 R _ A)|]. rewrite (rpow_minus R (b - 1) 1), rpow_1 by exact HR. cbn [INR pred pow]. rr. field. lra.
    + rewrite E by exact HR. unfold kappa. replace ((sqrt (2 * (1 + b)) * rpow R (b - 1)) ^ 2) with (sqrt (2 * (1 + b)) * sqrt (2 * (1 + b)) * rpow R (b - 1) ^ 2) by ring. rewrite S2. field. lra.
Qed.

(** ** The distribution functions *)
Definition energy (beta R vR vT : RR) : RR := Phi_circ beta R + vR ^ 2 / 2 + vT ^ 2 / 2.
Lemma energy_eq b R vR vT : axipotential R b + 1 / 2 * vR ^ 2 + 1 / 2 * vT ^ 2 = energy b R vR vT. Proof. rewrite axipot_eq. unfold energy. field. Qed.
(** Rc is the radius of the circular orbit with the energy of the point. *)
Theorem C56_dehnen : forall beta p corr R vR vT Rc, -1 < beta -> profile_ok p -> 0 < R -> 0 < Rc -> E_circ beta Rc = energy beta R vR vT ->
  df_at Dehnen beta p corr R vR vT = Some (dehnen_form beta (Sig p corr) (sg2 p corr) Rc (R * vT)).
Proof.
  intros b p c R vR vT Rc Hb Hp HR HRc E. unfold df_at, vRvTRToEL, eval. rewrite energy_eq, <- E, dehnen_is by assumption. rewrite Rminus_eq_0, exp_0, Rmult_1_l, (Rmult_comm vT R). reflexivity.
Qed.
(** Rc is the radius of the circular orbit with the angular momentum of the point. *)
Theorem C56_shu : forall beta p corr R vR vT Rc, -1 < beta -> profile_ok p -> 0 < R -> 0 < Rc -> L_circ beta Rc = R * vT ->
  df_at Shu beta p corr R vR vT = Some (shu_form beta (Sig p corr) (sg2 p corr) Rc (energy beta R vR vT)).
Proof.
  intros b p c R vR vT Rc Hb Hp HR HRc E. unfold df_at, vRvTRToEL, eval. rewrite energy_eq, (Rmult_comm vT R), <- E, shu_is by assumption. rewrite Rminus_eq_0, exp_0, Rmult_1_l. reflexivity.
Qed.
Theorem C56_schwarzschild : forall beta p corr R vR vT Rc, -1 < beta -> profile_ok p -> 0 < R -> 0 < Rc -> L_circ beta Rc = R * vT ->
  df_at Schwarzschild beta p corr R vR vT = Some (schwarzschild_form beta (Sig p corr) (sg2 p corr) Rc R vR vT).
Proof. intros b p c R vR vT Rc Hb Hp HR HRc E. apply schw_is; try assumption. symmetry. exact E. Qed.
Example C56_example_circular : E_circ 0 1 = energy 0 1 0 1 /\ L_circ 0 1 = 1 * 1.
Proof. unfold E_circ, energy, Phi_circ, L_circ, v_circ. rewrite Rpower_O by lra. destruct (Req_EM_T 0 0); [|contradiction]. rewrite ln_1. split; lra. Qed.
(** For a rising or flat rotation curve every point has a circular orbit of its energy, and for every rotation curve and L > 0 one of its angular
    momentum. *)
Theorem C56_circular_exists : forall beta R vR vT, -1 < beta -> 0 < R ->
  (0 <= beta -> exists Rc, 0 < Rc /\ E_circ beta Rc = energy beta R vR vT) /\ (0 < vT -> exists Rc, 0 < Rc /\ L_circ beta Rc = R * vT).
Proof.
  intros b R vR vT Hb HR. split; intros H.
  - exists (xof b (energy b R vR vT)). split; [apply xof_pos|]. symmetry. apply xof_circ; [exact Hb|]. rewrite <- energy_eq. apply bound_pos; assumption.
  - exists (radius_L b (R * vT)). assert (0 < R * vT) by (apply Rmult_lt_0_compat; assumption). split; [apply radL_pos; assumption|]. symmetry. apply radL_circ; assumption.
Qed.
(** No stars on retrograde orbits in the Shu distribution function of a flat rotation curve. *)
Theorem C56_shu_retrograde_flat : forall p corr R vR vT, 0 < R -> vT <= 0 -> df_at Shu 0 p corr R vR vT = Some 0.
Proof.
  intros p c R vR vT HR H. unfold df_at, vRvTRToEL, eval, shu_eval. destruct (Rle_dec (vT * R) 0) as [|q]; [|destruct q; assert (0 <= - vT * R) by (apply Rmult_le_pos; lra); lra].
  destruct (Req_EM_T 0 0); [reflexivity|contradiction].
Qed.
(** Refuted for other rotation curves: the value is not a number. *)
Theorem C56_shu_retrograde_refuted : ~ forall beta p R vR vT, -1 < beta -> profile_ok p -> 0 < R -> exists v, df_at Shu beta p None R vR vT = Some v.
Proof.
  intros H. destruct (H (1 / 10) (exp_ssp (1 / 3) 1 (1 / 5)) 1 0 (-1) ltac:(lra) (exp_ssp_ok (1 / 3) 1 (1 / 5) ltac:(lra) ltac:(lra) ltac:(lra)) ltac:(lra)) as [v E].
  revert E. unfold df_at, vRvTRToEL, eval, shu_eval. destruct (Rle_dec (-1 * 1) 0) as [|q]; [|lra]. destruct (Req_EM_T (1 / 10) 0); [lra|discriminate].
Qed.
(** The value depends on the orbit only. *)
Theorem C56_constant_along_orbits : forall ty beta p corr R vR vT, ty <> Schwarzschild -> planar_orbit beta R vR vT ->
  forall t s, df_at ty beta p corr (R t) (vR t) (vT t) = df_at ty beta p corr (R s) (vR s) (vT s).
Proof. exact df_const. Qed.
Example C56_example_orbit : planar_orbit 0 (fun _ => 2) (fun _ => 0) (fun _ => 1).
Proof.
  intros t. unfold v_circ. rewrite Rpower_O by lra. split; [lra|]. split; [apply is_derive_cst|]. split; (eapply is_derive_eq; [apply is_derive_cst|]; rr; field).
Qed.

(** ** Derivatives of ln f *)
Theorem C56_dlnf : forall ty beta p R vR vT v, ty <> Schwarzschild -> -1 < beta -> profile_ok p -> 0 < R -> df_at ty beta p None R vR vT = Some v -> 0 < v ->
  log_derivative (fun R => df_at ty beta p None R vR vT) R (dlnfdR ty beta p R vR vT) /\
  log_derivative (fun vR => df_at ty beta p None R vR vT) vR (dlnfdvR ty beta p R vR vT) /\
  log_derivative (fun vT => df_at ty beta p None R vR vT) vT (dlnfdvT ty beta p R vR vT).
Proof.
  intros ty b p R vR vT v N Hb Hp HR E Hv. destruct ty; [| |destruct (N eq_refl)].
  - split; [|split]; [apply (dehnen_dR b p Hb Hp R vR vT v)|apply (dehnen_dvR b p Hb Hp R vR vT v)|apply (dehnen_dvT b p Hb Hp R vR vT v)]; assumption.
  - split; [|split]; [apply (shu_dR b p Hb Hp R vR vT v)|apply (shu_dvR b p Hb Hp R vR vT v)|apply (shu_dvT b p Hb Hp R vR vT v)]; assumption.
Qed.
Example C56_example_positive : exists v, df_at Shu (1 / 5) (exp_ssp (1 / 3) 1 (1 / 5)) None 1 0 1 = Some v /\ 0 < v.
Proof.
  assert (Hp : profile_ok (exp_ssp (1 / 3) 1 (1 / 5))) by (apply exp_ssp_ok; lra).
  exists (shu_form (1 / 5) (Sig (exp_ssp (1 / 3) 1 (1 / 5)) None) (sg2 (exp_ssp (1 / 3) 1 (1 / 5)) None) 1 (energy (1 / 5) 1 0 1)). split.
  - apply C56_shu; try assumption; try lra. unfold L_circ, v_circ, Rpower. rewrite ln_1, Rmult_0_r, exp_0. ring.
  - apply form_pos; [lra|exact Hp|lra].
Qed.
(** Refuted for the Schwarzschild distribution function: dlnfdvT is that of the Shu energy. *)
Theorem C56_schwarzschild_derivative_refuted : ~ forall beta p R vR vT v, -1 < beta -> profile_ok p -> 0 < R -> df_at Schwarzschild beta p None R vR vT = Some v -> 0 < v ->
  log_derivative (fun vT => df_at Schwarzschild beta p None R vR vT) vT (dlnfdvT Schwarzschild beta p R vR vT).
Proof.
  intros H. set (p := exp_ssp (1 / 3) 1 (1 / 5)). assert (Hp : profile_ok p) by (apply exp_ssp_ok; lra). assert (Hb : -1 < 0) by lra.
  assert (L : L_circ 0 2 = 1 * 2) by (unfold L_circ, v_circ; rewrite Rpower_O by lra; ring).
  pose proof (C56_schwarzschild 0 p None 1 0 2 2 Hb Hp ltac:(lra) ltac:(lra) L) as E.
  pose proof (H 0 p 1 0 2 _ Hb Hp ltac:(lra) E (form_pos 0 p Hb Hp 2 _ ltac:(lra))) as A. pose proof (logd_unique _ _ _ _ A (schw_dvT_true p Hp)) as Q.
  destruct (Hp 2 ltac:(lra)) as (_ & _ & _ & _ & P2 & _). assert (0 < / (2 * s2 p 2)) by (apply Rinv_0_lt_compat; lra). lra.
Qed.
(** Refuted for corrected distribution functions: the correction is left out of the derivative. *)
Theorem C56_corrected_derivative_refuted : ~ forall beta p corr R vR vT v, -1 < beta -> profile_ok p -> 0 < R -> df_at Dehnen beta p corr R vR vT = Some v -> 0 < v ->
  log_derivative (fun R => df_at Dehnen beta p corr R vR vT) R (dlnfdR Dehnen beta p R vR vT).
Proof.
  intros H. set (p := exp_ssp (1 / 3) 1 (1 / 5)). assert (Hp : profile_ok p) by (apply exp_ssp_ok; lra). assert (Hb : -1 < 0) by lra. set (c := fun x : RR => (exp x, 0) : RR * RR).
  assert (Ec : E_circ 0 1 = energy 0 1 0 1) by apply C56_example_circular.
  pose proof (C56_dehnen 0 p (Some c) 1 0 1 1 Hb Hp ltac:(lra) ltac:(lra) Ec) as E.
  assert (P : 0 < dehnen_form 0 (Sig p (Some c)) (sg2 p (Some c)) 1 (1 * 1)).
  { pose proof (Sig_pos p (Some c) Hp 1 ltac:(lra)). pose proof (sg2_pos p (Some c) Hp 1 ltac:(lra)). pose proof (gam_pos 0 Hb). pose proof PI_RGT_0. unfold dehnen_form. apply Rmult_lt_0_compat; [|apply exp_pos].
    apply Rdiv_lt_0_compat; apply Rmult_lt_0_compat; try assumption; lra. }
  pose proof (H 0 p (Some c) 1 0 1 _ Hb Hp ltac:(lra) E P) as A.
  pose proof (corrected_dR_true p c Hp (fun x _ => is_derive_exp x) (fun _ => eq_refl)) as B. pose proof (logd_unique _ _ _ _ A B) as Q. cbn [c fst] in Q. pose proof (exp_pos 1). unfold c in Q. cbn [fst] in Q. lra.
Qed.

(** ** Velocity moments *)
(** The velocities that are integrated over: |vR| <= n sigma and |vT - vbar| <= n sigma / gamma, where vbar is the circular velocity minus the
    asymmetric drift, which is at most sigma. *)
Definition half_R (p : Ssp) (R n : RR) : RR := n * sqrt (s2 p R).
Definition mid_T (beta : RR) (p : Ssp) (R : RR) : RR := v_circ beta R - va_limited beta p R.
Definition half_T (beta : RR) (p : Ssp) (R n : RR) : RR := n * sqrt (s2 p R) / gamma_circ beta.
Theorem C56_drift : forall beta p R, profile_ok p -> 0 < R ->
  Rabs (va_limited beta p R) <= sqrt (s2 p R) /\
  (Rabs (asymmetricdrift beta p R) <= sqrt (s2 p R) -> va_limited beta p R = s2 p R / (2 * v_circ beta R) * (1 / gamma_circ beta ^ 2 - 1 - R * Derive (smL p) R - R * Derive (s2L p) R)).
Proof.
  intros b p R Hp HR. destruct (Hp R HR) as (_ & _ & _ & D1 & P2 & _ & _ & D2). pose proof (sqrt_lt_R0 _ P2). unfold va_limited. cbv zeta. split.
  - destruct (Rlt_dec (sqrt (s2 p R)) (Rabs (asymmetricdrift b p R))) as [|q]; [rewrite Rabs_R0; lra|lra].
  - intros Q. destruct (Rlt_dec (sqrt (s2 p R)) (Rabs (asymmetricdrift b p R))) as [|_]; [lra|]. unfold asymmetricdrift. rewrite (is_derive_unique _ _ _ D1), (is_derive_unique _ _ _ D2). change (gam b) with (gamma_circ b).
    unfold v_circ. pose proof (rpow_pos R b). unfold rpow in *. unfold Rdiv. rewrite Rinv_mult. ring.
Qed.
Section Moments.
  Variables (ty : DFtype) (beta : RR) (p : Ssp) (corr : option (RR -> RR * RR)) (R nsigma : RR) (f : RR -> RR -> RR).
  Hypothesis Hb : -1 < beta.
  Hypothesis Hp : profile_ok p.
  Hypothesis HR : 0 < R.
  Hypothesis Hn : 0 <= nsigma.
  Hypothesis Reg : regular_in_box (half_R p R nsigma) (mid_T beta p R) (half_T beta p R nsigma) (fun vR vT => df_at ty beta p corr R vR vT) f.
  Theorem C56_surfacemass :
    surfacemass ty beta p corr R nsigma false = box_integral (half_R p R nsigma) (mid_T beta p R) (half_T beta p R nsigma) f /\
    surfacemass ty beta p corr R nsigma true = surfacemass ty beta p corr R nsigma false / sm p R.
  Proof. split; [exact (surfacemass_box ty beta p corr Hb Hp R nsigma f HR Hn Reg)|exact (surfacemass_rel ty beta p corr Hp R nsigma HR)]. Qed.
  Theorem C56_sigma2surfacemass :
    sigma2surfacemass ty beta p corr R nsigma false = box_integral (half_R p R nsigma) (mid_T beta p R) (half_T beta p R nsigma) (fun vR vT => vR ^ 2 * f vR vT) /\
    sigma2surfacemass ty beta p corr R nsigma true = sigma2surfacemass ty beta p corr R nsigma false / (sm p R * s2 p R).
  Proof. split; [exact (sigma2_box ty beta p corr Hb Hp R nsigma f HR Hn Reg)|exact (sigma2_rel ty beta p corr Hp R nsigma HR)]. Qed.
  Theorem C56_moments : forall n m,
    vmomentsurfacemass ty beta p corr R n m nsigma false false = box_integral (half_R p R nsigma) (mid_T beta p R) (half_T beta p R nsigma) (fun vR vT => vR ^ n * vT ^ m * f vR vT) /\
    vmomentsurfacemass ty beta p corr R n m nsigma true false
    = vmomentsurfacemass ty beta p corr R n m nsigma false false / (sm p R * sqrt (s2 p R) ^ n * (sqrt (s2 p R) / gamma_circ beta) ^ m).
  Proof. intros n m. split; [exact (moment_box ty beta p corr Hb Hp R nsigma f HR Hn Reg n m)|exact (moment_relative ty beta p corr Hb Hp R nsigma HR n m)]. Qed.
  (** Means and central moments: sigmaR2 is the mean of vR^2, whose mean is 0. *)
  Theorem C56_central_moments : box_integral (half_R p R nsigma) (mid_T beta p R) (half_T beta p R nsigma) f <> 0 ->
    let c k := central_vT (half_R p R nsigma) (mid_T beta p R) (half_T beta p R nsigma) f k in
    meanvT ty beta p corr R nsigma = mean_vT (half_R p R nsigma) (mid_T beta p R) (half_T beta p R nsigma) f (fun v => v) /\
    meanvR ty beta p corr R nsigma = 0 /\
    box_integral (half_R p R nsigma) (mid_T beta p R) (half_T beta p R nsigma) (fun vR vT => vR * f vR vT) = 0 /\
    sigmaR2 ty beta p corr R nsigma = box_integral (half_R p R nsigma) (mid_T beta p R) (half_T beta p R nsigma) (fun vR vT => vR ^ 2 * f vR vT)
                                      / box_integral (half_R p R nsigma) (mid_T beta p R) (half_T beta p R nsigma) f /\
    sigmaT2 ty beta p corr R nsigma = c 2%nat /\
    skewvT ty beta p corr R nsigma = c 3%nat * Rpower (c 2%nat) (- (3 / 2)) /\
    kurtosisvT ty beta p corr R nsigma = c 4%nat * Rpower (c 2%nat) (- (2)) - 3.
  Proof.
    intros N c. split; [|split; [|split; [|split; [|split; [|split]]]]].
    - exact (meanvT_ok ty beta p corr R nsigma f Hb Hp HR Hn Reg).
    - unfold meanvR, vmomentsurfacemass. cbn. unfold Rdiv. ring.
    - destruct (C56_moments 1 0) as [E _]. unfold vmomentsurfacemass in E. cbn [Nat.odd Nat.even negb] in E.
      etransitivity; [|symmetry; exact E]. apply box_ext; [exact (wR_pos p Hp R nsigma HR Hn)|exact (wT_pos beta p Hb Hp R nsigma HR Hn)|]. intros. cbn. ring.
    - unfold sigmaR2. destruct C56_surfacemass as [-> _]. destruct C56_sigma2surfacemass as [-> _]. reflexivity.
    - exact (sigmaT2_ok ty beta p corr R nsigma f Hb Hp HR Hn Reg N).
    - exact (skewvT_ok ty beta p corr R nsigma f Hb Hp HR Hn Reg N).
    - exact (kurtosisvT_ok ty beta p corr R nsigma f Hb Hp HR Hn Reg N).
  Qed.
End Moments.
(** The moments with deriv="R" are those of the partial derivative of f, and the Oort constants follow from them by the quotient rule. *)
Theorem C56_moment_derivative : forall ty beta p R nsigma f fR, ty <> Schwarzschild -> -1 < beta -> profile_ok p -> 0 < R -> 0 <= nsigma ->
  regular_in_box (half_R p R nsigma) (mid_T beta p R) (half_T beta p R nsigma) (fun vR vT => df_at ty beta p None R vR vT) f ->
  (forall vR vT, - half_R p R nsigma <= vR <= half_R p R nsigma -> mid_T beta p R - half_T beta p R nsigma <= vT <= mid_T beta p R + half_T beta p R nsigma ->
     is_derive (fun R => num (df_at ty beta p None R vR vT)) R (fR vR vT) /\ continuity_2d_pt fR vR vT) ->
  (forall n m, vmomentsurfacemass ty beta p None R n m nsigma false true = box_integral (half_R p R nsigma) (mid_T beta p R) (half_T beta p R nsigma) (fun vR vT => vR ^ n * vT ^ m * fR vR vT)) /\
  let M k g := box_integral (half_R p R nsigma) (mid_T beta p R) (half_T beta p R nsigma) (fun vR vT => vT ^ k * g vR vT) in
  let dv := (M 1%nat fR * M 0%nat f - M 1%nat f * M 0%nat fR) / M 0%nat f ^ 2 in
  M 0%nat f <> 0 ->
  oortA ty beta p None R nsigma = 1 / 2 * (meanvT ty beta p None R nsigma / R - dv) /\
  oortB ty beta p None R nsigma = - (1 / 2) * (meanvT ty beta p None R nsigma / R + dv).
Proof.
  intros ty b p R n f fR Nt Hb Hp HR Hn Reg HfR. 
  assert (A : forall k m, vmomentsurfacemass ty b p None R k m n false true = box_integral (half_R p R n) (mid_T b p R) (half_T b p R n) (fun vR vT => vR ^ k * vT ^ m * fR vR vT))
    by exact (moment_dR ty b p Nt Hb Hp R n f fR HR Hn Reg HfR). split; [exact A|].
  intros M dv N. assert (PR : 0 <= half_R p R n) by exact (wR_pos p Hp R n HR Hn). assert (PT : 0 <= half_T b p R n) by exact (wT_pos b p Hb Hp R n HR Hn).
  assert (X : forall k g, box_integral (half_R p R n) (mid_T b p R) (half_T b p R n) (fun vR vT => vR ^ 0 * vT ^ k * g vR vT) = M k g) by (intros k g; unfold M; apply (box_ext _ _ _ _ _ PR PT); intros; rewrite pow_O; ring).
  assert (E : dmeanvphidR ty b p None R n = dv).
  { unfold dmeanvphidR. cbv zeta. rewrite !A. destruct (C56_moments ty b p None R n f Hb Hp HR Hn Reg 0 0) as [-> _]. destruct (C56_moments ty b p None R n f Hb Hp HR Hn Reg 0 1) as [-> _].
    rewrite !X. unfold dv. field. exact N. }
  unfold oortA, oortB. rewrite E. split; field; lra.
Qed.
(** The hypotheses hold for the Dehnen distribution function with a rising or flat rotation curve, in every box, and for that of Shu in every box
    of prograde velocities; and the mass is positive. *)
Theorem C56_regular : forall beta p R wR cT wT, -1 < beta -> profile_ok p -> 0 < R -> 0 < wR -> 0 < wT ->
  (0 <= beta -> exists f, regular_in_box wR cT wT (fun vR vT => df_at Dehnen beta p None R vR vT) f /\ 0 < box_integral wR cT wT f) /\
  (0 < cT - wT -> exists f, regular_in_box wR cT wT (fun vR vT => df_at Shu beta p None R vR vT) f /\ 0 < box_integral wR cT wT f).
Proof.
  intros b p R wR cT wT Hb Hp HR H1 H2. split; intros H.
  - exists (dehnen_f b p R). assert (Rg : regular_in_box wR cT wT (fun vR vT => df_at Dehnen b p None R vR vT) (dehnen_f b p R)) by (apply dehnen_reg; [exact Hb|exact Hp|intros; apply bound_pos; assumption]).
    split; [exact Rg|]. apply box_pos; [exact H1|exact H2|]. intros x y Hx Hy. split; [apply Rg; assumption|]. apply form_pos; [exact Hb|exact Hp|apply xof_pos].
  - exists (shu_f b p R). assert (Rg : regular_in_box wR cT wT (fun vR vT => df_at Shu b p None R vR vT) (shu_f b p R)) by (apply shu_reg; assumption).
    split; [exact Rg|]. apply box_pos; [exact H1|exact H2|]. intros x y Hx Hy. split; [apply Rg; assumption|]. apply form_pos; [exact Hb|exact Hp|]. apply radL_pos. apply Rmult_lt_0_compat; lra.
Qed.
Example C56_example_derivative : exists f fR, let p := exp_ssp (1 / 3) 1 (1 / 5) in
  regular_in_box (half_R p 1 5) (mid_T 0 p 1) (half_T 0 p 1 5) (fun vR vT => df_at Dehnen 0 p None 1 vR vT) f /\
  (forall vR vT, is_derive (fun R => num (df_at Dehnen 0 p None R vR vT)) 1 (fR vR vT) /\ continuity_2d_pt fR vR vT).
Proof.
  set (p := exp_ssp (1 / 3) 1 (1 / 5)). assert (Hp : profile_ok p) by (apply exp_ssp_ok; lra). assert (Hb : -1 < 0) by lra.
  exists (dehnen_f 0 p 1), (fun vR vT => dehnen_f 0 p 1 vR vT * dlnfdR Dehnen 0 p 1 vR vT). cbv zeta.
  assert (Rg : forall wR cT wT, regular_in_box wR cT wT (fun vR vT => df_at Dehnen 0 p None 1 vR vT) (dehnen_f 0 p 1)) by (intros; apply dehnen_reg; [exact Hb|exact Hp|intros; left; reflexivity]).
  split; [apply Rg|]. intros vR vT. split; [|apply exp_flat_fR; lra]. apply (df_dR Dehnen 0 p ltac:(discriminate) Hb Hp 1 vR vT); [lra|].
  apply (Rg (Rabs vR) vT 0); [unfold Rabs; destruct Rcase_abs; lra|lra].
Qed.

(** ** Marginals *)
(** Line-of-sight velocity: the integral over the perpendicular velocity; the interval is cut at n dispersions of whichever component varies more. *)
Theorem C56_marginalizeVperp : forall ty beta p corr R phi l vlos nsigma, -1 < beta -> profile_ok p -> 0 < R -> 0 <= nsigma ->
  let f := fun vperp => num (df_at ty beta p corr R (vR_of (phi + l) vlos vperp) (vT_of (phi + l) vlos vperp)) in
  (forall lo hi, ex_RInt f lo hi) ->
  integral_where (fun vperp => if Rlt_dec (Rabs (sin (phi + l))) (sqrt (1 / 2)) then Rabs (vT_of (phi + l) vlos vperp - mid_T beta p R) <= half_T beta p R nsigma
                               else Rabs (vR_of (phi + l) vlos vperp) <= half_R p R nsigma)
    f (marginalizeVperp ty beta p corr R phi l vlos nsigma).
Proof. intros ty b p c R phi l v n Hb Hp HR Hn f X. exact (marginal_ok ty b p c R n Hb Hp HR Hn (phi + l) v X). Qed.
Theorem C56_marginalizeVlos : forall ty beta p corr R phi l vperp nsigma, -1 < beta -> profile_ok p -> 0 < R -> 0 <= nsigma ->
  let f := fun vlos => num (df_at ty beta p corr R (vR_of (phi + l) vlos vperp) (vT_of (phi + l) vlos vperp)) in
  (forall lo hi, ex_RInt f lo hi) ->
  integral_where (fun vlos => if Rlt_dec (Rabs (cos (phi + l))) (sqrt (1 / 2)) then Rabs (vT_of (phi + l) vlos vperp - mid_T beta p R) <= half_T beta p R nsigma
                              else Rabs (vR_of (phi + l) vlos vperp) <= half_R p R nsigma)
    f (marginalizeVlos ty beta p corr R phi l vperp nsigma).
Proof.
  intros ty b p c R phi l v n Hb Hp HR Hn f X. set (al := phi + l) in *. assert (Ea : PI / 2 + phi + l = PI / 2 + al) by (unfold al; ring).
  assert (Sn : sin (PI / 2 + al) = cos al) by (rewrite sin_plus, sin_PI2, cos_PI2; ring).
  assert (T : forall s, f s = on_line ty b p c R (PI / 2 + al) v (- s)) by (intros s; unfold f, on_line; destruct (vperp_turn al s v) as [-> ->]; reflexivity).
  assert (T' : forall s, on_line ty b p c R (PI / 2 + al) v s = f (-1 * s + 0)) by (intros s; rewrite T; f_equal; ring).
  unfold marginalizeVlos. rewrite Ea. fold al. rewrite <- Sn.
  apply (where_ext (fun s => (fun s => if Rlt_dec (Rabs (sin (PI / 2 + al))) (sqrt (1 / 2)) then Rabs (vT_of (PI / 2 + al) v s - (v_circ b R - va_limited b p R)) <= n * sqrt (s2 p R) / gamma_circ b
                                          else Rabs (vR_of (PI / 2 + al) v s) <= n * sqrt (s2 p R)) (- s)) _ (fun s => on_line ty b p c R (PI / 2 + al) v (- s))).
  - intros s. cbv beta. destruct (vperp_turn al s v) as [-> ->]. reflexivity.
  - intros s. symmetry. apply T.
  - apply (flip_where (fun s => if Rlt_dec (Rabs (sin (PI / 2 + al))) (sqrt (1 / 2)) then Rabs (vT_of (PI / 2 + al) v s - (v_circ b R - va_limited b p R)) <= n * sqrt (s2 p R) / gamma_circ b
                                          else Rabs (vR_of (PI / 2 + al) v s) <= n * sqrt (s2 p R)) (on_line ty b p c R (PI / 2 + al) v)).
    apply (marginal_ok ty b p c R n Hb Hp HR Hn (PI / 2 + al) v). intros lo hi.
    apply (ex_RInt_ext (fun y => scal (-1) (scal (-1) (f (-1 * y + 0))))); [intros s _; rewrite T'; unfold scal; cbn; unfold mult; cbn; change (-1 * (-1 * f (-1 * s + 0)) = f (-1 * s + 0)); ring|].
    apply (ex_RInt_scal (V := R_NormedModule) (fun y => scal (-1) (f (-1 * y + 0)))). apply (ex_RInt_comp_lin (V := R_NormedModule) f (-1) 0). apply X.
Qed.
Example C56_example_line : forall alpha vlos lo hi, ex_RInt (fun vperp => num (df_at Dehnen (1 / 5) (exp_ssp (1 / 3) 1 (1 / 5)) None 1 (vR_of alpha vlos vperp) (vT_of alpha vlos vperp))) lo hi.
Proof. intros. apply (line_ex (1 / 5) _ ltac:(lra) (exp_ssp_ok (1 / 3) 1 (1 / 5) ltac:(lra) ltac:(lra) ltac:(lra))); lra. Qed.

(** ** Sampling *)
(** Distance and longitude to galactocentric radius and angle. *)
Theorem C56_dlToRphi : forall d l, 0 <= d -> 1 + d ^ 2 - 2 * d * cos l <> 0 ->
  let '(R, theta) := dlToRphi d l in 0 < R /\ R * cos theta = 1 - d * cos l /\ R * sin theta = d * sin l.
Proof. exact dl_ok. Qed.
(** The logarithm of the density of the drawn radii and its derivative, without corrections; refuted with corrections. *)
Theorem C56_ars_density : forall p dcorr x, profile_ok p -> 0 < x ->
  exp (ars_hx p None x) = x * sm p x /\ is_derive (ars_hx p None) x (ars_hpx p None dcorr x).
Proof.
  intros p dc x Hp Hx. destruct (Hp x Hx) as (P & E & _ & D & _). unfold ars_hx, ars_hpx. split.
  - rewrite exp_plus, exp_ln, E, exp_ln by assumption. reflexivity.
  - apply (is_derive_Rplus ln (smL p)); [|exact D]. eapply is_derive_eq; [apply is_derive_ln; exact Hx|rr; field; lra].
Qed.
Theorem C56_ars_corrected_refuted : ~ forall p c dcorr x, profile_ok p -> 0 < x -> (forall x, 0 < x -> is_derive (fun x => fst (c x)) x (dcorr x)) ->
  is_derive (ars_hx p (Some c)) x (ars_hpx p (Some c) dcorr x).
Proof.
  intros H. set (p := exp_ssp (1 / 3) 1 (1 / 5)). assert (Hp : profile_ok p) by (apply exp_ssp_ok; lra). set (c := fun x : RR => (x, 0) : RR * RR).
  pose proof (H p c (fun _ => 1) 1 Hp ltac:(lra) (fun x _ => is_derive_id x)) as A. destruct (Hp 1 ltac:(lra)) as (_ & _ & _ & D & _).
  assert (B : is_derive (ars_hx p (Some c)) 1 (/ 1 + smDL p 1 + exp 1)).
  { unfold ars_hx. cbn [c fst]. apply (is_derive_Rplus (fun x => ln x + smL p x) exp); [|apply is_derive_exp]. apply (is_derive_Rplus ln (smL p)); [apply is_derive_ln; lra|exact D]. }
  pose proof (is_derive_unique _ _ _ A) as A'. pose proof (is_derive_unique _ _ _ B) as B'. assert (Q : / 1 + smDL p 1 + exp 1 = ars_hpx p (Some c) (fun _ => 1) 1) by (transitivity (Derive (ars_hx p (Some c)) 1); [symmetry; exact B'|exact A']). unfold ars_hpx in Q. pose proof (exp_ineq1 1 ltac:(lra)). lra.
Qed.
(** Dehnen: a uniform deviate is the cumulative fraction of f in L at the energy of the drawn radius.  Shu: the fraction of f above the drawn energy. *)
Theorem C56_dehnen_draw : forall beta p corr x u, -1 < beta -> profile_ok p -> 0 < x -> 0 < u < 1 -> exists I Ic,
  fst (dehnen_draw beta p corr x u) = E_circ beta x /\ snd (dehnen_draw beta p corr x u) < L_circ beta x /\ 0 < Ic /\
  is_RInt_gen (fun l => num (eval Dehnen beta p corr (E_circ beta x) l 0 0)) (Rbar_locally m_infty) (at_point (snd (dehnen_draw beta p corr x u))) I /\
  is_RInt_gen (fun l => num (eval Dehnen beta p corr (E_circ beta x) l 0 0)) (Rbar_locally m_infty) (at_point (L_circ beta x)) Ic /\ I / Ic = u.
Proof. exact dehnen_draw_ok. Qed.
Theorem C56_shu_draw : forall beta p corr x u, -1 < beta -> profile_ok p -> 0 < x -> 0 < u < 1 -> exists I Ic,
  snd (shu_draw beta p corr x u) = L_circ beta x /\ E_circ beta x < fst (shu_draw beta p corr x u) /\ 0 < Ic /\
  is_RInt_gen (fun e => num (eval Shu beta p corr e (L_circ beta x) 0 0)) (at_point (fst (shu_draw beta p corr x u))) (Rbar_locally p_infty) I /\
  is_RInt_gen (fun e => num (eval Shu beta p corr e (L_circ beta x) 0 0)) (at_point (E_circ beta x)) (Rbar_locally p_infty) Ic /\ I / Ic = u.
Proof. exact shu_draw_ok. Qed.
(** The expected number of copies of an orbit. *)
Theorem C56_copies : forall kappaR wR nphi, 0 < kappaR / wR * nphi -> is_RInt (fun u => IZR (copies kappaR wR nphi u)) 0 1 (kappaR / wR * nphi).
Proof. exact copies_mean. Qed.
Example C56_example_copies : copies 3 2 1 (1 / 4) = 2%Z /\ copies 3 2 1 (3 / 4) = 1%Z.
Proof.
  assert (C : ceil (3 / 2 * 1) = 2%Z). { unfold ceil. assert (Int_part (- (3 / 2 * 1)) = (-2)%Z); [|rewrite H; reflexivity]. unfold Int_part. rewrite <- (tech_up (- (3 / 2 * 1)) (-1)); [reflexivity|lra|lra]. }
  unfold copies. cbv zeta. rewrite C. cbn [Z.sub Z.add Z.opp Z.ltb Z.compare Z.pos_sub]. split; destruct Rlt_dec; try reflexivity; exfalso; cbn in *; lra.
Qed.
(** Refuted: that points of the same orbit, where the distribution function is the same, are repeated equally often: the weight is kappa at the
    present radius of the star and not at the radius that was drawn. *)
Theorem C56_weight_refuted : ~ forall beta R1 vR1 vT1 R2 vR2 vT2 wR, -1 < beta -> 0 < R1 -> 0 < R2 -> 0 < wR ->
  energy beta R1 vR1 vT1 = energy beta R2 vR2 vT2 -> R1 * vT1 = R2 * vT2 -> kappa beta R1 / wR = kappa beta R2 / wR.
Proof.
  intros H. assert (L2 : 3 / 8 < ln 2). { apply exp_lt_inv. rewrite exp_ln by lra. apply Rlt_le_trans with (1 + 1); [|lra]. pose proof exp_le_3 as E3.
    assert (Q : exp (3 / 8) ^ 2 < 4). { apply Rle_lt_trans with 3; [|lra]. replace (exp (3 / 8) ^ 2) with (exp (3 / 4)). 2:{ replace (exp (3 / 8) ^ 2) with (exp (3 / 8) * exp (3 / 8)) by ring. rewrite <- exp_plus. f_equal. field. }
      apply Rle_trans with (2 := E3). left. apply exp_increasing. lra. }
    pose proof (exp_pos (3 / 8)). nra. }
  assert (S : 0 <= 2 * ln 2 - 3 / 4) by lra.
  specialize (H 0 1 (sqrt (2 * ln 2 - 3 / 4)) 1 2 0 (1 / 2) 1 ltac:(lra) ltac:(lra) ltac:(lra) ltac:(lra)). rewrite !kappa_flat in H by lra.
  assert (sqrt 2 / 1 / 1 = sqrt 2 / 2 / 1). { apply H; [|lra]. unfold energy, Phi_circ. destruct (Req_EM_T 0 0); [|contradiction]. rewrite ln_1. replace (sqrt (2 * ln 2 - 3 / 4) ^ 2) with (2 * ln 2 - 3 / 4) by (symmetry; apply pow2_sqrt; exact S). field. }
  pose proof (sqrt_lt_R0 2 ltac:(lra)). lra.
Qed.
(** The longitude of the line of sight; refuted for Shu distribution functions, where losdeg=False is ignored. *)
Theorem C56_sample_longitude : forall los, sample_l Dehnen false los = los /\ sample_l Dehnen true los = los * PI / 180 /\ sample_l Shu true los = los * PI / 180.
Proof. intros los. unfold sample_l, sampleLOS_l. split; [reflexivity|]. split; field. Qed.
Theorem C56_sample_longitude_refuted : ~ forall los, sample_l Shu false los = los.
Proof. intros H. specialize (H 1). unfold sample_l, sampleLOS_l in H. pose proof PI_4. lra. Qed.

Print Assumptions C56_exp_profile. Print Assumptions C56_potential. Print Assumptions C56_gamma. Print Assumptions C56_dehnen. Print Assumptions C56_shu. Print Assumptions C56_schwarzschild.
Print Assumptions C56_circular_exists. Print Assumptions C56_shu_retrograde_flat. Print Assumptions C56_shu_retrograde_refuted. Print Assumptions C56_constant_along_orbits. Print Assumptions C56_dlnf.
Print Assumptions C56_schwarzschild_derivative_refuted. Print Assumptions C56_corrected_derivative_refuted. Print Assumptions C56_drift. Print Assumptions C56_surfacemass. Print Assumptions C56_sigma2surfacemass.
Print Assumptions C56_moments. Print Assumptions C56_central_moments. Print Assumptions C56_moment_derivative. Print Assumptions C56_regular. Print Assumptions C56_marginalizeVperp. Print Assumptions C56_marginalizeVlos.
Print Assumptions C56_dlToRphi. Print Assumptions C56_ars_density. Print Assumptions C56_ars_corrected_refuted. Print Assumptions C56_dehnen_draw. Print Assumptions C56_shu_draw. Print Assumptions C56_copies.
Print Assumptions C56_weight_refuted. Print Assumptions C56_sample_longitude. Print Assumptions C56_sample_longitude_refuted.
