(** Power law with a Gaussian cut-off; the interpolated potential: proofs. *)
From Coq Require Import Reals Lra Lia.
From Coquelicot Require Import Coquelicot.
From Verif.Lib Require Import RealAux.
From Verif.Model Require Import PotAPI PotAxi PotSpecial.
From Verif.Spec Require Import PotSpec PotApiSpec JeansSpec DensSpec.
From Verif.Proofs Require Import AxiProofs AxiProofs2 AxiProofs3 PotLift MassProofs NonAxiProofs JeansProofs Improper SpecialProofs DensProofs DensClasses.
Open Scope R_scope.
Notation RR := RbaseSymbolsImpl.R (only parsing).
Ltac rr := match goal with |- ?a = ?b => change (@eq RR a b) end.

Lemma rpow_div x y k : 0 < x -> 0 < y -> rpow (x / y) k = rpow x k / rpow y k.
Proof.
  intros Hx Hy. unfold rpow, Rpower. unfold Rdiv. rewrite ln_mult by (try apply Rinv_0_lt_compat; assumption). rewrite ln_Rinv by exact Hy. rewrite Rmult_plus_distr_l, exp_plus. f_equal. rewrite <- exp_Ropp. f_equal. ring.
Qed.
Lemma rpow_sq x k : 0 < x -> rpow (x ^ 2) k = rpow x (2 * k).
Proof. intros Hx. rewrite <- rpow_2 by exact Hx. apply rpow_mult. Qed.
Section Cut.
  Variables alpha rc : RR.
  Hypothesis Hrc : 0 < rc.
  Hypothesis Ha3 : alpha < 3.
  Definition pc_rho (r : RR) : RR := 1 / rpow r alpha * exp (- (r / rc) ^ 2).
  Definition pc_x (r : RR) : RR := (r / rc) ^ 2.
  Lemma q_pos r : 0 < r -> 0 < r / rc. Proof. intros Hr. apply Rdiv_lt_0_compat; assumption. Qed.
  Lemma pcx_pos r : 0 < r -> 0 < pc_x r. Proof. intros Hr. apply pow_lt. apply q_pos. exact Hr. Qed.
  Lemma pcx_derive r : is_derive pc_x r (2 * r / rc ^ 2).
  Proof. unfold pc_x. auto_derive; [exact I|]. field. lra. Qed.
  Lemma pc_mass_eq r : 0 < r -> PC_mass alpha rc r = 2 * PI * rpow rc (3 - alpha) * Gamma_low (3 / 2 - alpha / 2) (pc_x r).
  Proof.
    intros Hr. rewrite gl_eq; [|lra|apply pcx_pos; exact Hr]. unfold PC_mass, sp_hyp1f1. replace (5 / 2 - alpha / 2) with (3 / 2 - alpha / 2 + 1) by field. unfold pc_x. rewrite rpow_sq by (apply q_pos; exact Hr). replace (2 * (3 / 2 - alpha / 2)) with (3 - alpha) by field. rewrite rpow_div by assumption.
    pose proof (rpow_pos rc (3 - alpha)). generalize (Kummer (3 / 2 - alpha / 2) (3 / 2 - alpha / 2 + 1) (- (r / rc) ^ 2)). intros K. field. lra.
  Qed.
  Lemma pc_gi k r : 0 < r -> gamma_int (k / 2 - alpha / 2) (pc_x r) = rpow (r / rc) (k - 2 - alpha) * exp (- pc_x r).
  Proof. intros Hr. unfold gamma_int. unfold pc_x at 1. rewrite rpow_sq by (apply q_pos; exact Hr). f_equal. f_equal. field. Qed.
  Lemma pc_mass_d r : 0 < r -> is_derive (PC_mass alpha rc) r (4 * PI * r ^ 2 * pc_rho r).
  Proof.
    intros Hr. apply (is_derive_ext_loc (fun r => 2 * PI * rpow rc (3 - alpha) * Gamma_low (3 / 2 - alpha / 2) (pc_x r))); [apply filter_imp with (2 := pos_near r Hr); intros y Hy; symmetry; apply pc_mass_eq; exact Hy|].
    assert (D : is_derive (fun y => Gamma_low (3 / 2 - alpha / 2) (pc_x y)) r (gamma_int (3 / 2 - alpha / 2) (pc_x r) * (2 * r / rc ^ 2))) by (apply (is_derive_Rchain (Gamma_low (3 / 2 - alpha / 2)) pc_x); [apply gl_derive; [lra|apply pcx_pos; exact Hr]|apply pcx_derive]).
    apply (is_derive_eq _ _ _ _ (is_derive_Rscal _ _ (2 * PI * rpow rc (3 - alpha)) _ D)). rewrite (pc_gi 3 r Hr). rewrite rpow_div by assumption. unfold pc_rho. fold (pc_x r). replace (3 - 2 - alpha) with (1 - alpha) by ring. replace (3 - alpha) with (1 - alpha + 2) by ring. rewrite rpow_plus, (rpow_2 rc Hrc). rewrite (rpow_minus r 1 alpha), (rpow_1 r Hr).
    pose proof (rpow_pos rc (1 - alpha)). pose proof (rpow_pos r alpha). rr. field. lra.
  Qed.
  Lemma pcx_zero : filterlim pc_x (at_right 0) (at_right 0).
  Proof. apply (filterlim_comp _ _ _ (fun r => r / rc) (fun y => y ^ 2) _ (at_right 0)); [apply right_div; exact Hrc|apply right_sq]. Qed.
  Lemma pcx_inf : filterlim pc_x (Rbar_locally p_infty) (Rbar_locally p_infty).
  Proof. apply (filterlim_comp _ _ _ (fun r => r / rc) (fun y => y ^ 2) _ (Rbar_locally p_infty)); [apply id_inf_div; exact Hrc|apply inf_sq]. Qed.
  Lemma pc_mass_0 : filterlim (PC_mass alpha rc) (at_right 0) (locally 0).
  Proof.
    apply (filterlim_ext_loc (fun r => 2 * PI * rpow rc (3 - alpha) * Gamma_low (3 / 2 - alpha / 2) (pc_x r))); [generalize right_pos; apply filter_imp; intros y Hy; symmetry; apply pc_mass_eq; exact Hy|].
    apply scal_lim; [apply _|]. apply (filterlim_comp _ _ _ pc_x (Gamma_low (3 / 2 - alpha / 2)) _ (at_right 0)); [exact pcx_zero|apply gl_lim; lra].
  Qed.
  Lemma pc_mass_lim : at_infinity (PC_mass alpha rc) (PC_mass_inf alpha rc).
  Proof.
    unfold at_infinity. apply (filterlim_ext_loc (fun r => 2 * PI * rpow rc (3 - alpha) * Gamma_low (3 / 2 - alpha / 2) (pc_x r))); [generalize inf_pos; apply filter_imp; intros y Hy; symmetry; apply pc_mass_eq; exact Hy|].
    apply (filterlim_comp _ _ _ (fun r => Gamma_low (3 / 2 - alpha / 2) (pc_x r)) (fun y => 2 * PI * rpow rc (3 - alpha) * y) _ (locally (Gamma (3 / 2 - alpha / 2)))); [apply (filterlim_comp _ _ _ pc_x (Gamma_low (3 / 2 - alpha / 2)) _ (Rbar_locally p_infty)); [exact pcx_inf|apply gl_inf; lra]|].
    apply (ex_derive_continuous (V := R_NormedModule) (fun y => 2 * PI * rpow rc (3 - alpha) * y) (Gamma (3 / 2 - alpha / 2))). auto_derive. exact I.
  Qed.
  Lemma pc_cont : continuous_outside pc_rho.
  Proof.
    intros r Hr. apply (continuous_mult (K := R_AbsRing) (fun r => 1 / rpow r alpha) (fun r => exp (- (r / rc) ^ 2))); [|apply (ex_derive_continuous (V := R_NormedModule)); auto_derive; exact I].
    apply (continuous_ext (fun x => rpow x (- alpha))); [intros x; rewrite rpow_opp; rr; unfold Rdiv; ring|]. apply rpow_cont. exact Hr.
  Qed.
  Definition pc_F (r : RR) : RR := - PC_mass alpha rc r / r ^ 2.
  Definition pc_D2 (r : RR) : RR := 4 * PI * pc_rho r - 2 * PC_mass alpha rc r / r ^ 3.
  Section Pot.
    Hypothesis Ha2 : alpha < 2.
    Lemma pc_rev_eq r : 0 < r -> PC_rev alpha rc r = 2 * PI * rpow rc (2 - alpha) * Gamma_low (2 / 2 - alpha / 2) (pc_x r) - PC_mass alpha rc r / r.
    Proof.
      intros Hr. rewrite pc_mass_eq by exact Hr. unfold PC_rev. destruct (Req_EM_T r 0) as [E|_]; [lra|]. unfold sp_gamma, sp_gammainc. replace (2 / 2 - alpha / 2) with (1 - alpha / 2) by field. fold (pc_x r).
      pose proof (g_pos (1 - alpha / 2) ltac:(lra)). pose proof (g_pos (3 / 2 - alpha / 2) ltac:(lra)). replace (3 - alpha) with (2 - alpha + 1) by ring. rewrite rpow_plus, rpow_1 by exact Hrc. field. lra.
    Qed.
    Lemma pc_rev_d r : 0 < r -> is_derive (PC_rev alpha rc) r (PC_mass alpha rc r / r ^ 2).
    Proof.
      intros Hr. apply (is_derive_ext_loc (fun r => - PC_mass alpha rc r / r - (- (2 * PI * rpow rc (2 - alpha)) * Gamma_low (2 / 2 - alpha / 2) (pc_x r)))).
      { apply filter_imp with (2 := pos_near r Hr). intros y Hy. rewrite pc_rev_eq by exact Hy. rr. field. lra. }
      apply (shell_deriv pc_rho (PC_mass alpha rc) (fun r => - (2 * PI * rpow rc (2 - alpha)) * Gamma_low (2 / 2 - alpha / 2) (pc_x r))); [exact Hr|apply pc_mass_d; exact Hr|].
      assert (D : is_derive (fun y => Gamma_low (2 / 2 - alpha / 2) (pc_x y)) r (gamma_int (2 / 2 - alpha / 2) (pc_x r) * (2 * r / rc ^ 2))) by (apply (is_derive_Rchain (Gamma_low (2 / 2 - alpha / 2)) pc_x); [apply gl_derive; [lra|apply pcx_pos; exact Hr]|apply pcx_derive]).
      apply (is_derive_eq _ _ _ _ (is_derive_Rscal _ _ (- (2 * PI * rpow rc (2 - alpha))) _ D)). rewrite (pc_gi 2 r Hr). rewrite rpow_div by assumption. unfold pc_rho. fold (pc_x r). replace (2 - 2 - alpha) with (- alpha) by ring. replace (2 - alpha) with (- alpha + 2) by ring. rewrite rpow_plus, (rpow_2 rc Hrc). rewrite !rpow_opp.
      pose proof (rpow_pos rc alpha). pose proof (rpow_pos r alpha). rr. field. lra.
    Qed.
    Lemma pc_grav : gravity_of (fun _ => True) pc_rho (PC_rev alpha rc) pc_F pc_D2 (PC_mass alpha rc).
    Proof. apply grav_build; [exact pc_cont|exact pc_mass_d|exact pc_mass_0|reflexivity|reflexivity|exact pc_rev_d]. Qed.
    (** the potential vanishes at the centre *)
    Lemma pc_centre : at_centre (PC_rev alpha rc) (PC_rev alpha rc 0).
    Proof.
      assert (Z : PC_rev alpha rc 0 = 0 + 0) by (unfold PC_rev; destruct (Req_EM_T 0 0) as [_|N]; [ring|exfalso; apply N; reflexivity]). rewrite Z. unfold at_centre.
      assert (L1 : filterlim (fun r => 2 * PI * rpow rc (2 - alpha) * Gamma_low (2 / 2 - alpha / 2) (pc_x r)) (at_right 0) (locally 0)) by (apply scal_lim; [apply _|]; apply (filterlim_comp _ _ _ pc_x (Gamma_low (2 / 2 - alpha / 2)) _ (at_right 0)); [exact pcx_zero|apply gl_lim; lra]).
      assert (L2 : filterlim (fun r => - (2 * PI / (3 / 2 - alpha / 2)) * (rpow r (2 - alpha) * Kummer (3 / 2 - alpha / 2) (5 / 2 - alpha / 2) (- (r / rc) ^ 2))) (at_right 0) (locally 0)).
      { apply scal_lim; [apply _|]. replace (5 / 2 - alpha / 2) with (3 / 2 - alpha / 2 + 1) by field. assert (K : filterlim (fun r => Kummer (3 / 2 - alpha / 2) (3 / 2 - alpha / 2 + 1) (- (r / rc) ^ 2)) (at_right 0) (locally 1)).
        { apply (filterlim_comp _ _ _ pc_x (fun y => Kummer (3 / 2 - alpha / 2) (3 / 2 - alpha / 2 + 1) (- y)) _ (at_right 0)); [exact pcx_zero|].
          assert (Q : continuous (fun x => Kummer (3 / 2 - alpha / 2) (3 / 2 - alpha / 2 + 1) (- x)) 0). { apply (continuous_comp (fun x : RR => - x) (Kummer (3 / 2 - alpha / 2) (3 / 2 - alpha / 2 + 1))); [apply (ex_derive_continuous (V := R_NormedModule)); auto_derive; exact I|]. apply (ex_derive_continuous (V := R_NormedModule)). eexists. apply Kummer_derive. lra. }
          unfold continuous in Q. rewrite Ropp_0, Kummer_0 in Q by lra. intros P HP. specialize (Q P HP). destruct Q as [d Hd]. exists d. intros y Hy _. apply Hd. exact Hy. }
        assert (L : filterlim (fun r => rpow r (2 - alpha) * Kummer (3 / 2 - alpha / 2) (3 / 2 - alpha / 2 + 1) (- (r / rc) ^ 2)) (at_right 0) (locally (0 * 1))) by (apply (filterlim_comp_2 _ _ Rmult) with (1 := lim_rpow_right (2 - alpha) ltac:(lra)) (2 := K); apply (filterlim_mult (K := R_AbsRing) 0 1)).
        rewrite Rmult_0_l in L. exact L. }
      apply filterlim_ext_loc with (2 := sum_lim _ _ _ _ _ _ L1 L2). generalize right_pos. apply filter_imp. intros r Hr. rewrite (pc_rev_eq r Hr). unfold PC_mass, sp_hyp1f1. replace (3 - alpha) with (2 - alpha + 1) by ring. rewrite rpow_plus, rpow_1 by exact Hr. generalize (Kummer (3 / 2 - alpha / 2) (5 / 2 - alpha / 2) (- (r / rc) ^ 2)). intros K. rr. field. lra.
    Qed.
  End Pot.
  (** the class in cylindrical coordinates *)
  Definition pc_sph : PotC := Spherical (fun r _ => PC_rev alpha rc r) (fun r _ => pc_F r) (fun r _ => pc_D2 r) (Some (fun r _ => pc_rho r)).
  Lemma rpow_5 x : 0 < x -> rpow x 5 = x ^ 5.
  Proof. intros Hx. unfold rpow. replace 5 with (INR 5) by (cbn; ring). apply Rpower_pow. exact Hx. Qed.
  Lemma pc_class R z phi t : DOrigin R z ->
    c_Rf (PowerSphericalwCutoff alpha rc) R z phi t = c_Rf pc_sph R z phi t /\ c_zf (PowerSphericalwCutoff alpha rc) R z phi t = c_zf pc_sph R z phi t /\
    PC_R2 alpha rc R z = pc_D2 (Sph_r R z) * R ^ 2 / Sph_r R z ^ 2 - pc_F (Sph_r R z) * z ^ 2 / Sph_r R z ^ 3 /\
    PC_z2 alpha rc R z = pc_D2 (Sph_r R z) * z ^ 2 / Sph_r R z ^ 2 - pc_F (Sph_r R z) * R ^ 2 / Sph_r R z ^ 3 /\
    PC_Rz alpha rc R z = pc_D2 (Sph_r R z) * R * z / Sph_r R z ^ 2 + pc_F (Sph_r R z) * R * z / Sph_r R z ^ 3.
  Proof.
    intros HO. pose proof (DO_pos _ _ HO) as Hq. cbn [c_Rf c_zf PowerSphericalwCutoff pc_sph Spherical mkAxi]. unfold PC_Rf, PC_zf, PC_R2, PC_z2, PC_Rz, PC_r, Sph_r, pc_F, pc_D2, pc_rho. pose proof (sqrt_lt_R0 _ Hq) as Hs. set (s := sqrt (R ^ 2 + z ^ 2)) in *.
    rewrite rpow_3, rpow_5 by exact Hs. replace (- 2 - alpha) with (- (2 + alpha)) by ring. rewrite rpow_opp, rpow_plus, rpow_2 by exact Hs. pose proof (rpow_pos s alpha). generalize (PC_mass alpha rc s). intros M. generalize (exp (- (s / rc) ^ 2)). intros e. splits; rr; field; lra.
  Qed.
  Lemma pc_sph_ok : alpha < 2 -> ClassOK (DSph (fun r _ => 0 < r)) (PowerSphericalwCutoff alpha rc).
  Proof.
    intros Ha2. pose proof (pc_grav Ha2) as G.
    assert (F : is_force_field (DSph (fun r _ => 0 < r)) (c_ev pc_sph) (c_Rf pc_sph) (c_zf pc_sph) zero4) by (apply sph_force; [auto|intros r t Hr; apply (G r Hr I)]).
    destruct (sph_hess (fun r _ => PC_rev alpha rc r) (fun r _ => pc_F r) (fun r _ => pc_D2 r) (Some (fun r _ => pc_rho r)) (fun r _ => 0 < r) ltac:(auto) ltac:(intros r t Hr; apply (G r Hr I))) as (a & b & e & E1 & E2 & E3 & HH).
    assert (SO : slice_open (DSph (fun r _ => 0 < r))) by (apply slice_open_sph; intros r t0 Hr; apply pos_near; exact Hr).
    split; intros amp.
    - apply class_forces with (Fp := zero4); [right; repeat split|]. intros R z phi t HD. destruct (F R z phi t HD) as (H1 & H2 & H3). destruct (pc_class R z phi t (proj1 HD)) as (C1 & C2 & _). rewrite C1, C2. split; [exact H1|split; [exact H2|exact H3]].
    - cbn in E1, E2, E3. injection E1 as <-. injection E2 as <-. injection E3 as <-.
      eapply class_hess; [reflexivity|reflexivity|reflexivity|]. intros R z phi t HD. destruct (HH R z phi t HD) as (H1 & H2 & H3 & H4). destruct (pc_class R z phi t (proj1 HD)) as (_ & _ & C3 & C4 & C5). cbv beta. rewrite C3, C4, C5. destruct (SO R z phi t HD) as (S1 & S2 & _). split; [|split; [|split]].
      + apply is_derive_ext_loc with (2 := H1). apply filter_imp with (2 := S1). intros x Hx. f_equal. symmetry. apply (pc_class x z phi t). apply Hx.
      + apply is_derive_ext_loc with (2 := H2). apply filter_imp with (2 := S2). intros x Hx. f_equal. symmetry. apply (pc_class R x phi t). apply Hx.
      + apply is_derive_ext_loc with (2 := H3). apply filter_imp with (2 := S2). intros x Hx. f_equal. symmetry. apply (pc_class R x phi t). apply Hx.
      + apply is_derive_ext_loc with (2 := H4). apply filter_imp with (2 := S1). intros x Hx. f_equal. symmetry. apply (pc_class x z phi t). apply Hx.
    - apply class_azi; [discriminate|]. intros R z phi t HD. cbn. unfold zero4. splits; apply is_derive_cst.
  Qed.
End Cut.
