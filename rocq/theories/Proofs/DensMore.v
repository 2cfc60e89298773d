(** Catalogue facts, derivatives of the densities, the interpolated potential and two witnesses: proofs. *)
From Coq Require Import Reals Lra Lia.
From Coquelicot Require Import Coquelicot.
From Verif.Lib Require Import RealAux.
From Verif.Model Require Import PotAPI PotAxi PotSpecial.
From Verif.Spec Require Import PotSpec PotApiSpec JeansSpec DensSpec.
From Verif.Proofs Require Import AxiProofs AxiProofs2 AxiProofs3 PotLift MassProofs NonAxiProofs JeansProofs Improper SpecialProofs DensProofs DensClasses DensCut DensTrunc.
Open Scope R_scope.
Notation RR := RbaseSymbolsImpl.R (only parsing).
Ltac rr := match goal with |- ?a = ?b => change (@eq RR a b) end.

(** ** any radial gravity gives a correct spherical class *)
Lemma grav_class (D : RR -> Prop) (rho Phi F D2 M : RR -> RR) : (forall r, D r -> locally r D) -> gravity_of D rho Phi F D2 M ->
  ClassOK (DSph (fun r _ => 0 < r /\ D r)) (Spherical (fun r _ => Phi r) (fun r _ => F r) (fun r _ => D2 r) (Some (fun r _ => rho r))) /\
  forall amp, density_is_source (DSph (fun r _ => 0 < r /\ D r)) (Single amp (Spherical (fun r _ => Phi r) (fun r _ => F r) (fun r _ => D2 r) (Some (fun r _ => rho r)))).
Proof.
  intros HO G. split.
  - apply Spherical_ok; [intros r t H; apply H|intros r t [Hr HD]; apply (G r Hr HD)|intros r t [Hr HD]; apply (G r Hr HD)].
  - intros amp. apply Spherical_density; [intros r t H; apply H|intros r t [Hr HD]; apply (G r Hr HD)|intros r t [Hr HD]; apply (G r Hr HD)| |].
    + intros f r t E [Hr HD]. injection E as <-. apply (G r Hr HD).
    + apply slice_open_sph. intros r t [Hr HD]. apply filter_and; [apply pos_near; exact Hr|apply HO; exact HD].
Qed.
(** ** cut-off power law *)
Lemma pc_density alpha rc amp : 0 < rc -> alpha < 2 -> density_is_source (DSph (fun r _ => 0 < r)) (Single amp (PowerSphericalwCutoff alpha rc)).
Proof.
  intros Hrc Ha. eapply class_density; try reflexivity; auto.
  - apply slice_open_sph. intros r t Hr. apply pos_near. exact Hr.
  - apply pc_sph_ok; lra.
  - intros R z phi t (HO & Hr) HR. destruct (pc_class alpha rc R z phi t HO) as (C1 & _ & C3 & C4 & _). rewrite C1. cbn [PowerSphericalwCutoff mkAxi c_p2 or0]. unfold zero4. rewrite C3, C4. cbn [pc_sph Spherical c_Rf]. unfold pc_D2, pc_F, PC_dens, PC_r, pc_rho, Sph_r. pose proof (DO_pos _ _ HO) as Hq. pose proof (sqrt_sqrt _ (Rlt_le _ _ Hq)) as Es. pose proof (sqrt_lt_R0 _ Hq) as Hs. set (s := sqrt (R ^ 2 + z ^ 2)) in *.
    generalize (PC_mass alpha rc s). intros M. generalize (1 / rpow s alpha * exp (- (s / rc) ^ 2)). intros e. assert (Ez : z ^ 2 = s * s - R ^ 2) by lra. rewrite Ez. rr. field. lra.
Qed.
Lemma pc_rho_at R z alpha rc : PC_dens alpha rc R z = pc_rho alpha rc (PC_r R z). Proof. reflexivity. Qed.
Lemma pc_documented amp r1 alpha rc r : 0 < r1 -> 0 < r -> PC_amp amp r1 alpha * pc_rho alpha rc r = cutoff_density amp r1 alpha rc r.
Proof. intros H1 Hr. unfold PC_amp, pc_rho, cutoff_density. rewrite rpow_div by assumption. pose proof (rpow_pos r alpha). field. lra. Qed.
Lemma pc_slope alpha rc amp r : 0 < rc -> 0 < r -> is_derive (fun x => amp * pc_rho alpha rc x) r (PC_ddensdr alpha rc amp r).
Proof.
  intros Hrc Hr. unfold pc_rho, PC_ddensdr. assert (D1 : is_derive (fun x => rpow x (- alpha)) r (- alpha * rpow r (- alpha - 1) * 1)) by (apply (is_derive_rpow (fun x => x)); [exact Hr|exact (is_derive_id (K := R_AbsRing) r)]).
  assert (D2 : is_derive (fun x => exp (- (x / rc) ^ 2)) r (- (2 * r / rc ^ 2) * exp (- (r / rc) ^ 2))) by (auto_derive; [exact I|]; unfold Rdiv; field; lra).
  pose proof (is_derive_Rscal _ _ amp _ (is_derive_Rmult _ _ _ _ _ D1 D2)) as D. eapply is_derive_ext_loc; [|eapply is_derive_eq; [exact D|]].
  - apply filter_imp with (2 := pos_near r Hr). intros x Hx. cbv beta. rewrite rpow_opp. pose proof (rpow_pos x alpha). rr. field. lra.
  - replace (- 1 - alpha) with (- alpha - 1) by ring. rewrite (rpow_minus r (- alpha) 1), (rpow_1 r Hr). rr. field. lra.
Qed.
Lemma pc_curve alpha rc amp r : 0 < rc -> 0 < r -> is_derive (PC_ddensdr alpha rc amp) r (PC_d2densdr2 alpha rc amp r).
Proof.
  intros Hrc Hr. unfold PC_ddensdr, PC_d2densdr2. assert (D1 : is_derive (fun x => rpow x (-1 - alpha)) r ((-1 - alpha) * rpow r (-1 - alpha - 1) * 1)) by (apply (is_derive_rpow (fun x => x)); [exact Hr|exact (is_derive_id (K := R_AbsRing) r)]).
  assert (D2 : is_derive (fun x => exp (- (x / rc) ^ 2) * (2 * x ^ 2 / rc ^ 2 + alpha)) r (exp (- (r / rc) ^ 2) * (- (2 * r / rc ^ 2) * (2 * r ^ 2 / rc ^ 2 + alpha) + 4 * r / rc ^ 2))) by (auto_derive; [exact I|]; unfold Rdiv; field; lra).
  pose proof (is_derive_Rscal _ _ (- amp) _ (is_derive_Rmult _ _ _ _ _ D1 D2)) as D. eapply is_derive_ext; [|eapply is_derive_eq; [exact D|]].
  - intros x. cbv beta. rr. ring.
  - replace (- 2 - alpha) with (-1 - alpha - 1) by ring. rewrite (rpow_minus r (-1 - alpha) 1), (rpow_1 r Hr). rr. field. lra.
Qed.
Lemma pc_twobeta alpha rc amp beta r : 0 < rc -> 0 < r -> is_derive (fun x => amp * pc_rho alpha rc x * rpow x (2 * beta)) r (PC_ddenstwobetadr alpha rc amp beta r).
Proof.
  intros Hrc Hr. pose proof (is_derive_Rmult _ _ _ _ _ (pc_slope alpha rc amp r Hrc Hr) (is_derive_rpow (fun x => x) (2 * beta) r 1 Hr (is_derive_id (K := R_AbsRing) r))) as D. apply (is_derive_eq _ _ _ _ D). cbv beta. unfold PC_ddensdr, PC_ddenstwobetadr, pc_rho.
  rewrite (rpow_minus r (2 * beta) 1), (rpow_1 r Hr), (rpow_minus r alpha (2 * beta)). replace (-1 - alpha) with (- (1 + alpha)) by ring. rewrite rpow_opp, rpow_plus, (rpow_1 r Hr). pose proof (rpow_pos r alpha). pose proof (rpow_pos r (2 * beta)). rr. field. lra.
Qed.
Lemma pc_jax alpha rc amp r : 0 < rc -> alpha < 3 -> 0 < r -> PC_rforce_jax alpha rc amp r = amp * (- PC_mass alpha rc r / r ^ 2).
Proof.
  intros Hrc Ha Hr. rewrite pc_mass_eq by assumption. unfold PC_rforce_jax, sp_gammainc, sp_gamma. replace (3 / 2 - 1 / 2 * alpha) with (3 / 2 - alpha / 2) by field. pose proof (g_pos (3 / 2 - alpha / 2) ltac:(lra)). unfold pc_x. rr. field. lra.
Qed.
(** ** truncated NFW *)
Section TruncMore.
  Variables a rc : RR.
  Hypothesis Ha : 0 < a.
  Hypothesis Hrc : 0 < rc.
  Lemma et_flat r : 0 < r -> ET_rdens a rc r = / (4 * PI) * (exp (- r / rc) * / (r * (a + r) ^ 2)).
  Proof. intros Hr. unfold ET_rdens. pose proof PI_RGT_0. generalize (exp (- r / rc)). intros e. field. split; [lra|split; [lra|split; lra]]. Qed.
  Lemma et_flat_d r : 0 < r -> is_derive (fun r => exp (- r / rc) * / (r * (a + r) ^ 2)) r (- (exp (- r / rc) * / (r * (a + r) ^ 2)) * ET_g a rc r).
  Proof.
    intros Hr. unfold ET_g. auto_derive.
    - repeat split. apply Rmult_integral_contrapositive_currified; [lra|]. apply (pow_nonzero (a + r) 2). lra.
    - unfold Rdiv. field. lra.
  Qed.
  Lemma et_dens_d r : 0 < r -> is_derive (ET_rdens a rc) r (- ET_rdens a rc r * ET_g a rc r).
  Proof.
    intros Hr. eapply is_derive_ext_loc; [|eapply is_derive_eq; [apply (is_derive_Rscal _ _ (/ (4 * PI)) _ (et_flat_d r Hr))|]].
    - apply filter_imp with (2 := pos_near r Hr). intros x Hx. cbv beta. symmetry. apply et_flat. exact Hx.
    - rewrite et_flat by exact Hr. rr. ring.
  Qed.
  Lemma et_slope amp r : 0 < r -> is_derive (fun x => amp * ET_rdens a rc x) r (ET_ddensdr a rc amp r).
  Proof. intros Hr. apply (is_derive_eq _ _ _ _ (is_derive_Rscal _ _ amp _ (et_dens_d r Hr))). unfold ET_ddensdr. rr. ring. Qed.
  Lemma et_g_d r : 0 < r -> is_derive (ET_g a rc) r (- 1 / (r * r) - 2 / (a + r) ^ 2).
  Proof. intros Hr. unfold ET_g. auto_derive; [lra|]. field. lra. Qed.
  Lemma et_curve amp r : 0 < r -> is_derive (ET_ddensdr a rc amp) r (ET_d2densdr2 a rc amp r).
  Proof.
    intros Hr. pose proof (is_derive_Rscal _ _ (- amp) _ (is_derive_Rmult _ _ _ _ _ (et_dens_d r Hr) (et_g_d r Hr))) as D. eapply is_derive_ext; [|eapply is_derive_eq; [exact D|]].
    - intros x. cbv beta. unfold ET_ddensdr. rr. ring.
    - unfold ET_d2densdr2. rr. ring.
  Qed.
  Lemma et_twobeta amp beta r : 0 < r -> is_derive (fun x => amp * ET_rdens a rc x * rpow x (2 * beta)) r (ET_ddenstwobetadr a rc amp beta r).
  Proof.
    intros Hr. pose proof (is_derive_Rmult _ _ _ _ _ (et_slope amp r Hr) (is_derive_rpow (fun x => x) (2 * beta) r 1 Hr (is_derive_id (K := R_AbsRing) r))) as D. apply (is_derive_eq _ _ _ _ D). cbv beta. unfold ET_ddensdr, ET_ddenstwobetadr, ET_g. rewrite (rpow_minus r (2 * beta) 1), (rpow_1 r Hr). replace (amp * exp (- r / rc) / (4 * PI * a * a * r * (1 + r / a) ^ 2)) with (amp * ET_rdens a rc r) by (unfold ET_rdens, Rdiv; ring). generalize (ET_rdens a rc r). intros e. rr. field. lra.
  Qed.
  Lemma et_series_near (P : RR -> Prop) : at_right 0 (fun r => 0 < r < ET_thresh a rc).
  Proof. pose proof (th_pos a rc Ha Hrc) as Ht. exists (mkposreal _ Ht). intros y Hy H0. split; [exact H0|]. apply Rabs_lt_between in Hy. unfold minus, plus, opp in Hy; cbn in Hy. lra. Qed.
  Lemma cont_right (f : RR -> RR) : continuous f 0 -> filterlim f (at_right 0) (locally (f 0)).
  Proof. intros Q P HP. specialize (Q P HP). destruct Q as [d Hd]. exists d. intros y Hy _. apply Hd. exact Hy. Qed.
  Lemma et_force_centre : at_centre (ET_rforce a rc) (ET_rforce a rc 0).
  Proof.
    set (f := fun r => - (/ (a * a) * (ET_c2 + r * (ET_c3 a rc + r * (ET_c4 a rc + r * ET_c5 a rc))))). assert (Q : continuous f 0) by (apply (ex_derive_continuous (V := R_NormedModule)); unfold f; auto_derive; exact I).
    apply cont_right in Q. replace (f 0) with (ET_rforce a rc 0) in Q. 2:{ unfold f, ET_rforce, ET_c2. destruct (Req_EM_T 0 0) as [_|N]; [field; lra|congruence]. }
    unfold at_centre. apply filterlim_ext_loc with (2 := Q). apply filter_imp with (2 := et_series_near (fun _ => True)). intros r [Hr Ht]. unfold f, ET_rforce, ET_F, ET_F_series. destruct (Req_EM_T r 0) as [E|_]; [lra|]. destruct (Rlt_dec r (ET_thresh a rc)) as [_|N]; [|lra]. rr. field. lra.
  Qed.
  Lemma et_phi_centre : at_centre (ET_revaluate a rc) (ET_revaluate a rc 0).
  Proof.
    set (f := fun r => - (r / (a * a) * (ET_c2 + r * (ET_c3 a rc + r * (ET_c4 a rc + r * ET_c5 a rc))))). assert (Q : continuous f 0) by (apply (ex_derive_continuous (V := R_NormedModule)); unfold f; auto_derive; exact I).
    apply cont_right in Q. replace (f 0) with 0 in Q by (unfold f; field; lra).
    assert (G : filterlim (fun r => -1 * (ET_G a rc r - ET_G a rc 0)) (at_right 0) (locally 0)).
    { apply scal_lim; [apply _|]. apply shift_lim; [apply _|]. apply cont_right. apply (ex_derive_continuous (V := R_NormedModule)). eexists. apply G_d; lra. }
    pose proof (sum_lim _ _ _ _ _ _ (filterlim_const (F := at_right 0) (- ET_G a rc 0)) (sum_lim _ _ _ _ _ _ Q G)) as L. cbv beta in L. rewrite !Rplus_0_r in L.
    unfold at_centre. replace (ET_revaluate a rc 0) with (- ET_G a rc 0) by (unfold ET_revaluate; destruct (Req_EM_T 0 0); [reflexivity|congruence]). apply filterlim_ext_loc with (2 := L). apply filter_imp with (2 := et_series_near (fun _ => True)). intros r [Hr Ht]. unfold f, ET_revaluate, ET_F, ET_F_series. destruct (Req_EM_T r 0) as [E|_]; [lra|]. destruct (Rlt_dec r (ET_thresh a rc)) as [_|N]; [|lra]. rr. field. lra.
  Qed.
  Lemma et_tot_pos : 0 < ET_Ftot a rc. Proof. apply (fal_pos (ET_alpha a rc)). apply al_pos; assumption. Qed.
  Lemma et_given_mass amp m : ET_amp a rc amp (Some m) * ET_Ftot a rc = m.
  Proof. unfold ET_amp. pose proof et_tot_pos. field. lra. Qed.
  Lemma et_nfw amp r : 0 < r -> amp * ET_rdens a rc r = nfw_density amp a r * exp (- r / rc).
  Proof. intros Hr. unfold ET_rdens, nfw_density. pose proof PI_RGT_0. generalize (exp (- r / rc)). intros e. field. split; [lra|split; [lra|split; lra]]. Qed.
End TruncMore.
Lemma ln10 : ln 10 < 5 / 2.
Proof.
  apply exp_lt_inv. rewrite exp_ln by lra. replace (5 / 2) with (20 * (1 / 8)) by field.
  assert (E : exp (1 / 8) > 1 + 1 / 8) by (apply exp_ineq1; lra). assert (P : (1 + 1 / 8) ^ 20 <= exp (1 / 8) ^ 20) by (apply pow_incr; lra).
  assert (K : exp (20 * (1 / 8)) = exp (1 / 8) ^ 20). { replace 20 with (INR 20) at 1 by (rewrite INR_IZR_INZ; reflexivity). rewrite <- (Rpower_pow 20 (exp (1 / 8)) (exp_pos _)). unfold Rpower. rewrite ln_exp. reflexivity. }
  rewrite K. lra.
Qed.
Lemma fal_small : ET_Fal (rpow 10 (- 150)) < 400.
Proof.
  set (x := rpow 10 (- 150)). assert (X0 : 0 < x) by apply rpow_pos. assert (Lx : ln x = - 150 * ln 10) by (unfold x, rpow, Rpower; apply ln_exp).
  assert (L10 : 0 < ln 10) by (rewrite <- ln_1; apply ln_increasing; lra). assert (L1 : 1 <= ln 10). { apply Rnot_lt_le. intros H. apply exp_increasing in H. rewrite exp_ln in H by lra. pose proof exp_le_3. lra. }
  assert (X1 : x <= / 100). { apply Rnot_lt_le. intros H. apply ln_increasing in H; [|lra]. rewrite Lx, ln_Rinv in H by lra. replace 100 with (10 * 10) in H by ring. rewrite ln_mult in H by lra. lra. }
  pose proof (e1_small x ltac:(lra)) as [_ U]. pose proof (e1_up 1 Rlt_0_1) as U1. assert (E1 : ExpInt 1 < 1). { assert (1 < exp 1) by (pose proof (exp_ineq1 1 ltac:(lra)); lra). pose proof (e1_pos 1 Rlt_0_1). assert (1 * ExpInt 1 <= exp 1 * ExpInt 1) by (apply Rmult_le_compat_r; lra). lra. }
  pose proof ln10. assert (U2 : ExpInt x <= 376) by lra. pose proof (e1_pos x X0).
  assert (Ex : exp x <= 100 / 99). { pose proof (exp_t2 x ltac:(lra)) as T. rewrite exp_Ropp in T. pose proof (exp_pos x) as Q. assert (T2 : (1 - x) * exp x <= 1). { apply Rle_trans with (/ exp x * exp x); [apply Rmult_le_compat_r; lra|rewrite Rinv_l; lra]. } assert (99 / 100 * exp x <= (1 - x) * exp x) by (apply Rmult_le_compat_r; lra). lra. }
  assert (exp x * (1 + x) <= 100 / 99 * (101 / 100)) by (pose proof (exp_pos x); apply Rmult_le_compat; lra). unfold ET_Fal, sp_exp1. assert (exp x * (1 + x) * ExpInt x <= 100 / 99 * (101 / 100) * 376) by (pose proof (exp_pos x); apply Rmult_le_compat; try lra; apply Rmult_le_pos; lra). lra.
Qed.
(** ** interpolated potential *)
Lemma glue (f g : RR -> RR) m d : is_derive f m d -> is_derive g m d -> f m = g m -> is_derive (fun r => if Rle_dec m r then g r else f r) m d.
Proof.
  intros Df Dg E. apply is_derive_Reals in Df. apply is_derive_Reals in Dg. apply is_derive_Reals. intros eps He. destruct (Df eps He) as [d1 H1]. destruct (Dg eps He) as [d2 H2].
  exists (mkposreal (Rmin d1 d2) (Rmin_pos _ _ (cond_pos d1) (cond_pos d2))). intros h Hh Hd. cbn in Hd. assert (Rabs h < d1) by (eapply Rlt_le_trans; [exact Hd|apply Rmin_l]). assert (Rabs h < d2) by (eapply Rlt_le_trans; [exact Hd|apply Rmin_r]).
  destruct (Rle_dec m m) as [_|N]; [|lra]. destruct (Rle_dec m (m + h)); [apply H2; assumption|rewrite <- E; apply H1; assumption].
Qed.
Section Interp.
  Variables S P DS : RR -> RR.
  Variables rmin rmax Phi0 : RR.
  Hypothesis Hmax : 0 < rmax.
  Hypothesis HP : forall r, is_derive P r (S r).
  Hypothesis HS : forall r, is_derive S r (DS r).
  Hypothesis CD : forall r, continuous DS r.
  Let rev := IS_rev S P rmin rmax Phi0.
  Let F := IS_rforce S rmax.
  Let D2 := IS_r2deriv S DS rmax.
  Let rho := IS_rdens S DS rmax.
  Lemma is_out_d r : 0 < r -> is_derive (fun r => - IS_total_mass S rmax / r + IS_Phimax S P rmin rmax Phi0) r (IS_total_mass S rmax / r ^ 2).
  Proof. intros Hr. auto_derive; [lra|]. field. lra. Qed.
  Lemma is_in_d r : is_derive (fun r => - P r + IS_Phi0 P rmin Phi0) r (- S r).
  Proof. apply (is_derive_eq _ _ (plus (opp (S r)) 0)); [|unfold plus, opp; cbn; rr; ring]. apply (is_derive_plus (fun r => - P r) (fun _ => IS_Phi0 P rmin Phi0)); [apply (is_derive_opp P); apply HP|apply (is_derive_const (V := R_NormedModule) (IS_Phi0 P rmin Phi0))]. Qed.
  Lemma below r : r < rmax -> locally r (fun x => x < rmax). Proof. intros H. apply (open_lt rmax r H). Qed.
  Lemma above r : rmax < r -> locally r (fun x => rmax < x). Proof. intros H. apply (open_gt rmax r H). Qed.
  Lemma is_force r : 0 < r -> is_derive rev r (- F r).
  Proof.
    intros Hr. unfold rev, F, IS_rforce. destruct (Rlt_dec r rmax) as [L|L].
    - destruct (Rle_dec rmax r) as [X|_]; [lra|]. apply is_derive_ext_loc with (2 := is_in_d r). apply filter_imp with (2 := below r L). intros x Hx. unfold IS_rev. destruct (Rle_dec rmax x); [lra|reflexivity].
    - destruct (Rle_dec rmax r) as [_|X]; [|lra]. destruct (Req_dec r rmax) as [->|N].
      + unfold IS_rev. apply (glue (fun r => - P r + IS_Phi0 P rmin Phi0) (fun r => - IS_total_mass S rmax / r + IS_Phimax S P rmin rmax Phi0)).
        * apply (is_derive_eq _ _ _ _ (is_in_d rmax)). unfold IS_total_mass. rr. field. lra.
        * apply (is_derive_eq _ _ _ _ (is_out_d rmax Hmax)). rr. field. lra.
        * unfold IS_Phimax. rr. field. lra.
      + apply (is_derive_ext_loc (fun r => - IS_total_mass S rmax / r + IS_Phimax S P rmin rmax Phi0)); [|apply (is_derive_eq _ _ _ _ (is_out_d r Hr)); rr; field; lra]. apply filter_imp with (2 := above r ltac:(lra)). intros x Hx. unfold IS_rev. destruct (Rle_dec rmax x); [reflexivity|lra].
  Qed.
  Lemma is_hess r : 0 < r -> r <> rmax -> is_derive (fun x => - F x) r (D2 r).
  Proof.
    intros Hr N. unfold D2, F, IS_r2deriv. destruct (Rle_dec rmax r) as [X|X].
    - apply (is_derive_ext_loc (fun x => IS_total_mass S rmax / x ^ 2)).
      + apply filter_imp with (2 := above r ltac:(lra)). intros x Hx. unfold IS_rforce. destruct (Rle_dec rmax x); [|lra]. rr. field. lra.
      + auto_derive; [apply (pow_nonzero r 2); lra|]. field. lra.
    - apply (is_derive_ext_loc (fun x => - S x)).
      + apply filter_imp with (2 := below r ltac:(lra)). intros x Hx. unfold IS_rforce. destruct (Rle_dec rmax x); [lra|reflexivity].
      + apply (is_derive_opp S). apply HS.
  Qed.
  Lemma is_poisson r : 0 < r -> D2 r - 2 * F r / r = 4 * PI * rho r.
  Proof.
    intros Hr. pose proof PI_RGT_0. unfold D2, F, rho, IS_rdens, IS_r2deriv, IS_rforce. destruct (Rle_dec rmax r); field; lra.
  Qed.
  Definition is_M (r : RR) : RR := r ^ 2 * (- F r).
  Lemma is_mass_in r : 0 < r -> r < rmax -> is_RInt_gen (fun s => 4 * PI * s ^ 2 * rho s) (at_right 0) (at_point r) (is_M r).
  Proof.
    intros Hr Hm. pose proof PI_RGT_0. set (h := fun s => s ^ 2 * (- DS s - 2 * S s / s)).
    assert (L : is_RInt_gen h (at_right 0) (at_point r) (r ^ 2 * (- S r))).
    { apply (low_ftc h (fun r => r ^ 2 * (- S r))); [| | |exact Hr].
      - intros x Hx. unfold h. apply (continuous_mult (K := R_AbsRing) (fun s => s ^ 2)); [apply (ex_derive_continuous (V := R_NormedModule)); auto_derive; exact I|]. apply (continuous_minus (V := R_NormedModule) (fun s => - DS s) (fun s => 2 * S s / s)); [apply (continuous_opp (V := R_NormedModule)); apply CD|]. apply (continuous_mult (K := R_AbsRing) (fun s => 2 * S s) (fun s => / s)); [apply (continuous_mult (K := R_AbsRing) (fun _ => 2) S); [apply continuous_const|apply (ex_derive_continuous (V := R_NormedModule)); eexists; apply HS]|]. apply (ex_derive_continuous (V := R_NormedModule)). auto_derive. lra.
      - intros x Hx. assert (D1 : is_derive (fun r : RR => r ^ 2) x (2 * x)) by (auto_derive; [exact I|]; ring). pose proof (is_derive_Rmult _ _ _ _ _ D1 (is_derive_opp S x _ (HS x))) as D. apply (is_derive_eq _ _ _ _ D). unfold h, opp; cbn -[pow]. rr. field. lra.
      - assert (C0 : continuous (fun r => r ^ 2 * - S r) 0). { apply (continuous_mult (K := R_AbsRing) (fun s => s ^ 2) (fun r => - S r)); [apply (ex_derive_continuous (V := R_NormedModule)); auto_derive; exact I|]. apply (continuous_opp (V := R_NormedModule)). apply (ex_derive_continuous (V := R_NormedModule)). eexists. apply HS. }
        apply cont_right in C0. replace (0 ^ 2 * - S 0) with 0 in C0 by ring. exact C0. }
    assert (E : is_M r = r ^ 2 * - S r) by (unfold is_M, F, IS_rforce; destruct (Rle_dec rmax r); [lra|reflexivity]). rewrite E.
    apply (is_RInt_gen_ext h); [|exact L]. exists (fun x => 0 < x < rmax) (fun x => x = r); [exists (mkposreal rmax Hmax); intros y Hy H0; split; [exact H0|]; apply Rabs_lt_between in Hy; unfold minus, plus, opp in Hy; cbn in Hy; lra|reflexivity|]. intros x y Hx -> s Hs. cbn in Hs. assert (S0 : 0 < s) by (destruct Hs as [Hs _]; eapply Rle_lt_trans; [|exact Hs]; apply Rmin_glb; lra).
    assert (S1 : s < rmax) by (destruct Hs as [_ Hs]; eapply Rlt_le_trans; [exact Hs|]; apply Rmax_lub; lra). unfold h, rho, IS_rdens, IS_r2deriv, IS_rforce. destruct (Rle_dec rmax s) as [X|X]; [lra|rr; field; lra].
  Qed.
  Lemma is_gravity : gravity_of (fun r => r < rmax) rho rev F D2 is_M.
  Proof. intros r Hr Hm. split; [apply is_force; exact Hr|split; [apply is_hess; lra|split; [apply is_poisson; exact Hr|split; [reflexivity|apply is_mass_in; assumption]]]]. Qed.
  Lemma is_kepler r : rmax <= r -> rho r = 0 /\ is_M r = IS_total_mass S rmax.
  Proof. intros H. unfold rho, is_M, F, IS_rdens, IS_rforce. destruct (Rle_dec rmax r) as [_|X]; [|lra]. split; [reflexivity|]. field. lra. Qed.
  Lemma is_mass_cont : filterlim is_M (locally rmax) (locally (IS_total_mass S rmax)).
  Proof.
    assert (CI : continuous (fun r => r ^ 2 * - S r) rmax). { apply (continuous_mult (K := R_AbsRing) (fun s => s ^ 2) (fun r => - S r)); [apply (ex_derive_continuous (V := R_NormedModule)); auto_derive; exact I|]. apply (continuous_opp (V := R_NormedModule)). apply (ex_derive_continuous (V := R_NormedModule)). eexists. apply HS. }
    intros Q HQ. assert (HQ' : locally (rmax ^ 2 * - S rmax) Q) by (replace (rmax ^ 2 * - S rmax) with (IS_total_mass S rmax) by (unfold IS_total_mass; ring); exact HQ). specialize (CI Q HQ'). unfold filtermap in *. apply (filter_imp (fun r => Q (r ^ 2 * - S r))); [|exact CI]. intros x Hx. destruct (Rle_dec rmax x) as [X|X].
    - rewrite (proj2 (is_kepler x X)). apply locally_singleton. exact HQ.
    - unfold is_M, F, IS_rforce. destruct (Rle_dec rmax x); [lra|exact Hx].
  Qed.
  Lemma is_rmin : rmin < rmax -> rev rmin = Phi0.
  Proof. intros H. unfold rev, IS_rev, IS_Phi0. destruct (Rle_dec rmax rmin); [lra|ring]. Qed.
  (** as good as the spline *)
  Lemma is_close (Phi f : RR -> RR) eps r : 0 < rmin -> rmin < rmax -> (forall x, rmin <= x <= rmax -> is_derive Phi x (- f x)) -> Phi rmin = Phi0 ->
    (forall x, rmin <= x <= rmax -> Rabs (S x - f x) <= eps) -> rmin <= r <= rmax -> Rabs (rev r - Phi r) <= eps * (r - rmin).
  Proof.
    intros H0 H1 DPhi E0 B Hr. destruct (Req_dec r rmin) as [->|N]; [rewrite is_rmin by exact H1; rewrite E0, Rminus_eq_0, Rabs_R0, Rminus_eq_0; lra|].
    assert (DD : forall x, rmin <= x <= rmax -> is_derive (fun x => rev x - Phi x) x (- (F x) - - f x)). { intros x Hx. apply (is_derive_minus rev Phi); [apply is_force; lra|apply DPhi; exact Hx]. }
    destruct (MVT_gen (fun x => rev x - Phi x) rmin r (fun x => - (F x) - - f x)) as (c & Hc & E).
    - intros x Hx. rewrite Rmin_left, Rmax_right in Hx by lra. apply DD. lra.
    - intros x Hx. rewrite Rmin_left, Rmax_right in Hx by lra. apply continuity_pt_filterlim. apply (ex_derive_continuous (V := R_NormedModule) (fun x => rev x - Phi x)). eexists. apply DD. lra.
    - rewrite Rmin_left, Rmax_right in Hc by lra. cbv beta in E. rewrite is_rmin, E0, Rminus_eq_0, Rminus_0_r in E by exact H1. rewrite E, Rabs_mult, (Rabs_pos_eq (r - rmin)) by lra. apply Rmult_le_compat_r; [lra|].
      replace (- F c - - f c) with (- (F c - f c)) by ring. rewrite Rabs_Ropp. assert (EF : F c = S c). { unfold F, IS_rforce. destruct (Rle_dec rmax c) as [X|X]; [|reflexivity]. assert (c = rmax) by lra. subst c. unfold IS_total_mass. field. lra. } rewrite EF. apply B. lra.
  Qed.
End Interp.

(** ** a density whose mass diverges although its potential is finite *)
Definition nfw_rho (r : RR) : RR := / (r * (1 + r) ^ 2).
Lemma nfw_cont : continuous_outside nfw_rho.
Proof. intros r Hr. apply (ex_derive_continuous (V := R_NormedModule)). unfold nfw_rho. auto_derive. apply Rmult_integral_contrapositive_currified; [lra|]. apply (pow_nonzero (1 + r) 2). lra. Qed.
Lemma nfw_m r : 0 < r -> is_RInt_gen (fun a => a ^ 2 * nfw_rho a) (at_right 0) (at_point r) (ln (1 + r) + / (1 + r) - 1).
Proof.
  intros Hr. apply (low_ftc _ (fun r => ln (1 + r) + / (1 + r) - 1)); [| | |exact Hr].
  - apply c_in. exact nfw_cont.
  - intros x Hx. unfold nfw_rho. auto_derive; [lra|]. field. lra.
  - assert (Q : continuous (fun r => ln (1 + r) + / (1 + r) - 1) 0) by (apply (ex_derive_continuous (V := R_NormedModule)); auto_derive; lra). apply cont_right in Q. replace (ln (1 + 0) + / (1 + 0) - 1) with 0 in Q by (rewrite Rplus_0_r, ln_1; field). exact Q.
Qed.
Lemma nfw_o : is_RInt_gen (fun a => nfw_rho a * a) (at_point 1) (Rbar_locally p_infty) (/ 2).
Proof.
  replace (/ 2) with (- - / (1 + 1)) by lra. apply (high_ftc _ (fun r => - / (1 + r))); [apply c_out; exact nfw_cont| | |lra].
  - intros x Hx. unfold nfw_rho. auto_derive; [lra|]. field. lra.
  - apply (filterlim_ext (fun x => -1 * (/ (1 + x)))); [intros; rr; ring|]. apply scal_lim; [apply _|]. apply (filterlim_comp _ _ _ (fun x => 1 + x) Rinv _ (Rbar_locally p_infty)); [|exact (filterlim_Rbar_inv p_infty ltac:(discriminate))]. intros P [M HM]. exists M. intros x Hx. apply HM. lra.
Qed.
Lemma nfw_diverges : filterlim (AS_rawmass nfw_rho) (Rbar_locally p_infty) (Rbar_locally p_infty).
Proof.
  intros P [M HM]. pose proof PI_RGT_0 as Hpi. exists (exp (Rabs M / (4 * PI) + 1)). intros x Hx. assert (X0 : 0 < x) by (eapply Rlt_trans; [apply exp_pos|exact Hx]). apply HM. unfold AS_rawmass. rewrite (is_RInt_gen_unique (V := R_CompleteNormedModule) (Fa := at_right 0) (Fb := at_point x) _ _ (nfw_m x X0)).
  assert (L : Rabs M / (4 * PI) + 1 < ln (1 + x)). { apply exp_lt_inv. rewrite exp_ln by lra. lra. } assert (0 < / (1 + x)) by (apply Rinv_0_lt_compat; lra). assert (K : Rabs M / (4 * PI) < ln (1 + x) + / (1 + x) - 1) by lra. apply Rle_lt_trans with (4 * PI * (Rabs M / (4 * PI))); [replace (4 * PI * (Rabs M / (4 * PI))) with (Rabs M) by (field; lra); apply Rle_abs|]. apply Rmult_lt_compat_l; lra.
Qed.
