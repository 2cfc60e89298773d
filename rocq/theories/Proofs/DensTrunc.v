(** The exponentially truncated NFW profile: proofs. *)
From Coq Require Import Reals Lra Lia.
From Coquelicot Require Import Coquelicot.
From Verif.Lib Require Import RealAux.
From Verif.Model Require Import PotAPI PotAxi PotSpecial.
From Verif.Spec Require Import JeansSpec DensSpec.
From Verif.Proofs Require Import MassProofs JeansProofs Improper SpecialProofs DensProofs DensClasses.
Open Scope R_scope.
Notation RR := RbaseSymbolsImpl.R (only parsing).
Ltac rr := match goal with |- ?a = ?b => change (@eq RR a b) end.

Lemma up_from_0 (f df : RR -> RR) x : 0 <= x -> f 0 = 0 -> (forall y, 0 <= y <= x -> is_derive f y (df y)) -> (forall y, 0 <= y <= x -> 0 <= df y) -> 0 <= f x.
Proof.
  intros Hx H0 D P. destruct (Req_dec x 0) as [->|N]; [lra|]. destruct (MVT_gen f 0 x df) as (c & Hc & E).
  - intros y Hy. rewrite Rmin_left, Rmax_right in Hy by lra. apply D. lra.
  - intros y Hy. rewrite Rmin_left, Rmax_right in Hy by lra. apply continuity_pt_filterlim. apply (ex_derive_continuous (V := R_NormedModule)). eexists. apply D. lra.
  - rewrite Rmin_left, Rmax_right in Hc by lra. rewrite H0 in E. specialize (P c Hc). assert (0 <= df c * (x - 0)) by (apply Rmult_le_pos; lra). lra.
Qed.
(** Taylor bounds of exp(-u). *)
Lemma exp_t1 u : 0 <= u -> exp (- u) <= 1. Proof. intros H. rewrite <- exp_0. destruct (Req_dec u 0) as [->|]; [rewrite Ropp_0; lra|apply Rlt_le, exp_increasing; lra]. Qed.
Lemma exp_t2 u : 0 <= u -> 0 <= exp (- u) - 1 + u.
Proof. intros H. apply (up_from_0 (fun u => exp (- u) - 1 + u) (fun u => 1 - exp (- u))); [exact H|rewrite Ropp_0, exp_0; ring| |]; intros y Hy; [auto_derive; [exact I|ring]|pose proof (exp_t1 y ltac:(lra)); lra]. Qed.
Lemma exp_t3 u : 0 <= u -> 0 <= - (exp (- u) - 1 + u - u ^ 2 / 2).
Proof. intros H. apply (up_from_0 (fun u => - (exp (- u) - 1 + u - u ^ 2 / 2)) (fun u => exp (- u) - 1 + u)); [exact H|rewrite Ropp_0, exp_0; field| |]; intros y Hy; [auto_derive; [exact I|field]|apply exp_t2; lra]. Qed.
Lemma exp_t4 u : 0 <= u -> 0 <= exp (- u) - 1 + u - u ^ 2 / 2 + u ^ 3 / 6.
Proof. intros H. apply (up_from_0 (fun u => exp (- u) - 1 + u - u ^ 2 / 2 + u ^ 3 / 6) (fun u => - (exp (- u) - 1 + u - u ^ 2 / 2))); [exact H|rewrite Ropp_0, exp_0; field| |]; intros y Hy; [auto_derive; [exact I|field]|apply exp_t3; lra]. Qed.
Lemma exp_t5 u : 0 <= u -> 0 <= u ^ 4 / 24 - (exp (- u) - 1 + u - u ^ 2 / 2 + u ^ 3 / 6).
Proof. intros H. apply (up_from_0 (fun u => u ^ 4 / 24 - (exp (- u) - 1 + u - u ^ 2 / 2 + u ^ 3 / 6)) (fun u => exp (- u) - 1 + u - u ^ 2 / 2 + u ^ 3 / 6)); [exact H|rewrite Ropp_0, exp_0; field| |]; intros y Hy; [auto_derive; [exact I|field]|apply exp_t4; lra]. Qed.
Section Trunc.
  Variables a rc : RR.
  Hypothesis Ha : 0 < a.
  Hypothesis Hrc : 0 < rc.
  Lemma al_pos : 0 < ET_alpha a rc. Proof. apply Rdiv_lt_0_compat; assumption. Qed.
  Lemma be_pos r : 0 <= r -> 0 < (a + r) / rc. Proof. intros Hr. apply Rdiv_lt_0_compat; lra. Qed.
  Lemma exp_split r : exp (ET_alpha a rc) * exp (- ((a + r) / rc)) = exp (- r / rc).
  Proof. rewrite <- exp_plus. f_equal. unfold ET_alpha. field. lra. Qed.
  Lemma e1b_d r : 0 <= r -> is_derive (fun y => ExpInt ((a + y) / rc)) r (- exp (- ((a + r) / rc)) / (a + r)).
  Proof.
    intros Hr. apply (is_derive_eq _ _ (- (exp (- ((a + r) / rc)) / ((a + r) / rc)) * / rc)); [|rr; field; split; lra]. apply (is_derive_Rchain ExpInt (fun y => (a + y) / rc)); [apply e1_derive; apply be_pos; exact Hr|]. auto_derive; [exact I|]. rr. field. lra.
  Qed.
  Lemma closed_d r : 0 <= r -> is_derive (ET_F_closed a rc) r (r * exp (- r / rc) / (a + r) ^ 2).
  Proof.
    intros Hr. pose proof (e1b_d r Hr) as D. unfold ET_F_closed, sp_exp1.
    assert (D2 : is_derive (fun r => a * exp (- r / rc) / (a + r)) r (a * (- exp (- r / rc) / rc / (a + r) - exp (- r / rc) / (a + r) ^ 2))) by (auto_derive; [lra|]; unfold Rdiv; field; lra).
    assert (D1 : is_derive (fun r => - (exp (ET_alpha a rc) * (1 + ET_alpha a rc)) * ExpInt ((a + r) / rc)) r (- (exp (ET_alpha a rc) * (1 + ET_alpha a rc)) * (- exp (- ((a + r) / rc)) / (a + r)))) by (apply is_derive_Rscal; exact D).
    pose proof (is_derive_Rplus _ _ _ _ _ D1 D2) as D3. eapply is_derive_ext; [|eapply is_derive_eq; [apply (shift_derive _ (- (exp (ET_alpha a rc) * (1 + ET_alpha a rc) * ExpInt (ET_alpha a rc) - 1)) _ _ D3)|]].
    - intros y. cbv beta. rr. ring.
    - transitivity ((1 + ET_alpha a rc) * (exp (ET_alpha a rc) * exp (- ((a + r) / rc))) / (a + r) + a * (- exp (- r / rc) / rc / (a + r) - exp (- r / rc) / (a + r) ^ 2)); [rr; field; lra|]. rewrite exp_split. unfold ET_alpha. rr. field. lra.
  Qed.
  Lemma closed_0 : ET_F_closed a rc 0 = 0.
  Proof. unfold ET_F_closed. replace ((a + 0) / rc) with (ET_alpha a rc) by (unfold ET_alpha; field; lra). replace (- 0 / rc) with 0 by (field; lra). rewrite exp_0. field. lra. Qed.
  Lemma dens_eq r : 0 < r -> 4 * PI * r ^ 2 * ET_rdens a rc r = r * exp (- r / rc) / (a + r) ^ 2.
  Proof. intros Hr. unfold ET_rdens. pose proof PI_RGT_0. generalize (exp (- r / rc)). intros e. field. split; [lra|split; [lra|split; lra]]. Qed.
  Lemma closed_mass_d r : 0 < r -> is_derive (ET_F_closed a rc) r (4 * PI * r ^ 2 * ET_rdens a rc r).
  Proof. intros Hr. rewrite dens_eq by exact Hr. apply closed_d. lra. Qed.
  Lemma closed_lim0 : filterlim (ET_F_closed a rc) (at_right 0) (locally 0).
  Proof.
    assert (Q : continuous (ET_F_closed a rc) 0) by (apply (ex_derive_continuous (V := R_NormedModule)); eexists; apply closed_d; lra). unfold continuous in Q. rewrite closed_0 in Q. intros P HP. specialize (Q P HP). destruct Q as [d Hd]. exists d. intros y Hy _. apply Hd. exact Hy.
  Qed.
  Lemma et_cont : continuous_outside (ET_rdens a rc).
  Proof.
    intros r Hr. apply (ex_derive_continuous (V := R_NormedModule)). unfold ET_rdens. auto_derive. pose proof PI_RGT_0. assert (0 < r / a) by (apply Rdiv_lt_0_compat; assumption). assert (P1 : r / a <> 0) by lra. assert (P2 : 1 + r / a <> 0) by lra. assert (P3 : a <> 0) by lra. assert (P4 : PI <> 0) by lra. assert (Ha3 : a ^ 3 <> 0) by (apply pow_nonzero; exact P3). repeat first [assumption | apply Rmult_integral_contrapositive_currified | exact R1_neq_R0 | lra | split].
  Qed.
  Lemma G_d r : 0 <= r -> is_derive (ET_G a rc) r (- exp (- r / rc) / (a + r) ^ 2).
  Proof.
    intros Hr. pose proof (e1b_d r Hr) as D. unfold ET_G, sp_exp1.
    assert (D2 : is_derive (fun r => exp (- r / rc) / (a + r)) r (- exp (- r / rc) / rc / (a + r) - exp (- r / rc) / (a + r) ^ 2)) by (auto_derive; [lra|]; unfold Rdiv; field; lra).
    assert (D1 : is_derive (fun r => - (exp (ET_alpha a rc) / rc) * ExpInt ((a + r) / rc)) r (- (exp (ET_alpha a rc) / rc) * (- exp (- ((a + r) / rc)) / (a + r)))) by (apply is_derive_Rscal; exact D).
    pose proof (is_derive_Rplus _ _ _ _ _ D1 D2) as D3. eapply is_derive_ext; [|eapply is_derive_eq; [exact D3|]].
    - intros y. cbv beta. rr. unfold Rdiv. ring.
    - transitivity ((exp (ET_alpha a rc) * exp (- ((a + r) / rc))) / rc / (a + r) + (- exp (- r / rc) / rc / (a + r) - exp (- r / rc) / (a + r) ^ 2)); [rr; field; lra|]. rewrite exp_split. rr. field. lra.
  Qed.
  Lemma G_d' r : 0 < r -> is_derive (ET_G a rc) r (- (4 * PI * r * ET_rdens a rc r)).
  Proof.
    intros Hr. apply (is_derive_eq _ _ _ _ (G_d r ltac:(lra))). pose proof (dens_eq r Hr) as E. replace (4 * PI * r * ET_rdens a rc r) with (4 * PI * r ^ 2 * ET_rdens a rc r / r) by (field; lra). rewrite E. rr. field. lra.
  Qed.
  Lemma be_inf : filterlim (fun r => (a + r) / rc) (Rbar_locally p_infty) (Rbar_locally p_infty).
  Proof. intros P [M HM]. exists (M * rc). intros x Hx. apply HM. apply (Rmult_lt_reg_r rc); [exact Hrc|]. replace ((a + x) / rc * rc) with (a + x) by (field; lra). lra. Qed.
  Lemma e1b_inf : filterlim (fun r => ExpInt ((a + r) / rc)) (Rbar_locally p_infty) (locally 0).
  Proof. apply (filterlim_comp _ _ _ (fun r => (a + r) / rc) ExpInt _ (Rbar_locally p_infty)); [exact be_inf|exact e1_lim]. Qed.
  Lemma expo_inf : filterlim (fun r => exp (- r / rc) / (a + r)) (Rbar_locally p_infty) (locally 0).
  Proof.
    assert (I : filterlim (fun x : RR => / x) (Rbar_locally p_infty) (locally 0)) by exact (filterlim_Rbar_inv p_infty ltac:(discriminate)).
    apply (filterlim_le_le (F := Rbar_locally p_infty) (fun _ => 0) _ (fun r => / r) (Finite 0)); [|apply filterlim_const|exact I].
    exists 0. intros r Hr. assert (0 < exp (- r / rc)) by apply exp_pos. assert (exp (- r / rc) <= 1) by (replace (- r / rc) with (- (r / rc)) by (field; lra); apply exp_t1; apply Rlt_le, Rdiv_lt_0_compat; assumption).
    split; [apply Rlt_le, Rdiv_lt_0_compat; lra|]. apply Rle_trans with (1 * / (a + r)); [apply Rmult_le_compat_r; [apply Rlt_le, Rinv_0_lt_compat; lra|assumption]|]. rewrite Rmult_1_l. apply Rinv_le_contravar; lra.
  Qed.
  Lemma G_inf : filterlim (ET_G a rc) (Rbar_locally p_infty) (locally 0).
  Proof.
    assert (L2 : filterlim (fun r => - (exp (ET_alpha a rc) / rc) * ExpInt ((a + r) / rc)) (Rbar_locally p_infty) (locally 0)) by (apply scal_lim; [apply _|exact e1b_inf]).
    pose proof (sum_lim _ _ _ _ _ _ expo_inf L2) as L. cbv beta in L. rewrite Rplus_0_r in L. revert L. apply filterlim_ext. intros r. unfold ET_G, sp_exp1. rr. unfold Rdiv. ring.
  Qed.
  Lemma closed_inf : at_infinity (ET_F_closed a rc) (ET_Ftot a rc).
  Proof.
    assert (L2 : filterlim (fun r => - (exp (ET_alpha a rc) * (1 + ET_alpha a rc)) * ExpInt ((a + r) / rc)) (Rbar_locally p_infty) (locally 0)) by (apply scal_lim; [apply _|exact e1b_inf]).
    assert (L3 : filterlim (fun r => a * (exp (- r / rc) / (a + r))) (Rbar_locally p_infty) (locally 0)) by (apply scal_lim; [apply _|exact expo_inf]).
    pose proof (sum_lim _ _ _ _ _ _ (filterlim_const (F := Rbar_locally p_infty) (ET_Ftot a rc)) (sum_lim _ _ _ _ _ _ L2 L3)) as L. cbv beta in L. rewrite !Rplus_0_r in L. unfold at_infinity. revert L. apply filterlim_ext. intros r. unfold ET_F_closed, ET_Ftot, sp_exp1. rr. unfold Rdiv. ring.
  Qed.
  (** the exact functions *)
  Definition et_Phi (r : RR) : RR := - ET_F_closed a rc r / r - ET_G a rc r.
  Definition et_F (r : RR) : RR := - ET_F_closed a rc r / r ^ 2.
  Definition et_D2 (r : RR) : RR := 4 * PI * ET_rdens a rc r - 2 * ET_F_closed a rc r / r ^ 3.
  Lemma et_grav : gravity_of (fun _ => True) (ET_rdens a rc) et_Phi et_F et_D2 (ET_F_closed a rc).
  Proof.
    apply grav_build; [exact et_cont|exact closed_mass_d|exact closed_lim0|reflexivity|reflexivity|]. intros r Hr. apply (shell_deriv (ET_rdens a rc)); [exact Hr|apply closed_mass_d; exact Hr|apply G_d'; exact Hr].
  Qed.
  Lemma et_shell : shell_potential (ET_rdens a rc) (ET_F_closed a rc) et_Phi.
  Proof.
    intros r Hr. exists (ET_G a rc r). split; [|reflexivity]. replace (ET_G a rc r) with (- - ET_G a rc r) by ring. apply (high_ftc _ (fun x => - ET_G a rc x)); [apply c_sout; exact et_cont| | |exact Hr].
    - intros x Hx. apply (is_derive_eq _ _ (- - (4 * PI * x * ET_rdens a rc x))); [|rr; ring]. apply (is_derive_opp (ET_G a rc)). apply G_d'. exact Hx.
    - apply (filterlim_ext (fun x => -1 * ET_G a rc x)); [intros; rr; ring|]. apply scal_lim; [apply _|exact G_inf].
  Qed.
  Lemma th_pos : 0 < ET_thresh a rc. Proof. unfold ET_thresh. assert (0 < Rmin a rc) by (apply Rmin_pos; assumption). lra. Qed.
  Lemma et_code r : ET_thresh a rc <= r -> ET_revaluate a rc r = et_Phi r /\ ET_rforce a rc r = et_F r /\ ET_r2deriv a rc r = et_D2 r /\ ET_mass a rc r = ET_F_closed a rc r.
  Proof.
    intros Hr. pose proof th_pos. unfold ET_revaluate, ET_rforce, ET_r2deriv, ET_mass, ET_F. destruct (Rlt_dec r (ET_thresh a rc)) as [L|_]; [lra|]. destruct (Req_EM_T r 0) as [E|_]; [lra|]. unfold et_Phi, et_F, et_D2. split; [|split; [|split]]; try reflexivity; field; lra.
  Qed.
  Lemma et_code_grav : gravity_of (fun r => ET_thresh a rc < r) (ET_rdens a rc) (ET_revaluate a rc) (ET_rforce a rc) (ET_r2deriv a rc) (ET_mass a rc).
  Proof.
    intros r Hr Ht. destruct (et_code r (Rlt_le _ _ Ht)) as (E1 & E2 & E3 & E4). destruct (et_grav r Hr I) as (H1 & H2 & H3 & H4 & H5).
    assert (N : locally r (fun y => ET_thresh a rc < y)) by (apply (open_gt (ET_thresh a rc) r Ht)).
    rewrite E2, E3, E4. split; [|split; [|split; [|split]]]; [| |exact H3|exact H4|exact H5].
    - apply is_derive_ext_loc with (2 := H1). apply filter_imp with (2 := N). intros y Hy. symmetry. apply et_code. lra.
    - apply is_derive_ext_loc with (2 := H2). apply filter_imp with (2 := N). intros y Hy. f_equal. symmetry. apply et_code. lra.
  Qed.
  Lemma et_mass_inf : at_infinity (ET_mass a rc) (ET_Ftot a rc).
  Proof. unfold at_infinity. apply filterlim_ext_loc with (2 := closed_inf). exists (ET_thresh a rc). intros r Hr. symmetry. apply et_code. lra. Qed.
  (** the series below the threshold *)
  Lemma series_d s : is_derive (ET_F_series a rc) s (s / a ^ 2 * (1 - (s / rc + 2 * (s / a)) + ((s / rc) ^ 2 / 2 + 2 * (s / rc) * (s / a) + 3 * (s / a) ^ 2) - ((s / rc) ^ 3 / 6 + (s / rc) ^ 2 * (s / a) + 3 * (s / rc) * (s / a) ^ 2 + 4 * (s / a) ^ 3))).
  Proof. unfold ET_F_series, ET_c2, ET_c3, ET_c4, ET_c5. auto_derive; [exact I|]. field. lra. Qed.
  Lemma poly_bound u v : 0 <= u <= 1 -> 0 <= v <= 1 ->
    let w := Rmax u v in
    Rabs (exp (- u) / (1 + v) ^ 2 - (1 - (u + 2 * v) + (u ^ 2 / 2 + 2 * u * v + 3 * v ^ 2) - (u ^ 3 / 6 + u ^ 2 * v + 3 * u * v ^ 2 + 4 * v ^ 3))) <= 15 * w ^ 4.
  Proof.
    intros Hu Hv w. assert (Uw : u <= w) by apply Rmax_l. assert (Vw : v <= w) by apply Rmax_r. assert (Hw : 0 <= w <= 1) by (unfold w, Rmax; destruct (Rle_dec u v); lra). clearbody w.
    pose proof (exp_t4 u ltac:(lra)) as T4. pose proof (exp_t5 u ltac:(lra)) as T5. set (e1 := exp (- u) - 1 + u - u ^ 2 / 2 + u ^ 3 / 6) in *.
    set (e2 := (5 * v ^ 4 + 4 * v ^ 5) / (1 + v) ^ 2). assert (P2 : 0 < (1 + v) ^ 2) by (apply pow_lt; lra).
    assert (pw : forall i j, 0 <= u ^ i * v ^ j <= w ^ (i + j)).
    { intros i j. split; [apply Rmult_le_pos; apply pow_le; lra|]. rewrite pow_add. apply Rmult_le_compat; try (apply pow_le; lra); apply pow_incr; lra. }
    assert (w5 : w ^ 5 <= w ^ 4) by (replace (w ^ 5) with (w ^ 4 * w) by ring; apply Rle_trans with (w ^ 4 * 1); [apply Rmult_le_compat_l; [apply pow_le|]; lra|lra]).
    assert (w6 : w ^ 6 <= w ^ 4) by (replace (w ^ 6) with (w ^ 5 * w) by ring; apply Rle_trans with (w ^ 5 * 1); [apply Rmult_le_compat_l; [apply pow_le|]; lra|lra]).
    assert (E2 : 0 <= e2 <= 5 * w ^ 4).
    { assert (0 <= v ^ 4) by (apply pow_le; lra). assert (0 <= v ^ 5) by (apply pow_le; lra). split; [apply Rmult_le_pos; [lra|apply Rlt_le, Rinv_0_lt_compat; exact P2]|].
      apply Rle_trans with (5 * v ^ 4); [|pose proof (pw 0%nat 4%nat) as Q; cbn [Nat.add] in Q; replace (u ^ 0 * v ^ 4) with (v ^ 4) in Q by ring; lra]. unfold e2. apply (Rmult_le_reg_r ((1 + v) ^ 2)); [exact P2|]. unfold Rdiv. rewrite Rmult_assoc, Rinv_l by lra. replace (5 * v ^ 4 * (1 + v) ^ 2) with (5 * v ^ 4 + 10 * v ^ 5 + 5 * v ^ 6) by ring. assert (0 <= v ^ 6) by (apply pow_le; lra). lra. }
    assert (I2 : / (1 + v) ^ 2 = 1 - 2 * v + 3 * v ^ 2 - 4 * v ^ 3 + e2) by (unfold e2; field; lra).
    assert (I1 : exp (- u) = 1 - u + u ^ 2 / 2 - u ^ 3 / 6 + e1) by (unfold e1; field).
    assert (B1 : e1 <= w ^ 4) by (pose proof (pw 4%nat 0%nat) as Q; cbn [Nat.add] in Q; replace (u ^ 4 * v ^ 0) with (u ^ 4) in Q by ring; lra).
    set (q := / (1 + v) ^ 2) in *. assert (Q1 : 0 <= q <= 1) by (unfold q; split; [apply Rlt_le, Rinv_0_lt_compat; exact P2|rewrite <- Rinv_1; apply Rinv_le_contravar; [lra|]; assert (0 <= v ^ 2) by (apply pow_le; lra); replace ((1 + v) ^ 2) with (1 + 2 * v + v ^ 2) by ring; lra]).
    set (p := 1 - u + u ^ 2 / 2 - u ^ 3 / 6) in *. assert (Pp : 0 <= p <= 1).
    { assert (U2 : 0 <= u ^ 2 <= u) by (split; [apply pow_le; lra|replace (u ^ 2) with (u * u) by ring; apply Rle_trans with (u * 1); [apply Rmult_le_compat_l; lra|lra]]). assert (U3 : 0 <= u ^ 3 <= u ^ 2) by (split; [apply pow_le; lra|replace (u ^ 3) with (u ^ 2 * u) by ring; apply Rle_trans with (u ^ 2 * 1); [apply Rmult_le_compat_l; lra|lra]]). unfold p. lra. }
    unfold Rdiv at 1. fold q. rewrite I1.
    assert (D : (p + e1) * q - (1 - (u + 2 * v) + (u ^ 2 / 2 + 2 * u * v + 3 * v ^ 2) - (u ^ 3 / 6 + u ^ 2 * v + 3 * u * v ^ 2 + 4 * v ^ 3))
      = e1 * q + p * e2 + (4 * (u ^ 1 * v ^ 3) + 3 / 2 * (u ^ 2 * v ^ 2) + 1 / 3 * (u ^ 3 * v ^ 1)) - (2 * (u ^ 2 * v ^ 3) + 1 / 2 * (u ^ 3 * v ^ 2)) + 2 / 3 * (u ^ 3 * v ^ 3)).
    { transitivity (e1 * q + p * (1 - 2 * v + 3 * v ^ 2 - 4 * v ^ 3 + e2) - (1 - (u + 2 * v) + (u ^ 2 / 2 + 2 * u * v + 3 * v ^ 2) - (u ^ 3 / 6 + u ^ 2 * v + 3 * u * v ^ 2 + 4 * v ^ 3))); [rewrite <- I2; ring|]. unfold p. field. }
    rewrite D. pose proof (pw 1 3)%nat as K1. pose proof (pw 2 2)%nat as K2. pose proof (pw 3 1)%nat as K3. pose proof (pw 2 3)%nat as K4. pose proof (pw 3 2)%nat as K5. pose proof (pw 3 3)%nat as K6. cbn [Nat.add] in *.
    assert (0 <= e1 * q <= w ^ 4). { split; [apply Rmult_le_pos; lra|]. apply Rle_trans with (w ^ 4 * 1); [apply Rmult_le_compat; lra|lra]. }
    assert (0 <= p * e2 <= 5 * w ^ 4). { split; [apply Rmult_le_pos; lra|]. apply Rle_trans with (1 * (5 * w ^ 4)); [apply Rmult_le_compat; lra|lra]. }
    assert (0 <= w ^ 4) by (apply pow_le; lra). apply Rabs_le. lra.
  Qed.
  Definition et_m : RR := Rmin a rc.
  Lemma m_pos : 0 < et_m. Proof. apply Rmin_pos; assumption. Qed.
  Lemma deriv_gap s : 0 <= s <= et_m ->
    Rabs (s * exp (- s / rc) / (a + s) ^ 2 - s / a ^ 2 * (1 - (s / rc + 2 * (s / a)) + ((s / rc) ^ 2 / 2 + 2 * (s / rc) * (s / a) + 3 * (s / a) ^ 2) - ((s / rc) ^ 3 / 6 + (s / rc) ^ 2 * (s / a) + 3 * (s / rc) * (s / a) ^ 2 + 4 * (s / a) ^ 3))) <= 15 * s ^ 5 / (a ^ 2 * et_m ^ 4).
  Proof.
    intros Hs. pose proof m_pos as Hm. assert (Ma : et_m <= a) by apply Rmin_l. assert (Mr : et_m <= rc) by apply Rmin_r.
    assert (Hu : 0 <= s / rc <= 1) by (split; [apply Rmult_le_pos; [lra|apply Rlt_le, Rinv_0_lt_compat; lra]|apply (Rmult_le_reg_r rc); [lra|]; replace (s / rc * rc) with s by (field; lra); lra]).
    assert (Hv : 0 <= s / a <= 1) by (split; [apply Rmult_le_pos; [lra|apply Rlt_le, Rinv_0_lt_compat; lra]|apply (Rmult_le_reg_r a); [lra|]; replace (s / a * a) with s by (field; lra); lra]).
    pose proof (poly_bound _ _ Hu Hv) as B. cbv zeta in B.
    assert (W : 0 <= Rmax (s / rc) (s / a) <= s / et_m). { split; [apply Rle_trans with (s / rc); [lra|apply Rmax_l]|]. apply Rmax_lub; apply Rmult_le_compat_l; try lra; apply Rinv_le_contravar; lra. }
    assert (W4 : Rmax (s / rc) (s / a) ^ 4 <= (s / et_m) ^ 4) by (apply pow_incr; exact W).
    replace (- s / rc) with (- (s / rc)) by (field; lra). replace (s * exp (- (s / rc)) / (a + s) ^ 2) with (s / a ^ 2 * (exp (- (s / rc)) / (1 + s / a) ^ 2)) by (generalize (exp (- (s / rc))); intros e; field; lra).
    rewrite <- Rmult_minus_distr_l, Rabs_mult. rewrite (Rabs_pos_eq (s / a ^ 2)) by (apply Rmult_le_pos; [lra|apply Rlt_le, Rinv_0_lt_compat, pow_lt; lra]).
    apply Rle_trans with (s / a ^ 2 * (15 * (s / et_m) ^ 4)); [apply Rmult_le_compat_l; [apply Rmult_le_pos; [lra|apply Rlt_le, Rinv_0_lt_compat, pow_lt; lra]|lra]|]. apply Req_le. field. lra.
  Qed.
  Lemma series_gap r : 0 <= r <= et_m -> Rabs (ET_F_series a rc r - ET_F_closed a rc r) <= 5 / 2 * (r / a) ^ 2 * (r / et_m) ^ 4.
  Proof.
    intros Hr. pose proof m_pos as Hm. set (K := 5 / 2 / (a ^ 2 * et_m ^ 4)). replace (5 / 2 * (r / a) ^ 2 * (r / et_m) ^ 4) with (K * r ^ 6) by (unfold K; field; lra).
    assert (S0 : ET_F_series a rc 0 = 0) by (unfold ET_F_series; unfold Rdiv at 1; ring).
    assert (DK : forall y, is_derive (fun r => K * r ^ 6) y (15 * y ^ 5 / (a ^ 2 * et_m ^ 4))) by (intros y; auto_derive; [exact I|]; unfold K; field; lra).
    assert (G : forall y, 0 <= y <= r -> - (15 * y ^ 5 / (a ^ 2 * et_m ^ 4)) <= y * exp (- y / rc) / (a + y) ^ 2 - y / a ^ 2 * (1 - (y / rc + 2 * (y / a)) + ((y / rc) ^ 2 / 2 + 2 * (y / rc) * (y / a) + 3 * (y / a) ^ 2) - ((y / rc) ^ 3 / 6 + (y / rc) ^ 2 * (y / a) + 3 * (y / rc) * (y / a) ^ 2 + 4 * (y / a) ^ 3)) <= 15 * y ^ 5 / (a ^ 2 * et_m ^ 4)).
    { intros y Hy. apply Rabs_le_between. apply deriv_gap. lra. }
    apply Rabs_le. split.
    - assert (H : 0 <= K * r ^ 6 - (ET_F_closed a rc r - ET_F_series a rc r)); [|lra]. eapply (up_from_0 (fun r => K * r ^ 6 - (ET_F_closed a rc r - ET_F_series a rc r))); [lra|rewrite S0, closed_0; ring| |].
      + intros y Hy. apply (is_derive_minus (fun r => K * r ^ 6) (fun r => ET_F_closed a rc r - ET_F_series a rc r)); [apply DK|]. apply (is_derive_minus (ET_F_closed a rc) (ET_F_series a rc)); [apply closed_d; lra|apply series_d].
      + intros y Hy. specialize (G y Hy). unfold minus, plus, opp; cbn -[pow]. lra.
    - assert (H : 0 <= K * r ^ 6 + (ET_F_closed a rc r - ET_F_series a rc r)); [|lra]. eapply (up_from_0 (fun r => K * r ^ 6 + (ET_F_closed a rc r - ET_F_series a rc r))); [lra|rewrite S0, closed_0; ring| |].
      + intros y Hy. apply (is_derive_plus (fun r => K * r ^ 6) (fun r => ET_F_closed a rc r - ET_F_series a rc r)); [apply DK|]. apply (is_derive_minus (ET_F_closed a rc) (ET_F_series a rc)); [apply closed_d; lra|apply series_d].
      + intros y Hy. specialize (G y Hy). unfold minus, plus, opp; cbn -[pow]. lra.
  Qed.
  (** relative to the mass itself: one part in 10^11 *)
  Lemma series_rel r : 0 < r < ET_thresh a rc -> 0 < ET_F_closed a rc r /\ Rabs (ET_F a rc r - ET_F_closed a rc r) <= / 100000000000 * ET_F_closed a rc r.
  Proof.
    intros [H0 Ht]. pose proof m_pos as Hm. assert (Hr : r < et_m / 1000) by (unfold ET_thresh in Ht; fold et_m in Ht; lra).
    unfold ET_F. destruct (Rlt_dec r (ET_thresh a rc)) as [_|N]; [|lra]. pose proof (series_gap r ltac:(lra)) as G.
    assert (X : 0 < r / et_m <= 1 / 1000) by (split; [apply Rdiv_lt_0_compat; lra|apply (Rmult_le_reg_r et_m); [lra|]; replace (r / et_m * et_m) with r by (field; lra); lra]).
    assert (X4 : (r / et_m) ^ 4 <= / 1000000000000). { apply Rle_trans with ((1 / 1000) ^ 4); [apply pow_incr; lra|lra]. }
    assert (Q : 0 < (r / a) ^ 2) by (apply pow_lt, Rdiv_lt_0_compat; lra).
    assert (G2 : Rabs (ET_F_series a rc r - ET_F_closed a rc r) <= 5 / 2 * / 1000000000000 * (r / a) ^ 2). { eapply Rle_trans; [exact G|]. replace (5 / 2 * / 1000000000000 * (r / a) ^ 2) with (5 / 2 * (r / a) ^ 2 * / 1000000000000) by ring. apply Rmult_le_compat_l; lra. }
    assert (U : 0 < r / rc <= 1 / 1000). { assert (et_m <= rc) by apply Rmin_r. split; [apply Rdiv_lt_0_compat; lra|apply (Rmult_le_reg_r rc); [lra|]; replace (r / rc * rc) with r by (field; lra); lra]. }
    assert (V : 0 < r / a <= 1 / 1000). { assert (et_m <= a) by apply Rmin_l. split; [apply Rdiv_lt_0_compat; lra|apply (Rmult_le_reg_r a); [lra|]; replace (r / a * a) with r by (field; lra); lra]. }
    assert (SL : 49 / 100 * (r / a) ^ 2 <= ET_F_series a rc r).
    { assert (E : ET_F_series a rc r = (r / a) ^ 2 * (1 / 2 - (r / rc + 2 * (r / a)) / 3 + ((r / rc) ^ 2 / 2 + 2 * (r / rc) * (r / a) + 3 * (r / a) ^ 2) / 4 - ((r / rc) ^ 3 / 6 + (r / rc) ^ 2 * (r / a) + 3 * (r / rc) * (r / a) ^ 2 + 4 * (r / a) ^ 3) / 5)) by (unfold ET_F_series, ET_c2, ET_c3, ET_c4, ET_c5; field; lra).
      rewrite E, Rmult_comm. apply Rmult_le_compat_l; [lra|]. set (u := r / rc) in *. set (v := r / a) in *. assert (0 <= u * v) by (apply Rmult_le_pos; lra). assert (0 <= u ^ 2) by (apply pow_le; lra). assert (0 <= v ^ 2) by (apply pow_le; lra).
      assert (u ^ 3 <= (1 / 1000) ^ 3) by (apply pow_incr; lra). assert (v ^ 3 <= (1 / 1000) ^ 3) by (apply pow_incr; lra). assert (u2 : u ^ 2 <= (1 / 1000) ^ 2) by (apply pow_incr; lra). assert (v2 : v ^ 2 <= (1 / 1000) ^ 2) by (apply pow_incr; lra).
      assert (u ^ 2 * v <= (1 / 1000) ^ 2 * (1 / 1000)) by (apply Rmult_le_compat; lra). assert (u * v ^ 2 <= (1 / 1000) * (1 / 1000) ^ 2) by (apply Rmult_le_compat; lra). lra. }
    apply Rabs_le_between in G2. split; [lra|]. apply Rabs_le. lra.
  Qed.
End Trunc.
(** ** The total mass as a function of the truncation radius *)
Definition e1_gap (x : RR) : RR := ExpInt x - exp (- x) * (1 + x) / (x * (2 + x)).
Lemma gap_d x : 0 < x -> is_derive e1_gap x (2 * exp (- x) / (x * (2 + x)) ^ 2).
Proof.
  intros Hx. unfold e1_gap. assert (D2 : is_derive (fun x => exp (- x) * (1 + x) / (x * (2 + x))) x (- (exp (- x) / x) - 2 * exp (- x) / (x * (2 + x)) ^ 2)). { auto_derive; [apply Rmult_integral_contrapositive; split; lra|]. field. lra. }
  apply (is_derive_eq _ _ (minus (- (exp (- x) / x)) (- (exp (- x) / x) - 2 * exp (- x) / (x * (2 + x)) ^ 2))); [|unfold minus, plus, opp; cbn -[pow]; rr; ring]. apply (is_derive_minus ExpInt _ x); [apply e1_derive; exact Hx|exact D2].
Qed.
Lemma gap_lim : filterlim e1_gap (Rbar_locally p_infty) (locally 0).
Proof.
  assert (I : filterlim (fun x : RR => / x) (Rbar_locally p_infty) (locally 0)) by exact (filterlim_Rbar_inv p_infty ltac:(discriminate)).
  assert (L2 : filterlim (fun x => -1 * (exp (- x) * (1 + x) / (x * (2 + x)))) (Rbar_locally p_infty) (locally 0)).
  { apply scal_lim; [apply _|]. apply (filterlim_le_le (F := Rbar_locally p_infty) (fun _ => 0) _ (fun r => / r) (Finite 0)); [|apply filterlim_const|exact I].
    exists 0. intros r Hr. pose proof (exp_pos (- r)). pose proof (exp_t1 r ltac:(lra)). assert (0 < (1 + r) / (r * (2 + r))) by (apply Rdiv_lt_0_compat; [lra|apply Rmult_lt_0_compat; lra]). replace (exp (- r) * (1 + r) / (r * (2 + r))) with (exp (- r) * ((1 + r) / (r * (2 + r)))) by (field; lra). split; [apply Rmult_le_pos; lra|].
    apply Rle_trans with (1 * ((1 + r) / (r * (2 + r)))); [apply Rmult_le_compat_r; lra|]. rewrite Rmult_1_l. apply (Rmult_le_reg_r (r * (2 + r))); [apply Rmult_lt_0_compat; lra|]. replace ((1 + r) / (r * (2 + r)) * (r * (2 + r))) with (1 + r) by (field; lra). replace (/ r * (r * (2 + r))) with (2 + r) by (field; lra). lra. }
  pose proof (sum_lim _ _ _ _ _ _ e1_lim L2) as L. cbv beta in L. rewrite Rplus_0_r in L. revert L. apply filterlim_ext. intros r. unfold e1_gap. rr. ring.
Qed.
Lemma strict_up (f df : RR -> RR) x y : (forall z, x <= z <= y -> is_derive f z (df z)) -> (forall z, x <= z <= y -> 0 < df z) -> x < y -> f x < f y.
Proof.
  intros D P H. destruct (MVT_gen f x y df) as (c & Hc & E).
  - intros z Hz. rewrite Rmin_left, Rmax_right in Hz by lra. apply D. lra.
  - intros z Hz. rewrite Rmin_left, Rmax_right in Hz by lra. apply continuity_pt_filterlim. apply (ex_derive_continuous (V := R_NormedModule)). eexists. apply D. lra.
  - rewrite Rmin_left, Rmax_right in Hc by lra. specialize (P c Hc). assert (0 < df c * (y - x)) by (apply Rmult_lt_0_compat; lra). lra.
Qed.
Lemma gap_neg x : 0 < x -> e1_gap x < 0.
Proof.
  intros Hx. assert (Inc : forall u v, 0 < u -> u < v -> e1_gap u < e1_gap v). { intros u v Hu Huv. apply (strict_up e1_gap (fun x => 2 * exp (- x) / (x * (2 + x)) ^ 2)); [| |exact Huv]; intros z Hz; [apply gap_d; lra|]. apply Rdiv_lt_0_compat; [pose proof (exp_pos (- z)); lra|]. apply pow_lt. apply Rmult_lt_0_compat; lra. }
  apply Rlt_le_trans with (e1_gap (x + 1)); [apply Inc; lra|]. assert (Q : Rbar_le (Finite (e1_gap (x + 1))) (Finite 0)); [|exact Q]. apply (filterlim_le (F := Rbar_locally p_infty) (fun _ => e1_gap (x + 1)) e1_gap); [|apply filterlim_const|exact gap_lim]. exists (x + 1). intros y Hy. apply Rlt_le, Inc; lra.
Qed.
Lemma fal_d x : 0 < x -> is_derive ET_Fal x (exp x * (2 + x) * ExpInt x - (1 + x) / x).
Proof.
  intros Hx. unfold ET_Fal, sp_exp1. assert (D1 : is_derive (fun x => exp x * (1 + x)) x (exp x * (2 + x))) by (auto_derive; [exact I|]; ring). pose proof (is_derive_Rmult _ _ _ _ _ D1 (e1_derive x Hx)) as D. apply shift_derive. apply (is_derive_eq _ _ _ _ D). rewrite exp_Ropp. pose proof (exp_pos x). rr. field. lra.
Qed.
Lemma e1_up x : 0 < x -> exp x * ExpInt x < (1 + x) / (x * (2 + x)).
Proof.
  intros Hx. pose proof (gap_neg x Hx) as G. unfold e1_gap in G. pose proof (exp_pos x). apply Rlt_le_trans with (exp x * (exp (- x) * (1 + x) / (x * (2 + x)))); [apply Rmult_lt_compat_l; lra|]. apply Req_le. rewrite exp_Ropp. field. lra.
Qed.
Lemma fal_down x y : 0 < x -> x < y -> ET_Fal y < ET_Fal x.
Proof.
  intros Hx Hxy. assert (- ET_Fal x < - ET_Fal y); [|lra]. apply (strict_up (fun x => - ET_Fal x) (fun x => - (exp x * (2 + x) * ExpInt x - (1 + x) / x))); [| |exact Hxy]; intros z Hz; [apply (is_derive_opp ET_Fal); apply fal_d; lra|].
  pose proof (e1_up z ltac:(lra)) as U. assert ((2 + z) * (exp z * ExpInt z) < (2 + z) * ((1 + z) / (z * (2 + z)))) by (apply Rmult_lt_compat_l; lra). replace ((2 + z) * ((1 + z) / (z * (2 + z)))) with ((1 + z) / z) in H by (field; lra). lra.
Qed.
Lemma fal_upper x : 0 < x -> ET_Fal x < / (x * (2 + x)).
Proof.
  intros Hx. pose proof (e1_up x Hx) as U. unfold ET_Fal, sp_exp1. assert ((1 + x) * (exp x * ExpInt x) < (1 + x) * ((1 + x) / (x * (2 + x)))) by (apply Rmult_lt_compat_l; lra). replace ((1 + x) * ((1 + x) / (x * (2 + x)))) with (1 + / (x * (2 + x))) in H by (field; lra). lra.
Qed.
Lemma fal_pos x : 0 < x -> 0 < ET_Fal x.
Proof.
  intros Hx. apply Rle_lt_trans with (ET_Fal (x + 1)); [|apply fal_down; lra].
  (* the limit at infinity is not negative: exp(-x)/(1+x) <= E1 *)
  assert (Low : forall x, 0 < x -> exp (- x) / (1 + x) <= ExpInt x).
  { intros u Hu. assert (Inc : forall p q, 0 < p -> p < q -> ExpInt q - exp (- q) / (1 + q) < ExpInt p - exp (- p) / (1 + p)).
    { intros p q Hp Hpq. assert (- (ExpInt p - exp (- p) / (1 + p)) < - (ExpInt q - exp (- q) / (1 + q))); [|lra]. apply (strict_up (fun x => - (ExpInt x - exp (- x) / (1 + x))) (fun x => exp (- x) / x - (exp (- x) / (1 + x) + exp (- x) / (1 + x) ^ 2))); [| |exact Hpq]; intros z Hz.
      - assert (D2 : is_derive (fun x => exp (- x) / (1 + x)) z (- (exp (- z) / (1 + z) + exp (- z) / (1 + z) ^ 2))) by (auto_derive; [lra|]; field; lra).
        apply (is_derive_eq _ _ (opp (minus (- (exp (- z) / z)) (- (exp (- z) / (1 + z) + exp (- z) / (1 + z) ^ 2))))); [|unfold minus, plus, opp; cbn -[pow]; rr; ring]. apply (is_derive_opp (fun x => ExpInt x - exp (- x) / (1 + x))). apply (is_derive_minus ExpInt _ z); [apply e1_derive; lra|exact D2].
      - pose proof (exp_pos (- z)). replace (exp (- z) / z - (exp (- z) / (1 + z) + exp (- z) / (1 + z) ^ 2)) with (exp (- z) / (z * (1 + z) ^ 2)) by (field; lra). apply Rdiv_lt_0_compat; [assumption|]. apply Rmult_lt_0_compat; [lra|apply pow_lt; lra]. }
    assert (L : filterlim (fun x => ExpInt x - exp (- x) / (1 + x)) (Rbar_locally p_infty) (locally 0)).
    { assert (L2 : filterlim (fun x => -1 * (exp (- x / 1) / (1 + x))) (Rbar_locally p_infty) (locally 0)) by (apply scal_lim; [apply _|]; apply (expo_inf 1 1); lra).
      pose proof (sum_lim _ _ _ _ _ _ e1_lim L2) as L. cbv beta in L. rewrite Rplus_0_r in L. revert L. apply filterlim_ext. intros r. replace (- r / 1) with (- r) by field. rr. unfold Rdiv. ring. }
    assert (Q : Rbar_le (Finite 0) (Finite (ExpInt u - exp (- u) / (1 + u)))); [|change (0 <= ExpInt u - exp (- u) / (1 + u)) in Q; lra]. apply (filterlim_le (F := Rbar_locally p_infty) (fun x => ExpInt x - exp (- x) / (1 + x)) (fun _ => ExpInt u - exp (- u) / (1 + u))); [|exact L|apply filterlim_const]. exists u. intros y Hy. apply Rlt_le, Inc; lra. }
  pose proof (Low (x + 1) ltac:(lra)) as Lo. unfold ET_Fal, sp_exp1. pose proof (exp_pos (x + 1)). assert (exp (x + 1) * (1 + (x + 1)) * (exp (- (x + 1)) / (1 + (x + 1))) <= exp (x + 1) * (1 + (x + 1)) * ExpInt (x + 1)) by (apply Rmult_le_compat_l; [apply Rmult_le_pos; lra|exact Lo]). replace (exp (x + 1) * (1 + (x + 1)) * (exp (- (x + 1)) / (1 + (x + 1)))) with 1 in H0 by (rewrite exp_Ropp; field; lra). lra.
Qed.
(** E1 between x and 1 *)
Lemma e1_small x : 0 < x <= 1 -> exp (- 1) * - ln x <= ExpInt x <= ExpInt 1 - ln x.
Proof.
  intros Hx. split.
  - assert (H : 0 <= (ExpInt x - exp (-1) * - ln x)); [|lra]. destruct (Req_dec x 1) as [->|N]; [rewrite ln_1; pose proof (e1_pos 1 Rlt_0_1); lra|].
    destruct (MVT_gen (fun x => ExpInt x - exp (-1) * - ln x) x 1 (fun x => - (exp (- x) / x) + exp (-1) / x)) as (c & Hc & E).
    + intros z Hz. rewrite Rmin_left, Rmax_right in Hz by lra. assert (D2 : is_derive (fun x => exp (-1) * - ln x) z (- (exp (-1) / z))) by (auto_derive; [lra|]; field; lra). apply (is_derive_eq _ _ (minus (- (exp (- z) / z)) (- (exp (-1) / z)))); [|unfold minus, plus, opp; cbn; rr; ring]. apply (is_derive_minus ExpInt (fun x => exp (-1) * - ln x)); [apply e1_derive; lra|exact D2].
    + intros z Hz. rewrite Rmin_left, Rmax_right in Hz by lra. apply continuity_pt_filterlim. apply (ex_derive_continuous (V := R_NormedModule) (fun x => ExpInt x - exp (-1) * - ln x)). eexists. assert (D2 : is_derive (fun x => exp (-1) * - ln x) z (- (exp (-1) / z))) by (auto_derive; [lra|]; field; lra). apply (is_derive_minus ExpInt (fun x => exp (-1) * - ln x)); [apply e1_derive; lra|exact D2].
    + rewrite Rmin_left, Rmax_right in Hc by lra. cbv beta in E. rewrite ln_1, Ropp_0, Rmult_0_r, Rminus_0_r in E. pose proof (e1_pos 1 Rlt_0_1). assert (exp (-1) <= exp (- c)) by (destruct (Req_dec c 1) as [->|]; [apply Req_le; f_equal; lra|apply Rlt_le, exp_increasing; lra]). assert ((- (exp (- c) / c) + exp (-1) / c) * (1 - x) <= 0).
      { replace (- (exp (- c) / c) + exp (-1) / c) with (- ((exp (- c) - exp (-1)) / c)) by (field; lra). assert (0 <= (exp (- c) - exp (-1)) / c) by (apply Rmult_le_pos; [lra|apply Rlt_le, Rinv_0_lt_compat; lra]). assert (0 <= (exp (- c) - exp (-1)) / c * (1 - x)) by (apply Rmult_le_pos; lra). lra. }
      lra.
  - destruct (Req_dec x 1) as [->|N]; [rewrite ln_1; lra|].
    destruct (MVT_gen (fun x => ExpInt x + ln x) x 1 (fun x => - (exp (- x) / x) + / x)) as (c & Hc & E).
    + intros z Hz. rewrite Rmin_left, Rmax_right in Hz by lra. apply (is_derive_Rplus ExpInt ln); [apply e1_derive; lra|apply is_derive_ln; lra].
    + intros z Hz. rewrite Rmin_left, Rmax_right in Hz by lra. apply continuity_pt_filterlim. apply (ex_derive_continuous (V := R_NormedModule) (fun x => ExpInt x + ln x)). eexists. apply (is_derive_Rplus ExpInt ln); [apply e1_derive; lra|apply is_derive_ln; lra].
    + rewrite Rmin_left, Rmax_right in Hc by lra. cbv beta in E. rewrite ln_1 in E. pose proof (exp_t1 c ltac:(lra)). assert (0 <= (- (exp (- c) / c) + / c) * (1 - x)).
      { replace (- (exp (- c) / c) + / c) with ((1 - exp (- c)) / c) by (field; lra). apply Rmult_le_pos; [apply Rmult_le_pos; [lra|apply Rlt_le, Rinv_0_lt_compat; lra]|lra]. }
      lra.
Qed.
Lemma fal_reach t : 0 < t -> exists x, 0 < x /\ ET_Fal x = t.
Proof.
  intros Ht. set (B := (t + 2) * exp 1). assert (HB : 0 < B) by (apply Rmult_lt_0_compat; [lra|apply exp_pos]). set (x1 := exp (- B)).
  assert (X1 : 0 < x1 <= 1) by (split; [apply exp_pos|apply exp_t1; lra]). pose proof (e1_small x1 X1) as [E1 _]. unfold x1 in E1 at 1. rewrite ln_exp, Ropp_involutive in E1. unfold B in E1. replace (exp (-1) * ((t + 2) * exp 1)) with (t + 2) in E1 by (replace (-1) with (- (1)) by ring; rewrite exp_Ropp; field; apply Rgt_not_eq, exp_pos).
  assert (F1 : t < ET_Fal x1). { unfold ET_Fal, sp_exp1. assert (1 <= exp x1) by (rewrite <- exp_0; apply Rlt_le, exp_increasing; lra). assert (1 <= exp x1 * (1 + x1)) by (rewrite <- (Rmult_1_r 1); apply Rmult_le_compat; lra). assert (1 * (t + 2) <= exp x1 * (1 + x1) * ExpInt x1) by (apply Rmult_le_compat; lra). lra. }
  set (x2 := 1 + / t). assert (It : 0 < / t) by (apply Rinv_0_lt_compat; exact Ht). assert (X2 : 0 < x2) by (unfold x2; lra). pose proof (fal_upper x2 X2) as U.
  assert (F2 : ET_Fal x2 < t). { eapply Rlt_le_trans; [exact U|]. rewrite <- (Rinv_inv t). apply Rinv_le_contravar; [exact It|]. unfold x2. assert ((1 + / t) * 1 <= (1 + / t) * (2 + (1 + / t))) by (apply Rmult_le_compat_l; lra). lra. }
  assert (X12 : x1 < x2) by (unfold x2; lra).
  destruct (Ranalysis5.IVT_interv (fun x => t - ET_Fal x) x1 x2) as (x & Hx & E).
  - intros z Hz. apply continuity_pt_filterlim. apply (ex_derive_continuous (V := R_NormedModule) (fun x => t - ET_Fal x)). eexists. apply (is_derive_minus (fun _ => t) ET_Fal); [apply is_derive_const|apply fal_d; lra].
  - exact X12.
  - lra.
  - lra.
  - exists x. split; lra.
Qed.
