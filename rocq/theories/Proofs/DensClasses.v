(** Einasto, cut-off power law, exponentially truncated NFW, interpolated: proofs. *)
From Coq Require Import Reals Lra Lia.
From Coquelicot Require Import Coquelicot.
From Verif.Lib Require Import RealAux.
From Verif.Model Require Import PotAPI PotAxi PotSpecial.
From Verif.Spec Require Import JeansSpec DensSpec.
From Verif.Proofs Require Import MassProofs JeansProofs Improper SpecialProofs DensProofs.
Open Scope R_scope.
Notation RR := RbaseSymbolsImpl.R (only parsing).
Ltac rr := match goal with |- ?a = ?b => change (@eq RR a b) end.

Lemma to_right (f : RR -> RR) G : Filter G -> filterlim f G (locally 0) -> G (fun x => 0 < f x) -> filterlim f G (at_right 0).
Proof. intros FG L P Q [d HQ]. unfold filtermap. specialize (L _ (locally_ball 0 d)). unfold filtermap in L. apply filter_imp with (2 := filter_and _ _ L P). intros x [H1 H2]. apply HQ; assumption. Qed.
Lemma id_inf_div h : 0 < h -> filterlim (fun r : RR => r / h) (Rbar_locally p_infty) (Rbar_locally p_infty).
Proof. intros Hh P [M HM]. exists (M * h). intros x Hx. apply HM. apply (Rmult_lt_reg_r h); [exact Hh|]. replace (x / h * h) with x by (field; lra). exact Hx. Qed.
Lemma rpow_inf p : 0 < p -> filterlim (fun r => rpow r p) (Rbar_locally p_infty) (Rbar_locally p_infty).
Proof.
  intros Hp P [M HM]. exists (rpow (Rabs M + 1) (/ p)). intros x Hx. apply HM. assert (H1 : 0 < Rabs M + 1) by (pose proof (Rabs_pos M); lra). assert (Hy : 0 < rpow (Rabs M + 1) (/ p)) by apply rpow_pos. apply Rlt_le_trans with (rpow (rpow (Rabs M + 1) (/ p)) p).
  - rewrite rpow_mult. replace (/ p * p) with 1 by (field; lra). rewrite rpow_1 by exact H1. pose proof (Rle_abs M). lra.
  - unfold rpow in *. apply Rle_Rpower_l; lra.
Qed.
Lemma right_div h : 0 < h -> filterlim (fun r : RR => r / h) (at_right 0) (at_right 0).
Proof.
  intros Hh. apply to_right; [apply _| |generalize right_pos; apply filter_imp; intros x Hx; apply Rdiv_lt_0_compat; assumption].
  assert (Q : continuous (fun r : RR => r / h) 0) by (apply (ex_derive_continuous (V := R_NormedModule)); auto_derive; exact I). unfold continuous in Q. unfold Rdiv in Q. rewrite Rmult_0_l in Q. intros P HP. specialize (Q P HP). destruct Q as [d Hd]. exists d. intros y Hy _. apply Hd. exact Hy.
Qed.
Lemma right_rpow p : 0 < p -> filterlim (fun r => rpow r p) (at_right 0) (at_right 0).
Proof. intros Hp. apply to_right; [apply _|apply lim_rpow_right; exact Hp|]. apply filter_forall. intros x. apply rpow_pos. Qed.
Lemma right_sq : filterlim (fun r : RR => r ^ 2) (at_right 0) (at_right 0).
Proof.
  apply to_right; [apply _| |generalize right_pos; apply filter_imp; intros x Hx; apply pow_lt; exact Hx].
  assert (Q : continuous (fun r : RR => r ^ 2) 0) by (apply (ex_derive_continuous (V := R_NormedModule)); auto_derive; exact I). unfold continuous in Q. replace (0 ^ 2) with 0 in Q by ring. intros P HP. specialize (Q P HP). destruct Q as [d Hd]. exists d. intros y Hy _. apply Hd. exact Hy.
Qed.
Lemma inf_sq : filterlim (fun r : RR => r ^ 2) (Rbar_locally p_infty) (Rbar_locally p_infty).
Proof. intros P [M HM]. exists (Rabs M + 1). intros x Hx. apply HM. pose proof (Rle_abs M). pose proof (Rabs_pos M). assert (1 * x <= x * x) by (apply Rmult_le_compat_r; lra). replace (x ^ 2) with (x * x) by ring. lra. Qed.

(** ** Einasto *)
Section Ein.
  Variables h n : RR.
  Hypothesis Hh : 0 < h.
  Hypothesis Hn : 0 < n.
  Lemma x_pos r : 0 < Ei_x h n r. Proof. apply rpow_pos. Qed.
  Lemma x_derive r : 0 < r -> is_derive (Ei_x h n) r (1 / n * rpow (r / h) (1 / n - 1) * / h).
  Proof.
    intros Hr. unfold Ei_x. apply (is_derive_rpow (fun y => y / h) (1 / n) r (/ h)); [apply Rdiv_lt_0_compat; assumption|]. auto_derive; [exact I|]. rr. field. lra.
  Qed.
  Lemma x_eq r : 0 < r -> rpow (r / h) (1 / n - 1) = Ei_x h n r * h / r.
  Proof. intros Hr. assert (0 < r / h) by (apply Rdiv_lt_0_compat; assumption). rewrite rpow_minus, rpow_1 by assumption. unfold Ei_x. field. lra. Qed.
  Lemma x_derive' r : 0 < r -> is_derive (Ei_x h n) r (Ei_x h n r / (n * r)).
  Proof. intros Hr. apply (is_derive_eq _ _ _ _ (x_derive r Hr)). rewrite x_eq by exact Hr. rr. field. lra. Qed.
  Lemma x_gamma k r : 0 < r -> gamma_int (k * n) (Ei_x h n r) * Ei_x h n r = rpow (r / h) k * exp (- Ei_x h n r).
  Proof.
    intros Hr. unfold gamma_int. transitivity (rpow (Ei_x h n r) (k * n - 1) * rpow (Ei_x h n r) 1 * exp (- Ei_x h n r)); [rewrite (rpow_1 _ (x_pos r)); rr; ring|].
    rewrite <- rpow_plus. f_equal. unfold Ei_x. rewrite rpow_mult. f_equal. field. lra.
  Qed.
  Lemma x_zero : filterlim (Ei_x h n) (at_right 0) (at_right 0).
  Proof. apply (filterlim_comp _ _ _ (fun r => r / h) (fun y => rpow y (1 / n)) _ (at_right 0)); [apply right_div; exact Hh|apply right_rpow]. apply Rdiv_lt_0_compat; lra. Qed.
  Lemma x_inf : filterlim (Ei_x h n) (Rbar_locally p_infty) (Rbar_locally p_infty).
  Proof. apply (filterlim_comp _ _ _ (fun r => r / h) (fun y => rpow y (1 / n)) _ (Rbar_locally p_infty)); [apply id_inf_div; exact Hh|apply rpow_inf]. apply Rdiv_lt_0_compat; lra. Qed.
  Definition ein_mass (r : RR) : RR := 4 * PI * h ^ 3 * n * Gamma_low (3 * n) (Ei_x h n r).
  Definition ein_outer (r : RR) : RR := 4 * PI * h ^ 2 * n * Gamma_up (2 * n) (Ei_x h n r).
  Lemma ein_mass_d r : 0 < r -> is_derive ein_mass r (4 * PI * r ^ 2 * Ei_rdens h n r).
  Proof.
    intros Hr. assert (D : is_derive (fun y => Gamma_low (3 * n) (Ei_x h n y)) r (gamma_int (3 * n) (Ei_x h n r) * (Ei_x h n r / (n * r)))) by (apply (is_derive_Rchain (Gamma_low (3 * n)) (Ei_x h n)); [apply gl_derive; [lra|apply x_pos]|apply x_derive'; exact Hr]).
    apply (is_derive_eq _ _ _ _ (is_derive_Rscal _ _ (4 * PI * h ^ 3 * n) _ D)). replace (gamma_int (3 * n) (Ei_x h n r) * (Ei_x h n r / (n * r))) with (gamma_int (3 * n) (Ei_x h n r) * Ei_x h n r / (n * r)) by (rr; field; lra). rewrite (x_gamma 3 r Hr). rewrite rpow_3 by (apply Rdiv_lt_0_compat; assumption). unfold Ei_rdens. rr. field. lra.
  Qed.
  Lemma ein_outer_d r : 0 < r -> is_derive ein_outer r (- (4 * PI * r * Ei_rdens h n r)).
  Proof.
    intros Hr. assert (D : is_derive (fun y => Gamma_up (2 * n) (Ei_x h n y)) r (- gamma_int (2 * n) (Ei_x h n r) * (Ei_x h n r / (n * r)))) by (apply (is_derive_Rchain (Gamma_up (2 * n)) (Ei_x h n)); [apply gu_derive; apply x_pos|apply x_derive'; exact Hr]).
    apply (is_derive_eq _ _ _ _ (is_derive_Rscal _ _ (4 * PI * h ^ 2 * n) _ D)). replace (- gamma_int (2 * n) (Ei_x h n r) * (Ei_x h n r / (n * r))) with (- (gamma_int (2 * n) (Ei_x h n r) * Ei_x h n r / (n * r))) by (rr; field; lra). rewrite (x_gamma 2 r Hr). rewrite rpow_2 by (apply Rdiv_lt_0_compat; assumption). unfold Ei_rdens. rr. field. lra.
  Qed.
  Lemma ein_mass_0 : filterlim ein_mass (at_right 0) (locally 0).
  Proof. apply scal_lim; [apply _|]. apply (filterlim_comp _ _ _ (Ei_x h n) (Gamma_low (3 * n)) _ (at_right 0)); [exact x_zero|apply gl_lim; lra]. Qed.
  Lemma ein_outer_inf : filterlim ein_outer (Rbar_locally p_infty) (locally 0).
  Proof. apply scal_lim; [apply _|]. apply (filterlim_comp _ _ _ (Ei_x h n) (Gamma_up (2 * n)) _ (Rbar_locally p_infty)); [exact x_inf|apply gu_lim]. Qed.
  Lemma ein_rev r : 0 < r -> Ei_revaluate h n r = - ein_mass r / r - ein_outer r.
  Proof.
    intros Hr. unfold Ei_revaluate. destruct (Req_EM_T r 0) as [E|_]; [lra|]. unfold ein_mass, ein_outer, sp_gamma, sp_gammaincc. pose proof (g_pos (3 * n) ltac:(lra)) as G3. pose proof (g_pos (2 * n) ltac:(lra)) as G2. pose proof (g_split (3 * n) (Ei_x h n r) ltac:(lra) (x_pos r)) as Sp.
    replace (Gamma_low (3 * n) (Ei_x h n r)) with (Gamma (3 * n) - Gamma_up (3 * n) (Ei_x h n r)) by lra. field. lra.
  Qed.
  Lemma ein_force r : 0 < r -> Ei_rforce h n r = - ein_mass r / r ^ 2.
  Proof.
    intros Hr. unfold Ei_rforce, ein_mass, sp_gamma, sp_gammaincc. pose proof (g_pos (3 * n) ltac:(lra)) as G3. pose proof (g_split (3 * n) (Ei_x h n r) ltac:(lra) (x_pos r)) as Sp.
    replace (Gamma_low (3 * n) (Ei_x h n r)) with (Gamma (3 * n) - Gamma_up (3 * n) (Ei_x h n r)) by lra. field. lra.
  Qed.
  Lemma ein_r2 r : 0 < r -> Ei_r2deriv h n r = 4 * PI * Ei_rdens h n r - 2 * ein_mass r / r ^ 3.
  Proof.
    intros Hr. unfold Ei_r2deriv, ein_mass, Ei_rdens, sp_gamma, sp_gammaincc. pose proof (g_pos (3 * n) ltac:(lra)) as G3. pose proof (g_split (3 * n) (Ei_x h n r) ltac:(lra) (x_pos r)) as Sp.
    replace (Gamma_low (3 * n) (Ei_x h n r)) with (Gamma (3 * n) - Gamma_up (3 * n) (Ei_x h n r)) by lra. field. lra.
  Qed.
  Lemma ein_cont : continuous_outside (Ei_rdens h n).
  Proof. intros r Hr. apply (ex_derive_continuous (V := R_NormedModule)). unfold Ei_rdens. eexists. apply (is_derive_comp exp (fun y => - Ei_x h n y)); [apply is_derive_exp|apply (is_derive_opp (Ei_x h n)); apply x_derive'; exact Hr]. Qed.
  Lemma ein_grav : gravity_of (fun _ => True) (Ei_rdens h n) (Ei_revaluate h n) (Ei_rforce h n) (Ei_r2deriv h n) ein_mass.
  Proof.
    apply grav_build; [exact ein_cont|exact ein_mass_d|exact ein_mass_0|exact ein_force|exact ein_r2|]. intros r Hr.
    apply (is_derive_ext_loc (fun x => - ein_mass x / x - ein_outer x)); [apply filter_imp with (2 := pos_near r Hr); intros y Hy; symmetry; apply ein_rev; exact Hy|].
    apply (shell_deriv (Ei_rdens h n)); [exact Hr|apply ein_mass_d; exact Hr|apply ein_outer_d; exact Hr].
  Qed.
  Lemma c_sout rho : continuous_outside rho -> continuous_outside (fun s => 4 * PI * s * rho s).
  Proof. intros C x Hx. apply (continuous_mult (K := R_AbsRing) (fun s => 4 * PI * s) rho); [|apply C; exact Hx]. apply (ex_derive_continuous (V := R_NormedModule)). auto_derive. exact I. Qed.
  Lemma ein_shell : shell_potential (Ei_rdens h n) ein_mass (Ei_revaluate h n).
  Proof.
    intros r Hr. exists (ein_outer r). split; [|apply ein_rev; exact Hr]. replace (ein_outer r) with (- - ein_outer r) by ring. apply (high_ftc _ (fun x => - ein_outer x)); [apply c_sout; exact ein_cont| | |exact Hr].
    - intros x Hx. apply (is_derive_eq _ _ (- - (4 * PI * x * Ei_rdens h n x))); [|rr; ring]. apply (is_derive_opp ein_outer). apply ein_outer_d. exact Hx.
    - apply (filterlim_ext (fun x => -1 * ein_outer x)); [intros; rr; ring|]. apply scal_lim; [apply _|exact ein_outer_inf].
  Qed.
  Lemma ein_mass_inf : at_infinity ein_mass (4 * PI * h ^ 3 * n * Gamma (3 * n)).
  Proof.
    unfold at_infinity. apply (filterlim_comp _ _ _ (fun r => Gamma_low (3 * n) (Ei_x h n r)) (fun y => 4 * PI * h ^ 3 * n * y) _ (locally (Gamma (3 * n)))); [apply (filterlim_comp _ _ _ (Ei_x h n) (Gamma_low (3 * n)) _ (Rbar_locally p_infty)); [exact x_inf|apply gl_inf; lra]|].
    apply (ex_derive_continuous (V := R_NormedModule)). auto_derive. exact I.
  Qed.
  Lemma ein_in1 : ex_RInt_gen (fun a => a ^ 2 * Ei_rdens h n a) (at_right 0) (at_point 1).
  Proof.
    destruct (ein_grav 1 Rlt_0_1 I) as (_ & _ & _ & _ & H). pose proof PI_RGT_0. exists (/ (4 * PI) * ein_mass 1). apply (is_RInt_gen_ext (fun s => / (4 * PI) * (4 * PI * s ^ 2 * Ei_rdens h n s))); [apply filter_forall; intros [u v] z _; rr; field; lra|]. apply is_gen_scal; [apply _|apply _|exact H].
  Qed.
  Lemma ein_out1 : ex_RInt_gen (fun a => Ei_rdens h n a * a) (at_point 1) (Rbar_locally p_infty).
  Proof.
    destruct (ein_shell 1 Rlt_0_1) as (o & H & _). pose proof PI_RGT_0. exists (/ (4 * PI) * o). apply (is_RInt_gen_ext (fun s => / (4 * PI) * (4 * PI * s * Ei_rdens h n s))); [apply filter_forall; intros [u v] z _; rr; field; lra|]. apply is_gen_scal; [apply _|apply _|exact H].
  Qed.
  Lemma ein_same r : 0 < r -> AS_rawmass (Ei_rdens h n) r = ein_mass r /\ AS_rev_inner (Ei_rdens h n) r = Ei_revaluate h n r.
  Proof. intros Hr. apply as_same; [exact ein_cont| |exact ein_shell|exact Hr]. intros s Hs. apply (ein_grav s Hs I). Qed.
  Lemma ein_pos r : 0 < r -> 0 <= Ei_rdens h n r. Proof. intros _. apply Rlt_le, exp_pos. Qed.
  Lemma ein_phi_inf : at_infinity (Ei_revaluate h n) 0.
  Proof.
    unfold at_infinity. apply filterlim_ext_loc with (2 := as_inf (Ei_rdens h n) ein_cont ein_in1 ein_out1 ein_pos). generalize inf_pos. apply filter_imp. intros r Hr. apply ein_same. exact Hr.
  Qed.
  Lemma ein_core : at_centre (Ei_revaluate h n) (Ei_revaluate h n 0).
  Proof.
    assert (Z : Ei_revaluate h n 0 = 0 + - (4 * PI * h ^ 2 * n * Gamma (2 * n))) by (unfold Ei_revaluate; destruct (Req_EM_T 0 0) as [_|N]; [unfold Ei_core, sp_gamma; ring|exfalso; apply N; reflexivity]). rewrite Z.
    assert (L1 : filterlim (fun r => -1 * (ein_mass r / r)) (at_right 0) (locally 0)).
    { apply scal_lim; [apply _|]. assert (E : ex_RInt_gen (fun a => a * Ei_rdens h n a) (at_right 0) (at_point 1)).
      { exists (/ (4 * PI) * (4 * PI * h ^ 2 * n * Gamma_low (2 * n) (Ei_x h n 1))). pose proof PI_RGT_0. apply (is_RInt_gen_ext (fun s => / (4 * PI) * (4 * PI * s * Ei_rdens h n s))); [apply filter_forall; intros [u v] z _; rr; field; lra|]. apply is_gen_scal; [apply _|apply _|].
        apply (low_ftc _ (fun r => 4 * PI * h ^ 2 * n * Gamma_low (2 * n) (Ei_x h n r))); [apply c_sout; exact ein_cont| | |lra].
        - intros r Hr. assert (D : is_derive (fun y => Gamma_low (2 * n) (Ei_x h n y)) r (gamma_int (2 * n) (Ei_x h n r) * (Ei_x h n r / (n * r)))) by (apply (is_derive_Rchain (Gamma_low (2 * n)) (Ei_x h n)); [apply gl_derive; [lra|apply x_pos]|apply x_derive'; exact Hr]).
          apply (is_derive_eq _ _ _ _ (is_derive_Rscal _ _ (4 * PI * h ^ 2 * n) _ D)). replace (gamma_int (2 * n) (Ei_x h n r) * (Ei_x h n r / (n * r))) with (gamma_int (2 * n) (Ei_x h n r) * Ei_x h n r / (n * r)) by (rr; field; lra). rewrite (x_gamma 2 r Hr). rewrite rpow_2 by (apply Rdiv_lt_0_compat; assumption). unfold Ei_rdens. rr. field. lra.
        - apply scal_lim; [apply _|]. apply (filterlim_comp _ _ _ (Ei_x h n) (Gamma_low (2 * n)) _ (at_right 0)); [exact x_zero|apply gl_lim; lra]. }
      apply filterlim_ext_loc with (2 := as_mass_over_0 (Ei_rdens h n) ein_cont ein_in1 ein_out1 ein_pos E). generalize right_pos. apply filter_imp. intros r Hr. rewrite (proj1 (ein_same r Hr)). reflexivity. }
    assert (L2 : filterlim (fun r => - ein_outer r) (at_right 0) (locally (- (4 * PI * h ^ 2 * n * Gamma (2 * n))))).
    { apply (filterlim_comp _ _ _ (fun r => Gamma_up (2 * n) (Ei_x h n r)) (fun y => - (4 * PI * h ^ 2 * n * y)) _ (locally (Gamma (2 * n)))); [apply (filterlim_comp _ _ _ (Ei_x h n) (Gamma_up (2 * n)) _ (at_right 0)); [exact x_zero|apply gu_zero; lra]|]. apply (ex_derive_continuous (V := R_NormedModule) (fun y => - (4 * PI * h ^ 2 * n * y)) (Gamma (2 * n))). auto_derive. exact I. }
    unfold at_centre. apply filterlim_ext_loc with (2 := sum_lim _ _ _ _ _ _ L1 L2). generalize right_pos. apply filter_imp. intros r Hr. rewrite (ein_rev r Hr). rr. field. lra.
  Qed.
  Lemma ein_slope r : 0 < r -> is_derive (Ei_rdens h n) r (- (Ei_x h n r / n) * Ei_rdens h n r / r).
  Proof.
    intros Hr. unfold Ei_rdens. eapply is_derive_eq; [apply (is_derive_comp exp (fun y => - Ei_x h n y)); [apply is_derive_exp|apply (is_derive_opp (Ei_x h n)); apply x_derive'; exact Hr]|]. unfold scal, opp; cbn; unfold mult; cbn. rr. field. lra.
  Qed.
End Ein.
Lemma ei_x_at rs d n : 0 < rs -> 0 < d -> 0 < n -> Ei_x (rs / rpow d n) n rs = d.
Proof.
  intros Hr Hd Hn. unfold Ei_x. pose proof (rpow_pos d n). replace (rs / (rs / rpow d n)) with (rpow d n) by (field; lra). rewrite rpow_mult. replace (n * (1 / n)) with 1 by (field; lra). apply rpow_1. exact Hd.
Qed.
Lemma ei_x_scaled rs d n r : 0 < rs -> 0 < d -> 0 < n -> 0 < r -> Ei_x (rs / rpow d n) n r = d * rpow (r / rs) (1 / n).
Proof.
  intros Hr Hd Hn H0. unfold Ei_x. pose proof (rpow_pos d n). assert (0 < r / rs) by (apply Rdiv_lt_0_compat; assumption). replace (r / (rs / rpow d n)) with (rpow d n * (r / rs)) by (field; lra).
  unfold rpow at 1, Rpower. rewrite ln_mult by assumption. rewrite Rmult_plus_distr_l, exp_plus. f_equal. unfold rpow, Rpower. rewrite ln_exp. replace (1 / n * (n * ln d)) with (ln d) by (field; lra). apply exp_ln. exact Hd.
Qed.
