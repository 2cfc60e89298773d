(** The Gamma functions, Kummer's series and the exponential integral: existence, derivatives, signs. *)
From Coq Require Import Reals Lra Lia.
From Coquelicot Require Import Coquelicot.
From Verif.Lib Require Import RealAux.
From Verif.Spec Require Import JeansSpec DensSpec.
From Verif.Proofs Require Import MassProofs JeansProofs Improper.
Open Scope R_scope.
Notation RR := RbaseSymbolsImpl.R (only parsing).
Ltac rr := match goal with |- ?a = ?b => change (@eq RR a b) end.

Lemma gi_pos a t : 0 < gamma_int a t.
Proof. unfold gamma_int. apply Rmult_lt_0_compat; [apply rpow_pos|apply exp_pos]. Qed.
Lemma rpow_cont b t : 0 < t -> continuous (fun x => rpow x b) t.
Proof. intros Ht. apply (ex_derive_continuous (V := R_NormedModule)). eexists. apply (is_derive_rpow (fun x => x) b t 1 Ht). apply (is_derive_id (K := R_AbsRing)). Qed.
Lemma gi_cont a : continuous_outside (gamma_int a).
Proof.
  intros t Ht. apply (continuous_mult (K := R_AbsRing) (fun x => rpow x (a - 1)) (fun x => exp (- x))); [apply rpow_cont; exact Ht|].
  apply (ex_derive_continuous (V := R_NormedModule)). auto_derive. exact I.
Qed.
(** ** Kummer's series *)
Definition kc (a : RR) (n : nat) : RR := rising a n / rising (a + 1) n / INR (fact n).
Lemma rising_pos a n : 0 < a -> 0 < rising a n.
Proof. intros Ha. induction n as [|n IH]; cbn [rising]; [lra|]. apply Rmult_lt_0_compat; [exact IH|]. pose proof (pos_INR n). lra. Qed.
Lemma rising_ratio a n : 0 < a -> rising a n / rising (a + 1) n = a / (a + INR n).
Proof.
  intros Ha. induction n as [|n IH]; [cbn; field; lra|]. cbn [rising]. pose proof (rising_pos (a + 1) n ltac:(lra)). pose proof (pos_INR n). rewrite S_INR.
  transitivity (rising a n / rising (a + 1) n * (a + INR n) / (a + 1 + INR n)); [field; lra|]. rewrite IH. field. lra.
Qed.
Lemma kc_eq a n : 0 < a -> kc a n = a / (a + INR n) / INR (fact n).
Proof. intros Ha. unfold kc. rewrite rising_ratio by exact Ha. reflexivity. Qed.
Lemma kc_cv a : 0 < a -> CV_radius (kc a) = p_infty.
Proof.
  intros Ha. apply CV_radius_infinite_DAlembert.
  - intros n. rewrite kc_eq by exact Ha. pose proof (pos_INR n). pose proof (INR_fact_lt_0 n). apply Rgt_not_eq. apply Rdiv_lt_0_compat; [apply Rdiv_lt_0_compat; lra|lra].
  - apply (is_lim_seq_le_le (fun _ => 0) _ (fun n => / INR (S n))).
    + intros n. rewrite !kc_eq by exact Ha. rewrite S_INR. pose proof (pos_INR n) as Hn. pose proof (INR_fact_lt_0 n) as Hf. assert (Ef : INR (fact (S n)) = (INR n + 1) * INR (fact n)) by (rewrite fact_simpl, mult_INR, S_INR; reflexivity). rewrite Ef.
      replace (a / (a + (INR n + 1)) / ((INR n + 1) * INR (fact n)) / (a / (a + INR n) / INR (fact n))) with ((a + INR n) / (a + INR n + 1) * / (INR n + 1)) by (field; lra).
      assert (0 < (a + INR n) / (a + INR n + 1)) by (apply Rdiv_lt_0_compat; lra). assert ((a + INR n) / (a + INR n + 1) <= 1) by (apply (Rmult_le_reg_r (a + INR n + 1)); [lra|]; field_simplify; lra). assert (0 < / (INR n + 1)) by (apply Rinv_0_lt_compat; lra).
      rewrite Rabs_pos_eq by (apply Rmult_le_pos; lra). split; [apply Rmult_le_pos; lra|]. rewrite <- (Rmult_1_l (/ (INR n + 1))) at 2. apply Rmult_le_compat_r; lra.
    + apply is_lim_seq_const.
    + apply (is_lim_seq_incr_1 (fun n => / INR n)). apply is_lim_seq_INR_inv || (replace (Finite 0) with (Rbar_inv p_infty) by reflexivity; apply is_lim_seq_inv; [apply is_lim_seq_INR|discriminate]).
Qed.
Lemma Kummer_exp a z : 0 < a -> Kummer a (a + 1) z + z / a * PSeries (PS_derive (kc a)) z = exp z.
Proof.
  intros Ha. change (Kummer a (a + 1) z) with (PSeries (kc a) z). pose proof (kc_cv a Ha) as CV.
  assert (E1 : ex_pseries (kc a) z) by (apply CV_radius_inside; rewrite CV; exact I).
  assert (E2 : ex_pseries (PS_derive (kc a)) z) by (apply CV_radius_inside; rewrite CV_radius_derive, CV; exact I).
  rewrite <- (is_pseries_unique _ _ _ (is_exp_Reals z)).
  transitivity (PSeries (kc a) z + / a * (z * PSeries (PS_derive (kc a)) z)); [rr; field; lra|].
  rewrite <- PSeries_incr_1. rewrite <- PSeries_scal. rewrite <- PSeries_plus.
  - apply PSeries_ext. intros n. unfold PS_plus, PS_scal, PS_incr_1, PS_derive, plus, scal; cbn -[fact INR kc]. unfold mult; cbn -[fact INR kc]. destruct n as [|n].
    + rewrite kc_eq by exact Ha. cbn. unfold zero; cbn. field. lra.
    + rewrite (kc_eq a (S n)) by exact Ha. pose proof (pos_INR (S n)). pose proof (INR_fact_lt_0 (S n)). field. split; lra.
  - exact E1.
  - apply ex_pseries_scal; [apply Rmult_comm|]. apply ex_pseries_incr_1. exact E2.
Qed.
Lemma Kummer_derive a z : 0 < a -> is_derive (Kummer a (a + 1)) z (PSeries (PS_derive (kc a)) z).
Proof. intros Ha. change (Kummer a (a + 1)) with (PSeries (kc a)). apply is_derive_PSeries. rewrite (kc_cv a Ha). exact I. Qed.
Lemma Kummer_0 a : 0 < a -> Kummer a (a + 1) 0 = 1.
Proof. intros Ha. change (Kummer a (a + 1) 0) with (PSeries (kc a) 0). rewrite PSeries_0. rewrite kc_eq by exact Ha. cbn. field. lra. Qed.
(** ** The lower incomplete Gamma function *)
Definition glow (a x : RR) : RR := rpow x a / a * Kummer a (a + 1) (- x).
Lemma glow_derive a x : 0 < a -> 0 < x -> is_derive (glow a) x (gamma_int a x).
Proof.
  intros Ha Hx. assert (D1 : is_derive (fun y => rpow y a / a) x (rpow x (a - 1))).
  { apply (is_derive_eq _ _ (/ a * (a * rpow x (a - 1) * 1))); [|rr; field; lra]. apply (is_derive_ext (fun y => / a * rpow y a)); [intros; rr; field; lra|]. apply is_derive_Rscal. apply (is_derive_rpow (fun y => y) a x 1 Hx). apply (is_derive_id (K := R_AbsRing)). }
  assert (D2 : is_derive (fun y => Kummer a (a + 1) (- y)) x (- PSeries (PS_derive (kc a)) (- x))).
  { apply (is_derive_eq _ _ (PSeries (PS_derive (kc a)) (- x) * (- 1))); [|rr; ring]. apply (is_derive_Rchain (Kummer a (a + 1)) (fun y => - y)); [apply Kummer_derive; exact Ha|]. auto_derive; [exact I|ring]. }
  pose proof (is_derive_Rmult _ _ _ _ _ D1 D2) as D. eapply is_derive_eq; [exact D|]. unfold gamma_int. rewrite <- (Kummer_exp a (- x) Ha).
  replace (rpow x a) with (rpow x (a - 1) * x); [rr; field; lra|]. rewrite <- (rpow_1 x Hx) at 2. rewrite <- rpow_plus. f_equal. ring.
Qed.
Lemma rpow_lim0 a : 0 < a -> filterlim (fun x => rpow x a) (at_right 0) (locally 0).
Proof. intros Ha. apply lim_rpow_right. exact Ha. Qed.
Lemma glow_lim a : 0 < a -> filterlim (glow a) (at_right 0) (locally 0).
Proof.
  intros Ha. assert (L2 : filterlim (fun x => Kummer a (a + 1) (- x)) (at_right 0) (locally 1)).
  { assert (Q : continuous (fun x => Kummer a (a + 1) (- x)) 0). { apply (continuous_comp (fun x : RR => - x) (Kummer a (a + 1))); [apply (ex_derive_continuous (V := R_NormedModule)); auto_derive; exact I|]. apply (ex_derive_continuous (V := R_NormedModule)). eexists. apply Kummer_derive. exact Ha. }
    unfold continuous in Q. rewrite Ropp_0, (Kummer_0 a Ha) in Q. intros P HP. specialize (Q P HP). unfold filtermap in *. destruct Q as [d Hd]. exists d. intros y Hy _. apply Hd. exact Hy. }
  assert (L1 : filterlim (fun x => rpow x a * (/ a)) (at_right 0) (locally 0)).
  { apply (filterlim_comp _ _ _ (fun x => rpow x a) (fun y => y * / a) _ (locally 0)); [apply rpow_lim0; exact Ha|]. assert (Q : continuous (fun y : RR => y * / a) 0) by (apply (ex_derive_continuous (V := R_NormedModule)); auto_derive; exact I). unfold continuous in Q. rewrite Rmult_0_l in Q. exact Q. }
  assert (L : filterlim (fun x => (rpow x a * (/ a)) * Kummer a (a + 1) (- x)) (at_right 0) (locally (0 * 1))).
  { apply (filterlim_comp_2 _ _ Rmult) with (1 := L1) (2 := L2). apply (filterlim_mult (K := R_AbsRing) 0 1). }
  rewrite Rmult_0_l in L. exact L.
Qed.
Lemma gl_int a x : 0 < a -> 0 < x -> is_RInt_gen (gamma_int a) (at_right 0) (at_point x) (glow a x).
Proof. intros Ha Hx. apply low_ftc; [apply gi_cont| |apply glow_lim; exact Ha|exact Hx]. intros y Hy. apply glow_derive; assumption. Qed.
Lemma gl_ex a : 0 < a -> ex_RInt_gen (gamma_int a) (at_right 0) (at_point 1).
Proof. intros Ha. eexists. apply gl_int; [exact Ha|lra]. Qed.
Lemma gl_eq a x : 0 < a -> 0 < x -> Gamma_low a x = rpow x a / a * Kummer a (a + 1) (- x).
Proof. intros Ha Hx. unfold Gamma_low. exact (is_RInt_gen_unique (V := R_CompleteNormedModule) (Fa := at_right 0) (Fb := at_point x) _ _ (gl_int a x Ha Hx)). Qed.
Lemma gl_derive a x : 0 < a -> 0 < x -> is_derive (Gamma_low a) x (gamma_int a x).
Proof. intros Ha Hx. apply (low_derive (gamma_int a) (gi_cont a) x (gl_ex a Ha) Hx). Qed.
Lemma gl_lim a : 0 < a -> filterlim (Gamma_low a) (at_right 0) (locally 0).
Proof. intros Ha. apply (low_lim (gamma_int a) (gi_cont a) (gl_ex a Ha)). Qed.
Lemma gl_pos a x : 0 < a -> 0 < x -> 0 < Gamma_low a x.
Proof. intros Ha Hx. apply (low_pos (gamma_int a) x (gi_cont a) (gl_ex a Ha) Hx). intros; apply gi_pos. Qed.
(** ** The upper one *)
Lemma ln_le_lin x : 0 < x -> ln x <= x.
Proof. intros Hx. pose proof (exp_ineq1_le (ln x)). rewrite exp_ln in H by exact Hx. lra. Qed.
Lemma rpow_exp_bound b t : 1 <= t -> rpow t b <= exp ((Rabs b + 1) * ln (2 * (Rabs b + 1))) * exp (t / 2).
Proof.
  intros Ht. set (K := Rabs b + 1). assert (HK : 0 < K) by (unfold K; pose proof (Rabs_pos b); lra). rewrite <- exp_plus. unfold rpow, Rpower.
  assert (Hl : 0 <= ln t) by (rewrite <- ln_1; destruct (Req_dec t 1) as [->|]; [lra|apply Rlt_le, ln_increasing; lra]).
  assert (H1 : b * ln t <= K * ln t) by (apply Rmult_le_compat_r; [exact Hl|unfold K; pose proof (Rle_abs b); lra]).
  assert (H2 : K * ln t <= K * ln (2 * K) + t / 2).
  { assert (Ht2 : 0 < t / (2 * K)) by (apply Rdiv_lt_0_compat; lra). replace (ln t) with (ln (2 * K) + ln (t / (2 * K))) by (rewrite <- ln_mult by lra; f_equal; field; lra).
    rewrite Rmult_plus_distr_l. apply Rplus_le_compat_l. apply Rle_trans with (K * (t / (2 * K))); [apply Rmult_le_compat_l; [lra|apply ln_le_lin; exact Ht2]|]. apply Req_le. field. lra. }
  destruct (Rle_lt_or_eq_dec _ _ (Rle_trans _ _ _ H1 H2)) as [H|H]; [apply Rlt_le, exp_increasing; exact H|rewrite H; apply Rle_refl].
Qed.
Lemma gu_ex a : ex_RInt_gen (gamma_int a) (at_point 1) (Rbar_locally p_infty).
Proof.
  set (C := exp ((Rabs (a - 1) + 1) * ln (2 * (Rabs (a - 1) + 1)))). assert (HC : 0 < C) by apply exp_pos.
  apply (dom_high (gamma_int a) (fun t => C * exp (- t / 2)) (fun t => - 2 * C * exp (- t / 2))).
  - apply gi_cont.
  - intros x Hx. split; [apply Rlt_le, gi_pos|]. unfold gamma_int. pose proof (rpow_exp_bound (a - 1) x Hx) as B. fold C in B.
    apply Rle_trans with (C * exp (x / 2) * exp (- x)); [apply Rmult_le_compat_r; [apply Rlt_le, exp_pos|exact B]|]. rewrite Rmult_assoc, <- exp_plus. apply Req_le. do 2 f_equal. field.
  - intros x _. apply (ex_derive_continuous (V := R_NormedModule)). auto_derive. exact I.
  - intros x _. auto_derive; [exact I|]. unfold Rdiv. rr. field.
  - intros x _. pose proof (exp_pos (- x / 2)). assert (0 < C * exp (- x / 2)) by (apply Rmult_lt_0_compat; assumption). lra.
Qed.
Lemma gu_derive a x : 0 < x -> is_derive (Gamma_up a) x (- gamma_int a x).
Proof. intros Hx. apply (high_derive (gamma_int a) (gi_cont a) x (gu_ex a) Hx). Qed.
Lemma gu_lim a : filterlim (Gamma_up a) (Rbar_locally p_infty) (locally 0).
Proof. apply (high_lim (gamma_int a) (gi_cont a) (gu_ex a)). Qed.
Lemma gu_pos a x : 0 < x -> 0 < Gamma_up a x.
Proof. intros Hx. apply (high_pos (gamma_int a) x (gi_cont a) (gu_ex a) Hx). intros; apply gi_pos. Qed.
Lemma g_split a x : 0 < a -> 0 < x -> Gamma a = Gamma_low a x + Gamma_up a x.
Proof. intros Ha Hx. unfold Gamma. exact (is_RInt_gen_unique (V := R_CompleteNormedModule) (Fa := at_right 0) (Fb := Rbar_locally p_infty) _ _ (whole (gamma_int a) x (gi_cont a) (gl_ex a Ha) (gu_ex a) Hx)). Qed.
Lemma g_pos a : 0 < a -> 0 < Gamma a.
Proof. intros Ha. rewrite (g_split a 1 Ha Rlt_0_1). pose proof (gl_pos a 1 Ha Rlt_0_1). pose proof (gu_pos a 1 Rlt_0_1). lra. Qed.
Lemma gl_inf a : 0 < a -> filterlim (Gamma_low a) (Rbar_locally p_infty) (locally (Gamma a)).
Proof.
  intros Ha. apply (filterlim_ext_loc (fun x => Gamma a - Gamma_up a x)).
  - generalize inf_pos. apply filter_imp. intros x Hx. rewrite (g_split a x Ha Hx). rr. ring.
  - apply (filterlim_comp _ _ _ (Gamma_up a) (fun y => Gamma a - y) _ (locally 0)); [apply gu_lim|]. assert (Q : continuous (fun y : RR => Gamma a - y) 0) by (apply (ex_derive_continuous (V := R_NormedModule)); auto_derive; exact I). unfold continuous in Q. rewrite Rminus_0_r in Q. exact Q.
Qed.
Lemma gu_zero a : 0 < a -> filterlim (Gamma_up a) (at_right 0) (locally (Gamma a)).
Proof.
  intros Ha. apply (filterlim_ext_loc (fun x => Gamma a - Gamma_low a x)).
  - generalize right_pos. apply filter_imp. intros x Hx. rewrite (g_split a x Ha Hx). rr. ring.
  - apply (filterlim_comp _ _ _ (Gamma_low a) (fun y => Gamma a - y) _ (locally 0)); [apply gl_lim; exact Ha|]. assert (Q : continuous (fun y : RR => Gamma a - y) 0) by (apply (ex_derive_continuous (V := R_NormedModule)); auto_derive; exact I). unfold continuous in Q. rewrite Rminus_0_r in Q. exact Q.
Qed.
(** ** The exponential integral *)
Definition ei_int (t : RR) : RR := exp (- t) / t.
Lemma ei_cont : continuous_outside ei_int.
Proof. intros t Ht. apply (ex_derive_continuous (V := R_NormedModule)). unfold ei_int. auto_derive. lra. Qed.
Lemma ei_ip t : 0 < t -> 0 < ei_int t.
Proof. intros Ht. apply Rdiv_lt_0_compat; [apply exp_pos|exact Ht]. Qed.
Lemma ei_ex : ex_RInt_gen ei_int (at_point 1) (Rbar_locally p_infty).
Proof.
  apply (dom_high ei_int (fun t => exp (- t)) (fun t => - exp (- t))).
  - apply ei_cont.
  - intros x Hx. split; [apply Rlt_le, ei_ip; lra|]. unfold ei_int. pose proof (exp_pos (- x)). apply (Rmult_le_reg_r x); [lra|]. replace (exp (- x) / x * x) with (exp (- x) * 1) by (field; lra). apply Rmult_le_compat_l; lra.
  - intros x _. apply (ex_derive_continuous (V := R_NormedModule)). auto_derive. exact I.
  - intros x _. auto_derive; [exact I|]. rr. ring.
  - intros x _. pose proof (exp_pos (- x)). lra.
Qed.
Lemma e1_derive x : 0 < x -> is_derive ExpInt x (- (exp (- x) / x)).
Proof. intros Hx. apply (high_derive ei_int ei_cont x ei_ex Hx). Qed.
Lemma e1_lim : filterlim ExpInt (Rbar_locally p_infty) (locally 0).
Proof. apply (high_lim ei_int ei_cont ei_ex). Qed.
Lemma e1_pos x : 0 < x -> 0 < ExpInt x.
Proof. intros Hx. apply (high_pos ei_int x ei_cont ei_ex Hx). exact ei_ip. Qed.
