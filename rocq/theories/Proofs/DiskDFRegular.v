(** The disk distribution functions depend continuously on the velocities; what the derivatives and the samplers get wrong. *)
From Coq Require Import Reals Lra Lia ZArith.
From Coquelicot Require Import Coquelicot.
From Verif.Lib Require Import RealAux.
From Verif.Model Require Import DiskDF.
From Verif.Spec Require Import DiskDFSpec.
From Verif.Proofs Require Import SpiralProofs EllExact DiskDFForm DiskDFDeriv DiskBox DiskDFMoments DiskDFMore DiskDFSample.
Open Scope R_scope.
Notation RR := RbaseSymbolsImpl.R (only parsing).
Ltac rr := match goal with |- ?a = ?b => change (@eq RR a b) end.

Lemma to_2d (g : RR -> RR -> RR) x y : continuous (fun z : RR * RR => g (fst z) (snd z)) (x, y) -> continuity_2d_pt g x y.
Proof. intros H. apply continuity_2d_pt_filterlim. exact H. Qed.
Lemma d_cont (h : RR -> RR) x d : is_derive h x d -> continuous h x.
Proof. intros H. apply (ex_derive_continuous h). exists d. exact H. Qed.
Lemma exp_cont x : continuous exp x. Proof. apply (d_cont exp x (exp x)). apply is_derive_exp. Qed.
Lemma rpow_cont a x : 0 < x -> continuous (fun x => rpow x a) x.
Proof. intros H. eapply d_cont. apply (is_derive_rpow (fun x => x) a x 1 H). apply (is_derive_id x). Qed.
Section Reg.
  Variables (b : RR) (p : Ssp).
  Hypothesis Hb : -1 < b.
  Hypothesis Hp : profile_ok p.
  Lemma Sig_cont x : 0 < x -> continuous (Sig p None) x.
  Proof. intros H. destruct (Hp x H) as (_ & _ & D & _). apply (cmult (fun x => sm p x) (fun _ => exp 0)); [exact (d_cont (sm p) x _ D)|apply ccst]. Qed.
  Lemma sg2_cont x : 0 < x -> continuous (sg2 p None) x.
  Proof. intros H. destruct (Hp x H) as (_ & _ & _ & _ & _ & _ & D & _). apply (cmult (fun x => s2 p x) (fun _ => exp 0)); [exact (d_cont (s2 p) x _ D)|apply ccst]. Qed.
  Lemma Ecirc_cont x : 0 < x -> continuous (E_circ b) x.
  Proof. intros H. eapply d_cont. apply Ecirc_derive; assumption. Qed.
  Lemma xof_cont E : bound_E b E -> continuous (xof b) E.
  Proof. intros H. eapply d_cont. apply (xof_derive b Hb (fun E => E) E 1 H). apply (is_derive_id E). Qed.
  Lemma radL_cont L : 0 < L -> continuous (radius_L b) L.
  Proof. intros H. eapply d_cont. apply (radL_derive b Hb (fun E => E) L 1 H). apply (is_derive_id L). Qed.
  Section Forms.
    Context {U : UniformSpace}.
    Variables (xx LL : U -> RR) (z : U).
    Hypothesis Cx : continuous xx z.
    Hypothesis CL : continuous LL z.
    Hypothesis Px : 0 < xx z.
    Lemma pref_cont : continuous (fun z => gamma_circ b * Sig p None (xx z) / (2 * PI * sg2 p None (xx z))) z.
    Proof.
      pose proof (sg2_pos p None Hp _ Px). pose proof PI_RGT_0.
      apply (cdiv (fun z => gamma_circ b * Sig p None (xx z)) (fun z => 2 * PI * sg2 p None (xx z))).
      - apply cmult; [apply ccst|apply (ccomp (Sig p None)); [exact Cx|apply Sig_cont; exact Px]].
      - apply cmult; [apply ccst|apply (ccomp (sg2 p None)); [exact Cx|apply sg2_cont; exact Px]].
      - apply Rgt_not_eq. apply Rmult_lt_0_compat; lra.
    Qed.
    Lemma dform_cont : continuous (fun z => dehnen_form b (Sig p None) (sg2 p None) (xx z) (LL z)) z.
    Proof.
      unfold dehnen_form. apply cmult; [exact pref_cont|]. apply (ccomp exp); [|apply exp_cont]. pose proof (sg2_pos p None Hp _ Px).
      assert (V : continuous (fun z => v_circ b (xx z)) z) by (apply (ccomp (fun x => rpow x b)); [exact Cx|apply rpow_cont; exact Px]).
      apply cdiv; [|apply (ccomp (sg2 p None)); [exact Cx|apply sg2_cont; exact Px]|lra]. unfold Omega_circ, L_circ. apply cmult; [apply cdiv; [exact V|exact Cx|lra]|].
      apply (continuous_minus LL (fun z => xx z * v_circ b (xx z))); [exact CL|]. apply cmult; [exact Cx|exact V].
    Qed.
    Lemma sform_cont : continuous (fun z => shu_form b (Sig p None) (sg2 p None) (xx z) (LL z)) z.
    Proof.
      unfold shu_form. apply cmult; [exact pref_cont|]. apply (ccomp exp); [|apply exp_cont]. pose proof (sg2_pos p None Hp _ Px).
      apply cdiv; [|apply (ccomp (sg2 p None)); [exact Cx|apply sg2_cont; exact Px]|lra].
      apply (continuous_minus (fun z => E_circ b (xx z)) LL); [|exact CL]. apply (ccomp (E_circ b)); [exact Cx|apply Ecirc_cont; exact Px].
    Qed.
  End Forms.
  Variable R : RR.
  Hypothesis HR : 0 < R.
  Definition en (vR vT : RR) : RR := axipotential R b + 1 / 2 * vR ^ 2 + 1 / 2 * vT ^ 2.
  Lemma en_cont z : continuous (fun z : RR * RR => en (fst z) (snd z)) z.
  Proof.
    unfold en. apply cplus; [apply cplus; [apply ccst|]|]; (apply cmult; [apply ccst|apply cpow]); [apply continuous_fst|apply continuous_snd].
  Qed.
  Lemma vTR_cont z : continuous (fun z : RR * RR => snd z * R) z.
  Proof. apply cmult; [apply continuous_snd|apply ccst]. Qed.
  Definition dehnen_f (vR vT : RR) : RR := dehnen_form b (Sig p None) (sg2 p None) (xof b (en vR vT)) (vT * R).
  Definition shu_f (vR vT : RR) : RR := shu_form b (Sig p None) (sg2 p None) (radius_L b (vT * R)) (en vR vT).
  Lemma dehnen_reg wR cT wT : (forall vR vT, - wR <= vR <= wR -> cT - wT <= vT <= cT + wT -> bound_E b (en vR vT)) ->
    regular_in_box wR cT wT (fun vR vT => df_at Dehnen b p None R vR vT) dehnen_f.
  Proof.
    intros H x y Hx Hy. specialize (H x y Hx Hy). split.
    - unfold df_at, vRvTRToEL, eval. fold (en x y). rewrite (xof_circ b Hb (en x y) H) at 1. rewrite dehnen_is by (assumption || apply xof_pos). rewrite Rminus_eq_0, exp_0, Rmult_1_l. reflexivity.
    - apply to_2d. apply (dform_cont (fun z : RR * RR => xof b (en (fst z) (snd z))) (fun z => snd z * R)); [|apply vTR_cont|apply xof_pos].
      apply (ccomp (xof b)); [apply en_cont|apply xof_cont; exact H].
  Qed.
  Lemma bound_pos vR vT : 0 <= b -> bound_E b (en vR vT).
  Proof.
    intros [H| <-]; [right|left; reflexivity]. unfold en. rewrite axipot_eq. unfold Phi_circ. destruct (Req_EM_T b 0); [lra|].
    pose proof (rpow_pos R (2 * b)) as P. unfold rpow in P. assert (0 < Rpower R (2 * b) / (2 * b)) by (apply Rdiv_lt_0_compat; lra). pose proof (pow2_ge_0 vR). pose proof (pow2_ge_0 vT).
    assert (0 < 1 + 1 / b) by (assert (0 < 1 / b) by (apply Rdiv_lt_0_compat; lra); lra). apply Rdiv_lt_0_compat; lra.
  Qed.
  Lemma shu_reg wR cT wT : 0 < cT - wT -> regular_in_box wR cT wT (fun vR vT => df_at Shu b p None R vR vT) shu_f.
  Proof.
    intros H x y Hx Hy. assert (HL : 0 < y * R) by (apply Rmult_lt_0_compat; lra). pose proof (radL_pos b _ HL) as Px. split.
    - unfold df_at, vRvTRToEL, eval. fold (en x y). rewrite (radL_circ b Hb _ HL) at 1. rewrite shu_is by assumption. rewrite Rminus_eq_0, exp_0, Rmult_1_l. reflexivity.
    - apply to_2d. apply (sform_cont (fun z : RR * RR => radius_L b (snd z * R)) (fun z => en (fst z) (snd z))); [|apply en_cont|exact Px].
      apply (ccomp (radius_L b)); [apply vTR_cont|apply radL_cont; exact HL].
  Qed.
  (** Along a line of sight. *)
  Lemma line_ex alpha v lo hi : 0 <= b -> ex_RInt (on_line Dehnen b p None R alpha v) lo hi.
  Proof.
    intros H. apply (ex_RInt_ext (fun s => dehnen_f (vR_of alpha v s) (vT_of alpha v s))).
    - intros s _. unfold on_line. destruct (dehnen_reg (Rabs (vR_of alpha v s)) (vT_of alpha v s) 0 (fun _ _ _ _ => bound_pos _ _ H) (vR_of alpha v s) (vT_of alpha v s)) as [E _].
      + unfold Rabs. destruct Rcase_abs; lra.
      + lra.
      + cbv beta in E. rewrite E. reflexivity.
    - apply cont_ex. intros s.
      assert (L1 : continuous (fun s => vR_of alpha v s) s) by (apply (d_cont _ s (sin alpha)); unfold vR_of; auto_derive; [exact Logic.I|rr; ring]).
      assert (L2 : continuous (fun s => vT_of alpha v s) s) by (apply (d_cont _ s (cos alpha)); unfold vT_of; auto_derive; [exact Logic.I|rr; ring]).
      apply (dform_cont (fun s => xof b (en (vR_of alpha v s) (vT_of alpha v s))) (fun s => vT_of alpha v s * R)); [|apply cmult; [exact L2|apply ccst]|apply xof_pos].
      apply (ccomp (xof b)); [|apply xof_cont, bound_pos, H]. unfold en. apply cplus; [apply cplus; [apply ccst|]|]; (apply cmult; [apply ccst|apply cpow]); assumption.
  Qed.
End Reg.

(** *** What the derivatives get wrong *)
Lemma logd_unique F x d d' : log_derivative F x d -> log_derivative F x d' -> d = d'.
Proof.
  intros (f & L & D) (g & M & D'). rewrite <- (is_derive_unique _ _ _ D), <- (is_derive_unique _ _ _ D'). apply Derive_ext_loc.
  apply (filter_imp (fun y => (F y = Some (f y) /\ 0 < f y) /\ (F y = Some (g y) /\ 0 < g y))); [|apply filter_and; assumption].
  intros y [[E _] [E' _]]. rewrite E in E'. injection E' as ->. reflexivity.
Qed.
Lemma schw_dvT_true p : profile_ok p -> log_derivative (fun vT => df_at Schwarzschild 0 p None 1 0 vT) 2 (dlnfdvT Schwarzschild 0 p 1 0 2 - / (2 * s2 p 2)).
Proof.
  intros Hp. assert (Hb : -1 < 0) by lra.
  set (E := fun vT : RR => 1 / 2 * 0 ^ 2 + 1 / 2 * sqrt (2 / (1 + 0)) ^ 2 * (vT - rpow 1 0) ^ 2 + rpow (1 * vT) (2 * 0) / 2 + ln (1 * vT)).
  assert (G : sqrt (2 / (1 + 0)) ^ 2 = 2) by (replace (sqrt (2 / (1 + 0)) ^ 2) with (sqrt (2 / (1 + 0)) * sqrt (2 / (1 + 0))) by ring; rewrite sqrt_sqrt; lra).
  assert (P0 : forall x, rpow x (2 * 0) = 1) by (intros; unfold rpow, Rpower; rewrite Rmult_0_r, Rmult_0_l; apply exp_0).
  assert (P1 : rpow 1 0 = 1) by (unfold rpow, Rpower; rewrite Rmult_0_l; apply exp_0).
  assert (D : is_derive E 2 (2 * (2 - 1) + 1 / 2)).
  { apply (is_derive_ext (fun vT => (vT - 1) ^ 2 + 1 / 2 + ln vT)).
    - intros t. unfold E. rewrite G, P0, P1, Rmult_1_l. rr. field.
    - auto_derive; [lra|]. rr. field. }
  assert (DL : is_derive (fun vT => 1 * vT) 2 1) by (auto_derive; [exact Logic.I|rr; ring]).
  pose proof (shu_log 0 p Hb Hp E (fun vT => 1 * vT) 2 _ 1 ltac:(lra) D DL) as S.
  assert (Q : radius_L 0 (1 * 2) = 2) by (unfold radius_L; destruct (Req_EM_T 0 0); [ring|contradiction]). cbv beta in S. rewrite Q in S.
  assert (E2 : E 2 = ln 2 + 3 / 2) by (unfold E; rewrite G, P0, P1; replace (1 * 2) with 2 by ring; field).
  eapply logd_eq.
  - destruct S as (f & L & DD). exists f. split; [|exact DD]. revert L. apply filter_imp. intros y H. unfold df_at, vRvTRToEL. cbv zeta.
    replace (radius_L 0 (1 * y)) with (1 * y) by (unfold radius_L; destruct (Req_EM_T 0 0); [reflexivity|contradiction]).
    replace (axipotential (1 * y) 0) with (ln (1 * y)) by (unfold axipotential; destruct (Req_EM_T 0 0); [reflexivity|contradiction]). exact H.
  - unfold dlnfdvT, shu_dlnfdvT, vRvTRToEL. cbv zeta. rewrite Q. destruct (Req_EM_T 0 0) as [_|n]; [|contradiction].
    replace (axipotential 2 0) with (ln 2) by (unfold axipotential; destruct (Req_EM_T 0 0); [reflexivity|contradiction]). rewrite G, P0, P1, E2.
    assert (EC : E_circ 0 2 = ln 2 + 1 / 2) by (rewrite <- (ECL_eq 0 2) by lra; unfold shu_ECL; destruct (Req_EM_T 0 0); [reflexivity|contradiction]).
    assert (EC2 : shu_ECL 0 2 = ln 2 + 1 / 2) by (unfold shu_ECL; destruct (Req_EM_T 0 0); [reflexivity|contradiction]). rewrite EC, EC2.
    replace (2 * 0 - 1) with (- (1)) by ring. rewrite rpow_opp, rpow_1 by lra. destruct (Hp 2 ltac:(lra)) as (_ & _ & _ & _ & P2 & _). field. lra.
Qed.
(** A correction multiplies the distribution function. *)
Lemma corrected_dR_true p c : profile_ok p -> (forall x, 0 < x -> is_derive (fun x => fst (c x)) x (fst (c x))) -> (forall x, snd (c x) = 0) ->
  log_derivative (fun R => df_at Dehnen 0 p (Some c) R 0 1) 1 (dlnfdR Dehnen 0 p 1 0 1 + fst (c 1)).
Proof.
  intros Hp Hc Hs. assert (Hb : -1 < 0) by lra.
  assert (En : forall y, axipotential y 0 + 1 / 2 * 0 ^ 2 + 1 / 2 * 1 ^ 2 = ln y + 1 / 2) by (intros; unfold axipotential; destruct (Req_EM_T 0 0); [field|contradiction]).
  assert (A : forall y, 0 < y -> E_circ 0 y = ln y + 1 / 2) by (intros y Hy; rewrite <- (ECL_eq 0 y Hy); unfold shu_ECL; destruct (Req_EM_T 0 0); [reflexivity|contradiction]).
  assert (F : forall y, 0 < y -> df_at Dehnen 0 p (Some c) y 0 1 = Some (exp (fst (c y)) * num (df_at Dehnen 0 p None y 0 1)) /\ df_at Dehnen 0 p None y 0 1 = Some (num (df_at Dehnen 0 p None y 0 1))).
  { intros y Hy. unfold df_at, vRvTRToEL, eval. rewrite En, <- A, !dehnen_is by assumption. cbn [num]. split; [|reflexivity]. f_equal. rewrite Rminus_eq_0, exp_0, !Rmult_1_l. unfold dehnen_form, Sig, sg2. cbn [log_corrections fst snd]. rewrite Hs, exp_0, !Rmult_1_r.
    match goal with |- context [sm p y * ?a] => change a with (exp (fst (c y))) end. unfold Rdiv. ring. }
  destruct (F 1 ltac:(lra)) as [_ F1]. pose proof (dehnen_dR 0 p Hb Hp 1 0 1 _ ltac:(lra) F1) as (f & L & D).
  exists (fun y => exp (fst (c y)) * f y). split.
  - apply (filter_imp (fun y => 0 < y /\ (df_at Dehnen 0 p None y 0 1 = Some (f y) /\ 0 < f y))); [|apply filter_and; [apply locally_pos; lra|exact L]].
    intros y (Hy & E & P). destruct (F y Hy) as [G _]. rewrite E in G. cbn [num] in G. split; [exact G|apply Rmult_lt_0_compat; [apply exp_pos|exact P]].
  - apply (is_derive_ext_loc (fun y => ln (f y) + fst (c y))).
    + revert L. apply filter_imp. intros y [_ P]. rewrite ln_mult, ln_exp by (exact P || apply exp_pos). rr. ring.
    + apply (is_derive_Rplus (fun y => ln (f y)) (fun y => fst (c y))); [exact D|apply Hc; lra].
Qed.

(** *** Positive mass *)
Lemma box_pos wR cT wT f : 0 < wR -> 0 < wT -> (forall x y, - wR <= x <= wR -> cT - wT <= y <= cT + wT -> continuity_2d_pt f x y /\ 0 < f x y) -> 0 < box_integral wR cT wT f.
Proof.
  intros HR HT H. rewrite (box_ext wR cT wT f (clamp2 wR cT wT f)) by (try lra; intros; symmetry; apply clamp2_in; assumption). set (g := clamp2 wR cT wT f).
  assert (C : Cont2 g) by (apply clamp2_cont; [lra|lra|intros; apply H; assumption]).
  assert (P : forall x y, 0 < g x y) by (intros; apply H; apply clamp_in; lra).
  unfold box_integral. apply RInt_gt_0; [lra| |].
  - intros y _. apply RInt_gt_0; [lra|intros; apply P|intros; apply cont2_slice1, C].
  - intros y _. apply int_cont; [lra|exact C].
Qed.
(** The radial derivative of the Dehnen distribution function is continuous in the velocities, for the exponential profile in a flat rotation curve. *)
Lemma exp_flat_fR p0 p1 p2 R x y : p0 <> 0 -> p1 <> 0 -> 0 < p2 -> 0 < R ->
  continuity_2d_pt (fun vR vT => dehnen_f 0 (exp_ssp p0 p1 p2) R vR vT * dlnfdR Dehnen 0 (exp_ssp p0 p1 p2) R vR vT) x y.
Proof.
  intros H0 H1 H2 HR. set (p := exp_ssp p0 p1 p2). pose proof (exp_ssp_ok p0 p1 p2 H0 H1 H2) as Hp. fold p in Hp. assert (Hb : -1 < 0) by lra.
  assert (B : forall x y, bound_E 0 (en 0 R x y)) by (intros; left; reflexivity).
  apply continuity_2d_pt_mult.
  - apply (dehnen_reg 0 p Hb Hp R (Rabs x) y 0); [intros; apply B|unfold Rabs; destruct Rcase_abs; lra|lra].
  - apply to_2d. unfold dlnfdR, dehnen_dlnfdR, dlnfdRe, dlnfdl. cbv zeta. destruct (Req_EM_T 0 0) as [_|n]; [|contradiction].
    set (xx := fun z : RR * RR => d_xE 0 R (fst z) (snd z)).
    assert (Cx : continuous xx (x, y)).
    { unfold xx. apply (continuous_ext (fun z => xof 0 (en 0 R (fst z) (snd z)))); [intros z; rewrite d_xE_eq; reflexivity|]. apply (ccomp (xof 0)); [apply en_cont|apply xof_cont; [exact Hb|apply B]]. }
    assert (Px : 0 < xx (x, y)) by (unfold xx; rewrite d_xE_eq; apply xof_pos).
    assert (Cs : continuous (fun z => s2 p (xx z)) (x, y)). { destruct (Hp _ Px) as (_ & _ & _ & _ & _ & _ & D & _). apply (ccomp (s2 p)); [exact Cx|exact (d_cont _ _ _ D)]. }
    assert (Ps : s2 p (xx (x, y)) <> 0) by (destruct (Hp _ Px) as (_ & _ & _ & _ & Q & _); lra).
    assert (Ci : continuous (fun z => / xx z) (x, y)) by (apply (continuous_ext (fun z => 1 / xx z)); [intros; unfold Rdiv; apply Rmult_1_l|apply cdiv; [apply ccst|exact Cx|lra]]).
    assert (Cp : forall a, continuous (fun z => rpow (xx z) a) (x, y)) by (intros a; apply (ccomp (fun x => rpow x a)); [exact Cx|apply rpow_cont; exact Px]).
    assert (CL : continuous (fun z : RR * RR => R * snd z - xx z) (x, y)) by (apply (continuous_minus (fun z : RR * RR => R * snd z) xx); [apply cmult; [apply ccst|apply continuous_snd]|exact Cx]).
    apply (cplus (fun z : RR * RR => (smDL p (xx z) - (1 + / xx z * (R * snd z - xx z) / s2 p (xx z)) * s2DL p (xx z) + (R * snd z - xx z) / s2 p (xx z) * (0 - 1) * rpow (xx z) (0 - 2) - / xx z * (0 + 1) / s2 p (xx z) * rpow (xx z) 0) * (xx z / R)) (fun z => / xx z / s2 p (xx z) * snd z)).
    + apply cmult; [|apply cdiv; [exact Cx|apply ccst|lra]].
      apply (continuous_minus (fun z : RR * RR => smDL p (xx z) - (1 + / xx z * (R * snd z - xx z) / s2 p (xx z)) * s2DL p (xx z) + (R * snd z - xx z) / s2 p (xx z) * (0 - 1) * rpow (xx z) (0 - 2)) (fun z => / xx z * (0 + 1) / s2 p (xx z) * rpow (xx z) 0)).
      * apply cplus; [|apply cmult; [apply cmult; [apply cdiv; assumption|apply ccst]|apply Cp]].
        apply (continuous_minus (fun z : RR * RR => smDL p (xx z)) (fun z => (1 + / xx z * (R * snd z - xx z) / s2 p (xx z)) * s2DL p (xx z))); [apply ccst|].
        apply cmult; [|apply ccst]. apply cplus; [apply ccst|]. apply cdiv; [apply cmult; assumption|assumption|assumption].
      * apply cmult; [apply cdiv; [apply cmult; [assumption|apply ccst]|assumption|assumption]|apply Cp].
    + apply cmult; [apply cdiv; assumption|apply continuous_snd].
Qed.
(** Two points of one orbit. *)
Lemma kappa_flat R : 0 < R -> kappa 0 R = sqrt 2 / R.
Proof. intros H. unfold kappa. replace (2 * (1 + 0)) with 2 by ring. replace (0 - 1) with (- (1)) by ring. rewrite rpow_opp, rpow_1 by exact H. reflexivity. Qed.
