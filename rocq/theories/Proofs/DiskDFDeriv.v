(** The derivatives of the logarithm of the disk distribution functions. *)
From Coq Require Import Reals Lra.
From Coquelicot Require Import Coquelicot.
From Verif.Lib Require Import RealAux.
From Verif.Model Require Import DiskDF.
From Verif.Spec Require Import DiskDFSpec.
From Verif.Proofs Require Import SpiralProofs DiskDFForm.
Open Scope R_scope.
Notation RR := RbaseSymbolsImpl.R (only parsing).
Ltac rr := match goal with |- ?a = ?b => change (@eq RR a b) end.

Lemma lcorr_none x : lcorr None x = (0, 0). Proof. reflexivity. Qed.
Lemma locally_gt (f : RR -> RR) (s c d : RR) : is_derive f s d -> c < f s -> locally s (fun y => c < f y).
Proof.
  intros D H. assert (C : continuous f s) by (apply (ex_derive_continuous f); exists d; exact D).
  apply (C (fun y => c < y)). apply (open_gt c (f s)). exact H.
Qed.

Section D.
  Variables (b : RR) (p : Ssp).
  Hypothesis Hb : -1 < b.
  Hypothesis Hp : profile_ok p.
  Lemma s2D_eq x : 0 < x -> s2D p x = s2 p x * s2DL p x.
  Proof.
    intros Hx. destruct (Hp x Hx) as (_ & _ & _ & _ & P & E & D & DL).
    assert (D2 : is_derive (s2L p) x (/ s2 p x * s2D p x)).
    { apply (is_derive_ext_loc (fun y => ln (s2 p y))).
      - apply (filter_imp (fun y => 0 < y)); [intros y Hy; symmetry; apply Hp; exact Hy|apply locally_pos; exact Hx].
      - apply (is_derive_Rchain ln (s2 p) x); [apply is_derive_ln; exact P|exact D]. }
    pose proof (is_derive_unique _ _ _ DL) as A. pose proof (is_derive_unique _ _ _ D2) as B. rewrite A in B. rewrite B. field. lra.
  Qed.
  (** The exponents. *)
  Definition ldehnen (x L : RR) : RR := smL p x - s2L p x + rpow x (b - 1) * (L - rpow x (b + 1)) / s2 p x.
  Definition lshu (x E : RR) : RR := smL p x - s2L p x + (E_circ b x - E) / s2 p x.
  Lemma ln_dehnen x L : 0 < x -> ln (dehnen_form b (Sig p None) (sg2 p None) x L) = ln (gamma_circ b / (2 * PI)) + ldehnen x L.
  Proof.
    intros Hx. unfold dehnen_form, Sig, sg2. cbn [fst snd log_corrections]. rewrite exp_0, !Rmult_1_r. destruct (Hp x Hx) as (P & E & _ & _ & P2 & E2 & _).
    pose proof PI_RGT_0. pose proof (gam_pos b Hb) as G. change (gam b) with (gamma_circ b) in G.
    replace (gamma_circ b * sm p x / (2 * PI * s2 p x)) with (gamma_circ b / (2 * PI) * (sm p x * / s2 p x)) by (field; split; lra).
    assert (0 < gamma_circ b / (2 * PI)) by (apply Rdiv_lt_0_compat; lra). pose proof (Rinv_0_lt_compat _ P2). assert (0 < sm p x * / s2 p x) by (apply Rmult_lt_0_compat; assumption).
    rewrite ln_mult, ln_exp, ln_mult, ln_mult, ln_Rinv by (repeat first [assumption | apply exp_pos | apply Rmult_lt_0_compat]). unfold ldehnen. rewrite E, E2.
    unfold Omega_circ, L_circ, v_circ. rewrite rpow_minus, rpow_plus, !rpow_1 by exact Hx. unfold rpow. field. split; lra.
  Qed.
  Lemma ln_shu x E0 : 0 < x -> ln (shu_form b (Sig p None) (sg2 p None) x E0) = ln (gamma_circ b / (2 * PI)) + lshu x E0.
  Proof.
    intros Hx. unfold shu_form, Sig, sg2. cbn [fst snd log_corrections]. rewrite exp_0, !Rmult_1_r. destruct (Hp x Hx) as (P & E & _ & _ & P2 & E2 & _).
    pose proof PI_RGT_0. pose proof (gam_pos b Hb) as G. change (gam b) with (gamma_circ b) in G.
    replace (gamma_circ b * sm p x / (2 * PI * s2 p x)) with (gamma_circ b / (2 * PI) * (sm p x * / s2 p x)) by (field; split; lra).
    assert (0 < gamma_circ b / (2 * PI)) by (apply Rdiv_lt_0_compat; lra). pose proof (Rinv_0_lt_compat _ P2). assert (0 < sm p x * / s2 p x) by (apply Rmult_lt_0_compat; assumption).
    rewrite ln_mult, ln_exp, ln_mult, ln_mult, ln_Rinv by (repeat first [assumption | apply exp_pos | apply Rmult_lt_0_compat]). unfold lshu. rewrite E, E2. ring.
  Qed.
  Lemma form_pos x e : 0 < x -> 0 < gamma_circ b * Sig p None x / (2 * PI * sg2 p None x) * exp e.
  Proof.
    intros Hx. pose proof (gam_pos b Hb). pose proof (Sig_pos p None Hp x Hx). pose proof (sg2_pos p None Hp x Hx). pose proof PI_RGT_0.
    apply Rmult_lt_0_compat; [|apply exp_pos]. apply Rdiv_lt_0_compat; [apply Rmult_lt_0_compat; assumption|]. apply Rmult_lt_0_compat; [lra|assumption].
  Qed.
  (** *** Dehnen *)
  Lemma ldehnen_derive (x L : RR -> RR) s dx dL : 0 < x s -> is_derive x s dx -> is_derive L s dL ->
    is_derive (fun y => ldehnen (x y) (L y)) s
      ((smDL p (x s) - (1 + rpow (x s) (b - 1) * (L s - rpow (x s) (b + 1)) / s2 p (x s)) * s2DL p (x s)
        + (L s - rpow (x s) (b + 1)) / s2 p (x s) * (b - 1) * rpow (x s) (b - 2) - rpow (x s) (b - 1) * (b + 1) / s2 p (x s) * rpow (x s) b) * dx
       + rpow (x s) (b - 1) / s2 p (x s) * dL).
  Proof.
    intros P Dx DL. destruct (Hp (x s) P) as (_ & _ & _ & D1 & P2 & _ & D2 & D3).
    pose proof (is_derive_Rchain _ x s _ _ D1 Dx) as A1. pose proof (is_derive_Rchain _ x s _ _ D2 Dx) as A2. pose proof (is_derive_Rchain _ x s _ _ D3 Dx) as A3.
    pose proof (is_derive_rpow x (b - 1) s dx P Dx) as A4. pose proof (is_derive_rpow x (b + 1) s dx P Dx) as A5. cbv beta in A1, A2, A3.
    unfold ldehnen. eapply is_derive_eq; [dv; apply Rgt_not_eq; exact P2|]. cbv beta. rewrite (s2D_eq _ P).
    replace (b - 1 - 1) with (b - 2) by ring. replace (b + 1 - 1) with b by ring. rr. field. lra.
  Qed.
  Definition xof (E : RR) : RR := if Req_EM_T b 0 then exp (E - 1 / 2) else rpow (2 * E / (1 + 1 / b)) (1 / 2 / b).
  Definition bound_E (E : RR) : Prop := b = 0 \/ 0 < 2 * E / (1 + 1 / b).
  Lemma xof_pos E : 0 < xof E. Proof. unfold xof. destruct (Req_EM_T b 0); [apply exp_pos|apply rpow_pos]. Qed.
  Lemma xof_circ E : bound_E E -> E = E_circ b (xof E).
  Proof.
    intros H. unfold E_circ, Phi_circ, xof. rewrite v2. destruct (Req_EM_T b 0) as [e|n].
    - rewrite ln_exp, e, Rmult_0_r. unfold rpow. rewrite Rpower_O by apply exp_pos. lra.
    - destruct H as [H|H]; [destruct (n H)|]. change (Rpower (rpow (2 * E / (1 + 1 / b)) (1 / 2 / b)) (2 * b)) with (rpow (rpow (2 * E / (1 + 1 / b)) (1 / 2 / b)) (2 * b)).
      rewrite rpow_mult. replace (1 / 2 / b * (2 * b)) with 1 by (field; exact n). rewrite rpow_1 by exact H. field. split; [exact n|lra].
  Qed.
  Lemma xof_derive (E : RR -> RR) s dE : bound_E (E s) -> is_derive E s dE ->
    is_derive (fun y => xof (E y)) s (if Req_EM_T b 0 then xof (E s) * dE else xof (E s) / 2 / b / E s * dE).
  Proof.
    intros H D. unfold xof. destruct (Req_EM_T b 0) as [e|n].
    - eapply is_derive_eq; [dv|]. cbv beta. rr. ring.
    - destruct H as [H|H]; [destruct (n H)|]. pose proof (one_inv b n Hb) as N.
      assert (D2 : is_derive (fun y => 2 * E y / (1 + 1 / b)) s (2 * dE / (1 + 1 / b))).
      { eapply is_derive_eq; [dv; exact N|]. cbv beta. rr. field. split; [exact n|lra]. }
      eapply is_derive_eq; [apply (is_derive_rpow _ (1 / 2 / b) s _ H D2)|]. cbv beta. assert (NE : E s <> 0). { intros Z. rewrite Z in H. unfold Rdiv in H. rewrite Rmult_0_r, Rmult_0_l in H. lra. }
      rewrite rpow_minus, rpow_1 by exact H. rr. field. repeat split; try assumption; lra.
  Qed.
  Lemma dehnen_log (E L : RR -> RR) s dE dL : bound_E (E s) -> is_derive E s dE -> is_derive L s dL ->
    log_derivative (fun y => dehnen_eval b p None (E y) (L y) 0 0) s
      ((smDL p (xof (E s)) - (1 + rpow (xof (E s)) (b - 1) * (L s - rpow (xof (E s)) (b + 1)) / s2 p (xof (E s))) * s2DL p (xof (E s))
        + (L s - rpow (xof (E s)) (b + 1)) / s2 p (xof (E s)) * (b - 1) * rpow (xof (E s)) (b - 2) - rpow (xof (E s)) (b - 1) * (b + 1) / s2 p (xof (E s)) * rpow (xof (E s)) b)
       * (if Req_EM_T b 0 then xof (E s) * dE else xof (E s) / 2 / b / E s * dE) + rpow (xof (E s)) (b - 1) / s2 p (xof (E s)) * dL).
  Proof.
    intros H D DL. exists (fun y => dehnen_form b (Sig p None) (sg2 p None) (xof (E y)) (L y)). split.
    - assert (Lo : locally s (fun y => bound_E (E y))).
      { destruct H as [H|H]; [apply filter_forall; intros; left; exact H|]. apply (filter_imp (fun y => 0 < 2 * E y / (1 + 1 / b))); [intros; right; assumption|].
        destruct (Req_EM_T (1 + 1 / b) 0) as [Z|N]; [rewrite Z in H; unfold Rdiv in H; rewrite Rinv_0, Rmult_0_r in H; lra|].
        apply (locally_gt (fun y => 2 * E y / (1 + 1 / b)) s 0 (2 * / (1 + 1 / b) * dE)); [|exact H]. apply (is_derive_ext (fun y => 2 * / (1 + 1 / b) * E y)); [intros; rr; unfold Rdiv; ring|].
        apply (is_derive_scal E). exact D. }
      revert Lo. apply filter_imp. intros y Hy. split.
      + rewrite (xof_circ (E y) Hy) at 1. rewrite dehnen_is by (assumption || apply xof_pos). rewrite Rminus_eq_0, exp_0, Rmult_1_l. reflexivity.
      + apply form_pos, xof_pos.
    - apply (is_derive_ext (fun y => ln (gamma_circ b / (2 * PI)) + ldehnen (xof (E y)) (L y))); [intros; symmetry; apply ln_dehnen, xof_pos|].
      eapply is_derive_eq; [apply (is_derive_Rplus (fun _ => ln (gamma_circ b / (2 * PI)))); [apply is_derive_cst|]|apply Rplus_0_l].
      apply (ldehnen_derive (fun y => xof (E y)) L s); [apply xof_pos|apply xof_derive; assumption|exact DL].
  Qed.
  (** *** Shu *)
  Lemma Ecirc_derive x : 0 < x -> is_derive (E_circ b) x ((1 + b) * rpow x (2 * b - 1)).
  Proof.
    intros Hx. unfold E_circ. apply (is_derive_ext (fun x => rpow x (2 * b) / 2 + Phi_circ b x)); [intros; rewrite v2; reflexivity|].
    pose proof (phi_derive b x Hx) as A. rewrite v2 in A. pose proof (is_derive_rpow (fun x => x) (2 * b) x 1 Hx (is_derive_id x)) as B. cbv beta in B.
    eapply is_derive_eq; [dv; lra|]. cbv beta. rewrite rpow_minus, rpow_1 by exact Hx. rr. field. lra.
  Qed.
  Lemma lshu_derive (x E : RR -> RR) s dx dE : 0 < x s -> is_derive x s dx -> is_derive E s dE ->
    is_derive (fun y => lshu (x y) (E y)) s
      ((smDL p (x s) - (1 + (E_circ b (x s) - E s) / s2 p (x s)) * s2DL p (x s)) * dx + ((1 + b) * rpow (x s) (2 * b - 1) * dx - dE) / s2 p (x s)).
  Proof.
    intros P Dx DE. destruct (Hp (x s) P) as (_ & _ & _ & D1 & P2 & _ & D2 & D3).
    pose proof (is_derive_Rchain _ x s _ _ D1 Dx) as A1. pose proof (is_derive_Rchain _ x s _ _ D2 Dx) as A2. pose proof (is_derive_Rchain _ x s _ _ D3 Dx) as A3.
    pose proof (is_derive_Rchain _ x s _ _ (Ecirc_derive _ P) Dx) as A4. cbv beta in A1, A2, A3, A4.
    unfold lshu. eapply is_derive_eq; [dv; apply Rgt_not_eq; exact P2|]. cbv beta. rewrite (s2D_eq _ P). rr. field. lra.
  Qed.
  Lemma radL_pos L : 0 < L -> 0 < radius_L b L. Proof. intros H. unfold radius_L. destruct (Req_EM_T b 0); [exact H|apply rpow_pos]. Qed.
  Lemma radL_circ L : 0 < L -> L = L_circ b (radius_L b L).
  Proof.
    intros H. unfold L_circ, v_circ, radius_L. destruct (Req_EM_T b 0) as [e|n].
    - rewrite e, Rpower_O by exact H. ring.
    - transitivity (rpow (rpow L (1 / (b + 1))) (b + 1)); [rewrite rpow_mult; replace (1 / (b + 1) * (b + 1)) with 1 by (field; lra); rewrite rpow_1 by exact H; reflexivity|].
      rewrite rpow_plus, rpow_1 by apply rpow_pos. unfold rpow. ring.
  Qed.
  Lemma radL_derive (L : RR -> RR) s dL : 0 < L s -> is_derive L s dL -> is_derive (fun y => radius_L b (L y)) s (radius_L b (L s) / L s / (b + 1) * dL).
  Proof.
    intros H D. unfold radius_L. destruct (Req_EM_T b 0) as [e|n].
    - eapply is_derive_eq; [exact D|]. assert (X : forall u d : RR, 0 < u -> d = u / u / (0 + 1) * d) by (intros; field; lra). rewrite e. apply X. exact H.
    - eapply is_derive_eq; [apply (is_derive_rpow L (1 / (b + 1)) s dL H D)|]. rewrite rpow_minus, rpow_1 by exact H. rr. field. split; lra.
  Qed.
  Lemma shu_log (E L : RR -> RR) s dE dL : 0 < L s -> is_derive E s dE -> is_derive L s dL ->
    log_derivative (fun y => shu_eval b p None (E y) (L y) 0 0) s
      ((smDL p (radius_L b (L s)) - (1 + (E_circ b (radius_L b (L s)) - E s) / s2 p (radius_L b (L s))) * s2DL p (radius_L b (L s))) * (radius_L b (L s) / L s / (b + 1) * dL)
       + ((1 + b) * rpow (radius_L b (L s)) (2 * b - 1) * (radius_L b (L s) / L s / (b + 1) * dL) - dE) / s2 p (radius_L b (L s))).
  Proof.
    intros H DE DL. exists (fun y => shu_form b (Sig p None) (sg2 p None) (radius_L b (L y)) (E y)).
    assert (Lo : locally s (fun y => 0 < L y)) by (apply (locally_gt L s 0 dL); assumption). split.
    - revert Lo. apply filter_imp. intros y Hy. split.
      + rewrite (radL_circ (L y) Hy) at 1. rewrite shu_is by (assumption || (apply radL_pos; exact Hy)). rewrite Rminus_eq_0, exp_0, Rmult_1_l. reflexivity.
      + apply form_pos, radL_pos. exact Hy.
    - apply (is_derive_ext_loc (fun y => ln (gamma_circ b / (2 * PI)) + lshu (radius_L b (L y)) (E y))).
      { revert Lo. apply filter_imp. intros y Hy. symmetry. apply ln_shu, radL_pos. exact Hy. }
      eapply is_derive_eq; [apply (is_derive_Rplus (fun _ => ln (gamma_circ b / (2 * PI)))); [apply is_derive_cst|]|apply Rplus_0_l].
      apply (lshu_derive (fun y => radius_L b (L y)) E s); [apply radL_pos; exact H|apply radL_derive; assumption|exact DE].
  Qed.

  (** *** The three derivatives *)
  Lemma E_dR R vR vT : 0 < R -> is_derive (fun R => axipotential R b + 1 / 2 * vR ^ 2 + 1 / 2 * vT ^ 2) R (rpow R (2 * b - 1)).
  Proof.
    intros H. pose proof (phi_derive b R H) as A. apply (is_derive_ext (fun R => Phi_circ b R + 1 / 2 * vR ^ 2 + 1 / 2 * vT ^ 2)); [intros; rewrite axipot_eq; reflexivity|].
    eapply is_derive_eq; [dv|]. cbv beta. rewrite v2, rpow_minus, rpow_1 by exact H. rr. unfold Rdiv. ring.
  Qed.
  Lemma E_dvR R vR vT : is_derive (fun vR => axipotential R b + 1 / 2 * vR ^ 2 + 1 / 2 * vT ^ 2) vR vR.
  Proof. eapply is_derive_eq; [dv|]. cbv beta. rr. cbn [pred pow INR]. field. Qed.
  Lemma E_dvT R vR vT : is_derive (fun vT => axipotential R b + 1 / 2 * vR ^ 2 + 1 / 2 * vT ^ 2) vT vT.
  Proof. eapply is_derive_eq; [dv|]. cbv beta. rr. cbn [pred pow INR]. field. Qed.
  Lemma d_energy_eq R vR vT : d_energy b R vR vT = axipotential R b + 1 / 2 * vR ^ 2 + 1 / 2 * vT ^ 2.
  Proof. unfold d_energy, axipotential. destruct (Req_EM_T b 0) as [|n]; [field|unfold rpow; field; exact n]. Qed.
  Lemma d_xE_eq R vR vT : d_xE b R vR vT = xof (axipotential R b + 1 / 2 * vR ^ 2 + 1 / 2 * vT ^ 2).
  Proof. unfold d_xE, xof. rewrite d_energy_eq. reflexivity. Qed.
  Lemma bound_of R vR vT v : df_at Dehnen b p None R vR vT = Some v -> bound_E (axipotential R b + 1 / 2 * vR ^ 2 + 1 / 2 * vT ^ 2).
  Proof.
    unfold df_at, vRvTRToEL, eval, dehnen_eval, radius_E, bound_E. destruct (Req_EM_T b 0) as [e|n]; [intros; left; exact e|]. cbv zeta.
    destruct (Rlt_dec 0 _) as [q|]; [intros; right; exact q|discriminate].
  Qed.
  Lemma L_of R vR vT v : df_at Shu b p None R vR vT = Some v -> 0 < v -> 0 < vT * R.
  Proof.
    unfold df_at, vRvTRToEL, eval, shu_eval. destruct (Rle_dec (vT * R) 0) as [q|q]; [|intros; lra]. destruct (Req_EM_T b 0); [|discriminate]. intros H Hv. injection H as <-. lra.
  Qed.
  Lemma OE_eq x : 0 < x -> (if Req_EM_T b 0 then / x else rpow x (b - 1)) = rpow x (b - 1).
  Proof. intros H. destruct (Req_EM_T b 0) as [e|]; [|reflexivity]. rewrite e. replace (0 - 1) with (- (1)) by ring. rewrite rpow_opp, rpow_1 by exact H. reflexivity. Qed.
  Lemma LCE_eq x : 0 < x -> (if Req_EM_T b 0 then x else rpow x (b + 1)) = rpow x (b + 1).
  Proof. intros H. destruct (Req_EM_T b 0) as [e|]; [|reflexivity]. rewrite e, Rplus_0_l, rpow_1 by exact H. reflexivity. Qed.
  Lemma logd_eq F x d d' : log_derivative F x d -> d = d' -> log_derivative F x d'. Proof. intros H <-. exact H. Qed.
  Lemma dehnen_dR R vR vT v : 0 < R -> df_at Dehnen b p None R vR vT = Some v -> log_derivative (fun R => df_at Dehnen b p None R vR vT) R (dlnfdR Dehnen b p R vR vT).
  Proof.
    intros HR H. apply bound_of in H. unfold df_at, vRvTRToEL, eval.
    eapply logd_eq; [apply (dehnen_log (fun R => axipotential R b + 1 / 2 * vR ^ 2 + 1 / 2 * vT ^ 2) (fun R => vT * R) R _ vT H (E_dR R vR vT HR))|].
    { eapply is_derive_eq; [dv|]. cbn. rr. ring. }
    unfold dlnfdR, dehnen_dlnfdR, dlnfdRe, dlnfdl. cbv zeta. rewrite d_xE_eq, d_energy_eq. pose proof (xof_pos (axipotential R b + 1 / 2 * vR ^ 2 + 1 / 2 * vT ^ 2)) as Px.
    rewrite OE_eq, LCE_eq by exact Px. rewrite (Rmult_comm vT R). f_equal. f_equal. destruct (Req_EM_T b 0) as [e|n]; [|reflexivity].
    rewrite e. replace (2 * 0 - 1) with (- (1)) by ring. rewrite rpow_opp, rpow_1 by exact HR. reflexivity.
  Qed.
  Lemma dehnen_dvR R vR vT v : 0 < R -> df_at Dehnen b p None R vR vT = Some v -> log_derivative (fun vR => df_at Dehnen b p None R vR vT) vR (dlnfdvR Dehnen b p R vR vT).
  Proof.
    intros HR H. apply bound_of in H. unfold df_at, vRvTRToEL, eval.
    eapply logd_eq; [apply (dehnen_log (fun vR => axipotential R b + 1 / 2 * vR ^ 2 + 1 / 2 * vT ^ 2) (fun vR => vT * R) vR _ 0 H (E_dvR R vR vT)); apply is_derive_cst|].
    unfold dlnfdvR, dehnen_dlnfdvR, dlnfdRe. cbv zeta. rewrite d_xE_eq, d_energy_eq. pose proof (xof_pos (axipotential R b + 1 / 2 * vR ^ 2 + 1 / 2 * vT ^ 2)) as Px.
    rewrite OE_eq, LCE_eq by exact Px. rewrite (Rmult_comm vT R), Rmult_0_r, Rplus_0_r. reflexivity.
  Qed.
  Lemma dehnen_dvT R vR vT v : 0 < R -> df_at Dehnen b p None R vR vT = Some v -> log_derivative (fun vT => df_at Dehnen b p None R vR vT) vT (dlnfdvT Dehnen b p R vR vT).
  Proof.
    intros HR H. apply bound_of in H. unfold df_at, vRvTRToEL, eval.
    eapply logd_eq; [apply (dehnen_log (fun vT => axipotential R b + 1 / 2 * vR ^ 2 + 1 / 2 * vT ^ 2) (fun vT => vT * R) vT _ R H (E_dvT R vR vT))|].
    { eapply is_derive_eq; [dv|]. cbn. rr. ring. }
    unfold dlnfdvT, dehnen_dlnfdvT, dlnfdRe, dlnfdl. cbv zeta. rewrite d_xE_eq, d_energy_eq. pose proof (xof_pos (axipotential R b + 1 / 2 * vR ^ 2 + 1 / 2 * vT ^ 2)) as Px.
    rewrite OE_eq, LCE_eq by exact Px. rewrite (Rmult_comm vT R). reflexivity.
  Qed.
  Lemma ECL_eq x : 0 < x -> shu_ECL b x = E_circ b x.
  Proof.
    intros H. unfold shu_ECL, E_circ, Phi_circ. rewrite v2. destruct (Req_EM_T b 0) as [e|n].
    - rewrite e, Rmult_0_r. unfold rpow. rewrite Rpower_O by exact H. field.
    - unfold rpow. field. exact n.
  Qed.
  Lemma shu_dR R vR vT v : 0 < R -> df_at Shu b p None R vR vT = Some v -> 0 < v -> log_derivative (fun R => df_at Shu b p None R vR vT) R (dlnfdR Shu b p R vR vT).
  Proof.
    intros HR H Hv. pose proof (L_of _ _ _ _ H Hv) as HL. unfold df_at, vRvTRToEL, eval.
    eapply logd_eq; [apply (shu_log (fun R => axipotential R b + 1 / 2 * vR ^ 2 + 1 / 2 * vT ^ 2) (fun R => vT * R) R _ vT HL (E_dR R vR vT HR))|].
    { eapply is_derive_eq; [dv|]. cbn. rr. ring. }
    unfold dlnfdR, shu_dlnfdR, vRvTRToEL. cbv zeta. pose proof (radL_pos _ HL) as Px. rewrite ECL_eq by exact Px. destruct (Hp _ Px) as (_ & _ & _ & _ & P2 & _).
    assert (vT <> 0) by (intros ->; lra).
    assert (A : (if Req_EM_T b 0 then vT else rpow (vT * R) (1 / (b + 1)) / R / (b + 1)) = radius_L b (vT * R) / (vT * R) / (b + 1) * vT).
    { unfold radius_L. destruct (Req_EM_T b 0) as [e|n]; [rewrite e; field; split; lra|field; repeat split; lra]. }
    rewrite A. set (x := radius_L b (vT * R)) in *. set (dx := x / (vT * R) / (b + 1) * vT). f_equal. f_equal. destruct (Req_EM_T b 0) as [e|n]; [|reflexivity].
    unfold dx. assert (Ex : x = vT * R) by (unfold x, radius_L; destruct (Req_EM_T b 0); [reflexivity|contradiction]). rewrite Ex, e.
    replace (2 * 0 - 1) with (- (1)) by ring. rewrite !rpow_opp, !rpow_1 by (exact HR || exact HL). field. split; lra.
  Qed.
  Lemma shu_dvR R vR vT v : 0 < R -> df_at Shu b p None R vR vT = Some v -> 0 < v -> log_derivative (fun vR => df_at Shu b p None R vR vT) vR (dlnfdvR Shu b p R vR vT).
  Proof.
    intros HR H Hv. pose proof (L_of _ _ _ _ H Hv) as HL. unfold df_at, vRvTRToEL, eval.
    eapply logd_eq; [apply (shu_log (fun vR => axipotential R b + 1 / 2 * vR ^ 2 + 1 / 2 * vT ^ 2) (fun vR => vT * R) vR _ 0 HL (E_dvR R vR vT)); apply is_derive_cst|].
    unfold dlnfdvR, shu_dlnfdvR, vRvTRToEL. cbv zeta. pose proof (radL_pos _ HL) as Px. destruct (Hp _ Px) as (_ & _ & _ & _ & P2 & _). rr. field. repeat split; try lra; intros ->; lra.
  Qed.
  Lemma shu_dvT R vR vT v : 0 < R -> df_at Shu b p None R vR vT = Some v -> 0 < v -> log_derivative (fun vT => df_at Shu b p None R vR vT) vT (dlnfdvT Shu b p R vR vT).
  Proof.
    intros HR H Hv. pose proof (L_of _ _ _ _ H Hv) as HL. unfold df_at, vRvTRToEL, eval.
    eapply logd_eq; [apply (shu_log (fun vT => axipotential R b + 1 / 2 * vR ^ 2 + 1 / 2 * vT ^ 2) (fun vT => vT * R) vT _ R HL (E_dvT R vR vT))|].
    { eapply is_derive_eq; [dv|]. cbn. rr. ring. }
    unfold dlnfdvT, shu_dlnfdvT, vRvTRToEL. cbv zeta. pose proof (radL_pos _ HL) as Px. rewrite ECL_eq by exact Px. destruct (Hp _ Px) as (_ & _ & _ & _ & P2 & _).
    assert (vT <> 0) by (intros ->; lra).
    assert (A : (if Req_EM_T b 0 then R else rpow (vT * R) (1 / (b + 1)) / vT / (b + 1)) = radius_L b (vT * R) / (vT * R) / (b + 1) * R).
    { unfold radius_L. destruct (Req_EM_T b 0) as [e|n]; [rewrite e; field; split; lra|field; repeat split; lra]. }
    rewrite A. set (x := radius_L b (vT * R)) in *. set (dx := x / (vT * R) / (b + 1) * R). f_equal. f_equal. destruct (Req_EM_T b 0) as [e|n]; [|reflexivity].
    unfold dx. assert (Ex : x = vT * R) by (unfold x, radius_L; destruct (Req_EM_T b 0); [reflexivity|contradiction]). rewrite Ex, e.
    replace (2 * 0 - 1) with (- (1)) by ring. rewrite !rpow_opp, !rpow_1 by (exact HR || exact HL). field. split; lra.
  Qed.
End D.
