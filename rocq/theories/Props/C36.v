(** C36: dynamical-friction forces keep their meaning when they are copied, scaled or given another mass or size *)
From Coq Require Import Reals List Bool Lra.
From Coquelicot Require Import Coquelicot.
From Verif Require Import Lib.RealAux Model.Friction.
Import ListNotations.
Open Scope R_scope.
Notation RR := RbaseSymbolsImpl.R (only parsing).

(** What a sequence of operations should amount to: a factor, the mass and the half-mass radius last set *)
Definition total_factor (os : list op) : RR := fold_left (fun b o => match o with Scale c => b * c | _ => b end) os 1.
Definition last_mass (g : RR) (os : list op) : RR := fold_left (fun g o => match o with SetGMs g' => g' | _ => g end) os g.
Definition last_size (r : RR) (os : list op) : RR := fold_left (fun r o => match o with SetRhm r' => r' | _ => r end) os r.
Definition masses_ok (os : list op) : Prop := List.Forall (fun o => match o with SetGMs g => g <> 0 | _ => True end) os.

Section C36.
  Variable pot : Type.
  Variable density : pot -> RR -> RR -> RR -> RR -> RR.
  Variable jeans_sigmar : pot -> RR -> RR.
  Variable log_halo : pot.
  Variable spline : list RR -> list RR -> RR -> RR.
  Variable linspace : RR -> RR -> nat -> list RR.
  Variable erf Ci : RR -> RR.
  Variable euler_gamma : RR.
  Notation make := (make pot density jeans_sigmar log_halo spline linspace).
  Notation applies := (applies pot density jeans_sigmar).
  Notation copy := (copy pot density jeans_sigmar).
  Notation Rforce := (Rforce pot erf Ci euler_gamma).
  Notation zforce := (zforce pot erf Ci euler_gamma).
  Notation phitorque := (phitorque pot erf Ci euler_gamma).

  Lemma total_factor_app os o : total_factor (os ++ [o]) = match o with Scale c => total_factor os * c | _ => total_factor os end.
  Proof. unfold total_factor. rewrite fold_left_app. reflexivity. Qed.
  Lemma last_mass_app g os o : last_mass g (os ++ [o]) = match o with SetGMs g' => g' | _ => last_mass g os end.
  Proof. unfold last_mass. rewrite fold_left_app. reflexivity. Qed.
  Lemma last_size_app g os o : last_size g (os ++ [o]) = match o with SetRhm g' => g' | _ => last_size g os end.
  Proof. unfold last_size. rewrite fold_left_app. reflexivity. Qed.
  Definition with_amp (a : RR) (f : force pot) : force pot :=
    mkForce pot a (ms _ f) (gamma _ f) (rhm _ f) (minr _ f) (maxr _ f) (lnL _ f) (dens_kwarg _ f) (sigmar_kwarg _ f) (dens_pot _ f) (dens_host _ f) (sigmar_orig _ f) (rs4 _ f) (sigmars4 _ f) (sigmar _ f) (fdm _ f).
  Lemma history_state amp0 GMs ga rh dens lnl mi ma nr fdm os : amp0 <> 0 -> GMs <> 0 -> masses_ok os ->
    last_mass GMs os <> 0 /\
    applies (make amp0 GMs ga rh dens None lnl mi ma nr fdm) os =
    (let g := make amp0 (last_mass GMs os) ga (last_size rh os) dens None lnl mi ma nr fdm in with_amp (total_factor os * amp _ g) g).
  Proof.
    intros Ha Hg. cbv zeta. induction os as [|o os IH] using rev_ind; intros W.
    - split; [exact Hg|]. unfold applies, total_factor, last_mass, last_size. cbn [fold_left]. unfold with_amp, Friction.make. cbn. now rewrite Rmult_1_l.
    - apply Forall_app in W. destruct W as [W Wo]. specialize (IH W). destruct IH as [Hm IH]. inversion Wo as [|? ? Ho _]; subst.
      rewrite total_factor_app, last_mass_app, last_size_app. unfold Friction.applies in *. rewrite fold_left_app. cbn [fold_left]. rewrite IH.
      destruct o as [|b|g|r]; (split; [try exact Hm; exact Ho|]); unfold with_amp, apply, Friction.copy, scale, set_GMs, set_rhm, setstate, getstate, Friction.copy, Friction.make; cbn.
      + destruct dens; reflexivity.
      + replace (total_factor os * (amp0 * last_mass GMs os * (4 * PI)) * b) with (total_factor os * b * (amp0 * last_mass GMs os * (4 * PI))) by ring. destruct dens; reflexivity.
      + replace (total_factor os * (amp0 * last_mass GMs os * (4 * PI)) * (g / (amp0 * last_mass GMs os / amp0))) with (total_factor os * (amp0 * g * (4 * PI))) by (field; auto).
        replace (amp0 * g / amp0) with g by (field; auto). reflexivity.
      + reflexivity.
  Qed.
  (** A force for which the dispersion is computed from the density: after any sequence of copies, picklings, multiplications and new masses and sizes, the force is that of a force
      newly set up with the last mass and size, times the product of the factors *)
  Theorem C36_history :
    forall amp0 GMs ga rh dens lnl mi ma nr fdm os R z phi t v, amp0 <> 0 -> GMs <> 0 -> masses_ok os ->
      let f := applies (make amp0 GMs ga rh dens None lnl mi ma nr fdm) os in
      let fresh := make amp0 (last_mass GMs os) ga (last_size rh os) dens None lnl mi ma nr fdm in
      Rforce f R z phi t v = total_factor os * Rforce fresh R z phi t v /\ zforce f R z phi t v = total_factor os * zforce fresh R z phi t v /\ phitorque f R z phi t v = total_factor os * phitorque fresh R z phi t v.
  Proof.
    intros amp0 GMs ga rh dens lnl mi ma nr fd os R z phi t v Ha Hg W. cbv zeta. destruct (history_state amp0 GMs ga rh dens lnl mi ma nr fd os Ha Hg W) as [_ E]. cbv zeta in E. rewrite E.
    set (g := make amp0 (last_mass GMs os) ga (last_size rh os) dens None lnl mi ma nr fd). clearbody g.
    assert (C : calc_force pot erf Ci euler_gamma (with_amp (total_factor os * amp _ g) g) R phi z v t = calc_force pot erf Ci euler_gamma g R phi z v t) by (destruct g; reflexivity).
    unfold Friction.Rforce, Friction.zforce, Friction.phitorque. rewrite C. cbn [with_amp amp]. split; [|split]; ring.
  Qed.
  (** In particular copying and pickling change nothing *)
  Theorem C36_copy :
    forall amp0 GMs ga rh dens lnl mi ma nr fdm os R z phi t v, amp0 <> 0 -> GMs <> 0 -> masses_ok os ->
      let f := applies (make amp0 GMs ga rh dens None lnl mi ma nr fdm) os in
      Rforce (copy f) R z phi t v = Rforce f R z phi t v /\ zforce (copy f) R z phi t v = zforce f R z phi t v /\ phitorque (copy f) R z phi t v = phitorque f R z phi t v.
  Proof.
    intros amp0 GMs ga rh dens lnl mi ma nr fdm os R z phi t v Ha Hg W. cbv zeta.
    pose proof (C36_history amp0 GMs ga rh dens lnl mi ma nr fdm os R z phi t v Ha Hg W) as [A1 [A2 A3]].
    assert (W' : masses_ok (os ++ [Copy])) by (apply Forall_app; split; [exact W | repeat constructor]).
    pose proof (C36_history amp0 GMs ga rh dens lnl mi ma nr fdm (os ++ [Copy]) R z phi t v Ha Hg W') as [B1 [B2 B3]].
    rewrite total_factor_app, last_mass_app, last_size_app in B1, B2, B3. rewrite <- A1 in B1. rewrite <- A2 in B2. rewrite <- A3 in B3.
    unfold Friction.applies in *. rewrite fold_left_app in B1, B2, B3. cbn [fold_left apply] in B1, B2, B3. auto.
  Qed.

  (** With a dispersion given by the user, this holds within the range of its table only *)
  Theorem C36_copy_user_partial :
    forall amp0 GMs ga rh dens sg lnl mi ma nr fdm R z phi t v, sqrt (R ^ 2 + z ^ 2) <= ma ->
      let f := make amp0 GMs ga rh dens sg lnl mi ma nr fdm in
      Rforce (copy f) R z phi t v = Rforce f R z phi t v /\ zforce (copy f) R z phi t v = zforce f R z phi t v /\ phitorque (copy f) R z phi t v = phitorque f R z phi t v.
  Proof.
    intros amp0 GMs ga rh dens sg lnl mi ma nr fd R z phi t v L. cbv zeta. set (f := make amp0 GMs ga rh dens sg lnl mi ma nr fd).
    assert (S : sig_at pot (copy f) (sqrt (R ^ 2 + z ^ 2)) = sig_at pot f (sqrt (R ^ 2 + z ^ 2))).
    { unfold sig_at, ltb. cbn [copy setstate getstate d_all maxr sigmar f Friction.copy Friction.setstate]. change (maxr pot (copy f)) with ma. change (maxr pot f) with ma. destruct (Rlt_dec ma (sqrt (R ^ 2 + z ^ 2))); [lra | reflexivity]. }
    assert (C : calc_force pot erf Ci euler_gamma (copy f) R phi z v t = calc_force pot erf Ci euler_gamma f R phi z v t).
    { unfold calc_force. change (minr pot (copy f)) with (minr pot f). destruct (ltb (sqrt (R ^ 2 + z ^ 2)) (minr pot f)); [reflexivity|]. destruct v as [[vR vT] vz]. change (Friction.fdm pot (copy f)) with (Friction.fdm pot f).
      change (dens_host pot (copy f) R z phi t) with (dens_host pot f R z phi t).
      destruct (Friction.fdm pot f) as [[mh cst]|]; [|rewrite S; reflexivity]. destruct (negb (is0 cst)); [reflexivity|]. unfold frictionFactor. rewrite S. reflexivity. }
    unfold Friction.Rforce, Friction.zforce, Friction.phitorque. rewrite C. split; [|split]; reflexivity.
  Qed.
End C36.
Print Assumptions C36_history.
Print Assumptions C36_copy.
Print Assumptions C36_copy_user_partial.

(** ** Beyond that range it is false *)
(** the error function *)
Definition true_erf (x : RR) : RR := 2 / sqrt PI * RInt (fun u => exp (- u ^ 2)) 0 x.
Lemma is_derive_erf x : is_derive true_erf x (2 / sqrt PI * exp (- x ^ 2)).
Proof.
  unfold true_erf. apply (is_derive_scal (fun y => RInt (fun u => exp (- u ^ 2)) 0 y) x (2 / sqrt PI) (exp (- x ^ 2))).
  assert (Cn : forall y, continuous (fun u => exp (- u ^ 2)) y) by (intros y; apply (ex_derive_continuous (fun u => exp (- u ^ 2))); auto_derive; exact I).
  apply (is_derive_RInt (fun u => exp (- u ^ 2)) (RInt (fun u => exp (- u ^ 2)) 0) 0 x); [|apply Cn].
  apply filter_forall. intros y. apply (RInt_correct (fun u => exp (- u ^ 2)) 0 y). apply ex_RInt_continuous. intros u _. apply Cn.
Qed.
Lemma sqrt_PI_pos : 0 < sqrt PI.
Proof. apply sqrt_lt_R0, PI_RGT_0. Qed.
Lemma Xfactor_increasing x y : 0 < x < y -> Xfactor true_erf x < Xfactor true_erf y.
Proof.
  intros H. pose proof sqrt_PI_pos as P. pose (df := fun u => 4 / sqrt PI * u ^ 2 * exp (- u ^ 2)).
  assert (D : forall u : RR, is_derive (Xfactor true_erf) u (df u)).
  { intros u. unfold Xfactor, df. apply (is_derive_eq _ u (2 / sqrt PI * exp (- u ^ 2) - (2 * (1 / sqrt PI) * exp (- u ^ 2) + 2 * u * (1 / sqrt PI) * (- (2 * u) * exp (- u ^ 2))))).
    - apply (is_derive_minus true_erf (fun u => 2 * u * (1 / sqrt PI) * exp (- u ^ 2))); [apply is_derive_erf|]. auto_derive; [exact I|]. cbn [INR Nat.pred]. field_simplify_eq; [ring | lra].
    - match goal with |- ?a = ?b => change (@eq RbaseSymbolsImpl.R a b) end. field. lra. }
  destruct (MVT_gen (Xfactor true_erf) x y df) as [c [Hc E]].
  - intros u _. apply D.
  - intros u _. apply continuity_pt_filterlim. apply (ex_derive_continuous (Xfactor true_erf)). exists (df u). apply D.
  - rewrite Rmin_left, Rmax_right in Hc by lra.
    assert (0 < df c) by (unfold df; apply Rmult_lt_0_compat; [apply Rmult_lt_0_compat; [apply Rdiv_lt_0_compat; lra | nra] | apply exp_pos]). nra.
Qed.
(** For every force set up with a dispersion given by the user, wherever beyond the table the user's dispersion is not the one from the Jeans equation (and there is density, motion along R and
    a Coulomb logarithm), a copy gives another force *)
Theorem C36_copy_user_refuted :
  forall pot density jeans_sigmar log_halo spline linspace Ci euler_gamma amp0 GMs ga rh dens user lnl mi ma nr R z phi t vR vT vz,
    let f := make pot density jeans_sigmar log_halo spline linspace amp0 GMs ga rh dens (Some user) lnl mi ma nr None in
    let r := sqrt (R ^ 2 + z ^ 2) in
    amp0 <> 0 -> GMs <> 0 -> lnl <> 0 -> vR <> 0 -> mi <= r -> ma < r -> dens_host pot f R z phi t <> 0 -> 0 < user r -> 0 < jeans_sigmar (dens_pot pot f) r -> user r <> jeans_sigmar (dens_pot pot f) r ->
    Rforce pot true_erf Ci euler_gamma (copy pot density jeans_sigmar f) R z phi t (vR, vT, vz) <> Rforce pot true_erf Ci euler_gamma f R z phi t (vR, vT, vz).
Proof.
  intros pot density jeans log_halo spline linspace Ci eg amp0 GMs ga rh dens user lnl mi ma nr R z phi t vR vT vz f r Ha Hg Hl Hv Hmi Hma Hd Hu Hj Hne E.
  unfold Rforce, calc_force in E. cbn [fst] in E.
  change (minr pot (copy pot density jeans f)) with mi in E. change (minr pot f) with mi in E. fold r in E. replace (ltb r mi) with false in E by (unfold ltb; destruct (Rlt_dec r mi); [lra | reflexivity]).
  change (fdm pot (copy pot density jeans f)) with (@None (RR * RR)) in E. change (fdm pot f) with (@None (RR * RR)) in E. cbn [fst] in E.
  set (vs := sqrt (vR ^ 2 + vT ^ 2 + vz ^ 2)) in *. assert (Hvs : 0 < vs) by (unfold vs; apply sqrt_lt_R0; pose proof (pow2_gt_0 vR Hv); nra).
  change (dens_host pot (copy pot density jeans f) R z phi t) with (dens_host pot f R z phi t) in E. set (rho := dens_host pot f R z phi t) in *.
  change (amp pot (copy pot density jeans f)) with (amp pot f) in E. change (lnLambda pot (copy pot density jeans f) r vs) with (lnLambda pot f r vs) in E.
  assert (EL : lnLambda pot f r vs = lnl) by (unfold lnLambda; change (lnL pot f) with lnl; unfold is0; destruct (Req_EM_T lnl 0); [contradiction | reflexivity]). rewrite EL in E.
  assert (S1 : sig_at pot (copy pot density jeans f) r = jeans (dens_pot pot f) r).
  { unfold sig_at, ltb. change (maxr pot (copy pot density jeans f)) with ma. destruct (Rlt_dec ma r) as [_|]; [|lra]. destruct dens; reflexivity. }
  assert (S2 : sig_at pot f r = user r).
  { unfold sig_at, ltb. change (maxr pot f) with ma. destruct (Rlt_dec ma r) as [_|]; [reflexivity | lra]. }
  rewrite S1, S2 in E. set (j := jeans (dens_pot pot f) r) in *. set (u := user r) in *.
  assert (HA : amp pot f <> 0) by (change (amp0 * GMs * (4 * PI) <> 0); apply Rmult_integral_contrapositive_currified; [now apply Rmult_integral_contrapositive_currified | pose proof PI_RGT_0; apply Rgt_not_eq; lra]).
  assert (X : Xfactor true_erf (vs * inv_sqrt2 / j) = Xfactor true_erf (vs * inv_sqrt2 / u)).
  { apply Rmult_eq_reg_l in E; [|exact HA]. apply Rmult_eq_reg_r in E; [|exact Hv]. apply Rmult_eq_reg_r in E; [|exact Hl]. apply Rmult_eq_reg_l in E; [exact E|].
    unfold Rdiv. apply Rmult_integral_contrapositive_currified; [now apply Ropp_neq_0_compat | apply Rinv_neq_0_compat, pow_nonzero, Rgt_not_eq; exact Hvs]. }
  assert (K : 0 < vs * inv_sqrt2) by (apply Rmult_lt_0_compat; [exact Hvs | unfold inv_sqrt2; apply Rdiv_lt_0_compat; [lra | apply sqrt_lt_R0; lra]]).
  assert (M : forall a b, 0 < a < b -> vs * inv_sqrt2 / b < vs * inv_sqrt2 / a).
  { intros a b H. unfold Rdiv. apply Rmult_lt_compat_l; [exact K|]. apply Rinv_lt_contravar; nra. }
  destruct (Rtotal_order j u) as [H|[H|H]]; [| congruence |].
  - specialize (M j u (conj Hj H)). pose proof (Xfactor_increasing (vs * inv_sqrt2 / u) (vs * inv_sqrt2 / j)) as I. assert (0 < vs * inv_sqrt2 / u) by (now apply Rdiv_lt_0_compat). lra.
  - specialize (M u j (conj Hu H)). pose proof (Xfactor_increasing (vs * inv_sqrt2 / j) (vs * inv_sqrt2 / u)) as I. assert (0 < vs * inv_sqrt2 / j) by (now apply Rdiv_lt_0_compat). lra.
Qed.
Print Assumptions C36_copy_user_refuted.

(** A hot halo whose dispersion the user puts at 2, outside the table *)
Example C36_refuted_example :
  let f := make unit (fun _ _ _ _ _ => 1) (fun _ _ => 1) tt (fun _ _ _ => 2) (fun _ _ _ => []) 1 0.1 1 0 (Some tt) (Some (fun _ => 2)) 3 0.1 25 501 None in
  Rforce unit true_erf cos 0 (copy unit (fun _ _ _ _ _ => 1) (fun _ _ => 1) f) 30 0 0 0 (1, 0, 0) <> Rforce unit true_erf cos 0 f 30 0 0 0 (1, 0, 0).
Proof.
  cbv zeta. assert (E : sqrt (30 ^ 2 + 0 ^ 2) = 30) by (replace (30 ^ 2 + 0 ^ 2) with (30 * 30) by ring; apply sqrt_square; lra).
  apply C36_copy_user_refuted; rewrite ?E; cbn; lra.
Qed.
(** The hypotheses of the theorems about histories *)
Example C36_history_example : masses_ok [Copy; Scale 2; SetGMs 0.3; Copy; SetRhm 0.05] /\ total_factor [Copy; Scale 2; SetGMs 0.3; Scale 3] = 6 /\ last_mass 0.1 [SetGMs 0.3; Copy; Scale 2] = 0.3.
Proof.
  split; [repeat constructor; lra|]. split; [unfold total_factor; cbn; ring | reflexivity].
Qed.

(** ** What the force is
    The Maxwellian factor, the Coulomb logarithm for a body of size rh and mass GM, and the kinetic energy gained per unit time and mass. *)
Definition maxwell (erf : RR -> RR) (X : RR) : RR := erf X - 2 * X / sqrt PI * exp (- X ^ 2).
Definition coulomb (r gamma rh GM v : RR) : RR := ln (1 + (r / gamma / Rmax rh (GM / v ^ 2)) ^ 2) / 2.
Definition radius (R z : RR) : RR := sqrt (R ^ 2 + z ^ 2).
Definition speed (v : RR * RR * RR) : RR := sqrt (fst (fst v) ^ 2 + snd (fst v) ^ 2 + snd v ^ 2).
(** the drag of a body in a wave-like medium: the phase k = m v r / hbar and the Mach number M = v / sigma decide the regime *)
Definition fdm_coefficient (erf Ci : RR -> RR) (eg k M : RR) : RR :=
  let Cin := fun x => eg + ln x - Ci x in
  let quantum := fun x => Cin x + sin x / x - 1 in
  let Xf := maxwell erf (M / sqrt 2) in
  if Rlt_dec (2 * M) k then ln (2 * k / M) * Xf
  else if Rlt_dec k (M / 2) then quantum (2 * k)
  else let s := (k - M / 2) / (2 * M - M / 2) in (1 - s) * quantum M + s * (ln 4 * Xf).

Section C36_formula.
  Variable pot : Type.
  Variable density : pot -> RR -> RR -> RR -> RR -> RR.
  Variable jeans_sigmar : pot -> RR -> RR.
  Variable log_halo : pot.
  Variable spline : list RR -> list RR -> RR -> RR.
  Variable linspace : RR -> RR -> nat -> list RR.
  Variable erf Ci : RR -> RR.
  Variable euler_gamma : RR.
  Notation make := (make pot density jeans_sigmar log_halo spline linspace).
  Notation Rforce := (Rforce pot erf Ci euler_gamma).
  Notation zforce := (zforce pot erf Ci euler_gamma).
  Notation phitorque := (phitorque pot erf Ci euler_gamma).
  (** the medium and its velocity dispersion: given, or the logarithmic halo's, or that of the Jeans equation; tabulated inside maxr *)
  Definition medium (dens : option pot) : pot := match dens with Some d => d | None => log_halo end.
  Definition dispersion (dens : option pot) (sig : option (RR -> RR)) (x : RR) : RR :=
    match sig, dens with Some s, _ => s x | None, None => 1 / sqrt 2 | None, Some d => jeans_sigmar d x end.
  Definition dispersion_used (dens : option pot) (sig : option (RR -> RR)) (mi ma : RR) (nr : nat) (r : RR) : RR :=
    if Rlt_dec ma r then dispersion dens sig r else spline (linspace mi ma nr) (map (dispersion dens sig) (linspace mi ma nr)) r.

  Lemma disp_eq dens sig : (match sig with Some s => s | None => match dens with None => fun _ => inv_sqrt2 | Some _ => fun x => jeans_sigmar (medium dens) x end end) = dispersion dens sig.
  Proof. destruct sig as [s|], dens as [d|]; reflexivity. Qed.
  Lemma sig_eq amp0 GMs ga rh dens sig lnl mi ma nr fd r : sig_at pot (make amp0 GMs ga rh dens sig lnl mi ma nr fd) r = dispersion_used dens sig mi ma nr r.
  Proof.
    unfold sig_at, dispersion_used, Friction.make, ltb. cbn. fold (medium dens). rewrite disp_eq. destruct (Rlt_dec ma r); reflexivity.
  Qed.
  Lemma lnL_eq amp0 GMs ga rh dens sig mi ma nr fd r v : amp0 <> 0 ->
    lnLambda pot (make amp0 GMs ga rh dens sig 0 mi ma nr fd) r v = coulomb r ga rh GMs v.
  Proof.
    intros Ha. unfold lnLambda, Friction.make, is0, ltb, coulomb. cbn [lnL ms rhm gamma]. destruct (Req_EM_T 0 0) as [_|N]; [|lra]. cbn [negb].
    replace (amp0 * GMs / amp0) with GMs by (field; exact Ha). destruct (Rlt_dec (GMs / v ^ 2) rh) as [L|L].
    - rewrite Rmax_left by lra. lra.
    - rewrite Rmax_right by lra. lra.
  Qed.
  Lemma lnL_const amp0 GMs ga rh dens sig lnl mi ma nr fd r v : lnl <> 0 -> lnLambda pot (make amp0 GMs ga rh dens sig lnl mi ma nr fd) r v = lnl.
  Proof. intros Hl. unfold lnLambda, Friction.make, is0. cbn [lnL]. destruct (Req_EM_T lnl 0); [contradiction|reflexivity]. Qed.
  Lemma Xf_eq X : Xfactor erf X = maxwell erf X.
  Proof. unfold Xfactor, maxwell. unfold Rdiv. ring. Qed.
  Definition cdm_drag amp0 GMs ga rh dens sig lnl mi ma nr R z phi t v : RR :=
    4 * PI * amp0 * GMs * density (medium dens) R z phi t * (if Req_EM_T lnl 0 then coulomb (radius R z) ga rh GMs (speed v) else lnl)
    * maxwell erf (speed v / (sqrt 2 * dispersion_used dens sig mi ma nr (radius R z))) / speed v ^ 3.

  (** Outside minr the force is Chandrasekhar's, along minus the velocity; inside it vanishes. *)
  Theorem C36_chandrasekhar : forall amp0 GMs ga rh dens sig lnl mi ma nr R z phi t v, amp0 <> 0 ->
    let f := make amp0 GMs ga rh dens sig lnl mi ma nr None in
    let A := if Rlt_dec (radius R z) mi then 0 else cdm_drag amp0 GMs ga rh dens sig lnl mi ma nr R z phi t v in
    Rforce f R z phi t v = - A * fst (fst v) /\ phitorque f R z phi t v = - A * (R * snd (fst v)) /\ zforce f R z phi t v = - A * snd v.
  Proof.
    intros amp0 GMs ga rh dens sig lnl mi ma nr R z phi t [[vR vT] vz] Ha. cbv zeta. unfold Friction.Rforce, Friction.phitorque, Friction.zforce. cbn [fst snd].
    set (f := make amp0 GMs ga rh dens sig lnl mi ma nr None).
    assert (C : amp _ f * calc_force pot erf Ci euler_gamma f R phi z (vR, vT, vz) t = - (if Rlt_dec (radius R z) mi then 0 else cdm_drag amp0 GMs ga rh dens sig lnl mi ma nr R z phi t (vR, vT, vz))).
    { unfold calc_force. change (minr _ f) with mi. change (sqrt (R ^ 2 + z ^ 2)) with (radius R z). unfold ltb. destruct (Rlt_dec (radius R z) mi) as [L|L]; [ring|].
      change (fdm _ f) with (@None (RR * RR)). cbv iota. change (sqrt (vR ^ 2 + vT ^ 2 + vz ^ 2)) with (speed (vR, vT, vz)). unfold cdm_drag, f. rewrite sig_eq.
      replace (lnLambda pot (make amp0 GMs ga rh dens sig lnl mi ma nr None) (radius R z) (speed (vR, vT, vz))) with (if Req_EM_T lnl 0 then coulomb (radius R z) ga rh GMs (speed (vR, vT, vz)) else lnl)
        by (destruct (Req_EM_T lnl 0) as [->|N]; [rewrite lnL_eq by exact Ha; reflexivity|rewrite lnL_const by exact N; reflexivity]).
      rewrite Xf_eq. change (amp _ _) with (amp0 * GMs * (4 * PI)). change (dens_host _ _ R z phi t) with (density (medium dens) R z phi t).
      replace (speed (vR, vT, vz) * inv_sqrt2 / dispersion_used dens sig mi ma nr (radius R z)) with (speed (vR, vT, vz) / (sqrt 2 * dispersion_used dens sig mi ma nr (radius R z)))
        by (unfold inv_sqrt2, Rdiv; rewrite Rinv_mult; ring).
      unfold Rdiv. ring. }
    split; [|split].
    - rewrite <- Rmult_assoc, C. reflexivity.
    - replace (amp _ f * (calc_force pot erf Ci euler_gamma f R phi z (vR, vT, vz) t * vT * R)) with (amp _ f * calc_force pot erf Ci euler_gamma f R phi z (vR, vT, vz) t * (R * vT)) by ring. rewrite C. reflexivity.
    - rewrite <- Rmult_assoc, C. reflexivity.
  Qed.
  Definition fdm_drag amp0 GMs ga rh dens sig lnl mi ma nr (m const : RR) R z phi t v : RR :=
    let sg := dispersion_used dens sig mi ma nr (radius R z) in
    4 * PI * amp0 * GMs * density (medium dens) R z phi t / speed v ^ 3 *
    (if Req_EM_T const 0 then
       Rmin (fdm_coefficient erf Ci euler_gamma (m * speed v * radius R z) (speed v / sg))
            ((if Req_EM_T lnl 0 then coulomb (radius R z) ga rh GMs (speed v) else lnl) * maxwell erf (speed v / (sqrt 2 * sg)))
     else const).
  (** The fuzzy-dark-matter force: the coefficient of its regime, never above Chandrasekhar's, or the constant given. *)
  Theorem C36_fdm : forall amp0 GMs ga rh dens sig lnl mi ma nr m const R z phi t v, amp0 <> 0 -> speed v <> 0 -> dispersion_used dens sig mi ma nr (radius R z) <> 0 ->
    let f := make amp0 GMs ga rh dens sig lnl mi ma nr (Some (m, const)) in
    let A := if Rlt_dec (radius R z) mi then 0 else fdm_drag amp0 GMs ga rh dens sig lnl mi ma nr m const R z phi t v in
    Rforce f R z phi t v = - A * fst (fst v) /\ phitorque f R z phi t v = - A * (R * snd (fst v)) /\ zforce f R z phi t v = - A * snd v.
  Proof.
    intros amp0 GMs ga rh dens sig lnl mi ma nr m const R z phi t [[vR vT] vz] Ha Hv Hs. cbv zeta. unfold Friction.Rforce, Friction.phitorque, Friction.zforce. cbn [fst snd].
    set (f := make amp0 GMs ga rh dens sig lnl mi ma nr (Some (m, const))).
    assert (F : frictionFactor pot erf Ci euler_gamma m f (radius R z) (speed (vR, vT, vz)) =
       Rmin (fdm_coefficient erf Ci euler_gamma (m * speed (vR, vT, vz) * radius R z) (speed (vR, vT, vz) / dispersion_used dens sig mi ma nr (radius R z)))
            ((if Req_EM_T lnl 0 then coulomb (radius R z) ga rh GMs (speed (vR, vT, vz)) else lnl) * maxwell erf (speed (vR, vT, vz) / (sqrt 2 * dispersion_used dens sig mi ma nr (radius R z))))).
    { unfold frictionFactor, f. rewrite sig_eq.
      replace (lnLambda pot (make amp0 GMs ga rh dens sig lnl mi ma nr (Some (m, const))) (radius R z) (speed (vR, vT, vz))) with (if Req_EM_T lnl 0 then coulomb (radius R z) ga rh GMs (speed (vR, vT, vz)) else lnl)
        by (destruct (Req_EM_T lnl 0) as [->|N]; [rewrite lnL_eq by exact Ha; reflexivity|rewrite lnL_const by exact N; reflexivity]).
      set (sg := dispersion_used dens sig mi ma nr (radius R z)) in *. set (w := speed (vR, vT, vz)) in *. set (k := m * w * radius R z). rewrite Xf_eq.
      assert (E2 : w / (sqrt 2 * sg) = w / sg / sqrt 2) by (unfold Rdiv; rewrite Rinv_mult; ring).
      set (L := if Req_EM_T lnl 0 then _ else lnl). clearbody L.
      assert (EC : (if ltb (2 * (w / sg)) k then ln (2 * k / (w / sg)) * maxwell erf (w / (sqrt 2 * sg)) else if ltb k (w / sg / 2) then - Ci (2 * k) + ln (2 * k) + euler_gamma + sin (2 * k) / (2 * k) - 1
          else interp2 k (w / sg / 2) (2 * (w / sg)) (- Ci (w / sg) + ln (w / sg) + euler_gamma + sin (w / sg) / (w / sg) - 1) (ln 4 * maxwell erf (w / (sqrt 2 * sg)))) = fdm_coefficient erf Ci euler_gamma k (w / sg)).
      { unfold fdm_coefficient, ltb. rewrite E2. destruct (Rlt_dec (2 * (w / sg)) k) as [_|_]; [reflexivity|]. destruct (Rlt_dec k (w / sg / 2)) as [_|_]; [ring|].
        assert (Hm : w / sg <> 0) by (apply Rmult_integral_contrapositive_currified; [exact Hv|apply Rinv_neq_0_compat; exact Hs]).
        set (M := w / sg) in *. unfold interp2. field; repeat split; try exact Hm; intro; apply Hm; lra. }
      cbv zeta. rewrite EC. unfold ltb, Rmin. destruct (Rlt_dec _ _) as [A|A], (Rle_dec _ _) as [B|B]; try reflexivity; lra. }
    assert (C : amp _ f * calc_force pot erf Ci euler_gamma f R phi z (vR, vT, vz) t = - (if Rlt_dec (radius R z) mi then 0 else fdm_drag amp0 GMs ga rh dens sig lnl mi ma nr m const R z phi t (vR, vT, vz))).
    { unfold calc_force. change (minr _ f) with mi. change (sqrt (R ^ 2 + z ^ 2)) with (radius R z). unfold ltb. destruct (Rlt_dec (radius R z) mi) as [L|L]; [ring|].
      change (fdm _ f) with (Some (m, const)). cbv iota. change (sqrt (vR ^ 2 + vT ^ 2 + vz ^ 2)) with (speed (vR, vT, vz)). rewrite F. unfold fdm_drag.
      change (amp _ _) with (amp0 * GMs * (4 * PI)). change (dens_host _ _ R z phi t) with (density (medium dens) R z phi t). unfold is0. destruct (Req_EM_T const 0) as [_|_]; cbn [negb]; unfold Rdiv; ring. }
    split; [|split].
    - rewrite <- Rmult_assoc, C. reflexivity.
    - replace (amp _ f * (calc_force pot erf Ci euler_gamma f R phi z (vR, vT, vz) t * vT * R)) with (amp _ f * calc_force pot erf Ci euler_gamma f R phi z (vR, vT, vz) t * (R * vT)) by ring. rewrite C. reflexivity.
    - rewrite <- Rmult_assoc, C. reflexivity.
  Qed.
End C36_formula.
Print Assumptions C36_chandrasekhar.
Print Assumptions C36_fdm.

(** A satellite of mass 0.1 and size 0 at (1, 0) moving at speed 1 in the default halo: GM/v^2 = 0.1 exceeds the size *)
Example C36_formula_example : speed (1, 0, 0) <> 0 /\ radius 1 0 = 1 /\ coulomb 1 1 0 0.1 1 = ln 101 / 2 /\
  dispersion_used unit (fun _ _ => 1) (fun _ _ _ => 1 / sqrt 2) (fun _ _ _ => []) None None 0.1 25 501 1 <> 0.
Proof.
  assert (S2 : 0 < sqrt 2) by (apply sqrt_lt_R0; lra).
  split; [|split; [|split]].
  - unfold speed. cbn [fst snd]. replace (1 ^ 2 + 0 ^ 2 + 0 ^ 2) with 1 by ring. rewrite sqrt_1. lra.
  - unfold radius. replace (1 ^ 2 + 0 ^ 2) with 1 by ring. apply sqrt_1.
  - unfold coulomb. rewrite Rmax_right by lra. replace 0.1 with (1 / 10) by lra. do 2 f_equal. field.
  - unfold dispersion_used, dispersion. assert (P : 0 < 1 / sqrt 2) by (apply Rdiv_lt_0_compat; lra). destruct (Rlt_dec 25 1); lra.
Qed.
