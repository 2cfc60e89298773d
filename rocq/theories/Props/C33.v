(** C33: action-angle coordinates of the harmonic oscillator. *)
From Coq Require Import Reals Lra Lia.
From Coquelicot Require Import Coquelicot.
From Verif.Lib Require Import RealAux Atan2.
From Verif.Model Require Import ActionAngle.
From Verif.Spec Require Import ActionAngleSpec.
From Verif.Proofs Require Import AngleProofs.
Open Scope R_scope.
Notation RR := RbaseSymbolsImpl.R (only parsing).

Ltac toR := match goal with |- ?a = ?b => change (@eq RbaseSymbolsImpl.R a b) end.

(** The action is energy over frequency, and is never negative. *)
Theorem C33_action : forall omega x v, 0 < omega -> ha_action omega x v = oscillator_energy omega x v / omega /\ 0 <= ha_action omega x v.
Proof.
  intros omega x v P. assert (E : ha_action omega x v = oscillator_energy omega x v / omega) by (unfold ha_action, oscillator_energy; field; lra).
  split; [exact E|]. rewrite E. unfold oscillator_energy. apply Rmult_le_pos; [nra|]. apply Rlt_le, Rinv_0_lt_compat, P.
Qed.
Print Assumptions C33_action.
Lemma amp_norm omega x v : 0 < omega -> sqrt (2 * ha_action omega x v / omega) * omega = sqrt (v ^ 2 + (omega * x) ^ 2).
Proof.
  intros P. assert (E : v ^ 2 + (omega * x) ^ 2 = (2 * ha_action omega x v / omega) * (omega * omega)) by (unfold ha_action; field; lra).
  assert (0 <= 2 * ha_action omega x v / omega) by (destruct (C33_action omega x v P); apply Rmult_le_pos; [lra|apply Rlt_le, Rinv_0_lt_compat, P]).
  rewrite E, sqrt_mult_alt by assumption. rewrite sqrt_square by lra. reflexivity.
Qed.
(** The inverse transformation gives back every phase-space point (the equilibrium included). *)
Theorem C33_inverse_of_forward : forall omega x v, 0 < omega ->
  hi_x omega (ha_action omega x v) (ha_angle omega x v) = x /\ hi_v omega (ha_action omega x v) (ha_angle omega x v) = v.
Proof.
  intros omega x v P. pose proof (amp_norm omega x v P) as N. unfold hi_x, hi_v, ha_angle. split.
  - apply (Rmult_eq_reg_l omega); [|lra]. transitivity (sqrt (2 * ha_action omega x v / omega) * omega * sin (atan2 (omega * x) v)); [ring|]. rewrite N. apply atan2_sin.
  - rewrite N. apply atan2_cos.
Qed.
Print Assumptions C33_inverse_of_forward.
(** Conversely, the point of action j and angle theta has that action and that angle. *)
Theorem C33_forward_of_inverse : forall omega j theta, 0 < omega -> 0 < j ->
  let x := hi_x omega j theta in let v := hi_v omega j theta in
  ha_action omega x v = j /\ same_angle (ha_angle omega x v) theta /\ ha_freq omega x v = hi_freq omega j.
Proof.
  intros omega j theta P Pj x v. assert (PA : 0 < 2 * j / omega) by (apply Rdiv_lt_0_compat; lra).
  assert (S2 : sqrt (2 * j / omega) ^ 2 = 2 * j / omega) by (rewrite <- Rsqr_pow2; apply Rsqr_sqrt; lra).
  assert (EA : ha_action omega x v = j).
  { unfold ha_action, x, v, hi_x, hi_v. pose proof (sin2_cos2 theta) as T. rewrite !Rsqr_pow2 in T.
    transitivity (sqrt (2 * j / omega) ^ 2 * omega * (sin theta ^ 2 + cos theta ^ 2) / 2); [field; lra|]. rewrite S2, T. field. lra. }
  split; [exact EA|]. split; [|reflexivity]. unfold ha_angle.
  assert (Ps : 0 < sqrt (2 * j / omega)) by (apply sqrt_lt_R0; exact PA).
  assert (N : sqrt (v ^ 2 + (omega * x) ^ 2) = sqrt (2 * j / omega) * omega) by (rewrite <- amp_norm by exact P; rewrite EA; reflexivity).
  pose proof (atan2_cos v (omega * x)) as C. pose proof (atan2_sin v (omega * x)) as S0. rewrite N in C, S0.
  apply same_of_trig.
  - apply (Rmult_eq_reg_l (sqrt (2 * j / omega) * omega)); [exact C|]. apply Rgt_not_eq, Rmult_lt_0_compat; lra.
  - apply (Rmult_eq_reg_l (sqrt (2 * j / omega) * omega)); [|apply Rgt_not_eq, Rmult_lt_0_compat; lra]. rewrite S0. unfold x, hi_x. ring.
Qed.
Print Assumptions C33_forward_of_inverse.
(** Along every motion of the oscillator the action is constant and the angle advances at the frequency returned. *)
Theorem C33_motion : forall omega x v, 0 < omega -> oscillates omega x v -> forall t,
  ha_action omega (x t) (v t) = ha_action omega (x 0) (v 0) /\
  (ha_action omega (x 0) (v 0) <> 0 -> same_angle (ha_angle omega (x t) (v t)) (ha_angle omega (x 0) (v 0) + ha_freq omega (x 0) (v 0) * t)).
Proof.
  intros omega x v P H t.
  (* the components in the frame that turns with the oscillator are constant *)
  assert (D1 : forall s, is_derive (fun s => omega * x s * cos (omega * s) - v s * sin (omega * s)) s 0).
  { intros s. destruct (H s) as [Dx Dv]. eapply is_derive_eq.
    - apply (is_derive_minus (K := R_AbsRing) (V := R_NormedModule)).
      + apply (is_derive_Rmult (fun s => omega * x s) (fun s => cos (omega * s))).
        * apply (is_derive_Rmult (fun _ => omega) x); [apply is_derive_cst|exact Dx].
        * auto_derive; [exact I|reflexivity].
      + apply (is_derive_Rmult v (fun s => sin (omega * s))); [exact Dv|]. auto_derive; [exact I|reflexivity].
    - unfold minus, plus, opp; cbn. ring. }
  assert (D2 : forall s, is_derive (fun s => omega * x s * sin (omega * s) + v s * cos (omega * s)) s 0).
  { intros s. destruct (H s) as [Dx Dv]. eapply is_derive_eq.
    - apply (is_derive_plus (K := R_AbsRing) (V := R_NormedModule)).
      + apply (is_derive_Rmult (fun s => omega * x s) (fun s => sin (omega * s))).
        * apply (is_derive_Rmult (fun _ => omega) x); [apply is_derive_cst|exact Dx].
        * auto_derive; [exact I|reflexivity].
      + apply (is_derive_Rmult v (fun s => cos (omega * s))); [exact Dv|]. auto_derive; [exact I|reflexivity].
    - unfold plus; cbn. ring. }
  assert (K : forall f : RR -> RR, (forall s, is_derive f s 0) -> f t = f 0).
  { intros f Df. destruct (MVT_gen f 0 t (fun _ => 0)) as (c & _ & E); [intros; apply Df|intros; apply continuity_pt_filterlim; apply (ex_derive_continuous (K := R_AbsRing) (V := R_NormedModule)); eexists; apply Df|]. lra. }
  pose proof (K _ D1) as K1. pose proof (K _ D2) as K2. cbv beta in K1, K2. rewrite Rmult_0_r, cos_0, sin_0, !Rmult_0_r, !Rmult_1_r in K1, K2.
  assert (K1' : omega * x t * cos (omega * t) - v t * sin (omega * t) = omega * x 0) by lra.
  assert (K2' : omega * x t * sin (omega * t) + v t * cos (omega * t) = v 0) by lra. clear K1 K2.
  pose proof (sin2_cos2 (omega * t)) as T. rewrite !Rsqr_pow2 in T.
  set (cc := cos (omega * t)) in *. set (ss := sin (omega * t)) in *.
  assert (EA : v t ^ 2 + (omega * x t) ^ 2 = v 0 ^ 2 + (omega * x 0) ^ 2).
  { rewrite <- K1', <- K2'. transitivity ((v t ^ 2 + (omega * x t) ^ 2) * (ss ^ 2 + cc ^ 2)); [rewrite T; ring|ring]. }
  assert (E2 : forall s, ha_action omega (x s) (v s) = (v s ^ 2 + (omega * x s) ^ 2) / (2 * omega)) by (intros; unfold ha_action; field; lra).
  split; [rewrite !E2, EA; reflexivity|]. intros N. unfold ha_angle, ha_freq.
  set (n := sqrt (v 0 ^ 2 + (omega * x 0) ^ 2)). assert (Pn : n <> 0).
  { intros Z. apply N. rewrite E2. unfold n in Z. apply sqrt_eq_0 in Z; [rewrite Z; unfold Rdiv; ring|nra]. }
  pose proof (atan2_cos (v 0) (omega * x 0)) as C0. pose proof (atan2_sin (v 0) (omega * x 0)) as S0. fold n in C0, S0.
  pose proof (atan2_cos (v t) (omega * x t)) as Ct. pose proof (atan2_sin (v t) (omega * x t)) as St. rewrite EA in Ct, St. fold n in Ct, St.
  set (th := atan2 (omega * x 0) (v 0)) in *. apply same_of_trig.
  - apply (Rmult_eq_reg_l n); [|exact Pn]. rewrite Ct, cos_plus. fold cc ss. transitivity (v 0 * cc - omega * x 0 * ss); [|rewrite <- C0, <- S0; ring].
    rewrite <- K1', <- K2'. transitivity (v t * (ss ^ 2 + cc ^ 2)); [rewrite T; ring|ring].
  - apply (Rmult_eq_reg_l n); [|exact Pn]. rewrite St, sin_plus. fold cc ss. transitivity (omega * x 0 * cc + v 0 * ss); [|rewrite <- C0, <- S0; ring].
    rewrite <- K1', <- K2'. transitivity (omega * x t * (ss ^ 2 + cc ^ 2)); [rewrite T; ring|ring].
Qed.
Print Assumptions C33_motion.
(** The inverse transformation at constant action and linearly growing angle is a motion of the oscillator. *)
Theorem C33_inverse_moves : forall omega j theta, 0 < omega ->
  oscillates omega (fun t => hi_x omega j (theta + hi_freq omega j * t)) (fun t => hi_v omega j (theta + hi_freq omega j * t)).
Proof.
  intros omega j theta P t. unfold hi_x, hi_v, hi_freq. split; auto_derive; try exact I; ring.
Qed.
Print Assumptions C33_inverse_moves.
Theorem C33_canonical : forall omega j theta, 0 < omega -> 0 < j -> canonical_at (hi_x omega) (hi_v omega) j theta.
Proof.
  intros omega j theta P Pj. assert (PA : 0 < 2 * j / omega) by (apply Rdiv_lt_0_compat; lra).
  set (a := sqrt (2 * j / omega)). assert (Ps : 0 < a) by (apply sqrt_lt_R0; exact PA).
  assert (Da : is_derive (fun j => sqrt (2 * j / omega)) j (/ (omega * a))).
  { auto_derive; [exact PA|]. change (2 * j * / omega) with (2 * j / omega). fold a. field. lra. }
  exists (/ (omega * a) * sin theta), (a * cos theta), (/ (omega * a) * omega * cos theta), (a * omega * - sin theta). split; [|split; [|split; [|split]]].
  - unfold hi_x. eapply is_derive_eq; [apply (is_derive_Rmult (fun j => sqrt (2 * j / omega)) (fun _ => sin theta)); [exact Da|apply is_derive_cst]|cbv beta; toR; fold a; ring].
  - unfold hi_x. fold a. auto_derive; [exact I|ring].
  - unfold hi_v. eapply is_derive_eq; [apply (is_derive_Rmult (fun j => sqrt (2 * j / omega) * omega) (fun _ => cos theta)); [apply (is_derive_Rmult (fun j => sqrt (2 * j / omega)) (fun _ => omega)); [exact Da|apply is_derive_cst]|apply is_derive_cst]|cbv beta; toR; fold a; ring].
  - unfold hi_v. fold a. auto_derive; [exact I|ring].
  - pose proof (sin2_cos2 theta) as T. rewrite !Rsqr_pow2 in T. transitivity (sin theta ^ 2 + cos theta ^ 2); [field; lra|exact T].
Qed.
Print Assumptions C33_canonical.
(** Non-vacuity: an oscillation of frequency 2, with action 1. *)
Example C33_nonvacuous : oscillates 2 (fun t => sin (2 * t)) (fun t => 2 * cos (2 * t)) /\ ha_action 2 (sin (2 * 0)) (2 * cos (2 * 0)) = 1.
Proof.
  split; [intros t; split; auto_derive; try exact I; ring|]. rewrite Rmult_0_r, sin_0, cos_0. unfold ha_action. field.
Qed.
