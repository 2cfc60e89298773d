(** C34: isochrone actions, frequencies, angles and their inverse. *)
From Coq Require Import Reals Lra Lia Psatz.
From Coquelicot Require Import Coquelicot.
From Verif.Lib Require Import RealAux Atan2.
From Verif.Model Require Import PotAxi ActionAngle.
From Verif.Spec Require Import ActionAngleSpec.
From Verif.Proofs Require Import AngleProofs IsochroneProofs IsochroneMotion KeplerEquation.
Open Scope R_scope.
Notation RR := RbaseSymbolsImpl.R (only parsing).
Ltac toR := match goal with |- ?a = ?b => change (@eq RbaseSymbolsImpl.R a b) end.

Lemma energy_eq amp b R vR vT z vz : isochrone_energy amp b R vR vT z vz = ia_E amp b R vR vT z vz.
Proof.
  unfold isochrone_energy, ia_E, ia_Phi, Iso_ev, Iso_rb. replace (R ^ 2 + z ^ 2 + b ^ 2) with (b ^ 2 + R ^ 2 + z ^ 2) by ring. unfold Rdiv. ring.
Qed.
Lemma momentum_eq R vR vT z vz : angular_momentum2 R vR vT z vz = ia_L2 R vR vT z vz.
Proof. unfold angular_momentum2, ia_L2. ring. Qed.

(** ** Actions *)
(** Every bound orbit has actions; the Hamiltonian of the inverse transformation at those actions is the energy; Jr and Jz are not negative,
    Jphi is the z component and Jz + |Jphi| the magnitude of the angular momentum. *)
Theorem C34_energy : forall amp b R vR vT z vz, 0 < amp -> 0 <= b -> 0 < R -> isochrone_energy amp b R vR vT z vz < 0 ->
  exists J, ia_actions amp b R vR vT z vz = Some J /\ ii_H amp b J = isochrone_energy amp b R vR vT z vz /\
    0 <= Jr J /\ 0 <= Jz J /\ Jphi J = R * vT /\ (Jz J + Rabs (Jphi J)) ^ 2 = angular_momentum2 R vR vT z vz.
Proof.
  intros amp b R vR vT z vz PA Pb PR B. rewrite energy_eq in *. rewrite momentum_eq. exists (io_J amp b R vR vT z vz).
  split; [apply actions_eq; assumption|]. split; [apply J_H; assumption|]. split; [apply Jr_nonneg; assumption|]. cbn [Jz Jphi io_J]. split; [pose proof (Lz_L R vR vT z vz); lra|].
  split; [reflexivity|]. pose proof (L_sq R vR vT z vz) as Q. rewrite <- Q at 2. f_equal. ring.
Qed.
Print Assumptions C34_energy.
(** Jr vanishes exactly on circular orbits. *)
Theorem C34_circular_Jr : forall amp b R vR vT z vz J, 0 < amp -> 0 <= b -> 0 < R -> isochrone_energy amp b R vR vT z vz < 0 ->
  circular amp b R vR vT z vz -> ia_actions amp b R vR vT z vz = Some J -> Jr J = 0.
Proof.
  intros amp b R vR vT z vz J PA Pb PR B C HJ. rewrite energy_eq in *. rewrite actions_eq in HJ by assumption. injection HJ as <-. cbn [Jr].
  apply circular_e2 in C; [|assumption..]. pose proof (kc2e2 amp b R vR vT z vz Pb PR B) as X. rewrite C, Rmult_0_r in X.
  pose proof (sk_pos amp b R vR vT z vz B) as K. pose proof (sk_sq amp b R vR vT z vz B) as K2. pose proof (kcb amp b R vR vT z vz B) as KC. pose proof (c_pos amp b R vR vT z vz Pb PR B) as Cp.
  set (k := io_k amp b R vR vT z vz) in *. set (c := io_c amp b R vR vT z vz) in *. set (L2 := ia_L2 R vR vT z vz) in *.
  assert (LE : sqrt L2 = sqrt k * c) by (apply sqrt_of_sq; [apply Rmult_le_pos; lra|rewrite Rpow_mult_distr, K2; lra]).
  assert (SE : sqrt (L2 + 4 * amp * b) = sqrt k * (c + 2 * b)) by (apply sqrt_of_sq; [apply Rmult_le_pos; lra|rewrite Rpow_mult_distr, K2; rewrite <- KC; replace L2 with (k * c ^ 2) by lra; ring]).
  rewrite LE, SE. assert (A3 : amp / sqrt k = sqrt k * (c + b)) by (rewrite <- KC; rewrite <- K2 at 1; field; lra). rewrite A3. field.
Qed.
Print Assumptions C34_circular_Jr.

(** ** Frequencies *)
(** The two classes return the same frequencies, ... *)
Theorem C34_freqs : forall amp b R vR vT z vz J, 0 < amp -> 0 <= b -> 0 < R -> isochrone_energy amp b R vR vT z vz < 0 -> vT <> 0 ->
  ia_actions amp b R vR vT z vz = Some J -> ia_freqs amp b R vR vT z vz = Some (ii_freqs amp b J).
Proof.
  intros amp b R vR vT z vz J PA Pb PR B NT HJ. rewrite energy_eq in *. rewrite actions_eq in HJ by assumption. injection HJ as <-. fold (io_J amp b R vR vT z vz).
  rewrite freqs_eq by assumption. unfold ii_freqs. cbv zeta. rewrite J_L, J_S, J_H by assumption. fold (io_k amp b R vR vT z vz). rewrite rpow_3_2 by (apply k_pos; assumption). f_equal.
  assert (Q : forall x y : RR, / 2 * (1 + x) * y = (1 + x) / 2 * y) by (intros; field). rewrite Q. f_equal. cbn [Jphi io_J]. unfold sign.
  destruct (Rlt_dec (R * vT) 0); [ring|]. destruct (Rlt_dec 0 (R * vT)); [ring|]. exfalso. assert (R * vT = 0) by lra. apply Rmult_integral in H. lra.
Qed.
Print Assumptions C34_freqs.
(** ... except on orbits through the axis, for which numpy.sign(0) makes the azimuthal frequency of the inverse zero. *)
Theorem C34_freqs_refuted : exists R vR vT z vz J, 0 < R /\ isochrone_energy 1 0 R vR vT z vz < 0 /\ ia_actions 1 0 R vR vT z vz = Some J /\
  ia_freqs 1 0 R vR vT z vz <> Some (ii_freqs 1 0 J).
Proof.
  exists 1, 0, 0, 0, 1, (io_J 1 0 1 0 0 0 1). assert (B : ia_E 1 0 1 0 0 0 1 < 0).
  { unfold ia_E, ia_Phi, Iso_ev, Iso_rb. replace (1 ^ 2 + 0 ^ 2 + 0 ^ 2) with 1 by ring. rewrite sqrt_1. lra. }
  split; [lra|]. split; [rewrite energy_eq; exact B|]. split; [apply actions_eq; exact B|]. rewrite freqs_eq by exact B. cbv zeta. intros Q. injection Q as Q1 Q2 Q3.
  cbn [Jphi io_J] in Q2. unfold sign in Q2. rewrite Rmult_0_r in Q2. destruct (Rlt_dec 0 0); [lra|]. rewrite Rmult_0_l in Q2.
  pose proof (sk_pos 1 0 1 0 0 0 1 B) as K. set (k := sqrt (io_k 1 0 1 0 0 0 1)) in *. pose proof (sqrt_pos (ia_L2 1 0 0 0 1)). 
  assert (SS : ia_L2 1 0 0 0 1 + 4 * 1 * 0 = 1) by (unfold ia_L2; ring). rewrite SS, sqrt_1 in Q2. assert (0 < k ^ 3 / 1) by (apply Rdiv_lt_0_compat; [apply pow_lt; exact K|lra]).
  assert (0 < / 2 * (1 + sqrt (ia_L2 1 0 0 0 1) / 1) * (k ^ 3 / 1)) by (repeat apply Rmult_lt_0_compat; lra). lra.
Qed.
Print Assumptions C34_freqs_refuted.
(** The frequencies are the derivatives of the Hamiltonian with respect to the actions. *)
Theorem C34_freqs_derivatives : forall amp b J, 0 < amp -> 0 <= b -> 0 <= Jr J -> 0 <= Jz J -> Jphi J <> 0 ->
  is_derive (fun x => ii_H amp b (mkActions x (Jphi J) (Jz J))) (Jr J) (Or (ii_freqs amp b J)) /\
  is_derive (fun x => ii_H amp b (mkActions (Jr J) x (Jz J))) (Jphi J) (Op (ii_freqs amp b J)) /\
  is_derive (fun x => ii_H amp b (mkActions (Jr J) (Jphi J) x)) (Jz J) (Oz (ii_freqs amp b J)).
Proof.
  intros amp b [jr jp jz] PA Pb P1 P2 N. cbn [Jr Jphi Jz] in *. assert (AJ : 0 < Rabs jp) by (apply Rabs_pos_lt; exact N).
  set (L := jz + Rabs jp). assert (PL : 0 < L) by (unfold L; lra). assert (AB : 0 <= amp * b) by (apply Rmult_le_pos; lra).
  assert (PS2 : 0 < L ^ 2 + 4 * b * amp) by (pose proof (pow_lt L 2 PL); lra).
  set (S0 := sqrt (L ^ 2 + 4 * b * amp)). assert (PS : 0 < S0) by (apply sqrt_lt_R0; exact PS2).
  set (d := 2 * jr + L + S0). assert (Pd : 0 < d) by (unfold d; lra).
  set (H0 := - 2 * amp ^ 2 / d ^ 2).
  assert (EOr : rpow (- 2 * H0) (3 / 2) / amp = 8 * amp ^ 2 / d ^ 3).
  { assert (Q : - 2 * H0 = (2 * amp / d) ^ 2) by (unfold H0; field; lra). assert (PQ : 0 < 2 * amp / d) by (apply Rdiv_lt_0_compat; lra). rewrite Q, rpow_3_2 by (apply pow_lt; exact PQ). rewrite sqrt_pow2 by lra. field. lra. }
  assert (DH : forall f df x, is_derive f x df -> f x = d -> is_derive (fun x => - 2 * amp ^ 2 / f x ^ 2) x (4 * amp ^ 2 / d ^ 3 * df)).
  { intros f df x Df Ef. assert (U : Derive (fun x => f x) x = df) by (apply is_derive_unique; exact Df). auto_derive; [split; [exact (ex_intro _ _ Df)|]; split; [rewrite Ef; apply Rgt_not_eq, Rmult_lt_0_compat; lra|exact I] |].
    - rewrite U, Ef. field. lra. }
  assert (DS : is_derive (fun L => L + sqrt (L ^ 2 + 4 * b * amp)) L (1 + L / S0)).
  { auto_derive; [exact PS2|]. fold S0. field. lra. }
  unfold ii_freqs. cbv zeta. cbn [Or Op Oz Jphi]. unfold ii_H, ii_sqrt, ii_L. cbn [Jr Jphi Jz]. fold L. fold S0. fold d. fold H0. rewrite EOr.
  split; [|split].
  - eapply is_derive_eq; [apply (DH (fun x => 2 * x + L + S0) 2 jr); [auto_derive; [exact I|ring]|reflexivity]|]. toR. field. lra.
  - assert (Da : is_derive (fun x => jz + Rabs x) jp (sign jp)).
    { unfold sign. destruct (Rlt_dec jp 0) as [Q|Q]; [|destruct (Rlt_dec 0 jp) as [Q1|Q1]; [|exfalso; apply N; lra]].
      - auto_derive; [exact N|]. rewrite sign_eq_m1 by exact Q. ring.
      - auto_derive; [exact N|]. rewrite sign_eq_1 by exact Q1. ring. }
    pose proof (is_derive_Rchain (fun L => L + sqrt (L ^ 2 + 4 * b * amp)) (fun x => jz + Rabs x) jp _ _ DS Da) as DC.
    eapply is_derive_eq; [apply (DH (fun x => 2 * jr + (jz + Rabs x) + sqrt ((jz + Rabs x) ^ 2 + 4 * b * amp)) ((1 + L / S0) * sign jp) jp)|].
    + eapply is_derive_ext; [|eapply is_derive_eq; [apply is_derive_Rplus; [apply (is_derive_cst (2 * jr))|exact DC]|toR; ring]]. intros x. cbv beta. toR. ring.
    + reflexivity.
    + toR. field. lra.
  - assert (Da : is_derive (fun x => x + Rabs jp) jz 1) by (auto_derive; [exact I|ring]).
    pose proof (is_derive_Rchain (fun L => L + sqrt (L ^ 2 + 4 * b * amp)) (fun x => x + Rabs jp) jz _ _ DS Da) as DC.
    eapply is_derive_eq; [apply (DH (fun x => 2 * jr + (x + Rabs jp) + sqrt ((x + Rabs jp) ^ 2 + 4 * b * amp)) ((1 + L / S0) * 1) jz)|].
    + eapply is_derive_ext; [|eapply is_derive_eq; [apply is_derive_Rplus; [apply (is_derive_cst (2 * jr))|exact DC]|toR; ring]]. intros x. cbv beta. toR. ring.
    + reflexivity.
    + toR. field. lra.
Qed.
Print Assumptions C34_freqs_derivatives.

(** ** Turning points *)
Lemma Rsq_le x y : 0 <= x -> 0 <= y -> (x ^ 2 <= y ^ 2 <-> x <= y).
Proof. intros. split; intros; [apply Rsqr_incr_0; rewrite ?Rsqr_pow2; auto|rewrite <- !Rsqr_pow2; apply Rsqr_incr_1; auto]. Qed.
Lemma rperi_rap_eq amp b R vR vT z vz : 0 < amp -> 0 <= b -> 0 < R -> ia_E amp b R vR vT z vz < 0 -> 0 < ia_L2 R vR vT z vz ->
  let e := io_e amp b R vR vT z vz in let c := io_c amp b R vR vT z vz in
  e < 1 /\ ia_rperi_rap amp b R vR vT z vz = (sqrt (c * (1 - e) * (c * (1 - e) + 2 * b)), sqrt (c * (1 + e) * (c * (1 + e) + 2 * b))).
Proof.
  intros PA Pb PR B PL e c. pose proof (k_pos amp b R vR vT z vz B) as K. pose proof (kcb amp b R vR vT z vz B) as KC. pose proof (c_pos amp b R vR vT z vz Pb PR B) as C.
  pose proof (kc2e2 amp b R vR vT z vz Pb PR B) as X. pose proof (e2_nonneg amp b R vR vT z vz Pb PR B) as E2. pose proof (e_sq amp b R vR vT z vz Pb PR B) as ES. pose proof (e_nonneg amp b R vR vT z vz) as E0.
  assert (KE : ia_E amp b R vR vT z vz = - io_k amp b R vR vT z vz / 2) by (unfold io_k; field).
  unfold ia_rperi_rap. cbv zeta. rewrite KE. fold e in ES, E0. fold c in KC, C, X. rewrite <- ES in X. clearbody e c. clear KE ES E2 B.
  set (k := io_k amp b R vR vT z vz) in *. set (L2 := ia_L2 R vR vT z vz) in *. clearbody k L2.
  assert (KC2 : 0 < k * c ^ 2) by (apply Rmult_lt_0_compat; [exact K|apply pow_lt, C]).
  assert (E1 : e < 1). { assert (e ^ 2 < 1) by (apply (Rmult_lt_reg_l (k * c ^ 2)); [exact KC2|lra]). nra. }
  split; [exact E1|]. destruct (Req_EM_T b 0) as [Z|Z].
  - subst b. assert (A : - amp / 2 / (- k / 2) = c) by (rewrite <- KC; field; lra). rewrite A.
    assert (Q : sqrt (1 - L2 / amp / c) = e). { apply sqrt_of_sq; [exact E0|]. rewrite <- KC. replace L2 with (k * c ^ 2 - k * c ^ 2 * e ^ 2) by lra. field. split; lra. }
    rewrite Q. f_equal; symmetry; apply sqrt_of_sq; try ring; apply Rmult_le_pos; lra.
  - assert (Bp : 0 < b) by lra. assert (Q : sqrt ((2 * (- k / 2) - amp / b) ^ 2 + 2 * (- k / 2) * (4 * amp / b + L2 / b ^ 2)) = k * c * e / b).
    { apply sqrt_of_sq; [apply Rmult_le_pos; [apply Rmult_le_pos; nra|apply Rlt_le, Rinv_0_lt_compat, Bp]|]. rewrite <- KC. replace L2 with (k * c ^ 2 - k * c ^ 2 * e ^ 2) by lra. field. exact Z. }
    rewrite Q. assert (SM : / 2 * (2 * (- k / 2) - amp / b + k * c * e / b) / (- k / 2) = 2 + c * (1 - e) / b) by (rewrite <- KC; field; split; lra). rewrite SM.
    assert (SX : 2 - amp / (- k / 2) / b - (2 + c * (1 - e) / b) = 2 + c * (1 + e) / b) by (rewrite <- KC; field; split; lra). rewrite SX.
    assert (G : forall x, 0 < x -> (2 + x / b) * sqrt (1 - 2 / (2 + x / b)) * b = sqrt (x * (x + 2 * b))).
    { intros x Px. assert (Pxb : 0 < x / b) by (apply Rdiv_lt_0_compat; lra). symmetry. apply sqrt_of_sq; [apply Rmult_le_pos; [apply Rmult_le_pos; [lra|apply sqrt_pos]|lra]|].
      assert (H2 : 1 - 2 / (2 + x / b) = x / (2 * b + x)) by (field; split; lra). rewrite H2. rewrite !Rpow_mult_distr, sqrt_sq by (apply Rlt_le, Rdiv_lt_0_compat; lra). field. split; lra. }
    rewrite !G by (apply Rmult_lt_0_compat; lra). reflexivity.
Qed.
(** rperi and rap are the radii between which the orbit can move; the maximal height bounds |z|. *)
Theorem C34_turning : forall amp b R vR vT z vz, 0 < amp -> 0 <= b -> 0 < R -> isochrone_energy amp b R vR vT z vz < 0 -> 0 < angular_momentum2 R vR vT z vz ->
  let (rperi, rap) := ia_rperi_rap amp b R vR vT z vz in
  0 < rperi /\ rperi <= sqrt (R ^ 2 + z ^ 2) <= rap /\
  (forall r, 0 < r -> (0 <= radial_speed2 amp b (isochrone_energy amp b R vR vT z vz) (angular_momentum2 R vR vT z vz) r <-> rperi <= r <= rap)) /\
  0 <= ia_ecc amp b R vR vT z vz < 1 /\ Rabs z <= ia_zmax amp b R vR vT z vz.
Proof.
  intros amp b R vR vT z vz PA Pb PR B PL. rewrite energy_eq, momentum_eq in *. destruct (rperi_rap_eq amp b R vR vT z vz PA Pb PR B PL) as [E1 EQ].
  unfold ia_ecc, ia_zmax. rewrite EQ. cbn [snd]. pose proof (k_pos amp b R vR vT z vz B) as K. pose proof (kcb amp b R vR vT z vz B) as KC. pose proof (c_pos amp b R vR vT z vz Pb PR B) as C.
  pose proof (kc2e2 amp b R vR vT z vz Pb PR B) as X. pose proof (e_sq amp b R vR vT z vz Pb PR B) as ES. pose proof (e_nonneg amp b R vR vT z vz) as E0. rewrite <- ES in X.
  assert (KE : ia_E amp b R vR vT z vz = - io_k amp b R vR vT z vz / 2) by (unfold io_k; field).
  pose proof (p2_e amp b R vR vT z vz Pb PR B) as P2. rewrite <- ES in P2. pose proof (r2_w b R z) as R2. pose proof (w_pos b R z Pb PR) as W.
  pose proof (Lz_le R vR vT z vz) as LL. pose proof (L2_q R vR vT z vz) as LQ.
  set (k := io_k amp b R vR vT z vz) in *. set (c := io_c amp b R vR vT z vz) in *. set (e := io_e amp b R vR vT z vz) in *. set (L2 := ia_L2 R vR vT z vz) in *. set (p := io_p R vR z vz) in *. set (w := io_w b R z) in *. set (q := io_q R vR z vz) in *.
  clearbody k c e p w q. set (wm := c * (1 - e)) in *. set (wp := c * (1 + e)) in *. assert (Pm : 0 < wm) by (apply Rmult_lt_0_compat; lra). assert (Pp : wm <= wp) by (unfold wm, wp; nra).
  assert (Sm : 0 < wm * (wm + 2 * b)) by (apply Rmult_lt_0_compat; lra). assert (Sp : 0 < wp * (wp + 2 * b)) by (apply Rmult_lt_0_compat; lra).
  assert (Mono : forall x y, 0 <= x -> 0 <= y -> (x * (x + 2 * b) <= y * (y + 2 * b) <-> x <= y)).
  { intros x y Hx Hy. split; intros H; [|nra]. destruct (Rle_dec x y) as [Q|Q]; [exact Q|]. exfalso. assert (0 < (x - y) * (x + y + 2 * b)) by (apply Rmult_lt_0_compat; lra). nra. }
  assert (Rng : forall W0, 0 < W0 -> forall r, 0 < r -> r ^ 2 = W0 * (W0 + 2 * b) -> (0 <= k * (c ^ 2 * e ^ 2 - (W0 - c) ^ 2) <-> sqrt (wm * (wm + 2 * b)) <= r <= sqrt (wp * (wp + 2 * b)))).
  { intros W0 PW r Pr Er.
    assert (A1 : sqrt (wm * (wm + 2 * b)) <= r <-> wm <= W0) by (rewrite <- Rsq_le by (try apply sqrt_pos; lra); rewrite sqrt_sq by lra; rewrite Er; apply Mono; lra).
    assert (A2 : r <= sqrt (wp * (wp + 2 * b)) <-> W0 <= wp) by (rewrite <- Rsq_le by (try apply sqrt_pos; lra); rewrite sqrt_sq by lra; rewrite Er; apply Mono; lra).
    rewrite A1, A2. assert (F : c ^ 2 * e ^ 2 - (W0 - c) ^ 2 = (W0 - wm) * (wp - W0)) by (unfold wm, wp; ring). rewrite F. split; intros H.
    - assert (H1 : 0 <= (W0 - wm) * (wp - W0)) by (apply (Rmult_le_reg_l k); [exact K|lra]). split.
      + destruct (Rle_dec wm W0) as [Q|Q]; [exact Q|exfalso]. assert (0 < (wm - W0) * (wp - W0)) by (apply Rmult_lt_0_compat; lra). lra.
      + destruct (Rle_dec W0 wp) as [Q|Q]; [exact Q|exfalso]. assert (0 < (W0 - wm) * (W0 - wp)) by (apply Rmult_lt_0_compat; lra). lra.
    - apply Rmult_le_pos; [lra|]. apply Rmult_le_pos; lra. }
  assert (Pr : 0 < sqrt (R ^ 2 + z ^ 2)) by (apply sqrt_lt_R0; nra).
  assert (Here : sqrt (wm * (wm + 2 * b)) <= sqrt (R ^ 2 + z ^ 2) <= sqrt (wp * (wp + 2 * b))).
  { apply (Rng w W); [exact Pr|rewrite sqrt_sq by nra; exact R2|]. rewrite <- P2. apply pow2_ge_0. }
  split; [apply sqrt_lt_R0; exact Sm|]. split; [exact Here|]. split.
  - intros r Hr. set (s := sqrt (b ^ 2 + r ^ 2)). assert (S2 : s ^ 2 = b ^ 2 + r ^ 2) by (apply sqrt_sq; nra). assert (Ps : b < s) by (apply (Rsqr_incrst_0 b s); [rewrite !Rsqr_pow2; nra|lra|apply sqrt_pos]).
    rewrite <- (Rng (s - b)) by (try lra; rewrite ?S2; nra). unfold radial_speed2. fold s. rewrite KE.
    assert (F : r ^ 2 * (2 * (- k / 2 + amp / (b + s)) - L2 / r ^ 2) = k * (c ^ 2 * e ^ 2 - (s - b - c) ^ 2)).
    { transitivity (- k * r ^ 2 + 2 * amp * r ^ 2 / (b + s) - L2); [field; lra|]. replace (r ^ 2) with ((s - b) * (b + s)) by nra. rewrite <- KC.
      transitivity (- k * ((s - b) * (b + s)) + 2 * (k * (c + b)) * (s - b) - L2); [field; lra|]. replace L2 with (k * c ^ 2 - k * c ^ 2 * e ^ 2) by lra. ring. }
    assert (P2r : 0 < r ^ 2) by (apply pow_lt; exact Hr). rewrite <- F. split; intros H; [apply Rmult_le_pos; lra|]. apply (Rmult_le_reg_l (r ^ 2)); lra.
  - assert (Pa : 0 < sqrt (wm * (wm + 2 * b))) by (apply sqrt_lt_R0; exact Sm). set (ra := sqrt (wp * (wp + 2 * b))) in *. set (rp := sqrt (wm * (wm + 2 * b))) in *. split; [split|].
    + apply Rmult_le_pos; [lra|apply Rlt_le, Rinv_0_lt_compat; lra].
    + apply (Rmult_lt_reg_r (ra + rp)); [lra|]. unfold Rdiv. rewrite Rmult_assoc, Rinv_l by lra. lra.
    + assert (Q : Rabs z <= sqrt (R ^ 2 + z ^ 2) * sqrt (1 - ia_Lz R vT ^ 2 / L2)).
      { unfold ia_Lz. assert (LL2 : 0 <= 1 - (R * vT) ^ 2 / L2). { assert ((R * vT) ^ 2 / L2 <= 1); [|lra]. apply (Rmult_le_reg_r L2); [exact PL|]. unfold Rdiv. rewrite Rmult_assoc, Rinv_l by lra. lra. }
        apply Rsq_le; [apply Rabs_pos|apply Rmult_le_pos; apply sqrt_pos|]. rewrite pow2_abs, Rpow_mult_distr, !sqrt_sq by nra. apply (Rmult_le_reg_r L2); [exact PL|].
        apply Rle_trans with ((R ^ 2 + z ^ 2) * (L2 - (R * vT) ^ 2)); [|apply Req_le; field; lra]. rewrite LQ. assert (0 <= R ^ 2 * q ^ 2) by (apply Rmult_le_pos; apply pow2_ge_0). nra. }
      eapply Rle_trans; [exact Q|]. apply Rmult_le_compat_r; [apply sqrt_pos|apply Here].
Qed.
Print Assumptions C34_turning.

(** ** The inverse transformation *)
Lemma inclined_D R vR vT z vz : 0 < R -> vT <> 0 -> inclined R vR vT z vz -> 0 < sqrt (ia_L2 R vR vT z vz - (R * vT) ^ 2).
Proof.
  intros PR NT H. apply sqrt_lt_R0. rewrite L2_q. unfold io_q. assert (PT : 0 < vT ^ 2) by (apply pow2_gt_0; exact NT). pose proof (pow2_ge_0 (z * vR - R * vz)) as Q.
  destruct (Req_EM_T z 0) as [Z|Z].
  - destruct H as [H|H]; [contradiction|]. assert (0 < (z * vR - R * vz) ^ 2) by (apply pow2_gt_0; rewrite Z; intros X; assert (Y : R * vz = 0) by lra; apply Rmult_integral in Y; lra). rewrite Z. nra.
  - assert (0 < z ^ 2) by (apply pow2_gt_0; exact Z). assert (0 < z ^ 2 * vT ^ 2) by (apply Rmult_lt_0_compat; assumption). nra.
Qed.
Lemma not_inclined_D R vR vT z vz : ~ inclined R vR vT z vz -> z = 0 /\ vz = 0.
Proof. unfold inclined. intros H. destruct (Req_EM_T z 0); destruct (Req_EM_T vz 0); tauto. Qed.
Lemma L2_pos R vR vT z vz : 0 < R -> vT <> 0 -> 0 < ia_L2 R vR vT z vz.
Proof.
  intros PR NT. rewrite L2_q. assert (0 < vT ^ 2) by (apply pow2_gt_0; exact NT). assert (0 < (R ^ 2 + z ^ 2) * vT ^ 2) by (apply Rmult_lt_0_compat; nra). pose proof (pow2_ge_0 (io_q R vR z vz)). lra.
Qed.
Lemma e2_pos amp b R vR vT z vz : 0 <= b -> 0 < R -> ia_E amp b R vR vT z vz < 0 -> ~ circular amp b R vR vT z vz -> 0 < io_e2 amp b R vR vT z vz.
Proof.
  intros Pb PR B C. pose proof (e2_nonneg amp b R vR vT z vz Pb PR B) as H. destruct (Req_EM_T (io_e2 amp b R vR vT z vz) 0) as [Z|Z]; [|lra].
  exfalso. apply C. apply circular_e2; assumption.
Qed.
(** The inverse transformation at the actions and angles of a point gives back the point, for every bound orbit that is neither circular nor
    through the axis. *)
Theorem C34_round_trip : forall amp b K R vR vT z vz phi, 0 < amp -> 0 <= b -> 0 < R -> isochrone_energy amp b R vR vT z vz < 0 -> kepler_solver K ->
  vT <> 0 -> ~ circular amp b R vR vT z vz ->
  exists J A, ia_actions amp b R vR vT z vz = Some J /\ ia_angles amp b R vR vT z vz phi = Some A /\
    (0 <= Ar A < 2 * PI /\ 0 <= Ap A < 2 * PI /\ 0 <= Az A < 2 * PI) /\
    let P := ii_xv amp b K J A in
    ph_R P = R /\ ph_vR P = vR /\ ph_vT P = vT /\ ph_z P = z /\ ph_vz P = vz /\ same_angle (ph_phi P) phi /\ 0 <= ph_phi P < 2 * PI.
Proof.
  intros amp b K R vR vT z vz phi PA Pb PR B HK NT NC. rewrite energy_eq in *. pose proof (L2_pos R vR vT z vz PR NT) as PL. pose proof (e2_pos amp b R vR vT z vz Pb PR B NC) as PE. pose proof PI_RGT_0 as PP.
  assert (NL : R * vT <> 0) by (apply Rmult_integral_contrapositive_currified; lra).
  eexists. eexists. split; [apply actions_eq; assumption|]. split; [apply angles_eq; assumption|]. split; [cbn [Ar Ap Az]; split; [|split]; apply modulo_range; lra|].
  fold (io_J amp b R vR vT z vz). cbv zeta.
  assert (Eq : ii_xv amp b K (io_J amp b R vR vT z vz) (mkAngles (modulo (io_ar amp b R vR vT z vz) (2 * PI)) (modulo (io_ap amp b R vR vT z vz phi) (2 * PI)) (modulo (io_az amp b R vR vT z vz phi) (2 * PI))) = io_point R vR vT z vz phi).
  { destruct (Req_EM_T z 0) as [Z|Z]; [destruct (Req_EM_T vz 0) as [V|V]|].
    - apply inv_planar; assumption.
    - apply inv_inclined; try assumption. apply inclined_D; try assumption. right. exact V.
    - apply inv_inclined; try assumption. apply inclined_D; try assumption. left. exact Z. }
  rewrite Eq. unfold io_point. cbn [ph_R ph_vR ph_vT ph_z ph_vz ph_phi]. split; [reflexivity|]. split; [reflexivity|]. split; [reflexivity|]. split; [reflexivity|]. split; [reflexivity|].
  split; [apply modulo_same|apply modulo_range; lra].
Qed.
Print Assumptions C34_round_trip.
(** The solver assumed there exists. *)
Example C34_solver_exists : exists K, kepler_solver K.
Proof. exists kepler_sol. apply kepler_sol_ok. Qed.

(** ** Motion *)
(** Along every bound orbit of the isochrone potential that is neither circular nor through the axis, and not retrograde in the plane z = 0,
    actions and frequencies are constant and the angles advance at the frequencies. *)
Theorem C34_motion : forall amp b R vR vT z vz phi, 0 < amp -> 0 <= b -> isochrone_motion amp b R vR vT z vz phi ->
  isochrone_energy amp b (R 0) (vR 0) (vT 0) (z 0) (vz 0) < 0 -> ~ circular amp b (R 0) (vR 0) (vT 0) (z 0) (vz 0) -> vT 0 <> 0 ->
  (inclined (R 0) (vR 0) (vT 0) (z 0) (vz 0) \/ 0 < vT 0) ->
  exists J F A0, ia_angles amp b (R 0) (vR 0) (vT 0) (z 0) (vz 0) (phi 0) = Some A0 /\ forall t,
    ia_actions amp b (R t) (vR t) (vT t) (z t) (vz t) = Some J /\ ia_freqs amp b (R t) (vR t) (vT t) (z t) (vz t) = Some F /\
    exists A, ia_angles amp b (R t) (vR t) (vT t) (z t) (vz t) (phi t) = Some A /\
      same_angle (Ar A) (Ar A0 + Or F * t) /\ same_angle (Ap A) (Ap A0 + Op F * t) /\ same_angle (Az A) (Az A0 + Oz F * t).
Proof.
  intros amp b R vR vT z vz phi PA Pb HM B NC NT HI. rewrite energy_eq in B. assert (PR : forall t, 0 < R t) by (intros; apply HM).
  pose proof (L2_pos (R 0) (vR 0) (vT 0) (z 0) (vz 0) (PR 0) NT) as PL. pose proof (e2_pos amp b (R 0) (vR 0) (vT 0) (z 0) (vz 0) Pb (PR 0) B NC) as PE.
  assert (Bt : forall t, ia_E amp b (R t) (vR t) (vT t) (z t) (vz t) < 0) by (intros t; rewrite (E_const amp b R vR vT z vz phi Pb HM t); exact B).
  assert (PLt : forall t, 0 < ia_L2 (R t) (vR t) (vT t) (z t) (vz t)) by (intros t; rewrite (L2_const amp b R vR vT z vz phi HM t); exact PL).
  assert (PEt : forall t, 0 < io_e2 amp b (R t) (vR t) (vT t) (z t) (vz t)) by (intros t; rewrite (e2_const amp b R vR vT z vz phi Pb HM t); exact PE).
  assert (NL : R 0 * vT 0 <> 0) by (pose proof (PR 0); apply Rmult_integral_contrapositive_currified; lra).
  eexists (io_J amp b (R 0) (vR 0) (vT 0) (z 0) (vz 0)). eexists. eexists. split; [apply angles_eq; auto|]. intros t. split; [|split].
  - rewrite actions_eq by auto. unfold io_J. rewrite (k_const amp b R vR vT z vz phi Pb HM t), (L2_const amp b R vR vT z vz phi HM t), (Lz_const amp b R vR vT z vz phi HM t). reflexivity.
  - rewrite freqs_eq by auto. cbv zeta. rewrite (k_const amp b R vR vT z vz phi Pb HM t), (L2_const amp b R vR vT z vz phi HM t), (Lz_const amp b R vR vT z vz phi HM t). reflexivity.
  - eexists. split; [apply angles_eq; auto|]. cbn [Ar Ap Az Or Op Oz].
    assert (D2 : 0 < sqrt (ia_L2 (R 0) (vR 0) (vT 0) (z 0) (vz 0) - (R 0 * vT 0) ^ 2) \/ (sqrt (ia_L2 (R 0) (vR 0) (vT 0) (z 0) (vz 0) - (R 0 * vT 0) ^ 2) = 0 /\ 0 < R 0 * vT 0)).
    { assert (Dec : inclined (R 0) (vR 0) (vT 0) (z 0) (vz 0) \/ (z 0 = 0 /\ vz 0 = 0)) by (unfold inclined; destruct (Req_EM_T (z 0) 0); destruct (Req_EM_T (vz 0) 0); tauto).
      destruct Dec as [I|[Z V]]; [left; apply inclined_D; auto|right]. destruct HI as [I|I]; [exfalso; destruct I; contradiction|]. split; [|apply Rmult_lt_0_compat; auto].
      rewrite L2_q. unfold io_q. rewrite Z, V. match goal with |- sqrt ?x = 0 => replace x with 0 by ring end. apply sqrt_0. }
    pose proof (ar_moves amp b R vR vT z vz phi Pb HM B PE t) as MR.
    assert (MP : same_angle (io_ap amp b (R t) (vR t) (vT t) (z t) (vz t) (phi t)) (io_ap amp b (R 0) (vR 0) (vT 0) (z 0) (vz 0) (phi 0) +
       (if Rlt_dec (R 0 * vT 0) 0 then io_rho amp b (R 0) (vR 0) (vT 0) (z 0) (vz 0) * (sqrt (io_k amp b (R 0) (vR 0) (vT 0) (z 0) (vz 0)) ^ 3 / amp) * -1
        else io_rho amp b (R 0) (vR 0) (vT 0) (z 0) (vz 0) * (sqrt (io_k amp b (R 0) (vR 0) (vT 0) (z 0) (vz 0)) ^ 3 / amp)) * t)) by (destruct D2 as [D2|[D2 D3]]; [apply ap_inclined; assumption|apply ap_prograde; assumption]).
    assert (MZ : same_angle (io_az amp b (R t) (vR t) (vT t) (z t) (vz t) (phi t)) (io_az amp b (R 0) (vR 0) (vT 0) (z 0) (vz 0) (phi 0) +
       io_rho amp b (R 0) (vR 0) (vT 0) (z 0) (vz 0) * (sqrt (io_k amp b (R 0) (vR 0) (vT 0) (z 0) (vz 0)) ^ 3 / amp) * t)) by (apply (az_moves amp b R vR vT z vz phi PA Pb HM B PE PL); destruct D2 as [D2|[D2 D3]]; [apply psi_moves; assumption|apply psi_prograde; assumption]).
    assert (Red : forall x y d, same_angle x (y + d) -> same_angle (modulo x (2 * PI)) (modulo y (2 * PI) + d)).
    { intros x y d H. apply (same_trans _ x); [apply modulo_same|]. apply (same_trans _ (y + d)); [exact H|]. apply same_plus; [apply same_sym, modulo_same|apply same_refl]. }
    split; [apply Red; exact MR|]. split; [apply Red; exact MP|apply Red; exact MZ].
Qed.
Print Assumptions C34_motion.
(** Non-vacuity: an inclined, eccentric orbit with those properties. *)
Example C34_motion_nonvacuous : exists R vR vT z vz phi, isochrone_motion 1 0 R vR vT z vz phi /\
  isochrone_energy 1 0 (R 0) (vR 0) (vT 0) (z 0) (vz 0) < 0 /\ ~ circular 1 0 (R 0) (vR 0) (vT 0) (z 0) (vz 0) /\ vT 0 <> 0 /\ inclined (R 0) (vR 0) (vT 0) (z 0) (vz 0).
Proof.
  exists ex_R, ex_vR, ex_vT, ex_z, ex_vz, ex_phi. split; [exact ex_motion|]. destruct ex_start as (-> & -> & -> & -> & ->).
  assert (S1 : sqrt (0 ^ 2 + (2 / 5) ^ 2 + 0 ^ 2) = 2 / 5) by (apply sqrt_of_sq; [lra|ring]). split; [unfold isochrone_energy; rewrite S1; lra|].
  split; [|split; [lra|right; lra]]. intros [_ Q]. unfold isochrone_pull in Q. rewrite S1 in Q. lra.
Qed.

(** ** Rotation about the axis *)
(** Turning an inclined orbit about the z axis turns the azimuthal angle along and leaves the others alone. *)
Theorem C34_rotation : forall amp b R vR vT z vz phi delta A A', 0 < amp -> 0 <= b -> 0 < R -> isochrone_energy amp b R vR vT z vz < 0 -> vT <> 0 ->
  inclined R vR vT z vz -> ia_angles amp b R vR vT z vz phi = Some A -> ia_angles amp b R vR vT z vz (phi + delta) = Some A' ->
  Ar A' = Ar A /\ Az A' = Az A /\ same_angle (Ap A') (Ap A + delta).
Proof.
  intros amp b R vR vT z vz phi delta A A' PA Pb PR B NT HI. rewrite energy_eq in *. pose proof (inclined_D R vR vT z vz PR NT HI) as PD. pose proof (L2_pos R vR vT z vz PR NT) as PL.
  assert (HP : ia_psi (ia_L2 R vR vT z vz) (ia_Lz R vT) R vR z vz (phi + delta) = ia_psi (ia_L2 R vR vT z vz) (ia_Lz R vT) R vR z vz phi).
  { unfold ia_psi, ia_Lz. cbv zeta. rewrite L_sq. pose proof (L_pos R vR vT z vz PL) as LP. assert (0 < sqrt (ia_L2 R vR vT z vz - (R * vT) ^ 2) / sqrt (ia_L2 R vR vT z vz)) by (apply Rdiv_lt_0_compat; assumption).
    destruct (Req_EM_T (sqrt (ia_L2 R vR vT z vz - (R * vT) ^ 2) / sqrt (ia_L2 R vR vT z vz)) 0); [lra|reflexivity]. }
  assert (HU : ia_u (ia_L2 R vR vT z vz) (ia_Lz R vT) R vR z vz (phi + delta) = ia_u (ia_L2 R vR vT z vz) (ia_Lz R vT) R vR z vz phi).
  { unfold ia_u, ia_Lz. cbv zeta. rewrite L_sq. assert (NL : R * vT <> 0) by (apply Rmult_integral_contrapositive_currified; lra). destruct (Req_EM_T (R * vT) 0) as [Q|_]; [contradiction|].
    destruct (Req_EM_T (sqrt (ia_L2 R vR vT z vz - (R * vT) ^ 2) / (R * vT)) 0) as [Q|_]; [|reflexivity]. exfalso. unfold Rdiv in Q. apply Rmult_integral in Q. destruct Q as [Q|Q]; [lra|]. apply (Rinv_neq_0_compat (R * vT) NL). exact Q. }
  unfold ia_angles. destruct (ia_freqs amp b R vR vT z vz); [|discriminate]. cbv zeta. rewrite HP, HU.
  match goal with |- (if ?c then _ else _) = _ -> _ => destruct c; [discriminate|] end. match goal with |- (if ?c then _ else _) = _ -> _ => destruct c; [discriminate|] end.
  intros E1 E2. injection E1 as <-. injection E2 as <-. cbn [Ar Ap Az]. split; [reflexivity|]. split; [reflexivity|].
  match goal with |- same_angle (modulo ?x _) (modulo ?y _ + _) => apply (same_trans _ x); [apply modulo_same|]; apply (same_trans _ (y + delta)); [|apply same_plus; [apply same_sym, modulo_same|apply same_refl]]; replace x with (y + delta) by (destruct (Rlt_dec (ia_Lz R vT) 0); ring) end.
  apply same_refl.
Qed.
Print Assumptions C34_rotation.

(** ** Where it breaks *)
(** In the plane z = 0 the ascending node is put at azimuth zero whatever the sense of rotation.  Turning a retrograde planar orbit about the
    axis therefore turns the returned azimuthal angle the other way. *)
Theorem C34_rotation_refuted : forall amp b R vR vT phi delta A A', 0 < amp -> 0 <= b -> 0 < R -> isochrone_energy amp b R vR vT 0 0 < 0 -> vT < 0 ->
  ia_angles amp b R vR vT 0 0 phi = Some A -> ia_angles amp b R vR vT 0 0 (phi + delta) = Some A' ->
  same_angle (Ap A') (Ap A - delta).
Proof.
  intros amp b R vR vT phi delta A A' PA Pb PR B NT. rewrite energy_eq in *.
  assert (D0 : sqrt (sqrt (ia_L2 R vR vT 0 0) ^ 2 - (R * vT) ^ 2) = 0).
  { rewrite L_sq, L2_q. unfold io_q. match goal with |- sqrt ?x = 0 => replace x with 0 by ring end. apply sqrt_0. }
  assert (HP : forall f, ia_psi (ia_L2 R vR vT 0 0) (ia_Lz R vT) R vR 0 0 f = modulo f (2 * PI)).
  { intros f. unfold ia_psi, ia_Lz. cbv zeta. rewrite D0. unfold Rdiv. rewrite Rmult_0_l. destruct (Req_EM_T 0 0); [reflexivity|contradiction]. }
  assert (HU : forall f, ia_u (ia_L2 R vR vT 0 0) (ia_Lz R vT) R vR 0 0 f = f).
  { intros f. unfold ia_u, ia_Lz. cbv zeta. rewrite D0. assert (R * vT < 0) by nra. destruct (Req_EM_T (R * vT) 0); [lra|]. unfold Rdiv. rewrite Rmult_0_l. destruct (Req_EM_T 0 0); [reflexivity|contradiction]. }
  unfold ia_angles. destruct (ia_freqs amp b R vR vT 0 0); [|discriminate]. cbv zeta. rewrite !HP, !HU.
  match goal with |- (if ?c then _ else _) = _ -> _ => destruct c; [discriminate|] end. match goal with |- (if ?c then _ else _) = _ -> _ => destruct c; [discriminate|] end.
  assert (NL : ia_Lz R vT < 0) by (unfold ia_Lz; nra). destruct (Rlt_dec (ia_Lz R vT) 0); [|contradiction].
  intros E1 E2. injection E1 as <-. injection E2 as <-. cbn [Ap].
  match goal with |- same_angle (modulo (?f - ?f - (?p + ?x - ?y - ?w)) _) (modulo (?g - ?g - (?q + ?x - ?y - ?w)) _ - _) =>
    apply (same_trans _ ((w + y - x) - p)); [replace ((w + y - x) - p) with (f - f - (p + x - y - w)) by ring; apply modulo_same|];
    apply (same_trans _ (((w + y - x) - q) - delta)); [|apply same_minus; [replace ((w + y - x) - q) with (g - g - (q + x - y - w)) by ring; apply same_sym, modulo_same|apply same_refl]];
    replace ((w + y - x) - q - delta) with ((w + y - x) - (q + delta)) by ring; apply same_minus; [apply same_refl|];
    apply (same_trans _ f); [apply modulo_same|]; apply same_plus; [apply same_sym, modulo_same|apply same_refl] end.
Qed.
Print Assumptions C34_rotation_refuted.
(** Circular orbits have no angles at all: the radial anomaly is 0/0. *)
Theorem C34_circular_angles_refuted : forall amp b R vR vT z vz phi, 0 < amp -> 0 <= b -> 0 < R -> isochrone_energy amp b R vR vT z vz < 0 -> circular amp b R vR vT z vz ->
  ia_actions amp b R vR vT z vz <> None /\ ia_angles amp b R vR vT z vz phi = None.
Proof.
  intros amp b R vR vT z vz phi PA Pb PR B C. rewrite energy_eq in B. split; [rewrite actions_eq by assumption; discriminate|].
  apply circular_e2 in C; try assumption. unfold ia_angles. rewrite freqs_eq by assumption. cbv zeta.
  destruct (Rle_dec (ia_e2 amp b (ia_E amp b R vR vT z vz) (ia_L2 R vR vT z vz)) 0) as [|N]; [reflexivity|]. exfalso. apply N. rewrite e2_eq by assumption. rewrite C. lra.
Qed.
Print Assumptions C34_circular_angles_refuted.
(** On orbits through the axis numpy.sign(0) = 0 drops the vertical angle from the azimuth of the inverse, which is off by that angle. *)
Theorem C34_round_trip_refuted : forall amp b K R vR z vz phi J A, 0 < amp -> 0 <= b -> 0 < R -> isochrone_energy amp b R vR 0 z vz < 0 -> kepler_solver K ->
  0 < angular_momentum2 R vR 0 z vz -> ia_actions amp b R vR 0 z vz = Some J -> ia_angles amp b R vR 0 z vz phi = Some A ->
  same_angle (ph_phi (ii_xv amp b K J A)) (phi + Az A).
Proof.
  intros amp b K R vR z vz phi J A PA Pb PR B HK PL EJ EA. rewrite energy_eq in *. rewrite momentum_eq in PL.
  assert (PE : 0 < io_e2 amp b R vR 0 z vz).
  { pose proof (e2_nonneg amp b R vR 0 z vz Pb PR B) as H. destruct (Req_EM_T (io_e2 amp b R vR 0 z vz) 0) as [Z|Z]; [|lra]. exfalso.
    unfold ia_angles in EA. destruct (ia_freqs amp b R vR 0 z vz); [|discriminate]. cbv zeta in EA. rewrite e2_eq, Z in EA by assumption. destruct (Rle_dec 0 0); [discriminate|lra]. }
  rewrite actions_eq in EJ by assumption. injection EJ as <-. rewrite angles_eq in EA by assumption. injection EA as <-. cbn [Az].
  apply inv_polar; try assumption; [|ring]. replace (R * 0) with 0 by ring. apply sqrt_lt_R0. lra.
Qed.
Print Assumptions C34_round_trip_refuted.
(** Such an orbit, at apocentre and moving down: the azimuth comes back on the other side of the axis. *)
Example C34_round_trip_refuted_example : exists A, ia_angles 1 0 1 0 0 0 (- / 2) 0 = Some A /\ Az A = PI /\ ~ same_angle (0 + Az A) 0.
Proof.
  assert (B : ia_E 1 0 1 0 0 0 (- / 2) = - 7 / 8).
  { unfold ia_E, ia_Phi, Iso_ev, Iso_rb. replace (1 ^ 2 + 0 ^ 2 + 0 ^ 2) with 1 by ring. rewrite sqrt_1. lra. }
  assert (L : ia_L2 1 0 0 0 (- / 2) = / 4) by (unfold ia_L2; field).
  pose proof PI_RGT_0 as PP. assert (S4 : sqrt (/ 4) = / 2) by (apply sqrt_of_sq; [lra|field]).
  assert (R1 : 1 ^ 2 + 0 ^ 2 = 1) by ring.
  assert (C : ia_c 1 0 (- 7 / 8) = 4 / 7) by (unfold ia_c; field).
  assert (E2 : ia_e2 1 0 (- 7 / 8) (/ 4) = 9 / 16) by (unfold ia_e2; cbv zeta; rewrite C; field).
  assert (E1 : sqrt (9 / 16) = 3 / 4) by (apply sqrt_of_sq; [lra|field]).
  assert (Eta : ia_eta 1 0 (- 7 / 8) (/ 4) 1 0 0 (- / 2) = PI).
  { unfold ia_eta, ia_coseta. cbv zeta. rewrite R1, sqrt_1, E2, E1, C. destruct (Req_EM_T 0 0); [|contradiction]. replace (1 / (3 / 4) * (1 - 1 / (4 / 7))) with (- 1) by field.
    unfold clip. destruct (Rlt_dec 1 (- 1)); [lra|]. destruct (Rlt_dec (- 1) (- 1)); [lra|]. destruct (Rlt_dec (0 * (1 / 1) + - / 2 * (0 / 1)) 0); [lra|].
    replace (- 1) with (- (1)) by ring. rewrite acos_opp, acos_1. ring. }
  assert (T : forall g, up_pi (arctan_tan g (/ 2 * PI)) = PI / 2).
  { intros g. unfold arctan_tan. replace (/ 2 * PI) with (PI / 2) by field. rewrite cos_PI2. destruct (Req_EM_T 0 0); [|contradiction]. unfold up_pi. destruct (Rlt_dec (PI / 2) 0); [lra|reflexivity]. }
  assert (Dn : ia_down 1 0 0 (- / 2) = true).
  { unfold ia_down. cbv zeta. rewrite R1, sqrt_1. destruct (Rlt_dec 0 (- - / 2 * (1 / 1) + 0 * (0 / 1))) as [|N]; [reflexivity|]. exfalso. apply N. lra. }
  assert (Ps : ia_psi (/ 4) (1 * 0) 1 0 0 (- / 2) 0 = PI).
  { unfold ia_psi. cbv zeta. rewrite S4, R1, sqrt_1, Dn. replace ((/ 2) ^ 2 - (1 * 0) ^ 2) with (/ 4) by field. rewrite S4. destruct (Req_EM_T (/ 2 / / 2) 0) as [Q|_]; [exfalso; lra|].
    replace (0 / 1 / (/ 2 / / 2)) with 0 by field. unfold clip. destruct (Rlt_dec 1 0); [lra|]. destruct (Rlt_dec 0 (-1)); [lra|]. rewrite asin_0, Rminus_0_r. apply modulo_id. lra. }
  unfold ia_angles, ia_freqs. cbv zeta. rewrite B, L. destruct (Rlt_dec (- 7 / 8) 0); [|lra]. rewrite E2. destruct (Rle_dec (9 / 16) 0); [lra|]. destruct (Req_EM_T (/ 4) 0); [lra|].
  eexists. split; [reflexivity|]. cbn [Az Or Oz]. unfold ia_tan11, ia_tan12, ia_Lz. rewrite Eta, !T, Ps, sin_PI, C.
  replace (/ 4 + 4 * 1 * 0) with (/ 4) by ring. rewrite S4. replace (1 + 4 * 1 * 0 / / 4) with 1 by field. rewrite sqrt_1.
  assert (NW : rpow (- 2 * (- 7 / 8)) (3 / 2) / 1 <> 0) by (apply Rgt_not_eq; apply Rdiv_lt_0_compat; [apply rpow_pos|lra]).
  set (w := rpow (- 2 * (- 7 / 8)) (3 / 2) / 1) in *. clearbody w.
  match goal with |- modulo ?x _ = _ /\ _ => replace x with PI by (field; exact NW) end. rewrite modulo_id by lra. split; [reflexivity|].
  intros [j H]. assert (Q : 1 = 2 * IZR j) by (apply (Rmult_eq_reg_r PI); lra). assert (Q2 : IZR 1 = IZR (2 * j)) by (rewrite mult_IZR; exact Q). apply eq_IZR in Q2. lia.
Qed.
