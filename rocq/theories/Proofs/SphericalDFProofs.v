(** Calls, moments and samples of the spherical distribution functions. *)
From Coq Require Import Reals List ZArith Lra Lia Bool.
From Coquelicot Require Import Coquelicot.
From Verif.Lib Require Import RealAux Atan2.
From Verif.Model Require Import PotAPI PotAxi SOS EOM SphericalDF.
From Verif.Spec Require Import SphericalDFSpec.
From Verif.Proofs Require Import EOMProofs StaeckelProofs KuzminKutuzovProofs SphericalDFIntegrals SphericalDFDensity SphericalDFModels.
Import ListNotations.
Open Scope R_scope.
Notation RR := RbaseSymbolsImpl.R (only parsing).
Ltac rr := match goal with |- ?a = ?b => change (@eq RR a b) end.

(** ** Calls *)
Lemma call_L_norm w : 0 < y_R w ^ 2 + y_z w ^ 2 ->
  call_L (y_R w) (y_vR w) (y_vT w) (y_z w) (y_vz w) = norm3 (orb_L w).
Proof.
  intros H. unfold call_L, norm3, orb_L. cbn [fst snd].
  set (R := y_R w) in *. set (z := y_z w) in *. set (vR := y_vR w). set (vT := y_vT w). set (vz := y_vz w). set (ph := y_phi w).
  pose proof (sqrt_lt_R0 _ H) as P. pose proof (sqrt_sq_eq _ (Rlt_le _ _ H)) as Q.
  set (r := sqrt (R ^ 2 + z ^ 2)) in *.
  rewrite <- (sqrt_pow2 r) at 2 by lra.
  assert (N : (vR ^ 2 + vT ^ 2 + vz ^ 2 - ((R * vR + z * vz) / r) ^ 2) * r ^ 2 = (R * vz - z * vR) ^ 2 + vT ^ 2 * (R ^ 2 + z ^ 2)).
  { transitivity ((vR ^ 2 + vT ^ 2 + vz ^ 2) * r ^ 2 - (R * vR + z * vz) ^ 2); [field; lra|]. rewrite Q. ring. }
  assert (N0 : 0 <= (R * vz - z * vR) ^ 2 + vT ^ 2 * (R ^ 2 + z ^ 2)).
  { apply Rplus_le_le_0_compat; [apply pow2_ge_0|]. apply Rmult_le_pos; [apply pow2_ge_0|lra]. }
  rewrite <- sqrt_mult_alt.
  2:{ apply Rmult_le_reg_r with (r ^ 2); [nra|]. rewrite N, Rmult_0_l. exact N0. }
  f_equal. rewrite N.
  pose proof (sin2_cos2 ph) as S. unfold Rsqr in S.
  assert (C2 : cos ph * cos ph = 1 - sin ph * sin ph) by lra.
  ring_simplify. replace (cos ph ^ 4) with ((cos ph * cos ph) ^ 2) by ring. replace (cos ph ^ 2) with (cos ph * cos ph) by ring.
  rewrite C2. ring.
Qed.
Lemma call_orbit_one f Phi w : 0 < y_R w ^ 2 + y_z w ^ 2 ->
  call_orbit f Phi [w] = [call_coords f Phi (y_R w) (y_vR w) (y_vT w) (y_z w) (y_vz w)].
Proof.
  intros H. unfold call_orbit, call_coords. cbn [map]. rewrite call_L_norm by exact H. unfold norm3, sum_sq. cbn [map fold_right].
  rewrite Rplus_0_r. f_equal. f_equal. unfold orb_E, orb_E_z, call_E. cbn beta zeta. rewrite !Rmult_1_l. lra.
Qed.

(** ** Moments *)
Lemma even_double n : Nat.odd n = false -> n = (2 * (n / 2))%nat.
Proof. intros H. rewrite <- Nat.negb_even in H. apply negb_false_iff, Nat.even_spec in H. destruct H as [k E]. subst n. rewrite Nat.mul_comm, Nat.div_mul by lia. lia. Qed.
Lemma not_odd n m : odd_moment n m = false -> Nat.odd m = false /\ Nat.odd n = false.
Proof. unfold odd_moment. intros H. apply orb_false_iff in H. exact H. Qed.

Lemma iso_as_KI fE Phi r n m : odd_moment n m = false ->
  iso_vmoment fE Phi r n m = 2 * PI * RInt (fun v => v ^ (2 + m + n) * fE (Phi r 0 + 0.5 * v ^ 2)) 0 (vmax_at_r Phi r) * KI (m + 1) n.
Proof.
  intros H. unfold iso_vmoment. rewrite H. destruct (not_odd n m H) as [Hm Hn].
  assert (K : KI (m + 1) n = gamma_half (m + 1 + 1) * gamma_half (n + 1) / gamma_half (m + 1 + n + 2)).
  { pose proof (KI_gamma (m + 1) (n / 2)) as K. rewrite <- (even_double n Hn) in K. exact K. }
  rewrite K. rewrite <- (even_double n Hn), <- (even_double m Hm).
  replace (m + 1 + 1)%nat with (m + 2)%nat by lia. replace (m + 1 + n + 2)%nat with (m + n + 3)%nat by lia. unfold Rdiv. rr. ring.
Qed.
Lemma angular (I : RR) n m : RInt (fun eta => I * (cos eta ^ n * sin eta ^ m * sin eta)) 0 PI = I * KI (m + 1) n.
Proof.
  unfold KI. etransitivity; [|exact (RInt_scal (V := R_CompleteNormedModule) (fun y => sin y ^ (m + 1) * cos y ^ n) 0 PI I (ex_sincos _ _ _ _))].
  apply RInt_ext. intros y _. change (scal ?a ?b) with (a * b). rewrite pow_add. rr. ring.
Qed.
Theorem iso_moment fE Phi r n m : odd_moment n m = false ->
  iso_vmoment fE Phi r n m = velocity_moment (iso_call fE) (Phi r 0) (vmax_at_r Phi r) r n m.
Proof.
  intros H. rewrite iso_as_KI by exact H. unfold velocity_moment, iso_call. rewrite Rmult_assoc. f_equal. rewrite <- angular.
  apply RInt_ext. intros y _. f_equal. apply RInt_ext. intros v _. f_equal; [rewrite !pow_add; ring|]. f_equal. lra.
Qed.
Theorem base_moment fE Phi r n m : 0 < r -> odd_moment n m = false ->
  ex_RInt (fun v => v ^ (2 + m + n) * fE (Phi r 0 + 0.5 * v ^ 2)) 0 (vmax_at_r Phi r) ->
  base_vmoment (iso_call fE) Phi r n m = iso_vmoment fE Phi r n m.
Proof.
  intros Hr H X. rewrite iso_as_KI by exact H. unfold base_vmoment. rewrite (Rmult_assoc (2 * PI)). f_equal.
  rewrite (RInt_ext _ (fun v => scal (KI (m + 1) n) (v ^ (2 + m + n) * fE (Phi r 0 + 0.5 * v ^ 2)))).
  - etransitivity; [exact (RInt_scal (V := R_CompleteNormedModule) _ _ _ _ X)|]. apply Rmult_comm.
  - intros v _. change (scal ?a ?b) with (a * b). unfold KI.
    rewrite Rmult_comm.
    etransitivity; [|exact (RInt_scal (V := R_CompleteNormedModule) (fun y => sin y ^ (m + 1) * cos y ^ n) 0 PI (v ^ (2 + m + n) * fE (Phi r 0 + 0.5 * v ^ 2)) (ex_sincos _ _ _ _))].
    apply RInt_ext. intros y _. change (scal ?a ?b) with (a * b). unfold call_coords, iso_call, call_E.
    replace (0.5 * ((v * cos y) ^ 2 + (v * sin y) ^ 2 + 0 ^ 2) + Phi r 0) with (Phi r 0 + 0.5 * v ^ 2).
    + replace (1 + m)%nat with (m + 1)%nat by lia. rr. ring.
    + replace ((v * cos y) ^ 2) with (v ^ 2 * cos y ^ 2) by ring. rewrite cos_sq. ring.
Qed.
Lemma pow_pred_mult x y b : pow_pred (x * y) b = pow_pred x b * pow_pred y b.
Proof. destruct b; cbn [pow_pred]; [apply Rinv_mult|apply Rpow_mult_distr]. Qed.
Lemma pow_pred_shift x b k : x <> 0 -> x ^ (k + 1) * pow_pred x b = x ^ (k + b).
Proof. intros H. destruct b as [|b]; cbn [pow_pred].
  - rewrite Nat.add_0_r, pow_add. cbn [pow]. field. exact H.
  - replace (k + S b)%nat with (k + 1 + b)%nat by lia. symmetry. apply pow_add.
Qed.
Theorem cb_moment b fE Phi r n m : 0 < r -> 0 < vmax_at_r Phi r -> odd_moment n m = false ->
  ex_RInt (fun v => v ^ (1 + b + m + n) * fE (Phi r 0 + 0.5 * v ^ 2)) 0 (vmax_at_r Phi r) ->
  cb_vmoment b fE Phi r n m = velocity_moment (cb_call b fE) (Phi r 0) (vmax_at_r Phi r) r n m.
Proof.
  intros Hr Hv H X. unfold cb_vmoment, velocity_moment. rewrite H. destruct (not_odd n m H) as [Hm Hn].
  set (I := RInt (fun v => v ^ (1 + b + m + n) * fE (Phi r 0 + 0.5 * v ^ 2)) 0 (vmax_at_r Phi r)) in *.
  pose proof PI_RGT_0 as Pi.
  rewrite (RInt_ext (fun eta => RInt (fun v => v ^ 2 * v ^ n * v ^ m * cb_call b fE (Phi r 0 + v ^ 2 / 2) (r * (v * sin eta)) (r * (v * sin eta))) 0 (vmax_at_r Phi r)
                                * (cos eta ^ n * sin eta ^ m * sin eta))
                    (fun y => scal (pow_pred r b * I) (sin y ^ (m + b) * cos y ^ n))).
  - rewrite (RInt_scal (V := R_CompleteNormedModule) (fun y => sin y ^ (m + b) * cos y ^ n) 0 PI _ (ex_sincos _ _ _ _)).
    change (scal ?a ?b) with (a * b). fold (KI (m + b) n).
    pose proof (KI_gamma (m + b) (n / 2)) as K. rewrite <- (even_double n Hn) in K. rewrite K.
    replace (m + b + n + 2)%nat with (m + n + b + 2)%nat by lia. unfold Rdiv. rr. ring.
  - intros y Hy. rewrite Rmin_left, Rmax_right in Hy by lra. assert (Sy : 0 < sin y) by (apply sin_gt_0; lra).
    change (scal ?a ?b) with (a * b).
    assert (E : RInt (fun v => v ^ 2 * v ^ n * v ^ m * cb_call b fE (Phi r 0 + v ^ 2 / 2) (r * (v * sin y)) (r * (v * sin y))) 0 (vmax_at_r Phi r) = pow_pred r b * pow_pred (sin y) b * I).
    { unfold I. etransitivity; [|exact (RInt_scal (V := R_CompleteNormedModule) _ _ _ (pow_pred r b * pow_pred (sin y) b) X)].
      apply RInt_ext. intros v Hv'. rewrite Rmin_left, Rmax_right in Hv' by lra. change (scal ?a ?b) with (a * b).
      unfold cb_call. rewrite !pow_pred_mult. replace (Phi r 0 + v ^ 2 / 2) with (Phi r 0 + 0.5 * v ^ 2) by lra.
      replace (1 + b + m + n)%nat with ((n + m + 1) + b)%nat by lia. rewrite <- pow_pred_shift by lra. rewrite !pow_add. rr. ring. }
    rewrite E. rewrite <- pow_pred_shift by lra. rewrite pow_add. rr. ring.
Qed.
Theorem om_moment ra fQ Phi r n m : 0 < ra -> 0 < r -> Phi r 0 < 0 -> odd_moment n m = false -> (forall q, q < 0 -> fQ q = 0) ->
  ex_RInt (fun v => v ^ (2 + m + n) * fQ (- Phi r 0 - 0.5 * v ^ 2)) 0 (vmax_at_r Phi r) ->
  om_vmoment ra fQ Phi r n m = velocity_moment (om_call ra fQ) (Phi r 0) (vmax_at_r Phi r) r n m.
Proof.
  intros Hra Hr HP H Hq X. unfold om_vmoment, velocity_moment. rewrite H. destruct (not_odd n m H) as [Hm Hn].
  unfold vmax_at_r in *. replace (0 - Phi r 0) with (- Phi r 0) in * by ring.
  set (Psi := - Phi r 0) in *. assert (HPsi : 0 < Psi) by (unfold Psi; lra).
  set (I := RInt (fun v => v ^ (2 + m + n) * fQ (Psi - 0.5 * v ^ 2)) 0 (sqrt (2 * Psi))) in *.
  set (k := r ^ 2 / ra ^ 2). assert (Hra2 : 0 < ra ^ 2) by nra. assert (Hk : 0 <= k) by (apply Rdiv_le_0_compat; [apply pow2_ge_0|lra]).
  pose proof (om_angle (m / 2) (n / 2) k Hk) as OA. rewrite KI_gamma in OA. rewrite <- (even_double n Hn), <- (even_double m Hm) in OA.
  assert (XA : ex_RInt (fun y => sin y ^ (m + 1) * cos y ^ n / om_w k y ^ (m + n + 3)) 0 PI).
  { apply (ex_RInt_continuous (V := R_CompleteNormedModule)). intros y _. apply (@ex_derive_continuous R_AbsRing R_NormedModule). eexists.
    apply (d_quot (fun y => sin y ^ (m + 1) * cos y ^ n) (fun y => om_w k y ^ (m + n + 3))).
    - apply pow_nonzero. pose proof (om_w_pos k y Hk). lra.
    - apply Derive_correct. auto_derive. exact Logic.I.
    - apply is_derive_pow, om_w_d, Hk. }
  enough (Q : RInt (fun eta => RInt (fun v => v ^ 2 * v ^ n * v ^ m * om_call ra fQ (Phi r 0 + v ^ 2 / 2) (r * (v * sin eta)) (r * (v * sin eta))) 0 (sqrt (2 * Psi))
                                * (cos eta ^ n * sin eta ^ m * sin eta)) 0 PI
     = I * RInt (fun y => sin y ^ (m + 1) * cos y ^ n / om_w k y ^ (m + n + 3)) 0 PI).
  { rewrite Q, OA. replace (m + 1 + 1)%nat with (m + 2)%nat by lia. replace (m + 1 + n + 2)%nat with (m + n + 3)%nat by lia. fold k. unfold Rdiv. rr. ring. }
  etransitivity; [|exact (RInt_scal (V := R_CompleteNormedModule) (fun y => sin y ^ (m + 1) * cos y ^ n / om_w k y ^ (m + n + 3)) 0 PI I XA)].
  apply RInt_ext.
  - intros y _. change (scal ?a ?b) with (a * b). pose proof (om_w_pos k y Hk) as Pw. pose proof (om_w_sq k y Hk) as Qw.
    assert (W1 : 1 <= om_w k y).
    { unfold om_w. rewrite <- sqrt_1 at 1. apply sqrt_le_1; try lra; pose proof (pow2_ge_0 (sin y)); nra. }
    pose proof (speed_stretch fQ Psi (om_w k y) (2 + m + n) HPsi W1 Hq X) as SS. fold I in SS.
    assert (E : RInt (fun v => v ^ 2 * v ^ n * v ^ m * om_call ra fQ (Phi r 0 + v ^ 2 / 2) (r * (v * sin y)) (r * (v * sin y))) 0 (sqrt (2 * Psi)) = / om_w k y ^ (2 + m + n + 1) * I).
    { rewrite <- (is_RInt_unique _ _ _ _ SS). apply RInt_ext. intros v _. unfold om_call.
      replace (- (Phi r 0 + v ^ 2 / 2) - 0.5 * (r * (v * sin y)) ^ 2 / ra ^ 2) with (Psi - 0.5 * (om_w k y * v) ^ 2).
      - rewrite !pow_add. rr. ring.
      - replace ((om_w k y * v) ^ 2) with (om_w k y ^ 2 * v ^ 2) by ring. rewrite Qw. unfold k, Psi. replace 0.5 with (1 / 2) by lra. field. lra. }
    rewrite E. replace (2 + m + n + 1)%nat with (m + n + 3)%nat by lia. rewrite (pow_add (sin y) m 1). rr. field. apply pow_nonzero. lra.
Qed.
