(** Anisotropy, sampling, caches and findings of the spherical distribution functions. *)
From Coq Require Import Reals List ZArith Lra Lia Bool.
From Coquelicot Require Import Coquelicot.
From Verif.Lib Require Import RealAux Atan2.
From Verif.Model Require Import PotAPI PotAxi SOS EOM SphericalDF.
From Verif.Spec Require Import PotSpec PotApiSpec SmoothSpec SOSSpec EOMSpec SphericalDFSpec.
From Verif.Proofs Require Import EOMProofs EOMIntegrals StaeckelProofs KuzminKutuzovProofs SphericalDFIntegrals SphericalDFDensity SphericalDFModels SphericalDFProofs.
Import ListNotations.
Open Scope R_scope.
Notation RR := RbaseSymbolsImpl.R (only parsing).
Ltac rr := match goal with |- ?a = ?b => change (@eq RR a b) end.

Ltac unscal := repeat match goal with |- context [scal ?a ?b] => change (scal a b) with (Rmult a b) end.
(** ** Constant along orbits *)
Lemma df_constant D l Phi f (y : RR -> cyl) a b : potential_of D l (fun R z _ _ => Phi R z) -> turns (fun R z _ _ => Phi R z) ->
  List.Forall central l -> stays_in D y a b -> orbit_rows l y a b ->
  constant_on (fun t => call_coords f Phi (y_R (y t)) (y_vR (y t)) (y_vT (y t)) (y_z (y t)) (y_vz (y t))) a b.
Proof.
  intros Po Tu Ce St Or.
  assert (Tf : time_free (fun R z _ _ => Phi R z)) by (intros R z phi t t'; reflexivity).
  pose proof (E_law D l _ y a b Po Tu Tf St Or) as HE. destruct (L_law l y a b Ce Or) as (H1 & H2 & H3).
  intros t t' Ht Ht'. unfold call_coords.
  assert (Pos : forall s, a <= s <= b -> 0 < y_R (y s) ^ 2 + y_z (y s) ^ 2).
  { intros s Hs. destruct (Or s Hs) as [P _]. pose proof (pow2_ge_0 (y_z (y s))). nra. }
  f_equal.
  - specialize (HE t t' Ht Ht'). unfold orb_E, orb_E_z in HE. cbn beta zeta in HE. rewrite !Rmult_1_l in HE. unfold call_E. lra.
  - rewrite !call_L_norm by auto. unfold norm3. rewrite (H1 t t' Ht Ht'), (H2 t t' Ht Ht'), (H3 t t' Ht Ht'). reflexivity.
  - change (orb_Lz (y t) = orb_Lz (y t')). rewrite <- !L_z. apply H3; assumption.
Qed.

(** ** Anisotropy *)
Lemma gh_step k : gamma_half (k + 3) = INR (k + 1) / 2 * gamma_half (k + 1).
Proof. replace (k + 3)%nat with (k + 1 + 2)%nat by lia. rewrite gamma_half_rec by lia. reflexivity. Qed.
Lemma beta_ratio (A B : RR) : B <> 0 -> 1 - A / 2 / B = 1 - A / B / 2.
Proof. intros. field. assumption. Qed.
Lemma iso_beta fE Phi r : RInt (fun v => v ^ 4 * fE (Phi r 0 + 0.5 * v ^ 2)) 0 (vmax_at_r Phi r) <> 0 -> beta_of (iso_vmoment fE Phi r) = 0.
Proof.
  intros H. unfold beta_of, iso_vmoment, odd_moment. cbn [Nat.odd Nat.even negb orb Nat.div Nat.divmod fst Nat.mul Nat.add gamma_half].
  set (I := RInt _ _ _) in *. replace (0 + 2)%nat with 2%nat by lia. cbn [INR].
  pose proof (sqrt_lt_R0 _ PI_RGT_0). pose proof PI_RGT_0. field. repeat split; lra.
Qed.
Lemma gh_cancel (P I X Y G : RR) : P <> 0 -> I <> 0 -> Y <> 0 -> G <> 0 -> (P * I * X / G) / 2 / (P * I * Y / G) = X / 2 / Y.
Proof. intros. field. auto. Qed.
Lemma cb_beta b fE Phi r : 0 < r -> RInt (fun v => v ^ (1 + b + 2) * fE (Phi r 0 + 0.5 * v ^ 2)) 0 (vmax_at_r Phi r) <> 0 ->
  beta_of (cb_vmoment b fE Phi r) = (1 - INR b) / 2.
Proof.
  intros Hr H. unfold beta_of, cb_vmoment, odd_moment. cbn [Nat.odd Nat.even negb orb].
  replace (1 + b + 2 + 0)%nat with (1 + b + 2)%nat by lia. replace (1 + b + 0 + 2)%nat with (1 + b + 2)%nat by lia.
  set (I := RInt _ _ _) in *.
  replace (2 + 0 + b + 2)%nat with (b + 4)%nat by lia. replace (0 + 2 + b + 2)%nat with (b + 4)%nat by lia.
  replace (2 + b + 1)%nat with (b + 3)%nat by lia. replace (0 + b + 1)%nat with (b + 1)%nat by lia. rewrite gh_step.
  replace (gamma_half (2 + 1)) with (/ 2 * gamma_half (0 + 1)) by (cbn [gamma_half Nat.add INR]; lra).
  pose proof (gamma_half_pos (b + 1) ltac:(lia)). pose proof (gamma_half_pos (0 + 1) ltac:(lia)). pose proof (gamma_half_pos (b + 4) ltac:(lia)).
  assert (Pr : pow_pred r b <> 0) by (destruct b; cbn [pow_pred]; [apply Rinv_neq_0_compat; lra|apply pow_nonzero; lra]).
  rewrite plus_INR. cbn [INR]. pose proof PI_RGT_0. field. repeat split; try lra; assumption.
Qed.
Lemma om_beta ra fQ Phi r : 0 < ra -> RInt (fun v => v ^ 4 * fQ (- Phi r 0 - 0.5 * v ^ 2)) 0 (vmax_at_r Phi r) <> 0 ->
  beta_of (om_vmoment ra fQ Phi r) = r ^ 2 / (r ^ 2 + ra ^ 2).
Proof.
  intros Hra H. unfold beta_of, om_vmoment, odd_moment. cbn [Nat.odd Nat.even negb orb Nat.div Nat.divmod fst Nat.mul Nat.add gamma_half INR].
  set (I := RInt _ _ _) in *. pose proof (sqrt_lt_R0 _ PI_RGT_0). pose proof PI_RGT_0. pose proof (pow2_ge_0 r). assert (0 < ra ^ 2) by nra.
  assert (0 < 1 + r ^ 2 / ra ^ 2) by (assert (0 <= r ^ 2 / ra ^ 2) by (apply Rdiv_le_0_compat; lra); lra).
  field. repeat split; try lra; nra.
Qed.

(** ** Radii *)
Lemma sqrt_bounds u : 0 < u < 1 -> 0 < sqrt u < 1.
Proof. intros H. split; [apply sqrt_lt_R0; lra|]. pose proof (sqrt_lt_1 u 1 ltac:(lra) ltac:(lra) ltac:(lra)) as E. rewrite sqrt_1 in E. exact E. Qed.
Lemma hernquist_inverts a amp : 0 < a -> 0 < amp -> inverts (hernquist_icmf a) (fun r => amp * He_mass a r / (amp / 2)).
Proof.
  intros Ha Hm u x Hu Hx. unfold hernquist_icmf, He_mass. destruct (sqrt_bounds u Hu) as [S0 S1].
  replace (amp * (1 / (1 + a / x) ^ 2 / 2) / (amp / 2)) with ((x / (x + a)) ^ 2) by (field; repeat split; lra).
  assert (E : a * sqrt u / (1 - sqrt u) <= x <-> sqrt u <= x / (x + a)).
  { split; intros G.
    - apply Rle_div_r; [lra|]. apply Rle_div_l in G; [|lra]. nra.
    - apply Rle_div_l; [lra|]. apply Rle_div_r in G; [|lra]. nra. }
  rewrite E. assert (0 < x / (x + a)) by (apply Rdiv_lt_0_compat; lra).
  split; intros G.
  - rewrite <- (pow2_sqrt u) by lra. apply pow_incr. lra.
  - rewrite <- (sqrt_pow2 (x / (x + a))) by lra. apply sqrt_le_1; [lra|apply pow2_ge_0|exact G].
Qed.
Lemma rpow_le_iff x y g : 0 < x -> 0 < y -> 0 < g -> (rpow x g <= rpow y g <-> x <= y).
Proof.
  intros Hx Hy Hg. split; intros H.
  - apply Rnot_lt_le. intros L. apply (Rlt_not_le (rpow x g) (rpow y g)); [|exact H]. unfold rpow. apply Rlt_Rpower_l; lra.
  - unfold rpow. apply Rle_Rpower_l; lra.
Qed.
Lemma rpow_inv_r x g : 0 < x -> g <> 0 -> rpow (rpow x (1 / g)) g = x.
Proof. intros Hx Hg. rewrite rpow_mult. replace (1 / g * g) with 1 by (field; exact Hg). apply rpow_1, Hx. Qed.
Lemma plummer_inverts b amp : 0 < b -> 0 < amp -> inverts (plummer_icmf b) (fun r => amp * Pl_mass b r / amp).
Proof.
  intros Hb Ha u x Hu Hx. unfold plummer_icmf, Pl_mass, Pl_b2.
  set (B := 1 + b ^ 2 / x ^ 2). replace (amp * rpow B (- (3 / 2)) / amp) with (rpow B (- (3 / 2))) by (field; lra).
  assert (Hbx : 0 < b ^ 2 / x ^ 2) by (apply Rdiv_lt_0_compat; nra). assert (HB : 1 < B) by (unfold B; lra).
  set (A := rpow u (- (2 / 3))). assert (A0 : 0 < A) by apply rpow_pos.
  assert (A1 : 1 < A).
  { unfold A. rewrite rpow_opp. rewrite <- Rinv_1. apply Rinv_lt_contravar; [rewrite Rmult_1_r; apply rpow_pos|].
    apply Rnot_le_lt. intros L. assert (E : 1 = rpow 1 (2 / 3)) by (unfold rpow, Rpower; rewrite ln_1, Rmult_0_r, exp_0; reflexivity).
    rewrite E in L. apply rpow_le_iff in L; lra. }
  assert (U : u = rpow A (- (3 / 2))).
  { unfold A. rewrite rpow_mult. replace (- (2 / 3) * - (3 / 2)) with 1 by field. rewrite rpow_1; lra. }
  clearbody A; rewrite U at 1. rewrite !rpow_opp.
  assert (Q : / rpow A (3 / 2) <= / rpow B (3 / 2) <-> B <= A).
  { rewrite <- (rpow_le_iff B A (3 / 2)) by lra. split; intros G.
    - apply Rinv_le_contravar in G; [|apply Rinv_0_lt_compat, rpow_pos]. rewrite !Rinv_inv in G. exact G.
    - apply Rinv_le_contravar; [apply rpow_pos|exact G]. }
  rewrite Q. assert (P : 0 < sqrt (A - 1)) by (apply sqrt_lt_R0; lra). pose proof (sqrt_sqrt (A - 1) ltac:(lra)) as SS.
  set (sA := sqrt (A - 1)) in *. clearbody sA.
  assert (E : B <= A <-> b ^ 2 <= x ^ 2 * (A - 1)).
  { unfold B. split; intros G.
    - assert (T : b ^ 2 / x ^ 2 <= A - 1) by lra. apply Rle_div_l in T; nra.
    - assert (T : b ^ 2 / x ^ 2 <= A - 1) by (apply Rle_div_l; nra). lra. }
  rewrite E. split; intros G.
  - apply Rle_div_l in G; [|lra]. assert (0 <= x * sA) by nra.
    replace (x ^ 2 * (A - 1)) with ((x * sA) ^ 2) by (rewrite <- SS; ring). apply pow_incr. lra.
  - apply Rle_div_l; [lra|]. apply Rnot_lt_le. intros L. apply (Rlt_irrefl (b ^ 2)). eapply Rle_lt_trans; [exact G|].
    replace (x ^ 2 * (A - 1)) with ((x * sA) * (x * sA)) by (rewrite <- SS; ring).
    replace (b ^ 2) with (b * b) by ring. assert (0 < x * sA) by nra. nra.
Qed.
Lemma powerlaw_mass gamma r0 x : 0 < r0 <= x -> gamma < 3 ->
  RInt (fun r => r ^ 2 * rpow r (- gamma)) r0 x = (rpow x (3 - gamma) - rpow r0 (3 - gamma)) / (3 - gamma).
Proof.
  intros H Hg. apply is_RInt_unique.
  replace ((rpow x (3 - gamma) - rpow r0 (3 - gamma)) / (3 - gamma)) with (minus (rpow x (3 - gamma) / (3 - gamma)) (rpow r0 (3 - gamma) / (3 - gamma)))
    by (unfold minus, plus, opp; cbn; field; lra).
  apply (is_RInt_derive (fun r => rpow r (3 - gamma) / (3 - gamma))).
  - intros y Hy. rewrite Rmin_left, Rmax_right in Hy by lra.
    assert (D : is_derive (fun r => rpow r (3 - gamma)) y ((3 - gamma) * rpow y (3 - gamma - 1) * 1)) by (apply is_derive_rpow; [lra|apply d_id]).
    refine (is_derive_eq _ _ _ _ (is_derive_Rmult _ (fun _ => / (3 - gamma)) y _ _ D (is_derive_cst _ _)) _). cbn beta.
    rewrite <- rpow_2 by lra. rewrite <- rpow_plus. replace (2 + - gamma) with (3 - gamma - 1) by ring. rr. field. lra.
  - intros y Hy. rewrite Rmin_left, Rmax_right in Hy by lra. apply (@ex_derive_continuous R_AbsRing R_NormedModule). eexists.
    apply (is_derive_Rmult (fun r => r ^ 2) (fun r => rpow r (- gamma))); [apply d_sq, d_id|apply is_derive_rpow; [lra|apply d_id]].
Qed.
Lemma powerlaw_inverts gamma rmin rmax u x : gamma < 3 -> 0 < rmin < rmax -> 0 < u < 1 -> rmin <= x ->
  (powerlaw_icmf gamma rmin rmax u <= x <->
   u <= RInt (fun r => r ^ 2 * rpow r (- gamma)) rmin x / RInt (fun r => r ^ 2 * rpow r (- gamma)) rmin rmax).
Proof.
  intros Hg Hr Hu Hx. rewrite !powerlaw_mass by lra. unfold powerlaw_icmf.
  set (g := 3 - gamma). assert (G : 0 < g) by (unfold g; lra).
  set (p := rpow rmin g). set (q := rpow rmax g). set (y := rpow x g).
  assert (PQ : p < q). { apply Rnot_le_lt. intros L. apply rpow_le_iff in L; lra. }
  assert (Pp : 0 < p) by apply rpow_pos.
  assert (Z0 : 0 < u * (q - p) + p) by nra.
  rewrite <- (rpow_le_iff _ x g) by (try apply rpow_pos; lra). rewrite rpow_inv_r by lra. fold y.
  replace ((y - p) / g / ((q - p) / g)) with ((y - p) / (q - p)) by (field; lra).
  split; intros T.
  - apply Rle_div_r; nra.
  - apply Rle_div_r in T; nra.
Qed.
(** A radius below [rmin] for some random number *)
Lemma rmin_ignored draw cdf cmf rmin : 0 < rmin -> inverts draw cdf -> 0 < cdf (rmin / 2) < 1 ->
  exists u, 0 < u < 1 /\ sample_r (Some draw) cmf rmin u < rmin.
Proof.
  intros H I B. exists (cdf (rmin / 2)). split; [exact B|]. cbn.
  assert (draw (cdf (rmin / 2)) <= rmin / 2) by (apply I; lra). lra.
Qed.

(** ** Angles *)
Lemma acos_le y t : -1 <= y <= 1 -> 0 <= t <= PI -> (acos y <= t <-> cos t <= y).
Proof.
  intros Hy Ht. pose proof (acos_bound y) as B. pose proof (cos_acos y Hy) as E. split; intros H.
  - rewrite <- E. apply cos_decr_1; lra.
  - apply Rnot_lt_le. intros L. assert (cos (acos y) < cos t) by (apply cos_decreasing_1; lra). lra.
Qed.
Lemma theta_draw u t : 0 <= u <= 1 -> 0 <= t <= PI -> (sample_theta u <= t <-> u <= (1 - cos t) / 2).
Proof. intros Hu Ht. unfold sample_theta. rewrite acos_le by lra. lra. Qed.
Lemma sin_int a b : RInt sin a b = cos a - cos b.
Proof.
  apply is_RInt_unique. replace (cos a - cos b) with (minus (- cos b) (- cos a)) by (unfold minus, plus, opp; cbn; lra).
  apply (is_RInt_derive (fun y => - cos y)).
  - intros y _. auto_derive; [exact Logic.I|lra].
  - intros y _. apply (@ex_derive_continuous R_AbsRing R_NormedModule). auto_derive. exact Logic.I.
Qed.
Lemma RInt_mult_l (I : RR) (g : RR -> RR) a b : ex_RInt g a b -> RInt (fun y => I * g y) a b = I * RInt g a b.
Proof. intros X. exact (RInt_scal (V := R_CompleteNormedModule) g a b I X). Qed.
Lemma ex_sin a b : ex_RInt sin a b.
Proof. apply (ex_RInt_continuous (V := R_CompleteNormedModule)). intros y _. apply (@ex_derive_continuous R_AbsRing R_NormedModule). auto_derive. exact Logic.I. Qed.
Lemma iso_eta_draw fE pot vesc r u t : speed_weight (iso_call fE) pot r 0 vesc <> 0 -> 0 <= u <= 1 -> 0 <= t <= PI ->
  (sample_theta u <= t <-> u <= RInt (angle_weight (iso_call fE) pot vesc r) 0 t / RInt (angle_weight (iso_call fE) pot vesc r) 0 PI).
Proof.
  intros HI Hu Ht. rewrite theta_draw by assumption.
  set (I := speed_weight (iso_call fE) pot r 0 vesc) in *.
  assert (E : forall b, RInt (angle_weight (iso_call fE) pot vesc r) 0 b = I * (1 - cos b)).
  { intros b. rewrite <- cos_0 at 1. rewrite <- sin_int. rewrite <- RInt_mult_l by apply ex_sin. apply RInt_ext. intros y _. reflexivity. }
  rewrite !E, cos_PI. replace (I * (1 - cos t) / (I * (1 - -1))) with ((1 - cos t) / 2) by (field; exact HI). reflexivity.
Qed.
Lemma om_speed ra fQ pot r eta x : 0 < ra -> (forall x, ex_RInt (fun v => v ^ 2 * fQ (- pot - 0.5 * v ^ 2)) 0 x) ->
  speed_weight (om_call ra fQ) pot r eta x =
  RInt (fun v => v ^ 2 * fQ (- pot - 0.5 * v ^ 2)) 0 (om_w (r ^ 2 / ra ^ 2) eta * x) / om_w (r ^ 2 / ra ^ 2) eta ^ 3.
Proof.
  intros Hra X. set (k := r ^ 2 / ra ^ 2). assert (Hra2 : 0 < ra ^ 2) by nra.
  assert (Hk : 0 <= k) by (apply Rdiv_le_0_compat; [apply pow2_ge_0|lra]).
  pose proof (om_w_pos k eta Hk) as Pw. pose proof (om_w_sq k eta Hk) as Qw. set (w := om_w k eta) in *.
  unfold speed_weight.
  pose proof (RInt_comp_lin (V := R_CompleteNormedModule) (fun v => v ^ 2 * fQ (- pot - 0.5 * v ^ 2)) w 0 0 x) as C.
  rewrite !Rplus_0_r, Rmult_0_r in C. rewrite <- C by apply X. clear C.
  assert (XX : ex_RInt (fun v => v ^ 2 * om_call ra fQ (pot + v ^ 2 / 2) (r * (v * sin eta)) (r * (v * sin eta))) 0 x).
  { pose proof (ex_RInt_comp_lin (V := R_NormedModule) (fun v => v ^ 2 * fQ (- pot - 0.5 * v ^ 2)) w 0 0 x) as C.
    rewrite !Rplus_0_r, Rmult_0_r in C. specialize (C (X _)).
    eapply ex_RInt_ext; [|exact (ex_RInt_scal (V := R_NormedModule) _ 0 x (/ w ^ 3) C)].
    intros v _. cbn beta. unscal. rewrite !Rplus_0_r. unfold om_call.
    replace (- (pot + v ^ 2 / 2) - 0.5 * (r * (v * sin eta)) ^ 2 / ra ^ 2) with (- pot - 0.5 * (w * v) ^ 2).
    - rr. field. lra.
    - replace ((w * v) ^ 2) with (w ^ 2 * v ^ 2) by ring. rewrite Qw. unfold k. replace 0.5 with (1 / 2) by lra. field. lra. }
  match goal with |- ?A = ?B / _ => enough (Q : @eq RR B (w ^ 3 * A)) by (rewrite Q; generalize (A : RR); intros a; rr; field; lra) end.
  rewrite <- RInt_mult_l by exact XX. apply RInt_ext.
  intros v _. cbn beta. unscal. rewrite !Rplus_0_r. unfold om_call.
  replace (- (pot + v ^ 2 / 2) - 0.5 * (r * (v * sin eta)) ^ 2 / ra ^ 2) with (- pot - 0.5 * (w * v) ^ 2).
  - rr. ring.
  - replace ((w * v) ^ 2) with (w ^ 2 * v ^ 2) by ring. rewrite Qw. unfold k. replace 0.5 with (1 / 2) by lra. field. lra.
Qed.

Lemma om_w_ge_1 k y : 0 <= k -> 1 <= om_w k y.
Proof. intros Hk. unfold om_w. rewrite <- sqrt_1 at 1. apply sqrt_le_1; try lra; pose proof (pow2_ge_0 (sin y)); nra. Qed.
Lemma om_total ra fQ pot r eta : 0 < ra -> pot < 0 -> (forall q, q < 0 -> fQ q = 0) ->
  (forall x, ex_RInt (fun v => v ^ 2 * fQ (- pot - 0.5 * v ^ 2)) 0 x) ->
  speed_weight (om_call ra fQ) pot r eta (sqrt (2 * - pot)) =
  RInt (fun v => v ^ 2 * fQ (- pot - 0.5 * v ^ 2)) 0 (sqrt (2 * - pot)) / om_w (r ^ 2 / ra ^ 2) eta ^ 3.
Proof.
  intros Hra Hp Hq X. set (k := r ^ 2 / ra ^ 2). assert (Hra2 : 0 < ra ^ 2) by nra.
  assert (Hk : 0 <= k) by (apply Rdiv_le_0_compat; [apply pow2_ge_0|lra]).
  pose proof (om_w_pos k eta Hk) as Pw. pose proof (om_w_sq k eta Hk) as Qw.
  pose proof (speed_stretch fQ (- pot) (om_w k eta) 2 ltac:(lra) (om_w_ge_1 k eta Hk) Hq (X _)) as SS.
  change (2 + 1)%nat with 3%nat in SS. apply (is_RInt_unique (V := R_CompleteNormedModule)) in SS. etransitivity; [|etransitivity; [exact SS|apply Rmult_comm]].
  unfold speed_weight. apply RInt_ext. intros v _. f_equal. unfold om_call. f_equal.
  replace ((om_w k eta * v) ^ 2) with (om_w k eta ^ 2 * v ^ 2) by ring. rewrite Qw. unfold k. replace 0.5 with (1 / 2) by lra. field. lra.
Qed.
(** The speed, drawn given the angle *)
Lemma om_v_draw ra fQ pot r eta (draw : RR -> RR) : 0 < ra -> pot < 0 -> (forall q, q < 0 -> fQ q = 0) ->
  (forall x, ex_RInt (fun v => v ^ 2 * fQ (- pot - 0.5 * v ^ 2)) 0 x) ->
  inverts draw (fun x => RInt (fun v => v ^ 2 * fQ (- pot - 0.5 * v ^ 2)) 0 x / RInt (fun v => v ^ 2 * fQ (- pot - 0.5 * v ^ 2)) 0 (sqrt (2 * - pot))) ->
  RInt (fun v => v ^ 2 * fQ (- pot - 0.5 * v ^ 2)) 0 (sqrt (2 * - pot)) <> 0 ->
  inverts (fun u => om_sample_v ra r eta (draw u))
          (fun x => speed_weight (om_call ra fQ) pot r eta x / speed_weight (om_call ra fQ) pot r eta (sqrt (2 * - pot))).
Proof.
  intros Hra Hp Hq X Dr NZ u x Hu Hx. assert (Hra2 : 0 < ra ^ 2) by nra.
  assert (Hk : 0 <= r ^ 2 / ra ^ 2) by (apply Rdiv_le_0_compat; [apply pow2_ge_0|lra]).
  pose proof (om_w_pos _ eta Hk) as Pw.
  rewrite om_total by assumption. rewrite om_speed by assumption. unfold om_sample_v.
  fold (om_w (r ^ 2 / ra ^ 2) eta). set (w := om_w (r ^ 2 / ra ^ 2) eta) in *. clearbody w.
  assert (E : draw u / w <= x <-> draw u <= w * x).
  { split; intros G; [apply Rle_div_l in G; [lra|lra]|apply Rle_div_l; lra]. }
  rewrite E. specialize (Dr u (w * x) Hu ltac:(nra)). cbn beta in Dr. rewrite Dr.
  set (I := RInt _ 0 (w * x)). set (J := RInt _ 0 (sqrt _)) in *.
  replace (I / w ^ 3 / (J / w ^ 3)) with (I / J); [reflexivity|]. field. split; first [assumption|lra].
Qed.
(** The angle *)
Lemma om_sin_int k t : 0 <= k -> RInt (fun y => sin y / om_w k y ^ 3) t (PI / 2) = cos t / om_w k t / (1 + k).
Proof.
  intros Hk. apply is_RInt_unique.
  replace (cos t / om_w k t / (1 + k)) with (minus (- (cos (PI / 2) / om_w k (PI / 2) / (1 + k))) (- (cos t / om_w k t / (1 + k))))
    by (rewrite cos_PI2; unfold minus, plus, opp; cbn; unfold Rdiv; ring).
  assert (Co : forall y, ex_derive (fun y => sin y / om_w k y ^ 3) y).
  { intros y. pose proof (om_w_pos k y Hk). eexists. apply (d_quot sin (fun y => om_w k y ^ 3)); [apply pow_nonzero; lra|apply is_derive_sin|apply is_derive_pow, om_w_d, Hk]. }
  apply (is_RInt_derive (fun y => - (cos y / om_w k y / (1 + k)))).
  - intros y _. pose proof (om_w_pos k y Hk) as P. pose proof (om_w_sq k y Hk) as Q.
    assert (D : is_derive (fun y => cos y / om_w k y) y ((- sin y * om_w k y - cos y * (k * sin y * cos y / om_w k y)) / om_w k y ^ 2)).
    { refine (is_derive_eq _ _ _ _ (d_quot cos (om_w k) y _ _ _ (is_derive_cos y) (om_w_d k y Hk)) _); [lra|]. rr. field. lra. }
    refine (is_derive_eq _ _ _ _ (is_derive_Rmult _ (fun _ => - / (1 + k)) y _ _ D (is_derive_cst _ _)) _) ||
    (apply (is_derive_ext (fun y => cos y / om_w k y * - / (1 + k))); [intros s; unfold Rdiv; rr; ring|];
     refine (is_derive_eq _ _ _ _ (is_derive_Rmult _ (fun _ => - / (1 + k)) y _ _ D (is_derive_cst _ _)) _)).
    cbn beta.
    transitivity (sin y * (om_w k y ^ 2 + k * cos y ^ 2) / (om_w k y ^ 3 * (1 + k))); [rr; field; lra|].
    rewrite Q, cos_sq. rr. field. lra.
  - intros y _. apply (@ex_derive_continuous R_AbsRing R_NormedModule), Co.
Qed.
Lemma om_x_bounds k c : 0 <= k -> 0 <= c <= 1 -> 0 <= c * sqrt (1 + k) / sqrt (k * c ^ 2 + 1) <= 1.
Proof.
  intros Hk Hc. assert (0 <= c ^ 2 <= 1) by nra. assert (0 < k * c ^ 2 + 1) by nra.
  pose proof (sqrt_lt_R0 (k * c ^ 2 + 1) ltac:(lra)) as P. pose proof (sqrt_pos (1 + k)).
  split; [apply Rdiv_le_0_compat; [nra|lra]|]. apply Rle_div_l; [lra|]. rewrite Rmult_1_l.
  apply Rsqr_incr_0; [|nra|lra]. unfold Rsqr. rewrite sqrt_sqrt by lra.
  replace (c * sqrt (1 + k) * (c * sqrt (1 + k))) with (c ^ 2 * (sqrt (1 + k) * sqrt (1 + k))) by ring. rewrite sqrt_sqrt by lra. nra.
Qed.
Lemma om_x_le k c X : 0 <= k -> 0 <= c <= 1 -> 0 <= X <= 1 ->
  (c * sqrt (1 + k) / sqrt (k * c ^ 2 + 1) <= X <-> c <= X / sqrt (1 + k - k * X ^ 2)).
Proof.
  intros Hk Hc HX. assert (Q1 : 0 <= c ^ 2 <= 1) by nra. assert (Q2 : 0 <= X ^ 2 <= 1) by nra.
  assert (P1 : 0 < k * c ^ 2 + 1) by nra. assert (P2 : 0 < 1 + k - k * X ^ 2) by nra.
  pose proof (sqrt_lt_R0 _ P1) as S1. pose proof (sqrt_lt_R0 _ P2) as S2. pose proof (sqrt_lt_R0 (1 + k) ltac:(lra)) as S3.
  assert (A1 : c * sqrt (1 + k) / sqrt (k * c ^ 2 + 1) <= X <-> c * sqrt (1 + k) <= X * sqrt (k * c ^ 2 + 1)) by (apply Rle_div_l; lra).
  assert (A2 : c <= X / sqrt (1 + k - k * X ^ 2) <-> c * sqrt (1 + k - k * X ^ 2) <= X) by (split; apply Rle_div_r; lra).
  assert (B1 : c * sqrt (1 + k) <= X * sqrt (k * c ^ 2 + 1) <-> c ^ 2 * (1 + k) <= X ^ 2 * (k * c ^ 2 + 1)).
  { assert (E1 : (c * sqrt (1 + k)) ^ 2 = c ^ 2 * (1 + k)) by (rewrite Rpow_mult_distr, pow2_sqrt by lra; reflexivity).
    assert (E2 : (X * sqrt (k * c ^ 2 + 1)) ^ 2 = X ^ 2 * (k * c ^ 2 + 1)) by (rewrite Rpow_mult_distr, pow2_sqrt by lra; reflexivity).
    rewrite <- E1, <- E2. assert (0 <= c * sqrt (1 + k)) by nra. assert (0 <= X * sqrt (k * c ^ 2 + 1)) by nra.
    split; intros G; [apply pow_incr; lra|]. apply Rsqr_incr_0; [|lra|lra]. unfold Rsqr. lra. }
  assert (B2 : c * sqrt (1 + k - k * X ^ 2) <= X <-> c ^ 2 * (1 + k - k * X ^ 2) <= X ^ 2).
  { assert (E1 : (c * sqrt (1 + k - k * X ^ 2)) ^ 2 = c ^ 2 * (1 + k - k * X ^ 2)) by (rewrite Rpow_mult_distr, pow2_sqrt by lra; reflexivity).
    rewrite <- E1. assert (0 <= c * sqrt (1 + k - k * X ^ 2)) by nra.
    split; intros G; [apply pow_incr; lra|]. apply Rsqr_incr_0; [|lra|lra]. unfold Rsqr. lra. }
  rewrite A1, A2, B1, B2. split; intros; lra.
Qed.
Lemma om_eta_draw ra fQ pot r c neg t : 0 < ra -> pot < 0 -> (forall q, q < 0 -> fQ q = 0) ->
  (forall x, ex_RInt (fun v => v ^ 2 * fQ (- pot - 0.5 * v ^ 2)) 0 x) ->
  RInt (fun v => v ^ 2 * fQ (- pot - 0.5 * v ^ 2)) 0 (sqrt (2 * - pot)) <> 0 ->
  0 <= c <= 1 -> 0 <= t <= PI / 2 ->
  (Rabs (cos (om_sample_eta ra r c neg)) <= cos t <->
   c <= RInt (angle_weight (om_call ra fQ) pot (sqrt (2 * - pot)) r) t (PI / 2) / RInt (angle_weight (om_call ra fQ) pot (sqrt (2 * - pot)) r) 0 (PI / 2)).
Proof.
  intros Hra Hp Hq X NZ Hc Ht. assert (Hra2 : 0 < ra ^ 2) by nra. pose proof PI_RGT_0 as Pi.
  set (k := r ^ 2 / ra ^ 2). assert (Hk : 0 <= k) by (apply Rdiv_le_0_compat; [apply pow2_ge_0|lra]).
  set (I := RInt (fun v => v ^ 2 * fQ (- pot - 0.5 * v ^ 2)) 0 (sqrt (2 * - pot))) in *.
  assert (XA : forall s, ex_RInt (fun y => sin y / om_w k y ^ 3) s (PI / 2)).
  { intros s. apply (ex_RInt_continuous (V := R_CompleteNormedModule)). intros y _. apply (@ex_derive_continuous R_AbsRing R_NormedModule).
    pose proof (om_w_pos k y Hk). eexists. apply (d_quot sin (fun y => om_w k y ^ 3)); [apply pow_nonzero; lra|apply is_derive_sin|apply is_derive_pow, om_w_d, Hk]. }
  assert (E : forall s, RInt (angle_weight (om_call ra fQ) pot (sqrt (2 * - pot)) r) s (PI / 2) = I * (cos s / om_w k s / (1 + k))).
  { intros s. rewrite <- om_sin_int by exact Hk. rewrite <- RInt_mult_l by apply XA. apply RInt_ext. intros y _.
    unfold angle_weight. rewrite om_total by assumption. fold I. fold k. rr. field. pose proof (om_w_pos k y Hk). lra. }
  rewrite !E. pose proof (om_w_pos k t Hk) as Pt.
  assert (W0 : om_w k 0 = 1) by (unfold om_w; rewrite sin_0; replace (1 + k * 0 ^ 2) with 1 by ring; apply sqrt_1).
  rewrite W0, cos_0. replace (I * (cos t / om_w k t / (1 + k)) / (I * (1 / 1 / (1 + k)))) with (cos t / om_w k t) by (field; repeat split; first [assumption|lra]).
  assert (Ct : 0 <= cos t <= 1) by (split; [apply cos_ge_0; lra|apply COS_bound]).
  assert (W : om_w k t = sqrt (1 + k - k * cos t ^ 2)) by (unfold om_w; f_equal; rewrite sin_sq; ring). rewrite W.
  rewrite <- om_x_le by assumption. pose proof (om_x_bounds k c Hk Hc) as B.
  unfold om_sample_eta. fold k. set (x := c * sqrt (1 + k) / sqrt (k * c ^ 2 + 1)) in *.
  rewrite cos_acos by (destruct neg; lra). replace (Rabs (x * (if neg then -1 else 1))) with x; [reflexivity|].
  destruct neg; [replace (x * -1) with (- x) by ring; rewrite Rabs_Ropp|rewrite Rmult_1_r]; rewrite Rabs_pos_eq; lra.
Qed.
Lemma om_eta_sign ra r c : 0 < ra -> 0 <= c <= 1 ->
  0 <= cos (om_sample_eta ra r c false) /\ cos (om_sample_eta ra r c true) = - cos (om_sample_eta ra r c false).
Proof.
  intros Hra Hc. assert (Hra2 : 0 < ra ^ 2) by nra.
  set (k := r ^ 2 / ra ^ 2). assert (Hk : 0 <= k) by (apply Rdiv_le_0_compat; [apply pow2_ge_0|lra]).
  pose proof (om_x_bounds k c Hk Hc) as B. unfold om_sample_eta. fold k. set (x := c * sqrt (1 + k) / sqrt (k * c ^ 2 + 1)) in *.
  rewrite !cos_acos by lra. lra.
Qed.

(** ** Rows *)
Definition row_ok (w : cyl) (r eta v : RR) : Prop :=
  row_r w = r /\ row_speed2 w = v ^ 2 /\ row_vr w = v * cos eta /\ norm3 (orb_L w) = r * (v * sin eta).
Lemma row_L w r eta v : 0 < r -> 0 <= v -> 0 <= sin eta -> row_r w = r -> row_speed2 w = v ^ 2 -> row_vr w = v * cos eta ->
  norm3 (orb_L w) = r * (v * sin eta).
Proof.
  intros Hr Hv Hs Er Es Ev.
  assert (P : 0 < y_R w ^ 2 + y_z w ^ 2).
  { apply Rnot_le_lt. intros L. unfold row_r in Er. rewrite sqrt_neg_0 in Er by exact L. lra. }
  rewrite <- call_L_norm by exact P. unfold call_L. fold (row_r w). fold (row_speed2 w). fold (row_vr w). rewrite Er, Es, Ev.
  replace (v ^ 2 - (v * cos eta) ^ 2) with ((v * sin eta) ^ 2).
  - rewrite sqrt_pow2 by nra. ring.
  - replace ((v * cos eta) ^ 2) with (v ^ 2 * cos eta ^ 2) by ring. rewrite cos_sq. ring.
Qed.
Lemma sample_row_ok r theta phi eta psi v : 0 < r -> 0 <= v -> 0 <= sin eta -> row_ok (sample_row r theta phi eta psi v) r eta v.
Proof.
  intros Hr Hv Hs. unfold row_ok. set (w := sample_row r theta phi eta psi v).
  assert (A : row_r w = r).
  { unfold w, row_r, sample_row. cbn. match goal with |- sqrt ?e = _ => replace e with (r ^ 2) end; [apply sqrt_pow2; lra|].
    transitivity (r ^ 2 * (sin theta ^ 2 + cos theta ^ 2)); [|ring]. rewrite cos_sq. ring. }
  assert (B : row_speed2 w = v ^ 2).
  { unfold w, row_speed2, sample_row. cbn [y_vR y_vT y_vz].
    transitivity (v ^ 2 * (cos eta ^ 2 * (sin theta ^ 2 + cos theta ^ 2) + sin eta ^ 2 * (cos psi ^ 2 * (sin theta ^ 2 + cos theta ^ 2) + sin psi ^ 2))); [ring|].
    rewrite (cos_sq theta), (cos_sq psi), (cos_sq eta). ring. }
  assert (C : row_vr w = v * cos eta).
  { unfold row_vr. rewrite A. unfold w, sample_row. cbn [y_R y_vR y_z y_vz].
    transitivity (v * cos eta * (sin theta ^ 2 + cos theta ^ 2)); [field; lra|]. rewrite cos_sq. ring. }
  split; [exact A|]. split; [exact B|]. split; [exact C|]. apply row_L; assumption.
Qed.
Lemma sample_row_at_eq R z phi eta psi v : 0 < R ^ 2 + z ^ 2 ->
  sample_row_at R z phi eta psi v = sample_row (sqrt (R ^ 2 + z ^ 2)) (atan2 R z) phi eta psi v.
Proof.
  intros H. unfold sample_row_at, sample_row. pose proof (atan2_cos z R) as C. pose proof (atan2_sin z R) as D.
  replace (z ^ 2 + R ^ 2) with (R ^ 2 + z ^ 2) in C, D by ring. rewrite C, D. reflexivity.
Qed.
Lemma sample_row_value f Phi r theta phi eta psi v : 0 < r -> 0 <= v -> 0 <= sin eta -> (forall R z, Phi R z = Phi (sqrt (R ^ 2 + z ^ 2)) 0) ->
  let w := sample_row r theta phi eta psi v in
  call_coords f Phi (y_R w) (y_vR w) (y_vT w) (y_z w) (y_vz w) = f (Phi r 0 + v ^ 2 / 2) (r * (v * sin eta)) (r * (v * sin eta) * (sin theta * sin psi)).
Proof.
  intros Hr Hv Hs Sp w. destruct (sample_row_ok r theta phi eta psi v Hr Hv Hs) as (A & B & C & D). fold w in A, B, C, D.
  unfold call_coords. f_equal.
  - unfold call_E. fold (row_speed2 w). rewrite B, (Sp (y_R w)). fold (row_r w). rewrite A. lra.
  - rewrite call_L_norm; [exact D|]. apply Rnot_le_lt. intros L. unfold row_r in A. rewrite sqrt_neg_0 in A by exact L. lra.
  - unfold call_Lz, w, sample_row. cbn [y_R y_vT]. ring.
Qed.

(** ** Caches *)
Definition after (has_icmf : bool) (calls : list (bool * RR)) : sampler :=
  fold_left (fun s c => fst (sample_step has_icmf s (fst c) (snd c))) calls fresh_sampler.
Definition current (s : sampler) : Prop := (s_cmf s = None \/ s_cmf s = s_rmin s) /\ (s_pvr s = None \/ s_pvr s = s_rmin s).
Lemma step_current h s full rmin : current s ->
  current (fst (sample_step h s full rmin)) /\ snd (sample_step h s full rmin) = (if full && negb h then Some rmin else None, rmin).
Proof.
  intros [A B]. unfold sample_step, current. destruct s as [m c p]. cbn in *.
  destruct m as [m|]; cbn.
  - destruct (Req_EM_T rmin m) as [E|E]; cbn.
    + subst m. destruct c as [c|], p as [p|]; destruct (full && negb h); cbn;
        (destruct A as [A|A]; [try discriminate|]); (destruct B as [B|B]; [try discriminate|]); try discriminate;
        try (injection A; intros; subst); try (injection B; intros; subst); auto.
    + destruct (full && negb h); cbn; auto.
  - destruct A as [A|A], B as [B|B]; subst; destruct (full && negb h); cbn; auto.
Qed.
Lemma after_current h calls : current (after h calls).
Proof.
  unfold after. rewrite <- fold_left_rev_right. induction (rev calls) as [|c l IH]; [split; left; reflexivity|].
  cbn. apply step_current, IH.
Qed.
