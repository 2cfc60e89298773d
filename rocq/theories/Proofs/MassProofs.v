(** Enclosed mass. *)
From Coq Require Import Reals Lra Psatz List Bool.
From Coquelicot Require Import Coquelicot.
From Verif.Lib Require Import RealAux.
From Verif.Model Require Import PotAPI PotAxi PotNonAxi Mass.
From Verif.Spec Require Import PotSpec PotApiSpec MassSpec.
From Verif.Proofs Require Import AxiProofs AxiProofs2 AxiProofs3 PotLift NonAxiProofs.
Import ListNotations.
Open Scope R_scope.
Notation RR := RbaseSymbolsImpl.R (only parsing).

(** Class level. *)
Record MassOK (D : RR -> Prop) (c : PotC) (m : RR -> RR -> RR) : Prop := {
  mo_f : forall R z phi t, 0 < R ^ 2 + z ^ 2 -> D (radius R z) ->
    m (radius R z) t = - radius R z * (R * c_Rf c R z phi t + z * c_zf c R z phi t);
  mo_d : exists dn, c_dn c = Some dn /\ forall R z phi t, 0 < R ^ 2 + z ^ 2 -> D (radius R z) ->
    is_derive (fun r => m r t) (radius R z) (4 * PI * radius R z ^ 2 * dn R z phi t) }.

Ltac msetup := intros R z phi t Hp _; unfold radius, static; simpl; pose proof PI_RGT_0.

Lemma Pl_massok b : b <> 0 -> MassOK all_radii (Plummer b) (static (Pl_mass b)).
Proof.
  intros Hb. pose proof (sq_pos b Hb) as Hb2.
  assert (K : forall s, 0 < s -> rpow (1 + b ^ 2 / s ^ 2) (- (3/2)) = s ^ 3 / sqrt (s ^ 2 + b ^ 2) ^ 3).
  { intros s Hs. assert (0 < s ^ 2) by (apply pow_lt; auto).
    assert (0 < b ^ 2 / s ^ 2) by (apply Rdiv_lt_0_compat; auto).
    rewrite rpow_opp, rpow_3_2 by lra.
    assert (E : 1 + b ^ 2 / s ^ 2 = (s ^ 2 + b ^ 2) / s ^ 2) by (field; lra).
    rewrite E, sqrt_div_alt by auto. rewrite sqrt_pow2 by lra.
    assert (0 < sqrt (s ^ 2 + b ^ 2)) by (apply sqrt_lt_R0; lra). field. lra. }
  split.
  - msetup. unfold Pl_mass, Pl_Rf, Pl_zf, Pl_dPhidrr, Pl_b2. setsqrt s Es (R ^ 2 + z ^ 2) Hp.
    rewrite K by auto. replace (R ^ 2 + z ^ 2 + b ^ 2) with (s ^ 2 + b ^ 2) by (rewrite <- Es; ring).
    assert (Hq : 0 < s ^ 2 + b ^ 2) by nra.
    rewrite rpow_opp, rpow_3_2 by auto. setsqrt w Ew (s ^ 2 + b ^ 2) Hq.
    replace (- s * (R * (- / w ^ 3 * R) + z * (- / w ^ 3 * z))) with (s * / w ^ 3 * (R ^ 2 + z ^ 2)) by ring.
    rewrite <- Es. field. lra.
  - eexists; split; [reflexivity|]. msetup. unfold Pl_dens, Pl_b2. setsqrt s Es (R ^ 2 + z ^ 2) Hp.
    rewrite <- Es. replace (s * s) with (s ^ 2) by ring.
    assert (Hq : 0 < s ^ 2 + b ^ 2) by nra.
    apply is_derive_loc with (f := fun s => s ^ 3 / sqrt (s ^ 2 + b ^ 2) ^ 3) (P := fun s => 0 < s).
    { apply locally_pos; auto. }
    { intros y Hy. unfold Pl_mass, Pl_b2. rewrite K; auto. }
    auto_derive.
    { repeat split; auto. apply Rgt_not_eq, pow_lt, sqrt_lt_R0; auto. }
    rewrite rpow_opp, rpow_5_2 by auto. setsqrt w Ew (s ^ 2 + b ^ 2) Hq.
    assert (E : b ^ 2 = w * w - s ^ 2) by lra. rewrite E. field. lra.
Qed.

Ltac pos_side := unfold Rdiv in *; repeat split; auto; try (apply Rgt_not_eq; first [lra | apply pow_lt; lra | apply exp_pos]); try lra.

Ltac mforce := msetup; cbv [DC_mass DC_Rf DC_zf DC_r He_mass He_Rf He_zf He_r Ja_mass Ja_Rf Ja_zf Ja_r
    NFW_mass NFW_Rf NFW_zf NFW_r Ke_mass].
Lemma DC_massok a : 0 < a -> MassOK all_radii (DehnenCore a) (static (DC_mass a)).
Proof.
  intros Ha. split.
  - mforce. setsqrt s Es (R ^ 2 + z ^ 2) Hp.
    assert (0 < a / s) by (apply Rdiv_lt_0_compat; auto).
    transitivity (s / (s + a) ^ 3 / 3 * (R ^ 2 + z ^ 2)). { rewrite <- Es. field. lra. } field. lra.
  - eexists; split; [reflexivity|]. msetup. unfold DC_dens, DC_mass, DC_r. setsqrt s Es (R ^ 2 + z ^ 2) Hp.
    assert (0 < a / s) by (apply Rdiv_lt_0_compat; auto).
    auto_derive. { pos_side. } field. lra.
Qed.

Lemma He_massok a : 0 < a -> MassOK all_radii (Hernquist a) (static (He_mass a)).
Proof.
  intros Ha. split.
  - mforce. setsqrt s Es (R ^ 2 + z ^ 2) Hp.
    assert (0 < a / s) by (apply Rdiv_lt_0_compat; auto).
    transitivity (1 / (s + a) ^ 2 / 2 * (R ^ 2 + z ^ 2)). { rewrite <- Es. field. lra. } field. lra.
  - eexists; split; [reflexivity|]. msetup. unfold He_dens, De_dens, He_mass, De_r. setsqrt s Es (R ^ 2 + z ^ 2) Hp.
    assert (0 < a / s) by (apply Rdiv_lt_0_compat; auto). assert (0 < s / a) by (apply Rdiv_lt_0_compat; auto).
    replace (4 - 1) with 3 by lra. rewrite rpow_1, rpow_3 by lra.
    auto_derive. { pos_side. } field. lra.
Qed.

Lemma Ja_massok a : 0 < a -> MassOK all_radii (Jaffe a) (static (Ja_mass a)).
Proof.
  intros Ha. split.
  - mforce. setsqrt s Es (R ^ 2 + z ^ 2) Hp.
    assert (0 < a / s) by (apply Rdiv_lt_0_compat; auto).
    transitivity (1 / s / (s + a) * (R ^ 2 + z ^ 2)). { rewrite <- Es. field. lra. } field. lra.
  - eexists; split; [reflexivity|]. msetup. unfold Ja_dens, De_dens, Ja_mass, De_r. setsqrt s Es (R ^ 2 + z ^ 2) Hp.
    assert (0 < a / s) by (apply Rdiv_lt_0_compat; auto). assert (0 < s / a) by (apply Rdiv_lt_0_compat; auto).
    replace (4 - 2) with 2 by lra. rewrite !rpow_2 by lra.
    auto_derive. { pos_side. } field. lra.
Qed.

Lemma NFW_massok a : 0 < a -> MassOK all_radii (NFW a) (static (NFW_mass a)).
Proof.
  intros Ha. split.
  - mforce. pose proof (sqrt_lt_R0 _ Hp) as Hs. pose proof (sqrt_sqrt _ (Rlt_le _ _ Hp)) as Es.
    set (s := sqrt (R ^ 2 + z ^ 2)) in *. clearbody s. rewrite <- Es.
    set (l := ln (1 + s / a)). clearbody l.
    transitivity (- s * (1 / (s * s) / (a + s) - l / s / (s * s)) * (R ^ 2 + z ^ 2)). { rewrite <- Es. field. lra. } field. lra.
  - eexists; split; [reflexivity|]. msetup. unfold NFW_dens, TP_dens, NFW_mass, De_r. setsqrt s Es (R ^ 2 + z ^ 2) Hp.
    assert (0 < a / s) by (apply Rdiv_lt_0_compat; auto). assert (0 < s / a) by (apply Rdiv_lt_0_compat; auto).
    replace (3 - 1) with 2 by lra. rewrite rpow_2, rpow_1 by lra.
    auto_derive. { pos_side. } field. lra.
Qed.

Lemma Ke_massok : MassOK all_radii Kepler (static Ke_mass).
Proof.
  split.
  - msetup. unfold Ke_mass, PS_Rf, PS_zf. rewrite rpow_3_2 by auto. setsqrt s Es (R ^ 2 + z ^ 2) Hp.
    transitivity (s / s ^ 3 * (R ^ 2 + z ^ 2)). { rewrite <- Es. field. lra. } field. lra.
  - eexists; split; [reflexivity|]. msetup. unfold PS_dens, Ke_mass. eapply is_derive_eq. apply is_derive_cst.
    toR. unfold Rdiv. ring.
Qed.

Lemma De_massok a alpha : 0 < a -> alpha < 3 -> MassOK all_radii (DehnenSpherical a alpha) (static (De_mass a alpha)).
Proof.
  intros Ha Hal.
  assert (K : forall s p, 0 < s -> rpow (1 + a / s) p = rpow (s + a) p / rpow s p).
  { intros s p Hs. replace (1 + a / s) with ((s + a) * / s) by (field; lra).
    unfold rpow, Rpower, Rdiv. rewrite ln_mult, ln_Rinv by (try apply Rinv_0_lt_compat; lra).
    rewrite <- exp_Ropp, <- exp_plus. f_equal. ring. }
  split.
  - msetup. unfold De_mass, De_Rf, De_zf, De_r. setsqrt s Es (R ^ 2 + z ^ 2) Hp.
    rewrite K by auto. replace (3 - alpha) with (- (alpha - 3)) by ring. rewrite rpow_opp.
    replace (rpow s (- (alpha - 3))) with (s ^ 3 / rpow s alpha)
      by (rewrite <- rpow_3 by auto; rewrite <- rpow_minus; f_equal; ring).
    rewrite (Rplus_comm a s).
    pose proof (rpow_pos (s + a) (alpha - 3)) as P1. pose proof (rpow_pos s alpha) as P2.
    set (u := rpow (s + a) (alpha - 3)) in *. set (v := rpow s alpha) in *. clearbody u v.
    transitivity (s * / v * u / (- (alpha - 3)) * (R ^ 2 + z ^ 2)). { rewrite <- Es. field. lra. } field. lra.
  - eexists; split; [reflexivity|]. msetup. unfold De_dens, De_mass, De_r. setsqrt s Es (R ^ 2 + z ^ 2) Hp.
    assert (0 < a / s) by (apply Rdiv_lt_0_compat; auto). assert (0 < s / a) by (apply Rdiv_lt_0_compat; auto).
    assert (Hk : is_derive (fun r => 1 + a / r) s (- a / s ^ 2)) by (auto_derive; [lra | field; lra]).
    assert (H1p : 0 < (fun r => 1 + a / r) s) by (cbv beta; lra).
    pose proof (is_derive_rpow (fun r => 1 + a / r) (- (3 - alpha)) s _ H1p Hk) as Hd. cbv beta in Hd.
    eapply is_derive_eq.
    { eapply is_derive_ext; [|apply (is_derive_Rscal _ _ (/ (3 - alpha)) _ Hd)].
      intros x. cbv beta. rewrite rpow_opp. toR. unfold Rdiv. ring. }
    toR. replace (- (3 - alpha) - 1) with (- (4 - alpha)) by ring. rewrite rpow_opp.
    assert (E2 : rpow (a / s) alpha / rpow (1 + s / a) (4 - alpha) = (a / s) ^ 4 * / rpow (1 + a / s) (4 - alpha)).
    { replace (1 + a / s) with ((a / s) * (1 + s / a)) by (field; lra).
      assert (Q : rpow (a / s * (1 + s / a)) (4 - alpha) = rpow (a / s) (4 - alpha) * rpow (1 + s / a) (4 - alpha)).
      { unfold rpow, Rpower. rewrite ln_mult by lra. rewrite <- exp_plus. f_equal. ring. }
      rewrite Q. pose proof (rpow_pos (1 + s / a) (4 - alpha)). pose proof (rpow_pos (a / s) (4 - alpha)).
      replace ((a / s) ^ 4) with (rpow (a / s) alpha * rpow (a / s) (4 - alpha)).
      - field. lra.
      - rewrite <- rpow_plus. unfold rpow. rewrite <- Rpower_pow by auto. f_equal. simpl. ring. }
    rewrite E2. pose proof (rpow_pos (1 + a / s) (4 - alpha)). field. lra.
Qed.

Lemma Sph_massok rev rf r2d rdens (Dr : RR -> Prop) :
  (forall r t, Dr r -> 0 < r -> is_derive (fun x => - rf x t) r (r2d r t)) ->
  (forall f r t, rdens = Some f -> Dr r -> 0 < r -> r2d r t - 2 * rf r t / r = 4 * PI * f r t) ->
  MassOK Dr (Spherical rev rf r2d rdens) (Sph_mass rf).
Proof.
  intros Hd Hde. split.
  - intros R z phi t Hp _; unfold radius; simpl. unfold Sph_mass, Sph_r. setsqrt s Es (R ^ 2 + z ^ 2) Hp.
    set (g := rf s t). clearbody g. transitivity (- s * (g / s) * (R ^ 2 + z ^ 2)). { rewrite <- Es. field. lra. } field. lra.
  - eexists; split; [reflexivity|]. intros R z phi t Hp Hr. unfold radius in *. cbv beta. unfold Sph_r, Sph_rdens.
    setsqrt s Es (R ^ 2 + z ^ 2) Hp. pose proof PI_RGT_0.
    assert (H4 : 4 * PI * match rdens with Some f => f s t | None => (r2d s t - 2 * rf s t / s) / 4 / PI end
                 = r2d s t - 2 * rf s t / s).
    { destruct rdens as [f|] eqn:E; [symmetry; auto|]. field. lra. }
    set (dd := match rdens with Some f => f s t | None => _ end) in *. clearbody dd.
    assert (Hq : is_derive (fun r => r ^ 2) s (2 * s)) by (auto_derive; auto; ring).
    eapply is_derive_eq.
    { eapply is_derive_ext; [|apply (is_derive_Rmult _ _ _ _ _ Hq (Hd s t Hr ltac:(assumption)))].
      intros x. unfold Sph_mass. cbv beta. toR. ring. }
    toR. transitivity (s ^ 2 * (r2d s t - 2 * rf s t / s)). { field. lra. } rewrite <- H4. ring.
Qed.

(** Lifting to the API. *)
Lemma fold_left_Rplus_acc l : forall acc, fold_left Rplus l acc = acc + fold_left Rplus l 0.
Proof.
  induction l as [|x l IH]; intros acc; simpl. { ring. }
  rewrite IH, (IH (0 + x)). ring.
Qed.
Lemma fold_left_Rplus_cons x l : fold_left Rplus (x :: l) 0 = x + fold_left Rplus l 0.
Proof. simpl. rewrite fold_left_Rplus_acc. ring. Qed.

Lemma mpot_cons p : isDiss (mpot p) = false.
Proof.
  revert p. fix IH 1. intros [a c m|a ps]; [reflexivity|].
  simpl. induction ps as [|q ps IHl]; [reflexivity|]. simpl. rewrite IH. exact IHl.
Qed.

Definition MassApi (D : RR -> Prop) (p : MPot) : Prop :=
  mass_matches_force D (mpot p) (apiMass p) /\ mass_matches_density D (mpot p) (apiMass p).

Lemma massok_api D amp c m : MassOK D c m -> MassApi D (MSingle amp c m).
Proof.
  intros [Hf (dn & Ed & Hd)]. split.
  - intros R z phi t Hp HD. simpl. unfold scale4. rewrite (Hf R z phi t Hp HD).
    unfold radius in *. assert (0 < sqrt (R ^ 2 + z ^ 2)) by (apply sqrt_lt_R0; auto). field. lra.
  - exists (scale4 amp dn). split.
    { unfold apiDens; simpl. unfold dens_single. rewrite Ed. reflexivity. }
    intros R z phi t Hp HD. unfold scale4. simpl. eapply is_derive_eq.
    apply is_derive_Rscal, (Hd R z phi t); auto. toR. ring.
Qed.

Lemma comp_mass_force D amp ps : (forall p, In p ps -> mass_matches_force D (mpot p) (apiMass p)) ->
  mass_matches_force D (mpot (MComp amp ps)) (apiMass (MComp amp ps)).
Proof.
  intros H R z phi t Hp HD. simpl. unfold scale4.
  assert (S : fold_left Rplus (map (fun q => apiMass q (radius R z) t) ps) 0 =
    radius R z ^ 2 * - ((R * sum4 (map (fun q => apiRf q v0) (map mpot ps)) R z phi t
                       + z * sum4 (map (fun q => apizf q v0) (map mpot ps)) R z phi t) / radius R z)).
  { induction ps as [|p ps IH].
    - simpl. rewrite !sum4_nil. unfold Rdiv. ring.
    - simpl map. rewrite !sum4_cons, fold_left_Rplus_cons, IH by (intros; apply H; right; auto).
      rewrite (H p (or_introl eq_refl) R z phi t Hp HD). unfold Rdiv. ring. }
  rewrite S. fold v0. unfold Rdiv. ring.
Qed.

Lemma comp_mass_density D amp ps : (forall p, In p ps -> mass_matches_density D (mpot p) (apiMass p)) ->
  mass_matches_density D (mpot (MComp amp ps)) (apiMass (MComp amp ps)).
Proof.
  intros H. unfold mass_matches_density. simpl mpot.
  assert (E : forall p, In p ps -> apiDens (mpot p) <> None).
  { intros p Hi. destruct (H p Hi) as (d & E & _). congruence. }
  assert (S : exists dl, osum4 (map (fun q => if isDiss q then Some zero4 else apiDens q) (map mpot ps)) = Some dl
     /\ forall R z phi t, 0 < R ^ 2 + z ^ 2 -> D (radius R z) ->
     is_derive (fun r => fold_left Rplus (map (fun q => apiMass q r t) ps) 0) (radius R z)
        (4 * PI * radius R z ^ 2 * dl R z phi t)).
  { clear E. unfold osum4. induction ps as [|p ps IH].
    - eexists. split; [reflexivity|]. intros R z phi t _ _. simpl. eapply is_derive_eq. apply is_derive_cst.
      unfold zero4. toR. cbv [sum4 fold_left zero4]. ring.
    - destruct IH as (dl & E & Hl). { intros; apply H; right; auto. }
      destruct (H p (or_introl eq_refl)) as (d & Ed & Hd).
      simpl map. rewrite mpot_cons, Ed. simpl sequence.
      destruct (sequence (map (fun q => if isDiss q then Some zero4 else apiDens q) (map mpot ps))) as [fl|] eqn:Es; [|discriminate].
      simpl in E. injection E as E. simpl. eexists. split; [reflexivity|].
      intros R z phi t Hp HD. rewrite sum4_cons.
      eapply is_derive_ext. { intros r. symmetry. apply fold_left_Rplus_cons. }
      eapply is_derive_eq. { apply is_derive_Rplus; [apply (Hd R z phi t); auto|apply (Hl R z phi t); auto]. }
      rewrite E. toR. ring. }
  destruct S as (dl & Eo & Hl). exists (scale4 amp dl). split.
  - unfold apiDens in *. simpl. rewrite Eo. reflexivity.
  - intros R z phi t Hp HD. unfold scale4. simpl. eapply is_derive_eq. apply is_derive_Rscal, (Hl R z phi t); auto. toR; ring.
Qed.

Lemma mass_catalog_api k D p : MassCatalog k D p -> MassApi D p.
Proof.
  revert k D p. fix IH 4. intros k D p [k0 amp b H|k0 amp a al H H0|k0 amp a H|k0 amp a H|k0 amp a H|k0 amp a H|k0 amp a H|k0 amp a H|amp|k0 D0 E q H HE|k0 D0 amp ps H].
  - apply massok_api, Pl_massok; auto.
  - apply massok_api, De_massok; auto.
  - apply massok_api, DC_massok; auto.
  - apply massok_api, He_massok; auto.
  - apply massok_api, Ja_massok; auto.
  - apply massok_api, NFW_massok; auto.
  - apply massok_api, Sph_massok.
    + intros; apply Bu_rf_d; auto.
    + intros; apply Bu_rad; auto.
  - apply massok_api, Sph_massok.
    + intros; apply SS_rf_d; auto. split; auto.
    + intros f r t Ef Hr Hp. injection Ef as <-. unfold SS_r2, SS_rf, SS_rdens. destruct (SS_in a r); field; lra.
  - apply massok_api, Ke_massok.
  - destruct (IH _ _ _ H) as [Hf (dn & Ed & Hd)]. split.
    + intros R z phi t Hp Hr. apply Hf; auto.
    + exists dn. split; auto.
  - split.
    + apply comp_mass_force. intros q Hq. apply (IH _ _ _ (H q Hq)).
    + apply comp_mass_density. intros q Hq. apply (IH _ _ _ (H q Hq)).
Qed.

(** The mass obtained by integrating the force over the sphere. *)
Lemma mass_int_eq (D : RR -> Prop) p mass r t : 0 < r -> D r -> mass_matches_force D p mass -> apiMassInt p r t = mass r t.
Proof.
  intros Hr HD H. unfold apiMassInt.
  assert (E : forall th, apirforce p (r * sin th) (r * cos th) t * sin th = (- mass r t / r ^ 2) * sin th).
  { intros th. assert (Er : (r * sin th) ^ 2 + (r * cos th) ^ 2 = r ^ 2).
    { pose proof (sin2_cos2 th) as S. unfold Rsqr in S. replace (r ^ 2) with (r ^ 2 * (sin th * sin th + cos th * cos th)) by (rewrite S; ring). ring. }
    assert (Hq : 0 < (r * sin th) ^ 2 + (r * cos th) ^ 2) by (rewrite Er; nra).
    assert (Ra : radius (r * sin th) (r * cos th) = r) by (unfold radius; rewrite Er; apply sqrt_pow2; lra).
    pose proof (H _ _ 0 t Hq) as Hf. rewrite Ra in Hf. specialize (Hf HD). rewrite Hf.
    unfold apirforce. fold v0. rewrite Er, sqrt_pow2 by lra. field. lra. }
  assert (I : is_RInt sin 0 PI (minus (- cos PI) (- cos 0))).
  { apply (is_RInt_derive (fun x => - cos x)).
    - intros x _. auto_derive; auto. ring.
    - intros; apply continuous_sin. }
  assert (I2 : is_RInt (fun th => apirforce p (r * sin th) (r * cos th) t * sin th) 0 PI (- mass r t / r ^ 2 * 2)).
  { eapply is_RInt_ext. { intros th _. symmetry. apply E. }
    assert (E2 : minus (- cos PI) (- cos 0) = 2) by (rewrite cos_PI, cos_0; unfold minus, plus, opp; simpl; ring).
    rewrite E2 in I.
    apply (is_RInt_scal sin 0 PI (- mass r t / r ^ 2)). exact I. }
  rewrite (is_RInt_unique _ _ _ _ I2). field. lra.
Qed.

(** Limits at the centre. *)
Lemma lim_right_cont (m g : RR -> RR) : (forall r, 0 < r -> m r = g r) -> continuous g 0 -> g 0 = 0 ->
  filterlim m (at_right 0) (locally 0).
Proof.
  intros E C G0. apply filterlim_ext_loc with (f := g).
  - exists (mkposreal 1 Rlt_0_1). intros y _ Hy. symmetry. auto.
  - unfold continuous in C. rewrite G0 in C. eapply filterlim_filter_le_1; [|exact C].
    intros P HP. unfold at_right, within. eapply filter_imp; [|exact HP]. auto.
Qed.
Ltac cont0 := match goal with |- continuous ?f ?x => apply (ex_derive_continuous f x); auto_derive end.

Lemma lim_rpow_right (p : RR) : 0 < p -> filterlim (fun r => rpow r p) (at_right 0) (locally 0).
Proof.
  intros Hp. unfold rpow, Rpower.
  apply (filterlim_comp _ _ _ (fun r => p * ln r) exp _ (Rbar_locally m_infty)).
  2: exact is_lim_exp_m.
  apply (filterlim_comp _ _ _ ln (fun x => p * x) _ (Rbar_locally m_infty)).
  - exact is_lim_ln_0.
  - pose proof (is_lim_scal_l (fun x => x) p m_infty m_infty (is_lim_id _)) as L.
    simpl in L. unfold Rbar_mult in L; simpl in L.
    destruct (Rle_dec 0 p) as [q|q]; [|lra]. destruct (Rle_lt_or_eq_dec 0 p q); [|lra]. exact L.
Qed.

Lemma vanish_scal a m : mass_vanishes_at_centre m -> mass_vanishes_at_centre (fun r t => a * m r t).
Proof.
  intros H t. replace 0 with (scal a 0) at 2 by (unfold scal; simpl; unfold mult; simpl; ring).
  apply (filterlim_comp _ _ _ (fun r => m r t) (fun x => scal a x) _ (locally 0)); [apply H|].
  apply (filterlim_scal_r a 0).
Qed.

Lemma mass_catalog_centre k D p : MassCatalog k D p -> k = false -> mass_vanishes_at_centre (apiMass p).
Proof.
  revert k D p. fix IH 4. intros k D p [k0 amp b H|k0 amp a al H H0|k0 amp a H|k0 amp a H|k0 amp a H|k0 amp a H|k0 amp a H|k0 amp a H|amp|k0 D0 E q H HE|k0 D0 amp ps H] Ek; simpl.
  - apply vanish_scal. intros t. unfold static. pose proof (sq_pos b H) as Hb.
    apply lim_right_cont with (g := fun s => s ^ 3 / sqrt (s ^ 2 + b ^ 2) ^ 3).
    + intros s Hs. unfold Pl_mass, Pl_b2. assert (0 < s ^ 2) by (apply pow_lt; auto).
      assert (0 < b ^ 2 / s ^ 2) by (apply Rdiv_lt_0_compat; auto).
      rewrite rpow_opp, rpow_3_2 by lra.
      assert (E : 1 + b ^ 2 / s ^ 2 = (s ^ 2 + b ^ 2) / s ^ 2) by (field; lra).
      rewrite E, sqrt_div_alt by auto. rewrite sqrt_pow2 by lra.
      assert (0 < sqrt (s ^ 2 + b ^ 2)) by (apply sqrt_lt_R0; lra). field. lra.
    + cont0. split; [nra|]. split; auto. apply Rgt_not_eq, pow_lt, sqrt_lt_R0. nra.
    + unfold Rdiv. ring.
  - apply vanish_scal. intros t. unfold static.
    apply filterlim_ext_loc with (f := fun r => scal (/ (3 - al)) (rpow (r / (r + a)) (3 - al))).
    { exists (mkposreal 1 Rlt_0_1). intros y _ Hy. unfold De_mass, scal; simpl; unfold mult; simpl.
      replace (1 + a / y) with (/ (y / (y + a))) by (field; lra).
      assert (0 < y / (y + a)) by (apply Rdiv_lt_0_compat; lra).
      assert (E : rpow (/ (y / (y + a))) (3 - al) = / rpow (y / (y + a)) (3 - al)).
      { unfold rpow, Rpower. rewrite ln_Rinv by auto. rewrite <- exp_Ropp. f_equal. ring. }
      rewrite E. pose proof (rpow_pos (y / (y + a)) (3 - al)). field. lra. }
    replace 0 with (scal (/ (3 - al)) 0) at 2 by (unfold scal; simpl; unfold mult; simpl; ring).
    apply (filterlim_comp _ _ _ (fun r => rpow (r / (r + a)) (3 - al)) (fun x => scal (/ (3 - al)) x) _ (locally 0)).
    2: apply (filterlim_scal_r (/ (3 - al)) 0).
    apply (filterlim_comp _ _ _ (fun r => r / (r + a)) (fun x => rpow x (3 - al)) _ (at_right 0)).
    2: apply lim_rpow_right; lra.
    intros P HP. assert (C : continuous (fun r => r / (r + a)) 0) by (cont0; try split; auto; lra).
    unfold at_right, within in *. unfold filtermap.
    assert (L : locally ((fun r => r / (r + a)) 0) (fun x => 0 < x -> P x)).
    { cbv beta. replace (0 / (0 + a)) with 0 by (field; lra). exact HP. }
    specialize (C _ L). unfold filtermap in C. eapply filter_imp; [|exact C].
    intros y Hy Hpos. apply Hy. apply Rdiv_lt_0_compat; lra.
  - apply vanish_scal. intros t. unfold static. apply lim_right_cont with (g := fun s => s ^ 3 / (s + a) ^ 3 / 3).
    + intros s Hs. unfold DC_mass. assert (0 < a / s) by (apply Rdiv_lt_0_compat; auto). field. lra.
    + cont0. try split; auto. apply Rgt_not_eq, pow_lt. lra.
    + unfold Rdiv. ring.
  - apply vanish_scal. intros t. unfold static. apply lim_right_cont with (g := fun s => s ^ 2 / (s + a) ^ 2 / 2).
    + intros s Hs. unfold He_mass. assert (0 < a / s) by (apply Rdiv_lt_0_compat; auto). field. lra.
    + cont0. try split; auto. apply Rgt_not_eq, pow_lt. lra.
    + unfold Rdiv. ring.
  - apply vanish_scal. intros t. unfold static. apply lim_right_cont with (g := fun s => s / (s + a)).
    + intros s Hs. unfold Ja_mass. assert (0 < a / s) by (apply Rdiv_lt_0_compat; auto). field. lra.
    + cont0. try split; auto; lra.
    + unfold Rdiv. ring.
  - apply vanish_scal. intros t. unfold static. apply lim_right_cont with (g := NFW_mass a); auto.
    + unfold NFW_mass. cont0. unfold Rdiv. rewrite Rmult_0_l. repeat split; auto; lra.
    + unfold NFW_mass, Rdiv. rewrite Rmult_0_l, Rplus_0_r, ln_1. ring.
  - apply vanish_scal. intros t. unfold Sph_mass, Bu_rf.
    apply lim_right_cont with (g := fun r => - a ^ 3 * PI * (2 * atan (r / a) - 2 * ln (1 + r / a) - ln (1 + (r / a) ^ 2))).
    + intros r Hr. assert (0 < r / a) by (apply Rdiv_lt_0_compat; auto).
      replace (1 / (r / a)) with (/ (r / a)) by (field; lra). rewrite atan_inv by auto. field. lra.
    + cont0. unfold Rdiv. rewrite Rmult_0_l. repeat split; auto; lra.
    + unfold Rdiv. rewrite Rmult_0_l, atan_0. replace (1 + 0 ^ 2) with 1 by ring. rewrite Rplus_0_r, ln_1. ring.
  - apply vanish_scal. intros t. unfold Sph_mass.
    apply filterlim_ext_loc with (f := fun _ => 0).
    { exists (mkposreal a H). intros y Hb Hy. unfold SS_rf, SS_in. destruct (Rle_dec y a) as [|n]; [ring|].
      exfalso. apply n. unfold ball in Hb; simpl in Hb; unfold AbsRing_ball, abs, minus, plus, opp in Hb; simpl in Hb.
      apply Rabs_def2 in Hb. lra. }
    apply filterlim_const.
  - discriminate.
  - apply (IH _ _ _ H Ek).
  - assert (HV : forall q, In q ps -> mass_vanishes_at_centre (apiMass q)) by (intros q Hq; exact (IH _ _ _ (H q Hq) Ek)).
    clear IH H. intros t. apply (vanish_scal amp (fun r t => fold_left Rplus (map (fun q => apiMass q r t) ps) 0)). clear t. intros t.
    induction ps as [|q ps IHl].
    + simpl. apply filterlim_const.
    + apply filterlim_ext with (f := fun r => plus (apiMass q r t) (fold_left Rplus (map (fun q => apiMass q r t) ps) 0)).
      { intros r. symmetry. apply fold_left_Rplus_cons. }
      replace 0 with (plus 0 0) at 2 by (unfold plus; simpl; ring).
      apply (filterlim_comp_2 (F := at_right 0) (G := locally 0) (H := locally 0)).
      * apply (HV q (or_introl eq_refl)).
      * apply IHl. intros p' Hp. apply HV; right; auto.
      * apply (filterlim_plus 0 0).
Qed.
