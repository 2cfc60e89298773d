(** The C functions of each potential equal the Python ones *)
From Coq Require Import Reals Lra Lia List Bool ZArith.
From Verif.Lib Require Import RealAux.
From Verif.Model Require Import PotAPI Wrappers CSerial CPot.
From Verif.Model Require PotAxi PotNonAxi.
From Verif.Spec Require Import PotSpec CPotSpec.
Import ListNotations.
Open Scope R_scope.
Notation RR := RbaseSymbolsImpl.R (only parsing).

Definition val (o : option F4) (R z phi t : RR) : RR := match o with Some h => h R z phi t | None => 0 end.
(** [f], the function pointers C has set, computes what the methods of [p] return, in the region [D] *)
Definition agrees2 (g : option F4) (api : option F4) (D : Dom) : Prop :=
  exists h, api = Some h /\ forall R z phi t, D R z phi t -> val g R z phi t = h R z phi t.
Definition agree (f : cfuns) (p : Pot) (D : Dom) : Prop :=
  isDiss p = false /\
  (exists ev, apiEv p = Some ev /\ forall h, cf_ev f = Some h -> forall R z, D R z 0 0 -> h R z 0 0 = ev R z 0 0) /\
  (forall R z phi t, D R z phi t -> cf_Rf f R z phi t = apiRf p novel R z phi t) /\
  (forall R z phi t, D R z phi t -> cf_zf f R z phi t = apizf p novel R z phi t) /\
  agrees2 (Some (cf_pt f)) (apiPt p novel) D /\
  agrees2 (cf_R2 f) (apiR2 p) D /\ agrees2 (cf_z2 f) (apiz2 p) D /\ agrees2 (cf_Rz f) (apiRz p) D /\
  agrees2 (cf_p2 f) (apip2 p) D /\ agrees2 (cf_Rp f) (apiRp p) D /\ agrees2 (cf_pz f) (apipz p) D /\
  (forall h, cf_dn f = Some h -> agrees2 (Some h) (apiDens p) D).

Ltac conjs := repeat match goal with |- _ /\ _ => split end.
Lemma agree_axi amp c ev Rf zf R2 z2 Rz dn fR2 fz2 fRz (D : Dom) :
  nonaxi c = false -> c_pt c = None -> c_p2 c = None -> c_Rp c = None -> c_pz c = None -> c_R2 c = Some fR2 -> c_z2 c = Some fz2 -> c_Rz c = Some fRz ->
  (forall R z phi t, D R z phi t -> ev R z = amp * c_ev c R z phi t /\ Rf R z = amp * c_Rf c R z phi t /\ zf R z = amp * c_zf c R z phi t /\
     R2 R z = amp * fR2 R z phi t /\ z2 R z = amp * fz2 R z phi t /\ Rz R z = amp * fRz R z phi t) ->
  (forall d, dn = Some d -> exists fd, c_dn c = Some fd /\ forall R z phi t, D R z phi t -> d R z = amp * fd R z phi t) ->
  agree (axi ev Rf zf R2 z2 Rz dn) (Single amp c) D.
Proof.
  intros N P1 P2 P3 P4 E1 E2 E3 H Hd. unfold agree, agrees2. cbn [isDiss apiEv apiRf apizf apiPt apiR2 apiz2 apiRz apip2 apiRp apipz apiDens api2 axi cf_ev cf_Rf cf_zf cf_pt cf_R2 cf_z2 cf_Rz cf_p2 cf_Rp cf_pz cf_dn].
  rewrite N, P1, P2, P3, P4, E1, E2, E3. cbn [option_map dflt val]. unfold of_Rz, scale4, zero4.
  conjs; try (eexists; split; [reflexivity|]); try (intros; reflexivity); try (intros R z phi t HD; now apply H).
  - intros h [= <-] R z HD. now apply H.
  - intros h Eh. destruct dn as [d|]; [|discriminate Eh]. injection Eh as <-. destruct (Hd d eq_refl) as [fd [Ec Hf]]. unfold dens_single. rewrite Ec. eexists. split; [reflexivity|]. intros R z phi t HD. cbn. unfold scale4. now apply (Hf R z phi t).
Qed.

(** ** Spherical radius *)
Lemma r_setup R z : off_centre R z -> exists r, 0 < r /\ sqrt (R ^ 2 + z ^ 2) = r /\ R ^ 2 + z ^ 2 = r ^ 2 /\ z ^ 2 = r ^ 2 - R ^ 2.
Proof.
  intros H. assert (P : 0 < R ^ 2 + z ^ 2). { destruct H as [H|H]; [pose proof (pow2_ge_0 z) | pose proof (pow2_ge_0 R)]; assert (0 < R ^ 2 \/ 0 < z ^ 2) by (first [left; nra | right; nra]); nra. }
  exists (sqrt (R ^ 2 + z ^ 2)). assert (S2 : sqrt (R ^ 2 + z ^ 2) ^ 2 = R ^ 2 + z ^ 2) by (rewrite <- Rsqr_pow2; apply Rsqr_sqrt; lra).
  conjs; auto; [now apply sqrt_lt_R0 | lra].
Qed.
Lemma rpow_sq r x : 0 < r -> rpow (r ^ 2) x = rpow r (2 * x).
Proof. intros H. rewrite <- (rpow_2 r H). apply rpow_mult. Qed.
Lemma sqrt_sq r : 0 < r -> sqrt (r ^ 2) = r.
Proof. intros H. rewrite <- Rsqr_pow2. apply sqrt_Rsqr. lra. Qed.

Ltac toR := cbv beta; match goal with |- ?a = ?b => change (@eq RbaseSymbolsImpl.R a b) end.
Ltac sides := conjs; try assumption; try lra; try (apply Rgt_not_eq; lra); try (apply Rgt_not_eq; assumption).
Ltac sph HD R z r Hr Es Er Hz := destruct (r_setup R z HD) as [r [Hr [Es [Er Hz]]]].
Ltac unf := cbn [PotAxi.Hernquist PotAxi.NFW PotAxi.Jaffe PotAxi.PowerSpherical PotAxi.Isochrone PotAxi.PseudoIsothermal PotAxi.Burkert PotAxi.DehnenCore PotAxi.DehnenSpherical PotAxi.HomogeneousSphere
  PotAxi.Spherical mkAxi c_ev c_Rf c_zf option_map].

Ltac inv := repeat match goal with |- context [Req_EM_T ?x ?y] => destruct (Req_EM_T x y); [exfalso; lra|] end.
Lemma Hernquist_ok amp a : 0 < a -> agree (axi (cHe_Eval amp a) (cHe_Rforce amp a) (cHe_zforce amp a) (cHe_R2deriv amp a) (cHe_z2deriv amp a) (cHe_Rzderiv amp a) (Some (cHe_Dens amp a)))
  (Single amp (PotAxi.Hernquist a)) (fun R z _ _ => off_centre R z).
Proof.
  intros Ha. pose proof PI_RGT_0 as HP. eapply agree_axi; try reflexivity.
  - intros R z phi t HD. sph HD R z r Hr Es Er Hz. unf. unfold cHe_Eval, cHe_Rforce, cHe_zforce, cHe_R2deriv, cHe_z2deriv, cHe_Rzderiv, cHe_dphi, cHe_d2phi, PotAxi.He_ev, PotAxi.He_Rf, PotAxi.He_zf, PotAxi.He_z2, PotAxi.He_R2, PotAxi.He_Rz, PotAxi.He_r. cbv zeta.
    rewrite ?(Rplus_comm (z ^ 2) (R ^ 2)). rewrite Es. assert (0 < 1 + r / a) by (assert (0 < r / a) by (apply Rdiv_lt_0_compat; lra); lra). conjs; field [Hz]; sides.
  - intros d [= <-]. eexists. split; [reflexivity|]. intros R z phi t HD. sph HD R z r Hr Es Er Hz. cbn. unfold cHe_Dens, PotAxi.He_dens, PotAxi.De_dens, PotAxi.De_r. rewrite Es.
    assert (0 < r / a) by (apply Rdiv_lt_0_compat; lra). replace (4 - 1) with 3 by ring. rewrite rpow_1, rpow_3; [| lra | apply Rdiv_lt_0_compat; lra]. field. sides.
Qed.
Lemma rpow_m3_2 x : 0 < x -> rpow x (- (3 / 2)) = / sqrt x ^ 3.
Proof. intros H. now rewrite rpow_opp, rpow_3_2. Qed.
Lemma rpow_m5_2 x : 0 < x -> rpow x (- (5 / 2)) = / sqrt x ^ 5.
Proof. intros H. now rewrite rpow_opp, rpow_5_2. Qed.
Ltac posr r a := assert (0 < r / a) by (apply Rdiv_lt_0_compat; lra); assert (0 < a / r) by (apply Rdiv_lt_0_compat; lra).
Lemma NFW_ok amp a : 0 < a -> agree (axi (cNFW_Eval amp a) (cNFW_Rforce amp a) (cNFW_zforce amp a) (cNFW_R2deriv amp a) (cNFW_z2deriv amp a) (cNFW_Rzderiv amp a) (Some (cNFW_Dens amp a)))
  (Single amp (PotAxi.NFW a)) (fun R z _ _ => off_centre R z).
Proof.
  intros Ha. pose proof PI_RGT_0 as HP. eapply agree_axi; try reflexivity.
  - intros R z phi t HD. sph HD R z r Hr Es Er Hz. unf. unfold cNFW_Eval, cNFW_Rforce, cNFW_zforce, cNFW_R2deriv, cNFW_z2deriv, cNFW_Rzderiv, cNFW_dphi, cNFW_d2phi, PotAxi.NFW_ev, PotAxi.NFW_Rf, PotAxi.NFW_zf, PotAxi.NFW_z2, PotAxi.NFW_R2, PotAxi.NFW_Rz, PotAxi.NFW_r. cbv zeta.
    replace (Rabs z ^ 4) with (z ^ 4) by (replace (Rabs z ^ 4) with ((Rabs z ^ 2) ^ 2) by ring; rewrite pow2_abs; ring). rewrite pow2_abs.
    rewrite ?(Rplus_comm (z ^ 2) (R ^ 2)). rewrite Es, Er. replace (a ^ 2 + z ^ 2 + R ^ 2) with (a ^ 2 + r ^ 2) by lra. replace (a ^ 2 + R ^ 2 + z ^ 2) with (a ^ 2 + r ^ 2) by lra.
    destruct (Req_EM_T r 0); [lra|]. assert (P2 : 0 < r ^ 2) by nra. rewrite rpow_m5_2, rpow_5_2, (sqrt_sq r) by assumption. posr r a.
    conjs; field [Hz]; sides.
  - intros d [= <-]. eexists. split; [reflexivity|]. intros R z phi t HD. sph HD R z r Hr Es Er Hz. cbn. unfold cNFW_Dens, PotAxi.NFW_dens, PotAxi.TP_dens. rewrite Es. posr r a.
    replace (3 - 1) with 2 by ring. rewrite rpow_1, rpow_2 by lra. field. sides.
Qed.
Lemma Jaffe_ok amp a : 0 < a -> agree (axi (cJa_Eval amp a) (cJa_Rforce amp a) (cJa_zforce amp a) (cJa_R2deriv amp a) (cJa_z2deriv amp a) (cJa_Rzderiv amp a) (Some (cJa_Dens amp a)))
  (Single amp (PotAxi.Jaffe a)) (fun R z _ _ => off_centre R z).
Proof.
  intros Ha. pose proof PI_RGT_0 as HP. eapply agree_axi; try reflexivity.
  - intros R z phi t HD. sph HD R z r Hr Es Er Hz. unf. unfold cJa_Eval, cJa_Rforce, cJa_zforce, cJa_R2deriv, cJa_z2deriv, cJa_Rzderiv, cJa_dphi, cJa_d2phi, PotAxi.Ja_ev, PotAxi.Ja_Rf, PotAxi.Ja_zf, PotAxi.Ja_z2, PotAxi.Ja_R2, PotAxi.Ja_Rz, PotAxi.Ja_r. cbv zeta.
    rewrite ?(Rplus_comm (z ^ 2) (R ^ 2)). rewrite Es. posr r a. conjs; field [Hz]; sides.
  - intros d [= <-]. eexists. split; [reflexivity|]. intros R z phi t HD. sph HD R z r Hr Es Er Hz. cbn. unfold cJa_Dens, PotAxi.Ja_dens, PotAxi.De_dens, PotAxi.De_r. rewrite Es. posr r a.
    replace (4 - 2) with 2 by ring. rewrite !rpow_2 by lra. field. sides.
Qed.
Lemma PowerSpherical_ok amp al : agree (axi (cPS_Eval amp al) (cPS_Rforce amp al) (cPS_zforce amp al) (sphR2 (cPS_PlanarR2deriv amp al) (cPS_PlanarRforce amp al)) (sphz2 (cPS_PlanarR2deriv amp al) (cPS_PlanarRforce amp al))
   (sphRz (cPS_PlanarR2deriv amp al) (cPS_PlanarRforce amp al)) (Some (cPS_Dens amp al))) (Single amp (PotAxi.PowerSpherical al)) (fun R z _ _ => off_centre R z).
Proof.
  pose proof PI_RGT_0 as HP. eapply agree_axi; try reflexivity.
  - intros R z phi t HD. sph HD R z r Hr Es Er Hz. unf. unfold cPS_Eval, cPS_Rforce, cPS_zforce, sphR2, sphz2, sphRz, cPS_PlanarR2deriv, cPS_PlanarRforce, PotAxi.PS_ev, PotAxi.PS_Rf, PotAxi.PS_zf, PotAxi.PS_z2, PotAxi.PS_R2, PotAxi.PS_Rz. cbv zeta.
    rewrite ?(Rplus_comm (z ^ 2) (R ^ 2)). rewrite Es, Er, !rpow_sq by exact Hr.
    replace (2 * (- / 2 * al)) with (- al) by field. replace (2 * (al / 2)) with al by field. replace (2 * (al / 2 + 1)) with (al + 2) by field. replace (2 * (- 1 - al / 2)) with (- (al + 2)) by field.
    replace (2 * (1 - / 2 * al)) with (2 + - al) by field. replace (2 * (1 - al / 2)) with (2 + - al) by field. rewrite !rpow_plus, !rpow_opp, !rpow_plus, (rpow_1 r Hr), (rpow_2 r Hr). pose proof (rpow_pos r al).
    conjs; try (field [Hz]; sides). destruct (Req_EM_T al 2); [field | field; sides].
  - intros d [= <-]. eexists. split; [reflexivity|]. intros R z phi t HD. sph HD R z r Hr Es Er Hz. cbn. unfold cPS_Dens, PotAxi.PS_dens. rewrite Es, Er, rpow_sq by exact Hr. replace (2 * (- / 2 * al)) with (- al) by field.
    rewrite rpow_opp. pose proof (rpow_pos r al). field. sides.
Qed.
Lemma Isochrone_ok amp b : 0 < b -> agree (axi (cIso_Eval amp b) (cIso_Rforce amp b) (cIso_zforce amp b) (sphR2 (cIso_PlanarR2deriv amp b) (cIso_PlanarRforce amp b)) (sphz2 (cIso_PlanarR2deriv amp b) (cIso_PlanarRforce amp b))
   (sphRz (cIso_PlanarR2deriv amp b) (cIso_PlanarRforce amp b)) (Some (cIso_Dens amp b))) (Single amp (PotAxi.Isochrone b)) (fun R z _ _ => off_centre R z).
Proof.
  intros Hb. pose proof PI_RGT_0 as HP.
  assert (W : forall r, 0 < r -> exists s, 0 < s /\ sqrt (r ^ 2 + b ^ 2) = s /\ r ^ 2 = s ^ 2 - b ^ 2).
  { intros r Hr. exists (sqrt (r ^ 2 + b ^ 2)). assert (0 < r ^ 2 + b ^ 2) by nra. assert (sqrt (r ^ 2 + b ^ 2) ^ 2 = r ^ 2 + b ^ 2) by (rewrite <- Rsqr_pow2; apply Rsqr_sqrt; lra). conjs; [now apply sqrt_lt_R0 | reflexivity | lra]. }
  eapply agree_axi; try reflexivity.
  - intros R z phi t HD. sph HD R z r Hr Es Er Hz. unf. unfold cIso_Eval, cIso_Rforce, cIso_zforce, sphR2, sphz2, sphRz, cIso_PlanarR2deriv, cIso_PlanarRforce, PotAxi.Iso_ev, PotAxi.Iso_Rf, PotAxi.Iso_zf, PotAxi.Iso_dPhidrr, PotAxi.Iso_z2, PotAxi.Iso_R2, PotAxi.Iso_Rz, PotAxi.Iso_rb. cbv zeta.
    rewrite Es, Er. destruct (W r Hr) as [s [Hs [Ess Hr2]]]. rewrite Ess. assert (Hzz : z ^ 2 = s ^ 2 - b ^ 2 - R ^ 2) by lra.
    conjs; (field [Hzz Hr2]; sides).
  - intros d [= <-]. eexists. split; [reflexivity|]. intros R z phi t HD. sph HD R z r Hr Es Er Hz. cbn. unfold cIso_Dens, PotAxi.Iso_dens, PotAxi.Iso_rb. cbv zeta. rewrite Er. destruct (W r Hr) as [s [Hs [Ess Hr2]]]. rewrite Ess, Hr2. field. sides.
Qed.
Lemma PseudoIsothermal_ok amp a : 0 < a -> agree (axi (cPI_Eval amp a) (cPI_Rforce amp a) (cPI_zforce amp a) (sphR2 (cPI_PlanarR2deriv amp a) (cPI_PlanarRforce amp a)) (sphz2 (cPI_PlanarR2deriv amp a) (cPI_PlanarRforce amp a))
   (sphRz (cPI_PlanarR2deriv amp a) (cPI_PlanarRforce amp a)) (Some (cPI_Dens amp a))) (Single amp (PotAxi.PseudoIsothermal a)) (fun R z _ _ => off_centre R z).
Proof.
  intros Ha. pose proof PI_RGT_0 as HP. eapply agree_axi; try reflexivity.
  - intros R z phi t HD. sph HD R z r Hr Es Er Hz. unf. unfold cPI_Eval, cPI_Rforce, cPI_zforce, sphR2, sphz2, sphRz, cPI_PlanarR2deriv, cPI_PlanarRforce, PotAxi.PI_ev, PotAxi.PI_Rf, PotAxi.PI_zf, PotAxi.PI_z2, PotAxi.PI_R2, PotAxi.PI_Rz, PotAxi.PI_r. cbv zeta.
    rewrite Es, Er. destruct (Req_EM_T r 0); [lra|]. assert (0 < a ^ 2 + r ^ 2) by nra. conjs; (field [Hz]; sides).
  - intros d [= <-]. eexists. split; [reflexivity|]. intros R z phi t HD. sph HD R z r Hr Es Er Hz. cbn. unfold cPI_Dens, PotAxi.PI_dens. cbv zeta. rewrite Er. assert (0 < a ^ 2 + r ^ 2) by nra. field. sides.
Qed.
Lemma Burkert_ok amp a : 0 < a -> agree (axi (cBu_Eval amp a) (cBu_Rforce amp a) (cBu_zforce amp a) (sphR2 (cBu_PlanarR2deriv amp a) (cBu_PlanarRforce amp a)) (sphz2 (cBu_PlanarR2deriv amp a) (cBu_PlanarRforce amp a))
   (sphRz (cBu_PlanarR2deriv amp a) (cBu_PlanarRforce amp a)) (Some (cBu_Dens amp a))) (Single amp (PotAxi.Burkert a)) (fun R z _ _ => off_centre R z).
Proof.
  intros Ha. pose proof PI_RGT_0 as HP. eapply agree_axi; try reflexivity.
  - intros R z phi t HD. sph HD R z r Hr Es Er Hz. unf. unfold cBu_Eval, cBu_Rforce, cBu_zforce, sphR2, sphz2, sphRz, cBu_PlanarR2deriv, cBu_PlanarRforce, PotAxi.Bu_rev, PotAxi.Bu_r2, PotAxi.Bu_rf, PotAxi.Sph_r. cbv zeta.
    rewrite Es, Er. posr r a. set (x := r / a) in *. assert (Ex : r = a * x) by (unfold x; field; lra).
    assert (L : ln ((1 + 1 / x) ^ 2 / (1 + 1 / x ^ 2)) = 2 * ln (1 + x) - ln (1 + x ^ 2)).
    { replace ((1 + 1 / x) ^ 2 / (1 + 1 / x ^ 2)) with ((1 + x) * (1 + x) * / (1 + x ^ 2)) by (field; conjs; nra). rewrite ln_mult, ln_mult, ln_Rinv; try (apply Rmult_lt_0_compat); try (apply Rinv_0_lt_compat); nra. }
    rewrite L. unfold cBu_br. clearbody x. clear Es. subst r. generalize (atan (1 / x)) as A, (ln (1 + x)) as B, (ln (1 + x ^ 2)) as C. intros A B C. assert (0 < 1 + x ^ 2) by nra. assert (0 < a * a + a * x * (a * x)) by nra. assert (0 < a ^ 2 * (1 + x ^ 2)) by nra.
    conjs; (toR; field [Hz]; sides).
  - intros d [= <-]. eexists. split; [reflexivity|]. intros R z phi t HD. sph HD R z r Hr Es Er Hz. cbn. unfold cBu_Dens, PotAxi.Sph_rdens, PotAxi.Sph_r, PotAxi.Bu_rdens. cbv zeta. rewrite Es. posr r a. field. assert (0 < a ^ 2 + r ^ 2) by nra. sides.
Qed.
Lemma DehnenCore_ok amp a : 0 < a -> agree (axi (cDC_Eval amp a) (cDC_Rforce amp a) (cDC_zforce amp a) (sphR2 (cDC_PlanarR2deriv amp a) (cDC_PlanarRforce amp a)) (sphz2 (cDC_PlanarR2deriv amp a) (cDC_PlanarRforce amp a))
   (sphRz (cDC_PlanarR2deriv amp a) (cDC_PlanarRforce amp a)) (Some (cDC_Dens amp a))) (Single amp (PotAxi.DehnenCore a)) (fun R z _ _ => off_centre R z).
Proof.
  intros Ha. pose proof PI_RGT_0 as HP. eapply agree_axi; try reflexivity.
  - intros R z phi t HD. sph HD R z r Hr Es Er Hz. unf. unfold cDC_Eval, cDC_Rforce, cDC_zforce, sphR2, sphz2, sphRz, cDC_PlanarR2deriv, cDC_PlanarRforce, PotAxi.DC_ev, PotAxi.DC_Rf, PotAxi.DC_zf, PotAxi.DC_z2, PotAxi.DC_R2, PotAxi.DC_Rz, PotAxi.DC_r. cbv zeta.
    rewrite ?(Rplus_comm (z ^ 2) (R ^ 2)). rewrite Es, Er. posr r a. conjs; (field [Hz]; sides).
  - intros d [= <-]. eexists. split; [reflexivity|]. intros R z phi t HD. sph HD R z r Hr Es Er Hz. cbn. unfold cDC_Dens, PotAxi.DC_dens, PotAxi.DC_r. cbv zeta. rewrite Es. posr r a. field. sides.
Qed.
Lemma rpow_ratio a r x : 0 < a -> 0 < r -> rpow (a / r) x = rpow a x / rpow r x.
Proof. intros Ha Hr. unfold rpow, Rpower, Rdiv. rewrite ln_mult, ln_Rinv, Rmult_plus_distr_l, exp_plus; auto; [|now apply Rinv_0_lt_compat]. replace (x * - ln r) with (- (x * ln r)) by ring. now rewrite exp_Ropp. Qed.
Lemma rpow_4 x : 0 < x -> rpow x 4 = x ^ 4.
Proof. intros H. replace 4 with (2 + 2) by ring. rewrite rpow_plus, rpow_2 by auto. ring. Qed.
Lemma Dehnen_ok amp a al : 0 < a -> al <> 2 -> al <> 3 -> agree (axi (cDe_Eval amp a al) (cDe_Rforce amp a al) (cDe_zforce amp a al) (sphR2 (cDe_PlanarR2deriv amp a al) (cDe_PlanarRforce amp a al)) (sphz2 (cDe_PlanarR2deriv amp a al) (cDe_PlanarRforce amp a al))
   (sphRz (cDe_PlanarR2deriv amp a al) (cDe_PlanarRforce amp a al)) (Some (cDe_Dens amp a al))) (Single amp (PotAxi.DehnenSpherical a al)) (fun R z _ _ => off_centre R z).
Proof.
  intros Ha H2 H3. pose proof PI_RGT_0 as HP. eapply agree_axi; try reflexivity.
  - intros R z phi t HD. sph HD R z r Hr Es Er Hz. unf. unfold cDe_Eval, cDe_Rforce, cDe_zforce, sphR2, sphz2, sphRz, cDe_PlanarR2deriv, cDe_PlanarRforce, PotAxi.De_ev, PotAxi.De_Rf, PotAxi.De_zf, PotAxi.De_z2, PotAxi.De_R2, PotAxi.De_Rz, PotAxi.De_r. cbv zeta.
    rewrite ?(Rplus_comm (z ^ 2) (R ^ 2)). rewrite Es, Er. rewrite ?(Rplus_comm r a). replace (1 + a / r) with ((a + r) / r) by (field; lra).
    assert (Ps : 0 < a + r) by lra. rewrite !rpow_ratio by assumption. replace (- 2 - al) with (- (2 + al)) by ring.
    rewrite ?rpow_opp, ?rpow_plus, !(rpow_minus _ _ al), !(rpow_minus _ al), ?rpow_2, ?rpow_3, ?rpow_4 by assumption. pose proof (rpow_pos r al). pose proof (rpow_pos (a + r) al).
    conjs; (field [Hz]; sides).
  - intros d [= <-]. eexists. split; [reflexivity|]. intros R z phi t HD. sph HD R z r Hr Es Er Hz. cbn. unfold cDe_Dens, PotAxi.De_dens, PotAxi.De_r. cbv zeta. rewrite Es. replace (1 + r / a) with ((a + r) / a) by (field; lra).
    assert (Ps : 0 < a + r) by lra. rewrite !rpow_ratio by assumption. rewrite !(rpow_minus _ _ al), !(rpow_minus _ al), !rpow_3, !rpow_4, rpow_opp by assumption. pose proof (rpow_pos r al). pose proof (rpow_pos (a + r) al). pose proof (rpow_pos a al). field. sides.
Qed.
Lemma Homogeneous_ok amp Rs : 0 < Rs -> agree (axi (cHS_Eval amp (Rs ^ 2) (Rs ^ 3)) (cHS_Rforce amp (Rs ^ 2) (Rs ^ 3)) (cHS_zforce amp (Rs ^ 2) (Rs ^ 3))
   (sphR2 (cHS_PlanarR2deriv amp (Rs ^ 2) (Rs ^ 3)) (cHS_PlanarRforce amp (Rs ^ 2) (Rs ^ 3))) (sphz2 (cHS_PlanarR2deriv amp (Rs ^ 2) (Rs ^ 3)) (cHS_PlanarRforce amp (Rs ^ 2) (Rs ^ 3)))
   (sphRz (cHS_PlanarR2deriv amp (Rs ^ 2) (Rs ^ 3)) (cHS_PlanarRforce amp (Rs ^ 2) (Rs ^ 3))) (Some (cHS_Dens amp (Rs ^ 2)))) (Single amp (PotAxi.HomogeneousSphere Rs)) (fun R z _ _ => off_centre R z).
Proof.
  intros Ha. pose proof PI_RGT_0 as HP. eapply agree_axi; try reflexivity.
  - intros R z phi t HD. sph HD R z r Hr Es Er Hz. unf. unfold cHS_Eval, cHS_Rforce, cHS_zforce, sphR2, sphz2, sphRz, cHS_PlanarR2deriv, cHS_PlanarRforce, PotAxi.HS_ev, PotAxi.HS_Rf, PotAxi.HS_zf, PotAxi.HS_z2, PotAxi.HS_R2, PotAxi.HS_Rz, PotAxi.HS_in. cbv zeta.
    rewrite Es, Er. assert (P2 : 0 < r ^ 2) by nra. rewrite rpow_3_2, rpow_5_2, (sqrt_sq r) by assumption. destruct (Rlt_dec (r ^ 2) (Rs ^ 2)); conjs; (field [Hz]; sides).
  - intros d [= <-]. eexists. split; [reflexivity|]. intros R z phi t HD. sph HD R z r Hr Es Er Hz. cbn. unfold cHS_Dens, PotAxi.HS_dens, PotAxi.HS_in. cbv zeta. destruct (Rlt_dec (R ^ 2 + z ^ 2) (Rs ^ 2)); field. lra.
Qed.

(** ** The others *)
Lemma Plummer_ok amp b : b <> 0 -> agree (axi (cPl_Eval amp b) (cPl_Rforce amp b) (cPl_zforce amp b) (cPl_R2deriv amp b) (cPl_z2deriv amp b) (cPl_Rzderiv amp b) (Some (cPl_Dens amp b)))
  (Single amp (PotAxi.Plummer b)) (fun _ _ _ _ => True).
Proof.
  intros Hb. pose proof PI_RGT_0 as HP. eapply agree_axi; try reflexivity.
  - intros R z phi t _. cbn [PotAxi.Plummer mkAxi c_ev c_Rf c_zf option_map]. unfold cPl_Eval, cPl_Rforce, cPl_zforce, cPl_R2deriv, cPl_z2deriv, cPl_Rzderiv, PotAxi.Pl_ev, PotAxi.Pl_Rf, PotAxi.Pl_zf, PotAxi.Pl_R2, PotAxi.Pl_z2, PotAxi.Pl_Rz, PotAxi.Pl_dPhidrr, PotAxi.Pl_b2.
    conjs; try ring. assert (P : 0 < R ^ 2 + z ^ 2 + b ^ 2) by (assert (0 < b ^ 2) by nra; nra). apply sqrt_lt_R0 in P. field. lra.
  - intros d [= <-]. eexists. split; [reflexivity|]. intros R z phi t _. cbn. unfold cPl_Dens, PotAxi.Pl_dens, PotAxi.Pl_b2. field. lra.
Qed.
Lemma sum_sq_pos x y : x <> 0 \/ y <> 0 -> 0 < x ^ 2 + y ^ 2.
Proof. intros [H|H]; [assert (0 < x ^ 2) by nra; pose proof (pow2_ge_0 y) | assert (0 < y ^ 2) by nra; pose proof (pow2_ge_0 x)]; lra. Qed.
Lemma MiyamotoNagai_ok amp a b fl : b <> 0 -> agree (axi (cMN_Eval amp a b) (cMN_Rforce amp a b) (cMN_zforce amp a b) (cMN_R2deriv amp a b) (cMN_z2deriv amp a b) (cMN_Rzderiv amp a b) (Some (cMN_Dens amp a b)))
  (Single amp (PotAxi.MiyamotoNagai a b fl)) (fun R z _ _ => R <> 0 \/ a + sqrt (z ^ 2 + b ^ 2) <> 0).
Proof.
  intros Hb. pose proof PI_RGT_0 as HP.
  assert (SP : forall z, 0 < sqrt (z ^ 2 + b ^ 2)) by (intros z; apply sqrt_lt_R0; assert (0 < b ^ 2) by nra; nra).
  assert (S2 : forall z, sqrt (z ^ 2 + b ^ 2) ^ 2 = z ^ 2 + b ^ 2) by (intros z; rewrite <- Rsqr_pow2; apply Rsqr_sqrt; assert (0 < b ^ 2) by nra; nra).
  assert (E : forall z, PotAxi.MN_special a b fl z = if Req_EM_T a 0 then fl else false).
  { intros z. unfold PotAxi.MN_special, PotAxi.MN_asq. destruct fl; [|now destruct (Req_EM_T a 0)]. destruct (Req_EM_T (PotAxi.MN_sq b z) (a + PotAxi.MN_sq b z)), (Req_EM_T a 0); auto; exfalso; lra. }
  eapply agree_axi; try reflexivity.
  - intros R z phi t HD. cbn [PotAxi.MiyamotoNagai mkAxi c_ev c_Rf c_zf option_map]. specialize (SP z). specialize (S2 z). apply sum_sq_pos in HD.
    unfold PotAxi.MN_zf, PotAxi.MN_z2, PotAxi.MN_Rz. rewrite !E.
    unfold cMN_Eval, cMN_Rforce, cMN_zforce, cMN_R2deriv, cMN_z2deriv, cMN_Rzderiv, PotAxi.MN_ev, PotAxi.MN_Rf, PotAxi.MN_R2, PotAxi.MN_asq, PotAxi.MN_sq, PotAxi.MN_b2. cbv zeta.
    rewrite !(Rplus_comm (b ^ 2) (z ^ 2)). replace (b ^ 2 + R ^ 2 + z ^ 2) with (R ^ 2 + (z ^ 2 + b ^ 2)) by ring. rewrite <- S2. rewrite (sqrt_sq _ SP). set (s := sqrt (z ^ 2 + b ^ 2)) in *. clearbody s.
    assert (P2 : 0 < s ^ 2) by nra. assert (P3 : 0 < R ^ 2 + s ^ 2) by nra.
    rewrite ?rpow_m3_2, ?rpow_m5_2, ?rpow_3_2, ?rpow_5_2 by assumption. rewrite ?(sqrt_sq s) by assumption.
    set (D := R ^ 2 + (a + s) ^ 2) in *.
    pose proof (sqrt_lt_R0 D HD) as SD. pose proof (sqrt_lt_R0 _ P3) as SQ.
    destruct (Req_EM_T a 0) as [Ea|Ea]; [|conjs; unfold Rdiv; field; sides].
    destruct fl; unfold D in *; clear D; subst a; rewrite !Rplus_0_l in *; conjs; (field; sides) || (assert (Hz : z ^ 2 = s ^ 2 - b ^ 2) by lra; field [Hz]; sides).
  - intros d [= <-]. eexists. split; [reflexivity|]. intros R z phi t HD. cbn. specialize (SP z). specialize (S2 z). apply sum_sq_pos in HD. unfold cMN_Dens, PotAxi.MN_dens. rewrite E. unfold PotAxi.MN_asq, PotAxi.MN_sq, PotAxi.MN_b2. cbv zeta.
    rewrite !(Rplus_comm (b ^ 2) (z ^ 2)). set (s := sqrt (z ^ 2 + b ^ 2)) in *. clearbody s. assert (P2 : 0 < s ^ 2) by nra. assert (P3 : 0 < R ^ 2 + s ^ 2) by nra.
    rewrite ?rpow_m5_2, ?rpow_5_2 by assumption. set (D := R ^ 2 + (a + s) ^ 2) in *. pose proof (sqrt_lt_R0 D HD) as SD. pose proof (sqrt_lt_R0 _ P3) as SQ.
    destruct (Req_EM_T a 0) as [Ea|Ea]; [|field; sides]. destruct fl; unfold D in *; clear D; subst a; rewrite ?Rplus_0_l in *; field; sides.
Qed.
Lemma zsign_rsign z : zsign z = PotAxi.rsign z.
Proof. unfold zsign, PotAxi.rsign. destruct (Rlt_dec 0 z), (Rlt_dec z 0); lra. Qed.
Lemma KuzminDisk_ok amp a : agree (axi (cKu_Eval amp a) (cKu_Rforce amp a) (cKu_zforce amp a) (cKu_R2deriv amp a) (cKu_z2deriv amp a) (cKu_Rzderiv amp a) None)
  (Single amp (PotAxi.KuzminDisk a)) (fun R z _ _ => R <> 0 \/ a + Rabs z <> 0).
Proof.
  eapply agree_axi; try reflexivity; [|discriminate].
  intros R z phi t HD. cbn [PotAxi.KuzminDisk mkAxi c_ev c_Rf c_zf option_map]. apply sum_sq_pos in HD.
  unfold cKu_Eval, cKu_Rforce, cKu_zforce, cKu_R2deriv, cKu_z2deriv, cKu_Rzderiv, PotAxi.Kz_ev, PotAxi.Kz_Rf, PotAxi.Kz_zf, PotAxi.Kz_R2, PotAxi.Kz_z2, PotAxi.Kz_Rz, PotAxi.Kz_den. cbv zeta. rewrite zsign_rsign.
  set (D := R ^ 2 + (a + Rabs z) ^ 2) in *. rewrite ?rpow_m3_2, ?rpow_m5_2, (rpow_opp D (1 / 2)), rpow_1_2 by assumption. pose proof (sqrt_lt_R0 D HD) as SD.
  assert (ED : D = sqrt D ^ 2) by (rewrite <- Rsqr_pow2; symmetry; apply Rsqr_sqrt; lra). clearbody D. set (s := sqrt D) in *. clearbody s. subst D. conjs; toR; (field; sides).
Qed.
Lemma FlattenedPower_ok amp alpha q2 core2 : 0 < q2 -> agree (axi (cFP_Eval amp alpha q2 core2) (cFP_Rforce amp alpha q2 core2) (cFP_zforce amp alpha q2 core2) (cFP_R2deriv amp alpha q2 core2) (cFP_z2deriv amp alpha q2 core2)
  (cFP_Rzderiv amp alpha q2 core2) (Some (cFP_Dens amp alpha q2 core2))) (Single amp (PotAxi.FlattenedPower alpha q2 core2)) (fun R z _ _ => 0 < core2 + R ^ 2 + z ^ 2 / q2).
Proof.
  intros Hq. pose proof PI_RGT_0 as HP. eapply agree_axi; try reflexivity.
  - intros R z phi t HD. cbn [PotAxi.FlattenedPower mkAxi c_ev c_Rf c_zf option_map].
    unfold cFP_Eval, cFP_Rforce, cFP_zforce, cFP_R2deriv, cFP_z2deriv, cFP_Rzderiv, PotAxi.FP_ev, PotAxi.FP_Rf, PotAxi.FP_zf, PotAxi.FP_R2, PotAxi.FP_z2, PotAxi.FP_Rz, PotAxi.FP_is0, PotAxi.FP_m2, PotAxi.FP_d. cbv zeta.
    replace (R ^ 2 + z ^ 2 / q2 + core2) with (core2 + R ^ 2 + z ^ 2 / q2) by ring. set (m := core2 + R ^ 2 + z ^ 2 / q2) in *. clearbody m.
    replace (- / 2 * alpha) with (- alpha / 2) by field. destruct (Req_EM_T alpha 0) as [Ea|Ea]; conjs; (field; sides).
  - intros d [= <-]. eexists. split; [reflexivity|]. intros R z phi t HD. cbn. unfold cFP_Dens, PotAxi.FP_dens, PotAxi.FP_is0, PotAxi.FP_m2, PotAxi.FP_d.
    replace (R ^ 2 + z ^ 2 / q2 + core2) with (core2 + R ^ 2 + z ^ 2 / q2) by ring. set (m := core2 + R ^ 2 + z ^ 2 / q2) in *. clearbody m.
    destruct (Req_EM_T alpha 0) as [Ea|Ea]; (field; sides).
Qed.
Lemma LogHaloTri_ok amp q core2 b : q <> 0 -> b <> 0 -> agree (cLH amp q core2 (1 - 1 / b ^ 2)) (Single amp (PotNonAxi.LogarithmicHalo core2 q (Some b)))
  (fun R z phi _ => R <> 0 /\ R ^ 2 * (1 - (1 - 1 / b ^ 2) * sin phi ^ 2) + (z / q) ^ 2 + core2 <> 0).
Proof.
  intros Hq Hb. pose proof PI_RGT_0 as HP. assert (T : tri (1 - 1 / b ^ 2) = true).
  { unfold tri. destruct (Rlt_dec (1 - 1 / b ^ 2) 1) as [|n]; auto. exfalso. apply n. assert (0 < b ^ 2) by nra. assert (0 < 1 / b ^ 2) by (apply Rdiv_lt_0_compat; lra). lra. }
  unfold agree, agrees2. cbn [isDiss apiEv apiRf apizf apiPt apiR2 apiz2 apiRz apip2 apiRp apipz apiDens api2 cLH cf_ev cf_Rf cf_zf cf_pt cf_R2 cf_z2 cf_Rz cf_p2 cf_Rp cf_pz cf_dn PotNonAxi.LogarithmicHalo nonaxi c_ev c_Rf c_zf c_pt c_R2 c_z2 c_Rz c_p2 c_Rp c_pz c_dn PotNonAxi.LH_nonaxi option_map dflt dens_single].
  conjs; try (intros h [= <-]); try (eexists; split; [reflexivity|]); try (intros h [= <-]); try reflexivity; intros R z; [|intros phi t ..]; intros [HR HD];
    unfold cLH_Eval, cLH_Rforce, cLH_zforce, cLH_phitorque, cLH_R2deriv, cLH_z2deriv, cLH_Rzderiv, cLH_phi2deriv, cLH_Rphideriv, cLH_zphideriv, cLH_Dens, val, scale4; rewrite ?T;
    unfold PotNonAxi.LH_ev, PotNonAxi.LH_Rf, PotNonAxi.LH_zf, PotNonAxi.LH_pt, PotNonAxi.LH_R2, PotNonAxi.LH_z2, PotNonAxi.LH_Rz, PotNonAxi.LH_p2, PotNonAxi.LH_Rp, PotNonAxi.LH_pz, PotNonAxi.LH_dens, PotNonAxi.LH_nonaxi, PotNonAxi.LH_m, PotNonAxi.LH_Rt2, PotNonAxi.LH_1m1overb2;
    cbv zeta; unfold Rt2; set (o := 1 - 1 / b ^ 2) in *; clearbody o;
    try (set (m := R ^ 2 * (1 - o * sin phi ^ 2) + (z / q) ^ 2 + core2) in *; clearbody m); toR; try (field; sides).
Qed.
Lemma LogHaloAxi_ok amp q core2 : q <> 0 -> agree (cLH amp q core2 2) (Single amp (PotNonAxi.LogarithmicHalo core2 q None))
  (fun R z phi _ => R ^ 2 + (z / q) ^ 2 + core2 <> 0).
Proof.
  intros Hq. pose proof PI_RGT_0 as HP. assert (T : tri 2 = false). { unfold tri. destruct (Rlt_dec 2 1) as [|n]; auto. exfalso. lra. }
  unfold agree, agrees2. cbn [isDiss apiEv apiRf apizf apiPt apiR2 apiz2 apiRz apip2 apiRp apipz apiDens api2 cLH cf_ev cf_Rf cf_zf cf_pt cf_R2 cf_z2 cf_Rz cf_p2 cf_Rp cf_pz cf_dn PotNonAxi.LogarithmicHalo nonaxi c_ev c_Rf c_zf c_pt c_R2 c_z2 c_Rz c_p2 c_Rp c_pz c_dn PotNonAxi.LH_nonaxi option_map dflt dens_single].
  conjs; try (intros h [= <-]); try (eexists; split; [reflexivity|]); try (intros h [= <-]); try reflexivity; intros R z; [|intros phi t ..]; intros HD;
    unfold cLH_Eval, cLH_Rforce, cLH_zforce, cLH_phitorque, cLH_R2deriv, cLH_z2deriv, cLH_Rzderiv, cLH_phi2deriv, cLH_Rphideriv, cLH_zphideriv, cLH_Dens, val, scale4, zero4; rewrite ?T;
    unfold PotNonAxi.LH_ev, PotNonAxi.LH_Rf, PotNonAxi.LH_zf, PotNonAxi.LH_pt, PotNonAxi.LH_R2, PotNonAxi.LH_z2, PotNonAxi.LH_Rz, PotNonAxi.LH_p2, PotNonAxi.LH_Rp, PotNonAxi.LH_pz, PotNonAxi.LH_dens, PotNonAxi.LH_nonaxi, PotNonAxi.LH_ma;
    cbv zeta; set (m := R ^ 2 + (z / q) ^ 2 + core2) in *; clearbody m; toR; try (field; sides).
Qed.
