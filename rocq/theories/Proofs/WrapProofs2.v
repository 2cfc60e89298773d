(** Moving objects, rotated and tilted objects. *)
From Coq Require Import Reals Lra Psatz List Bool.
From Coquelicot Require Import Coquelicot.
From Verif.Lib Require Import RealAux Atan2 Vec3.
From Verif.Model Require Import PotAPI Coords Wrappers.
From Verif.Spec Require Import PotSpec PotApiSpec SmoothSpec.
From Verif.Proofs Require Import AxiProofs PotLift SmoothProofs WrapProofs.
Import ListNotations.
Open Scope R_scope.
Notation RR := RbaseSymbolsImpl.R (only parsing).

Lemma cdw_ext (E : Dom) F G FR Fz Fp GR Gz Gp k :
  (forall R z phi t, G R z phi t = k * F R z phi t) -> (forall R z phi t, E R z phi t -> GR R z phi t = k * FR R z phi t) ->
  (forall R z phi t, E R z phi t -> Gz R z phi t = k * Fz R z phi t) -> (forall R z phi t, E R z phi t -> Gp R z phi t = k * Fp R z phi t) ->
  cdw E F FR Fz Fp -> cdw E G GR Gz Gp.
Proof.
  intros E0 E1 E2 E3 H t r h p s dR dz dp HD D1 D2 D3.
  eapply is_derive_ext; [intros u; symmetry; apply E0|]. rewrite E1, E2, E3 by auto.
  eapply is_derive_eq. apply is_derive_scal, (H t r h p s dR dz dp); auto. toR; ring.
Qed.

Lemma d_norm (X Y : RR -> RR) s (dx dy : RR) : 0 < X s ^ 2 + Y s ^ 2 -> is_derive X s dx -> is_derive Y s dy ->
  is_derive (fun u => sqrt (X u ^ 2 + Y u ^ 2)) s ((X s * dx + Y s * dy) / sqrt (X s ^ 2 + Y s ^ 2)).
Proof.
  intros Hp A B. auto_derive. repeat split; auto; eexists; eauto. derw. field. apply Rgt_not_eq, sqrt_lt_R0; auto.
Qed.
Lemma d_quot (X V : RR -> RR) s (dx dv : RR) : V s <> 0 -> is_derive X s dx -> is_derive V s dv ->
  is_derive (fun u => X u / V u) s (dx / V s - X s * dv / V s ^ 2).
Proof.
  intros Hp A B. auto_derive. repeat split; auto; eexists; eauto. derw. field. auto.
Qed.

(** ** Moving object *)
Section MO.
  Variables (oR ophi oz : RR -> RR) (D : Dom).
  Let xd := mo_xd oR ophi.
  Let yd := mo_yd oR ophi.
  Let d := mo_d oR ophi.
  Lemma mo_d_sq R phi t : R ^ 2 + oR t ^ 2 - 2 * R * oR t * cos (phi - ophi t) = xd R phi t ^ 2 + yd R phi t ^ 2.
  Proof.
    unfold xd, yd, mo_xd, mo_yd. rewrite cos_minus.
    pose proof (sin2_cos2 phi) as A. pose proof (sin2_cos2 (ophi t)) as B. unfold Rsqr in *.
    set (c := cos phi) in *. set (s := sin phi) in *. set (c2 := cos (ophi t)) in *. set (s2 := sin (ophi t)) in *.
    replace (R ^ 2) with (R ^ 2 * (s * s + c * c)) by (rewrite A; ring).
    replace (oR t ^ 2) with (oR t ^ 2 * (s2 * s2 + c2 * c2)) by (rewrite B; ring). ring.
  Qed.
  Lemma mo_d_eq R phi t : d R phi t = sqrt (xd R phi t ^ 2 + yd R phi t ^ 2).
  Proof. unfold d, mo_d, cylR. rewrite mo_d_sq. reflexivity. Qed.
  (** where the wrapped object is right, away from the axis through the moving object *)
  Definition EMO : Dom := fun R z phi t => 0 < xd R phi t ^ 2 + yd R phi t ^ 2 /\ D (d R phi t) (mo_zd oz z t) 0 t.
  Lemma xd_d t (r q : RR -> RR) s (dr dp : RR) : is_derive r s dr -> is_derive q s dp ->
    is_derive (fun u => xd (r u) (q u) t) s (- (dr * cos (q s) - r s * sin (q s) * dp)).
  Proof. intros D1 D2. unfold xd, mo_xd. auto_derive. repeat split; eexists; eauto. derw. ring. Qed.
  Lemma yd_d t (r q : RR -> RR) s (dr dp : RR) : is_derive r s dr -> is_derive q s dp ->
    is_derive (fun u => yd (r u) (q u) t) s (- (dr * sin (q s) + r s * cos (q s) * dp)).
  Proof. intros D1 D2. unfold yd, mo_yd. auto_derive. repeat split; eexists; eauto. derw. ring. Qed.
  Lemma d_d t (r q : RR -> RR) s (dr dp : RR) : 0 < xd (r s) (q s) t ^ 2 + yd (r s) (q s) t ^ 2 -> is_derive r s dr -> is_derive q s dp ->
    is_derive (fun u => d (r u) (q u) t) s
     (- (xd (r s) (q s) t * (dr * cos (q s) - r s * sin (q s) * dp) + yd (r s) (q s) t * (dr * sin (q s) + r s * cos (q s) * dp)) / d (r s) (q s) t).
  Proof.
    intros Hp D1 D2. pose proof (xd_d t r q s dr dp D1 D2) as A. pose proof (yd_d t r q s dr dp D1 D2) as B.
    eapply is_derive_ext. intros u; symmetry; apply mo_d_eq. rewrite mo_d_eq.
    eapply is_derive_eq. apply (d_norm (fun u => xd (r u) (q u) t) (fun u => yd (r u) (q u) t) s _ _ Hp A B). cbv beta. toR. unfold Rdiv. ring.
  Qed.
  Definition ux : Fun4 := fun R z phi t => xd R phi t / d R phi t.
  Definition uy : Fun4 := fun R z phi t => yd R phi t / d R phi t.
  Definition mul4 (f g : Fun4) : Fun4 := fun R z phi t => f R z phi t * g R z phi t.
  Let m := mo_at oR ophi oz.
  Lemma mo_cdw F FR Fz Fq : differentiable_with D F FR Fz Fq ->
    cdw EMO (m F) (neg (mul4 (m FR) ux)) (neg (mul4 (m FR) uy)) (neg (m Fz)).
  Proof.
    intros H t r h q s dr dz dp (Hp & HD) D1 D2 D3.
    assert (Dz : is_derive (fun u => mo_zd oz (h u) t) s (- dz)).
    { unfold mo_zd. auto_derive. eexists; eauto. derw. ring. }
    eapply is_derive_eq. apply (H t (fun u => d (r u) (q u) t) (fun u => mo_zd oz (h u) t) (fun _ => 0) s _ _ 0 HD (d_d t r q s dr dp Hp D1 D3) Dz (is_derive_cst _ _)).
    cbv beta. unfold neg, mul4, ux, uy, m, mo_at. toR. fold (d (r s) (q s) t). 
    field. rewrite mo_d_eq. apply Rgt_not_eq, sqrt_lt_R0; auto.
  Qed.
  Lemma ux_cdw : cdw EMO ux (fun R z phi t => - yd R phi t ^ 2 / d R phi t ^ 3) (fun R z phi t => xd R phi t * yd R phi t / d R phi t ^ 3) zero4.
  Proof.
    intros t r h q s dr dz dp (Hp & HD) D1 D2 D3.
    pose proof (xd_d t r q s dr dp D1 D3) as A. pose proof (d_d t r q s dr dp Hp D1 D3) as B.
    assert (Hd : 0 < d (r s) (q s) t) by (rewrite mo_d_eq; apply sqrt_lt_R0; auto).
    assert (Ed : yd (r s) (q s) t ^ 2 = d (r s) (q s) t ^ 2 - xd (r s) (q s) t ^ 2).
    { rewrite mo_d_eq, sqrt_sq_eq by lra. ring. }
    unfold ux. eapply is_derive_eq. apply (d_quot (fun u => xd (r u) (q u) t) (fun u => d (r u) (q u) t) s _ _ (Rgt_not_eq _ _ Hd) A B). cbv beta.
    rewrite Ed. unfold zero4. toR. field. apply Rgt_not_eq; auto.
  Qed.
  Lemma uy_cdw : cdw EMO uy (fun R z phi t => xd R phi t * yd R phi t / d R phi t ^ 3) (fun R z phi t => - xd R phi t ^ 2 / d R phi t ^ 3) zero4.
  Proof.
    intros t r h q s dr dz dp (Hp & HD) D1 D2 D3.
    pose proof (yd_d t r q s dr dp D1 D3) as A. pose proof (d_d t r q s dr dp Hp D1 D3) as B.
    assert (Hd : 0 < d (r s) (q s) t) by (rewrite mo_d_eq; apply sqrt_lt_R0; auto).
    assert (Ed : xd (r s) (q s) t ^ 2 = d (r s) (q s) t ^ 2 - yd (r s) (q s) t ^ 2).
    { rewrite mo_d_eq, sqrt_sq_eq by lra. ring. }
    unfold uy. eapply is_derive_eq. apply (d_quot (fun u => yd (r u) (q u) t) (fun u => d (r u) (q u) t) s _ _ (Rgt_not_eq _ _ Hd) A B). cbv beta.
    rewrite Ed. unfold zero4. toR. field. apply Rgt_not_eq; auto.
  Qed.
  Lemma cdw_mul (E : Dom) f fx fy fz g gx gy gz : cdw E f fx fy fz -> cdw E g gx gy gz ->
    cdw E (mul4 f g) (fun R z phi t => fx R z phi t * g R z phi t + f R z phi t * gx R z phi t)
      (fun R z phi t => fy R z phi t * g R z phi t + f R z phi t * gy R z phi t)
      (fun R z phi t => fz R z phi t * g R z phi t + f R z phi t * gz R z phi t).
  Proof.
    intros A B t r h q s dr dz dp HE D1 D2 D3. unfold mul4. eapply is_derive_eq.
    apply is_derive_Rmult; [apply (A t r h q s dr dz dp); auto|apply (B t r h q s dr dz dp); auto]. cbv beta; toR; ring.
  Qed.
End MO.

Lemma moving_smooth oR ophi oz (D : Dom) p : isDiss p = false -> isNonAxi p = false -> smooth D p ->
  exists c, MovingObject oR ophi oz p = Some c /\ forall amp, smooth (EMO oR ophi oz D) (Single amp c).
Proof.
  intros Hd Hn Hs. usesm Hs. unfold MovingObject. change novel with v0. rewrite Hd, Hn, E1, E3, E4, E5. eexists. split; [reflexivity|].
  intros amp. set (xd := mo_xd oR ophi). set (yd := mo_yd oR ophi). set (d := mo_d oR ophi).
  set (m := mo_at oR ophi oz). set (E := EMO oR ophi oz D).
  assert (Hpos : forall R z phi t, E R z phi t -> 0 < d R phi t).
  { intros R z phi t (Hp & _). unfold d. rewrite mo_d_eq. apply sqrt_lt_R0; auto. }
  assert (Hsq : forall R z phi t, E R z phi t -> xd R phi t ^ 2 + yd R phi t ^ 2 = d R phi t ^ 2).
  { intros R z phi t (Hp & _). unfold d. rewrite mo_d_eq, sqrt_sq_eq by lra. reflexivity. }
  set (Gx := fun R z phi t => - m (apiRf p v0) R z phi t * xd R phi t / d R phi t).
  set (Gy := fun R z phi t => - m (apiRf p v0) R z phi t * yd R phi t / d R phi t).
  set (Gz := fun R z phi t => - m (apizf p v0) R z phi t).
  set (RF := m (apiRf p v0)).
  set (Hxx := fun R z phi t => m P2R R z phi t * xd R phi t ^ 2 / d R phi t ^ 2 - RF R z phi t * yd R phi t ^ 2 / d R phi t ^ 3).
  set (Hyy := fun R z phi t => m P2R R z phi t * yd R phi t ^ 2 / d R phi t ^ 2 - RF R z phi t * xd R phi t ^ 2 / d R phi t ^ 3).
  set (Hxy := fun R z phi t => (m P2R R z phi t + RF R z phi t / d R phi t) * xd R phi t * yd R phi t / d R phi t ^ 2).
  set (Hxz := fun R z phi t => m PRz R z phi t * xd R phi t / d R phi t).
  set (Hyz := fun R z phi t => m PRz R z phi t * yd R phi t / d R phi t).
  assert (B0 : cdw E (m Phi) (neg Gx) (neg Gy) (neg Gz)).
  { eapply cdw_ext with (k := 1); [| | | |apply (mo_cdw oR ophi oz D _ _ _ _ H1)]; intros R z phi t;
      unfold neg, mul4, ux, uy, Gx, Gy, Gz; fold xd yd d m; intros; unfold m, mo_at; field.
    - apply Rgt_not_eq, (Hpos _ z); auto.
    - apply Rgt_not_eq, (Hpos _ z); auto. }
  assert (Bm : cdw E (m (neg (apiRf p v0))) (fun R z phi t => - (m P2R R z phi t * (xd R phi t / d R phi t))) (fun R z phi t => - (m P2R R z phi t * (yd R phi t / d R phi t))) (fun R z phi t => - m PRz R z phi t)).
  { exact (mo_cdw oR ophi oz D _ _ _ _ H2). }
  assert (B1 : cdw E (neg Gx) Hxx Hxy Hxz).
  { eapply cdw_ext with (k := -1); [| | | |apply (cdw_mul E _ _ _ _ _ _ _ _ Bm (ux_cdw oR ophi oz D))]; intros R z phi t;
      unfold neg, mul4, ux, Gx, Hxx, Hxy, Hxz, RF; fold xd yd d m; intros; unfold m, mo_at, zero4; try (unfold Rdiv; ring); field; apply Rgt_not_eq, (Hpos _ z); auto. }
  assert (B2 : cdw E (neg Gy) Hxy Hyy Hyz).
  { eapply cdw_ext with (k := -1); [| | | |apply (cdw_mul E _ _ _ _ _ _ _ _ Bm (uy_cdw oR ophi oz D))]; intros R z phi t;
      unfold neg, mul4, uy, Gy, Hyy, Hxy, Hyz, RF; fold xd yd d m; intros; unfold m, mo_at, zero4; try (unfold Rdiv; ring); field; apply Rgt_not_eq, (Hpos _ z); auto. }
  assert (B3 : cdw E (neg Gz) Hxz Hyz (m P2z)).
  { eapply cdw_ext with (k := -1); [| | | |apply (mo_cdw oR ophi oz D _ _ _ _ H3)]; intros R z phi t;
      unfold neg, mul4, ux, uy, Gz, Hxz, Hyz; fold xd yd d m; intros; unfold m, mo_at; try (unfold Rdiv; ring); field; apply Rgt_not_eq, (Hpos _ z); auto. }
  eapply single_smooth; simpl; try reflexivity; try (left; reflexivity).
  - eapply dw_ext with (k := 1); [| | | |apply (cart_0 E _ _ _ _ B0)]; intros; unfold neg, cyR, cyP, Gx, Gy, Gz; try subst RF; unfold xd, yd, d, m; unfold Rdiv; first [ring|idtac "X"].
  - eapply dw_ext with (k := 1); [| | | |exact (cart_1 E _ _ _ _ _ _ _ B1 B2)]; intros; unfold neg, cyR, cyP, k_R2, k_Rz, k_Rp, Gx, Gy, Hxx, Hyy, Hxy, Hxz, Hyz, RF; try subst RF; unfold xd, yd, d, m; unfold Rdiv; first [ring|idtac "X"].
  - eapply dw_ext with (k := 1); [| | | |apply (cart_2 E _ _ _ _ B3)]; intros; unfold neg, Gz, k_Rz, k_pz, Hxz, Hyz; try subst RF; unfold xd, yd, d, m; unfold Rdiv; first [ring|idtac "X"].
  - eapply dw_ext with (k := 1); [| | | |exact (cart_3 E _ _ _ _ _ _ _ B1 B2)]; intros; unfold neg, cyR, cyP, k_p2, k_pz, k_Rp, Gx, Gy, Hxx, Hyy, Hxy, Hxz, Hyz, RF; try subst RF; unfold xd, yd, d, m; unfold Rdiv; first [ring|idtac "X"].
Qed.
