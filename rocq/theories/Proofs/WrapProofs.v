(** Wrappers preserve differentiability and exactness of the derivatives. *)
From Coq Require Import Reals Lra Psatz List Bool.
From Coquelicot Require Import Coquelicot.
From Verif.Lib Require Import RealAux Atan2 Vec3.
From Verif.Model Require Import PotAPI Coords Wrappers.
From Verif.Spec Require Import PotSpec PotApiSpec SmoothSpec.
From Verif.Proofs Require Import AxiProofs PotLift SmoothProofs.
Import ListNotations.
Open Scope R_scope.
Notation RR := RbaseSymbolsImpl.R (only parsing).

(** ** From class level to the API *)
Definition slot (c : PotC) (m : option F4) (F : F4) : Prop :=
  m = Some F \/ (m = None /\ nonaxi c = false /\ F = zero4).
Lemma slot_dflt c m F amp : slot c m F -> exists G, dflt (nonaxi c) amp m = Some G /\ forall R z phi t, G R z phi t = amp * F R z phi t.
Proof.
  intros [->|(-> & E & ->)]; unfold dflt.
  - exists (scale4 amp F). split; auto.
  - rewrite E. exists zero4. split; auto. intros; unfold zero4; symmetry; apply Rmult_0_r.
Qed.
Lemma dw_ext (D : Dom) F G FR Fz Fp GR Gz Gp k :
  (forall R z phi t, G R z phi t = k * F R z phi t) -> (forall R z phi t, GR R z phi t = k * FR R z phi t) ->
  (forall R z phi t, Gz R z phi t = k * Fz R z phi t) -> (forall R z phi t, Gp R z phi t = k * Fp R z phi t) ->
  differentiable_with D F FR Fz Fp -> differentiable_with D G GR Gz Gp.
Proof.
  intros E E1 E2 E3 H t r h p s dR dz dp HD D1 D2 D3.
  eapply is_derive_ext; [intros u; symmetry; apply E|]. rewrite E1, E2, E3.
  eapply is_derive_eq. apply is_derive_scal, (H t r h p s dR dz dp); auto. toR; ring.
Qed.
Lemma single_smooth (D : Dom) amp c Pt P2R P2z PRz P2p PRp Ppz :
  slot c (c_pt c) Pt -> c_R2 c = Some P2R -> c_z2 c = Some P2z -> c_Rz c = Some PRz ->
  slot c (c_p2 c) P2p -> slot c (c_Rp c) PRp -> slot c (c_pz c) Ppz ->
  differentiable_with D (c_ev c) (neg (c_Rf c)) (neg (c_zf c)) (neg Pt) ->
  differentiable_with D (neg (c_Rf c)) P2R PRz PRp ->
  differentiable_with D (neg (c_zf c)) PRz P2z Ppz ->
  differentiable_with D (neg Pt) PRp Ppz P2p ->
  smooth D (Single amp c).
Proof.
  intros S1 E2 E3 E4 S5 S6 S7 H1 H2 H3 H4.
  destruct (slot_dflt c _ _ amp S1) as (Pt' & A1 & B1).
  destruct (slot_dflt c _ _ amp S5) as (P2p' & A5 & B5).
  destruct (slot_dflt c _ _ amp S6) as (PRp' & A6 & B6).
  destruct (slot_dflt c _ _ amp S7) as (Ppz' & A7 & B7).
  exists (scale4 amp (c_ev c)), Pt', (scale4 amp P2R), (scale4 amp P2z), (scale4 amp PRz), P2p', PRp', Ppz'.
  split; unfold apiR2, apiz2, apiRz, apip2, apiRp, apipz; cbn [apiEv apiPt api2];
    [reflexivity|exact A1|rewrite E2; reflexivity|rewrite E3; reflexivity|rewrite E4; reflexivity|exact A5|exact A6|exact A7|..];
    [eapply dw_ext with (k := amp); [| | | |exact H1]|eapply dw_ext with (k := amp); [| | | |exact H2]
    |eapply dw_ext with (k := amp); [| | | |exact H3]|eapply dw_ext with (k := amp); [| | | |exact H4]];
    intros; cbn [apiRf apizf apiPt]; unfold neg, scale4; rewrite ?B1, ?B5, ?B6, ?B7; ring.
Qed.

Ltac usesm H := destruct H as (Phi & Fp & P2R & P2z & PRz & P2p & PRp & Ppz & [E1 E2 E3 E4 E5 E6 E7 E8 H1 H2 H3 H4]).

(** ** Amplitudes that depend on time *)
Lemma amplitude_smooth A (D : Dom) p : isDiss p = false -> smooth D p ->
  exists c, TimeDependentAmplitude A p = Some c /\ forall amp, smooth D (Single amp c).
Proof.
  intros Hd Hs. usesm Hs. unfold TimeDependentAmplitude, wrapAll. rewrite Hd, E1. eexists. split; [reflexivity|].
  intros amp. change (apiPt p novel) with (apiPt p v0). rewrite E2, E3, E4, E5, E6, E7, E8. simpl option_map.
  change novel with v0.
  assert (G : forall F FR Fz Fq, differentiable_with D F FR Fz Fq ->
    differentiable_with D (amplitude A F) (amplitude A FR) (amplitude A Fz) (amplitude A Fq)).
  { intros F FR Fz Fq H t r h q s dR dz dp HD D1 D2 D3. unfold amplitude. eapply is_derive_eq.
    apply is_derive_scal, (H t r h q s dR dz dp); auto. toR; ring. }
  assert (N : forall F R z phi t, neg (amplitude A F) R z phi t = 1 * amplitude A (neg F) R z phi t)
    by (intros; unfold neg, amplitude; ring).
  assert (I : forall F R z phi t, amplitude A F R z phi t = 1 * amplitude A F R z phi t) by (intros; ring).
  eapply single_smooth; simpl; try reflexivity; try (left; reflexivity).
  - eapply dw_ext; [| | | |apply (G _ _ _ _ H1)]; first [apply N|apply I].
  - eapply dw_ext; [| | | |apply (G _ _ _ _ H2)]; first [apply N|apply I].
  - eapply dw_ext; [| | | |apply (G _ _ _ _ H3)]; first [apply N|apply I].
  - eapply dw_ext; [| | | |apply (G _ _ _ _ H4)]; first [apply N|apply I].
Qed.

(** ** Solid-body rotation *)
Lemma solid_smooth omega pa (D : Dom) p : isDiss p = false -> smooth D p ->
  exists c, SolidBodyRotation omega pa p = Some c /\
    forall amp, smooth (fun R z phi t => D R z (phi - omega * t - pa) t) (Single amp c).
Proof.
  intros Hd Hs. usesm Hs. unfold SolidBodyRotation, wrapAll. rewrite Hd, E1. eexists. split; [reflexivity|].
  intros amp. change novel with v0. rewrite E2, E3, E4, E5, E6, E7, E8. simpl option_map.
  set (g := fun (f : F4) (R z phi t : RR) => f R z (solid_phi omega pa phi t) t).
  assert (G : forall F FR Fz Fq, differentiable_with D F FR Fz Fq ->
    differentiable_with (fun R z phi t => D R z (phi - omega * t - pa) t) (g F) (g FR) (g Fz) (g Fq)).
  { intros F FR Fz Fq H t r h q s dR dz dp HD D1 D2 D3. unfold g, solid_phi.
    apply (H t r h (fun u => q u - omega * t - pa) s dR dz dp); auto.
    eapply is_derive_ext with (f := fun u => q u + (- omega * t - pa)). intros; toR; ring.
    eapply is_derive_eq. apply is_derive_Rplus; [exact D3|apply is_derive_cst]. toR; ring. }
  eapply single_smooth; simpl; try reflexivity; try (left; reflexivity).
  - exact (G _ _ _ _ H1).
  - exact (G _ _ _ _ H2).
  - exact (G _ _ _ _ H3).
  - exact (G _ _ _ _ H4).
Qed.

(** ** Corotating rotation *)
Lemma corot_smooth vpo beta to_ pa (D : Dom) p : isDiss p = false -> smooth D p ->
  exists c, CorotatingRotation vpo beta to_ pa p = Some c /\
    forall amp, smooth (fun R z phi t => 0 < R /\ D R z (co_phi vpo beta to_ pa R phi t) t) (Single amp c).
Proof.
  intros Hd Hs. usesm Hs. unfold CorotatingRotation. change novel with v0. rewrite Hd, E1, E2. eexists. split; [reflexivity|].
  intros amp. rewrite E3, E4, E5, E6, E7, E8. simpl option_map.
  set (E := fun R z phi t => 0 < R /\ D R z (co_phi vpo beta to_ pa R phi t) t).
  set (g := co_f vpo beta to_ pa).
  set (k := fun R t => vpo * (beta - 1) * rpow R (beta - 2) * (t - to_)).
  assert (G : forall F FR Fz Fq, differentiable_with D F FR Fz Fq ->
    differentiable_with E (g F) (fun R z phi t => g FR R z phi t - k R t * g Fq R z phi t) (g Fz) (g Fq)).
  { intros F FR Fz Fq H t r h q s dR dz dp [Hr HD] D1 D2 D3. unfold g, co_f.
    assert (D4 : is_derive (fun u => co_phi vpo beta to_ pa (r u) (q u) t) s (dp - k (r s) t * dR)).
    { unfold co_phi, k. 
      eapply is_derive_ext with (f := fun u => q u + (- vpo * (t - to_)) * rpow (r u) (beta - 1) + - pa). intros; toR; ring.
      eapply is_derive_eq. apply is_derive_Rplus; [apply is_derive_Rplus; [exact D3|apply is_derive_scal; apply (is_derive_rpow r (beta - 1) s dR Hr D1)]|apply is_derive_cst].
      replace (beta - 1 - 1) with (beta - 2) by ring. toR; ring. }
    eapply is_derive_eq. apply (H t r h _ s dR dz _ HD D1 D2 D4). unfold g, co_f. toR; ring. }
  assert (K : forall t (r : RR -> RR) s (dR : RR), 0 < r s -> is_derive r s dR -> is_derive (fun u => k (r u) t) s (vpo * (beta - 1) * (beta - 2) * rpow (r s) (beta - 3) * (t - to_) * dR)).
  { intros t r s dR Hr D1. unfold k.
    eapply is_derive_ext with (f := fun u => (vpo * (beta - 1) * (t - to_)) * rpow (r u) (beta - 2)). intros; toR; ring.
    eapply is_derive_eq. apply is_derive_scal. apply (is_derive_rpow r (beta - 2) s dR Hr D1). replace (beta - 2 - 1) with (beta - 3) by ring. toR; ring. }
  eapply single_smooth; simpl; try reflexivity; try (left; reflexivity).
  - eapply dw_ext with (k := 1); [| | | |apply (G _ _ _ _ H1)]; intros; unfold neg, co_Rf, g, co_f, k; ring.
  - intros t r h q s dR dz dp [Hr HD] D1 D2 D3. unfold neg, co_Rf, co_R2, co_Rz, co_Rp. fold g.
    pose proof (G _ _ _ _ H2 t r h q s dR dz dp (conj Hr HD) D1 D2 D3) as A1.
    pose proof (G _ _ _ _ H4 t r h q s dR dz dp (conj Hr HD) D1 D2 D3) as A2.
    pose proof (K t r s dR Hr D1) as A3.
    eapply is_derive_ext with (f := fun u => g (neg (apiRf p v0)) (r u) (h u) (q u) t + (- k (r u) t) * g (neg Fp) (r u) (h u) (q u) t).
    { intros u. unfold g, co_f, neg, k. toR. ring. }
    eapply is_derive_eq. apply is_derive_Rplus; [exact A1|]. apply is_derive_Rmult; [|exact A2]. apply (is_derive_opp (V := R_NormedModule)); exact A3.
    unfold opp; simpl. unfold neg, k, g, co_f. toR. ring.
  - eapply dw_ext with (k := 1); [| | | |apply (G _ _ _ _ H3)]; intros; unfold neg, co_Rz, g, co_f, k; ring.
  - eapply dw_ext with (k := 1); [| | | |apply (G _ _ _ _ H4)]; intros; unfold neg, co_Rp, g, co_f, k; ring.
Qed.

(** ** Objects without azimuthal dependence: Kuzmin-like and cylindrically separable *)
Lemma phi_free_dp (D : Dom) F FR Fz Fq R z phi t : phi_free F -> differentiable_with D F FR Fz Fq -> D R z phi t -> Fq R z phi t = 0.
Proof.
  intros Hf Hd HD. pose proof (dw_dp _ _ _ _ _ _ _ _ _ Hd HD) as A.
  apply is_derive_unique in A. rewrite <- A. toR.
  rewrite (Derive_ext _ (fun _ => F R z phi t)); [apply Derive_const|]. intros x. apply Hf.
Qed.
Lemma neg_free F : phi_free F -> phi_free (neg F).
Proof. intros H R z p q t. unfold neg. f_equal. apply H. Qed.

Lemma kl_xi_d a b (r h : RR -> RR) s (dr dh : RR) : 0 < h s ^ 2 + b ^ 2 -> 0 < r s ^ 2 + (a + sqrt (h s ^ 2 + b ^ 2)) ^ 2 ->
  is_derive r s dr -> is_derive h s dh ->
  is_derive (fun u => kl_xi a b (r u) (h u)) s (kl_dxidR a b (r s) (h s) * dr + kl_dxidz a b (r s) (h s) * dh).
Proof.
  intros H1 H2 D1 D2. unfold kl_xi, kl_dxidR, kl_dxidz, kl_xi, kl_b2.
  auto_derive.
  - repeat split; auto; eexists; eauto.
  - pose proof (sqrt_lt_R0 _ H1) as Q1. pose proof (sqrt_lt_R0 _ H2) as Q2. 
    derw. replace (h s ^ 2 + b * (b * 1)) with (h s ^ 2 + b ^ 2) by ring.
    set (w := sqrt (h s ^ 2 + b ^ 2)) in *. set (v := sqrt (r s ^ 2 + (a + w) ^ 2)) in *. field. lra.
Qed.
Lemma kl_dxidR_d a b (r h : RR -> RR) s (dr dh : RR) : 0 < h s ^ 2 + b ^ 2 -> 0 < r s ^ 2 + (a + sqrt (h s ^ 2 + b ^ 2)) ^ 2 ->
  is_derive r s dr -> is_derive h s dh ->
  is_derive (fun u => kl_dxidR a b (r u) (h u)) s (kl_d2xidR2 a b (r s) (h s) * dr + kl_d2xidRdz a b (r s) (h s) * dh).
Proof.
  intros H1 H2 D1 D2. pose proof (sqrt_lt_R0 _ H1) as Q1. pose proof (sqrt_lt_R0 _ H2) as Q2.
  unfold kl_d2xidR2, kl_d2xidRdz, kl_dxidR, kl_xi, kl_b2.
  auto_derive.
  - repeat split; auto; try (eexists; eauto). apply Rgt_not_eq; auto.
  - derw. rewrite !(Rplus_comm (b ^ 2)), (Rplus_comm ((a + sqrt (h s ^ 2 + b ^ 2)) ^ 2)).
    rewrite rpow_3_2 by auto.
    pose proof (sqrt_sq_eq _ (Rlt_le _ _ H2)) as Eq.
    set (w := sqrt (h s ^ 2 + b ^ 2)) in *. set (v := sqrt (r s ^ 2 + (a + w) ^ 2)) in *.
    assert (Er : (a + w) ^ 2 = v ^ 2 - r s ^ 2) by lra. rewrite Er. field. lra.
Qed.
Lemma kl_dxidz_d a b (r h : RR -> RR) s (dr dh : RR) : 0 < h s ^ 2 + b ^ 2 -> 0 < r s ^ 2 + (a + sqrt (h s ^ 2 + b ^ 2)) ^ 2 ->
  is_derive r s dr -> is_derive h s dh ->
  is_derive (fun u => kl_dxidz a b (r u) (h u)) s (kl_d2xidRdz a b (r s) (h s) * dr + kl_d2xidz2 a b (r s) (h s) * dh).
Proof.
  intros H1 H2 D1 D2. pose proof (sqrt_lt_R0 _ H1) as Q1. pose proof (sqrt_lt_R0 _ H2) as Q2.
  unfold kl_d2xidz2, kl_d2xidRdz, kl_dxidz, kl_xi, kl_b2.
  auto_derive.
  - repeat split; auto; try (eexists; eauto); apply Rgt_not_eq; auto.
  - derw. rewrite !(Rplus_comm (b ^ 2) (h s ^ 2)), (Rplus_comm ((a + sqrt (h s ^ 2 + b ^ 2)) ^ 2)).
    rewrite !rpow_3_2 by auto.
    pose proof (sqrt_sq_eq _ (Rlt_le _ _ H2)) as Eq. pose proof (sqrt_sq_eq _ (Rlt_le _ _ H1)) as Ew.
    set (w := sqrt (h s ^ 2 + b ^ 2)) in *. set (v := sqrt (r s ^ 2 + (a + w) ^ 2)) in *.
    assert (Eb : b ^ 2 = w ^ 2 - h s ^ 2) by lra. rewrite Eb.
    assert (Er : r s ^ 2 = v ^ 2 - (a + w) ^ 2) by lra. rewrite Er. field. lra.
Qed.

Lemma kuzmin_smooth a b (D : Dom) p : isDiss p = false -> isNonAxi p = false -> phi_independent p -> smooth D p ->
  exists c, KuzminLike a b 1 p = Some c /\
    forall amp, smooth (fun R z phi t => 0 < z ^ 2 + b ^ 2 /\ 0 < R ^ 2 + (a + sqrt (z ^ 2 + b ^ 2)) ^ 2 /\ D (kl_xi a b R z) 0 phi t) (Single amp c).
Proof.
  intros Hd Hn (Phi' & EP & PF1 & PF2 & PF3) Hs. usesm Hs. rewrite E1 in EP. inversion EP; subst Phi'.
  unfold KuzminLike. change novel with v0. rewrite Hd, Hn, E1. eexists. split; [reflexivity|].
  intros amp. rewrite E3. simpl option_map.
  set (E := fun R z phi t => _ /\ _ /\ D (kl_xi a b R z) 0 phi t).
  set (g := fun (f : F4) (R z phi t : RR) => f (kl_xi a b R z) 0 phi t).
  assert (G : forall F FR Fz Fq, phi_free F -> differentiable_with D F FR Fz Fq ->
    differentiable_with E (g F) (fun R z phi t => g FR R z phi t * kl_dxidR a b R z) (fun R z phi t => g FR R z phi t * kl_dxidz a b R z) zero4).
  { intros F FR Fz Fq PF H t r h q s dR dz dp (Hb & Hx & HD) D1 D2 D3. unfold g.
    eapply is_derive_eq. apply (H t (fun u => kl_xi a b (r u) (h u)) (fun _ => 0) q s _ 0 dp HD (kl_xi_d a b r h s dR dz Hb Hx D1 D2) (is_derive_cst _ _) D3).
    cbv beta. rewrite (phi_free_dp D _ _ _ _ _ _ _ _ PF H HD). unfold zero4. toR; ring. }
  eapply single_smooth; simpl; try reflexivity; try (left; reflexivity); try (right; repeat split; reflexivity).
  - eapply dw_ext with (k := 1); [| | | |apply (G _ _ _ _ PF1 H1)]; intros; unfold neg, g, zero4; ring.
  - intros t r h q s dR dz dp HE D1 D2 D3. pose proof HE as (Hb & Hx & HD). unfold neg.
    pose proof (G _ _ _ _ (neg_free _ PF2) H2 t r h q s dR dz dp HE D1 D2 D3) as A1.
    pose proof (kl_dxidR_d a b r h s dR dz Hb Hx D1 D2) as A2.
    eapply is_derive_ext with (f := fun u => g (neg (apiRf p v0)) (r u) (h u) (q u) t * kl_dxidR a b (r u) (h u)).
    { intros u. unfold g, neg. toR; ring. }
    eapply is_derive_eq. apply is_derive_Rmult; [exact A1|exact A2]. unfold g, neg, zero4. toR; ring.
  - intros t r h q s dR dz dp HE D1 D2 D3. pose proof HE as (Hb & Hx & HD). unfold neg.
    pose proof (G _ _ _ _ (neg_free _ PF2) H2 t r h q s dR dz dp HE D1 D2 D3) as A1.
    pose proof (kl_dxidz_d a b r h s dR dz Hb Hx D1 D2) as A2.
    eapply is_derive_ext with (f := fun u => g (neg (apiRf p v0)) (r u) (h u) (q u) t * kl_dxidz a b (r u) (h u)).
    { intros u. unfold g, neg. toR; ring. }
    eapply is_derive_eq. apply is_derive_Rmult; [exact A1|exact A2]. unfold g, neg, zero4. toR; ring.
  - intros t r h q s dR dz dp HE D1 D2 D3. unfold neg, zero4.
    eapply is_derive_eq. apply is_derive_cst. unfold zero. simpl. toR; ring.
Qed.

Lemma cylsep_smooth Rp (D : Dom) p : isDiss p = false -> isNonAxi p = false -> smooth D p ->
  exists c, CylSeparable Rp p = Some c /\
    forall amp, smooth (fun R z phi t => D R 0 0 0 /\ D Rp z 0 0) (Single amp c).
Proof.
  intros Hd Hn Hs. usesm Hs. unfold CylSeparable. change novel with v0. rewrite Hd, Hn, E1. eexists. split; [reflexivity|].
  intros amp. rewrite E3, E4. simpl option_map.
  eapply single_smooth; simpl; try reflexivity; try (right; repeat split; reflexivity).
  - intros t r h q s dR dz dp (HA & HB) D1 D2 D3.
    pose proof (H1 0 r (fun _ => 0) (fun _ => 0) s dR 0 0 HA D1 (is_derive_cst _ _) (is_derive_cst _ _)) as A1.
    pose proof (H1 0 (fun _ => Rp) h (fun _ => 0) s 0 dz 0 HB (is_derive_cst _ _) D2 (is_derive_cst _ _)) as A2.
    eapply is_derive_ext with (f := fun u => Phi (r u) 0 0 0 + Phi Rp (h u) 0 0 + - Phi Rp 0 0 0). intros; toR; ring.
    eapply is_derive_eq. apply is_derive_Rplus; [apply is_derive_Rplus; [exact A1|exact A2]|apply is_derive_cst].
    unfold neg, zero4, zero; simpl. toR; ring.
  - intros t r h q s dR dz dp (HA & HB) D1 D2 D3.
    eapply is_derive_eq. apply (H2 0 r (fun _ => 0) (fun _ => 0) s dR 0 0 HA D1 (is_derive_cst _ _) (is_derive_cst _ _)).
    unfold neg, zero4; toR; ring.
  - intros t r h q s dR dz dp (HA & HB) D1 D2 D3.
    eapply is_derive_eq. apply (H3 0 (fun _ => Rp) h (fun _ => 0) s 0 dz 0 HB (is_derive_cst _ _) D2 (is_derive_cst _ _)).
    unfold neg, zero4; toR; ring.
  - intros t r h q s dR dz dp HE D1 D2 D3. unfold neg, zero4.
    eapply is_derive_eq. apply is_derive_cst. unfold zero. simpl. toR; ring.
Qed.

(** ** Cartesian differentiability *)
Definition cdw (E : Dom) (F Fx Fy Fz : Fun4) : Prop :=
  forall t (r h q : RR -> RR) s (dr dz dp : RR), E (r s) (h s) (q s) t ->
    is_derive r s dr -> is_derive h s dz -> is_derive q s dp ->
    is_derive (fun u => F (r u) (h u) (q u) t) s
      (Fx (r s) (h s) (q s) t * (dr * cos (q s) - r s * sin (q s) * dp)
       + Fy (r s) (h s) (q s) t * (dr * sin (q s) + r s * cos (q s) * dp)
       + Fz (r s) (h s) (q s) t * dz).
Definition cyR (Fx Fy : Fun4) : Fun4 := fun R z phi t => cos phi * Fx R z phi t + sin phi * Fy R z phi t.
Definition cyP (Fx Fy : Fun4) : Fun4 := fun R z phi t => R * (- sin phi * Fx R z phi t + cos phi * Fy R z phi t).

Section Cart.
  Variables (E : Dom) (Phi Gx Gy Gz Hxx Hyy Hzz Hxy Hxz Hyz : Fun4).
  Hypothesis C0 : cdw E Phi (neg Gx) (neg Gy) (neg Gz).
  Hypothesis C1 : cdw E (neg Gx) Hxx Hxy Hxz.
  Hypothesis C2 : cdw E (neg Gy) Hxy Hyy Hyz.
  Hypothesis C3 : cdw E (neg Gz) Hxz Hyz Hzz.
  Definition k_R2 : Fun4 := fun R z phi t => cos phi ^ 2 * Hxx R z phi t + sin phi ^ 2 * Hyy R z phi t + 2 * cos phi * sin phi * Hxy R z phi t.
  Definition k_Rz : Fun4 := fun R z phi t => cos phi * Hxz R z phi t + sin phi * Hyz R z phi t.
  Definition k_p2 : Fun4 := fun R z phi t =>
    R ^ 2 * (sin phi ^ 2 * Hxx R z phi t + cos phi ^ 2 * Hyy R z phi t - 2 * cos phi * sin phi * Hxy R z phi t)
    + R * (cos phi * Gx R z phi t + sin phi * Gy R z phi t).
  Definition k_Rp : Fun4 := fun R z phi t =>
    R * cos phi * sin phi * (Hyy R z phi t - Hxx R z phi t) + R * (cos phi ^ 2 - sin phi ^ 2) * Hxy R z phi t
    + sin phi * Gx R z phi t - cos phi * Gy R z phi t.
  Definition k_pz : Fun4 := fun R z phi t => R * (cos phi * Hyz R z phi t - sin phi * Hxz R z phi t).
  Lemma cart_0 : differentiable_with E Phi (neg (cyR Gx Gy)) (neg Gz) (neg (cyP Gx Gy)).
  Proof.
    intros t r h q s dr dz dp HE D1 D2 D3. eapply is_derive_eq. apply (C0 t r h q s dr dz dp); auto.
    unfold neg, cyR, cyP. toR; ring.
  Qed.
  Lemma cart_1 : differentiable_with E (neg (cyR Gx Gy)) k_R2 k_Rz k_Rp.
  Proof.
    intros t r h q s dr dz dp HE D1 D2 D3. unfold neg, cyR.
    pose proof (C1 t r h q s dr dz dp HE D1 D2 D3) as A1. pose proof (C2 t r h q s dr dz dp HE D1 D2 D3) as A2.
    pose proof (is_derive_Rchain cos q s _ _ (is_derive_cos _) D3) as Ac.
    pose proof (is_derive_Rchain sin q s _ _ (is_derive_sin _) D3) as As.
    eapply is_derive_ext with (f := fun u => cos (q u) * neg Gx (r u) (h u) (q u) t + sin (q u) * neg Gy (r u) (h u) (q u) t).
    { intros; unfold neg; toR; ring. }
    eapply is_derive_eq. apply is_derive_Rplus; apply is_derive_Rmult; [exact Ac|exact A1|exact As|exact A2].
    unfold neg, k_R2, k_Rz, k_Rp. toR; ring.
  Qed.
  Lemma cart_2 : differentiable_with E (neg Gz) k_Rz Hzz k_pz.
  Proof.
    intros t r h q s dr dz dp HE D1 D2 D3. eapply is_derive_eq. apply (C3 t r h q s dr dz dp); auto.
    unfold k_Rz, k_pz. toR; ring.
  Qed.
  Lemma cart_3 : differentiable_with E (neg (cyP Gx Gy)) k_Rp k_pz k_p2.
  Proof.
    intros t r h q s dr dz dp HE D1 D2 D3. unfold neg, cyP.
    pose proof (C1 t r h q s dr dz dp HE D1 D2 D3) as A1. pose proof (C2 t r h q s dr dz dp HE D1 D2 D3) as A2.
    pose proof (is_derive_Rchain cos q s _ _ (is_derive_cos _) D3) as Ac.
    pose proof (is_derive_Rchain (fun x => - sin x) q s _ _ (is_derive_opp (V := R_NormedModule) _ _ _ (is_derive_sin _)) D3) as As.
    eapply is_derive_ext with (f := fun u => r u * (- sin (q u) * neg Gx (r u) (h u) (q u) t + cos (q u) * neg Gy (r u) (h u) (q u) t)).
    { intros; unfold neg; toR; ring. }
    eapply is_derive_eq. apply is_derive_Rmult; [exact D1|]. apply is_derive_Rplus; apply is_derive_Rmult; [exact As|exact A1|exact Ac|exact A2].
    unfold neg, k_p2, k_pz, k_Rp, opp; simpl. toR; ring.
  Qed.
End Cart.
