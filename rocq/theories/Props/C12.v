(** C12: tidal tensor, circular velocity and frequencies. *)
From Coq Require Import Reals List Lra Bool.
From Coquelicot Require Import Coquelicot.
From Verif.Lib Require Import RealAux Atan2.
From Verif.Model Require Import PotAPI PotAxi PotNonAxi Reduce Derived.
From Verif.Spec Require Import PotSpec PotApiSpec SuperSpec SmoothSpec Catalog ReduceSpec DerivedSpec.
From Verif.Proofs Require Import PotLift SmoothProofs SmoothCatalog CatalogProofs ReduceProofs DerivedProofs.
From Verif.Props Require Import C01.
Import ListNotations.
Open Scope R_scope.
Notation RR := RbaseSymbolsImpl.R (only parsing).

(** ttensor is minus the matrix of second Cartesian derivatives of the potential, at the point with cylindrical coordinates (R, z, phi). *)
Theorem C12_tidal_tensor : forall (D : Dom) p (R z phi t : RR),
  smooth D p -> phi_independent p -> isNonAxi p = false -> isDiss p = false -> slice_open D -> round D -> D R z phi t -> 0 < R ->
  exists Phi T, apiEv p = Some Phi /\ ttensor p R z phi t = TVal T /\
    forall i j, is_second_partial (cartesian Phi t) i j (R * cos phi, R * sin phi, z) (- entry T i j).
Proof.
  intros D p R z phi t (Phi & Fphi & P2R & P2z & PRz & P2p & PRp & Ppz & S) (Phi' & E' & F1 & F2 & F3) NA ND O Rd HD HR.
  rewrite (sm_ev _ _ _ _ _ _ _ _ _ _ S) in E'. injection E' as <-.
  destruct (second_free D p t _ _ _ _ _ _ _ _ R z phi S F2 F3 Rd HD) as (G1 & G2 & G3).
  destruct (ttensor_value D p t _ _ _ _ _ _ _ _ R z phi S F1 F2 F3 O Rd NA ND HD HR G1 G2 G3) as (T & ET & _ & HT).
  exists Phi, T. split; [exact (sm_ev _ _ _ _ _ _ _ _ _ _ S)|]. split; [exact ET|]. intros i j. rewrite HT, Ropp_involutive.
  apply (second_ok D p t _ _ _ _ _ _ _ _ S F1 O).
  assert (W : sqrt ((R * cos phi) ^ 2 + (R * sin phi) ^ 2) = R) by (rewrite polar_norm, Rabs_right; lra).
  split; [|rewrite W; exact (Rd _ _ _ 0 _ HD)].
  replace ((R * cos phi) ^ 2 + (R * sin phi) ^ 2) with (R ^ 2 * ((sin phi)² + (cos phi)²)) by (unfold Rsqr; ring). rewrite sin2_cos2. nra.
Qed.
Print Assumptions C12_tidal_tensor.

(** It is a symmetric 3 by 3 matrix whose trace is minus 4 pi times the density. *)
Theorem C12_tidal_symmetric_trace : forall (D : Dom) p (R z phi t : RR),
  smooth D p -> phi_independent p -> density_is_source D p -> isNonAxi p = false -> isDiss p = false -> slice_open D -> round D -> D R z phi t -> 0 < R ->
  exists dens T, apiDens p = Some dens /\ ttensor p R z phi t = TVal T /\
    (exists r1 r2 r3, T = [r1; r2; r3] /\ length r1 = 3%nat /\ length r2 = 3%nat /\ length r3 = 3%nat) /\
    (forall i j, entry T i j = entry T j i) /\
    entry T DX DX + entry T DY DY + entry T DZ DZ = - (4 * PI * dens R z phi t).
Proof.
  intros D p R z phi t SM (Phi' & E' & F1 & F2 & F3) (Phi2 & dens & EP & Ed & Hd) NA ND O Rd HD HR.
  pose proof (smooth_forces D p SM) as A1. pose proof (smooth_hessian D p SM) as A2. pose proof (smooth_azimuthal D p SM) as A3.
  destruct (poisson_density D p O A1 A2 A3) as (Phi3 & dP & EP3 & EdP & HdP).
  destruct SM as (Phi & Fphi & P2R & P2z & PRz & P2p & PRp & Ppz & S).
  rewrite EP in EP3. injection EP3 as <-.
  pose proof (laplacian_unique Phi2 R z phi t _ _ (Hd R z phi t HD HR) (HdP R z phi t HD HR)) as LU.
  rewrite (sm_ev _ _ _ _ _ _ _ _ _ _ S) in E'. injection E' as <-.
  destruct (second_free D p t _ _ _ _ _ _ _ _ R z phi S F2 F3 Rd HD) as (G1 & G2 & G3).
  destruct (ttensor_value D p t _ _ _ _ _ _ _ _ R z phi S F1 F2 F3 O Rd NA ND HD HR G1 G2 G3) as (T & ET & L & HT).
  exists dens, T. split; [exact Ed|]. split; [exact ET|]. split; [exact L|]. split.
  - intros i j. rewrite !HT. destruct i, j; reflexivity.
  - rewrite LU. rewrite !HT. unfold apiDensPoisson, poisson in EdP.
    rewrite (sm_R2 _ _ _ _ _ _ _ _ _ _ S), (sm_p2 _ _ _ _ _ _ _ _ _ _ S), (sm_z2 _ _ _ _ _ _ _ _ _ _ S) in EdP. injection EdP as <-.
    rewrite (zero_p2 D p t _ _ _ _ _ _ _ _ S F1 O R z phi HD). unfold hess.
    assert (W : sqrt ((R * cos phi) ^ 2 + (R * sin phi) ^ 2) = R) by (rewrite polar_norm, Rabs_right; lra).
    assert (CS : sin phi ^ 2 = 1 - cos phi ^ 2) by (pose proof (sin2_cos2 phi) as H; unfold Rsqr in H; lra).
    rewrite W, G1, G3. change (0, 0, 0) with v0. rewrite (F2 R z phi 0).
    pose proof PI_RGT_0. rewrite !Rpow_mult_distr, CS. toR. field. lra.
Qed.
Print Assumptions C12_tidal_symmetric_trace.

(** It is refused for an object that is not axisymmetric. *)
Theorem C12_tidal_refused : forall p R z phi t, isNonAxi p = true -> ttensor p R z phi t = TRaises.
Proof. intros p R z phi t H. unfold ttensor. rewrite H. reflexivity. Qed.
Print Assumptions C12_tidal_refused.

(** vcirc: the square is R times the derivative of the potential in the plane; nan exactly when that is negative. *)
Theorem C12_vcirc : forall (D : Dom) p (R phi t : RR), smooth D p -> isDiss p = false -> D R 0 phi t ->
  exists Phi, apiEv p = Some Phi /\
    let dPhi := Derive (fun x => Phi x 0 phi t) R in
    (0 <= R * dPhi -> exists v, vcirc p R phi t = Val v /\ 0 <= v /\ v ^ 2 = R * dPhi) /\
    (R * dPhi < 0 -> vcirc p R phi t = NaN).
Proof.
  intros D p R phi t (Phi & Fphi & P2R & P2z & PRz & P2p & PRp & Ppz & S) ND HD. exists Phi. split; [exact (sm_ev _ _ _ _ _ _ _ _ _ _ S)|].
  pose proof (dw_dR D _ _ _ _ R 0 phi t (sm_dPhi _ _ _ _ _ _ _ _ _ _ S) HD) as A0.
  assert (A : Derive (fun x => Phi x 0 phi t) R = neg (apiRf p v0) R 0 phi t) by (apply is_derive_unique; exact A0).
  cbv zeta. rewrite A. unfold neg, vcirc, meth_Rforce, nsqrt. rewrite ND. cbn [noption]. change (0, 0, 0) with v0. split; intros H.
  - destruct (Rle_dec _ _) as [P|N]; [|contradiction]. eexists. split; [reflexivity|]. split; [apply sqrt_pos|]. rewrite sqrt_sq_eq by auto. reflexivity.
  - destruct (Rle_dec _ _) as [P|N]; [exfalso; lra|reflexivity].
Qed.
Print Assumptions C12_vcirc.

(** dvcircdR is the derivative of vcirc with respect to R, wherever the force points inwards. *)
Theorem C12_dvcircdR : forall (D : Dom) p (R phi t : RR), smooth D p -> isDiss p = false -> slice_open D -> D R 0 phi t ->
  0 < R -> apiRf p v0 R 0 phi t < 0 ->
  exists vc d, locally R (fun x => vcirc p x phi t = Val (vc x)) /\ dvcircdR p R phi t = Val d /\ is_derive vc R d.
Proof.
  intros D p R phi t (Phi & Fphi & P2R & P2z & PRz & P2p & PRp & Ppz & S) ND O HD HR HF.
  pose proof (dw_dR D _ _ _ _ R 0 phi t (sm_dR _ _ _ _ _ _ _ _ _ _ S) HD) as A.
  assert (DX : is_derive (fun x => x * neg (apiRf p v0) x 0 phi t) R (1 * neg (apiRf p v0) R 0 phi t + R * P2R R 0 phi t)).
  { apply (is_derive_Rmult (fun x => x) (fun x => neg (apiRf p v0) x 0 phi t)); [apply (is_derive_id (K := R_AbsRing))|exact A]. }
  assert (P : 0 < R * - apiRf p v0 R 0 phi t) by nra.
  exists (fun x => sqrt (x * - apiRf p v0 x 0 phi t)). eexists. split; [|split].
  - pose proof (ex_derive_continuous (V := R_NormedModule) _ _ (ex_intro _ _ DX)) as C.
    eapply filter_imp; [|apply (C (fun v => 0 < v)); apply locally_gt; exact P].
    intros x Hx. unfold neg in Hx. cbn beta in Hx. unfold vcirc, meth_Rforce, nsqrt. rewrite ND. cbn [noption]. change (0, 0, 0) with v0.
    destruct (Rle_dec _ _) as [Q|N]; [reflexivity|exfalso; lra].
  - unfold dvcircdR, vcirc, meth_Rforce, nsqrt. rewrite ND, (sm_R2 _ _ _ _ _ _ _ _ _ _ S). cbn [noption]. change (0, 0, 0) with v0.
    destruct (Rle_dec _ _) as [Q|N]; [|exfalso; lra]. cbn [nbind]. unfold ndiv. destruct (Req_EM_T _ _) as [Z|_]; [|reflexivity].
    exfalso. pose proof (sqrt_lt_R0 _ P). lra.
  - eapply is_derive_eq. { apply (is_derive_comp sqrt (fun x => x * neg (apiRf p v0) x 0 phi t)); [apply is_derive_Reals, derivable_pt_lim_sqrt; exact P|exact DX]. }
    unfold scal, neg; cbn. unfold mult; cbn. pose proof (sqrt_lt_R0 _ P). toR. field. lra.
Qed.
Print Assumptions C12_dvcircdR.

(** omegac is the angular frequency of the circular orbit: vcirc / R. *)
Theorem C12_omegac : forall p (R t v : RR), 0 < R -> vcirc p R 0 t = Val v -> omegac p R t = Val (v / R).
Proof.
  intros p R t v HR. unfold vcirc, omegac, meth_Rforce. destruct (isDiss p); [discriminate|]. cbn [noption]. change (0, 0, 0) with v0.
  set (f := apiRf p v0 R 0 0 t). unfold nsqrt, ndiv. destruct (Rle_dec 0 (R * - f)) as [P|]; [|discriminate]. intros E. injection E as <-.
  destruct (Req_EM_T R 0) as [Z|_]; [lra|]. cbn [nbind].
  assert (Q : - f / R = (R * - f) / (R * R)) by (field; lra).
  assert (P2 : 0 <= - f / R). { rewrite Q. apply Rmult_le_pos; auto. apply Rlt_le, Rinv_0_lt_compat. nra. }
  destruct (Rle_dec 0 (- f / R)) as [_|N]; [|contradiction]. f_equal. rewrite Q, sqrt_div_alt by nra. rewrite sqrt_square by lra. reflexivity.
Qed.
Print Assumptions C12_omegac.

(** epifreq: for the angular momentum L of the circular orbit at R, the effective potential Phi(x, 0) + L^2 / (2 x^2) is stationary at R and epifreq is the
    square root of its second derivative there. *)
Theorem C12_epifreq : forall (D : Dom) p (R t L : RR), smooth D p -> isDiss p = false -> slice_open D -> D R 0 0 t -> 0 < R ->
  exists Phi k2, apiEv p = Some Phi /\
    let eff x := Phi x 0 0 t + L ^ 2 / (2 * x ^ 2) in
    (forall v, vcirc p R 0 t = Val v -> L = R * v ->
       is_derive eff R 0 /\ is_derive (fun x => Derive eff x) R k2) /\
    (0 <= k2 -> epifreq p R t = Val (sqrt k2)) /\ (k2 < 0 -> epifreq p R t = NaN).
Proof.
  intros D p R t L (Phi & Fphi & P2R & P2z & PRz & P2p & PRp & Ppz & S) ND O HD HR. exists Phi.
  set (f := apiRf p v0 R 0 0 t). exists (P2R R 0 0 t - 3 / R * f). split; [exact (sm_ev _ _ _ _ _ _ _ _ _ _ S)|]. cbv zeta.
  assert (E1 : forall x, D x 0 0 t -> 0 < x -> is_derive (fun y => Phi y 0 0 t + L ^ 2 / (2 * y ^ 2)) x (- apiRf p v0 x 0 0 t + - L ^ 2 / x ^ 3)).
  { intros x Hx Px. apply is_derive_Rplus. { exact (dw_dR D _ _ _ _ x 0 0 t (sm_dPhi _ _ _ _ _ _ _ _ _ _ S) Hx). }
    auto_derive. { assert (0 < x ^ 2) by nra. lra. } toR. field. lra. }
  split; [|split].
  - intros v EV EL. unfold vcirc, meth_Rforce in EV. rewrite ND in EV. cbn [noption] in EV. change (0, 0, 0) with v0 in EV. fold f in EV. unfold nsqrt in EV.
    destruct (Rle_dec 0 (R * - f)) as [P|]; [|discriminate]. injection EV as <-.
    assert (L2 : L ^ 2 = R ^ 3 * - f). { rewrite EL, Rpow_mult_distr, sqrt_sq_eq by auto. ring. }
    split.
    + eapply is_derive_eq. apply E1; auto. fold f. rewrite <- Ropp_mult_distr_l_reverse, L2 || rewrite L2. toR. field. lra.
    + destruct (O R 0 0 t HD) as (LR & _ & _).
      apply (is_derive_ext_loc (fun x => neg (apiRf p v0) x 0 0 t + - L ^ 2 / x ^ 3)).
      { eapply filter_imp; [|exact (filter_and _ _ LR (locally_pos R HR))]. intros x (Hx & Px). symmetry. apply is_derive_unique. apply E1; auto. }
      eapply is_derive_eq. { apply is_derive_Rplus. { exact (dw_dR D _ _ _ _ R 0 0 t (sm_dR _ _ _ _ _ _ _ _ _ _ S) HD). }
        apply (is_derive_ext (fun x => - L ^ 2 * / x ^ 3)); [intros; reflexivity|]. auto_derive; [|reflexivity]. apply pow_nonzero. lra. }
      rewrite L2. toR. field. lra.
  - intros P. unfold epifreq, meth_Rforce. rewrite ND, (sm_R2 _ _ _ _ _ _ _ _ _ _ S). cbn [noption]. change (0, 0, 0) with v0. fold f.
    unfold ndiv. destruct (Req_EM_T R 0) as [Z|_]; [lra|]. cbn [nbind]. unfold nsqrt. destruct (Rle_dec _ _) as [|N]; [reflexivity|contradiction].
  - intros P. unfold epifreq, meth_Rforce. rewrite ND, (sm_R2 _ _ _ _ _ _ _ _ _ _ S). cbn [noption]. change (0, 0, 0) with v0. fold f.
    unfold ndiv. destruct (Req_EM_T R 0) as [Z|_]; [lra|]. cbn [nbind]. unfold nsqrt. destruct (Rle_dec _ _) as [N|]; [lra|reflexivity].
Qed.
Print Assumptions C12_epifreq.

(** verticalfreq is the square root of the second vertical derivative of the potential in the plane. *)
Theorem C12_verticalfreq : forall (D : Dom) p (R t : RR), smooth D p -> slice_open D -> D R 0 0 t ->
  exists Phi k2, apiEv p = Some Phi /\ is_derive (fun x => Derive (fun y => Phi R y 0 t) x) 0 k2 /\
    (0 <= k2 -> verticalfreq p R t = Val (sqrt k2)) /\ (k2 < 0 -> verticalfreq p R t = NaN).
Proof.
  intros D p R t (Phi & Fphi & P2R & P2z & PRz & P2p & PRp & Ppz & S) O HD. exists Phi, (P2z R 0 0 t). split; [exact (sm_ev _ _ _ _ _ _ _ _ _ _ S)|].
  unfold verticalfreq, nsqrt. rewrite (sm_z2 _ _ _ _ _ _ _ _ _ _ S). cbn [noption]. split; [|split].
  - destruct (O R 0 0 t HD) as (_ & Lz & _). apply (is_derive_ext_loc (fun x => neg (apizf p v0) R x 0 t)).
    + eapply filter_imp; [|exact Lz]. intros x Hx. symmetry. apply is_derive_unique. exact (dw_dz D _ _ _ _ R x 0 t (sm_dPhi _ _ _ _ _ _ _ _ _ _ S) Hx).
    + exact (dw_dz D _ _ _ _ R 0 0 t (sm_dz _ _ _ _ _ _ _ _ _ _ S) HD).
  - intros P. destruct (Rle_dec _ _); [reflexivity|contradiction].
  - intros P. destruct (Rle_dec _ _); [lra|reflexivity].
Qed.
Print Assumptions C12_verticalfreq.

(** Equivalently epifreq^2 = R d(Omega^2)/dR + 4 Omega^2, with Omega^2 the derivative of the potential divided by R. *)
Theorem C12_epifreq_omega : forall (D : Dom) p (R t : RR), smooth D p -> isDiss p = false -> slice_open D -> D R 0 0 t -> 0 < R ->
  exists Phi d, apiEv p = Some Phi /\
    let Omega2 x := Derive (fun y => Phi y 0 0 t) x / x in
    is_derive Omega2 R d /\
    (0 <= R * d + 4 * Omega2 R -> epifreq p R t = Val (sqrt (R * d + 4 * Omega2 R))) /\
    (R * d + 4 * Omega2 R < 0 -> epifreq p R t = NaN) /\
    (0 <= Omega2 R -> omegac p R t = Val (sqrt (Omega2 R))).
Proof.
  intros D p R t (Phi & Fphi & P2R & P2z & PRz & P2p & PRp & Ppz & S) ND O HD HR. exists Phi.
  set (f := apiRf p v0 R 0 0 t). exists (P2R R 0 0 t / R + f / R ^ 2). split; [exact (sm_ev _ _ _ _ _ _ _ _ _ _ S)|]. cbv zeta.
  assert (E1 : forall x, D x 0 0 t -> Derive (fun y => Phi y 0 0 t) x = neg (apiRf p v0) x 0 0 t).
  { intros x Hx. apply is_derive_unique. exact (dw_dR D _ _ _ _ x 0 0 t (sm_dPhi _ _ _ _ _ _ _ _ _ _ S) Hx). }
  assert (K : R * (P2R R 0 0 t / R + f / R ^ 2) + 4 * (neg (apiRf p v0) R 0 0 t / R) = P2R R 0 0 t - 3 / R * f) by (unfold neg; fold f; field; lra).
  split; [|rewrite (E1 R HD), K; split; [|split]].
  - destruct (O R 0 0 t HD) as (LR & _ & _). apply (is_derive_ext_loc (fun x => neg (apiRf p v0) x 0 0 t * / x)).
    + eapply filter_imp; [|exact LR]. intros x Hx. rewrite (E1 x Hx). reflexivity.
    + eapply is_derive_eq.
      { apply (is_derive_Rmult (fun x => neg (apiRf p v0) x 0 0 t) (fun x => / x)); [exact (dw_dR D _ _ _ _ R 0 0 t (sm_dR _ _ _ _ _ _ _ _ _ _ S) HD)|].
        auto_derive; [lra|reflexivity]. }
      unfold neg. fold f. toR. field. lra.
  - intros P. unfold epifreq, meth_Rforce. rewrite ND, (sm_R2 _ _ _ _ _ _ _ _ _ _ S). cbn [noption]. change (0, 0, 0) with v0. fold f.
    unfold ndiv. destruct (Req_EM_T R 0) as [Z|_]; [lra|]. cbn [nbind]. unfold nsqrt. destruct (Rle_dec _ _) as [|N]; [reflexivity|contradiction].
  - intros P. unfold epifreq, meth_Rforce. rewrite ND, (sm_R2 _ _ _ _ _ _ _ _ _ _ S). cbn [noption]. change (0, 0, 0) with v0. fold f.
    unfold ndiv. destruct (Req_EM_T R 0) as [Z|_]; [lra|]. cbn [nbind]. unfold nsqrt. destruct (Rle_dec _ _) as [N|]; [lra|reflexivity].
  - intros P. unfold neg in *. fold f in P |- *. unfold omegac, meth_Rforce. rewrite ND. cbn [noption]. change (0, 0, 0) with v0. fold f.
    unfold ndiv. destruct (Req_EM_T R 0) as [Z|_]; [lra|]. cbn [nbind]. unfold nsqrt. destruct (Rle_dec _ _) as [|N]; [reflexivity|contradiction].
Qed.
Print Assumptions C12_epifreq_omega.

(** rforce and r2deriv: minus the first, and the second, derivative of the potential along the ray from the centre. *)
Theorem C12_radial : forall (D : Dom) p (R z phi t : RR), smooth D p -> isDiss p = false -> D R z phi t ->
  (forall s, locally 1 (fun k => D (k * R) (k * z) phi t) -> s = sqrt (R ^ 2 + z ^ 2) -> 0 < s ->
  exists Phi f f2, apiEv p = Some Phi /\ rforce p R z phi t = Val f /\ r2deriv p R z phi t = Val f2 /\
    is_derive (on_ray Phi R z phi t) s (- f) /\ is_derive (fun x => Derive (on_ray Phi R z phi t) x) s f2).
Proof.
  intros D p R z phi t (Phi & Fphi & P2R & P2z & PRz & P2p & PRp & Ppz & S) ND HD s HL Es Ps. exists Phi.
  assert (Es2 : s * (R / s) = R /\ s * (z / s) = z) by (split; field; lra). destruct Es2 as [ER Ez].
  assert (LX : forall a x : RR, is_derive (fun u => u * (a / s)) x (a / s)).
  { intros a x. auto_derive; auto. rewrite Rmult_1_l. reflexivity. }
  assert (E1 : forall x, D (x * (R / s)) (x * (z / s)) phi t ->
    is_derive (on_ray Phi R z phi t) x (neg (apiRf p v0) (x * (R / s)) (x * (z / s)) phi t * (R / s) + neg (apizf p v0) (x * (R / s)) (x * (z / s)) phi t * (z / s))).
  { intros x Hx. unfold on_ray. rewrite <- Es. eapply is_derive_eq.
    - apply (sm_dPhi _ _ _ _ _ _ _ _ _ _ S t (fun u => u * (R / s)) (fun u => u * (z / s)) (fun _ => phi) x (R / s) (z / s) 0 Hx (LX R x) (LX z x)). apply is_derive_cst.
    - toR. ring. }
  unfold rforce, r2deriv, meth_Rforce, meth_zforce. rewrite ND. cbn [noption]. rewrite <- Es.
  rewrite (sm_R2 _ _ _ _ _ _ _ _ _ _ S), (sm_z2 _ _ _ _ _ _ _ _ _ _ S), (sm_Rz _ _ _ _ _ _ _ _ _ _ S). cbn [noption].
  unfold ndiv. destruct (Req_EM_T s 0) as [Z|_]; [lra|]. cbn [nbind]. change (0, 0, 0) with v0.
  do 2 eexists. split; [exact (sm_ev _ _ _ _ _ _ _ _ _ _ S)|]. split; [reflexivity|]. split; [reflexivity|]. split.
  - eapply is_derive_eq. { apply E1. rewrite ER, Ez. exact HD. } rewrite ER, Ez. unfold neg. toR. field. lra.
  - assert (LS : locally s (fun x => D (x * (R / s)) (x * (z / s)) phi t)).
    { assert (C : continuous (fun x => x / s) s) by (apply (ex_derive_continuous (V := R_NormedModule)); auto_derive; lra).
      assert (H1 : s / s = 1) by (field; lra). assert (HL' : locally (s / s) (fun k => D (k * R) (k * z) phi t)) by (rewrite H1; exact HL). specialize (C _ HL').
      eapply filter_imp; [|exact C]. intros x Hx. cbn beta in Hx. replace (x * (R / s)) with (x / s * R) by (field; lra). replace (x * (z / s)) with (x / s * z) by (field; lra). exact Hx. }
    apply (is_derive_ext_loc (fun x => neg (apiRf p v0) (x * (R / s)) (x * (z / s)) phi t * (R / s) + neg (apizf p v0) (x * (R / s)) (x * (z / s)) phi t * (z / s))).
    { eapply filter_imp; [|exact LS]. intros x Hx. symmetry. apply is_derive_unique. apply E1. exact Hx. }
    assert (HDs : D (s * (R / s)) (s * (z / s)) phi t) by (rewrite ER, Ez; exact HD).
    pose proof (sm_dR _ _ _ _ _ _ _ _ _ _ S t (fun u => u * (R / s)) (fun u => u * (z / s)) (fun _ => phi) s (R / s) (z / s) 0 HDs (LX R s) (LX z s) (is_derive_cst phi s)) as A.
    pose proof (sm_dz _ _ _ _ _ _ _ _ _ _ S t (fun u => u * (R / s)) (fun u => u * (z / s)) (fun _ => phi) s (R / s) (z / s) 0 HDs (LX R s) (LX z s) (is_derive_cst phi s)) as B.
    cbv beta in A, B. rewrite ER, Ez in A, B.
    eapply is_derive_eq. { apply is_derive_Rplus; [apply is_derive_Rmult; [exact A|apply is_derive_cst]|apply is_derive_Rmult; [exact B|apply is_derive_cst]]. }
    cbv beta. toR. field. lra.
Qed.
Print Assumptions C12_radial.

(** rtide: with Omega^2 = Phi'(s) / s along the ray through the point, the cube of the tidal radius of a satellite of mass M is M / (Omega^2 - Phi''(s)). *)
Theorem C12_rtide : forall (D : Dom) p (R z phi t M : RR), smooth D p -> isDiss p = false -> D R z phi t ->
  forall s, locally 1 (fun k => D (k * R) (k * z) phi t) -> s = sqrt (R ^ 2 + z ^ 2) -> 0 < s -> 0 < M ->
  exists Phi, apiEv p = Some Phi /\
    let d1 := Derive (on_ray Phi R z phi t) s in let d2 := Derive (fun x => Derive (on_ray Phi R z phi t) x) s in
    (0 < d1 / s - d2 -> exists rt, rtide p R z phi t (Some M) = Val rt /\ 0 < rt /\ rt ^ 3 * (d1 / s - d2) = M) /\
    (d1 / s - d2 < 0 -> rtide p R z phi t (Some M) = NaN).
Proof.
  intros D p R z phi t M Sm ND HD s HL Es Ps PM. destruct (C12_radial D p R z phi t Sm ND HD s HL Es Ps) as (Phi & f & f2 & EP & Ef & Ef2 & D1 & D2).
  exists Phi. split; [exact EP|]. cbv zeta. assert (E1 : Derive (on_ray Phi R z phi t) s = - f) by (apply is_derive_unique; exact D1).
  assert (E2 : Derive (fun x => Derive (on_ray Phi R z phi t) x) s = f2) by (apply is_derive_unique; exact D2). rewrite E1, E2.
  unfold rtide. rewrite Ef, Ef2. cbn [nbind]. rewrite <- Es. unfold ndiv. destruct (Req_EM_T s 0) as [Z|_]; [lra|]. cbn [nbind].
  split; intros H; (destruct (Req_EM_T (- f / s - f2) 0) as [Z|NZ]; [lra|]); cbn [nbind].
  - assert (Q : 0 < M / (- f / s - f2)) by (apply Rdiv_lt_0_compat; assumption).
    destruct (Rlt_dec 0 (M / (- f / s - f2))) as [_|N]; [|contradiction]. eexists. split; [reflexivity|]. split; [apply exp_pos|].
    rewrite <- Rpower_pow by apply exp_pos. rewrite Rpower_mult. replace (1 / 3 * INR 3) with 1 by (cbn; field). rewrite Rpower_1 by exact Q. set (k := - f / s - f2) in *. clearbody k. field. exact NZ.
  - assert (Q : M / (- f / s - f2) < 0) by (pose proof (Rinv_lt_0_compat _ H); unfold Rdiv at 1; nra).
    destruct (Rlt_dec 0 (M / (- f / s - f2))) as [N|_]; [lra|]. destruct (Req_EM_T (M / (- f / s - f2)) 0) as [N|_]; [lra|]. reflexivity.
Qed.
Print Assumptions C12_rtide.

(** flattening: where the potential depends on R^2 + z^2/q^2 alone, its flattening is q. *)
Theorem C12_flattening : forall (D : Dom) p Phi (g : RR -> RR) (g' q R z t : RR), smooth D p -> isDiss p = false -> D R z 0 t -> apiEv p = Some Phi ->
  0 < q -> 0 < R -> z <> 0 -> locally R (fun x => Phi x z 0 t = g (x ^ 2 + z ^ 2 / q ^ 2)) -> locally z (fun y => Phi R y 0 t = g (R ^ 2 + y ^ 2 / q ^ 2)) ->
  is_derive g (R ^ 2 + z ^ 2 / q ^ 2) g' -> g' <> 0 -> flattening p R z t = Val q.
Proof.
  intros D p Phi g g' q R z t (Phi' & Fphi & P2R & P2z & PRz & P2p & PRp & Ppz & S) ND HD EP Pq PR Nz LR Lz Dg Ng.
  assert (Phi' = Phi) by (pose proof (sm_ev _ _ _ _ _ _ _ _ _ _ S) as E; rewrite EP in E; injection E; congruence). subst Phi'.
  pose proof (dw_dR D _ _ _ _ R z 0 t (sm_dPhi _ _ _ _ _ _ _ _ _ _ S) HD) as AR.
  pose proof (dw_dz D _ _ _ _ R z 0 t (sm_dPhi _ _ _ _ _ _ _ _ _ _ S) HD) as Az.
  assert (BR : is_derive (fun x => Phi x z 0 t) R (2 * R * g')).
  { apply (is_derive_ext_loc (fun x => g (x ^ 2 + z ^ 2 / q ^ 2))). { eapply filter_imp; [|exact LR]. intros x Hx. symmetry. exact Hx. }
    assert (DI : is_derive (fun x : RR => x ^ 2 + z ^ 2 / q ^ 2) R (2 * R)) by (auto_derive; [exact I|ring]).
    refine (is_derive_eq _ _ _ _ (is_derive_Rchain g (fun x : RR => x ^ 2 + z ^ 2 / q ^ 2) R _ _ Dg DI) _). toR. ring. }
  assert (Bz : is_derive (fun y => Phi R y 0 t) z (2 * z / q ^ 2 * g')).
  { apply (is_derive_ext_loc (fun y => g (R ^ 2 + y ^ 2 / q ^ 2))). { eapply filter_imp; [|exact Lz]. intros x Hx. symmetry. exact Hx. }
    assert (DI : is_derive (fun y : RR => R ^ 2 + y ^ 2 / q ^ 2) z (2 * z / q ^ 2)) by (auto_derive; [exact I|field; lra]).
    refine (is_derive_eq _ _ _ _ (is_derive_Rchain g (fun y : RR => R ^ 2 + y ^ 2 / q ^ 2) z _ _ Dg DI) _). toR. ring. }
  pose proof (is_derive_unique _ _ _ AR) as E1. rewrite (is_derive_unique _ _ _ BR) in E1.
  pose proof (is_derive_unique _ _ _ Az) as E2. rewrite (is_derive_unique _ _ _ Bz) in E2. unfold neg in E1, E2.
  unfold flattening, meth_Rforce, meth_zforce. rewrite ND. cbn [noption]. change (0, 0, 0) with v0.
  assert (F1 : apiRf p v0 R z 0 t = - (2 * R * g')) by lra. assert (F2 : apizf p v0 R z 0 t = - (2 * z / q ^ 2 * g')) by lra. rewrite F1, F2.
  unfold ndiv. destruct (Req_EM_T R 0) as [Z|_]; [lra|]. cbn [nbind].
  assert (Pq2 : 0 < q ^ 2) by (apply pow_lt; exact Pq).
  assert (NF : - (2 * z / q ^ 2 * g') <> 0). { apply Ropp_neq_0_compat. apply Rmult_integral_contrapositive_currified; [|exact Ng]. unfold Rdiv. apply Rmult_integral_contrapositive_currified; [lra|]. apply Rinv_neq_0_compat. lra. }
  destruct (Req_EM_T (- (2 * z / q ^ 2 * g')) 0) as [Z|_]; [contradiction|]. cbn [nbind].
  replace (z / R * - (2 * R * g') / - (2 * z / q ^ 2 * g')) with (q ^ 2) by (field; repeat split; lra).
  rewrite Rabs_pos_eq by lra. unfold nsqrt. destruct (Rle_dec 0 (q ^ 2)) as [_|N]; [|lra]. f_equal. apply sqrt_pow2. lra.
Qed.
Print Assumptions C12_flattening.

(** vterm: the line-of-sight velocity, relative to the observer on the circular orbit at R = 1, at the tangent point of longitude l. *)
Theorem C12_vterm : forall p (l t v1 v2 : RR) (deg : bool), let s := sin (if deg then l / 180 * PI else l) in s <> 0 ->
  vcirc p (Rabs s) 0 t = Val v1 -> vcirc p 1 0 t = Val v2 -> vterm p l t deg = Val (sign s * v1 - s * v2).
Proof.
  intros p l t v1 v2 deg s Ns H1 H2. assert (Pa : 0 < Rabs s) by (apply Rabs_pos_lt; exact Ns).
  unfold vterm. replace (if deg then sin (l / 180 * PI) else sin l) with s by (unfold s; destruct deg; reflexivity).
  rewrite (C12_omegac p _ t v1 Pa H1), (C12_omegac p 1 t v2 Rlt_0_1 H2). cbn [nbind]. f_equal. replace (v2 / 1) with v2 by field.
  replace (sign s) with (s / Rabs s).
  - field. lra.
  - destruct (Rle_lt_dec 0 s) as [P|P].
    + rewrite Rabs_pos_eq by exact P. rewrite sign_eq_1 by lra. field. exact Ns.
    + rewrite Rabs_left by exact P. rewrite sign_eq_m1 by exact P. field. exact Ns.
Qed.
Print Assumptions C12_vterm.

(** ** The module functions give the same values as the methods, for a potential or a combination with no amplitude of its own. *)
Lemma planar_flags p : List.Forall simple (members p) -> forall pl, toPlanar (O3 p) = ROk pl -> plDiss pl = isDiss p /\ (isDiss p = false -> plNonAxi pl = isNonAxi p).
Proof.
  assert (K : forall q, simple q -> plDiss (planar_of q) = isDiss q /\ (isDiss q = false -> plNonAxi (planar_of q) = isNonAxi q)).
  { intros q Sq. split; [apply planar_of_diss; auto|]. destruct q as [a c|a d|]; [|discriminate|destruct Sq]. intros _. cbn. destruct (nonaxi c); reflexivity. }
  intros HS pl E. destruct p as [a c|a d|a ps].
  - injection E as <-. apply (K (Single a c)); exact I.
  - injection E as <-. apply (K (Diss a d)); exact I.
  - injection E as <-. cbn [members] in HS. cbn [plDiss isDiss isNonAxi]. unfold plNonAxi at 1. fold plNonAxi. split.
    + induction ps as [|q ps IH]; cbn; [reflexivity|]. inversion HS; subst. rewrite (proj1 (K q H1)), IH by auto. reflexivity.
    + induction ps as [|q ps IH]; cbn; [reflexivity|]. inversion HS; subst. intros Hd. apply orb_false_iff in Hd. destruct Hd as [Hq Hps].
      cbn in IH. rewrite IH by auto. f_equal. exact (proj2 (K q H1) Hq).
Qed.
Theorem C12_function_vcirc : forall p (R phi t : RR), amplitude_one_if_composite p -> List.Forall (fun q => simple q /\ honest_axi q) (members p) ->
  fun_vcirc p R (Some phi) t = vcirc p R phi t /\ (isNonAxi p = false -> fun_vcirc p R None t = vcirc p R 0 t).
Proof.
  intros p R phi t HA HM. destruct (toPlanar_ok p HA HM) as (pl & E & HR).
  assert (HS : List.Forall simple (members p)) by (eapply Forall_impl; [|exact HM]; intros a [X _]; exact X).
  destruct (planar_flags p HS pl E) as [F1 F2]. specialize (HR PRf (0, 0)). cbn [qty3 value planar_value fst snd restricts] in HR.
  unfold fun_vcirc, vcirc, evaluateplanarRforces, meth_Rforce. rewrite E, F1.
  assert (T : forall x y : RR, - x * y = x * - y) by (intros; ring).
  split.
  - destruct (isDiss p); [reflexivity|]. destruct (plRf pl (0, 0)) as [g|]; [|destruct HR]. cbn [option_map noption]. rewrite HR, T. reflexivity.
  - intros NA. destruct (isDiss p); [rewrite orb_true_r; reflexivity|]. rewrite F2, NA by auto. cbn [orb].
    destruct (plRf pl (0, 0)) as [g|]; [|destruct HR]. cbn [option_map noption]. rewrite HR, T. reflexivity.
Qed.
Print Assumptions C12_function_vcirc.

Lemma rz_planar p : amplitude_one_if_composite p -> List.Forall (fun q => simple q /\ honest_axi q) (members p) -> isNonAxi p = false -> isDiss p = false ->
  exists pl, RZToplanar p = Some pl /\ toPlanar (O3 p) = ROk pl.
Proof.
  intros HA HM NA ND. unfold RZToplanar. rewrite ND. destruct p as [a c|a d|a ps]; [|discriminate|].
  - rewrite NA. eexists. split; [reflexivity|]. cbn in *. rewrite NA. reflexivity.
  - cbn [isNonAxi isDiss members] in *. rewrite Forall_forall in HM.
    assert (Q : forall q, In q ps -> isNonAxi q = false /\ isDiss q = false).
    { intros q Hq. split.
      - destruct (isNonAxi q) eqn:X; auto. rewrite <- NA. symmetry. apply existsb_exists. eauto.
      - destruct (isDiss q) eqn:X; auto. rewrite <- ND. symmetry. apply existsb_exists. eauto. }
    assert (FB : forallb (fun q => negb (isNonAxi q)) ps = true). { apply forallb_forall. intros q Hq. rewrite (proj1 (Q q Hq)). reflexivity. }
    rewrite FB. eexists. split; [reflexivity|]. cbn [toPlanar]. f_equal. f_equal. apply map_ext_in. intros q Hq. destruct (Q q Hq) as [Q1 Q2].
    unfold planar_of. destruct q; [rewrite Q1; reflexivity|discriminate|rewrite Q1; reflexivity].
Qed.
Theorem C12_function_omegac : forall p (R t : RR), amplitude_one_if_composite p -> List.Forall (fun q => simple q /\ honest_axi q) (members p) ->
  isNonAxi p = false -> isDiss p = false -> fun_omegac p R t = omegac p R t.
Proof.
  intros p R t HA HM NA ND. destruct (rz_planar p HA HM NA ND) as (pl & EZ & E). destruct (toPlanar_ok p HA HM) as (pl' & E' & HR). rewrite E in E'. injection E' as <-.
  assert (HS : List.Forall simple (members p)) by (eapply Forall_impl; [|exact HM]; intros a [X _]; exact X).
  destruct (planar_flags p HS pl E) as [F1 F2]. specialize (HR PRf (0, 0)). cbn [qty3 value planar_value fst snd restricts] in HR.
  unfold fun_omegac, omegac, evaluateplanarRforces, meth_Rforce. rewrite EZ. cbn [noption]. rewrite F1, ND, F2, NA by auto. cbn [orb].
  destruct (plRf pl (0, 0)) as [g|]; [|destruct HR]. cbn [option_map noption]. rewrite HR. reflexivity.
Qed.
Print Assumptions C12_function_omegac.
Theorem C12_function_dvcircdR : forall p (R phi t : RR), amplitude_one_if_composite p -> List.Forall (fun q => simple q /\ honest_axi q) (members p) ->
  isNonAxi p = false -> isDiss p = false -> apiR2 p <> None -> fun_dvcircdR p R (Some phi) t = dvcircdR p R phi t.
Proof.
  intros p R phi t HA HM NA ND N2. destruct (rz_planar p HA HM NA ND) as (pl & EZ & E). destruct (toPlanar_ok p HA HM) as (pl' & E' & HR). rewrite E in E'. injection E' as <-.
  assert (HS : List.Forall simple (members p)) by (eapply Forall_impl; [|exact HM]; intros a [X _]; exact X).
  destruct (planar_flags p HS pl E) as [F1 F2]. pose proof (HR PR2 (0, 0)) as H2. specialize (HR PRf (0, 0)). cbn [qty3 value planar_value fst snd restricts] in HR, H2.
  unfold fun_dvcircdR, dvcircdR. rewrite (proj1 (C12_function_vcirc p R phi t HA HM)). rewrite EZ. unfold meth_Rforce. rewrite ND. cbn [noption].
  destruct (apiR2 p) as [f2|]; [|contradiction]. cbn [noption]. unfold evaluateplanarRforces, evaluateplanarR2derivs. rewrite F1, ND.
  destruct (plRf pl (0, 0)) as [g|]; [|destruct HR]. destruct (plR2 pl) as [g2|]; [|destruct H2]. cbn [option_map noption]. rewrite HR, H2. reflexivity.
Qed.
Print Assumptions C12_function_dvcircdR.

(** For a non-axisymmetric potential the function dvcircdR raises even when phi is given, although the method and the function vcirc work. *)
Theorem C12_function_dvcircdR_refuted : exists p (R phi t d : RR), amplitude_one_if_composite p /\ isDiss p = false /\
  dvcircdR p R phi t = Val d /\ fun_vcirc p R (Some phi) t = vcirc p R phi t /\ fun_dvcircdR p R (Some phi) t = Raises.
Proof.
  set (c := LogarithmicHalo 1 1 (Some 1)). set (p := Single 1 c).
  assert (HR : apiRf p v0 1 0 0 0 < 0).
  { unfold p, c, v0. cbn. unfold scale4, LH_Rf, LH_m, LH_Rt2, LH_nonaxi. cbn. rewrite sin_0. lra. }
  assert (HC : Catalog (fun R z phi _ => R <> 0 /\ 0 < R ^ 2 * (1 - (1 - 1 / 1 ^ 2) * sin phi ^ 2) + (z / 1) ^ 2 + 1) p) by (apply cat_single, cat_LogHaloTri; lra).
  destruct (C12_dvcircdR _ p 1 0 0 (catalog_smooth _ _ HC) eq_refl (catalog_open _ _ HC)) as (vc & d & L & Ed & _); [|lra|exact HR|].
  { rewrite sin_0. lra. }
  exists p, 1, 0, 0, d. split; [exact I|]. split; [reflexivity|]. split; [exact Ed|].
  assert (EV : fun_vcirc p 1 (Some 0) 0 = vcirc p 1 0 0).
  { apply C12_function_vcirc; [exact I|]. constructor; [|constructor]. split; [exact I|]. intros N. discriminate N. }
  split; [exact EV|]. unfold fun_dvcircdR. rewrite EV.
  unfold vcirc, meth_Rforce. cbn [isDiss p noption]. change (0, 0, 0) with v0. fold p. unfold nsqrt. destruct (Rle_dec _ _) as [|N]; [|exfalso; apply N; lra]. reflexivity.
Qed.
Print Assumptions C12_function_dvcircdR_refuted.
(** For a combination with an amplitude of its own (after normalize) the function vcirc and the method differ. *)
Theorem C12_function_normalized_refuted : exists p (R t norm v : RR), Built p /\ fun_vcirc (normalize p norm) R None t = Val v /\
  vcirc (normalize p norm) R 0 t <> Val v.
Proof.
  assert (E1 : rpow (1 ^ 2 + 0 ^ 2) (3 / 2) = 1).
  { replace (1 ^ 2 + 0 ^ 2) with 1 by ring. unfold rpow, Rpower. rewrite ln_1, Rmult_0_r. apply exp_0. }
  exists (mkComp [Leaf (Single 1 Kepler)]), 1, 0, 4, 1. split. { apply b_list. repeat constructor. }
  assert (EF : apiRf (mkComp [Leaf (Single 1 Kepler)]) (0, 0, 0) 1 0 0 0 = -1).
  { cbv [mkComp flatten flattenItem flat_map leaves app apiRf scale4 sum4 map fold_left add4 zero4 Kepler PowerSpherical mkAxi c_Rf PS_Rf]. rewrite E1. field. }
  unfold normalize. rewrite EF. rewrite (Rabs_left (-1)) by lra. split.
  - cbv [fun_vcirc mkComp flatten flattenItem flat_map leaves app setAmp toPlanar map planar_of isNonAxi existsb nonaxi Kepler PowerSpherical mkAxi
      evaluateplanarRforces plNonAxi plDiss orb option_map plRf isDiss noption osum3 sequence fold_left scale3 add3 zero3 apiRf scale4 c_Rf PS_Rf]. rewrite E1.
    unfold nsqrt. destruct (Rle_dec _ _) as [|N]; [|exfalso; apply N; lra]. f_equal. match goal with |- sqrt ?x = 1 => replace x with 1 by field end. apply sqrt_1.
  - assert (E4 : apiRf (setAmp (mkComp [Leaf (Single 1 Kepler)]) (4 / - -1)) (0, 0, 0) 1 0 0 0 = -4).
    { cbv [setAmp mkComp flatten flattenItem flat_map leaves app apiRf scale4 sum4 map fold_left add4 zero4 Kepler PowerSpherical mkAxi c_Rf PS_Rf]. rewrite E1. field. }
    unfold vcirc, meth_Rforce. cbn [mkComp flatten flattenItem flat_map leaves app setAmp isDiss existsb orb noption].
    cbn [mkComp flatten flattenItem flat_map leaves app setAmp] in E4. rewrite E4.
    unfold nsqrt. destruct (Rle_dec _ _) as [|N]; [|exfalso; apply N; lra]. intros X. injection X as X.
    assert (Q : sqrt (1 * - -4) ^ 2 = 4) by (rewrite sqrt_sq_eq; lra). rewrite X in Q. lra.
Qed.
Print Assumptions C12_function_normalized_refuted.

(** ** All of this holds for the catalogue *)
Lemma free_scale a F : phi_free F -> phi_free (scale4 a F).
Proof. intros H R z phi phi' t. unfold scale4. rewrite (H R z phi phi'). reflexivity. Qed.
Lemma free_sum (l : list F4) : (forall F, In F l -> phi_free F) -> phi_free (sum4 l).
Proof.
  intros H R z phi phi' t. induction l as [|F l IH]; [rewrite !sum4_nil; reflexivity|]. rewrite !sum4_cons. rewrite (H F (or_introl eq_refl) R z phi phi'), IH; auto.
  intros G HG. apply H. right; auto.
Qed.
Lemma catalog_phi_independent D p : Catalog D p -> isNonAxi p = false -> phi_independent p.
Proof.
  induction 1 as [D amp c H|D E p H IH _ _|D amp ps _ H IH]; intros NA.
  - assert (G : phi_free (c_ev c) /\ phi_free (c_Rf c) /\ phi_free (c_zf c)).
    { destruct H; try (split; [|split]; intros R z phi phi' t; reflexivity). discriminate NA. }
    destruct G as (G1 & G2 & G3). eexists. split; [reflexivity|]. split; [|split]; apply free_scale; auto.
  - auto.
  - assert (Q : forall q, In q ps -> phi_independent q).
    { intros q Hq. apply IH; auto. destruct (isNonAxi q) eqn:X; auto. rewrite <- NA. symmetry. apply existsb_exists. eauto. }
    assert (Hg : forall q, In q ps -> exists g, (if isDiss q then Some zero4 else apiEv q) = Some g /\ phi_free g).
    { intros q Hq. destruct (isDiss q); [exists zero4; split; [reflexivity|intros R z phi phi' t; reflexivity]|]. destruct (Q q Hq) as (F & EF & HF & _). eauto. }
    eexists. cbn [apiEv]. rewrite (osum4_get (fun q => if isDiss q then Some zero4 else apiEv q)); [|intros q Hq; destruct (Hg q Hq) as (g & X & _); eauto].
    split; [reflexivity|]. split; [|split].
    + apply free_scale, free_sum. intros F HF. apply in_map_iff in HF. destruct HF as (q & <- & Hq). destruct (Hg q Hq) as (g & X & HF). cbn beta. rewrite X. exact HF.
    + apply free_scale, free_sum. intros F HF. apply in_map_iff in HF. destruct HF as (q & <- & Hq). destruct (Q q Hq) as (_ & _ & _ & X & _). exact X.
    + apply free_scale, free_sum. intros F HF. apply in_map_iff in HF. destruct HF as (q & <- & Hq). destruct (Q q Hq) as (_ & _ & _ & _ & X). exact X.
Qed.

Theorem C12_catalogue : forall (D : Dom) p, Catalog D p -> isNonAxi p = false ->
  smooth D p /\ phi_independent p /\ density_is_source D p /\ isDiss p = false /\ slice_open D.
Proof.
  intros D p H NA. split; [exact (catalog_smooth D p H)|]. split; [exact (catalog_phi_independent D p H NA)|]. split; [exact (catalog_density D p H)|].
  split; [exact (catalog_not_diss D p H)|exact (catalog_open D p H)].
Qed.
Print Assumptions C12_catalogue.

(** Non-vacuity: the Milky-Way-like composite of C01 off the origin. *)
Example C12_nonvacuous : smooth off_origin mw /\ phi_independent mw /\ density_is_source off_origin mw /\ isDiss mw = false /\ slice_open off_origin /\
  isNonAxi mw = false /\ round off_origin /\ off_origin 1 (1/10) 0 0 /\ off_origin 1 0 0 0.
Proof.
  destruct (C12_catalogue off_origin mw C01_nonvacuous eq_refl) as (A & B & C & E & F).
  split; [exact A|]. split; [exact B|]. split; [exact C|]. split; [exact E|]. split; [exact F|]. split; [reflexivity|]. split; [intros R z phi phi' t H; exact H|].
  split; left; lra.
Qed.
(** Kepler: circular velocity 1 at R = 1, falling as R^(-1/2). *)
Example C12_kepler : vcirc (Single 1 Kepler) 1 0 0 = Val 1 /\ apiRf (Single 1 Kepler) v0 1 0 0 0 < 0 /\ omegac (Single 1 Kepler) 1 0 = Val 1.
Proof.
  assert (E1 : rpow (1 ^ 2 + 0 ^ 2) (3 / 2) = 1).
  { replace (1 ^ 2 + 0 ^ 2) with 1 by ring. unfold rpow, Rpower. rewrite ln_1, Rmult_0_r. apply exp_0. }
  assert (F : apiRf (Single 1 Kepler) v0 1 0 0 0 = -1). { cbv [apiRf scale4 Kepler PowerSpherical mkAxi c_Rf PS_Rf]. rewrite E1. field. }
  assert (V : vcirc (Single 1 Kepler) 1 0 0 = Val 1).
  { unfold vcirc, meth_Rforce. cbn [isDiss noption]. change (0, 0, 0) with v0. rewrite F. unfold nsqrt. destruct (Rle_dec _ _) as [|N]; [|exfalso; apply N; lra].
    f_equal. replace (1 * - -1) with 1 by ring. apply sqrt_1. }
  split; [exact V|]. split; [lra|]. rewrite (C12_omegac _ 1 0 1 Rlt_0_1 V). f_equal. field.
Qed.
(** A satellite of mass 3 in the Kepler potential at R = 1 has tidal radius 1, and that potential has flattening 1. *)
Example C12_rtide_example : rtide (Single 1 Kepler) 1 0 0 0 (Some 3) = Val 1.
Proof.
  assert (E1 : forall a : RR, rpow (1 ^ 2 + 0 ^ 2) a = 1).
  { intros a. replace (1 ^ 2 + 0 ^ 2) with 1 by ring. unfold rpow, Rpower. rewrite ln_1, Rmult_0_r. apply exp_0. }
  assert (S1 : sqrt (1 ^ 2 + 0 ^ 2) = 1) by (replace (1 ^ 2 + 0 ^ 2) with 1 by ring; apply sqrt_1).
  assert (F : apiRf (Single 1 Kepler) v0 1 0 0 0 = -1) by (cbv [apiRf scale4 Kepler PowerSpherical mkAxi c_Rf PS_Rf]; rewrite E1; field).
  assert (F2 : apizf (Single 1 Kepler) v0 1 0 0 0 = 0) by (cbv [apizf scale4 Kepler PowerSpherical mkAxi c_zf PS_zf]; rewrite E1; field).
  assert (Q : r2deriv (Single 1 Kepler) 1 0 0 0 = Val (-2)).
  { unfold r2deriv. cbv [apiR2 apiRz apiz2 api2 option_map scale4 Kepler PowerSpherical mkAxi c_R2 c_Rz c_z2 noption]. rewrite S1. destruct (Req_EM_T 1 0); [lra|]. f_equal.
    unfold PS_z2, PS_Rz, PS_R2. replace (0 ^ 2 + 1 ^ 2) with (1 ^ 2 + 0 ^ 2) by ring. rewrite !E1. field. }
  assert (P : rforce (Single 1 Kepler) 1 0 0 0 = Val (-1)).
  { unfold rforce, meth_Rforce, meth_zforce. cbn [isDiss noption]. change (0, 0, 0) with v0. rewrite S1, F, F2. unfold ndiv. destruct (Req_EM_T 1 0); [lra|]. cbn [nbind]. f_equal. field. }
  unfold rtide. rewrite P, Q, S1. unfold ndiv. cbn [nbind]. destruct (Req_EM_T 1 0); [lra|]. cbn [nbind]. destruct (Req_EM_T (- -1 / 1 - -2) 0); [lra|]. cbn [nbind].
  replace (3 / (- -1 / 1 - -2)) with 1 by field. destruct (Rlt_dec 0 1); [|lra]. f_equal. unfold Rpower. rewrite ln_1, Rmult_0_r. apply exp_0.
Qed.
(** A logarithmic halo with core radius 1 has the flattening it was given everywhere. *)
Example C12_flattening_example : forall q R z : RR, 0 < q -> 0 < R -> z <> 0 -> flattening (Single 1 (LogarithmicHalo 1 q None)) R z 0 = Val q.
Proof.
  intros q R z Pq PR Nz. set (D := fun (R z _ _ : RR) => 0 < R ^ 2 + (z / q) ^ 2 + 1).
  assert (Pp : 0 < R ^ 2 + z ^ 2 / q ^ 2 + 1).
  { pose proof (pow_lt R 2 PR). assert (0 <= z ^ 2 / q ^ 2). { unfold Rdiv. apply Rmult_le_pos; [apply pow2_ge_0|]. left. apply Rinv_0_lt_compat. apply pow_lt. exact Pq. } lra. }
  assert (Sm : smooth D (Single 1 (LogarithmicHalo 1 q None))) by (apply C12_catalogue; [apply cat_single; constructor; lra|reflexivity]).
  eapply (C12_flattening D (Single 1 (LogarithmicHalo 1 q None)) _ (fun x => 1 / 2 * ln (x + 1)) (1 / 2 * (1 / (R ^ 2 + z ^ 2 / q ^ 2 + 1))) q R z 0 Sm eq_refl).
  - unfold D. replace ((z / q) ^ 2) with (z ^ 2 / q ^ 2) by (field; lra). exact Pp.
  - reflexivity.
  - exact Pq.
  - exact PR.
  - exact Nz.
  - apply filter_forall. intros x. unfold scale4. cbn. unfold LH_ev, LH_nonaxi, LH_ma. cbn. rewrite Rmult_1_l. do 2 f_equal. field. lra.
  - apply filter_forall. intros x. unfold scale4. cbn. unfold LH_ev, LH_nonaxi, LH_ma. cbn. rewrite Rmult_1_l. do 2 f_equal. field. lra.
  - auto_derive; [exact Pp|toR; unfold Rdiv; ring].
  - apply Rmult_integral_contrapositive_currified; [lra|]. unfold Rdiv. rewrite Rmult_1_l. apply Rinv_neq_0_compat. lra.
Qed.
