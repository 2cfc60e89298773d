From Coq Require Import Reals Lra List.
From Coquelicot Require Import Coquelicot.
From Verif.Lib Require Import RealAux Atan2.
From Verif.Model Require Import PotAPI PotAxi Reduce Derived.
From Verif.Spec Require Import PotSpec PotApiSpec SmoothSpec DerivedSpec.
From Verif.Proofs Require Import PotLift SmoothProofs.
Import ListNotations.
Open Scope R_scope.
Notation RR := RbaseSymbolsImpl.R (only parsing).
Ltac toR := match goal with |- ?a = ?b => change (@eq RbaseSymbolsImpl.R a b) | _ => idtac end.

Section Tensor.
  Variables (D : Dom) (p : Pot) (t : RR) (Phi Fphi P2R P2z PRz P2p PRp Ppz : Fun4).
  Hypothesis S0 : smooth_potential D p Phi Fphi P2R P2z PRz P2p PRp Ppz.
  Hypothesis free : phi_free Phi.
  Hypothesis freeR : phi_free (apiRf p v0).
  Hypothesis freez : phi_free (apizf p v0).
  Hypothesis O : slice_open D.
  Hypothesis rd : round D.
  Let FR (w z : RR) := apiRf p v0 w z 0 t.
  Let Fz (w z : RR) := apizf p v0 w z 0 t.

  Lemma zero_p2 R z phi : D R z phi t -> P2p R z phi t = 0.
  Proof.
    intros HD. pose proof (dw_dp D _ _ _ _ R z phi t (sm_dp _ _ _ _ _ _ _ _ _ _ S0) HD) as H.
    apply is_derive_unique in H. rewrite <- H. apply is_derive_unique.
    destruct (O R z phi t HD) as (_ & _ & L).
    apply (is_derive_ext_loc (fun _ => 0)); [|apply is_derive_cst].
    eapply filter_imp; [|exact L]. intros y Hy. cbn beta.
    pose proof (dw_dp D _ _ _ _ R z y t (sm_dPhi _ _ _ _ _ _ _ _ _ _ S0) Hy) as H1. apply is_derive_unique in H1.
    change (@eq RR 0 (neg Fphi R z y t)). rewrite <- H1. symmetry. apply is_derive_unique.
    apply (is_derive_ext (fun _ => Phi R z y t)); [intros; apply free|apply is_derive_cst].
  Qed.
  Lemma zero_Rp R z phi : D R z phi t -> PRp R z phi t = 0.
  Proof.
    intros HD. pose proof (dw_dp D _ _ _ _ R z phi t (sm_dR _ _ _ _ _ _ _ _ _ _ S0) HD) as H.
    apply is_derive_unique in H. rewrite <- H. apply is_derive_unique.
    apply (is_derive_ext (fun _ => neg (apiRf p v0) R z phi t)); [intros; unfold neg; rewrite (freeR _ _ phi t0); reflexivity|apply is_derive_cst].
  Qed.
  Lemma zero_pt R z phi : D R z phi t -> Fphi R z phi t = 0.
  Proof.
    intros HD. pose proof (dw_dp D _ _ _ _ R z phi t (sm_dPhi _ _ _ _ _ _ _ _ _ _ S0) HD) as H1. apply is_derive_unique in H1.
    assert (neg Fphi R z phi t = 0). 2: { unfold neg in *; lra. }
    rewrite <- H1. apply is_derive_unique.
    apply (is_derive_ext (fun _ => Phi R z phi t)); [intros; apply free|apply is_derive_cst].
  Qed.

  (** The gradient in Cartesian coordinates *)
  Definition grad (i : dir) (q : RR * RR * RR) : RR :=
    let '(x, y, z) := q in let w := sqrt (x ^ 2 + y ^ 2) in
    match i with DX => - FR w z * (x / w) | DY => - FR w z * (y / w) | DZ => - Fz w z end.
  Definition inside (q : RR * RR * RR) : Prop := let '(x, y, z) := q in 0 < x ^ 2 + y ^ 2 /\ D (sqrt (x ^ 2 + y ^ 2)) z 0 t.

  Lemma cart_free x y z : cartesian Phi t (x, y, z) = Phi (sqrt (x ^ 2 + y ^ 2)) z 0 t.
  Proof. cbn. apply free. Qed.
  Lemma d_wx x y : 0 < x ^ 2 + y ^ 2 -> is_derive (fun u => sqrt ((x + u) ^ 2 + y ^ 2)) 0 (x / sqrt (x ^ 2 + y ^ 2)).
  Proof.
    intros H. auto_derive. { replace (x + 0) with x by ring. exact H. }
    replace (x + 0) with x by ring. pose proof (sqrt_lt_R0 _ H). toR. field. lra.
  Qed.
  Lemma d_wy x y : 0 < x ^ 2 + y ^ 2 -> is_derive (fun u => sqrt (x ^ 2 + (y + u) ^ 2)) 0 (y / sqrt (x ^ 2 + y ^ 2)).
  Proof.
    intros H. auto_derive. { replace (y + 0) with y by ring. exact H. }
    replace (y + 0) with y by ring. pose proof (sqrt_lt_R0 _ H). toR. field. lra.
  Qed.
  Lemma d_id (a : RR) : is_derive (fun u => a + u) 0 1.
  Proof. auto_derive; auto. Qed.

  (** Partial derivatives along a path in the meridional plane *)
  Lemma path_ev (w h : RR -> RR) s dw dh : D (w s) (h s) 0 t -> is_derive w s dw -> is_derive h s dh ->
    is_derive (fun u => Phi (w u) (h u) 0 t) s (- FR (w s) (h s) * dw + - Fz (w s) (h s) * dh).
  Proof.
    intros HD Hw Hh. eapply is_derive_eq.
    - apply (sm_dPhi _ _ _ _ _ _ _ _ _ _ S0 t w h (fun _ => 0) s dw dh 0 HD Hw Hh). apply is_derive_cst.
    - unfold neg, FR, Fz. toR. ring.
  Qed.
  Lemma path_FR (w h : RR -> RR) s dw dh : D (w s) (h s) 0 t -> is_derive w s dw -> is_derive h s dh ->
    is_derive (fun u => - FR (w u) (h u)) s (P2R (w s) (h s) 0 t * dw + PRz (w s) (h s) 0 t * dh).
  Proof.
    intros HD Hw Hh. eapply is_derive_eq.
    - apply (sm_dR _ _ _ _ _ _ _ _ _ _ S0 t w h (fun _ => 0) s dw dh 0 HD Hw Hh). apply is_derive_cst.
    - toR. ring.
  Qed.
  Lemma path_Fz (w h : RR -> RR) s dw dh : D (w s) (h s) 0 t -> is_derive w s dw -> is_derive h s dh ->
    is_derive (fun u => - Fz (w u) (h u)) s (PRz (w s) (h s) 0 t * dw + P2z (w s) (h s) 0 t * dh).
  Proof.
    intros HD Hw Hh. eapply is_derive_eq.
    - apply (sm_dz _ _ _ _ _ _ _ _ _ _ S0 t w h (fun _ => 0) s dw dh 0 HD Hw Hh). apply is_derive_cst.
    - toR. ring.
  Qed.

  Lemma grad_ok i q : inside q -> is_derive (fun u => cartesian Phi t (move i u q)) 0 (grad i q).
  Proof.
    destruct q as [[x y] z]. intros [P HD].
    assert (E0 : forall a : RR, a + 0 = a) by (intros; ring).
    destruct i; cbn [move grad].
    - eapply is_derive_ext. { intros u. symmetry. apply cart_free. }
      eapply is_derive_eq. { apply (path_ev (fun u => sqrt ((x + u) ^ 2 + y ^ 2)) (fun _ => z)); [rewrite E0; exact HD|apply d_wx; auto|apply is_derive_cst]. }
      rewrite E0. toR. ring.
    - eapply is_derive_ext. { intros u. symmetry. apply cart_free. }
      eapply is_derive_eq. { apply (path_ev (fun u => sqrt (x ^ 2 + (y + u) ^ 2)) (fun _ => z)); [rewrite E0; exact HD|apply d_wy; auto|apply is_derive_cst]. }
      rewrite E0. toR. ring.
    - eapply is_derive_ext. { intros u. symmetry. apply cart_free. }
      eapply is_derive_eq. { apply (path_ev (fun u => sqrt (x ^ 2 + y ^ 2)) (fun u => z + u)); [rewrite E0; exact HD|apply is_derive_cst|apply d_id]. }
      rewrite E0. toR. ring.
  Qed.

  Lemma near_inside j q : inside q -> locally 0 (fun s => inside (move j s q)).
  Proof.
    destruct q as [[x y] z]. intros [P HD]. destruct (O _ _ _ _ HD) as (LR & Lz & _).
    assert (E0 : forall a : RR, a + 0 = a) by (intros; ring).
    destruct j; cbn [move inside].
    - apply filter_and.
      + assert (C : continuous (fun s => (x + s) ^ 2 + y ^ 2) 0) by (apply (ex_derive_continuous (V := R_NormedModule)); auto_derive; auto).
        apply (C (fun v => 0 < v)). apply locally_gt. rewrite E0. auto.
      + pose proof (ex_derive_continuous (V := R_NormedModule) _ _ (ex_intro _ _ (d_wx x y P))) as C.
        apply (C (fun v => D v z 0 t)). rewrite E0. exact LR.
    - apply filter_and.
      + assert (C : continuous (fun s => x ^ 2 + (y + s) ^ 2) 0) by (apply (ex_derive_continuous (V := R_NormedModule)); auto_derive; auto).
        apply (C (fun v => 0 < v)). apply locally_gt. rewrite E0. auto.
      + pose proof (ex_derive_continuous (V := R_NormedModule) _ _ (ex_intro _ _ (d_wy x y P))) as C.
        apply (C (fun v => D v z 0 t)). rewrite E0. exact LR.
    - apply filter_and.
      + apply filter_forall. intros; auto.
      + assert (C : continuous (fun s => z + s) 0) by (apply (ex_derive_continuous (V := R_NormedModule)); auto_derive; auto).
        apply (C (fun v => D (sqrt (x ^ 2 + y ^ 2)) v 0 t)). rewrite E0. exact Lz.
  Qed.

  (** The Hessian in Cartesian coordinates *)
  Definition hess (i j : dir) (q : RR * RR * RR) : RR :=
    let '(x, y, z) := q in let w := sqrt (x ^ 2 + y ^ 2) in
    let rr := P2R w z 0 t in let rz := PRz w z 0 t in let zz := P2z w z 0 t in let fr := - FR w z in
    match i, j with
    | DX, DX => rr * x ^ 2 / w ^ 2 + fr * y ^ 2 / w ^ 3
    | DY, DY => rr * y ^ 2 / w ^ 2 + fr * x ^ 2 / w ^ 3
    | DX, DY | DY, DX => rr * x * y / w ^ 2 - fr * x * y / w ^ 3
    | DX, DZ | DZ, DX => rz * x / w
    | DY, DZ | DZ, DY => rz * y / w
    | DZ, DZ => zz
    end.
  Lemma hess_ok i j q : inside q -> is_derive (fun s => grad i (move j s q)) 0 (hess i j q).
  Proof.
    destruct q as [[x y] z]. intros [P HD].
    assert (E0 : forall a : RR, a + 0 = a) by (intros; ring).
    pose proof (sqrt_lt_R0 _ P) as Pw. assert (Ew : sqrt (x ^ 2 + y ^ 2) ^ 2 = x ^ 2 + y ^ 2) by (apply sqrt_sq_eq; lra).
    assert (Ey : y ^ 2 = sqrt (x ^ 2 + y ^ 2) ^ 2 - x ^ 2) by lra.
    assert (FX : is_derive (fun u => - FR (sqrt ((x + u) ^ 2 + y ^ 2)) z) 0 (P2R (sqrt (x ^ 2 + y ^ 2)) z 0 t * (x / sqrt (x ^ 2 + y ^ 2)))).
    { eapply is_derive_eq. { apply (path_FR (fun u => sqrt ((x + u) ^ 2 + y ^ 2)) (fun _ => z)); [rewrite E0; exact HD|apply d_wx; auto|apply is_derive_cst]. } rewrite E0. toR. ring. }
    assert (FY : is_derive (fun u => - FR (sqrt (x ^ 2 + (y + u) ^ 2)) z) 0 (P2R (sqrt (x ^ 2 + y ^ 2)) z 0 t * (y / sqrt (x ^ 2 + y ^ 2)))).
    { eapply is_derive_eq. { apply (path_FR (fun u => sqrt (x ^ 2 + (y + u) ^ 2)) (fun _ => z)); [rewrite E0; exact HD|apply d_wy; auto|apply is_derive_cst]. } rewrite E0. toR. ring. }
    assert (FZ : is_derive (fun u => - FR (sqrt (x ^ 2 + y ^ 2)) (z + u)) 0 (PRz (sqrt (x ^ 2 + y ^ 2)) z 0 t)).
    { eapply is_derive_eq. { apply (path_FR (fun u => sqrt (x ^ 2 + y ^ 2)) (fun u => z + u)); [rewrite E0; exact HD|apply is_derive_cst|apply d_id]. } rewrite E0. toR. ring. }
    assert (GX : is_derive (fun u => - Fz (sqrt ((x + u) ^ 2 + y ^ 2)) z) 0 (PRz (sqrt (x ^ 2 + y ^ 2)) z 0 t * (x / sqrt (x ^ 2 + y ^ 2)))).
    { eapply is_derive_eq. { apply (path_Fz (fun u => sqrt ((x + u) ^ 2 + y ^ 2)) (fun _ => z)); [rewrite E0; exact HD|apply d_wx; auto|apply is_derive_cst]. } rewrite E0. toR. ring. }
    assert (GY : is_derive (fun u => - Fz (sqrt (x ^ 2 + (y + u) ^ 2)) z) 0 (PRz (sqrt (x ^ 2 + y ^ 2)) z 0 t * (y / sqrt (x ^ 2 + y ^ 2)))).
    { eapply is_derive_eq. { apply (path_Fz (fun u => sqrt (x ^ 2 + (y + u) ^ 2)) (fun _ => z)); [rewrite E0; exact HD|apply d_wy; auto|apply is_derive_cst]. } rewrite E0. toR. ring. }
    assert (GZ : is_derive (fun u => - Fz (sqrt (x ^ 2 + y ^ 2)) (z + u)) 0 (P2z (sqrt (x ^ 2 + y ^ 2)) z 0 t)).
    { eapply is_derive_eq. { apply (path_Fz (fun u => sqrt (x ^ 2 + y ^ 2)) (fun u => z + u)); [rewrite E0; exact HD|apply is_derive_cst|apply d_id]. } rewrite E0. toR. ring. }
    assert (CX : forall a, is_derive (fun u => (x + u * a) / sqrt ((x + u) ^ 2 + y ^ 2)) 0 (a / sqrt (x ^ 2 + y ^ 2) - x ^ 2 / sqrt (x ^ 2 + y ^ 2) ^ 3)).
    { intros a. auto_derive. { replace (x + 0) with x by ring. split; [exact P|split; [|exact I]]. apply Rgt_not_eq, Pw. }
      replace (x + 0) with x by ring. rewrite Rmult_0_l, E0. set (w := sqrt (x ^ 2 + y ^ 2)) in *. toR. field. lra. }
    assert (CXy : is_derive (fun u => y / sqrt ((x + u) ^ 2 + y ^ 2)) 0 (- x * y / sqrt (x ^ 2 + y ^ 2) ^ 3)).
    { auto_derive. { replace (x + 0) with x by ring. split; [exact P|split; [|exact I]]. apply Rgt_not_eq, Pw. }
      replace (x + 0) with x by ring. set (w := sqrt (x ^ 2 + y ^ 2)) in *. toR. field. lra. }
    assert (CY : is_derive (fun u => (y + u) / sqrt (x ^ 2 + (y + u) ^ 2)) 0 (1 / sqrt (x ^ 2 + y ^ 2) - y ^ 2 / sqrt (x ^ 2 + y ^ 2) ^ 3)).
    { auto_derive. { replace (y + 0) with y by ring. split; [exact P|split; [|exact I]]. apply Rgt_not_eq, Pw. }
      replace (y + 0) with y by ring. set (w := sqrt (x ^ 2 + y ^ 2)) in *. toR. field. lra. }
    assert (CYx : is_derive (fun u => x / sqrt (x ^ 2 + (y + u) ^ 2)) 0 (- x * y / sqrt (x ^ 2 + y ^ 2) ^ 3)).
    { auto_derive. { replace (y + 0) with y by ring. split; [exact P|split; [|exact I]]. apply Rgt_not_eq, Pw. }
      replace (y + 0) with y by ring. set (w := sqrt (x ^ 2 + y ^ 2)) in *. toR. field. lra. }
    pose proof (CX 1) as CX1. clear CX.
    assert (CXx : is_derive (fun u => (x + u) / sqrt ((x + u) ^ 2 + y ^ 2)) 0 (1 / sqrt (x ^ 2 + y ^ 2) - x ^ 2 / sqrt (x ^ 2 + y ^ 2) ^ 3)).
    { eapply is_derive_ext; [|exact CX1]. intros u. cbn beta. toR. rewrite Rmult_1_r. reflexivity. }
    clear CX1.
    destruct i, j; cbn [move grad hess].
    - eapply is_derive_eq. { apply is_derive_Rmult; [exact FX|exact CXx]. } cbn beta. rewrite !E0.
      set (w := sqrt (x ^ 2 + y ^ 2)) in *. replace (y ^ 2) with (w ^ 2 - x ^ 2) by lra. toR. field. lra.
    - eapply is_derive_eq. { apply is_derive_Rmult; [exact FY|exact CYx]. } cbn beta. rewrite !E0.
      set (w := sqrt (x ^ 2 + y ^ 2)) in *. toR. field. lra.
    - eapply is_derive_eq. { apply is_derive_Rmult; [exact FZ|apply (is_derive_cst (x / sqrt (x ^ 2 + y ^ 2)))]. } cbn beta. rewrite ?E0.
      set (w := sqrt (x ^ 2 + y ^ 2)) in *. toR. field. lra.
    - eapply is_derive_eq. { apply is_derive_Rmult; [exact FX|exact CXy]. } cbn beta. rewrite !E0.
      set (w := sqrt (x ^ 2 + y ^ 2)) in *. toR. field. lra.
    - eapply is_derive_eq. { apply is_derive_Rmult; [exact FY|exact CY]. } cbn beta. rewrite !E0.
      set (w := sqrt (x ^ 2 + y ^ 2)) in *. replace (x ^ 2) with (w ^ 2 - y ^ 2) by lra. toR. field. lra.
    - eapply is_derive_eq. { apply is_derive_Rmult; [exact FZ|apply (is_derive_cst (y / sqrt (x ^ 2 + y ^ 2)))]. } cbn beta. rewrite ?E0.
      set (w := sqrt (x ^ 2 + y ^ 2)) in *. toR. field. lra.
    - eapply is_derive_eq. { exact GX. } set (w := sqrt (x ^ 2 + y ^ 2)) in *. toR. field. lra.
    - eapply is_derive_eq. { exact GY. } set (w := sqrt (x ^ 2 + y ^ 2)) in *. toR. field. lra.
    - exact GZ.
  Qed.
  Lemma second_ok i j q : inside q -> is_second_partial (cartesian Phi t) i j q (hess i j q).
  Proof.
    intros H. pose proof (near_inside j q H) as L. split.
    - eapply filter_imp; [|exact L]. intros s Hs. eexists. apply grad_ok. exact Hs.
    - eapply is_derive_ext_loc; [|apply hess_ok; exact H]. eapply filter_imp; [|exact L]. intros s Hs. symmetry. apply is_derive_unique, grad_ok, Hs.
  Qed.
End Tensor.

(** ** The tensor the code returns *)
Lemma ttensor_value D p t Phi Fphi P2R P2z PRz P2p PRp Ppz R z phi :
  smooth_potential D p Phi Fphi P2R P2z PRz P2p PRp Ppz -> phi_free Phi -> phi_free (apiRf p v0) -> phi_free (apizf p v0) -> slice_open D -> round D ->
  isNonAxi p = false -> isDiss p = false -> D R z phi t -> 0 < R ->
  P2R R z phi t = P2R R z 0 t -> PRz R z phi t = PRz R z 0 t -> P2z R z phi t = P2z R z 0 t ->
  exists T, ttensor p R z phi t = TVal T /\ (exists r1 r2 r3, T = [r1; r2; r3] /\ length r1 = 3%nat /\ length r2 = 3%nat /\ length r3 = 3%nat) /\
    forall i j, entry T i j = - hess p t P2R P2z PRz i j (R * cos phi, R * sin phi, z).
Proof.
  intros S F1 F2 F3 O Rd NA ND HD HR E1 E2 E3. unfold ttensor, meth_Rforce. rewrite NA, ND.
  change (0, 0, 0)%R with v0.
  rewrite (sm_pt _ _ _ _ _ _ _ _ _ _ S), (sm_R2 _ _ _ _ _ _ _ _ _ _ S), (sm_z2 _ _ _ _ _ _ _ _ _ _ S), (sm_p2 _ _ _ _ _ _ _ _ _ _ S),
    (sm_Rz _ _ _ _ _ _ _ _ _ _ S), (sm_Rp _ _ _ _ _ _ _ _ _ _ S).
  rewrite (zero_p2 D p t _ _ _ _ _ _ _ _ S F1 O R z phi HD), (zero_Rp D p t _ _ _ _ _ _ _ _ S F2 R z phi HD), (zero_pt D p t _ _ _ _ _ _ _ _ S F1 R z phi HD).
  eexists. split; [reflexivity|]. split. { cbn [map]. do 3 eexists. split; [reflexivity|]. repeat split. }
  assert (W : sqrt ((R * cos phi) ^ 2 + (R * sin phi) ^ 2) = R) by (rewrite polar_norm, Rabs_right; lra).
  assert (CS : sin phi ^ 2 = 1 - cos phi ^ 2) by (pose proof (sin2_cos2 phi) as H; unfold Rsqr in H; lra).
  intros i j. unfold hess. rewrite W. rewrite E1, E2, E3, (F2 R z phi 0).
  destruct i, j; cbn [entry index nth map]; toR; field_simplify_eq; try lra; rewrite ?CS; try ring.
Qed.
Lemma second_free D p t Phi Fphi P2R P2z PRz P2p PRp Ppz R z phi :
  smooth_potential D p Phi Fphi P2R P2z PRz P2p PRp Ppz -> phi_free (apiRf p v0) -> phi_free (apizf p v0) -> round D -> D R z phi t ->
  P2R R z phi t = P2R R z 0 t /\ PRz R z phi t = PRz R z 0 t /\ P2z R z phi t = P2z R z 0 t.
Proof.
  intros S F2 F3 Rd HD. pose proof (Rd _ _ _ 0 _ HD) as HD0. split; [|split].
  - pose proof (dw_dR D _ _ _ _ R z phi t (sm_dR _ _ _ _ _ _ _ _ _ _ S) HD) as A. pose proof (dw_dR D _ _ _ _ R z 0 t (sm_dR _ _ _ _ _ _ _ _ _ _ S) HD0) as B.
    rewrite <- (is_derive_unique _ _ _ A), <- (is_derive_unique _ _ _ B). apply Derive_ext. intros x. unfold neg. rewrite (F2 x z phi 0). reflexivity.
  - pose proof (dw_dz D _ _ _ _ R z phi t (sm_dR _ _ _ _ _ _ _ _ _ _ S) HD) as A. pose proof (dw_dz D _ _ _ _ R z 0 t (sm_dR _ _ _ _ _ _ _ _ _ _ S) HD0) as B.
    rewrite <- (is_derive_unique _ _ _ A), <- (is_derive_unique _ _ _ B). apply Derive_ext. intros x. unfold neg. rewrite (F2 R x phi 0). reflexivity.
  - pose proof (dw_dz D _ _ _ _ R z phi t (sm_dz _ _ _ _ _ _ _ _ _ _ S) HD) as A. pose proof (dw_dz D _ _ _ _ R z 0 t (sm_dz _ _ _ _ _ _ _ _ _ _ S) HD0) as B.
    rewrite <- (is_derive_unique _ _ _ A), <- (is_derive_unique _ _ _ B). apply Derive_ext. intros x. unfold neg. rewrite (F3 R x phi 0). reflexivity.
Qed.
