From Coq Require Import Reals Lra Psatz.
From Coquelicot Require Import Coquelicot.
From Verif.Lib Require Import RealAux Atan2 Vec3.
From Verif.Model Require Import Coords CoordsVec CoordsSky CoordsSpheroid CoordsJac.
From Verif.Spec Require Import SkySpec CovSpec JacSpec.
From Verif.Proofs Require Import SkyProofs SkyProofs2 VecProofs SpheroidProofs JacProofs.
Open Scope R_scope.
Notation RR := RbaseSymbolsImpl.R (only parsing).

Lemma is_derive_asin x : -1 < x < 1 -> is_derive asin x (1 / sqrt (1 - x ^ 2)).
Proof.
  intros H. apply is_derive_Reals. eapply derive_pt_eq_1. rewrite (derive_pt_asin x H). unfold Rsqr.
  do 3 f_equal. ring.
Qed.
Lemma is_derive_asin_comp (f : RR -> RR) s d : -1 < f s < 1 -> is_derive f s d -> is_derive (fun t => asin (f t)) s (d / sqrt (1 - f s ^ 2)).
Proof.
  intros H Hf. eapply is_derive_eq. { apply (is_derive_comp asin f); [apply is_derive_asin; auto|exact Hf]. }
  unfold scal; simpl; unfold mult; simpl. unfold Rdiv. ring.
Qed.
(** The angle counted from 0 to 2 pi, differentiable off the half-line of zero angle. *)
Lemma wrap_atan2_opp x y : (x < 0 \/ y <> 0) -> wrap2pi (atan2 y x) = PI + atan2 (- y) (- x).
Proof.
  intros H. apply angle_unique2.
  - apply wrap_atan2_range.
  - pose proof (atan2_range (- x) (- y)). split; [lra|]. 
    destruct (Req_dec (atan2 (- y) (- x)) PI) as [E|E]; [|lra]. exfalso.
    pose proof (atan2_cos (- x) (- y)) as C. pose proof (atan2_sin (- x) (- y)) as S. rewrite E, cos_PI in C. rewrite E, sin_PI in S.
    pose proof (sqrt_pos ((- x) ^ 2 + (- y) ^ 2)). destruct H; lra.
  - rewrite wrap_cos. replace (PI + atan2 (- y) (- x)) with (atan2 (- y) (- x) + PI) by ring. rewrite neg_cos.
    pose proof (atan2_cos x y) as C. pose proof (atan2_cos (- x) (- y)) as C2.
    replace ((- x) ^ 2 + (- y) ^ 2) with (x ^ 2 + y ^ 2) in C2 by ring.
    assert (0 < sqrt (x ^ 2 + y ^ 2)) by (apply sqrt_lt_R0; destruct H; nra).
    apply Rmult_eq_reg_l with (sqrt (x ^ 2 + y ^ 2)); lra.
  - rewrite wrap_sin. replace (PI + atan2 (- y) (- x)) with (atan2 (- y) (- x) + PI) by ring. rewrite neg_sin.
    pose proof (atan2_sin x y) as C. pose proof (atan2_sin (- x) (- y)) as C2.
    replace ((- x) ^ 2 + (- y) ^ 2) with (x ^ 2 + y ^ 2) in C2 by ring.
    assert (0 < sqrt (x ^ 2 + y ^ 2)) by (apply sqrt_lt_R0; destruct H; nra).
    apply Rmult_eq_reg_l with (sqrt (x ^ 2 + y ^ 2)); lra.
Qed.
Lemma is_derive_wrap_atan2 (x y : RR -> RR) s dx dy : (x s < 0 \/ y s <> 0) -> is_derive x s dx -> is_derive y s dy ->
  is_derive (fun t => wrap2pi (atan2 (y t) (x t))) s ((x s * dy - y s * dx) / (x s ^ 2 + y s ^ 2)).
Proof.
  intros H Hx Hy.
  assert (L : locally s (fun t => x t < 0 \/ y t <> 0)).
  { destruct H as [H|H].
    - assert (Loc : locally s (fun u => x u < 0)) by (apply (ex_derive_continuous x s (ex_intro _ _ Hx) (fun v => v < 0)); apply locally_lt; auto).
      eapply filter_imp; [|exact Loc]. auto.
    - destruct (Rdichotomy _ _ H) as [G|G].
      + assert (Loc : locally s (fun u => y u < 0)) by (apply (ex_derive_continuous y s (ex_intro _ _ Hy) (fun v => v < 0)); apply locally_lt; auto).
        eapply filter_imp; [|exact Loc]. intros u Hu. cbv beta in Hu. right. lra.
      + assert (Loc : locally s (fun u => 0 < y u)) by (apply (ex_derive_continuous y s (ex_intro _ _ Hy) (fun v => 0 < v)); apply locally_gt; auto).
        eapply filter_imp; [|exact Loc]. intros u Hu. cbv beta in Hu. right. lra. }
  eapply is_derive_ext_loc with (f := fun u => PI + atan2 (- y u) (- x u)).
  { eapply filter_imp; [|exact L]. intros u Hu. cbv beta in Hu. symmetry. apply wrap_atan2_opp; auto. }
  assert (Dx : is_derive (fun u => - x u) s (- dx)) by (apply (is_derive_opp x s dx); auto).
  assert (Dy : is_derive (fun u => - y u) s (- dy)) by (apply (is_derive_opp y s dy); auto).
  assert (D : is_derive (fun u => atan2 (- y u) (- x u)) s ((- x s * - dy - - y s * - dx) / ((- x s) ^ 2 + (- y s) ^ 2))).
  { apply (is_derive_atan2 (fun u => - x u) (fun u => - y u)); auto. destruct H; [left; lra|right; lra]. }
  eapply is_derive_eq. { apply (is_derive_plus (fun _ => PI) _ s 0 _ (is_derive_cst _ _) D). }
  unfold plus; simpl. field. destruct H; nra.
Qed.
(** Zero longitude is exactly the excluded half-line. *)
Lemma wrap_zero x y : (x <> 0 \/ y <> 0) -> wrap2pi (atan2 y x) <> 0 -> x < 0 \/ y <> 0.
Proof.
  intros H N. destruct (Req_dec y 0) as [->|]; [|auto]. left. destruct H as [H|H]; [|tauto].
  destruct (Rtotal_order x 0) as [L|[E|G]]; [auto|tauto|]. exfalso. apply N. unfold atan2.
  destruct (Rlt_dec 0 x); [|lra]. replace (0 / x) with 0 by (field; lra). rewrite atan_0. unfold wrap2pi. destruct (Rlt_dec 0 0); lra.
Qed.

(** ** Rectangular to spherical heliocentric coordinates *)
Ltac toR := match goal with |- ?a = ?b => change (@eq RbaseSymbolsImpl.R a b) end.
Section lbd.
  Variables X Y Z : RR.
  Hypothesis H : X < 0 \/ Y <> 0.
  Let r := sqrt (X * X + Y * Y).
  Let D := sqrt (X * X + Y * Y + Z * Z).
  Lemma r2_pos : 0 < X * X + Y * Y.
  Proof. destruct H; nra. Qed.
  Lemma r_pos : 0 < r. Proof. apply sqrt_lt_R0, r2_pos. Qed.
  Lemma D_pos : 0 < D. Proof. apply sqrt_lt_R0. pose proof r2_pos. nra. Qed.
  Lemma r_sq : r ^ 2 = X * X + Y * Y.
  Proof. unfold r. apply sq_sqrt. pose proof r2_pos. lra. Qed.
  Lemma D_sq : D ^ 2 = r ^ 2 + Z * Z.
  Proof. rewrite r_sq. unfold D. apply sq_sqrt. pose proof r2_pos. nra. Qed.
  Let l := wrap2pi (atan2 Y X).
  Let b := asin (Z / D).
  Lemma cos_l : cos l = X / r.
  Proof.
    unfold l. rewrite wrap_cos. pose proof (atan2_cos X Y) as C. replace (X ^ 2 + Y ^ 2) with (X * X + Y * Y) in C by ring. fold r in C.
    pose proof r_pos. apply Rmult_eq_reg_l with r; [|lra]. rewrite C. field. lra.
  Qed.
  Lemma sin_l : sin l = Y / r.
  Proof.
    unfold l. rewrite wrap_sin. pose proof (atan2_sin X Y) as C. replace (X ^ 2 + Y ^ 2) with (X * X + Y * Y) in C by ring. fold r in C.
    pose proof r_pos. apply Rmult_eq_reg_l with r; [|lra]. rewrite C. field. lra.
  Qed.
  Lemma zd_range : -1 < Z / D < 1.
  Proof.
    pose proof D_pos. pose proof r_pos. pose proof D_sq. split; apply Rmult_lt_reg_r with D; auto;
      unfold Rdiv; rewrite Rmult_assoc, Rinv_l by lra; nra.
  Qed.
  Lemma sin_b : sin b = Z / D.
  Proof. unfold b. apply sin_asin. pose proof zd_range. lra. Qed.
  Lemma cos_b_sqrt : sqrt (1 - (Z / D) ^ 2) = r / D.
  Proof.
    pose proof D_pos. pose proof r_pos. pose proof D_sq as E. apply sqrt_of.
    - apply Rlt_le, Rdiv_lt_0_compat; auto.
    - replace (1 - (Z / D) ^ 2) with ((D ^ 2 - Z * Z) / D ^ 2) by (field; lra). rewrite E at 1. field. lra.
  Qed.
  Lemma cos_b : cos b = r / D.
  Proof. unfold b. rewrite cos_asin by (pose proof zd_range; lra). rewrite <- cos_b_sqrt. f_equal. unfold Rsqr. ring. Qed.
  Lemma block_is : XYZ_to_lbd_block X Y Z =
    mkM (mkV (- Y / r ^ 2) (X / r ^ 2) 0) (mkV (- Z * X / (r * D ^ 2)) (- Z * Y / (r * D ^ 2)) (r / D ^ 2)) (mkV (X / D) (Y / D) (Z / D)).
  Proof.
    unfold XYZ_to_lbd_block. fold r. fold D. cbv zeta. pose proof D_pos. pose proof r_pos.
    destruct (Req_EM_T r 0); [lra|]. destruct (Req_EM_T (r / D) 0) as [E|E].
    { exfalso. assert (r / D <> 0); [|tauto]. apply Rgt_not_eq, Rdiv_lt_0_compat; auto. }
    f_equal; f_equal; field; lra.
  Qed.
End lbd.

Lemma lbd_rates (f g h : RR -> RR) s a b c : is_derive f s a -> is_derive g s b -> is_derive h s c ->
  (f s < 0 \/ g s <> 0) ->
  velocity3 (fun t => XYZ_to_lbd false (f t) (g t) (h t)) s (mulMV (XYZ_to_lbd_block (f s) (g s) (h s)) (mkV a b c)).
Proof.
  intros Hf Hg Hh HN. rewrite block_is by auto.
  set (X := f s) in *. set (Y := g s) in *. set (Z := h s) in *.
  pose proof (r_pos X Y HN) as Hr. pose proof (D_pos X Y Z HN) as HD. pose proof (r_sq X Y HN) as Er. pose proof (D_sq X Y Z HN) as ED.
  pose proof (cos_b_sqrt X Y Z HN) as CB. pose proof (zd_range X Y Z HN) as ZR.
  set (r := sqrt (X * X + Y * Y)) in *. set (D := sqrt (X * X + Y * Y + Z * Z)) in *.
  assert (ED0 : sqrt (f s ^ 2 + g s ^ 2 + h s ^ 2) = D) by (unfold D, X, Y, Z; f_equal; ring).
  assert (Dd : is_derive (fun t => sqrt (f t ^ 2 + g t ^ 2 + h t ^ 2)) s ((X * a + Y * b + Z * c) / D)).
  { auto_derive.
    - exder. fold X. fold Y. fold Z. nra.
    - derw. unfold X, Y, Z in *.
      rewrite ED0. field. lra. }
  unfold XYZ_to_lbd. cbv zeta. vunfold. split; [|split]; cbn [vx vy vz].
  - unfold deg_out. eapply is_derive_eq. { apply is_derive_wrap_atan2; eauto. } fold X Y.
    replace (X ^ 2 + Y ^ 2) with (r ^ 2) by (rewrite Er; ring). toR. field. lra.
  - unfold deg_out. eapply is_derive_eq.
    { apply (is_derive_asin_comp (fun t => h t / sqrt (f t ^ 2 + g t ^ 2 + h t ^ 2))).
      - rewrite ED0. exact ZR.
      - apply is_derive_div; [exact Hh|exact Dd|]. rewrite ED0. lra. }
    cbv beta. rewrite ED0. fold Z. rewrite CB. toR. unfold plus, opp, scal, mult, minus; simpl. unfold mult; simpl.
    transitivity ((c * D ^ 2 - Z * (X * a + Y * b + Z * c)) / (r * D ^ 2)); [field; lra|].
    replace (c * D ^ 2 - Z * (X * a + Y * b + Z * c)) with (- Z * X * a - Z * Y * b + r ^ 2 * c) by (rewrite ED; ring). field. lra.
  - eapply is_derive_eq; [exact Dd|]. toR. field. lra.
Qed.

Lemma rowscale_if (degree : bool) m : (if degree then rowscale (1 / degtorad) m else m) = rowscale (/ unit_angle degree) m.
Proof.
  destruct degree; unfold unit_angle, rowscale, degtorad; destruct m as [[a1 a2 a3] [c1 c2 c3] [d1 d2 d3]]; cbn [vx vy vz r0 r1 r2].
  - cbv iota. replace (1 / (PI / 180)) with (/ (PI / 180)); auto. unfold Rdiv at 2. rewrite Rmult_1_l. auto.
  - cbv iota. rewrite Rinv_1, !Rmult_1_r. auto.
Qed.
Lemma deg_out_fun degree : deg_out degree = (fun a => a * / unit_angle degree).
Proof.
  apply FunctionalExtensionality.functional_extensionality. intros a. apply (unit_inj degree). rewrite deg_out_unit.
  pose proof (unit_angle_pos degree). field. lra.
Qed.
Lemma lbd_degree degree X Y Z : XYZ_to_lbd degree X Y Z =
  let p := XYZ_to_lbd false X Y Z in let u := / unit_angle degree in mkV (vx p * u) (vy p * u) (vz p).
Proof. unfold XYZ_to_lbd. cbv zeta. cbn [vx vy vz]. rewrite deg_out_fun. unfold deg_out. auto. Qed.
Lemma lbd_rates_degree (f g h : RR -> RR) s a b c degree : is_derive f s a -> is_derive g s b -> is_derive h s c ->
  (f s < 0 \/ g s <> 0) ->
  velocity3 (fun t => XYZ_to_lbd degree (f t) (g t) (h t)) s (mulMV (XYZ_to_lbd_jac3 degree (f s) (g s) (h s)) (mkV a b c)).
Proof.
  intros Hf Hg Hh HN. destruct (lbd_rates f g h s a b c Hf Hg Hh HN) as (A & B & C).
  eapply vel_ext. { intros t. symmetry. apply lbd_degree. } cbv zeta.
  unfold XYZ_to_lbd_jac3. cbv zeta. rewrite rowscale_if. generalize (/ unit_angle degree). intros u.
  destruct (XYZ_to_lbd_block (f s) (g s) (h s)) as [[a1 a2 a3] [c1 c2 c3] [d1 d2 d3]].
  unfold rowscale. cbn [r0 r1 r2 vx vy vz mulMV vdot] in *.
  split; [|split]; cbn [vx vy vz].
  - eapply is_derive_eq. { apply (is_derive_scal_l _ s _ u A). } unfold scal; simpl; unfold mult; simpl. toR. unfold vdot; simpl. ring.
  - eapply is_derive_eq. { apply (is_derive_scal_l _ s _ u B). } unfold scal; simpl; unfold mult; simpl. toR. unfold vdot; simpl. ring.
  - exact C.
Qed.
Lemma lbd_inv_jac3 degree X Y Z : (X < 0 \/ Y <> 0) ->
  jacobian3 (fun c => XYZ_to_lbd degree (vx c) (vy c) (vz c)) (mkV X Y Z) (XYZ_to_lbd_jac3 degree X Y Z).
Proof.
  intros HN. apply jac3_intro. intros f g h s a b c Hf Hg Hh E. injection E as E1 E2 E3. subst X Y Z.
  cbn [vx vy vz]. apply lbd_rates_degree; auto.
Qed.

(** The inverse of the velocity block. *)
Definition vel_block (K l b D : RR) : M3 :=
  mkM (mkV (cos l * cos b) (- sin l * K * D) (- cos l * sin b * K * D))
      (mkV (sin l * cos b) (cos l * K * D) (- sin l * sin b * K * D)) (mkV (sin b) 0 (cos b * K * D)).
Definition vel_block_inv (K l b D : RR) : M3 :=
  mkM (mkV (cos l * cos b) (sin l * cos b) (sin b)) (mkV (- sin l / (K * D)) (cos l / (K * D)) 0)
      (mkV (- cos l * sin b / (K * D)) (- sin l * sin b / (K * D)) (cos b / (K * D))).
Lemma vel_block_inverse K l b D v : K * D <> 0 -> mulMV (vel_block_inv K l b D) (mulMV (vel_block K l b D) v) = v.
Proof.
  intros H. pose proof (sc1 l) as Cl. pose proof (sc1 b) as Cb.
  assert (HK : K <> 0) by (intros ->; apply H; ring). assert (HD : D <> 0) by (intros ->; apply H; ring).
  set (c := cos l) in *. set (s := sin l) in *. set (cb := cos b) in *. set (sb := sin b) in *.
  destruct v as [p q w]. unfold vel_block, vel_block_inv. fold c s cb sb. vunfold. f_equal.
  - transitivity (p * ((c * c + s * s) * (cb * cb) + sb * sb) + q * K * D * cb * (s * c - c * s) - w * K * D * cb * sb * (c * c + s * s - 1)); [ring|].
    rewrite Cl, Cb. ring.
  - transitivity (q * (c * c + s * s)); [field; auto|]. rewrite Cl. ring.
  - transitivity (p * (- (c * c + s * s) * cb * sb + cb * sb) / (K * D) + w * ((c * c + s * s) * (sb * sb) + cb * cb)); [field; auto|].
    rewrite Cl, Cb. field; auto.
Qed.
Lemma vel_uniq q s v w : velocity3 q s v -> velocity3 q s w -> v = w.
Proof.
  intros (A & B & C) (A' & B' & C'). apply is_derive_unique in A, B, C, A', B', C'. apply V3_ext; congruence.
Qed.
Lemma vel_ext_loc q q' s v : locally s (fun t => q t = q' t) -> velocity3 q s v -> velocity3 q' s v.
Proof.
  intros E (A & B & C). split; [|split]; (eapply is_derive_ext_loc; [|eassumption]); (eapply filter_imp; [|exact E]); intros t Ht; cbv beta in *; rewrite Ht; auto.
Qed.
Lemma off_cut_loc (x y : RR -> RR) s : (x s < 0 \/ y s <> 0) -> ex_derive x s -> ex_derive y s -> locally s (fun t => x t < 0 \/ y t <> 0).
Proof.
  intros [H|H] Hx Hy.
  - assert (Loc : locally s (fun u => x u < 0)) by (apply (ex_derive_continuous x s Hx (fun v => v < 0)); apply locally_lt; auto).
    eapply filter_imp; [|exact Loc]. auto.
  - destruct (Rdichotomy _ _ H) as [G|G].
    + assert (Loc : locally s (fun u => y u < 0)) by (apply (ex_derive_continuous y s Hy (fun v => v < 0)); apply locally_lt; auto).
      eapply filter_imp; [|exact Loc]. intros u Hu. cbv beta in Hu. right. lra.
    + assert (Loc : locally s (fun u => 0 < y u)) by (apply (ex_derive_continuous y s Hy (fun v => 0 < v)); apply locally_gt; auto).
      eapply filter_imp; [|exact Loc]. intros u Hu. cbv beta in Hu. right. lra.
Qed.
Lemma solve_block (B Bi : M3) (x v w u : V3) : (forall v, mulMV Bi (mulMV B v) = v) ->
  vadd u (mulMV B w) = v -> w = vadd (mulMV (scalM (-1) Bi) u) (mulMV Bi v).
Proof.
  intros Hi <-. transitivity (mulMV Bi (mulMV B w)); [symmetry; apply Hi|]. generalize (mulMV B w). intros. vring.
Qed.
Lemma lbd_inv_jac6 K degree X Y Z vX vY vZ : K <> 0 -> (X < 0 \/ Y <> 0) ->
  jacobian6 (fun p => rectgal_to_sphergal K degree (fst p) (snd p)) (mkV X Y Z, mkV vX vY vZ) (XYZ_to_lbd_jac6 K degree X Y Z vX vY vZ).
Proof.
  intros HK HN. apply jac6_intro. intros f1 f2 f3 f4 f5 f6 s a b' c d e g H1 H2 H3 H4 H5 H6 E. injection E as E1 E2 E3 E4 E5 E6.
  unfold rectgal_to_sphergal. cbn [fst snd vx vy vz].
  set (y1 := fun t => XYZ_to_lbd false (f1 t) (f2 t) (f3 t)).
  set (y2 := fun t => vxvyvz_to_vrpmllpmbb K false true (f4 t) (f5 t) (f6 t) (f1 t) (f2 t) (f3 t)).
  set (J := XYZ_to_lbd_jac6 K degree X Y Z vX vY vZ).
  set (o00 := XYZ_to_lbd_block X Y Z).
  split.
  { cbn [fst snd mulM6]. eapply vel_eq3. { apply (lbd_rates_degree f1 f2 f3 s a b' c degree); auto. rewrite E1, E2. auto. }
    rewrite E1, E2, E3. unfold J, XYZ_to_lbd_jac6. cbn [b00 b01]. unfold XYZ_to_lbd_jac3, zero33. cbv zeta.
    generalize (if degree then rowscale (1 / degtorad) (XYZ_to_lbd_block X Y Z) else XYZ_to_lbd_block X Y Z). intros m. clear. vring. }
  cbn [fst snd mulM6]. 
  (* the position part in radians *)
  assert (V1 : velocity3 y1 s (mulMV o00 (mkV a b' c))).
  { unfold o00. rewrite <- E1, <- E2, <- E3. apply lbd_rates; auto. rewrite E1, E2. auto. }
  pose proof (D_pos X Y Z HN) as HD. pose proof (r_pos X Y HN) as Hr.
  set (l := wrap2pi (atan2 Y X)). set (D := sqrt (X * X + Y * Y + Z * Z)) in *. set (b := asin (Z / D)).
  assert (Y1 : y1 s = mkV l b D).
  { unfold y1, XYZ_to_lbd, deg_out. cbv zeta. rewrite E1, E2, E3. replace (X ^ 2 + Y ^ 2 + Z ^ 2) with (X * X + Y * Y + Z * Z) by ring. fold D. reflexivity. }
  (* the velocity part is differentiable *)
  assert (EX : exists w, velocity3 y2 s w).
  { destruct V1 as (A & B & C).
    set (L := fun t => vx (y1 t)) in *. set (Bt := fun t => vy (y1 t)) in *. set (Dt := fun t => vz (y1 t)) in *.
    assert (HDt : Dt s = D) by (unfold Dt; rewrite Y1; auto).
    assert (P1 : ex_derive (fun t => vx (y2 t)) s).
    { apply (ex_derive_ext (fun t => cos (L t) * cos (Bt t) * f4 t + sin (L t) * cos (Bt t) * f5 t + sin (Bt t) * f6 t)).
      { intros t. reflexivity. } auto_derive. exder. }
    assert (P2 : ex_derive (fun t => vy (y2 t)) s).
    { apply (ex_derive_ext (fun t => (- sin (L t) * f4 t + cos (L t) * f5 t + 0 * f6 t) / (Dt t * K))).
      { intros t. reflexivity. } auto_derive. exder. rewrite HDt. apply Rmult_integral_contrapositive_currified; lra. }
    assert (P3 : ex_derive (fun t => vz (y2 t)) s).
    { apply (ex_derive_ext (fun t => (- cos (L t) * sin (Bt t) * f4 t + - sin (L t) * sin (Bt t) * f5 t + cos (Bt t) * f6 t) / (Dt t * K))).
      { intros t. reflexivity. } auto_derive. exder. rewrite HDt. apply Rmult_integral_contrapositive_currified; lra. }
    exists (mkV (Derive (fun t => vx (y2 t)) s) (Derive (fun t => vy (y2 t)) s) (Derive (fun t => vz (y2 t)) s)).
    split; [|split]; cbn [vx vy vz]; apply Derive_correct; auto. }
  destruct EX as [w V2]. eapply vel_eq3; [exact V2|].
  (* going back *)
  assert (Back : velocity3 (fun t => snd (sphergal_to_rectgal K false (y1 t) (y2 t))) s (mkV d e g)).
  { eapply vel_ext_loc; [|apply vel_mk; [exact H4|exact H5|exact H6]].
    eapply filter_imp; [|apply (off_cut_loc f1 f2 s)]; [|rewrite E1, E2; auto|eexists; eauto|eexists; eauto].
    intros t Ht. cbv beta in Ht.
    pose proof (sphergal_roundtrip K false (mkV (f1 t) (f2 t) (f3 t)) (mkV (f4 t) (f5 t) (f6 t)) HK) as RT.
    unfold rectgal_to_sphergal in RT. cbn [vx vy vz] in RT. fold (y1 t) in RT. fold (y2 t) in RT. rewrite RT; [reflexivity|].
    intros Q. injection Q. intros. destruct Ht; lra. }
  set (vel := y2 s) in *.
  pose proof (lbd_jac6 K false l b D (vx vel) (vy vel) (vz vel) (fun t => (y1 t, y2 t)) s (mulMV o00 (mkV a b' c), w)) as JJ.
  cbn [fst snd] in JJ. fold vel in JJ. destruct JJ as [_ J2].
  { rewrite Y1, V3_eta. reflexivity. }
  { split; auto. }
  cbn [fst snd mulM6] in J2. pose proof (vel_uniq _ _ _ _ J2 Back) as EQ. clear J2 Back V2 V1.
  assert (HKD : K * D <> 0) by (apply Rmult_integral_contrapositive_currified; lra).
  apply (solve_block _ (vel_block_inv K l b D) vzero) in EQ; [|intros v; apply (vel_block_inverse K l b D v HKD)].
  rewrite EQ. unfold J, XYZ_to_lbd_jac6. cbn [b10 b11]. fold o00. cbv zeta. fold D.
  destruct (Req_EM_T (K * D) 0) as [Q|_]; [tauto|]. destruct (Req_EM_T (sqrt (X * X + Y * Y)) 0) as [Q|_]; [lra|].
  rewrite <- (cos_l X Y HN), <- (sin_l X Y HN). fold l.
  assert (CB : sqrt (X * X + Y * Y) / D = cos b) by (symmetry; apply (cos_b X Y Z HN)).
  assert (SB : Z / D = sin b) by (symmetry; apply (sin_b X Y Z HN)).
  rewrite CB, SB. fold (vel_block_inv K l b D).
  assert (VEL : vel = mkV (cos l * cos b * vX + sin l * cos b * vY + sin b * vZ) ((- sin l * vX + cos l * vY) / (K * D))
     ((- cos l * sin b * vX - sin l * sin b * vY + cos b * vZ) / (K * D))).
  { unfold vel, y2. rewrite vxyz_at. cbv zeta. replace (lbd_at false true (f1 s) (f2 s) (f3 s)) with (y1 s) by reflexivity. rewrite Y1. cbn [vx vy vz].
    unfold sky_matrix. rewrite E4, E5, E6. vunfold. f_equal; field; split; lra. }
  rewrite VEL. cbn [vx vy vz]. generalize (vel_block_inv K l b D) (mkV d e g). intros Bi v3.
  rewrite !mulMV_assoc. generalize (mulMV o00 (mkV a b' c)). intros x3. f_equal.
  unfold lbd_to_XYZ_jac6. cbv zeta iota. cbn [b10]. f_equal. f_equal. f_equal; f_equal; ring.
Qed.

(** ** Galactocentric rectangular to cylindrical *)
Lemma galcencyl_jac x y z vx vy vz : (0 < x \/ y <> 0) ->
  jacobian6 (fun p => let '(R, phi, zc) := rect_to_cyl (Vec3.vx (fst p)) (Vec3.vy (fst p)) (Vec3.vz (fst p)) in
                      let v := rect_to_cyl_vec (Vec3.vx (snd p)) (Vec3.vy (snd p)) (Vec3.vz (snd p)) (Vec3.vx (fst p)) (Vec3.vy (fst p)) (Vec3.vz (fst p)) false in
                      (mkV R (Vec3.vx v) (Vec3.vy v), mkV zc (Vec3.vz v) phi))
    (mkV x y z, mkV vx vy vz) (galcenrect_to_galcencyl_jac x y z vx vy vz).
Proof.
  intros HN. apply jac6_intro. intros f1 f2 f3 f4 f5 f6 s a b c d e g H1 H2 H3 H4 H5 H6 E. injection E as E1 E2 E3 E4 E5 E6.
  cbn [fst snd Vec3.vx Vec3.vy Vec3.vz]. unfold rect_to_cyl_vec, rect_to_cyl. cbn [fst snd Vec3.vx Vec3.vy Vec3.vz].
  assert (P : 0 < x * x + y * y) by (destruct HN; nra).
  set (R := sqrt (x * x + y * y)). assert (HR : 0 < R) by (apply sqrt_lt_R0; auto). assert (ER : R ^ 2 = x * x + y * y) by (apply sq_sqrt; lra).
  set (phi := fun t => atan2 (f2 t) (f1 t)).
  assert (Dphi : is_derive phi s ((x * b - y * a) / R ^ 2)).
  { unfold phi. eapply is_derive_eq. { apply is_derive_atan2; eauto. rewrite E1, E2. auto. } rewrite E1, E2, ER. toR. f_equal. ring. }
  assert (Cp : cos (phi s) = x / R).
  { unfold phi. rewrite E1, E2. pose proof (atan2_cos x y) as C. replace (x ^ 2 + y ^ 2) with (x * x + y * y) in C by ring. fold R in C. rewrite <- C at 2. field. lra. }
  assert (Sp : sin (phi s) = y / R).
  { unfold phi. rewrite E1, E2. pose proof (atan2_sin x y) as C. replace (x ^ 2 + y ^ 2) with (x * x + y * y) in C by ring. fold R in C. rewrite <- C at 2. field. lra. }
  unfold galcenrect_to_galcencyl_jac, mulM6. fold R. destruct (Req_EM_T R 0) as [Q|_]; [lra|]. cbn [b00 b01 b10 b11 fst snd]. vunfold.
  split; cbn [fst snd]; split; [|split| |split]; cbn [Vec3.vx Vec3.vy Vec3.vz].
  - auto_derive. { exder. rewrite E1, E2. nra. } derw. replace (f1 s ^ 2 + f2 s ^ 2) with (x * x + y * y) by (rewrite E1, E2; ring). fold R. rewrite E1, E2. field. lra.
  - apply (is_derive_ext (fun t => f4 t * cos (phi t) + f5 t * sin (phi t))). { reflexivity. }
    auto_derive. { exder. } derw. rewrite Cp, Sp, E4, E5. field. lra.
  - apply (is_derive_ext (fun t => - f4 t * sin (phi t) + f5 t * cos (phi t))). { reflexivity. }
    auto_derive. { exder. } derw. rewrite Cp, Sp, E4, E5. field. lra.
  - eapply is_derive_eq; [exact H3|]. toR. ring.
  - eapply is_derive_eq; [exact H6|]. toR. ring.
  - eapply is_derive_eq; [exact Dphi|]. toR. field. lra.
Qed.
