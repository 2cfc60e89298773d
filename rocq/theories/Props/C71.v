(** C71: stars released from a progenitor into the tails of a stream by the stream-spray distribution functions (df/streamspraydf.py). *)
From Coq Require Import Reals Lra List Lia String Bool.
From Verif.Lib Require Import RealAux Vec3 Atan2.
From Verif.Model Require Import Coords CoordsVec RotVec SprayDF.
From Verif.Spec Require Import SkySpec SpraySpec.
From Verif.Proofs Require Import SkyProofs RotVecProofs SprayProofs.
Import ListNotations.
Open Scope string_scope.
Open Scope list_scope.
Open Scope R_scope.
Notation RR := RbaseSymbolsImpl.R (only parsing).

Lemma polar_axis r : 0 < r -> rect_to_cyl r 0 0 = (r, 0, 0).
Proof.
  intros H. unfold rect_to_cyl. assert (E : sqrt (r ^ 2 + 0 ^ 2) = r) by (replace (r ^ 2 + 0 ^ 2) with (r ^ 2) by ring; apply sqrt_pow2; lra).
  assert (A : atan2 0 r = 0).
  { pose proof (atan2_polar r 0 H) as K. rewrite sin_0, cos_0, Rmult_0_r, Rmult_1_r in K. apply K. pose proof PI_RGT_0. lra. }
  rewrite E, A. reflexivity.
Qed.
Lemma cos_colat b : sin (0.5 * PI - b) = cos b /\ cos (0.5 * PI - b) = sin b.
Proof. replace (0.5 * PI) with (PI / 2) by lra. split; [apply sin_shift|apply cos_shift]. Qed.

(** The frame of the progenitor: the matrix is a proper rotation that puts the progenitor on the first axis and its velocity in the plane of the first two, moving
    forward, and the second matrix is its inverse. *)
Theorem C71_frame : forall x v, regular x v ->
  rotation (rot x v) /\ mulMM (rot_inv x v) (rot x v) = eye /\ mulMM (rot x v) (rot_inv x v) = eye /\
  mulMV (rot x v) x = mkV (vnorm x) 0 0 /\
  mulMV (rot x v) v = mkV (vdot x v / vnorm x) (vnorm (vcross x v) / vnorm x) 0 /\ 0 < vnorm (vcross x v) / vnorm x.
Proof.
  intros x v H. destruct (rot_frame x v H) as (R & I & _). split; [exact R|]. rewrite I.
  split; [apply ortho_l, R|]. split; [apply R|]. split; [apply rot_x; exact H|]. split; [apply rot_v; exact H|].
  apply Rdiv_lt_0_compat; [apply vnorm_pos, H|apply (rx x v H)].
Qed.
(** the hypotheses are met by an inclined orbit *)
Example C71_frame_ex : regular (mkV 3 0 4) (mkV 0 1 0).
Proof.
  assert (N : vnorm (vcross (mkV 3 0 4) (mkV 0 1 0)) = 5).
  { unfold vnorm. replace (vnorm2 _) with (5 ^ 2) by (vunfold; simpl; lra). apply sqrt_pow2. lra. }
  split.
  - intros E. rewrite E in N. unfold vnorm in N. replace (vnorm2 vzero) with 0 in N by (unfold vzero; vunfold; simpl; lra). rewrite sqrt_0 in N. lra.
  - left. unfold e_L, unit. rewrite N. vunfold. simpl. lra.
Qed.

Section Props.
  Variables rtide Rforce : RR -> RR -> RR -> RR.
  Variable mass : RR.
  (** Without a centre, the origin is the centre. *)
  Theorem C71_center : forall spray P V g leading, release spray None P V g leading = release spray (Some (vzero, vzero)) P V g leading.
  Proof.
    intros spray P V g leading. unfold release. assert (S : forall a, vsub a vzero = a) by (intros []; unfold vzero; vunfold; f_equal; ring).
    rewrite !S. destruct (spray _ _ _ _) as [a b]. f_equal; symmetry; [set (z := mulMV _ a)|set (z := mulMV _ b)]; destruct z; unfold vzero; vunfold; f_equal; ring.
  Qed.

  (** chen24: the star is released at the distance g0 rt from the progenitor in the direction with longitude g1 and latitude g2 in its frame (outward for the
      trailing tail, the opposite for the leading tail), with the velocity g3 v_esc in the direction (g4, g5) relative to it. The tidal radius is evaluated at the
      progenitor's distance, in the plane, at azimuth zero. *)
  Theorem C71_chen24 : forall c w P V g (leading : bool), let x := vsub P c in let v := vsub V w in regular x v ->
    let Dr := g 0%nat * rtide (vnorm x) 0 0 in let Dv := g 3%nat * sqrt (2 * mass / Dr) in
    let sgn := if leading then -1 else 1 in
    let '(xs, vs) := release (chen24 rtide mass) (Some (c, w)) P V g leading in
    xs = vadd P (vscal (sgn * Dr) (comb x v (cos (g 2%nat) * cos (g 1%nat)) (cos (g 2%nat) * sin (g 1%nat)) (sin (g 2%nat)))) /\
    vs = vadd V (vscal (sgn * Dv) (comb x v (cos (g 5%nat) * cos (g 4%nat)) (cos (g 5%nat) * sin (g 4%nat)) (sin (g 5%nat)))).
  Proof.
    intros c w P V g leading x v H Dr Dv sgn. unfold release. fold x. fold v. rewrite (rot_x x v H), (rot_v x v H). unfold chen24. simpl vx; simpl vy; simpl vz.
    rewrite polar_axis by (apply (rx x v H)). fold Dr. fold Dv. unfold spher_to_cyl, cyl_to_rect. cbv iota zeta.
    rewrite !(proj1 (cos_colat _)), !(proj2 (cos_colat _)), !(rot_inv_comb x v H), !comb_add, (comb_x x v H), (comb_v x v H).
    assert (A : forall a c d, vadd (vadd (vsub a c) d) c = vadd a d) by (intros [] [] []; vunfold; f_equal; ring).
    unfold x at 1, v at 3. rewrite !A. rewrite <- !comb_scal.
    split; f_equal; f_equal; unfold sgn; destruct leading; ring.
  Qed.
  (** spray_df called directly, with any position and velocity: the tidal radius is that of the cylindrical coordinates R, z, phi of the position. *)
  Theorem C71_chen24_direct : forall xp vp g (leading : bool),
    let Dr := g 0%nat * rtide (sqrt (vx xp ^ 2 + vy xp ^ 2)) (vz xp) (atan2 (vy xp) (vx xp)) in let Dv := g 3%nat * sqrt (2 * mass / Dr) in
    let sgn := if leading then -1 else 1 in
    chen24 rtide mass xp vp g leading =
      (vadd xp (vscal (sgn * Dr) (mkV (cos (g 2%nat) * cos (g 1%nat)) (cos (g 2%nat) * sin (g 1%nat)) (sin (g 2%nat)))),
       vadd vp (vscal (sgn * Dv) (mkV (cos (g 5%nat) * cos (g 4%nat)) (cos (g 5%nat) * sin (g 4%nat)) (sin (g 5%nat))))).
  Proof.
    intros xp vp g leading Dr Dv sgn. unfold chen24, rect_to_cyl. fold Dr. fold Dv. unfold spher_to_cyl, cyl_to_rect. cbv iota zeta.
    rewrite !(proj1 (cos_colat _)), !(proj2 (cos_colat _)). unfold vadd, vscal. simpl vx; simpl vy; simpl vz.
    f_equal; f_equal; unfold sgn; destruct leading; ring.
  Qed.
  (** Consequences a user sees: the distance and the relative speed, and that the leading star mirrors the trailing star in the progenitor. *)
  Theorem C71_chen24_distance : forall c w P V g (leading : bool), let x := vsub P c in let v := vsub V w in regular x v ->
    let Dr := g 0%nat * rtide (vnorm x) 0 0 in 0 < Dr -> 0 <= mass -> 0 <= g 3%nat ->
    let '(xs, vs) := release (chen24 rtide mass) (Some (c, w)) P V g leading in
    vnorm (vsub xs P) = Dr /\ vnorm (vsub vs V) ^ 2 = g 3%nat ^ 2 * (2 * mass / vnorm (vsub xs P)) /\
    let '(xo, vo) := release (chen24 rtide mass) (Some (c, w)) P V g (negb leading) in
    vsub xo P = vopp (vsub xs P) /\ vsub vo V = vopp (vsub vs V).
  Proof.
    intros c w P V g leading x v H Dr HD HM Hg.
    pose proof (C71_chen24 c w P V g leading H) as K. pose proof (C71_chen24 c w P V g (negb leading) H) as K'. cbv zeta in K, K'.
    destruct (release _ _ _ _ _ leading) as [xs vs]. destruct (release _ _ _ _ _ (negb leading)) as [xo vo]. destruct K as [-> ->], K' as [-> ->].
    fold x. fold v. fold Dr. set (Dv := g 3%nat * sqrt (2 * mass / Dr)).
    assert (S : forall a d, vsub (vadd a d) a = d) by (intros [] []; vunfold; f_equal; ring). rewrite !S.
    assert (N : forall k a b, vnorm (vscal k (comb x v (cos b * cos a) (cos b * sin a) (sin b))) = Rabs k).
    { intros k a b. rewrite <- comb_scal. unfold vnorm. rewrite (comb_norm x v H).
      pose proof (sin2_cos2 a) as A. pose proof (sin2_cos2 b) as B. unfold Rsqr in A, B. rewrite <- (sqrt_pow2 (Rabs k)) by apply Rabs_pos. f_equal.
      rewrite <- Rsqr_pow2, <- Rsqr_abs. unfold Rsqr.
      transitivity (k * k * (cos b * cos b * (sin a * sin a + cos a * cos a) + sin b * sin b)); [ring|]. rewrite A.
      transitivity (k * k * (sin b * sin b + cos b * cos b)); [ring|]. rewrite B. ring. }
    rewrite !N. assert (E : Rabs ((if leading then -1 else 1) * Dr) = Dr).
    { destruct leading; [rewrite Rabs_left; lra|rewrite Rabs_right; lra]. }
    rewrite E. split; [reflexivity|split].
    - rewrite <- Rsqr_pow2, <- Rsqr_abs. assert (Q : sqrt (2 * mass / Dr) * sqrt (2 * mass / Dr) = 2 * mass / Dr).
      { apply sqrt_sqrt. apply Rmult_le_pos; [lra|left; apply Rinv_0_lt_compat; lra]. }
      unfold Rsqr. transitivity (Dv * Dv); [destruct leading; ring|]. unfold Dv.
      transitivity (g 3%nat * g 3%nat * (sqrt (2 * mass / Dr) * sqrt (2 * mass / Dr))); [ring|]. rewrite Q. ring.
    - assert (O : forall k d, vscal (- k) d = vopp (vscal k d)) by (intros k []; vunfold; f_equal; ring).
      split; rewrite <- O; f_equal; destruct leading; simpl; ring.
  Qed.

  (** fardal15: in the frame of the progenitor the star has the cylindrical coordinates r + k0 rt, k5 rt/r, k3 rt/r and the velocities vR (1 + k1),
      vT + k2 vc rt/r, k4 vc rt/r. The tidal radius and the circular velocity are evaluated at the progenitor's distance, in the plane, at azimuth zero. *)
  Theorem C71_fardal15 : forall mean sig c w P V g (leading : bool), let x := vsub P c in let v := vsub V w in regular x v ->
    let r := vnorm x in let rt := rtide r 0 0 in let vc := sqrt (- r * Rforce r 0 0) in
    let k i := (if leading then - mean i else mean i) + g i * sig i in
    let phi := k 5%nat * (rt / r) in let R := r + k 0%nat * rt in
    let vR := vdot x v / r * (1 + k 1%nat) in let vT := vnorm (vcross x v) / r + k 2%nat * vc * (rt / r) in
    release (fardal15 rtide Rforce mean sig) (Some (c, w)) P V g leading =
      (vadd (comb x v (R * cos phi) (R * sin phi) (k 3%nat * (rt / r))) c,
       vadd (comb x v (vR * cos phi - vT * sin phi) (vR * sin phi + vT * cos phi) (k 4%nat * vc * (rt / r))) w).
  Proof.
    intros mean sig c w P V g leading x v H r rt vc k phi R vR vT. unfold release. fold x. fold v. rewrite (rot_x x v H), (rot_v x v H).
    unfold fardal15. simpl vx; simpl vy; simpl vz. rewrite polar_axis by (apply (rx x v H)). unfold spray_vc, cyl_to_rect, rect_to_cyl_vec, cyl_to_rect_vec.
    cbv iota zeta. simpl vx; simpl vy; simpl vz. rewrite cos_0, sin_0, !(rot_inv_comb x v H).
    assert (Kk : forall i, fardal_k mean sig g leading i = k i) by reflexivity. rewrite (Kk 0%nat), (Kk 1%nat), (Kk 2%nat), (Kk 3%nat), (Kk 4%nat), (Kk 5%nat). fold r. fold rt. fold vc. clear Kk.
    assert (P0 : 0 + k 5%nat * (rt / r) = phi) by (unfold phi; ring). rewrite P0. fold R.
    assert (VR : (vdot x v / r * 1 + vnorm (vcross x v) / r * 0) * (1 + k 1%nat) = vR) by (unfold vR; ring).
    assert (VT : - (vdot x v / r) * 0 + vnorm (vcross x v) / r * 1 + k 2%nat * vc * (rt / r) = vT) by (unfold vT; ring).
    rewrite VR, VT. reflexivity.
  Qed.
  Theorem C71_fardal15_direct : forall mean sig xp vp g (leading : bool), 0 < vx xp ^ 2 + vy xp ^ 2 ->
    let r := sqrt (vx xp ^ 2 + vy xp ^ 2) in let phi := atan2 (vy xp) (vx xp) in
    let rt := rtide r (vz xp) phi in let vc := sqrt (- r * Rforce r (vz xp) phi) in
    let k i := (if leading then - mean i else mean i) + g i * sig i in
    let a := phi + k 5%nat * (rt / r) in let R := r + k 0%nat * rt in
    let vR := (vx xp * vx vp + vy xp * vy vp) / r * (1 + k 1%nat) in let vT := (vx xp * vy vp - vy xp * vx vp) / r + k 2%nat * vc * (rt / r) in
    fardal15 rtide Rforce mean sig xp vp g leading =
      (mkV (R * cos a) (R * sin a) (k 3%nat * (rt / r)),
       mkV (vR * cos a - vT * sin a) (vR * sin a + vT * cos a) (k 4%nat * vc * (rt / r))).
  Proof.
    intros mean sig xp vp g leading H r phi rt vc k a R vR vT. assert (Hr : 0 < r) by (apply sqrt_lt_R0; exact H).
    assert (C : cos phi = vx xp / r) by (apply Rmult_eq_reg_l with r; [unfold phi, r at 1; rewrite atan2_cos; field; lra|lra]).
    assert (S : sin phi = vy xp / r) by (apply Rmult_eq_reg_l with r; [unfold phi, r at 1; rewrite atan2_sin; field; lra|lra]).
    unfold fardal15, rect_to_cyl. fold r. fold phi. unfold spray_vc, cyl_to_rect, rect_to_cyl_vec, cyl_to_rect_vec. cbv iota zeta. simpl vx; simpl vy; simpl vz.
    assert (Kk : forall i, fardal_k mean sig g leading i = k i) by reflexivity.
    rewrite (Kk 0%nat), (Kk 1%nat), (Kk 2%nat), (Kk 3%nat), (Kk 4%nat), (Kk 5%nat). clear Kk. fold rt. fold vc. fold a. fold R.
    assert (VR : (vx vp * cos phi + vy vp * sin phi) * (1 + k 1%nat) = vR) by (rewrite C, S; unfold vR; field; lra).
    assert (VT : - vx vp * sin phi + vy vp * cos phi + k 2%nat * vc * (rt / r) = vT) by (rewrite C, S; unfold vT; field; lra).
    rewrite VR, VT. reflexivity.
  Qed.
End Props.
(** The height above the plane of the orbit is k3 rt/r, a ratio of lengths rather than a length: stars released at twice the distance with twice the tidal
    radius are not at twice the height, so the stream depends on the unit of length. Witness with the default scatter. *)
Lemma axis_norm r : 0 < r -> vnorm (mkV r 0 0) = r.
Proof. intros H. unfold vnorm. replace (vnorm2 (mkV r 0 0)) with (r ^ 2) by (vunfold; simpl; ring). apply sqrt_pow2. lra. Qed.
Lemma axis_L r u : 0 < r -> 0 < u -> e_L (mkV r 0 0) (mkV 0 u 0) = mkV 0 0 1 /\ e_r (mkV r 0 0) = mkV 1 0 0 /\ vnorm (vcross (mkV r 0 0) (mkV 0 u 0)) = r * u.
Proof.
  intros H U. assert (P : 0 < r * u) by (apply Rmult_lt_0_compat; auto).
  assert (N : vnorm (vcross (mkV r 0 0) (mkV 0 u 0)) = r * u).
  { unfold vnorm. replace (vnorm2 _) with ((r * u) ^ 2) by (vunfold; simpl; ring). apply sqrt_pow2. lra. }
  split; [|split; [|exact N]].
  - unfold e_L, unit. rewrite N. vunfold. simpl. f_equal; field; lra.
  - unfold e_r, unit. rewrite axis_norm by auto. vunfold. f_equal; field; lra.
Qed.
Lemma axis_regular r u : 0 < r -> 0 < u -> regular (mkV r 0 0) (mkV 0 u 0).
Proof.
  intros H U. destruct (axis_L r u H U) as (A & _ & N). assert (P : 0 < r * u) by (apply Rmult_lt_0_compat; auto). split; [|right; exact A].
  intros E. rewrite E in N. unfold vnorm in N. replace (vnorm2 vzero) with 0 in N by (unfold vzero; vunfold; simpl; ring). rewrite sqrt_0 in N. lra.
Qed.
Lemma sub0 a : vsub a vzero = a.
Proof. destruct a. unfold vzero. vunfold. f_equal; ring. Qed.
Theorem C71_fardal15_height_refuted : exists (rtide Rforce : RR -> RR -> RR -> RR) (x v : V3) (g : nat -> RR),
  (forall l R z phi, 0 < l -> rtide (l * R) (l * z) phi = l * rtide R z phi) /\ regular x v /\ regular (vscal 2 x) v /\
  vz (fst (release (fardal15 rtide Rforce fardal_mean fardal_sig) None (vscal 2 x) v g false)) <>
  2 * vz (fst (release (fardal15 rtide Rforce fardal_mean fardal_sig) None x v g false)).
Proof.
  exists (fun R _ _ => R), (fun R _ _ => - 1 / R), (mkV 1 0 0), (mkV 0 1 0), (fun _ => 1).
  replace (vscal 2 (mkV 1 0 0)) with (mkV 2 0 0) by (vunfold; f_equal; ring).
  assert (R1 : regular (mkV 1 0 0) (mkV 0 1 0)) by (apply axis_regular; lra). assert (R2 : regular (mkV 2 0 0) (mkV 0 1 0)) by (apply axis_regular; lra).
  split; [reflexivity|]. split; [exact R1|]. split; [exact R2|]. rewrite !C71_center.
  pose proof (C71_fardal15 (fun R _ _ => R) (fun R _ _ => - 1 / R) fardal_mean fardal_sig vzero vzero (mkV 1 0 0) (mkV 0 1 0) (fun _ => 1) false) as K1.
  pose proof (C71_fardal15 (fun R _ _ => R) (fun R _ _ => - 1 / R) fardal_mean fardal_sig vzero vzero (mkV 2 0 0) (mkV 0 1 0) (fun _ => 1) false) as K2.
  cbv zeta in K1, K2. rewrite !sub0 in K1, K2. rewrite (K1 R1), (K2 R2). clear K1 K2. unfold fst.
  assert (Z : forall r a b c, 0 < r -> vz (vadd (comb (mkV r 0 0) (mkV 0 1 0) a b c) vzero) = c).
  { intros r a b c H. destruct (axis_L r 1 H Rlt_0_1) as (A & B & _). unfold comb, e_t. rewrite A, B. unfold vzero. vunfold. simpl. ring. }
  rewrite !Z by lra. rewrite !axis_norm by lra. unfold fardal_mean, fardal_sig. lra.
Qed.
(** The tidal radius is not that of the place where the progenitor is. *)
Theorem C71_place_refuted : exists (rtide : RR -> RR -> RR -> RR) (x v : V3) (g : nat -> RR), regular x v /\
  (let '(R, phi, z) := rect_to_cyl (vx x) (vy x) (vz x) in
   vnorm (vsub (fst (release (chen24 rtide 1) None x v g false)) x) <> g 0%nat * rtide R z phi) /\ (forall R z phi, 0 < rtide R z phi) /\ g 0%nat = 1.6.
Proof.
  exists (fun _ z _ => 1 + z ^ 2), (mkV 3 0 4), (mkV 0 1 0), (fun _ => 1.6). split; [apply C71_frame_ex|]. split; [|split; [intros R z phi; pose proof (pow2_ge_0 z); lra|reflexivity]].
  unfold rect_to_cyl. rewrite C71_center.
  pose proof (C71_chen24_distance (fun _ z _ => 1 + z ^ 2) 1 vzero vzero (mkV 3 0 4) (mkV 0 1 0) (fun _ => 1.6) false) as K. cbv zeta in K. rewrite !sub0 in K.
  specialize (K C71_frame_ex ltac:(lra) ltac:(lra) ltac:(lra)). destruct (release _ _ _ _ _ false) as [xs vs]. destruct K as [K _]. simpl vz. unfold fst. intros E. rewrite K in E. lra.
Qed.
(** An orbit in the plane z = 0 with negative angular momentum: the released star is not the mirror image of the star released from the mirrored orbit (in an
    axisymmetric potential), although its frame should be. With the defaults, the trailing star of the retrograde orbit is slower than the progenitor, that of the
    prograde orbit faster. *)
Theorem C71_retrograde_refuted : exists (rtide Rforce : RR -> RR -> RR -> RR) (x v : V3) (g : nat -> RR),
  (forall R z p q, rtide R z p = rtide R z q /\ Rforce R z p = Rforce R z q) /\ regular x v /\ (forall i, g i = 0) /\ mirror x = x /\
  vnorm v < vnorm (snd (release (fardal15 rtide Rforce fardal_mean fardal_sig) None x v g false)) /\
  vnorm (snd (release (fardal15 rtide Rforce fardal_mean fardal_sig) None (mirror x) (mirror v) g false)) < vnorm (mirror v).
Proof.
  exists (fun R _ _ => R), (fun R _ _ => - / R), (mkV 1 0 0), (mkV 0 1 0), (fun _ => 0).
  assert (R1 : regular (mkV 1 0 0) (mkV 0 1 0)) by (apply axis_regular; lra).
  split; [split; reflexivity|]. split; [exact R1|]. split; [reflexivity|]. split; [unfold mirror; simpl; f_equal; ring|].
  assert (Mx : mirror (mkV 1 0 0) = mkV 1 0 0) by (unfold mirror; simpl; f_equal; ring). rewrite Mx.
  assert (Mv : mirror (mkV 0 1 0) = mkV 0 (-1) 0) by (unfold mirror; simpl; f_equal; ring). rewrite Mv.
  assert (S1 : sqrt 1 = 1) by apply sqrt_1.
  assert (Y : forall u, vnorm (mkV 0 u 0) = Rabs u).
  { intros u. unfold vnorm. replace (vnorm2 (mkV 0 u 0)) with (Rsqr u) by (vunfold; unfold Rsqr; simpl; ring). apply sqrt_Rsqr_abs. }
  split.
  - rewrite C71_center.
    pose proof (C71_fardal15 (fun R _ _ => R) (fun R _ _ => - / R) fardal_mean fardal_sig vzero vzero (mkV 1 0 0) (mkV 0 1 0) (fun _ => 0) false) as K1.
    cbv zeta in K1. rewrite !sub0 in K1. rewrite (K1 R1). clear K1. unfold snd.
    destruct (axis_L 1 1 Rlt_0_1 Rlt_0_1) as (A & B & C). unfold comb, e_t. rewrite A, B, C, axis_norm by lra. unfold fardal_mean, fardal_sig.
    replace ((0 + 0 * 0) * (1 / 1)) with 0 by lra. rewrite cos_0, sin_0.
    replace (- (1) * - / 1) with 1 by (field). rewrite S1. 
    replace (vadd _ vzero) with (mkV 0 1.3 0) by (unfold vzero; vunfold; simpl; f_equal; lra).
    rewrite !Y, !Rabs_right; lra.
  - unfold release.
    assert (Lz : Lnorm (mkV 1 0 0) (mkV 0 (-1) 0) = mkV 0 0 (-1)).
    { unfold Lnorm. replace (vcross (mkV 1 0 0) (mkV 0 (-1) 0)) with (mkV 0 0 (-1)) by (vunfold; simpl; f_equal; lra).
      replace (vnorm2 (mkV 0 0 (-1))) with 1 by (vunfold; simpl; lra). rewrite S1, Rinv_1. vunfold. f_equal; ring. }
    assert (E : forall i, rotate_to_arbitrary_vector i false (mkV 0 0 (-1)) zhat = scalM (-1) eye).
    { intros i. assert (N0 : mkV 0 0 (-1) <> vzero) by (unfold vzero; intros E; injection E; lra).
      assert (N1 : vnorm2 zhat = 1) by (unfold zhat; vunfold; simpl; ring).
      pose proof (cut_cases (mkV 0 0 (-1)) zhat N0 N1 i) as K. cbv zeta in K.
      assert (D : vdot (vscal (/ sqrt (vnorm2 (mkV 0 0 (-1)))) (mkV 0 0 (-1))) zhat = -1).
      { replace (vnorm2 (mkV 0 0 (-1))) with 1 by (vunfold; simpl; lra). rewrite S1, Rinv_1. unfold zhat. vunfold. simpl. ring. }
      rewrite D in K. destruct K as [[_ K]|[[K _]|[_ K]]]; [exfalso; lra|exact K|exfalso; lra]. }
    assert (Z : z_rot (mkV 1 0 0) (mkV 0 (-1) 0) = scalM (-1) eye /\ z_rot_inv (mkV 1 0 0) (mkV 0 (-1) 0) = scalM (-1) eye).
    { unfold z_rot, z_rot_inv. rewrite Lz, !E. unfold eye. vunfold. split; f_equal; f_equal; ring. }
    destruct Z as [Z Zi].
    assert (CS : cos_sin (mkV 1 0 0) (mkV 0 (-1) 0) = (-1, 0)).
    { unfold cos_sin. rewrite Z. replace (mulMV (scalM (-1) eye) (mkV 1 0 0)) with (mkV (-1) 0 0) by (unfold eye; vunfold; simpl; f_equal; ring).
      simpl vx. simpl vy. replace ((-1) ^ 2 + 0 ^ 2) with 1 by ring. rewrite S1. f_equal; field. }
    assert (RT : rot (mkV 1 0 0) (mkV 0 (-1) 0) = mkM (mkV 1 0 0) (mkV 0 1 0) (mkV 0 0 (-1))).
    { unfold rot. rewrite CS, Z. unfold pa_rot, eye. vunfold. simpl. f_equal; f_equal; ring. }
    assert (RI : rot_inv (mkV 1 0 0) (mkV 0 (-1) 0) = mkM (mkV 1 0 0) (mkV 0 1 0) (mkV 0 0 (-1))).
    { unfold rot_inv. rewrite CS, Zi. unfold pa_rot_inv, eye. vunfold. simpl. f_equal; f_equal; ring. }
    rewrite RT, RI. replace (mulMV (mkM (mkV 1 0 0) (mkV 0 1 0) (mkV 0 0 (-1))) (mkV 1 0 0)) with (mkV 1 0 0) by (vunfold; simpl; f_equal; ring).
    replace (mulMV (mkM (mkV 1 0 0) (mkV 0 1 0) (mkV 0 0 (-1))) (mkV 0 (-1) 0)) with (mkV 0 (-1) 0) by (vunfold; simpl; f_equal; ring).
    unfold fardal15. simpl vx; simpl vy; simpl vz. rewrite polar_axis by lra. unfold fardal_k, spray_vc, cyl_to_rect, rect_to_cyl_vec, cyl_to_rect_vec, fardal_mean, fardal_sig.
    cbv iota zeta. simpl vx; simpl vy; simpl vz. replace (0 + (0 + 0 * 0) * (1 / 1)) with 0 by lra. rewrite cos_0, sin_0.
    replace (- (1) * - / 1) with 1 by field. rewrite S1. unfold snd.
    replace (mulMV _ _) with (mkV 0 (-0.7) 0) by (vunfold; simpl; f_equal; lra).
    rewrite !Y, !Rabs_left; lra.
Qed.
(** The numbers of stars in the tails, the leading stars first, and the error for any other tail. *)
Theorem C71_tails : forall t default n,
  let tail := match t with Some t => t | None => default end in
  (tail = "leading" -> tail_flags t default n = Some (repeat true n)) /\
  (tail = "trailing" -> tail_flags t default n = Some (repeat false n)) /\
  (tail = "both" -> exists a b, tail_flags t default n = Some (repeat true a ++ repeat false b) /\ (a + b = n)%nat /\ (a <= b <= a + 1)%nat) /\
  (tail <> "leading" -> tail <> "trailing" -> tail <> "both" -> tail_flags t default n = None).
Proof.
  intros t default n tail. unfold tail_flags. fold tail. clearbody tail. split; [intros ->; reflexivity|]. split; [intros ->; reflexivity|]. split.
  - intros ->. exists (n / 2)%nat, (n - n / 2)%nat. split; [reflexivity|]. pose proof (Nat.div_mod n 2 ltac:(lia)). pose proof (Nat.mod_upper_bound n 2 ltac:(lia)). lia.
  - intros A B C. apply String.eqb_neq in A, B, C. rewrite A, B, C. reflexivity.
Qed.
Example C71_tails_ex : tail_flags (Some "both") "leading" 5 = Some [true; true; false; false; false].
Proof. reflexivity. Qed.

Print Assumptions C71_frame.
Print Assumptions C71_center.
Print Assumptions C71_chen24.
Print Assumptions C71_chen24_direct.
Print Assumptions C71_fardal15_direct.
Print Assumptions C71_chen24_distance.
Print Assumptions C71_fardal15.
Print Assumptions C71_fardal15_height_refuted.
Print Assumptions C71_place_refuted.
Print Assumptions C71_retrograde_refuted.
Print Assumptions C71_tails.
