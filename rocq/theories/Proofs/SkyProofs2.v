From Coq Require Import Reals Lra Psatz.
From Verif.Lib Require Import RealAux Atan2 Vec3.
From Verif.Model Require Import CoordsVec CoordsSky.
From Verif.Spec Require Import SkySpec.
From Verif.Proofs Require Import SkyProofs.
Open Scope R_scope.
Notation RR := RbaseSymbolsImpl.R (only parsing).

Lemma unit_angle_pos degree : 0 < unit_angle degree.
Proof. pose proof PI_RGT_0. destruct degree; simpl; lra. Qed.
Lemma deg_in_unit degree a : deg_in degree a = a * unit_angle degree.
Proof. destruct degree; simpl; lra. Qed.
Lemma deg_out_unit degree a : deg_out degree a * unit_angle degree = a.
Proof. pose proof PI_RGT_0. destruct degree; simpl; [field; lra|lra]. Qed.
Lemma unit_inj degree a b : a * unit_angle degree = b * unit_angle degree -> a = b.
Proof. intros. pose proof (unit_angle_pos degree). eapply Rmult_eq_reg_r; eauto. lra. Qed.

Lemma asin_range z : - PI / 2 <= asin z <= PI / 2.
Proof. pose proof (asin_bound z). lra. Qed.

(** A conversion of directions followed by reading off the angles. *)
Lemma sky_unique degree a d a' d' : sky_range degree a d -> sky_range degree a' d' ->
  direction (a * unit_angle degree) (d * unit_angle degree) = direction (a' * unit_angle degree) (d' * unit_angle degree) ->
  a = a' /\ d = d'.
Proof.
  intros [Ha Hd] [Ha' Hd'] E. destruct (direction_unique _ _ _ _ Ha Ha' Hd Hd' E).
  split; eapply unit_inj; eauto.
Qed.
(** The latitude is strictly between the poles unless the direction is a pole. *)
Lemma lat_inner d : - PI / 2 <= d <= PI / 2 -> sin d ^ 2 <> 1 -> - PI / 2 < d < PI / 2.
Proof.
  intros H N. split.
  - destruct (Rle_lt_or_eq_dec _ _ (proj1 H)); auto. exfalso. apply N. subst d.
    replace (- PI / 2) with (- (PI / 2)) by lra. rewrite sin_neg, sin_PI2. ring.
  - destruct (Rle_lt_or_eq_dec _ _ (proj2 H)); auto. exfalso. apply N. subst d. rewrite sin_PI2. ring.
Qed.
Lemma lat_sin d : - PI / 2 < d < PI / 2 -> sin d ^ 2 <> 1.
Proof. intros H E. assert (0 < cos d) by (apply cos_gt_0; lra). pose proof (sc2 d). nra. Qed.

Lemma radec_lb_direction degree e ra dec :
  let '(l, b) := radec_to_lb degree e ra dec in
  let u := unit_angle degree in
  direction (l * u) (b * u) = mulMV (T_eq_to_gal e) (direction (ra * u) (dec * u)) /\
  0 <= l * u < 2 * PI /\ - PI / 2 <= b * u <= PI / 2.
Proof.
  unfold radec_to_lb. cbv zeta. rewrite !deg_out_unit, !deg_in_unit.
  change (unit_vector (ra * unit_angle degree) (dec * unit_angle degree)) with (direction (ra * unit_angle degree) (dec * unit_angle degree)).
  assert (U : vnorm2 (mulMV (T_eq_to_gal e) (direction (ra * unit_angle degree) (dec * unit_angle degree))) = 1).
  { rewrite rot_norm by apply T_rotation. apply direction_norm. }
  rewrite clamp_id by (apply unit_z; auto).
  split; [apply direction_of_vector_div; auto|split; [apply wrap_atan2_range|apply asin_range]].
Qed.
Lemma lb_radec_direction degree e l b :
  let '(ra, dec) := lb_to_radec degree e l b in
  let u := unit_angle degree in
  mulMV (T_eq_to_gal e) (direction (ra * u) (dec * u)) = direction (l * u) (b * u) /\
  0 <= ra * u < 2 * PI /\ - PI / 2 <= dec * u <= PI / 2.
Proof.
  unfold lb_to_radec. cbv zeta. rewrite !deg_out_unit, !deg_in_unit, T_inverse.
  change (unit_vector (l * unit_angle degree) (b * unit_angle degree)) with (direction (l * unit_angle degree) (b * unit_angle degree)).
  assert (U : vnorm2 (mulMV (transp (T_eq_to_gal e)) (direction (l * unit_angle degree) (b * unit_angle degree))) = 1).
  { rewrite rot_norm by apply rot_transp, T_rotation. apply direction_norm. }
  split; [|split; [apply wrap_atan2_range|apply asin_range]].
  rewrite direction_of_vector by auto. apply rot_inv2, T_rotation.
Qed.
Lemma custom_direction degree T ra dec : rotation T ->
  let '(l, b) := radec_to_custom degree T ra dec in
  let u := unit_angle degree in
  direction (l * u) (b * u) = mulMV T (direction (ra * u) (dec * u)) /\
  0 <= l * u < 2 * PI /\ - PI / 2 <= b * u <= PI / 2.
Proof.
  intros HT. unfold radec_to_custom. cbv zeta. rewrite !deg_out_unit, !deg_in_unit.
  change (unit_vector (ra * unit_angle degree) (dec * unit_angle degree)) with (direction (ra * unit_angle degree) (dec * unit_angle degree)).
  assert (U : vnorm2 (mulMV T (direction (ra * unit_angle degree) (dec * unit_angle degree))) = 1).
  { rewrite rot_norm by auto. apply direction_norm. }
  split; [apply direction_of_vector; auto|split; [apply wrap_atan2_range|apply asin_range]].
Qed.

(** Round trips from the direction statements. *)
Lemma range_of_direction degree a d a' d' : sky_range degree a d ->
  0 <= a' * unit_angle degree < 2 * PI -> - PI / 2 <= d' * unit_angle degree <= PI / 2 ->
  direction (a' * unit_angle degree) (d' * unit_angle degree) = direction (a * unit_angle degree) (d * unit_angle degree) ->
  (a', d') = (a, d).
Proof.
  intros [Ha Hd] Ha' Hd' E.
  assert (Hd2 : - PI / 2 < d' * unit_angle degree < PI / 2).
  { apply lat_inner; auto. assert (sin (d' * unit_angle degree) = sin (d * unit_angle degree)) as -> by (injection E; auto).
    apply lat_sin; auto. }
  destruct (sky_unique degree a' d' a d) as [-> ->]; auto; split; auto.
Qed.
Lemma radec_roundtrip degree e ra dec : sky_range degree ra dec ->
  (let '(l, b) := radec_to_lb degree e ra dec in lb_to_radec degree e l b) = (ra, dec).
Proof.
  intros H. pose proof (radec_lb_direction degree e ra dec) as D.
  destruct (radec_to_lb degree e ra dec) as [l b]. cbv zeta in D. destruct D as [D _].
  pose proof (lb_radec_direction degree e l b) as D2. destruct (lb_to_radec degree e l b) as [ra' dec'].
  cbv zeta in D2. destruct D2 as [D2 [R1 R2]]. rewrite D in D2.
  apply (f_equal (mulMV (transp (T_eq_to_gal e)))) in D2. rewrite !rot_inv1 in D2 by apply T_rotation.
  eapply range_of_direction; eauto.
Qed.
Lemma lb_roundtrip degree e l b : sky_range degree l b ->
  (let '(ra, dec) := lb_to_radec degree e l b in radec_to_lb degree e ra dec) = (l, b).
Proof.
  intros H. pose proof (lb_radec_direction degree e l b) as D.
  destruct (lb_to_radec degree e l b) as [ra dec]. cbv zeta in D. destruct D as [D _].
  pose proof (radec_lb_direction degree e ra dec) as D2. destruct (radec_to_lb degree e ra dec) as [l' b'].
  cbv zeta in D2. destruct D2 as [D2 [R1 R2]]. rewrite D in D2.
  eapply range_of_direction; eauto.
Qed.
Lemma custom_roundtrip degree T ra dec : rotation T -> sky_range degree ra dec ->
  (let '(p1, p2) := radec_to_custom degree T ra dec in custom_to_radec degree T p1 p2) = (ra, dec).
Proof.
  intros HT H. pose proof (custom_direction degree T ra dec HT) as D.
  destruct (radec_to_custom degree T ra dec) as [l b]. cbv zeta in D. destruct D as [D _].
  unfold custom_to_radec.
  pose proof (custom_direction degree (transp T) l b (rot_transp _ HT)) as D2.
  destruct (radec_to_custom degree (transp T) l b) as [ra' dec'].
  cbv zeta in D2. destruct D2 as [D2 [R1 R2]]. rewrite D in D2.
  rewrite rot_inv1 in D2 by auto. eapply range_of_direction; eauto.
Qed.
Lemma custom_roundtrip2 degree T p1 p2 : rotation T -> sky_range degree p1 p2 ->
  (let '(ra, dec) := custom_to_radec degree T p1 p2 in radec_to_custom degree T ra dec) = (p1, p2).
Proof.
  intros HT H. unfold custom_to_radec.
  pose proof (custom_roundtrip degree (transp T) p1 p2 (rot_transp _ HT) H) as E.
  unfold custom_to_radec in E. rewrite transp_transp in E. exact E.
Qed.

(** ** Proper motions *)
Lemma T_pole e : mulMV (T_eq_to_gal e) (direction (ra_ngp e) (dec_ngp e)) = mkV 0 0 1.
Proof.
  assert (E : direction (ra_ngp e) (dec_ngp e) = mulMV (transp (T_eq_to_gal e)) (mkV 0 0 1)).
  { unfold T_eq_to_gal, direction. vunfold. f_equal; ring. }
  rewrite E. apply rot_inv2, T_rotation.
Qed.
Lemma T_north e : mulMV (T_eq_to_gal e) (mkV 0 0 1) = direction (theta e) (dec_ngp e).
Proof. unfold T_eq_to_gal, direction. vunfold. f_equal; ring. Qed.
Lemma nudge_id dn dec : dec <> dn -> nudge dn dec = dec.
Proof. intros. unfold nudge. destruct (Req_EM_T dec dn); tauto. Qed.

Lemma pm_gal_geom degree e pmra pmdec ra dec l b :
  let u := unit_angle degree in
  mulMV (T_eq_to_gal e) (direction (ra * u) (dec * u)) = direction (l * u) (b * u) ->
  - PI / 2 < b * u < PI / 2 -> dec * u <> dec_ngp e ->
  let '(pmll, pmbb) := pmrapmdec_to_pmllpmbb degree e pmra pmdec ra dec in
  mulMV (T_eq_to_gal e) (proper_motion (ra * u) (dec * u) pmra pmdec) = proper_motion (l * u) (b * u) pmll pmbb.
Proof.
  intros u HD Hb Hn. unfold pmrapmdec_to_pmllpmbb, pm_angle. rewrite !deg_in_unit. fold u. rewrite nudge_id by auto.
  apply pm_rotate; auto. { apply T_rotation. } { apply T_pole. } apply cos_gt_0; lra.
Qed.
(** A pair of pm_angle coefficients is a rotation of the plane. *)
Lemma pm_angle_unit C S : let N := sqrt (C ^ 2 + S ^ 2) in N <> 0 -> (C / N) ^ 2 + (S / N) ^ 2 = 1.
Proof.
  intros N H. assert (E : C ^ 2 + S ^ 2 = N ^ 2).
  { unfold N. replace (sqrt (C ^ 2 + S ^ 2) ^ 2) with (sqrt (C ^ 2 + S ^ 2) * sqrt (C ^ 2 + S ^ 2)) by ring. rewrite sqrt_sqrt; nra. }
  clearbody N. apply Rmult_eq_reg_r with (N ^ 2); [|apply pow_nonzero; auto].
  replace (((C / N) ^ 2 + (S / N) ^ 2) * N ^ 2) with (C ^ 2 + S ^ 2) by (field; auto). lra.
Qed.
Lemma pm_inj a d p q p' q' : proper_motion a d p q = proper_motion a d p' q' -> p = p' /\ q = q'.
Proof.
  intros E. split.
  - assert (X : forall x y, vdot (proper_motion a d x y) (east a) = x).
    { intros. unfold proper_motion. transitivity (x * vdot (east a) (east a) + y * vdot (north a d) (east a)).
      - generalize (east a) (north a d). intros. vring.
      - rewrite east_norm, vdot_comm, east_north. ring. }
    rewrite <- (X p q), <- (X p' q'), E. auto.
  - assert (X : forall x y, vdot (proper_motion a d x y) (north a d) = y).
    { intros. unfold proper_motion. transitivity (x * vdot (east a) (north a d) + y * vdot (north a d) (north a d)).
      - generalize (east a) (north a d). intros. vring.
      - rewrite north_norm, east_north. ring. }
    rewrite <- (X p q), <- (X p' q'), E. auto.
Qed.
Lemma pm_eq_geom degree e pmll pmbb l b : let u := unit_angle degree in
  - PI / 2 < b * u < PI / 2 ->
  let '(ra, dec) := lb_to_radec degree e l b in dec * u <> dec_ngp e ->
  let '(pmra, pmdec) := pmllpmbb_to_pmrapmdec degree e pmll pmbb l b in
  mulMV (T_eq_to_gal e) (proper_motion (ra * u) (dec * u) pmra pmdec) = proper_motion (l * u) (b * u) pmll pmbb.
Proof.
  intros u Hb. pose proof (lb_radec_direction degree e l b) as D.
  destruct (lb_to_radec degree e l b) as [ra dec] eqn:E. cbv zeta in D. fold u in D. destruct D as [D _]. intros Hn.
  unfold pmllpmbb_to_pmrapmdec. rewrite !deg_in_unit. fold u.
  assert (E2 : lb_to_radec false e (l * u) (b * u) = (ra * u, dec * u)).
  { unfold lb_to_radec in E. cbv zeta in E. rewrite !deg_in_unit in E. fold u in E. injection E as E1 E2. subst ra dec.
    unfold u at 3 4. rewrite !deg_out_unit. unfold lb_to_radec. reflexivity. }
  rewrite E2. unfold pm_angle. rewrite nudge_id by auto. cbv zeta.
  assert (Cb : 0 < cos (b * u)) by (apply cos_gt_0; lra).
  destruct (pm_rotate (T_eq_to_gal e) (ra * u) (dec * u) (ra_ngp e) (dec_ngp e) (l * u) (b * u)
    ((sin (dec_ngp e) * cos (dec * u) - cos (dec_ngp e) * sin (dec * u) * cos (ra * u - ra_ngp e)) /
     sqrt ((sin (dec_ngp e) * cos (dec * u) - cos (dec_ngp e) * sin (dec * u) * cos (ra * u - ra_ngp e)) ^ 2 + (sin (ra * u - ra_ngp e) * cos (dec_ngp e)) ^ 2) * pmll +
     - (sin (ra * u - ra_ngp e) * cos (dec_ngp e) /
     sqrt ((sin (dec_ngp e) * cos (dec * u) - cos (dec_ngp e) * sin (dec * u) * cos (ra * u - ra_ngp e)) ^ 2 + (sin (ra * u - ra_ngp e) * cos (dec_ngp e)) ^ 2)) * pmbb)
    (sin (ra * u - ra_ngp e) * cos (dec_ngp e) /
     sqrt ((sin (dec_ngp e) * cos (dec * u) - cos (dec_ngp e) * sin (dec * u) * cos (ra * u - ra_ngp e)) ^ 2 + (sin (ra * u - ra_ngp e) * cos (dec_ngp e)) ^ 2) * pmll +
     (sin (dec_ngp e) * cos (dec * u) - cos (dec_ngp e) * sin (dec * u) * cos (ra * u - ra_ngp e)) /
     sqrt ((sin (dec_ngp e) * cos (dec * u) - cos (dec_ngp e) * sin (dec * u) * cos (ra * u - ra_ngp e)) ^ 2 + (sin (ra * u - ra_ngp e) * cos (dec_ngp e)) ^ 2) * pmbb)
    (T_rotation e) (T_pole e) D Cb) as [HN HR].
  rewrite HR. clear HR.
  set (C := sin (dec_ngp e) * cos (dec * u) - cos (dec_ngp e) * sin (dec * u) * cos (ra * u - ra_ngp e)) in *.
  set (S := sin (ra * u - ra_ngp e) * cos (dec_ngp e)) in *.
  pose proof (pm_angle_unit C S) as U. cbv zeta in U. set (N := sqrt (C ^ 2 + S ^ 2)) in *.
  assert (N <> 0) by lra. specialize (U H). clearbody C S N.
  f_equal.
  - transitivity (((C / N) ^ 2 + (S / N) ^ 2) * pmll); [ring|rewrite U; ring].
  - transitivity (((C / N) ^ 2 + (S / N) ^ 2) * pmbb); [ring|rewrite U; ring].
Qed.
Lemma pm_eq_congr T a d p q p' q' : rotation T ->
  mulMV T (proper_motion a d p q) = mulMV T (proper_motion a d p' q') -> (p, q) = (p', q').
Proof.
  intros HT E. apply (f_equal (mulMV (transp T))) in E. rewrite !rot_inv1 in E by auto.
  apply pm_inj in E. destruct E; congruence.
Qed.
Lemma pm_roundtrip degree e pmra pmdec ra dec : sky_range degree ra dec -> dec * unit_angle degree <> dec_ngp e ->
  let '(l, b) := radec_to_lb degree e ra dec in
  let u := unit_angle degree in - PI / 2 < b * u < PI / 2 ->
  (let '(pmll, pmbb) := pmrapmdec_to_pmllpmbb degree e pmra pmdec ra dec in
   pmllpmbb_to_pmrapmdec degree e pmll pmbb l b) = (pmra, pmdec).
Proof.
  intros Hr Hn. pose proof (radec_roundtrip degree e ra dec Hr) as RT.
  pose proof (radec_lb_direction degree e ra dec) as D.
  destruct (radec_to_lb degree e ra dec) as [l b]. cbv zeta in D |- *. destruct D as [D _]. intros Hb.
  pose proof (pm_gal_geom degree e pmra pmdec ra dec l b (eq_sym D) Hb Hn) as G.
  destruct (pmrapmdec_to_pmllpmbb degree e pmra pmdec ra dec) as [pmll pmbb].
  pose proof (pm_eq_geom degree e pmll pmbb l b Hb) as G2. rewrite RT in G2. specialize (G2 Hn).
  destruct (pmllpmbb_to_pmrapmdec degree e pmll pmbb l b) as [p q].
  rewrite <- G in G2. eapply pm_eq_congr; [apply (T_rotation e)|eauto].
Qed.

Lemma custom_pole T : rotation T ->
  let '(rp, dp) := custom_to_radec false T 0 (PI / 2) in mulMV T (direction rp dp) = mkV 0 0 1.
Proof.
  intros HT. pose proof (custom_direction false (transp T) 0 (PI / 2) (rot_transp _ HT)) as D. unfold custom_to_radec.
  destruct (radec_to_custom false (transp T) 0 (PI / 2)) as [rp dp]. cbv zeta in D. destruct D as [D _].
  simpl unit_angle in D. rewrite !Rmult_1_r in D. rewrite D, rot_inv2 by auto.
  unfold direction. rewrite cos_PI2, sin_PI2. f_equal; ring.
Qed.
Lemma pm_custom_geom degree T pmra pmdec ra dec p1 p2 : rotation T ->
  let u := unit_angle degree in
  mulMV T (direction (ra * u) (dec * u)) = direction (p1 * u) (p2 * u) ->
  - PI / 2 < p2 * u < PI / 2 -> dec * u <> snd (custom_to_radec false T 0 (PI / 2)) ->
  let '(pm1, pm2) := pmrapmdec_to_custom degree T pmra pmdec ra dec in
  mulMV T (proper_motion (ra * u) (dec * u) pmra pmdec) = proper_motion (p1 * u) (p2 * u) pm1 pm2.
Proof.
  intros HT u HD Hb Hn. pose proof (custom_pole T HT) as P. unfold pmrapmdec_to_custom. rewrite !deg_in_unit. fold u.
  destruct (custom_to_radec false T 0 (PI / 2)) as [rp dp]. unfold pm_angle. simpl in Hn. rewrite nudge_id by auto.
  apply pm_rotate; auto. apply cos_gt_0; lra.
Qed.
Lemma pm_custom_roundtrip degree T pmra pmdec ra dec : rotation T -> sky_range degree ra dec ->
  dec * unit_angle degree <> snd (custom_to_radec false T 0 (PI / 2)) ->
  let '(p1, p2) := radec_to_custom degree T ra dec in
  sky_range degree p1 p2 -> p2 * unit_angle degree <> snd (radec_to_custom false T 0 (PI / 2)) ->
  (let '(pm1, pm2) := pmrapmdec_to_custom degree T pmra pmdec ra dec in
   custom_to_pmrapmdec degree T pm1 pm2 p1 p2) = (pmra, pmdec).
Proof.
  intros HT Hr Hn. pose proof (custom_direction degree T ra dec HT) as D.
  destruct (radec_to_custom degree T ra dec) as [p1 p2]. cbv zeta in D. destruct D as [D _]. intros [_ Hb] Hn2.
  pose proof (pm_custom_geom degree T pmra pmdec ra dec p1 p2 HT (eq_sym D) Hb Hn) as G.
  destruct (pmrapmdec_to_custom degree T pmra pmdec ra dec) as [pm1 pm2].
  pose proof (pm_custom_geom degree (transp T) pm1 pm2 p1 p2 ra dec (rot_transp _ HT)) as G2. cbv zeta in G2.
  rewrite D, rot_inv1 in G2 by auto. specialize (G2 eq_refl (proj2 Hr)).
  unfold custom_to_radec in G2. rewrite transp_transp in G2. specialize (G2 Hn2).
  unfold custom_to_pmrapmdec. destruct (pmrapmdec_to_custom degree (transp T) pm1 pm2 p1 p2) as [p q].
  rewrite <- G, rot_inv1 in G2 by auto. apply pm_inj in G2. destruct G2; congruence.
Qed.

(** ** Distances *)
Lemma lbd_direction degree l b d : lbd_to_XYZ degree l b d = vscal d (direction (l * unit_angle degree) (b * unit_angle degree)).
Proof. unfold lbd_to_XYZ, direction. rewrite !deg_in_unit. vunfold. f_equal; ring. Qed.
Lemma XYZ_lbd_roundtrip degree X Y Z : (X, Y, Z) <> (0, 0, 0) ->
  let p := XYZ_to_lbd degree X Y Z in lbd_to_XYZ degree (vx p) (vy p) (vz p) = mkV X Y Z.
Proof.
  intros H p. unfold p. rewrite lbd_direction. unfold XYZ_to_lbd. simpl vx; simpl vy; simpl vz.
  rewrite !deg_out_unit. set (d := sqrt (X ^ 2 + Y ^ 2 + Z ^ 2)).
  assert (P : 0 < X ^ 2 + Y ^ 2 + Z ^ 2).
  { destruct (Req_dec X 0) as [->|]; [destruct (Req_dec Y 0) as [->|]; [destruct (Req_dec Z 0) as [->|]; [tauto|]|]|]; nra. }
  assert (Hd : 0 < d) by (apply sqrt_lt_R0; auto).
  assert (Ed : d ^ 2 = X ^ 2 + Y ^ 2 + Z ^ 2).
  { unfold d. replace (sqrt (X ^ 2 + Y ^ 2 + Z ^ 2) ^ 2) with (sqrt (X ^ 2 + Y ^ 2 + Z ^ 2) * sqrt (X ^ 2 + Y ^ 2 + Z ^ 2)) by ring.
    apply sqrt_sqrt; lra. }
  assert (U : vnorm2 (mkV (X / d) (Y / d) (Z / d)) = 1).
  { vunfold. apply Rmult_eq_reg_r with (d ^ 2); [|apply pow_nonzero; lra].
    replace ((X / d * (X / d) + Y / d * (Y / d) + Z / d * (Z / d)) * d ^ 2) with (X ^ 2 + Y ^ 2 + Z ^ 2) by (field; lra). lra. }
  pose proof (direction_of_vector _ U) as D. simpl in D.
  assert (A : atan2 (Y / d) (X / d) = atan2 Y X \/ (X = 0 /\ Y = 0)).
  { destruct (Req_dec X 0) as [EX|NX]; [destruct (Req_dec Y 0) as [EY|NY]|]; auto; left;
      unfold Rdiv; rewrite (Rmult_comm Y), (Rmult_comm X); apply atan2_scale; auto; apply Rinv_0_lt_compat; auto. }
  destruct A as [A|[-> ->]].
  - rewrite A in D. rewrite D. vunfold. f_equal; field; lra.
  - replace (0 / d) with 0 in D by (field; lra). rewrite D. vunfold. f_equal; field; lra.
Qed.
Lemma lbd_XYZ_roundtrip degree l b d : sky_range degree l b -> 0 < d ->
  let p := lbd_to_XYZ degree l b d in XYZ_to_lbd degree (vx p) (vy p) (vz p) = mkV l b d.
Proof.
  intros [Hl Hb] Hd p. unfold p. rewrite lbd_direction.
  set (u := unit_angle degree) in *. unfold direction, vscal. simpl vx; simpl vy; simpl vz. unfold XYZ_to_lbd.
  assert (Cb : 0 < cos (b * u)) by (apply cos_gt_0; lra).
  assert (E : sqrt ((d * (cos (b * u) * cos (l * u))) ^ 2 + (d * (cos (b * u) * sin (l * u))) ^ 2 + (d * sin (b * u)) ^ 2) = d).
  { replace ((d * (cos (b * u) * cos (l * u))) ^ 2 + (d * (cos (b * u) * sin (l * u))) ^ 2 + (d * sin (b * u)) ^ 2) with
     (d ^ 2 * (cos (b * u) ^ 2 * (cos (l * u) ^ 2 + sin (l * u) ^ 2) + sin (b * u) ^ 2)) by ring.
    rewrite (sc2 (l * u)), (sc2 (b * u)). replace (d ^ 2 * ((1 - sin (b * u) ^ 2) * (1 - sin (l * u) ^ 2 + sin (l * u) ^ 2) + sin (b * u) ^ 2)) with (Rsqr d) by (unfold Rsqr; ring).
    apply sqrt_Rsqr; lra. }
  rewrite E. f_equal.
  - apply (unit_inj degree). rewrite deg_out_unit.
    replace (d * (cos (b * u) * sin (l * u))) with (d * cos (b * u) * sin (l * u)) by ring.
    replace (d * (cos (b * u) * cos (l * u))) with (d * cos (b * u) * cos (l * u)) by ring.
    apply angle_unique2; [apply wrap_atan2_range|auto| |]; rewrite ?wrap_cos, ?wrap_sin.
    + assert (0 < d * cos (b * u)) by nra. apply Rmult_eq_reg_l with (d * cos (b * u)); [|lra].
      pose proof (atan2_cos (d * cos (b * u) * cos (l * u)) (d * cos (b * u) * sin (l * u))) as X.
      rewrite polar_norm, Rabs_pos_eq in X by lra. exact X.
    + assert (0 < d * cos (b * u)) by nra. apply Rmult_eq_reg_l with (d * cos (b * u)); [|lra].
      pose proof (atan2_sin (d * cos (b * u) * cos (l * u)) (d * cos (b * u) * sin (l * u))) as X.
      rewrite polar_norm, Rabs_pos_eq in X by lra. exact X.
  - apply (unit_inj degree). rewrite deg_out_unit. replace (d * sin (b * u) / d) with (sin (b * u)) by (field; lra).
    apply asin_sin. fold u. lra.
Qed.
