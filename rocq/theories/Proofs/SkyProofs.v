From Coq Require Import Reals Lra Psatz.
From Verif.Lib Require Import Atan2 Vec3.
From Verif.Model Require Import CoordsVec CoordsSky.
From Verif.Spec Require Import SkySpec.
Open Scope R_scope.
Notation RR := RbaseSymbolsImpl.R (only parsing).

Lemma sc1 a : cos a * cos a = 1 - sin a * sin a.
Proof. pose proof (sin2_cos2 a). unfold Rsqr in *. lra. Qed.
Lemma sc2 a : cos a ^ 2 = 1 - sin a ^ 2.
Proof. pose proof (sc1 a). replace (cos a ^ 2) with (cos a * cos a) by ring. rewrite H. ring. Qed.

(** ** Angles *)
Lemma wrap_cos l : cos (wrap2pi l) = cos l.
Proof. unfold wrap2pi. destruct (Rlt_dec l 0); auto. rewrite cos_plus, cos_2PI, sin_2PI. ring. Qed.
Lemma wrap_sin l : sin (wrap2pi l) = sin l.
Proof. unfold wrap2pi. destruct (Rlt_dec l 0); auto. rewrite sin_plus, cos_2PI, sin_2PI. ring. Qed.
Lemma wrap_range l : - PI < l <= PI -> 0 <= wrap2pi l < 2 * PI.
Proof. intros H. pose proof PI_RGT_0. unfold wrap2pi. destruct (Rlt_dec l 0); lra. Qed.
Lemma wrap_atan2_range x y : 0 <= wrap2pi (atan2 y x) < 2 * PI.
Proof. apply wrap_range, atan2_range. Qed.
Lemma angle_unique2 a b : 0 <= a < 2 * PI -> 0 <= b < 2 * PI -> cos a = cos b -> sin a = sin b -> a = b.
Proof.
  intros Ha Hb Hc Hs. pose proof PI_RGT_0.
  assert (a - PI = b - PI \/ a = b); [|lra].
  destruct (Req_dec a 0) as [->|Na]; destruct (Req_dec b 0) as [->|Nb]; auto.
  - right. destruct (Rle_lt_dec b PI) as [L|G].
    + apply angle_unique; auto; lra.
    + exfalso. rewrite sin_0 in Hs. assert (sin b < 0) by (apply sin_lt_0; lra). lra.
  - right. destruct (Rle_lt_dec a PI) as [L|G].
    + apply angle_unique; auto; lra.
    + exfalso. rewrite sin_0 in Hs. assert (sin a < 0) by (apply sin_lt_0; lra). lra.
  - left. apply angle_unique; try lra; unfold Rminus; rewrite ?cos_plus, ?sin_plus, ?cos_neg, ?sin_neg, ?cos_PI, ?sin_PI; lra.
Qed.
Lemma direction_unique a d a' d' : 0 <= a < 2 * PI -> 0 <= a' < 2 * PI -> - PI / 2 < d < PI / 2 -> - PI / 2 < d' < PI / 2 ->
  direction a d = direction a' d' -> a = a' /\ d = d'.
Proof.
  intros Ha Ha' Hd Hd' E. unfold direction in E. injection E as E1 E2 E3.
  assert (d = d'). { rewrite <- (asin_sin d), <- (asin_sin d') by lra. congruence. }
  subst d'. assert (0 < cos d) by (apply cos_gt_0; lra).
  split; auto. apply angle_unique2; auto; eapply Rmult_eq_reg_l with (cos d); auto; lra.
Qed.

(** ** Directions from vectors *)
Lemma direction_norm a d : vnorm2 (direction a d) = 1.
Proof.
  unfold direction. vunfold. pose proof (sc1 a). pose proof (sc1 d).
  replace (cos d * cos a * (cos d * cos a) + cos d * sin a * (cos d * sin a) + sin d * sin d)
    with (cos d * cos d * (cos a * cos a + sin a * sin a) + sin d * sin d) by ring. rewrite H, H0. ring.
Qed.
Lemma unit_z v : vnorm2 v = 1 -> -1 <= vz v <= 1.
Proof. destruct v as [x y z]. vunfold. intros. split; nra. Qed.
Lemma clamp_id z : -1 <= z <= 1 -> clamp z = z.
Proof. intros. unfold clamp. destruct (Rlt_dec 1 z); [lra|]. destruct (Rlt_dec z (-1)); lra. Qed.
Lemma cos_asin_unit v : vnorm2 v = 1 -> cos (asin (vz v)) = sqrt (vx v ^ 2 + vy v ^ 2).
Proof.
  intros H. rewrite cos_asin by (apply unit_z; auto). f_equal. destruct v as [x y z]. unfold Rsqr. vunfold.
  replace (x ^ 2 + y ^ 2) with (x * x + y * y) by ring. lra.
Qed.
(** The generic step of all sky conversions: from a unit vector to angles. *)
Lemma direction_of_vector v : vnorm2 v = 1 ->
  direction (wrap2pi (atan2 (vy v) (vx v))) (asin (vz v)) = v.
Proof.
  intros H. unfold direction. rewrite wrap_cos, wrap_sin, cos_asin_unit, sin_asin by (auto; apply unit_z; auto).
  rewrite atan2_cos, atan2_sin. destruct v; auto.
Qed.
Lemma direction_of_vector_div v : vnorm2 v = 1 -> let b := asin (vz v) in
  direction (wrap2pi (atan2 (vy v / cos b) (vx v / cos b))) b = v.
Proof.
  intros H b. pose proof (cos_asin_unit v H) as C. fold b in C.
  destruct (Req_dec (cos b) 0) as [Z|N].
  - pose proof (unit_z v H). unfold direction. rewrite Z. replace (sin b) with (vz v) by (unfold b; rewrite sin_asin; auto).
    rewrite C in Z. assert (vx v = 0 /\ vy v = 0).
    { apply sqrt_eq_0 in Z; [|nra]. split; nra. }
    destruct v; simpl in *. f_equal; lra.
  - assert (P : 0 < cos b). { rewrite C in *. pose proof (sqrt_pos (vx v ^ 2 + vy v ^ 2)). lra. }
    assert (X : vx v <> 0 \/ vy v <> 0).
    { destruct (Req_dec (vx v) 0) as [Hx|]; auto. destruct (Req_dec (vy v) 0) as [Hy|]; auto. exfalso.
      rewrite C, Hx, Hy in P. replace (0 ^ 2 + 0 ^ 2) with 0 in P by ring. rewrite sqrt_0 in P. lra. }
    unfold Rdiv. rewrite (Rmult_comm (vy v)), (Rmult_comm (vx v)), atan2_scale.
    + apply direction_of_vector; auto.
    + apply Rinv_0_lt_compat; auto.
    + auto.
Qed.

(** ** Rotations *)
Lemma rot_cross T a b : rotation T -> mulMV T (vcross a b) = vcross (mulMV T a) (mulMV T b).
Proof.
  intros [O D].
  assert (E : T = transp (adj T)).
  { assert (F : mulMM (adj T) (mulMM T (transp T)) = adj T) by (rewrite O; apply mulMM_eye_r).
    rewrite <- mulMM_assoc, adj_l, D, scalM_1, mulMM_eye_l in F. rewrite <- F, transp_transp. auto. }
  rewrite E at 1. clear E. unfold adj. rewrite transp_transp. destruct T as [[? ? ?] [? ? ?] [? ? ?]], a, b. vunfold. f_equal; ring.
Qed.
Lemma rot_transp T : rotation T -> rotation (transp T).
Proof. intros [O D]. split; [apply ortho_transp; auto|rewrite det_transp; auto]. Qed.
Lemma rot_inv1 T v : rotation T -> mulMV (transp T) (mulMV T v) = v.
Proof. intros [O _]. rewrite <- mulMV_assoc, ortho_l, mulMV_eye; auto. Qed.
Lemma rot_inv2 T v : rotation T -> mulMV T (mulMV (transp T) v) = v.
Proof. intros [O _]. rewrite <- mulMV_assoc, O, mulMV_eye; auto. Qed.
Lemma rot_norm T v : rotation T -> vnorm2 (mulMV T v) = vnorm2 v.
Proof. intros [O _]. unfold vnorm2. apply ortho_dot; auto. Qed.

Lemma T_rotation e : rotation (T_eq_to_gal e).
Proof.
  unfold T_eq_to_gal. pose proof (sc1 (theta e)) as A. pose proof (sc1 (dec_ngp e)) as B. pose proof (sc1 (ra_ngp e)) as C.
  split.
  - apply ortho_mul; [|apply ortho_mul]; unfold orthogonal; vunfold; repeat f_equal; lra.
  - rewrite !det_mul. vunfold.
    match goal with |- ?x * (?y * ?z) = 1 => replace x with (-1) by lra; replace y with (-1) by lra; replace z with 1 by lra end. lra.
Qed.
Lemma T_inverse e : T_gal_to_eq e = transp (T_eq_to_gal e).
Proof. unfold T_eq_to_gal, T_gal_to_eq. rewrite !transp_mul, mulMM_assoc. reflexivity. Qed.

(** ** The proper-motion angle *)
Lemma dir_east a d : vcross (direction a d) (east a) = north a d.
Proof. unfold direction, east, north. vunfold. f_equal; try ring. pose proof (sc1 a) as A.
  replace (cos d * cos a * cos a - cos d * sin a * - sin a) with (cos d * (cos a * cos a + sin a * sin a)) by ring. rewrite A. ring. Qed.
Lemma dir_north a d : vcross (direction a d) (north a d) = vopp (east a).
Proof.
  unfold direction, east, north. pose proof (sc1 a) as A. pose proof (sc1 d) as B. vunfold. f_equal.
  - replace (cos d * sin a * cos d - sin d * - (sin d * sin a)) with (sin a * (cos d * cos d + sin d * sin d)) by ring. rewrite B. ring.
  - replace (sin d * - (sin d * cos a) - cos d * cos a * cos d) with (- cos a * (cos d * cos d + sin d * sin d)) by ring. rewrite B. ring.
  - ring.
Qed.
Lemma east_norm a : vdot (east a) (east a) = 1.
Proof. unfold east. vunfold. pose proof (sc1 a). lra. Qed.
Lemma north_norm a d : vdot (north a d) (north a d) = 1.
Proof.
  unfold north. vunfold. pose proof (sc1 a) as A. pose proof (sc1 d) as B.
  replace (- (sin d * cos a) * - (sin d * cos a) + - (sin d * sin a) * - (sin d * sin a) + cos d * cos d)
   with (sin d * sin d * (cos a * cos a + sin a * sin a) + cos d * cos d) by ring. rewrite A, B. ring.
Qed.
Lemma east_north a d : vdot (east a) (north a d) = 0.
Proof. unfold east, north. vunfold. ring. Qed.
Lemma cross_pole ra dec rn dn :
  vcross (direction rn dn) (direction ra dec) =
  vadd (vscal (sin dn * cos dec - cos dn * sin dec * cos (ra - rn)) (east ra)) (vscal (sin (ra - rn) * cos dn) (north ra dec)).
Proof.
  rewrite cos_minus, sin_minus. unfold direction, east, north. vunfold. pose proof (sc1 ra) as A.
  f_equal.
  - replace (cos dn * sin rn * sin dec) with (cos dn * sin rn * sin dec * (cos ra * cos ra + sin ra * sin ra)) by (rewrite A; ring). ring.
  - replace (sin dn * (cos dec * cos ra) - cos dn * cos rn * sin dec) with
     (sin dn * (cos dec * cos ra) - cos dn * cos rn * sin dec * (cos ra * cos ra + sin ra * sin ra)) by (rewrite A; ring). ring.
  - ring.
Qed.
Lemma pole_cross a d : vcross (mkV 0 0 1) (direction a d) = vscal (cos d) (east a).
Proof. unfold direction, east. vunfold. f_equal; ring. Qed.
Lemma proper_motion_norm a d p q : vnorm2 (proper_motion a d p q) = p ^ 2 + q ^ 2.
Proof.
  unfold proper_motion, vnorm2. pose proof (east_norm a) as E. pose proof (north_norm a d) as N. pose proof (east_north a d) as X.
  replace (vdot (vadd (vscal p (east a)) (vscal q (north a d))) (vadd (vscal p (east a)) (vscal q (north a d)))) with
    (p ^ 2 * vdot (east a) (east a) + 2 * (p * q) * vdot (east a) (north a d) + q ^ 2 * vdot (north a d) (north a d))
    by (generalize (east a) (north a d); intros u v; vring).
  rewrite E, N, X. ring.
Qed.

(** The heart of the matter: the rotation of a proper motion is the proper motion with the rotated components. *)
Lemma pm_rotate T ra dec rn dn l b pmra pmdec : rotation T ->
  mulMV T (direction rn dn) = mkV 0 0 1 ->
  mulMV T (direction ra dec) = direction l b -> 0 < cos b ->
  let C := sin dn * cos dec - cos dn * sin dec * cos (ra - rn) in
  let S := sin (ra - rn) * cos dn in
  let N := sqrt (C ^ 2 + S ^ 2) in
  N = cos b /\
  mulMV T (proper_motion ra dec pmra pmdec) =
  proper_motion l b (C / N * pmra + S / N * pmdec) (- (S / N) * pmra + C / N * pmdec).
Proof.
  intros HT Hn Hu Hb C S N.
  assert (E1 : mulMV T (vadd (vscal C (east ra)) (vscal S (north ra dec))) = vscal (cos b) (east l)).
  { unfold C, S. rewrite <- cross_pole, rot_cross, Hn, Hu by auto. apply pole_cross. }
  assert (E2 : mulMV T (vadd (vscal C (north ra dec)) (vscal (- S) (east ra))) = vscal (cos b) (north l b)).
  { replace (vadd (vscal C (north ra dec)) (vscal (- S) (east ra))) with
      (vcross (direction ra dec) (vadd (vscal C (east ra)) (vscal S (north ra dec)))).
    - rewrite rot_cross, E1, Hu by auto. rewrite <- (dir_east l b). generalize (direction l b) (east l). intros. vring.
    - rewrite <- (dir_east ra dec). pose proof (dir_north ra dec) as X. rewrite <- (dir_east ra dec) in X.
      revert X. generalize (direction ra dec) (east ra). intros u v X.
      transitivity (vadd (vscal C (vcross u v)) (vscal S (vcross u (vcross u v)))); [|rewrite X]; vring. }
  assert (HN : N = cos b).
  { unfold N. assert (F : C ^ 2 + S ^ 2 = cos b ^ 2).
    { transitivity (vnorm2 (vscal (cos b) (east l))).
      - rewrite <- E1, rot_norm by auto. symmetry. apply proper_motion_norm.
      - pose proof (east_norm l) as X. revert X. unfold vnorm2. generalize (east l). intros v.
        replace (vdot (vscal (cos b) v) (vscal (cos b) v)) with (cos b ^ 2 * vdot v v) by vring.
        intros ->. ring. }
    rewrite F. rewrite <- Rsqr_pow2. apply sqrt_Rsqr. lra. }
  split; auto.
  assert (K : C ^ 2 + S ^ 2 = N ^ 2).
  { unfold N. symmetry. replace (sqrt (C ^ 2 + S ^ 2) ^ 2) with (sqrt (C ^ 2 + S ^ 2) * sqrt (C ^ 2 + S ^ 2)) by ring. apply sqrt_sqrt. nra. }
  unfold proper_motion at 1 2.
  assert (N0 : N <> 0) by lra. rewrite <- HN in E1, E2. clear HN Hb.
  replace (east l) with (vscal (/ N) (vscal N (east l))) by (generalize (east l); intros [? ? ?]; vunfold; f_equal; field; auto).
  replace (north l b) with (vscal (/ N) (vscal N (north l b))) by (generalize (north l b); intros [? ? ?]; vunfold; f_equal; field; auto).
  rewrite <- E1, <- E2. rewrite <- !mulMV_scal, <- mulMV_add. f_equal.
  generalize (east ra) (north ra dec). intros [x y z] [x' y' z']. vunfold.
  clearbody C S N. clear - K N0.
  assert (Q : forall p q, p = (C ^ 2 + S ^ 2) / N ^ 2 * p + 0 * q) by (intros; rewrite K; field; auto).
  f_equal; match goal with |- ?p * ?x + ?q * ?y = _ => rewrite (Q (p * x) 0), (Q (q * y) 0) at 1 end; field; auto.
Qed.
