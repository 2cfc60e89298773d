From Coq Require Import Reals Lra Psatz.
From Coquelicot Require Import Coquelicot.
From Verif.Lib Require Import RealAux Atan2 Vec3.
From Verif.Model Require Import Coords CoordsVec CoordsSky.
From Verif.Spec Require Import SkySpec.
From Verif.Proofs Require Import SkyProofs SkyProofs2.
Open Scope R_scope.
Notation RR := RbaseSymbolsImpl.R (only parsing).

(** ** Positions *)
Lemma rect_cyl_roundtrip X Y Z : (let '(R, phi, z) := rect_to_cyl X Y Z in cyl_to_rect R phi z) = (X, Y, Z).
Proof. unfold rect_to_cyl, cyl_to_rect. rewrite atan2_cos, atan2_sin. auto. Qed.
Lemma cyl_rect_roundtrip R phi Z : 0 < R -> - PI < phi <= PI ->
  (let '(x, y, z) := cyl_to_rect R phi Z in rect_to_cyl x y z) = (R, phi, Z).
Proof. intros. unfold rect_to_cyl, cyl_to_rect. rewrite atan2_polar, polar_norm, Rabs_pos_eq by lra. auto. Qed.
Lemma cyl_spher_roundtrip R Z phi : (let '(r, th, p) := cyl_to_spher R Z phi in spher_to_cyl r th p) = (R, Z, phi).
Proof.
  unfold cyl_to_spher, spher_to_cyl. rewrite (Rplus_comm (R ^ 2)), atan2_cos, atan2_sin. auto.
Qed.
Lemma spher_cyl_roundtrip r th phi : 0 < r -> 0 <= th <= PI ->
  (let '(R, z, p) := spher_to_cyl r th phi in cyl_to_spher R z p) = (r, th, phi).
Proof.
  intros. pose proof PI_RGT_0. unfold cyl_to_spher, spher_to_cyl. rewrite atan2_polar by lra.
  rewrite Rplus_comm, polar_norm, Rabs_pos_eq by lra. auto.
Qed.

(** ** Velocities *)
Lemma cyl_vec_roundtrip vx vy vz X Y Z cyl : let v := rect_to_cyl_vec vx vy vz X Y Z cyl in
  let phi := if cyl then Y else atan2 Y X in
  cyl_to_rect_vec (Vec3.vx v) (Vec3.vy v) (Vec3.vz v) phi = mkV vx vy vz.
Proof.
  intros v phi. unfold v, rect_to_cyl_vec, rect_to_cyl, cyl_to_rect_vec. fold phi. simpl.
  pose proof (sc1 phi) as E. f_equal.
  - transitivity (vx * (cos phi * cos phi + sin phi * sin phi)); [ring|rewrite E; ring].
  - transitivity (vy * (cos phi * cos phi + sin phi * sin phi)); [ring|rewrite E; ring].
Qed.
Lemma cyl_vec_roundtrip2 vr vt vz R phi Z : let v := cyl_to_rect_vec vr vt vz phi in
  rect_to_cyl_vec (vx v) (vy v) (Vec3.vz v) R phi Z true = mkV vr vt vz.
Proof.
  intros v. unfold v, rect_to_cyl_vec, cyl_to_rect_vec. simpl.
  pose proof (sc1 phi) as E. f_equal.
  - transitivity (vr * (cos phi * cos phi + sin phi * sin phi)); [ring|rewrite E; ring].
  - transitivity (vt * (cos phi * cos phi + sin phi * sin phi)); [ring|rewrite E; ring].
Qed.
Lemma cyl_vec_speed vr vt vz phi : vnorm2 (cyl_to_rect_vec vr vt vz phi) = vr ^ 2 + vt ^ 2 + vz ^ 2.
Proof.
  unfold cyl_to_rect_vec. vunfold. pose proof (sc1 phi) as E.
  transitivity ((vr ^ 2 + vt ^ 2) * (cos phi * cos phi + sin phi * sin phi) + vz ^ 2); [ring|rewrite E; ring].
Qed.
Lemma spher_norm R z : (R <> 0 \/ z <> 0) -> 0 < sqrt (R ^ 2 + z ^ 2) /\ sqrt (R ^ 2 + z ^ 2) ^ 2 = R ^ 2 + z ^ 2.
Proof.
  intros H. assert (0 < R ^ 2 + z ^ 2) by (destruct H; nra). split; [apply sqrt_lt_R0; auto|].
  replace (sqrt (R ^ 2 + z ^ 2) ^ 2) with (sqrt (R ^ 2 + z ^ 2) * sqrt (R ^ 2 + z ^ 2)) by ring. apply sqrt_sqrt; lra.
Qed.
Lemma spher_vec_roundtrip vR vT vz R z : (R <> 0 \/ z <> 0) -> let v := cyl_to_spher_vec vR vT vz R z in
  spher_to_cyl_vec (vx v) (vy v) (Vec3.vz v) (atan2 R z) = mkV vR vT vz.
Proof.
  intros H v. unfold v, cyl_to_spher_vec, spher_to_cyl_vec. simpl. destruct (spher_norm R z H) as [P E].
  pose proof (atan2_cos z R) as C. pose proof (atan2_sin z R) as S. rewrite Rplus_comm in C, S.
  set (r := sqrt (R ^ 2 + z ^ 2)) in *.
  assert (C' : cos (atan2 R z) = z / r) by (rewrite <- C at 2; field; lra).
  assert (S' : sin (atan2 R z) = R / r) by (rewrite <- S at 2; field; lra).
  rewrite C', S'. f_equal.
  - transitivity (vR * ((R ^ 2 + z ^ 2) / r ^ 2)); [field; lra|rewrite <- E; field; lra].
  - transitivity (vz * ((R ^ 2 + z ^ 2) / r ^ 2)); [field; lra|rewrite <- E; field; lra].
Qed.
Lemma spher_vec_roundtrip2 vr vT vth r th : 0 < r -> let v := spher_to_cyl_vec vr vT vth th in
  cyl_to_spher_vec (vx v) (vy v) (vz v) (r * sin th) (r * cos th) = mkV vr vT vth.
Proof.
  intros H v. unfold v, cyl_to_spher_vec, spher_to_cyl_vec. simpl.
  rewrite (Rplus_comm ((r * sin th) ^ 2)), polar_norm, Rabs_pos_eq by lra. pose proof (sc1 th) as E. f_equal.
  - transitivity (vr * (cos th * cos th + sin th * sin th)); [field; lra|rewrite E; ring].
  - transitivity (vth * (cos th * cos th + sin th * sin th)); [field; lra|rewrite E; ring].
Qed.
Lemma spher_vec_speed vr vT vth th : vnorm2 (spher_to_cyl_vec vr vT vth th) = vr ^ 2 + vT ^ 2 + vth ^ 2.
Proof.
  unfold spher_to_cyl_vec. vunfold. pose proof (sc1 th) as E.
  transitivity ((vr ^ 2 + vth ^ 2) * (cos th * cos th + sin th * sin th) + vT ^ 2); [ring|rewrite E; ring].
Qed.

(** Velocities are rates of change of the coordinates. *)
Lemma cyl_vec_rates (x y z : RR -> RR) s dx dy dz : is_derive x s dx -> is_derive y s dy -> is_derive z s dz ->
  (0 < x s \/ y s <> 0) ->
  let v := rect_to_cyl_vec dx dy dz (x s) (y s) (z s) false in
  let R := fun u => fst (fst (rect_to_cyl (x u) (y u) (z u))) in
  let phi := fun u => snd (fst (rect_to_cyl (x u) (y u) (z u))) in
  is_derive R s (vx v) /\ (exists dphi : RR, is_derive phi s dphi /\ vy v = R s * dphi) /\ is_derive z s (vz v).
Proof.
  intros Dx Dy Dz H v R phi. unfold v, rect_to_cyl_vec, rect_to_cyl, R, phi. simpl.
  assert (H2 : x s <> 0 \/ y s <> 0) by (destruct H; [left; lra|auto]).
  destruct (spher_norm (x s) (y s) H2) as [P E].
  pose proof (atan2_cos (x s) (y s)) as C. pose proof (atan2_sin (x s) (y s)) as S.
  assert (P2 : 0 < x s ^ 2 + y s ^ 2) by (destruct H2; nra).
  assert (C' : cos (atan2 (y s) (x s)) = x s / sqrt (x s ^ 2 + y s ^ 2)) by (rewrite <- C at 2; field; lra).
  assert (S' : sin (atan2 (y s) (x s)) = y s / sqrt (x s ^ 2 + y s ^ 2)) by (rewrite <- S at 2; field; lra).
  rewrite C', S'.
  split; [|split; [|auto]].
  - auto_derive. { split; [eexists; eauto|split; [eexists; eauto|split; auto]]. }
    derw. field. lra.
  - eexists. split; [apply is_derive_atan2; eauto|]. 
    set (r := sqrt (x s ^ 2 + y s ^ 2)) in *. rewrite <- E. field. lra.
Qed.
Lemma spher_vec_rates (Rc zc : RR -> RR) s dR vT dz : is_derive Rc s dR -> is_derive zc s dz -> 0 < Rc s ->
  let v := cyl_to_spher_vec dR vT dz (Rc s) (zc s) in
  let r := fun u => fst (fst (cyl_to_spher (Rc u) (zc u) 0)) in
  let th := fun u => snd (fst (cyl_to_spher (Rc u) (zc u) 0)) in
  is_derive r s (vx v) /\ (exists dth : RR, is_derive th s dth /\ vz v = r s * dth) /\ vy v = vT.
Proof.
  intros DR Dz H v r th. unfold v, cyl_to_spher_vec, cyl_to_spher, r, th. simpl.
  assert (H2 : Rc s <> 0 \/ zc s <> 0) by (left; lra).
  destruct (spher_norm (Rc s) (zc s) H2) as [P E].
  assert (P2 : 0 < Rc s ^ 2 + zc s ^ 2) by nra.
  split; [|split; [|auto]].
  - auto_derive. { split; [eexists; eauto|split; [eexists; eauto|split; auto]]. }
    derw. field. lra.
  - eexists. split; [apply (is_derive_atan2 zc Rc); eauto; right; lra|].
    set (q := sqrt (Rc s ^ 2 + zc s ^ 2)) in *. replace (zc s ^ 2 + Rc s ^ 2) with (q ^ 2) by lra. field. lra.
Qed.

(** ** Proper motions and space velocities *)
Lemma sky_ortho l b : orthogonal (sky_matrix l b).
Proof.
  unfold orthogonal, sky_matrix. pose proof (sc1 l) as A. pose proof (sc1 b) as B. vunfold.
  f_equal; f_equal; try ring.
  - transitivity (cos b * cos b * (cos l * cos l + sin l * sin l) + sin b * sin b); [ring|rewrite A, B; ring].
  - transitivity (sin b * cos b * (1 - (cos l * cos l + sin l * sin l))); [ring|rewrite A; ring].
  - transitivity (cos l * cos l + sin l * sin l); [ring|rewrite A; ring].
  - transitivity (sin b * cos b * (1 - (cos l * cos l + sin l * sin l))); [ring|rewrite A; ring].
  - transitivity (sin b * sin b * (cos l * cos l + sin l * sin l) + cos b * cos b); [ring|rewrite A, B; ring].
Qed.
Lemma sky_matrix_apply l b p q r : mulMV (transp (sky_matrix l b)) (mkV p q r) =
  vadd (vscal p (direction l b)) (proper_motion l b q r).
Proof. unfold sky_matrix, direction, proper_motion, east, north. vunfold. f_equal; ring. Qed.

(** The (l, b, d) in radians that the velocity conversions work at. *)
Definition lbd_at (degree XYZ : bool) (a1 a2 a3 : RR) : V3 :=
  if XYZ then XYZ_to_lbd false a1 a2 a3 else mkV (a1 * unit_angle degree) (a2 * unit_angle degree) a3.
Lemma vrpm_at K degree XYZ vr pmll pmbb a1 a2 a3 :
  vrpmllpmbb_to_vxvyvz K degree XYZ vr pmll pmbb a1 a2 a3 =
  let p := lbd_at degree XYZ a1 a2 a3 in
  mulMV (transp (sky_matrix (vx p) (vy p))) (mkV vr (vz p * pmll * K) (vz p * pmbb * K)).
Proof.
  unfold vrpmllpmbb_to_vxvyvz, lbd_at. pose proof PI_RGT_0. destruct XYZ, degree; simpl.
  - replace (a1 * PI / 180 * (180 / PI)) with a1 by (field; lra). replace (a2 * PI / 180 * (180 / PI)) with a2 by (field; lra). auto.
  - auto.
  - unfold Rdiv. rewrite !Rmult_assoc. auto.
  - rewrite !Rmult_1_r. auto.
Qed.
Lemma vxyz_at K degree XYZ v1 v2 v3 a1 a2 a3 :
  vxvyvz_to_vrpmllpmbb K degree XYZ v1 v2 v3 a1 a2 a3 =
  let p := lbd_at degree XYZ a1 a2 a3 in
  let w := mulMV (sky_matrix (vx p) (vy p)) (mkV v1 v2 v3) in
  mkV (vx w) (vy w / (vz p * K)) (vz w / (vz p * K)).
Proof.
  unfold vxvyvz_to_vrpmllpmbb, lbd_at. pose proof PI_RGT_0. destruct XYZ, degree; simpl.
  - replace (a1 * PI / 180 * (180 / PI)) with a1 by (field; lra). replace (a2 * PI / 180 * (180 / PI)) with a2 by (field; lra). auto.
  - auto.
  - unfold Rdiv. rewrite !Rmult_assoc. auto.
  - rewrite !Rmult_1_r. auto.
Qed.
Lemma vrpm_roundtrip K degree XYZ vr pmll pmbb a1 a2 a3 : K <> 0 -> vz (lbd_at degree XYZ a1 a2 a3) <> 0 ->
  let v := vrpmllpmbb_to_vxvyvz K degree XYZ vr pmll pmbb a1 a2 a3 in
  vxvyvz_to_vrpmllpmbb K degree XYZ (vx v) (vy v) (vz v) a1 a2 a3 = mkV vr pmll pmbb.
Proof.
  intros HK Hd v. unfold v. rewrite vxyz_at, vrpm_at. cbv zeta.
  set (p := lbd_at degree XYZ a1 a2 a3) in *.
  match goal with |- context [mkV (vx ?w) (vy ?w) (vz ?w)] => replace (mkV (vx w) (vy w) (vz w)) with w by (destruct w; auto) end.
  rewrite <- mulMV_assoc, (sky_ortho (vx p) (vy p)), mulMV_eye. simpl. f_equal; field; auto.
Qed.
Lemma vxyz_roundtrip K degree XYZ v1 v2 v3 a1 a2 a3 : K <> 0 -> vz (lbd_at degree XYZ a1 a2 a3) <> 0 ->
  let v := vxvyvz_to_vrpmllpmbb K degree XYZ v1 v2 v3 a1 a2 a3 in
  vrpmllpmbb_to_vxvyvz K degree XYZ (vx v) (vy v) (vz v) a1 a2 a3 = mkV v1 v2 v3.
Proof.
  intros HK Hd v. unfold v. rewrite vxyz_at, vrpm_at. cbv zeta.
  set (p := lbd_at degree XYZ a1 a2 a3) in *. cbn [vx vy vz].
  set (w := mulMV (sky_matrix (vx p) (vy p)) (mkV v1 v2 v3)).
  replace (mkV (vx w) (vz p * (vy w / (vz p * K)) * K) (vz p * (vz w / (vz p * K)) * K)) with w.
  - unfold w. rewrite <- mulMV_assoc, ortho_l, mulMV_eye by apply sky_ortho. auto.
  - destruct w as [w1 w2 w3]; simpl. f_equal; field; auto.
Qed.
Lemma vrpm_geom K degree XYZ vr pmll pmbb a1 a2 a3 :
  let p := lbd_at degree XYZ a1 a2 a3 in
  vrpmllpmbb_to_vxvyvz K degree XYZ vr pmll pmbb a1 a2 a3 =
  vadd (vscal vr (direction (vx p) (vy p))) (vscal (K * vz p) (proper_motion (vx p) (vy p) pmll pmbb)).
Proof.
  intros p. rewrite vrpm_at. fold p. cbv zeta. rewrite sky_matrix_apply. f_equal.
  unfold proper_motion. generalize (east (vx p)) (north (vx p) (vy p)). intros. vring.
Qed.
Lemma vrpm_speed K degree XYZ vr pmll pmbb a1 a2 a3 :
  let p := lbd_at degree XYZ a1 a2 a3 in
  vnorm2 (vrpmllpmbb_to_vxvyvz K degree XYZ vr pmll pmbb a1 a2 a3) = vr ^ 2 + (K * vz p) ^ 2 * (pmll ^ 2 + pmbb ^ 2).
Proof.
  intros p. rewrite vrpm_at. fold p. cbv zeta. unfold vnorm2. rewrite ortho_dot by apply ortho_transp, sky_ortho.
  vunfold. ring.
Qed.
Lemma XYZ_d_nonzero degree X Y Z : (X, Y, Z) <> (0, 0, 0) -> 0 < vz (XYZ_to_lbd degree X Y Z).
Proof.
  intros H. simpl. apply sqrt_lt_R0.
  destruct (Req_dec X 0) as [->|]; [destruct (Req_dec Y 0) as [->|]; [destruct (Req_dec Z 0) as [->|]; [tauto|]|]|]; nra.
Qed.
Lemma sphergal_roundtrip K degree x v : K <> 0 -> x <> vzero ->
  (let '(p, q) := rectgal_to_sphergal K degree x v in sphergal_to_rectgal K degree p q) = (x, v).
Proof.
  intros HK Hx. unfold rectgal_to_sphergal, sphergal_to_rectgal.
  assert (N : (vx x, vy x, vz x) <> (0, 0, 0)) by (intros E; apply Hx; destruct x; simpl in E; injection E as -> -> ->; auto).
  f_equal.
  - pose proof (XYZ_lbd_roundtrip degree (vx x) (vy x) (vz x) N) as R. cbv zeta in R. rewrite R. destruct x; auto.
  - pose proof (vxyz_roundtrip K false true (vx v) (vy v) (vz v) (vx x) (vy x) (vz x) HK) as R. cbv zeta in R.
    pose proof (XYZ_d_nonzero false (vx x) (vy x) (vz x) N) as D.
    rewrite vrpm_at in R |- *. cbv zeta in R |- *.
    replace (lbd_at degree false (vx (XYZ_to_lbd degree (vx x) (vy x) (vz x))) (vy (XYZ_to_lbd degree (vx x) (vy x) (vz x)))
       (vz (XYZ_to_lbd degree (vx x) (vy x) (vz x)))) with (lbd_at false true (vx x) (vy x) (vz x)).
    + rewrite R; [destruct v; auto|]. unfold lbd_at. lra.
    + unfold lbd_at, XYZ_to_lbd. cbn [vx vy vz]. rewrite !deg_out_unit. reflexivity.
Qed.
Lemma sphergal_roundtrip2 K degree x v : K <> 0 -> sky_range degree (vx x) (vy x) -> 0 < vz x ->
  (let '(p, q) := sphergal_to_rectgal K degree x v in rectgal_to_sphergal K degree p q) = (x, v).
Proof.
  intros HK Hr Hd. unfold rectgal_to_sphergal, sphergal_to_rectgal.
  pose proof (lbd_XYZ_roundtrip degree (vx x) (vy x) (vz x) Hr Hd) as R. cbv zeta in R.
  set (p := lbd_to_XYZ degree (vx x) (vy x) (vz x)) in *. rewrite R.
  assert (E : lbd_at false true (vx p) (vy p) (vz p) = lbd_at degree false (vx x) (vy x) (vz x)).
  { unfold lbd_at. pose proof (f_equal vx R) as R1. pose proof (f_equal vy R) as R2. pose proof (f_equal vz R) as R3.
    unfold XYZ_to_lbd in R1, R2, R3 |- *. cbn [vx vy vz] in R1, R2, R3 |- *. f_equal; auto.
    - rewrite <- R1, deg_out_unit. auto.
    - rewrite <- R2, deg_out_unit. auto. }
  f_equal.
  - destruct x; auto.
  - pose proof (vrpm_roundtrip K degree false (vx v) (vy v) (vz v) (vx x) (vy x) (vz x) HK) as Q. cbv zeta in Q.
    rewrite vxyz_at in Q |- *. rewrite E. rewrite Q; [destruct v; auto|]. simpl. lra.
Qed.

(** ** Galactocentric frames *)
Lemma nsign_sq x : x <> 0 -> nsign x * nsign x = 1.
Proof. intros. unfold nsign. destruct (Rlt_dec x 0); [lra|]. destruct (Rlt_dec 0 x); lra. Qed.
Lemma cs_sun Xsun Zsun : Xsun <> 0 -> let dgc := sqrt (Xsun ^ 2 + Zsun ^ 2) in
  0 < dgc /\ (Xsun / dgc) * (Xsun / dgc) = 1 - (Zsun / dgc) * (Zsun / dgc).
Proof.
  intros H dgc. destruct (spher_norm Xsun Zsun (or_introl H)) as [P E]. fold dgc in P, E. split; auto.
  apply Rmult_eq_reg_r with (dgc ^ 2); [|apply pow_nonzero; lra].
  transitivity (Xsun ^ 2); [field; lra|]. transitivity (dgc ^ 2 - Zsun ^ 2); [lra|field; lra].
Qed.
(** Reflection of the heliocentric axes. *)
Definition refl (Xsun : RR) (v : V3) : V3 := mkV (- vx v) (vy v) (nsign Xsun * vz v).
Lemma untilt_tilt Xsun Zsun v : Xsun <> 0 -> mulMV (untilt Xsun Zsun) (mulMV (tilt Xsun Zsun) v) = refl Xsun v.
Proof.
  intros H. unfold untilt, tilt, refl. destruct (cs_sun Xsun Zsun H) as [_ E]. pose proof (nsign_sq Xsun H) as N.
  set (c := Xsun / sqrt (Xsun ^ 2 + Zsun ^ 2)) in *. set (s := Zsun / sqrt (Xsun ^ 2 + Zsun ^ 2)) in *.
  set (g := nsign Xsun) in *. destruct v as [x y z]. vunfold. f_equal.
  - transitivity (- x * (c * c + s * s)); [ring|rewrite E; ring].
  - ring.
  - transitivity (g * z * (c * c + s * s)); [ring|rewrite E; ring].
Qed.
Lemma tilt_untilt Xsun Zsun v : Xsun <> 0 -> mulMV (tilt Xsun Zsun) (refl Xsun (mulMV (untilt Xsun Zsun) v)) = v.
Proof.
  intros H. unfold untilt, tilt, refl. destruct (cs_sun Xsun Zsun H) as [_ E]. pose proof (nsign_sq Xsun H) as N.
  set (c := Xsun / sqrt (Xsun ^ 2 + Zsun ^ 2)) in *. set (s := Zsun / sqrt (Xsun ^ 2 + Zsun ^ 2)) in *.
  set (g := nsign Xsun) in *. destruct v as [x y z]. vunfold. f_equal.
  - transitivity (x * (c * c + (g * g) * (s * s)) + z * (c * s * (1 - g * g))); [ring|rewrite N, E; ring].
  - ring.
  - transitivity (z * (s * s + (g * g) * (c * c)) + x * (s * c * (1 - g * g))); [ring|rewrite N, E; ring].
Qed.
Lemma tilt_ortho Xsun Zsun : Xsun <> 0 -> orthogonal (tilt Xsun Zsun).
Proof.
  intros H. unfold orthogonal, tilt. destruct (cs_sun Xsun Zsun H) as [_ E].
  set (c := Xsun / sqrt (Xsun ^ 2 + Zsun ^ 2)) in *. set (s := Zsun / sqrt (Xsun ^ 2 + Zsun ^ 2)) in *.
  vunfold. repeat f_equal; lra.
Qed.
Lemma refl_refl Xsun v : Xsun <> 0 -> refl Xsun (refl Xsun v) = v.
Proof.
  intros H. unfold refl. destruct v as [x y z]; simpl. f_equal; try ring. rewrite <- Rmult_assoc, nsign_sq by auto. ring.
Qed.
Lemma refl_dot Xsun v w : Xsun <> 0 -> vdot (refl Xsun v) (refl Xsun w) = vdot v w.
Proof.
  intros H. unfold refl. pose proof (nsign_sq Xsun H) as N. destruct v as [x y z], w as [x' y' z']. vunfold.
  transitivity (x * x' + y * y' + (nsign Xsun * nsign Xsun) * (z * z')); [ring|rewrite N; ring].
Qed.
Definition rot_opt (E : option M3) (v : V3) : V3 := match E with Some m => mulMV m v | None => v end.
Definition rotT_opt (E : option M3) (v : V3) : V3 := match E with Some m => mulMV (transp m) v | None => v end.
Definition extra_ok (E : option M3) : Prop := match E with Some m => orthogonal m | None => True end.
Lemma rot_opt_inv E v : extra_ok E -> rotT_opt E (rot_opt E v) = v.
Proof. destruct E; simpl; auto. intros O. rewrite <- mulMV_assoc, ortho_l, mulMV_eye; auto. Qed.
Lemma rotT_opt_inv E v : extra_ok E -> rot_opt E (rotT_opt E v) = v.
Proof. destruct E; simpl; auto. intros O. rewrite <- mulMV_assoc, O, mulMV_eye; auto. Qed.
Lemma rot_opt_dot E v w : extra_ok E -> vdot (rot_opt E v) (rot_opt E w) = vdot v w.
Proof. destruct E; simpl; auto. intros O. apply ortho_dot; auto. Qed.

Lemma galcen_form E Xsun Zsun x : XYZ_to_galcenrect E Xsun Zsun x =
  vadd (mulMV (tilt Xsun Zsun) (refl Xsun (rot_opt E x))) (mulMV (tilt Xsun Zsun) (mkV (sqrt (Xsun ^ 2 + Zsun ^ 2)) 0 0)).
Proof.
  unfold XYZ_to_galcenrect. fold (rot_opt E x). rewrite <- mulMV_add. f_equal. unfold refl. vunfold. f_equal; ring.
Qed.
Lemma vgalcen_form E vsun Xsun Zsun v : vxvyvz_to_galcenrect E vsun Xsun Zsun v =
  vadd (mulMV (tilt Xsun Zsun) (refl Xsun (rot_opt E v))) vsun.
Proof. reflexivity. Qed.
Lemma galcen_sun_in E Xsun Zsun x : Xsun <> 0 ->
  mulMV (untilt Xsun Zsun) (XYZ_to_galcenrect E Xsun Zsun x) = vsub (rot_opt E x) (mkV (sqrt (Xsun ^ 2 + Zsun ^ 2)) 0 0).
Proof.
  intros H. rewrite galcen_form, <- mulMV_add, untilt_tilt by auto.
  destruct (rot_opt E x) as [a b c]. unfold refl. pose proof (nsign_sq Xsun H) as N. vunfold. f_equal; try ring.
  transitivity ((nsign Xsun * nsign Xsun) * c); [ring|rewrite N; ring].
Qed.
Lemma galcen_roundtrip_gen E Xsun Zsun x : Xsun <> 0 ->
  galcenrect_to_XYZ E Xsun Zsun (XYZ_to_galcenrect E Xsun Zsun x) = rotT_opt E (rot_opt E x).
Proof.
  intros H. unfold galcenrect_to_XYZ. rewrite galcen_sun_in by auto.
  replace (vadd (vsub (rot_opt E x) (mkV (sqrt (Xsun ^ 2 + Zsun ^ 2)) 0 0)) (mkV (sqrt (Xsun ^ 2 + Zsun ^ 2)) 0 0)) with (rot_opt E x).
  - reflexivity.
  - destruct (rot_opt E x). vunfold. f_equal; ring.
Qed.
Lemma galcen_roundtrip E Xsun Zsun x : Xsun <> 0 -> extra_ok E ->
  galcenrect_to_XYZ E Xsun Zsun (XYZ_to_galcenrect E Xsun Zsun x) = x.
Proof. intros. rewrite galcen_roundtrip_gen, rot_opt_inv; auto. Qed.
Lemma galcen_roundtrip2 E Xsun Zsun x : Xsun <> 0 -> extra_ok E ->
  XYZ_to_galcenrect E Xsun Zsun (galcenrect_to_XYZ E Xsun Zsun x) = x.
Proof.
  intros H O. rewrite galcen_form. unfold galcenrect_to_XYZ.
  fold (rotT_opt E (vadd (mulMV (untilt Xsun Zsun) x) (mkV (sqrt (Xsun ^ 2 + Zsun ^ 2)) 0 0))).
  rewrite rotT_opt_inv, <- mulMV_add by auto.
  replace (vadd (refl Xsun (vadd (mulMV (untilt Xsun Zsun) x) (mkV (sqrt (Xsun ^ 2 + Zsun ^ 2)) 0 0))) (mkV (sqrt (Xsun ^ 2 + Zsun ^ 2)) 0 0))
    with (refl Xsun (mulMV (untilt Xsun Zsun) x)).
  - apply tilt_untilt; auto.
  - destruct (mulMV (untilt Xsun Zsun) x). unfold refl. vunfold. f_equal; ring.
Qed.
Lemma vgalcen_roundtrip_gen E vsun Xsun Zsun v : Xsun <> 0 ->
  galcenrect_to_vxvyvz E vsun Xsun Zsun (vxvyvz_to_galcenrect E vsun Xsun Zsun v) = rotT_opt E (rot_opt E v).
Proof.
  intros H. unfold galcenrect_to_vxvyvz. rewrite vgalcen_form.
  match goal with |- context [mulMV (untilt _ _) ?w] => replace w with (mulMV (tilt Xsun Zsun) (refl Xsun (rot_opt E v))) end.
  - rewrite untilt_tilt by auto. fold (refl Xsun (refl Xsun (rot_opt E v))). rewrite refl_refl by auto. reflexivity.
  - destruct (mulMV (tilt Xsun Zsun) (refl Xsun (rot_opt E v))), vsun. vunfold. f_equal; ring.
Qed.
Lemma vgalcen_roundtrip E vsun Xsun Zsun v : Xsun <> 0 -> extra_ok E ->
  galcenrect_to_vxvyvz E vsun Xsun Zsun (vxvyvz_to_galcenrect E vsun Xsun Zsun v) = v.
Proof. intros. rewrite vgalcen_roundtrip_gen, rot_opt_inv; auto. Qed.
Lemma vgalcen_roundtrip2 E vsun Xsun Zsun v : Xsun <> 0 -> extra_ok E ->
  vxvyvz_to_galcenrect E vsun Xsun Zsun (galcenrect_to_vxvyvz E vsun Xsun Zsun v) = v.
Proof.
  intros H O. rewrite vgalcen_form. unfold galcenrect_to_vxvyvz.
  match goal with |- context [match E with Some m => mulMV (transp m) ?w | None => ?w end] =>
    change (match E with Some m => mulMV (transp m) w | None => w end) with (rotT_opt E w) end.
  rewrite rotT_opt_inv by auto. rewrite tilt_untilt by auto. destruct v, vsun; vunfold; f_equal; ring.
Qed.
Lemma galcen_distance E Xsun Zsun x y : Xsun <> 0 -> extra_ok E ->
  vnorm2 (vsub (XYZ_to_galcenrect E Xsun Zsun x) (XYZ_to_galcenrect E Xsun Zsun y)) = vnorm2 (vsub x y).
Proof.
  intros H O. rewrite !galcen_form.
  match goal with |- vnorm2 (vsub (vadd ?a ?c) (vadd ?b ?c)) = _ => replace (vsub (vadd a c) (vadd b c)) with (vsub a b) by (destruct a, b, c; vring) end.
  transitivity (vnorm2 (mulMV (tilt Xsun Zsun) (refl Xsun (rot_opt E (vsub x y))))).
  - f_equal. assert (L : rot_opt E (vsub x y) = vsub (rot_opt E x) (rot_opt E y)) by (destruct E; [simpl; vring|auto]).
    rewrite L. generalize (rot_opt E x) (rot_opt E y) (tilt Xsun Zsun). intros. unfold refl. vring.
  - unfold vnorm2. rewrite ortho_dot by (apply tilt_ortho; auto). rewrite refl_dot, rot_opt_dot; auto.
Qed.
Lemma galcen_linear E vsun Xsun Zsun x v h :
  vsub (XYZ_to_galcenrect E Xsun Zsun (vadd x (vscal h v))) (XYZ_to_galcenrect E Xsun Zsun x) =
  vscal h (vsub (vxvyvz_to_galcenrect E vsun Xsun Zsun v) vsun).
Proof.
  rewrite !galcen_form, vgalcen_form.
  assert (L : rot_opt E (vadd x (vscal h v)) = vadd (rot_opt E x) (vscal h (rot_opt E v))) by (destruct E; [simpl; vring|auto]).
  rewrite L. generalize (rot_opt E x) (rot_opt E v) (tilt Xsun Zsun) (sqrt (Xsun ^ 2 + Zsun ^ 2)). intros. unfold refl. vring.
Qed.
Lemma galcen_sun E Xsun Zsun : Xsun <> 0 -> XYZ_to_galcenrect E Xsun Zsun vzero = mkV Xsun 0 Zsun.
Proof.
  intros H. destruct (cs_sun Xsun Zsun H) as [P _]. rewrite galcen_form.
  assert (L : rot_opt E vzero = vzero) by (destruct E; [simpl; vring|auto]). rewrite L.
  unfold tilt, refl. vunfold. f_equal; field; lra.
Qed.
Lemma galcen_centre E Xsun Zsun : Xsun <> 0 -> extra_ok E ->
  XYZ_to_galcenrect E Xsun Zsun (rotT_opt E (mkV (sqrt (Xsun ^ 2 + Zsun ^ 2)) 0 0)) = vzero.
Proof.
  intros H O. rewrite galcen_form, rotT_opt_inv, <- mulMV_add by auto. unfold refl, tilt. vunfold. f_equal; field;
  destruct (cs_sun Xsun Zsun H); lra.
Qed.
Lemma galcencyl_roundtrip E Xsun Zsun x : Xsun <> 0 -> extra_ok E ->
  galcencyl_to_XYZ E Xsun Zsun (XYZ_to_galcencyl E Xsun Zsun x) = x.
Proof.
  intros H O. unfold galcencyl_to_XYZ, XYZ_to_galcencyl.
  set (g := XYZ_to_galcenrect E Xsun Zsun x).
  pose proof (rect_cyl_roundtrip (vx g) (vy g) (vz g)) as R.
  destruct (rect_to_cyl (vx g) (vy g) (vz g)) as [[a b] c]. cbn [vx vy vz]. rewrite R.
  replace (mkV (vx g) (vy g) (vz g)) with g by (destruct g; auto). apply galcen_roundtrip; auto.
Qed.
Lemma galcencyl_roundtrip2 E Xsun Zsun c : Xsun <> 0 -> extra_ok E -> 0 < vx c -> - PI < vy c <= PI ->
  XYZ_to_galcencyl E Xsun Zsun (galcencyl_to_XYZ E Xsun Zsun c) = c.
Proof.
  intros H O HR Hp. unfold galcencyl_to_XYZ, XYZ_to_galcencyl.
  pose proof (cyl_rect_roundtrip (vx c) (vy c) (vz c) HR Hp) as R.
  destruct (cyl_to_rect (vx c) (vy c) (vz c)) as [[a b] d]. rewrite galcen_roundtrip2 by auto. cbn [vx vy vz]. rewrite R. destruct c; auto.
Qed.
Lemma vgalcencyl_roundtrip E vsun Xsun Zsun v x (galcen : bool) : Xsun <> 0 -> extra_ok E ->
  galcencyl_to_vxvyvz E vsun Xsun Zsun (vxvyvz_to_galcencyl E vsun Xsun Zsun galcen v x)
    (if galcen then vy x else atan2 (vy x) (vx x)) = v.
Proof.
  intros H O. unfold galcencyl_to_vxvyvz, vxvyvz_to_galcencyl.
  set (g := vxvyvz_to_galcenrect E vsun Xsun Zsun v).
  pose proof (cyl_vec_roundtrip (vx g) (vy g) (vz g) (vx x) (vy x) (vz x) galcen) as R. cbv zeta in R. rewrite R.
  replace (mkV (vx g) (vy g) (vz g)) with g by (destruct g; auto). apply vgalcen_roundtrip; auto.
Qed.
Lemma vgalcencyl_roundtrip2 E vsun Xsun Zsun v R phi Z : Xsun <> 0 -> extra_ok E ->
  vxvyvz_to_galcencyl E vsun Xsun Zsun true (galcencyl_to_vxvyvz E vsun Xsun Zsun v phi) (mkV R phi Z) = v.
Proof.
  intros H O. unfold galcencyl_to_vxvyvz, vxvyvz_to_galcencyl. rewrite vgalcen_roundtrip2 by auto.
  cbn [vx vy vz]. destruct v as [a b c]. apply cyl_vec_roundtrip2.
Qed.

(** ** In the plane *)
Lemma dl_geom degree ro phio d l : let u := unit_angle degree in
  0 <= ro -> 0 <= d -> let '(R, phi) := dl_to_rphi_2d degree ro phio d l in 0 < R ->
  R * cos ((phi - phio) * u) = ro - d * cos (l * u) /\ R * sin ((phi - phio) * u) = d * sin (l * u) /\
  - PI / 2 <= (phi - phio) * u < 3 * PI / 2.
Proof.
  intros u Hro Hd. unfold dl_to_rphi_2d. pose proof PI_RGT_0 as Hpi.
  replace (if degree then l * (PI / 180) else l) with (l * u) by (unfold u; destruct degree; simpl; ring).
  set (lr := l * u). set (R := sqrt (ro ^ 2 + d ^ 2 - 2 * d * ro * cos lr)). intros HR.
  match goal with |- context [if degree then ?p / (PI / 180) else ?p] => set (ph := p) end.
  replace (((if degree then ph / (PI / 180) else ph) + phio - phio) * u) with ph by (unfold u; destruct degree; simpl; field; lra).
  assert (ER : R ^ 2 = (ro - d * cos lr) ^ 2 + (d * sin lr) ^ 2).
  { unfold R. pose proof (sc2 lr) as S2.
    replace (ro ^ 2 + d ^ 2 - 2 * d * ro * cos lr) with ((ro - d * cos lr) ^ 2 + (d * sin lr) ^ 2).
    - match goal with |- sqrt ?x ^ 2 = _ => replace (sqrt x ^ 2) with (sqrt x * sqrt x) by ring end. apply sqrt_sqrt. apply Rplus_le_le_0_compat; apply pow2_ge_0.
    - transitivity (ro ^ 2 - 2 * d * ro * cos lr + d ^ 2 * (cos lr ^ 2 + sin lr ^ 2)); [ring|rewrite S2; ring]. }
  clearbody R.
  assert (Hs : -1 <= d / R * sin lr <= 1).
  { replace (d / R * sin lr) with (d * sin lr / R) by (field; lra).
    assert (Rabs (d * sin lr) <= R). { apply Rsqr_incr_0_var; [|lra]. rewrite <- Rsqr_abs. unfold Rsqr. pose proof (pow2_ge_0 (ro - d * cos lr)). lra. }
    apply Rabs_le_between in H. split.
    - apply Rmult_le_reg_r with R; auto. replace (d * sin lr / R * R) with (d * sin lr) by (field; lra). lra.
    - apply Rmult_le_reg_r with R; auto. replace (d * sin lr / R * R) with (d * sin lr) by (field; lra). lra. }
  pose proof (asin_range (d / R * sin lr)) as Ha.
  assert (Cas : R * cos (asin (d / R * sin lr)) = Rabs (ro - d * cos lr)).
  { rewrite cos_asin by auto. rewrite <- (sqrt_Rsqr_abs (ro - d * cos lr)).
    replace R with (sqrt (Rsqr R)) by (apply sqrt_Rsqr; lra). rewrite <- sqrt_mult_alt by (apply Rle_0_sqr). f_equal.
    rewrite sqrt_Rsqr by lra. unfold Rsqr. replace (R * R * (1 - d / R * sin lr * (d / R * sin lr))) with (R ^ 2 - (d * sin lr) ^ 2) by (field; lra).
    rewrite ER. ring. }
  assert (Sas : R * sin (asin (d / R * sin lr)) = d * sin lr) by (rewrite sin_asin by auto; field; lra).
  unfold ph. destruct (Rlt_dec 0 (cos lr)) as [Hc|Hc]; [destruct (Rlt_dec (ro / cos lr) d) as [Hl|Hl]|].
  - assert (ro < d * cos lr).
    { apply Rmult_lt_reg_r with (/ cos lr); [apply Rinv_0_lt_compat; auto|]. replace (d * cos lr * / cos lr) with d by (field; lra). exact Hl. }
    rewrite cos_minus, sin_minus, cos_PI, sin_PI. rewrite Rabs_left in Cas by lra.
    split; [|split]; try lra. split; [lra|].
    destruct (Rle_lt_or_eq_dec _ _ (proj1 Ha)) as [L|Eq]; [lra|]. exfalso.
    rewrite <- Eq in Cas. replace (- PI / 2) with (- (PI / 2)) in Cas by lra. rewrite cos_neg, cos_PI2 in Cas. lra.
  - assert (d * cos lr <= ro).
    { apply Rnot_lt_le in Hl. apply (Rmult_le_compat_r (cos lr)) in Hl; [|lra]. replace (ro / cos lr * cos lr) with ro in Hl by (field; lra). lra. }
    rewrite Rabs_pos_eq in Cas by lra. split; [|split]; auto; lra.
  - assert (d * cos lr <= ro) by nra. rewrite Rabs_pos_eq in Cas by lra. split; [|split]; auto; lra.
Qed.
Lemma rphi_is_dl degree ro phio R phi : rphi_to_dl_2d degree ro phio R phi = dl_to_rphi_2d degree ro 0 R (phi - phio).
Proof.
  unfold rphi_to_dl_2d, dl_to_rphi_2d. rewrite Rplus_0_r, (Rplus_comm (R ^ 2)). auto.
Qed.
Lemma angle_unique3 a b : - PI / 2 <= a < 3 * PI / 2 -> - PI / 2 <= b < 3 * PI / 2 -> cos a = cos b -> sin a = sin b -> a = b.
Proof.
  intros Ha Hb Hc Hs. pose proof PI_RGT_0.
  assert (a + PI / 2 = b + PI / 2); [|lra].
  apply angle_unique2; try lra; rewrite ?cos_plus, ?sin_plus, ?cos_PI2, ?sin_PI2; lra.
Qed.
Lemma dl_roundtrip degree ro phio d l : let u := unit_angle degree in
  0 < ro -> 0 < d -> - PI / 2 <= l * u < 3 * PI / 2 ->
  let '(R, phi) := dl_to_rphi_2d degree ro phio d l in 0 < R -> rphi_to_dl_2d degree ro phio R phi = (d, l).
Proof.
  intros u Hro Hd Hl. pose proof (dl_geom degree ro phio d l (Rlt_le _ _ Hro) (Rlt_le _ _ Hd)) as G.
  destruct (dl_to_rphi_2d degree ro phio d l) as [R phi]. intros HR. fold u in G. destruct (G HR) as [Gc [Gs _]].
  rewrite rphi_is_dl.
  pose proof (dl_geom degree ro 0 R (phi - phio) (Rlt_le _ _ Hro) (Rlt_le _ _ HR)) as G2. fold u in G2.
  assert (Ed : fst (dl_to_rphi_2d degree ro 0 R (phi - phio)) = d).
  { unfold dl_to_rphi_2d. simpl.
    replace (if degree then (phi - phio) * (PI / 180) else phi - phio) with ((phi - phio) * u) by (unfold u; destruct degree; simpl; ring).
    set (p := (phi - phio) * u) in *.
    replace (ro ^ 2 + R ^ 2 - 2 * R * ro * cos p) with (Rsqr d); [apply sqrt_Rsqr; lra|].
    pose proof (sc2 p) as S2. pose proof (sc2 (l * u)) as S3.
    transitivity (ro ^ 2 + (R * cos p) ^ 2 + (R * sin p) ^ 2 - 2 * ro * (R * cos p)).
    - rewrite Gc, Gs. unfold Rsqr. transitivity (d ^ 2 * (cos (l * u) ^ 2 + sin (l * u) ^ 2)); [rewrite S3; ring|ring].
    - transitivity (ro ^ 2 + R ^ 2 * (cos p ^ 2 + sin p ^ 2) - 2 * ro * (R * cos p)); [ring|rewrite S2; ring]. }
  destruct (dl_to_rphi_2d degree ro 0 R (phi - phio)) as [d' l']. simpl in Ed. subst d'.
  destruct (G2 Hd) as [Hc2 [Hs2 Hr2]]. f_equal. rewrite Rminus_0_r in *.
  apply (unit_inj degree). fold u. apply angle_unique3; auto.
  - apply Rmult_eq_reg_l with d; [|lra]. lra.
  - apply Rmult_eq_reg_l with d; [|lra]. lra.
Qed.
Lemma rphi_roundtrip degree ro phio R phi : let u := unit_angle degree in
  0 < ro -> 0 < R -> - PI / 2 <= (phi - phio) * u < 3 * PI / 2 ->
  let '(d, l) := rphi_to_dl_2d degree ro phio R phi in 0 < d -> dl_to_rphi_2d degree ro phio d l = (R, phi).
Proof.
  intros u Hro HR Hp. rewrite rphi_is_dl.
  pose proof (dl_roundtrip degree ro 0 R (phi - phio) Hro HR Hp) as G.
  destruct (dl_to_rphi_2d degree ro 0 R (phi - phio)) as [d l]. intros Hd. specialize (G Hd).
  rewrite rphi_is_dl, Rminus_0_r in G.
  assert (F : forall q, dl_to_rphi_2d degree ro q d l = (fst (dl_to_rphi_2d degree ro 0 d l), snd (dl_to_rphi_2d degree ro 0 d l) + q))
    by (intros; unfold dl_to_rphi_2d; simpl; f_equal; ring).
  rewrite F, G. simpl. f_equal. ring.
Qed.
