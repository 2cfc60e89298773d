(** C15: velocity transformations are inverse to each other and preserve the speed. *)
From Coq Require Import Reals Lra.
From Coquelicot Require Import Coquelicot.
From Verif.Lib Require Import Atan2 Vec3.
From Verif.Model Require Import Coords CoordsVec.
From Verif.Spec Require Import SkySpec.
From Verif.Proofs Require Import SkyProofs SkyProofs2 VecProofs.
Open Scope R_scope.
Notation RR := RbaseSymbolsImpl.R (only parsing).

(** [cyl=True] means the position is given as (R, phi, Z), so that phi is its second entry. *)
Theorem C15_rect_cyl_rect : forall v1 v2 v3 X Y Z cyl,
  let v := rect_to_cyl_vec v1 v2 v3 X Y Z cyl in
  let phi := if cyl then Y else snd (fst (rect_to_cyl X Y Z)) in
  cyl_to_rect_vec (vx v) (vy v) (vz v) phi = mkV v1 v2 v3.
Proof. exact cyl_vec_roundtrip. Qed.
Print Assumptions C15_rect_cyl_rect.

Theorem C15_cyl_rect_cyl : forall vr vt vz R phi Z,
  let v := cyl_to_rect_vec vr vt vz phi in
  rect_to_cyl_vec (vx v) (vy v) (Vec3.vz v) R phi Z true = mkV vr vt vz.
Proof. exact cyl_vec_roundtrip2. Qed.
Print Assumptions C15_cyl_rect_cyl.

Theorem C15_cyl_speed : forall vr vt vz phi, vnorm2 (cyl_to_rect_vec vr vt vz phi) = vr ^ 2 + vt ^ 2 + vz ^ 2.
Proof. exact cyl_vec_speed. Qed.
Print Assumptions C15_cyl_speed.

(** The cylindrical velocity components of a moving point are dR/dt, R dphi/dt and dz/dt. *)
Theorem C15_cyl_components_are_rates : forall (x y z : RR -> RR) s dx dy dz,
  is_derive x s dx -> is_derive y s dy -> is_derive z s dz -> (0 < x s \/ y s <> 0) ->
  let v := rect_to_cyl_vec dx dy dz (x s) (y s) (z s) false in
  let R := fun u => fst (fst (rect_to_cyl (x u) (y u) (z u))) in
  let phi := fun u => snd (fst (rect_to_cyl (x u) (y u) (z u))) in
  is_derive R s (vx v) /\ (exists dphi : RR, is_derive phi s dphi /\ vy v = R s * dphi) /\ is_derive z s (vz v).
Proof. exact cyl_vec_rates. Qed.
Print Assumptions C15_cyl_components_are_rates.

Theorem C15_cyl_spher_cyl : forall vR vT vz R z, (R <> 0 \/ z <> 0) ->
  let v := cyl_to_spher_vec vR vT vz R z in
  let theta := snd (fst (cyl_to_spher R z 0)) in
  spher_to_cyl_vec (vx v) (vy v) (Vec3.vz v) theta = mkV vR vT vz.
Proof. exact spher_vec_roundtrip. Qed.
Print Assumptions C15_cyl_spher_cyl.

Theorem C15_spher_cyl_spher : forall vr vT vtheta r theta, 0 < r ->
  let v := spher_to_cyl_vec vr vT vtheta theta in
  let '(R, z, _) := spher_to_cyl r theta 0 in
  cyl_to_spher_vec (vx v) (vy v) (vz v) R z = mkV vr vT vtheta.
Proof. exact spher_vec_roundtrip2. Qed.
Print Assumptions C15_spher_cyl_spher.

Theorem C15_spher_speed : forall vr vT vtheta theta,
  vnorm2 (spher_to_cyl_vec vr vT vtheta theta) = vr ^ 2 + vT ^ 2 + vtheta ^ 2.
Proof. exact spher_vec_speed. Qed.
Print Assumptions C15_spher_speed.

(** The spherical components are dr/dt, the unchanged vT, and r dtheta/dt. *)
Theorem C15_spher_components_are_rates : forall (Rc zc : RR -> RR) s dR vT dz,
  is_derive Rc s dR -> is_derive zc s dz -> 0 < Rc s ->
  let v := cyl_to_spher_vec dR vT dz (Rc s) (zc s) in
  let r := fun u => fst (fst (cyl_to_spher (Rc u) (zc u) 0)) in
  let th := fun u => snd (fst (cyl_to_spher (Rc u) (zc u) 0)) in
  is_derive r s (vx v) /\ (exists dth : RR, is_derive th s dth /\ vz v = r s * dth) /\ vy v = vT.
Proof. exact spher_vec_rates. Qed.
Print Assumptions C15_spher_components_are_rates.

(** Line-of-sight velocity and proper motions to a space velocity: the position is (l, b, d), or (X, Y, Z) if XYZ=True. *)
Theorem C15_vrpm_meaning : forall K degree vr pmll pmbb l b d, let u := unit_angle degree in
  vrpmllpmbb_to_vxvyvz K degree false vr pmll pmbb l b d =
  vadd (vscal vr (direction (l * u) (b * u))) (vscal (K * d) (proper_motion (l * u) (b * u) pmll pmbb)).
Proof. intros. exact (vrpm_geom K degree false vr pmll pmbb l b d). Qed.
Print Assumptions C15_vrpm_meaning.

Theorem C15_vrpm_XYZ_meaning : forall K degree vr pmll pmbb X Y Z, let p := XYZ_to_lbd false X Y Z in
  vrpmllpmbb_to_vxvyvz K degree true vr pmll pmbb X Y Z =
  vrpmllpmbb_to_vxvyvz K false false vr pmll pmbb (vx p) (vy p) (vz p).
Proof. intros. rewrite !vrpm_at. unfold lbd_at. simpl unit_angle. rewrite !Rmult_1_r. reflexivity. Qed.
Print Assumptions C15_vrpm_XYZ_meaning.

Theorem C15_vrpm_roundtrip : forall K degree vr pmll pmbb l b d, K <> 0 -> d <> 0 ->
  let v := vrpmllpmbb_to_vxvyvz K degree false vr pmll pmbb l b d in
  vxvyvz_to_vrpmllpmbb K degree false (vx v) (vy v) (vz v) l b d = mkV vr pmll pmbb.
Proof. intros. apply vrpm_roundtrip; auto. Qed.
Print Assumptions C15_vrpm_roundtrip.

Theorem C15_vxyz_roundtrip : forall K degree v1 v2 v3 l b d, K <> 0 -> d <> 0 ->
  let v := vxvyvz_to_vrpmllpmbb K degree false v1 v2 v3 l b d in
  vrpmllpmbb_to_vxvyvz K degree false (vx v) (vy v) (vz v) l b d = mkV v1 v2 v3.
Proof. intros. apply vxyz_roundtrip; auto. Qed.
Print Assumptions C15_vxyz_roundtrip.

Theorem C15_vrpm_XYZ_roundtrip : forall K degree v1 v2 v3 X Y Z, K <> 0 -> (X, Y, Z) <> (0, 0, 0) ->
  (let v := vrpmllpmbb_to_vxvyvz K degree true v1 v2 v3 X Y Z in
   vxvyvz_to_vrpmllpmbb K degree true (vx v) (vy v) (vz v) X Y Z = mkV v1 v2 v3) /\
  (let v := vxvyvz_to_vrpmllpmbb K degree true v1 v2 v3 X Y Z in
   vrpmllpmbb_to_vxvyvz K degree true (vx v) (vy v) (vz v) X Y Z = mkV v1 v2 v3).
Proof.
  intros. pose proof (XYZ_d_nonzero false X Y Z H0) as P.
  split; [apply vrpm_roundtrip|apply vxyz_roundtrip]; auto; unfold lbd_at; lra.
Qed.
Print Assumptions C15_vrpm_XYZ_roundtrip.

Theorem C15_vrpm_speed : forall K degree vr pmll pmbb l b d,
  vnorm2 (vrpmllpmbb_to_vxvyvz K degree false vr pmll pmbb l b d) = vr ^ 2 + (K * d) ^ 2 * (pmll ^ 2 + pmbb ^ 2).
Proof. intros. exact (vrpm_speed K degree false vr pmll pmbb l b d). Qed.
Print Assumptions C15_vrpm_speed.

(** Full phase-space conversions between (X,Y,Z,vx,vy,vz) and (l,b,d,vr,pmll,pmbb). *)
Theorem C15_sphergal_roundtrip : forall K degree x v, K <> 0 -> x <> vzero ->
  (let '(p, q) := rectgal_to_sphergal K degree x v in sphergal_to_rectgal K degree p q) = (x, v).
Proof. exact sphergal_roundtrip. Qed.
Print Assumptions C15_sphergal_roundtrip.

Theorem C15_rectgal_roundtrip : forall K degree x v, K <> 0 -> sky_range degree (vx x) (vy x) -> 0 < vz x ->
  (let '(p, q) := sphergal_to_rectgal K degree x v in rectgal_to_sphergal K degree p q) = (x, v).
Proof. exact sphergal_roundtrip2. Qed.
Print Assumptions C15_rectgal_roundtrip.

(** The hypotheses are met by an ordinary star. *)
Example C15_star : K_default <> 0 /\ sky_range true 90 30 /\
  vxvyvz_to_vrpmllpmbb K_default true false 0 (K_default * 2) 0 0 0 2 = mkV 0 1 0.
Proof.
  pose proof PI_RGT_0. split; [unfold K_default; lra|]. split; [unfold sky_range; simpl; lra|].
  rewrite vxyz_at. unfold lbd_at, sky_matrix. cbn [vx vy vz unit_angle]. rewrite !Rmult_0_l, cos_0, sin_0. vunfold.
  unfold K_default. f_equal; field.
Qed.
(** An orbit point moving on a circle has no radial velocity. *)
Example C15_circle : vx (rect_to_cyl_vec 0 1 0 1 0 0 false) = 0.
Proof.
  unfold rect_to_cyl_vec, rect_to_cyl. cbn [vx].
  pose proof (atan2_sin 1 0) as S. replace (1 ^ 2 + 0 ^ 2) with 1 in S by ring. rewrite sqrt_1 in S. lra.
Qed.
