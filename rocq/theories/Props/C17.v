(** C17: heliocentric and Galactocentric frames are inverse to each other. *)
From Coq Require Import Reals Lra.
From Verif.Lib Require Import RealAux Atan2 Vec3.
From Verif.Model Require Import Coords CoordsVec.
From Verif.Proofs Require Import SkyProofs SkyProofs2 VecProofs.
Open Scope R_scope.

(** [E] is the module's extra rotation (None if _extra_rot=False); it is orthogonal up to rounding, and the
    theorems assume that it is orthogonal.  What happens without this is C17_extra_rot_residual. *)
Definition extra_rot_orthogonal (E : option M3) : Prop := match E with Some m => orthogonal m | None => True end.

Theorem C17_position_roundtrip : forall E Xsun Zsun x, Xsun <> 0 -> extra_rot_orthogonal E ->
  galcenrect_to_XYZ E Xsun Zsun (XYZ_to_galcenrect E Xsun Zsun x) = x /\
  XYZ_to_galcenrect E Xsun Zsun (galcenrect_to_XYZ E Xsun Zsun x) = x.
Proof. intros. split; [apply galcen_roundtrip|apply galcen_roundtrip2]; auto. Qed.
Print Assumptions C17_position_roundtrip.

Theorem C17_velocity_roundtrip : forall E vsun Xsun Zsun v, Xsun <> 0 -> extra_rot_orthogonal E ->
  galcenrect_to_vxvyvz E vsun Xsun Zsun (vxvyvz_to_galcenrect E vsun Xsun Zsun v) = v /\
  vxvyvz_to_galcenrect E vsun Xsun Zsun (galcenrect_to_vxvyvz E vsun Xsun Zsun v) = v.
Proof. intros. split; [apply vgalcen_roundtrip|apply vgalcen_roundtrip2]; auto. Qed.
Print Assumptions C17_velocity_roundtrip.

(** For whatever matrix the extra rotation is, the round trip multiplies by E^T E and by nothing else. *)
Theorem C17_extra_rot_residual : forall m vsun Xsun Zsun x, Xsun <> 0 ->
  galcenrect_to_XYZ (Some m) Xsun Zsun (XYZ_to_galcenrect (Some m) Xsun Zsun x) = mulMV (mulMM (transp m) m) x /\
  galcenrect_to_vxvyvz (Some m) vsun Xsun Zsun (vxvyvz_to_galcenrect (Some m) vsun Xsun Zsun x) = mulMV (mulMM (transp m) m) x.
Proof. intros. rewrite mulMV_assoc. split; [apply galcen_roundtrip_gen|apply vgalcen_roundtrip_gen]; auto. Qed.
Print Assumptions C17_extra_rot_residual.

Theorem C17_cylindrical_roundtrip : forall E Xsun Zsun x, Xsun <> 0 -> extra_rot_orthogonal E ->
  galcencyl_to_XYZ E Xsun Zsun (XYZ_to_galcencyl E Xsun Zsun x) = x /\
  (0 < vx x -> - PI < vy x <= PI -> XYZ_to_galcencyl E Xsun Zsun (galcencyl_to_XYZ E Xsun Zsun x) = x).
Proof. intros. split; [apply galcencyl_roundtrip|intros; apply galcencyl_roundtrip2]; auto. Qed.
Print Assumptions C17_cylindrical_roundtrip.

Theorem C17_cylindrical_velocity_roundtrip : forall E vsun Xsun Zsun v R phi Z, Xsun <> 0 -> extra_rot_orthogonal E ->
  galcencyl_to_vxvyvz E vsun Xsun Zsun (vxvyvz_to_galcencyl E vsun Xsun Zsun true v (mkV R phi Z)) phi = v /\
  vxvyvz_to_galcencyl E vsun Xsun Zsun true (galcencyl_to_vxvyvz E vsun Xsun Zsun v phi) (mkV R phi Z) = v.
Proof.
  intros E vsun Xsun Zsun v R phi Z H H0. split; [|apply vgalcencyl_roundtrip2; auto].
  exact (vgalcencyl_roundtrip E vsun Xsun Zsun v (mkV R phi Z) true H H0).
Qed.
Print Assumptions C17_cylindrical_velocity_roundtrip.

(** With the position given in rectangular Galactocentric coordinates. *)
Theorem C17_rectangular_position_velocity_roundtrip : forall E vsun Xsun Zsun v x, Xsun <> 0 -> extra_rot_orthogonal E ->
  let '(_, phi, _) := rect_to_cyl (vx x) (vy x) (vz x) in
  galcencyl_to_vxvyvz E vsun Xsun Zsun (vxvyvz_to_galcencyl E vsun Xsun Zsun false v x) phi = v.
Proof. intros. exact (vgalcencyl_roundtrip E vsun Xsun Zsun v x false H H0). Qed.
Print Assumptions C17_rectangular_position_velocity_roundtrip.

(** The frame is what it claims to be: the Sun is at (Xsun, 0, Zsun), the Galactic centre, at distance
    sqrt(Xsun^2+Zsun^2) along the heliocentric x axis, is the origin, distances are kept ... *)
Theorem C17_sun_and_centre : forall Xsun Zsun, Xsun <> 0 ->
  (forall E, XYZ_to_galcenrect E Xsun Zsun vzero = mkV Xsun 0 Zsun) /\
  XYZ_to_galcenrect None Xsun Zsun (mkV (sqrt (Xsun ^ 2 + Zsun ^ 2)) 0 0) = vzero.
Proof. intros. split; [intros; apply galcen_sun; auto|apply (galcen_centre None); simpl; auto]. Qed.
Print Assumptions C17_sun_and_centre.
Theorem C17_distances : forall E Xsun Zsun x y, Xsun <> 0 -> extra_rot_orthogonal E ->
  vnorm2 (vsub (XYZ_to_galcenrect E Xsun Zsun x) (XYZ_to_galcenrect E Xsun Zsun y)) = vnorm2 (vsub x y).
Proof. exact galcen_distance. Qed.
Print Assumptions C17_distances.
(** ... and the velocity of a star moving with heliocentric velocity v, relative to the Sun, is the rate at which
    its Galactocentric position changes. *)
Theorem C17_velocity_is_rate : forall E vsun Xsun Zsun x v h,
  vsub (XYZ_to_galcenrect E Xsun Zsun (vadd x (vscal h v))) (XYZ_to_galcenrect E Xsun Zsun x) =
  vscal h (vsub (vxvyvz_to_galcenrect E vsun Xsun Zsun v) vsun).
Proof. exact galcen_linear. Qed.
Print Assumptions C17_velocity_is_rate.
(** At rest with respect to the Sun means moving with the Sun. *)
Theorem C17_solar_motion : forall E vsun Xsun Zsun, vxvyvz_to_galcenrect E vsun Xsun Zsun vzero = vsun.
Proof.
  intros. rewrite vgalcen_form. assert (L : rot_opt E vzero = vzero) by (destruct E; [simpl; vring|auto]). rewrite L.
  unfold refl, tilt. destruct vsun. vunfold. f_equal; ring.
Qed.
Print Assumptions C17_solar_motion.

(** A solar position above the centre, Xsun = 0, breaks it: numpy.sign(0) is 0 and the height is lost. *)
Theorem C17_any_solar_position_refuted : exists Xsun Zsun x,
  galcenrect_to_XYZ None Xsun Zsun (XYZ_to_galcenrect None Xsun Zsun x) <> x.
Proof.
  exists 0, 1, (mkV 0 0 1). unfold galcenrect_to_XYZ, XYZ_to_galcenrect, tilt, untilt, nsign.
  destruct (Rlt_dec 0 0); [lra|]. replace (0 ^ 2 + 1 ^ 2) with 1 by ring. rewrite sqrt_1. vunfold. intros E. injection E. lra.
Qed.
Print Assumptions C17_any_solar_position_refuted.

Example C17_case : extra_rot_orthogonal (Some eye) /\ XYZ_to_galcenrect (Some eye) 3 4 (mkV 5 0 0) = vzero.
Proof.
  assert (O : orthogonal eye) by (unfold orthogonal; vring). split; [exact O|].
  pose proof (galcen_centre (Some eye) 3 4 ltac:(lra) O) as C. simpl in C.
  replace (sqrt (3 ^ 2 + 4 ^ 2)) with 5 in C.
  - etransitivity; [|exact C]. f_equal. vring.
  - replace (3 ^ 2 + 4 ^ 2) with (Rsqr 5) by (unfold Rsqr; ring). rewrite sqrt_Rsqr; lra.
Qed.
