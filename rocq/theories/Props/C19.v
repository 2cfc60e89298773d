(** C19: the Jacobian matrices are the derivatives of the transformations. *)
From Coq Require Import Reals Lra Psatz.
From Coquelicot Require Import Coquelicot.
From Verif.Lib Require Import RealAux Atan2 Vec3.
From Verif.Model Require Import Coords CoordsVec CoordsSky CoordsSpheroid CoordsJac.
From Verif.Spec Require Import SkySpec CovSpec JacSpec.
From Verif.Proofs Require Import SkyProofs VecProofs SpheroidProofs JacProofs JacProofs2 JacProofs3 JacProofs4 JacProofs5.
Open Scope R_scope.
Notation RR := RbaseSymbolsImpl.R (only parsing).

(** Cylindrical to rectangular coordinates, everywhere: positions alone, and positions with velocities. *)
Theorem C19_cyl_to_rect : forall R phi Z,
  jacobian3 (fun c => let '(x, y, z) := cyl_to_rect (vx c) (vy c) (vz c) in mkV x y z) (mkV R phi Z) (cyl_to_rect_jac3 R phi Z).
Proof. exact cyl_jac3. Qed.
Print Assumptions C19_cyl_to_rect.
Theorem C19_cyl_to_rect_phase_space : forall R vR vT Z vZ phi,
  jacobian6 (fun c => galcencyl_to_galcenrect (vx (fst c)) (vy (fst c)) (vz (fst c)) (vx (snd c)) (vy (snd c)) (vz (snd c)))
    (mkV R vR vT, mkV Z vZ phi) (cyl_to_rect_jac6 R vR vT Z vZ phi).
Proof. exact cyl_jac6. Qed.
Print Assumptions C19_cyl_to_rect_phase_space.

(** Rectangular Galactocentric to cylindrical, where the azimuth is differentiable. *)
Theorem C19_galcenrect_to_galcencyl : forall x y z v1 v2 v3, (0 < x \/ y <> 0) ->
  jacobian6 (fun p => let '(R, phi, zc) := rect_to_cyl (vx (fst p)) (vy (fst p)) (vz (fst p)) in
                      let v := rect_to_cyl_vec (vx (snd p)) (vy (snd p)) (vz (snd p)) (vx (fst p)) (vy (fst p)) (vz (fst p)) false in
                      (mkV R (vx v) (vy v), mkV zc (vz v) phi))
    (mkV x y z, mkV v1 v2 v3) (galcenrect_to_galcencyl_jac x y z v1 v2 v3).
Proof. exact galcencyl_jac. Qed.
Print Assumptions C19_galcenrect_to_galcencyl.

(** Sky positions to rectangular coordinates, everywhere, in degrees or radians. *)
Theorem C19_lbd_to_XYZ : forall degree l b D,
  jacobian3 (fun c => lbd_to_XYZ degree (vx c) (vy c) (vz c)) (mkV l b D) (lbd_to_XYZ_jac3 degree l b D).
Proof. exact lbd_jac3. Qed.
Print Assumptions C19_lbd_to_XYZ.
Theorem C19_lbd_to_XYZ_phase_space : forall K degree l b D vlos pmll pmbb,
  jacobian6 (fun p => sphergal_to_rectgal K degree (fst p) (snd p)) (mkV l b D, mkV vlos pmll pmbb)
    (lbd_to_XYZ_jac6 K degree l b D vlos pmll pmbb).
Proof. exact lbd_jac6. Qed.
Print Assumptions C19_lbd_to_XYZ_phase_space.

(** Rectangular coordinates to the sky, off the half-plane l = 0 where the longitude jumps by a full turn. *)
Theorem C19_XYZ_to_lbd : forall degree X Y Z, (X < 0 \/ Y <> 0) ->
  jacobian3 (fun c => XYZ_to_lbd degree (vx c) (vy c) (vz c)) (mkV X Y Z) (XYZ_to_lbd_jac3 degree X Y Z).
Proof. exact lbd_inv_jac3. Qed.
Print Assumptions C19_XYZ_to_lbd.
Theorem C19_XYZ_to_lbd_phase_space : forall K degree X Y Z vX vY vZ, K <> 0 -> (X < 0 \/ Y <> 0) ->
  jacobian6 (fun p => rectgal_to_sphergal K degree (fst p) (snd p)) (mkV X Y Z, mkV vX vY vZ)
    (XYZ_to_lbd_jac6 K degree X Y Z vX vY vZ).
Proof. exact lbd_inv_jac6. Qed.
Print Assumptions C19_XYZ_to_lbd_phase_space.

(** Galactocentric to heliocentric rectangular coordinates, without the extra rotation. *)
Theorem C19_galcenrect_to_XYZ_partial : forall Xsun Zsun x,
  jacobian3 (galcenrect_to_XYZ None Xsun Zsun) x (galcenrect_to_XYZ_jac3 Xsun Zsun).
Proof. exact galcen_jac3. Qed.
Print Assumptions C19_galcenrect_to_XYZ_partial.
Theorem C19_galcenrect_to_XYZ_phase_space_partial : forall vsun Xsun Zsun x,
  jacobian6 (fun p => (galcenrect_to_XYZ None Xsun Zsun (fst p), galcenrect_to_vxvyvz None vsun Xsun Zsun (snd p))) x
    (galcenrect_to_XYZ_jac6 Xsun Zsun).
Proof. exact galcen_jac6. Qed.
Print Assumptions C19_galcenrect_to_XYZ_phase_space_partial.
(** The transformation applies an extra rotation by default; its Jacobian function has no such term, and is wrong for a
    rotation other than the identity. *)
Theorem C19_galcenrect_to_XYZ_refuted : exists m, rotation m /\
  forall Xsun Zsun x, ~ jacobian3 (galcenrect_to_XYZ (Some m) Xsun Zsun) x (galcenrect_to_XYZ_jac3 Xsun Zsun).
Proof. eexists. split; [apply (extra_rot_jac_wrong 0 0 (mkV 0 0 0))|]. intros. apply extra_rot_jac_wrong. Qed.
Print Assumptions C19_galcenrect_to_XYZ_refuted.

(** Galactic sky coordinates to (ra, dec), for the default epoch, away from ra = 0 and the poles of both systems. *)
Theorem C19_galsky_to_sky_partial : forall degree e l b D pmll pmbb vlos,
  let u := unit_angle degree in
  let '(ra, dec) := lb_to_radec degree e l b in
  ra <> 0 -> cos (dec * u) <> 0 -> dec * u <> dec_ngp e -> - PI / 2 < b * u < PI / 2 ->
  jacobian6 (galsky degree e) (mkV l b D, mkV pmll pmbb vlos) (galsky_to_sky_jac degree e e l b pmll pmbb).
Proof. exact galsky_jac. Qed.
Print Assumptions C19_galsky_to_sky_partial.
(** With epoch 1950 requested it is not the Jacobian of the transformation: the position is transformed with the angles of the
    default epoch. *)
Theorem C19_galsky_to_sky_refuted : exists e0 e l, get_epoch_angles J2000 = Some e0 /\ get_epoch_angles B1950 = Some e /\
  ~ jacobian6 (galsky false e) (mkV l 0 1, mkV 0 0 0) (galsky_to_sky_jac false e0 e l 0 0 0).
Proof.
  eexists; eexists; eexists. split; [reflexivity|]. split; [reflexivity|].
  pose proof PI_RGT_0. apply epoch_jac_wrong; cbn [theta dec_ngp ra_ngp]; lra.
Qed.
Print Assumptions C19_galsky_to_sky_refuted.

(** (ra, dec) to custom sky coordinates. *)
Theorem C19_sky_to_customsky : forall degree T ra dec D pmra pmdec vlos, rotation T ->
  let u := unit_angle degree in
  let '(p1, p2) := radec_to_custom degree T ra dec in
  p1 <> 0 -> cos (p2 * u) <> 0 -> dec * u <> snd (custom_to_radec false T 0 (PI / 2)) ->
  jacobian6 (customsky degree T) (mkV ra dec D, mkV pmra pmdec vlos) (sky_to_customsky_jac degree T ra dec pmra pmdec).
Proof. exact custom_jac. Qed.
Print Assumptions C19_sky_to_customsky.

(** (R, z) to (lambda, nu), off the foci: first derivatives, and second derivatives as the Jacobians of the rows of the first. *)
Theorem C19_lambdanu : forall ac Delta R z, Delta <> 0 -> (R <> 0 \/ z ^ 2 <> Delta ^ 2) ->
  jacobian2 (fun p => Rz_to_lambdanu ac Delta (fst p) (snd p)) (R, z) (Rz_to_lambdanu_jac Delta R z).
Proof. exact lambdanu_jac. Qed.
Print Assumptions C19_lambdanu.
Theorem C19_lambdanu_hessian : forall Delta R z, Delta <> 0 -> (R <> 0 \/ z ^ 2 <> Delta ^ 2) ->
  let '((l1, l2, l3), (n1, n2, n3)) := Rz_to_lambdanu_hess Delta R z in
  jacobian2 (fun p => fst (Rz_to_lambdanu_jac Delta (fst p) (snd p))) (R, z) ((l1, l2), (l2, l3)) /\
  jacobian2 (fun p => snd (Rz_to_lambdanu_jac Delta (fst p) (snd p))) (R, z) ((n1, n2), (n2, n3)).
Proof. exact lambdanu_hess. Qed.
Print Assumptions C19_lambdanu_hessian.

(** Points satisfying the hypotheses, and a velocity that the Jacobian transports. *)
Example C19_case_sky : exists l b, let '(ra, dec) := lb_to_radec false (mkE 0 (PI / 3) 1) l b in
  ra <> 0 /\ cos (dec * unit_angle false) <> 0 /\ dec * unit_angle false <> PI / 3 /\ - PI / 2 < b * unit_angle false < PI / 2.
Proof.
  exists 0, 0. rewrite lb_false. pose proof PI_RGT_0 as HP. pose proof PI2_3_2 as P32.
  destruct (rotmap_direction (T_gal_to_eq (mkE 0 (PI / 3) 1)) 0 0 (T_gal_rotation _)) as [D C].
  destruct (rotmap (T_gal_to_eq (mkE 0 (PI / 3) 1)) 0 0) as [ra dec]. cbn [fst snd] in *.
  unfold T_gal_to_eq, direction in D. revert D. vunfold. cbn [theta dec_ngp ra_ngp]. rewrite !cos_0, !sin_0. intros D. injection D as D1 D2 D3.
  assert (HS : 0 < sin (PI / 3)) by (apply sin_gt_0; lra).
  assert (S1 : 0 < sin 1) by (apply sin_gt_0; lra).
  assert (0 < sin (PI / 3) * sin 1) by (apply Rmult_lt_0_compat; auto).
  assert (M : cos dec * sin ra = - (sin (PI / 3) * sin 1)) by lra.
  unfold unit_angle. rewrite !Rmult_1_r.
  split; [|split; [|split]]; [intros ->; rewrite sin_0 in M; lra|intros Q; rewrite Q in M; lra| |lra].
  intros Q. rewrite Q in D3. pose proof (sc1 (PI / 3)) as U. rewrite cos_PI3 in *. nra.
Qed.
Example C19_case_lambdanu : jacobian2 (fun p => Rz_to_lambdanu 3 2 (fst p) (snd p)) (1, 2) (Rz_to_lambdanu_jac 2 1 2).
Proof. apply C19_lambdanu; [lra|left; lra]. Qed.
