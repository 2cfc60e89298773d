(** Where the Jacobians of coords.py are not those of the transformations. *)
From Coq Require Import Reals Lra Psatz Field.
From Coquelicot Require Import Coquelicot.
From Verif.Lib Require Import RealAux Atan2 Vec3.
From Verif.Model Require Import Coords CoordsVec CoordsSky CoordsSpheroid CoordsJac.
From Verif.Spec Require Import SkySpec CovSpec JacSpec.
From Verif.Proofs Require Import SkyProofs SkyProofs2 VecProofs SpheroidProofs JacProofs JacProofs2 JacProofs3.
Open Scope R_scope.
Notation RR := RbaseSymbolsImpl.R (only parsing).

Lemma galsky_dec_rate e (l : RR) : 0 < cos (dec_ngp e) < 1 ->
  is_derive (fun t => snd (lb_to_radec false e (l + t) 0)) 0
    (- cos (dec_ngp e) * sin (l - theta e) / sqrt (1 - (cos (dec_ngp e) * cos (l - theta e)) ^ 2)).
Proof.
  intros HD.
  apply (is_derive_ext (fun t => asin (cos (dec_ngp e) * cos (l + t - theta e)))).
  { intros t. rewrite lb_false. unfold rotmap. cbn [snd]. f_equal. unfold T_gal_to_eq, unit_vector. vunfold.
    rewrite cos_minus, cos_0, sin_0. ring. }
  set (x := cos (dec_ngp e) * cos (l - theta e)).
  assert (B : -1 < x < 1). { unfold x. pose proof (COS_bound (l - theta e)). nra. }
  evar_last. apply (is_derive_comp asin (fun t => cos (dec_ngp e) * cos (l + t - theta e))).
  - replace (l + 0 - theta e) with (l - theta e) by ring. fold x. apply is_derive_asin. auto.
  - instantiate (1 := - cos (dec_ngp e) * sin (l - theta e)). auto_derive; auto. replace (l + 0 + - theta e) with (l - theta e) by ring. ring.
  - cbv [scal]. simpl. cbv [mult]. simpl. toR. unfold Rdiv. rewrite Rmult_1_l || idtac. ring.
Qed.
Lemma epoch_jac_wrong e0 e :
  0 < dec_ngp e0 < PI / 2 -> 0 < dec_ngp e < PI / 2 -> - PI < theta e0 - theta e < 0 -> 0 < ra_ngp e0 - ra_ngp e < PI ->
  ~ jacobian6 (galsky false e) (mkV (theta e0) 0 1, mkV 0 0 0) (galsky_to_sky_jac false e0 e (theta e0) 0 0 0).
Proof.
  intros HD0 HD HT HR J.
  assert (C0 : 0 < cos (dec_ngp e0)) by (apply cos_gt_0; lra).
  assert (S0 : 0 < sin (dec_ngp e0)) by (apply sin_gt_0; lra).
  assert (C1 : 0 < cos (dec_ngp e)) by (apply cos_gt_0; lra).
  assert (S1 : 0 < sin (dec_ngp e)) by (apply sin_gt_0; lra).
  assert (C1' : cos (dec_ngp e) < 1). { pose proof (sc1 (dec_ngp e)). nra. }
  specialize (J (fun t => (mkV (theta e0 + t) 0 1, mkV 0 0 0)) 0 (mkV 1 0 0, mkV 0 0 0)).
  destruct J as [(_ & J & _) _].
  { f_equal. f_equal. ring. }
  { split; cbn [fst snd]; (split; [|split]); cbn [vx vy vz]; auto_derive; auto. }
  apply (is_derive_ext _ (fun t => snd (lb_to_radec false e (theta e0 + t) 0))) in J.
  2:{ intros t. unfold galsky. cbn [fst snd vx vy vz]. destruct (lb_to_radec _ _ _ _). destruct (pmllpmbb_to_pmrapmdec _ _ _ _ _ _). reflexivity. }
  pose proof (is_derive_unique _ _ _ J) as U1. pose proof (galsky_dec_rate e (theta e0) (conj C1 C1')) as J2.
  apply is_derive_unique in J2. rewrite J2 in U1. clear J J2.
  assert (POS : 0 < - cos (dec_ngp e) * sin (theta e0 - theta e) / sqrt (1 - (cos (dec_ngp e) * cos (theta e0 - theta e)) ^ 2)).
  { apply Rdiv_lt_0_compat.
    - assert (sin (theta e0 - theta e) < 0). { replace (theta e0 - theta e) with (- (theta e - theta e0)) by ring. rewrite sin_neg.
        assert (0 < sin (theta e - theta e0)) by (apply sin_gt_0; lra). lra. }
      nra.
    - apply sqrt_lt_R0. pose proof (COS_bound (theta e0 - theta e)).
      assert (-1 < cos (dec_ngp e) * cos (theta e0 - theta e) < 1) by nra. nra. }
  rewrite U1 in POS. clear U1.
  unfold galsky_to_sky_jac in POS. rewrite lb_false in POS.
  destruct (rotmap_direction (T_gal_to_eq e0) (theta e0) 0 (T_gal_rotation e0)) as [DIR CP].
  destruct (rotmap (T_gal_to_eq e0) (theta e0) 0) as [ra dec]. cbn [fst snd] in DIR, CP.
  unfold pm_angle_jac in POS. cbv zeta in POS. unfold mulM6 in POS. cbn [b00 b01 b10 b11 fst snd] in POS.
  unfold zero33 in POS. revert POS. vunfold. cbn [vx vy vz r0 r1 r2]. rewrite cos_0.
  match goal with |- 0 < ?X -> _ => replace X with (sin (ra - ra_ngp e) * cos (dec_ngp e) /
    sqrt ((sin (dec_ngp e) * cos dec - cos (dec_ngp e) * sin dec * cos (ra - ra_ngp e)) *
          (sin (dec_ngp e) * cos dec - cos (dec_ngp e) * sin dec * cos (ra - ra_ngp e)) +
          sin (ra - ra_ngp e) * cos (dec_ngp e) * (sin (ra - ra_ngp e) * cos (dec_ngp e)))) by ring end.
  intros POS.
  assert (D1 : cos dec * cos ra = - sin (dec_ngp e0) * cos (ra_ngp e0)).
  { apply (f_equal vx) in DIR. revert DIR. unfold direction, T_gal_to_eq. vunfold. cbn [vx vy vz r0 r1 r2]. rewrite cos_0, sin_0. intros ->.
    transitivity (- sin (dec_ngp e0) * cos (ra_ngp e0) * (cos (theta e0) * cos (theta e0) + sin (theta e0) * sin (theta e0))); [ring|rewrite (sc1 (theta e0)); ring]. }
  assert (D2 : cos dec * sin ra = - sin (dec_ngp e0) * sin (ra_ngp e0)).
  { apply (f_equal vy) in DIR. revert DIR. unfold direction, T_gal_to_eq. vunfold. cbn [vx vy vz r0 r1 r2]. rewrite cos_0, sin_0. intros ->.
    transitivity (- sin (dec_ngp e0) * sin (ra_ngp e0) * (cos (theta e0) * cos (theta e0) + sin (theta e0) * sin (theta e0))); [ring|rewrite (sc1 (theta e0)); ring]. }
  assert (D3 : cos dec * sin (ra - ra_ngp e) = - sin (dec_ngp e0) * sin (ra_ngp e0 - ra_ngp e)).
  { rewrite !sin_minus. transitivity ((cos dec * sin ra) * cos (ra_ngp e) - (cos dec * cos ra) * sin (ra_ngp e)); [ring|]. rewrite D1, D2. ring. }
  assert (0 < sin (ra_ngp e0 - ra_ngp e)) by (apply sin_gt_0; lra).
  assert (NEG : sin (ra - ra_ngp e) < 0).
  { destruct (Rlt_dec (sin (ra - ra_ngp e)) 0) as [|N]; auto. exfalso. assert (0 <= cos dec * sin (ra - ra_ngp e)) by (apply Rmult_le_pos; lra). rewrite D3 in H0. assert (0 < sin (dec_ngp e0) * sin (ra_ngp e0 - ra_ngp e)) by (apply Rmult_lt_0_compat; auto). lra. }
  assert (NP : 0 < sqrt ((sin (dec_ngp e) * cos dec - cos (dec_ngp e) * sin dec * cos (ra - ra_ngp e)) *
          (sin (dec_ngp e) * cos dec - cos (dec_ngp e) * sin dec * cos (ra - ra_ngp e)) +
          sin (ra - ra_ngp e) * cos (dec_ngp e) * (sin (ra - ra_ngp e) * cos (dec_ngp e)))).
  { apply sqrt_lt_R0. pose proof (Rle_0_sqr (sin (dec_ngp e) * cos dec - cos (dec_ngp e) * sin dec * cos (ra - ra_ngp e))) as Q. unfold Rsqr in Q.
    assert (sin (ra - ra_ngp e) * cos (dec_ngp e) < 0) by nra. nra. }
  revert POS NP. set (N := sqrt _). intros POS NP. assert (sin (ra - ra_ngp e) * cos (dec_ngp e) / N < 0).
  { assert (0 < / N) by (apply Rinv_0_lt_compat; auto). unfold Rdiv. assert (K : 0 < - sin (ra - ra_ngp e) * cos (dec_ngp e)) by (apply Rmult_lt_0_compat; lra). pose proof (Rmult_lt_0_compat _ _ K H0). lra. }
  lra.
Qed.
Lemma extra_rot_jac_wrong Xsun Zsun x :
  let m := mkM (mkV (-1) 0 0) (mkV 0 (-1) 0) (mkV 0 0 1) in
  rotation m /\ ~ jacobian3 (galcenrect_to_XYZ (Some m) Xsun Zsun) x (galcenrect_to_XYZ_jac3 Xsun Zsun).
Proof.
  intros m. split.
  { split; [unfold orthogonal, m, transp, mulMM, mulMV, eye; apply M3_ext; apply V3_ext; vunfold; ring|unfold m, det3; vunfold; ring]. }
  intros J. destruct x as [a b c].
  specialize (J (fun t => mkV a (b + t) c) 0 (mkV 0 1 0)). destruct J as (_ & J & _).
  { f_equal. ring. } { split; [|split]; cbn [vx vy vz]; auto_derive; auto. }
  unfold galcenrect_to_XYZ, untilt, galcenrect_to_XYZ_jac3, m in J. cbv zeta in J. revert J.
  generalize (Xsun / sqrt (Xsun ^ 2 + Zsun ^ 2)) (Zsun / sqrt (Xsun ^ 2 + Zsun ^ 2)) (nsign Xsun) (sqrt (Xsun ^ 2 + Zsun ^ 2)).
  intros p q r s. vunfold. cbn [vx vy vz r0 r1 r2]. intros J. apply is_derive_unique in J.
  assert (K : is_derive (fun t : RR => - (b + t)) 0 (-1)) by (auto_derive; auto; ring).
  apply is_derive_unique in K. erewrite Derive_ext in J.
  2:{ intros t. instantiate (1 := fun t => - (b + t)). cbv beta. ring. }
  rewrite K in J. lra.
Qed.
