(** C20: covariance matrices are propagated by the derivative of the transformation. *)
From Coq Require Import Reals Lra Psatz List.
From Coquelicot Require Import Coquelicot.
From Verif.Lib Require Import RealAux Atan2 Vec3.
From Verif.Model Require Import Coords CoordsVec CoordsSky CoordsCov.
From Verif.Spec Require Import SkySpec CovSpec.
From Verif.Proofs Require Import SkyProofs SkyProofs2 VecProofs SpheroidProofs CovProofs.
Import ListNotations.
Open Scope R_scope.
Notation RR := RbaseSymbolsImpl.R (only parsing).

(** Equatorial proper motions to Galactic ones: the propagated matrix of any sample of errors is the second moment of the
    errors carried along by the derivative of pmrapmdec_to_pmllpmbb, and also of the finite differences. *)
Theorem C20_proper_motion : forall degree e ra dec, deg_in degree dec <> dec_ngp e ->
  exists D : RR * RR -> RR * RR,
    (forall pm err, velocity2 (fun t => pmrapmdec_to_pmllpmbb degree e (fst pm + t * fst err) (snd pm + t * snd err) ra dec) 0 (D err)) /\
    (forall pm err, let f p := pmrapmdec_to_pmllpmbb degree e (fst p) (snd p) ra dec in
       D err = (fst (f (fst pm + fst err, snd pm + snd err)) - fst (f pm), snd (f (fst pm + fst err, snd pm + snd err)) - snd (f pm))) /\
    (forall sample, cov_pmrapmdec_to_pmllpmbb degree e (cov2 (fun x => x) sample) ra dec = cov2 D sample).
Proof.
  intros degree e ra dec H. exists (app2 (pm_jac degree e ra dec)). split; [|split].
  - intros pm err. set (J := pm_jac degree e ra dec).
    destruct (app2_velocity J pm err) as [A1 A2].
    split; [eapply is_derive_ext; [|exact A1]|eapply is_derive_ext; [|exact A2]]; intros t;
      unfold J; rewrite <- pm_linear; reflexivity.
  - intros pm err f. unfold f. rewrite !pm_linear. generalize (pm_jac degree e ra dec). intros [p q r t]. destruct pm, err.
    unfold app2. simpl. f_equal; ring.
  - intros s. rewrite cov_pm_is by auto. rewrite <- cov2_linear. reflexivity.
Qed.
Print Assumptions C20_proper_motion.

Theorem C20_proper_motion_psd : forall degree e C ra dec, deg_in degree dec <> dec_ngp e -> symmetric2 C -> psd2 C ->
  symmetric2 (cov_pmrapmdec_to_pmllpmbb degree e C ra dec) /\ psd2 (cov_pmrapmdec_to_pmllpmbb degree e C ra dec).
Proof. intros. rewrite cov_pm_is by auto. split; [apply congr2_sym; auto|apply congr2_psd; auto]. Qed.
Print Assumptions C20_proper_motion_psd.

Lemma vel_lemma (M : M3) (f g h : RR -> RR) s a b c :
  is_derive f s a -> is_derive g s b -> is_derive h s c ->
  velocity3 (fun t => mulMV M (mkV (f t) (g t) (h t))) s (mulMV M (mkV a b c)).
Proof.
  intros Hf Hg Hh. destruct M as [[a1 a2 a3] [b1 b2 b3] [c1 c2 c3]]. unfold velocity3, mulMV, vdot. cbn [vx vy vz r0 r1 r2].
  split; [|split]; (auto_derive; [repeat split; eexists; eauto|]); derw; ring.
Qed.

(** Errors of distance (or parallax), line-of-sight velocity and the two proper motions. *)
Record errors := mkErr { er_d : RR; er_vr : RR; er_ll : RR; er_bb : RR }.

(** Distance (or parallax), line-of-sight velocity and proper motions to the velocity: for every sample of errors in
    which distance, velocity and proper motions are uncorrelated, with the standard deviations and the proper-motion covariance
    given, the result is the second moment of the errors carried along by the derivative of vrpmllpmbb_to_vxvyvz. *)
Theorem C20_space_velocity : forall K plx degree d vr pmll pmbb l b, (plx = true -> d <> 0) ->
  exists D : errors -> V3,
    (forall err, velocity3 (fun t => vrpmllpmbb_to_vxvyvz K degree false (vr + t * er_vr err) (pmll + t * er_ll err) (pmbb + t * er_bb err)
        l b (if (plx : bool) then 1 / (d + t * er_d err) else d + t * er_d err)) 0 (D err)) /\
    (forall sample e_d e_vr C,
       moment (fun x => er_d x * er_d x) sample = e_d ^ 2 ->
       moment (fun x => er_vr x * er_vr x) sample = e_vr ^ 2 ->
       cov2 (fun x => (er_ll x, er_bb x)) sample = C ->
       moment (fun x => er_d x * er_ll x) sample = 0 -> moment (fun x => er_d x * er_bb x) sample = 0 ->
       moment (fun x => er_vr x * er_d x) sample = 0 ->
       moment (fun x => er_vr x * er_ll x) sample = 0 -> moment (fun x => er_vr x * er_bb x) sample = 0 ->
       cov_dvrpmllbb_to_vxyz K plx degree d e_d e_vr pmll pmbb C l b = cov3 D sample).
Proof.
  intros K plx degree d vr pmll pmbb l b Hd.
  set (d1 := if plx then 1 / d else d). set (j := if plx then - d1 ^ 2 else 1).
  set (Rm := sky_matrix (deg_in degree l) (deg_in degree b)).
  exists (fun err => mulMV (transp Rm) (mkV (er_vr err) (K * (j * er_d err * pmll + d1 * er_ll err)) (K * (j * er_d err * pmbb + d1 * er_bb err)))).
  split.
  - intros [xd xvr xl xb]. cbn [er_d er_vr er_ll er_bb].
    assert (Q : is_derive (fun t : RR => if plx then 1 / (d + t * xd) else d + t * xd) 0 (j * xd)).
    { subst j d1. destruct plx.
      - auto_derive; [rewrite Rmult_0_l, Rplus_0_r; auto|field; auto].
      - auto_derive; [auto|ring]. }
    assert (Q0 : (if plx then 1 / (d + 0 * xd) else d + 0 * xd) = d1).
    { unfold d1. destruct plx; rewrite Rmult_0_l, Rplus_0_r; auto. }
    unfold vrpmllpmbb_to_vxvyvz. cbv zeta iota. fold Rm. cbn [vx vy vz].
    revert Q Q0. set (dd := fun t : RR => if plx then 1 / (d + t * xd) else d + t * xd). intros Q Q0.
    apply (vel_lemma (transp Rm) (fun t => vr + t * xvr) (fun t => dd t * (pmll + t * xl) * K) (fun t => dd t * (pmbb + t * xb) * K)).
    + auto_derive; [auto|ring].
    + auto_derive; [repeat split; eexists; exact Q|]. derw. change (dd 0 = d1) in Q0. rewrite Q0. ring.
    + auto_derive; [repeat split; eexists; exact Q|]. derw. change (dd 0 = d1) in Q0. rewrite Q0. ring.
  - intros s e_d e_vr C H1 H2 H3 H4 H5 H6 H7 H8.
    unfold cov_dvrpmllbb_to_vxyz.
    replace (if degree then l * (PI / 180) else l) with (deg_in degree l) by (destruct degree; unfold deg_in; lra).
    replace (if degree then b * (PI / 180) else b) with (deg_in degree b) by (destruct degree; unfold deg_in; lra).
    fold Rm. fold d1.
    assert (B1 : block12 ((if plx then e_d * d1 ^ 2 else e_d) ^ 2) C =
                 cov3 (fun x => mkV (j * er_d x) (er_ll x) (er_bb x)) s).
    { apply (block_sample (fun x => j * er_d x) (fun x => (er_ll x, er_bb x))); auto.
      - transitivity (j ^ 2 * moment (fun x => er_d x * er_d x) s).
        + cbn [fst snd]. clear. induction s as [|[w x] t IH]; cbn [moment]; [ring|rewrite IH; ring].
        + rewrite H1. unfold j. destruct plx; ring.
      - transitivity (j * moment (fun x => er_d x * er_ll x) s).
        + cbn [fst snd]. clear. induction s as [|[w x] t IH]; cbn [moment]; [ring|rewrite IH; ring].
        + rewrite H4. ring.
      - transitivity (j * moment (fun x => er_d x * er_bb x) s).
        + cbn [fst snd]. clear. induction s as [|[w x] t IH]; cbn [moment]; [ring|rewrite IH; ring].
        + rewrite H5. ring. }
    rewrite B1, congr23_sample.
    rewrite (block_sample er_vr (fun x => (vdot (vscal K (mkV pmll d1 0)) (mkV (j * er_d x) (er_ll x) (er_bb x)),
                                   vdot (vscal K (mkV pmbb 0 d1)) (mkV (j * er_d x) (er_ll x) (er_bb x)))) s); auto.
    + pose proof (cov3_linear (fun x => mkV (er_vr x) (vdot (vscal K (mkV pmll d1 0)) (mkV (j * er_d x) (er_ll x) (er_bb x)))
         (vdot (vscal K (mkV pmbb 0 d1)) (mkV (j * er_d x) (er_ll x) (er_bb x)))) (transp Rm) s) as L.
      rewrite transp_transp in L. etransitivity; [symmetry; exact L|]. clear L.
      clear. induction s as [|[w x] t IH]. { reflexivity. }
        rewrite !cov3_cons, IH. f_equal.
        replace (vdot (vscal K (mkV pmll d1 0)) (mkV (j * er_d x) (er_ll x) (er_bb x))) with (K * (j * er_d x * pmll + d1 * er_ll x)) by (clear; vunfold; ring).
        replace (vdot (vscal K (mkV pmbb 0 d1)) (mkV (j * er_d x) (er_ll x) (er_bb x))) with (K * (j * er_d x * pmbb + d1 * er_bb x)) by (clear; vunfold; ring).
        reflexivity.
    + transitivity (K * pmll * j * moment (fun x => er_vr x * er_d x) s + K * d1 * moment (fun x => er_vr x * er_ll x) s).
      * clear. cbn [fst snd]. induction s as [|[w x] t IH]; cbn [moment]; [ring|rewrite IH; vunfold; ring].
      * rewrite H6, H7. ring.
    + transitivity (K * pmbb * j * moment (fun x => er_vr x * er_d x) s + K * d1 * moment (fun x => er_vr x * er_bb x) s).
      * clear. cbn [fst snd]. induction s as [|[w x] t IH]; cbn [moment]; [ring|rewrite IH; vunfold; ring].
      * rewrite H6, H8. ring.
Qed.
Print Assumptions C20_space_velocity.

Theorem C20_space_velocity_psd : forall K plx degree d e_d e_vr pmll pmbb C l b, symmetric2 C -> psd2 C ->
  let out := cov_dvrpmllbb_to_vxyz K plx degree d e_d e_vr pmll pmbb C l b in symmetric3 out /\ psd3 out.
Proof.
  intros K plx degree d e_d e_vr pmll pmbb C l b Hs Hp out. unfold out, cov_dvrpmllbb_to_vxyz. cbv zeta.
  set (Rm := sky_matrix _ _). set (B := block12 _ (congr23 _ _ _)).
  assert (HB : symmetric3 B /\ psd3 B).
  { unfold B. split.
    - apply block12_sym, congr23_sym, block12_sym; auto.
    - apply block12_psd; [apply pow2_ge_0|]. apply congr23_psd, block12_psd; auto. apply pow2_ge_0. }
  clearbody B Rm. destruct HB. rewrite <- (transp_transp Rm) at 2 4. split; [apply congr_sym; auto|apply congr_psd; auto].
Qed.
Print Assumptions C20_space_velocity_psd.
(** A sample that meets the hypotheses: independent unit errors in each quantity. *)
Example C20_space_velocity_case :
  let s := [(1, mkErr 1 0 0 0); (1, mkErr 0 1 0 0); (1, mkErr 0 0 1 0); (1, mkErr 0 0 1 1)] in
  moment (fun x => er_d x * er_d x) s = 1 ^ 2 /\ moment (fun x => er_vr x * er_vr x) s = 1 ^ 2 /\
  cov2 (fun x => (er_ll x, er_bb x)) s = mkM2 2 1 1 1 /\ moment (fun x => er_d x * er_ll x) s = 0 /\
  moment (fun x => er_d x * er_bb x) s = 0 /\ moment (fun x => er_vr x * er_d x) s = 0 /\
  moment (fun x => er_vr x * er_ll x) s = 0 /\ moment (fun x => er_vr x * er_bb x) s = 0.
Proof. cbv [moment cov2 er_d er_vr er_ll er_bb fst snd]. repeat split; try ring. f_equal; ring. Qed.

(** Rectangular to cylindrical Galactocentric velocities. *)
Theorem C20_rect_to_cyl : forall R phi z, exists D : V3 -> V3,
  (forall v err, velocity3 (fun t => rect_to_cyl_vec (vx v + t * vx err) (vy v + t * vy err) (vz v + t * vz err) R phi z true) 0 (D err)) /\
  (forall sample, cov_galcenrect_to_galcencyl (cov3 (fun x => x) sample) phi = cov3 D sample) /\
  (forall C, symmetric3 C -> psd3 C -> symmetric3 (cov_galcenrect_to_galcencyl C phi) /\ psd3 (cov_galcenrect_to_galcencyl C phi)).
Proof.
  intros R phi z. set (Rm := mkM (mkV (cos phi) (sin phi) 0) (mkV (- sin phi) (cos phi) 0) (mkV 0 0 1)).
  exists (mulMV Rm). split; [|split].
  - intros [a b c] [d e f]. unfold Rm, rect_to_cyl_vec. vunfold. split; [|split]; cbn [vx vy vz]; auto_derive; auto; ring.
  - intros s. unfold cov_galcenrect_to_galcencyl. fold Rm. rewrite <- cov3_linear. reflexivity.
  - intros C H1 H2. unfold cov_galcenrect_to_galcencyl. fold Rm. split; [apply congr_sym|apply congr_psd]; auto.
Qed.
Print Assumptions C20_rect_to_cyl.

(** Heliocentric to Galactocentric rectangular velocities: the result is not the propagated covariance.  With the Sun in the
    plane, the velocity component towards the Galactic centre changes sign, but the covariance is returned unchanged. *)
Theorem C20_galcenrect_refuted : exists (Xsun Zsun : RR) (sample : list (RR * V3)), 0 < Xsun /\
  forall D : V3 -> V3,
  (forall vsun v err, velocity3 (fun t => vxvyvz_to_galcenrect None vsun Xsun Zsun (vadd v (vscal t err))) 0 (D err)) ->
  cov_vxyz_to_galcenrect Xsun Zsun (cov3 (fun x => x) sample) <> cov3 D sample.
Proof.
  exists 1, 0, [(1, mkV 1 1 0)]. split; [lra|]. intros D H E.
  assert (HD : D (mkV 1 1 0) = mkV (-1) 1 0).
  { destruct (H vzero vzero (mkV 1 1 0)) as (A1 & A2 & A3).
    assert (T : tilt 1 0 = eye). { unfold tilt. replace (1 ^ 2 + 0 ^ 2) with 1 by ring. rewrite sqrt_1. unfold eye. f_equal; f_equal; field. }
    unfold vxvyvz_to_galcenrect in A1, A2, A3. rewrite T in A1, A2, A3. cbv zeta in A1, A2, A3.
    destruct (D (mkV 1 1 0)) as [p q r]. clear E H T. vunfold.
    apply is_derive_unique in A1, A2, A3.
    apply V3_ext; cbn [vx vy vz]; [rewrite <- A1|rewrite <- A2|rewrite <- A3]; apply is_derive_unique; auto_derive; auto; ring. }
  cbv [cov3 moment] in E. rewrite HD in E. unfold cov_vxyz_to_galcenrect, tilt in E.
  replace (1 ^ 2 + 0 ^ 2) with 1 in E by ring. rewrite sqrt_1 in E. vunfold. injection E. intros. lra.
Qed.
Print Assumptions C20_galcenrect_refuted.

(** What does hold, for a Sun on the positive axis and without the extra rotation: the result is the propagated covariance
    with the sign of the first velocity component reversed, so variances and the (y,z) covariance are right.
    Missing for the full property: the signs of the two covariances with the first component. *)
Theorem C20_galcenrect_partial : forall Xsun Zsun, 0 < Xsun -> exists D : V3 -> V3,
  (forall vsun v err, velocity3 (fun t => vxvyvz_to_galcenrect None vsun Xsun Zsun (vadd v (vscal t err))) 0 (D err)) /\
  (forall sample, cov_vxyz_to_galcenrect Xsun Zsun (cov3 (fun x => x) sample) =
                  cov3 (fun x => mkV (- vx (D x)) (vy (D x)) (vz (D x))) sample) /\
  (forall C, symmetric3 C -> psd3 C -> symmetric3 (cov_vxyz_to_galcenrect Xsun Zsun C) /\ psd3 (cov_vxyz_to_galcenrect Xsun Zsun C)).
Proof.
  intros Xsun Zsun HX.
  set (Rm := tilt Xsun Zsun).
  exists (fun x => mulMV Rm (mkV (- vx x) (vy x) (vz x))). split; [|split].
  - intros [u1 u2 u3] [a b c] [d e f]. unfold vxvyvz_to_galcenrect. fold Rm. unfold nsign.
    destruct (Rlt_dec Xsun 0); [lra|]. destruct (Rlt_dec 0 Xsun); [|lra].
    generalize Rm. intros [[a1 a2 a3] [b1 b2 b3] [c1 c2 c3]]. vunfold. split; [|split]; cbn [vx vy vz]; auto_derive; auto; ring.
  - intros s. unfold cov_vxyz_to_galcenrect. fold Rm. rewrite <- (transp_transp Rm) at 2. rewrite <- cov3_linear.
    induction s as [|[w x] t IH]; [reflexivity|]. rewrite !cov3_cons, IH. do 2 f_equal.
    unfold Rm, tilt. clear. destruct x as [p q r]. vunfold.
    generalize (Xsun / sqrt (Xsun ^ 2 + Zsun ^ 2)) (Zsun / sqrt (Xsun ^ 2 + Zsun ^ 2)). intros. f_equal; f_equal; ring.
  - intros C H1 H2. unfold cov_vxyz_to_galcenrect. fold Rm. rewrite <- (transp_transp Rm) at 2 4.
    split; [apply congr_sym|apply congr_psd]; auto.
Qed.
Print Assumptions C20_galcenrect_partial.

(** Every symmetric matrix is the second moment of some weighted sample, so the theorems above cover every covariance. *)
Theorem C20_samples_cover : (forall C, symmetric3 C -> exists s : list (RR * V3), C = cov3 (fun x => x) s) /\
  (forall C, symmetric2 C -> exists s : list (RR * (RR * RR)), C = cov2 (fun x => x) s).
Proof. split; [exact symmetric_sampled|exact symmetric2_sampled]. Qed.
Print Assumptions C20_samples_cover.
Example C20_case : symmetric2 (mkM2 2 1 1 2) /\ psd2 (mkM2 2 1 1 2) /\ symmetric3 eye /\ psd3 eye.
Proof.
  split; [reflexivity|]. split. { intros x y. cbn [m00 m01 m10 m11]. pose proof (Rle_0_sqr x). pose proof (Rle_0_sqr y).
    pose proof (Rle_0_sqr (x + y)). unfold Rsqr in *. lra. }
  split; [reflexivity|]. intros [a b c]. vunfold. nra.
Qed.
