(** C44: the C functions used by the compiled integrators are the formulas of the Python classes *)
From Coq Require Import Reals Lra Lia List Bool ZArith.
From Verif.Lib Require Import RealAux.
From Verif.Model Require Import PotAPI Wrappers CSerial CPot Symplectic RectForce Reduce CSerialPlanar CPotPlanar.
From Verif.Model Require PotAxi PotNonAxi PotPlanar WrappersPlanar.
From Verif.Spec Require Import PotSpec CPotSpec.
From Verif.Spec Require CPotPlanarSpec.
From Verif.Proofs Require Import CSerialProofs CPotLeaf CPotProofs.
From Verif.Proofs Require CPotPlanarProofs.
Import ListNotations.
Open Scope R_scope.
Notation RR := RbaseSymbolsImpl.R (only parsing).

Lemma reads_handed nan linspace trange l sr cs fs : parse_pot nan linspace trange l = Some sr -> reads1 sr cs -> sequence (map c_funs cs) = Some fs -> handed_over nan linspace trange l fs.
Proof.
  intros E [_ Hr] Hc. exists sr, cs. split; [exact E|]. split; [|exact Hc]. intros fuel types args tfs L.
  specialize (Hr fuel 0%nat types args tfs L). rewrite Nat.add_0_r in Hr. unfold parse_c. rewrite Hr.
  replace (parse_gen c_nargs c_moving (fuel - n_pot sr) 0 types args tfs) with (Some (@nil carg, types, args, tfs)) by (now destruct (fuel - n_pot sr)%nat). cbn. now rewrite app_nil_r.
Qed.
Lemma agreeL_computes fs p D : agreeL fs p D -> computes fs p D.
Proof. intros [_ [He [HR [Hz [Hp [H1 [H2 [H3 [H4 [H5 [H6 Hn]]]]]]]]]]]. unfold computes. conjs; assumption. Qed.

(** For every list of potentials of the modelled classes, in wrappers nested to any depth: Python writes it, C reads it, and the sums C forms over its function pointers equal the
    forces, second derivatives, potential and density of the Python objects wherever those are defined *)
Theorem C44_same_formulas :
  forall nan linspace trange l ps, sames l ps ->
    exists fs, handed_over nan linspace trange l fs /\ computes fs (Comp 1 ps) (doms l).
Proof.
  intros nan linspace trange l ps H. destruct (proj2 (proj2 (sum_same nan linspace trange)) l ps H) as [_ [sr [cs [fs [Hs [Hr [Hc Ha]]]]]]].
  exists fs. split; [eapply reads_handed; eauto; apply Hs | now apply agreeL_computes].
Qed.
Print Assumptions C44_same_formulas.

(** One potential, wrapped or not, given by itself *)
Theorem C44_same_formulas_one :
  forall nan linspace trange s p, same s p ->
    exists fs, handed_over nan linspace trange [s] fs /\ computes fs p (doms [s]).
Proof.
  intros nan linspace trange s p H. destruct (proj1 (proj2 (sum_same nan linspace trange)) [s] p (same_one s p H)) as [_ [sr [cs [fs [Hs [Hr [Hc Ha]]]]]]].
  exists fs. split; [eapply reads_handed; eauto; apply Hs | now apply agreeL_computes].
Qed.
Print Assumptions C44_same_formulas_one.

(** The right-hand sides of the compiled integrators (orbits and orbit deviations) are those of the Python potential *)
Theorem C44_same_equations :
  forall nan linspace trange l ps, sames l ps ->
    exists fs Pt R2 z2 Rz p2 Rp pz, handed_over nan linspace trange l fs /\
      apiPt (Comp 1 ps) novel = Some Pt /\ apiR2 (Comp 1 ps) = Some R2 /\ apiz2 (Comp 1 ps) = Some z2 /\ apiRz (Comp 1 ps) = Some Rz /\ apip2 (Comp 1 ps) = Some p2 /\ apiRp (Comp 1 ps) = Some Rp /\ apipz (Comp 1 ps) = Some pz /\
      forall t (q : vec axis), doms l (rect_R (q AX) (q AY)) (q AZ) (rect_phi (q AX) (q AY)) t ->
        (forall j, rect_force (calc cf_Rf fs) (calc cf_zf fs) (calc cf_pt fs) t q j = rect_force (apiRf (Comp 1 ps) novel) (apizf (Comp 1 ps) novel) Pt t q j) /\
        (forall j k, rect_hess (calc cf_Rf fs) (calc cf_pt fs) (calc2 cf_R2 fs) (calc2 cf_p2 fs) (calc2 cf_Rp fs) (calc2 cf_z2 fs) (calc2 cf_Rz fs) (calc2 cf_pz fs) t q j k
                   = rect_hess (apiRf (Comp 1 ps) novel) Pt R2 p2 Rp z2 Rz pz t q j k).
Proof.
  intros nan linspace trange l ps H. destruct (C44_same_formulas nan linspace trange l ps H) as [fs [Hh [HR [Hz [[Pt [Ep Hp]] [[R2 [E1 H1]] [[z2 [E2 H2]] [[Rz [E3 H3]] [[p2 [E4 H4]] [[Rp [E5 H5]] [[pz [E6 H6]] _]]]]]]]]]]].
  exists fs, Pt, R2, z2, Rz, p2, Rp, pz. conjs; auto. intros t q HD. split.
  - intros j. unfold rect_force, at_q. now rewrite HR, Hz, Hp by exact HD.
  - intros j k. unfold rect_hess, at_q. now rewrite HR, Hp, H1, H2, H3, H4, H5, H6 by exact HD.
Qed.
Print Assumptions C44_same_equations.

(** A disk, a triaxial halo that rotates and grows, and a flattened bulge made of two spheres *)
Definition halo : pot := Wrap (DehnenSmooth 1 0 5 true) [Wrap (SolidBodyRotation 1 2 0) [Leaf (LogarithmicHalo 1 (8 / 10) (1 / 10) (Some (1 - 1 / (7 / 10) ^ 2)))]].
Definition bulge : pot := Wrap (KuzminLike 1 1 (2 ^ 2)) [Leaf (NFW 1 2); Leaf (Plummer 1 1)].
Example C44_nonvacuous : exists ps, sames [Leaf (MiyamotoNagai 1 (1 / 2) (1 / 10)); halo; bulge] ps /\ length ps = 3%nat /\
  doms [Leaf (MiyamotoNagai 1 (1 / 2) (1 / 10)); halo; bulge] 1 (1 / 2) 0 1.
Proof.
  eexists. split; [|split].
  - apply sames_cons; [apply same_leaf; apply (same_MiyamotoNagai _ _ _ true); lra|]. apply sames_cons.
    { eapply same_wrap; [apply same_one; eapply same_wrap; [apply same_one; apply same_leaf; apply same_LogHaloTri; lra | apply wraps_SolidBody; reflexivity]|].
      replace 5 with (dehnen_tsteady 0 (Some 5)) by (cbn; lra). apply wraps_DehnenSmooth. reflexivity. }
    apply sames_cons; [|apply sames_nil]. eapply same_wrap; [apply same_sum; apply sames_cons; [apply same_leaf; apply same_NFW; lra|]; apply sames_cons; [apply same_leaf; apply same_Plummer; lra|]; apply sames_nil|]. apply wraps_KuzminLike. reflexivity.
  - reflexivity.
  - cbn -[pow]. unfold off_centre. assert (S1 : 0 < sqrt (1 ^ 2 + (1 + sqrt ((1 / 2) ^ 2 + 2 ^ 2)) ^ 2)) by (apply sqrt_lt_R0; nra). assert (0 <= sqrt ((1 / 2) ^ 2 + 2 ^ 2)) by apply sqrt_pos.
    conjs; auto; try lra.
    + pose proof (SIN_bound (0 - 2 * 1 - 0)). assert (0 <= sin (0 - 2 * 1 - 0) ^ 2) by apply pow2_ge_0. replace (1 - 1 / (7 / 10) ^ 2) with (- (51 / 49)) by field. nra.
Qed.

(** A combination that has been normalised keeps its factor in an amplitude of its own, and iterating over it yields the members without that factor: what C is given is the combination as it
    was before (Potential.normalize 902-920 on a CompositePotential; _parse_pot iterates, integrateFullOrbit.py 43-66) *)
Theorem C44_normalised_sum_refuted :
  ~ (forall nan linspace trange l ps norm fs, sames l ps -> handed_over nan linspace trange l fs ->
       forall R z phi t, doms l R z phi t -> calc cf_Rf fs R z phi t = apiRf (normalize (Comp 1 ps) norm) novel R z phi t).
Proof.
  intros H. set (l := [Leaf (Plummer 1 1)]). set (ps := [Single 1 (PotAxi.Plummer 1)]).
  assert (Hs : sames l ps) by (apply sames_cons; [apply same_leaf; apply same_Plummer; lra | apply sames_nil]).
  destruct (C44_same_formulas 0 (fun _ _ _ => []) None l ps Hs) as [fs [Hh [HR _]]].
  assert (D : doms l 1 0 0 0) by (cbn; auto).
  specialize (H 0 (fun _ _ _ => []) None l ps 2 fs Hs Hh 1 0 0 0 D). rewrite (HR 1 0 0 0 D) in H.
  assert (E : apiRf (Comp 1 ps) novel 1 0 0 0 <> 0 /\ Rabs (apiRf (Comp 1 ps) novel 1 0 0 0) < 1).
  { cbn. unfold scale4, add4, zero4, sum4, PotAxi.Pl_Rf, PotAxi.Pl_dPhidrr, PotAxi.Pl_b2. cbn [fold_left]. pose proof (rpow_pos (1 ^ 2 + 0 ^ 2 + 1 ^ 2) (- (3 / 2))) as P.
    assert (B : rpow (1 ^ 2 + 0 ^ 2 + 1 ^ 2) (- (3 / 2)) < 1). { replace (1 ^ 2 + 0 ^ 2 + 1 ^ 2) with 2 by ring. unfold rpow. pose proof (Rpower_lt 2 (- (3 / 2)) 0 ltac:(lra) ltac:(lra)) as Q. rewrite Rpower_O in Q by lra. exact Q. }
    split; [nra|]. unfold Rabs. destruct (Rcase_abs _); nra. }
  unfold normalize in H. cbn [setAmp] in H. change (0, 0, 0) with novel in H. set (x := apiRf (Comp 1 ps) novel 1 0 0 0) in *.
  assert (F : apiRf (Comp (1 * (2 / Rabs x)) ps) novel 1 0 0 0 = 2 / Rabs x * x). { unfold x. cbn [apiRf]. unfold scale4. ring. }
  rewrite F in H. destruct E as [E1 E2]. assert (A : 0 < Rabs x) by now apply Rabs_pos_lt. assert (2 / Rabs x = 1).
  { apply (Rmult_eq_reg_r x); [|exact E1]. rewrite <- H. ring. }
  assert (2 = Rabs x). { replace 2 with (2 / Rabs x * Rabs x) by (field; lra). rewrite H0. ring. } lra.
Qed.
Print Assumptions C44_normalised_sum_refuted.

(** No energy can be computed in C for a rotating potential: the pointer that evaluatePotentials calls is never set (integrateFullOrbit.c 836-849, 869-882) *)
Theorem C44_rotating_energy_refuted :
  ~ (forall nan linspace trange l ps, sames l ps -> exists fs, handed_over nan linspace trange l fs /\ evaluatePotentials fs <> None).
Proof.
  intros H. set (l := [Wrap (SolidBodyRotation 1 1 0) [Leaf (Plummer 1 1)]]).
  assert (Hs : exists ps, sames l ps) by (eexists; apply sames_cons; [eapply same_wrap; [apply same_one; apply same_leaf; apply same_Plummer; lra | apply wraps_SolidBody; reflexivity] | apply sames_nil]).
  destruct Hs as [ps Hs]. destruct (H 0 (fun _ _ _ => []) None l ps Hs) as [fs [[s [cs [E [Hp Hc]]]] N]]. apply N. cbn in E. injection E as <-.
  specialize (Hp 2%nat [] [] [] (le_n _)). cbn [app_ser null_ser n_pot pot_type pot_args pot_tfuncs app Nat.add] in Hp.
  assert (R : reads1 (mkSer 1 [(-2)%Z; 17%Z] [1; 1; 1; 1; 1; 0] []) [CArg (-2) [] [] [1; 1; 0] [] [CArg 17 [] [] [1; 1] [] []]]).
  { apply (wrap_simple c_nargs c_moving (-2) (mkSer 1 [17%Z] [1; 1] []) [CArg 17 [] [] [1; 1] [] []] [1; 1; 0] []); try reflexivity; [intros ?; reflexivity|]. apply reads_simple; solve [reflexivity | lia | intros ?; reflexivity]. }
  destruct R as [_ R]. specialize (R 2%nat 0%nat [] [] [] (le_n _)). cbn [n_pot pot_type pot_args pot_tfuncs app] in R. unfold parse_c in Hp. cbn [Nat.add] in R. rewrite R in Hp. cbn in Hp. injection Hp as <-.
  cbn in Hc. injection Hc as <-. reflexivity.
Qed.
Print Assumptions C44_rotating_energy_refuted.

(** ** In the plane *)
Import CPotPlanarSpec.
Lemma handed2 nan linspace trange l fs : CPotPlanarProofs.serialise nan linspace trange l fs -> handed_over2 nan linspace trange l fs.
Proof.
  intros [sr [cs [E [[_ Hr] Hc]]]]. exists sr, cs. split; [exact E|]. split; [|exact Hc]. intros fuel types args tfs L.
  specialize (Hr fuel 0%nat types args tfs L). rewrite Nat.add_0_r in Hr. unfold parse_c2. rewrite Hr.
  replace (parse_gen c_nargs2 c_moving2 (fuel - n_pot sr) 0 types args tfs) with (Some (@nil carg, types, args, tfs)) by (now destruct (fuel - n_pot sr)%nat). cbn. now rewrite app_nil_r.
Qed.
Lemma handed2_unique nan linspace trange l fs fs' : handed_over2 nan linspace trange l fs -> handed_over2 nan linspace trange l fs' -> fs = fs'.
Proof.
  intros [s [cs [E [Hp Hc]]]] [s' [cs' [E' [Hp' Hc']]]]. rewrite E in E'. injection E' as <-. specialize (Hp _ [] [] [] (le_n _)). rewrite (Hp' _ [] [] [] (le_n _)) in Hp. injection Hp as <-. rewrite Hc in Hc'. now injection Hc'.
Qed.
Lemma leaf_handed nan linspace trange l f : CPotPlanarProofs.serialises nan linspace trange (Leaf2 l) f -> handed_over2 nan linspace trange [Leaf2 l] [f].
Proof. intros H. apply handed2, CPotPlanarProofs.ser_one, H. Qed.

(** For every list of objects used in the plane - two-dimensional classes, three-dimensional potentials taken at z = 0, wrappers of either, nested to any depth: Python writes it, the planar C
    code reads it, and the sums C forms over its function pointers equal the planar forces and torques of the Python objects, and their second derivatives *)
Theorem C44_planar_same_formulas :
  forall nan linspace trange H l ps, sames2 nan H l ps ->
    exists fs, handed_over2 nan linspace trange l fs /\ computes2 H fs (PComp 1 ps) (doms2 l).
Proof.
  intros nan linspace trange H l ps HS. destruct (proj2 (proj2 (CPotPlanarProofs.planar_same nan linspace trange H)) l ps HS) as [fs [Hs [_ Ha]]]. exists fs. split; [now apply handed2 | exact Ha].
Qed.
Print Assumptions C44_planar_same_formulas.

Theorem C44_planar_same_formulas_one :
  forall nan linspace trange H s p, same2 nan H s p ->
    exists fs, handed_over2 nan linspace trange [s] fs /\ computes2 H fs p (dom2 s).
Proof.
  intros nan linspace trange H s p HS. destruct (proj1 (proj2 (CPotPlanarProofs.planar_same nan linspace trange H)) [s] p (same2_one nan H s p HS)) as [fs [Hs Ha]]. exists fs. split; [now apply handed2|].
  apply (CPotPlanarProofs.agreePL_mono H fs p (doms2 [s]) (dom2 s)) in Ha; [apply Ha|]. cbn. auto.
Qed.
Print Assumptions C44_planar_same_formulas_one.

(** The planar right-hand sides, for orbits and (with [H]) orbit deviations *)
Theorem C44_planar_same_equations :
  forall nan linspace trange l ps, sames2 nan true l ps ->
    exists fs Rf Pt R2 p2 Rp, handed_over2 nan linspace trange l fs /\
      plRf (PComp 1 ps) (0, 0) = Some Rf /\ plPt (PComp 1 ps) (0, 0) = Some Pt /\ plR2 (PComp 1 ps) = Some R2 /\ plp2 (PComp 1 ps) = Some p2 /\ plRp (PComp 1 ps) = Some Rp /\
      forall t (q : vec bool), doms2 l (rect_R (q true) (q false)) (rect_phi (q true) (q false)) t ->
        (forall j, prect_force (pcalc pf_Rf fs) (pcalc pf_pt fs) t q j = prect_force Rf Pt t q j) /\
        (forall own j k, prect_hess (pcalc pf_Rf fs) (pcalc pf_pt fs) (pcalc pf_R2 fs) (pcalc pf_p2 fs) (pcalc pf_Rp fs) own t q j k = prect_hess Rf Pt R2 p2 Rp own t q j k).
Proof.
  intros nan linspace trange l ps HS. destruct (C44_planar_same_formulas nan linspace trange true l ps HS) as [fs [Hh [[Rf [ER HR]] [[Pt [Ep Hp]] HH]]]]. destruct (HH eq_refl) as [[R2 [E1 H1]] [[p2 [E2 H2]] [Rp [E3 H3]]]].
  exists fs, Rf, Pt, R2, p2, Rp. conjs; auto. intros t q HD. split.
  - intros j. unfold prect_force, pat_q. now rewrite HR, Hp by exact HD.
  - intros own j k. unfold prect_hess, pat_q. now rewrite HR, Hp, H1, H2, H3 by exact HD.
Qed.
Print Assumptions C44_planar_same_equations.

(** A growing, rotating elliptical distortion on top of a disk with a halo *)
Definition distortion : pot2 := Wrap2 (DehnenSmooth 1 0 5 true) [Wrap2 (SolidBodyRotation 1 2 0) [Leaf2 (EllipticalDisk 1 None (1 / 10) 1 0)]].
Definition disk : pot := Leaf (MiyamotoNagai 1 (1 / 2) (1 / 10)).
Definition around : pot := Wrap (KuzminLike 1 1 (2 ^ 2)) [Leaf (NFW 1 2); Leaf (Plummer 1 1)].
Example C44_planar_nonvacuous : exists ps, sames2 (-1) true [distortion; in_plane disk; in_plane around] ps /\ length ps = 3%nat /\
  doms2 [distortion; in_plane disk; in_plane around] 1 0 1.
Proof.
  eexists. split; [|split].
  - apply sames2_cons.
    { eapply same2_wrap; [apply same2_one; eapply same2_wrap; [apply same2_one; apply same2_native; apply same_EllipticalDisk; exact I | apply wraps2_SolidBody; reflexivity]|].
      replace 5 with (dehnen_tsteady 0 (Some 5)) by (cbn; lra). apply wraps2_DehnenSmooth. reflexivity. }
    apply sames2_cons. { apply same2_3D; [apply same_leaf; apply (same_MiyamotoNagai _ _ _ true); lra | cbn; lra]. }
    apply sames2_cons; [|apply sames2_nil]. apply same2_3D.
    + eapply same_wrap; [apply same_sum; apply sames_cons; [apply same_leaf; apply same_NFW; lra|]; apply sames_cons; [apply same_leaf; apply same_Plummer; lra|]; apply sames_nil|]. apply wraps_KuzminLike. reflexivity.
    + cbn. auto.
  - reflexivity.
  - cbn -[pow]. unfold leaf_dom2, off_centre. cbn -[pow]. unfold off_centre. assert (0 <= sqrt (2 ^ 2)) by apply sqrt_pos. assert (S1 : 0 < sqrt (1 ^ 2 + (1 + sqrt (2 ^ 2)) ^ 2)) by (apply sqrt_lt_R0; nra).
    conjs; auto; try lra.
Qed.

(** The Kuzmin disk: the planar C function returns minus the second derivative (KuzminDiskPotential.c, KuzminDiskPotentialPlanarR2deriv) *)
Theorem C44_planar_kuzmin_disk_refuted :
  ~ (forall nan linspace trange amp a fs, handed_over2 nan linspace trange [in_plane (Leaf (KuzminDisk amp a))] fs ->
       computes2 true fs (planar_of (Single amp (PotAxi.KuzminDisk a))) (dom2 (in_plane (Leaf (KuzminDisk amp a))))).
Proof.
  intros K. assert (Hh : handed_over2 0 (fun _ _ _ => []) None [in_plane (Leaf (KuzminDisk 1 1))] [paxi (cKu_PlanarRforce 1 1) (cKu_PlanarR2deriv 1 1)]).
  { apply leaf_handed. do 2 eexists. split; [reflexivity|]. split; [apply reads_simple0; solve [reflexivity | lia | intros ?; reflexivity]|]. reflexivity. }
  destruct (K 0 (fun _ _ _ => []) None 1 1 _ Hh) as [_ [_ Q]]. destruct (Q eq_refl) as [[h [E Q1]] _]. cbn in E. injection E as <-. specialize (Q1 1 0 0). rewrite CPotPlanarProofs.pcalc_one in Q1.
  cbn [pf_R2 paxi] in Q1. unfold cKu_PlanarR2deriv, scale3, scale4, PotAxi.Kz_R2, PotAxi.Kz_den in Q1. rewrite Rabs_R0 in Q1. replace (1 ^ 2 + 1 ^ 2) with 2 in Q1 by ring. replace (1 ^ 2 + (1 + 0) ^ 2) with 2 in Q1 by ring.
  assert (S : rpow 2 (- (3 / 2)) = 2 * rpow 2 (- (5 / 2))). { replace (- (3 / 2)) with (1 + - (5 / 2)) by field. rewrite rpow_plus by lra. rewrite rpow_1 by lra. reflexivity. }
  pose proof (rpow_pos 2 (- (5 / 2))) as P. cbv zeta in Q1. rewrite S in Q1. specialize (Q1 ltac:(cbn; unfold leaf_dom2; cbn; lra)). lra.
Qed.
Print Assumptions C44_planar_kuzmin_disk_refuted.

(** Miyamoto-Nagai with negative b: Python uses the absolute value of b in the plane (the square root of its square), C uses b *)
Theorem C44_planar_negative_b_refuted :
  ~ (forall nan linspace trange amp a b fl fs, b <> 0 -> handed_over2 nan linspace trange [in_plane (Leaf (MiyamotoNagai amp a b))] fs ->
       computes2 false fs (planar_of (Single amp (PotAxi.MiyamotoNagai a b fl))) (dom2 (in_plane (Leaf (MiyamotoNagai amp a b))))).
Proof.
  intros K. assert (Hh : handed_over2 0 (fun _ _ _ => []) None [in_plane (Leaf (MiyamotoNagai 1 1 (-1)))] [paxi (cMN_PlanarRforce 1 1 (-1)) (cMN_PlanarR2deriv 1 1 (-1))]).
  { apply leaf_handed. do 2 eexists. split; [reflexivity|]. split; [apply reads_simple0; solve [reflexivity | lia | intros ?; reflexivity]|]. reflexivity. }
  destruct (K 0 (fun _ _ _ => []) None 1 1 (-1) true _ ltac:(lra) Hh) as [[h [E Q1]] _]. cbn in E. injection E as <-. specialize (Q1 1 0 0). rewrite CPotPlanarProofs.pcalc_one in Q1.
  cbn [pf_Rf paxi] in Q1. unfold cMN_PlanarRforce, scale3, scale4, PotAxi.MN_Rf, PotAxi.MN_b2 in Q1.
  replace (0 ^ 2 + (-1) ^ 2) with 1 in Q1 by ring. rewrite sqrt_1 in Q1. replace (1 ^ 2 + (1 + -1) ^ 2) with 1 in Q1 by ring. replace (1 ^ 2 + (1 + 1) ^ 2) with 5 in Q1 by ring.
  assert (S : forall y, rpow 1 y = 1) by (intros y; unfold rpow; apply Rpower_1_l || (unfold Rpower; rewrite ln_1, Rmult_0_r; apply exp_0)). rewrite S in Q1.
  assert (P : 1 < rpow 5 (3 / 2)). { unfold rpow. pose proof (Rpower_lt 5 0 (3 / 2) ltac:(lra) ltac:(lra)) as P. rewrite Rpower_O in P by lra. exact P. }
  specialize (Q1 ltac:(cbn; unfold leaf_dom2; cbn; lra)). assert (rpow 5 (3 / 2) = 1); [|lra]. apply (f_equal (fun x => x * rpow 5 (3 / 2))) in Q1. field_simplify in Q1; lra.
Qed.
Print Assumptions C44_planar_negative_b_refuted.

(** The multipole disk at its break radius: C takes the inner formula there, Python the outer one, and they differ unless r1 = 1 *)
Theorem C44_planar_break_radius_refuted :
  ~ (forall nan linspace trange amp mphio p mphib m rb r1p fs, m <> 0%Z ->
       handed_over2 nan linspace trange [Leaf2 (CosmphiDisk amp mphio p mphib (IZR m) rb (rpow rb p) (rpow rb p ^ 2) r1p)] fs ->
       computes2 false fs (PNat amp (PotPlanar.CD_class (IZR m) mphio mphib p rb r1p)) (fun R phi t => 0 < R)).
Proof.
  intros K. assert (Hh : handed_over2 0 (fun _ _ _ => []) None [Leaf2 (CosmphiDisk 1 1 1 0 (IZR 1) 1 (rpow 1 1) (rpow 1 1 ^ 2) 2)] [pCD 1 1 1 0 (IZR 1) 1 (rpow 1 1) (rpow 1 1 ^ 2) 2]).
  { apply leaf_handed. do 2 eexists. split; [reflexivity|]. split; [apply reads_simple0; solve [reflexivity | lia | intros ?; reflexivity]|]. reflexivity. }
  destruct (K 0 (fun _ _ _ => []) None 1 1 1 0 1%Z 1 2 _ ltac:(lia) Hh) as [_ [[h [E Q1]] _]]. cbn in E. injection E as <-. specialize (Q1 1 (PI / 2) 0 ltac:(lra)). rewrite CPotPlanarProofs.pcalc_one in Q1.
  cbn [pf_pt pCD] in Q1. unfold scale3, PotPlanar.CD_pt, PotPlanar.CD_rbp in Q1. destruct (Rle_dec 1 1) as [_|N]; [|lra]. destruct (Rlt_dec 1 1) as [N|_]; [lra|].
  rewrite !rpow_1 in Q1 by lra. replace (1 * (PI / 2) - 0) with (PI / 2) in Q1 by ring. rewrite sin_PI2 in Q1. lra.
Qed.
Print Assumptions C44_planar_break_radius_refuted.
