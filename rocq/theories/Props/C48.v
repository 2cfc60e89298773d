(** C48: a spherical distribution function depends on position and velocity only through the integrals of the motion, and it integrates
    to the density of its potential and to its velocity moments. *)
From Coq Require Import Reals List ZArith Lra Lia Bool.
From Coquelicot Require Import Coquelicot.
From Verif.Lib Require Import RealAux Atan2.
From Verif.Model Require Import PotAPI PotAxi SOS EOM SphericalDF.
From Verif.Spec Require Import PotSpec PotApiSpec SmoothSpec Catalog SOSSpec EOMSpec SphericalDFSpec.
From Verif.Proofs Require Import EOMProofs EOMIntegrals EOMCatalog SphericalDFIntegrals SphericalDFModels SphericalDFProofs SphericalDFSampling SphericalDFWitness.
Import ListNotations.
Open Scope R_scope.
Notation RR := RbaseSymbolsImpl.R (only parsing).

(** ** Evaluation *)
(** The angular momentum of the coordinates is |x cross v|, and an Orbit with one row gives the value of its coordinates. *)
Theorem C48_coordinates_and_orbit_agree : forall f Phi w, 0 < y_R w ^ 2 + y_z w ^ 2 ->
  call_L (y_R w) (y_vR w) (y_vT w) (y_z w) (y_vz w) = norm3 (orb_L w) /\
  call_orbit f Phi [w] = [call_coords f Phi (y_R w) (y_vR w) (y_vT w) (y_z w) (y_vz w)].
Proof. intros f Phi w H. split; [exact (call_L_norm w H)|exact (call_orbit_one f Phi w H)]. Qed.
Print Assumptions C48_coordinates_and_orbit_agree.
(** An Orbit with more rows does not: the angular momenta of all of its rows are summed. *)
Theorem C48_orbits_with_several_rows_refuted : exists os, call_orbit (cb_call 2 (cbh_fE 2 (- pot1 0 0) 1)) pot1 os <>
  map (fun w => call_coords (cb_call 2 (cbh_fE 2 (- pot1 0 0) 1)) pot1 (y_R w) (y_vR w) (y_vT w) (y_z w) (y_vz w)) os.
Proof. exists two_rows. exact two_rows_wrong. Qed.
Print Assumptions C48_orbits_with_several_rows_refuted.
(** Jeans' theorem: the value is constant along every orbit in the potential, if the forces are central. *)
Theorem C48_constant_along_orbits : forall D l Phi f (y : RR -> cyl) a b,
  potential_of D l (fun R z _ _ => Phi R z) -> turns (fun R z _ _ => Phi R z) -> List.Forall central l -> stays_in D y a b -> orbit_rows l y a b ->
  constant_on (fun t => call_coords f Phi (y_R (y t)) (y_vR (y t)) (y_vT (y t)) (y_z (y t)) (y_vz (y t))) a b.
Proof. exact df_constant. Qed.
Print Assumptions C48_constant_along_orbits.

(** ** Densities *)
(** vmomentdensity(r, 0, 0) is the density of the potential. *)
Theorem C48_plummer_density : forall amp b r, 0 < amp -> 0 < b ->
  iso_vmoment (plummer_fE amp b) (fun R z => amp * Pl_ev b R z) r 0 0 = amp * Pl_dens b r 0.
Proof. exact plummer_density. Qed.
Print Assumptions C48_plummer_density.
Theorem C48_hernquist_density : forall amp a r ra, 0 < amp -> 0 < a -> 0 < r -> 0 < ra ->
  let Phi := fun R z => amp * He_ev a R z in
  let psi0 := - Phi 0 0 in
  iso_vmoment (hernquist_fE psi0 a) Phi r 0 0 = amp * He_dens a r 0 /\
  (forall b, (b <= 2)%nat -> cb_vmoment b (cbh_fE b psi0 a) Phi r 0 0 = amp * He_dens a r 0) /\
  om_vmoment ra (omh_fQ psi0 a ra) Phi r 0 0 = amp * He_dens a r 0.
Proof.
  intros amp a r ra Ha Hs Hr Hra Phi psi0. split; [exact (hernquist_density amp a r Ha Hs Hr)|]. split.
  - intros b Hb. destruct b as [|[|[|b]]]; [exact (cbh_density_half amp a r Ha Hs Hr)|exact (cbh_density_0 amp a r Ha Hs Hr)|exact (cbh_density_minus_half amp a r Ha Hs Hr)|lia].
  - exact (omh_density amp a r Ha Hs Hr ra Hra).
Qed.
Print Assumptions C48_hernquist_density.
(** The power law: where the relative potential is C times a power of r, the density is nu0 times a power of r. *)
Theorem C48_powerlaw_density : forall (k : nat) nu0 C Psi, (3 <= k)%nat -> 0 < C -> 0 < Psi ->
  4 * PI * RInt (fun v => v ^ 2 * powerlaw_fE k nu0 C (- Psi + 0.5 * v ^ 2)) 0 (sqrt (2 * Psi)) = nu0 * rpow (Psi / C) (INR k / 2).
Proof. exact powerlaw_density. Qed.
Print Assumptions C48_powerlaw_density.

(** ** Velocity moments *)
(** vmomentdensity of the isotropic, constant-anisotropy and Osipkov-Merritt classes is the moment of the distribution function that is
    evaluated by calling the object, if n and m are even. *)
Theorem C48_moments : forall Phi r n m, 0 < r -> Phi r 0 < 0 -> Nat.Even n -> Nat.Even m ->
  let vesc := sqrt (2 * - Phi r 0) in
  (forall fE, iso_vmoment fE Phi r n m = velocity_moment (iso_call fE) (Phi r 0) vesc r n m) /\
  (forall b fE, ex_RInt (fun v => v ^ (1 + b + m + n) * fE (Phi r 0 + 0.5 * v ^ 2)) 0 vesc ->
     cb_vmoment b fE Phi r n m = velocity_moment (cb_call b fE) (Phi r 0) vesc r n m) /\
  (forall ra fQ, 0 < ra -> (forall q, q < 0 -> fQ q = 0) -> ex_RInt (fun v => v ^ (2 + m + n) * fQ (- Phi r 0 - 0.5 * v ^ 2)) 0 vesc ->
     om_vmoment ra fQ Phi r n m = velocity_moment (om_call ra fQ) (Phi r 0) vesc r n m).
Proof.
  intros Phi r n m Hr HP Hn Hm vesc.
  assert (V : vesc = vmax_at_r Phi r) by (unfold vesc, vmax_at_r; f_equal; ring).
  assert (O : odd_moment n m = false).
  { unfold odd_moment. rewrite <- !Nat.negb_even. apply Nat.even_spec in Hn. apply Nat.even_spec in Hm. rewrite Hn, Hm. reflexivity. }
  assert (P : 0 < vmax_at_r Phi r) by (apply sqrt_lt_R0; lra). rewrite V.
  split; [intros fE; exact (iso_moment fE Phi r n m O)|]. split.
  - intros b fE X. exact (cb_moment b fE Phi r n m Hr P O X).
  - intros ra fQ Hra Hq X. exact (om_moment ra fQ Phi r n m Hra Hr HP O Hq X).
Qed.
Print Assumptions C48_moments.
(** The double integral of the base class gives the same moment. *)
Theorem C48_base_class_moments : forall fE Phi r n m, 0 < r -> Nat.Even n -> Nat.Even m ->
  ex_RInt (fun v => v ^ (2 + m + n) * fE (Phi r 0 + 0.5 * v ^ 2)) 0 (vmax_at_r Phi r) ->
  base_vmoment (iso_call fE) Phi r n m = iso_vmoment fE Phi r n m.
Proof.
  intros fE Phi r n m Hr Hn Hm X. apply base_moment; [exact Hr| |exact X].
  unfold odd_moment. rewrite <- !Nat.negb_even. apply Nat.even_spec in Hn. apply Nat.even_spec in Hm. rewrite Hn, Hm. reflexivity.
Qed.
Print Assumptions C48_base_class_moments.
(** Odd moments of the tangential speed are not: these classes return 0. *)
Theorem C48_odd_moments_refuted : forall amp b r, 0 < amp -> 0 < b ->
  let Phi := fun R z => amp * Pl_ev b R z in
  0 < velocity_moment (iso_call (plummer_fE amp b)) (Phi r 0) (vmax_at_r Phi r) r 0 1 /\ iso_vmoment (plummer_fE amp b) Phi r 0 1 = 0.
Proof. exact plummer_tangential. Qed.
Print Assumptions C48_odd_moments_refuted.
(** The anisotropy is the one the classes are named after. *)
Theorem C48_anisotropy : forall Phi r, 0 < r ->
  (forall fE, RInt (fun v => v ^ 4 * fE (Phi r 0 + 0.5 * v ^ 2)) 0 (vmax_at_r Phi r) <> 0 -> beta_of (iso_vmoment fE Phi r) = 0) /\
  (forall b fE, RInt (fun v => v ^ (1 + b + 2) * fE (Phi r 0 + 0.5 * v ^ 2)) 0 (vmax_at_r Phi r) <> 0 -> beta_of (cb_vmoment b fE Phi r) = (1 - INR b) / 2) /\
  (forall ra fQ, 0 < ra -> RInt (fun v => v ^ 4 * fQ (- Phi r 0 - 0.5 * v ^ 2)) 0 (vmax_at_r Phi r) <> 0 ->
     beta_of (om_vmoment ra fQ Phi r) = r ^ 2 / (r ^ 2 + ra ^ 2)).
Proof.
  intros Phi r Hr. split; [intros fE; exact (iso_beta fE Phi r)|]. split; [intros b fE; exact (cb_beta b fE Phi r Hr)|intros ra fQ; exact (om_beta ra fQ Phi r)].
Qed.
Print Assumptions C48_anisotropy.
(** sigmar and sigmat are the dispersions per unit density of the moments. *)
Theorem C48_dispersions : forall vm, 0 < vm 0%nat 0%nat -> 0 <= vm 2%nat 0%nat -> 0 <= vm 0%nat 2%nat ->
  sigmar_of vm ^ 2 * vm 0%nat 0%nat = vm 2%nat 0%nat /\ sigmat_of vm ^ 2 * vm 0%nat 0%nat = vm 0%nat 2%nat /\
  (0 < vm 2%nat 0%nat -> beta_of vm = 1 - sigmat_of vm ^ 2 / (2 * sigmar_of vm ^ 2)).
Proof.
  intros vm H0 H1 H2. unfold sigmar_of, sigmat_of, beta_of.
  rewrite !pow2_sqrt by (apply Rdiv_le_0_compat; lra). repeat split; intros; field; lra.
Qed.
Print Assumptions C48_dispersions.
(** An array of energies with two axes, as the speed sampler passes, is not evaluated entry by entry: a row with an entry out of range is
    set to zero. *)
Theorem C48_arrays_refuted : forall psi0 a, 0 < psi0 -> 0 < a -> exists rows,
  ~ elementwise (fun e => if in_unit e then hernquist_norm psi0 a * hernquist_shape e else 0)
      (fE_array2 (fun e => hernquist_norm psi0 a * hernquist_shape e) rows) rows.
Proof. intros psi0 a Hp Ha. exists [[1 / 2; 2]]. exact (array_wrong psi0 a Hp Ha). Qed.
Print Assumptions C48_arrays_refuted.

(** With one axis it is, for every list of energies. *)
Theorem C48_arrays : forall psi0 a es, psi0 <> 0 ->
  fE_array1 (fun e => hernquist_norm psi0 a * hernquist_shape e) es = List.map (fun e => hernquist_fE psi0 a (- (e * psi0))) es.
Proof.
  intros psi0 a es Hp. unfold fE_array1. apply map_ext. intros e. unfold hernquist_fE. cbv zeta.
  replace (- (- (e * psi0) / psi0)) with e; [reflexivity|]. field. exact Hp.
Qed.
Print Assumptions C48_arrays.

(** ** The hypotheses are met *)
Definition sphere_pot (R z : RR) : RR := pots_value [sphere] R z 0 0.
Example C48_orbit : forall f, constant_on (fun t => call_coords f sphere_pot (y_R (ellipse_row t)) (y_vR (ellipse_row t)) (y_vT (ellipse_row t)) (y_z (ellipse_row t)) (y_vz (ellipse_row t))) 0 1.
Proof.
  intros f. assert (Ca : List.Forall (Catalog (fun R z _ _ => R ^ 2 + z ^ 2 <> 10 ^ 2)) [sphere]) by (constructor; [exact sphere_catalog|constructor]).
  pose proof (catalog_potential _ _ Ca) as Po. destruct (catalog_turns _ _ Ca) as [Tu _].
  apply (C48_constant_along_orbits _ _ sphere_pot f ellipse_row 0 1 Po Tu); [|exact (ellipse_stays 0 1)|exact (ellipse_orbit 0 1)].
  constructor; [exact sphere_central|constructor].
Qed.
(** A constant distribution function in a Hernquist potential. *)
Example C48_moments_met : 0 < 1 /\ pot1 1 0 < 0 /\ Nat.Even 2 /\ Nat.Even 0 /\
  cb_vmoment 0 (fun _ => 1) pot1 1 2 0 = velocity_moment (cb_call 0 (fun _ => 1)) (pot1 1 0) (sqrt (2 * - pot1 1 0)) 1 2 0 /\
  om_vmoment 1 step pot1 1 2 0 = velocity_moment (om_call 1 step) (pot1 1 0) (sqrt (2 * - pot1 1 0)) 1 2 0.
Proof.
  assert (E2 : Nat.Even 2) by (exists 1%nat; reflexivity). assert (E0 : Nat.Even 0) by (exists 0%nat; reflexivity).
  assert (P : pot1 1 0 < 0) by (rewrite pot1_1; lra).
  destruct (C48_moments pot1 1 2 0 Rlt_0_1 P E2 E0) as (_ & B & C).
  split; [lra|]. split; [exact P|]. split; [exact E2|]. split; [exact E0|]. split.
  - apply B. apply (ex_RInt_continuous (V := R_CompleteNormedModule)). intros y _. apply (@ex_derive_continuous R_AbsRing R_NormedModule). auto_derive. exact I.
  - apply C; [lra|exact step_neg|].
    apply (ex_RInt_ext (fun v => v ^ (2 + 0 + 2))).
    + intros v Hv. rewrite pot1_1 in Hv. rewrite pot1_1. replace (2 * - - (1 / 2)) with 1 in Hv by field. rewrite sqrt_1, Rmin_left, Rmax_right in Hv by lra.
      unfold step. destruct (Rle_dec 0 _) as [_|N]; [lra|]. exfalso. apply N. nra.
    + apply (ex_RInt_continuous (V := R_CompleteNormedModule)). intros y _. apply (@ex_derive_continuous R_AbsRing R_NormedModule). auto_derive. exact I.
Qed.
