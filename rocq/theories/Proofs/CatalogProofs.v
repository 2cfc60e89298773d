(** Every catalogued object satisfies the derivative specifications. *)
From Coq Require Import Reals Lra Psatz List Bool.
From Coquelicot Require Import Coquelicot.
From Verif.Lib Require Import RealAux.
From Verif.Model Require Import PotAPI PotAxi PotNonAxi.
From Verif.Spec Require Import PotSpec PotApiSpec Catalog.
From Verif.Proofs Require Import AxiProofs AxiProofs2 AxiProofs3 AxiProofs4 PotLift NonAxiProofs.
Open Scope R_scope.
Notation RR := RbaseSymbolsImpl.R (only parsing).

(** All four facts about a class. *)
Record Full (D : Dom) (c : PotC) : Prop := {
  full_open : slice_open D;
  full_ok : ClassOK D c;
  full_dens : forall amp, density_is_source D (Single amp c) }.

Lemma full_sub D E c : Full D c -> slice_open E -> (forall R z phi t, E R z phi t -> D R z phi t) -> Full E c.
Proof.
  intros [Ho [Hf Hh Ha] Hd] HE Hsub. split; auto.
  - split; intros amp. eapply forces_mono; eauto. eapply hessian_mono; eauto. eapply azimuthal_mono; eauto.
  - intros amp. eapply density_mono; eauto.
Qed.

Lemma axi_full D ev Rf zf R2 z2 Rz dn :
  slice_open (lift2 D) -> AxiForce D ev Rf zf -> AxiHess D Rf zf R2 z2 Rz -> AxiPoisson D Rf R2 z2 dn ->
  Full (lift2 D) (mkAxi ev Rf zf (Some R2) (Some z2) (Some Rz) (Some dn)).
Proof.
  intros Ho Hf Hh Hp. split; auto.
  - split; intros amp. apply axi_forces; auto. apply axi_hessian; auto. apply axi_azimuthal.
  - intros amp. apply axi_density; auto.
Qed.
Lemma axi_full_nodens D ev Rf zf R2 z2 Rz :
  slice_open (lift2 D) -> AxiForce D ev Rf zf -> AxiHess D Rf zf R2 z2 Rz ->
  Full (lift2 D) (mkAxi ev Rf zf (Some R2) (Some z2) (Some Rz) None).
Proof.
  intros Ho Hf Hh.
  assert (Hc : ClassOK (lift2 D) (mkAxi ev Rf zf (Some R2) (Some z2) (Some Rz) None)).
  { split; intros amp. apply axi_forces; auto. apply axi_hessian; auto. apply axi_azimuthal. }
  split; auto. intros amp. destruct Hc as [A B C].
  apply (poisson_density (lift2 D) _ Ho (A amp) (B amp) (C amp)).
Qed.

Lemma open_pos2 (f : RR -> RR -> RR) :
  (forall R z, ex_derive (fun x => f x z) R) -> (forall R z, ex_derive (fun x => f R x) z) ->
  slice_open (lift2 (fun R z => 0 < f R z)).
Proof.
  intros H1 H2. apply slice_open_lift. intros R z HD. split.
  - apply (ex_derive_continuous (fun x => f x z) R (H1 R z) (fun v => 0 < v)). apply locally_pos; auto.
  - apply (ex_derive_continuous (fun x => f R x) z (H2 R z) (fun v => 0 < v)). apply locally_pos; auto.
Qed.
Lemma open_neq2 (f : RR -> RR -> RR) a :
  (forall R z, ex_derive (fun x => f x z) R) -> (forall R z, ex_derive (fun x => f R x) z) ->
  slice_open (lift2 (fun R z => f R z <> a)).
Proof.
  intros H1 H2. apply slice_open_lift. intros R z HD. split.
  - apply (ex_derive_continuous (fun x => f x z) R (H1 R z) (fun v => v <> a)). apply (open_neq a _ HD).
  - apply (ex_derive_continuous (fun x => f R x) z (H2 R z) (fun v => v <> a)). apply (open_neq a _ HD).
Qed.
Lemma open_all : slice_open (lift2 DAll).
Proof. apply slice_open_lift. intros R z _. split; exists (mkposreal 1 Rlt_0_1); intros; exact I. Qed.
Lemma open_origin : slice_open (lift2 DOrigin).
Proof. apply slice_open_lift. intros R z H. split; [apply DO_loc_R|apply DO_loc_z]; auto. Qed.
Lemma open_off : slice_open off_origin.
Proof. exact open_origin. Qed.

Lemma catalog_single_full D c : CatalogSingle D c -> Full D c.
Proof.
  intros H; destruct H.
  - apply (axi_full (DMN a b)); auto using MN_force, MN_hess, MN_poisson.
    apply slice_open_lift. intros R z [HR|Hz]; split.
    + eapply filter_imp; [|apply (open_neq 0 R HR)]. intros y Hy. left; auto.
    + exists (mkposreal 1 Rlt_0_1). intros y _. left; auto.
    + exists (mkposreal 1 Rlt_0_1). intros y _. right; auto.
    + assert (Hc : continuous (fun y => a + sqrt (y ^ 2 + b ^ 2)) z).
      { apply (ex_derive_continuous (fun y => a + sqrt (y ^ 2 + b ^ 2))). auto_derive. pose proof (sq_pos b H). nra. }
      eapply filter_imp; [|apply (Hc (fun v => v <> 0)); apply (open_neq 0); exact Hz].
      intros y Hy; right; exact Hy.
  - apply (axi_full DAll); auto using open_all, Pl_force, Pl_hess, Pl_poisson.
  - apply (axi_full DAll); auto using open_all, Iso_force, Iso_hess, Iso_poisson.
  - apply (axi_full_nodens DKz); auto using Kz_force, Kz_hess.
    apply (open_neq2 (fun _ z => z)); intros; auto_derive; auto.
  - apply (axi_full DOrigin); auto using open_origin, PI_force, PI_hess, PI_poisson.
  - apply (axi_full (DHS Rs)); auto using HS_force, HS_hess, HS_poisson.
    apply (open_neq2 (fun R z => R ^ 2 + z ^ 2)); intros; auto_derive; auto.
  - apply (axi_full (DFP q2 core2)); auto using FP_force, FP_hess, FP_poisson.
    apply (open_pos2 (fun R z => core2 + R ^ 2 + z ^ 2 / q2)); intros; auto_derive; auto; lra.
  - apply (axi_full DOrigin); auto using open_origin, PS_force, PS_hess, PS_poisson.
  - apply (axi_full DOrigin); auto using open_origin, PS_force, PS_hess, PS_poisson.
  - apply (axi_full DOrigin); auto using open_origin, De_force, De_hess, De_poisson.
  - apply (axi_full DOrigin); auto using open_origin, DC_force, DC_hess, DC_poisson.
  - apply (axi_full DOrigin); auto using open_origin, He_force, He_hess, He_poisson.
  - apply (axi_full DOrigin); auto using open_origin, Ja_force, Ja_hess, Ja_poisson.
  - apply (axi_full DOrigin); auto using open_origin, NFW_force, NFW_hess, NFW_poisson.
  - assert (F : Full (DSph Dpos) (Burkert a)).
    { split; auto using Burkert_ok, Burkert_density. apply slice_open_sph. intros r t Hr; apply locally_pos; auto. }
    apply (full_sub (DSph Dpos)); auto using open_off.
    intros R z phi t Hd. split; auto. unfold Dpos. apply sqrt_lt_R0, DO_pos, Hd.
  - assert (So : slice_open (DSph (DShell a))).
    { apply slice_open_sph. intros r t (Hr & Hne). apply filter_and; [apply locally_pos; auto|apply (open_neq a r Hne)]. }
    assert (F : Full (DSph (DShell a)) (SphericalShell a)).
    { split; auto using SphericalShell_ok, SphericalShell_density. }
    assert (Eq : forall R z (phi t : RR), (R <> 0 \/ z <> 0) /\ sqrt (R ^ 2 + z ^ 2) <> a -> DSph (DShell a) R z phi t).
    { intros R z phi t (Hd & Hne). split; auto. split; auto. apply sqrt_lt_R0, DO_pos, Hd. }
    apply (full_sub (DSph (DShell a))); auto.
    intros R z phi t Hd. destruct (So R z phi t (Eq _ _ _ _ Hd)) as (S1 & S2 & S3).
    splits; eapply filter_imp; try eassumption; intros y (Hy1 & Hy2 & Hy3); auto.
  - split. apply (DLH_open core2 q None). apply (LH_ok core2 q None); auto. intros; apply (LH_density core2 q None); auto.
  - split. apply (DLH_open core2 q (Some b)). apply (LH_ok core2 q (Some b)); auto. intros; apply (LH_density core2 q (Some b)); auto.
Qed.

Lemma catalog_not_diss D p : Catalog D p -> isDiss p = false.
Proof.
  induction 1; auto. simpl. 
  assert (forall q, In q ps -> isDiss q = false) by auto. clear -H2.
  induction ps; auto. simpl. rewrite H2 by (left; auto). apply IHps. intros; apply H2; right; auto.
Qed.

Lemma catalog_forces D p : Catalog D p -> forces_are_gradient D p.
Proof.
  induction 1.
  - apply (catalog_single_full _ _ H).
  - eapply forces_mono; eauto.
  - apply comp_forces. intros p Hp. split; auto. eapply catalog_not_diss; eauto.
Qed.
Lemma catalog_hessian D p : Catalog D p -> hessian_is_correct D p.
Proof.
  induction 1.
  - apply (catalog_single_full _ _ H).
  - eapply hessian_mono; eauto.
  - apply comp_hessian. intros p Hp. split; auto. eapply catalog_not_diss; eauto.
Qed.
Lemma catalog_azimuthal D p : Catalog D p -> azimuthal_hessian_is_correct D p.
Proof.
  induction 1.
  - apply (catalog_single_full _ _ H).
  - eapply azimuthal_mono; eauto.
  - apply comp_azimuthal. intros p Hp. split; auto. eapply catalog_not_diss; eauto.
Qed.
Lemma catalog_density D p : Catalog D p -> density_is_source D p.
Proof.
  induction 1.
  - apply (catalog_single_full _ _ H).
  - eapply density_mono; eauto.
  - apply comp_density; auto. intros p Hp. splits; auto. eapply catalog_not_diss; eauto.
    eapply catalog_forces; eauto.
Qed.
Lemma catalog_open D p : Catalog D p -> slice_open D.
Proof. induction 1; auto. apply (catalog_single_full _ _ H). Qed.
Lemma catalog_poisson_density D p : Catalog D p -> poisson_density_is_source D p.
Proof.
  intros H. apply poisson_density; eauto using catalog_open, catalog_forces, catalog_hessian, catalog_azimuthal.
Qed.

Lemma laplacian_unique Phi R z phi t l1 l2 :
  is_laplacian_at Phi R z phi t l1 -> is_laplacian_at Phi R z phi t l2 -> l1 = l2.
Proof.
  intros (a & b & c & d & A1 & A2 & A3 & A4 & ->) (a' & b' & c' & d' & B1 & B2 & B3 & B4 & ->).
  rewrite <- (is_derive_unique _ _ _ A1), <- (is_derive_unique _ _ _ A2), <- (is_derive_unique _ _ _ A3), <- (is_derive_unique _ _ _ A4).
  rewrite <- (is_derive_unique _ _ _ B1), <- (is_derive_unique _ _ _ B2), <- (is_derive_unique _ _ _ B3), <- (is_derive_unique _ _ _ B4).
  reflexivity.
Qed.
Lemma catalog_densities_agree : forall D p dens densP R z phi t,
  Catalog D p -> apiDens p = Some dens -> apiDensPoisson p = Some densP ->
  D R z phi t -> 0 < R -> dens R z phi t = densP R z phi t.
Proof.
  intros D p dens densP R z phi t Hc E1 E2 HD HR.
  destruct (catalog_density D p Hc) as (Phi & d1 & P1 & Q1 & S1).
  destruct (catalog_poisson_density D p Hc) as (Phi' & d2 & P2 & Q2 & S2).
  rewrite P1 in P2; inversion P2; subst Phi'. rewrite E1 in Q1; inversion Q1; subst d1.
  rewrite E2 in Q2; inversion Q2; subst d2.
  pose proof (laplacian_unique _ _ _ _ _ _ _ (S1 _ _ _ _ HD HR) (S2 _ _ _ _ HD HR)) as E.
  pose proof PI_RGT_0. apply Rmult_eq_reg_l with (4 * PI); lra.
Qed.
