(** The catalogued classes are totally differentiable. *)
From Coq Require Import Reals Lra Psatz List Bool.
From Coquelicot Require Import Coquelicot.
From Verif.Lib Require Import RealAux.
From Verif.Model Require Import PotAPI PotAxi PotNonAxi.
From Verif.Spec Require Import PotSpec PotApiSpec Catalog SmoothSpec.
From Verif.Proofs Require Import AxiProofs AxiProofs2 AxiProofs3 AxiProofs4 PotLift NonAxiProofs CatalogProofs SmoothProofs.
Import ListNotations.
Open Scope R_scope.
Notation RR := RbaseSymbolsImpl.R (only parsing).

(** class level *)
Definition ClassDiff (D : Dom) (c : PotC) : Prop :=
  forall R z phi t, D R z phi t ->
    Diffble (fun r h q => c_ev c r h q t) R z phi /\
    Diffble (fun r h q => c_Rf c r h q t) R z phi /\
    Diffble (fun r h q => c_zf c r h q t) R z phi /\
    (forall F, c_pt c = Some F -> Diffble (fun r h q => F r h q t) R z phi).
Lemma class_smooth D c amp : ClassOK D c -> ClassDiff D c -> smooth D (Single amp c).
Proof.
  intros [H1 H2 H3] Hd. apply smooth_intro; auto.
  intros R z phi t HD. destruct (Hd _ _ _ _ HD) as (d1 & d2 & d3 & d4). simpl. splits.
  - intros F E. inversion E; subst. unfold scale4. apply db_scal; auto.
  - unfold scale4. apply db_scal; auto.
  - unfold scale4. apply db_scal; auto.
  - intros F E. unfold dflt in E. destruct (c_pt c) as [G|] eqn:EG.
    + inversion E; subst. unfold scale4. apply db_scal. apply d4; auto.
    + destruct (nonaxi c); inversion E; subst. unfold zero4. apply db_const.
Qed.

Definition db2 (f : RR -> RR -> RR) (R z : RR) : Prop := forall phi, Diffble (fun r h q => f r h) R z phi.
Definition AxiDiff (D : RR -> RR -> Prop) (ev Rf zf : RR -> RR -> RR) : Prop :=
  forall R z, D R z -> db2 ev R z /\ db2 Rf R z /\ db2 zf R z.
Lemma axi_diff D ev Rf zf R2 z2 Rz dn : AxiDiff D ev Rf zf -> ClassDiff (lift2 D) (mkAxi ev Rf zf R2 z2 Rz dn).
Proof.
  intros H R z phi t HD. destruct (H R z HD) as (h1 & h2 & h3). simpl. splits; auto. discriminate.
Qed.

(** ** Spherical symmetry *)
Lemma db_radius R z phi : DOrigin R z -> Diffble (fun r h q => sqrt (r ^ 2 + h ^ 2)) R z phi.
Proof. intros H. pose proof (DO_pos _ _ H). db; auto. Qed.
Lemma near_origin R z phi : DOrigin R z -> near R z phi (fun r h q => DOrigin r h).
Proof.
  intros H. apply near_imp with (P := fun r h q => 0 < r ^ 2 + h ^ 2).
  - intros r h q Hp. unfold DOrigin. destruct (Req_dec r 0); [|auto]. right. intros ->. subst. lra.
  - apply (near_cont (fun r h q => r ^ 2 + h ^ 2)). db. apply locally_pos, DO_pos, H.
Qed.
Lemma sqrt_r0 r : 0 < r -> sqrt (r ^ 2 + 0 ^ 2) = r.
Proof. intros. replace (r ^ 2 + 0 ^ 2) with (Rsqr r) by (unfold Rsqr; ring). apply sqrt_Rsqr; lra. Qed.

Lemma spherical_diff ev Rf zf R2 z2 Rz :
  AxiForce DOrigin ev Rf zf -> AxiHess DOrigin Rf zf R2 z2 Rz ->
  (forall R z, DOrigin R z -> ev R z = ev (sqrt (R ^ 2 + z ^ 2)) 0) ->
  AxiDiff DOrigin ev Rf zf.
Proof.
  intros Hf Hh Hs.
  assert (Dr : forall R z, DOrigin R z -> DOrigin (sqrt (R ^ 2 + z ^ 2)) 0).
  { intros R z H. left. apply Rgt_not_eq, sqrt_lt_R0, DO_pos, H. }
  assert (ER : forall R z, DOrigin R z -> Rf R z = Rf (sqrt (R ^ 2 + z ^ 2)) 0 * R / sqrt (R ^ 2 + z ^ 2)).
  { intros R z H. pose proof (af_R _ _ _ _ Hf R z H) as D1.
    pose proof (af_R _ _ _ _ Hf _ _ (Dr R z H)) as D2.
    pose proof (is_derive_Rchain (fun x => ev x 0) (fun x => sqrt (x ^ 2 + z ^ 2)) R _ _ D2 (dsq_R R z H)) as D3.
    assert (D4 : is_derive (fun x => ev x z) R (- Rf (sqrt (R ^ 2 + z ^ 2)) 0 * (R / sqrt (R ^ 2 + z ^ 2)))).
    { eapply is_derive_ext_loc; [|exact D3]. eapply filter_imp; [|apply (DO_loc_R R z H)].
      intros x Hx. symmetry; apply Hs; auto. }
    apply is_derive_unique in D1. apply is_derive_unique in D4. rewrite D1 in D4. unfold Rdiv in *. lra. }
  assert (Ez : forall R z, DOrigin R z -> zf R z = Rf (sqrt (R ^ 2 + z ^ 2)) 0 * z / sqrt (R ^ 2 + z ^ 2)).
  { intros R z H. pose proof (af_z _ _ _ _ Hf R z H) as D1.
    pose proof (af_R _ _ _ _ Hf _ _ (Dr R z H)) as D2.
    pose proof (is_derive_Rchain (fun x => ev x 0) (fun x => sqrt (R ^ 2 + x ^ 2)) z _ _ D2 (dsq_z R z H)) as D3.
    assert (D4 : is_derive (fun x => ev R x) z (- Rf (sqrt (R ^ 2 + z ^ 2)) 0 * (z / sqrt (R ^ 2 + z ^ 2)))).
    { eapply is_derive_ext_loc; [|exact D3]. eapply filter_imp; [|apply (DO_loc_z R z H)].
      intros x Hx. symmetry; apply Hs; auto. }
    apply is_derive_unique in D1. apply is_derive_unique in D4. rewrite D1 in D4. unfold Rdiv in *. lra. }
  intros R z H.
  pose proof (sqrt_lt_R0 _ (DO_pos _ _ H)) as Hr.
  assert (Fd : ex_derive (fun x => Rf x 0) (sqrt (R ^ 2 + z ^ 2))).
  { pose proof (ah_R2 _ _ _ _ _ _ Hh _ _ (Dr R z H)) as D2. eexists. apply is_derive_flip1. exact D2. }
  splits; intros phi.
  - eapply db_near with (P := fun r h q => DOrigin r h) (f := fun r h q => ev (sqrt (r ^ 2 + h ^ 2)) 0).
    + apply near_origin; auto.
    + intros r h q Hd. symmetry; apply Hs; auto.
    + apply (db_comp (fun x => ev x 0)); [|apply db_radius; auto]. eexists. apply (af_R _ _ _ _ Hf _ _ (Dr R z H)).
  - eapply db_near with (P := fun r h q => DOrigin r h) (f := fun r h q => Rf (sqrt (r ^ 2 + h ^ 2)) 0 * r / sqrt (r ^ 2 + h ^ 2)).
    + apply near_origin; auto.
    + intros r h q Hd. symmetry; apply ER; auto.
    + apply db_div; [lra| |apply db_radius; auto]. apply db_mult; [|apply db_R].
      apply (db_comp (fun x => Rf x 0)); [auto|apply db_radius; auto].
  - eapply db_near with (P := fun r h q => DOrigin r h) (f := fun r h q => Rf (sqrt (r ^ 2 + h ^ 2)) 0 * h / sqrt (r ^ 2 + h ^ 2)).
    + apply near_origin; auto.
    + intros r h q Hd. symmetry; apply Ez; auto.
    + apply db_div; [lra| |apply db_radius; auto]. apply db_mult; [|apply db_z].
      apply (db_comp (fun x => Rf x 0)); [auto|apply db_radius; auto].
Qed.

Lemma radius_twice R z : sqrt (sqrt (R ^ 2 + z ^ 2) ^ 2 + 0 ^ 2) = sqrt (R ^ 2 + z ^ 2).
Proof.
  replace (sqrt (R ^ 2 + z ^ 2) ^ 2 + 0 ^ 2) with (sqrt (R ^ 2 + z ^ 2) ^ 2) by ring.
  rewrite sqrt_sq_eq by nra. reflexivity.
Qed.
Lemma radius_sq R z : sqrt (R ^ 2 + z ^ 2) ^ 2 + 0 ^ 2 = R ^ 2 + z ^ 2.
Proof. rewrite sqrt_sq_eq by nra. ring. Qed.
Ltac sphsym := intros R z _; cbv beta; unfold PI_ev, PI_r, PS_ev, De_ev, De_r, DC_ev, DC_r, He_ev, He_r, Ja_ev, Ja_r, NFW_ev, NFW_r; rewrite ?radius_twice, ?radius_sq; try reflexivity.

(** ** The classes *)
Lemma MN_diff a b fl : b <> 0 -> AxiDiff (DMN a b) (MN_ev a b) (MN_Rf a b) (MN_zf a b fl).
Proof.
  intros Hb R z HD. pose proof (MN_u b Hb z) as Hu. pose proof (MN_v a b R z HD) as Hv.
  assert (Hd : Diffble (fun r h (q : RR) => r ^ 2 + (a + sqrt (h ^ 2 + b ^ 2)) ^ 2) R z 0) by (db; auto).
  splits; intros phi; unfold MN_ev, MN_Rf, MN_zf, MN_special, MN_asq, MN_sq, MN_b2.
  - db; auto. apply Rgt_not_eq, sqrt_lt_R0; auto.
  - db; auto. apply Rgt_not_eq, rpow_pos.
  - destruct fl; [|db; auto; try apply Rgt_not_eq, rpow_pos; rewrite ?(Rplus_comm (b ^ 2)); auto; apply Rgt_not_eq, sqrt_lt_R0; auto].
    destruct (Req_dec a 0) as [->|Ha].
    + eapply db_ext with (f := fun r h q => - h / rpow (r ^ 2 + (0 + sqrt (h ^ 2 + b ^ 2)) ^ 2) (3 / 2)).
      { intros r h p. destruct (Req_EM_T _ _) as [E|E]; auto. exfalso; apply E; ring. }
      db; auto. apply Rgt_not_eq, rpow_pos.
    + eapply db_ext with (f := fun r h q => - h * (a + sqrt (b ^ 2 + h ^ 2)) / sqrt (b ^ 2 + h ^ 2) / rpow (r ^ 2 + (a + sqrt (h ^ 2 + b ^ 2)) ^ 2) (3 / 2)).
      { intros r h p. destruct (Req_EM_T _ _) as [E|E]; auto. exfalso; apply Ha; lra. }
      db; auto; try apply Rgt_not_eq, rpow_pos; rewrite ?(Rplus_comm (b ^ 2)); auto; apply Rgt_not_eq, sqrt_lt_R0; auto.
Qed.
Lemma Pl_diff b : b <> 0 -> AxiDiff DAll (Pl_ev b) (Pl_Rf b) (Pl_zf b).
Proof.
  intros Hb R z _. assert (Hp : 0 < R ^ 2 + z ^ 2 + b ^ 2) by (pose proof (sq_pos b Hb); nra).
  splits; intros phi; unfold Pl_ev, Pl_Rf, Pl_zf, Pl_dPhidrr, Pl_b2; db; auto. apply Rgt_not_eq, sqrt_lt_R0; auto.
Qed.
Lemma Iso_diff b : 0 < b -> AxiDiff DAll (Iso_ev b) (Iso_Rf b) (Iso_zf b).
Proof.
  intros Hb R z _. assert (Hp : 0 < R ^ 2 + z ^ 2 + b ^ 2) by nra. pose proof (sqrt_lt_R0 _ Hp).
  splits; intros phi; unfold Iso_ev, Iso_Rf, Iso_zf, Iso_dPhidrr, Iso_rb; db; auto; try lra; apply pow_nonzero; lra.
Qed.
Lemma Kz_diff a : 0 <= a -> AxiDiff DKz (Kz_ev a) (Kz_Rf a) (Kz_zf a).
Proof.
  intros Ha R z Hz. unfold DKz in Hz.
  assert (Ea : Diffble (fun (r h q : RR) => Rabs h) R z 0).
  { apply (db_comp Rabs (fun r h q => h)); [|apply db_z]. auto_derive; auto. }
  assert (Hab : forall phi, Diffble (fun (r h q : RR) => Rabs h) R z phi).
  { intros phi. apply (db_comp Rabs (fun r h q => h)); [|apply db_z]. auto_derive; auto. }
  pose proof (Kz_pos a Ha R z Hz) as Hp. unfold Kz_den in Hp.
  assert (Hden : forall phi, Diffble (fun (r h q : RR) => r ^ 2 + (a + Rabs h) ^ 2) R z phi) by (intros; db; auto).
  assert (Hs : forall phi, Diffble (fun (r h q : RR) => rsign h) R z phi).
  { intros phi. destruct (Rdichotomy _ _ Hz) as [L|G].
    - eapply db_near with (P := fun r h q => h < 0) (f := fun _ _ _ => -1).
      + apply (near_cont (fun r h q => h) R z phi (fun v => v < 0)). db. apply locally_lt; auto.
      + intros r h p Hh. unfold rsign. destruct (Rlt_dec 0 h); [lra|]. destruct (Rlt_dec h 0); [auto|lra].
      + apply db_const.
    - eapply db_near with (P := fun r h q => 0 < h) (f := fun _ _ _ => 1).
      + apply (near_cont (fun r h q => h) R z phi (fun v => 0 < v)). db. apply locally_pos; auto.
      + intros r h p Hh. unfold rsign. destruct (Rlt_dec 0 h); [auto|lra].
      + apply db_const. }
  splits; intros phi; unfold Kz_ev, Kz_Rf, Kz_zf, Kz_den; db; auto.
Qed.
Lemma FP_diff alpha q2 core2 : 0 < q2 -> AxiDiff (DFP q2 core2) (FP_ev alpha q2 core2) (FP_Rf alpha q2 core2) (FP_zf alpha q2 core2).
Proof.
  intros Hq R z HD. unfold DFP in HD. assert (Hd : 0 < R ^ 2 + z ^ 2 / q2 + core2) by lra.
  splits; intros phi; unfold FP_ev, FP_Rf, FP_zf, FP_is0, FP_d, FP_m2; destruct (Req_EM_T alpha 0); db; auto; lra.
Qed.
Lemma HS_diff Rs : 0 < Rs -> AxiDiff (DHS Rs) (HS_ev Rs) (HS_Rf Rs) (HS_zf Rs).
Proof.
  intros Hs R z HD. 
  assert (G : forall (f g : RR -> RR -> RR -> RR) phi, (R ^ 2 + z ^ 2 < Rs ^ 2 -> Diffble f R z phi) -> (Rs ^ 2 < R ^ 2 + z ^ 2 -> Diffble g R z phi) ->
     Diffble (fun r h q => if HS_in Rs r h then f r h q else g r h q) R z phi).
  { intros f g phi Hf Hg. destruct (HS_dec Rs R z HD) as [L|L].
    - eapply db_near with (P := fun r h q => r ^ 2 + h ^ 2 < Rs ^ 2); [| |apply Hf; auto].
      + apply (near_cont (fun r h q => r ^ 2 + h ^ 2) R z phi (fun v => v < Rs ^ 2)). db. apply locally_lt; auto.
      + intros r h q Hl. unfold HS_in. destruct (Rlt_dec _ _); [auto|lra].
    - eapply db_near with (P := fun r h q => Rs ^ 2 < r ^ 2 + h ^ 2); [| |apply Hg; auto].
      + apply (near_cont (fun r h q => r ^ 2 + h ^ 2) R z phi (fun v => Rs ^ 2 < v)). db. apply locally_gt; auto.
      + intros r h q Hl. unfold HS_in. destruct (Rlt_dec _ _); [lra|auto]. }
  splits; intros phi; unfold HS_ev, HS_Rf, HS_zf; (eapply (G (fun r h q => _) (fun r h q => _)); intros L; db; try apply Rgt_not_eq, rpow_pos; try nra).
  apply Rgt_not_eq, sqrt_lt_R0; nra.
Qed.

(** radial functions of the SphericalPotential class *)
Lemma sph_classdiff rev rf r2d rdens (Dr : RR -> RR -> Prop) :
  (forall r t, Dr r t -> 0 < r) ->
  (forall r t, Dr r t -> is_derive (fun x => rev x t) r (- rf r t)) ->
  (forall r t, Dr r t -> is_derive (fun x => - rf x t) r (r2d r t)) ->
  ClassDiff (DSph Dr) (Spherical rev rf r2d rdens).
Proof.
  intros Hp H1 H2 R z phi t (HO & HD). specialize (Hp _ _ HD). specialize (H1 _ _ HD). specialize (H2 _ _ HD).
  apply is_derive_flip1 in H2. simpl. unfold Sph_r. splits.
  - apply (db_comp (fun x => rev x t)); [eexists; eauto|apply db_radius; auto].
  - apply db_div; [lra| |apply db_radius; auto]. apply db_mult; [|apply db_R].
    apply (db_comp (fun x => rf x t)); [eexists; eauto|apply db_radius; auto].
  - apply db_div; [lra| |apply db_radius; auto]. apply db_mult; [|apply db_z].
    apply (db_comp (fun x => rf x t)); [eexists; eauto|apply db_radius; auto].
  - discriminate.
Qed.

Lemma LH_diff core2 q b : q <> 0 -> ClassDiff (DLH core2 q b) (LogarithmicHalo core2 q b).
Proof.
  intros Hq R z phi t HD. unfold DLH in HD. simpl. unfold LH_ev, LH_Rf, LH_zf, LH_pt, LH_nonaxi.
  destruct b as [bb|].
  - destruct HD as (HR & Hm). unfold LH_m, LH_Rt2 in *. set (e := LH_1m1overb2 (Some bb)) in *. clearbody e.
    splits; [| | |intros F E; inversion E; subst]; db; auto; try lra; apply pow_nonzero; auto.
  - unfold LH_ma in *. 
    splits; [| | |intros F E; inversion E; subst]; db; auto; try lra; apply pow_nonzero; auto.
Qed.

Lemma classdiff_mono (D E : Dom) c : (forall R z phi t, E R z phi t -> D R z phi t) -> ClassDiff D c -> ClassDiff E c.
Proof. intros H Hd R z phi t HE. apply Hd; auto. Qed.

Lemma catalog_single_diff D c : CatalogSingle D c -> ClassDiff D c.
Proof.
  intros H; destruct H.
  - apply (axi_diff (DMN a b)). apply MN_diff; auto.
  - apply (axi_diff DAll). apply Pl_diff; auto.
  - apply (axi_diff DAll). apply Iso_diff; auto.
  - apply (axi_diff DKz). apply Kz_diff; auto.
  - apply (axi_diff DOrigin). eapply spherical_diff; eauto using PI_force, PI_hess. sphsym.
  - apply (axi_diff (DHS Rs)). apply HS_diff; auto.
  - apply (axi_diff (DFP q2 core2)). apply FP_diff; auto.
  - apply (axi_diff DOrigin). eapply spherical_diff; eauto using PS_force, PS_hess. sphsym.
  - apply (axi_diff DOrigin). eapply spherical_diff; eauto using PS_force, PS_hess. sphsym.
  - apply (axi_diff DOrigin). eapply spherical_diff; eauto using De_force, De_hess. sphsym.
  - apply (axi_diff DOrigin). eapply spherical_diff; eauto using DC_force, DC_hess. sphsym.
  - apply (axi_diff DOrigin). eapply spherical_diff; eauto using He_force, He_hess. sphsym.
  - apply (axi_diff DOrigin). eapply spherical_diff; eauto using Ja_force, Ja_hess. sphsym.
  - apply (axi_diff DOrigin). eapply spherical_diff; eauto using NFW_force, NFW_hess. sphsym.
  - apply (classdiff_mono (DSph Dpos)).
    + intros R z phi t Hd. split; auto. unfold Dpos. apply sqrt_lt_R0, DO_pos, Hd.
    + apply sph_classdiff; unfold Dpos; intros; auto using Bu_ev_d, Bu_rf_d.
  - apply (classdiff_mono (DSph (DShell a))).
    + intros R z phi t (Hd & Hne). split; auto. split; auto. apply sqrt_lt_R0, DO_pos, Hd.
    + apply sph_classdiff; auto using SS_ev_d, SS_rf_d. intros r t []; auto.
  - apply (LH_diff core2 q None); auto.
  - apply (LH_diff core2 q (Some b)); auto.
Qed.

Lemma catalog_smooth D p : Catalog D p -> smooth D p.
Proof.
  induction 1.
  - apply class_smooth. apply (catalog_single_full _ _ H). apply catalog_single_diff; auto.
  - eapply smooth_mono; eauto.
  - apply comp_smooth. intros q Hq. split; auto. eapply catalog_not_diss; eauto.
Qed.
