(** The class EllipsoidalPotential: forces, second derivatives and density. *)
From Coq Require Import Reals Lra Psatz List.
From Coquelicot Require Import Coquelicot.
From Verif.Lib Require Import RealAux Vec3.
From Verif.Model Require Import PotAPI Coords PotEllipsoidal.
From Verif.Spec Require Import PotSpec PotApiSpec EllipsoidalSpec.
From Verif.Proofs Require Import PotLift NonAxiProofs CatalogProofs EOMProofs StaeckelProofs SpiralProofs EllProofs EllLaws EllCyl.
Import ListNotations.
Open Scope R_scope.
Notation RR := RbaseSymbolsImpl.R (only parsing).
Ltac rr := match goal with |- ?a = ?b => change (@eq RR a b) end.

(** The rotation is orthogonal, and an aligned instance that passes for axisymmetric is axisymmetric. *)
Definition frame_ok (e : Ell) : Prop :=
  match e_rot e with
  | Some m => orthogonal m
  | None => e_b e = 1 \/ 1 / 10 ^ 10 < Rabs (e_b e - 1)
  end.
Definition frame (e : Ell) : M3 := match e_rot e with Some m => m | None => eye end.
Lemma eye_orth : orthogonal (transp eye).
Proof. unfold orthogonal. vring. Qed.
Lemma frame_orth e : frame_ok e -> orthogonal (transp (frame e)).
Proof. unfold frame_ok, frame. destruct (e_rot e); [apply ortho_transp|]. intros _. apply eye_orth. Qed.
Lemma frame_body e p : ell_body e p = mulMV (frame e) p.
Proof. unfold ell_body, frame. destruct (e_rot e); [reflexivity|]. symmetry. apply mulMV_eye. Qed.
Lemma xyz_eq R z phi : ell_xyz R z phi = mkV (R * cos phi) (R * sin phi) z.
Proof. reflexivity. Qed.
Lemma body_pt e R z phi : ell_body e (ell_xyz R z phi) = pt (frame e) R z phi.
Proof. rewrite frame_body, xyz_eq. reflexivity. Qed.
Lemma dot_scal_r k a b : vdot a (vscal k b) = k * vdot a b.
Proof. vring. Qed.
Lemma forces_dot e R z phi a : vdot a (ell_forces e (ell_xyz R z phi)) = - (4 * PI * e_b e * e_c e) * vdot (mulMV (frame e) a) (fI e (pt (frame e) R z phi)).
Proof.
  unfold ell_forces. cbv zeta. rewrite body_pt. fold (fI e (pt (frame e) R z phi)). set (w := fI e (pt (frame e) R z phi)).
  replace (- 4 * PI * e_b e * e_c e) with (- (4 * PI * e_b e * e_c e)) by ring.
  unfold frame. destruct (e_rot e) as [m|].
  - rewrite <- vdot_transp, dot_scal_r. reflexivity.
  - rewrite mulMV_eye, dot_scal_r. reflexivity.
Qed.
Section Class.
  Variable e : Ell.
  Notation M := (frame e).
  Lemma ev_g R z phi t : ell_ev e R z phi t = gev e M R z (ell_phi e phi).
  Proof. unfold ell_ev. cbv zeta. rewrite body_pt. reflexivity. Qed.
  Lemma Rf_g R z phi t : ell_Rf e R z phi t = gRf e M R z (ell_phi e phi).
  Proof.
    unfold ell_Rf, gRf. cbv zeta. set (f := ell_phi e phi). unfold er. rewrite <- forces_dot. unfold vdot. cbn [vx vy vz]. rr. ring.
  Qed.
  Lemma zf_g R z phi t : ell_zf e R z phi t = gzf e M R z (ell_phi e phi).
  Proof. unfold ell_zf, gzf. set (f := ell_phi e phi). unfold ez. rewrite <- forces_dot. unfold vdot. cbn [vx vy vz]. rr. ring. Qed.
  Lemma pt_g R z phi t : ell_pt e R z phi t = gpt e M R z (ell_phi e phi).
  Proof.
    unfold ell_pt, gpt. cbv zeta. set (f := ell_phi e phi). unfold ep.
    replace (- (4 * PI * e_b e * e_c e) * R * vdot (mulMV M (mkV (- sin f) (cos f) 0)) (fI e (pt M R z f)))
      with (R * (- (4 * PI * e_b e * e_c e) * vdot (mulMV M (mkV (- sin f) (cos f) 0)) (fI e (pt M R z f)))) by ring.
    rewrite <- forces_dot. unfold vdot. cbn [vx vy vz]. rr. ring.
  Qed.
  Hypothesis Al : e_rot e = None.
  Lemma Meye : M = eye. Proof. unfold frame. rewrite Al. reflexivity. Qed.
  Lemma pt_eye R z phi : pt M R z phi = ell_xyz R z phi.
  Proof. rewrite Meye. unfold pt. rewrite mulMV_eye. reflexivity. Qed.
  Ltac hs := unfold ell_2nd; cbv zeta; unfold hI, er, ep, ez; rewrite Meye, ?mulMV_eye, <- Meye, ?pt_eye; cbn [vx vy vz]; cbv zeta; rr; try ring.
  Lemma R2_g R z phi t : ell_R2 e R z phi t = gR2 e M R z (ell_phi e phi).
  Proof. unfold ell_R2, gR2. hs. Qed.
  Lemma z2_g R z phi t : ell_z2 e R z phi t = gz2 e M R z (ell_phi e phi).
  Proof. unfold ell_z2, gz2. hs. Qed.
  Lemma Rz_g R z phi t : ell_Rz e R z phi t = gRz e M R z (ell_phi e phi).
  Proof. unfold ell_Rz, gRz. hs. Qed.
  Lemma pz_g R z phi t : ell_pz e R z phi t = gpz e M R z (ell_phi e phi).
  Proof. unfold ell_pz, gpz. hs. Qed.
  Lemma p2_g R z phi t : ell_p2 e R z phi t = gp2 e M R z (ell_phi e phi).
  Proof. unfold ell_p2, gp2. rewrite <- (Rf_g R z phi t). unfold ell_Rf. hs. Qed.
  Lemma Rp_g R z phi t : ell_Rp e R z phi t = gRp e M R z (ell_phi e phi).
  Proof.
    unfold ell_Rp, gRp. cbv zeta. set (f := ell_phi e phi).
    replace (4 * PI * e_b e * e_c e * vdot (ep M f) (fI e (pt M R z f))) with (- (- (4 * PI * e_b e * e_c e) * vdot (ep M f) (fI e (pt M R z f)))) by ring.
    unfold ep at 2. rewrite <- forces_dot. rewrite cos_2a. unfold vdot; cbn [vx vy vz]. hs.
  Qed.
End Class.

Lemma off_open_c : slice_open off_centre.
Proof.
  intros R z phi t H. unfold off_centre in *.
  assert (G : forall f : RR -> RR, continuous f R -> f R <> 0 -> locally R (fun x => f x <> 0)) by (intros f C N; exact (C _ (open_neq 0 _ N))).
  assert (G' : forall f : RR -> RR, continuous f z -> f z <> 0 -> locally z (fun x => f x <> 0)) by (intros f C N; exact (C _ (open_neq 0 _ N))).
  split; [|split].
  - apply (G (fun x => x ^ 2 + z ^ 2)); [|exact H]. apply (ex_derive_continuous (V := R_NormedModule)). auto_derive. exact I.
  - apply (G' (fun x => R ^ 2 + x ^ 2)); [|exact H]. apply (ex_derive_continuous (V := R_NormedModule)). auto_derive. exact I.
  - apply filter_forall. intros _. exact H.
Qed.
Section Axi.
  Variable e : Ell.
  Hypothesis L : ell_laws e.
  Hypothesis Al : e_rot e = None.
  Hypothesis B1 : e_b e = 1.
  Notation M := (frame e).
  Let HM : orthogonal (transp M).
  Proof. rewrite (Meye e Al). apply eye_orth. Qed.
  Lemma axi_ev R z phi : gev e M R z phi = gev e M R z 0.
  Proof.
    unfold gev, PB. rewrite !(pt_eye e Al), !xyz_eq. cbn [vx vy vz]. f_equal. unfold ell_potInt. f_equal.
    apply FunctionalExtensionality.functional_extensionality. intros s. f_equal. f_equal. unfold ell_m. f_equal.
    assert (E : ell_ib e s = ell_i1 s) by (unfold ell_ib, ell_i1; rewrite B1; f_equal; ring). rewrite E, cos_0, sin_0.
    pose proof (sin2_cos2 phi) as T. unfold Rsqr in T.
    transitivity (R ^ 2 * (sin phi * sin phi + cos phi * cos phi) * ell_i1 s + z ^ 2 * ell_ic e s); [ring|rewrite T; ring].
  Qed.
  Lemma d_const_on (f : RR -> RR) (k x d : RR) : (forall v, f v = k) -> is_derive f x d -> d = 0.
  Proof.
    intros H D. rewrite <- (is_derive_unique _ _ _ D). apply is_derive_unique. apply (is_derive_ext (fun _ => k)); [intros; symmetry; apply H|apply is_derive_cst].
  Qed.
  Lemma axi_pt R z phi : R ^ 2 + z ^ 2 <> 0 -> gpt e M R z phi = 0.
  Proof.
    intros H. pose proof (d_const_on _ (gev e M R z 0) phi _ (fun v => axi_ev R z v) (g_p e L M HM R z phi H)). lra.
  Qed.
  Lemma d_loc0 (f : RR -> RR) (x d : RR) : locally x (fun v => f v = 0) -> is_derive f x d -> d = 0.
  Proof.
    intros H D. rewrite <- (is_derive_unique _ _ _ D). apply is_derive_unique. apply (is_derive_ext_loc (fun _ => 0)); [|apply is_derive_cst].
    revert H. apply filter_imp. intros v E. symmetry. exact E.
  Qed.
  Lemma axi_p2 R z phi : R ^ 2 + z ^ 2 <> 0 -> gp2 e M R z phi = 0.
  Proof.
    intros H. apply (d_loc0 (fun x => - gpt e M R z x) phi); [|apply (gd_p2 e L M HM R z phi H)].
    apply filter_forall. intros x. rewrite axi_pt by exact H. ring.
  Qed.
  Lemma axi_Rp R z phi : R ^ 2 + z ^ 2 <> 0 -> gRp e M R z phi = 0.
  Proof.
    intros H. apply (d_loc0 (fun x => - gpt e M x z phi) R); [|apply (gd_pR e L M HM R z phi H)].
    destruct (off_open_c R z phi 0 H) as (A & _). revert A. apply filter_imp. intros x Hx. rewrite axi_pt by exact Hx. ring.
  Qed.
  Lemma axi_pz R z phi : R ^ 2 + z ^ 2 <> 0 -> gpz e M R z phi = 0.
  Proof.
    intros H. apply (d_loc0 (fun x => - gpt e M R x phi) z); [|apply (gd_pz e L M HM R z phi H)].
    destruct (off_open_c R z phi 0 H) as (_ & A & _). revert A. apply filter_imp. intros x Hx. rewrite axi_pt by exact Hx. ring.
  Qed.
End Axi.

Lemma frame_cases e : frame_ok e -> (forall phi, ell_phi e phi = phi) \/ (e_rot e = None /\ e_b e = 1 /\ forall phi, ell_phi e phi = 0).
Proof.
  unfold frame_ok, ell_phi, ell_nonaxi. destruct (e_rot e); [left; reflexivity|]. destruct (Rlt_dec _ _); [left; reflexivity|]. intros [H|H]; [|contradiction].
  right. splits; auto.
Qed.
Section Assemble.
  Variable e : Ell.
  Hypothesis L : ell_laws e.
  Hypothesis Hf : frame_ok e.
  Notation M := (frame e).
  Let HM := frame_orth e Hf.
  Ltac ext P F := apply (is_derive_ext F); [intros v; cbv beta; rewrite ?ev_g, ?pt_g, ?Rf_g, ?zf_g, ?P; reflexivity|].
  Lemma class_force : is_force_field off_centre (ell_ev e) (ell_Rf e) (ell_zf e) (ell_pt e).
  Proof.
    intros R z phi t H. rewrite Rf_g, zf_g, pt_g. destruct (frame_cases e Hf) as [P|(Al & B1 & P)]; rewrite !P; splits.
    - ext P (fun x => gev e M x z phi). apply g_R; assumption.
    - ext P (fun x => gev e M R x phi). apply g_z; assumption.
    - ext P (fun x => gev e M R z x). apply g_p; assumption.
    - ext P (fun x => gev e M x z 0). apply g_R; assumption.
    - ext P (fun x => gev e M R x 0). apply g_z; assumption.
    - rewrite axi_pt by assumption. rewrite Ropp_0. ext P (fun _ : RR => gev e M R z 0). apply is_derive_cst.
  Qed.
  (** Second derivatives, also where the class does not provide them. *)
  Definition vR2 : F4 := fun R z phi t => gR2 e M R z (ell_phi e phi).
  Definition vz2 : F4 := fun R z phi t => gz2 e M R z (ell_phi e phi).
  Definition vRz : F4 := fun R z phi t => gRz e M R z (ell_phi e phi).
  Definition vp2 : F4 := fun R z phi t => gp2 e M R z (ell_phi e phi).
  Definition vRp : F4 := fun R z phi t => gRp e M R z (ell_phi e phi).
  Definition vpz : F4 := fun R z phi t => gpz e M R z (ell_phi e phi).
  Lemma virt_mer : is_meridional_hessian off_centre (ell_Rf e) (ell_zf e) vR2 vz2 vRz.
  Proof.
    intros R z phi t H. unfold vR2, vz2, vRz. splits.
    - ext Rf_g (fun x => - gRf e M x z (ell_phi e phi)). apply gd_R2; assumption.
    - ext zf_g (fun x => - gzf e M R x (ell_phi e phi)). apply gd_z2; assumption.
    - ext Rf_g (fun x => - gRf e M R x (ell_phi e phi)). apply gd_Rz; assumption.
    - ext zf_g (fun x => - gzf e M x z (ell_phi e phi)). apply gd_zR; assumption.
  Qed.
  Lemma virt_azi : is_azimuthal_hessian off_centre (ell_Rf e) (ell_zf e) (ell_pt e) vp2 vRp vpz.
  Proof.
    intros R z phi t H. unfold vp2, vRp, vpz. destruct (frame_cases e Hf) as [P|(Al & B1 & P)]; rewrite !P; splits.
    - ext P (fun x => - gpt e M R z x). apply gd_p2; assumption.
    - ext P (fun x => - gRf e M R z x). apply gd_Rp; assumption.
    - ext P (fun x => - gpt e M x z phi). apply gd_pR; assumption.
    - ext P (fun x => - gzf e M R z x). apply gd_zp; assumption.
    - ext P (fun x => - gpt e M R x phi). apply gd_pz; assumption.
    - rewrite axi_p2 by assumption. ext P (fun _ : RR => - gpt e M R z 0). apply is_derive_cst.
    - rewrite axi_Rp by assumption. ext P (fun _ : RR => - gRf e M R z 0). apply is_derive_cst.
    - ext P (fun x => - gpt e M x z 0). apply gd_pR; assumption.
    - rewrite axi_pz by assumption. ext P (fun _ : RR => - gzf e M R z 0). apply is_derive_cst.
    - ext P (fun x => - gpt e M R x 0). apply gd_pz; assumption.
  Qed.
  Lemma fun4_ext (f g : F4) : (forall R z phi t, f R z phi t = g R z phi t) -> f = g.
  Proof. intros H. do 4 (apply FunctionalExtensionality.functional_extensionality; intro). apply H. Qed.
  Lemma ell_class_forces amp : forces_are_gradient off_centre (Single amp (EllipsoidalC e)).
  Proof. apply class_forces with (Fp := ell_pt e); [left; reflexivity|]. exact class_force. Qed.
  Lemma ell_class_hess amp : e_rot e = None -> hessian_is_correct off_centre (Single amp (EllipsoidalC e)).
  Proof.
    intros Al. apply class_hess with (a := ell_R2 e) (b := ell_z2 e) (e := ell_Rz e); try (cbn; unfold ell_aligned_only; rewrite Al; reflexivity).
    replace (ell_R2 e) with vR2 by (apply fun4_ext; intros; symmetry; apply R2_g; exact Al).
    replace (ell_z2 e) with vz2 by (apply fun4_ext; intros; symmetry; apply z2_g; exact Al).
    replace (ell_Rz e) with vRz by (apply fun4_ext; intros; symmetry; apply Rz_g; exact Al).
    exact virt_mer.
  Qed.
  Lemma ell_class_azi amp : e_rot e = None -> azimuthal_hessian_is_correct off_centre (Single amp (EllipsoidalC e)).
  Proof.
    intros Al. apply class_azi; cbn; unfold ell_aligned_only; rewrite Al; [intros; repeat split; discriminate|]. cbn [or0].
    replace (ell_p2 e) with vp2 by (apply fun4_ext; intros; symmetry; apply p2_g; exact Al).
    replace (ell_Rp e) with vRp by (apply fun4_ext; intros; symmetry; apply Rp_g; exact Al).
    replace (ell_pz e) with vpz by (apply fun4_ext; intros; symmetry; apply pz_g; exact Al).
    exact virt_azi.
  Qed.
  Lemma ell_class_poisson amp : e_rot e = None -> poisson_density_is_source off_centre (Single amp (EllipsoidalC e)).
  Proof. intros Al. apply poisson_density; [exact off_open_c|apply ell_class_forces|apply ell_class_hess; exact Al|apply ell_class_azi; exact Al]. Qed.
End Assemble.
