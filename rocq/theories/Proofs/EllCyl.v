(** From the laws along curves to the cylindrical forces and second derivatives. *)
From Coq Require Import Reals Lra Psatz List.
From Coquelicot Require Import Coquelicot.
From Verif.Lib Require Import RealAux Vec3.
From Verif.Model Require Import PotAPI Coords PotEllipsoidal.
From Verif.Spec Require Import PotSpec PotApiSpec EllipsoidalSpec.
From Verif.Proofs Require Import PotLift NonAxiProofs CatalogProofs EOMProofs StaeckelProofs KuzminKutuzovProofs SpiralProofs EllProofs EllLaws.
Import ListNotations.
Open Scope R_scope.
Notation RR := RbaseSymbolsImpl.R (only parsing).
Ltac rr := match goal with |- ?a = ?b => change (@eq RR a b) end.

Lemma mulMV_zero m : mulMV m vzero = vzero. Proof. vring. Qed.
Section Cyl.
  Variable e : Ell.
  Hypothesis L : ell_laws e.
  Variable M : M3.
  Hypothesis Hrot : e_rot e = Some M \/ (e_rot e = None /\ M = eye).
  Hypothesis HM : orthogonal (transp M).
  Notation K := (4 * PI * e_b e * e_c e).

  Definition PB (q : V3) : RR := 2 * PI * e_b e * e_c e * ell_potInt e (vx q) (vy q) (vz q).
  Definition fI (q : V3) : V3 := let x := vx q in let y := vy q in let z := vz q in
    mkV (ell_forceInt e x y z x ell_i1) (ell_forceInt e x y z y (ell_ib e)) (ell_forceInt e x y z z (ell_ic e)).
  Definition hI (q a d : V3) : RR := let x := vx q in let y := vy q in let z := vz q in
    let H := ell_2ndInt e x y z in
    let xx := H x ell_i1 x ell_i1 true in let xy := H x ell_i1 y (ell_ib e) false in let xz := H x ell_i1 z (ell_ic e) false in
    let yy := H y (ell_ib e) y (ell_ib e) true in let yz := H y (ell_ib e) z (ell_ic e) false in let zz := H z (ell_ic e) z (ell_ic e) true in
    vx a * (xx * vx d + xy * vy d + xz * vz d) + vy a * (xy * vx d + yy * vy d + yz * vz d) + vz a * (xz * vx d + yz * vy d + zz * vz d).
  Definition off_v (q : V3) : Prop := off3 (vx q) (vy q) (vz q).
  Definition vsmooth (q dq : RR -> V3) : Prop :=
    smooth (fun v => vx (q v)) (fun v => vx (dq v)) /\ smooth (fun v => vy (q v)) (fun v => vy (dq v)) /\ smooth (fun v => vz (q v)) (fun v => vz (dq v)).

  Lemma d_PB q dq u : vsmooth q dq -> off_v (q u) -> is_derive (fun v => PB (q v)) u (K * vdot (fI (q u)) (dq u)).
  Proof.
    intros (S1 & S2 & S3) Ho. destruct (L _ _ _ _ _ _ S1 S2 S3 u Ho) as (A & _). unfold PB, fI, vdot. cbn [vx vy vz].
    refine (is_derive_eq _ _ _ _ _ _); [dv|]. cbv beta. rr. ring.
  Qed.
  Lemma d_fI q dq u : vsmooth q dq -> off_v (q u) -> forall a : V3, is_derive (fun v => vdot a (fI (q v))) u (hI (q u) a (dq u)).
  Proof.
    intros (S1 & S2 & S3) Ho a. destruct (L _ _ _ _ _ _ S1 S2 S3 u Ho) as (_ & A & B & C). unfold fI, hI, vdot. cbn [vx vy vz]. cbv zeta in *.
    refine (is_derive_eq _ _ _ _ _ _); [dv|]. cbv beta. rr. ring.
  Qed.
  Lemma hI_sym q a d : hI q a d = hI q d a.
  Proof. unfold hI. cbv zeta. rr. ring. Qed.

  (** The point and the unit vectors in the body frame. *)
  Definition er phi : V3 := mulMV M (mkV (cos phi) (sin phi) 0).
  Definition ep phi : V3 := mulMV M (mkV (- sin phi) (cos phi) 0).
  Definition ez : V3 := mulMV M (mkV 0 0 1).
  Definition pt (R z phi : RR) : V3 := mulMV M (mkV (R * cos phi) (R * sin phi) z).

  Definition gev (R z phi : RR) : RR := PB (pt R z phi).
  Definition gRf (R z phi : RR) : RR := - K * vdot (er phi) (fI (pt R z phi)).
  Definition gzf (R z phi : RR) : RR := - K * vdot ez (fI (pt R z phi)).
  Definition gpt (R z phi : RR) : RR := - K * R * vdot (ep phi) (fI (pt R z phi)).
  Definition gR2 (R z phi : RR) : RR := K * hI (pt R z phi) (er phi) (er phi).
  Definition gz2 (R z phi : RR) : RR := K * hI (pt R z phi) ez ez.
  Definition gRz (R z phi : RR) : RR := K * hI (pt R z phi) (er phi) ez.
  Definition gp2 (R z phi : RR) : RR := R ^ 2 * (K * hI (pt R z phi) (ep phi) (ep phi)) + R * gRf R z phi.
  Definition gRp (R z phi : RR) : RR := R * (K * hI (pt R z phi) (er phi) (ep phi)) + K * vdot (ep phi) (fI (pt R z phi)).
  Definition gpz (R z phi : RR) : RR := R * (K * hI (pt R z phi) (ep phi) ez).

  Lemma smooth_comb (a b c : RR) F dF G dG H dH : smooth F dF -> smooth G dG -> smooth H dH ->
    smooth (fun v => a * F v + b * G v + c * H v) (fun v => a * dF v + b * dG v + c * dH v).
  Proof.
    intros (A1 & A2) (B1 & B2) (C1 & C2). split; intros v.
    - pose proof (A1 v) as D1. pose proof (B1 v) as D2. pose proof (C1 v) as D3. refine (is_derive_eq _ _ _ _ _ _); [dv|]. cbv beta. rr. ring.
    - assert (T : forall (k : RR) (f : RR -> RR), continuous f v -> continuous (fun w => k * f w) v) by (intros k f Hf; apply (continuous_mult (fun _ => k) f); [apply continuous_const|exact Hf]).
      apply (continuous_plus (fun w => a * dF w + b * dG w) (fun w => c * dH w)); [|apply T; apply C2].
      apply (continuous_plus (fun w => a * dF w) (fun w => b * dG w)); apply T; [apply A2|apply B2].
  Qed.
  Lemma vsmooth_M F dF G dG H dH : smooth F dF -> smooth G dG -> smooth H dH ->
    vsmooth (fun v => mulMV M (mkV (F v) (G v) (H v))) (fun v => mulMV M (mkV (dF v) (dG v) (dH v))).
  Proof. intros A B C. unfold vsmooth, mulMV, vdot. cbn [vx vy vz]. split; [|split]; apply smooth_comb; assumption. Qed.
  Lemma smooth_c k : smooth (fun _ => k) (fun _ => 0).
  Proof. split; intros v; [apply is_derive_cst|apply continuous_const]. Qed.
  Lemma smooth_k k : smooth (fun v => v * k) (fun _ => k).
  Proof.
    split; intros v; [|apply continuous_const]. assert (D : is_derive (fun x : RR => x) v 1) by apply d_id.
    refine (is_derive_eq _ _ _ _ _ _); [dv|]. cbv beta. rr. ring.
  Qed.
  Lemma smooth_id : smooth (fun v => v) (fun _ => 1).
  Proof. split; intros v; [apply d_id|apply continuous_const]. Qed.
  Lemma cont_cos v : continuous cos v. Proof. apply continuity_pt_filterlim. apply continuity_cos. Qed.
  Lemma cont_sin v : continuous sin v. Proof. apply continuity_pt_filterlim. apply continuity_sin. Qed.
  Lemma smooth_cos k : smooth (fun v => k * cos v) (fun v => k * - sin v).
  Proof.
    split; intros v.
    - assert (D : is_derive cos v (- sin v)) by (apply is_derive_Reals; apply derivable_pt_lim_cos).
      refine (is_derive_eq _ _ _ _ _ _); [dv|]. cbv beta. rr. ring.
    - apply (continuous_mult (K := R_AbsRing)); [apply continuous_const|]. apply (continuous_opp (V := R_NormedModule)). apply cont_sin.
  Qed.
  Lemma smooth_sin k : smooth (fun v => k * sin v) (fun v => k * cos v).
  Proof.
    split; intros v.
    - assert (D : is_derive sin v (cos v)) by (apply is_derive_Reals; apply derivable_pt_lim_sin).
      refine (is_derive_eq _ _ _ _ _ _); [dv|]. cbv beta. rr. ring.
    - apply (continuous_mult (K := R_AbsRing)); [apply continuous_const|]. apply cont_cos.
  Qed.
  Lemma cR z phi : vsmooth (fun R => pt R z phi) (fun _ => er phi).
  Proof. unfold pt, er. apply (vsmooth_M (fun R => R * cos phi) (fun _ => cos phi) (fun R => R * sin phi) (fun _ => sin phi) (fun _ => z) (fun _ => 0)); [apply smooth_k|apply smooth_k|apply smooth_c]. Qed.
  Lemma cz R phi : vsmooth (fun z => pt R z phi) (fun _ => ez).
  Proof. unfold pt, ez. apply (vsmooth_M (fun _ => R * cos phi) (fun _ => 0) (fun _ => R * sin phi) (fun _ => 0) (fun z => z) (fun _ => 1)); [apply smooth_c|apply smooth_c|apply smooth_id]. Qed.
  Lemma cp R z : vsmooth (fun phi => pt R z phi) (fun phi => vscal R (ep phi)).
  Proof.
    assert (E : (fun phi => vscal R (ep phi)) = (fun phi => mulMV M (mkV (R * - sin phi) (R * cos phi) 0))).
    { apply FunctionalExtensionality.functional_extensionality. intros phi. unfold ep. rewrite <- mulMV_scal. f_equal. unfold vscal; cbn [vx vy vz]. f_equal. ring. }
    rewrite E. unfold pt. apply (vsmooth_M (fun p => R * cos p) (fun p => R * - sin p) (fun p => R * sin p) (fun p => R * cos p) (fun _ => z) (fun _ => 0)); [apply smooth_cos|apply smooth_sin|apply smooth_c].
  Qed.
  Lemma off_pt R z phi : R ^ 2 + z ^ 2 <> 0 -> off_v (pt R z phi).
  Proof.
    intros H. unfold off_v, off3. destruct (Req_dec (vx (pt R z phi)) 0) as [Ex|]; [|left; assumption]. destruct (Req_dec (vy (pt R z phi)) 0) as [Ey|]; [|right; left; assumption].
    destruct (Req_dec (vz (pt R z phi)) 0) as [Ez|]; [|right; right; assumption]. exfalso.
    assert (E : pt R z phi = vzero) by (apply V3_ext; assumption).
    assert (E2 : mkV (R * cos phi) (R * sin phi) z = vzero).
    { rewrite <- (mulMV_eye (mkV _ _ _)). unfold orthogonal in HM. rewrite transp_transp in HM. rewrite <- HM, mulMV_assoc. change (mulMV M (mkV (R * cos phi) (R * sin phi) z)) with (pt R z phi). rewrite E. apply mulMV_zero. }
    injection E2 as A B C. pose proof (sin2_cos2 phi) as T. unfold Rsqr in T. apply H. rewrite C.
    replace (R ^ 2 + 0 ^ 2) with (R * cos phi * (R * cos phi) + R * sin phi * (R * sin phi)); [rewrite A, B; ring|].
    transitivity (R ^ 2 * (sin phi * sin phi + cos phi * cos phi)); [ring|rewrite T; ring].
  Qed.

  Section At.
    Variables R z phi : RR.
    Hypothesis H : R ^ 2 + z ^ 2 <> 0.
    Lemma g_R : is_derive (fun x => gev x z phi) R (- gRf R z phi).
    Proof. refine (is_derive_eq _ _ _ _ _ _); [apply (d_PB _ _ R (cR z phi) (off_pt R z phi H))|]. unfold gRf. rewrite vdot_comm. rr. ring. Qed.
    Lemma g_z : is_derive (fun x => gev R x phi) z (- gzf R z phi).
    Proof. refine (is_derive_eq _ _ _ _ _ _); [apply (d_PB _ _ z (cz R phi) (off_pt R z phi H))|]. unfold gzf. rewrite vdot_comm. rr. ring. Qed.
    Lemma g_p : is_derive (fun x => gev R z x) phi (- gpt R z phi).
    Proof. refine (is_derive_eq _ _ _ _ _ _); [apply (d_PB _ _ phi (cp R z) (off_pt R z phi H))|]. unfold gpt, vdot, vscal. cbn [vx vy vz]. rr. ring. Qed.
    Lemma d_er a : is_derive (fun x => vdot (er x) a) phi (vdot (ep phi) a).
    Proof.
      assert (D : is_derive cos phi (- sin phi)) by (apply is_derive_Reals; apply derivable_pt_lim_cos).
      assert (D' : is_derive sin phi (cos phi)) by (apply is_derive_Reals; apply derivable_pt_lim_sin).
      unfold er, ep, mulMV, vdot. cbn [vx vy vz]. refine (is_derive_eq _ _ _ _ _ _); [dv|]. cbv beta. rr. ring.
    Qed.
    Lemma along_R a : is_derive (fun x => vdot a (fI (pt x z phi))) R (hI (pt R z phi) a (er phi)).
    Proof. apply (d_fI (fun x => pt x z phi) (fun _ => er phi) R (cR z phi) (off_pt R z phi H)). Qed.
    Lemma along_z a : is_derive (fun x => vdot a (fI (pt R x phi))) z (hI (pt R z phi) a ez).
    Proof. apply (d_fI (fun x => pt R x phi) (fun _ => ez) z (cz R phi) (off_pt R z phi H)). Qed.
    Lemma along_p a : is_derive (fun x => vdot a (fI (pt R z x))) phi (R * hI (pt R z phi) a (ep phi)).
    Proof.
      refine (is_derive_eq _ _ _ _ _ _); [apply (d_fI (fun x => pt R z x) _ phi (cp R z) (off_pt R z phi H))|].
      unfold hI, vscal. cbn [vx vy vz]. rr. ring.
    Qed.
    Lemma gd_R2 : is_derive (fun x => - gRf x z phi) R (gR2 R z phi).
    Proof. unfold gRf, gR2. pose proof (along_R (er phi)) as D. refine (is_derive_eq _ _ _ _ _ _); [dv|]. cbv beta. rr. ring. Qed.
    Lemma gd_z2 : is_derive (fun x => - gzf R x phi) z (gz2 R z phi).
    Proof. unfold gzf, gz2. pose proof (along_z ez) as D. refine (is_derive_eq _ _ _ _ _ _); [dv|]. cbv beta. rr. ring. Qed.
    Lemma gd_Rz : is_derive (fun x => - gRf R x phi) z (gRz R z phi).
    Proof. unfold gRf, gRz. pose proof (along_z (er phi)) as D. refine (is_derive_eq _ _ _ _ _ _); [dv|]. cbv beta. rr. ring. Qed.
    Lemma gd_zR : is_derive (fun x => - gzf x z phi) R (gRz R z phi).
    Proof. unfold gzf, gRz. rewrite (hI_sym _ (er phi)). pose proof (along_R ez) as D. refine (is_derive_eq _ _ _ _ _ _); [dv|]. cbv beta. rr. ring. Qed.
    Lemma gd_zp : is_derive (fun x => - gzf R z x) phi (gpz R z phi).
    Proof. unfold gzf, gpz. rewrite (hI_sym _ (ep phi)). pose proof (along_p ez) as D. refine (is_derive_eq _ _ _ _ _ _); [dv|]. cbv beta. rr. ring. Qed.
    Lemma gd_pz : is_derive (fun x => - gpt R x phi) z (gpz R z phi).
    Proof. unfold gpt, gpz. pose proof (along_z (ep phi)) as D. refine (is_derive_eq _ _ _ _ _ _); [dv|]. cbv beta. rr. ring. Qed.
    Lemma gd_pR : is_derive (fun x => - gpt x z phi) R (gRp R z phi).
    Proof.
      unfold gpt, gRp. rewrite (hI_sym _ (er phi)). pose proof (along_R (ep phi)) as D. assert (I : is_derive (fun x : RR => x) R 1) by apply d_id.
      refine (is_derive_eq _ _ _ _ _ _); [dv|]. cbv beta. rr. ring.
    Qed.
    Lemma d_comp (E dE : RR -> V3) : (forall a, is_derive (fun x => vdot (E x) a) phi (vdot (dE phi) a)) ->
      is_derive (fun x => vdot (E x) (fI (pt R z x))) phi (vdot (dE phi) (fI (pt R z phi)) + R * hI (pt R z phi) (E phi) (ep phi)).
    Proof.
      intros DE. unfold vdot at 1.
      pose proof (DE (mkV 1 0 0)) as X1. pose proof (DE (mkV 0 1 0)) as X2. pose proof (DE (mkV 0 0 1)) as X3. unfold vdot in X1, X2, X3. cbn [vx vy vz] in X1, X2, X3.
      assert (X1' : is_derive (fun x => vx (E x)) phi (vx (dE phi))) by (apply (is_derive_ext (fun x => vx (E x) * 1 + vy (E x) * 0 + vz (E x) * 0)); [intros; rr; ring|]; refine (is_derive_eq _ _ _ _ X1 _); rr; ring).
      assert (X2' : is_derive (fun x => vy (E x)) phi (vy (dE phi))) by (apply (is_derive_ext (fun x => vx (E x) * 0 + vy (E x) * 1 + vz (E x) * 0)); [intros; rr; ring|]; refine (is_derive_eq _ _ _ _ X2 _); rr; ring).
      assert (X3' : is_derive (fun x => vz (E x)) phi (vz (dE phi))) by (apply (is_derive_ext (fun x => vx (E x) * 0 + vy (E x) * 0 + vz (E x) * 1)); [intros; rr; ring|]; refine (is_derive_eq _ _ _ _ X3 _); rr; ring).
      pose proof (along_p (mkV 1 0 0)) as Y1. pose proof (along_p (mkV 0 1 0)) as Y2. pose proof (along_p (mkV 0 0 1)) as Y3. unfold vdot in Y1, Y2, Y3. cbn [vx vy vz] in Y1, Y2, Y3.
      assert (Y1' : is_derive (fun x => vx (fI (pt R z x))) phi (R * hI (pt R z phi) (mkV 1 0 0) (ep phi))) by (apply (is_derive_ext (fun x => 1 * vx (fI (pt R z x)) + 0 * vy (fI (pt R z x)) + 0 * vz (fI (pt R z x)))); [intros; rr; ring|exact Y1]).
      assert (Y2' : is_derive (fun x => vy (fI (pt R z x))) phi (R * hI (pt R z phi) (mkV 0 1 0) (ep phi))) by (apply (is_derive_ext (fun x => 0 * vx (fI (pt R z x)) + 1 * vy (fI (pt R z x)) + 0 * vz (fI (pt R z x)))); [intros; rr; ring|exact Y2]).
      assert (Y3' : is_derive (fun x => vz (fI (pt R z x))) phi (R * hI (pt R z phi) (mkV 0 0 1) (ep phi))) by (apply (is_derive_ext (fun x => 0 * vx (fI (pt R z x)) + 0 * vy (fI (pt R z x)) + 1 * vz (fI (pt R z x)))); [intros; rr; ring|exact Y3]).
      refine (is_derive_eq _ _ _ _ _ _); [dv|]. cbv beta. unfold hI, vdot. cbn [vx vy vz]. rr. ring.
    Qed.
    Lemma gd_Rp : is_derive (fun x => - gRf R z x) phi (gRp R z phi).
    Proof. unfold gRf, gRp. pose proof (d_comp er ep d_er) as D. refine (is_derive_eq _ _ _ _ _ _); [dv|]. cbv beta. rr. ring. Qed.
    Lemma d_ep a : is_derive (fun x => vdot (ep x) a) phi (vdot (vopp (er phi)) a).
    Proof.
      assert (D : is_derive cos phi (- sin phi)) by (apply is_derive_Reals; apply derivable_pt_lim_cos).
      assert (D' : is_derive sin phi (cos phi)) by (apply is_derive_Reals; apply derivable_pt_lim_sin).
      unfold er, ep, vopp, mulMV, vdot. cbn [vx vy vz]. refine (is_derive_eq _ _ _ _ _ _); [dv|]. cbv beta. rr. ring.
    Qed.
    Lemma gd_p2 : is_derive (fun x => - gpt R z x) phi (gp2 R z phi).
    Proof.
      unfold gpt, gp2, gRf. pose proof (d_comp ep (fun x => vopp (er x)) d_ep) as D. refine (is_derive_eq _ _ _ _ _ _); [dv|]. cbv beta.
      unfold vopp, vdot. cbn [vx vy vz]. rr. ring.
    Qed.
  End At.
End Cyl.
