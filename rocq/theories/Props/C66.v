(** C66: basis-function expansions (SCFPotential and the spherical-harmonic mixin). *)
From Coq Require Import Reals Lra Lia Arith List.
From Coquelicot Require Import Coquelicot.
From Verif.Lib Require Import RealAux Atan2.
From Verif.Model Require Import Coords PotAPI SphHarm.
From Verif.Spec Require Import PotSpec PotApiSpec ExpansionSpec.
From Verif.Proofs Require Import PotLift AxiProofs NonAxiProofs Gegenbauer SphRadial SphAngular SphCyl SphMass SphNear.
Open Scope R_scope.
Notation RR := RbaseSymbolsImpl.R (only parsing).
Ltac rr := match goal with |- ?a = ?b => change (@eq RR a b) end.

(** The potential and the density handed out are the documented expansions: normalised real spherical harmonics times the radial functions
    of Hernquist & Ostriker, for any sizes, any coefficients and any time. *)
Theorem C66_expansion : forall N L M a A B nax amp (C : RR -> RR -> nat -> RR) (P : RR -> nat -> RR), 0 < a ->
  (forall lam x, gegenbauer lam x (C lam x)) -> (forall x, legendre x (P x)) ->
  exists Phi rho, apiEv (SCF N L M a A B nax amp) = Some Phi /\ apiDens (SCF N L M a A B nax amp) = Some rho /\
  forall R z phi t, 0 < R -> let r := sqrt (R ^ 2 + z ^ 2) in
    Phi R z phi t = amp / 2 * expansion N L M (A t) (B t) P (phi_nl a C r) (z / r) phi /\
    rho R z phi t = amp / 2 * expansion N L M (A t) (B t) P (rho_nl a C r) (z / r) phi.
Proof.
  intros N L M a A B nax amp C P Ha HC HP. do 2 eexists. split; [reflexivity|]. split; [reflexivity|]. intros R z phi t HR. cbv zeta. fold (rad R z). pose proof (rad_pos R z HR) as RP. cbn. unfold scale4, scf_ev, scf_dens, at_point, cyl_to_spher. fold (rad R z). fold (tht R z). rewrite (cos_tht R z HR).
  assert (G : forall (f F : nat -> nat -> RR), (forall n l, f n l = F n l) -> sum3 N L M (fun n l m => f n l * cos_sin A B phi t n l m * lpm l m (z / rad R z)) = expansion N L M (A t) (B t) P F (z / rad R z) phi).
  { intros f F E. unfold sum3, expansion. rewrite <- sum1_total. apply sum1_ext. intros n. rewrite <- sum1_total. apply sum1_ext. intros l. rewrite <- sum1_total. apply sum1_ext. intros m. rewrite E, lpm_assoc by exact HP. unfold cos_sin, Acos, Asin, NN, Nlm. unfold lpm. destruct (Nat.leb m l); [|rr; ring]. destruct m; cbn [Nat.eqb]; rr; ring. }
  split; f_equal; apply G; intros; [apply phi_spec|apply rho_spec]; assumption.
Qed.
(** Gegenbauer and Legendre polynomials exist, so the hypotheses above are met. *)
Example C66_expansion_case : exists C P, (forall lam x, gegenbauer lam x (C lam x)) /\ (forall x, legendre x (P x)) /\ P 3 2%nat = 13.
Proof.
  exists geg, (geg (1 / 2)). split; [|split].
  - intros lam x. split; [reflexivity|]. split; [reflexivity|]. intros n. replace (n + 2)%nat with (S (S n)) by lia. replace (n + 1)%nat with (S n) by lia. apply geg_rec.
  - intros x. split; [reflexivity|]. split; [cbn [geg]; field|]. intros n. replace (n + 2)%nat with (S (S n)) by lia. replace (n + 1)%nat with (S n) by lia. rewrite geg_rec. rr. field.
  - cbn [geg INR]. rr. field.
Qed.
(** The forces and the torque are minus the gradient of the potential. *)
Theorem C66_forces : forall N L M a A B nax amp, 0 < a -> forces_are_gradient (fun R _ _ _ => 0 < R) (SCF N L M a A B nax amp).
Proof. intros N L M a A B nax amp Ha. apply (class_forces _ _ (scf_class N L M a A B nax) (scf_pt N L M a A B)); [left; reflexivity|]. apply forces. exact Ha. Qed.

Lemma off_pole M R z : off_axis M R z -> near_pole M (tht R z) = false.
Proof.
  intros [HR H]. unfold near_pole. destruct (Nat.ltb_spec 1 M) as [K|K]; [|reflexivity]. destruct H as [H|H]; [lia|]. destruct (Rlt_dec _ _) as [Z|Z]; [exfalso|reflexivity].
  pose proof (sin2_cos2 (tht R z)) as E. unfold Rsqr in E. replace (1 - cos (tht R z) * cos (tht R z)) with (sin (tht R z) ^ 2) in Z by (simpl; lra). rewrite (sin_tht R z HR) in Z. pose proof (rad_pos R z HR) as RP. pose proof (rad_sq R z) as Q. rewrite <- Q in H.
  rewrite Rabs_pos_eq in Z by apply pow2_ge_0. assert (P2 : 0 < rad R z ^ 2) by (apply pow_lt; exact RP). apply (Rmult_lt_compat_r (rad R z ^ 2)) in Z; [|exact P2]. replace ((R / rad R z) ^ 2 * rad R z ^ 2) with (R ^ 2) in Z by (field; lra). lra.
Qed.
(** The second derivatives are those of the potential, except within 1e-7 radian of the symmetry axis when the arrays have m > 0 columns. *)
Theorem C66_hessian : forall N L M a A B nax amp, 0 < a ->
  hessian_is_correct (fun R z _ _ => off_axis M R z) (SCF N L M a A B nax amp) /\ azimuthal_hessian_is_correct (fun R z _ _ => off_axis M R z) (SCF N L M a A B nax amp).
Proof.
  intros N L M a A B nax amp Ha. split.
  - eapply (class_hess _ _ (scf_class N L M a A B nax)); [reflexivity..|]. intros R z phi t H. cbn [c_Rf c_zf scf_class]. pose proof (off_pole M R z H) as K. rewrite !not_pole by (exact (proj1 H) || exact K). exact (hess N L M a A B Ha R z phi t (proj1 H)).
  - apply (class_azi _ _ (scf_class N L M a A B nax)); [intros _; cbn; repeat split; discriminate|]. intros R z phi t H. cbn [c_Rf c_zf c_pt c_p2 c_Rp c_pz scf_class or0]. pose proof (off_pole M R z H) as K. rewrite !not_pole by (exact (proj1 H) || exact K). exact (azi N L M a A B Ha R z phi t (proj1 H)).
Qed.
(** A general expansion at a point off the axis *)
Example C66_hessian_case : off_axis 7 1 3 /\ off_axis 1 (/ 10 ^ 10) 5.
Proof. split; (split; [|]); try (right; lra); try (left; lia); lra. Qed.
(** The density is the source of the potential: Poisson's equation, everywhere off the axis. *)
Theorem C66_density : forall N L M a A B nax amp, 0 < a -> density_is_source (fun R _ _ _ => 0 < R) (SCF N L M a A B nax amp).
Proof.
  intros N L M a A B nax amp Ha.
  set (c := mkPotC nax (scf_ev N L M a A B) (scf_Rf N L M a A B) (scf_zf N L M a A B) (Some (scf_pt N L M a A B)) (Some (pure_cyl N L M a A B dR2)) (Some (pure_cyl N L M a A B dz2)) (Some (pure_cyl N L M a A B dRz)) (Some (pure_cyl N L M a A B dphi2)) (Some (pure_cyl N L M a A B dRphi)) (Some (pure_cyl N L M a A B dphiz)) (Some (scf_dens N L M a A B))).
  change (density_is_source (fun R _ _ _ => 0 < R) (Single (amp / 2) c)).
  eapply (class_density _ _ c); try reflexivity.
  - intros R z phi t H. split; [apply locally_pos; exact H|]. split; apply filter_forall; intros; exact H.
  - constructor; intros k.
    + apply (class_forces _ _ c (scf_pt N L M a A B)); [left; reflexivity|]. apply forces. exact Ha.
    + eapply (class_hess _ _ c); [reflexivity..|]. apply hess. exact Ha.
    + apply (class_azi _ _ c); [intros _; cbn; repeat split; discriminate|]. apply azi. exact Ha.
  - intros _. discriminate.
  - apply poisson_sum. exact Ha.
Qed.
(** mass(r) is the mass of that density within the sphere of radius r, whatever the non-spherical coefficients. *)
Theorem C66_mass : forall N L M a A B nax amp t, 0 < a -> (1 <= L)%nat -> (1 <= M)%nat ->
  exists rho, apiDens (SCF N L M a A B nax amp) = Some rho /\ enclosed_mass (fun R z phi => rho R z phi t) (fun r => SCF_mass N a A amp r t).
Proof.
  intros N L M a A B nax amp t Ha HL HM. eexists. split; [reflexivity|]. cbn. split.
  - intros r Hr. exists (amp / 2 * (r ^ 2 * sum1 N (fun n => Acos A t n 0 0 * (4 * PI * rhoTilde a r n 0)))). split.
    + destruct (shell N L M a A B HL HM r t Hr) as (inner & H1 & H2). exists (fun th => amp / 2 * inner th). split.
      * intros th Hth. apply (is_RInt_scal (V := R_NormedModule) _ _ _ (amp / 2) _ (H1 th Hth)).
      * apply (is_RInt_ext (fun th => scal (amp / 2) (inner th * (r ^ 2 * sin th)))); [intros; unfold scal; simpl; unfold mult; simpl; rr; ring|]. apply (is_RInt_scal (V := R_NormedModule) _ _ _ (amp / 2) _ H2).
    + apply is_derive_Rscal. apply mass_d; assumption.
  - unfold SCF_mass. replace 0 with (amp / 2 * 0) at 2 by ring. pose proof (mass_0 N a A Ha t) as K. apply (filterlim_comp _ _ _ (fun r => scf_mass N a A r t) (fun y => amp / 2 * y) _ (locally 0)); [exact K|]. apply (filterlim_scal_r (V := R_NormedModule) (amp / 2) 0).
Qed.
(** The constructor marks an expansion axisymmetric only if its potential, its forces and its density do not depend on the azimuth and its
    torque vanishes; it accepts no coefficient with m > l. *)
Theorem C66_axisymmetric : forall N L M Ac As nax A B, init_static N L M Ac As = Some (nax, A, B) ->
  (forall n l m, (n < N)%nat -> (l < L)%nat -> (m < M)%nat -> (l < m)%nat -> A n l m = 0 /\ B n l m = 0) /\
  (nax = false -> forall a R z phi phi' t, let A' := fun _ : RR => A in let B' := fun _ : RR => B in
     scf_ev N L M a A' B' R z phi t = scf_ev N L M a A' B' R z phi' t /\ scf_dens N L M a A' B' R z phi t = scf_dens N L M a A' B' R z phi' t /\
     scf_Rf N L M a A' B' R z phi t = scf_Rf N L M a A' B' R z phi' t /\ scf_zf N L M a A' B' R z phi t = scf_zf N L M a A' B' R z phi' t /\
     scf_pt N L M a A' B' R z phi t = 0).
Proof.
  intros N L M Ac As nax A B E.
  assert (LW : low N L M A = true /\ low N L M B = true).
  { unfold init_static in E. destruct As as [C|].
    - destruct (negb (Nat.eqb L M)); [discriminate|]. destruct (low N L M Ac) eqn:E1, (low N L M C) eqn:E2; cbn in E; try discriminate. injection E as <- <- <-. auto.
    - destruct (negb (orb _ _)); [discriminate|]. destruct (andb _ _); [discriminate|]. destruct (low N L M Ac) eqn:E1; cbn in E; [|discriminate]. injection E as <- <- <-. split; [exact E1|]. unfold low, all3.
      assert (AT : forall K f, (forall n, f n = true) -> all1 K f = true) by (induction K as [|k IH]; intros f H; [reflexivity|cbn [all1]; rewrite IH, H by exact H; reflexivity]).
      apply AT. intros n. apply AT. intros l. apply AT. intros m. unfold isz. destruct (Req_EM_T 0 0); [apply Bool.orb_true_r|contradiction]. }
  split.
  - intros n l m Hn Hl Hm K. destruct LW as [L1 L2]. pose proof (all3_in _ _ _ _ n l m L1 Hn Hl Hm) as G1. pose proof (all3_in _ _ _ _ n l m L2 Hn Hl Hm) as G2. cbv beta in G1, G2. destruct (Nat.leb_spec m l) as [Z|_]; [lia|]. cbn [orb] in G1, G2. split; apply isz_0; assumption.
  - intros ->. assert (Z : forall n l m, (n < N)%nat -> (l < L)%nat -> (m < M)%nat -> (0 < m)%nat -> A n l m = 0 /\ B n l m = 0).
    { intros n l m Hn Hl Hm K. unfold init_static in E. destruct As as [C|].
      - destruct (Nat.eqb_spec L M) as [LM|]; cbn [negb] in E; [|discriminate]. destruct (negb (andb _ _)); [discriminate|]. destruct (Nat.eqb_spec L 1) as [L1|_]; [exfalso; lia|]. cbn [orb] in E. destruct (axi N L M Ac) eqn:E1; cbn [andb negb] in E; [|discriminate]. destruct (all3 N L M _) eqn:E2; cbn [negb] in E; [|discriminate]. injection E as <- <-.
        pose proof (all3_in _ _ _ _ n l m E1 Hn Hl Hm) as G1. pose proof (all3_in _ _ _ _ n l m E2 Hn Hl Hm) as G2. cbv beta in G1, G2. destruct (Nat.eqb_spec m 0) as [Q|_]; [lia|]. cbn [orb] in G1. split; apply isz_0; assumption.
      - destruct (orb (Nat.eqb M 1) (Nat.eqb L M)) eqn:E0; cbn [negb] in E; [|discriminate]. apply Bool.orb_prop in E0. assert (LM : L = M). { destruct E0 as [E0|E0]; apply Nat.eqb_eq in E0; [exfalso; lia|exact E0]. }
        destruct (Nat.ltb_spec 1 L) as [K1|K1]; [|exfalso; lia]. destruct (axi N L M Ac) eqn:E1; cbn [andb negb] in E; [|discriminate]. destruct (negb (low N L M Ac)); [discriminate|]. injection E as <- <-. split; [|reflexivity].
        pose proof (all3_in _ _ _ _ n l m E1 Hn Hl Hm) as G1. cbv beta in G1. destruct (Nat.eqb_spec m 0) as [Q|_]; [lia|]. cbn [orb] in G1. apply isz_0. exact G1. }
    intros a R z phi phi' t A' B'.
    assert (H0 : forall p p' n l m, (n < N)%nat -> (l < L)%nat -> (m < M)%nat -> cos_sin A' B' p t n l m = cos_sin A' B' p' t n l m).
    { intros p p' n l m Hn Hl Hm. unfold cos_sin, Acos, Asin, A', B'. destruct m as [|m]; [change (INR 0) with 0; rewrite !Rmult_0_l; reflexivity|]. destruct (Z n l (S m) Hn Hl Hm ltac:(lia)) as [-> ->]. rr. ring. }
    assert (H1 : forall n l m, (n < N)%nat -> (l < L)%nat -> (m < M)%nat -> dphi_coef A' B' phi t n l m = 0).
    { intros n l m Hn Hl Hm. unfold dphi_coef, Acos, Asin, A', B'. destruct m as [|m]; [change (INR 0) with 0; rr; ring|]. destruct (Z n l (S m) Hn Hl Hm ltac:(lia)) as [-> ->]. rr. ring. }
    assert (G : forall d1 d2, cyl_force N L M a A' B' d1 d2 0 R z phi t = cyl_force N L M a A' B' d1 d2 0 R z phi' t).
    { intros d1 d2. unfold cyl_force, spher_forces, cyl_to_spher. rewrite !Rmult_0_r. f_equal. f_equal; f_equal; f_equal; apply s3_bext; intros; rewrite (H0 phi phi') by assumption; reflexivity. }
    split; [|split; [|split; [|split]]].
    + unfold scf_ev, at_point, cyl_to_spher. apply s3_bext. intros. rewrite (H0 phi phi') by assumption. reflexivity.
    + unfold scf_dens, at_point, cyl_to_spher. apply s3_bext. intros. rewrite (H0 phi phi') by assumption. reflexivity.
    + apply G.
    + apply G.
    + unfold scf_pt, cyl_force, spher_forces, cyl_to_spher. rewrite (s3_bext N L M (fun n l m => dphi_coef A' B' phi t n l m * _ * _) (fun n l m => 0 * 0)); [|intros; rewrite H1 by assumption; rr; ring]. rewrite s3_scal. rr. ring.
Qed.
(** both kinds are constructed *)
Example C66_axisymmetric_case : init_static 1 1 1 (fun _ _ _ => 1) None = Some (false, fun _ _ _ => 1, fun _ _ _ => 0) /\
  (exists A B, init_static 1 2 2 (fun _ l m => if Nat.leb m l then 1 else 0) (Some (fun _ _ _ => 0)) = Some (true, A, B)) /\
  init_static 1 2 2 (fun _ _ _ => 1) None = None /\ init_static 2 3 2 (fun _ _ _ => 0) (Some (fun _ _ _ => 0)) = None.
Proof.
  assert (Z : isz 0 = true) by (unfold isz; destruct (Req_EM_T 0 0); [reflexivity|contradiction]). assert (O : isz 1 = false) by (unfold isz; destruct (Req_EM_T 1 0); [exfalso; lra|reflexivity]).
  split; [reflexivity|]. split; [|split]; [|unfold init_static, axi, low, all3; cbn; rewrite ?O; reflexivity|reflexivity]. do 2 eexists. unfold init_static, axi, low, all3. cbn. rewrite ?Z, ?O. cbn. reflexivity.
Qed.
(** The default coefficients give the Hernquist potential of mass amp / 2. *)
Theorem C66_default : forall a amp, 0 < a -> let A := fun _ : RR => (fun _ _ _ => 1) : coefs in let B := fun _ : RR => (fun _ _ _ => 0) : coefs in
  init_static 1 1 1 (A 0) None = Some (false, A 0, B 0) /\
  exists Phi rho, apiEv (SCF 1 1 1 a A B false amp) = Some Phi /\ apiDens (SCF 1 1 1 a A B false amp) = Some rho /\
  forall R z phi t, 0 < R -> let r := sqrt (R ^ 2 + z ^ 2) in
    Phi R z phi t = - (amp / 2) / (r + a) /\ rho R z phi t = amp / 2 * (a / (2 * PI * r * (r + a) ^ 3)) /\ SCF_mass 1 a A amp r t = amp / 2 * (r / (r + a)) ^ 2.
Proof.
  intros a amp Ha A B. split; [reflexivity|]. do 2 eexists. split; [reflexivity|]. split; [reflexivity|]. intros R z phi t HR. cbv zeta. fold (rad R z). pose proof (rad_pos R z HR) as RP.
  pose proof PI_RGT_0 as P0. pose proof (sqrt_lt_R0 _ P0) as SP. assert (SS : sqrt PI ^ 2 = PI) by (apply pow2_sqrt; lra).
  assert (S4 : sqrt (4 * PI) = 2 * sqrt PI). { rewrite sqrt_mult by lra. f_equal. replace 4 with (2 ^ 2) by ring. apply sqrt_pow2. lra. }
  assert (N0 : NN 0 0 = / (2 * sqrt PI)). { unfold NN. cbn [Nat.leb Nat.eqb Nat.sub Nat.add fact]. change (INR 0) with 0. change (INR 1) with 1. replace ((2 * 0 + 1) / (4 * PI) * (1 / 1)) with (/ (4 * PI)) by (field; lra). rewrite sqrt_inv, S4. rr. ring. }
  cbn. unfold scale4, SCF_mass, scf_mass, scf_ev, scf_dens, at_point, cyl_to_spher, sum3, sum1, cos_sin, Acos, Asin, A, B. fold (rad R z). change (INR 0) with 0. rewrite N0, !Rmult_0_l, ?cos_0, ?sin_0.
  assert (L0 : forall x, lpm 0 0 x = 1) by (intros; rewrite lpm0; reflexivity). rewrite L0. unfold phiTilde, rhoTilde, dphiTilde, CC, dCC. destruct (Req_EM_T (rad R z) 0) as [Z|_]; [exfalso; lra|]. cbn [geg Nat.mul Nat.add pow]. change (INR 0) with 0. rewrite S4. set (s := sqrt PI) in *. set (r := rad R z) in *. clearbody s r.
  split; [|split].
  - rr. field. repeat split; lra.
  - replace PI with (s ^ 2) by exact SS. rr. field. repeat split; lra.
  - rr. field. repeat split; lra.
Qed.
Print Assumptions C66_expansion.
Print Assumptions C66_forces.
Print Assumptions C66_hessian.
Print Assumptions C66_density.
Print Assumptions C66_mass.
Print Assumptions C66_axisymmetric.
Print Assumptions C66_default.
(** Within 1e-7 radian of the axis the second derivatives of an expansion with m > 0 columns are those at a clipped polar angle, so they are
    not the derivatives of the forces: the coefficients below are axisymmetric, padded with zeros to a square shape. *)
Theorem C66_near_axis_refuted : exists N L M A B nax, init_static N L M (A 0) None = Some (nax, A 0, B 0) /\ ~ hessian_is_correct (fun R _ _ _ => 0 < R) (SCF N L M 1 A B nax 1).
Proof.
  exists 1%nat, 2%nat, 2%nat, (fun (_ : RR) (_ l m : nat) => if andb (Nat.eqb l 1) (Nat.eqb m 0) then 1 else 0), (fun (_ : RR) (_ _ _ : nat) => 0), false. split.
  - assert (Z : isz 0 = true) by (unfold isz; destruct (Req_EM_T 0 0); [reflexivity|contradiction]). unfold init_static, axi, low, all3. cbn. rewrite !Z. cbn. rewrite ?Bool.orb_true_r. reflexivity.
  - set (A := fun (_ : RR) (_ l m : nat) => if andb (Nat.eqb l 1) (Nat.eqb m 0) then 1 else 0). set (B := fun (_ : RR) (_ _ _ : nat) => 0). intros (P2R & P2z & PRz & _ & E2 & _ & H). cbn in E2. injection E2 as <-.
    set (u := / 10 ^ 9). set (s := 2 * u / (1 + u ^ 2)). set (c := (1 - u ^ 2) / (1 + u ^ 2)).
    assert (HU : 0 < u ^ 2) by (apply pow_lt; unfold u; lra).
    assert (Hs : 0 < s <= 2 / 10 ^ 9) by (unfold s, u; split; lra). assert (Hc : 1 - / 10 ^ 15 <= c < 1) by (unfold c, u; split; lra). assert (Hsc : s ^ 2 + c ^ 2 = 1) by (unfold s, c; field; lra).
    assert (HR : 0 < s / 2) by lra. apply (differ s c Hs Hc Hsc). fold A. fold B.
    destruct (H (s / 2) (c / 2) 0 0 HR) as (_ & D1 & _). destruct (hess 1 2 2 1 A B ltac:(lra) (s / 2) (c / 2) 0 0 HR) as (_ & D2 & _).
    pose proof (is_derive_unique _ _ _ D1) as U1. cbn in U1. unfold scale4 in U1. pose proof (is_derive_scal_opp _ (1 / 2) _ _ D2) as D3. pose proof (is_derive_unique _ _ _ D3) as U3. cbv beta in U3. assert (U4 : 1 / 2 * cyl_2nd 1 2 2 1 A B dz2 (s / 2) (c / 2) 0 0 = 1 / 2 * pure_cyl 1 2 2 1 A B dz2 (s / 2) (c / 2) 0 0) by exact (eq_trans (eq_sym U1) U3). lra.
Qed.
Print Assumptions C66_near_axis_refuted.
