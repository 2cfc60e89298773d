(** C55: the velocity dispersions of galpy.df.jeans solve the spherical Jeans equation and are its line-of-sight projection. *)
From Coq Require Import Reals Lra.
From Coquelicot Require Import Coquelicot.
From Verif.Lib Require Import RealAux.
From Verif.Model Require Import PotAPI PotNonAxi Jeans.
From Verif.Spec Require Import PotSpec PotApiSpec JeansSpec.
From Verif.Proofs Require Import JeansProofs JeansLos.
Open Scope R_scope.
Notation RR := RbaseSymbolsImpl.R (only parsing).

Lemma diag_r r : 0 < r -> sqrt ((r * INVSQRTTWO) ^ 2 + (r * INVSQRTTWO) ^ 2) = r.
Proof.
  intros Hr. unfold INVSQRTTWO. pose proof sqrt2_neq_0 as N. replace ((r * (1 / sqrt 2)) ^ 2 + (r * (1 / sqrt 2)) ^ 2) with (r ^ 2).
  - apply sqrt_pow2. lra.
  - assert (E : sqrt 2 ^ 2 = 2) by (apply pow2_sqrt; lra). replace ((r * (1 / sqrt 2)) ^ 2) with (r ^ 2 / sqrt 2 ^ 2) by (field; exact N). rewrite E. field.
Qed.
Lemma INV_pos : 0 < INVSQRTTWO. Proof. unfold INVSQRTTWO. apply Rdiv_lt_0_compat; [lra|]. apply sqrt_lt_R0; lra. Qed.

(** ** What enters: the radial force and the density of a spherical potential *)
(** The force is minus the derivative of the potential with respect to the spherical radius. *)
Theorem C55_force : forall p (D : Dom) Phi (U : RR -> RR) r dU, isDiss p = false -> forces_are_gradient D p -> apiEv p = Some Phi ->
  (forall R z phi, D R z phi 0) -> (forall R z phi, 0 < R -> 0 < z -> Phi R z phi 0 = U (sqrt (R ^ 2 + z ^ 2))) ->
  0 < r -> is_derive U r dU -> exists F, radial_force p = Some F /\ F r = - dU.
Proof.
  intros p D Phi U r dU HD HF HE Dall HU Hr Hd. unfold radial_force. rewrite HD. eexists. split; [reflexivity|].
  destruct HF as (Phi' & Fp & E1 & _ & FF). rewrite HE in E1. injection E1 as <-.
  set (s := r * INVSQRTTWO). assert (Ps : 0 < s) by (apply Rmult_lt_0_compat; [exact Hr|apply INV_pos]).
  destruct (FF s s (PI / 4) 0 (Dall _ _ _)) as (DR & Dz & _).
  assert (Es : sqrt (s ^ 2 + s ^ 2) = r) by (apply diag_r; exact Hr).
  assert (P2 : 0 < s ^ 2) by (apply pow_lt; exact Ps).
  assert (Q1 : is_derive (fun x => U (sqrt (x ^ 2 + s ^ 2))) s (s / r * dU)).
  { evar_last. { apply (is_derive_comp U (fun x => sqrt (x ^ 2 + s ^ 2))); [rewrite Es; exact Hd|]. auto_derive; [lra|reflexivity]. }
    replace (s * (s * 1) + s * (s * 1)) with (s ^ 2 + s ^ 2) by ring. rewrite Es. unfold scal; cbn; unfold mult; cbn. rr. field. lra. }
  assert (Q2 : is_derive (fun x => U (sqrt (s ^ 2 + x ^ 2))) s (s / r * dU)).
  { apply (is_derive_ext (fun x => U (sqrt (x ^ 2 + s ^ 2)))); [|exact Q1]. intros t. rewrite Rplus_comm. reflexivity. }
  assert (N : locally s (fun x => 0 < x)) by (apply (open_gt 0 s Ps)).
  assert (A1 : - apiRf p v0 s s (PI / 4) 0 = s / r * dU).
  { rewrite <- (is_derive_unique _ _ _ DR). apply is_derive_unique. apply (is_derive_ext_loc (fun x => U (sqrt (x ^ 2 + s ^ 2)))); [|exact Q1].
    destruct N as [e He]. exists e. intros y Hy. symmetry. apply HU; [apply He; exact Hy|exact Ps]. }
  assert (A2 : - apizf p v0 s s (PI / 4) 0 = s / r * dU).
  { rewrite <- (is_derive_unique _ _ _ Dz). apply is_derive_unique. apply (is_derive_ext_loc (fun x => U (sqrt (s ^ 2 + x ^ 2)))); [|exact Q2].
    destruct N as [e He]. exists e. intros y Hy. symmetry. apply HU; [exact Ps|apply He; exact Hy]. }
  unfold rforce. cbv zeta. fold s. rewrite Es. change (0, 0, 0) with v0.
  replace (apiRf p v0 s s (PI / 4) 0) with (- (s / r * dU)) by lra. replace (apizf p v0 s s (PI / 4) 0) with (- (s / r * dU)) by lra.
  replace (- (s / r * dU) * s / r + - (s / r * dU) * s / r) with (- ((s ^ 2 + s ^ 2) / r ^ 2 * dU)) by (field; lra).
  replace (s ^ 2 + s ^ 2) with (r ^ 2) by (rewrite <- Es at 1; apply pow2_sqrt; lra). field. lra.
Qed.
Print Assumptions C55_force.
(** The method rforce, which the dispersions call on the diagonal R = z only, is that derivative at every point off the plane and the axis. *)
Theorem C55_radial_force_everywhere : forall p (D : Dom) Phi (U : RR -> RR) R z phi dU, forces_are_gradient D p -> apiEv p = Some Phi ->
  (forall R z phi, D R z phi 0) -> (forall R z phi, 0 < R -> 0 < z -> Phi R z phi 0 = U (sqrt (R ^ 2 + z ^ 2))) ->
  0 < R -> 0 < z -> is_derive U (sqrt (R ^ 2 + z ^ 2)) dU -> rforce p R z phi = - dU.
Proof.
  intros p D Phi U R z phi dU HF HE Dall HU HR Hz Hd. destruct HF as (Phi' & Fp & E1 & _ & FF). rewrite HE in E1. injection E1 as <-.
  destruct (FF R z phi 0 (Dall _ _ _)) as (DR & Dz & _). assert (P : 0 < R ^ 2 + z ^ 2) by (pose proof (pow_lt R 2 HR); pose proof (pow_lt z 2 Hz); lra).
  pose proof (sqrt_lt_R0 _ P) as Pr. pose proof (pow2_sqrt _ (Rlt_le _ _ P)) as Es.
  assert (Q1 : is_derive (fun x => U (sqrt (x ^ 2 + z ^ 2))) R (R / sqrt (R ^ 2 + z ^ 2) * dU)).
  { evar_last. { apply (is_derive_comp U (fun x => sqrt (x ^ 2 + z ^ 2))); [exact Hd|]. auto_derive; [cbn; lra|reflexivity]. }
    replace (R * (R * 1) + z * (z * 1)) with (R ^ 2 + z ^ 2) by ring. unfold scal; cbn -[pow]; unfold mult; cbn -[pow]. rr. field. lra. }
  assert (Q2 : is_derive (fun x => U (sqrt (R ^ 2 + x ^ 2))) z (z / sqrt (R ^ 2 + z ^ 2) * dU)).
  { evar_last. { apply (is_derive_comp U (fun x => sqrt (R ^ 2 + x ^ 2))); [exact Hd|]. auto_derive; [cbn; lra|reflexivity]. }
    replace (R * (R * 1) + z * (z * 1)) with (R ^ 2 + z ^ 2) by ring. unfold scal; cbn -[pow]; unfold mult; cbn -[pow]. rr. field. lra. }
  assert (A1 : - apiRf p v0 R z phi 0 = R / sqrt (R ^ 2 + z ^ 2) * dU).
  { rewrite <- (is_derive_unique _ _ _ DR). apply is_derive_unique. apply (is_derive_ext_loc (fun x => U (sqrt (x ^ 2 + z ^ 2)))); [|exact Q1].
    destruct (open_gt 0 R HR) as [e He]. exists e. intros y Hy. symmetry. apply HU; [apply He; exact Hy|exact Hz]. }
  assert (A2 : - apizf p v0 R z phi 0 = z / sqrt (R ^ 2 + z ^ 2) * dU).
  { rewrite <- (is_derive_unique _ _ _ Dz). apply is_derive_unique. apply (is_derive_ext_loc (fun x => U (sqrt (R ^ 2 + x ^ 2)))); [|exact Q2].
    destruct (open_gt 0 z Hz) as [e He]. exists e. intros y Hy. symmetry. apply HU; [exact HR|apply He; exact Hy]. }
  unfold rforce. cbv zeta. change (0, 0, 0) with v0. set (q := sqrt (R ^ 2 + z ^ 2)) in *.
  replace (apiRf p v0 R z phi 0) with (- (R / q * dU)) by lra. replace (apizf p v0 R z phi 0) with (- (z / q * dU)) by lra.
  replace (- (R / q * dU) * R / q + - (z / q * dU) * z / q) with (- ((R ^ 2 + z ^ 2) / q ^ 2 * dU)) by (field; lra). rewrite Es. field. lra.
Qed.
Print Assumptions C55_radial_force_everywhere.
(** Without a density of their own both functions use that of the potential. *)
Theorem C55_density : forall p dens rho, apiDens p = Some dens -> (forall R z phi, 0 < R -> 0 < z -> dens R z phi 0 = rho (sqrt (R ^ 2 + z ^ 2))) ->
  (exists nu, dens_sigmar p None = Some nu /\ forall r, 0 < r -> nu r = rho r) /\
  (isNonAxi p = false -> exists nu, dens_sigmalos p None = Some nu /\ forall r, 0 < r -> nu r = rho r).
Proof.
  intros p dens rho Hd Hr. unfold dens_sigmar, dens_sigmalos. rewrite Hd.
  split; [|intros ->]; (eexists; split; [reflexivity|]; intros r Pr; cbv beta; rewrite Hr by (apply Rmult_lt_0_compat; [exact Pr|apply INV_pos]); rewrite diag_r by exact Pr; reflexivity).
Qed.
Print Assumptions C55_density.

(** ** The radial dispersion *)
(** [sigmar] is the square root of the one solution of the Jeans equation without pressure at infinity: the anisotropy may be a number or a
    function of the radius, the density that of the potential or one's own. *)
Theorem C55_radial : forall p dens beta nu F, dens_sigmar p dens = Some nu -> radial_force p = Some F -> jeans_setting nu F (called beta) ->
  exists s, (forall r, sigmar p r dens beta = Some (s r) /\ 0 <= s r) /\
    solves_jeans nu F (called beta) (fun r => s r ^ 2) /\ no_pressure_at_infinity nu (called beta) (fun r => s r ^ 2) /\
    (forall s2, solves_jeans nu F (called beta) s2 -> no_pressure_at_infinity nu (called beta) s2 -> forall r, 0 < r -> s2 r = s r ^ 2).
Proof.
  intros p dens beta nu F Hn HF HS. exists (sigmar_of nu F beta). split; [|split; [|split]].
  - intros r. unfold sigmar. rewrite Hn, HF. split; [reflexivity|]. apply sqrt_pos.
  - apply jeans_solved; exact HS.
  - apply jeans_boundary; exact HS.
  - intros s2 J B. apply jeans_unique; assumption.
Qed.
Print Assumptions C55_radial.
(** A number for the anisotropy means the constant function. *)
Theorem C55_constant_beta : forall p dens b nu F r, dens_sigmar p dens = Some nu -> radial_force p = Some F -> jeans_setting nu F (fun _ => b) -> 0 < r ->
  sigmar p r dens (Num b) = sigmar p r dens (Fun (fun _ => b)).
Proof.
  intros p dens b nu F r Hn HF HS Hr. unfold sigmar. rewrite Hn, HF. f_equal.
  assert (E : sigmar_of nu F (Num b) r ^ 2 = sigmar_of nu F (Fun (fun _ => b)) r ^ 2).
  { apply (jeans_unique nu F (Fun (fun _ => b)) HS (fun r => sigmar_of nu F (Num b) r ^ 2)); [|apply (jeans_boundary nu F (Num b) HS)|exact Hr]. apply (jeans_solved nu F (Num b) HS). }
  assert (N1 : 0 <= sigmar_of nu F (Num b) r) by apply sqrt_pos. assert (N2 : 0 <= sigmar_of nu F (Fun (fun _ => b)) r) by apply sqrt_pos.
  rewrite <- (sqrt_pow2 _ N1), E. apply sqrt_pow2. exact N2.
Qed.
Print Assumptions C55_constant_beta.
(** The normalisation of the density does not matter. *)
Theorem C55_density_scale : forall p nu F beta c r, radial_force p = Some F -> jeans_setting nu F (called beta) -> 0 < c -> 0 < r ->
  sigmar p r (Some (fun x => c * nu x)) beta = sigmar p r (Some nu) beta.
Proof.
  intros p nu F beta c r HF HS Hc Hr. unfold sigmar. cbn [dens_sigmar]. rewrite HF. f_equal.
  assert (HS2 : jeans_setting (fun x => c * nu x) F (called beta)).
  { destruct HS as (P & N & Cn & CF & Cb & l & Hl). repeat apply conj; try assumption.
    - intros x Hx. apply Rmult_lt_0_compat; [exact Hc|apply P; exact Hx].
    - intros x Hx. apply (continuous_mult (K := R_AbsRing) (fun _ => c) nu); [apply continuous_const|apply Cn; exact Hx].
    - exists (scal c l). apply (gen_same (fun x => scal c (jeans_weight (called beta) x * (nu x * F x))) _ _ _ _ _ _).
      + intros x. unfold scal; cbn; unfold mult; cbn. rr. ring.
      + apply (is_RInt_gen_scal (V := R_NormedModule) (fun x => jeans_weight (called beta) x * (nu x * F x)) c l). exact Hl. }
  assert (E : sigmar_of nu F beta r ^ 2 = sigmar_of (fun x => c * nu x) F beta r ^ 2).
  { apply (jeans_unique (fun x => c * nu x) F beta HS2 (fun r => sigmar_of nu F beta r ^ 2)); [| |exact Hr].
    - intros x Hx. destruct (jeans_solved nu F beta HS x Hx) as (d & Hd & Ed). exists (c * d). split.
      + apply (is_derive_ext (fun x => c * (nu x * sigmar_of nu F beta x ^ 2))); [intros t; rr; ring|]. apply (is_derive_scal (fun x => nu x * sigmar_of nu F beta x ^ 2)). exact Hd.
      + transitivity (c * (nu x * F x)); [rewrite <- Ed; ring|ring].
    - unfold no_pressure_at_infinity. apply (filterlim_ext (fun x => c * (jeans_weight (called beta) x * (nu x * sigmar_of nu F beta x ^ 2)))); [intros x; rr; ring|].
      replace 0 with (scal c 0) by (unfold scal; cbn; unfold mult; cbn; ring).
      apply (filterlim_comp _ _ _ (fun x => jeans_weight (called beta) x * (nu x * sigmar_of nu F beta x ^ 2)) (fun y => scal c y) _ (locally 0)); [apply (jeans_boundary nu F beta HS)|].
      apply (filterlim_scal_r (V := R_NormedModule) c 0). }
  assert (N1 : 0 <= sigmar_of nu F beta r) by apply sqrt_pos. assert (N2 : 0 <= sigmar_of (fun x => c * nu x) F beta r) by apply sqrt_pos.
  rewrite <- (sqrt_pow2 _ N1), E. symmetry. apply sqrt_pow2. exact N2.
Qed.
Print Assumptions C55_density_scale.

(** ** The line-of-sight dispersion *)
(** The variance of the line-of-sight velocity, weighted by the density along the line of sight and divided by the surface density; the surface
    density may be given (number or function), come from the potential, or be the integral of the density; the radial dispersion may be given
    (number or function) or come from [sigmar]. *)
Theorem C55_los : forall surf_pot p R dens surfdens beta sigma_r nu sr S M,
  0 < R -> 0 < S -> dens_sigmalos p dens = Some nu ->
  match sigma_r with Some s => forall r, sr r = called s r | None => forall r, sigmar p r (Some nu) beta = Some (sr r) end ->
  match surfdens with SArg s => S = called s R | SNone => half_los (fun z => nu (sqrt (R ^ 2 + z ^ 2))) (S / 2) end ->
  (forall s, surf_pot p R = Some s -> s = S) ->
  continuous_outside nu -> continuous_outside (called beta) -> continuous_outside (fun r => sr r ^ 2) ->
  half_los (fun z => nu (sqrt (R ^ 2 + z ^ 2)) * los_variance (fun r => sr r ^ 2) (called beta) R z) M -> 0 <= M ->
  exists s, sigmalos surf_pot p R dens surfdens beta sigma_r = Some s /\ 0 <= s /\ s ^ 2 = 2 * M / S.
Proof.
  intros sp p R dens surfdens beta sigma_r nu sr S M HR HS Hn Hsr Hsd Hsp Cn Cb Cs HM PM.
  assert (ES : called_surfdens sp p R (match dens with None => true | Some _ => false end) nu surfdens = S).
  { destruct surfdens as [|s]; cbn [called_surfdens].
    - assert (EI : surf_int nu R = S). { unfold surf_int. rewrite (is_RInt_gen_unique _ (S / 2)); [field|exact Hsd]. }
      destruct dens; [exact EI|]. destruct (sp p R) as [s|] eqn:Esp; [apply Hsp; reflexivity|exact EI].
    - symmetry. exact Hsd. }
  assert (K : forall sr', (forall r, sr' r = sr r) -> sigmalos_of nu sr' (called beta) S R ^ 2 = 2 * M / S).
  { intros sr' E. apply sigmalos_sq; try assumption.
    - intros r Hr. apply (continuous_ext (fun r => sr r ^ 2)); [intros x; rewrite E; reflexivity|apply Cs; exact Hr].
    - apply (gen_same (fun z => nu (sqrt (R ^ 2 + z ^ 2)) * los_variance (fun r => sr r ^ 2) (called beta) R z) _ _ _ _ _ _); [|exact HM].
      intros z. unfold los_variance. cbv zeta. rewrite E. reflexivity. }
  unfold sigmalos. rewrite Hn. cbv zeta. rewrite ES. destruct sigma_r as [s|].
  - eexists. split; [reflexivity|]. split; [apply sqrt_pos|]. apply K. intros r. symmetry. apply Hsr.
  - unfold sigmar in Hsr. cbn [dens_sigmar] in Hsr. destruct (radial_force p) as [F|]; [|discriminate (Hsr 0)].
    eexists. split; [reflexivity|]. split; [apply sqrt_pos|]. apply K. intros r. specialize (Hsr r). injection Hsr as E. exact E.
Qed.
Print Assumptions C55_los.
(** An isotropic population with the same dispersion everywhere shows that dispersion along every line of sight. *)
Theorem C55_isothermal : forall surf_pot p R nu L s, 0 < R -> 0 < L -> 0 <= s -> continuous_outside nu ->
  half_los (fun z => nu (sqrt (R ^ 2 + z ^ 2))) L -> (forall S, surf_pot p R = Some S -> S = 2 * L) ->
  sigmalos surf_pot p R (Some nu) SNone (Num 0) (Some (Num s)) = Some s.
Proof.
  intros sp p R nu L s HR HL Hs Cn HI Hsp.
  destruct (C55_los sp p R (Some nu) SNone (Num 0) (Some (Num s)) nu (fun _ => s) (2 * L) (s ^ 2 * L)) as (v & Ev & Pv & E); try assumption; try lra.
  - reflexivity.
  - intros r. reflexivity.
  - replace (2 * L / 2) with L by field. exact HI.
  - intros r _. apply continuous_const.
  - intros r _. apply continuous_const.
  - apply (gen_same (fun z => scal (s ^ 2) (nu (sqrt (R ^ 2 + z ^ 2)))) _ _ _ _ _ _).
    + intros z. unfold los_variance, called. cbv zeta. set (x := sqrt (R ^ 2 + z ^ 2)). assert (P : 0 < R ^ 2 + z ^ 2). { pose proof (pow2_ge_0 z). assert (0 < R ^ 2) by (apply pow_lt; exact HR). lra. }
      assert (Px : 0 < x) by (apply sqrt_lt_R0; exact P). assert (E : x ^ 2 = R ^ 2 + z ^ 2) by (apply pow2_sqrt; lra).
      unfold scal; cbn [ModuleSpace.scal]; cbn. unfold mult; cbn. change (s ^ 2 * nu x = nu x * (s ^ 2 * (z / x) ^ 2 + (1 - 0) * s ^ 2 * (R / x) ^ 2)).
      replace (nu x * (s ^ 2 * (z / x) ^ 2 + (1 - 0) * s ^ 2 * (R / x) ^ 2)) with (nu x * s ^ 2 * ((R ^ 2 + z ^ 2) / x ^ 2)) by (field; lra). rewrite <- E. field. lra.
    + apply (is_RInt_gen_scal (V := R_NormedModule) (fun z => nu (sqrt (R ^ 2 + z ^ 2))) (s ^ 2) L). exact HI.
  - apply Rmult_le_pos; [apply pow2_ge_0|lra].
  - rewrite Ev. f_equal. replace (2 * (s ^ 2 * L) / (2 * L)) with (s ^ 2) in E by (field; lra). rewrite <- (sqrt_pow2 v Pv), E. apply sqrt_pow2. exact Hs.
Qed.
Print Assumptions C55_isothermal.

(** ** The hypotheses are met: tracers of density r^-2 in the logarithmic potential, any constant anisotropy below 1 *)
Definition flat_halo : Pot := Single 1 (LogarithmicHalo 0 1 None).
Lemma flat_force r : 0 < r -> exists F, radial_force flat_halo = Some F /\ F r = - (1 / r).
Proof.
  intros Hr. eexists. split; [reflexivity|]. unfold rforce. cbv zeta. rewrite (diag_r r Hr). cbn [apiRf apizf flat_halo scale4].
  unfold scale4, LogarithmicHalo, LH_Rf, LH_zf, LH_nonaxi, LH_ma. cbn [c_Rf c_zf].
  set (s := r * INVSQRTTWO). assert (E : s ^ 2 + s ^ 2 = r ^ 2). { unfold s. rewrite <- (diag_r r Hr) at 3. symmetry. apply pow2_sqrt. pose proof (pow2_ge_0 (r * INVSQRTTWO)). lra. }
  replace (s ^ 2 + (s / 1) ^ 2 + 0) with (r ^ 2) by (rewrite <- E; field).
  replace (1 * (- s / r ^ 2) * s / r + 1 * (- s / 1 ^ 2 / r ^ 2) * s / r) with (- ((s ^ 2 + s ^ 2) / r ^ 3)) by (field; lra). rewrite E. field. lra.
Qed.
Example C55_flat_halo : forall b, b < 1 -> exists F, radial_force flat_halo = Some F /\ jeans_setting (fun r => / r ^ 2) F (called (Num b)) /\
  forall r, 0 < r -> exists s, sigmar flat_halo r (Some (fun r => / r ^ 2)) (Num b) = Some s /\ s ^ 2 = 1 / (2 * (1 - b)).
Proof.
  intros b Hb. destruct (flat_force 1 Rlt_0_1) as (F & HF & _). exists F. split; [exact HF|].
  assert (EF : forall r, 0 < r -> F r = - (1 / r)). { intros r Hr. destruct (flat_force r Hr) as (F' & E1 & E2). rewrite HF in E1. injection E1 as ->. exact E2. }
  assert (Cn : continuous_outside (fun r => / r ^ 2)).
  { intros x Hx. apply continuous_Rinv_comp; [|apply pow_nonzero; lra]. apply (ex_derive_continuous (fun x => x ^ 2)). auto_derive. exact Logic.I. }
  assert (W : forall r, 0 < r -> jeans_weight (called (Num b)) r = rpow r (2 * b)). { intros r Hr. symmetry. apply (factor_weight (Num b) r Hr). }
  assert (DG : forall r, 0 < r -> is_derive (fun x => / (2 * (1 - b)) * rpow x (2 * b - 2)) r (- (rpow r (2 * b) * (/ r ^ 2 * (1 / r))))).
  { intros r Hr. evar_last. { apply (is_derive_scal (fun x => rpow x (2 * b - 2))). apply (is_derive_rpow (fun x => x) (2 * b - 2) r 1); [exact Hr|apply (is_derive_id r)]. }
    replace (2 * b - 2 - 1) with (2 * b - 3) by ring. replace (rpow r (2 * b - 3)) with (rpow r (2 * b) / r ^ 3).
    - rr. field. split; lra.
    - rewrite rpow_minus by exact Hr. rewrite rpow_3 by exact Hr. reflexivity. }
  assert (HS : jeans_setting (fun r => / r ^ 2) F (called (Num b))).
  { repeat apply conj.
    - intros r Hr. apply Rinv_0_lt_compat, pow_lt, Hr.
    - intros r Hr. rewrite (EF r Hr). assert (0 < 1 / r) by (apply Rdiv_lt_0_compat; lra). lra.
    - exact Cn.
    - intros x Hx. apply (continuous_ext_loc F (fun r => - (1 / r)) x).
      + destruct (open_gt 0 x Hx) as [e He]. exists e. intros y Hy. symmetry. apply EF. apply He. exact Hy.
      + apply (ex_derive_continuous (fun r => - (1 / r))). auto_derive. lra.
    - intros x _. apply continuous_const.
    - set (G := fun x => / (2 * (1 - b)) * rpow x (2 * b - 2)). exists (0 - G 1).
      assert (Ih : forall x, 1 < x -> is_RInt (fun r => jeans_weight (called (Num b)) r * (/ r ^ 2 * F r)) 1 x (minus (G x) (G 1))).
      { intros x Hx. apply (is_RInt_ext (fun r => - (rpow r (2 * b) * (/ r ^ 2 * (1 / r))))).
        - intros r Hr. rewrite Rmin_left in Hr by lra. rewrite W, EF by lra. rr. ring.
        - apply (is_RInt_derive G (fun r => - (rpow r (2 * b) * (/ r ^ 2 * (1 / r))))); intros r Hr; rewrite Rmin_left in Hr by lra.
          + apply DG. lra.
          + apply (continuous_opp (fun r => rpow r (2 * b) * (/ r ^ 2 * (1 / r)))). apply (continuous_mult (K := R_AbsRing) (fun r => rpow r (2 * b)) (fun r => / r ^ 2 * (1 / r))).
            * apply (ex_derive_continuous (fun r => rpow r (2 * b))). eexists. apply (is_derive_rpow (fun x => x) (2 * b) r 1); [lra|apply (is_derive_id r)].
            * apply (continuous_mult (K := R_AbsRing) (fun r => / r ^ 2) (fun r => 1 / r)); [apply Cn; lra|]. apply (ex_derive_continuous (fun r => 1 / r)). auto_derive. lra. }
      apply lim_gen; [intros x Hx; eexists; apply Ih; exact Hx|].
      apply (filterlim_ext_loc (fun x => G x - G 1)); [exists 1; intros x Hx; symmetry; apply is_RInt_unique; apply Ih; exact Hx|].
      apply (filterlim_comp _ _ _ G (fun y => y - G 1) _ (locally 0)); [|apply (continuous_minus (V := R_NormedModule) (fun y => y) (fun _ => G 1) 0); [apply continuous_id|apply continuous_const]].
      unfold G. replace 0 with (/ (2 * (1 - b)) * 0) by ring.
      apply (filterlim_comp _ _ _ (fun x => rpow x (2 * b - 2)) (fun y => / (2 * (1 - b)) * y) _ (locally 0)); [|apply (filterlim_scal_r (V := R_NormedModule) (/ (2 * (1 - b))) 0)].
      apply lim_rpow_inf. lra. }
  split; [exact HS|]. intros r Hr. destruct (C55_radial flat_halo (Some (fun r => / r ^ 2)) (Num b) _ F eq_refl HF HS) as (s & Hs & J & B & U).
  exists (s r). split; [apply Hs|]. symmetry. apply (U (fun _ => 1 / (2 * (1 - b)))); [| |exact Hr].
  - intros x Hx. exists (- 2 / x ^ 3 * (1 / (2 * (1 - b)))). split.
    + auto_derive; [apply (pow_nonzero x 2); lra|]. rr. field. split; lra.
    + rewrite (EF x Hx). unfold called. field. split; lra.
  - unfold no_pressure_at_infinity. apply (filterlim_ext_loc (fun x => / (2 * (1 - b)) * rpow x (2 * b - 2))).
    + exists 0. intros x Hx. rewrite (W x Hx), rpow_minus, rpow_2 by exact Hx. rr. field. split; lra.
    + replace 0 with (/ (2 * (1 - b)) * 0) by ring.
      apply (filterlim_comp _ _ _ (fun x => rpow x (2 * b - 2)) (fun y => / (2 * (1 - b)) * y) _ (locally 0)); [apply lim_rpow_inf; lra|apply (filterlim_scal_r (V := R_NormedModule) (/ (2 * (1 - b))) 0)].
Qed.
(** Lines of sight through a density r^-3. *)
Example C55_cubic : forall R, 0 < R -> half_los (fun z => / sqrt (R ^ 2 + z ^ 2) ^ 3) (1 / R ^ 2).
Proof.
  intros R HR. set (G := fun z => z / (R ^ 2 * sqrt (R ^ 2 + z ^ 2))).
  assert (P : forall z, 0 < R ^ 2 + z ^ 2). { intros z. pose proof (pow2_ge_0 z). assert (0 < R ^ 2) by (apply pow_lt; exact HR). lra. }
  assert (Ps : forall z, 0 < sqrt (R ^ 2 + z ^ 2)). { intros z. apply sqrt_lt_R0, P. }
  assert (I : forall x, is_RInt (fun z => / sqrt (R ^ 2 + z ^ 2) ^ 3) 0 x (minus (G x) (G 0))).
  { intros x. apply (is_RInt_derive G (fun z => / sqrt (R ^ 2 + z ^ 2) ^ 3)); intros z _; specialize (P z); specialize (Ps z).
    - unfold G. auto_derive.
      + replace (R * (R * 1) + z * (z * 1)) with (R ^ 2 + z ^ 2) by ring. split; [exact P|]. split; [|exact Logic.I]. apply Rmult_integral_contrapositive_currified; [apply (pow_nonzero R 2); lra|lra].
      + replace (R * (R * 1) + z * (z * 1)) with (R ^ 2 + z ^ 2) by ring. set (q := sqrt (R ^ 2 + z ^ 2)) in *. assert (Eq : q ^ 2 = R ^ 2 + z ^ 2) by (apply pow2_sqrt; lra).
        rr. apply Rmult_eq_reg_r with (R ^ 2 * q ^ 3); [|apply Rmult_integral_contrapositive_currified; apply pow_nonzero; lra].
        field_simplify; [|lra|lra]. try rewrite Eq. lra || (replace (z ^ 2) with (q ^ 2 - R ^ 2) by lra; field; lra).
    - apply continuous_Rinv_comp; [|apply pow_nonzero; lra]. apply (ex_derive_continuous (fun z => sqrt (R ^ 2 + z ^ 2) ^ 3)). auto_derive. replace (R * (R * 1) + z * (z * 1)) with (R ^ 2 + z ^ 2) by ring. exact P. }
  unfold half_los. apply (lim_gen (fun z => / sqrt (R ^ 2 + z ^ 2) ^ 3) 0 (1 / R ^ 2)); [intros x _; exists (minus (G x) (G 0)); apply I|]. apply (filterlim_ext (fun x => G x)).
  { intros x. rewrite (is_RInt_unique _ _ _ _ (I x)). unfold minus, plus, opp; cbn. change (G x = G x + - G 0). unfold G at 3. unfold Rdiv. rr. ring. }
  intros Q [e He]. assert (Pe : 0 < e) by apply cond_pos. exists (R / (e * R ^ 2)). intros x Hx.
  assert (R2 : 0 < R ^ 2) by (apply pow_lt; exact HR).
  assert (Pr : 0 < e * R ^ 2) by (apply Rmult_lt_0_compat; assumption).
  assert (Px : 0 < x). { apply Rlt_trans with (2 := Hx). apply Rdiv_lt_0_compat; assumption. }
  assert (A : R < x * (e * R ^ 2)). { apply Rmult_lt_reg_r with (/ (e * R ^ 2)); [apply Rinv_0_lt_compat; exact Pr|]. replace (x * (e * R ^ 2) * / (e * R ^ 2)) with x by (field; lra). exact Hx. }
  apply He. change (Rabs (G x - 1 / R ^ 2) < e). unfold G. set (q := sqrt (R ^ 2 + x ^ 2)) in *.
  assert (Pq : 0 < q) by apply Ps. assert (q <= x + R). { unfold q. rewrite <- (sqrt_pow2 (x + R)) by lra. apply sqrt_le_1_alt. assert (0 <= x * R) by (apply Rmult_le_pos; lra). lra. }
  assert (x <= q). { unfold q. rewrite <- (sqrt_pow2 x) at 1 by lra. apply sqrt_le_1_alt. lra. }
  replace (x / (R ^ 2 * q) - 1 / R ^ 2) with (- ((q - x) / (R ^ 2 * q))) by (field; lra). rewrite Rabs_Ropp, Rabs_pos_eq.
  - apply Rmult_lt_reg_r with (R ^ 2 * q); [apply Rmult_lt_0_compat; assumption|]. replace ((q - x) / (R ^ 2 * q) * (R ^ 2 * q)) with (q - x) by (field; lra).
    apply Rle_lt_trans with R; [lra|]. apply Rlt_le_trans with (1 := A). replace (e * (R ^ 2 * q)) with (q * (e * R ^ 2)) by ring. apply Rmult_le_compat_r; lra.
  - apply Rdiv_le_0_compat; [lra|apply Rmult_lt_0_compat; assumption].
Qed.
Example C55_isothermal_met : sigmalos (fun _ _ => None) flat_halo 2 (Some (fun r => / r ^ 3)) SNone (Num 0) (Some (Num (1 / 5))) = Some (1 / 5).
Proof.
  apply C55_isothermal with (L := 1 / 2 ^ 2); try lra.
  - intros x Hx. apply continuous_Rinv_comp; [|apply pow_nonzero; lra]. apply (ex_derive_continuous (fun x => x ^ 3)). auto_derive. exact Logic.I.
  - apply (C55_cubic 2). lra.
  - intros S H. discriminate H.
Qed.
