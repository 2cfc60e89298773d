(** C58: spherical potentials given by a density through special functions, or by a table of forces. *)
From Coq Require Import Reals Lra.
From Coquelicot Require Import Coquelicot.
From Verif.Lib Require Import RealAux.
From Verif.Model Require Import PotAPI PotAxi PotSpecial.
From Verif.Spec Require Import PotSpec PotApiSpec JeansSpec DensSpec.
From Verif.Proofs Require Import AxiProofs2 PotLift NonAxiProofs JeansProofs Improper SpecialProofs DensProofs DensClasses DensCut DensTrunc DensMore.
Open Scope R_scope.
Notation RR := RbaseSymbolsImpl.R (only parsing).

Notation anywhere := (fun _ : RR => True) (only parsing).
(** What a user of a potential object relies on, for every amplitude. *)
Definition sound_on (D : RR -> Prop) (c : PotC) : Prop := forall amp,
  forces_are_gradient (off_centre D) (Single amp c) /\ hessian_is_correct (off_centre D) (Single amp c) /\ density_is_source (off_centre D) (Single amp c).

Lemma sound_of (D : RR -> Prop) (rho Phi F D2 M : RR -> RR) : (forall r, D r -> locally r D) -> gravity_of D rho Phi F D2 M ->
  sound_on D (Spherical (fun r _ => Phi r) (fun r _ => F r) (fun r _ => D2 r) (Some (fun r _ => rho r))).
Proof.
  intros HO G amp. destruct (grav_class D rho Phi F D2 M HO G) as [K S]. split; [apply (ok_force _ _ K amp)|split; [apply (ok_hess _ _ K amp)|apply S]].
Qed.
Lemma all_open r : True -> locally r (fun _ : RR => True). Proof. intros _. apply filter_forall. auto. Qed.

(** ** AnySphericalPotential *)
(** For every continuous density whose mass inside 1 and whose shells outside 1 have finite integrals: the potential, the radial force,
    the second derivative and the density belong together, and the potential is that of the shells. *)
Theorem C58_any_density : forall rho, continuous_outside rho ->
  ex_RInt_gen (fun a => a ^ 2 * rho a) (at_right 0) (at_point 1) -> ex_RInt_gen (fun a => rho a * a) (at_point 1) (Rbar_locally p_infty) ->
  gravity_of anywhere rho (AS_rev_inner rho) (AS_rforce rho) (AS_r2deriv rho) (AS_rawmass rho) /\
  shell_potential rho (AS_rawmass rho) (AS_rev_inner rho) /\ sound_on anywhere (AnySpherical rho).
Proof.
  intros rho C Ei Eo. pose proof (as_grav rho C Ei Eo) as G. split; [exact G|split; [apply as_shell; assumption|]]. apply (sound_of _ _ _ _ _ _ all_open G).
Qed.
(** Where the density is not negative, the potential falls to zero at infinity, and at the centre it tends to the value returned there:
    the integral of the shells if that is finite, minus infinity otherwise. *)
Theorem C58_any_ends : forall rho, continuous_outside rho ->
  ex_RInt_gen (fun a => a ^ 2 * rho a) (at_right 0) (at_point 1) -> ex_RInt_gen (fun a => rho a * a) (at_point 1) (Rbar_locally p_infty) ->
  (forall r, 0 < r -> 0 <= rho r) ->
  at_infinity (AS_rev_inner rho) 0 /\
  (ex_RInt_gen (fun a => a * rho a) (at_right 0) (at_point 1) -> exists v, AS_revaluate rho false false (Finite 0) = Finite v /\ at_centre (AS_rev_inner rho) v) /\
  (~ ex_RInt_gen (fun a => a * rho a) (at_right 0) (at_point 1) -> AS_revaluate rho true false (Finite 0) = m_infty /\ filterlim (AS_rev_inner rho) (at_right 0) (Rbar_locally m_infty)).
Proof.
  intros rho C Ei Eo P. assert (Z : forall b, AS_revaluate rho b false (Finite 0) = AS_pot_zero rho b) by (intros b; unfold AS_revaluate; destruct (Req_EM_T 0 0); [reflexivity|congruence]).
  split; [apply as_inf; assumption|split].
  - intros E. destruct (as_zero rho C Ei Eo P E) as (l & Hl & L). exists (- 4 * PI * l). split; [|exact L]. rewrite Z. unfold AS_pot_zero. do 2 f_equal. exact (is_RInt_gen_unique (V := R_CompleteNormedModule) (Fa := at_right 0) (Fb := Rbar_locally p_infty) _ _ Hl).
  - intros E. split; [rewrite Z; reflexivity|apply as_zero_inf; assumption].
Qed.
(** At infinity the object returns plus infinity whenever the total mass diverges, as it does for an NFW halo: yet its potential tends
    to zero there. *)
Theorem C58_any_infinity_refuted : exists rho, continuous_outside rho /\ (forall r, 0 < r -> 0 < rho r) /\
  ex_RInt_gen (fun a => a ^ 2 * rho a) (at_right 0) (at_point 1) /\ ex_RInt_gen (fun a => rho a * a) (at_point 1) (Rbar_locally p_infty) /\
  filterlim (AS_rawmass rho) (Rbar_locally p_infty) (Rbar_locally p_infty) /\
  (forall z, AS_revaluate rho z true p_infty = p_infty) /\ at_infinity (AS_rev_inner rho) 0.
Proof.
  assert (P : forall r, 0 < r -> 0 < nfw_rho r) by (intros r Hr; unfold nfw_rho; apply Rinv_0_lt_compat, Rmult_lt_0_compat; [exact Hr|apply pow_lt; lra]).
  exists nfw_rho. assert (E1 := ex_intro _ _ (nfw_m 1 Rlt_0_1)). assert (E2 := ex_intro _ _ nfw_o). split; [exact nfw_cont|split; [exact P|split; [exact E1|split; [exact E2|split; [exact nfw_diverges|split; [reflexivity|]]]]]].
  apply as_inf; [exact nfw_cont|exact E1|exact E2|]. intros r Hr. apply Rlt_le, P, Hr.
Qed.

(** ** EinastoPotential *)
(** The closed form in incomplete Gamma functions is the gravity of exp(-(r/h)^(1/n)), with total mass 4 pi h^3 n Gamma(3n), the value
    returned at the centre is the limit, and the object agrees with AnySphericalPotential of the same density. *)
Theorem C58_einasto : forall h n, 0 < h -> 0 < n -> exists M,
  gravity_of anywhere (einasto_density 1 h n) (Ei_revaluate h n) (Ei_rforce h n) (Ei_r2deriv h n) M /\
  shell_potential (einasto_density 1 h n) M (Ei_revaluate h n) /\ at_infinity M (4 * PI * h ^ 3 * n * Gamma (3 * n)) /\
  at_infinity (Ei_revaluate h n) 0 /\ at_centre (Ei_revaluate h n) (Ei_revaluate h n 0) /\
  sound_on anywhere (Einasto h n) /\
  forall r, 0 < r -> AS_rev_inner (einasto_density 1 h n) r = Ei_revaluate h n r /\ AS_rforce (einasto_density 1 h n) r = Ei_rforce h n r.
Proof.
  intros h n Hh Hn. exists (ein_mass h n). assert (E : einasto_density 1 h n = Ei_rdens h n) by (apply FunctionalExtensionality.functional_extensionality; intros r; unfold einasto_density, Ei_rdens, Ei_x; ring). rewrite E.
  pose proof (ein_grav h n Hh Hn) as G. split; [exact G|split; [apply ein_shell; assumption|split; [apply ein_mass_inf; assumption|split; [apply ein_phi_inf; assumption|split; [apply ein_core; assumption|split]]]]].
  - apply (sound_of _ _ _ _ _ _ all_open G).
  - intros r Hr. destruct (ein_same h n Hh Hn r Hr) as [E1 E2]. split; [exact E2|]. unfold AS_rforce. rewrite E1, ein_force by assumption. reflexivity.
Qed.
(** The three ways to give the length.  h is the documented scale; at rm2 the logarithmic slope of the density is -2; and rs, when the
    root finder returns a root, encloses half of the total mass. *)
Theorem C58_einasto_lengths : forall dn amp n, 0 < n ->
  (forall h r, Ei_public_dens (Ei_init dn amp n (Ei_h h)) r = einasto_density amp h n r) /\
  (forall rm2, 0 < rm2 -> let o := Ei_init dn amp n (Ei_rm2 rm2) in is_derive (Ei_public_dens o) rm2 (- 2 * Ei_public_dens o rm2 / rm2)) /\
  (forall rs, 0 < rs -> 0 < dn -> Ei_dn_eq n dn = 0 -> let o := Ei_init dn amp n (Ei_rs rs) in
     exists M T, (forall r, 0 < r -> is_RInt_gen (fun s => 4 * PI * s ^ 2 * Ei_public_dens o s) (at_right 0) (at_point r) (M r)) /\ at_infinity M T /\ M rs = T / 2).
Proof.
  intros dn amp n Hn. split; [|split].
  - intros h r. reflexivity.
  - intros rm2 Hr o. assert (Hd : 0 < 2 * n) by lra. assert (Hh : 0 < rm2 / rpow (2 * n) n) by (apply Rdiv_lt_0_compat; [exact Hr|apply rpow_pos]).
    unfold Ei_public_dens. apply (is_derive_eq _ _ _ _ (is_derive_Rscal _ _ (ei_amp o) _ (ein_slope (ei_h o) (ei_n o) Hh Hn rm2 Hr))). cbn [o Ei_init ei_h ei_n ei_amp]. rewrite (ei_x_at rm2 (2 * n) n Hr Hd Hn). match goal with |- ?a = ?b => change (@eq RR a b) end. field. lra.
  - intros rs Hr Hd E o. set (h := rs / rpow dn n). assert (Hh : 0 < h) by (apply Rdiv_lt_0_compat; [exact Hr|apply rpow_pos]).
    exists (fun r => amp * ein_mass h n r), (amp * (4 * PI * h ^ 3 * n * Gamma (3 * n))). split; [|split].
    + intros r Hr'. apply (is_RInt_gen_ext (fun s => amp * (4 * PI * s ^ 2 * Ei_rdens h n s))).
      * apply filter_forall. intros [u v] s _. unfold Ei_public_dens. cbn [o Ei_init ei_h ei_n ei_amp]. fold h. match goal with |- ?a = ?b => change (@eq RR a b) end. ring.
      * apply is_gen_scal; [apply _|apply _|]. apply (ein_grav h n Hh Hn r Hr' I).
    + pose proof (ein_mass_inf h n Hh Hn) as L. unfold at_infinity in *. apply (filterlim_comp _ _ _ (ein_mass h n) (fun y => amp * y) _ (locally (4 * PI * h ^ 3 * n * Gamma (3 * n)))); [exact L|]. apply (ex_derive_continuous (V := R_NormedModule) (fun y => amp * y)). auto_derive. exact I.
    + cbv beta. unfold ein_mass. unfold h at 2. rewrite (ei_x_at rs dn n Hr Hd Hn). pose proof (g_split (3 * n) dn ltac:(lra) Hd) as S. pose proof (g_pos (3 * n) ltac:(lra)) as P. unfold Ei_dn_eq, sp_gammaincc, sp_gamma in E. replace (Gamma_up (3 * n) dn / Gamma (3 * n) * Gamma (3 * n)) with (Gamma_up (3 * n) dn) in E by (field; lra). assert (L : Gamma_low (3 * n) dn = Gamma (3 * n) / 2) by lra. rewrite L. match goal with |- ?a = ?b => change (@eq RR a b) end. field.
Qed.
(** With rs or rm2 the documented amplitude is the density at that radius; what the object uses is smaller by exp(-dn) or exp(-2n): the
    constructor stores the rescaled amplitude where nothing reads it. *)
Theorem C58_einasto_amplitude_refuted : forall dn amp n l r, 0 < dn -> amp <> 0 -> 0 < n -> 0 < l -> 0 < r ->
  Ei_public_dens (Ei_init dn amp n (Ei_rs l)) r = exp (- dn) * einasto_half amp l dn n r /\
  Ei_public_dens (Ei_init dn amp n (Ei_rm2 l)) r = exp (- (2 * n)) * einasto_rm2 amp l n r /\
  Ei_public_dens (Ei_init dn amp n (Ei_rs l)) r <> einasto_half amp l dn n r /\
  Ei_public_dens (Ei_init dn amp n (Ei_rm2 l)) r <> einasto_rm2 amp l n r.
Proof.
  intros dn amp n l r Hd Ha Hn Hl Hr.
  assert (E1 : Ei_public_dens (Ei_init dn amp n (Ei_rs l)) r = exp (- dn) * einasto_half amp l dn n r).
  { unfold Ei_public_dens, einasto_half. cbn [Ei_init ei_h ei_n ei_amp]. unfold Ei_rdens. rewrite (ei_x_scaled l dn n r Hl Hd Hn Hr). replace (exp (- dn) * (amp * exp (- dn * (rpow (r / l) (1 / n) - 1)))) with (amp * (exp (- dn) * exp (- dn * (rpow (r / l) (1 / n) - 1)))) by ring. rewrite <- exp_plus. do 2 f_equal. ring. }
  assert (E2 : Ei_public_dens (Ei_init dn amp n (Ei_rm2 l)) r = exp (- (2 * n)) * einasto_rm2 amp l n r).
  { unfold Ei_public_dens, einasto_rm2. cbn [Ei_init ei_h ei_n ei_amp]. unfold Ei_rdens. rewrite (ei_x_scaled l (2 * n) n r Hl ltac:(lra) Hn Hr). replace (exp (- (2 * n)) * (amp * exp (- (2 * n) * (rpow (r / l) (1 / n) - 1)))) with (amp * (exp (- (2 * n)) * exp (- (2 * n) * (rpow (r / l) (1 / n) - 1)))) by ring. rewrite <- exp_plus. do 2 f_equal. ring. }
  assert (X : forall d y, 0 < d -> exp (- d) * (amp * exp y) <> amp * exp y).
  { intros d y Hd' E. assert (Q : exp (- d) < 1) by (rewrite <- exp_0; apply exp_increasing; lra). pose proof (exp_pos y) as Y. assert (Z : (exp (- d) - 1) * (amp * exp y) = 0) by lra. apply Rmult_integral in Z. destruct Z as [Z|Z]; [lra|]. apply Rmult_integral in Z. destruct Z; [contradiction|lra]. }
  split; [exact E1|split; [exact E2|split; [rewrite E1; apply X; exact Hd|rewrite E2; apply X; lra]]].
Qed.

(** ** PowerSphericalPotentialwCutoff *)
(** The density is the documented one, the mass (a confluent hypergeometric function) is its integral for alpha < 3 with the returned
    total, and for alpha < 2 the potential, the forces and the second derivatives belong to it and the potential vanishes at the centre. *)
Theorem C58_cutoff : forall alpha rc, 0 < rc -> alpha < 3 ->
  (forall amp r1 R z, 0 < r1 -> 0 < PC_r R z -> PC_amp amp r1 alpha * PC_dens alpha rc R z = cutoff_density amp r1 alpha rc (PC_r R z)) /\
  (forall r, 0 < r -> is_RInt_gen (fun s => 4 * PI * s ^ 2 * cutoff_density 1 1 alpha rc s) (at_right 0) (at_point r) (PC_mass alpha rc r)) /\
  at_infinity (PC_mass alpha rc) (PC_mass_inf alpha rc) /\
  (alpha < 2 -> at_centre (PC_rev alpha rc) (PC_rev alpha rc 0) /\ sound_on anywhere (PowerSphericalwCutoff alpha rc)).
Proof.
  intros alpha rc Hrc Ha. split; [|split; [|split]].
  - intros amp r1 R z H1 Hr. rewrite pc_rho_at. apply pc_documented; assumption.
  - intros r Hr. apply (is_RInt_gen_ext (fun s => 4 * PI * s ^ 2 * pc_rho alpha rc s)).
    + exists (fun x => 0 < x) (fun x => x = r); [apply right_pos|reflexivity|]. intros x y Hx -> s Hs. cbn in Hs. assert (S0 : 0 < s) by (destruct Hs as [Hs _]; eapply Rle_lt_trans; [|exact Hs]; apply Rmin_glb; lra). rewrite <- (pc_documented 1 1 alpha rc s Rlt_0_1 S0). unfold PC_amp. replace (rpow 1 alpha) with 1 by (unfold rpow, Rpower; rewrite ln_1, Rmult_0_r, exp_0; reflexivity). match goal with |- ?a = ?b => change (@eq RR a b) end. ring.
    + apply (low_ftc _ (PC_mass alpha rc)); [| | |exact Hr].
      * intros x Hx. apply (continuous_mult (K := R_AbsRing) (fun s => 4 * PI * s ^ 2) (pc_rho alpha rc)); [|apply pc_cont; assumption]. apply (ex_derive_continuous (V := R_NormedModule)). auto_derive. exact I.
      * intros x Hx. apply pc_mass_d; assumption.
      * apply pc_mass_0; assumption.
  - apply pc_mass_lim; assumption.
  - intros Ha2. split; [apply pc_centre; assumption|]. intros amp. pose proof (pc_sph_ok alpha rc Hrc Ha Ha2) as K.
    assert (W : forall R z phi t, off_centre anywhere R z phi t -> DSph (fun r _ => 0 < r) R z phi t) by (intros R z phi t (H1 & H2 & _); split; assumption).
    split; [|split].
    + apply (forces_mono _ _ _ W). apply (ok_force _ _ K amp).
    + apply (hessian_mono _ _ _ W). apply (ok_hess _ _ K amp).
    + apply (density_mono _ _ _ W). apply pc_density; assumption.
Qed.

(** Its JAX force, the derivatives of the density and the derivative of the density times r^(2 beta), as the spherical distribution
    functions use them. *)
Theorem C58_cutoff_derivatives : forall alpha rc amp beta r, 0 < rc -> alpha < 3 -> 0 < r ->
  PC_rforce_jax alpha rc amp r = amp * (- PC_mass alpha rc r / r ^ 2) /\
  is_derive (fun x => amp * cutoff_density 1 1 alpha rc x) r (PC_ddensdr alpha rc amp r) /\
  is_derive (PC_ddensdr alpha rc amp) r (PC_d2densdr2 alpha rc amp r) /\
  is_derive (fun x => amp * cutoff_density 1 1 alpha rc x * rpow x (2 * beta)) r (PC_ddenstwobetadr alpha rc amp beta r).
Proof.
  intros alpha rc amp beta r Hrc Ha Hr. assert (N : locally r (fun x => pc_rho alpha rc x = cutoff_density 1 1 alpha rc x)).
  { apply filter_imp with (2 := pos_near r Hr). intros x Hx. rewrite <- (pc_documented 1 1 alpha rc x Rlt_0_1 Hx). unfold PC_amp. replace (rpow 1 alpha) with 1 by (unfold rpow, Rpower; rewrite ln_1, Rmult_0_r, exp_0; reflexivity). ring. }
  split; [apply pc_jax; assumption|split; [|split; [apply pc_curve; assumption|]]].
  - apply is_derive_ext_loc with (2 := pc_slope alpha rc amp r Hrc Hr). apply filter_imp with (2 := N). intros x E. rewrite E. reflexivity.
  - apply is_derive_ext_loc with (2 := pc_twobeta alpha rc amp beta r Hrc Hr). apply filter_imp with (2 := N). intros x E. rewrite E. reflexivity.
Qed.

(** ** ExpTruncNFWPotential *)
(** The closed form is the gravity of the NFW density times exp(-r/rc) at every radius; the code uses it from 0.001 min(a, rc) outwards,
    and its mass tends to the total it stores, which is positive. *)
Theorem C58_truncated : forall a rc, 0 < a -> 0 < rc ->
  let rho := fun r => nfw_density 1 a r * exp (- r / rc) in
  (exists Phi F D2 M, gravity_of anywhere rho Phi F D2 M /\ shell_potential rho M Phi /\
     forall r, 1 / 1000 * Rmin a rc <= r -> ET_revaluate a rc r = Phi r /\ ET_rforce a rc r = F r /\ ET_r2deriv a rc r = D2 r /\ ET_mass a rc r = M r) /\
  (forall r, 0 < r -> ET_rdens a rc r = rho r) /\
  sound_on (fun r => 1 / 1000 * Rmin a rc < r) (ExpTruncNFW a rc) /\
  at_infinity (ET_mass a rc) (ET_Ftot a rc) /\ 0 < ET_Ftot a rc.
Proof.
  intros a rc Ha Hrc rho. assert (E : forall r, 0 < r -> ET_rdens a rc r = rho r) by (intros r Hr; pose proof (et_nfw a rc Ha 1 r Hr) as E; unfold rho; lra).
  split; [|split; [exact E|split; [|split; [apply et_mass_inf; assumption|apply et_tot_pos; assumption]]]].
  - exists (et_Phi a rc), (et_F a rc), (et_D2 a rc), (ET_F_closed a rc). split; [|split; [|intros r Hr; apply et_code; assumption]].
    + intros r Hr _. destruct (et_grav a rc Ha Hrc r Hr I) as (H1 & H2 & H3 & H4 & H5). rewrite <- (E r Hr). split; [exact H1|split; [exact H2|split; [exact H3|split; [exact H4|]]]].
      apply is_RInt_gen_ext with (2 := H5). exists (fun x => 0 < x) (fun x => x = r); [apply right_pos|reflexivity|]. intros x y Hx -> s Hs. cbn in Hs. assert (S0 : 0 < s) by (destruct Hs as [Hs _]; eapply Rle_lt_trans; [|exact Hs]; apply Rmin_glb; lra). rewrite (E s S0). reflexivity.
    + intros r Hr. destruct (et_shell a rc Ha Hrc r Hr) as (o & H & EP). exists o. split; [|exact EP]. apply is_RInt_gen_ext with (2 := H). exists (fun x => x = r) (fun x => 0 < x); [reflexivity|exists 0; auto|]. intros x y -> Hy s Hs. cbn in Hs. assert (S0 : 0 < s) by (destruct Hs as [Hs _]; eapply Rle_lt_trans; [|exact Hs]; apply Rmin_glb; lra). rewrite (E s S0). reflexivity.
  - apply (sound_of (fun r => 1 / 1000 * Rmin a rc < r) _ _ _ _ _ (fun r Hr => open_gt _ r Hr) (et_code_grav a rc Ha Hrc)).
Qed.
(** Below that radius the mass comes from a series: it is within one part in 10^11 of the exact mass, at every radius and for all
    parameters; and the potential and the force tend to the values returned at the centre. *)
Theorem C58_truncated_centre : forall a rc, 0 < a -> 0 < rc ->
  (forall r, 0 < r < 1 / 1000 * Rmin a rc -> exists M,
     is_RInt_gen (fun s => 4 * PI * s ^ 2 * (nfw_density 1 a s * exp (- s / rc))) (at_right 0) (at_point r) M /\ 0 < M /\ Rabs (ET_mass a rc r - M) <= / 100000000000 * M) /\
  at_centre (ET_revaluate a rc) (ET_revaluate a rc 0) /\ at_centre (ET_rforce a rc) (ET_rforce a rc 0).
Proof.
  intros a rc Ha Hrc. split; [|split; [apply et_phi_centre; assumption|apply et_force_centre; assumption]].
  intros r Hr. exists (ET_F_closed a rc r). split; [|apply series_rel; assumption]. destruct (et_grav a rc Ha Hrc r (proj1 Hr) I) as (_ & _ & _ & _ & H). apply is_RInt_gen_ext with (2 := H). exists (fun x => 0 < x) (fun x => x = r); [apply right_pos|reflexivity|]. intros x y Hx -> s Hs. cbn in Hs. assert (S0 : 0 < s) by (destruct Hs as [Hs _]; eapply Rle_lt_trans; [|exact Hs]; apply Rmin_glb; lra). pose proof (et_nfw a rc Ha 1 s S0) as E. rewrite <- E. f_equal. ring.
Qed.
Theorem C58_truncated_derivatives : forall a rc amp beta r, 0 < a -> 0 < rc -> 0 < r ->
  is_derive (fun x => amp * ET_rdens a rc x) r (ET_ddensdr a rc amp r) /\ is_derive (ET_ddensdr a rc amp) r (ET_d2densdr2 a rc amp r) /\
  is_derive (fun x => amp * ET_rdens a rc x * rpow x (2 * beta)) r (ET_ddenstwobetadr a rc amp beta r).
Proof. intros a rc amp beta r Ha Hrc Hr. split; [apply et_slope; assumption|split; [apply et_curve; assumption|apply et_twobeta; assumption]]. Qed.
(** Given a mass, the constructor's total mass is that mass.  from_nfw keeps the amplitude and the scale, so the density is the NFW
    density times exp(-r/rc); given a mass in its range it finds the only truncation radius with that total mass. *)
Theorem C58_given_mass : forall a rc amp m, 0 < a -> 0 < rc -> at_infinity (fun r => ET_amp a rc amp (Some m) * ET_mass a rc r) m.
Proof.
  intros a rc amp m Ha Hrc. unfold at_infinity. pose proof (et_given_mass a rc Ha Hrc amp m) as E. set (k := ET_amp a rc amp (Some m)) in *. rewrite <- E. apply (filterlim_comp _ _ _ (ET_mass a rc) (fun y => k * y) _ (locally (ET_Ftot a rc))); [apply et_mass_inf; assumption|]. apply (ex_derive_continuous (V := R_NormedModule) (fun y => k * y)). auto_derive. exact I.
Qed.
Theorem C58_from_nfw : forall root A a, 0 < A -> 0 < a ->
  (forall t, 0 < t -> 0 < root t /\ ET_Fal (root t) = t) ->
  (forall rc, 0 < rc -> ET_from_nfw root A a (Some rc) None = Some (A, a, rc)) /\
  (forall m, 0 < m -> forall A' a' rc', ET_from_nfw root A a None (Some m) = Some (A', a', rc') ->
     A' = A /\ a' = a /\ 0 < rc' /\ at_infinity (fun r => A' * ET_mass a' rc' r) m /\
     forall rc, 0 < rc -> A * ET_Ftot a rc = m -> rc = rc') /\
  (forall m, ET_Fal 690 <= m / A <= ET_Fal (rpow 10 (- 150)) -> ET_from_nfw root A a None (Some m) <> None) /\
  (forall rc m, ET_from_nfw root A a (Some rc) (Some m) = None) /\ ET_from_nfw root A a None None = None.
Proof.
  intros root A a HA Ha HR. split; [reflexivity|split; [|split; [|split; reflexivity]]].
  - intros m Hm A' a' rc' E. unfold ET_from_nfw in E. destruct (Rlt_dec 0 _) as [_|_] in E; [discriminate|]. destruct (Rlt_dec _ 0) as [_|_] in E; [discriminate|]. injection E as <- <- <-. assert (Ht : 0 < m / A) by (apply Rdiv_lt_0_compat; assumption). destruct (HR _ Ht) as [R0 R1]. set (x := root (m / A)) in *.
    assert (Hrc : 0 < a / x) by (apply Rdiv_lt_0_compat; assumption). assert (Ex : ET_alpha a (a / x) = x) by (unfold ET_alpha; field; lra).
    assert (T : A * ET_Ftot a (a / x) = m) by (unfold ET_Ftot; rewrite Ex; fold (ET_Fal x); rewrite R1; field; lra).
    split; [reflexivity|split; [reflexivity|split; [exact Hrc|split]]].
    + unfold at_infinity. clearbody x. rewrite <- T. apply (filterlim_comp _ _ _ (ET_mass a (a / x)) (fun y => A * y) _ (locally (ET_Ftot a (a / x)))); [apply et_mass_inf; assumption|]. apply (ex_derive_continuous (V := R_NormedModule) (fun y => A * y)). auto_derive. exact I.
    + intros rc Hc Em. assert (P : 0 < a / rc) by (apply Rdiv_lt_0_compat; assumption). assert (Q : ET_Fal (a / rc) = ET_Fal x). { rewrite R1. rewrite <- Em. unfold ET_Ftot, ET_alpha. fold (ET_Fal (a / rc)). field. lra. }
      assert (X : a / rc = x). { destruct (Rtotal_order (a / rc) x) as [L|[L|L]]; [|exact L|]; exfalso; [pose proof (fal_down _ _ P L)|pose proof (fal_down _ _ R0 L)]; lra. } rewrite <- X. field. lra.
  - intros m Hm. unfold ET_from_nfw. destruct (Rlt_dec 0 _); [lra|]. destruct (Rlt_dec _ 0); [lra|discriminate].
Qed.
(** The root the documentation speaks of exists, for every target, and is the only one. *)
Theorem C58_root_unique : forall t, 0 < t -> exists x, (0 < x /\ ET_Fal x = t) /\ forall y, 0 < y -> ET_Fal y = t -> y = x.
Proof.
  intros t Ht. destruct (fal_reach t Ht) as (x & Hx & E). exists x. split; [split; assumption|]. intros y Hy Ey. destruct (Rtotal_order y x) as [L|[L|L]]; [|exact L|]; exfalso; [pose proof (fal_down _ _ Hy L)|pose proof (fal_down _ _ Hx L)]; lra.
Qed.
(** The documentation says that there is no upper limit on the mass: at 400 times the NFW amplitude and above there is one, because the
    root is only sought above 1e-150. *)
Theorem C58_no_upper_limit_refuted : forall root A a m, 0 < A -> 400 <= m / A -> ET_from_nfw root A a None (Some m) = None.
Proof. intros root A a m HA Hm. unfold ET_from_nfw. destruct (Rlt_dec 0 _); [reflexivity|]. pose proof fal_small. destruct (Rlt_dec _ 0); [reflexivity|lra]. Qed.

(** ** interpSphericalPotential *)
(** For a spline S with antiderivative P and continuous derivative DS: the radial force is minus the derivative of the potential at
    every radius, the end of the table included; inside the table force, second derivative, density and mass belong together; outside the
    potential is that of the mass enclosed; the potential at the first grid point is the one asked for; and it follows the true
    potential as closely as the spline follows the true force. *)
Theorem C58_interpolated : forall (S P DS : RR -> RR) (rmin rmax Phi0 : RR), 0 < rmin -> rmin < rmax ->
  (forall r, is_derive P r (S r)) -> (forall r, is_derive S r (DS r)) -> (forall r, continuous DS r) ->
  let Phi := IS_rev S P rmin rmax Phi0 in let F := IS_rforce S rmax in let M := fun r => r ^ 2 * - F r in
  (forall r, 0 < r -> is_derive Phi r (- F r)) /\
  gravity_of (fun r => r < rmax) (IS_rdens S DS rmax) Phi F (IS_r2deriv S DS rmax) M /\
  (forall r, r < rmax -> F r = S r) /\
  (forall r, rmax <= r -> IS_rdens S DS rmax r = 0 /\ M r = IS_total_mass S rmax) /\
  (forall r, rmax < r -> is_derive (fun x => - F x) r (IS_r2deriv S DS rmax r)) /\
  filterlim M (locally rmax) (locally (IS_total_mass S rmax)) /\
  Phi rmin = Phi0 /\
  (forall Phi' F' eps r, (forall x, rmin <= x <= rmax -> is_derive Phi' x (- F' x)) -> Phi' rmin = Phi0 -> (forall x, rmin <= x <= rmax -> Rabs (S x - F' x) <= eps) ->
     rmin <= r <= rmax -> Rabs (Phi r - Phi' r) <= eps * (r - rmin)) /\
  sound_on (fun r => r <> rmax) (InterpSpherical S P DS rmin rmax Phi0).
Proof.
  intros S P DS rmin rmax Phi0 H0 H1 HP HS CD Phi F M. assert (Hm : 0 < rmax) by lra.
  split; [intros r Hr; apply (is_force S P rmin rmax Phi0 Hm HP r Hr)|]. split; [apply (is_gravity S P DS rmin rmax Phi0 Hm HP HS CD)|].
  split; [intros r Hr; unfold F, IS_rforce; destruct (Rle_dec rmax r); [lra|reflexivity]|]. split; [intros r Hr; apply (is_kepler S DS rmax Hm r Hr)|].
  split; [intros r Hr; apply (is_hess S DS rmax Hm HS r); lra|]. split; [apply (is_mass_cont S DS rmax Hm HS)|]. split; [apply (is_rmin S P rmin rmax Phi0); assumption|].
  split; [intros Phi' F' eps r D E B Hr; apply (is_close S P rmin rmax Phi0 Hm HP Phi' F' eps r); assumption|].
  intros amp. set (Dr := fun r (_ : RR) => 0 < r /\ r <> rmax).
  assert (Ho : forall r t, Dr r t -> locally r (fun x => Dr x t)). { intros r t [Hr N]. apply filter_and; [apply pos_near; exact Hr|]. apply open_neq. exact N. }
  assert (A1 : forall r t, Dr r t -> is_derive (fun x => Phi x) r (- F r)) by (intros r t [Hr _]; apply (is_force S P rmin rmax Phi0 Hm HP r Hr)).
  assert (A2 : forall r t, Dr r t -> is_derive (fun x => - F x) r (IS_r2deriv S DS rmax r)) by (intros r t [Hr N]; apply (is_hess S DS rmax Hm HS r Hr N)).
  assert (K : ClassOK (DSph Dr) (InterpSpherical S P DS rmin rmax Phi0)) by (apply Spherical_ok; [intros r t [Hr _]; exact Hr|exact A1|exact A2]).
  split; [apply (ok_force _ _ K amp)|split; [apply (ok_hess _ _ K amp)|]].
  change (off_centre (fun r => r <> rmax)) with (DSph Dr). unfold InterpSpherical. apply (Spherical_density (fun r _ => Phi r) (fun r _ => F r) (fun r _ => IS_r2deriv S DS rmax r) (Some (fun r _ => IS_rdens S DS rmax r)) Dr); [intros r t [Hr _]; exact Hr|exact A1|exact A2| |apply slice_open_sph; exact Ho]. intros f r t E [Hr _]. injection E as <-. apply (is_poisson S DS rmax r Hr).
Qed.

(** ** the hypotheses are met *)
(** Einasto: the root that the constructor looks for exists for every index. *)
Example C58_ex_root : forall n, 0 < n -> exists dn, 0 < dn /\ Ei_dn_eq n dn = 0.
Proof.
  intros n Hn. assert (H3 : 0 < 3 * n) by lra. pose proof (g_pos _ H3) as G. assert (Q : 0 < Gamma (3 * n) / 4) by lra.
  assert (L1 : locally (Gamma (3 * n)) (fun y => Gamma (3 * n) / 2 < y)) by (apply (open_gt (Gamma (3 * n) / 2)); lra).
  assert (L2 : locally 0 (fun y => y < Gamma (3 * n) / 2)) by (apply (open_lt (Gamma (3 * n) / 2)); lra).
  assert (B1 : at_right 0 (fun x => Gamma (3 * n) / 2 < Gamma_up (3 * n) x)) by exact (gu_zero (3 * n) H3 _ L1).
  destruct (filter_ex (F := at_right 0) _ (filter_and _ _ B1 right_pos)) as (x1 & A1 & P1).
  assert (B2 : Rbar_locally p_infty (fun x => Gamma_up (3 * n) x < Gamma (3 * n) / 2)) by exact (gu_lim (3 * n) _ L2).
  assert (B3 : Rbar_locally p_infty (fun x => x1 < x)) by (exists x1; auto).
  destruct (filter_ex (F := Rbar_locally p_infty) _ (filter_and _ _ B2 B3)) as (x2 & A2 & P2).
  destruct (Ranalysis5.IVT_interv (fun x => Gamma (3 * n) / 2 - Gamma_up (3 * n) x) x1 x2) as (x & Hx & E).
  - intros z Hz. apply continuity_pt_filterlim. apply (ex_derive_continuous (V := R_NormedModule) (fun x => Gamma (3 * n) / 2 - Gamma_up (3 * n) x)). eexists. apply (is_derive_minus (fun _ => Gamma (3 * n) / 2) (Gamma_up (3 * n))); [apply (is_derive_const (V := R_NormedModule) (Gamma (3 * n) / 2))|apply gu_derive; lra].
  - exact P2.
  - lra.
  - lra.
  - exists x. split; [lra|]. unfold Ei_dn_eq, sp_gammaincc, sp_gamma. replace (Gamma_up (3 * n) x / Gamma (3 * n) * Gamma (3 * n)) with (Gamma_up (3 * n) x) by (field; lra). lra.
Qed.
(** AnySphericalPotential's default density, 0.64/r/(1+r)^3, is a Hernquist sphere; here a density of finite mass and finite depth. *)
Example C58_ex_any : let rho := einasto_density 1 2 1 in continuous_outside rho /\
  ex_RInt_gen (fun a => a ^ 2 * rho a) (at_right 0) (at_point 1) /\ ex_RInt_gen (fun a => rho a * a) (at_point 1) (Rbar_locally p_infty) /\ (forall r, 0 < r -> 0 <= rho r).
Proof.
  intros rho. assert (E : rho = Ei_rdens 2 1) by (apply FunctionalExtensionality.functional_extensionality; intros r; unfold rho, einasto_density, Ei_rdens, Ei_x; ring). rewrite E.
  split; [apply ein_cont; lra|split; [apply ein_in1; lra|split; [apply ein_out1; lra|intros r Hr; apply (ein_pos 2 1 r Hr)]]].
Qed.
(** An exact root finder exists. *)
Example C58_ex_solver : forall t, 0 < t -> exists x, 0 < x /\ ET_Fal x = t. Proof. exact fal_reach. Qed.
(** A "table" of the force of a homogeneous sphere. *)
Example C58_ex_table : (forall r, is_derive (fun x : RR => - x ^ 2 / 2) r (- r)) /\ (forall r : RR, is_derive (fun x : RR => - x) r (-1)) /\ (forall r : RR, continuous (fun _ : RR => -1) r).
Proof.
  split; [|split].
  - intros r. auto_derive; [exact I|]. field.
  - intros r. auto_derive; [exact I|]. ring.
  - intros r. apply continuous_const.
Qed.
Example C58_ex_table_values : IS_total_mass (fun x => - x) 2 = 8 /\ IS_rdens (fun x => - x) (fun _ => -1) 2 1 = 3 / (4 * PI).
Proof. pose proof PI_RGT_0. unfold IS_total_mass, IS_rdens, IS_r2deriv, IS_rforce. destruct (Rle_dec 2 1); [lra|]. split; [ring|field; lra]. Qed.
Example C58_ex_masses : ET_Fal 690 <= ET_Fal 1 <= ET_Fal (rpow 10 (- 150)) /\ (1 : RR) < 3 /\ 0 < ET_Fal 1.
Proof.
  split; [split|split; [lra|apply fal_pos; lra]]; [apply Rlt_le, fal_down; lra|]. apply Rlt_le, fal_down; [apply rpow_pos|]. unfold rpow, Rpower. rewrite <- exp_0. apply exp_increasing. assert (0 < ln 10) by (rewrite <- ln_1; apply ln_increasing; lra). lra.
Qed.

Print Assumptions C58_any_density.
Print Assumptions C58_any_ends.
Print Assumptions C58_any_infinity_refuted.
Print Assumptions C58_einasto.
Print Assumptions C58_einasto_lengths.
Print Assumptions C58_einasto_amplitude_refuted.
Print Assumptions C58_cutoff.
Print Assumptions C58_cutoff_derivatives.
Print Assumptions C58_truncated.
Print Assumptions C58_truncated_centre.
Print Assumptions C58_truncated_derivatives.
Print Assumptions C58_given_mass.
Print Assumptions C58_from_nfw.
Print Assumptions C58_root_unique.
Print Assumptions C58_no_upper_limit_refuted.
Print Assumptions C58_interpolated.
