(** C51: action-angle variables of spherical and of one-dimensional potentials *)
From Coq Require Import Reals Lra Lia ZArith.
From Coquelicot Require Import Coquelicot.
From Verif.Lib Require Import RealAux.
From Verif.Model Require Import Spherical.
From Verif.Spec Require Import ActionAngleSpec StaeckelSpec SphericalSpec.
From Verif.Proofs Require Import AngleProofs EOMProofs StaeckelProofs KuzminKutuzovProofs StaeckelParts Libration ChiPrim SubstPrim SphericalOrbit SphericalAngles VerticalAngles JzIntegral.
Open Scope R_scope.
Notation RR := RbaseSymbolsImpl.R (only parsing).
Ltac rr := match goal with |- ?a = ?b => change (@eq RR a b) end.

(** In every spherical potential, along every orbit that swings between simple turning points rperi and rap and is not a retrograde orbit in the plane
    z = 0: the actions and the frequencies are the same at every time, the angles lie in [0, 2 pi) and advance linearly in time, each at its frequency,
    and they are counted from pericentre and from the ascending node. *)
Theorem C51_spherical_angles : forall Phi F (R vR vT z vz phi : RR -> RR) (a b t0 rperi rap : RR) epi circ,
  radial_force Phi F -> (forall t, a < t < b -> moves (central_R F) (central_z F) R vR vT z vz phi t) -> a < t0 < b ->
  let E := sph_energy Phi (R t0) (vR t0) (vT t0) (z t0) (vz t0) in
  let L := sph_momentum (R t0) (vR t0) (vT t0) (z t0) (vz t0) in
  let Lz := R t0 * vT t0 in
  0 < rperi -> simple_well (sph_radial2 Phi E L) rperi rap -> rperi <= sph_radius (R t0) (z t0) <= rap -> - L < Lz -> / 10 ^ 9 <= calc_jr Phi E L rperi rap ->
  exists Jr Or Oz (tr tp tz : RR -> RR), 0 < Or /\ 0 < Oz /\
    (forall t, a < t < b -> sphericalAA Phi epi circ rperi rap (R t) (vR t) (vT t) (z t) (vz t) (phi t) =
       mkAA9 Jr Lz (L - Rabs Lz) Or (if Rlt_dec Lz 0 then - Oz else Oz) Oz (tr t) (tp t) (tz t) /\
       0 <= tr t < 2 * PI /\ 0 <= tp t < 2 * PI /\ 0 <= tz t < 2 * PI) /\
    (forall t t', a < t < b -> a < t' < b -> same_angle (tr t') (tr t + Or * (t' - t)) /\
       same_angle (tp t') (tp t + (if Rlt_dec Lz 0 then - Oz else Oz) * (t' - t)) /\ same_angle (tz t') (tz t + Oz * (t' - t))) /\
    (forall t, a < t < b -> sph_radius (R t) (z t) = rperi -> z t = 0 -> 0 < vz t -> same_angle (tr t) 0 /\ same_angle (tp t) (phi t) /\ same_angle (tz t) 0).
Proof.
  intros Phi F R vR vT z vz phi a b t0 rperi rap epi circ HF M Ht0 E L Lz Hp W Hr Hi Hj.
  exact (sph_package Phi F R vR vT z vz phi a b t0 rperi rap HF M Ht0 Hp W Hr Hi epi circ Hj).
Qed.
Print Assumptions C51_spherical_angles.

(** What the radial action and frequency mean: from a pericentre to the next apocentre the integral of vr^2 over time (the integral of vr dr) is
    pi Jr, and the time is pi / Omega_r. *)
Theorem C51_spherical_period : forall Phi F (R vR vT z vz phi : RR -> RR) (a b t0 rperi rap tp ta : RR) epi circ,
  radial_force Phi F -> (forall t, a < t < b -> moves (central_R F) (central_z F) R vR vT z vz phi t) -> a < t0 < b ->
  let E := sph_energy Phi (R t0) (vR t0) (vT t0) (z t0) (vz t0) in
  let L := sph_momentum (R t0) (vR t0) (vT t0) (z t0) (vz t0) in
  let Lz := R t0 * vT t0 in
  0 < rperi -> simple_well (sph_radial2 Phi E L) rperi rap -> rperi <= sph_radius (R t0) (z t0) <= rap -> - L < Lz -> / 10 ^ 9 <= calc_jr Phi E L rperi rap ->
  let r := fun t => sph_radius (R t) (z t) in let vr := fun t => sph_speed (R t) (vR t) (z t) (vz t) in
  let aa := sphericalAA Phi epi circ rperi rap (R t0) (vR t0) (vT t0) (z t0) (vz t0) (phi t0) in
  a < tp < b -> a < ta < b -> tp < ta -> r tp = rperi -> r ta = rap -> (forall t, tp < t < ta -> 0 < vr t) ->
  (forall t, a < t < b -> is_derive r t (vr t)) /\
  is_RInt (fun t => vr t ^ 2) tp ta (PI * a_jr aa) /\ (ta - tp) * a_Or aa = PI.
Proof.
  intros Phi F R vR vT z vz phi a b t0 rperi rap tp ta epi circ HF M Ht0 E L Lz Hp W Hr Hi Hj r vr aa H1 H2 H3 H4 H5 H6.
  pose proof (spherical_result Phi F R vR vT z vz phi a b t0 rperi rap HF M Ht0 Hp W Hr epi circ Hj t0 Ht0) as X. unfold aa. rewrite X. cbn [a_jr a_Or].
  split; [intros t Ht; exact (r_rate F R vR vT z vz phi a b M t Ht)|].
  exact (half_period Phi F R vR vT z vz phi a b t0 rperi rap HF M Ht0 Hp W Hr tp ta H1 H2 H3 H4 H5 H6).
Qed.
Print Assumptions C51_spherical_period.

(** The vertical action is the integral of p_theta dtheta around the loop over 2 pi: with p_theta = - (z vR - R vz), p_theta^2 = L^2 - Lz^2 / sin^2 theta at every
    point of phase space, and four times its integral from the turning point to the plane is 2 pi (L - |Lz|). *)
Theorem C51_jz : forall Phi epi circ rperi rap R vR vT z vz phi, 0 < R -> vT <> 0 ->
  let aa := sphericalAA Phi epi circ rperi rap R vR vT z vz phi in let L := sph_momentum R vR vT z vz in
  (z * vR - R * vz) ^ 2 = L ^ 2 - a_lz aa ^ 2 / (R / sph_radius R z) ^ 2 /\
  is_RInt (fun th => sqrt (L ^ 2 - a_lz aa ^ 2 / sin th ^ 2)) (asin (Rabs (a_lz aa) / L)) (PI / 2) (2 * PI / 4 * a_jz aa).
Proof.
  intros Phi epi circ rperi rap R vR vT z vz phi HR HT aa L. destruct (L_sq (fun _ => R) (fun _ => vR) (fun _ => vT) (fun _ => z) (fun _ => vz) 0) as [Q P]. cbv zeta beta in Q, P. fold L in Q, P.
  assert (EL : a_lz aa = R * vT) by (unfold aa, sphericalAA; rewrite sph_init_spec; reflexivity).
  assert (EJ : a_jz aa = L - Rabs (R * vT)) by (unfold aa, sphericalAA; rewrite sph_init_spec; reflexivity). rewrite EL, EJ.
  assert (NZ : R * vT <> 0) by (apply Rmult_integral_contrapositive; split; lra). pose proof (Rabs_pos_lt _ NZ) as AP.
  assert (Le : Rabs (R * vT) <= L). { rewrite <- (Rabs_pos_eq L P). apply Rsqr_le_abs_0. rewrite !Rsqr_pow2, Q. pose proof (pow2_ge_0 (z * vT)). pose proof (pow2_ge_0 (z * vR - R * vz)). lra. }
  split.
  - assert (RP : 0 < R ^ 2 + z ^ 2) by (pose proof (pow2_ge_0 z); assert (0 < R ^ 2) by (apply pow_lt; exact HR); lra). rewrite Q. unfold sph_radius. replace ((R / sqrt (R ^ 2 + z ^ 2)) ^ 2) with (R ^ 2 / sqrt (R ^ 2 + z ^ 2) ^ 2) by (field; apply Rgt_not_eq, sqrt_lt_R0; exact RP).
    rewrite pow2_sqrt by lra. field. split; lra.
  - pose proof (jz_integral L (Rabs (R * vT)) (conj AP Le)) as I. rewrite pow2_abs in I. replace (2 * PI / 4 * (L - Rabs (R * vT))) with (PI / 2 * (L - Rabs (R * vT))) by field. exact I.
Qed.
Print Assumptions C51_jz.

(** EccZmaxRperiRap: the orbit stays between rperi and rap and within zmax of the plane. *)
Theorem C51_spherical_extent : forall Phi F (R vR vT z vz phi : RR -> RR) (a b t0 rperi rap : RR),
  radial_force Phi F -> (forall t, a < t < b -> moves (central_R F) (central_z F) R vR vT z vz phi t) -> a < t0 < b ->
  let E := sph_energy Phi (R t0) (vR t0) (vT t0) (z t0) (vz t0) in
  let L := sph_momentum (R t0) (vR t0) (vT t0) (z t0) (vz t0) in
  0 < rperi -> simple_well (sph_radial2 Phi E L) rperi rap -> rperi <= sph_radius (R t0) (z t0) <= rap -> - L < R t0 * vT t0 ->
  exists e zmax, (forall t, a < t < b -> sphericalEcc Phi rperi rap (R t) (vR t) (vT t) (z t) (vz t) = (e, zmax, rperi, rap) /\
    rperi <= sph_radius (R t) (z t) <= rap /\ Rabs (z t) <= zmax) /\ 0 < e < 1 /\ rap * (1 - e) = rperi * (1 + e).
Proof.
  intros Phi F R vR vT z vz phi a b t0 rperi rap HF M Ht0 E L Hp W Hr Hi. exists ((rap - rperi) / (rap + rperi)), (rap * sqrt (1 - (R t0 * vT t0) ^ 2 / L ^ 2)). pose proof W as (LL & _).
  split; [|split; [split; [apply Rdiv_lt_0_compat; lra|apply (Rmult_lt_reg_r (rap + rperi)); [lra|]; replace ((rap - rperi) / (rap + rperi) * (rap + rperi)) with (rap - rperi) by (field; lra); lra]|field; lra]].
  intros t Ht. split; [|split].
  - unfold sphericalEcc. rewrite sph_init_spec. cbn [s_Lz s_L].
    assert (EL : sph_momentum (R t) (vR t) (vT t) (z t) (vz t) = L) by exact (L_const F R vR vT z vz phi a b M t t0 Ht Ht0).
    assert (C : R t * vT t = R t0 * vT t0) by exact (Lz_const F R vR vT z vz phi a b M t t0 Ht Ht0). rewrite EL, C. reflexivity.
  - exact (r_in Phi F R vR vT z vz phi a b t0 rperi rap HF M Ht0 W Hr t Ht).
  - exact (height Phi F R vR vT z vz phi a b t0 rperi rap HF M Ht0 Hp W Hr Hi t Ht).
Qed.
Print Assumptions C51_spherical_extent.

(** In every one-dimensional potential that is the same on both sides of its centre, along every orbit that swings between simple turning points: the action and the
    frequency are the same at every time, and the angle lies in [0, 2 pi), advances linearly at the frequency, and is counted from the upward passage through the centre. *)
Theorem C51_vertical_angles : forall Phi F (x v : RR -> RR) (a b t0 xmax : RR),
  (forall s, is_derive Phi s (- F s)) -> (forall s, Phi (- s) = Phi s) -> (forall t, a < t < b -> moves1 F x v t) -> a < t0 < b ->
  let E := v t0 ^ 2 / 2 + Phi (x t0) in
  simple_well (fun s => 2 * (E - Phi s)) (- xmax) xmax -> Rabs (x t0) <= xmax ->
  exists J Om (ang : RR -> RR), 0 < Om /\
    (forall t, a < t < b -> verticalAA Phi xmax (x t) (v t) = (J, Om, ang t) /\ 0 <= ang t < 2 * PI /\ - xmax <= x t <= xmax) /\
    (forall t t', a < t < b -> a < t' < b -> same_angle (ang t') (ang t + Om * (t' - t))) /\
    (forall t, a < t < b -> x t = 0 -> 0 < v t -> same_angle (ang t) 0) /\
    (forall t1 t2, a < t1 < b -> a < t2 < b -> t1 < t2 -> x t1 = - xmax -> x t2 = xmax -> (forall t, t1 < t < t2 -> 0 < v t) ->
       is_RInt (fun t => v t ^ 2) t1 t2 (PI * J) /\ (t2 - t1) * Om = PI).
Proof.
  intros Phi F x v a b t0 xmax HF Ev M Ht0 E W Hx. pose proof PI_RGT_0 as PP.
  assert (HF' : forall s, is_derive Phi s (- F s)) by exact HF.
  set (P := vP Phi x v t0 xmax). set (T := vT Phi x v t0 xmax). assert (TP : 0 < T) by exact (vT_pos Phi F x v t0 xmax HF Ev W).
  assert (An : forall t, a < t < b -> exists ang, verticalAA Phi xmax (x t) (v t) = (v_J Phi xmax E, PI / T, ActionAngle.modulo ang (2 * PI)) /\ mod2pi ang (PI / T * branch P T (v t) (x t) + - (PI / 2)))
    by (intros t Ht; exact (v_angle Phi F x v a b t0 xmax HF Ev M Ht0 W Hx t Ht)).
  exists (v_J Phi xmax E), (PI / T), (fun t => snd (verticalAA Phi xmax (x t) (v t))). split; [apply Rdiv_lt_0_compat; assumption|].
  assert (Sm : forall t, a < t < b -> same_angle (snd (verticalAA Phi xmax (x t) (v t))) (PI / T * branch P T (v t) (x t) + - (PI / 2))).
  { intros t Ht. destruct (An t Ht) as (g & E1 & [k K]). rewrite E1. cbn [snd]. destruct (modulo_same g) as [i I]. exists (i + k)%Z. rewrite plus_IZR, I, K. ring. }
  split; [|split; [|split]].
  - intros t Ht. split; [|split].
    + destruct (An t Ht) as (g & E1 & _). rewrite E1. reflexivity.
    + destruct (An t Ht) as (g & E1 & _). rewrite E1. cbn [snd]. apply modulo_range. lra.
    + exact (v_in Phi F x v a b t0 xmax HF M Ht0 W Hx t Ht).
  - intros t t' Ht Ht'. destruct (Sm t Ht) as [i I]. destruct (Sm t' Ht') as [j J]. destruct (v_linear Phi F x v a b t0 xmax HF Ev M Ht0 W Hx t t' Ht Ht') as [k K]. fold P T in K.
    exists (j + k - i)%Z. rewrite minus_IZR, plus_IZR, I, J, K. ring.
  - intros t Ht X0 V0. destruct (Sm t Ht) as [i I]. unfold branch in I. destruct (Rlt_dec 0 (v t)); [|lra]. rewrite X0 in I. pose proof (vP_0 Phi x v t0 xmax Ev) as Y. fold P T in Y. rewrite Y in I.
    exists i. cbv beta. rewrite X0, I. field. lra.
  - intros t1 t2 H1 H2 Lt E1 E2 Up. set (S := fun s => 2 * (E - Phi s)) in *.
    assert (Dq : forall t, a < t < b -> is_derive x t (v t)) by (intros t Ht; exact (proj1 (M t Ht))).
    assert (Cs : forall s, - xmax <= s <= xmax -> continuous S s) by (intros s Hs; exact (vS_c Phi F x v t0 xmax HF s Hs)).
    assert (Cv : forall t, a < t < b -> continuous v t) by (intros t Ht; eapply cont_derive; exact (proj2 (M t Ht))).
    assert (VS : forall t, a < t < b -> v t ^ 2 = S (x t)) by (intros t Ht; exact (v_S Phi F x v a b t0 HF M Ht0 t Ht)).
    assert (In : forall t, a < t < b -> - xmax <= x t <= xmax) by (intros t Ht; exact (v_in Phi F x v a b t0 xmax HF M Ht0 W Hx t Ht)).
    split.
    + pose proof (v_action Phi F x v t0 xmax HF Ev W) as EA. change (v_J Phi xmax E = RInt (fun s => sqrt (S s)) (- xmax) xmax / PI) in EA. rewrite EA.
      assert (EE : PI * (RInt (fun s => sqrt (S s)) (- xmax) xmax / PI) = RInt (fun s => sqrt (S s)) (- xmax) xmax) by (rr; field; lra). rewrite EE.
      apply (swing_action S x v (- xmax) xmax a b t1 t2 Cs Dq Cv VS In); try assumption. lra.
    + rewrite (swing_time S x v (- xmax) xmax a b t1 t2 W Dq VS In (conj H1 (conj H2 Lt)) E1 E2 Up _ _ (v_prim Phi F x v t0 xmax HF Ev W)). fold T. field. lra.
Qed.
Print Assumptions C51_vertical_angles.

(** Orbits that meet the hypotheses: R = 1, z = sqrt(3/2) sin t in the harmonic potential r^2 / 2, between r = 1 and r = sqrt(5/2), at t = 0 at pericentre and at its ascending
    node; and x = sin t. *)
Definition hs_Phi (r : RR) : RR := r ^ 2 / 2.
Definition hs_F (r : RR) : RR := - r.
Definition hs_z (t : RR) : RR := sqrt (3 / 2) * sin t.
Definition hs_vz (t : RR) : RR := sqrt (3 / 2) * cos t.
Lemma hs_force r : is_derive hs_Phi r (- hs_F r).
Proof. unfold hs_Phi, hs_F. auto_derive; [exact I|rr; field]. Qed.
Lemma hs_moves t : moves (central_R hs_F) (central_z hs_F) (fun _ => 1) (fun _ => 0) (fun _ => 1) hs_z hs_vz (fun t => t) t.
Proof.
  assert (P : 0 < 1 ^ 2 + hs_z t ^ 2) by (pose proof (pow2_ge_0 (hs_z t)); lra). pose proof (sqrt_lt_R0 _ P) as Q.
  unfold moves. split; [lra|]. split; [apply is_derive_cst|]. split; [unfold hs_z, hs_vz; auto_derive; [exact I|rr; ring]|]. split; [refine (is_derive_eq _ _ _ _ (d_id t) _); rr; field|].
  split; [refine (is_derive_eq _ _ _ _ (is_derive_cst 0 t) _); unfold central_R, hs_F; rr; field; lra|]. split; [refine (is_derive_eq _ _ _ _ (is_derive_cst 1 t) _); rr; field|].
  assert (X : central_z hs_F 1 (hs_z t) = - hs_z t) by (unfold central_z, hs_F; field; lra). rewrite X. unfold hs_z, hs_vz. auto_derive; [exact I|rr; ring].
Qed.
Lemma hs_S r : 0 < r -> sph_radial2 hs_Phi (7 / 4) (sqrt (5 / 2)) r = (r ^ 2 - 1) * (5 / 2 - r ^ 2) / r ^ 2.
Proof. intros H. unfold sph_radial2, hs_Phi. rewrite pow2_sqrt by lra. field. lra. Qed.
Lemma hs_S_d r : 0 < r -> is_derive (sph_radial2 hs_Phi (7 / 4) (sqrt (5 / 2))) r (5 / r ^ 3 - 2 * r).
Proof.
  intros H. assert (P : sqrt (5 / 2) ^ 2 = 5 / 2) by (apply pow2_sqrt; lra).
  refine (is_derive_eq _ _ _ _ (S_d hs_Phi hs_F (7 / 4) (sqrt (5 / 2)) (fun r _ => hs_force r) r H) _). rewrite P. unfold hs_F. rr. field. lra.
Qed.
Lemma hs_well : simple_well (sph_radial2 hs_Phi (7 / 4) (sqrt (5 / 2))) 1 (sqrt (5 / 2)).
Proof.
  assert (P : sqrt (5 / 2) ^ 2 = 5 / 2) by (apply pow2_sqrt; lra). pose proof (sqrt_pos (5 / 2)) as S0. assert (S1 : 1 < sqrt (5 / 2)) by nra.
  split; [exact S1|]. split; [rewrite hs_S by lra; field|]. split; [rewrite hs_S by lra; rewrite P; field|]. split; [|split].
  - intros q Hq. rewrite hs_S by lra. apply Rdiv_lt_0_compat; [apply Rmult_lt_0_compat; nra|apply pow_lt; lra].
  - exists 3. split; [lra|]. refine (is_derive_eq _ _ _ _ (hs_S_d 1 Rlt_0_1) _). rr. field.
  - exists (5 / sqrt (5 / 2) ^ 3 - 2 * sqrt (5 / 2)). split; [|apply hs_S_d; lra]. replace (5 / sqrt (5 / 2) ^ 3) with (5 / sqrt (5 / 2) ^ 2 * / sqrt (5 / 2)) by (field; lra). rewrite P.
    assert (0 < / sqrt (5 / 2) < 1) by (split; [apply Rinv_0_lt_compat; lra|rewrite <- Rinv_1; apply Rinv_lt_contravar; lra]). lra.
Qed.
Lemma hs_jr : / 10 ^ 9 <= calc_jr hs_Phi (7 / 4) (sqrt (5 / 2)) 1 (sqrt (5 / 2)).
Proof.
  assert (P : sqrt (5 / 2) ^ 2 = 5 / 2) by (apply pow2_sqrt; lra). pose proof (sqrt_pos (5 / 2)) as S0. assert (S1 : 3 / 2 < sqrt (5 / 2)) by nra.
  assert (C : forall x, 0 < x -> continuous (JrIntegrand hs_Phi (7 / 4) (sqrt (5 / 2))) x).
  { intros x Hx. apply (continuous_comp (sph_radial2 hs_Phi (7 / 4) (sqrt (5 / 2))) sqrt); [eapply cont_derive; apply hs_S_d; exact Hx|apply continuous_sqrt]. }
  assert (X : forall u v, 0 < u -> u <= v -> ex_RInt (JrIntegrand hs_Phi (7 / 4) (sqrt (5 / 2))) u v) by (intros u v Hu Hv; apply (ex_RInt_continuous (V := R_CompleteNormedModule)); intros x Hx; rewrite Rmin_left, Rmax_right in Hx by lra; apply C; lra).
  assert (N : forall u v, 0 < u -> u <= v -> 0 <= RInt (JrIntegrand hs_Phi (7 / 4) (sqrt (5 / 2))) u v) by (intros u v Hu Hv; apply RInt_ge_0; [exact Hv|apply X; assumption|intros; apply sqrt_pos]).
  assert (B : 1 / 4 * (3 / 2 - 5 / 4) <= RInt (JrIntegrand hs_Phi (7 / 4) (sqrt (5 / 2))) (5 / 4) (3 / 2)).
  { replace (1 / 4 * (3 / 2 - 5 / 4)) with (RInt (fun _ : RR => 1 / 4) (5 / 4) (3 / 2)) by (rewrite RInt_const; unfold scal; simpl; unfold mult; simpl; ring).
    apply RInt_le; [lra|apply ex_RInt_const|apply X; lra|]. intros x Hx. change (1 / 4 <= sqrt (sph_radial2 hs_Phi (7 / 4) (sqrt (5 / 2)) x)). rewrite hs_S by lra.
    rewrite <- (sqrt_pow2 (1 / 4)) by lra. apply sqrt_le_1_alt. apply (Rmult_le_reg_r (x ^ 2)); [apply pow_lt; lra|]. replace ((x ^ 2 - 1) * (5 / 2 - x ^ 2) / x ^ 2 * x ^ 2) with ((x ^ 2 - 1) * (5 / 2 - x ^ 2)) by (field; lra).
    assert (25 / 16 <= x ^ 2 <= 9 / 4) by nra. nra. }
  unfold calc_jr. rewrite <- (RInt_Chasles (V := R_CompleteNormedModule) _ 1 (5 / 4) (sqrt (5 / 2))) by (apply X; lra). rewrite <- (RInt_Chasles (V := R_CompleteNormedModule) _ (5 / 4) (3 / 2) (sqrt (5 / 2))) by (apply X; lra).
  pose proof (N 1 (5 / 4) ltac:(lra) ltac:(lra)) as N1. pose proof (N (3 / 2) (sqrt (5 / 2)) ltac:(lra) ltac:(lra)) as N2. unfold plus; simpl. pose proof PI_RGT_0. pose proof PI_4.
  apply (Rmult_le_reg_r PI); [lra|]. unfold Rdiv. rewrite Rmult_assoc, Rinv_l, Rmult_1_r by lra. apply Rle_trans with (1 / 16); [|lra].
  apply Rle_trans with (/ 64 * PI); [apply Rmult_le_compat_r; [lra|apply Rinv_le_contravar; lra]|lra].
Qed.
Example C51_orbit :
  (forall t, moves (central_R hs_F) (central_z hs_F) (fun _ => 1) (fun _ => 0) (fun _ => 1) hs_z hs_vz (fun t => t) t) /\ radial_force hs_Phi hs_F /\
  let E := sph_energy hs_Phi 1 0 1 (hs_z 0) (hs_vz 0) in let L := sph_momentum 1 0 1 (hs_z 0) (hs_vz 0) in
  simple_well (sph_radial2 hs_Phi E L) 1 (sqrt (5 / 2)) /\ 1 <= sph_radius 1 (hs_z 0) <= sqrt (5 / 2) /\ - L < 1 * 1 /\ / 10 ^ 9 <= calc_jr hs_Phi E L 1 (sqrt (5 / 2)) /\
  sph_radius 1 (hs_z 0) = 1 /\ hs_z 0 = 0 /\ 0 < hs_vz 0 /\
  sph_radius 1 (hs_z (PI / 2)) = sqrt (5 / 2) /\ (forall t, 0 < t < PI / 2 -> 0 < sph_speed 1 0 (hs_z t) (hs_vz t)).
Proof.
  split; [apply hs_moves|]. split; [intros r _; apply hs_force|]. intros E L.
  assert (Q : sqrt (3 / 2) ^ 2 = 3 / 2) by (apply pow2_sqrt; lra). assert (P : sqrt (5 / 2) ^ 2 = 5 / 2) by (apply pow2_sqrt; lra). pose proof (sqrt_pos (5 / 2)) as S0. assert (S1 : 1 < sqrt (5 / 2)) by nra.
  assert (Q0 : 0 < sqrt (3 / 2)) by (apply sqrt_lt_R0; lra).
  assert (Z0 : hs_z 0 = 0) by (unfold hs_z; rewrite sin_0; ring). assert (V0 : hs_vz 0 = sqrt (3 / 2)) by (unfold hs_vz; rewrite cos_0; ring).
  assert (EE : E = 7 / 4). { unfold E, sph_energy, hs_Phi. rewrite Z0, V0, Q. replace (1 ^ 2 + 0 ^ 2) with 1 by ring. rewrite sqrt_1. field. }
  assert (EL : L = sqrt (5 / 2)). { unfold L, sph_momentum. f_equal. rewrite Z0, V0. replace ((1 * 1) ^ 2 + (0 * 1) ^ 2 + (0 * 0 - 1 * sqrt (3 / 2)) ^ 2) with (1 + sqrt (3 / 2) ^ 2) by ring. rewrite Q. field. }
  assert (R0 : sph_radius 1 (hs_z 0) = 1) by (unfold sph_radius; rewrite Z0; replace (1 ^ 2 + 0 ^ 2) with 1 by ring; apply sqrt_1).
  rewrite EE, EL. split; [exact hs_well|]. split; [rewrite R0; lra|]. split; [lra|]. split; [exact hs_jr|]. split; [exact R0|]. split; [exact Z0|]. split; [lra|]. split.
  - unfold sph_radius, hs_z. rewrite sin_PI2. replace (1 ^ 2 + (sqrt (3 / 2) * 1) ^ 2) with (1 + sqrt (3 / 2) ^ 2) by ring. rewrite Q. f_equal. field.
  - intros t Ht. unfold sph_speed. pose proof PI_RGT_0. assert (0 < sin t) by (apply sin_gt_0; lra). assert (0 < cos t) by (apply cos_gt_0; lra). apply Rdiv_lt_0_compat.
    + unfold hs_z, hs_vz. replace (1 * 0 + sqrt (3 / 2) * sin t * (sqrt (3 / 2) * cos t)) with (sqrt (3 / 2) ^ 2 * (sin t * cos t)) by ring. rewrite Q. apply Rmult_lt_0_compat; [lra|apply Rmult_lt_0_compat; assumption].
    + apply sqrt_lt_R0. pose proof (pow2_ge_0 (hs_z t)). lra.
Qed.
Example C51_vertical_orbit : (forall s, is_derive hs_Phi s (- hs_F s)) /\ (forall s, hs_Phi (- s) = hs_Phi s) /\ (forall t, moves1 hs_F sin cos t) /\
  simple_well (fun s => 2 * (cos 0 ^ 2 / 2 + hs_Phi (sin 0) - hs_Phi s)) (- (1)) 1 /\ Rabs (sin 0) <= 1 /\
  sin (- (PI / 2)) = - (1) /\ sin (PI / 2) = 1 /\ (forall t, - (PI / 2) < t < PI / 2 -> 0 < cos t).
Proof.
  split; [exact hs_force|]. split; [intros s; unfold hs_Phi; field|]. split; [intros t; split; [refine (is_derive_eq _ _ _ _ (d_sin (fun t => t) t 1 (d_id t)) _); rr; ring|refine (is_derive_eq _ _ _ _ (d_cos (fun t => t) t 1 (d_id t)) _); unfold hs_F; rr; ring]|].
  rewrite sin_0, cos_0, Rabs_R0, sin_neg, sin_PI2. split; [|split; [lra|split; [reflexivity|split; [reflexivity|]]]; intros t Ht; apply cos_gt_0; lra].
  split; [lra|]. unfold hs_Phi. split; [field|]. split; [field|]. split; [intros q Hq; nra|]. split.
  - exists 2. split; [lra|]. auto_derive; [exact I|rr; field].
  - exists (-2). split; [lra|]. auto_derive; [exact I|rr; field].
Qed.
