(** C68: anisotropic power-law distribution functions (constantbetaPowerLawdf, osipkovmerrittPowerLawdf). *)
From Coq Require Import Reals Lra Lia.
From Coquelicot Require Import Coquelicot.
From Verif.Lib Require Import RealAux.
From Verif.Model Require Import PotAxi PowerDF.
From Verif.Spec Require Import PowerDFSpec.
From Verif.Proofs Require Import PowerDFProofs.
Open Scope R_scope.
Notation RR := RbaseSymbolsImpl.R (only parsing).
Ltac rr := match goal with |- ?a = ?b => change (@eq RR a b) end.

(** The integral of the constant-anisotropy distribution function over all velocities is the density of the tracers, for every accepted set of
    parameters; of the gamma function it needs two beta integrals. *)
Theorem C68_constant_beta : forall Gam pamp alpha denspot beta s r, cbpl_init Gam pamp alpha denspot beta = Some s -> 0 < pamp -> 0 < r ->
  beta_integral Gam (3 / 2 - beta) (cb_n s + 1) -> beta_integral Gam (1 / 2) (1 - beta) -> Gam (1 / 2) = sqrt PI ->
  0 < Gam (3 / 2 - beta) -> 0 < Gam (cb_n s + 1) -> 0 < Gam (1 - beta) -> 0 < Gam (cb_n s + 5 / 2 - beta) ->
  density_at (cbpl_call s) (pamp * PS_ev alpha r 0) r (fst (tracer pamp alpha denspot) * PS_dens (snd (tracer pamp alpha denspot)) r 0).
Proof. intros. eapply cb_density; eassumption. Qed.
Print Assumptions C68_constant_beta.
(** gamma-function values at some integers and half-integers *)
Definition g0 (x : RR) : RR := if Req_EM_T x (1 / 2) then sqrt PI else if Req_EM_T x (3 / 2) then sqrt PI / 2 else if Req_EM_T x (5 / 2) then 3 * sqrt PI / 4
  else if Req_EM_T x (9 / 2) then 105 * sqrt PI / 16 else if Req_EM_T x (13 / 2) then 10395 * sqrt PI / 64 else if Req_EM_T x 5 then 24 else 1.
Ltac g0tac := unfold g0; repeat (match goal with |- context [Req_EM_T ?a ?b] => destruct (Req_EM_T a b); [try (exfalso; lra)|try (exfalso; lra)] end); try reflexivity.
Lemma g0_1 : g0 (1 / 2) = sqrt PI. Proof. g0tac. Qed.
Lemma g0_3 : g0 (3 / 2) = sqrt PI / 2. Proof. g0tac. Qed.
Lemma g0_5 : g0 (5 / 2) = 3 * sqrt PI / 4. Proof. g0tac. Qed.
Lemma g0_9 : g0 (9 / 2) = 105 * sqrt PI / 16. Proof. g0tac. Qed.
Lemma g0_13 : g0 (13 / 2) = 10395 * sqrt PI / 64. Proof. g0tac. Qed.
Lemma g0_i1 : g0 1 = 1. Proof. g0tac. Qed.
Lemma g0_i2 : g0 2 = 1. Proof. g0tac. Qed.
Lemma g0_i5 : g0 5 = 24. Proof. g0tac. Qed.
Lemma sp : 0 < sqrt PI. Proof. apply sqrt_lt_R0, PI_RGT_0. Qed.
Lemma poly_int (P dP f : RR -> RR) v : (forall x, is_derive P x (dP x)) -> (forall x, 0 < x < 1 -> f x = P x / (2 * sqrt x) + sqrt x * dP x) -> v = P 1 -> improper f 0 1 v.
Proof.
  intros DP E Ev. exists (fun x => sqrt x * P x), 0, (P 1). split; [|split; [|split]].
  - intros x Hx. rewrite (E x Hx). assert (S : is_derive sqrt x (/ (2 * sqrt x))) by (apply is_derive_Reals, derivable_pt_lim_sqrt; lra). refine (is_derive_eq _ _ _ _ (is_derive_Rmult _ _ x _ _ S (DP x)) _). unfold Rdiv. rr. ring.
  - assert (C : continuous (fun x => sqrt x * P x) 0) by (apply (continuous_mult (K := R_AbsRing)); [apply continuous_sqrt|apply (cont_d _ _ _ (DP 0))]). intros S HS. apply filter_le_within. apply C. rewrite sqrt_0, Rmult_0_l. exact HS.
  - assert (C : continuous (fun x => sqrt x * P x) 1) by (apply (continuous_mult (K := R_AbsRing)); [apply continuous_sqrt|apply (cont_d _ _ _ (DP 1))]). intros S HS. apply filter_le_within. apply C. rewrite sqrt_1, Rmult_1_l. exact HS.
  - rewrite Ev. ring.
Qed.
Lemma Rp_m x : 0 < x -> Rpower x (1 / 2 - 1) = / sqrt x.
Proof. intros H. replace (1 / 2 - 1) with (- (1 / 2)) by field. rewrite Rpower_Ropp, Rp_half by exact H. reflexivity. Qed.
Lemma Rp_p x : 0 < x -> Rpower x (3 / 2 - 1) = sqrt x.
Proof. intros H. replace (3 / 2 - 1) with (1 / 2) by field. apply Rp_half, H. Qed.
Lemma Rp_5 x : 0 < x -> Rpower x (5 / 2 - 1) = x * sqrt x.
Proof. intros H. replace (5 / 2 - 1) with (1 + 1 / 2) by field. rewrite Rpower_plus, Rpower_1, Rp_half by exact H. reflexivity. Qed.
Ltac sq x Hx := pose proof (sqrt_lt_R0 x (proj1 Hx)) as SX; assert (XX : x = sqrt x ^ 2) by (symmetry; apply pow2_sqrt; lra).
Lemma b12 : beta_integral g0 (1 / 2) 2.
Proof.
  apply (poly_int (fun x => 2 - 2 / 3 * x) (fun x => - (2 / 3))); [intros x; auto_derive; [exact I|rr; ring]| |].
  - intros x Hx. rewrite Rp_m by lra. replace (2 - 1) with 1 by ring. rewrite Rpower_1 by lra. sq x Hx. set (y := sqrt x) in *. rewrite XX. rr. field. lra.
  - replace (1 / 2 + 2) with (5 / 2) by field. rewrite g0_1, g0_i2, g0_5. pose proof sp. rr. field. lra.
Qed.
Lemma b52 : beta_integral g0 (5 / 2) 2.
Proof.
  apply (poly_int (fun x => x ^ 2 * (2 / 5 - 2 / 7 * x)) (fun x => 4 / 5 * x - 6 / 7 * x ^ 2)); [intros x; auto_derive; [exact I|rr; field]| |].
  - intros x Hx. rewrite Rp_5 by lra. replace (2 - 1) with 1 by ring. rewrite Rpower_1 by lra. sq x Hx. set (y := sqrt x) in *. rewrite XX. rr. field. lra.
  - replace (5 / 2 + 2) with (9 / 2) by field. rewrite g0_5, g0_i2, g0_9. pose proof sp. rr. field. lra.
Qed.
Lemma b31 : beta_integral g0 (3 / 2) 1.
Proof.
  apply (poly_int (fun x => 2 / 3 * x) (fun x => 2 / 3)); [intros x; auto_derive; [exact I|rr; ring]| |].
  - intros x Hx. rewrite Rp_p by lra. replace (1 - 1) with 0 by ring. rewrite Rpower_O by lra. sq x Hx. set (y := sqrt x) in *. rewrite XX. rr. field. lra.
  - replace (3 / 2 + 1) with (5 / 2) by field. rewrite g0_3, g0_i1, g0_5. pose proof sp. rr. field. lra.
Qed.
Lemma b35 : beta_integral g0 (3 / 2) 5.
Proof.
  apply (poly_int (fun x => x * (2 / 3 - 8 / 5 * x + 12 / 7 * x ^ 2 - 8 / 9 * x ^ 3 + 2 / 11 * x ^ 4)) (fun x => 2 / 3 - 16 / 5 * x + 36 / 7 * x ^ 2 - 32 / 9 * x ^ 3 + 10 / 11 * x ^ 4)); [intros x; auto_derive; [exact I|rr; field]| |].
  - intros x Hx. rewrite Rp_p by lra. replace (5 - 1) with (INR 4) by (simpl; ring). rewrite Rpower_pow by lra. sq x Hx. set (y := sqrt x) in *. rewrite XX. rr. field. lra.
  - replace (3 / 2 + 5) with (13 / 2) by field. rewrite g0_3, g0_i5, g0_13. pose proof sp. rr. field. lra.
Qed.
(** A tangentially biased tracer population in another power law *)
Example C68_constant_beta_case : exists s, cbpl_init g0 3 (14 / 5) (Some (1, 4 / 5)) (- 1) = Some s /\
  forall r, 0 < r -> density_at (cbpl_call s) (3 * PS_ev (14 / 5) r 0) r (1 * PS_dens (4 / 5) r 0).
Proof.
  assert (X : exists s, cbpl_init g0 3 (14 / 5) (Some (1, 4 / 5)) (- 1) = Some s /\ cb_n s = 1).
  { unfold cbpl_init, tracer. destruct (Rle_dec (14 / 5) 2); [exfalso; lra|]. destruct (Rle_dec 1 (- 1)); [exfalso; lra|]. destruct (Rle_dec 3 (4 / 5)); [exfalso; lra|]. cbv zeta. destruct (Rle_dec _ (- 1)); [exfalso; lra|]. eexists. split; [reflexivity|]. cbn [cb_n]. field. }
  destruct X as (s & E & N). exists s. split; [exact E|]. intros r Hr. pose proof sp. apply (C68_constant_beta g0 3 (14 / 5) (Some (1, 4 / 5)) (- 1) s r); rewrite ?N.
  - exact E.
  - lra.
  - exact Hr.
  - replace (3 / 2 - - 1) with (5 / 2) by field. replace (1 + 1) with 2 by ring. exact b52.
  - replace (1 - - 1) with 2 by ring. exact b12.
  - exact g0_1.
  - replace (3 / 2 - - 1) with (5 / 2) by field. rewrite g0_5. lra.
  - replace (1 + 1) with 2 by ring. rewrite g0_i2. lra.
  - replace (1 - - 1) with 2 by ring. rewrite g0_i2. lra.
  - replace (1 + 5 / 2 - - 1) with (9 / 2) by field. rewrite g0_9. lra.
Qed.
(** The same for the Osipkov-Merritt distribution function when gamma > alpha/2 + 1, in particular whenever the tracers follow the mass. *)
Theorem C68_osipkov_merritt : forall Gam pamp alpha denspot ra s r, ompl_init Gam pamp alpha denspot ra = Some s ->
  (denspot = None \/ alpha / 2 + 1 < snd (tracer pamp alpha denspot)) -> 0 < pamp -> 0 < r -> 0 < ra ->
  beta_integral Gam (3 / 2) (om_n1 s + 1) -> beta_integral Gam (3 / 2) (om_n2 s + 1) -> Gam (3 / 2) = sqrt PI / 2 ->
  0 < Gam (om_n1 s + 1) -> 0 < Gam (om_n2 s + 1) -> 0 < Gam (om_n1 s + 5 / 2) -> 0 < Gam (om_n2 s + 5 / 2) ->
  density_at (ompl_call s) (pamp * PS_ev alpha r 0) r (fst (tracer pamp alpha denspot) * PS_dens (snd (tracer pamp alpha denspot)) r 0).
Proof.
  intros Gam pamp alpha denspot ra s r E HD. intros. assert (alpha / 2 + 1 < snd (tracer pamp alpha denspot)). { destruct HD as [->|HD]; [|exact HD]. cbn. unfold ompl_init in E. destruct (Rle_dec alpha 2); [discriminate|lra]. }
  eapply om_density; eassumption.
Qed.
Print Assumptions C68_osipkov_merritt.
Example C68_osipkov_merritt_case : exists s, ompl_init g0 3 (5 / 2) (Some (1, 11 / 4)) 2 = Some s /\
  forall r, 0 < r -> density_at (ompl_call s) (3 * PS_ev (5 / 2) r 0) r (1 * PS_dens (11 / 4) r 0).
Proof.
  assert (X : exists s, ompl_init g0 3 (5 / 2) (Some (1, 11 / 4)) 2 = Some s /\ om_n1 s = 4 /\ om_n2 s = 0).
  { unfold ompl_init, tracer. destruct (Rle_dec (5 / 2) 2); [exfalso; lra|]. destruct (Rle_dec (11 / 4) _); [exfalso; lra|]. destruct (Rle_dec 3 (11 / 4)); [exfalso; lra|]. cbv zeta. eexists. split; [reflexivity|]. cbn [om_n1 om_n2]. split; field. }
  destruct X as (s & E & N1 & N2). exists s. split; [exact E|]. intros r Hr. pose proof sp. apply (C68_osipkov_merritt g0 3 (5 / 2) (Some (1, 11 / 4)) 2 s r); rewrite ?N1, ?N2; try lra.
  - exact E.
  - right. cbn. lra.
  - replace (4 + 1) with 5 by ring. exact b35.
  - replace (0 + 1) with 1 by ring. exact b31.
  - exact g0_3.
  - replace (4 + 1) with 5 by ring. rewrite g0_i5. lra.
  - replace (0 + 1) with 1 by ring. rewrite g0_i1. lra.
  - replace (4 + 5 / 2) with (13 / 2) by field. rewrite g0_13. lra.
  - replace (0 + 5 / 2) with (5 / 2) by field. rewrite g0_5. lra.
Qed.
(** Finding: the constructor only asks for gamma > alpha/2. When gamma < alpha/2 + 1 the second term is negative (the gamma function is negative
    between -1 and 0) and the distribution function is negative at small Q. *)
Theorem C68_negative_refuted : forall Gam pamp alpha damp gamma ra s, ompl_init Gam pamp alpha (Some (damp, gamma)) ra = Some s ->
  0 < pamp -> 0 < damp -> 0 < ra -> (forall x, 0 < x -> 0 < Gam x) -> (forall x, - 1 < x < 0 -> Gam x < 0) ->
  3 - alpha / 2 < gamma < alpha / 2 + 1 -> exists Q, 0 < Q /\ ompl_fQ s Q < 0.
Proof.
  intros Gam pamp alpha damp gamma ra s E Hp Hd Hra G1 G2 [Hg1 Hg2]. unfold ompl_init, tracer in E. destruct (Rle_dec alpha 2) as [|Ha]; [discriminate|]. destruct (Rle_dec gamma (alpha / 2)) as [|Hg3]; [discriminate|]. destruct (Rle_dec 3 gamma) as [|Hg4]; [discriminate|]. cbv zeta in E. injection E as <-. unfold ompl_fQ. cbn [om_n1 om_n2 om_A1 om_A2].
  set (s1 := gamma / (alpha - 2)). set (s2 := (gamma - 2) / (alpha - 2)). set (nu0 := damp * (3 - gamma) / (4 * PI)). pose proof PI_RGT_0 as P0. assert (HN : 0 < nu0) by (unfold nu0; apply Rdiv_lt_0_compat; [apply Rmult_lt_0_compat; lra|lra]).
  assert (S1 : 1 / 2 < s1) by (unfold s1; apply (proj1 (Rlt_div_r (1 / 2) gamma (alpha - 2) ltac:(lra))); lra). assert (S2 : - (1 / 2) < s2 < 1 / 2) by (unfold s2; split; [apply (proj1 (Rlt_div_r (- (1 / 2)) (gamma - 2) (alpha - 2) ltac:(lra))); lra|apply (proj2 (Rlt_div_l (gamma - 2) (1 / 2) (alpha - 2) ltac:(lra))); lra]). assert (S12 : 0 < s1 - s2) by (replace (s1 - s2) with (2 / (alpha - 2)) by (unfold s1, s2; field; lra); apply Rdiv_lt_0_compat; lra).
  set (edd := 2 * sqrt 2 * rpow PI (3 / 2)). assert (HE : 0 < edd) by (unfold edd; apply Rmult_lt_0_compat; [apply Rmult_lt_0_compat; [lra|apply sqrt_lt_R0; lra]|apply exp_pos]).
  set (A1 := nu0 / rpow (pamp / (alpha - 2)) s1 * Gam (s1 + 1) / (edd * Gam (s1 - 1 / 2))). set (A2 := nu0 / (ra ^ 2 * rpow (pamp / (alpha - 2)) s2) * Gam (s2 + 1) / (edd * Gam (s2 - 1 / 2))).
  assert (H1 : 0 < A1). { unfold A1. apply Rdiv_lt_0_compat; [apply Rmult_lt_0_compat; [apply Rdiv_lt_0_compat; [exact HN|apply exp_pos]|apply G1; lra]|apply Rmult_lt_0_compat; [exact HE|apply G1; lra]]. }
  assert (H2 : A2 < 0). { unfold A2. assert (X : 0 < nu0 / (ra ^ 2 * rpow (pamp / (alpha - 2)) s2) * Gam (s2 + 1)) by (apply Rmult_lt_0_compat; [apply Rdiv_lt_0_compat; [exact HN|apply Rmult_lt_0_compat; [apply pow_lt; exact Hra|apply exp_pos]]|apply G1; lra]). assert (Y : edd * Gam (s2 - 1 / 2) < 0) by (pose proof (G2 (s2 - 1 / 2) ltac:(lra)); nra). pose proof (Rinv_lt_0_compat _ Y). unfold Rdiv at 1. nra. }
  assert (HR : 0 < - A2 / (2 * A1)) by (apply Rdiv_lt_0_compat; lra). exists (Rpower (- A2 / (2 * A1)) (/ (s1 - s2))). split; [apply exp_pos|]. set (Q := Rpower _ _). assert (HQ : 0 < Q) by apply exp_pos. destruct (Rlt_dec 0 Q) as [_|]; [|contradiction]. unfold rpow.
  assert (EQ : Rpower Q (s1 - s2) = - A2 / (2 * A1)). { unfold Q. rewrite Rpower_mult. rewrite Rinv_l by lra. apply Rpower_1. exact HR. }
  replace (s1 - 3 / 2) with ((s1 - s2) + (s2 - 3 / 2)) by ring. rewrite Rpower_plus, EQ. assert (HZ : 0 < Rpower Q (s2 - 3 / 2)) by apply exp_pos. set (z := Rpower Q (s2 - 3 / 2)) in *. replace (A1 * (- A2 / (2 * A1) * z) + A2 * z) with (A2 / 2 * z) by (field; lra). nra.
Qed.
Print Assumptions C68_negative_refuted.
Example C68_negative_case : forall Gam, exists s, ompl_init Gam 1 (5 / 2) (Some (1, 2)) 1 = Some s /\ 3 - 5 / 2 / 2 < 2 < 5 / 2 / 2 + 1.
Proof. intros Gam. unfold ompl_init, tracer. destruct (Rle_dec (5 / 2) 2); [exfalso; lra|]. destruct (Rle_dec 2 _); [exfalso; lra|]. destruct (Rle_dec 3 2); [exfalso; lra|]. eexists. split; [reflexivity|]. lra. Qed.
(** Sampled radii invert the mass of the tracers between rmin and rmax. *)
Theorem C68_radius : forall amp gamma rmin rmax r (m : RR -> RR), 0 < amp -> gamma < 3 -> 0 < rmin -> rmin < rmax -> rmin <= r <= rmax ->
  (forall x, 0 < x -> is_derive m x (4 * PI * x ^ 2 * (amp * PS_dens gamma x 0))) -> pl_icmf gamma rmin rmax ((m r - m rmin) / (m rmax - m rmin)) = r.
Proof.
  intros amp gamma rmin rmax r m Ha Hg H0 H1 Hr Hm. pose proof PI_RGT_0 as P0. set (h := fun x => amp * Rpower x (3 - gamma)).
  assert (Dh : forall x, 0 < x -> is_derive h x (4 * PI * x ^ 2 * (amp * PS_dens gamma x 0))).
  { intros x Hx. rewrite ps_dens by exact Hx. unfold h. assert (D : is_derive (fun y => Rpower y (3 - gamma)) x ((3 - gamma) * Rpower x (3 - gamma - 1))) by (apply is_derive_Reals, derivable_pt_lim_power; exact Hx). refine (is_derive_eq _ _ _ _ (is_derive_Rscal _ x amp _ D) _). replace (3 - gamma - 1) with (INR 2 + - gamma) by (simpl; ring). rewrite Rpower_plus, Rpower_pow by exact Hx. rr. field. lra. }
  assert (CC : forall a b, 0 < a -> a <= b -> m b - m a = h b - h a).
  { intros a b HA HB. destruct (Req_dec a b) as [->|N]; [ring|]. destruct (MVT_gen (fun x => m x - h x) a b (fun _ => 0)) as (c & _ & E).
    - intros x Hx. rewrite Rmin_left, Rmax_right in Hx by lra. refine (is_derive_eq _ _ _ _ (is_derive_Rplus _ _ x _ _ (Hm x ltac:(lra)) (is_derive_opp (V := R_NormedModule) _ _ _ (Dh x ltac:(lra)))) _). change (opp ?a) with (- a). rr. ring.
    - intros x Hx. rewrite Rmin_left, Rmax_right in Hx by lra. apply (proj2 (continuity_pt_filterlim (fun x => m x - h x) x)). apply (cont_d (fun x => m x - h x) x (4 * PI * x ^ 2 * (amp * PS_dens gamma x 0) + - (4 * PI * x ^ 2 * (amp * PS_dens gamma x 0)))). apply (is_derive_Rplus m (fun x => - h x)); [apply Hm; lra|]. apply (is_derive_opp (V := R_NormedModule)). apply Dh. lra.
    - lra. }
  assert (MI : Rpower rmin (3 - gamma) < Rpower rmax (3 - gamma)) by (apply Rlt_Rpower_l; lra).
  unfold pl_icmf, rpow. rewrite !CC by lra. unfold h. replace ((amp * Rpower r (3 - gamma) - amp * Rpower rmin (3 - gamma)) / (amp * Rpower rmax (3 - gamma) - amp * Rpower rmin (3 - gamma)) * (Rpower rmax (3 - gamma) - Rpower rmin (3 - gamma)) + Rpower rmin (3 - gamma)) with (Rpower r (3 - gamma)).
  - rewrite Rpower_mult. replace ((3 - gamma) * (1 / (3 - gamma))) with 1 by (field; lra). apply Rpower_1. lra.
  - set (x := Rpower r (3 - gamma)). set (y := Rpower rmin (3 - gamma)) in *. set (z := Rpower rmax (3 - gamma)) in *. clearbody x y z. rr. field. apply Rgt_not_eq; nra.
Qed.
Print Assumptions C68_radius.
Example C68_radius_case : pl_icmf 1 1 3 ((2 ^ 2 - 1 ^ 2) / (3 ^ 2 - 1 ^ 2)) = 2.
Proof.
  apply (C68_radius 1 1 1 3 2 (fun x => x ^ 2)); try lra. intros x Hx. rewrite ps_dens by exact Hx. rewrite Rpower_Ropp, Rpower_1 by exact Hx. auto_derive; [exact I|]. pose proof PI_RGT_0. rr. field. lra.
Qed.
(** Velocities are sampled up to the speed at which the distribution function ends. *)
Theorem C68_largest_speed : forall Gam pamp alpha denspot beta s r v, cbpl_init Gam pamp alpha denspot beta = Some s -> 0 < pamp -> 0 < r -> 0 < v -> cb_norm s <> 0 ->
  let Phi := pamp * PS_ev alpha r 0 in cbpl_fE s (Phi + v ^ 2 / 2) <> 0 <-> v < pl_vmax Phi.
Proof.
  intros Gam pamp alpha denspot beta s r v E Hp Hr Hv HN Phi. assert (Ha : 2 < alpha) by (unfold cbpl_init in E; destruct (Rle_dec alpha 2); [discriminate|lra]). unfold Phi. rewrite ps_phi by assumption. set (Psi := pamp / (alpha - 2) * Rpower r (2 - alpha)). assert (HPsi : 0 < Psi) by (unfold Psi; apply Rmult_lt_0_compat; [apply Rdiv_lt_0_compat; lra|apply exp_pos]).
  unfold pl_vmax, cbpl_fE. replace (- 2 * - Psi) with (2 * Psi) by ring. assert (S2 : 0 < sqrt (2 * Psi)) by (apply sqrt_lt_R0; lra). assert (SS : sqrt (2 * Psi) ^ 2 = 2 * Psi) by (apply pow2_sqrt; lra). cbv zeta. destruct (Rlt_dec 0 (- (- Psi + v ^ 2 / 2))) as [K|K].
  - split; intros _.
    + apply Rnot_le_lt. intros Z. assert (sqrt (2 * Psi) ^ 2 <= v ^ 2) by (apply pow_incr; lra). lra.
    + apply Rmult_integral_contrapositive. split; [exact HN|]. apply Rgt_not_eq, exp_pos.
  - split; intros Z; [contradiction|]. exfalso. assert (v ^ 2 < sqrt (2 * Psi) ^ 2) by (apply sq_lt; lra). lra.
Qed.
Print Assumptions C68_largest_speed.
Example C68_largest_speed_case : exists s, cbpl_init g0 3 (14 / 5) (Some (1, 4 / 5)) (- 1) = Some s /\ cb_norm s <> 0.
Proof.
  unfold cbpl_init, tracer. destruct (Rle_dec (14 / 5) 2); [exfalso; lra|]. destruct (Rle_dec 1 (- 1)); [exfalso; lra|]. destruct (Rle_dec 3 (4 / 5)); [exfalso; lra|]. cbv zeta. destruct (Rle_dec _ (- 1)); [exfalso; lra|]. eexists. split; [reflexivity|]. cbn [cb_norm]. pose proof PI_RGT_0. pose proof sp.
  replace ((4 / 5 - 2 * - 1) / (14 / 5 - 2) + - 1 - 3 / 2 + 1) with 2 by field. replace ((4 / 5 - 2 * - 1) / (14 / 5 - 2) + 1) with (9 / 2) by field. replace (1 - - 1) with 2 by ring. rewrite g0_i2, g0_9. apply Rgt_not_eq. unfold rpow.
  apply Rdiv_lt_0_compat; [apply Rmult_lt_0_compat; [apply Rmult_lt_0_compat; [|apply exp_pos]|lra]|]. { apply Rdiv_lt_0_compat; lra. } rewrite !Rmult_1_r. apply Rmult_lt_0_compat; apply exp_pos.
Qed.
