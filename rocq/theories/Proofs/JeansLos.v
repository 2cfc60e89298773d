(** The line-of-sight integral: substituting z = sqrt (x^2 - R^2). *)
From Coq Require Import Reals Lra.
From Coquelicot Require Import Coquelicot.
From Verif.Lib Require Import RealAux.
From Verif.Model Require Import PotAPI Jeans.
From Verif.Spec Require Import JeansSpec.
From Verif.Proofs Require Import JeansProofs.
Open Scope R_scope.
Notation RR := RbaseSymbolsImpl.R (only parsing).

Section Subst.
  Variables (g : RR -> RR) (R l : RR).
  Hypothesis HR : 0 < R.
  Hypothesis Cg : continuous_outside g.
  Let rz (z : RR) : RR := sqrt (R ^ 2 + z ^ 2).
  Let gz (z : RR) : RR := g (rz z).
  Let f (x : RR) : RR := x * g x / sqrt (x ^ 2 - R ^ 2).
  Hypothesis Hl : half_los gz l.
  Lemma rad_pos z : 0 < R ^ 2 + z ^ 2. Proof. pose proof (pow2_ge_0 z). assert (0 < R ^ 2) by (apply pow_lt; exact HR). lra. Qed.
  Lemma rz_pos z : 0 < rz z. Proof. apply sqrt_lt_R0, rad_pos. Qed.
  Lemma rz_derive z : is_derive rz z (z / rz z).
  Proof.
    unfold rz. pose proof (rad_pos z). auto_derive; [lra|]. replace (R * (R * 1) + z * (z * 1)) with (R ^ 2 + z ^ 2) by ring. field. apply Rgt_not_eq, rz_pos.
  Qed.
  Lemma rz_cont z : continuous rz z. Proof. apply (ex_derive_continuous rz). eexists. apply rz_derive. Qed.
  Lemma gz_cont z : continuous gz z.
  Proof. apply (continuous_comp rz g); [apply rz_cont|]. apply Cg, rz_pos. Qed.
  Lemma gz_ex a b : ex_RInt gz a b.
  Proof. apply (ex_RInt_continuous (V := R_CompleteNormedModule)). intros. apply gz_cont. Qed.
  Let I (b : RR) : RR := RInt gz 0 b.
  Let zx (x : RR) : RR := sqrt (x ^ 2 - R ^ 2).
  Lemma zx_arg x : R < x -> 0 < x ^ 2 - R ^ 2. Proof. intros Hx. assert (0 < (x - R) * (x + R)) by (apply Rmult_lt_0_compat; lra). lra. Qed.
  Lemma zx_pos x : R < x -> 0 < zx x. Proof. intros Hx. apply sqrt_lt_R0, zx_arg, Hx. Qed.
  Lemma rz_zx x : R < x -> rz (zx x) = x.
  Proof. intros Hx. unfold rz, zx. rewrite pow2_sqrt by (apply Rlt_le, zx_arg; exact Hx). replace (R ^ 2 + (x ^ 2 - R ^ 2)) with (x ^ 2) by ring. apply sqrt_pow2. lra. Qed.
  Lemma rz_gt z : 0 < z -> R < rz z.
  Proof. intros Hz. unfold rz. rewrite <- (sqrt_pow2 R) at 1 by lra. apply sqrt_lt_1; [apply pow2_ge_0|apply Rlt_le, rad_pos|]. assert (0 < z ^ 2) by (apply pow_lt; exact Hz). lra. Qed.
  Lemma f_cont x : R < x -> continuous f x.
  Proof.
    intros Hx. pose proof (zx_arg x Hx) as P. unfold f. apply (continuous_mult (K := R_AbsRing) (fun x => x * g x) (fun x => / sqrt (x ^ 2 - R ^ 2))).
    - apply (continuous_mult (K := R_AbsRing) (fun x => x) g); [apply continuous_id|apply Cg; lra].
    - apply continuous_Rinv_comp; [|apply Rgt_not_eq, sqrt_lt_R0, P].
      apply (ex_derive_continuous (fun x => sqrt (x ^ 2 - R ^ 2))). auto_derive. replace (x * (x * 1) + - (R * (R * 1))) with (x ^ 2 - R ^ 2) by ring. lra.
  Qed.
  Lemma zx_mono u v : R < u -> u < v -> zx u < zx v.
  Proof. intros Hu Huv. unfold zx. apply sqrt_lt_1; [apply Rlt_le, zx_arg; lra|apply Rlt_le, zx_arg; lra|]. assert (0 < (v - u) * (v + u)) by (apply Rmult_lt_0_compat; lra). lra. Qed.
  Lemma piece u v : R < u -> u < v -> is_RInt f u v (I (zx v) - I (zx u)).
  Proof.
    intros Hu Huv. pose proof (zx_pos u Hu) as Pu. pose proof (zx_mono u v Hu Huv) as Puv.
    assert (E : is_RInt (fun y => scal (y / rz y) (f (rz y))) (zx u) (zx v) (RInt f (rz (zx u)) (rz (zx v)))).
    { apply (is_RInt_comp (V := R_CompleteNormedModule) f rz (fun y => y / rz y)); intros y Hy; rewrite Rmin_left, Rmax_right in Hy by lra.
      - apply f_cont. apply rz_gt. lra.
      - split; [apply rz_derive|]. apply (continuous_mult (K := R_AbsRing) (fun y => y) (fun y => / rz y)); [apply continuous_id|].
        apply continuous_Rinv_comp; [apply rz_cont|apply Rgt_not_eq, rz_pos]. }
    rewrite (rz_zx u Hu), (rz_zx v) in E by lra.
    assert (E2 : is_RInt gz (zx u) (zx v) (RInt f u v)).
    { apply (is_RInt_ext (fun y => scal (y / rz y) (f (rz y)))); [|exact E]. intros y Hy. rewrite Rmin_left, Rmax_right in Hy by lra.
      unfold scal; cbn; unfold mult; cbn. unfold f, gz. pose proof (rz_pos y) as Pr.
      replace (sqrt (rz y ^ 2 - R ^ 2)) with y.
      - rr. field. lra.
      - unfold rz. rewrite pow2_sqrt by (apply Rlt_le, rad_pos). replace (R ^ 2 + y ^ 2 - R ^ 2) with (y ^ 2) by ring. symmetry. apply sqrt_pow2. lra. }
    replace (I (zx v) - I (zx u)) with (RInt f u v).
    - apply (RInt_correct (V := R_CompleteNormedModule)). apply (ex_RInt_continuous (V := R_CompleteNormedModule)). intros x Hx. rewrite Rmin_left, Rmax_right in Hx by lra. apply f_cont. lra.
    - pose proof (is_RInt_unique _ _ _ _ E2) as U. rewrite <- U. unfold I.
      pose proof (RInt_Chasles (V := R_CompleteNormedModule) gz 0 (zx u) (zx v) (gz_ex _ _) (gz_ex _ _)) as Ch. change plus with Rplus in Ch. set (A := RInt gz 0 (zx u)) in *. set (B := RInt gz (zx u) (zx v)) in *. set (D := RInt gz 0 (zx v)) in *. clearbody A B D. change (A + B = D) in Ch. change (B = D - A). lra.
  Qed.
  Lemma I_lim : filterlim I (Rbar_locally p_infty) (locally l).
  Proof. apply gen_lim; [intros; apply gz_ex|exact Hl]. Qed.
  Lemma I_derive b : is_derive I b (gz b).
  Proof.
    apply (is_derive_RInt (V := R_NormedModule) gz I 0 b); [|apply gz_cont]. exists (mkposreal 1 Rlt_0_1). intros y _. apply (RInt_correct (V := R_CompleteNormedModule)), gz_ex.
  Qed.
  Lemma zx_lim_inf : filterlim zx (Rbar_locally p_infty) (Rbar_locally p_infty).
  Proof.
    intros P [M HM]. exists (Rmax M 0 + R). intros x Hx. apply HM. pose proof (Rmax_l M 0). pose proof (Rmax_r M 0).
    apply Rle_lt_trans with (Rmax M 0); [assumption|]. unfold zx. rewrite <- (sqrt_pow2 (Rmax M 0)) at 1 by assumption.
    apply sqrt_lt_1; [apply pow2_ge_0|apply Rlt_le, zx_arg; lra|]. set (m := Rmax M 0) in *. clearbody m.
    assert (0 < (x - (m + R)) * (x + (m + R))) by (apply Rmult_lt_0_compat; lra). assert (0 <= m * R) by (apply Rmult_le_pos; lra). lra.
  Qed.
  Lemma zx_lim_R : filterlim zx (at_right R) (locally 0).
  Proof.
    assert (C : continuous zx R).
    { unfold zx. apply (continuous_comp (fun x => x ^ 2 - R ^ 2) sqrt).
      - apply (ex_derive_continuous (fun x => x ^ 2 - R ^ 2)). auto_derive. exact Logic.I.
      - apply continuous_sqrt. }
    unfold continuous in C. assert (E : zx R = 0). { unfold zx. replace (R ^ 2 - R ^ 2) with 0 by ring. apply sqrt_0. }
    rewrite E in C. intros P HP. specialize (C P HP). unfold filtermap in *. unfold at_right, within. apply (filter_imp (F := locally R) (fun x => P (zx x))); [intros; assumption|exact C].
  Qed.
  Lemma I_0 : I 0 = 0. Proof. unfold I. rewrite RInt_point. reflexivity. Qed.
  Lemma los_subst : is_RInt_gen f (at_right R) (Rbar_locally p_infty) l.
  Proof.
    assert (L : filterlim (fun p : RR * RR => I (zx (snd p)) - I (zx (fst p))) (filter_prod (at_right R) (Rbar_locally p_infty)) (locally l)).
    { replace l with (plus l (opp 0)) by (unfold plus, opp; cbn; ring).
      apply (filterlim_comp_2 (G := locally l) (H := locally (opp 0)) (fun p : RR * RR => I (zx (snd p))) (fun p : RR * RR => opp (I (zx (fst p)))) (fun u v => plus u v)).
      - apply (filterlim_comp _ _ _ snd (fun v => I (zx v)) _ (Rbar_locally p_infty)); [apply filterlim_snd|].
        apply (filterlim_comp _ _ _ zx I _ (Rbar_locally p_infty)); [apply zx_lim_inf|apply I_lim].
      - apply (filterlim_comp _ _ _ fst (fun u => opp (I (zx u))) _ (at_right R)); [apply filterlim_fst|].
        apply (filterlim_comp _ _ _ (fun u => I (zx u)) opp _ (locally 0)); [|apply (filterlim_opp (V := R_NormedModule) 0)].
        apply (filterlim_comp _ _ _ zx I _ (locally 0)); [apply zx_lim_R|]. rewrite <- I_0 at 2. apply (ex_derive_continuous I). eexists. apply I_derive.
      - apply (filterlim_plus (V := R_NormedModule) l (opp 0)). }
    intros P HP. specialize (L P HP). unfold filtermap in L. unfold filtermapi.
    assert (W : filter_prod (at_right R) (Rbar_locally p_infty) (fun p => R < fst p /\ fst p < snd p)).
    { apply Filter_prod with (Q := fun u => R < u /\ u < R + 1) (R := fun v => R + 1 < v).
      - exists (mkposreal 1 Rlt_0_1). intros y Hy Hy2. change (Rabs (y - R) < 1) in Hy. apply Rabs_def2 in Hy. lra.
      - exists (R + 1). intros; assumption.
      - cbn. intros; lra. }
    apply (filter_imp (fun p => P (I (zx (snd p)) - I (zx (fst p))) /\ (R < fst p /\ fst p < snd p))); [|apply filter_and; [exact L|exact W]].
    intros [u v] (H1 & H2 & H3). cbn in *. eexists. split; [apply piece; assumption|exact H1].
  Qed.
End Subst.

(** The integrand of [sigmalos] is that of the line-of-sight variance. *)
Lemma los_integrand nu s2 b R z : 0 < R ->
  (let x := sqrt (R ^ 2 + z ^ 2) in (1 - b x * R ^ 2 / x ^ 2) * nu x * s2 x) = nu (sqrt (R ^ 2 + z ^ 2)) * los_variance s2 b R z.
Proof.
  intros HR. cbv zeta. unfold los_variance. cbv zeta. assert (P : 0 < R ^ 2 + z ^ 2). { pose proof (pow2_ge_0 z). assert (0 < R ^ 2) by (apply pow_lt; exact HR). lra. }
  set (x := sqrt (R ^ 2 + z ^ 2)). assert (Px : 0 < x) by (apply sqrt_lt_R0; exact P). assert (Ex : z ^ 2 = x ^ 2 - R ^ 2). { unfold x. rewrite pow2_sqrt by lra. ring. }
  replace ((z / x) ^ 2) with (z ^ 2 / x ^ 2) by (field; lra). rewrite Ex. field. lra.
Qed.
Lemma sigmalos_sq nu sr b S R l : 0 < R -> 0 < S -> continuous_outside nu -> continuous_outside b -> continuous_outside (fun r => sr r ^ 2) ->
  half_los (fun z => nu (sqrt (R ^ 2 + z ^ 2)) * los_variance (fun r => sr r ^ 2) b R z) l -> 0 <= l ->
  sigmalos_of nu sr b S R ^ 2 = 2 * l / S.
Proof.
  intros HR HS Cn Cb Cs Hl Pl. set (G := fun x => (1 - b x * R ^ 2 / x ^ 2) * nu x * sr x ^ 2).
  assert (CG : continuous_outside G).
  { intros x Hx. unfold G. apply (continuous_mult (K := R_AbsRing) (fun x => (1 - b x * R ^ 2 / x ^ 2) * nu x) (fun x => sr x ^ 2)); [|apply Cs; exact Hx].
    apply (continuous_mult (K := R_AbsRing) (fun x => 1 - b x * R ^ 2 / x ^ 2) nu); [|apply Cn; exact Hx].
    apply (continuous_minus (V := R_NormedModule) (fun _ => 1) (fun x => b x * R ^ 2 / x ^ 2)); [apply continuous_const|].
    apply (continuous_mult (K := R_AbsRing) (fun x => b x * R ^ 2) (fun x => / x ^ 2)).
    - apply (continuous_mult (K := R_AbsRing) b (fun _ => R ^ 2)); [apply Cb; exact Hx|apply continuous_const].
    - apply continuous_Rinv_comp; [|apply pow_nonzero; lra]. apply (ex_derive_continuous (fun x => x ^ 2)). auto_derive. exact Logic.I. }
  assert (HG : half_los (fun z => G (sqrt (R ^ 2 + z ^ 2))) l).
  { apply (gen_same (fun z => nu (sqrt (R ^ 2 + z ^ 2)) * los_variance (fun r => sr r ^ 2) b R z) _ _ _ _ _ _); [|exact Hl].
    intros z. symmetry. apply (los_integrand nu (fun r => sr r ^ 2) b R z HR). }
  pose proof (los_subst G R l HR CG HG) as Q.
  unfold sigmalos_of.
  replace (RInt_gen (V := R_CompleteNormedModule) (fun x => (1 - b x * R ^ 2 / x ^ 2) * x * nu x * sr x ^ 2 / sqrt (x ^ 2 - R ^ 2)) (at_right R) (Rbar_locally p_infty)) with l.
  - rewrite pow2_sqrt; [reflexivity|]. apply Rdiv_le_0_compat; [lra|exact HS].
  - symmetry. apply is_RInt_gen_unique. apply (gen_same (fun x => x * G x / sqrt (x ^ 2 - R ^ 2)) _ _ _ _ _ _); [|exact Q].
    intros x. unfold G. unfold Rdiv. rr. ring.
Qed.
