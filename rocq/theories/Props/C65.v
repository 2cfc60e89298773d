(** C65: the King model, its distribution function and its potential. *)
From Coq Require Import Reals Lra Lia List.
From Coquelicot Require Import Coquelicot.
From Verif.Lib Require Import RealAux.
From Verif.Model Require Import PotSpecial King.
From Verif.Spec Require Import KingSpec.
From Verif.Proofs Require Import KingProofs.
Import ListNotations.
Open Scope R_scope.
Notation RR := RbaseSymbolsImpl.R (only parsing).
Ltac rr := match goal with |- ?a = ?b => change (@eq RR a b) end.

(** ** The density as a function of the potential *)
Theorem C65_profile : dens_W 0 = 0 /\ (forall a b, 0 <= a -> a < b -> dens_W a < dens_W b) /\ (forall W, continuous dens_W W) /\
  (forall W, 0 < W -> is_derive dens_W W (exp W * erf (sqrt W) - 2 / sqrt PI * sqrt W)).
Proof. split; [apply densW_0|]. split; [apply densW_up|]. split; [apply c_densW|]. apply d_densW. Qed.
Print Assumptions C65_profile.

(** ** The distribution function *)
Lemma pref_eq s rho1 x : 0 < s -> (x - 1) * rpow (2 * PI * s ^ 2) (- (3 / 2)) * rho1 = rho1 / (sqrt (2 * PI) * s) ^ 3 * (x - 1).
Proof.
  intros Hs. rewrite pref by exact Hs. pose proof PI_RGT_0. pose proof sPI. pose proof s2. rewrite sqrt_mult by lra.
  replace ((sqrt 2 * sqrt PI * s) ^ 3) with ((sqrt 2 * sqrt 2) * (sqrt PI * sqrt PI) * (sqrt 2 * sqrt PI) * s ^ 3) by ring. rewrite !sqrt_sqrt by lra. rr. field. repeat split; lra.
Qed.
Lemma lowered potInf s rho1 : 0 < s -> lowered_maxwellian potInf s rho1 (king_fE potInf (s ^ 2) rho1).
Proof.
  intros Hs E. unfold king_fE. cbv zeta. destruct (Rlt_dec 0 (potInf - E)) as [L|L]; (split; [intros H|intros H]); try (exfalso; lra); [|reflexivity]. apply pref_eq. exact Hs.
Qed.
Lemma is_scaled (g : RR -> RR) a b c l : is_RInt g a b l -> is_RInt (fun x => c * g x) a b (c * l).
Proof. exact (is_RInt_scal (V := R_NormedModule) g a b c l). Qed.
Theorem C65_distribution : forall potInf s rho1, 0 < s ->
  lowered_maxwellian potInf s rho1 (king_fE potInf (s ^ 2) rho1) /\
  (forall E, 0 < rho1 -> E < potInf -> 0 < king_fE potInf (s ^ 2) rho1 E) /\
  (forall phi, phi <= potInf -> has_density (king_fE potInf (s ^ 2) rho1) phi (rho1 * dens_W ((potInf - phi) / s ^ 2))) /\
  (forall es, king_fE_call potInf (s ^ 2) rho1 (EArray es) = Some (List.map (king_fE potInf (s ^ 2) rho1) es)).
Proof.
  intros potInf s rho1 Hs. assert (Q : 0 < s ^ 2) by (apply pow_lt; exact Hs). split; [apply lowered; exact Hs|]. split; [|split; [|reflexivity]].
  - intros E H1 H2. rewrite (proj1 (lowered potInf s rho1 Hs E) H2). pose proof PI_RGT_0. apply Rmult_lt_0_compat; [apply Rdiv_lt_0_compat; [exact H1|apply pow_lt, Rmult_lt_0_compat; [apply sqrt_lt_R0; lra|exact Hs]]|]. assert (X : 0 < (potInf - E) / s ^ 2) by (apply Rdiv_lt_0_compat; lra). pose proof (exp_ineq1 _ (Rgt_not_eq _ _ X)). lra.
  - intros phi H. exists (sqrt (2 * (potInf - phi))). split; [apply sqrt_pos|]. split.
    + intros u Hu. apply (proj2 (lowered potInf s rho1 Hs _)). assert (L : sqrt (2 * (potInf - phi)) ^ 2 <= u ^ 2) by (apply pow_incr; split; [apply sqrt_pos|exact Hu]). rewrite pow2_sqrt in L by lra. lra.
    + intros top Ht. pose proof (is_scaled _ _ _ (4 * PI) _ (king_is_density potInf (s ^ 2) rho1 phi top Q H Ht)) as J. pose proof PI_RGT_0 as P0.
      replace (rho1 * dens_W ((potInf - phi) / s ^ 2)) with (4 * PI * (rho1 * dens_W ((potInf - phi) / s ^ 2) / (4 * PI))) by (set (d := dens_W _); clearbody d; rr; field; lra).
      refine (is_RInt_ext _ _ _ _ _ _ J). intros u _. rr. ring.
Qed.
Print Assumptions C65_distribution.
(** Finding: the method fails on a Python float, because it asks the argument for its shape. *)
Theorem C65_float_refuted : forall potInf s2 rho1 E, king_fE_call potInf s2 rho1 (EFloat E) = None /\ king_fE_call potInf s2 rho1 (EArray [E]) <> None.
Proof. intros. split; [reflexivity|discriminate]. Qed.
Print Assumptions C65_float_refuted.

(** ** The differential equation and the cumulative mass *)
Theorem C65_equation :
  (forall R W V U w, 0 < R w -> V w <> 0 -> is_derive R w (fst (rhs2 w (R w, V w))) -> is_derive V w (snd (rhs2 w (R w, V w))) ->
    locally w (fun x => W (R x) = x) -> ex_derive W (R w) -> (forall x, U x = V (W x)) ->
    is_derive W (R w) (fst (rhs1 (R w) (W (R w), U (R w)))) /\ is_derive U (R w) (snd (rhs1 (R w) (W (R w), U (R w))))) /\
  (forall W V r, 0 < r -> locally r (fun x => is_derive W x (fst (rhs1 x (W x, V x)))) -> is_derive V r (snd (rhs1 r (W r, V r))) ->
    poisson_at (fun x => - W x) (fun x => dens_W (W x)) r /\ is_derive (fun x => sf_cumul x (V x)) r (4 * PI * r ^ 2 * dens_W (W r))) /\
  (forall y, rhs1 0 y = (snd y, - (4 * PI * dens_W (fst y)))).
Proof.
  split; [intros; eapply forms; eassumption|]. split.
  - intros W V r Hr DW DV. unfold rhs1 in *; cbn [fst snd] in *. destruct (Rlt_dec 0 r) as [_|N]; [|contradiction].
    assert (D : is_derive (fun x => sf_cumul x (V x)) r (4 * PI * r ^ 2 * dens_W (W r))).
    { unfold sf_cumul. assert (D2 : is_derive (fun x : RR => x ^ 2) r (2 * r)) by (auto_derive; [exact I|rr; ring]). refine (is_derive_eq _ _ _ _ (is_derive_Rmult (fun x => - V x) (fun x => x ^ 2) r _ _ (is_derive_opp (V := R_NormedModule) _ _ _ DV) D2) _). change (- (- FOURPI * dens_W (W r) - 2 * V r / r) * r ^ 2 + - V r * (2 * r) = 4 * PI * r ^ 2 * dens_W (W r)). unfold FOURPI. field. lra. }
    split; [|exact D]. exists (fun x => - V x). split.
    + apply (filter_imp (fun x => is_derive W x (V x))); [|exact DW]. intros x Dx. exact (is_derive_opp (V := R_NormedModule) _ _ _ Dx).
    + apply (is_derive_ext (fun x => sf_cumul x (V x))); [|exact D]. intros x. unfold sf_cumul. rr. ring.
  - intros [a b]. unfold rhs1, FOURPI. cbn [fst snd]. destruct (Rlt_dec 0 0) as [L|_]; [exfalso; lra|]. f_equal. ring.
Qed.
Print Assumptions C65_equation.
Lemma nondecr_spec l : nondecr l -> never_decreases l.
Proof.
  induction l as [|m l IH]; intros H i j [Hij Hj]; [simpl in Hj; lia|]. destruct H as [H1 H2]. specialize (IH H2).
  destruct i as [|i]; destruct j as [|j]; simpl; try lra; try lia.
  - destruct l as [|m' l']; [simpl in Hj; lia|]. simpl in H1. pose proof (IH 0%nat j ltac:(simpl in *; lia)) as Q. simpl in Q. destruct j; simpl in *; lra.
  - apply IH. simpl in Hj. lia.
Qed.
Lemma spec_nondecr l : never_decreases l -> nondecr l.
Proof.
  induction l as [|m l IH]; intros H; simpl; [exact I|]. split.
  - destruct l as [|m' l']; simpl; [exact I|]. apply (H 0%nat 1%nat). simpl. lia.
  - apply IH. intros i j Hj. apply (H (S i) (S j)). simpl. lia.
Qed.
Theorem C65_cumulative : forall eps2 l, 0 <= eps2 ->
  length (adjusted eps2 l) = length l /\ never_decreases (adjusted eps2 l) /\ (never_decreases l -> adjusted eps2 l = l) /\
  (forall i, (i < length l)%nat -> nth i l 0 <= nth i (adjusted eps2 l) 0) /\ nth 0 (adjusted eps2 l) 0 = nth 0 l 0 /\
  (0 < eps2 -> forall i, (S i < length l)%nat -> nth (S i) (adjusted eps2 l) 0 = nth (S i) l 0 /\ nth i (adjusted eps2 l) 0 <= nth (S i) l 0 \/ nth (S i) (adjusted eps2 l) 0 = nth i (adjusted eps2 l) 0 + eps2).
Proof.
  intros e [|m l] He; simpl adjusted.
  - repeat split; try (intros i j [_ H]; simpl in H; lia); try (intros i H; simpl in H; lia). intros _ i H; simpl in H; lia.
  - split; [simpl; rewrite adjust_len; reflexivity|]. split; [apply nondecr_spec, adjust_up; exact He|]. split; [intros H; f_equal; apply adjust_id, spec_nondecr; exact H|].
    split; [intros [|i] Hi; simpl; [lra|]; apply adjust_ge; [exact He|simpl in Hi; lia]|]. split; [reflexivity|]. intros _ i. revert m i. induction l as [|k l IH]; intros m i Hi; [simpl in Hi; lia|]. cbn [adjust]. cbv zeta.
    destruct i as [|i].
    + simpl. destruct (Rlt_dec k m); [right; lra|left; lra].
    + set (k' := if Rlt_dec k m then m + e else k). change (nth (S (S i)) (m :: k' :: adjust e k' l) 0) with (nth (S i) (k' :: adjust e k' l) 0). change (nth (S i) (m :: k' :: adjust e k' l) 0) with (nth i (k' :: adjust e k' l) 0). change (nth (S (S i)) (m :: k :: l) 0) with (nth (S i) (k' :: l) 0). apply IH. simpl in *. lia.
Qed.
Print Assumptions C65_cumulative.

(** ** The scaled model: the scale-free solution W, W' = V reaches zero at srt *)
Definition solution (W V dV : RR -> RR) (srt : RR) : Prop :=
  0 < srt /\ V srt < 0 /\ W srt = 0 /\ (forall r, is_derive W r (V r)) /\ (forall r, is_derive V r (dV r)) /\ (forall r, 0 <= r < srt -> 0 < W r).
(** what the pair (W, V) misses of the King equation *)
Definition residual (W V dV : RR -> RR) (r : RR) : RR := dV r - (- (4 * PI * dens_W (W r)) - 2 * V r / r).
Section King.
  Variables (M rt : RR) (W V dV : RR -> RR) (srt : RR) (P : RR -> RR).
  Hypotheses (HM : 0 < M) (Hrt : 0 < rt) (HS : solution W V dV srt).
  Notation smass := (sf_cumul srt (V srt)).
  Notation F := (KP_force M rt V srt smass).
  Hypothesis DP : forall r, is_derive P r (F r).
  Notation Phi := (KP_ev M rt (W 0) V srt smass P).
  Notation s2 := (k_sigma2 M rt srt smass).
  Notation rs := (radius_scale rt srt).
  Lemma dP_in r : r < rt -> is_derive Phi r (- F r).
  Proof using DP.
    intros H. unfold KP_ev. apply (is_derive_ext_loc (fun x => - P x + IS_Phi0 P 0 (KP_Phi0 M rt (W 0) srt smass))).
    - apply (filter_imp (fun x => x < rt)); [|apply locally_lt; exact H]. intros x Hx. unfold IS_rev. destruct (Rle_dec rt x) as [N|_]; [exfalso; lra|reflexivity].
    - refine (is_derive_eq _ _ _ _ (is_derive_plus (V := R_NormedModule) _ _ _ _ _ (is_derive_opp (V := R_NormedModule) _ _ _ (DP r)) (is_derive_const (V := R_NormedModule) _ _)) _). change (- F r + 0 = - F r). ring.
  Qed.
  Lemma dP_out r : rt < r -> is_derive Phi r (M / r ^ 2).
  Proof using HM Hrt HS DP.
    destruct HS as (A1 & A2 & A3 & A4 & A5 & A6). intros H. apply (is_derive_ext_loc (fun x => - M / x)).
    - apply (filter_imp (fun x => rt < x)); [|apply locally_gt; exact H]. intros x Hx. symmetry. apply Phi_out; try assumption. lra.
    - auto_derive; [lra|]. rr. field. lra.
  Qed.
  Lemma rf_in r : r < rt -> KP_rforce M rt V srt smass r = F r.
  Proof using. intros H. unfold KP_rforce, IS_rforce. destruct (Rle_dec rt r) as [N|_]; [exfalso; lra|reflexivity]. Qed.
  Lemma rf_out r : rt <= r -> KP_rforce M rt V srt smass r = - M / r ^ 2.
  Proof using HM Hrt HS. destruct HS as (A1 & A2 & A3 & A4 & A5 & A6). intros H. unfold KP_rforce, IS_rforce. destruct (Rle_dec rt r) as [_|N]; [|contradiction]. unfold IS_total_mass. rewrite (total M rt V srt HM Hrt A1 A2). reflexivity. Qed.
End King.

Lemma enclosed M rt V srt m r : 0 < M -> 0 < rt -> 0 < srt -> 0 < m -> - r ^ 2 * KP_force M rt V srt m r = M * k_cmf M rt V srt m r.
Proof. intros H1 H2 H3 H4. unfold KP_force, k_cmf, sf_cumul, mass_scale, radius_scale. set (v := V _). clearbody v. field. repeat split; lra. Qed.
Theorem C65_potential : forall M rt W V dV srt P, 0 < M -> 0 < rt -> solution W V dV srt ->
  let smass := sf_cumul srt (V srt) in let rs := radius_scale rt srt in
  (forall r, is_derive P r (KP_force M rt V srt smass r)) ->
  let Phi := KP_ev M rt (W 0) V srt smass P in let s := k_sigma M rt srt smass in
  (forall r, r < rt -> Phi r = - (s ^ 2 * W (r / rs)) - M / rt) /\ (forall r, rt <= r -> Phi r = - M / r) /\
  (forall r, r <> rt -> is_derive Phi r (- KP_rforce M rt V srt smass r)) /\
  (forall r, rt <= r -> KP_rforce M rt V srt smass r = - M / r ^ 2) /\
  KP_rforce M rt V srt smass rt = KP_force M rt V srt smass rt /\
  (forall r, 0 <= r < rt -> - r ^ 2 * KP_rforce M rt V srt smass r = M * k_cmf M rt V srt smass r) /\ k_cmf M rt V srt smass rt = 1.
Proof.
  intros M rt W V dV srt P HM Hrt HS smass rs DP Phi s. pose proof HS as (A1 & A2 & A3 & A4 & A5 & A6). pose proof (smass_pos V srt A1 A2) as SP. pose proof (rs_pos rt srt Hrt A1) as R0.
  split; [intros r H; exact (Phi_in M rt W V srt P HM Hrt A1 A2 A4 DP r H)|]. split; [intros r H; exact (Phi_out M rt W V srt P HM Hrt A1 A2 A3 A4 DP r H)|].
  split. { intros r H. destruct (Rlt_dec r rt) as [L|L]; [unfold smass; rewrite rf_in by exact L; apply dP_in; assumption|]. unfold smass. rewrite (rf_out M rt W V dV srt HM Hrt HS) by lra. refine (is_derive_eq _ _ _ _ (dP_out M rt W V dV srt P HM Hrt HS DP r _) _); [lra|]. rr. field. lra. }
  split; [intros r H; apply (rf_out M rt W V dV srt HM Hrt HS); exact H|].
  split. { unfold smass. rewrite (rf_out M rt W V dV srt HM Hrt HS) by lra. pose proof (total M rt V srt HM Hrt A1 A2) as T. set (f := KP_force _ _ _ _ _ _) in *. clearbody f. rewrite <- T. field. lra. }
  split. { intros r H. unfold smass. rewrite rf_in by lra. apply enclosed; assumption. }
  unfold k_cmf. rewrite (rt_rs rt srt Hrt A1). fold smass. fold smass in SP. clearbody smass. unfold mass_scale. field. split; lra.
Qed.
Print Assumptions C65_potential.

(** The density of the potential, the density method and the density of the stars. *)
Theorem C65_self_consistent : forall M rt W V dV srt P DF, 0 < M -> 0 < rt -> solution W V dV srt ->
  let smass := sf_cumul srt (V srt) in let rs := radius_scale rt srt in
  (forall r, is_derive P r (KP_force M rt V srt smass r)) -> (forall r, is_derive (KP_force M rt V srt smass) r (DF r)) ->
  let Phi := KP_ev M rt (W 0) V srt smass P in let s := k_sigma M rt srt smass in let rho1 := k_rho1 M rt srt smass in
  let dens := k_dens M rt W srt smass in let f := king_fE (Phi rt) (s ^ 2) rho1 in
  (forall r, 0 <= r < rt -> has_density f (Phi r) (dens r) /\ king_vmoment0 f Phi rt r = dens r /\ 0 < dens r /\ k_dens_np M rt W srt smass r = Some (dens r)) /\
  (forall r, 0 < r -> r <> rt -> poisson_at Phi (KP_dens M rt V srt smass DF) r) /\
  (forall r, rt <= r -> KP_dens M rt V srt smass DF r = 0) /\
  (forall r, 0 < r < rt -> KP_dens M rt V srt smass DF r = dens r - rho1 / (4 * PI) * residual W V dV (r / rs)) /\
  (forall eps, (forall x, 0 < x < srt -> Rabs (residual W V dV x) <= eps) -> forall r, 0 < r < rt -> Rabs (KP_dens M rt V srt smass DF r - dens r) <= rho1 / (4 * PI) * eps).
Proof.
  intros M rt W V dV srt P DF HM Hrt HS smass rs DP DD Phi s rho1 dens f. pose proof HS as (A1 & A2 & A3 & A4 & A5 & A6). pose proof (rs_pos rt srt Hrt A1) as R0. pose proof (ms_pos M V srt HM A1 A2) as M0. pose proof PI_RGT_0 as P0.
  assert (S0 : 0 < s) by (unfold s, k_sigma, velocity_scale; apply sqrt_lt_R0, Rdiv_lt_0_compat; [exact M0|exact R0]).
  assert (Q0 : 0 < rho1) by (unfold rho1, k_rho1, density_scale; apply Rdiv_lt_0_compat; [exact M0|apply pow_lt; exact R0]).
  assert (X : forall r, 0 <= r < rt -> 0 <= r / rs < srt). { intros r [H1 H2]. split; [apply Rmult_le_pos; [exact H1|apply Rlt_le, Rinv_0_lt_compat; exact R0]|]. rewrite <- (rt_rs rt srt Hrt A1). apply Rmult_lt_compat_r; [apply Rinv_0_lt_compat; exact R0|exact H2]. }
  assert (B : forall r, 0 < r < rt -> KP_dens M rt V srt smass DF r = dens r - rho1 / (4 * PI) * residual W V dV (r / rs)).
  { intros r [H1 H2]. pose proof (dens_in M rt W V dV srt Hrt A1 DF r) as E. unfold smass. rewrite E; [| |exact H1|exact H2].
    - assert (Y : 0 < r / rs) by (apply Rdiv_lt_0_compat; assumption). unfold residual, rhs1, FOURPI. cbn [fst snd]. fold rs. destruct (Rlt_dec 0 (r / rs)) as [_|N]; [|contradiction]. unfold dens, rho1. set (a := k_rho1 _ _ _ _). set (b := k_dens _ _ _ _ _ _). set (c := dV (r / rs)). set (d := dens_W _). set (e := V (r / rs)). clearbody a b c d e. fold smass. fold smass in b. set (x := r / rs) in *. clearbody x. field. split; lra.
    - pose proof (d_F M rt V dV srt Hrt A1 A5 r) as Z. rewrite <- (is_derive_unique _ _ _ (DD r)). apply is_derive_unique. exact Z. }
  split; [|split; [|split; [|split; [exact B|]]]].
  - intros r H. pose proof (X r H) as Y. pose proof (A6 _ Y) as WP.
    assert (DE : 0 < dens r). { unfold dens, k_dens. apply Rmult_lt_0_compat; [|exact Q0]. rewrite <- densW_0. apply densW_up; [lra|exact WP]. }
    assert (E : Phi rt - Phi r = s ^ 2 * W (r / rs)). { unfold Phi, smass. rewrite (Phi_out M rt W V srt P HM Hrt A1 A2 A3 A4 DP rt ltac:(lra)), (Phi_in M rt W V srt P HM Hrt A1 A2 A4 DP r ltac:(lra)). unfold k_sigma2, s, rs. fold smass. unfold Rdiv. ring. }
    assert (S2 : 0 < s ^ 2) by (apply pow_lt; exact S0). assert (Y2 : 0 < s ^ 2 * W (r / rs)) by (apply Rmult_lt_0_compat; assumption).
    split; [|split; [|split; [exact DE|]]].
    + replace (dens r) with (rho1 * dens_W ((Phi rt - Phi r) / s ^ 2)); [apply C65_distribution; [exact S0|lra]|]. rewrite E. replace (s ^ 2 * W (r / rs) / s ^ 2) with (W (r / rs)) by (field; lra). unfold dens, k_dens, rho1, k_rho1. fold rs. rr. ring.
    + exact (df_in M rt W V srt P HM Hrt A1 A2 A3 A4 DP r (proj1 H) (proj2 H) (Rlt_le _ _ WP)).
    + unfold k_dens_np. fold rs. destruct (Rlt_dec (W (r / rs)) 0) as [N|_]; [exfalso; lra|reflexivity].
  - intros r H0 H. destruct (Rlt_dec r rt) as [L|L].
    + exists (fun x => - KP_force M rt V srt smass x). split; [apply (filter_imp (fun x => x < rt)); [intros x Hx; apply dP_in; assumption|apply locally_lt; exact L]|].
      assert (D2 : is_derive (fun x : RR => x ^ 2) r (2 * r)) by (auto_derive; [exact I|rr; ring]). refine (is_derive_eq _ _ _ _ (is_derive_Rmult (fun x => x ^ 2) (fun x => - KP_force M rt V srt smass x) r _ _ D2 (is_derive_opp (V := R_NormedModule) _ _ _ (DD r))) _).
      change (2 * r * - KP_force M rt V srt smass r + r ^ 2 * - DF r = 4 * PI * r ^ 2 * KP_dens M rt V srt smass DF r). unfold KP_dens, IS_rdens, IS_r2deriv, IS_rforce. destruct (Rle_dec rt r) as [N|_]; [exfalso; lra|]. field. split; lra.
    + exists (fun x => M / x ^ 2). split; [apply (filter_imp (fun x => rt < x)); [intros x Hx; apply (dP_out M rt W V dV srt P HM Hrt HS DP); exact Hx|apply locally_gt; lra]|].
      apply (is_derive_ext_loc (fun _ => M)). * apply (filter_imp (fun x => rt < x)); [|apply locally_gt; lra]. intros x Hx. rr. field. lra.
      * refine (is_derive_eq _ _ _ _ (is_derive_const (V := R_NormedModule) _ _) _). unfold KP_dens, IS_rdens. destruct (Rle_dec rt r) as [_|N]; [|exfalso; lra]. change (0 = 4 * PI * r ^ 2 * 0). ring.
  - intros r H. unfold KP_dens, IS_rdens. destruct (Rle_dec rt r) as [_|N]; [reflexivity|contradiction].
  - intros eps He r H. rewrite B by exact H. replace (dens r - rho1 / (4 * PI) * residual W V dV (r / rs) - dens r) with (- (rho1 / (4 * PI) * residual W V dV (r / rs))) by ring. assert (Y : 0 < rho1 / (4 * PI)) by (apply Rdiv_lt_0_compat; lra). rewrite Rabs_Ropp, Rabs_mult, (Rabs_right (rho1 / _)) by lra. apply Rmult_le_compat_l; [lra|]. apply He. destruct H as [H1 H2]. destruct (X r (conj (Rlt_le _ _ H1) H2)). split; [apply Rdiv_lt_0_compat; assumption|assumption].
Qed.
Print Assumptions C65_self_consistent.

(** The scales: the total mass, the central density, the core radius of King (1966), the depth of the potential. *)
Theorem C65_scales : forall M rt W V dV srt P, 0 < M -> 0 < rt -> solution W V dV srt ->
  let smass := sf_cumul srt (V srt) in (forall r, is_derive P r (KP_force M rt V srt smass r)) ->
  let Phi := KP_ev M rt (W 0) V srt smass P in let s := k_sigma M rt srt smass in let rho0 := k_rho0 M rt (W 0) srt smass in
  rho0 = k_dens M rt W srt smass 0 /\ 0 < rho0 /\ k_r0 rt (W 0) srt ^ 2 = 9 * s ^ 2 / (4 * PI * rho0) /\ 0 < k_r0 rt (W 0) srt /\
  Phi rt - Phi 0 = s ^ 2 * W 0 /\ Phi 0 = KP_Phi0 M rt (W 0) srt smass /\
  (forall c d, 0 < c -> 0 < d -> forall r, k_dens (c * M) (d * rt) W srt smass (d * r) = c / d ^ 3 * k_dens M rt W srt smass r).
Proof.
  intros M rt W V dV srt P HM Hrt HS smass DP Phi s rho0. pose proof HS as (A1 & A2 & A3 & A4 & A5 & A6). pose proof (rs_pos rt srt Hrt A1) as R0. pose proof (ms_pos M V srt HM A1 A2) as M0. pose proof PI_RGT_0 as P0. pose proof (smass_pos V srt A1 A2) as SP. fold smass in M0, SP.
  assert (WP : 0 < W 0) by (apply A6; split; [apply Rle_refl|exact A1]). assert (DP0 : 0 < sf_rho0 (W 0)) by (pose proof (densW_up 0 (W 0) (Rle_refl 0) WP) as U; rewrite densW_0 in U; exact U).
  assert (S2 : s ^ 2 = mass_scale M smass / radius_scale rt srt) by exact (sigma2_eq M rt V srt HM Hrt A1 A2).
  assert (Z : 0 / radius_scale rt srt = 0) by (unfold Rdiv; ring).
  split; [unfold rho0, k_rho0, k_dens, sf_rho0; rewrite Z; reflexivity|].
  assert (R1 : 0 < rho0) by (unfold rho0, k_rho0, density_scale; apply Rmult_lt_0_compat; [exact DP0|apply Rdiv_lt_0_compat; [exact M0|apply pow_lt; exact R0]]). split; [exact R1|].
  assert (Y : 0 < 9 / 4 / PI / sf_rho0 (W 0)) by (apply Rdiv_lt_0_compat; [apply Rdiv_lt_0_compat; lra|exact DP0]).
  split. { unfold k_r0, sf_r0. rewrite Rpow_mult_distr, pow2_sqrt by lra. rewrite S2. unfold rho0, k_rho0, density_scale. field. repeat split; lra. }
  split; [unfold k_r0, sf_r0; apply Rmult_lt_0_compat; [apply sqrt_lt_R0; exact Y|exact R0]|].
  assert (E0 : Phi 0 = - (s ^ 2 * W 0) - M / rt). { pose proof (Phi_in M rt W V srt P HM Hrt A1 A2 A4 DP 0 ltac:(lra)) as E. rewrite Z in E. exact E. }
  split. { rewrite E0. unfold Phi, smass. rewrite (Phi_out M rt W V srt P HM Hrt A1 A2 A3 A4 DP rt ltac:(lra)). unfold Rdiv. ring. }
  split. { rewrite E0, S2. unfold KP_Phi0. unfold Rdiv. ring. }
  intros c d Hc Hd r. unfold k_dens. replace (d * r / radius_scale (d * rt) srt) with (r / radius_scale rt srt) by (unfold radius_scale; field; repeat split; lra). unfold density_scale, mass_scale, radius_scale. set (q := dens_W _). clearbody q. clear - SP HM Hrt A1 Hc Hd. set (m := smass) in *. clearbody m. field. repeat split; lra.
Qed.
Print Assumptions C65_scales.

(** Finding: just outside the tidal radius, where the potential has no mass, the density method takes the root of a negative number. *)
Theorem C65_outside_refuted : forall M rt W V dV srt, 0 < M -> 0 < rt -> solution W V dV srt ->
  exists r, rt < r /\ k_dens_np M rt W srt (sf_cumul srt (V srt)) r = None.
Proof.
  intros M rt W V dV srt HM Hrt HS. pose proof HS as (A1 & A2 & A3 & A4 & A5 & A6). pose proof (rs_pos rt srt Hrt A1) as R0.
  assert (E : exists x, srt < x /\ W x < 0).
  { assert (C : locally srt (fun x => V x < 0)). { assert (CV : continuous V srt) by (apply (ex_derive_continuous (V := R_NormedModule)); eexists; apply A5). apply (CV (fun y => y < 0)). apply locally_lt. exact A2. }
    destruct C as [e He]. exists (srt + e / 2). assert (e0 := cond_pos e). split; [lra|].
    destruct (MVT_gen W srt (srt + e / 2) V) as (c & Hc & E); [intros; apply A4|intros x _; apply continuity_pt_filterlim, (ex_derive_continuous (V := R_NormedModule)); eexists; apply A4|]. rewrite Rmin_left, Rmax_right in Hc by lra.
    assert (VC : V c < 0). { apply He. change (Rabs (c - srt) < e). rewrite Rabs_right; lra. } rewrite A3 in E. assert (0 < - V c * (srt + e / 2 - srt)) by (apply Rmult_lt_0_compat; lra). lra. }
  destruct E as (x & Hx & HW). exists (x * radius_scale rt srt). assert (Q : rt = srt * radius_scale rt srt) by (unfold radius_scale; field; lra). split; [rewrite Q at 1; apply Rmult_lt_compat_r; assumption|].
  unfold k_dens_np. replace (x * radius_scale rt srt / radius_scale rt srt) with x by (field; lra). destruct (Rlt_dec (W x) 0) as [_|N]; [reflexivity|contradiction].
Qed.
Print Assumptions C65_outside_refuted.

(** ** A concrete case: W = 1 - r^2, a fair approximation near the centre, with the error the theorem bounds *)
Example C65_case : let W := fun r : RR => 1 - r ^ 2 in let V := fun r : RR => - 2 * r in let dV := fun _ : RR => - 2 in
  solution W V dV 1 /\ sf_cumul 1 (V 1) = 2 /\ (forall x, 0 < x < 1 -> Rabs (residual W V dV x) <= 6 + 4 * PI * dens_W 1) /\
  exists P, forall r, is_derive P r (KP_force 3 2 V 1 (sf_cumul 1 (V 1)) r).
Proof.
  cbv zeta. split; [|split; [|split]].
  - split; [lra|]. split; [lra|]. split; [ring|]. split; [intros r; auto_derive; [exact I|rr; ring]|]. split; [intros r; auto_derive; [exact I|rr; ring]|]. intros r H. assert (r ^ 2 < 1) by (simpl; nra). lra.
  - unfold sf_cumul. ring.
  - intros x H. unfold residual. pose proof PI_RGT_0 as P0. assert (X : 0 < 1 - x ^ 2 < 1) by (simpl; nra). pose proof (densW_up (1 - x ^ 2) 1 ltac:(lra) ltac:(lra)) as U. pose proof (densW_up 0 (1 - x ^ 2) ltac:(lra) ltac:(lra)) as L. rewrite densW_0 in L. replace (2 * (-2 * x) / x) with (-4) by (field; lra). set (d := dens_W (1 - x ^ 2)) in *. clearbody d. assert (4 * PI * d <= 4 * PI * dens_W 1) by (apply Rmult_le_compat_l; lra). assert (0 < 4 * PI * d) by (apply Rmult_lt_0_compat; lra). apply Rabs_le. lra.
  - exists (fun r => mass_scale 3 (sf_cumul 1 (-2 * 1)) / radius_scale 2 1 ^ 3 * (- r ^ 2)). intros r. unfold KP_force, sf_cumul, mass_scale, radius_scale. auto_derive; [exact I|]. rr. field.
Qed.
