(** The King model. *)
From Coq Require Import Reals Lra List.
From Coquelicot Require Import Coquelicot.
From Verif.Lib Require Import RealAux.
From Verif.Model Require Import PotSpecial King.
Import ListNotations.
Open Scope R_scope.
Notation RR := RbaseSymbolsImpl.R (only parsing).
Ltac rr := match goal with |- ?a = ?b => change (@eq RR a b) end.

Lemma sPI : 0 < sqrt PI. Proof. apply sqrt_lt_R0, PI_RGT_0. Qed.
Lemma c_gauss (x : RR) : continuous (fun t => exp (- t ^ 2)) x.
Proof. apply (ex_derive_continuous (V := R_NormedModule)). auto_derive. exact I. Qed.
Lemma ex_gauss a b : ex_RInt (fun t => exp (- t ^ 2)) a b.
Proof. apply (ex_RInt_continuous (V := R_CompleteNormedModule)). intros x _. apply c_gauss. Qed.
Lemma d_erf x : is_derive erf x (2 / sqrt PI * exp (- x ^ 2)).
Proof.
  unfold erf. apply is_derive_Rscal. apply (is_derive_RInt (V := R_NormedModule) (fun t => exp (- t ^ 2)) _ 0 x); [|apply c_gauss].
  exists (mkposreal 1 Rlt_0_1). intros y _. apply (RInt_correct (V := R_CompleteNormedModule)), ex_gauss.
Qed.
Lemma erf_0 : erf 0 = 0. Proof. unfold erf. rewrite RInt_point. unfold zero; simpl. rr. ring. Qed.
Lemma erf_pos x : 0 < x -> 0 < erf x.
Proof.
  intros H. unfold erf. apply Rmult_lt_0_compat; [apply Rdiv_lt_0_compat; [lra|apply sPI]|]. apply RInt_gt_0; [exact H|intros; apply exp_pos|intros; apply c_gauss].
Qed.
(** ** The profile *)
Lemma densW_0 : dens_W 0 = 0.
Proof. unfold dens_W. cbv zeta. rewrite sqrt_0, erf_0. ring. Qed.
Lemma d_densW W : 0 < W -> is_derive dens_W W (exp W * erf (sqrt W) - TWOOVERSQRTPI * sqrt W).
Proof.
  intros H. pose proof (sqrt_lt_R0 _ H) as S. pose proof sPI as Q. unfold dens_W. cbv zeta.
  assert (D1 : is_derive sqrt W (/ (2 * sqrt W))) by (apply is_derive_Reals, derivable_pt_lim_sqrt; exact H).
  assert (De : is_derive exp W (exp W)) by (apply is_derive_Reals, derivable_pt_lim_exp).
  pose proof (is_derive_comp (V := R_NormedModule) erf sqrt W _ _ (d_erf (sqrt W)) D1) as D2. unfold scal in D2; simpl in D2. unfold mult in D2; simpl in D2.
  assert (D3 : is_derive (fun W => 1 + 2 / 3 * W) W (2 / 3)) by (auto_derive; [exact I|rr; ring]).
  pose proof (is_derive_Rmult _ _ _ _ _ De D2) as A1. pose proof (is_derive_Rmult _ _ _ _ _ (is_derive_Rscal _ _ TWOOVERSQRTPI _ D1) D3) as A2.
  refine (is_derive_eq _ _ _ _ (is_derive_minus (V := R_NormedModule) _ _ _ _ _ A1 A2) _).
  unfold minus, plus, opp; simpl. replace (sqrt W ^ 2) with W by (symmetry; apply pow2_sqrt; lra). rewrite exp_Ropp. unfold TWOOVERSQRTPI. pose proof (exp_pos W). assert (E : W = sqrt W * sqrt W) by (symmetry; apply sqrt_sqrt; lra).
  set (s := sqrt W) in *. set (x := exp W) in *. set (e := erf s). clearbody x e. rewrite E. clearbody s. rr. field. repeat split; lra.
Qed.
(** exp W erf(sqrt W) > 2 sqrt(W) / sqrt pi *)
Lemma erf_ge x : 0 < x -> 2 / sqrt PI * x * exp (- x ^ 2) < erf x.
Proof.
  intros H. pose proof sPI as Q. unfold erf. rewrite Rmult_assoc. apply Rmult_lt_compat_l; [apply Rdiv_lt_0_compat; lra|].
  assert (C : RInt (fun _ : RR => exp (- x ^ 2)) 0 x = x * exp (- x ^ 2)) by (rewrite RInt_const; unfold scal; simpl; unfold mult; simpl; rr; ring). rewrite <- C.
  apply RInt_lt; [exact H|intros; apply c_gauss|intros; apply continuous_const|]. intros t [T1 T2]. apply exp_increasing. assert (t * t < x * x) by (apply Rmult_le_0_lt_compat; lra). simpl. lra.
Qed.
Lemma densW_slope W : 0 < W -> 0 < exp W * erf (sqrt W) - TWOOVERSQRTPI * sqrt W.
Proof.
  intros H. pose proof (sqrt_lt_R0 _ H) as S. pose proof (erf_ge _ S) as L. replace (sqrt W ^ 2) with W in L by (symmetry; apply pow2_sqrt; lra). pose proof (exp_pos W) as E. apply (Rmult_lt_compat_l (exp W)) in L; [|exact E]. replace (exp W * (2 / sqrt PI * sqrt W * exp (- W))) with (TWOOVERSQRTPI * sqrt W) in L; [lra|]. unfold TWOOVERSQRTPI. rewrite exp_Ropp. pose proof sPI. field. split; lra.
Qed.
Lemma c_densW W : continuous dens_W W.
Proof.
  unfold dens_W. cbv zeta.
  assert (Ce : forall x, continuous erf x) by (intros x; apply (ex_derive_continuous (V := R_NormedModule)); eexists; apply d_erf).
  assert (C1 : continuous (fun W => erf (sqrt W)) W) by (apply (continuous_comp sqrt erf); [apply continuous_sqrt|apply Ce]).
  assert (C2 : continuous exp W) by (apply (ex_derive_continuous (V := R_NormedModule)); auto_derive; exact I).
  assert (C3 : continuous (fun W => 1 + 2 / 3 * W) W) by (apply (ex_derive_continuous (V := R_NormedModule)); auto_derive; exact I).
  apply (continuous_minus (V := R_NormedModule) (fun W => exp W * erf (sqrt W)) (fun W => TWOOVERSQRTPI * sqrt W * (1 + 2 / 3 * W))).
  - apply (continuous_mult (K := R_AbsRing) exp (fun W => erf (sqrt W))); assumption.
  - apply (continuous_mult (K := R_AbsRing) (fun W => TWOOVERSQRTPI * sqrt W) (fun W => 1 + 2 / 3 * W)); [|exact C3]. apply (continuous_mult (K := R_AbsRing) (fun _ => TWOOVERSQRTPI) sqrt); [apply continuous_const|apply continuous_sqrt].
Qed.
Lemma densW_up a b : 0 <= a -> a < b -> dens_W a < dens_W b.
Proof.
  intros Ha Hab. destruct (MVT_gen dens_W a b (fun W => exp W * erf (sqrt W) - TWOOVERSQRTPI * sqrt W)) as (c & Hc & E).
  - intros x Hx. rewrite Rmin_left in Hx by lra. apply d_densW. lra.
  - intros x _. apply continuity_pt_filterlim. apply c_densW.
  - rewrite Rmin_left, Rmax_right in Hc by lra. destruct (Req_EM_T c 0) as [Z|Z].
    + (* c = 0: then a = 0; use the midpoint *)
      subst c. assert (a = 0) by lra. subst a. rewrite sqrt_0, erf_0 in E. replace (exp 0 * 0 - TWOOVERSQRTPI * 0) with 0 in E by ring. rewrite densW_0 in *.
      destruct (MVT_gen dens_W (b / 2) b (fun W => exp W * erf (sqrt W) - TWOOVERSQRTPI * sqrt W)) as (d & Hd & E').
      * intros x Hx. rewrite Rmin_left in Hx by lra. apply d_densW. lra.
      * intros x _. apply continuity_pt_filterlim. apply c_densW.
      * rewrite Rmin_left, Rmax_right in Hd by lra. destruct (MVT_gen dens_W 0 (b / 2) (fun W => exp W * erf (sqrt W) - TWOOVERSQRTPI * sqrt W)) as (d' & Hd' & E'').
        -- intros x Hx. rewrite Rmin_left in Hx by lra. apply d_densW. lra.
        -- intros x _. apply continuity_pt_filterlim. apply c_densW.
        -- rewrite Rmin_left, Rmax_right in Hd' by lra. rewrite densW_0 in E''. pose proof (densW_slope d ltac:(lra)) as S. assert (0 < (exp d * erf (sqrt d) - TWOOVERSQRTPI * sqrt d) * (b - b / 2)) by (apply Rmult_lt_0_compat; lra).
           assert (0 <= (exp d' * erf (sqrt d') - TWOOVERSQRTPI * sqrt d') * (b / 2 - 0)). { destruct (Req_EM_T d' 0) as [->|N]; [rewrite sqrt_0, erf_0; right; ring|]. pose proof (densW_slope d' ltac:(lra)). apply Rmult_le_pos; lra. } lra.
    + pose proof (densW_slope c ltac:(lra)) as S. assert (0 < (exp c * erf (sqrt c) - TWOOVERSQRTPI * sqrt c) * (b - a)) by (apply Rmult_lt_0_compat; lra). lra.
Qed.
(** ** The density of the distribution function *)
Section Df.
  Variables (s w rho1 : RR).
  Hypotheses (Hs : 0 < s) (Hw : 0 <= w).
  Definition Af (v : RR) : RR := - (v * (s ^ 2 * exp (w - v ^ 2 / (2 * s ^ 2)))) + exp w * s ^ 3 * (sqrt PI / sqrt 2) * erf (v / (s * sqrt 2)) - v ^ 3 / 3.
  Lemma s2 : 0 < sqrt 2. Proof using. apply sqrt_lt_R0. lra. Qed.
  Lemma d_Af v : is_derive Af v (v ^ 2 * (exp (w - v ^ 2 / (2 * s ^ 2)) - 1)).
  Proof using Hs.
    pose proof s2 as S2. pose proof sPI as SP. unfold Af.
    assert (D1 : is_derive (fun v => v * (s ^ 2 * exp (w - v ^ 2 / (2 * s ^ 2)))) v ((s ^ 2 - v ^ 2) * exp (w - v ^ 2 / (2 * s ^ 2)))). { auto_derive; [exact I|]. unfold Rdiv. rr. change (w + - (v ^ 2 * / (2 * s ^ 2))) with (w - v ^ 2 * / (2 * s ^ 2)). set (x := exp _). generalize x. intros x0. field. lra. }
    assert (Q : sqrt 2 * sqrt 2 = 2) by (apply sqrt_sqrt; lra).
    assert (X : (v / (s * sqrt 2)) ^ 2 = v ^ 2 / (2 * s ^ 2)). { replace ((v / (s * sqrt 2)) ^ 2) with (v ^ 2 / ((sqrt 2 * sqrt 2) * s ^ 2)) by (field; repeat split; lra). rewrite Q. reflexivity. }
    assert (D2 : is_derive (fun v => erf (v / (s * sqrt 2))) v (2 / sqrt PI * exp (- (v ^ 2 / (2 * s ^ 2))) / (s * sqrt 2))).
    { rewrite <- X. refine (is_derive_eq _ _ _ _ (is_derive_comp (V := R_NormedModule) erf (fun v => v / (s * sqrt 2)) v _ (/ (s * sqrt 2)) (d_erf _) _) _); [auto_derive; [exact I|rr; field; lra]|]. change (/ (s * sqrt 2) * (2 / sqrt PI * exp (- (v / (s * sqrt 2)) ^ 2)) = 2 / sqrt PI * exp (- (v / (s * sqrt 2)) ^ 2) / (s * sqrt 2)). unfold Rdiv. ring. }
    assert (D3 : is_derive (fun v => v ^ 3 / 3) v (v ^ 2)) by (auto_derive; [exact I|rr; field]).
    refine (is_derive_eq _ _ _ _ (is_derive_minus (V := R_NormedModule) _ _ _ _ _ (is_derive_plus (V := R_NormedModule) _ _ _ _ _ (is_derive_opp (V := R_NormedModule) _ _ _ D1) (is_derive_Rscal _ _ (exp w * s ^ 3 * (sqrt PI / sqrt 2)) _ D2)) D3) _).
    unfold Rminus in *. rewrite exp_plus in *. set (x := exp (- (v ^ 2 / (2 * s ^ 2)))). set (ew := exp w). clearbody x ew.
    change (- ((s ^ 2 + - v ^ 2) * (ew * x)) + ew * s ^ 3 * (sqrt PI / sqrt 2) * (2 / sqrt PI * x / (s * sqrt 2)) + - v ^ 2 = v ^ 2 * (ew * x + -1)).
    replace (ew * s ^ 3 * (sqrt PI / sqrt 2) * (2 / sqrt PI * x / (s * sqrt 2))) with (ew * s ^ 2 * x * (2 / (sqrt 2 * sqrt 2))) by (field; repeat split; lra). rewrite Q. field.
  Qed.
  Lemma Af_0 : Af 0 = 0. Proof using. unfold Af. replace (0 / (s * sqrt 2)) with 0 by (unfold Rdiv; ring). rewrite erf_0, pow_i by auto with arith. unfold Rdiv. ring. Qed.
  Lemma int_f : is_RInt (fun v => v ^ 2 * (exp (w - v ^ 2 / (2 * s ^ 2)) - 1)) 0 (s * sqrt (2 * w)) (Af (s * sqrt (2 * w))).
  Proof using Hs.
    replace (Af (s * sqrt (2 * w))) with (Af (s * sqrt (2 * w)) - Af 0) by (rewrite Af_0; ring). apply (is_RInt_derive (V := R_CompleteNormedModule) Af); intros x _; [apply d_Af|]. apply (ex_derive_continuous (V := R_NormedModule)). auto_derive. exact I.
  Qed.
  Lemma pref : rpow (2 * PI * s ^ 2) (- (3 / 2)) = / (2 * PI * (sqrt 2 * sqrt PI) * s ^ 3).
  Proof using Hs.
    pose proof PI_RGT_0 as P0. assert (Q : 0 < 2 * PI * s ^ 2) by (apply Rmult_lt_0_compat; [lra|apply pow_lt; exact Hs]). rewrite rpow_opp, rpow_3_2 by exact Q. f_equal. replace (sqrt (2 * PI * s ^ 2)) with (sqrt 2 * sqrt PI * s).
    - replace ((sqrt 2 * sqrt PI * s) ^ 3) with ((sqrt 2 * sqrt 2) * (sqrt PI * sqrt PI) * (sqrt 2 * sqrt PI) * s ^ 3) by ring. rewrite !sqrt_sqrt by lra. reflexivity.
    - rewrite sqrt_mult by (try lra; apply pow2_ge_0). rewrite sqrt_mult by lra. rewrite sqrt_pow2 by lra. reflexivity.
  Qed.
  Lemma Af_top : 4 * PI * (rpow (2 * PI * s ^ 2) (- (3 / 2)) * rho1) * Af (s * sqrt (2 * w)) = rho1 * dens_W w.
  Proof using Hs Hw.
    rewrite pref. unfold Af, dens_W. cbv zeta. pose proof s2 as S2. pose proof sPI as SP. pose proof PI_RGT_0 as P0. rewrite sqrt_mult by lra.
    replace (s * (sqrt 2 * sqrt w) / (s * sqrt 2)) with (sqrt w) by (field; split; lra).
    assert (Q2 : sqrt 2 * sqrt 2 = 2) by (apply sqrt_sqrt; lra). assert (Qw : sqrt w * sqrt w = w) by (apply sqrt_sqrt; exact Hw). assert (QP : sqrt PI * sqrt PI = PI) by (apply sqrt_sqrt; lra).
    replace (w - (s * (sqrt 2 * sqrt w)) ^ 2 / (2 * s ^ 2)) with 0.
    - rewrite exp_0. unfold TWOOVERSQRTPI. set (e := erf (sqrt w)). set (x := exp w). clearbody e x. set (q := sqrt w) in *. rewrite <- Qw. set (p := sqrt PI) in *. set (r := sqrt 2) in *. rewrite <- QP. clearbody q p r. 
      replace ((s * (r * q)) ^ 3) with (s ^ 3 * q ^ 3 * r * (r * r)) by ring. rewrite Q2. field_simplify_eq; [|repeat split; lra]. replace (r ^ 2) with 2 by (simpl; lra). ring.
    - replace ((s * (sqrt 2 * sqrt w)) ^ 2) with (s ^ 2 * (sqrt 2 * sqrt 2) * (sqrt w * sqrt w)) by ring. rewrite Q2, Qw. field. lra.
  Qed.
End Df.
Lemma king_is_density potInf sigma2 rho1 phi vmax : 0 < sigma2 -> phi <= potInf -> sqrt (2 * (potInf - phi)) <= vmax ->
  is_RInt (fun v => v ^ 2 * king_fE potInf sigma2 rho1 (phi + v ^ 2 / 2)) 0 vmax (rho1 * dens_W ((potInf - phi) / sigma2) / (4 * PI)).
Proof.
  intros Hs Hp Hv. set (s := sqrt sigma2). assert (Hs' : 0 < s) by (apply sqrt_lt_R0; exact Hs). assert (Es : s ^ 2 = sigma2) by (apply pow2_sqrt; lra). set (w := (potInf - phi) / sigma2). assert (Hw : 0 <= w) by (unfold w; apply Rmult_le_pos; [lra|apply Rlt_le, Rinv_0_lt_compat; exact Hs]).
  set (ve := sqrt (2 * (potInf - phi))) in *. assert (Ev : ve = s * sqrt (2 * w)). { unfold ve, s. rewrite <- sqrt_mult by lra. f_equal. unfold w. field. lra. } assert (v0 : 0 <= ve) by apply sqrt_pos. assert (V2 : ve ^ 2 = 2 * (potInf - phi)) by (apply pow2_sqrt; lra).
  set (C := rpow (2 * PI * s ^ 2) (- (3 / 2)) * rho1). pose proof (int_f s w Hs') as I1. rewrite <- Ev in I1.
  assert (J1 : is_RInt (fun v => v ^ 2 * king_fE potInf sigma2 rho1 (phi + v ^ 2 / 2)) 0 ve (C * Af s w ve)).
  { pose proof (is_RInt_scal (V := R_NormedModule) _ _ _ C _ I1) as J. unfold scal in J; simpl in J. unfold mult in J; simpl in J. refine (is_RInt_ext _ _ _ _ _ _ J). intros v Hx. rewrite Rmin_left, Rmax_right in Hx by exact v0. unfold king_fE. cbv zeta.
    assert (L : v ^ 2 < ve ^ 2) by (rewrite <- !Rsqr_pow2; apply Rsqr_incrst_1; lra). rewrite V2 in L. destruct (Rlt_dec 0 _) as [_|N]; [|exfalso; apply N; lra]. unfold C. rewrite Es. replace ((potInf - (phi + v ^ 2 / 2)) / sigma2) with (w - v ^ 2 / (2 * sigma2)) by (unfold w; field; lra). rewrite <- Es. change (s * (s * 1)) with (s ^ 2). change (v * (v * 1)) with (v ^ 2). rr. ring. }
  assert (J2 : is_RInt (fun v => v ^ 2 * king_fE potInf sigma2 rho1 (phi + v ^ 2 / 2)) ve vmax 0).
  { pose proof (is_RInt_const (V := R_NormedModule) ve vmax (0 : R_NormedModule)) as Z. unfold scal in Z; simpl in Z. unfold mult in Z; simpl in Z. rewrite Rmult_0_r in Z. refine (is_RInt_ext _ _ _ _ _ _ Z). intros v Hx. rewrite Rmin_left, Rmax_right in Hx by exact Hv. unfold king_fE. cbv zeta.
    assert (L : ve ^ 2 <= v ^ 2) by (apply pow_incr; lra). rewrite V2 in L. destruct (Rlt_dec 0 _) as [N|_]; [exfalso; lra|]. rr. ring. }
  pose proof (is_RInt_Chasles (V := R_NormedModule) _ _ _ _ _ _ J1 J2) as J. unfold plus in J; simpl in J. replace (rho1 * dens_W w / (4 * PI)) with (C * Af s w ve + 0); [exact J|]. rewrite <- (Af_top s w rho1 Hs' Hw), <- Ev. fold C. pose proof PI_RGT_0. rr. field. lra.
Qed.
Lemma king_density potInf sigma2 rho1 phi vmax : 0 < sigma2 -> phi <= potInf -> sqrt (2 * (potInf - phi)) <= vmax ->
  4 * PI * RInt (fun v => v ^ 2 * king_fE potInf sigma2 rho1 (phi + v ^ 2 / 2)) 0 vmax = rho1 * dens_W ((potInf - phi) / sigma2).
Proof.
  intros H1 H2 H3. rewrite (is_RInt_unique (V := R_CompleteNormedModule) _ _ _ _ (king_is_density potInf sigma2 rho1 phi vmax H1 H2 H3)). pose proof PI_RGT_0. rr. field. lra.
Qed.

(** ** The two forms of the differential equation *)
Lemma forms R W V w : 0 < R w -> V w <> 0 -> is_derive R w (fst (rhs2 w (R w, V w))) -> is_derive V w (snd (rhs2 w (R w, V w))) ->
  locally w (fun x => W (R x) = x) -> ex_derive W (R w) -> forall U, (forall x, U x = V (W x)) ->
  is_derive W (R w) (fst (rhs1 (R w) (W (R w), U (R w)))) /\ is_derive U (R w) (snd (rhs1 (R w) (W (R w), U (R w)))).
Proof.
  intros HR HV DR DV LW [d DW0] U EU. unfold rhs1, rhs2 in *; simpl in *. pose proof (locally_singleton _ _ LW) as EW. cbv beta in EW.
  assert (DW : is_derive W (R w) (V w)).
  { pose proof (is_derive_comp (V := R_NormedModule) W R w _ _ DW0 DR) as D1. assert (D2 : is_derive (fun x => W (R x)) w 1) by (apply (is_derive_ext_loc (fun x : RR => x)); [apply (filter_imp (fun x => W (R x) = x)); [intros x Hx; symmetry; exact Hx|exact LW]|apply (is_derive_id (K := R_AbsRing))]).
    pose proof (is_derive_unique _ _ _ D1) as U1. pose proof (is_derive_unique _ _ _ D2) as U2. assert (E : 1 / V w * d = 1) by exact (eq_trans (eq_sym U1) U2). replace (V w) with d; [exact DW0|]. apply (Rmult_eq_reg_l (/ V w)); [|apply Rinv_neq_0_compat; exact HV]. rewrite Rinv_l by exact HV. unfold Rdiv in E. lra. }
  rewrite EU, EW. split; [exact DW|].
  destruct (Rlt_dec 0 (R w)) as [_|N]; [|contradiction]. apply (is_derive_ext (fun x => V (W x))); [intros; symmetry; apply EU|].
  assert (DV' : is_derive V (W (R w)) (- 1 / V w * (FOURPI * dens_W w + 2 * V w / R w))) by (rewrite EW; exact DV).
  refine (is_derive_eq _ _ _ _ (is_derive_comp (V := R_NormedModule) V W (R w) _ _ DV' DW) _). change (V w * (- 1 / V w * (FOURPI * dens_W w + 2 * V w / R w)) = - FOURPI * dens_W w - 2 * V w / R w). field. split; [lra|exact HV].
Qed.
(** ** The cumulative mass *)
Lemma adjust_len e p l : length (adjust e p l) = length l.
Proof. revert p. induction l as [|m l IH]; intros p; simpl; [reflexivity|]. rewrite IH. reflexivity. Qed.
Definition below (p : RR) (l : list RR) : Prop := match l with [] => True | m :: _ => p <= m end.
Fixpoint nondecr (l : list RR) : Prop := match l with [] => True | m :: l' => below m l' /\ nondecr l' end.
Lemma adjust_up e p l : 0 <= e -> nondecr (p :: adjust e p l).
Proof.
  intros He. revert p. induction l as [|m l IH]; intros p; [simpl; tauto|]. cbn [adjust]. cbv zeta. split; [|apply IH]. simpl. destruct (Rlt_dec m p); lra.
Qed.
Lemma adjust_id e p l : nondecr (p :: l) -> adjust e p l = l.
Proof.
  revert p. induction l as [|m l IH]; intros p [H1 H2]; [reflexivity|]. cbn [adjust]. cbv zeta. simpl in H1. destruct (Rlt_dec m p) as [L|_]; [exfalso; lra|]. f_equal. apply IH. exact H2.
Qed.
Lemma adjust_ge e p l i : 0 <= e -> (i < length l)%nat -> nth i l 0 <= nth i (adjust e p l) 0.
Proof.
  intros He. revert p i. induction l as [|m l IH]; intros p i Hi; [inversion Hi|]. cbn [adjust]. cbv zeta. destruct i as [|i]; simpl; [destruct (Rlt_dec m p); lra|]. apply IH. simpl in Hi. apply Nat.succ_lt_mono. exact Hi.
Qed.
(** ** The scaled model *)
Section Scaled.
  Variables (M rt : RR) (W V dV : RR -> RR) (srt : RR) (P : RR -> RR).
  Hypotheses (HM : 0 < M) (Hrt : 0 < rt) (Hsrt : 0 < srt) (HV : V srt < 0) (HW : W srt = 0).
  Hypothesis DW : forall r, is_derive W r (V r).
  Hypothesis DV : forall r, is_derive V r (dV r).
  Notation W0 := (W 0).
  Notation smass := (sf_cumul srt (V srt)).
  Notation rs := (radius_scale rt srt).
  Notation ms := (mass_scale M smass).
  Notation F := (KP_force M rt V srt smass).
  Hypothesis DP : forall r, is_derive P r (F r).
  Notation Phi := (KP_ev M rt W0 V srt smass P).
  Lemma rs_pos : 0 < rs. Proof using Hrt Hsrt. unfold radius_scale. apply Rdiv_lt_0_compat; assumption. Qed.
  Lemma smass_pos : 0 < smass. Proof using HV Hsrt. unfold sf_cumul. apply Rmult_lt_0_compat; [lra|apply pow_lt; exact Hsrt]. Qed.
  Lemma ms_pos : 0 < ms. Proof using HV Hsrt HM. unfold mass_scale. apply Rdiv_lt_0_compat; [exact HM|apply smass_pos]. Qed.
  Lemma sigma2_eq : k_sigma2 M rt srt smass = ms / rs.
  Proof using HM Hrt Hsrt HV. unfold k_sigma2, k_sigma, velocity_scale. apply pow2_sqrt, Rlt_le, Rdiv_lt_0_compat; [apply ms_pos|apply rs_pos]. Qed.
  Lemma rt_rs : rt / rs = srt. Proof using Hrt Hsrt. unfold radius_scale. field. split; lra. Qed.
  Lemma total : - rt ^ 2 * F rt = M.
  Proof using HM Hrt Hsrt HV. unfold KP_force. rewrite rt_rs. unfold mass_scale, sf_cumul, radius_scale. field. repeat split; lra. Qed.
  Lemma P_eq r : P r - P 0 = ms / rs * (W (r / rs) - W 0).
  Proof using DP DW Hrt Hsrt.
    pose proof rs_pos as R0. set (G := fun r => P r - ms / rs * W (r / rs)).
    assert (DG : forall x, is_derive G x 0).
    { intros x. assert (A : is_derive (fun r => W (r / rs)) x (V (x / rs) * / rs)). { refine (is_derive_eq _ _ _ _ (is_derive_comp (V := R_NormedModule) W (fun r => r / rs) x _ (/ rs) (DW _) _) _); [auto_derive; [exact I|rr; field; lra]|]. change (/ rs * V (x / rs) = V (x / rs) * / rs). ring. }
      refine (is_derive_eq _ _ _ _ (is_derive_minus (V := R_NormedModule) _ _ _ _ _ (DP x) (is_derive_Rscal _ _ (ms / rs) _ A)) _). change (F x + - (ms / rs * (V (x / rs) * / rs)) = 0). unfold KP_force. field. lra. }
    assert (E : G r = G 0). { destruct (MVT_gen G 0 r (fun _ => 0)) as (c & _ & E); [intros; apply DG| |lra]. intros x _. apply continuity_pt_filterlim, (ex_derive_continuous (V := R_NormedModule)). eexists. apply DG. }
    unfold G in E. replace (0 / rs) with 0 in E by (unfold Rdiv; ring). lra.
  Qed.
  Lemma Phi_in r : r < rt -> Phi r = - (k_sigma2 M rt srt smass * W (r / rs)) - M / rt.
  Proof using HM Hrt Hsrt HV DP DW.
    intros H. unfold KP_ev, IS_rev. destruct (Rle_dec rt r) as [N|_]; [exfalso; lra|]. unfold IS_Phi0, KP_Phi0. rewrite sigma2_eq. pose proof (P_eq r) as E. unfold Rdiv in *. lra.
  Qed.
  Lemma Phi_out r : rt <= r -> Phi r = - M / r.
  Proof using HM Hrt Hsrt HV HW DP DW.
    intros H. unfold KP_ev, IS_rev. destruct (Rle_dec rt r) as [_|N]; [|contradiction]. unfold IS_Phimax, IS_total_mass, IS_Phi0, KP_Phi0. rewrite total. pose proof (P_eq rt) as E. rewrite rt_rs, HW in E. unfold Rdiv in *. lra.
  Qed.
  Definition dF (r : RR) : RR := ms / rs ^ 3 * dV (r / rs).
  Lemma d_F r : is_derive F r (dF r).
  Proof using DV Hrt Hsrt.
    pose proof rs_pos as R0. unfold KP_force, dF. assert (A : is_derive (fun r => V (r / rs)) r (dV (r / rs) * / rs)). { refine (is_derive_eq _ _ _ _ (is_derive_comp (V := R_NormedModule) V (fun r => r / rs) r _ (/ rs) (DV _) _) _); [auto_derive; [exact I|rr; field; lra]|]. change (/ rs * dV (r / rs) = dV (r / rs) * / rs). ring. }
    refine (is_derive_eq _ _ _ _ (is_derive_Rscal _ _ (ms / rs ^ 2) _ A) _). rr. field. lra.
  Qed.
  Lemma dens_in DS r : DS r = dF r -> 0 < r -> r < rt ->
    KP_dens M rt V srt smass DS r = k_dens M rt W srt smass r - k_rho1 M rt srt smass * ((dV (r / rs) - snd (rhs1 (r / rs) (W (r / rs), V (r / rs)))) / (4 * PI)).
  Proof using Hrt Hsrt.
    intros ED H0 H1. pose proof rs_pos as R0. pose proof PI_RGT_0. assert (X : 0 < r / rs) by (apply Rdiv_lt_0_compat; assumption).
    unfold KP_dens, IS_rdens, IS_r2deriv, IS_rforce. destruct (Rle_dec rt r) as [N|_]; [exfalso; lra|]. rewrite ED. unfold k_dens, k_rho1, density_scale, rhs1, dF, KP_force, FOURPI. cbn [fst snd]. destruct (Rlt_dec 0 (r / rs)) as [_|N]; [|contradiction].
    set (v := V (r / rs)). set (u := dV (r / rs)). set (d := dens_W _). clearbody v u d. field. repeat split; lra.
  Qed.
  Lemma df_in r : 0 <= r -> r < rt -> 0 <= W (r / rs) ->
    king_vmoment0 (king_fE (Phi rt) (k_sigma2 M rt srt smass) (k_rho1 M rt srt smass)) Phi rt r = k_dens M rt W srt smass r.
  Proof using HM Hrt Hsrt HV HW DP DW.
    intros H0 H1 H2. assert (S2 : 0 < k_sigma2 M rt srt smass) by (rewrite sigma2_eq; apply Rdiv_lt_0_compat; [apply ms_pos|apply rs_pos]).
    assert (E : Phi rt - Phi r = k_sigma2 M rt srt smass * W (r / rs)). { rewrite (Phi_out rt), (Phi_in r) by lra. unfold Rdiv. ring. }
    assert (Y : 0 <= k_sigma2 M rt srt smass * W (r / rs)) by (apply Rmult_le_pos; lra).
    unfold king_vmoment0. rewrite king_density; [|exact S2|lra|].
    - rewrite E. replace (k_sigma2 M rt srt smass * W (r / rs) / k_sigma2 M rt srt smass) with (W (r / rs)) by (field; lra). unfold k_dens, k_rho1. ring.
    - unfold king_vmax. apply sqrt_le_1_alt. assert (L : Phi rt <= Phi (rt + / 10 ^ 10)). { assert (0 < / 10 ^ 10) by (apply Rinv_0_lt_compat, pow_lt; lra). rewrite !Phi_out by lra. unfold Rdiv. rewrite <- !Ropp_mult_distr_l. apply Ropp_le_contravar. apply Rmult_le_compat_l; [lra|]. apply Rinv_le_contravar; lra. } lra.
  Qed.
End Scaled.
