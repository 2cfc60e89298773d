(** Spherical potentials from densities: proofs. *)
From Coq Require Import Reals Lra Lia.
From Coquelicot Require Import Coquelicot.
From Verif.Lib Require Import RealAux.
From Verif.Model Require Import PotAPI PotAxi PotSpecial.
From Verif.Spec Require Import JeansSpec DensSpec.
From Verif.Proofs Require Import MassProofs JeansProofs Improper SpecialProofs.
Open Scope R_scope.
Notation RR := RbaseSymbolsImpl.R (only parsing).
Ltac rr := match goal with |- ?a = ?b => change (@eq RR a b) end.

Lemma d_inv_pow2 x : x <> 0 -> is_derive (fun y : RR => / y ^ 2) x (- 2 / x ^ 3).
Proof. intros Hx. auto_derive; [apply Rmult_integral_contrapositive; split; [exact Hx|rewrite Rmult_1_r; exact Hx]|]. field. exact Hx. Qed.
Lemma d_inv x : x <> 0 -> is_derive (fun y : RR => / y) x (- 1 / x ^ 2).
Proof. intros Hx. auto_derive; [exact Hx|]. field. exact Hx. Qed.
(** One assembly for all classes. *)
Lemma grav_build (rho M Phi F D2 : RR -> RR) :
  continuous_outside rho -> (forall r, 0 < r -> is_derive M r (4 * PI * r ^ 2 * rho r)) -> filterlim M (at_right 0) (locally 0) ->
  (forall r, 0 < r -> F r = - M r / r ^ 2) -> (forall r, 0 < r -> D2 r = 4 * PI * rho r - 2 * M r / r ^ 3) -> (forall r, 0 < r -> is_derive Phi r (M r / r ^ 2)) ->
  gravity_of (fun _ => True) rho Phi F D2 M.
Proof.
  intros C DM LM HF HD DP r Hr _. assert (Hn : r <> 0) by lra. split; [|split; [|split; [|split]]].
  - apply (is_derive_eq _ _ _ _ (DP r Hr)). rewrite HF by exact Hr. rr. field. exact Hn.
  - apply (is_derive_ext_loc (fun x => M x * / x ^ 2)).
    + apply filter_imp with (2 := pos_near r Hr). intros y Hy. rewrite HF by exact Hy. rr. field. lra.
    + pose proof (is_derive_Rmult _ _ _ _ _ (DM r Hr) (d_inv_pow2 r Hn)) as D. apply (is_derive_eq _ _ _ _ D). rewrite HD by exact Hr. rr. field. exact Hn.
  - rewrite HD, HF by exact Hr. field. exact Hn.
  - rewrite HF by exact Hr. field. exact Hn.
  - apply low_ftc; [|exact DM|exact LM|exact Hr]. intros x Hx. apply (continuous_mult (K := R_AbsRing) (fun s => 4 * PI * s ^ 2) rho); [|apply C; exact Hx]. apply (ex_derive_continuous (V := R_NormedModule)). auto_derive. exact I.
Qed.
(** ... with the shell formula for the potential. *)
Lemma shell_deriv (rho M H : RR -> RR) r : 0 < r -> is_derive M r (4 * PI * r ^ 2 * rho r) -> is_derive H r (- (4 * PI * r * rho r)) -> is_derive (fun x => - M x / x - H x) r (M r / r ^ 2).
Proof.
  intros Hr DM DH. assert (Hn : r <> 0) by lra. pose proof (is_derive_Rmult _ _ _ _ _ DM (d_inv r Hn)) as D. pose proof (is_derive_Rplus _ _ _ _ _ D DH) as D'. pose proof (is_derive_Rscal _ _ (-1) _ D') as D''.
  eapply is_derive_ext; [|eapply is_derive_eq; [exact D''|]]; cbv beta; [intros; rr; unfold Rdiv; ring|rr; field; exact Hn].
Qed.
Lemma scal_lim (F : RR -> RR) G k : Filter G -> filterlim F G (locally 0) -> filterlim (fun x => k * F x) G (locally 0).
Proof.
  intros FG H. apply (filterlim_comp _ _ _ F (fun y => k * y) _ (locally 0)); [exact H|]. assert (Q : continuous (fun y : RR => k * y) 0) by (apply (ex_derive_continuous (V := R_NormedModule)); auto_derive; exact I). unfold continuous in Q. rewrite Rmult_0_r in Q. exact Q.
Qed.
Lemma sum_lim (f g : RR -> RR) G l m : Filter G -> filterlim f G (locally l) -> filterlim g G (locally m) -> filterlim (fun x => f x + g x) G (locally (l + m)).
Proof. intros FG L1 L2. apply (filterlim_comp_2 _ _ Rplus) with (1 := L1) (2 := L2). apply (filterlim_plus (V := R_NormedModule) l m). Qed.
Lemma is_gen_scal (h : RR -> RR) k Fa Fb l : ProperFilter' Fa -> ProperFilter' Fb -> is_RInt_gen h Fa Fb l -> is_RInt_gen (fun x => k * h x) Fa Fb (k * l).
Proof. intros FA FB H. apply (is_RInt_gen_scal (V := R_NormedModule) h k l). exact H. Qed.
(** ** AnySphericalPotential *)
Section Any.
  Variable rho : RR -> RR.
  Hypothesis C : continuous_outside rho.
  Hypothesis Ein : ex_RInt_gen (fun a => a ^ 2 * rho a) (at_right 0) (at_point 1).
  Hypothesis Eout : ex_RInt_gen (fun a => rho a * a) (at_point 1) (Rbar_locally p_infty).
  Lemma c_in : continuous_outside (fun a => a ^ 2 * rho a).
  Proof. intros x Hx. apply (continuous_mult (K := R_AbsRing) (fun s => s ^ 2) rho); [|apply C; exact Hx]. apply (ex_derive_continuous (V := R_NormedModule)). auto_derive. exact I. Qed.
  Lemma c_out : continuous_outside (fun a => rho a * a).
  Proof. intros x Hx. apply (continuous_mult (K := R_AbsRing) rho (fun s => s)); [apply C; exact Hx|apply continuous_id]. Qed.
  Lemma as_mass_d r : 0 < r -> is_derive (AS_rawmass rho) r (4 * PI * r ^ 2 * rho r).
  Proof. intros Hr. apply (is_derive_eq _ _ (4 * PI * (r ^ 2 * rho r))); [|rr; ring]. apply (is_derive_Rscal (low (fun a => a ^ 2 * rho a))). exact (low_derive _ c_in r Ein Hr). Qed.
  Lemma as_mass_0 : filterlim (AS_rawmass rho) (at_right 0) (locally 0).
  Proof. apply (scal_lim (low (fun a => a ^ 2 * rho a))); [apply _|]. apply low_lim; [exact c_in|exact Ein]. Qed.
  Definition as_outer (r : RR) : RR := 4 * PI * high (fun a => rho a * a) r.
  Lemma as_outer_d r : 0 < r -> is_derive as_outer r (- (4 * PI * r * rho r)).
  Proof. intros Hr. apply (is_derive_eq _ _ (4 * PI * (- (rho r * r)))); [|rr; ring]. apply (is_derive_Rscal (high (fun a => rho a * a))). exact (high_derive _ c_out r Eout Hr). Qed.
  Lemma as_grav : gravity_of (fun _ => True) rho (AS_rev_inner rho) (AS_rforce rho) (AS_r2deriv rho) (AS_rawmass rho).
  Proof.
    apply grav_build; [exact C|exact as_mass_d|exact as_mass_0|intros; reflexivity| |].
    - intros r Hr. unfold AS_r2deriv. rewrite rpow_3 by exact Hr. field. lra.
    - intros r Hr. apply (shell_deriv rho (AS_rawmass rho) as_outer r Hr); [apply as_mass_d; exact Hr|apply as_outer_d; exact Hr].
  Qed.
  Lemma as_shell : shell_potential rho (AS_rawmass rho) (AS_rev_inner rho).
  Proof.
    intros r Hr. exists (as_outer r). split; [|reflexivity]. apply (is_RInt_gen_ext (fun s => 4 * PI * (rho s * s))).
    - apply filter_forall. intros [x y] z _. rr. ring.
    - apply is_gen_scal; [apply _|apply _|]. apply high_ok; [exact c_out|exact Eout|exact Hr].
  Qed.
  (** the ends *)
  Hypothesis Pos : forall r, 0 < r -> 0 <= rho r.
  Lemma prim_mono h u v : continuous_outside h -> (forall x, 0 < x -> 0 <= h x) -> 0 < u -> u <= v -> prim h u <= prim h v.
  Proof.
    intros Ch Hp Hu Huv. assert (I : is_RInt h u v (prim h v - prim h u)) by (apply ftc; [exact Ch|intros; apply prim_derive; assumption|lra|lra]).
    assert (0 <= prim h v - prim h u); [|lra]. rewrite <- (is_RInt_unique (V := R_CompleteNormedModule) _ _ _ _ I). apply RInt_ge_0; [exact Huv|eexists; exact I|]. intros y Hy. apply Hp. lra.
  Qed.
  (** mass gained between u and v, over v, is bounded by the shells between them *)
  Lemma mass_bound u v : 0 < u -> u <= v -> 0 <= AS_rawmass rho v - AS_rawmass rho u <= v * (as_outer u - as_outer v).
  Proof.
    intros Hu Huv. assert (I1 : is_RInt (fun s => 4 * PI * s ^ 2 * rho s) u v (AS_rawmass rho v - AS_rawmass rho u)).
    { apply ftc; [|exact as_mass_d|exact Hu|lra]. intros x Hx. apply (continuous_mult (K := R_AbsRing) (fun s => 4 * PI * s ^ 2) rho); [|apply C; exact Hx]. apply (ex_derive_continuous (V := R_NormedModule)). auto_derive. exact I. }
    assert (I2 : is_RInt (fun s => v * (4 * PI * s * rho s)) u v (v * (as_outer u - as_outer v))).
    { apply (is_RInt_scal (V := R_NormedModule) (fun s => 4 * PI * s * rho s) u v v). replace (as_outer u - as_outer v) with (- as_outer v - - as_outer u) by ring. apply (ftc _ (fun x => - as_outer x)).
      - intros x Hx. apply (continuous_mult (K := R_AbsRing) (fun s => 4 * PI * s) rho); [|apply C; exact Hx]. apply (ex_derive_continuous (V := R_NormedModule)). auto_derive. exact I.
      - intros x Hx. apply (is_derive_eq _ _ (- - (4 * PI * x * rho x))); [|rr; ring]. apply (is_derive_opp as_outer). apply as_outer_d. exact Hx.
      - exact Hu.
      - lra. }
    pose proof PI_RGT_0. split.
    - rewrite <- (is_RInt_unique (V := R_CompleteNormedModule) _ _ _ _ I1). apply RInt_ge_0; [exact Huv|eexists; exact I1|]. intros y Hy. pose proof (Pos y ltac:(lra)). pose proof (pow2_ge_0 y). assert (0 <= PI * y ^ 2) by (apply Rmult_le_pos; lra). assert (0 <= PI * y ^ 2 * rho y) by (apply Rmult_le_pos; assumption). lra.
    - rewrite <- (is_RInt_unique (V := R_CompleteNormedModule) _ _ _ _ I1), <- (is_RInt_unique (V := R_CompleteNormedModule) _ _ _ _ I2). apply RInt_le; [exact Huv|eexists; exact I1|eexists; exact I2|]. intros y Hy. pose proof (Pos y ltac:(lra)). replace (4 * PI * y ^ 2 * rho y) with (y * (4 * PI * y * rho y)) by ring. apply Rmult_le_compat_r; [|lra]. assert (0 <= PI * y) by (apply Rmult_le_pos; lra). assert (0 <= PI * y * rho y) by (apply Rmult_le_pos; assumption). lra.
  Qed.
  Lemma as_outer_lim : filterlim as_outer (Rbar_locally p_infty) (locally 0).
  Proof. apply (scal_lim (high (fun a => rho a * a))); [apply _|]. apply high_lim; [exact c_out|exact Eout]. Qed.
  Lemma as_mass_pos r : 0 < r -> 0 <= AS_rawmass rho r.
  Proof.
    intros Hr. assert (Q : Rbar_le (Finite 0) (Finite (AS_rawmass rho r))); [|exact Q]. apply (filterlim_le (F := at_right 0) (AS_rawmass rho) (fun _ => AS_rawmass rho r) (Finite 0) (Finite (AS_rawmass rho r))); [|exact as_mass_0|apply filterlim_const].
    exists (mkposreal r Hr). intros y Hy Hy0. unfold ball in Hy; cbn in Hy; unfold AbsRing_ball, abs, minus, plus, opp in Hy; cbn in Hy. rewrite Rabs_pos_eq in Hy by lra. pose proof (mass_bound y r Hy0 ltac:(lra)). lra.
  Qed.
  Lemma as_outer_pos r : 0 < r -> 0 <= as_outer r.
  Proof.
    intros Hr. assert (Q : Rbar_le (Finite 0) (Finite (as_outer r))); [|exact Q]. apply (filterlim_le (F := Rbar_locally p_infty) as_outer (fun _ => as_outer r) (Finite 0) (Finite (as_outer r))); [|exact as_outer_lim|apply filterlim_const].
    exists r. intros y Hy. pose proof (mass_bound r y Hr ltac:(lra)) as [B1 B2]. assert (0 <= y * (as_outer r - as_outer y)) by lra. destruct (Rle_dec (as_outer y) (as_outer r)) as [L|N]; [exact L|exfalso]. assert (y * (as_outer r - as_outer y) < y * 0) by (apply Rmult_lt_compat_l; lra). lra.
  Qed.
  Lemma as_inf : at_infinity (AS_rev_inner rho) 0.
  Proof.
    intros P [e HP]. assert (He : 0 < e / 4) by (pose proof (cond_pos e); lra).
    assert (L := as_outer_lim (fun y => Rabs y < e / 4)). destruct L as [X HX]. { exists (mkposreal _ He). intros y Hy. unfold ball in Hy; cbn in Hy; unfold AbsRing_ball, abs, minus, plus, opp in Hy; cbn in Hy. rewrite Ropp_0, Rplus_0_r in Hy. exact Hy. }
    set (u := Rmax X 0 + 1). assert (Hu : 0 < u) by (unfold u; pose proof (Rmax_r X 0); lra). assert (HuX : X < u) by (unfold u; pose proof (Rmax_l X 0); lra).
    set (V := Rmax u (4 * AS_rawmass rho u / e)). exists V. intros v Hv. assert (u < v) by (unfold V in Hv; pose proof (Rmax_l u (4 * AS_rawmass rho u / e)); lra). assert (Hm : 4 * AS_rawmass rho u / e < v) by (unfold V in Hv; pose proof (Rmax_r u (4 * AS_rawmass rho u / e)); lra).
    apply HP. unfold ball; cbn; unfold AbsRing_ball, abs, minus, plus, opp; cbn. rewrite Ropp_0, Rplus_0_r. change (AS_rev_inner rho v) with (- AS_rawmass rho v / v - as_outer v).
    pose proof (mass_bound u v Hu ltac:(lra)) as [B1 B2]. pose proof (as_outer_pos u Hu). pose proof (as_outer_pos v ltac:(lra)). pose proof (HX u HuX) as Q1. pose proof (HX v ltac:(lra)) as Q2. rewrite Rabs_pos_eq in Q1, Q2 by assumption. pose proof (as_mass_pos v ltac:(lra)). pose proof (as_mass_pos u Hu). pose proof (cond_pos e).
    assert (AS_rawmass rho v / v < e / 2).
    { apply (Rmult_lt_reg_r v); [lra|]. replace (AS_rawmass rho v / v * v) with (AS_rawmass rho v) by (field; lra). assert (AS_rawmass rho u < v * (e / 4)). { apply (Rmult_lt_reg_r (4 / e)); [apply Rdiv_lt_0_compat; lra|]. replace (v * (e / 4) * (4 / e)) with v by (field; lra). replace (AS_rawmass rho u * (4 / e)) with (4 * AS_rawmass rho u / e) by (field; lra). exact Hm. }
      assert (v * (as_outer u - as_outer v) <= v * (e / 4)) by (apply Rmult_le_compat_l; lra). lra. }
    assert (0 <= AS_rawmass rho v / v) by (apply Rmult_le_pos; [assumption|apply Rlt_le, Rinv_0_lt_compat; lra]).
    replace (- AS_rawmass rho v / v - as_outer v) with (- (AS_rawmass rho v / v + as_outer v)) by (field; lra). rewrite Rabs_Ropp, Rabs_pos_eq by lra. lra.
  Qed.
  (** the centre *)
  Lemma outer_split x : ex_RInt_gen (fun a => a * rho a) (at_right 0) (at_point 1) -> 0 < x ->
    exists l, is_RInt_gen (fun a => a * rho a) (at_right 0) (Rbar_locally p_infty) l /\ as_outer x = 4 * PI * (l - low (fun a => a * rho a) x).
  Proof.
    intros E Hx. assert (Ec : continuous_outside (fun a => a * rho a)). { intros y Hy. apply (continuous_mult (K := R_AbsRing) (fun s => s) rho); [apply continuous_id|apply C; exact Hy]. }
    assert (E' : ex_RInt_gen (fun a => a * rho a) (at_point 1) (Rbar_locally p_infty)). { destruct Eout as [l Hl]. exists l. apply (is_RInt_gen_ext (fun a => rho a * a)); [|exact Hl]. apply filter_forall. intros [u v] z _. rr. ring. }
    exists (low (fun a => a * rho a) x + high (fun a => a * rho a) x). split; [apply whole; assumption|]. unfold as_outer. assert (Eh : high (fun a => rho a * a) x = high (fun a => a * rho a) x).
    { unfold high. apply (is_RInt_gen_unique (V := R_CompleteNormedModule) (Fa := at_point x) (Fb := Rbar_locally p_infty)). apply (is_RInt_gen_ext (fun a => a * rho a)); [|apply high_ok; assumption]. apply filter_forall. intros [u v] z _. rr. ring. }
    rewrite Eh. rr. ring.
  Qed.
  Lemma as_mass_over v : ex_RInt_gen (fun a => a * rho a) (at_right 0) (at_point 1) -> 0 < v -> 0 <= AS_rawmass rho v / v <= 4 * PI * low (fun a => a * rho a) v.
  Proof.
    intros E Hv. assert (Ec : continuous_outside (fun a => a * rho a)). { intros y Hy. apply (continuous_mult (K := R_AbsRing) (fun s => s) rho); [apply continuous_id|apply C; exact Hy]. }
    pose proof (as_mass_pos v Hv). split; [apply Rmult_le_pos; [assumption|apply Rlt_le, Rinv_0_lt_compat; exact Hv]|].
    apply (Rmult_le_reg_r v); [exact Hv|]. replace (AS_rawmass rho v / v * v) with (AS_rawmass rho v) by (field; lra).
    set (B := 4 * PI * low (fun a => a * rho a) v * v).
    assert (L : filterlim (fun u => AS_rawmass rho v - AS_rawmass rho u + 4 * PI * v * low (fun a => a * rho a) u) (at_right 0) (locally (AS_rawmass rho v))).
    { assert (L1 : filterlim (fun u => (-1) * AS_rawmass rho u) (at_right 0) (locally 0)) by (apply scal_lim; [apply _|exact as_mass_0]). assert (L2 : filterlim (fun u => 4 * PI * v * low (fun a => a * rho a) u) (at_right 0) (locally 0)) by (apply scal_lim; [apply _|apply low_lim; assumption]).
      pose proof (sum_lim _ _ _ _ _ _ (filterlim_const (F := at_right 0) (AS_rawmass rho v)) (sum_lim _ _ _ _ _ _ L1 L2)) as L4. cbv beta in L4. rewrite !Rplus_0_r in L4. revert L4. apply filterlim_ext. intros u. rr. ring. }
    assert (Q : Rbar_le (Finite (AS_rawmass rho v)) (Finite B)); [|exact Q]. apply (filterlim_le (F := at_right 0) (fun u => AS_rawmass rho v - AS_rawmass rho u + 4 * PI * v * low (fun a => a * rho a) u) (fun _ => B)); [|exact L|apply filterlim_const].
    exists (mkposreal v Hv). intros u Hu Hu0. unfold ball in Hu; cbn in Hu; unfold AbsRing_ball, abs, minus, plus, opp in Hu; cbn in Hu. rewrite Rabs_pos_eq in Hu by lra. pose proof (mass_bound u v Hu0 ltac:(lra)) as [_ B2]. destruct (outer_split u E Hu0) as (l & I1 & S1). destruct (outer_split v E Hv) as (l' & I2 & S2).
    assert (l = l'). { rewrite <- (is_RInt_gen_unique (V := R_CompleteNormedModule) (Fa := at_right 0) (Fb := Rbar_locally p_infty) _ _ I1). exact (is_RInt_gen_unique (V := R_CompleteNormedModule) (Fa := at_right 0) (Fb := Rbar_locally p_infty) _ _ I2). }
    subst l'. rewrite S1, S2 in B2. unfold B. replace (v * (4 * PI * (l - low (fun a => a * rho a) u) - 4 * PI * (l - low (fun a => a * rho a) v))) with (4 * PI * low (fun a => a * rho a) v * v - 4 * PI * v * low (fun a => a * rho a) u) in B2 by ring. lra.
  Qed.
  Lemma as_mass_over_0 : ex_RInt_gen (fun a => a * rho a) (at_right 0) (at_point 1) -> filterlim (fun r => AS_rawmass rho r / r) (at_right 0) (locally 0).
  Proof.
    intros E. assert (Ec : continuous_outside (fun a => a * rho a)). { intros y Hy. apply (continuous_mult (K := R_AbsRing) (fun s => s) rho); [apply continuous_id|apply C; exact Hy]. }
    apply (filterlim_le_le (F := at_right 0) (fun _ => 0) (fun r => AS_rawmass rho r / r) (fun r => 4 * PI * low (fun a => a * rho a) r) (Finite 0)).
    - generalize right_pos. apply filter_imp. intros x Hx. apply (as_mass_over x E Hx).
    - apply filterlim_const.
    - apply scal_lim; [apply _|]. apply low_lim; assumption.
  Qed.
  Lemma as_zero : ex_RInt_gen (fun a => a * rho a) (at_right 0) (at_point 1) -> exists l, is_RInt_gen (fun a => a * rho a) (at_right 0) (Rbar_locally p_infty) l /\ at_centre (AS_rev_inner rho) (- 4 * PI * l).
  Proof.
    intros E. assert (Ec : continuous_outside (fun a => a * rho a)). { intros y Hy. apply (continuous_mult (K := R_AbsRing) (fun s => s) rho); [apply continuous_id|apply C; exact Hy]. }
    destruct (outer_split 1 E Rlt_0_1) as (l & I & _). exists l. split; [exact I|].
    assert (L1 : filterlim (fun r => -1 * (AS_rawmass rho r / r)) (at_right 0) (locally 0)) by (apply scal_lim; [apply _|apply as_mass_over_0; exact E]).
    assert (L2 : filterlim (fun r => 4 * PI * low (fun a => a * rho a) r) (at_right 0) (locally 0)) by (apply scal_lim; [apply _|apply low_lim; assumption]).
    pose proof (sum_lim _ _ _ _ _ _ (filterlim_const (F := at_right 0) (- 4 * PI * l)) (sum_lim _ _ _ _ _ _ L1 L2)) as L4. cbv beta in L4. rewrite !Rplus_0_r in L4. unfold at_centre. apply filterlim_ext_loc with (2 := L4). generalize right_pos. apply filter_imp. intros u Hu. destruct (outer_split u E Hu) as (l' & I' & S').
    assert (l = l'). { rewrite <- (is_RInt_gen_unique (V := R_CompleteNormedModule) (Fa := at_right 0) (Fb := Rbar_locally p_infty) _ _ I). exact (is_RInt_gen_unique (V := R_CompleteNormedModule) (Fa := at_right 0) (Fb := Rbar_locally p_infty) _ _ I'). }
    subst l'. change (AS_rev_inner rho u) with (- AS_rawmass rho u / u - as_outer u). rewrite S'. rr. field. lra.
  Qed.
  Lemma as_zero_inf : ~ ex_RInt_gen (fun a => a * rho a) (at_right 0) (at_point 1) -> filterlim (AS_rev_inner rho) (at_right 0) (Rbar_locally m_infty).
  Proof.
    intros N. assert (Ec : continuous_outside (fun a => a * rho a)). { intros y Hy. apply (continuous_mult (K := R_AbsRing) (fun s => s) rho); [apply continuous_id|apply C; exact Hy]. }
    assert (Hp : forall x, 0 < x -> 0 <= x * rho x) by (intros x Hx; apply Rmult_le_pos; [lra|apply Pos; exact Hx]).
    assert (U : forall B, exists u, 0 < u /\ prim (fun a => a * rho a) u < B).
    { intros B. destruct (Classical_Prop.classic (exists u, 0 < u /\ prim (fun a => a * rho a) u < B)) as [G|G]; [exact G|]. exfalso. apply N.
      destruct (mono_lim (fun x => - prim (fun a => a * rho a) (/ x)) (- B)) as [l L].
      - intros x y Hx Hxy. apply Ropp_le_contravar. apply prim_mono; [exact Ec|exact Hp|apply Rinv_0_lt_compat; lra|apply Rinv_le_contravar; lra].
      - intros x Hx. apply Ropp_le_contravar. apply Rnot_lt_le. intros Q. apply G. exists (/ x). split; [apply Rinv_0_lt_compat; lra|exact Q].
      - assert (L0 : filterlim (prim (fun a => a * rho a)) (at_right 0) (locally (- l))).
        { apply (filterlim_ext_loc (fun x => - - prim (fun a => a * rho a) (/ / x))).
          - generalize right_pos. apply filter_imp. intros x Hx. rewrite Rinv_inv. apply Ropp_involutive.
          - apply (filterlim_comp _ _ _ (fun x => / x) (fun y => - - prim (fun a => a * rho a) (/ y)) _ (Rbar_locally p_infty)); [apply filterlim_Rinv_0_right|]. apply (filterlim_comp _ _ _ (fun x => - prim (fun a => a * rho a) (/ x)) (fun y => - y) _ (locally l)); [exact L|apply (filterlim_opp (V := R_NormedModule) l)]. }
        exists (prim (fun a => a * rho a) 1 - - l). apply (low_ftc _ (fun y => prim (fun a => a * rho a) y - - l)); [exact Ec| |apply shift_lim; [apply _|exact L0]|lra]. intros y Hy. apply shift_derive. apply (prim_derive (fun a => a * rho a) y); assumption. }
    assert (Mono : forall x y, 0 < x -> x <= y -> as_outer y <= as_outer x).
    { intros x y Hx Hxy. destruct (mass_bound x y Hx Hxy) as [B1 B2]. destruct (Rle_dec (as_outer y) (as_outer x)) as [L|NL]; [exact L|exfalso]. assert (y * (as_outer x - as_outer y) < y * 0) by (apply Rmult_lt_compat_l; lra). lra. }
    assert (Big : forall B, exists u, 0 < u /\ B < as_outer u).
    { intros B. destruct (high_all _ c_out Eout) as (l & _ & _ & HB). destruct (U (l - (B + 1) / (4 * PI))) as (u & Hu & Hb). exists u. split; [exact Hu|]. unfold as_outer. rewrite HB by exact Hu.
      assert (Ep : prim (fun a => rho a * a) u = prim (fun a => a * rho a) u). { unfold prim. apply RInt_ext. intros x _. rr. ring. } rewrite Ep. pose proof PI_RGT_0.
      assert (4 * PI * ((B + 1) / (4 * PI)) <= 4 * PI * (l - prim (fun a => a * rho a) u)) by (apply Rmult_le_compat_l; lra). replace (4 * PI * ((B + 1) / (4 * PI))) with (B + 1) in H0 by (field; lra). lra. }
    intros P [B HB]. destruct (Big (- B)) as (u & Hu & Hb). exists (mkposreal u Hu). intros y Hy Hy0. unfold ball in Hy; cbn in Hy; unfold AbsRing_ball, abs, minus, plus, opp in Hy; cbn in Hy. rewrite Rabs_pos_eq in Hy by lra. apply HB.
    change (AS_rev_inner rho y) with (- AS_rawmass rho y / y - as_outer y). pose proof (as_mass_pos y Hy0). assert (0 <= AS_rawmass rho y / y) by (apply Rmult_le_pos; [assumption|apply Rlt_le, Rinv_0_lt_compat; exact Hy0]). pose proof (Mono y u Hy0 ltac:(lra)). replace (- AS_rawmass rho y / y) with (- (AS_rawmass rho y / y)) by (field; lra). lra.
  Qed.
End Any.
(** A class whose mass and shells are these integrals is the potential of AnySphericalPotential for the same density. *)
Lemma as_same (rho M Phi : RR -> RR) r : continuous_outside rho -> (forall r, 0 < r -> is_RInt_gen (fun s => 4 * PI * s ^ 2 * rho s) (at_right 0) (at_point r) (M r)) -> shell_potential rho M Phi -> 0 < r ->
  AS_rawmass rho r = M r /\ AS_rev_inner rho r = Phi r.
Proof.
  intros C HM HS Hr. pose proof PI_RGT_0. assert (E1 : AS_rawmass rho r = M r).
  { unfold AS_rawmass. assert (I : is_RInt_gen (fun a => a ^ 2 * rho a) (at_right 0) (at_point r) (/ (4 * PI) * M r)).
    { apply (is_RInt_gen_ext (fun s => / (4 * PI) * (4 * PI * s ^ 2 * rho s))); [apply filter_forall; intros [u v] z _; rr; field; lra|]. apply is_gen_scal; [apply _|apply _|apply HM; exact Hr]. }
    rewrite (is_RInt_gen_unique (V := R_CompleteNormedModule) (Fa := at_right 0) (Fb := at_point r) _ _ I). rr. field. lra. }
  split; [exact E1|]. destruct (HS r Hr) as (o & Ho & ->). unfold AS_rev_inner. rewrite E1.
  assert (I : is_RInt_gen (fun a => rho a * a) (at_point r) (Rbar_locally p_infty) (/ (4 * PI) * o)).
  { apply (is_RInt_gen_ext (fun s => / (4 * PI) * (4 * PI * s * rho s))); [apply filter_forall; intros [u v] z _; rr; field; lra|]. apply is_gen_scal; [apply _|apply _|exact Ho]. }
  rewrite (is_RInt_gen_unique (V := R_CompleteNormedModule) (Fa := at_point r) (Fb := Rbar_locally p_infty) _ _ I). rr. field. lra.
Qed.
