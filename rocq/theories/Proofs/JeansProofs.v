(** Proofs about [sigmar] and [sigmalos]. *)
From Coq Require Import Reals Lra.
From Coquelicot Require Import Coquelicot.
From Verif.Lib Require Import RealAux.
From Verif.Model Require Import PotAPI Jeans.
From Verif.Spec Require Import JeansSpec.
Open Scope R_scope.
Notation RR := RbaseSymbolsImpl.R (only parsing).
Ltac rr := match goal with |- ?a = ?b => change (@eq RR a b) end.

(** ** Improper integrals to infinity *)
Lemma cont_ex_RInt (f : RR -> RR) a b : 0 < a -> 0 < b -> continuous_outside f -> ex_RInt f a b.
Proof.
  intros Ha Hb C. apply (ex_RInt_continuous (V := R_CompleteNormedModule)). intros z [Hz _]. apply C.
  apply Rlt_le_trans with (2 := Hz). unfold Rmin. destruct (Rle_dec a b); assumption.
Qed.
(** The tail integral from any radius, in terms of the one from 1. *)
Lemma tail_gen (h : RR -> RR) L r : continuous_outside h -> 0 < r -> is_RInt_gen h (at_point 1) (Rbar_locally p_infty) L ->
  is_RInt_gen h (at_point r) (Rbar_locally p_infty) (L - RInt h 1 r).
Proof.
  intros C Hr H. replace (L - RInt h 1 r) with (plus (opp (RInt h 1 r)) L) by (cbn; unfold plus, opp; cbn; ring).
  apply (is_RInt_gen_Chasles (Fa := at_point r) (Fc := Rbar_locally p_infty) h 1); [|exact H].
  apply is_RInt_gen_at_point. apply (is_RInt_swap (V := R_NormedModule) h r 1). apply (RInt_correct (V := R_CompleteNormedModule)). apply cont_ex_RInt; [lra|exact Hr|exact C].
Qed.
Lemma gen_lim (h : RR -> RR) a L : (forall b, a < b -> ex_RInt h a b) -> is_RInt_gen h (at_point a) (Rbar_locally p_infty) L ->
  filterlim (fun b => RInt h a b) (Rbar_locally p_infty) (locally L).
Proof.
  intros E H P HP. destruct (H P HP) as [Q R0 HQ HR HH]. cbn in HQ.
  destruct HR as [M HM]. exists (Rmax M a). intros x Hx.
  assert (M < x /\ a < x) as [H1 H2]. { split; apply Rle_lt_trans with (2 := Hx); [apply Rmax_l|apply Rmax_r]. }
  destruct (HH a x HQ (HM x H1)) as (y & Hy & Py). cbn in Hy. rewrite (is_RInt_unique _ _ _ _ Hy). exact Py.
Qed.
Lemma lim_gen (h : RR -> RR) a L : (forall b, a < b -> ex_RInt h a b) -> filterlim (fun b => RInt h a b) (Rbar_locally p_infty) (locally L) ->
  is_RInt_gen h (at_point a) (Rbar_locally p_infty) L.
Proof.
  intros E H P HP. destruct (H P HP) as [M HM].
  apply Filter_prod with (Q := fun x => x = a) (R := fun x => Rmax M a < x); [reflexivity|exists (Rmax M a); intros; assumption|].
  intros x y -> Hy. assert (M < y /\ a < y) as [H1 H2]. { split; apply Rle_lt_trans with (2 := Hy); [apply Rmax_l|apply Rmax_r]. }
  exists (RInt h a y). split; [|apply HM; exact H1]. cbn. apply (RInt_correct (V := R_CompleteNormedModule)). apply E. exact H2.
Qed.
Lemma gen_nonneg (h : RR -> RR) a L : (forall x, a < x -> 0 <= h x) -> is_RInt_gen h (at_point a) (Rbar_locally p_infty) L -> 0 <= L.
Proof.
  intros Hp H. apply Rnot_lt_le. intros Neg.
  assert (HP : locally L (fun y => y < 0)). { apply (open_lt 0 L Neg). }
  destruct (H _ HP) as [Q R0 HQ HR HH]. cbn in HQ. destruct HR as [M HM].
  set (x := Rmax M a + 1). assert (M < x /\ a < x) as [H1 H2]. { unfold x. pose proof (Rmax_l M a). pose proof (Rmax_r M a). split; lra. }
  destruct (HH a x HQ (HM x H1)) as (y & Hy & Py). cbn in Hy.
  assert (0 <= y); [|lra]. rewrite <- (is_RInt_unique _ _ _ _ Hy). apply RInt_ge_0; [lra|exists y; exact Hy|]. intros t Ht. apply Hp. lra.
Qed.

Lemma gen_same (f g : RR -> RR) (Fa Fb : (RR -> Prop) -> Prop) (l : RR) : Filter Fa -> Filter Fb -> (forall x, f x = g x) -> is_RInt_gen (V := R_NormedModule) f Fa Fb l -> is_RInt_gen (V := R_NormedModule) g Fa Fb l.
Proof.
  intros FA FB E H. apply (is_RInt_gen_ext (V := R_NormedModule) f g l); [|exact H]. apply filter_forall. intros p x _. apply E.
Qed.
Lemma lim_rpow_inf (p : RR) : p < 0 -> filterlim (fun r => rpow r p) (Rbar_locally p_infty) (locally 0).
Proof.
  intros Hp. unfold rpow, Rpower. apply (filterlim_comp _ _ _ (fun r => p * ln r) exp _ (Rbar_locally m_infty)); [|exact is_lim_exp_m].
  apply (filterlim_comp _ _ _ ln (fun x => p * x) _ (Rbar_locally p_infty)); [exact is_lim_ln_p|].
  intros P [M HM]. exists (M / p). intros x Hx. apply HM. apply Rmult_lt_reg_r with (- / p); [apply Ropp_0_gt_lt_contravar, Rinv_lt_0_compat, Hp|].
  replace (p * x * - / p) with (- x) by (field; lra). replace (M * - / p) with (- (M / p)) by (field; lra). lra.
Qed.
(** ** The integrating factor *)
Lemma weight_pos b r : 0 < jeans_weight b r. Proof. apply exp_pos. Qed.
Lemma over_r_cont (b : RR -> RR) : continuous_outside b -> continuous_outside (fun y => b y / y).
Proof.
  intros C r Hr. unfold Rdiv. apply (continuous_mult (K := R_AbsRing) b (fun y => / y)); [apply C; exact Hr|].
  apply continuous_Rinv_comp; [apply continuous_id|lra].
Qed.
Lemma weight_derive b r : continuous_outside b -> 0 < r -> is_derive (jeans_weight b) r (2 * b r / r * jeans_weight b r).
Proof.
  intros C Hr. unfold jeans_weight. set (g := fun y => b y / y).
  assert (D : is_derive (fun x => RInt g 1 x) r (g r)).
  { apply (is_derive_RInt (V := R_NormedModule) g (fun x => RInt g 1 x) 1 r).
    - exists (mkposreal r Hr). intros y Hy. apply (RInt_correct (V := R_CompleteNormedModule)). apply cont_ex_RInt; [lra| |apply over_r_cont; exact C].
      change (Rabs (y - r) < r) in Hy. apply Rabs_def2 in Hy. lra.
    - apply over_r_cont; assumption. }
  evar_last. { apply (is_derive_comp exp (fun x => 2 * RInt g 1 x)); [apply is_derive_exp|]. apply (is_derive_scal (fun x => RInt g 1 x)). exact D. }
  unfold scal; cbn; unfold mult; cbn. unfold g. rr. field. lra.
Qed.
Lemma weight_cont b : continuous_outside b -> continuous_outside (jeans_weight b).
Proof. intros C r Hr. apply (ex_derive_continuous (jeans_weight b)). eexists. apply weight_derive; assumption. Qed.
(** A number is the same as the constant function of that value. *)
Lemma factor_weight beta x : 0 < x -> intFactor beta x = jeans_weight (called beta) x.
Proof.
  intros Hx. destruct beta as [b|f]; [|reflexivity]. unfold intFactor, jeans_weight, called, rpow, Rpower. f_equal.
  rewrite (is_RInt_unique (fun y => b / y) 1 x (b * ln x)); [ring|].
  replace (b * ln x) with (minus (b * ln x) (b * ln 1)) by (rewrite ln_1; unfold minus, plus, opp; cbn; ring).
  assert (B : forall y, Rmin 1 x <= y -> 0 < y). { intros y Hy. apply Rlt_le_trans with (2 := Hy). unfold Rmin. destruct (Rle_dec 1 x); lra. }
  apply (is_RInt_derive (fun y => b * ln y) (fun y => b / y)).
  - intros y [Hy _]. apply B in Hy. auto_derive; [exact Hy|field; lra].
  - intros y [Hy _]. apply B in Hy. apply over_r_cont; [|exact Hy]. intros r _. apply continuous_const.
Qed.

(** ** The radial dispersion *)
Section Radial.
  Variables (nu F : RR -> RR) (beta : NumOrFun).
  Let b := called beta.
  Hypothesis S : jeans_setting nu F b.
  Let h (x : RR) : RR := - intFactor beta x * nu x * F x.
  Let hw (x : RR) : RR := - (jeans_weight b x * (nu x * F x)).
  Lemma h_hw x : 0 < x -> h x = hw x. Proof. intros Hx. unfold h, hw. rewrite (factor_weight beta x Hx). fold b. ring. Qed.
  Lemma hw_cont : continuous_outside hw.
  Proof.
    destruct S as (_ & _ & Cn & CF & Cb & _). intros r Hr. unfold hw. apply (continuous_opp (fun x => jeans_weight b x * (nu x * F x))).
    apply (continuous_mult (K := R_AbsRing) (jeans_weight b)); [apply weight_cont; assumption|]. apply (continuous_mult (K := R_AbsRing) nu); [apply Cn|apply CF]; exact Hr.
  Qed.
  Lemma hw_nonneg x : 0 < x -> 0 <= hw x.
  Proof.
    intros Hx. destruct S as (Pn & NF & _). unfold hw. specialize (Pn x Hx). specialize (NF x Hx). pose proof (weight_pos b x).
    assert (nu x * F x <= 0). { rewrite <- (Rmult_0_r (nu x)). apply Rmult_le_compat_l; lra. }
    assert (jeans_weight b x * (nu x * F x) <= 0); [|lra]. rewrite <- (Rmult_0_r (jeans_weight b x)). apply Rmult_le_compat_l; lra.
  Qed.
  Definition total : RR := RInt_gen (V := R_CompleteNormedModule) hw (at_point 1) (Rbar_locally p_infty).
  Lemma total_ok : is_RInt_gen hw (at_point 1) (Rbar_locally p_infty) total.
  Proof.
    unfold total. apply (RInt_gen_correct (V := R_CompleteNormedModule)). destruct S as (_ & _ & _ & _ & _ & l & Hl). exists (opp l). apply (is_RInt_gen_opp (V := R_NormedModule) (fun x => jeans_weight b x * (nu x * F x)) l). exact Hl.
  Qed.
  Definition tail (r : RR) : RR := total - RInt hw 1 r.
  Lemma tail_ok r : 0 < r -> is_RInt_gen hw (at_point r) (Rbar_locally p_infty) (tail r).
  Proof. intros Hr. apply tail_gen; [apply hw_cont|exact Hr|apply total_ok]. Qed.
  Lemma tail_nonneg r : 0 < r -> 0 <= tail r.
  Proof. intros Hr. apply (gen_nonneg hw r); [intros x Hx; apply hw_nonneg; lra|apply tail_ok; exact Hr]. Qed.
  Lemma tail_h r : 0 < r -> RInt_gen (V := R_CompleteNormedModule) h (at_point r) (Rbar_locally p_infty) = tail r.
  Proof.
    intros Hr. apply is_RInt_gen_unique. apply (is_RInt_gen_ext hw); [|apply tail_ok; exact Hr].
    apply Filter_prod with (Q := fun x => x = r) (R := fun x => r < x); [reflexivity|exists r; intros; assumption|].
    intros x y -> Hy z. cbn. intros [Hz _]. rewrite Rmin_left in Hz by lra. symmetry. apply h_hw. lra.
  Qed.
  Lemma tail_derive r : 0 < r -> is_derive tail r (- hw r).
  Proof.
    intros Hr. unfold tail. evar_last.
    - apply (is_derive_minus (fun _ => total) (fun x => RInt hw 1 x)); [apply is_derive_const|].
      apply (is_derive_RInt (V := R_NormedModule) hw (fun x => RInt hw 1 x) 1 r); [|apply hw_cont; exact Hr].
      exists (mkposreal r Hr). intros y Hy. apply (RInt_correct (V := R_CompleteNormedModule)). apply cont_ex_RInt; [lra| |apply hw_cont].
      change (Rabs (y - r) < r) in Hy. apply Rabs_def2 in Hy. lra.
    - unfold minus, plus, opp, zero; cbn. rr. ring.
  Qed.
  Lemma tail_lim : filterlim tail (Rbar_locally p_infty) (locally 0).
  Proof.
    unfold tail. replace 0 with (total - total) by ring.
    apply (filterlim_comp _ _ _ (fun x => RInt hw 1 x) (fun y => total - y) _ (locally total)).
    - apply gen_lim; [|apply total_ok]. intros x Hx. apply cont_ex_RInt; [lra|lra|apply hw_cont].
    - apply (continuous_minus (V := R_NormedModule) (fun _ => total) (fun y => y) total); [apply continuous_const|apply continuous_id].
  Qed.
  Lemma sigmar_sq r : 0 < r -> sigmar_of nu F beta r ^ 2 = tail r / (nu r * jeans_weight b r).
  Proof.
    intros Hr. destruct S as (Pn & _). specialize (Pn r Hr). pose proof (weight_pos b r) as Pw. unfold sigmar_of. fold h. rewrite (tail_h r Hr), (factor_weight beta r Hr). fold b.
    replace (tail r / nu r / jeans_weight b r) with (tail r / (nu r * jeans_weight b r)) by (field; lra).
    rewrite pow2_sqrt; [reflexivity|]. apply Rdiv_le_0_compat; [apply tail_nonneg; exact Hr|apply Rmult_lt_0_compat; assumption].
  Qed.
  Lemma pressure_eq r : 0 < r -> nu r * sigmar_of nu F beta r ^ 2 = tail r / jeans_weight b r.
  Proof. intros Hr. rewrite sigmar_sq by exact Hr. destruct S as (Pn & _). specialize (Pn r Hr). pose proof (weight_pos b r). field. lra. Qed.
  Lemma pressure_derive r : 0 < r -> is_derive (fun x => tail x / jeans_weight b x) r (nu r * F r - 2 * b r / r * (tail r / jeans_weight b r)).
  Proof.
    intros Hr. pose proof (weight_pos b r). destruct S as (_ & _ & _ & _ & Cb & _). evar_last.
    - apply (is_derive_div tail (jeans_weight b)); [apply tail_derive; exact Hr|apply weight_derive; assumption|lra].
    - unfold hw. rr. field. lra.
  Qed.
  Lemma near_pos r : 0 < r -> locally r (fun x => 0 < x). Proof. intros Hr. apply (open_gt 0 r Hr). Qed.
  Lemma jeans_solved : solves_jeans nu F b (fun r => sigmar_of nu F beta r ^ 2).
  Proof.
    intros r Hr. eexists. split.
    - apply (is_derive_ext_loc (fun x => tail x / jeans_weight b x)); [|apply pressure_derive; exact Hr].
      destruct (near_pos r Hr) as [e He]. exists e. intros y Hy. symmetry. apply pressure_eq. apply He. exact Hy.
    - rewrite (pressure_eq r Hr). ring.
  Qed.
  Lemma jeans_boundary : no_pressure_at_infinity nu b (fun r => sigmar_of nu F beta r ^ 2).
  Proof.
    apply (filterlim_ext_loc tail); [|apply tail_lim]. exists 0. intros r Hr. rewrite (pressure_eq r Hr). pose proof (weight_pos b r). rr. field. lra.
  Qed.
  Lemma jeans_unique s2 : solves_jeans nu F b s2 -> no_pressure_at_infinity nu b s2 -> forall r, 0 < r -> s2 r = sigmar_of nu F beta r ^ 2.
  Proof.
    intros J B r Hr. destruct S as (Pn & _ & _ & _ & Cb & _).
    set (D := fun x => jeans_weight b x * (nu x * s2 x) - tail x).
    assert (Dd : forall x, 0 < x -> is_derive D x zero).
    { intros x Hx. destruct (J x Hx) as (d & Hd & E). unfold D. evar_last.
      - apply (is_derive_minus (fun x => jeans_weight b x * (nu x * s2 x)) tail); [|apply tail_derive; exact Hx].
        apply (is_derive_mult (jeans_weight b) (fun x => nu x * s2 x)); [apply weight_derive; assumption|exact Hd|intros; apply Rmult_comm].
      - unfold minus, plus, opp, mult, zero; cbn. unfold hw. replace d with (nu x * F x - 2 * b x / x * (nu x * s2 x)) by lra. rr. field. lra. }
    assert (DC : forall x, r < x -> D x = D r). { intros x Hx. symmetry. apply eq_is_derive; [|exact Hx]. intros t Ht. apply Dd. lra. }
    assert (L0 : filterlim D (Rbar_locally p_infty) (locally 0)).
    { unfold D. replace 0 with (0 - 0) by ring.
      apply (filterlim_comp_2 (G := locally 0) (H := locally 0) (fun x => jeans_weight b x * (nu x * s2 x)) tail (fun u v => u - v)); [exact B|apply tail_lim|].
      apply (filterlim_comp_2 (G := locally 0) (H := locally (opp 0)) fst (fun p => opp (snd p)) (fun u v => plus u v));
        [apply filterlim_fst|apply (filterlim_comp _ _ _ snd opp _ (locally 0)); [apply filterlim_snd|apply (filterlim_opp (V := R_NormedModule) 0)]|].
      apply (filterlim_plus (V := R_NormedModule) 0 (opp 0)). }
    assert (L1 : filterlim D (Rbar_locally p_infty) (locally (D r))).
    { apply (filterlim_ext_loc (fun _ => D r)); [exists r; intros x Hx; symmetry; apply DC; exact Hx|apply filterlim_const]. }
    pose proof (filterlim_locally_unique (F := Rbar_locally p_infty) D _ _ L0 L1) as E.
    unfold D in E. specialize (Pn r Hr). pose proof (weight_pos b r) as Pw. rewrite (sigmar_sq r Hr).
    apply Rmult_eq_reg_l with (nu r * jeans_weight b r); [|apply Rgt_not_eq, Rmult_lt_0_compat; assumption]. field_simplify; [|lra]. lra.
  Qed.
  Lemma sigmar_cont : continuous_outside (fun r => sigmar_of nu F beta r ^ 2).
  Proof.
    intros r Hr. apply (continuous_ext_loc (fun r => sigmar_of nu F beta r ^ 2) (fun x => tail x / jeans_weight b x / nu x) r).
    - destruct (near_pos r Hr) as [e He]. exists e. intros y Hy. apply He in Hy. cbv beta in Hy |- *. rewrite (sigmar_sq y Hy). destruct S as (Pn & _). specialize (Pn y Hy). pose proof (weight_pos b y). rr. field. lra.
    - destruct S as (Pn & _ & Cn & _). specialize (Pn r Hr). unfold Rdiv at 1. apply (continuous_mult (K := R_AbsRing) (fun x => tail x / jeans_weight b x) (fun x => / nu x)).
      + apply (ex_derive_continuous (fun x => tail x / jeans_weight b x)). eexists. apply pressure_derive. exact Hr.
      + apply continuous_Rinv_comp; [apply Cn; exact Hr|lra].
  Qed.
End Radial.
