(** The density profiles of the ellipsoidal potentials. *)
From Coq Require Import Reals Lra Psatz List.
From Coquelicot Require Import Coquelicot.
From Verif.Lib Require Import RealAux Vec3.
From Verif.Model Require Import PotAPI Coords PotEllipsoidal.
From Verif.Spec Require Import PotSpec PotApiSpec EllipsoidalSpec.
From Verif.Proofs Require Import PotLift StaeckelProofs KuzminKutuzovProofs MassProofs PlanarProofs SpiralProofs EllExact EllExactLaws.
Import ListNotations.
Open Scope R_scope.
Notation RR := RbaseSymbolsImpl.R (only parsing).
Ltac rr := match goal with |- ?a = ?b => change (@eq RR a b) end.

Definition prof_ok (p : EProfile) : Prop := is_profile (p_psi p) (p_dens p) (p_deriv p).
Definition prof_mild (p : EProfile) : Prop := mild_cusp (p_psi p) (p_dens p) (p_deriv p).
Lemma lim_of (f g : RR -> RR) l : (forall m, 0 < m -> f m = g m) -> continuous g 0 -> g 0 = l -> filterlim f (at_right 0) (locally l).
Proof.
  intros E C <-. apply (filterlim_ext_loc g).
  - exists (mkposreal 1 Rlt_0_1). intros y _ Hy. symmetry. apply E. exact Hy.
  - intros P HP. destruct (C P HP) as (eps & He). exists eps. intros y Hy _. apply He. exact Hy.
Qed.
Lemma c_of_d (f : RR -> RR) x : ex_derive f x -> continuous f x.
Proof. apply (ex_derive_continuous (V := R_NormedModule)). Qed.
Ltac nz := repeat match goal with |- _ /\ _ => split | |- True => exact I | |- _ ^ _ <> 0 => apply pow_nonzero | |- _ * _ <> 0 => apply Rmult_integral_contrapositive_currified end; try lra; try nra.
Ltac cad := apply c_of_d; auto_derive; nz.

Section Perfect.
  Variable a : RR.
  Hypothesis Ha : 0 < a.
  Lemma pa2 m : 0 < a ^ 2 + m ^ 2.
  Proof. pose proof (pow2_ge_0 m). assert (0 < a ^ 2) by nra. lra. Qed.
  Lemma perfect_ok : prof_ok (perfect a).
  Proof.
    intros m Hm. pose proof (pa2 m). split; cbn [p_psi p_dens p_deriv perfect]; (auto_derive; [nz|field; nz]).
  Qed.
  Lemma perfect_mild : prof_mild (perfect a).
  Proof.
    pose proof (pa2 0) as P0. unfold prof_mild, mild_cusp. split; [|split; [|split]]; cbn [p_psi p_dens p_deriv perfect].
    - intros m Hm. pose proof (pa2 m). cad.
    - exists (- 1 / (a ^ 2 + 0 ^ 2)). apply (lim_of _ (fun m => - 1 / (a ^ 2 + m ^ 2))); [reflexivity| |reflexivity]. cad.
    - apply (lim_of _ (fun m => m ^ 2 * / (a ^ 2 + m ^ 2) ^ 2)); [reflexivity| |rr; ring]. cad.
    - apply (lim_of _ (fun m => m ^ 3 * (- 4 * m * / (a ^ 2 + m ^ 2) ^ 3))); [reflexivity| |rr; ring]. cad.
  Qed.
  Lemma perfect_scaled b c : is_enclosed_mass b c (p_dens (perfect a)) (perfect_mass_scaled a b c).
  Proof.
    split.
    - intros R HR. pose proof (pa2 R) as P. unfold perfect_mass_scaled. cbn [p_dens perfect].
      auto_derive; [nz|]. field. nz.
    - apply (lim_of _ (perfect_mass_scaled a b c)); [reflexivity| |].
      + unfold perfect_mass_scaled. pose proof (pa2 0). cad.
      + unfold perfect_mass_scaled. replace (0 / a) with 0 by (field; lra). rewrite atan_0. rr. pose proof (pa2 0). field. nz.
  Qed.
End Perfect.
Lemma perfect_mass_wrong a b c : 0 < a -> a <> 1 -> 0 < b -> 0 < c -> ~ is_enclosed_mass b c (p_dens (perfect a)) (perfect_mass a b c).
Proof.
  intros Ha N Hb Hc (D & _). pose proof PI_RGT_0 as HP.
  assert (P1 : forall R : RR, 0 < 1 + R ^ 2) by (intros R; pose proof (pow2_ge_0 R); lra).
  assert (D' : forall R, 0 < R -> is_derive (perfect_mass a b c) R (2 * PI * b * c / a * (a / (a ^ 2 + R ^ 2) - a * (1 - R ^ 2) / (1 + R ^ 2) ^ 2))).
  { intros R HR. pose proof (P1 R). pose proof (pa2 a Ha R). unfold perfect_mass. auto_derive; [nz|]. field. nz. }
  pose proof (is_derive_unique _ _ _ (D 1 Rlt_0_1)) as E. rewrite (is_derive_unique _ _ _ (D' 1 Rlt_0_1)) in E. cbn [p_dens perfect] in E.
  pose proof (pa2 a Ha 1) as Q. replace (1 ^ 2) with 1 in * by ring.
  set (K := PI * b * c) in *.
  assert (HK : 0 < K) by (unfold K; apply Rmult_lt_0_compat; [apply Rmult_lt_0_compat|]; lra).
  assert (E2 : 2 * K * (1 / (a ^ 2 + 1)) = 4 * K * / (a ^ 2 + 1) ^ 2).
  { transitivity (2 * PI * b * c / a * (a / (a ^ 2 + 1) - a * (1 - 1) / (1 + 1) ^ 2)); [unfold K; field; lra|]. rewrite E. unfold K. field. nra. }
  assert (E3 : a ^ 2 + 1 = 2).
  { apply Rmult_eq_reg_l with (2 * K / (a ^ 2 + 1) ^ 2); [|apply Rgt_not_eq, Rdiv_lt_0_compat; nra].
    transitivity (2 * K * (1 / (a ^ 2 + 1))); [field; lra|]. rewrite E2. field. lra. }
  apply N. nra.
Qed.

Lemma rlim0 (p : RR) (g : RR -> RR) (k : RR) : 0 < p -> (forall m, 0 < m -> g m = k * rpow m p) -> filterlim g (at_right 0) (locally 0).
Proof.
  intros Hp E. apply (filterlim_ext_loc (fun m => k * rpow m p)).
  - exists (mkposreal 1 Rlt_0_1). intros y _ Hy. symmetry. apply E. exact Hy.
  - replace 0 with (k * 0) at 2 by ring. apply (filterlim_comp _ _ _ (fun m => rpow m p) (fun v => k * v) _ (locally 0)); [apply lim_rpow_right; exact Hp|].
    apply (continuous_mult (K := R_AbsRing) (fun _ : RR => k) (fun v : RR => v)); [apply continuous_const|apply continuous_id].
Qed.
Section Power.
  Variable alpha : RR.
  Lemma power_ok : alpha <> 2 -> prof_ok (power_triaxial alpha).
  Proof.
    intros N m Hm. split; cbn [p_psi p_dens p_deriv power_triaxial].
    - pose proof (rp_derive m (2 - alpha) Hm) as D. refine (is_derive_eq _ _ _ _ _ _); [apply is_derive_scal; exact D|].
      unfold Rminus at 3. rewrite rpow_plus, rpow_2 by exact Hm. rr. field. split; lra.
    - pose proof (rp_derive m (- alpha) Hm) as D. refine (is_derive_eq _ _ _ _ _ _); [exact D|].
      replace (- (1 + alpha)) with (- alpha - 1) by ring. rewrite rpow_minus, rpow_1 by exact Hm. reflexivity.
  Qed.
  Lemma power_mild : alpha < 2 -> prof_mild (power_triaxial alpha).
  Proof.
    intros H. cbn [p_psi p_dens p_deriv power_triaxial]. split; [|split; [|split]]; cbn [p_psi p_dens p_deriv power_triaxial].
    - intros m Hm. apply cmult; [apply ccst|]. apply c_of_d. eexists. apply (rp_derive m _ Hm).
    - exists 0. apply (rlim0 (2 - alpha) _ (2 / (2 - alpha))); [lra|reflexivity].
    - apply (rlim0 (2 - alpha) _ 1); [lra|]. intros m Hm. unfold Rminus. rewrite rpow_plus, rpow_2 by exact Hm. rr. ring.
    - apply (rlim0 (2 - alpha) _ (- alpha)); [lra|]. intros m Hm. replace (2 - alpha) with (3 + - (1 + alpha)) by ring. rewrite rpow_plus, rpow_3 by exact Hm. rr. ring.
  Qed.
End Power.

Section Gauss.
  Variable sigma : RR.
  Hypothesis Hs : 0 < sigma.
  Lemma d_g m : is_derive (fun x => exp (- x ^ 2 / (2 * sigma ^ 2))) m (- (m / sigma ^ 2) * exp (- m ^ 2 / (2 * sigma ^ 2))).
  Proof.
    assert (A : is_derive (fun x => - x ^ 2 / (2 * sigma ^ 2)) m (- (m / sigma ^ 2))) by (auto_derive; [nz|field; nz]).
    refine (is_derive_eq _ _ _ _ _ _); [apply (is_derive_Rchain exp (fun x => - x ^ 2 / (2 * sigma ^ 2)) m _ _ (is_derive_exp _) A)|]. rr. ring.
  Qed.
  Lemma gaussian_ok : prof_ok (gaussian sigma).
  Proof.
    intros m Hm. pose proof (d_g m) as D. split; cbn [p_psi p_dens p_deriv gaussian].
    - refine (is_derive_eq _ _ _ _ _ _); [apply is_derive_scal; exact D|]. rr. field. nz.
    - refine (is_derive_eq _ _ _ _ _ _); [exact D|]. rr. field. nz.
  Qed.
  Lemma gaussian_mild : prof_mild (gaussian sigma).
  Proof.
    split; [|split; [|split]]; cbn [p_psi p_dens p_deriv gaussian].
    - intros m Hm. cad.
    - eexists. apply (lim_of _ (p_psi (gaussian sigma))); [reflexivity| |reflexivity]. cbn [p_psi p_dens p_deriv gaussian]. cad.
    - apply (lim_of _ (fun m => m ^ 2 * p_dens (gaussian sigma) m)); [reflexivity| |rr; cbn [p_psi p_dens p_deriv gaussian]; ring]. cbn [p_psi p_dens p_deriv gaussian]. cad.
    - apply (lim_of _ (fun m => m ^ 3 * p_deriv (gaussian sigma) m)); [reflexivity| |rr; cbn [p_psi p_dens p_deriv gaussian]; ring]. cbn [p_psi p_dens p_deriv gaussian]. cad.
  Qed.
  Lemma gaussian_enclosed erf b c : is_erf erf -> is_enclosed_mass b c (p_dens (gaussian sigma)) (gaussian_mass erf sigma b c).
  Proof.
    intros (E0 & ED). pose proof PI_RGT_0 as HP. pose proof (sqrt_lt_R0 2 ltac:(lra)) as S2. pose proof (sqrt_lt_R0 PI HP) as SP.
    assert (D : forall R, is_derive (gaussian_mass erf sigma b c) R (4 * PI * b * c * R ^ 2 * p_dens (gaussian sigma) R)).
    { intros R. unfold gaussian_mass. pose proof (ED (R / sigma / sqrt 2)) as A.
      assert (B : is_derive (fun x => x / sigma / sqrt 2) R (1 / sigma / sqrt 2)) by (auto_derive; [exact I|field; lra]).
      pose proof (is_derive_Rchain erf (fun x => x / sigma / sqrt 2) R _ _ A B) as C.
      assert (G : is_derive (fun x => exp (- x ^ 2 / (2 * sigma ^ 2))) R (- (R / sigma ^ 2) * exp (- R ^ 2 / (2 * sigma ^ 2)))) by (apply d_g).
      assert (I0 : is_derive (fun x : RR => x) R 1) by apply d_id.
      assert (EE : exp (- (R / sigma / sqrt 2) ^ 2) = exp (- R ^ 2 / (2 * sigma ^ 2))).
      { f_equal. replace (2 * sigma ^ 2) with (sqrt 2 ^ 2 * sigma ^ 2) by (rewrite pow2_sqrt by lra; ring). field. lra. }
      rewrite EE in C. cbn [p_dens gaussian]. set (X := fun x => erf (x / sigma / sqrt 2)). set (Y := fun x => exp (- x ^ 2 / (2 * sigma ^ 2))).
      assert (CY : is_derive Y R (- (R / sigma ^ 2) * Y R)) by exact G. assert (E1 : exists k, is_derive X R k /\ k = 2 / sqrt PI * Y R * (1 / sigma / sqrt 2)).
      { eexists. split; [exact C|]. unfold Y. rr. ring. }
      destruct E1 as (k & CX & Ek). change (exp (- R ^ 2 / (2 * sigma ^ 2))) with (Y R).
      apply (is_derive_ext (fun R => PI * b * c * (2 * sigma ^ 2) * sigma * (sqrt (2 * PI) * X R - 2 * R / sigma * Y R))); [reflexivity|].
      clearbody X Y. clear C G EE A B.
      refine (is_derive_eq _ _ _ _ _ _); [dv; lra|]. cbv beta. rewrite Ek. rewrite sqrt_mult by lra. rr. field. lra. }
    split; [intros R _; apply D|].
    apply (lim_of _ (gaussian_mass erf sigma b c)); [reflexivity|apply c_of_d; eexists; apply D|].
    unfold gaussian_mass. replace (0 / sigma / sqrt 2) with 0 by (field; lra). rewrite E0. rr. field. lra.
  Qed.
End Gauss.

Section Special.
  Variable a : RR.
  Hypothesis Ha : 0 < a.
  Lemma hernquist_ok : prof_ok (tri_hernquist a).
  Proof. intros m Hm. split; cbn [p_psi p_dens p_deriv tri_hernquist]; (auto_derive; [nz|field; nz]). Qed.
  Lemma jaffe_ok : prof_ok (tri_jaffe a).
  Proof.
    intros m Hm. assert (P : 0 < a / m) by (apply Rdiv_lt_0_compat; assumption). assert (P2 : 0 < m / a) by (apply Rdiv_lt_0_compat; assumption).
    split; cbn [p_psi p_dens p_deriv tri_jaffe].
    - assert (D1 : is_derive (fun m => 1 / (1 + a / m)) m (a / (m + a) ^ 2)) by (auto_derive; [nz|field; nz]).
      assert (Q : 0 < 1 / (1 + a / m)) by (apply Rdiv_lt_0_compat; lra).
      pose proof (is_derive_Rchain ln (fun m => 1 / (1 + a / m)) m _ _ (is_derive_ln _ Q) D1) as D2.
      assert (D3 : is_derive (fun m => 1 / (1 + m / a)) m (- a / (m + a) ^ 2)) by (auto_derive; [nz|field; nz]).
      apply (is_derive_eq _ _ (2 * a ^ 2 * (- a / (m + a) ^ 2 + / (1 / (1 + a / m)) * (a / (m + a) ^ 2)))).
      + apply is_derive_scal. apply (is_derive_plus (V := R_NormedModule)); [exact D3|exact D2].
      + rr. field. nz.
    - auto_derive; [nz|field; nz].
  Qed.
  Lemma nfw_ok : prof_ok (tri_nfw a).
  Proof.
    intros m Hm. assert (P2 : 0 < m / a) by (apply Rdiv_lt_0_compat; assumption). split; cbn [p_psi p_dens p_deriv tri_nfw]; (auto_derive; [nz|field; nz]).
  Qed.
  Lemma hernquist_mild : prof_mild (tri_hernquist a).
  Proof.
    unfold prof_mild, mild_cusp. split; [|split; [|split]]; cbn [p_psi p_dens p_deriv tri_hernquist].
    - intros m Hm. cad.
    - eexists. apply (lim_of _ (p_psi (tri_hernquist a))); [reflexivity| |reflexivity]. cbn [p_psi tri_hernquist]. cad.
    - apply (lim_of _ (fun m => m * a ^ 4 / (m + a) ^ 3)); [intros m Hm; field; nz| |rr; field; nz]. cad.
    - apply (lim_of _ (fun m => - m * a ^ 4 * (a + 4 * m) / (a + m) ^ 4)); [intros m Hm; field; nz| |rr; field; nz]. cad.
  Qed.
  Lemma nfw_mild : prof_mild (tri_nfw a).
  Proof.
    unfold prof_mild, mild_cusp. split; [|split; [|split]]; cbn [p_psi p_dens p_deriv tri_nfw].
    - intros m Hm. cad.
    - eexists. apply (lim_of _ (p_psi (tri_nfw a))); [reflexivity| |reflexivity]. cbn [p_psi tri_nfw]. cad.
    - apply (lim_of _ (fun m => m * a ^ 3 / (a + m) ^ 2)); [intros m Hm; field; nz| |rr; field; nz]. cad.
    - apply (lim_of _ (fun m => - m * a ^ 3 * (a + 3 * m) / (a + m) ^ 3)); [intros m Hm; field; nz| |rr; field; nz]. cad.
  Qed.
  Lemma hernquist_enclosed b c : is_enclosed_mass b c (p_dens (tri_hernquist a)) (tri_hernquist_mass a b c).
  Proof.
    split.
    - intros R HR. assert (P : 0 < a / R) by (apply Rdiv_lt_0_compat; assumption). unfold tri_hernquist_mass. cbn [p_dens tri_hernquist]. auto_derive; [nz|field; nz].
    - apply (lim_of _ (fun R => 4 * PI * a ^ 3 * R ^ 2 / (R + a) ^ 2 / 2 * b * c)); [intros R HR; unfold tri_hernquist_mass; field; nz| |rr; field; nz]. cad.
  Qed.
  Lemma jaffe_enclosed b c : is_enclosed_mass b c (p_dens (tri_jaffe a)) (tri_jaffe_mass a b c).
  Proof.
    split.
    - intros R HR. assert (P : 0 < a / R) by (apply Rdiv_lt_0_compat; assumption). assert (P2 : 0 < R / a) by (apply Rdiv_lt_0_compat; assumption). unfold tri_jaffe_mass. cbn [p_dens tri_jaffe]. auto_derive; [nz|field; nz].
    - apply (lim_of _ (fun R => 4 * PI * a ^ 3 * R / (R + a) * b * c)); [intros R HR; unfold tri_jaffe_mass; field; nz| |rr; field; nz]. cad.
  Qed.
  Lemma nfw_enclosed b c : is_enclosed_mass b c (p_dens (tri_nfw a)) (tri_nfw_mass a b c).
  Proof.
    split.
    - intros R HR. assert (P2 : 0 < R / a) by (apply Rdiv_lt_0_compat; assumption). unfold tri_nfw_mass. cbn [p_dens tri_nfw]. auto_derive; [nz|field; nz].
    - apply (lim_of _ (tri_nfw_mass a b c)); [reflexivity| |].
      + unfold tri_nfw_mass. cad.
      + unfold tri_nfw_mass. replace (0 / a) with 0 by (field; lra). rewrite Rplus_0_r, ln_1. rr. field.
  Qed.
End Special.

(** The general two-power profile. *)
Section TwoPower.
  Variable F : RR -> RR -> RR -> RR -> RR.
  Variables psi_inf a alpha beta : RR.
  Hypothesis Ha : 0 < a.
  Notation P := (two_power F psi_inf a alpha beta).
  Lemma tp_dens m : 0 < m -> p_dens P m = rpow (m / a) (- alpha) * rpow (1 + m / a) (- (beta - alpha)).
  Proof.
    intros Hm. cbn [p_dens two_power]. unfold Rdiv at 1. rewrite <- rpow_opp. f_equal.
    replace (a / m) with (/ (m / a)) by (field; lra). unfold rpow, Rpower. rewrite ln_Rinv by (apply Rdiv_lt_0_compat; assumption). f_equal. ring.
  Qed.
  Lemma tp_dens_d m : 0 < m -> is_derive (p_dens P) m (p_deriv P m).
  Proof.
    intros Hm. assert (P1 : 0 < m / a) by (apply Rdiv_lt_0_compat; assumption).
    apply (is_derive_ext_loc (fun m => rpow (m / a) (- alpha) * rpow (1 + m / a) (- (beta - alpha)))).
    { apply (filter_imp (fun x => 0 < x)); [|apply locally_pos; exact Hm]. intros x Hx. symmetry. apply tp_dens. exact Hx. }
    assert (A : is_derive (fun m => m / a) m (1 / a)) by (auto_derive; [nz|field; nz]). assert (B : is_derive (fun m => 1 + m / a) m (1 / a)) by (auto_derive; [nz|field; nz]).
    pose proof (is_derive_rpow (fun m => m / a) (- alpha) m _ P1 A) as D1. pose proof (is_derive_rpow (fun m => 1 + m / a) (- (beta - alpha)) m _ ltac:(lra) B) as D2.
    change (p_deriv P m) with (- p_dens P m * (a * alpha + beta * m) / m / (a + m)). rewrite (tp_dens m Hm).
    cbv beta in D1, D2. rewrite rpow_minus, rpow_1 in D1 by lra. rewrite (rpow_minus _ _ 1), (rpow_1 (1 + m / a)) in D2 by lra.
    set (u := fun m => rpow (m / a) (- alpha)) in *. set (v := fun m => rpow (1 + m / a) (- (beta - alpha))) in *.
    change (rpow (m / a) (- alpha)) with (u m) in *. change (rpow (1 + m / a) (- (beta - alpha))) with (v m) in *.
    apply (is_derive_ext (fun m => u m * v m)); [reflexivity|]. pose proof (D1 : is_derive u m _) as E1. pose proof (D2 : is_derive v m _) as E2. clear D1 D2. clearbody u v.
    refine (is_derive_eq _ _ _ _ _ _); [dv|]. cbv beta. rr. field. nz.
  Qed.
  (** psi' for the exponent the code takes. *)
  Lemma tp_psi_ne m : alpha <> 2 -> hyp2f1_law F (2 - alpha) (beta - alpha) -> 0 < m -> is_derive (p_psi P) m (2 * m * p_dens P m).
  Proof.
    intros N HF Hm. assert (P1 : 0 < m / a) by (apply Rdiv_lt_0_compat; assumption).
    assert (A : is_derive (fun m => m / a) m (1 / a)) by (auto_derive; [nz|field; nz]).
    pose proof (is_derive_Rchain (fun x => rpow x (2 - alpha) / (2 - alpha) * F (2 - alpha) (beta - alpha) (2 - alpha + 1) (- x)) (fun m => m / a) m _ _ (HF (m / a) P1) A) as D.
    set (w := fun m => rpow (m / a) (2 - alpha) / (2 - alpha) * F (2 - alpha) (beta - alpha) (2 - alpha + 1) (- (m / a))) in *.
    apply (is_derive_ext (fun m => - 2 * a ^ 2 * (psi_inf - w m))).
    { intros x. cbn [p_psi two_power]. destruct (Req_EM_T (2 - alpha) 0) as [E|_]; [lra|]. unfold w. replace (2 - alpha + 1) with (3 - alpha) by ring.
      replace (- (x / a)) with (- x / a) by (unfold Rdiv; ring). reflexivity. }
    rewrite (tp_dens m Hm). replace (2 - alpha - 1) with (1 + - alpha) in D by ring. rewrite rpow_plus, rpow_1 in D by exact P1. rewrite (rpow_opp (1 + m / a)). pose proof (D : is_derive w m _) as Dw. clear D. clearbody w.
    pose proof (rpow_pos (1 + m / a) (beta - alpha)) as Pb.
    refine (is_derive_eq _ _ _ _ _ _); [dv|]. cbv beta. rr. field. nz.
  Qed.
  Lemma tp_psi_eq m : alpha = 2 -> hyp2f1_law F (beta - alpha) (beta - alpha) -> 0 < m -> is_derive (p_psi P) m (2 * m * p_dens P m).
  Proof.
    intros E2 HF Hm. assert (P1 : 0 < a / m) by (apply Rdiv_lt_0_compat; assumption). assert (P2 : 0 < m / a) by (apply Rdiv_lt_0_compat; assumption).
    assert (A : is_derive (fun m => a / m) m (- a / m ^ 2)) by (auto_derive; [nz|field; nz]).
    pose proof (is_derive_Rchain (fun x => rpow x (beta - alpha) / (beta - alpha) * F (beta - alpha) (beta - alpha) (beta - alpha + 1) (- x)) (fun m => a / m) m _ _ (HF (a / m) P1) A) as D.
    set (w := fun m => rpow (a / m) (beta - alpha) / (beta - alpha) * F (beta - alpha) (beta - alpha) (beta - alpha + 1) (- (a / m))) in *.
    apply (is_derive_ext (fun m => - 2 * a ^ 2 * w m)).
    { intros x. cbn [p_psi two_power]. destruct (Req_EM_T (2 - alpha) 0) as [_|E]; [|lra]. unfold w. replace (- (a / x)) with (- a / x) by (unfold Rdiv; ring). rr. unfold Rdiv. ring. }
    rewrite (tp_dens m Hm). rewrite rpow_minus, rpow_1 in D by exact P1.
    assert (X1 : rpow (m / a) (- alpha) = a ^ 2 / m ^ 2). { rewrite E2, rpow_opp, rpow_2 by exact P2. field. nz. }
    assert (X2 : rpow (1 + a / m) (beta - alpha) = rpow (a / m) (beta - alpha) * rpow (1 + m / a) (beta - alpha)).
    { unfold rpow. rewrite Rpower_mult_distr by lra. f_equal. field. nz. }
    rewrite X1, rpow_opp. rewrite X2 in D. pose proof (D : is_derive w m _) as Dw. clear D. pose proof (rpow_pos (1 + m / a) (beta - alpha)) as Pb. pose proof (rpow_pos (a / m) (beta - alpha)) as Pc.
    set (p := rpow (1 + m / a) (beta - alpha)) in *. set (q := rpow (a / m) (beta - alpha)) in *. clearbody p q w.
    refine (is_derive_eq _ _ _ _ _ _); [dv|]. cbv beta. rr. field. nz.
  Qed.
  Lemma two_power_ok : (alpha <> 2 -> hyp2f1_law F (2 - alpha) (beta - alpha)) -> (alpha = 2 -> hyp2f1_law F (beta - alpha) (beta - alpha)) -> prof_ok P.
  Proof.
    intros H1 H2 m Hm. split; [|apply tp_dens_d; exact Hm]. destruct (Req_dec alpha 2) as [E|N]; [apply tp_psi_eq; auto|apply tp_psi_ne; auto].
  Qed.
  Lemma two_power_mild : alpha < 2 -> hyp2f1_zero F (2 - alpha) (beta - alpha) -> prof_mild P.
  Proof.
    intros Hal HF. unfold prof_mild, mild_cusp.
    assert (C0 : continuous (fun m => rpow (1 + m / a) (- (beta - alpha))) 0).
    { apply c_of_d. eexists. apply (is_derive_rpow (fun m => 1 + m / a) (- (beta - alpha)) 0 (1 / a)); [unfold Rdiv; rewrite Rmult_0_l; lra|]. auto_derive; [nz|field; nz]. }
    assert (K : forall g : RR -> RR, continuous g 0 -> filterlim (fun m => rpow (m / a) (2 - alpha) * g m) (at_right 0) (locally 0)).
    { intros g Cg. replace 0 with (0 * g 0) at 2 by ring. apply (filterlim_comp_2 (F := at_right 0) (G := locally 0) (H := locally (g 0))).
      - apply (rlim0 (2 - alpha) _ (rpow (/ a) (2 - alpha))); [lra|]. intros m Hm. unfold Rdiv, rpow. rewrite Rmult_comm, Rpower_mult_distr; [reflexivity|apply Rinv_0_lt_compat; exact Ha|exact Hm].
      - intros Q HQ. destruct (Cg Q HQ) as (eps & He). exists eps. intros y Hy _. apply He. exact Hy.
      - apply (filterlim_mult (K := R_AbsRing)). }
    split; [|split; [|split]].
    - intros m Hm. apply (continuous_ext_loc _ (fun m => - p_dens P m * (a * alpha + beta * m) / m / (a + m))); [apply filter_forall; reflexivity|].
      assert (D := tp_dens_d m Hm). assert (I0 : is_derive (fun x : RR => x) m 1) by apply d_id. set (w := p_dens P) in *. clearbody w. apply c_of_d. eexists. dv; lra.
    - exists (- 2 * a ^ 2 * psi_inf).
      apply (filterlim_ext (fun m => - 2 * a ^ 2 * psi_inf + 2 * a ^ 2 * (rpow (m / a) (2 - alpha) / (2 - alpha) * F (2 - alpha) (beta - alpha) (2 - alpha + 1) (- (m / a))))).
      { intros m. cbn [p_psi two_power]. destruct (Req_EM_T (2 - alpha) 0) as [E|_]; [lra|]. replace (2 - alpha + 1) with (3 - alpha) by ring. replace (- m / a) with (- (m / a)) by (unfold Rdiv; ring). rr. ring. }
      apply (filterlim_comp _ _ _ (fun m => m / a) (fun x => - 2 * a ^ 2 * psi_inf + 2 * a ^ 2 * (rpow x (2 - alpha) / (2 - alpha) * F (2 - alpha) (beta - alpha) (2 - alpha + 1) (- x))) _ (at_right 0)).
      + intros Q (eps & He). assert (Pe : 0 < eps * a) by (apply Rmult_lt_0_compat; [apply cond_pos|exact Ha]). exists (mkposreal _ Pe). intros y Hy Hy0. apply He.
        * change (Rabs (y - 0) < eps * a) in Hy. change (Rabs (y / a - 0) < eps). rewrite Rminus_0_r in *. rewrite Rabs_right in * by (try apply Rle_ge, Rlt_le, Rdiv_lt_0_compat; lra).
          apply Rmult_lt_reg_r with a; [exact Ha|]. unfold Rdiv. rewrite Rmult_assoc, Rinv_l by lra. lra.
        * apply Rdiv_lt_0_compat; assumption.
      + apply (filterlim_comp _ _ _ (fun x => rpow x (2 - alpha) / (2 - alpha) * F (2 - alpha) (beta - alpha) (2 - alpha + 1) (- x)) (fun y => - 2 * a ^ 2 * psi_inf + 2 * a ^ 2 * y) _ (locally 0)); [exact HF|].
        replace (locally (- 2 * a ^ 2 * psi_inf)) with (locally (- 2 * a ^ 2 * psi_inf + 2 * a ^ 2 * 0)) by (f_equal; ring).
        apply (cplus (fun _ : RR => - 2 * a ^ 2 * psi_inf) (fun y : RR => 2 * a ^ 2 * y) 0); [apply ccst|]. apply cmult; [apply ccst|apply cid].
    - apply (filterlim_ext_loc (fun m => rpow (m / a) (2 - alpha) * (a ^ 2 * rpow (1 + m / a) (- (beta - alpha))))).
      + exists (mkposreal 1 Rlt_0_1). intros m _ Hm. assert (P1 : 0 < m / a) by (apply Rdiv_lt_0_compat; assumption). rewrite (tp_dens m Hm). unfold Rminus at 1. rewrite rpow_plus, rpow_2 by exact P1. rr. field. nz.
      + apply K. apply cmult; [apply ccst|exact C0].
    - apply (filterlim_ext_loc (fun m => rpow (m / a) (2 - alpha) * (- (a ^ 2 * rpow (1 + m / a) (- (beta - alpha)) * (a * alpha + beta * m) / (a + m))))).
      + exists (mkposreal 1 Rlt_0_1). intros m _ Hm. assert (P1 : 0 < m / a) by (apply Rdiv_lt_0_compat; assumption).
        change (p_deriv P m) with (- p_dens P m * (a * alpha + beta * m) / m / (a + m)). rewrite (tp_dens m Hm). unfold Rminus at 1. rewrite rpow_plus, rpow_2 by exact P1. rr. field. nz.
      + apply K. apply (ccomp Ropp); [|apply c_of_d; auto_derive; exact I]. apply cdiv; [apply cmult; [apply cmult; [apply ccst|exact C0]|]| |].
        * cad.
        * cad.
        * lra.
  Qed.
  Lemma two_power_enclosed b c : alpha < 3 -> hyp2f1_law F (3 - alpha) (beta - alpha) -> hyp2f1_zero F (3 - alpha) (beta - alpha) ->
    is_enclosed_mass b c (p_dens P) (two_power_mass F a alpha beta b c).
  Proof.
    intros Hal HF HZ.
    assert (E : forall R, 0 < R -> two_power_mass F a alpha beta b c R = 4 * PI * a ^ 3 * b * c * (rpow (R / a) (3 - alpha) / (3 - alpha) * F (3 - alpha) (beta - alpha) (3 - alpha + 1) (- (R / a)))).
    { intros R HR. unfold two_power_mass. replace (3 - alpha + 1) with (4 - alpha) by ring. replace (- (R / a)) with (- R / a) by (unfold Rdiv; ring).
      assert (Q : rpow a alpha * rpow R (3 - alpha) = a ^ 3 * rpow (R / a) (3 - alpha)).
      { replace R with (R / a * a) at 1 by (field; lra). unfold rpow. rewrite <- Rpower_mult_distr by (try apply Rdiv_lt_0_compat; assumption). fold (rpow a alpha). fold (rpow (R / a) (3 - alpha)). fold (rpow a (3 - alpha)).
        transitivity (rpow (R / a) (3 - alpha) * (rpow a alpha * rpow a (3 - alpha))); [ring|]. rewrite <- rpow_plus. replace (alpha + (3 - alpha)) with 3 by ring. rewrite rpow_3 by exact Ha. ring. }
      transitivity (4 * PI * (rpow a alpha * rpow R (3 - alpha)) / (3 - alpha) * b * c * F (3 - alpha) (beta - alpha) (4 - alpha) (- R / a)); [rr; unfold Rdiv; ring|]. rewrite Q. rr. unfold Rdiv. ring. }
    split.
    - intros R HR. assert (P1 : 0 < R / a) by (apply Rdiv_lt_0_compat; assumption).
      apply (is_derive_ext_loc (fun R => 4 * PI * a ^ 3 * b * c * (rpow (R / a) (3 - alpha) / (3 - alpha) * F (3 - alpha) (beta - alpha) (3 - alpha + 1) (- (R / a))))).
      { apply (filter_imp (fun x => 0 < x)); [|apply locally_pos; exact HR]. intros x Hx. symmetry. apply E. exact Hx. }
      assert (A : is_derive (fun m => m / a) R (1 / a)) by (auto_derive; [nz|field; nz]).
      pose proof (is_derive_Rchain (fun x => rpow x (3 - alpha) / (3 - alpha) * F (3 - alpha) (beta - alpha) (3 - alpha + 1) (- x)) (fun m => m / a) R _ _ (HF (R / a) P1) A) as D.
      refine (is_derive_eq _ _ _ _ _ _); [apply is_derive_scal; exact D|]. rewrite (tp_dens R HR), (rpow_opp (1 + R / a)). replace (3 - alpha - 1) with (2 + - alpha) by ring. rewrite rpow_plus, rpow_2 by exact P1.
      pose proof (rpow_pos (1 + R / a) (beta - alpha)). rr. field. nz.
    - apply (filterlim_ext_loc (fun R => 4 * PI * a ^ 3 * b * c * (rpow (R / a) (3 - alpha) / (3 - alpha) * F (3 - alpha) (beta - alpha) (3 - alpha + 1) (- (R / a))))).
      { exists (mkposreal 1 Rlt_0_1). intros x _ Hx. symmetry. apply E. exact Hx. }
      apply (filterlim_comp _ _ _ (fun m => m / a) (fun x => 4 * PI * a ^ 3 * b * c * (rpow x (3 - alpha) / (3 - alpha) * F (3 - alpha) (beta - alpha) (3 - alpha + 1) (- x))) _ (at_right 0)).
      + intros Q (eps & He). assert (Pe : 0 < eps * a) by (apply Rmult_lt_0_compat; [apply cond_pos|exact Ha]). exists (mkposreal _ Pe). intros y Hy Hy0. apply He.
        * change (Rabs (y - 0) < eps * a) in Hy. change (Rabs (y / a - 0) < eps). rewrite Rminus_0_r in *. rewrite Rabs_right in * by (try apply Rle_ge, Rlt_le, Rdiv_lt_0_compat; lra).
          apply Rmult_lt_reg_r with a; [exact Ha|]. unfold Rdiv. rewrite Rmult_assoc, Rinv_l by lra. lra.
        * apply Rdiv_lt_0_compat; assumption.
      + apply (filterlim_comp _ _ _ (fun x => rpow x (3 - alpha) / (3 - alpha) * F (3 - alpha) (beta - alpha) (3 - alpha + 1) (- x)) (fun y => 4 * PI * a ^ 3 * b * c * y) _ (locally 0)); [exact HZ|].
        replace (locally 0) with (locally (4 * PI * a ^ 3 * b * c * 0)) at 2 by (f_equal; ring). apply (cmult (fun _ : RR => 4 * PI * a ^ 3 * b * c) (fun y : RR => y) 0); [apply ccst|apply cid].
  Qed.
End TwoPower.
