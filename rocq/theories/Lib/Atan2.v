(** The two-argument arctangent (numpy.arctan2 over exact reals; signed zeros do not exist),
    and the facts about it used by the coordinate transformations. *)
From Coq Require Import Reals Lra Psatz.
From Coquelicot Require Import Coquelicot.
From Verif.Lib Require Import RealAux.
Open Scope R_scope.

(** Replace [Derive f s] by its known value. *)
Ltac derw := repeat match goal with
  | H : is_derive ?f ?s ?l |- context [Derive ?g ?s] =>
      let E := fresh in assert (E : Derive g s = l) by (apply (is_derive_unique g s l); exact H); rewrite !E; clear E
  end.

Definition atan2 (y x : R) : R :=
  if Rlt_dec 0 x then atan (y / x)
  else if Rlt_dec x 0 then (if Rle_dec 0 y then atan (y / x) + PI else atan (y / x) - PI)
  else if Rlt_dec 0 y then PI / 2 else if Rlt_dec y 0 then - (PI / 2) else 0.

Lemma cos_atan_pos x : 0 < cos (atan x).
Proof. apply cos_gt_0; pose proof (atan_bound x); lra. Qed.
Lemma sin_atan_cos x : sin (atan x) = x * cos (atan x).
Proof.
  pose proof (cos_atan_pos x). rewrite <- (tan_atan x) at 2. unfold tan. field. lra.
Qed.
Lemma cos_atan_sq x : cos (atan x) * sqrt (1 + x ^ 2) = 1.
Proof.
  pose proof (cos_atan_pos x) as Hc. pose proof (sin_atan_cos x) as Hs.
  pose proof (sin2_cos2 (atan x)) as E. unfold Rsqr in E. rewrite Hs in E.
  assert (Hp : 0 < 1 + x ^ 2) by nra.
  pose proof (sqrt_lt_R0 _ Hp) as Hq. pose proof (sqrt_sqrt _ (Rlt_le _ _ Hp)) as Eq.
  set (s := sqrt (1 + x ^ 2)) in *. set (c := cos (atan x)) in *.
  assert ((c * s - 1) * (c * s + 1) = 0). { replace ((c * s - 1) * (c * s + 1)) with (c * c * (s * s) - 1) by ring. rewrite Eq. lra. }
  apply Rmult_integral in H. destruct H; [lra|]. nra.
Qed.
Lemma sqrt_scale x y : x <> 0 -> sqrt (x ^ 2 + y ^ 2) = Rabs x * sqrt (1 + (y / x) ^ 2).
Proof.
  intros Hx. rewrite <- sqrt_Rsqr_abs. unfold Rsqr. rewrite <- sqrt_mult_alt by nra.
  f_equal. field. auto.
Qed.

(** Polar coordinates recover the Cartesian ones. *)
Lemma atan2_cos x y : sqrt (x ^ 2 + y ^ 2) * cos (atan2 y x) = x.
Proof.
  unfold atan2. destruct (Rlt_dec 0 x) as [H|H].
  - rewrite sqrt_scale by lra. rewrite Rabs_pos_eq by lra.
    pose proof (cos_atan_sq (y / x)) as E. rewrite Rmult_assoc, (Rmult_comm (sqrt _)), E. ring.
  - destruct (Rlt_dec x 0) as [H0|H0].
    + rewrite sqrt_scale by lra. rewrite Rabs_left by lra.
      pose proof (cos_atan_sq (y / x)) as E. destruct (Rle_dec 0 y).
      * rewrite neg_cos. replace (- x * sqrt (1 + (y / x) ^ 2) * - cos (atan (y / x))) with (x * (cos (atan (y / x)) * sqrt (1 + (y / x) ^ 2))) by ring. rewrite E; ring.
      * rewrite <- (cos_neg (atan (y / x) - PI)). replace (- (atan (y / x) - PI)) with (- atan (y / x) + PI) by ring. rewrite neg_cos, cos_neg.
        replace (- x * sqrt (1 + (y / x) ^ 2) * - cos (atan (y / x))) with (x * (cos (atan (y / x)) * sqrt (1 + (y / x) ^ 2))) by ring. rewrite E; ring.
    + assert (x = 0) by lra. subst x. destruct (Rlt_dec 0 y). rewrite cos_PI2; ring.
      destruct (Rlt_dec y 0). rewrite cos_neg, cos_PI2; ring.
      assert (y = 0) by lra. subst y. replace (0 ^ 2 + 0 ^ 2) with 0 by ring. rewrite sqrt_0; ring.
Qed.
Lemma atan2_sin x y : sqrt (x ^ 2 + y ^ 2) * sin (atan2 y x) = y.
Proof.
  unfold atan2. destruct (Rlt_dec 0 x) as [H|H].
  - rewrite sqrt_scale by lra. rewrite Rabs_pos_eq by lra. rewrite sin_atan_cos.
    pose proof (cos_atan_sq (y / x)) as E.
    replace (x * sqrt (1 + (y / x) ^ 2) * (y / x * cos (atan (y / x)))) with (x * (y / x) * (cos (atan (y / x)) * sqrt (1 + (y / x) ^ 2))) by ring.
    rewrite E. field. lra.
  - destruct (Rlt_dec x 0) as [H0|H0].
    + rewrite sqrt_scale by lra. rewrite Rabs_left by lra.
      pose proof (cos_atan_sq (y / x)) as E. 
      assert (G : - x * sqrt (1 + (y / x) ^ 2) * - sin (atan (y / x)) = y).
      { rewrite sin_atan_cos. replace (- x * sqrt (1 + (y / x) ^ 2) * - (y / x * cos (atan (y / x)))) with (x * (y / x) * (cos (atan (y / x)) * sqrt (1 + (y / x) ^ 2))) by ring. rewrite E. field. lra. }
      destruct (Rle_dec 0 y).
      * rewrite neg_sin. exact G.
      * replace (atan (y / x) - PI) with (- (- atan (y / x) + PI)) by ring. rewrite sin_neg, neg_sin, sin_neg.
        etransitivity; [|exact G]. ring.
    + assert (x = 0) by lra. subst x. replace (0 ^ 2 + y ^ 2) with (Rsqr y) by (unfold Rsqr; ring).
      rewrite sqrt_Rsqr_abs. destruct (Rlt_dec 0 y). rewrite sin_PI2, Rabs_pos_eq by lra; ring.
      destruct (Rlt_dec y 0). rewrite sin_neg, sin_PI2, Rabs_left by lra; ring.
      rewrite Rabs_pos_eq; [|lra]. assert (y = 0) by lra. subst y. ring.
Qed.
Lemma atan_neg_arg x : x < 0 -> atan x < 0.
Proof. intros. rewrite <- atan_0. apply atan_increasing; auto. Qed.
Lemma atan_pos_arg x : 0 < x -> 0 < atan x.
Proof. intros. rewrite <- atan_0. apply atan_increasing; auto. Qed.

Lemma atan2_range x y : - PI < atan2 y x <= PI.
Proof.
  pose proof PI_RGT_0 as Hp. unfold atan2. pose proof (atan_bound (y / x)) as B.
  destruct (Rlt_dec 0 x); [lra|]. destruct (Rlt_dec x 0) as [Hx|].
  - destruct (Rle_dec 0 y) as [Hy|Hy].
    + split; [lra|]. assert (y / x <= 0). { unfold Rdiv. pose proof (Rinv_lt_0_compat _ Hx). nra. }
      destruct H. { pose proof (atan_neg_arg _ H). lra. } rewrite H, atan_0. lra.
    + assert (0 < y / x). { unfold Rdiv. pose proof (Rinv_lt_0_compat _ Hx). nra. }
      pose proof (atan_pos_arg _ H). lra.
  - destruct (Rlt_dec 0 y); [lra|]. destruct (Rlt_dec y 0); lra.
Qed.

(** Angles with equal sine and cosine in (-PI, PI] are equal. *)
Lemma angle_unique a b : - PI < a <= PI -> - PI < b <= PI -> cos a = cos b -> sin a = sin b -> a = b.
Proof.
  intros Ha Hb Ec Es. pose proof PI_RGT_0 as Hp.
  assert (C : cos (a - b) = 1). { rewrite cos_minus, Ec, Es. pose proof (sin2_cos2 b) as E. unfold Rsqr in E. lra. }
  assert (S : sin (a - b) = 0). { rewrite sin_minus, Ec, Es. ring. }
  destruct (Rtotal_order a b) as [L|[E|G]]; auto; exfalso.
  - assert (H : -2 * PI < a - b < 0) by lra.
    destruct (Rtotal_order (a - b) (- PI)) as [L1|[E1|G1]].
    + assert (0 < sin (a - b + 2 * PI)) by (apply sin_gt_0; lra). rewrite sin_plus, sin_2PI, cos_2PI in H0. lra.
    + rewrite E1, cos_neg, cos_PI in C. lra.
    + assert (0 < sin (- (a - b))) by (apply sin_gt_0; lra). rewrite sin_neg in H0. lra.
  - destruct (Rtotal_order (a - b) PI) as [L1|[E1|G1]].
    + assert (0 < sin (a - b)) by (apply sin_gt_0; lra). lra.
    + rewrite E1, cos_PI in C. lra.
    + assert (0 < sin (2 * PI - (a - b))) by (apply sin_gt_0; lra). rewrite sin_minus, sin_2PI, cos_2PI in H. lra.
Qed.
Lemma polar_norm R phi : sqrt ((R * cos phi) ^ 2 + (R * sin phi) ^ 2) = Rabs R.
Proof.
  rewrite <- sqrt_Rsqr_abs. f_equal. unfold Rsqr. pose proof (sin2_cos2 phi) as E. unfold Rsqr in E.
  replace ((R * cos phi) ^ 2 + (R * sin phi) ^ 2) with (R * R * (sin phi * sin phi + cos phi * cos phi)) by ring.
  rewrite E; ring.
Qed.
Lemma atan2_polar R phi : 0 < R -> - PI < phi <= PI -> atan2 (R * sin phi) (R * cos phi) = phi.
Proof.
  intros HR Hphi. apply angle_unique; auto using atan2_range.
  - pose proof (atan2_cos (R * cos phi) (R * sin phi)) as E. rewrite polar_norm, Rabs_pos_eq in E by lra.
    apply Rmult_eq_reg_l in E; auto; lra.
  - pose proof (atan2_sin (R * cos phi) (R * sin phi)) as E. rewrite polar_norm, Rabs_pos_eq in E by lra.
    apply Rmult_eq_reg_l in E; auto; lra.
Qed.
(** Scaling both arguments by a positive number does not change the angle. *)
Lemma atan2_scale k x y : 0 < k -> (x <> 0 \/ y <> 0) -> atan2 (k * y) (k * x) = atan2 y x.
Proof.
  intros Hk Hne. set (r := sqrt (x ^ 2 + y ^ 2)). 
  assert (Hr : 0 < r). { apply sqrt_lt_R0. destruct Hne; nra. }
  rewrite <- (atan2_cos x y) at 1. rewrite <- (atan2_sin x y) at 1. fold r.
  rewrite <- !Rmult_assoc. rewrite atan2_polar; auto using atan2_range. nra.
Qed.

(** Derivative of the angle along a differentiable path, off the negative x half-axis. *)
Lemma is_derive_atan2_right (x y : R -> R) s dx dy : 0 < x s ->
  is_derive x s dx -> is_derive y s dy ->
  is_derive (fun u => atan2 (y u) (x u)) s ((x s * dy - y s * dx) / (x s ^ 2 + y s ^ 2)).
Proof.
  intros Hx Dx Dy.
  assert (L : locally s (fun u => 0 < x u)).
  { apply (ex_derive_continuous x s (ex_intro _ _ Dx) (fun v => 0 < v)). apply locally_pos; auto. }
  eapply is_derive_ext_loc with (f := fun u => atan (y u / x u)).
  { eapply filter_imp; [|exact L]. intros u Hu. cbv beta in Hu. unfold atan2. destruct (Rlt_dec 0 (x u)); [reflexivity|contradiction]. }
  auto_derive. { split; [eexists; eauto|split; [eexists; eauto|split;auto; lra]]. }
  derw.
  unfold Rsqr. field. split; nra.
Qed.
Lemma is_derive_atan2_up (x y : R -> R) s dx dy : 0 < y s ->
  is_derive x s dx -> is_derive y s dy ->
  is_derive (fun u => atan2 (y u) (x u)) s ((x s * dy - y s * dx) / (x s ^ 2 + y s ^ 2)).
Proof.
  intros Hy Dx Dy.
  assert (L : locally s (fun u => 0 < y u)).
  { apply (ex_derive_continuous y s (ex_intro _ _ Dy) (fun v => 0 < v)). apply locally_pos; auto. }
  eapply is_derive_ext_loc with (f := fun u => PI / 2 - atan (x u / y u)).
  { eapply filter_imp; [|exact L]. intros u Hu. cbv beta in Hu. symmetry.
    pose proof (atan_bound (x u / y u)) as B. pose proof PI_RGT_0.
    set (r := sqrt (x u ^ 2 + y u ^ 2)).
    assert (Hr : 0 < r) by (apply sqrt_lt_R0; nra).
    apply angle_unique; [apply atan2_range|lra| |].
    - rewrite cos_minus, cos_PI2, sin_PI2, sin_atan_cos.
      pose proof (atan2_cos (x u) (y u)) as E. fold r in E.
      pose proof (cos_atan_sq (x u / y u)) as E2.
      assert (Er : r = y u * sqrt (1 + (x u / y u) ^ 2)).
      { unfold r. rewrite Rplus_comm, sqrt_scale by lra. rewrite Rabs_pos_eq by lra; auto. }
      apply Rmult_eq_reg_l with r; [|lra]. rewrite E, Er.
      replace (y u * sqrt (1 + (x u / y u) ^ 2) * (0 * cos (atan (x u / y u)) + 1 * (x u / y u * cos (atan (x u / y u))))) with
        (x u / y u * y u * (cos (atan (x u / y u)) * sqrt (1 + (x u / y u) ^ 2))) by ring. rewrite E2. field. lra.
    - rewrite sin_minus, cos_PI2, sin_PI2.
      pose proof (atan2_sin (x u) (y u)) as E. fold r in E.
      pose proof (cos_atan_sq (x u / y u)) as E2.
      assert (Er : r = y u * sqrt (1 + (x u / y u) ^ 2)).
      { unfold r. rewrite Rplus_comm, sqrt_scale by lra. rewrite Rabs_pos_eq by lra; auto. }
      apply Rmult_eq_reg_l with r; [|lra]. rewrite E, Er.
      replace (y u * sqrt (1 + (x u / y u) ^ 2) * (1 * cos (atan (x u / y u)) - 0 * sin (atan (x u / y u)))) with
        (y u * (cos (atan (x u / y u)) * sqrt (1 + (x u / y u) ^ 2))) by ring. rewrite E2. ring. }
  auto_derive. { split; [eexists; eauto|split; [eexists; eauto|split;auto; lra]]. }
  derw.
  unfold Rsqr. field. split; nra.
Qed.
Lemma atan2_opp_y x y : (0 < x \/ y <> 0) -> atan2 (- y) x = - atan2 y x.
Proof.
  intros H. set (r := sqrt (x ^ 2 + y ^ 2)).
  assert (Hr : 0 < r) by (apply sqrt_lt_R0; destruct H; nra).
  pose proof (atan2_range x y) as B. pose proof PI_RGT_0.
  apply angle_unique; [apply atan2_range| |  | ].
  - split; [|lra]. destruct (Rle_lt_or_eq_dec _ _ (proj2 B)) as [L|E]; [lra|]. exfalso.
    pose proof (atan2_cos x y) as Ec. pose proof (atan2_sin x y) as Es. rewrite E in Ec, Es. fold r in Ec, Es.
    rewrite cos_PI in Ec. rewrite sin_PI in Es. destruct H; lra.
  - rewrite cos_neg. apply Rmult_eq_reg_l with r; [|lra]. unfold r at 2. rewrite atan2_cos.
    pose proof (atan2_cos x (- y)) as E. replace ((- y) ^ 2) with (y ^ 2) in E by ring. exact E.
  - rewrite sin_neg. apply Rmult_eq_reg_l with r; [|lra].
    pose proof (atan2_sin x (- y)) as E. replace ((- y) ^ 2) with (y ^ 2) in E by ring. fold r in E. rewrite E.
    pose proof (atan2_sin x y) as E2. fold r in E2. lra.
Qed.
Lemma is_derive_atan2 (x y : R -> R) s dx dy : (0 < x s \/ y s <> 0) ->
  is_derive x s dx -> is_derive y s dy ->
  is_derive (fun u => atan2 (y u) (x u)) s ((x s * dy - y s * dx) / (x s ^ 2 + y s ^ 2)).
Proof.
  intros [Hx|Hy] Dx Dy. { apply is_derive_atan2_right; auto. }
  destruct (Rdichotomy _ _ Hy) as [L|G].
  - assert (Loc : locally s (fun u => y u < 0)).
    { apply (ex_derive_continuous y s (ex_intro _ _ Dy) (fun v => v < 0)). apply locally_lt; auto. }
    eapply is_derive_ext_loc with (f := fun u => - atan2 (- y u) (x u)).
    { eapply filter_imp; [|exact Loc]. intros u Hu. cbv beta in Hu. rewrite atan2_opp_y; [apply Ropp_involutive|]. right; lra. }
    assert (Dy' : is_derive (fun u => - y u) s (- dy)) by (apply (is_derive_opp y s dy); auto).
    eapply is_derive_eq.
    { apply (is_derive_opp (fun u => atan2 (- y u) (x u))). apply (is_derive_atan2_up x (fun u => - y u)); eauto. lra. }
    unfold opp; simpl. field. nra.
  - apply is_derive_atan2_up; auto.
Qed.
