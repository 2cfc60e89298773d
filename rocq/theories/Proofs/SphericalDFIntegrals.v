(** Integrals behind the velocity moments of the spherical distribution functions. *)
From Coq Require Import Reals List ZArith Lra Lia.
From Coquelicot Require Import Coquelicot.
From Verif.Lib Require Import RealAux.
From Verif.Model Require Import SphericalDF.
From Verif.Proofs Require Import EOMProofs StaeckelProofs KuzminKutuzovProofs.
Open Scope R_scope.
Notation RR := RbaseSymbolsImpl.R (only parsing).
Ltac rr := match goal with |- ?a = ?b => change (@eq RR a b) end.

Lemma gamma_half_rec k : (0 < k)%nat -> gamma_half (k + 2) = INR k / 2 * gamma_half k.
Proof. intros H. replace (k + 2)%nat with (S (S k)) by lia. destruct k as [|k]; [lia|reflexivity]. Qed.
Lemma gamma_half_pos k : (0 < k)%nat -> 0 < gamma_half k.
Proof.
  induction k as [k IH] using lt_wf_ind. intros H. destruct k as [|[|[|k]]]; [lia|cbn; apply sqrt_lt_R0, PI_RGT_0|cbn; lra|].
  replace (S (S (S k))) with (S k + 2)%nat by lia. rewrite gamma_half_rec by lia.
  apply Rmult_lt_0_compat; [|apply IH; lia]. pose proof (lt_0_INR (S k) ltac:(lia)). lra.
Qed.

Lemma cont_sincos p q x : continuous (fun y : RR => sin y ^ p * cos y ^ q) x.
Proof. apply (@ex_derive_continuous R_AbsRing R_NormedModule). auto_derive. exact I. Qed.
Lemma ex_sincos p q a b : ex_RInt (fun y : RR => sin y ^ p * cos y ^ q) a b.
Proof. apply (ex_RInt_continuous (V := R_CompleteNormedModule)). intros z _. apply cont_sincos. Qed.
Definition KI (p q : nat) : RR := RInt (fun y => sin y ^ p * cos y ^ q) 0 PI.

Lemma KI_step p q : KI (p + 2) q = KI p q - KI p (q + 2).
Proof.
  unfold KI. symmetry.
  etransitivity; [symmetry; exact (RInt_minus (V := R_CompleteNormedModule) _ _ 0 PI (ex_sincos p q 0 PI) (ex_sincos p (q + 2) 0 PI))|].
  apply RInt_ext. intros x _. rewrite !pow_add. change (sin x ^ p * cos x ^ q - sin x ^ p * (cos x ^ q * cos x ^ 2) = sin x ^ p * sin x ^ 2 * cos x ^ q).
  replace (sin x ^ 2) with (1 - cos x ^ 2) by (pose proof (sin2_cos2 x) as H; unfold Rsqr in H; cbn; lra). ring.
Qed.
Lemma d_cospow q x : is_derive (fun y : RR => cos y ^ (2 * q + 1)) x (- (2 * INR q + 1) * sin x * cos x ^ (2 * q)).
Proof.
  refine (is_derive_eq _ _ _ _ (is_derive_pow cos (2 * q + 1) x _ (is_derive_cos x)) _).
  replace (Init.Nat.pred (2 * q + 1)) with (2 * q)%nat by lia. rewrite plus_INR, mult_INR. cbn [INR]. rr. ring.
Qed.
Lemma KI_1 q : KI 1 (2 * q) = 2 / (2 * INR q + 1).
Proof.
  unfold KI. pose proof (pos_INR q) as Q.
  rewrite (is_RInt_unique (V := R_CompleteNormedModule) (fun y : RR => sin y ^ 1 * cos y ^ (2 * q)) 0 PI
             (minus ((fun y => - cos y ^ (2 * q + 1) / (2 * INR q + 1)) PI) ((fun y => - cos y ^ (2 * q + 1) / (2 * INR q + 1)) 0))).
  2:{ apply (is_RInt_derive (V := R_CompleteNormedModule) (fun y : RR => - cos y ^ (2 * q + 1) / (2 * INR q + 1))).
    - intros x _.
      refine (is_derive_ext _ _ x _ _ (is_derive_eq _ _ _ _ (is_derive_Rscal _ x (- / (2 * INR q + 1)) _ (d_cospow q x)) _)).
      { intros t. cbn beta. rr. field. lra. }
      rr. rewrite pow_1. field. lra.
    - intros x _. apply cont_sincos. }
  cbn beta. rewrite cos_PI, cos_0, pow1, pow_add, pow_1_even, pow_1.
  change (- (1 * -1) / (2 * INR q + 1) - - 1 / (2 * INR q + 1) = 2 / (2 * INR q + 1)). field. lra.
Qed.
Lemma KI_0 q : KI 0 (2 * (q + 1)) = (2 * INR q + 1) / (2 * INR q + 2) * KI 0 (2 * q).
Proof.
  pose proof (pos_INR q) as Q.
  assert (E : KI 2 (2 * q) = KI 0 (2 * (q + 1)) / (2 * INR q + 1)).
  { assert (A : is_RInt (fun y : RR => minus (sin y ^ 2 * cos y ^ (2 * q)) (scal (/ (2 * INR q + 1)) (sin y ^ 0 * cos y ^ (2 * (q + 1))))) 0 PI
              (minus ((fun y => - sin y * cos y ^ (2 * q + 1) / (2 * INR q + 1)) PI) ((fun y => - sin y * cos y ^ (2 * q + 1) / (2 * INR q + 1)) 0))).
    { apply (is_RInt_derive (V := R_CompleteNormedModule) (fun y : RR => - sin y * cos y ^ (2 * q + 1) / (2 * INR q + 1))).
      - intros x _.
        refine (is_derive_ext _ _ x _ _ (is_derive_eq _ _ _ _ (is_derive_Rscal _ x (- / (2 * INR q + 1)) _
          (is_derive_Rmult sin (fun y => cos y ^ (2 * q + 1)) x _ _ (is_derive_sin x) (d_cospow q x))) _)).
        { intros t. cbn beta. rr. field. lra. }
        change (- / (2 * INR q + 1) * (cos x * cos x ^ (2 * q + 1) + sin x * (- (2 * INR q + 1) * sin x * cos x ^ (2 * q))) =
          sin x ^ 2 * cos x ^ (2 * q) - / (2 * INR q + 1) * (sin x ^ 0 * cos x ^ (2 * (q + 1)))).
        replace (2 * (q + 1))%nat with (2 * q + 2)%nat by lia. rewrite !pow_add. field. lra.
      - intros x _. apply (@ex_derive_continuous R_AbsRing R_NormedModule). 
        apply (@ex_derive_minus R_AbsRing R_NormedModule); [|apply ex_derive_scal]; auto_derive; exact I. }
    assert (B : is_RInt (fun y : RR => minus (sin y ^ 2 * cos y ^ (2 * q)) (scal (/ (2 * INR q + 1)) (sin y ^ 0 * cos y ^ (2 * (q + 1))))) 0 PI
               (minus (KI 2 (2 * q)) (scal (/ (2 * INR q + 1)) (KI 0 (2 * (q + 1)))))).
    { apply (is_RInt_minus (V := R_CompleteNormedModule)); [apply (RInt_correct (V := R_CompleteNormedModule)), ex_sincos|].
      apply (is_RInt_scal (V := R_CompleteNormedModule)), (RInt_correct (V := R_CompleteNormedModule)), ex_sincos. }
    pose proof (is_RInt_unique _ _ _ _ A) as UA. pose proof (is_RInt_unique _ _ _ _ B) as UB. rewrite UA in UB.
    cbn beta in UB. rewrite sin_PI, sin_0 in UB.
    change (- 0 * cos PI ^ (2 * q + 1) / (2 * INR q + 1) - - 0 * cos 0 ^ (2 * q + 1) / (2 * INR q + 1) =
      KI 2 (2 * q) - / (2 * INR q + 1) * KI 0 (2 * (q + 1))) in UB.
    match type of UB with ?l = _ => replace l with 0 in UB by (field; lra) end. unfold Rdiv. lra. }
  pose proof (KI_step 0 (2 * q)) as St. cbn [Nat.add] in St. rewrite E in St.
  replace (2 * q + 2)%nat with (2 * (q + 1))%nat in St by lia.
  set (X := KI 0 (2 * (q + 1))) in *. set (Y := KI 0 (2 * q)) in *. 
  assert (X * (1 + / (2 * INR q + 1)) = Y) by (unfold Rdiv in St; lra).
  rewrite <- H. field. lra.
Qed.
Lemma KI_00 : KI 0 0 = PI.
Proof.
  unfold KI. rewrite (RInt_ext _ (fun _ => 1)) by (intros; cbn; ring). rewrite RInt_const. unfold scal; cbn; unfold mult; cbn. ring.
Qed.

(** The integral of sin^p cos^(2q) over the half turn, in gamma functions *)
Theorem KI_gamma p q : KI p (2 * q) = gamma_half (p + 1) * gamma_half (2 * q + 1) / gamma_half (p + 2 * q + 2).
Proof.
  revert q. induction p as [p IH] using lt_wf_ind. intros q. destruct p as [|[|p]].
  - induction q as [|q IHq].
    + cbn [Nat.mul Nat.add]. rewrite KI_00. cbn. rewrite sqrt_sqrt by (pose proof PI_RGT_0; lra). field.
    + replace (S q) with (q + 1)%nat by lia. rewrite KI_0, IHq.
      replace (2 * (q + 1) + 1)%nat with (2 * q + 1 + 2)%nat by lia. replace (0 + 2 * (q + 1) + 2)%nat with (2 * q + 2 + 2)%nat by lia.
      rewrite (gamma_half_rec (2 * q + 1)), (gamma_half_rec (2 * q + 2)) by lia. cbn [Nat.add].
      rewrite !plus_INR, !mult_INR. pose proof (gamma_half_pos (2 * q + 2) ltac:(lia)). pose proof (pos_INR q). cbn [INR]. field. lra.
  - rewrite KI_1. replace (1 + 2 * q + 2)%nat with (2 * q + 1 + 2)%nat by lia. rewrite (gamma_half_rec (2 * q + 1)) by lia.
    rewrite plus_INR, mult_INR. pose proof (gamma_half_pos (2 * q + 1) ltac:(lia)). pose proof (pos_INR q). cbn [INR Nat.add gamma_half]. field. lra.
  - replace (S (S p)) with (p + 2)%nat by lia. rewrite KI_step. replace (2 * q + 2)%nat with (2 * (q + 1))%nat by lia.
    rewrite !IH by lia.
    replace (2 * (q + 1) + 1)%nat with (2 * q + 1 + 2)%nat by lia. replace (p + 2 * (q + 1) + 2)%nat with (p + 2 * q + 2 + 2)%nat by lia.
    replace (p + 2 + 1)%nat with (p + 1 + 2)%nat by lia. replace (p + 2 + 2 * q + 2)%nat with (p + 2 * q + 2 + 2)%nat by lia.
    rewrite (gamma_half_rec (2 * q + 1)), (gamma_half_rec (p + 2 * q + 2)), (gamma_half_rec (p + 1)) by lia.
    rewrite !plus_INR, !mult_INR. pose proof (gamma_half_pos (p + 2 * q + 2) ltac:(lia)). pose proof (pos_INR q). pose proof (pos_INR p).
    cbn [INR]. field. lra.
Qed.

(** ** The angular integral of the Osipkov-Merritt models *)
Definition om_w (k y : RR) : RR := sqrt (1 + k * sin y ^ 2).
Lemma om_w_arg k y : 0 <= k -> 0 < 1 + k * sin y ^ 2.
Proof. intros H. pose proof (pow2_ge_0 (sin y)). nra. Qed.
Lemma om_w_pos k y : 0 <= k -> 0 < om_w k y.
Proof. intros H. apply sqrt_lt_R0, om_w_arg, H. Qed.
Lemma om_w_sq k y : 0 <= k -> om_w k y ^ 2 = 1 + k * sin y ^ 2.
Proof. intros H. apply sqrt_sq_eq. left. apply om_w_arg, H. Qed.
Lemma om_w_d k y : 0 <= k -> is_derive (om_w k) y (k * sin y * cos y / om_w k y).
Proof.
  intros H. unfold om_w.
  assert (A : is_derive (fun y : RR => 1 + k * sin y ^ 2) y (2 * k * sin y * cos y)).
  { auto_derive; [exact I|]. rr. ring. }
  refine (is_derive_eq _ _ _ _ (d_sqrt (fun y => 1 + k * sin y ^ 2) y _ (om_w_arg k y H) A) _).
  pose proof (om_w_pos k y H) as P. unfold om_w in P. rr. field. lra.
Qed.
Lemma om_t_d k y : 0 <= k -> is_derive (fun y => - cos y / om_w k y) y ((1 + k) * sin y / om_w k y ^ 3).
Proof.
  intros H. pose proof (om_w_pos k y H) as P. pose proof (om_w_sq k y H) as Q. pose proof (om_w_d k y H) as Dw.
  assert (Dn : is_derive (fun y : RR => - cos y) y (sin y)) by (auto_derive; [exact I|rr; ring]).
  refine (is_derive_eq _ _ _ _ (d_quot (fun y => - cos y) (om_w k) y _ _ _ Dn Dw) _); [lra|].
  rr. transitivity ((sin y * om_w k y ^ 2 + k * sin y * cos y ^ 2) / om_w k y ^ 3); [field; lra|].
  rewrite Q. replace (cos y ^ 2) with (1 - sin y ^ 2) by (pose proof (sin2_cos2 y) as S; unfold Rsqr in S; cbn; lra). field. lra.
Qed.
Definition om_f (a b : nat) (t : RR) : RR := (1 - t ^ 2) ^ a * t ^ (2 * b).
Lemma om_angle_sub a b k : 0 <= k ->
  RInt (fun y => (1 + k) * sin y / om_w k y ^ 3 * om_f a b (- cos y / om_w k y)) 0 PI = RInt (om_f a b) (-1) 1.
Proof.
  intros H.
  assert (W0 : om_w k 0 = 1) by (unfold om_w; rewrite sin_0; replace (1 + k * 0 ^ 2) with 1 by ring; apply sqrt_1).
  assert (WP : om_w k PI = 1) by (unfold om_w; rewrite sin_PI; replace (1 + k * 0 ^ 2) with 1 by ring; apply sqrt_1).
  assert (E0 : - cos 0 / om_w k 0 = -1) by (rewrite W0, cos_0; field).
  assert (EP : - cos PI / om_w k PI = 1) by (rewrite WP, cos_PI; field).
  enough (G : RInt (fun y => (1 + k) * sin y / om_w k y ^ 3 * om_f a b (- cos y / om_w k y)) 0 PI =
              RInt (om_f a b) (- cos 0 / om_w k 0) (- cos PI / om_w k PI)) by (rewrite E0, EP in G; exact G).
  refine (RInt_comp (V := R_CompleteNormedModule) (om_f a b) (fun y => - cos y / om_w k y)
    (fun y => (1 + k) * sin y / om_w k y ^ 3) 0 PI _ _).
  - intros x _. apply (@ex_derive_continuous R_AbsRing R_NormedModule). unfold om_f. auto_derive. exact I.
  - intros x _. split; [exact (om_t_d k x H)|]. pose proof (om_w_pos k x H) as P.
    apply (@ex_derive_continuous R_AbsRing R_NormedModule). eexists.
    apply (d_quot (fun y => (1 + k) * sin y) (fun y => om_w k y ^ 3)).
    + apply pow_nonzero. lra.
    + apply is_derive_Rscal, is_derive_sin.
    + apply is_derive_pow, om_w_d, H.
Qed.
Theorem om_angle a b k : 0 <= k ->
  RInt (fun y => sin y ^ (2 * a + 1) * cos y ^ (2 * b) / om_w k y ^ (2 * a + 2 * b + 3)) 0 PI = KI (2 * a + 1) (2 * b) / (1 + k) ^ (a + 1).
Proof.
  intros H.
  assert (E : forall k, 0 <= k -> forall y, (1 + k) * sin y / om_w k y ^ 3 * om_f a b (- cos y / om_w k y) =
      (1 + k) ^ (a + 1) * (sin y ^ (2 * a + 1) * cos y ^ (2 * b) / om_w k y ^ (2 * a + 2 * b + 3))).
  { clear k H. intros k H y. pose proof (om_w_pos k y H) as P. pose proof (om_w_sq k y H) as Q. unfold om_f.
    replace (1 - (- cos y / om_w k y) ^ 2) with ((1 + k) * sin y ^ 2 / om_w k y ^ 2).
    2:{ transitivity ((om_w k y ^ 2 - cos y ^ 2) / om_w k y ^ 2); [|field; lra]. rewrite Q.
        replace (cos y ^ 2) with (1 - sin y ^ 2) by (pose proof (sin2_cos2 y) as S; unfold Rsqr in S; cbn; lra). f_equal. ring. }
    unfold Rdiv at 3. rewrite !Rpow_mult_distr, pow_inv. unfold Rdiv. rewrite !Rpow_mult_distr, !pow_inv, <- !pow_mult.
    replace ((- cos y) ^ (2 * b)) with (cos y ^ (2 * b)) by (rewrite !pow_mult; f_equal; ring).
    rewrite !pow_add, !pow_1. field. repeat split; try apply pow_nonzero; lra. }
  rewrite (RInt_ext _ (fun y => scal (/ (1 + k) ^ (a + 1)) ((1 + k) * sin y / om_w k y ^ 3 * om_f a b (- cos y / om_w k y)))).
  2:{ intros y _. rewrite (E k H y). unfold scal; cbn; unfold mult; cbn. rr. field. split; [apply pow_nonzero; pose proof (om_w_pos k y H); lra|apply pow_nonzero; lra]. }
  assert (X : ex_RInt (fun y => (1 + k) * sin y / om_w k y ^ 3 * om_f a b (- cos y / om_w k y)) 0 PI).
  { apply (ex_RInt_continuous (V := R_CompleteNormedModule)). intros z _. apply (@ex_derive_continuous R_AbsRing R_NormedModule).
    pose proof (om_w_pos k z H) as P. eexists. apply is_derive_Rmult.
    - apply (d_quot (fun y => (1 + k) * sin y) (fun y => om_w k y ^ 3)); [apply pow_nonzero; lra|apply is_derive_Rscal, is_derive_sin|apply is_derive_pow, om_w_d, H].
    - apply (is_derive_Rchain (om_f a b) (fun y => - cos y / om_w k y)); [|apply om_t_d, H]. apply Derive_correct. unfold om_f. auto_derive. exact I. }
  etransitivity; [exact (RInt_scal (V := R_CompleteNormedModule) _ 0 PI _ X)|].
  rewrite (om_angle_sub a b k H). rewrite <- (om_angle_sub a b 0 (Rle_refl 0)).
  unfold KI. change (/ (1 + k) ^ (a + 1) * RInt (fun y => (1 + 0) * sin y / om_w 0 y ^ 3 * om_f a b (- cos y / om_w 0 y)) 0 PI =
    RInt (fun y => sin y ^ (2 * a + 1) * cos y ^ (2 * b)) 0 PI / (1 + k) ^ (a + 1)).
  rewrite (RInt_ext (fun y => (1 + 0) * sin y / om_w 0 y ^ 3 * om_f a b (- cos y / om_w 0 y)) (fun y => sin y ^ (2 * a + 1) * cos y ^ (2 * b))).
  2:{ intros y _. rewrite (E 0 (Rle_refl 0) y). unfold om_w. replace (1 + 0 * sin y ^ 2) with 1 by ring. rewrite sqrt_1, !Rplus_0_r, !pow1. rr. field. }
  unfold Rdiv. apply Rmult_comm.
Qed.

(** ** Speed integrals *)
(** Stretching the speeds: [h] vanishes for negative arguments *)
Lemma speed_stretch (h : RR -> RR) (Psi w : RR) (p : nat) : 0 < Psi -> 1 <= w -> (forall q, q < 0 -> h q = 0) ->
  ex_RInt (fun v => v ^ p * h (Psi - 0.5 * v ^ 2)) 0 (sqrt (2 * Psi)) ->
  is_RInt (fun v => v ^ p * h (Psi - 0.5 * (w * v) ^ 2)) 0 (sqrt (2 * Psi))
    (/ w ^ (p + 1) * RInt (fun v => v ^ p * h (Psi - 0.5 * v ^ 2)) 0 (sqrt (2 * Psi))).
Proof.
  intros HP Hw Hh X. set (vm := sqrt (2 * Psi)) in *.
  assert (Vm : 0 < vm) by (apply sqrt_lt_R0; lra).
  assert (Vs : vm ^ 2 = 2 * Psi) by (apply sqrt_sq_eq; lra).
  assert (A : is_RInt (fun v => v ^ p * h (Psi - 0.5 * v ^ 2)) 0 (w * vm) (RInt (fun v => v ^ p * h (Psi - 0.5 * v ^ 2)) 0 vm)).
  { replace (RInt (fun v => v ^ p * h (Psi - 0.5 * v ^ 2)) 0 vm) with (plus (RInt (fun v => v ^ p * h (Psi - 0.5 * v ^ 2)) 0 vm) (@zero R_AbelianGroup)) by apply plus_zero_r.
    apply (is_RInt_Chasles (V := R_CompleteNormedModule)) with (b := vm); [apply (RInt_correct (V := R_CompleteNormedModule)); exact X|].
    apply (is_RInt_ext (V := R_CompleteNormedModule) (fun _ => zero)).
    - intros x Hx. assert (Le : vm <= w * vm) by nra. rewrite Rmin_left, Rmax_right in Hx by exact Le.
      rewrite Hh; [rewrite Rmult_0_r; reflexivity|]. nra.
    - pose proof (is_RInt_const (V := R_CompleteNormedModule) vm (w * vm) zero) as C. rewrite (scal_zero_r (V := R_ModuleSpace)) in C. exact C. }
  pose proof (is_RInt_comp_lin (V := R_CompleteNormedModule) (fun v => v ^ p * h (Psi - 0.5 * v ^ 2)) w 0 0 vm
    (RInt (fun v => v ^ p * h (Psi - 0.5 * v ^ 2)) 0 vm)) as C.
  rewrite Rmult_0_r, !Rplus_0_r in C. specialize (C A).
  pose proof (is_RInt_scal (V := R_CompleteNormedModule) _ 0 vm (/ w ^ (p + 1)) _ C) as D.
  refine (is_RInt_ext (V := R_CompleteNormedModule) _ _ 0 vm _ _ D).
  intros x _. cbn beta. rewrite Rplus_0_r.
  change (/ w ^ (p + 1) * (w * ((w * x) ^ p * h (Psi - 0.5 * (w * x) ^ 2))) = x ^ p * h (Psi - 0.5 * (w * x) ^ 2)).
  rewrite Rpow_mult_distr, pow_add, pow_1. field. split; [lra|apply pow_nonzero; lra].
Qed.
