(** The speed integrals of the closed-form spherical distribution functions. *)
From Coq Require Import Reals List ZArith Lra Lia.
From Coquelicot Require Import Coquelicot.
From Verif.Lib Require Import RealAux.
From Verif.Model Require Import SphericalDF.
From Verif.Proofs Require Import EOMProofs StaeckelProofs KuzminKutuzovProofs SphericalDFIntegrals.
Open Scope R_scope.
Notation RR := RbaseSymbolsImpl.R (only parsing).
Ltac rr := match goal with |- ?a = ?b => change (@eq RR a b) end.

Lemma cos_sq y : cos y ^ 2 = 1 - sin y ^ 2.
Proof. pose proof (sin2_cos2 y) as H. unfold Rsqr in H. cbn. lra. Qed.
Lemma sin_sq y : sin y ^ 2 = 1 - cos y ^ 2.
Proof. rewrite cos_sq. ring. Qed.

(** An even integrand *)
Lemma RInt_even (f : RR -> RR) (c : RR) : 0 <= c -> (forall x, continuous f x) -> (forall x, f (- x) = f x) -> RInt f (- c) c = 2 * RInt f 0 c.
Proof.
  intros Hc Cf Ev.
  assert (X : forall a b, ex_RInt f a b) by (intros a b; apply (ex_RInt_continuous (V := R_CompleteNormedModule)); intros; apply Cf).
  rewrite <- (RInt_Chasles (V := R_CompleteNormedModule) f (- c) 0 c (X _ _) (X _ _)).
  assert (E : RInt f (- c) 0 = RInt f 0 c).
  { pose proof (RInt_comp_lin (V := R_CompleteNormedModule) f (-1) 0 0 c) as H.
    replace (-1 * 0 + 0) with 0 in H by ring. replace (-1 * c + 0) with (- c) in H by ring. specialize (H (X _ _)).
    rewrite <- (opp_RInt_swap (V := R_CompleteNormedModule) f 0 (- c) (X _ _)). rewrite <- H.
    rewrite (RInt_ext (fun y => scal (-1) (f (-1 * y + 0))) (fun y => opp (f y))).
    - etransitivity; [apply f_equal; exact (RInt_opp (V := R_CompleteNormedModule) f 0 c (X 0 c))|]. apply opp_opp.
    - intros x _. replace (-1 * x + 0) with (- x) by ring. rewrite Ev. change (-1 * f x = - f x). ring. }
  change (RInt f (- c) 0 + RInt f 0 c = 2 * RInt f 0 c). rewrite E. ring.
Qed.

(** Power laws: the speed integral of v^2 eps^((k-3)/2) *)
Lemma speed_power (Psi : RR) (k : nat) : 0 < Psi ->
  RInt (fun v => v ^ 2 * sqrt (Psi - 0.5 * v ^ 2) ^ k) 0 (sqrt (2 * Psi)) = sqrt 2 * sqrt Psi ^ (k + 3) * KI (k + 1) 2.
Proof.
  intros HP. set (vm := sqrt (2 * Psi)). set (f := fun v => v ^ 2 * sqrt (Psi - 0.5 * v ^ 2) ^ k).
  assert (Vm : 0 < vm) by (apply sqrt_lt_R0; lra).
  assert (Vs : vm ^ 2 = 2 * Psi) by (apply sqrt_sq_eq; lra).
  assert (Cs : forall x : RR, continuous (fun v => sqrt (Psi - 0.5 * v ^ 2)) x).
  { intros x. apply (continuous_comp (fun v : RR => Psi - 0.5 * v ^ 2) sqrt); [|apply continuous_sqrt].
    apply (@ex_derive_continuous R_AbsRing R_NormedModule). auto_derive. exact I. }
  assert (Cf : forall x, continuous f x).
  { intros x. apply (continuous_mult (fun v : RR => v ^ 2) (fun v => sqrt (Psi - 0.5 * v ^ 2) ^ k)).
    - apply (@ex_derive_continuous R_AbsRing R_NormedModule). auto_derive. exact I.
    - apply (continuous_comp (fun v : RR => sqrt (Psi - 0.5 * v ^ 2)) (fun s => s ^ k)); [apply Cs|].
      apply (@ex_derive_continuous R_AbsRing R_NormedModule). auto_derive. exact I. }
  assert (Ev : forall x, f (- x) = f x) by (intros x; unfold f; replace ((- x) ^ 2) with (x ^ 2) by ring; reflexivity).
  pose proof (RInt_even f vm (Rlt_le _ _ Vm) Cf Ev) as E2.
  assert (Sub : RInt f (- vm) vm = vm ^ 3 * sqrt Psi ^ k * KI (k + 1) 2).
  { assert (G : RInt (fun y => (vm * sin y) * f (- vm * cos y)) 0 PI = RInt f (- vm) vm).
    { assert (E0 : - vm * cos 0 = - vm) by (rewrite cos_0; ring). assert (EP : - vm * cos PI = vm) by (rewrite cos_PI; ring).
      enough (G : RInt (fun y => (vm * sin y) * f (- vm * cos y)) 0 PI = RInt f (- vm * cos 0) (- vm * cos PI)) by (rewrite E0, EP in G; exact G).
      refine (RInt_comp (V := R_CompleteNormedModule) f (fun y => - vm * cos y) (fun y => vm * sin y) 0 PI _ _).
      - intros x _. apply Cf.
      - intros x _. split; [auto_derive; [exact I|rr; ring]|]. apply (@ex_derive_continuous R_AbsRing R_NormedModule). auto_derive. exact I. }
    rewrite <- G. unfold KI.
    etransitivity; [|exact (RInt_scal (V := R_CompleteNormedModule) (fun y => sin y ^ (k + 1) * cos y ^ 2) 0 PI (vm ^ 3 * sqrt Psi ^ k) (ex_sincos _ _ _ _))].
    apply RInt_ext. intros y Hy. rewrite Rmin_left, Rmax_right in Hy by (pose proof PI_RGT_0; lra).
    change (vm * sin y * f (- vm * cos y) = vm ^ 3 * sqrt Psi ^ k * (sin y ^ (k + 1) * cos y ^ 2)). unfold f.
    assert (Sy : 0 <= sin y) by (apply sin_ge_0; lra).
    replace (Psi - 0.5 * (- vm * cos y) ^ 2) with (Psi * sin y ^ 2).
    2:{ replace ((- vm * cos y) ^ 2) with (vm ^ 2 * cos y ^ 2) by ring. rewrite Vs, (sin_sq y). lra. }
    rewrite sqrt_mult by (try lra; apply pow2_ge_0). rewrite sqrt_pow2 by exact Sy. rewrite (Rpow_mult_distr (sqrt Psi)), pow_add. ring. }
  rewrite Sub in E2. change (RInt f 0 vm = sqrt 2 * sqrt Psi ^ (k + 3) * KI (k + 1) 2).
  assert (V3 : vm ^ 3 = 2 * sqrt 2 * sqrt Psi ^ 3).
  { unfold vm. rewrite sqrt_mult by lra. rewrite Rpow_mult_distr. replace (sqrt 2 ^ 3) with (2 * sqrt 2); [ring|].
    pose proof (sqrt_sq_eq 2 ltac:(lra)) as S2. replace (sqrt 2 ^ 3) with (sqrt 2 ^ 2 * sqrt 2) by ring. rewrite S2. ring. }
  rewrite V3 in E2. rewrite pow_add.
  replace (RInt f 0 vm) with (/ 2 * (2 * RInt f 0 vm)) by lra. rewrite <- E2. rr. field.
Qed.

(** ** The Hernquist integral *)
(** The shape without the quotient that is singular at zero energy *)
Definition shape2 (e : RR) : RR := sqrt e / (1 - e) ^ 2 * ((1 - 2 * e) * (8 * e ^ 2 - 8 * e - 3)) + 3 * asin (sqrt e) / sqrt (1 - e) ^ 5.
Lemma shape_eq e : 0 < e < 1 -> hernquist_shape e = shape2 e.
Proof.
  intros He. unfold hernquist_shape, shape2. rewrite sqrt_mult by lra.
  pose proof (sqrt_lt_R0 e ltac:(lra)) as P1. pose proof (sqrt_lt_R0 (1 - e) ltac:(lra)) as P2.
  pose proof (sqrt_sq_eq (1 - e) ltac:(lra)) as Q2. replace ((1 - e) ^ 2) with (sqrt (1 - e) ^ 4) by (rewrite <- Q2 at 2; ring). field. lra.
Qed.
Lemma d_asin (x : RR) : -1 < x < 1 -> is_derive asin x (/ sqrt (1 - x ^ 2)).
Proof.
  intros H. apply is_derive_Reals. replace (/ sqrt (1 - x ^ 2)) with (1 / sqrt (1 - Rsqr x)) by (rewrite Rsqr_pow2; unfold Rdiv; ring).
  apply derive_pt_eq_1 with (derivable_pt_asin x H). apply derive_pt_asin.
Qed.
Lemma shape2_cont e : e < 1 -> continuous shape2 e.
Proof.
  intros He. unfold shape2.
  assert (S1 : sqrt e < 1).
  { destruct (Rle_lt_dec e 0) as [H|H]; [rewrite sqrt_neg_0 by exact H; lra|]. rewrite <- sqrt_1. apply sqrt_lt_1; lra. }
  apply (continuous_plus (fun e => sqrt e / (1 - e) ^ 2 * ((1 - 2 * e) * (8 * e ^ 2 - 8 * e - 3))) (fun e => 3 * asin (sqrt e) / sqrt (1 - e) ^ 5)).
  - apply (continuous_ext (fun e => sqrt e * (/ (1 - e) ^ 2 * ((1 - 2 * e) * (8 * e ^ 2 - 8 * e - 3))))); [intros x; unfold Rdiv; rr; ring|].
    apply (continuous_mult sqrt (fun e => / (1 - e) ^ 2 * ((1 - 2 * e) * (8 * e ^ 2 - 8 * e - 3)))); [apply continuous_sqrt|].
    apply (@ex_derive_continuous R_AbsRing R_NormedModule). auto_derive. apply Rgt_not_eq. apply Rmult_lt_0_compat; lra.
  - apply (continuous_ext (fun e => asin (sqrt e) * (3 * / sqrt (1 - e) ^ 5))); [intros x; unfold Rdiv; rr; ring|].
    apply (continuous_mult (fun e => asin (sqrt e)) (fun e => 3 * / sqrt (1 - e) ^ 5)).
    + apply (continuous_comp sqrt asin); [apply continuous_sqrt|]. apply (@ex_derive_continuous R_AbsRing R_NormedModule).
      eexists. apply d_asin. pose proof (sqrt_pos e). lra.
    + apply (@ex_derive_continuous R_AbsRing R_NormedModule). pose proof (sqrt_lt_R0 (1 - e) ltac:(lra)).
      auto_derive. split; [lra|]. split; [|exact I]. replace (1 + - e) with (1 - e) by ring.
      apply Rgt_not_eq. change (0 < sqrt (1 - e) ^ 5). apply pow_lt. assumption.
Qed.

(** The substitution v = sqrt(2 psi0 x) cos(theta), e = x sin(theta)^2 *)
Section HernquistIntegral.
  Variable X : RR.                    (* the square root of x *)
  Hypothesis HX : 0 < X < 1.
  Let w (th : RR) : RR := sqrt (1 - X ^ 2 * sin th ^ 2).
  Lemma hw_arg th : 0 < 1 - X ^ 2 * sin th ^ 2.
  Proof. assert (sin th ^ 2 <= 1) by (rewrite sin_sq; pose proof (pow2_ge_0 (cos th)); lra). pose proof (pow2_ge_0 (sin th)). assert (X ^ 2 < 1) by nra. assert (0 < X ^ 2) by nra. nra. Qed.
  Lemma hw_pos th : 0 < w th.
  Proof. apply sqrt_lt_R0, hw_arg. Qed.
  Lemma hw_sq th : w th ^ 2 = 1 - X ^ 2 * sin th ^ 2.
  Proof. apply sqrt_sq_eq. left. apply hw_arg. Qed.
  Lemma hw_d th : is_derive w th (- X ^ 2 * sin th * cos th / w th).
  Proof.
    assert (A : is_derive (fun y : RR => 1 - X ^ 2 * sin y ^ 2) th (- 2 * X ^ 2 * sin th * cos th)) by (auto_derive; [exact I|rr; ring]).
    refine (is_derive_eq _ _ _ _ (d_sqrt (fun y => 1 - X ^ 2 * sin y ^ 2) th _ (hw_arg th) A) _).
    pose proof (hw_pos th) as P. unfold w in *. rr. field. lra.
  Qed.
  Lemma h_asin_d th : is_derive (fun y => asin (X * sin y)) th (X * cos th / w th).
  Proof.
    assert (B : -1 < X * sin th < 1) by (pose proof (SIN_bound th); nra).
    assert (A : is_derive (fun y : RR => X * sin y) th (X * cos th)) by (auto_derive; [exact I|rr; ring]).
    refine (is_derive_eq _ _ _ _ (is_derive_Rchain asin (fun y => X * sin y) th _ _ (d_asin (X * sin th) B) A) _).
    pose proof (hw_pos th) as P. unfold w in *. replace ((X * sin th) ^ 2) with (X ^ 2 * sin th ^ 2) by ring. rr. field. lra.
  Qed.
  Lemma h_H_d th : is_derive (fun y => cos y ^ 3 / w y ^ 3) th (- 3 * (1 - X ^ 2) * cos th ^ 2 * sin th / w th ^ 5).
  Proof.
    pose proof (hw_pos th) as P.
    refine (is_derive_eq _ _ _ _ (d_quot (fun y => cos y ^ 3) (fun y => w y ^ 3) th _ _ _ (is_derive_pow cos 3 th _ (is_derive_cos th)) (is_derive_pow w 3 th _ (hw_d th))) _).
    { apply pow_nonzero; lra. }
    cbn [INR Init.Nat.pred]. rr.
    transitivity (3 * cos th ^ 2 * sin th * (X ^ 2 * cos th ^ 2 - w th ^ 2) / w th ^ 5); [field; lra|].
    rewrite hw_sq, cos_sq. field. lra.
  Qed.
  (** The antiderivative *)
  Let k := 1 - X ^ 2.
  Let s2 (th : RR) := th / 2 - sin th * cos th / 2.
  Let s4 (th : RR) := 3 * th / 8 - 3 * (sin th * cos th) / 8 - sin th ^ 3 * cos th / 4.
  Let s6 (th : RR) := 5 * th / 16 - 5 * (sin th * cos th) / 16 - 5 * (sin th ^ 3 * cos th) / 24 - sin th ^ 5 * cos th / 6.
  Let rest (th : RR) := X ^ 2 * (sin th * cos th) / (1 - X ^ 2 * sin th ^ 2)
     + (26 * k - 1 + / k) * th + (-26 - 40 * k) * (th - X ^ 2 * s2 th)
     + (40 + 16 * k) * (th - 2 * X ^ 2 * s2 th + X ^ 4 * s4 th)
     - 16 * (th - 3 * X ^ 2 * s2 th + 3 * X ^ 4 * s4 th - X ^ 6 * s6 th).
  Let q (th : RR) := X ^ 2 * sin th ^ 2.
  Lemma h_rest_d th : is_derive rest th
    (X ^ 4 * cos th ^ 2 * sin th ^ 2 * ((1 - 2 * q th) * (8 * q th ^ 2 - 8 * q th - 3)) / (1 - q th) ^ 2
     + X ^ 4 * cos th ^ 4 / (k * (1 - q th) ^ 2)).
  Proof.
    pose proof (hw_arg th) as P. assert (K : 0 < k) by (unfold k; nra).
    unfold rest, s2, s4, s6. auto_derive; [lra|]. unfold q.
    replace (cos th ^ 4) with ((1 - sin th ^ 2) ^ 2) by (rewrite <- cos_sq; ring).
    rewrite cos_sq.
    assert (C2 : cos th * cos th = 1 - sin th ^ 2) by (rewrite <- cos_sq; ring).
    set (s := sin th) in *. set (c := cos th) in *. rr.
    replace (1 * c * c) with (1 - s ^ 2) by lra.
    replace (1 * c * ((1 + 1 + 1) * s ^ 2) * c) with (3 * s ^ 2 * (1 - s ^ 2)) by (rewrite <- C2; ring).
    replace (1 * c * ((1 + 1 + 1 + 1 + 1) * s ^ 4) * c) with (5 * s ^ 4 * (1 - s ^ 2)) by (rewrite <- C2; ring).
    match goal with |- context [X ^ 2 * (s * c) * (- - (X ^ 2 * (1 * c * ((1 + 1) * s ^ 1))) * ?D)] =>
      replace (X ^ 2 * (s * c) * (- - (X ^ 2 * (1 * c * ((1 + 1) * s ^ 1))) * D)) with (2 * X ^ 4 * s ^ 2 * (1 - s ^ 2) * D) by (rewrite <- C2; ring) end.
    unfold k in *. field. repeat split; lra.
  Qed.
  Let B := fun th => cos th ^ 3 / w th ^ 3.
  Let G (th : RR) := - (X ^ 3 / k) * (asin (X * sin th) * B th) + rest th.
  Definition h_int (th : RR) : RR := X ^ 3 * (cos th ^ 2 * sin th) * shape2 (X ^ 2 * sin th ^ 2).
  Lemma h_G_d th : 0 <= sin th -> is_derive G th (h_int th).
  Proof.
    intros Sn. pose proof (hw_pos th) as P. pose proof (hw_sq th) as Q. assert (K : 0 < k) by (unfold k; nra).
    pose proof (is_derive_Rplus _ _ th _ _ (is_derive_Rscal _ th (- (X ^ 3 / k)) _ (is_derive_Rmult _ _ th _ _ (h_asin_d th) (h_H_d th))) (h_rest_d th)) as D.
    refine (is_derive_eq _ _ _ _ D _). rr. unfold h_int, shape2.
    replace (sqrt (X ^ 2 * sin th ^ 2)) with (X * sin th).
    2:{ replace (X ^ 2 * sin th ^ 2) with ((X * sin th) ^ 2) by ring. rewrite sqrt_pow2; [reflexivity|nra]. }
    fold (w th). unfold q. rewrite <- Q. fold k. field. lra.
  Qed.
  Theorem hernquist_theta : RInt h_int 0 (PI / 2) = PI / 2 * X ^ 8 / (1 - X ^ 2).
  Proof.
    assert (K : 0 < k) by (unfold k; nra). pose proof PI_RGT_0 as Pi.
    assert (Bd : forall th, Rmin 0 (PI / 2) <= th <= Rmax 0 (PI / 2) -> 0 <= sin th).
    { intros th H. rewrite Rmin_left, Rmax_right in H by lra. apply sin_ge_0; lra. }
    rewrite (is_RInt_unique (V := R_CompleteNormedModule) h_int 0 (PI / 2) (minus (G (PI / 2)) (G 0))).
    2:{ apply (is_RInt_derive (V := R_CompleteNormedModule) G h_int); [intros th H; apply h_G_d, Bd, H|].
      intros th H. unfold h_int.
      apply (continuous_mult (fun th => X ^ 3 * (cos th ^ 2 * sin th)) (fun th => shape2 (X ^ 2 * sin th ^ 2))).
      - apply (@ex_derive_continuous R_AbsRing R_NormedModule). auto_derive. exact I.
      - apply (continuous_comp (fun th : RR => X ^ 2 * sin th ^ 2) shape2).
        + apply (@ex_derive_continuous R_AbsRing R_NormedModule). auto_derive. exact I.
        + apply shape2_cont. pose proof (hw_arg th). lra. }
    change (G (PI / 2) - G 0 = PI / 2 * X ^ 8 / (1 - X ^ 2)). unfold G, B, rest, s2, s4, s6.
    rewrite sin_PI2, cos_PI2, sin_0, cos_0. replace (X * 0) with 0 by ring. rewrite asin_0.
    assert (W : w (PI / 2) <> 0) by (pose proof (hw_pos (PI / 2)); lra). assert (W0 : w 0 <> 0) by (pose proof (hw_pos 0); lra).
    replace (0 ^ 3 / w (PI / 2) ^ 3) with 0 by (field; exact W). unfold k in *. field. 
    split; lra.
  Qed.
End HernquistIntegral.

Lemma sqrt2_3 (p : RR) : 0 < p -> sqrt (2 * p) ^ 3 = 2 * sqrt 2 * sqrt p ^ 3.
Proof.
  intros H. rewrite sqrt_mult by lra. rewrite Rpow_mult_distr. pose proof (sqrt_sq_eq 2 ltac:(lra)) as S2.
  replace (sqrt 2 ^ 3) with (sqrt 2 ^ 2 * sqrt 2) by ring. rewrite S2. ring.
Qed.
Theorem hernquist_speed (psi0 x : RR) : 0 < psi0 -> 0 < x < 1 ->
  is_RInt (fun v => v ^ 2 * hernquist_shape (x - 0.5 * v ^ 2 / psi0)) 0 (sqrt (2 * (psi0 * x)))
    (2 * sqrt 2 * sqrt psi0 ^ 3 * (PI / 2 * x ^ 4 / (1 - x))).
Proof.
  intros Hp Hx. pose proof PI_RGT_0 as Pi. set (vm := sqrt (2 * (psi0 * x))). set (X := sqrt x).
  assert (HX : 0 < X < 1) by (split; [apply sqrt_lt_R0; lra|unfold X; rewrite <- sqrt_1; apply sqrt_lt_1; lra]).
  assert (X2 : X ^ 2 = x) by (apply sqrt_sq_eq; lra).
  assert (Vm : 0 < vm) by (apply sqrt_lt_R0; nra).
  assert (Vs : vm ^ 2 = 2 * (psi0 * x)) by (apply sqrt_sq_eq; nra).
  set (f := fun v => v ^ 2 * shape2 (x - 0.5 * v ^ 2 / psi0)).
  assert (Cf : forall v, continuous f v).
  { intros v. apply (continuous_mult (fun v => v ^ 2) (fun v => shape2 (x - 0.5 * v ^ 2 / psi0))).
    - apply (@ex_derive_continuous R_AbsRing R_NormedModule). auto_derive. exact I.
    - apply (continuous_comp (fun v => x - 0.5 * v ^ 2 / psi0) shape2).
      + apply (@ex_derive_continuous R_AbsRing R_NormedModule). auto_derive. exact I.
      + apply shape2_cont. assert (0 <= 0.5 * v ^ 2 / psi0); [|lra]. apply Rdiv_le_0_compat; [|lra]. pose proof (pow2_ge_0 v). lra. }
  apply (is_RInt_ext (V := R_CompleteNormedModule) f).
  { intros v Hv. rewrite Rmin_left, Rmax_right in Hv by lra. unfold f. rewrite shape_eq; [reflexivity|].
    assert (v ^ 2 < 2 * (psi0 * x)) by (rewrite <- Vs; nra). assert (0 < v ^ 2) by nra.
    assert (0.5 * v ^ 2 / psi0 < x) by (apply Rmult_lt_reg_r with psi0; [lra|]; replace (0.5 * v ^ 2 / psi0 * psi0) with (0.5 * v ^ 2) by (field; lra); lra).
    assert (0 < 0.5 * v ^ 2 / psi0) by (apply Rdiv_lt_0_compat; lra). lra. }
  assert (Ex : ex_RInt f 0 vm) by (apply (ex_RInt_continuous (V := R_CompleteNormedModule)); intros; apply Cf).
  replace (2 * sqrt 2 * sqrt psi0 ^ 3 * (PI / 2 * x ^ 4 / (1 - x))) with (RInt f 0 vm); [apply (RInt_correct (V := R_CompleteNormedModule)), Ex|].
  assert (G : RInt (fun y => (- vm * sin y) * f (vm * cos y)) (PI / 2) 0 = RInt f 0 vm).
  { assert (E0 : vm * cos (PI / 2) = 0) by (rewrite cos_PI2; ring). assert (EP : vm * cos 0 = vm) by (rewrite cos_0; ring).
    enough (G : RInt (fun y => (- vm * sin y) * f (vm * cos y)) (PI / 2) 0 = RInt f (vm * cos (PI / 2)) (vm * cos 0)) by (rewrite E0, EP in G; exact G).
    refine (RInt_comp (V := R_CompleteNormedModule) f (fun y => vm * cos y) (fun y => - vm * sin y) (PI / 2) 0 _ _).
    - intros y _. apply Cf.
    - intros y _. split; [auto_derive; [exact I|rr; ring]|]. apply (@ex_derive_continuous R_AbsRing R_NormedModule). auto_derive. exact I. }
  rewrite <- G. 
  assert (V3 : vm ^ 3 = 2 * sqrt 2 * sqrt psi0 ^ 3 * X ^ 3).
  { unfold vm. rewrite sqrt2_3 by nra. rewrite sqrt_mult by lra. rewrite Rpow_mult_distr. fold X. ring. }
  assert (Eh : forall y, - vm * sin y * f (vm * cos y) = opp (scal (2 * sqrt 2 * sqrt psi0 ^ 3) (h_int X y))).
  { intros y. change (- vm * sin y * f (vm * cos y) = - (2 * sqrt 2 * sqrt psi0 ^ 3 * h_int X y)). unfold f, h_int.
    replace (x - 0.5 * (vm * cos y) ^ 2 / psi0) with (X ^ 2 * sin y ^ 2).
    2:{ replace ((vm * cos y) ^ 2) with (vm ^ 2 * cos y ^ 2) by ring. rewrite Vs, X2, cos_sq. replace 0.5 with (1 / 2) by lra. field. lra. }
    replace (- vm * sin y * ((vm * cos y) ^ 2 * shape2 (X ^ 2 * sin y ^ 2))) with (- (vm ^ 3 * (cos y ^ 2 * sin y * shape2 (X ^ 2 * sin y ^ 2)))) by ring.
    rewrite V3. ring. }
  assert (Ch : forall y, continuous (h_int X) y).
  { intros y. unfold h_int. apply (continuous_mult (fun th => X ^ 3 * (cos th ^ 2 * sin th)) (fun th => shape2 (X ^ 2 * sin th ^ 2))).
    - apply (@ex_derive_continuous R_AbsRing R_NormedModule). auto_derive. exact I.
    - apply (continuous_comp (fun th : RR => X ^ 2 * sin th ^ 2) shape2).
      + apply (@ex_derive_continuous R_AbsRing R_NormedModule). auto_derive. exact I.
      + apply shape2_cont. pose proof (hw_arg X HX y). lra. }
  assert (Xh : forall a b, ex_RInt (h_int X) a b) by (intros; apply (ex_RInt_continuous (V := R_CompleteNormedModule)); intros; apply Ch).
  rewrite (RInt_ext _ _ _ _ (fun y _ => Eh y)).
  etransitivity; [exact (RInt_opp (V := R_CompleteNormedModule) _ _ _ (ex_RInt_scal _ _ _ _ (Xh (PI / 2) 0)))|].
  rewrite (opp_RInt_swap (V := R_CompleteNormedModule) _ (PI / 2) 0) by (apply ex_RInt_scal, Xh).
  etransitivity; [exact (RInt_scal (V := R_CompleteNormedModule) _ _ _ _ (Xh _ _))|].
  rewrite (hernquist_theta X HX). change (scal ?a ?b) with (a * b).
  replace (X ^ 8) with ((X ^ 2) ^ 4) by ring. rewrite X2. reflexivity.
Qed.
