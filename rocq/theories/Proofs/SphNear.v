(** The second derivatives of an expansion close to the axis. *)
From Coq Require Import Reals Lra Lia Arith List.
From Coquelicot Require Import Coquelicot.
From Verif.Lib Require Import RealAux Atan2.
From Verif.Model Require Import Coords PotAPI SphHarm.
From Verif.Proofs Require Import PotLift AxiProofs NonAxiProofs Gegenbauer SphRadial SphAngular SphCyl SphMass.
Open Scope R_scope.
Notation RR := RbaseSymbolsImpl.R (only parsing).
Ltac rr := match goal with |- ?a = ?b => change (@eq RR a b) end.

Section Near.
  Let A : RR -> coefs := fun _ _ l m => if andb (Nat.eqb l 1) (Nat.eqb m 0) then 1 else 0.
  Let B : RR -> coefs := fun _ _ _ _ => 0.
  Let h : RR := NN 1 0.
  Lemma only f phi t : sum3 1 2 2 (fun n l m => cos_sin A B phi t n l m * f n l m) = h * f 0%nat 1%nat 0%nat.
  Proof using.
    unfold sum3, sum1, cos_sin, Acos, Asin, A, B. cbn [Nat.eqb andb]. fold h. change (INR 0) with 0. rewrite (Rmult_0_l phi), cos_0, sin_0. rr. ring.
  Qed.
  Lemma l1 x : lpm 1 0 x = x. Proof using. rewrite lpm0. cbn [geg]. rr. field. Qed.
  Lemma l2 x : dlpm 1 0 x = 1. Proof using. unfold dlpm. cbn [Nat.leb Nat.sub odd_fact pow geg]. change (INR 0) with 0. unfold Rdiv. rr. ring. Qed.
  Lemma l3 x : d2lpm 1 0 x = 0. Proof using. unfold d2lpm. cbn [Nat.leb]. rewrite l1, l2. change (INR 0) with 0. change (INR 1) with 1. unfold Rdiv. rr. ring. Qed.
  Let k : RR := sqrt (4 * PI).
  Lemma f0h : phiTilde 1 (/ 2) 0 1 = - k * (4 / 27).
  Proof using. unfold phiTilde. destruct (Req_EM_T (/ 2) 0) as [Z|_]; [exfalso; lra|]. unfold CC. cbn [geg Nat.mul Nat.add pow]. fold k. clearbody k. rr. field. Qed.
  Lemma f1h : dphiTilde 1 (/ 2) 0 1 = 0.
  Proof using. unfold dphiTilde, CC, dCC. cbn [geg Nat.mul Nat.add pow]. fold k. clearbody k. change (INR 1) with 1. rr. field. Qed.
  Lemma f2h : d2phiTilde 1 (/ 2) 0 1 = k * (32 / 81).
  Proof using. unfold d2phiTilde. cbv zeta. destruct (Req_EM_T (/ 2) 0) as [Z|_]; [exfalso; lra|]. unfold CC, dCC, d2CC. cbn [geg Nat.mul Nat.add pow]. fold k. clearbody k. change (INR 1) with 1. rr. field. Qed.
  Variables s c : RR.
  Hypothesis Hs : 0 < s <= 2 / 10 ^ 9.
  Hypothesis Hc : 1 - / 10 ^ 15 <= c < 1.
  Hypothesis Hsc : s ^ 2 + c ^ 2 = 1.
  Lemma r_half : rad (s / 2) (c / 2) = / 2.
  Proof using Hsc. unfold rad. replace ((s / 2) ^ 2 + (c / 2) ^ 2) with ((/ 2) ^ 2). { apply sqrt_pow2. lra. } replace ((s / 2) ^ 2 + (c / 2) ^ 2) with ((s ^ 2 + c ^ 2) / 4) by field. rewrite Hsc. field. Qed.
  Let x0 : RR := 1 - / 10 ^ 7.
  Let s0 : RR := sqrt (1 - x0 ^ 2).
  Lemma cosh : cos (tht (s / 2) (c / 2)) = c. Proof using Hs Hsc. rewrite cos_tht by lra. rewrite r_half. field. Qed.
  Lemma sinh : sin (tht (s / 2) (c / 2)) = s. Proof using Hs Hsc. rewrite sin_tht by lra. rewrite r_half. field. Qed.
  Lemma s3c f g phi t : (forall n l m, f n l m = cos_sin A B phi t n l m * g n l m) -> sum3 1 2 2 f = h * g 0%nat 1%nat 0%nat.
  Proof using. intros E. rewrite <- (only g phi t). apply s3_ext. exact E. Qed.
  Lemma true_val : pure_cyl 1 2 2 1 A B dz2 (s / 2) (c / 2) 0 0 = h * k * c * (32 / 81 * c ^ 2 + 16 / 9 * s ^ 2).
  Proof using Hs Hc Hsc.
    unfold pure_cyl, pure2. cbn [Phi_rr Phi_r Phi_rt Phi_tt Phi_t]. rewrite r_half.
    rewrite (s3c _ (fun n l m => th0 l m (tht (s / 2) (c / 2)) * d2phiTilde 1 (/ 2) n l) 0 0) by (intros; rr; ring).
    rewrite (s3c _ (fun n l m => th0 l m (tht (s / 2) (c / 2)) * dphiTilde 1 (/ 2) n l) 0 0) by (intros; rr; ring).
    rewrite (s3c _ (fun n l m => th1 l m (tht (s / 2) (c / 2)) * dphiTilde 1 (/ 2) n l) 0 0) by (intros; rr; ring).
    rewrite (s3c _ (fun n l m => th2 l m (tht (s / 2) (c / 2)) * phiTilde 1 (/ 2) n l) 0 0) by (intros; rr; ring).
    rewrite (s3c _ (fun n l m => th1 l m (tht (s / 2) (c / 2)) * phiTilde 1 (/ 2) n l) 0 0) by (intros; rr; ring).
    unfold th0, th1, th2. rewrite cosh, sinh, l1, l2, l3, f0h, f1h, f2h. clearbody h k. rr. field.
  Qed.
  Lemma code_val : cyl_2nd 1 2 2 1 A B dz2 (s / 2) (c / 2) 0 0 = h * k * (32 / 81 * c ^ 2 * x0 + 16 / 27 * s ^ 2 * x0 + 32 / 27 * s * c * s0).
  Proof using Hs Hc Hsc.
    unfold cyl_2nd. cbv zeta. assert (Q : s / 2 * (s / 2) + c / 2 * (c / 2) = (/ 2) ^ 2). { replace (s / 2 * (s / 2) + c / 2 * (c / 2)) with ((s ^ 2 + c ^ 2) / 4) by field. rewrite Hsc. field. } rewrite Q. rewrite sqrt_pow2 by lra. destruct (Req_EM_T (/ 2) 0) as [Z|_]; [exfalso; lra|].
    unfold spher_2nd, cyl_to_spher. fold (rad (s / 2) (c / 2)). fold (tht (s / 2) (c / 2)). rewrite r_half. destruct (Req_EM_T (/ 2) 0) as [Z|_]; [exfalso; lra|].
    assert (NP : near_pole 2 (tht (s / 2) (c / 2)) = true). { unfold near_pole. cbn [Nat.ltb Nat.leb]. rewrite cosh. destruct (Rlt_dec _ _) as [_|Z]; [reflexivity|exfalso; apply Z]. replace (1 - c * c) with (s ^ 2) by (simpl in *; lra). rewrite Rabs_pos_eq by apply pow2_ge_0. apply Rle_lt_trans with ((2 / 10 ^ 9) ^ 2); [apply pow_incr; lra|lra]. }
    rewrite NP. rewrite cosh. assert (SG : sgn c = 1) by (unfold sgn; destruct (Rlt_dec 0 c); [reflexivity|exfalso; lra]). rewrite SG, Rmult_1_l. fold x0. fold s0. cbv zeta. cbn [Phi_rr Phi_r Phi_rt Phi_tt Phi_t].
    rewrite (s3c _ (fun n l m => lpm l m x0 * d2phiTilde 1 (/ 2) n l) 0 0) by (intros; rr; ring).
    rewrite (s3c _ (fun n l m => lpm l m x0 * dphiTilde 1 (/ 2) n l) 0 0) by (intros; rr; ring).
    rewrite (s3c _ (fun n l m => dlpm l m x0 * - s0 * dphiTilde 1 (/ 2) n l) 0 0) by (intros; rr; ring).
    rewrite (s3c _ (fun n l m => (d2lpm l m x0 * s0 ^ 2 - dlpm l m x0 * x0) * phiTilde 1 (/ 2) n l) 0 0) by (intros; rr; ring).
    rewrite (s3c _ (fun n l m => dlpm l m x0 * - s0 * phiTilde 1 (/ 2) n l) 0 0) by (intros; rr; ring).
    rewrite l1, l2, l3, f0h, f1h, f2h. clearbody h k s0 x0. rr. field.
  Qed.
  Lemma differ : cyl_2nd 1 2 2 1 A B dz2 (s / 2) (c / 2) 0 0 <> pure_cyl 1 2 2 1 A B dz2 (s / 2) (c / 2) 0 0.
  Proof using Hs Hc Hsc.
    rewrite code_val, true_val. assert (K : 0 < k) by (apply sqrt_lt_R0; pose proof PI_RGT_0; lra).
    assert (H : 0 < h). { unfold h, NN. cbn [Nat.leb Nat.eqb Nat.sub Nat.add fact Nat.mul]. rewrite Rmult_1_r. apply sqrt_lt_R0. pose proof PI_RGT_0. change (INR 1) with 1. unfold Rdiv. apply Rmult_lt_0_compat; [|lra]. apply Rmult_lt_0_compat; [lra|]. apply Rinv_0_lt_compat. lra. }
    assert (S0 : 0 <= s0 <= 1). { split; [apply sqrt_pos|]. unfold s0. rewrite <- sqrt_1. apply sqrt_le_1_alt. pose proof (pow2_ge_0 x0). rewrite sqrt_1 || idtac. lra. }
    intros E. rewrite (Rmult_assoc (h * k) c) in E. apply Rmult_eq_reg_l in E; [|apply Rgt_not_eq, Rmult_lt_0_compat; assumption].
    assert (X : x0 = 1 - / 10 ^ 7) by reflexivity. clearbody h k s0 x0. subst x0.
    assert (C2 : 9 / 10 <= c ^ 2 <= 1) by (split; nra). assert (SS : 0 <= s ^ 2 <= / 10 ^ 9) by (split; [apply pow2_ge_0|simpl; nra]).
    assert (W : 0 <= s * c * s0 <= 2 / 10 ^ 9). { assert (0 <= s * c <= 2 / 10 ^ 9) by (split; nra). split; nra. }
    set (w := s * c * s0) in *. replace (32 / 27 * s * c * s0) with (32 / 27 * w) in E by (unfold w; ring). clearbody w. set (p := c ^ 2) in *. set (q := s ^ 2) in *. clearbody p q.
    assert (LC : c * (32 / 81 * p + 16 / 9 * q) >= (1 - / 10 ^ 15) * (32 / 81 * p + 16 / 9 * q)) by (apply Rle_ge, Rmult_le_compat_r; lra). lra.
  Qed.
End Near.
