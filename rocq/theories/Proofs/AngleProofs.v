(** Angles modulo full turns. *)
From Coq Require Import Reals Lra Lia ZArith.
From Coquelicot Require Import Coquelicot.
From Verif.Lib Require Import RealAux Atan2.
From Verif.Model Require Import ActionAngle.
From Verif.Spec Require Import ActionAngleSpec.
Open Scope R_scope.
Notation RR := RbaseSymbolsImpl.R (only parsing).

Lemma int_part_bounds x : IZR (Int_part x) <= x < IZR (Int_part x) + 1.
Proof. destruct (base_Int_part x). lra. Qed.
Lemma modulo_range x m : 0 < m -> 0 <= modulo x m < m.
Proof.
  intros P. unfold modulo. pose proof (int_part_bounds (x / m)) as [A B]. assert (E : x = m * (x / m)) by (field; lra). split.
  - rewrite E at 1. assert (0 <= m * (x / m - IZR (Int_part (x / m)))) by (apply Rmult_le_pos; lra). lra.
  - rewrite E at 1. assert (m * (x / m - IZR (Int_part (x / m))) < m * 1) by (apply Rmult_lt_compat_l; lra). lra.
Qed.
Lemma modulo_same x : same_angle (modulo x (2 * PI)) x.
Proof. exists (- Int_part (x / (2 * PI)))%Z. unfold modulo. rewrite opp_IZR. ring. Qed.
Lemma int_part_unique x z : IZR z <= x < IZR z + 1 -> Int_part x = z.
Proof.
  intros H. pose proof (int_part_bounds x). assert (A : (Int_part x < z + 1)%Z) by (apply lt_IZR; rewrite plus_IZR; lra).
  assert (B : (z < Int_part x + 1)%Z) by (apply lt_IZR; rewrite plus_IZR; lra). lia.
Qed.
Lemma modulo_id x m : 0 <= x < m -> modulo x m = x.
Proof.
  intros H. unfold modulo. rewrite (int_part_unique _ 0); [cbn; ring|]. assert (P : 0 < m) by lra. cbn. split.
  - apply Rmult_le_pos; [lra|apply Rlt_le, Rinv_0_lt_compat; lra].
  - apply (Rmult_lt_reg_r m); [exact P|]. unfold Rdiv. rewrite Rmult_assoc, Rinv_l by lra. lra.
Qed.
(** (x % -2 pi) % 2 pi *)
Lemma modulo_neg_id x : 0 <= x < 2 * PI -> modulo (modulo x (-2 * PI)) (2 * PI) = x.
Proof.
  intros H. pose proof PI_RGT_0 as P. destruct (Req_EM_T x 0) as [->|N].
  - assert (E : modulo 0 (-2 * PI) = 0). { unfold modulo. rewrite (int_part_unique _ 0); [cbn; ring|]. unfold Rdiv. rewrite Rmult_0_l. cbn. lra. }
    rewrite E. apply modulo_id. lra.
  - assert (E : modulo x (-2 * PI) = x - 2 * PI).
    { unfold modulo. rewrite (int_part_unique _ (-1)); [cbn; ring|]. assert (Q : x / (-2 * PI) = - (x / (2 * PI))) by (field; lra). rewrite Q.
      assert (0 < x / (2 * PI)) by (apply Rdiv_lt_0_compat; lra).
      assert (x / (2 * PI) < 1). { apply (Rmult_lt_reg_r (2 * PI)); [lra|]. unfold Rdiv. rewrite Rmult_assoc, Rinv_l by lra. lra. }
      cbn. lra. }
    rewrite E. unfold modulo. rewrite (int_part_unique _ (-1)); [cbn; ring|].
    assert (Q : (x - 2 * PI) / (2 * PI) = x / (2 * PI) - 1) by (field; lra). rewrite Q.
    assert (0 < x / (2 * PI)) by (apply Rdiv_lt_0_compat; lra).
    assert (x / (2 * PI) < 1). { apply (Rmult_lt_reg_r (2 * PI)); [lra|]. unfold Rdiv. rewrite Rmult_assoc, Rinv_l by lra. lra. }
    cbn. lra.
Qed.
Lemma same_refl a : same_angle a a.
Proof. exists 0%Z. cbn. ring. Qed.
Lemma same_sym a b : same_angle a b -> same_angle b a.
Proof. intros [k ->]. exists (- k)%Z. rewrite opp_IZR. ring. Qed.
Lemma same_trans a b c : same_angle a b -> same_angle b c -> same_angle a c.
Proof. intros [k ->] [l ->]. exists (k + l)%Z. rewrite plus_IZR. ring. Qed.
Lemma same_plus a b c d : same_angle a b -> same_angle c d -> same_angle (a + c) (b + d).
Proof. intros [k ->] [l ->]. exists (k + l)%Z. rewrite plus_IZR. ring. Qed.
Lemma same_opp a b : same_angle a b -> same_angle (- a) (- b).
Proof. intros [k ->]. exists (- k)%Z. rewrite opp_IZR. ring. Qed.
Lemma same_minus a b c d : same_angle a b -> same_angle c d -> same_angle (a - c) (b - d).
Proof. intros A B. apply same_plus; [exact A|apply same_opp; exact B]. Qed.
Lemma sin_nat x k : sin (x + 2 * PI * INR k) = sin x.
Proof. replace (x + 2 * PI * INR k) with (x + 2 * INR k * PI) by ring. apply sin_period. Qed.
Lemma cos_nat x k : cos (x + 2 * PI * INR k) = cos x.
Proof. replace (x + 2 * PI * INR k) with (x + 2 * INR k * PI) by ring. apply cos_period. Qed.
Lemma same_sin a b : same_angle a b -> sin a = sin b.
Proof.
  intros [k ->]. destruct (Z_le_dec 0 k) as [L|L].
  - rewrite <- (Z2Nat.id k L), <- INR_IZR_INZ. apply sin_nat.
  - set (n := Z.to_nat (- k)). rewrite <- (sin_nat (b + 2 * PI * IZR k) n). f_equal. unfold n. rewrite INR_IZR_INZ, Z2Nat.id by lia. rewrite opp_IZR. ring.
Qed.
Lemma same_cos a b : same_angle a b -> cos a = cos b.
Proof.
  intros [k ->]. destruct (Z_le_dec 0 k) as [L|L].
  - rewrite <- (Z2Nat.id k L), <- INR_IZR_INZ. apply cos_nat.
  - set (n := Z.to_nat (- k)). rewrite <- (cos_nat (b + 2 * PI * IZR k) n). f_equal. unfold n. rewrite INR_IZR_INZ, Z2Nat.id by lia. rewrite opp_IZR. ring.
Qed.
Lemma same_of_trig a b : cos a = cos b -> sin a = sin b -> same_angle a b.
Proof.
  intros C S0. assert (N : forall x, exists y, same_angle x y /\ - PI < y <= PI).
  { intros x. pose proof PI_RGT_0. pose proof (modulo_range x (2 * PI) ltac:(lra)) as R0. destruct (Rle_dec (modulo x (2 * PI)) PI).
    - exists (modulo x (2 * PI)). split; [apply same_sym, modulo_same|lra].
    - exists (modulo x (2 * PI) - 2 * PI). split; [|lra]. apply (same_trans _ (modulo x (2 * PI))); [apply same_sym, modulo_same|]. exists 1%Z. cbn. ring. }
  destruct (N a) as (a' & Ha & Ra). destruct (N b) as (b' & Hb & Rb).
  assert (E : a' = b'). { apply angle_unique; auto; [rewrite <- (same_cos _ _ Ha), <- (same_cos _ _ Hb)|rewrite <- (same_sin _ _ Ha), <- (same_sin _ _ Hb)]; auto. }
  apply (same_trans _ a'); [exact Ha|]. rewrite E. apply same_sym. exact Hb.
Qed.
Lemma modulo_eq x y m : 0 < m -> 0 <= y < m -> (exists k : Z, x = y + m * IZR k) -> modulo x m = y.
Proof.
  intros P H [k ->]. unfold modulo. rewrite (int_part_unique _ k); [ring|]. assert (Q : (y + m * IZR k) / m = y / m + IZR k) by (field; lra). rewrite Q.
  assert (0 <= y / m) by (apply Rmult_le_pos; [lra|apply Rlt_le, Rinv_0_lt_compat; lra]).
  assert (y / m < 1) by (apply (Rmult_lt_reg_r m); [exact P|]; unfold Rdiv; rewrite Rmult_assoc, Rinv_l by lra; lra). lra.
Qed.
Lemma modulo_same_eq x y : same_angle x y -> modulo x (2 * PI) = modulo y (2 * PI).
Proof.
  intros H. pose proof PI_RGT_0. apply modulo_eq; [lra|apply modulo_range; lra|]. apply (same_trans _ y); [exact H|]. apply same_sym, modulo_same.
Qed.
