(** Gegenbauer polynomials: derivative and differential equation from the three-term recurrence. *)
From Coq Require Import Reals Lra Lia Arith.
From Coquelicot Require Import Coquelicot.
From Verif.Lib Require Import RealAux.
From Verif.Model Require Import SphHarm.
Open Scope R_scope.
Notation RR := RbaseSymbolsImpl.R (only parsing).
Ltac rr := match goal with |- ?a = ?b => change (@eq RR a b) end.

Lemma geg_rec a x n : (INR n + 2) * geg a x (S (S n)) = 2 * (INR n + 1 + a) * x * geg a x (S n) - (INR n + 2 * a) * geg a x n.
Proof.
  change (geg a x (S (S n))) with ((2 * (INR (S n) + a) * x * geg a x (S n) - (INR (S n) + 2 * a - 1) * geg a x n) / (INR (S n) + 1)).
  rewrite S_INR. pose proof (pos_INR n). set (u := geg a x (S n)). set (v := geg a x n). clearbody u v. field. lra.
Qed.
(** C_(n-1) and C_(n-2), zero for negative indices *)
Definition g1 (a x : RR) (n : nat) : RR := match n with O => 0 | S k => geg a x k end.
Definition g2 (a x : RR) (n : nat) : RR := match n with O => 0 | S O => 0 | S (S k) => geg a x k end.
Lemma rec_shift a x n : INR n * geg (a + 1) x n + (INR n + 2 * a) * g2 (a + 1) x n = 2 * (INR n + a) * x * g1 (a + 1) x n.
Proof.
  destruct n as [|[|n]]; cbn [g1 g2].
  - simpl. ring.
  - simpl. ring.
  - pose proof (geg_rec (a + 1) x n) as E. rewrite !S_INR. replace (INR n + 1 + 1) with (INR n + 2) by ring. rewrite E. set (u := geg _ _ (S n)). ring.
Qed.
Section Par.
  Variables (a x : RR).
  Hypothesis Ha : 0 < a.
  Lemma lower n : (INR n + a) * geg a x n = a * (geg (a + 1) x n - g2 (a + 1) x n).
  Proof using Ha.
    assert (P : (INR n + a) * geg a x n = a * (geg (a + 1) x n - g2 (a + 1) x n) /\ (INR (S n) + a) * geg a x (S n) = a * (geg (a + 1) x (S n) - g2 (a + 1) x (S n))); [|apply P].
    induction n as [|n [IH1 IH2]]; [simpl; split; ring|]. split; [exact IH2|].
    pose proof (pos_INR n) as N0. pose proof (geg_rec a x n) as E. pose proof (rec_shift a x n) as R0. pose proof (geg_rec (a + 1) x n) as R2. cbn [g2] in *.
    assert (R1 : (INR n + 2) * geg (a + 1) x (S (S n)) = 2 * (INR n + 2 + a) * x * geg (a + 1) x (S n) - (INR n + 2 * a + 2) * geg (a + 1) x n) by (rewrite R2; ring). clear R2.
    rewrite !S_INR in *. set (A0 := geg a x n) in *. set (A1 := geg a x (S n)) in *. set (A2 := geg a x (S (S n))) in *. set (B0 := geg (a + 1) x n) in *. set (B1 := geg (a + 1) x (S n)) in *. set (B2 := geg (a + 1) x (S (S n))) in *.
    assert (E2 : match n with O => 0 | S k => geg (a + 1) x k end = g1 (a + 1) x n) by reflexivity. rewrite E2 in *. clear E2. set (Bm := g1 (a + 1) x n) in *. set (Bmm := g2 (a + 1) x n) in *. clearbody A0 A1 A2 B0 B1 B2 Bm Bmm. set (q := INR n) in *. clearbody q.
    replace (q + 1 + 1) with (q + 2) by ring.
    apply (Rmult_eq_reg_l ((q + 2) * (q + a))); [|apply Rmult_integral_contrapositive_currified; lra].
    replace ((q + 2) * (q + a) * ((q + 2 + a) * A2)) with ((q + 2 + a) * (q + a) * ((q + 2) * A2)) by ring. rewrite E.
    replace ((q + 2 + a) * (q + a) * (2 * (q + 1 + a) * x * A1 - (q + 2 * a) * A0)) with ((q + 2 + a) * (q + a) * 2 * x * ((q + 1 + a) * A1) - (q + 2 + a) * (q + 2 * a) * ((q + a) * A0)) by ring. rewrite IH1, IH2.
    replace ((q + 2) * (q + a) * (a * (B2 - B0))) with (a * (q + a) * ((q + 2) * B2) - (q + 2) * (q + a) * a * B0) by ring. rewrite R1.
    replace ((q + 2 + a) * (q + a) * 2 * x * (a * (B1 - Bm)) - (q + 2 + a) * (q + 2 * a) * (a * (B0 - Bmm))) with ((q + 2 + a) * (q + a) * 2 * x * a * B1 - (q + 2 + a) * a * (2 * (q + a) * x * Bm) - (q + 2 + a) * (q + 2 * a) * (a * (B0 - Bmm))) by ring. rewrite <- R0. ring.
  Qed.
  Lemma F1 n : INR n * geg a x n = 2 * a * (x * g1 (a + 1) x n - g2 (a + 1) x n).
  Proof using Ha.
    pose proof (lower n) as L. pose proof (rec_shift a x n) as R0. pose proof (pos_INR n). apply (Rmult_eq_reg_l (INR n + a)); [|lra].
    replace ((INR n + a) * (INR n * geg a x n)) with (INR n * ((INR n + a) * geg a x n)) by ring. rewrite L. replace ((INR n + a) * (2 * a * (x * g1 (a + 1) x n - g2 (a + 1) x n))) with (a * (2 * (INR n + a) * x * g1 (a + 1) x n) - 2 * a * (INR n + a) * g2 (a + 1) x n) by ring. rewrite <- R0. ring.
  Qed.
  Lemma F2 n : (INR n + 2 * a) * geg a x n = 2 * a * (geg (a + 1) x n - x * g1 (a + 1) x n).
  Proof using Ha.
    pose proof (lower n) as L. pose proof (rec_shift a x n) as R0. pose proof (pos_INR n). apply (Rmult_eq_reg_l (INR n + a)); [|lra].
    replace ((INR n + a) * ((INR n + 2 * a) * geg a x n)) with ((INR n + 2 * a) * ((INR n + a) * geg a x n)) by ring. rewrite L. replace ((INR n + a) * (2 * a * (geg (a + 1) x n - x * g1 (a + 1) x n))) with (2 * a * (INR n + a) * geg (a + 1) x n - a * (2 * (INR n + a) * x * g1 (a + 1) x n)) by ring. rewrite <- R0. ring.
  Qed.
End Par.
Lemma d_geg a x n : 0 < a -> is_derive (fun y => geg a y n) x (2 * a * g1 (a + 1) x n).
Proof.
  intros Ha. assert (P : is_derive (fun y => geg a y n) x (2 * a * g1 (a + 1) x n) /\ is_derive (fun y => geg a y (S n)) x (2 * a * g1 (a + 1) x (S n))); [|apply P].
  induction n as [|n [IH1 IH2]].
  - split; [simpl; refine (is_derive_eq _ _ _ _ (is_derive_const (V := R_NormedModule) _ _) _); change (0 = 2 * a * 0); ring|]. simpl. auto_derive; [exact I|]. rr. ring.
  - split; [exact IH2|]. pose proof (pos_INR n) as N0.
    assert (D : is_derive (fun y => / (INR n + 2) * (2 * (INR n + 1 + a) * (y * geg a y (S n)) - (INR n + 2 * a) * geg a y n)) x (/ (INR n + 2) * (2 * (INR n + 1 + a) * (1 * geg a x (S n) + x * (2 * a * g1 (a + 1) x (S n))) - (INR n + 2 * a) * (2 * a * g1 (a + 1) x n)))).
    { apply is_derive_Rscal. apply (is_derive_minus (V := R_NormedModule) (fun y => 2 * (INR n + 1 + a) * (y * geg a y (S n))) (fun y => (INR n + 2 * a) * geg a y n)); [|apply is_derive_Rscal; exact IH1]. apply is_derive_Rscal. apply is_derive_Rmult; [apply (is_derive_id (K := R_AbsRing))|exact IH2]. }
    apply (is_derive_ext _ (fun y => geg a y (S (S n)))) in D.
    + refine (is_derive_eq _ _ _ _ D _). pose proof (lower a x Ha (S n)) as L. pose proof (rec_shift a x (S n)) as R0. cbn [g1] in *. cbn [g2] in *. rewrite S_INR in *. assert (E2 : match n with O => 0 | S k => geg (a + 1) x k end = g1 (a + 1) x n) by reflexivity. rewrite E2 in *.
      set (A1 := geg a x (S n)) in *. change (match n with O => 2 * (a + 1) * x | S j => (2 * (match n with O => 1 | S _ => INR n + 1 end + (a + 1)) * x * geg (a + 1) x n - (match n with O => 1 | S _ => INR n + 1 end + 2 * (a + 1) - 1) * geg (a + 1) x j) / (match n with O => 1 | S _ => INR n + 1 end + 1) end) with (geg (a + 1) x (S n)) in *.
      set (B1 := geg (a + 1) x (S n)) in *. set (B0 := geg (a + 1) x n) in *. set (Bm := g1 (a + 1) x n) in *. clearbody A1 B1 B0 Bm. set (q := INR n) in *. clearbody q.
      apply (Rmult_eq_reg_l (q + 2)); [|lra]. rewrite <- Rmult_assoc, Rinv_r, Rmult_1_l by lra.
      replace (2 * (q + 1 + a) * (1 * A1 + x * (2 * a * B0)) - (q + 2 * a) * (2 * a * Bm)) with (2 * ((q + 1 + a) * A1) + 2 * a * (2 * (q + 1 + a) * x * B0) - (q + 2 * a) * (2 * a * Bm)) by ring. rewrite L, <- R0. rr. ring.
    + intros y. rr. apply (Rmult_eq_reg_l (INR n + 2)); [|lra]. rewrite geg_rec. set (u := geg a y (S n)). field. lra.
Qed.
Lemma geg_ode a x n : 0 < a -> (1 - x ^ 2) * (2 * a * (2 * (a + 1) * g2 (a + 2) x n)) - (2 * a + 1) * x * (2 * a * g1 (a + 1) x n) + INR n * (INR n + 2 * a) * geg a x n = 0.
Proof.
  intros Ha. destruct n as [|n]; [simpl; ring|]. cbn [g1].
  assert (E2 : g2 (a + 2) x (S n) = g1 (a + 1 + 1) x n). { replace (a + 1 + 1) with (a + 2) by ring. reflexivity. } rewrite E2.
  pose proof (F1 (a + 1) x ltac:(lra) n) as H1. pose proof (F2 (a + 1) x ltac:(lra) n) as H2. pose proof (F1 a x Ha (S n)) as H3. cbn [g1] in H3. cbn [g2] in H3.
  assert (E3 : match n with O => 0 | S k => geg (a + 1) x k end = g1 (a + 1) x n) by reflexivity. rewrite E3 in H3. clear E3.
  (* (1 - x^2) B_n' = (n + 2 a + 1) B_(n-1) - n x B_n with B_n' = 2 (a + 1) g1 (a + 2) *)
  assert (K : (1 - x ^ 2) * (2 * (a + 1) * g1 (a + 1 + 1) x n) = (INR n + 1 + 2 * a) * g1 (a + 1) x n - INR n * x * geg (a + 1) x n).
  { destruct n as [|k]; [simpl; ring|]. cbn [g1]. pose proof (F2 (a + 1) x ltac:(lra) k) as K2. pose proof (F1 (a + 1) x ltac:(lra) (S k)) as K1. cbn [g1] in K1. cbn [g2] in K1. assert (E3 : match k with O => 0 | S j => geg (a + 1 + 1) x j end = g1 (a + 1 + 1) x k) by reflexivity. rewrite E3 in K1. rewrite S_INR in *.
    replace ((INR k + 1 + 1 + 2 * a) * geg (a + 1) x k) with ((INR k + 2 * (a + 1)) * geg (a + 1) x k) by ring. rewrite K2. replace ((INR k + 1) * x * geg (a + 1) x (S k)) with (x * ((INR k + 1) * geg (a + 1) x (S k))) by ring. rewrite K1. ring. }
  rewrite S_INR in *. replace ((1 - x ^ 2) * (2 * a * (2 * (a + 1) * g1 (a + 1 + 1) x n))) with (2 * a * ((1 - x ^ 2) * (2 * (a + 1) * g1 (a + 1 + 1) x n))) by ring. rewrite K.
  replace ((INR n + 1) * (INR n + 1 + 2 * a) * geg a x (S n)) with ((INR n + 1 + 2 * a) * ((INR n + 1) * geg a x (S n))) by ring. rewrite H3. ring.
Qed.
