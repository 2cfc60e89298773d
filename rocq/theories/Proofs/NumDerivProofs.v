(** Error bounds of the finite differences of the mixin. *)
From Coq Require Import Reals Lra Lia.
From Coquelicot Require Import Coquelicot.
From Verif.Lib Require Import RealAux.
From Verif.Spec Require Import NumSpec.
From Verif.Proofs Require Import DensTrunc.
Open Scope R_scope.
Notation RR := RbaseSymbolsImpl.R (only parsing).
Ltac rr := match goal with |- ?a = ?b => change (@eq RR a b) end.

(** |g'| <= C s^n and g(0) = 0 give |g(h)| <= C h^(n+1)/(n+1). *)
Lemma integrate_bound (g dg : RR -> RR) C n h : 0 <= h -> g 0 = 0 -> (forall s, 0 <= s <= h -> is_derive g s (dg s)) -> (forall s, 0 <= s <= h -> Rabs (dg s) <= C * s ^ n) ->
  Rabs (g h) <= C * h ^ S n / INR (S n).
Proof.
  intros Hh H0 D B. assert (N : INR (S n) <> 0) by (apply not_0_INR; lia).
  assert (P : forall s, is_derive (fun s => C * s ^ S n / INR (S n)) s (C * s ^ n)).
  { intros s. eapply is_derive_eq. { apply (is_derive_ext (fun s => C / INR (S n) * s ^ S n)); [intros; rr; field; exact N|]. apply is_derive_Rscal. apply (is_derive_pow (fun s => s) (S n) s 1). exact (is_derive_id (K := R_AbsRing) s). }
    change (Nat.pred (S n)) with n. revert N. generalize (INR (S n)) (s ^ n). intros. rr. field. assumption. }
  apply Rabs_le. split.
  - assert (0 <= (fun s => C * s ^ S n / INR (S n) + g s) h); [|cbv beta in *; lra].
    apply (up_from_0 (fun s => C * s ^ S n / INR (S n) + g s) (fun s => C * s ^ n + dg s)); auto.
    + cbv beta. rewrite H0, pow_i by lia. revert N. generalize (INR (S n)). intros. rr. field. assumption.
    + intros y Hy. apply is_derive_Rplus; auto.
    + intros y Hy. specialize (B y Hy). apply Rabs_le_between in B. lra.
  - assert (0 <= (fun s => C * s ^ S n / INR (S n) + - g s) h); [|cbv beta in *; lra].
    apply (up_from_0 (fun s => C * s ^ S n / INR (S n) + - g s) (fun s => C * s ^ n + - dg s)); auto.
    + cbv beta. rewrite H0, pow_i by lia. revert N. generalize (INR (S n)). intros. rr. field. assumption.
    + intros y Hy. apply is_derive_Rplus; auto. apply (is_derive_opp (V := R_NormedModule)). auto.
    + intros y Hy. specialize (B y Hy). apply Rabs_le_between in B. lra.
Qed.
(** A function with |f'| <= K between x and y. *)
Lemma mean_bound (f df : RR -> RR) K x y : x <= y -> (forall s, x <= s <= y -> is_derive f s (df s)) -> (forall s, x <= s <= y -> Rabs (df s) <= K) -> Rabs (f y - f x) <= K * (y - x).
Proof.
  intros H D B. destruct (MVT_gen f x y df) as (c & Hc & E).
  - intros s Hs. rewrite Rmin_left, Rmax_right in Hs by lra. apply D. lra.
  - intros s Hs. rewrite Rmin_left, Rmax_right in Hs by lra. apply continuity_pt_filterlim. apply (ex_derive_continuous (V := R_NormedModule)). eexists. apply D. lra.
  - rewrite Rmin_left, Rmax_right in Hc by lra. rewrite E, Rabs_mult, (Rabs_pos_eq (y - x)) by lra. apply Rmult_le_compat_r; [lra|]. apply B. lra.
Qed.
Lemma dshift (f : RR -> RR) x c s l : is_derive f (x + c * s) l -> is_derive (fun s => f (x + c * s)) s (c * l).
Proof. intros H. eapply is_derive_eq; [apply (is_derive_comp (V := R_NormedModule) f (fun s => x + c * s) s l c); [exact H|auto_derive; auto; rr; ring]|]. unfold scal; cbn; unfold mult; cbn. reflexivity. Qed.

Section OneDim.
  Variables (g : nat -> RR -> RR) (x K h : RR).
  Hypothesis Hh : 0 < h.
  Lemma forward1 : derivatives g 3 x (x + 2 * h) -> bounded (g 3%nat) K x (x + 2 * h) ->
    Rabs ((3 / 2 * g 0%nat x - 2 * g 0%nat (x + h) + 1 / 2 * g 0%nat (x + 2 * h)) / h + g 1%nat x) <= K * h ^ 2 / 3.
  Proof.
    intros D B.
    assert (E2 : forall s, 0 <= s <= h -> Rabs (-2 * g 2%nat (x + 1 * s) + 2 * g 2%nat (x + 2 * s)) <= 2 * K * s ^ 1).
    { intros s Hs. replace (-2 * g 2%nat (x + 1 * s) + 2 * g 2%nat (x + 2 * s)) with (2 * (g 2%nat (x + 2 * s) - g 2%nat (x + 1 * s))) by ring. rewrite Rabs_mult, (Rabs_pos_eq 2) by lra.
      assert (M := mean_bound (g 2%nat) (g 3%nat) K (x + 1 * s) (x + 2 * s) ltac:(lra)). specialize (M ltac:(intros; apply D; [lia|lra]) ltac:(intros; apply B; lra)). cbn [pow]. lra. }
    assert (E1 : forall s, 0 <= s <= h -> Rabs (g 1%nat x - 2 * g 1%nat (x + 1 * s) + g 1%nat (x + 2 * s)) <= K * s ^ 2).
    { intros s Hs. replace (K * s ^ 2) with (2 * K * s ^ 2 / INR 2) by (cbn; field).
      apply (integrate_bound (fun s => g 1%nat x - 2 * g 1%nat (x + 1 * s) + g 1%nat (x + 2 * s)) (fun s => -2 * g 2%nat (x + 1 * s) + 2 * g 2%nat (x + 2 * s))); [lra|rewrite !Rmult_0_r, !Rplus_0_r; rr; ring| |intros; apply E2; lra].
      intros r Hr. eapply is_derive_eq. { apply is_derive_Rplus; [apply (is_derive_minus (V := R_NormedModule)); [apply is_derive_cst|apply is_derive_Rscal]|]; apply dshift, D; try lia; lra. } unfold minus, plus, opp, zero; cbn; rr; ring. }
    assert (E0 : Rabs (3 / 2 * g 0%nat x - 2 * g 0%nat (x + 1 * h) + 1 / 2 * g 0%nat (x + 2 * h) + h * g 1%nat x) <= K * h ^ 3 / 3).
    { replace (K * h ^ 3 / 3) with (K * h ^ 3 / INR 3) by (cbn; field).
      apply (integrate_bound (fun s => 3 / 2 * g 0%nat x - 2 * g 0%nat (x + 1 * s) + 1 / 2 * g 0%nat (x + 2 * s) + s * g 1%nat x) (fun s => g 1%nat x - 2 * g 1%nat (x + 1 * s) + g 1%nat (x + 2 * s))); [lra|rewrite !Rmult_0_r, !Rplus_0_r; rr; field| |exact E1].
      intros r Hr. eapply is_derive_eq. { apply is_derive_Rplus; [apply is_derive_Rplus; [apply (is_derive_minus (V := R_NormedModule)); [apply is_derive_cst|apply is_derive_Rscal; apply dshift, D; [lia|lra]]|apply is_derive_Rscal; apply dshift, D; [lia|lra]]|]. apply (is_derive_ext (fun s => g 1%nat x * s)); [intros; rr; ring|]. apply is_derive_Rscal. exact (is_derive_id (K := R_AbsRing) r). } unfold minus, plus, opp, zero, one; cbn; rr; field. }
    rewrite Rmult_1_l in E0. replace ((3 / 2 * g 0%nat x - 2 * g 0%nat (x + h) + 1 / 2 * g 0%nat (x + 2 * h)) / h + g 1%nat x) with ((3 / 2 * g 0%nat x - 2 * g 0%nat (x + h) + 1 / 2 * g 0%nat (x + 2 * h) + h * g 1%nat x) / h) by (field; lra).
    unfold Rdiv. rewrite Rabs_mult, (Rabs_pos_eq (/ h)) by (left; apply Rinv_0_lt_compat; lra). apply (Rmult_le_reg_r h); [lra|]. rewrite Rmult_assoc, Rinv_l by lra. rewrite Rmult_1_r. eapply Rle_trans; [exact E0|]. right. field.
  Qed.
  Lemma forward2 : derivatives g 4 x (x + 3 * h) -> bounded (g 4%nat) K x (x + 3 * h) ->
    Rabs ((2 * g 0%nat x - 5 * g 0%nat (x + h) + 4 * g 0%nat (x + 2 * h) - 1 * g 0%nat (x + 3 * h)) / h ^ 2 - g 2%nat x) <= 4 / 3 * K * h ^ 2.
  Proof.
    intros D B.
    assert (E3 : forall s, 0 <= s <= h -> Rabs (-5 * g 3%nat (x + 1 * s) + 32 * g 3%nat (x + 2 * s) - 27 * g 3%nat (x + 3 * s)) <= 32 * K * s ^ 1).
    { intros s Hs. replace (-5 * g 3%nat (x + 1 * s) + 32 * g 3%nat (x + 2 * s) - 27 * g 3%nat (x + 3 * s)) with (5 * (g 3%nat (x + 2 * s) - g 3%nat (x + 1 * s)) + - (27 * (g 3%nat (x + 3 * s) - g 3%nat (x + 2 * s)))) by ring.
      eapply Rle_trans; [apply Rabs_triang|]. rewrite Rabs_Ropp, !Rabs_mult, (Rabs_pos_eq 5), (Rabs_pos_eq 27) by lra.
      assert (M := mean_bound (g 3%nat) (g 4%nat) K (x + 1 * s) (x + 2 * s) ltac:(lra)). specialize (M ltac:(intros; apply D; [lia|lra]) ltac:(intros; apply B; lra)).
      assert (M' := mean_bound (g 3%nat) (g 4%nat) K (x + 2 * s) (x + 3 * s) ltac:(lra)). specialize (M' ltac:(intros; apply D; [lia|lra]) ltac:(intros; apply B; lra)). cbn [pow]. lra. }
    assert (E2 : forall s, 0 <= s <= h -> Rabs (-5 * g 2%nat (x + 1 * s) + 16 * g 2%nat (x + 2 * s) - 9 * g 2%nat (x + 3 * s) - 2 * g 2%nat x) <= 16 * K * s ^ 2).
    { intros s Hs. replace (16 * K * s ^ 2) with (32 * K * s ^ 2 / INR 2) by (cbn; field).
      apply (integrate_bound (fun s => -5 * g 2%nat (x + 1 * s) + 16 * g 2%nat (x + 2 * s) - 9 * g 2%nat (x + 3 * s) - 2 * g 2%nat x) (fun s => -5 * g 3%nat (x + 1 * s) + 32 * g 3%nat (x + 2 * s) - 27 * g 3%nat (x + 3 * s))); [lra|rewrite !Rmult_0_r, !Rplus_0_r; rr; ring| |intros; apply E3; lra].
      intros r Hr. eapply is_derive_eq. { apply (is_derive_minus (V := R_NormedModule)); [apply (is_derive_minus (V := R_NormedModule)); [apply is_derive_Rplus|]|apply is_derive_cst]; apply is_derive_Rscal; apply dshift, D; try lia; lra. } unfold minus, plus, opp, zero; cbn; rr; ring. }
    assert (E1 : forall s, 0 <= s <= h -> Rabs (-5 * g 1%nat (x + 1 * s) + 8 * g 1%nat (x + 2 * s) - 3 * g 1%nat (x + 3 * s) - 2 * g 2%nat x * s) <= 16 / 3 * K * s ^ 3).
    { intros s Hs. replace (16 / 3 * K * s ^ 3) with (16 * K * s ^ 3 / INR 3) by (cbn; field).
      apply (integrate_bound (fun s => -5 * g 1%nat (x + 1 * s) + 8 * g 1%nat (x + 2 * s) - 3 * g 1%nat (x + 3 * s) - 2 * g 2%nat x * s) (fun s => -5 * g 2%nat (x + 1 * s) + 16 * g 2%nat (x + 2 * s) - 9 * g 2%nat (x + 3 * s) - 2 * g 2%nat x)); [lra|rewrite !Rmult_0_r, !Rplus_0_r; rr; ring| |intros; apply E2; lra].
      intros r Hr. eapply is_derive_eq. { apply (is_derive_minus (V := R_NormedModule)); [apply (is_derive_minus (V := R_NormedModule)); [apply is_derive_Rplus|]; apply is_derive_Rscal; apply dshift, D; try lia; lra|apply is_derive_Rscal; exact (is_derive_id (K := R_AbsRing) r)]. } unfold minus, plus, opp, zero, one; cbn; rr; ring. }
    assert (E0 : Rabs (2 * g 0%nat x - 5 * g 0%nat (x + 1 * h) + 4 * g 0%nat (x + 2 * h) - 1 * g 0%nat (x + 3 * h) - g 2%nat x * h ^ 2) <= 4 / 3 * K * h ^ 4).
    { replace (4 / 3 * K * h ^ 4) with (16 / 3 * K * h ^ 4 / INR 4) by (cbn; field).
      apply (integrate_bound (fun s => 2 * g 0%nat x - 5 * g 0%nat (x + 1 * s) + 4 * g 0%nat (x + 2 * s) - 1 * g 0%nat (x + 3 * s) - g 2%nat x * s ^ 2) (fun s => -5 * g 1%nat (x + 1 * s) + 8 * g 1%nat (x + 2 * s) - 3 * g 1%nat (x + 3 * s) - 2 * g 2%nat x * s)); [lra|cbn [pow]; rewrite !Rmult_0_r, ?Rplus_0_r, ?Rmult_0_l; rr; ring| |exact E1].
      intros r Hr. eapply is_derive_eq. { apply (is_derive_minus (V := R_NormedModule)); [apply (is_derive_minus (V := R_NormedModule)); [apply is_derive_Rplus; [apply (is_derive_minus (V := R_NormedModule)); [apply is_derive_cst|]|]|]; apply is_derive_Rscal; apply dshift, D; try lia; lra|apply is_derive_Rscal; apply (is_derive_pow (fun s => s) 2 r 1); exact (is_derive_id (K := R_AbsRing) r)]. } unfold minus, plus, opp, zero, one; cbn; rr; ring. }
    rewrite Rmult_1_l in E0. assert (Hp : 0 < h ^ 2) by (apply pow_lt; lra).
    replace ((2 * g 0%nat x - 5 * g 0%nat (x + h) + 4 * g 0%nat (x + 2 * h) - 1 * g 0%nat (x + 3 * h)) / h ^ 2 - g 2%nat x) with ((2 * g 0%nat x - 5 * g 0%nat (x + h) + 4 * g 0%nat (x + 2 * h) - 1 * g 0%nat (x + 3 * h) - g 2%nat x * h ^ 2) / h ^ 2) by (field; lra).
    unfold Rdiv at 1. rewrite Rabs_mult, (Rabs_pos_eq (/ h ^ 2)) by (left; apply Rinv_0_lt_compat; exact Hp). apply (Rmult_le_reg_r (h ^ 2)); [lra|]. rewrite Rmult_assoc, Rinv_l by lra. rewrite Rmult_1_r. eapply Rle_trans; [exact E0|]. right. field.
  Qed.
  Lemma central1 : derivatives g 3 (x - h) (x + h) -> bounded (g 3%nat) K (x - h) (x + h) ->
    Rabs ((g 0%nat (x - h) - g 0%nat (x + h)) / (2 * h) + g 1%nat x) <= K * h ^ 2 / 6.
  Proof.
    intros D B.
    assert (E2 : forall s, 0 <= s <= h -> Rabs (g 2%nat (x + -1 * s) - g 2%nat (x + 1 * s)) <= 2 * K * s ^ 1).
    { intros s Hs. rewrite <- Rabs_Ropp, Ropp_minus_distr.
      assert (M := mean_bound (g 2%nat) (g 3%nat) K (x + -1 * s) (x + 1 * s) ltac:(lra)). specialize (M ltac:(intros; apply D; [lia|lra]) ltac:(intros; apply B; lra)). cbn [pow]. lra. }
    assert (E1 : forall s, 0 <= s <= h -> Rabs (2 * g 1%nat x - g 1%nat (x + -1 * s) - g 1%nat (x + 1 * s)) <= K * s ^ 2).
    { intros s Hs. replace (K * s ^ 2) with (2 * K * s ^ 2 / INR 2) by (cbn; field).
      apply (integrate_bound (fun s => 2 * g 1%nat x - g 1%nat (x + -1 * s) - g 1%nat (x + 1 * s)) (fun s => g 2%nat (x + -1 * s) - g 2%nat (x + 1 * s))); [lra|rewrite !Rmult_0_r, !Rplus_0_r; rr; ring| |intros; apply E2; lra].
      intros r Hr. eapply is_derive_eq. { apply (is_derive_minus (V := R_NormedModule)); [apply (is_derive_minus (V := R_NormedModule)); [apply is_derive_cst|]|]; apply dshift, D; try lia; lra. } unfold minus, plus, opp, zero; cbn; rr; ring. }
    assert (E0 : Rabs (g 0%nat (x + -1 * h) - g 0%nat (x + 1 * h) + 2 * g 1%nat x * h) <= K * h ^ 3 / 3).
    { replace (K * h ^ 3 / 3) with (K * h ^ 3 / INR 3) by (cbn; field).
      apply (integrate_bound (fun s => g 0%nat (x + -1 * s) - g 0%nat (x + 1 * s) + 2 * g 1%nat x * s) (fun s => 2 * g 1%nat x - g 1%nat (x + -1 * s) - g 1%nat (x + 1 * s))); [lra|rewrite !Rmult_0_r, !Rplus_0_r; rr; ring| |exact E1].
      intros r Hr. eapply is_derive_eq. { apply is_derive_Rplus; [apply (is_derive_minus (V := R_NormedModule)); apply dshift, D; try lia; lra|apply is_derive_Rscal; exact (is_derive_id (K := R_AbsRing) r)]. } unfold minus, plus, opp, zero, one; cbn; rr; ring. }
    replace (x + -1 * h) with (x - h) in E0 by ring. rewrite Rmult_1_l in E0.
    replace ((g 0%nat (x - h) - g 0%nat (x + h)) / (2 * h) + g 1%nat x) with ((g 0%nat (x - h) - g 0%nat (x + h) + 2 * g 1%nat x * h) / (2 * h)) by (field; lra).
    unfold Rdiv at 1. rewrite Rabs_mult, (Rabs_pos_eq (/ (2 * h))) by (left; apply Rinv_0_lt_compat; lra). apply (Rmult_le_reg_r (2 * h)); [lra|]. rewrite Rmult_assoc, Rinv_l by lra. rewrite Rmult_1_r. eapply Rle_trans; [exact E0|]. right. field.
  Qed.
  Lemma central2 : derivatives g 4 (x - h) (x + h) -> bounded (g 4%nat) K (x - h) (x + h) ->
    Rabs ((g 0%nat (x + h) + g 0%nat (x - h) - 2 * g 0%nat x) / h ^ 2 - g 2%nat x) <= K * h ^ 2 / 12.
  Proof.
    intros D B.
    assert (E3 : forall s, 0 <= s <= h -> Rabs (g 3%nat (x + 1 * s) - g 3%nat (x + -1 * s)) <= 2 * K * s ^ 1).
    { intros s Hs. assert (M := mean_bound (g 3%nat) (g 4%nat) K (x + -1 * s) (x + 1 * s) ltac:(lra)). specialize (M ltac:(intros; apply D; [lia|lra]) ltac:(intros; apply B; lra)). cbn [pow]. lra. }
    assert (E2 : forall s, 0 <= s <= h -> Rabs (g 2%nat (x + 1 * s) + g 2%nat (x + -1 * s) - 2 * g 2%nat x) <= K * s ^ 2).
    { intros s Hs. replace (K * s ^ 2) with (2 * K * s ^ 2 / INR 2) by (cbn; field).
      apply (integrate_bound (fun s => g 2%nat (x + 1 * s) + g 2%nat (x + -1 * s) - 2 * g 2%nat x) (fun s => g 3%nat (x + 1 * s) - g 3%nat (x + -1 * s))); [lra|rewrite !Rmult_0_r, !Rplus_0_r; rr; ring| |intros; apply E3; lra].
      intros r Hr. eapply is_derive_eq. { apply (is_derive_minus (V := R_NormedModule)); [apply is_derive_Rplus; apply dshift, D; try lia; lra|apply is_derive_cst]. } unfold minus, plus, opp, zero; cbn; rr; ring. }
    assert (E1 : forall s, 0 <= s <= h -> Rabs (g 1%nat (x + 1 * s) - g 1%nat (x + -1 * s) - 2 * g 2%nat x * s) <= K / 3 * s ^ 3).
    { intros s Hs. replace (K / 3 * s ^ 3) with (K * s ^ 3 / INR 3) by (cbn; field).
      apply (integrate_bound (fun s => g 1%nat (x + 1 * s) - g 1%nat (x + -1 * s) - 2 * g 2%nat x * s) (fun s => g 2%nat (x + 1 * s) + g 2%nat (x + -1 * s) - 2 * g 2%nat x)); [lra|rewrite !Rmult_0_r, !Rplus_0_r; rr; ring| |intros; apply E2; lra].
      intros r Hr. eapply is_derive_eq. { apply (is_derive_minus (V := R_NormedModule)); [apply (is_derive_minus (V := R_NormedModule)); apply dshift, D; try lia; lra|apply is_derive_Rscal; exact (is_derive_id (K := R_AbsRing) r)]. } unfold minus, plus, opp, zero, one; cbn; rr; ring. }
    assert (E0 : Rabs (g 0%nat (x + 1 * h) + g 0%nat (x + -1 * h) - 2 * g 0%nat x - g 2%nat x * h ^ 2) <= K / 12 * h ^ 4).
    { replace (K / 12 * h ^ 4) with (K / 3 * h ^ 4 / INR 4) by (cbn; field).
      apply (integrate_bound (fun s => g 0%nat (x + 1 * s) + g 0%nat (x + -1 * s) - 2 * g 0%nat x - g 2%nat x * s ^ 2) (fun s => g 1%nat (x + 1 * s) - g 1%nat (x + -1 * s) - 2 * g 2%nat x * s)); [lra|cbn [pow]; rewrite !Rmult_0_r, ?Rplus_0_r, ?Rmult_0_l; rr; ring| |exact E1].
      intros r Hr. eapply is_derive_eq. { apply (is_derive_minus (V := R_NormedModule)); [apply (is_derive_minus (V := R_NormedModule)); [apply is_derive_Rplus; apply dshift, D; try lia; lra|apply is_derive_cst]|apply is_derive_Rscal; apply (is_derive_pow (fun s => s) 2 r 1); exact (is_derive_id (K := R_AbsRing) r)]. } unfold minus, plus, opp, zero, one; cbn; rr; ring. }
    replace (x + -1 * h) with (x - h) in E0 by ring. rewrite Rmult_1_l in E0. assert (Hp : 0 < h ^ 2) by (apply pow_lt; lra).
    replace ((g 0%nat (x + h) + g 0%nat (x - h) - 2 * g 0%nat x) / h ^ 2 - g 2%nat x) with ((g 0%nat (x + h) + g 0%nat (x - h) - 2 * g 0%nat x - g 2%nat x * h ^ 2) / h ^ 2) by (field; lra).
    unfold Rdiv at 1. rewrite Rabs_mult, (Rabs_pos_eq (/ h ^ 2)) by (left; apply Rinv_0_lt_compat; exact Hp). apply (Rmult_le_reg_r (h ^ 2)); [lra|]. rewrite Rmult_assoc, Rinv_l by lra. rewrite Rmult_1_r. eapply Rle_trans; [exact E0|]. right. field.
  Qed.
End OneDim.

Section TwoDim.
  Variables (u : RR -> RR -> RR) (uy : nat -> RR -> RR -> RR) (ux : nat -> RR -> RR) (x y h k K1 K2 : RR).
  Hypotheses (Hh : 0 < h) (Hk : 0 < k).
  (** The common step: a difference quotient [P] in x whose y-derivative is within [E] of the mixed derivative. *)
  Lemma mixed_step (P dP : RR -> RR) E : (forall b, y - k <= b <= y + k -> is_derive P b (dP b)) -> (forall b, y - k <= b <= y + k -> Rabs (dP b - ux 1%nat b) <= E) ->
    (forall j b, (j < 3)%nat -> y - k <= b <= y + k -> is_derive (ux j) b (ux (S j) b)) -> bounded (ux 3%nat) K2 (y - k) (y + k) ->
    Rabs ((P (y + k) - P (y - k)) / (2 * k) - ux 1%nat y) <= E + K2 * k ^ 2 / 6.
  Proof.
    intros HP HE HX HB.
    assert (A := central1 ux y K2 k Hk). specialize (A ltac:(intros j b Hj Hb; apply HX; [lia|lra]) HB).
    assert (M := mean_bound (fun b => P b - ux 0%nat b) (fun b => dP b - ux 1%nat b) E (y - k) (y + k) ltac:(lra)). cbv beta in M.
    specialize (M ltac:(intros s Hs; apply (is_derive_minus (V := R_NormedModule)); [apply HP; lra|apply HX; [lia|lra]]) ltac:(intros s Hs; apply HE; lra)).
    replace ((P (y + k) - P (y - k)) / (2 * k) - ux 1%nat y) with ((P (y + k) - ux 0%nat (y + k) - (P (y - k) - ux 0%nat (y - k))) / (2 * k) + - ((ux 0%nat (y - k) - ux 0%nat (y + k)) / (2 * k) + ux 1%nat y)) by (field; lra).
    eapply Rle_trans; [apply Rabs_triang|]. rewrite Rabs_Ropp. apply Rplus_le_compat; [|exact A].
    unfold Rdiv. rewrite Rabs_mult, (Rabs_pos_eq (/ (2 * k))) by (left; apply Rinv_0_lt_compat; lra). apply (Rmult_le_reg_r (2 * k)); [lra|]. rewrite Rmult_assoc, Rinv_l by lra. lra.
  Qed.
  Lemma forward_central : mixed u uy ux x x (x + 2 * h) (y - k) (y + k) ->
    (forall a b, x <= a <= x + 2 * h -> y - k <= b <= y + k -> Rabs (uy 3%nat a b) <= K1) -> bounded (ux 3%nat) K2 (y - k) (y + k) ->
    Rabs ((- (3 / 2) * u x (y + k) + 2 * u (x + h) (y + k) - 1 / 2 * u (x + 2 * h) (y + k) + 3 / 2 * u x (y - k) - 2 * u (x + h) (y - k) + 1 / 2 * u (x + 2 * h) (y - k)) / h / (2 * k) - ux 1%nat y)
      <= K1 * h ^ 2 / 3 + K2 * k ^ 2 / 6.
  Proof.
    intros (M1 & M2 & M3 & M4 & M5) B1 B2.
    pose (P := fun b => / h * (- (3 / 2) * u x b + 2 * u (x + h) b - 1 / 2 * u (x + 2 * h) b)).
    pose (dP := fun b => / h * (- (3 / 2) * uy 0%nat x b + 2 * uy 0%nat (x + h) b - 1 / 2 * uy 0%nat (x + 2 * h) b)).
    assert (A := mixed_step P dP (K1 * h ^ 2 / 3)). eapply Rle_trans; [|apply A; auto].
    - right. f_equal. unfold P. field. lra.
    - intros b Hb. unfold P, dP. apply is_derive_Rscal. apply (is_derive_minus (V := R_NormedModule)); [apply is_derive_Rplus|]; apply is_derive_Rscal; apply M1; lra.
    - intros b Hb. rewrite <- M5 by lra. assert (F := forward1 (fun j a => uy j a b) x K1 h Hh).
      specialize (F ltac:(intros j a Hj Ha; apply M2; [lia|lra|lra]) ltac:(intros a Ha; apply B1; lra)). rewrite <- Rabs_Ropp. eapply Rle_trans; [|exact F]. right. f_equal. unfold dP. field. lra.
  Qed.
  Lemma central_central : mixed u uy ux x (x - h) (x + h) (y - k) (y + k) ->
    (forall a b, x - h <= a <= x + h -> y - k <= b <= y + k -> Rabs (uy 3%nat a b) <= K1) -> bounded (ux 3%nat) K2 (y - k) (y + k) ->
    Rabs ((u (x + h) (y + k) - u (x - h) (y + k) - u (x + h) (y - k) + u (x - h) (y - k)) / (2 * k) / h / 2 - ux 1%nat y) <= K1 * h ^ 2 / 6 + K2 * k ^ 2 / 6.
  Proof.
    intros (M1 & M2 & M3 & M4 & M5) B1 B2.
    pose (P := fun b => / (2 * h) * (u (x + h) b - u (x - h) b)). pose (dP := fun b => / (2 * h) * (uy 0%nat (x + h) b - uy 0%nat (x - h) b)).
    assert (A := mixed_step P dP (K1 * h ^ 2 / 6)). eapply Rle_trans; [|apply A; auto].
    - right. f_equal. unfold P. field. lra.
    - intros b Hb. unfold P, dP. apply is_derive_Rscal. apply (is_derive_minus (V := R_NormedModule)); apply M1; lra.
    - intros b Hb. rewrite <- M5 by lra. assert (F := central1 (fun j a => uy j a b) x K1 h Hh).
      specialize (F ltac:(intros j a Hj Ha; apply M2; [lia|lra|lra]) ltac:(intros a Ha; apply B1; lra)). rewrite <- Rabs_Ropp. eapply Rle_trans; [|exact F]. right. f_equal. unfold dP. field. lra.
  Qed.
End TwoDim.
