From Coq Require Import Reals Lra Lia.
From Coquelicot Require Import Coquelicot.
From Verif.Lib Require Import RealAux.
From Verif.Model Require Import PotSpecial AdiabContract.
From Verif.Spec Require Import AdiabSpec DensSpec.
Open Scope R_scope.
Notation RR := RbaseSymbolsImpl.R (only parsing).
Ltac rr := match goal with |- ?a = ?b => change (@eq RR a b) end.

Definition inc (n : nat) (x : nat -> RR) : Prop := forall i j, (i < j <= n)%nat -> x i < x j.
Definition ndec (n : nat) (y : nat -> RR) : Prop := forall i j, (i <= j <= n)%nat -> y i <= y j.
Lemma inc_le n x i j : inc n x -> (i <= j <= n)%nat -> x i <= x j.
Proof. intros H Hij. destruct (Nat.eq_dec i j) as [->|N]; [lra|]. left. apply H. lia. Qed.
Lemma inc_S n x : inc (S n) x -> inc n x. Proof. intros H i j Hij. apply H. lia. Qed.
Lemma ndec_S n x : ndec (S n) x -> ndec n x. Proof. intros H i j Hij. apply H. lia. Qed.
Lemma lin_node n x y i : inc n x -> (i <= n)%nat -> lin x y n (x i) = y i.
Proof.
  induction n as [|k IH]; intros H Hi; cbn [lin]. { replace i with 0%nat by lia. reflexivity. }
  destruct (Rle_dec (x i) (x k)) as [L|L].
  - destruct (Nat.eq_dec i (S k)) as [->|N]; [pose proof (H k (S k) ltac:(lia)); lra|]. apply IH; [apply inc_S, H|lia].
  - destruct (Nat.eq_dec i (S k)) as [->|N]; [destruct (Rle_dec (x (S k)) (x (S k))); [reflexivity|lra]|]. exfalso. apply L. apply (inc_le (S k)); [exact H|lia].
Qed.
Lemma lerp_in a b t u v : a < t -> t < b -> u <= v -> u <= u + (t - a) / (b - a) * (v - u) <= v.
Proof.
  intros H1 H2 H3. assert (0 <= (t - a) / (b - a) <= 1). { split; [apply Rle_mult_inv_pos; lra|]. apply Rmult_le_reg_r with (b - a); [lra|]. unfold Rdiv. rewrite Rmult_assoc, Rinv_l; lra. } split; nra.
Qed.
Lemma lin_ge n x y i t : inc n x -> ndec n y -> (i <= n)%nat -> x i <= t -> y i <= lin x y n t.
Proof.
  induction n as [|k IH]; intros H Hy Hi Ht; cbn [lin]. { replace i with 0%nat by lia. lra. }
  destruct (Rle_dec t (x k)) as [L|L].
  - destruct (Nat.eq_dec i (S k)) as [->|N]; [pose proof (H k (S k) ltac:(lia)); lra|]. apply IH; [apply inc_S, H|apply ndec_S, Hy|lia|exact Ht].
  - destruct (Rle_dec (x (S k)) t) as [K|K]; [apply Hy; lia|]. destruct (Nat.eq_dec i (S k)) as [->|N]; [lra|]. apply Rle_trans with (y k); [apply Hy; lia|]. apply lerp_in; [lra|lra|apply Hy; lia].
Qed.
Lemma lin_le n x y i t : inc n x -> ndec n y -> (i <= n)%nat -> t <= x i -> lin x y n t <= y i.
Proof.
  induction n as [|k IH] in i |- *; intros H Hy Hi Ht; cbn [lin]. { replace i with 0%nat by lia. lra. }
  destruct (Rle_dec t (x k)) as [L|L].
  - destruct (Nat.eq_dec i (S k)) as [->|N]; [apply Rle_trans with (y k); [apply IH; [apply inc_S, H|apply ndec_S, Hy|lia|exact L]|apply Hy; lia]|]. apply IH; [apply inc_S, H|apply ndec_S, Hy|lia|exact Ht].
  - destruct (Nat.eq_dec i (S k)) as [->|N]; [|exfalso; apply L; apply Rle_trans with (x i); [exact Ht|apply (inc_le (S k)); [exact H|lia]]]. destruct (Rle_dec (x (S k)) t) as [K|K]; [lra|]. apply lerp_in; [lra|lra|apply Hy; lia].
Qed.
Lemma lin_const n x y c t : (forall i, (i <= n)%nat -> y i = c) -> lin x y n t = c.
Proof.
  induction n as [|k IH]; intros H; cbn [lin]; [apply H; lia|]. destruct (Rle_dec t (x k)); [apply IH; intros; apply H; lia|]. destruct (Rle_dec (x (S k)) t); [apply H; lia|]. rewrite (H k), (H (S k)) by lia. rr. ring.
Qed.
Lemma lin_pos n x y t : inc n x -> ndec n y -> (forall i, (i <= n)%nat -> 0 < y i) -> 0 < lin x y n t.
Proof.
  intros H Hy Hp. destruct (Rle_dec (x 0%nat) t) as [L|L].
  - apply Rlt_le_trans with (y 0%nat); [apply Hp; lia|apply lin_ge; [exact H|exact Hy|lia|exact L]].
  - assert (E : forall m, (m <= n)%nat -> lin x y m t = y 0%nat). { induction m as [|k IH]; intros Hm; cbn [lin]; [reflexivity|]. destruct (Rle_dec t (x k)) as [K|K]; [apply IH; lia|]. exfalso. apply K. apply Rle_trans with (x 0%nat); [lra|apply (inc_le n); [exact H|lia]]. } rewrite E by lia. apply Hp. lia.
Qed.
Lemma lin_nonneg n x y t : inc n x -> ndec n y -> (forall i, (i <= n)%nat -> 0 <= y i) -> 0 <= lin x y n t.
Proof.
  intros H Hy Hp. destruct (Rle_dec (x 0%nat) t) as [L|L].
  - apply Rle_trans with (y 0%nat); [apply Hp; lia|apply lin_ge; [exact H|exact Hy|lia|exact L]].
  - assert (E : forall m, (m <= n)%nat -> lin x y m t = y 0%nat). { induction m as [|k IH]; intros Hm; cbn [lin]; [reflexivity|]. destruct (Rle_dec t (x k)) as [K|K]; [apply IH; lia|]. exfalso. apply K. apply Rle_trans with (x 0%nat); [lra|apply (inc_le n); [exact H|lia]]. } rewrite E by lia. apply Hp. lia.
Qed.

(** Cautun *)
Lemma caut_rel mdm mbar fbar M : 0 < mdm -> 0 <= mbar -> fbar < 1 -> 0 < M -> mdm * 1.023 * rpow (mdm / (1 - fbar) / (M + mbar)) (- 0.54) = M -> cautun_relation mdm mbar (mdm / (1 - fbar)) M.
Proof.
  intros Hm Hb Hf HM E. unfold cautun_relation. rewrite <- E at 1. unfold rpow. assert (T : 0 < mdm / (1 - fbar)) by (apply Rdiv_lt_0_compat; lra). set (T' := mdm / (1 - fbar)) in *. replace (- 0.54) with (Ropp 0.54) by lra. rewrite Rpower_Ropp. replace (T' / (M + mbar)) with (/ ((M + mbar) / T')) by (field; lra).
  assert (Y : 0 < (M + mbar) / T') by (apply Rdiv_lt_0_compat; lra). replace (Rpower (/ ((M + mbar) / T')) 0.54) with (/ Rpower ((M + mbar) / T') 0.54). { rewrite Rinv_inv. rr. ring. }
  unfold Rpower. rewrite ln_Rinv by exact Y. rewrite <- exp_Ropp. f_equal. rr. ring.
Qed.
Lemma caut_unique mdm mbar mtot M M' : 0 < mdm -> 0 <= mbar -> 0 < mtot -> 0 < M -> 0 < M' -> cautun_relation mdm mbar mtot M -> cautun_relation mdm mbar mtot M' -> M = M'.
Proof.
  intros Hm Hb Ht. assert (W : forall a b, 0 < a -> a < b -> cautun_relation mdm mbar mtot a -> cautun_relation mdm mbar mtot b -> False).
  { intros a b Ha Hab Ea Eb. unfold cautun_relation in *. set (x := (a + mbar) / mtot) in *. set (y := (b + mbar) / mtot) in *. assert (X : 0 < x) by (apply Rdiv_lt_0_compat; lra). assert (XY : x < y) by (apply Rmult_lt_compat_r; [apply Rinv_0_lt_compat; exact Ht|lra]).
    assert (A : a = mtot * x - mbar) by (unfold x; field; lra). assert (B : b = mtot * y - mbar) by (unfold y; field; lra).
    assert (Px : 0 < Rpower x 0.54) by apply exp_pos. assert (Py : 0 < Rpower y 0.54) by apply exp_pos. assert (P46 : Rpower x 0.46 < Rpower y 0.46) by (apply Rlt_Rpower_l; lra). assert (P54 : Rpower x 0.54 < Rpower y 0.54) by (apply Rlt_Rpower_l; lra).
    assert (Ex : x = Rpower x 0.46 * Rpower x 0.54) by (rewrite <- Rpower_plus; replace (0.46 + 0.54) with 1 by lra; rewrite Rpower_1; lra). assert (Ey : y = Rpower y 0.46 * Rpower y 0.54) by (rewrite <- Rpower_plus; replace (0.46 + 0.54) with 1 by lra; rewrite Rpower_1; lra).
    set (p := Rpower x 0.46) in *. set (q := Rpower y 0.46) in *. set (u := Rpower x 0.54) in *. set (v := Rpower y 0.54) in *.
    assert (K1 : mtot * p * u - mbar = 1.023 * mdm * u) by (rewrite <- Ea, A, Ex at 1; ring). assert (K2 : mtot * q * v - mbar = 1.023 * mdm * v) by (rewrite <- Eb, B, Ey at 1; ring). 
    assert (Z : mtot * (q - p) * (u * v) + mbar * (v - u) = 0) by nra. assert (0 < mtot * (q - p) * (u * v)) by (apply Rmult_lt_0_compat; apply Rmult_lt_0_compat; lra). assert (0 <= mbar * (v - u)) by (apply Rmult_le_pos; lra). lra. }
  intros HM HM' E E'. destruct (Rtotal_order M M') as [L|[L|L]]; [exfalso; apply (W M M'); assumption|exact L|exfalso; apply (W M' M); assumption].
Qed.
Lemma caut_none mdm M : 0 < mdm -> 0 < M -> cautun_relation mdm 0 mdm M -> mdm < M.
Proof.
  intros Hm HM E. unfold cautun_relation in E. rewrite Rplus_0_r in E. destruct (Rlt_dec mdm M) as [L|L]; [exact L|]. exfalso. assert (X : 0 < M / mdm) by (apply Rdiv_lt_0_compat; lra). assert (X1 : M / mdm <= 1) by (apply Rmult_le_reg_r with mdm; [exact Hm|]; unfold Rdiv; rewrite Rmult_assoc, Rinv_l; lra).
  assert (Y : M / mdm <= Rpower (M / mdm) 0.54). { destruct (Req_dec (M / mdm) 1) as [->|N]; [unfold Rpower; rewrite ln_1, Rmult_0_r, exp_0; lra|]. rewrite <- (Rpower_1 (M / mdm)) at 1 by exact X. unfold Rpower. left. apply exp_increasing. assert (ln (M / mdm) < 0) by (rewrite <- ln_1; apply ln_increasing; lra). nra. }
  assert (E2 : M = mdm * (M / mdm)) by (field; lra). assert (mdm * (M / mdm) <= mdm * Rpower (M / mdm) 0.54) by (apply Rmult_le_compat_l; lra). assert (0 < mdm * Rpower (M / mdm) 0.54) by (apply Rmult_lt_0_compat; [exact Hm|apply exp_pos]). lra.
Qed.

(** shells *)
Lemma shell_inv r m f rf b : 0 < m -> f < 1 -> 0 <= b -> r * (m / (1 - f)) / (m + b) = rf -> invariant r (m / (1 - f)) rf (m + b).
Proof. intros Hm Hf Hb <-. unfold invariant. rr. field. lra. Qed.
Lemma shell_in r m f rf b : 0 < r -> 0 < m -> f < 1 -> 0 <= b -> m / (1 - f) <= m + b -> r * (m / (1 - f)) / (m + b) = rf -> rf <= r.
Proof. intros Hr Hm Hf Hb H <-. apply Rmult_le_reg_r with (m + b); [lra|]. unfold Rdiv at 1. rewrite Rmult_assoc, Rinv_l by lra. nra. Qed.

(** the table *)
Section Table.
  Variables (n : nat) (r new : nat -> RR) (S P : RR -> RR).
  Hypothesis G : grid n r.
  Hypothesis N0 : S 0 = - 0.
  Hypothesis N1 : forall i, (i <= n)%nat -> S (r i) = ac_rforce n r new (r i).
  Lemma r_inc : inc n r. Proof. intros i j H. apply (proj2 G). lia. Qed.
  Lemma c_inc : inc (Datatypes.S n) (with_centre r).
  Proof.
    intros i j H. destruct j as [|j]; [lia|]. cbn [with_centre]. destruct i as [|i]; cbn [with_centre]; [|apply (proj2 G); lia]. apply Rlt_le_trans with (r 0%nat); [apply (proj1 G)|apply (inc_le n); [exact r_inc|lia]].
  Qed.
  Lemma node_force i : (i <= n)%nat -> ac_rforce n r new (r i) = - new i.
  Proof. intros Hi. unfold ac_rforce. rewrite (lin_node _ _ _ (Datatypes.S i) c_inc) by lia. reflexivity. Qed.
  Lemma r_pos i : (i <= n)%nat -> 0 < r i.
  Proof. intros Hi. apply Rlt_le_trans with (r 0%nat); [apply (proj1 G)|apply (inc_le n); [exact r_inc|lia]]. Qed.
  Lemma tab_mass : IS_total_mass S (r n) = r n ^ 2 * new n.
  Proof. unfold IS_total_mass. rewrite (N1 n ltac:(lia)), node_force by lia. rr. ring. Qed.
  Lemma tab_force i amp : (i <= n)%nat -> ac_force amp n r S (r i) = - new i.
  Proof.
    intros Hi. unfold ac_force, IS_rforce. destruct (Rle_dec (r n) (r i)) as [L|L].
    - destruct (Nat.eq_dec i n) as [->|N]; [|pose proof (r_inc i n ltac:(lia)); lra]. rewrite tab_mass. pose proof (r_pos n ltac:(lia)). rr. field. lra.
    - rewrite (N1 i Hi), node_force by exact Hi. rr. ring.
  Qed.
  Lemma tab_out x amp : r n <= x -> ac_force amp n r S x = - (r n ^ 2 * new n) / x ^ 2.
  Proof. intros Hx. unfold ac_force, IS_rforce. destruct (Rle_dec (r n) x); [|lra]. rewrite tab_mass. rr. ring. Qed.
  Lemma tab_phi_out x amp : r n <= x -> ac_phi amp n r new S P x = - (r n ^ 2 * new n) / x + (RInt (ac_rforce n r new) 0 (r n) - (P (r n) - P 0)).
  Proof. intros Hx. unfold ac_phi, IS_rev. destruct (Rle_dec (r n) x); [|lra]. unfold IS_Phimax, IS_Phi0, ac_Phi0. rewrite tab_mass. pose proof (r_pos n ltac:(lia)). rr. field. lra. Qed.
End Table.
Lemma lin_mid n x y k t : inc n x -> (k < n)%nat -> x k <= t <= x (S k) -> lin x y n t = y k + (t - x k) / (x (S k) - x k) * (y (S k) - y k).
Proof.
  induction n as [|m IH]; intros H Hk Ht; [lia|]. assert (Hx : x k < x (S k)) by (apply H; lia).
  destruct (Req_dec t (x (S k))) as [E|N1]. { rewrite E, lin_node by (assumption || lia). rr. field. lra. }
  destruct (Req_dec t (x k)) as [E|N0]. { rewrite E, lin_node by (assumption || lia). rr. field. lra. }
  cbn [lin]. destruct (Nat.eq_dec k m) as [->|N].
  - destruct (Rle_dec t (x m)); [exfalso; lra|]. destruct (Rle_dec (x (S m)) t); [exfalso; lra|]. reflexivity.
  - assert (x (S k) <= x m) by (apply (inc_le (S m)); [exact H|lia]). destruct (Rle_dec t (x m)); [|exfalso; lra]. apply IH; [apply inc_S, H|lia|exact Ht].
Qed.
Lemma lin_below n x y t : inc n x -> t <= x 0%nat -> lin x y n t = y 0%nat.
Proof.
  intros H L. induction n as [|k IH]; cbn [lin]; [reflexivity|]. destruct (Rle_dec t (x k)) as [K|K]; [apply IH, inc_S, H|]. exfalso. apply K. apply Rle_trans with (x 0%nat); [lra|apply (inc_le (S k)); [exact H|lia]].
Qed.
Lemma lin_above n x y t : inc n x -> x n <= t -> lin x y n t = y n.
Proof.
  intros H L. destruct n as [|k]; cbn [lin]; [reflexivity|]. pose proof (H k (S k) ltac:(lia)). destruct (Rle_dec t (x k)); [exfalso; lra|]. destruct (Rle_dec (x (S k)) t); [reflexivity|contradiction].
Qed.
Lemma lin_interp n x y : inc n x -> interpolates n x y (lin x y n).
Proof. intros H. split; [intros t L; apply lin_below; assumption|split; [intros t L; apply lin_above; assumption|intros k t Hk Ht; apply lin_mid; assumption]]. Qed.
