(** The C integrators of bovy_rk.c from the call to the rows, and an orbit that meets the hypotheses. *)
From Coq Require Import Reals Lra Lia List FunctionalExtensionality ZArith Bool.
From Coquelicot Require Import Coquelicot.
From Verif.Lib Require Import RealAux.
From Verif.Model Require Import Symplectic RungeKutta.
From Verif.Spec Require Import OrderSpec.
From Verif.Proofs Require Import RKOrder RK4Local RKLinear RK6Local DP5Local RKConv RKStab RKLoops.
Import ListNotations.
Open Scope R_scope.
Notation RR := RbaseSymbolsImpl.R (only parsing).

Ltac rr := match goal with |- ?a = ?b => change (@eq RR a b) end.
Section Main.
  Context {J : Type}.
  Variables (f : RR -> vec J -> vec J) (z : RR -> vec J) (t0 sigma T delta : RR).
  Hypothesis (HT : 0 < T) (Hdelta : 0 < delta).
  Theorem rk4_main : smooth_near (clock_field f t0 sigma) z T delta 5 ->
    exists C h1, 0 <= C /\ 0 < h1 /\ forall dt ndt nt, (1 <= ndt)%nat -> (1 <= nt)%nat -> 0 <= dt -> dt / INR ndt <= h1 -> INR (nt - 1) * dt <= T ->
      length (rk_run (rk4_onestep f) (z 0) t0 (sigma * (dt / INR ndt)) ndt nt) = nt /\
      forall i, (i < nt)%nat -> within (C * (dt / INR ndt) ^ 4) (nth i (rk_run (rk4_onestep f) (z 0) t0 (sigma * (dt / INR ndt)) ndt nt) (z 0)) (z (INR i * dt)).
  Proof.
    intros (L & d & A & HL & Hs).
    apply (equal_converge (rk4_onestep f) t0 sigma (fun s h x => rk4_onestep (clock_field f t0 sigma) x x s h) (fun x s h => eq_sym (rk4_clock f t0 sigma x s h)) z T 4 HT ltac:(lia)).
    - exact (rk4_stable _ z T delta L 5 d A Hdelta HL Hs ltac:(lia)).
    - exact (rk4_local _ z T delta L 5 d A Hdelta HL Hs (le_n _)).
  Qed.
  Theorem rk6_main : smooth_near (clock_field f t0 sigma) z T delta 7 ->
    exists C h1, 0 <= C /\ 0 < h1 /\ forall dt ndt nt, (1 <= ndt)%nat -> (1 <= nt)%nat -> 0 <= dt -> dt / INR ndt <= h1 -> INR (nt - 1) * dt <= T ->
      length (rk_run (rk6_onestep f) (z 0) t0 (sigma * (dt / INR ndt)) ndt nt) = nt /\
      forall i, (i < nt)%nat -> within (C * (dt / INR ndt) ^ 6) (nth i (rk_run (rk6_onestep f) (z 0) t0 (sigma * (dt / INR ndt)) ndt nt) (z 0)) (z (INR i * dt)).
  Proof.
    intros (L & d & A & HL & Hs).
    apply (equal_converge (rk6_onestep f) t0 sigma (fun s h x => rk6_onestep (clock_field f t0 sigma) x x s h) (fun x s h => eq_sym (rk6_clock f t0 sigma x s h)) z T 6 HT ltac:(lia)).
    - exact (rk6_stable _ z T delta L 7 d A Hdelta HL Hs ltac:(lia)).
    - exact (rk6_local _ z T delta L 7 d A Hdelta HL Hs (le_n _)).
  Qed.
  Hypothesis Hsig : sigma = 1 \/ sigma = -1.
  Lemma at_start e x : mkD x (f t0 x) t0 (sigma * e) = at_ f t0 sigma 0 e x.
  Proof. unfold at_. rewrite !Rmult_0_r, !Rplus_0_r. reflexivity. Qed.
  Theorem dopr54_main : smooth_near (clock_field f t0 sigma) z T delta 6 -> forall power,
    exists C h1, 0 <= C /\ 0 < h1 /\ forall D e n fuel rows, 0 < D <= h1 -> 0 < e -> INR n * D <= T ->
      dopr54_rows f power fuel (sigma * D) n (mkD (z 0) (f t0 (z 0)) t0 (sigma * e)) = Some rows ->
      length rows = n /\ forall i, (i < n)%nat -> within (C * D ^ 5) (nth i rows (z 0)) (z (INR (S i) * D)).
  Proof.
    intros (L & d & A & HL & Hs) power.
    destruct (adaptive_converge f t0 sigma power Hsig z T HT) as (C & h1 & HC & Hh & H).
    - exact (dopr54_stable _ z T delta L 6 d A Hdelta HL Hs ltac:(lia)).
    - exact (dopr54_local _ z T delta L 6 d A Hdelta HL Hs (le_n _)).
    - exists C, h1. split; [exact HC|]. split; [exact Hh|]. intros D e n fuel rows HD He Hn E. rewrite at_start in E. exact (H D e n fuel rows HD He Hn E).
  Qed.
  Lemma dopr54_rows_end power D e n x : 0 < D -> 0 < e -> exists fuel rows, dopr54_rows f power fuel (sigma * D) n (mkD x (f t0 x) t0 (sigma * e)) = Some rows.
  Proof. intros HD He. rewrite at_start. apply rows_end; assumption. Qed.
End Main.

Lemma ndt_div D m : D <> 0 -> (1 <= m)%nat -> ndt_of D (D / INR m) = Z.of_nat m.
Proof.
  intros HD Hm. assert (P : 0 < INR m) by (apply lt_0_INR; lia). unfold ndt_of. replace (D / (D / INR m)) with (INR m) by (field; split; [lra|exact HD]).
  destruct (Rle_dec 0 (INR m)); [|lra]. rewrite INR_IZR_INZ. destruct (base_Int_part (IZR (Z.of_nat m))) as [B1 B2].
  apply le_IZR in B1. assert (B3 : IZR (Int_part (IZR (Z.of_nat m))) > IZR (Z.of_nat m - 1)) by (rewrite minus_IZR; lra). apply Rgt_lt, lt_IZR in B3. lia.
Qed.
Lemma smooth_less {J : Type} (f : RR -> vec J -> vec J) y T delta n n' : (n' <= n)%nat -> smooth_near f y T delta n -> smooth_near f y T delta n'.
Proof.
  intros Hn (L & d & A & HL & [S0 S1 S2 S3 S4 S5 S6 S7 S8]). exists L, d, A. split; [exact HL|]. constructor; try assumption; intros.
  - apply S2; [lia|assumption].
  - apply S3; [lia|assumption].
  - apply S4; [lia|assumption].
  - apply S5; [lia|assumption|assumption].
  - apply S6; [lia|assumption].
Qed.

(** ** The orbit x(t) = 1 / (2 - t) of the force 2 x^3: one position and one velocity. *)
Definition cube_force (s : RR) (q : vec unit) : vec unit := fun i => 2 * q i ^ 3.
Definition cube_field : RR -> vec (unit + unit) -> vec (unit + unit) := phase_field cube_force.
Definition cube_orbit (s : RR) : vec (unit + unit) := fun j => match j with inl _ => / (2 - s) | inr _ => / (2 - s) ^ 2 end.
Definition cube_d (i : nat) (s : RR) : vec (unit + unit) := fun j => match j with inl _ => INR (fact i) / (2 - s) ^ S i | inr _ => INR (fact (S i)) / (2 - s) ^ S (S i) end.
Definition cube_A (i : nat) (s : RR) (v : vec (unit + unit)) : vec (unit + unit) := fun j =>
  match j with inl _ => match i with 0%nat => v (inr tt) | _ => 0 end | inr _ => 6 * (INR (fact (S i)) / (2 - s) ^ S (S i)) * v (inl tt) end.
Lemma power_derive c m s : 0 <= s <= 1 -> is_derive (fun s => c / (2 - s) ^ m) s (INR m * c / (2 - s) ^ S m).
Proof.
  intros H. assert (P : 0 < (2 - s) ^ m) by (apply pow_lt; lra).
  assert (D : is_derive (fun s => (2 - s) ^ m) s (- (INR m * (2 - s) ^ Nat.pred m))).
  { eapply is_derive_eq; [apply (is_derive_pow (fun s => 2 - s) m s (-1)); auto_derive; [exact I|rr; ring]|]. rr. ring. }
  eapply is_derive_eq; [apply (is_derive_scal _ s c), (is_derive_inv _ s _ D); lra|]. destruct m as [|m]; [rr; cbn; field; lra|]. rr.
  cbn [Nat.pred]. assert (0 < (2 - s) ^ m) by (apply pow_lt; lra). rewrite <- !tech_pow_Rmult. field. lra.
Qed.
Lemma fact_quot c i k s : 0 <= s <= 1 -> 0 <= INR (fact i) <= c -> Rabs (INR (fact i) / (2 - s) ^ k) <= c.
Proof.
  intros H Hc. assert (P : 1 <= (2 - s) ^ k) by (rewrite <- (pow1 k); apply pow_incr; lra). assert (Q : 0 < / (2 - s) ^ k <= 1) by (split; [apply Rinv_0_lt_compat; lra|rewrite <- Rinv_1; apply Rinv_le_contravar; lra]).
  unfold Rdiv. rewrite Rabs_right; [|apply Rle_ge, Rmult_le_pos; lra]. nra.
Qed.
Lemma fact_small i k : (i <= k)%nat -> 0 <= INR (fact i) <= INR (fact k).
Proof. intros H. split; [apply pos_INR|]. apply le_INR, fact_le, H. Qed.
Lemma fact_IZR k : INR (fact k) = IZR (Z.of_nat (fact k)).
Proof. apply INR_IZR_INZ. Qed.
Theorem cube_smooth : smooth_near cube_field cube_orbit 1 1 7.
Proof.
  exists 50000, cube_d, cube_A. split; [lra|].
  assert (F8 : INR (fact 8) = 40320) by (rewrite fact_IZR; apply f_equal; vm_compute; reflexivity).
  assert (F4 : INR (fact 4) = 24) by (rewrite fact_IZR; apply f_equal; vm_compute; reflexivity).
  assert (OB : forall s, 0 <= s <= 1 -> 0 < / (2 - s) <= 1) by (intros s H; split; [apply Rinv_0_lt_compat; lra|rewrite <- Rinv_1; apply Rinv_le_contravar; lra]).
  constructor.
  - intros s H j. destruct j as [[]|[]]; unfold cube_d, cube_orbit; cbn; field; lra.
  - intros s H j. destruct j as [[]|[]]; unfold cube_d, cube_field, phase_field, cube_force, cube_orbit; cbn; field; lra.
  - intros i s Hi H j. destruct j as [[]|[]]; unfold cube_d.
    + change (fact (S i)) with ((S i) * fact i)%nat. rewrite mult_INR. apply power_derive, H.
    + change (fact (S (S i))) with ((S (S i)) * fact (S i))%nat. rewrite mult_INR. apply power_derive, H.
  - intros i s Hi H j. pose proof (fact_small i 8 ltac:(lia)) as B1. pose proof (fact_small (S i) 8 ltac:(lia)) as B2. rewrite F8 in B1, B2.
    destruct j as [[]|[]]; unfold cube_d; apply fact_quot; try exact H; lra.
  - intros i s Hi H a b u v j. destruct j as [[]|[]]; unfold cube_A; [destruct i|]; ring.
  - intros i s v e Hi H B j. pose proof (B (inl tt)) as B1. pose proof (B (inr tt)) as B2. pose proof (Rabs_pos (v (inl tt))) as B3. destruct j as [[]|[]]; unfold cube_A.
    + destruct i; [|rewrite Rabs_R0]; lra.
    + pose proof (fact_small (S i) 4 ltac:(lia)) as F. rewrite F4 in F. pose proof (fact_quot 24 (S i) (S (S i)) s H F) as Q. rewrite !Rabs_mult, (Rabs_right 6) by lra.
      assert (0 <= Rabs (INR (fact (S i)) / (2 - s) ^ S (S i))) by apply Rabs_pos. apply Rle_trans with (6 * 24 * e); [|lra]. apply Rmult_le_compat; lra.
  - intros i s v Hi H j. destruct j as [[]|[]]; unfold cube_A.
    + destruct i; apply is_derive_cst.
    + change (fact (S (S i))) with ((S (S i)) * fact (S i))%nat. rewrite mult_INR. set (c := INR (fact (S i))).
      apply (is_derive_ext (fun t => 6 * v (inl tt) * (c / (2 - t) ^ S (S i)))); [intros; rr; unfold Rdiv; ring|].
      eapply is_derive_eq; [apply is_derive_scal, power_derive, H|]. rr. unfold Rdiv. ring.
  - intros s v e H He B j. pose proof (B (inl tt)) as B1. pose proof (Rabs_pos (v (inl tt))) as B3. assert (E2 : 0 <= e ^ 2) by apply pow2_ge_0.
    destruct j as [[]|[]]; unfold cube_field, phase_field, cube_force, cube_orbit, cube_A.
    + match goal with |- Rabs ?X <= _ => replace X with 0 by ring end. rewrite Rabs_R0. lra.
    + destruct (OB s H) as [O1 O2]. set (x := / (2 - s)) in *. change (INR (fact 1)) with 1.
      replace (2 * (x + v (inl tt)) ^ 3 - 2 * x ^ 3 - 6 * (1 / (2 - s) ^ 2) * v (inl tt)) with ((6 * x + 2 * v (inl tt)) * v (inl tt) ^ 2) by (unfold x; field; lra).
      rewrite Rabs_mult, <- RPow_abs. apply Rmult_le_compat; [apply Rabs_pos|apply pow2_ge_0| |apply pow_incr; lra].
      eapply Rle_trans; [apply Rabs_triang|]. rewrite !Rabs_mult, (Rabs_right 6), (Rabs_right 2), (Rabs_right x) by lra. lra.
  - intros s x x' e H W W' D j. destruct (OB s H) as [O1 O2]. pose proof (D (inl tt)) as D1. pose proof (D (inr tt)) as D2. pose proof (W (inl tt)) as W1. pose proof (W' (inl tt)) as W2. unfold cube_orbit in W1, W2.
    set (o := / (2 - s)) in *. destruct j as [[]|[]]; unfold cube_field, phase_field, cube_force; [pose proof (Rabs_pos (x (inr tt) - x' (inr tt))); lra|].
    assert (X : Rabs (x (inl tt)) <= 2) by (replace (x (inl tt)) with ((x (inl tt) - o) + o) by ring; eapply Rle_trans; [apply Rabs_triang|]; rewrite (Rabs_right o) by lra; lra).
    assert (X' : Rabs (x' (inl tt)) <= 2) by (replace (x' (inl tt)) with ((x' (inl tt) - o) + o) by ring; eapply Rle_trans; [apply Rabs_triang|]; rewrite (Rabs_right o) by lra; lra).
    replace (2 * x (inl tt) ^ 3 - 2 * x' (inl tt) ^ 3) with (2 * (x (inl tt) * x (inl tt) + x (inl tt) * x' (inl tt) + x' (inl tt) * x' (inl tt)) * (x (inl tt) - x' (inl tt))) by ring.
    rewrite Rabs_mult. pose proof (Rabs_pos (x (inl tt) - x' (inl tt))). apply Rle_trans with (24 * e); [|lra]. apply Rmult_le_compat; [apply Rabs_pos|lra| |lra].
    rewrite Rabs_mult, (Rabs_right 2) by lra. pose proof (Rabs_pos (x (inl tt))). pose proof (Rabs_pos (x' (inl tt))).
    pose proof (Rabs_triang (x (inl tt) * x (inl tt) + x (inl tt) * x' (inl tt)) (x' (inl tt) * x' (inl tt))) as T1. pose proof (Rabs_triang (x (inl tt) * x (inl tt)) (x (inl tt) * x' (inl tt))) as T2. rewrite !Rabs_mult in *. nra.
Qed.
Lemma along_forward {J : Type} (f : RR -> vec J -> vec J) : clock_field f 0 1 = f.
Proof. apply functional_extensionality. intros s. apply functional_extensionality. intros x. apply functional_extensionality. intros j. unfold clock_field. rewrite Rmult_1_l, Rplus_0_l, Rmult_1_l. reflexivity. Qed.
