(** C54: the Runge-Kutta and leapfrog integrators converge to the orbit at their order. *)
From Coq Require Import Reals Lra Lia List ZArith.
From Coquelicot Require Import Coquelicot.
From Flocq Require Import IEEE754.Binary IEEE754.Bits.
From Verif.Model Require Import Symplectic RungeKutta.
From Verif.Spec Require Import OrderSpec.
From Verif.Proofs Require Import RKOrder RKLoops RKMain LFOrder.
Import ListNotations.
Open Scope R_scope.
Notation RR := RbaseSymbolsImpl.R (only parsing).

Lemma sig_nz sigma dt : sigma = 1 \/ sigma = -1 -> 0 < dt -> sigma * dt <> 0.
Proof. intros [-> | ->] H; lra. Qed.
Lemma sig_div sigma dt m : sigma * (dt / INR m) = sigma * dt / INR m.
Proof. unfold Rdiv. ring. Qed.
Lemma div_le dt m : 0 < dt -> (1 <= m)%nat -> dt / INR m <= dt.
Proof.
  intros H Hm. apply le_INR in Hm. cbn in Hm. apply (Rmult_le_reg_r (INR m)); [lra|]. unfold Rdiv. rewrite Rmult_assoc, Rinv_l by lra. nra.
Qed.
(** What a call of rk4_c or rk6_c has to return: nt rows, the i-th within C h^p of the orbit at the i-th requested time; [z] is the orbit on
    the clock t = t0 + sigma s. *)
Definition rows_on_orbit {J : Type} (z : RR -> J -> RR) (dt err : RR) (nt : nat) (rows : list (J -> RR)) : Prop :=
  length rows = nt /\ forall i, (i < nt)%nat -> within err (nth i rows (z 0)) (z (INR i * dt)).

(** rk4_c: with a step that divides the output step m times, and with the step that the integrator finds itself, forwards and backwards. *)
Theorem C54_rk4 : forall (J : Type) (f : RR -> vec J -> vec J) (z : RR -> vec J) t0 sigma T delta, 0 < T -> 0 < delta -> sigma = 1 \/ sigma = -1 ->
  smooth_near (clock_field f t0 sigma) z T delta 5 ->
  exists C h1, 0 <= C /\ 0 < h1 /\ forall dt nt js s root, 0 < dt -> (1 <= nt)%nat -> INR (nt - 1) * dt <= T ->
    (forall m fuel, (1 <= m)%nat -> dt / INR m <= h1 ->
      exists rows, rk_c (rk4_onestep f) js s root fuel (Some (sigma * (dt / INR m))) (z 0) t0 (sigma * dt) nt = Some rows /\ rows_on_orbit z dt (C * (dt / INR m) ^ 4) nt rows) /\
    (dt <= h1 -> exists m rows, (1 <= m)%nat /\ rk_c (rk4_onestep f) js s root 14 None (z 0) t0 (sigma * dt) nt = Some rows /\ rows_on_orbit z dt (C * (dt / INR m) ^ 4) nt rows).
Proof.
  intros J f z t0 sigma T delta HT Hd Hsig HS. destruct (rk4_main f z t0 sigma T delta HT Hd HS) as (C & h1 & HC & Hh & H). exists C, h1. split; [exact HC|]. split; [exact Hh|].
  intros dt nt js s root Hdt Hnt HnT. pose proof (sig_nz sigma dt Hsig Hdt) as Hnz.
  split.
  - intros m fuel Hm Hle. unfold rk_c. rewrite sig_div, ndt_div, Nat2Z.id, <- sig_div by assumption. eexists. split; [reflexivity|]. apply H; try assumption. lra.
  - intros Hle. destruct (estimate_divides (rk4_onestep f) js s root (z 0) t0 (sigma * dt) Hnz) as (m & Hm & E & N). exists m. unfold rk_c. rewrite E, N, Nat2Z.id, <- sig_div.
    eexists. split; [lia|]. split; [reflexivity|]. apply H; try assumption; [lia|lra|]. pose proof (div_le dt m Hdt ltac:(lia)). lra.
Qed.
Print Assumptions C54_rk4.
Theorem C54_rk6 : forall (J : Type) (f : RR -> vec J -> vec J) (z : RR -> vec J) t0 sigma T delta, 0 < T -> 0 < delta -> sigma = 1 \/ sigma = -1 ->
  smooth_near (clock_field f t0 sigma) z T delta 7 ->
  exists C h1, 0 <= C /\ 0 < h1 /\ forall dt nt js s root, 0 < dt -> (1 <= nt)%nat -> INR (nt - 1) * dt <= T ->
    (forall m fuel, (1 <= m)%nat -> dt / INR m <= h1 ->
      exists rows, rk_c (rk6_onestep f) js s root fuel (Some (sigma * (dt / INR m))) (z 0) t0 (sigma * dt) nt = Some rows /\ rows_on_orbit z dt (C * (dt / INR m) ^ 6) nt rows) /\
    (dt <= h1 -> exists m rows, (1 <= m)%nat /\ rk_c (rk6_onestep f) js s root 14 None (z 0) t0 (sigma * dt) nt = Some rows /\ rows_on_orbit z dt (C * (dt / INR m) ^ 6) nt rows).
Proof.
  intros J f z t0 sigma T delta HT Hd Hsig HS. destruct (rk6_main f z t0 sigma T delta HT Hd HS) as (C & h1 & HC & Hh & H). exists C, h1. split; [exact HC|]. split; [exact Hh|].
  intros dt nt js s root Hdt Hnt HnT. pose proof (sig_nz sigma dt Hsig Hdt) as Hnz.
  split.
  - intros m fuel Hm Hle. unfold rk_c. rewrite sig_div, ndt_div, Nat2Z.id, <- sig_div by assumption. eexists. split; [reflexivity|]. apply H; try assumption. lra.
  - intros Hle. destruct (estimate_divides (rk6_onestep f) js s root (z 0) t0 (sigma * dt) Hnz) as (m & Hm & E & N). exists m. unfold rk_c. rewrite E, N, Nat2Z.id, <- sig_div.
    eexists. split; [lia|]. split; [reflexivity|]. apply H; try assumption; [lia|lra|]. pose proof (div_le dt m Hdt ltac:(lia)). lra.
Qed.
Print Assumptions C54_rk6.
(** dopr54_c, for every choice of accepted steps: it ends, whatever the error estimate says, and the rows are within C dt^5 of the orbit. *)
Theorem C54_dopr54 : forall (J : Type) (f : RR -> vec J -> vec J) (z : RR -> vec J) t0 sigma T delta power, 0 < T -> 0 < delta -> sigma = 1 \/ sigma = -1 ->
  smooth_near (clock_field f t0 sigma) z T delta 6 ->
  exists C h1, 0 <= C /\ 0 < h1 /\ forall dt nt js s root given, 0 < dt <= h1 -> (1 <= nt)%nat -> INR (nt - 1) * dt <= T ->
    (given = None \/ exists e, 0 < e /\ given = Some (sigma * e)) ->
    (exists fuel rows, dopr54_c f power js s root 14 fuel given (z 0) t0 (sigma * dt) nt = Some rows) /\
    (forall fuel rows, dopr54_c f power js s root 14 fuel given (z 0) t0 (sigma * dt) nt = Some rows -> rows_on_orbit z dt (C * dt ^ 5) nt rows).
Proof.
  intros J f z t0 sigma T delta power HT Hd Hsig HS. destruct (dopr54_main f z t0 sigma T delta HT Hd Hsig HS power) as (C & h1 & HC & Hh & H). exists C, h1. split; [exact HC|]. split; [exact Hh|].
  intros dt nt js s root given Hdt Hnt HnT HG. pose proof (sig_nz sigma dt Hsig ltac:(lra)) as Hnz.
  assert (GE : exists e, 0 < e /\ match given with Some d => Some d | None => estimate (rk4_onestep f) js s root 14 (z 0) t0 (sigma * dt) end = Some (sigma * e)).
  { destruct HG as [-> | (e & He & ->)]; [|exists e; split; [exact He|reflexivity]].
    destruct (estimate_divides (rk4_onestep f) js s root (z 0) t0 (sigma * dt) Hnz) as (m & Hm & E & _). exists (dt / INR m). split; [|rewrite sig_div; exact E].
    apply Rdiv_lt_0_compat; [lra|apply lt_0_INR; lia]. }
  destruct GE as (e & He & GE). unfold dopr54_c. rewrite GE. split.
  - destruct (dopr54_rows_end f t0 sigma Hsig power dt e (nt - 1) (z 0) ltac:(lra) He) as (fuel & rows & E). exists fuel, (z 0 :: rows). rewrite E. reflexivity.
  - intros fuel rows E. destruct (dopr54_rows f power fuel (sigma * dt) (nt - 1) (mkD (z 0) (f t0 (z 0)) t0 (sigma * e))) as [r|] eqn:E1; [|discriminate]. injection E as <-.
    destruct (H dt e (nt - 1)%nat fuel r Hdt He HnT E1) as [L W]. split; [transitivity (S (nt - 1)); [apply (f_equal S); exact L|lia]|]. intros [|i] Hi.
    + cbn [nth]. intros j. cbn [INR]. rewrite Rmult_0_l, Rminus_eq_0, Rabs_R0. apply Rmult_le_pos; [exact HC|apply pow_le; lra].
    + cbn [nth]. apply W. lia.
Qed.
Print Assumptions C54_dopr54.
(** leapfrog, in Python and in C: second order. *)
Theorem C54_leapfrog : forall (J : Type) (F : RR -> vec J -> vec J) (z : RR -> vec (J + J)) t0 sigma T delta, 0 < T -> 0 < delta -> sigma = 1 \/ sigma = -1 ->
  smooth_near (clock_field (phase_field F) t0 sigma) z T delta 3 ->
  exists C h1, 0 <= C /\ 0 < h1 /\ forall dt m n, (1 <= m)%nat -> 0 <= dt -> dt / INR m <= h1 -> INR n * dt <= T -> forall i dflt, (i < n)%nat ->
    let '(q, p, t) := nth i (rows (lf_interval F (sigma * (dt / INR m)) m) n (fun j => z 0 (inl j), fun j => z 0 (inr j), t0)) dflt in
    t = t0 + sigma * (INR (S i) * dt) /\
    within (C * (dt / INR m) ^ 2) q (fun j => z (INR (S i) * dt) (inl j)) /\ within (C * (dt / INR m) ^ 2) p (fun j => z (INR (S i) * dt) (inr j)).
Proof.
  intros J F z t0 sigma T delta HT Hd Hsig HS. destruct (leap_main F t0 sigma z T delta HT Hd HS) as (C & h1 & HC & Hh & H). exists C, h1. split; [exact HC|]. split; [exact Hh|].
  intros dt m n Hm Hdt Hle HnT i dflt Hi. specialize (H dt m n Hm Hdt Hle HnT i dflt Hi).
  assert (E0 : (fun j => z 0 (inl j), fun j => z 0 (inr j), t0) = split_at t0 sigma 0 (z 0)) by (unfold split_at; rewrite Rmult_0_r, Rplus_0_r; reflexivity). rewrite E0.
  rewrite rows_iter in * by exact Hi. rewrite lf_intervals in * by lia. rewrite iter_lf in *. rewrite join_split in H. unfold split_at.
  assert (P : 0 < INR m) by (apply lt_0_INR; lia). split; [rewrite mult_INR; field; lra|]. split; intros j; [apply (H (inl j))|apply (H (inr j))].
Qed.
Print Assumptions C54_leapfrog.
(** The hypotheses hold for the orbit x(t) = 1 / (2 - t) of the force 2 x^3. *)
Example C54_hypotheses_met : smooth_near (clock_field cube_field 0 1) cube_orbit 1 1 7 /\ smooth_near (clock_field cube_field 0 1) cube_orbit 1 1 6 /\
  smooth_near (clock_field cube_field 0 1) cube_orbit 1 1 5 /\ smooth_near (clock_field (phase_field cube_force) 0 1) cube_orbit 1 1 3.
Proof. rewrite !along_forward. pose proof cube_smooth as S. split; [exact S|]. split; [|split]; refine (smooth_less _ _ _ _ 7 _ _ S); lia. Qed.
Example C54_rk6_case : exists C h1, 0 <= C /\ 0 < h1 /\ forall m, (1 <= m)%nat -> 1 / 10 / INR m <= h1 ->
  exists rows, rk_c (rk6_onestep cube_field) [inl tt; inr tt] 0 (fun x => x) 0 (Some (1 * (1 / 10 / INR m))) (cube_orbit 0) 0 (1 * (1 / 10)) 11 = Some rows /\
    rows_on_orbit cube_orbit (1 / 10) (C * (1 / 10 / INR m) ^ 6) 11 rows.
Proof.
  destruct (C54_rk6 _ cube_field cube_orbit 0 1 1 1 ltac:(lra) ltac:(lra) (or_introl eq_refl) (proj1 C54_hypotheses_met)) as (C & h1 & HC & Hh & H). exists C, h1. split; [exact HC|]. split; [exact Hh|].
  intros m Hm Hle. apply (proj1 (H (1 / 10) 11%nat [inl tt; inr tt] 0 (fun x => x) ltac:(lra) ltac:(lia) ltac:(cbn; lra))); assumption.
Qed.

(** The step that the integrators find is the output step divided by a whole number below 10000, for every error estimate. *)
Theorem C54_estimate : forall (J : Type) (onestep : vec J -> vec J -> RR -> RR -> vec J) js s root yo t0 dt, dt <> 0 ->
  exists m : nat, (1 <= Z.of_nat m < 10000)%Z /\ estimate onestep js s root 14 yo t0 dt = Some (dt / INR m) /\ ndt_of dt (dt / INR m) = Z.of_nat m.
Proof. intros. apply estimate_divides. assumption. Qed.
Print Assumptions C54_estimate.
(** In double precision the number of steps is not always that number: with output step 0.1 and 11 steps of 0.1 / 11 the integrators take 10
    steps, so that each output interval is integrated over 10/11 of its length. *)
Theorem C54_step_count_refuted : exists (init_dt : binary64) (m : Z), is_finite_strict 53 1024 init_dt = true /\ Bsign 53 1024 init_dt = false /\ (1 <= m < 10000)%Z /\ ndt64 init_dt m <> m.
Proof.
  exists (b64_of_bits 4591870180066957722), 11%Z. split; [vm_compute; reflexivity|]. split; [vm_compute; reflexivity|]. split; [lia|].
  assert (X : ndt64 (b64_of_bits 4591870180066957722) 11 = 10%Z) by (vm_compute; reflexivity). rewrite X. discriminate.
Qed.
Print Assumptions C54_step_count_refuted.
(** A given step of the wrong sign passes the check of Orbit.integrate; dopr54_c then never ends, whatever the error estimate, ... *)
Theorem C54_wrong_sign_dopr54_refuted : exists (f : RR -> vec unit -> vec unit) yo dt given, check_dt dt (Some given) = true /\
  forall power js s root fuel, dopr54_c f power js s root 14 fuel (Some given) yo 0 dt 2 = None.
Proof.
  exists (fun _ _ _ => 1), (fun _ => 0), (-1), (1 / 2). split.
  - unfold check_dt. assert (E : Int_part (-1 / (1 / 2) + 1 / 2) = (-2)%Z).
    { destruct (base_Int_part (-1 / (1 / 2) + 1 / 2)) as [B1 B2]. replace (-1 / (1 / 2) + 1 / 2) with (- (3 / 2)) in * by field. set (k := Int_part (- (3 / 2))) in *.
      assert (K1 : IZR k < IZR (-1)) by lra. assert (K2 : IZR (-3) < IZR k) by lra. apply lt_IZR in K1, K2. lia. }
    rewrite E. destruct (Rlt_dec _ _) as [|X]; [reflexivity|]. exfalso. apply X. replace (-2 * (1 / 2) - -1) with 0 by field. rewrite Rabs_R0. apply Rinv_0_lt_compat, pow_lt. lra.
  - intros power js s root fuel. unfold dopr54_c. cbn [Nat.sub dopr54_rows]. unfold dopr54_onestep. cbn [d_to d_dt].
    set (f := fun (_ : RR) (_ : vec unit) (_ : unit) => 1 : RR).
    assert (G : forall fuel s0, 0 <= d_to s0 -> 0 < d_dt s0 -> dopr54_loop f power fuel 0 (-1) (1 / 2) s0 = None).
    { clear fuel. induction fuel as [|fuel IH]; intros s0 Ht Hd; cbn [dopr54_loop]; destruct (Rle_dec 0 (-1)); try lra; destruct (Rlt_dec (0 + -1) (d_to s0)); try lra; try reflexivity.
      cbv zeta. match goal with |- context [mkD _ _ _ ?x] => set (h := x) end.
      assert (Hh : 0 < h) by (unfold h; destruct (Rlt_dec 10000 _); destruct (Rlt_dec _ _); lra).
      unfold dopr54_actualstep. cbn [d_yo d_a1 d_to d_dt]. destruct (dopr54_propose f (d_yo s0) (d_a1 s0) (d_to s0) h) as [[yn1 yerr] a].
      pose proof (powerRZ_lt 2 (clip3 (power (d_yo s0) yerr)) ltac:(lra)) as P.
      destruct (orb _ _); apply IH; cbn [d_to d_dt]; try lra; apply Rmult_lt_0_compat; lra. }
    rewrite G; [reflexivity|cbn; lra|cbn; lra].
Qed.
Print Assumptions C54_wrong_sign_dopr54_refuted.
(** ... and rk4_c returns a state on the wrong side: 1/2 instead of -1 for x' = 1 from 0 to time -1. *)
Theorem C54_wrong_sign_rk4_refuted : exists (f : RR -> vec unit -> vec unit) (z : RR -> vec unit) dt given rows, check_dt dt (Some given) = true /\
  (forall s, is_derive (fun s => z s tt) s (f s (z s) tt)) /\ rk_c (rk4_onestep f) [tt] 0 (fun x => x) 14 (Some given) (z 0) 0 dt 2 = Some rows /\
  nth 1 rows (z 0) tt = 1 / 2 /\ z dt tt = -1.
Proof.
  exists (fun _ _ _ => 1), (fun s _ => s), (-1), (1 / 2). eexists. split; [|split; [|split; [|split]]].
  - unfold check_dt. assert (E : Int_part (-1 / (1 / 2) + 1 / 2) = (-2)%Z).
    { destruct (base_Int_part (-1 / (1 / 2) + 1 / 2)) as [B1 B2]. replace (-1 / (1 / 2) + 1 / 2) with (- (3 / 2)) in * by field. set (k := Int_part (- (3 / 2))) in *.
      assert (K1 : IZR k < IZR (-1)) by lra. assert (K2 : IZR (-3) < IZR k) by lra. apply lt_IZR in K1, K2. lia. }
    rewrite E. destruct (Rlt_dec _ _) as [|X]; [reflexivity|]. exfalso. apply X. replace (-2 * (1 / 2) - -1) with 0 by field. rewrite Rabs_R0. apply Rinv_0_lt_compat, pow_lt. lra.
  - intros s. apply (is_derive_id s).
  - reflexivity.
  - assert (E : Z.to_nat (ndt_of (-1) (1 / 2)) = 0%nat).
    { unfold ndt_of, ceilZ. replace (-1 / (1 / 2)) with (-2) by field. destruct (Rle_dec 0 (-2)); [lra|]. replace (- -2) with (IZR 2) by ring. destruct (base_Int_part (IZR 2)) as [B1 B2].
      set (k := Int_part (IZR 2)) in *. assert (K : IZR 1 < IZR k) by lra. apply lt_IZR in K. destruct (- k)%Z eqn:Q; [reflexivity|lia|reflexivity]. }
    rewrite E. unfold rk_run. cbn [Nat.sub rk_rows nth]. unfold rk_interval. cbn [Nat.sub Nat.iter nat_rect]. unfold rk_sub, rk4_onestep. cbn [fst snd]. field.
  - reflexivity.
Qed.
Print Assumptions C54_wrong_sign_rk4_refuted.
(** Step control of dopr54: the next step is the present one times 2 to the power found from the error, restricted to -3 .. 3; a step whose power is negative is
    rejected (nothing but the step changes) unless the step already is the smallest allowed; otherwise the state and the time advance by the step used. *)
Theorem C54_step_control : forall J (f : RR -> vec J -> vec J) power accept (s : dstate), let '(yn1, yerr, a) := dopr54_propose f (d_yo s) (d_a1 s) (d_to s) (d_dt s) in
  let p := Z.max (-3) (Z.min 3 (power (d_yo s) yerr)) in let s' := dopr54_actualstep f power accept s in
  d_dt s' = d_dt s * powerRZ 2 p /\
  ((p < 0)%Z -> accept = false -> d_yo s' = d_yo s /\ d_a1 s' = d_a1 s /\ d_to s' = d_to s) /\
  ((0 <= p)%Z \/ accept = true -> d_yo s' = yn1 /\ d_a1 s' = a /\ d_to s' = d_to s + d_dt s).
Proof.
  intros J f power accept s. unfold dopr54_actualstep. destruct (dopr54_propose f (d_yo s) (d_a1 s) (d_to s) (d_dt s)) as [[yn1 yerr] a]. cbv zeta.
  assert (E : clip3 (power (d_yo s) yerr) = Z.max (-3) (Z.min 3 (power (d_yo s) yerr))) by (unfold clip3; destruct (Z.ltb_spec 3 (power (d_yo s) yerr)); [lia|]; destruct (Z.ltb_spec (power (d_yo s) yerr) (-3)); lia).
  rewrite E. set (p := Z.max _ _). destruct (Z.leb_spec 0 p) as [H|H]; cbn [orb].
  - split; [reflexivity|]. split; [lia|]. intros _. repeat split; reflexivity.
  - destruct accept; (split; [reflexivity|]); split; intros; try discriminate; try (repeat split; reflexivity). destruct H0; [lia|discriminate].
Qed.
Print Assumptions C54_step_control.
