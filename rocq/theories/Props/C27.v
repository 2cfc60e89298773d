(** C27: step-size estimation terminates with a divisor of the output step. *)
From Coq Require Import Reals Lra List Lia ZArith.
From Coquelicot Require Import Coquelicot.
From Verif.Lib Require Import RealAux.
From Verif.Model Require Import Symplectic.
From Verif.Spec Require Import SymplecticSpec.
From Verif.Proofs Require Import SymplecticProofs.
Import ListNotations.
Open Scope R_scope.
Notation RR := RbaseSymbolsImpl.R (only parsing).

(** Whatever the error estimate (any force, initial condition, tolerance), both loops end, with the output step halved at most 14 times. *)
Theorem C27_python_estimate_terminates : forall error init, init <> 0 ->
  exists k, (k <= 14)%nat /\ est_py 16 error init (init * 2) 2 = Some (init / 2 ^ k).
Proof. exact est_py_ok. Qed.
Print Assumptions C27_python_estimate_terminates.
Theorem C27_c_estimate_terminates : forall error init, init <> 0 ->
  exists k, (k <= 14)%nat /\ est_c 16 error init (init * 2) 2 = Some (init / 2 ^ k).
Proof. exact est_c_ok. Qed.
Print Assumptions C27_c_estimate_terminates.
(** More passes change nothing: the loops are over. *)
Lemma more_py error fuel extra init dt err r : est_py fuel error init dt err = Some r -> est_py (fuel + extra) error init dt err = Some r.
Proof. revert dt err. induction fuel; intros dt err H; [discriminate|]. cbn in *. destruct (andb _ _); auto. Qed.
Theorem C27_python_estimate_fuel : forall error init extra, init <> 0 ->
  est_py (16 + extra) error init (init * 2) 2 = est_py 16 error init (init * 2) 2.
Proof. intros error init extra H. destruct (est_py_ok error init H) as (k & _ & E). rewrite E. apply more_py. exact E. Qed.
Print Assumptions C27_python_estimate_fuel.

(** The output has one row per requested time, and on an evenly spaced grid row i is the state at time i of the grid. *)
Theorem C27_rows_cover_grid : forall (J : Type) (F : RR -> vec J -> vec J) js rtol atol qo po t0 h n, h <> 0 -> (0 < n)%nat ->
  let grid := map (fun i => t0 + INR i * h) (seq 0 (S n)) in
  exists out, leapfrog F js 16 rtol atol qo po grid = Some out /\ map time out = grid.
Proof.
  intros J F js rtol atol qo po t0 h n Hh Hn grid. destruct n as [|n]; [lia|].
  assert (G : grid = t0 :: (t0 + h) :: map (fun i => t0 + INR i * h) (seq 2 n)).
  { unfold grid. cbn [seq map]. f_equal; [cbn [INR]; rr|]. f_equal. cbn [INR]. rr. }
  destruct (leapfrog_run F js rtol atol qo po t0 (t0 + h) (map (fun i => t0 + INR i * h) (seq 2 n))) as (k & _ & E). { intros X. apply Hh. lra. }
  rewrite G, E. eexists. split; [reflexivity|]. rewrite <- G. rewrite map_map. rewrite G. cbn [length]. rewrite map_length, seq_length. rewrite <- G.
  unfold grid. apply map_ext. intros i. rewrite run_time, leapfrog_drift1. unfold time. cbn [snd]. rewrite mult_INR, <- pow2_INR.
  assert (P : 0 < 2 ^ k) by (apply pow_lt; lra). field. lra.
Qed.
Print Assumptions C27_rows_cover_grid.

(** The C entry points: a step that divides the output step, given or estimated, covers the grid exactly. *)
Theorem C27_c_steps_divide : forall (J : Type) (F : RR -> vec J -> vec J) interval scheme error given qo po t0 t1 ts,
  In (interval, scheme) [(lf_interval F, leapfrog_scheme); (s4_interval F, fourth_order); (s6_interval F, sixth_order)] ->
  t1 <> t0 -> (forall dt, given = Some dt -> exists n, (0 < n)%nat /\ t1 - t0 = INR n * dt) ->
  exists n, (0 < n)%nat /\ (given = None -> exists k, (k <= 14)%nat /\ n = (2 ^ k)%nat) /\ (forall dt, given = Some dt -> dt = (t1 - t0) / INR n) /\
    c_integrate interval error 16 given qo po (t0 :: t1 :: ts) =
    Some (map (fun i => dk_run F scheme ((t1 - t0) / INR n) (i * n) (qo, po, t0)) (seq 0 (length (t0 :: t1 :: ts)))).
Proof.
  intros J F interval scheme error given qo po t0 t1 ts HI. apply c_run. cbn in HI.
  destruct HI as [E|[E|[E|[]]]]; injection E as <- <-; intros dt ndt s H; [apply lf_interval_run|apply s4_interval_run|apply s6_interval_run]; auto.
Qed.
Print Assumptions C27_c_steps_divide.

(** The limit on the reduction, 10000, can be exceeded: *)
Lemma est_two fuel n k : (k + n = 15)%nat -> (n < fuel)%nat -> est_py fuel (fun _ => 2) 1 (2 / 2 ^ k) 2 = Some (2 / 2 ^ 15).
Proof.
  revert fuel k. induction n; intros fuel k E L; (destruct fuel as [|fuel]; [lia|]); cbn [est_py]; unfold Rgt_b, Rlt_b, max_dt_reduce;
    (destruct (Rlt_dec 1 2); [|lra]); assert (P : 0 < 2 ^ k) by (apply pow_lt; lra);
    (replace (1 / (2 / 2 ^ k)) with (2 ^ k / 2) by (field; lra)).
  - replace k with 15%nat in * by lia. destruct (Rlt_dec (2 ^ 15 / 2) 10000) as [X|_]; [|reflexivity]. exfalso. unfold pow in X. lra.
  - destruct (Rlt_dec (2 ^ k / 2) 10000) as [_|X].
    + cbn [andb]. replace (2 / 2 ^ k / 2) with (2 / 2 ^ S k) by (change (2 ^ S k) with (2 * 2 ^ k); field; lra). apply IHn; lia.
    + exfalso. apply X. assert (2 ^ k <= 2 ^ 14) by (apply Rle_pow; [lra|lia]). assert (2 ^ 14 = 16384) by (unfold pow; lra). lra.
Qed.
Theorem C27_reduction_limit_refuted : exists error init dt, init <> 0 /\ est_py 16 error init (init * 2) 2 = Some dt /\ ~ init / dt <= max_dt_reduce.
Proof.
  exists (fun _ => 2), 1, (2 / 2 ^ 15). split; [lra|]. split.
  - replace (1 * 2) with (2 / 2 ^ 0) by (change (2 ^ 0) with 1; field). apply (est_two 16 15 0); lia.
  - unfold max_dt_reduce. assert (E : 1 / (2 / 2 ^ 15) = 16384) by (unfold pow; field). rewrite E. lra.
Qed.
Print Assumptions C27_reduction_limit_refuted.

(** Called directly on an unevenly spaced grid the function does not return the states at the requested times. *)
Theorem C27_uneven_grid_refuted : exists (F : RR -> vec unit -> vec unit) rtol atol qo po t0 t1 ts out,
  t1 <> t0 /\ leapfrog F [tt] 16 rtol atol qo po (t0 :: t1 :: ts) = Some out /\ map time out <> t0 :: t1 :: ts.
Proof.
  set (F := fun (_ : RR) (_ : vec unit) (_ : unit) => 0 : RR).
  destruct (leapfrog_run F [tt] (1 / 10) (1 / 10) (fun _ => 0) (fun _ => 1) 0 1 [3]) as (k & _ & E); [lra|].
  exists F, (1 / 10), (1 / 10), (fun _ => 0), (fun _ => 1), 0, 1, [3]. eexists. split; [lra|]. split; [exact E|].
  cbn [length seq map]. rewrite !run_time, leapfrog_drift1, !mult_INR, <- pow2_INR. unfold time. cbn [snd INR]. intros X. injection X as _ _ X.
  assert (P : 0 < 2 ^ k) by (apply pow_lt; lra). assert (0 + (1 + 1) * 2 ^ k * (1 * ((1 - 0) / 2 ^ k)) = 2) by (field; lra). lra.
Qed.
Print Assumptions C27_uneven_grid_refuted.

(** A step given by the user: the check of Orbit.integrate accepts a step of the wrong sign, and the C integrator then takes one step in the
    wrong direction per output interval ... *)
Lemma Int_part_is x z : IZR z <= x < IZR z + 1 -> z = Int_part x.
Proof. intros H. unfold Int_part. rewrite <- (tech_up x (z + 1)); [lia|rewrite plus_IZR; lra|rewrite plus_IZR; lra]. Qed.
Lemma trunc_neg n : Z.to_nat (trunc (- INR n)) = 0%nat.
Proof.
  unfold trunc. destruct (Rle_dec 0 (- INR n)) as [H|H].
  - assert (E : INR n = 0) by (pose proof (pos_INR n); lra). rewrite E. replace (- 0) with (INR 0) by (cbn; ring). rewrite Int_part_INR. reflexivity.
  - rewrite Ropp_involutive, Int_part_INR. destruct n; reflexivity.
Qed.
Theorem C27_given_step_wrong_sign_refuted : exists (F : RR -> vec unit -> vec unit) error dt qo po t0 t1 out,
  check_dt (t1 - t0) (Some dt) = true /\ c_integrate (lf_interval F) error 16 (Some dt) qo po [t0; t1] = Some out /\ map time out <> [t0; t1].
Proof.
  set (F := fun (_ : RR) (_ : vec unit) (_ : unit) => 0 : RR).
  exists F, (fun _ => 0), (1 / 2), (fun _ => 0), (fun _ => 1), 0, (-1). eexists. split; [|split].
  - unfold check_dt. assert (E : Int_part ((-1 - 0) / (1 / 2) + 1 / 2) = (-2)%Z).
    { symmetry. apply Int_part_is. replace ((-1 - 0) / (1 / 2) + 1 / 2) with (- (3 / 2)) by field. lra. }
    rewrite E. destruct (Rlt_dec _ _) as [|X]; auto. exfalso. apply X. replace (-2 * (1 / 2) - (-1 - 0)) with 0 by field. rewrite Rabs_R0.
    apply Rinv_0_lt_compat, pow_lt. lra.
  - unfold c_integrate. destruct (Req_EM_T (-1 - 0) 0); [lra|]. reflexivity.
  - replace ((-1 - 0) / (1 / 2)) with (- INR 2) by (cbn [INR]; field). rewrite trunc_neg. cbn. unfold time, lf_interval. cbn. intros X. injection X as X. lra.
Qed.
Print Assumptions C27_given_step_wrong_sign_refuted.
(** ... and one within 1e-10 of a divisor, after which the truncated quotient is one sub-step short: 2 instead of 3. *)
Theorem C27_given_step_truncated_refuted : exists (F : RR -> vec unit -> vec unit) error dt qo po t0 t1 out,
  check_dt (t1 - t0) (Some dt) = true /\ c_integrate (lf_interval F) error 16 (Some dt) qo po [t0; t1] = Some out /\
  exists s, nth_error out 1 = Some s /\ Rabs (time s - t1) > 1 / 4.
Proof.
  set (F := fun (_ : RR) (_ : vec unit) (_ : unit) => 0 : RR). set (h := 1 - / 10 ^ 12). assert (P : 10 ^ 12 = 1000000000000) by (unfold pow; lra).
  assert (P10 : 10 ^ 10 = 10000000000) by (unfold pow; lra).
  exists F, (fun _ => 0), (1 / 3), (fun _ => 0), (fun _ => 1), 0, h. eexists. split; [|split].
  - unfold check_dt. assert (E : Int_part ((h - 0) / (1 / 3) + 1 / 2) = 3%Z).
    { symmetry. apply Int_part_is. unfold h. rewrite P. lra. }
    rewrite E. destruct (Rlt_dec _ _) as [|X]; auto. exfalso. apply X. unfold h. rewrite P, P10. apply Rabs_def1; lra.
  - unfold c_integrate. destruct (Req_EM_T (h - 0) 0); [unfold h in *; rewrite P in *; lra|]. reflexivity.
  - assert (E : trunc ((h - 0) / (1 / 3)) = 2%Z).
    { unfold trunc. destruct (Rle_dec 0 ((h - 0) / (1 / 3))) as [X|X]; [|exfalso; apply X; unfold h; rewrite P; lra].
      symmetry. apply Int_part_is. unfold h. rewrite P. lra. }
    rewrite E. change (Z.to_nat 2) with 2%nat. eexists. split; [cbn [length Nat.sub rows nth_error]; reflexivity|].
    rewrite lf_interval_run by lia. rewrite run_time, leapfrog_drift1. unfold time. cbn [snd INR]. unfold h. rewrite P.
    rewrite Rabs_left; lra.
Qed.
Print Assumptions C27_given_step_truncated_refuted.

Example C27_nonvacuous : exists dt, est_py 16 (lf_error uniform both (fun _ => 0) (fun _ => 1) 0 (1 / 10) (1 / 10)) (1 / 4) (1 / 4 * 2) 2 = Some dt.
Proof. exists (1 / 4). apply est_zero; [lra|]. intros; apply uniform_error. Qed.
