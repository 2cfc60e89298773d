(** C26: leapfrog is time-reversible and symplectic. *)
From Coq Require Import Reals Lra List Lia.
From Coquelicot Require Import Coquelicot.
From Verif.Lib Require Import RealAux.
From Verif.Model Require Import Symplectic.
From Verif.Spec Require Import SymplecticSpec.
From Verif.Proofs Require Import SymplecticProofs.
Import ListNotations.
Open Scope R_scope.
Notation RR := RbaseSymbolsImpl.R (only parsing).

(** The function returns the drift-kick-drift composition with a step that divides the first output step, for every force. *)
Theorem C26_leapfrog_is_composition : forall (J : Type) (F : RR -> vec J -> vec J) js rtol atol qo po t0 t1 ts, t1 <> t0 ->
  exists k, (k <= 14)%nat /\ leapfrog F js 16 rtol atol qo po (t0 :: t1 :: ts) =
    Some (map (fun i => dk_run F leapfrog_scheme ((t1 - t0) / 2 ^ k) (i * 2 ^ k) (qo, po, t0)) (seq 0 (length (t0 :: t1 :: ts)))).
Proof. intros J F js rtol atol qo po t0 t1 ts. apply leapfrog_run. Qed.
Print Assumptions C26_leapfrog_is_composition.

(** Forwards over a grid and then backwards over the reversed grid from the last point: the second call returns the rows of the first in
    reverse order, provided the two calls settle on the same step.  Time-dependent forces included. *)
Theorem C26_reversed_grid : forall (J : Type) (F : RR -> vec J -> vec J) js rtol atol qo po t0 h n qN pN out dt,
  h <> 0 -> (0 < n)%nat -> let grid := map (fun i => t0 + INR i * h) (seq 0 (S n)) in
  est_py 16 (lf_error F js qo po t0 rtol atol) h (h * 2) 2 = Some dt ->
  est_py 16 (lf_error F js qN pN (t0 + INR n * h) rtol atol) (- h) (- h * 2) 2 = Some (- dt) ->
  leapfrog F js 16 rtol atol qo po grid = Some out -> last out (qo, po, t0) = (qN, pN, t0 + INR n * h) ->
  leapfrog F js 16 rtol atol qN pN (rev grid) = Some (rev out).
Proof. intros J F js rtol atol qo po t0 h n qN pN out dt. apply leapfrog_there_and_back. Qed.
Print Assumptions C26_reversed_grid.

(** At a fixed number of sub-steps, any number of output intervals is undone by the negated step, for every force ... *)
Theorem C26_inverse : forall (J : Type) (F : RR -> vec J -> vec J) dt ndt n s, (0 < ndt)%nat ->
  Nat.iter n (lf_interval F (- dt) ndt) (Nat.iter n (lf_interval F dt ndt) s) = s.
Proof.
  intros J F dt ndt n s H. induction n; auto. rewrite (iter_S n (lf_interval F dt ndt)), (iter_S n (lf_interval F (- dt) ndt)), <- iter_swap.
  rewrite (lf_interval_run F dt), (lf_interval_run F (- dt)) by auto. rewrite run_inv by exact leapfrog_palindrome. auto.
Qed.
Print Assumptions C26_inverse.
(** ... and by reversing the velocities and integrating again, for every force that does not depend on time. *)
Theorem C26_velocity_reversal : forall (J : Type) (F : RR -> vec J -> vec J) dt ndt n s, (0 < ndt)%nat ->
  (forall t t' q, F t q = F t' q) ->
  let s' := Nat.iter n (lf_interval F dt ndt) (flipv (Nat.iter n (lf_interval F dt ndt) s)) in
  pos s' = pos s /\ mom s' = mom (flipv s).
Proof.
  intros J F dt ndt n s H A.
  assert (E : forall n s, Nat.iter n (lf_interval F dt ndt) s = dk_run F leapfrog_scheme dt (n * ndt) s).
  { clear s n. induction n; intros s; auto. rewrite iter_S, IHn, lf_interval_run by auto. rewrite <- run_add. reflexivity. }
  cbv zeta. rewrite !E. destruct (run_reversible F A leapfrog_scheme dt (n * ndt) s leapfrog_palindrome) as [P M].
  split; [rewrite P; destruct s as [[? ?] ?]; reflexivity|exact M].
Qed.
Print Assumptions C26_velocity_reversal.

(** The map from the initial condition to any output row is symplectic (hence preserves phase-space volume) wherever the force is
    differentiable with a symmetric Jacobian at the points where it is evaluated. *)
Theorem C26_symplectic : forall (J : Type) (js : list J) (F : RR -> vec J -> vec J) K dt ndt t q p, (0 < ndt)%nat ->
  (forall t' q', kicked_at F leapfrog_scheme dt ndt (q, p, t) t' q' -> force_jacobian js F t' q' (K t' q') /\ symmetric js (K t' q')) ->
  symplectic_at js (fun x => fst (lf_interval F dt ndt (x, t))) (q, p).
Proof.
  intros J js F K dt ndt t q p H HK. destruct (run_symplectic js F K leapfrog_scheme dt ndt t (q, p) HK) as (D & T & S).
  exists D. split; auto. intros u c s E A B. destruct (T u c s E A B) as [P Q]. split; intros j.
  - eapply is_derive_ext; [|exact (P j)]. intros x. cbn beta. rewrite lf_interval_run by auto. reflexivity.
  - eapply is_derive_ext; [|exact (Q j)]. intros x. cbn beta. rewrite lf_interval_run by auto. reflexivity.
Qed.
Print Assumptions C26_symplectic.
Theorem C26_symplectic_rows : forall (J : Type) (js : list J) (F : RR -> vec J -> vec J) K dt n t q p,
  (forall t' q', kicked_at F leapfrog_scheme dt n (q, p, t) t' q' -> force_jacobian js F t' q' (K t' q') /\ symmetric js (K t' q')) ->
  symplectic_at js (fun x => fst (dk_run F leapfrog_scheme dt n (x, t))) (q, p).
Proof. intros J js F K dt n t q p. apply run_symplectic. Qed.
Print Assumptions C26_symplectic_rows.

(** Two coupled oscillators *)
Example C26_symplectic_nonvacuous : symplectic_at both (fun x => fst (lf_interval coupled (1 / 10) 3 (x, 0))) (fun _ => 1, fun _ => 0).
Proof. apply (C26_symplectic bool both coupled coupled_hess); [lia|]. intros t q _. split; [apply coupled_jac|apply coupled_sym]. Qed.
(** Free fall along one axis *)
Example C26_reversed_grid_nonvacuous : exists out qN pN,
  let grid := map (fun i => 0 + INR i * 1) (seq 0 3) in
  leapfrog uniform both 16 (1 / 10) (1 / 10) (fun _ => 0) (fun _ => 1) grid = Some out /\
  leapfrog uniform both 16 (1 / 10) (1 / 10) qN pN (rev grid) = Some (rev out) /\ length out = 3%nat.
Proof.
  pose proof (leapfrog_dt uniform both (1 / 10) (1 / 10) (fun _ => 0) (fun _ => 1) (0 + INR 0 * 1) (0 + INR 1 * 1) [0 + INR 2 * 1] (0 + INR 1 * 1 - (0 + INR 0 * 1)) 0) as L.
  assert (D1 : 0 + INR 1 * 1 - (0 + INR 0 * 1) = 1) by (cbn [INR]; ring).
  set (out := map (fun i => dk_run uniform leapfrog_scheme (0 + INR 1 * 1 - (0 + INR 0 * 1)) (i * 2 ^ 0) (fun _ => 0, fun _ => 1, 0 + INR 0 * 1)) (seq 0 3)).
  assert (E1 : leapfrog uniform both 16 (1 / 10) (1 / 10) (fun _ => 0) (fun _ => 1) (map (fun i => 0 + INR i * 1) (seq 0 3)) = Some out).
  { apply L. - intros X. apply (f_equal (fun z => z - (0 + INR 0 * 1))) in X. rewrite D1 in X. lra.
    - rewrite D1. apply est_zero; [lra|]. intros; apply uniform_error. - rewrite D1. change (2 ^ 0) with 1. field. }
  destruct (last out (fun _ => 0, fun _ => 1, 0)) as [[qN pN] tN] eqn:EL.
  exists out, qN, pN. cbv zeta. split; [exact E1|]. split; [|reflexivity].
  apply (C26_reversed_grid bool uniform both (1 / 10) (1 / 10) (fun _ => 0) (fun _ => 1) 0 1 2 qN pN out 1); auto; try lra.
  - apply est_zero; [lra|]. intros; apply uniform_error.
  - apply est_zero; [lra|]. intros; apply uniform_error.
  - assert (EL' : last out (fun _ : bool => 0, fun _ : bool => 1, 0) = (qN, pN, tN)) by exact EL.
    etransitivity; [exact EL'|]. f_equal.
    assert (T : time (last out (fun _ => 0, fun _ => 1, 0)) = 0 + INR 2 * 1).
    { unfold out. cbn [seq map last]. rewrite run_time, D1, leapfrog_drift1. unfold time. cbn [snd]. replace (2 * 2 ^ 0)%nat with 2%nat by reflexivity. cbn [INR]. ring. }
    rewrite EL' in T. exact T.
Qed.
