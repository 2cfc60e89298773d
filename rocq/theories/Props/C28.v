(** C28: the C symplectic integrators are palindromic compositions. *)
From Coq Require Import Reals Lra List Lia.
From Coquelicot Require Import Coquelicot.
From Verif.Lib Require Import RealAux.
From Verif.Model Require Import Symplectic.
From Verif.Spec Require Import SymplecticSpec.
From Verif.Proofs Require Import SymplecticProofs.
Import ListNotations.
Open Scope R_scope.
Notation RR := RbaseSymbolsImpl.R (only parsing).

(** The loops, with the last drift of one sub-step merged into the first of the next, compute the composition of the published coefficients. *)
Theorem C28_symplec4_is_composition : forall (J : Type) (F : RR -> vec J -> vec J) dt ndt s, (0 < ndt)%nat ->
  s4_interval F dt ndt s = dk_run F fourth_order dt ndt s.
Proof. intros J F dt ndt s. apply s4_interval_run. Qed.
Print Assumptions C28_symplec4_is_composition.
Theorem C28_symplec6_is_composition : forall (J : Type) (F : RR -> vec J -> vec J) dt ndt s, (0 < ndt)%nat ->
  s6_interval F dt ndt s = dk_run F sixth_order dt ndt s.
Proof. intros J F dt ndt s. apply s6_interval_run. Qed.
Print Assumptions C28_symplec6_is_composition.
Theorem C28_leapfrog_is_composition : forall (J : Type) (F : RR -> vec J -> vec J) dt ndt s, (0 < ndt)%nat ->
  lf_interval F dt ndt s = dk_run F leapfrog_scheme dt ndt s.
Proof. intros J F dt ndt s. apply lf_interval_run. Qed.
Print Assumptions C28_leapfrog_is_composition.

Theorem C28_palindromes : palindrome leapfrog_scheme /\ palindrome fourth_order /\ palindrome sixth_order.
Proof. split; [exact leapfrog_palindrome|split; [exact fourth_palindrome|exact sixth_palindrome]]. Qed.
Print Assumptions C28_palindromes.

(** Each output interval is inverted by the interval with negated dt, for every force (time-dependent ones included). *)
Theorem C28_inverse : forall (J : Type) (F : RR -> vec J -> vec J) interval,
  In interval [lf_interval F; s4_interval F; s6_interval F] -> forall dt ndt n s, (0 < ndt)%nat ->
  Nat.iter n (interval (- dt) ndt) (Nat.iter n (interval dt ndt) s) = s.
Proof.
  intros J F interval HI dt ndt n s H.
  assert (E : exists l, palindrome l /\ forall dt ndt s, (0 < ndt)%nat -> interval dt ndt s = dk_run F l dt ndt s).
  { cbn in HI. destruct HI as [<-|[<-|[<-|[]]]]; eexists; (split; [|intros; first [apply lf_interval_run|apply s4_interval_run|apply s6_interval_run]; auto]);
    [exact leapfrog_palindrome|exact fourth_palindrome|exact sixth_palindrome]. }
  destruct E as (l & P & E). induction n; auto. rewrite (iter_S n (interval dt ndt)), (iter_S n (interval (- dt) ndt)), <- iter_swap.
  rewrite (E dt), (E (- dt)) by auto. rewrite run_inv by auto. auto.
Qed.
Print Assumptions C28_inverse.
(** Reversing the velocities retraces the orbit when the force does not depend on time. *)
Theorem C28_velocity_reversal : forall (J : Type) (F : RR -> vec J -> vec J) interval,
  In interval [lf_interval F; s4_interval F; s6_interval F] -> (forall t t' q, F t q = F t' q) -> forall dt ndt s, (0 < ndt)%nat ->
  let s' := interval dt ndt (flipv (interval dt ndt s)) in pos s' = pos s /\ mom s' = mom (flipv s).
Proof.
  intros J F interval HI A dt ndt s H.
  assert (E : exists l, palindrome l /\ forall dt ndt s, (0 < ndt)%nat -> interval dt ndt s = dk_run F l dt ndt s).
  { cbn in HI. destruct HI as [<-|[<-|[<-|[]]]]; eexists; (split; [|intros; first [apply lf_interval_run|apply s4_interval_run|apply s6_interval_run]; auto]);
    [exact leapfrog_palindrome|exact fourth_palindrome|exact sixth_palindrome]. }
  destruct E as (l & P & E). cbv zeta. rewrite !E by auto. destruct (run_reversible F A l dt ndt s P) as [X M].
  split; [rewrite X; destruct s as [[? ?] ?]; reflexivity|exact M].
Qed.
Print Assumptions C28_velocity_reversal.
(** Symplectic at every initial condition along which the force has a symmetric Jacobian *)
Theorem C28_symplectic : forall (J : Type) (js : list J) (F : RR -> vec J -> vec J) K interval scheme,
  In (interval, scheme) [(lf_interval F, leapfrog_scheme); (s4_interval F, fourth_order); (s6_interval F, sixth_order)] ->
  forall dt ndt t x, (0 < ndt)%nat ->
  (forall t' q', kicked_at F scheme dt ndt (x, t) t' q' -> force_jacobian js F t' q' (K t' q') /\ symmetric js (K t' q')) ->
  symplectic_at js (fun x => fst (interval dt ndt (x, t))) x.
Proof.
  intros J js F K interval scheme HI dt ndt t x H HK.
  assert (E : forall dt ndt s, (0 < ndt)%nat -> interval dt ndt s = dk_run F scheme dt ndt s).
  { cbn in HI. destruct HI as [E|[E|[E|[]]]]; injection E as <- <-; intros; first [apply lf_interval_run|apply s4_interval_run|apply s6_interval_run]; auto. }
  destruct (run_symplectic js F K scheme dt ndt t x HK) as (D & T & S).
  exists D. split; auto. intros u c s E0 A B. destruct (T u c s E0 A B) as [P Q]. split; intros j.
  - eapply is_derive_ext; [|exact (P j)]. intros z. cbn beta. rewrite E by auto. reflexivity.
  - eapply is_derive_ext; [|exact (Q j)]. intros z. cbn beta. rewrite E by auto. reflexivity.
Qed.
Print Assumptions C28_symplectic.

(** The coefficients sum to one up to the rounding of their published decimals: *)
Theorem C28_coefficient_sums : Rabs (drift_sum fourth_order - 1) <= 5 / 10 ^ 15 /\ Rabs (kick_sum fourth_order - 1) <= 5 / 10 ^ 15 /\
  Rabs (drift_sum sixth_order - 1) <= 5 / 10 ^ 15 /\ Rabs (kick_sum sixth_order - 1) <= 5 / 10 ^ 15 /\
  drift_sum leapfrog_scheme = 1 /\ kick_sum leapfrog_scheme = 1.
Proof.
  assert (P15 : 10 ^ 15 = 1000000000000000) by (unfold pow; lra).
  rewrite fourth_drift, fourth_kick, sixth_drift, sixth_kick, leapfrog_drift1, p16, P15.
  split; [|split; [|split; [|split; [|split]]]]; auto; try (apply Rabs_le; lra). unfold kick_sum, leapfrog_scheme. cbn [fold_right]. ring.
Qed.
Print Assumptions C28_coefficient_sums.
(** but not exactly, *)
Theorem C28_exact_sums_refuted : exists scheme, In scheme [fourth_order; sixth_order] /\ (drift_sum scheme <> 1 \/ kick_sum scheme <> 1).
Proof. exists fourth_order. split; [left; auto|]. left. rewrite fourth_drift, p16. intros X. lra. Qed.
Print Assumptions C28_exact_sums_refuted.
(** so the time at which the force is evaluated drifts from the requested one by at most 5e-15 of the time integrated. *)
Theorem C28_time_drift : forall (J : Type) (F : RR -> vec J -> vec J) scheme dt n s, In scheme [fourth_order; sixth_order] ->
  Rabs (time (dk_run F scheme dt n s) - (time s + INR n * dt)) <= INR n * Rabs dt * (5 / 10 ^ 15).
Proof.
  intros J F scheme dt n s HI. rewrite run_time.
  replace (time s + INR n * (drift_sum scheme * dt) - (time s + INR n * dt)) with (INR n * dt * (drift_sum scheme - 1)) by ring.
  rewrite !Rabs_mult, (Rabs_pos_eq (INR n)) by apply pos_INR. apply Rmult_le_compat_l.
  - apply Rmult_le_pos; [apply pos_INR|apply Rabs_pos].
  - destruct C28_coefficient_sums as (A & _ & B & _). cbn in HI. destruct HI as [<-|[<-|[]]]; auto.
Qed.
Print Assumptions C28_time_drift.

Example C28_symplectic_nonvacuous : symplectic_at both (fun x => fst (s6_interval coupled (1 / 10) 3 (x, 0))) (fun _ => 1, fun _ => 0).
Proof.
  apply (C28_symplectic bool both coupled coupled_hess _ sixth_order); [right; right; left; auto|lia|]. intros t q _. split; [apply coupled_jac|apply coupled_sym].
Qed.
Example C28_inverse_nonvacuous : Nat.iter 5 (s4_interval coupled (- (1 / 10)) 3) (Nat.iter 5 (s4_interval coupled (1 / 10) 3) (fun _ => 1, fun _ => 0, 2)) = (fun _ => 1, fun _ => 0, 2).
Proof. apply (C28_inverse bool coupled (s4_interval coupled)); [right; left; auto|lia]. Qed.
