(** C29: the N-body code conserves momentum and angular momentum, moves the centre of mass uniformly, is reversible, and its force is the
    gradient of the softened energy. *)
From Coq Require Import Reals Lra List Lia Arith Bool FunctionalExtensionality Permutation.
From Coquelicot Require Import Coquelicot.
From Verif.Lib Require Import RealAux.
From Verif.Model Require Import Symplectic NBody RectForce PotAPI.
From Verif.Spec Require Import SymplecticSpec NBodySpec.
From Verif.Proofs Require Import SymplecticProofs NBodyProofs RectProofs.
Import ListNotations.
Open Scope R_scope.
Notation RR := RbaseSymbolsImpl.R (only parsing).

Lemma unfold_run {J} (js : list J) nq m ext eps q p t0 t1 ts out : direct_nbody js nq m ext eps q p (t0 :: t1 :: ts) = Some out ->
  exists e l, out = (q, p) :: l /\ nbody_rows js nq m (fun d => plummer_soft d e) ext (S (length ts)) (t1 - t0) t0 q p = Some l.
Proof.
  unfold direct_nbody. set (e := match eps with Some e => e | None => 1 / 100 end).
  change (length (t0 :: t1 :: ts) - 1)%nat with (S (length ts)). exists e.
  destruct (nbody_rows js nq m (fun d => plummer_soft d e) ext (S (length ts)) (t1 - t0) t0 q p) as [l|]; cbn [option_map] in *; [|discriminate].
  injection H as <-. eauto.
Qed.
Lemma run_invariant {J} (js : list J) nq m ext eps q p t0 t1 ts out (Q : RR -> vec (nat * J) -> vec (nat * J) -> Prop) :
  direct_nbody js nq m ext eps q p (t0 :: t1 :: ts) = Some out ->
  (forall e t q p q' p', nbody_step js nq m (fun d => plummer_soft d e) ext (t1 - t0) t q p = Some (q', p') -> Q t q p -> Q (t + (t1 - t0)) q' p') ->
  Q t0 q p -> forall k r, nth_error out k = Some r -> Q (t0 + INR k * (t1 - t0)) (fst r) (snd r).
Proof.
  intros H HS H0 k r Hk. destruct (unfold_run _ _ _ _ _ _ _ _ _ _ _ H) as (e & l & -> & R). destruct k as [|k].
  - cbn in Hk. injection Hk as <-. cbn [fst snd]. replace (t0 + INR 0 * (t1 - t0)) with t0 by (cbn [INR]; ring). auto.
  - cbn in Hk. apply (rows_invariant js nq m (fun d => plummer_soft d e) ext Q (t1 - t0) (HS e) _ _ _ _ _ R H0 k r Hk).
Qed.

(** Without an external potential: any number of particles, dimensions and steps, any softening length. *)
Theorem C29_momentum_conserved : forall (J : Type) (js : list J) nq m eps q p t out k q' p' c,
  direct_nbody js nq m None eps q p t = Some out -> nth_error out k = Some (q', p') -> momentum nq m p' c = momentum nq m p c.
Proof.
  intros J js nq m eps q p t out k q' p' c H Hk. destruct t as [|t0 [|t1 ts]]; try discriminate.
  apply (run_invariant js nq m None eps q p t0 t1 ts out (fun _ _ x => momentum nq m x c = momentum nq m p c) H) with (k := k) (r := (q', p')); auto.
  intros e t q1 p1 q2 p2 E <-. rewrite (momentum_step _ _ _ _ _ _ _ _ _ _ _ c E). unfold ext_force. rewrite so_0; [ring|]. intros; ring.
Qed.
Print Assumptions C29_momentum_conserved.
Theorem C29_centre_of_mass_uniform : forall (J : Type) (js : list J) nq m eps q p t0 t1 ts out k q' p' c,
  direct_nbody js nq m None eps q p (t0 :: t1 :: ts) = Some out -> nth_error out k = Some (q', p') ->
  mass_moment nq m q' c = mass_moment nq m q c + INR k * (t1 - t0) * momentum nq m p c.
Proof.
  intros J js nq m eps q p t0 t1 ts out k q' p' c H Hk.
  pose proof (run_invariant js nq m None eps q p t0 t1 ts out (fun t x v => momentum nq m v c = momentum nq m p c /\
     mass_moment nq m x c = mass_moment nq m q c + (t - t0) * momentum nq m p c) H) as I.
  destruct (I) with (k := k) (r := (q', p')) as [_ E]; auto.
  - intros e t q1 p1 q2 p2 E [A B]. pose proof (momentum_step _ _ _ _ _ _ _ _ _ _ _ c E) as M. unfold ext_force in M. rewrite so_0 in M by (intros; ring).
    split; [lra|]. rewrite (moment_step _ _ _ _ _ _ _ _ _ _ _ c E). rewrite B. replace (momentum nq m p2 c) with (momentum nq m p c) by lra. rewrite A. field.
  - split; auto. ring.
  - cbn [fst snd] in E. rewrite E. ring.
Qed.
Print Assumptions C29_centre_of_mass_uniform.
(** Angular momentum in the (a, b) plane: without external potential, and with one that exerts no torque in that plane. *)
Theorem C29_angular_momentum_conserved : forall (J : Type) (js : list J) nq m ext eps q p t out k q' p' a b,
  (forall f, ext = Some f -> forall t (x : vec J), x a * f t x b - x b * f t x a = 0) ->
  direct_nbody js nq m ext eps q p t = Some out -> nth_error out k = Some (q', p') ->
  angular_momentum nq m q' p' a b = angular_momentum nq m q p a b.
Proof.
  intros J js nq m ext eps q p t out k q' p' a b HT H Hk. destruct t as [|t0 [|t1 ts]]; try discriminate.
  apply (run_invariant js nq m ext eps q p t0 t1 ts out (fun _ x v => angular_momentum nq m x v a b = angular_momentum nq m q p a b) H) with (k := k) (r := (q', p')); auto.
  intros e t q1 p1 q2 p2 E <-. apply (fun H => angular_step _ _ _ _ _ _ _ _ _ _ _ _ _ H E). intros t' x. destruct ext as [f|]; auto.
Qed.
Print Assumptions C29_angular_momentum_conserved.
(** The external force the code derives from a 3D potential has no torque about the z axis when the potential's azimuthal torque vanishes. *)
Theorem C29_axisymmetric_potential_torque : forall Rf zf t (x : vec axis), 0 < x AX ^ 2 + x AY ^ 2 ->
  x AX * rect_force Rf zf zero4 t x AY - x AY * rect_force Rf zf zero4 t x AX = 0.
Proof.
  intros Rf zf t x H. unfold rect_force, at_q, zero4. pose proof (sqrt_lt_R0 _ H) as P. rewrite <- rect_R_sq in P. field. lra.
Qed.
Print Assumptions C29_axisymmetric_potential_torque.

(** Reversing all velocities at the end and running over the same grid returns the rows in reverse with opposite velocities: no
    external potential or one constant in time. *)
Theorem C29_reversible : forall (J : Type) (js : list J) nq m ext eps q p t out q' p' out',
  (forall f, ext = Some f -> forall t t' x, f t x = f t' x) -> direct_nbody js nq m ext eps q p t = Some out ->
  rev (map (fun r => (fst r, fun ic => - snd r ic)) out) = (q', p') :: out' ->
  direct_nbody js nq m ext eps q' p' t = Some ((q', p') :: out').
Proof.
  intros J js nq m ext eps q p t out q' p' out' HS H E. destruct t as [|t0 [|t1 ts]]; try discriminate.
  destruct (unfold_run _ _ _ _ _ _ _ _ _ _ _ H) as (e & l & -> & R). unfold direct_nbody in *.
  set (e' := match eps with Some e => e | None => 1 / 100 end) in *.
  change (length (t0 :: t1 :: ts) - 1)%nat with (S (length ts)) in *.
  destruct (nbody_rows js nq m (fun d => plummer_soft d e') ext (S (length ts)) (t1 - t0) t0 q p) as [l'|] eqn:F; [|discriminate].
  cbn [option_map] in H. injection H as ->.
  assert (ST : steady ext). { unfold steady. destruct ext as [f|]; auto. }
  rewrite (rows_back js nq m (fun d => plummer_soft d e') ext (t1 - t0) _ t0 q p l ST F q' p' out' E). reflexivity.
Qed.
Print Assumptions C29_reversible.

(** The force is minus the gradient of the softened energy: along every motion of the particles the energy changes at minus the
    power of the forces. *)
Theorem C29_force_is_gradient : forall (J : Type) (js : list J) nq m eps t (c : RR -> vec (nat * J)) s d, apart nq js (c s) -> vderive c s d ->
  is_derive (fun x => energy nq m js eps (c x)) s
    (- sum_over (particles nq) (fun i => sum_over js (fun k =>
         m i * nbody_force js nq m (fun d => plummer_soft d eps) None t (c s) (i, k) * d (i, k)))).
Proof. intros J js nq m eps t c s d. apply energy_gradient. Qed.
Print Assumptions C29_force_is_gradient.

(** Massless particles do not influence the others. *)
Theorem C29_test_particles : forall (J : Type) (js : list J) nq m ext eps q p qa pa t out outa,
  (forall i c, (i < nq)%nat -> m i <> 0 -> q (i, c) = qa (i, c) /\ p (i, c) = pa (i, c)) ->
  direct_nbody js nq m ext eps q p t = Some out -> direct_nbody js nq m ext eps qa pa t = Some outa ->
  List.Forall2 (fun r ra => forall i c, (i < nq)%nat -> m i <> 0 -> fst r (i, c) = fst ra (i, c) /\ snd r (i, c) = snd ra (i, c)) out outa.
Proof.
  intros J js nq m ext eps q p qa pa t out outa H A B. destruct t as [|t0 [|t1 ts]]; try discriminate.
  unfold direct_nbody in *. set (e' := match eps with Some e => e | None => 1 / 100 end) in *.
  change (length (t0 :: t1 :: ts) - 1)%nat with (S (length ts)) in *.
  destruct (nbody_rows js nq m (fun d => plummer_soft d e') ext (S (length ts)) (t1 - t0) t0 q p) as [l|] eqn:F; [|discriminate].
  destruct (nbody_rows js nq m (fun d => plummer_soft d e') ext (S (length ts)) (t1 - t0) t0 qa pa) as [la|] eqn:G; [|discriminate].
  cbn [option_map] in A, B. injection A as <-. injection B as <-. constructor; [intros; apply H; auto|].
  assert (AQ : agree nq m q qa) by (intros i c Hi Hm; apply H; auto). assert (AP : agree nq m p pa) by (intros i c Hi Hm; apply H; auto).
  pose proof (agree_rows _ _ _ _ _ _ _ _ _ _ _ _ _ _ AQ AP F G) as X. clear F G. induction X as [|r ra l la [X1 X2] _ IH]; constructor; auto.
Qed.
Print Assumptions C29_test_particles.

(** Listing the particles in another order gives the same motion in that order. *)
Theorem C29_relabelling : forall (J : Type) (js : list J) nq m ext eps (sg : nat -> nat) q p qa pa t out,
  Permutation (map sg (seq 0 nq)) (seq 0 nq) ->
  (forall i c, (i < nq)%nat -> qa (i, c) = q (sg i, c) /\ pa (i, c) = p (sg i, c)) ->
  direct_nbody js nq m ext eps q p t = Some out ->
  exists outa, direct_nbody js nq (fun i => m (sg i)) ext eps qa pa t = Some outa /\
    List.Forall2 (fun r ra => forall i c, (i < nq)%nat -> fst ra (i, c) = fst r (sg i, c) /\ snd ra (i, c) = snd r (sg i, c)) out outa.
Proof.
  intros J js nq m ext eps sg q p qa pa t out HP H A. destruct t as [|t0 [|t1 ts]]; try discriminate.
  unfold direct_nbody in *. set (e' := match eps with Some e => e | None => 1 / 100 end) in *.
  change (length (t0 :: t1 :: ts) - 1)%nat with (S (length ts)) in *.
  destruct (nbody_rows js nq m (fun d => plummer_soft d e') ext (S (length ts)) (t1 - t0) t0 q p) as [l|] eqn:F; [|discriminate].
  cbn [option_map] in A. injection A as <-.
  assert (AQ : relabelled nq sg q qa) by (intros i c Hi; apply H; auto). assert (AP : relabelled nq sg p pa) by (intros i c Hi; apply H; auto).
  destruct (rl_rows js nq m (fun d => plummer_soft d e') ext sg HP _ _ _ _ _ _ _ _ AQ AP F) as (la & G & X). rewrite G. cbn [option_map]. eexists. split; [reflexivity|].
  constructor; [intros; apply H; auto|]. clear F G. induction X as [|r ra l la [X1 X2] _ IH]; constructor; auto.
Qed.
Print Assumptions C29_relabelling.

(** The rows are the drift-kick-drift composition at the time step t1 - t0. *)
Theorem C29_rows_are_leapfrog : forall (J : Type) (js : list J) nq m ext eps q p t0 t1 ts out,
  direct_nbody js nq m ext (Some eps) q p (t0 :: t1 :: ts) = Some out ->
  out = map (fun i => fst (dk_run (nbody_force js nq m (fun d => plummer_soft d eps) ext) leapfrog_scheme (t1 - t0) i (q, p, t0)))
            (seq 0 (length (t0 :: t1 :: ts))).
Proof.
  intros J js nq m ext eps q p t0 t1 ts out H. unfold direct_nbody in H. change (length (t0 :: t1 :: ts) - 1)%nat with (S (length ts)) in *.
  destruct (nbody_rows js nq m (fun d => plummer_soft d eps) ext (S (length ts)) (t1 - t0) t0 q p) as [l|] eqn:F; [|discriminate].
  cbn [option_map] in H. injection H as <-. rewrite (nb_rows_dk _ _ _ _ _ _ _ _ _ _ _ F). change (length (t0 :: t1 :: ts)) with (S (S (length ts))).
  change (seq 0 (S (S (length ts)))) with (0%nat :: seq 1 (S (length ts))). rewrite map_cons. f_equal. rewrite <- seq_shift, map_map. reflexivity.
Qed.
Print Assumptions C29_rows_are_leapfrog.

(** ** What does not hold *)
(** Two softened particles at the same place attract each other with force 0, but the code divides 0 by 0. *)
Theorem C29_coincident_particles_refuted : exists (q p : vec (nat * unit)) t, apart 1 [tt] q /\ (forall i, q (i, tt) = 0) /\
  direct_nbody [tt] 2 (fun _ => 1) None None q p t = None.
Proof.
  exists (fun _ => 0), (fun _ => 0), [0; 1]. split; [intros i j Hi Hj N; lia|]. split; auto.
  unfold direct_nbody. change (length [0%R; 1%R] - 1)%nat with 1%nat. cbn [nbody_rows]. unfold nbody_step. cbv zeta.
  assert (E : separate [tt] 2 (leapq (fun _ : nat * unit => 0) (fun _ => 0) ((1 - 0) / 2)) = false).
  { destruct (separate [tt] 2 _) eqn:S; auto. apply separate_apart in S. specialize (S 0%nat 1%nat ltac:(lia) ltac:(lia) ltac:(lia)).
    unfold sq_dist, sum_over, leapq in S. cbn in S. ring_simplify in S. lra. }
  rewrite E. reflexivity.
Qed.
Print Assumptions C29_coincident_particles_refuted.
(** Only the spacing of the first two output times is used. *)
Theorem C29_uneven_grid_refuted : exists (q p : vec (nat * unit)) t0 t1 t2 r0 r1 q2 p2, t0 < t1 < t2 /\
  direct_nbody [tt] 1 (fun _ => 1) None None q p [t0; t1; t2] = Some [r0; r1; (q2, p2)] /\
  q2 (0%nat, tt) <> q (0%nat, tt) + (t2 - t0) * p (0%nat, tt).
Proof.
  exists (fun _ => 0), (fun _ => 1), 0, 1, 3. eexists _, _, _, _. split; [lra|]. split.
  - unfold direct_nbody. change (length [0%R; 1%R; 3%R] - 1)%nat with 2%nat. cbn [nbody_rows]. unfold nbody_step. cbv zeta.
    change (separate [tt] 1 ?x) with true. cbn [separate seq forallb andb option_map]. reflexivity.
  - unfold leapq, leapp, nbody_force, self_force. cbn. lra.
Qed.
Print Assumptions C29_uneven_grid_refuted.

(** Non-vacuity: two bodies on a line, one step *)
Example C29_nonvacuous : exists out, direct_nbody [tt] 2 (fun i => match i with O => 1 | _ => 2 end) None (Some 1)
   (fun ic => INR (fst ic)) (fun _ => 0) [0; 1 / 2] = Some out /\ length out = 2%nat.
Proof.
  unfold direct_nbody. change (length [0%R; (1 / 2)%R] - 1)%nat with 1%nat. cbn [nbody_rows]. unfold nbody_step. cbv zeta.
  assert (E : separate [tt] 2 (leapq (fun ic : nat * unit => INR (fst ic)) (fun _ => 0) ((1 / 2 - 0) / 2)) = true).
  { apply separate_apart. intros i j Hi Hj N. unfold sq_dist, sum_over, leapq. cbn [map fold_right fst].
    assert (C : (i = 0 /\ j = 1 \/ i = 1 /\ j = 0)%nat) by lia. destruct C as [[-> ->]|[-> ->]]; cbn [INR]; lra. }
  rewrite E. cbn [option_map]. eexists. split; [reflexivity|]. reflexivity.
Qed.
