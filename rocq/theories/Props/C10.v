(** C10: NonInertialFrameForce returns the fictitious force, whatever was called before. *)
From Coq Require Import Reals Lra Psatz List.
From Coquelicot Require Import Coquelicot.
From Verif.Lib Require Import RealAux Atan2 Vec3.
From Verif.Model Require Import Coords CoordsVec NonInertial.
From Verif.Spec Require Import CovSpec FrameSpec.
From Verif.Proofs Require Import FrameProofs FrameProofs2.
Import ListNotations.
Open Scope R_scope.
Notation RR := RbaseSymbolsImpl.R (only parsing).

(** Every answer of every sequence of calls on one object is the component of the fictitious force for the arguments of that
    call, if MD5 does not collide.  The position and velocity of the origin count when an acceleration is given. *)
Theorem C10_every_history : forall (H : Type) (md5 : list RR -> H) (Heq : forall a b : H, {a = b} + {a <> b}),
  (forall a b, md5 a = md5 b -> a = b) ->
  forall amp Om Od x0 v0 a0 o s, make H amp Om Od x0 v0 a0 = NOk (o, s) -> same_shape Om Od ->
  (a0 = ANone -> x0 = None /\ v0 = None) ->
  forall history, fst (calls H md5 Heq o s history) =
    map (fun ca => let '(c, a) := ca in let t := call_time a in
      NOk (amp * reported c a (fictitious (rotation_rate Om Od t) (rotation_accel Om Od t) (origin x0 t) (origin v0 t)
                                          (origin_acc a0 t) (call_pos a) (call_vel a)))) history.
Proof.
  intros H md5 Heq CF amp Om Od x0 v0 a0 o s M SH OR l.
  rewrite (calls_ok H md5 Heq CF amp Om Od x0 v0 a0 o s l M SH). apply map_ext. intros [c a]. cbn [fst snd]. unfold pure.
  destruct a0; unfold eff; auto. destruct OR as [-> ->]; auto.
Qed.
Print Assumptions C10_every_history.

Lemma reported_inj R z phi v t F G : R <> 0 -> (forall c, reported c (R, z, phi, v, t) F = reported c (R, z, phi, v, t) G) -> F = G.
Proof.
  intros HR E. destruct F as [f1 f2 f3], G as [g1 g2 g3]. pose proof (E NR) as A. pose proof (E Nphi) as B. pose proof (E Nz) as C.
  revert A B C. cbn. vunfold. intros A B C. pose proof (sin2_cos2 phi) as S. unfold Rsqr in S.
  set (c := cos phi) in *. set (s := sin phi) in *.
  assert (A' : f1 * c + f2 * s = g1 * c + g2 * s) by lra.
  assert (B' : c * f2 - s * f1 = c * g2 - s * g1). { apply Rmult_eq_reg_l with R; auto. lra. }
  f_equal; [| |exact C].
  - transitivity (c * (f1 * c + f2 * s) - s * (c * f2 - s * f1)); [transitivity ((s * s + c * c) * f1); [rewrite S|]; ring|].
    rewrite A', B'. transitivity ((s * s + c * c) * g1); [|rewrite S]; ring.
  - transitivity (s * (f1 * c + f2 * s) + c * (c * f2 - s * f1)); [transitivity ((s * s + c * c) * f2); [rewrite S|]; ring|].
    rewrite A', B'. transitivity ((s * s + c * c) * g2); [|rewrite S]; ring.
Qed.

(** A point that moves in the non-inertial frame under a force G plus the force F the object reports moves in the inertial frame
    under G alone.  Rot is the rotation of the frame at the given rate; x0, v0, a0 the motion of its origin. *)
Theorem C10_inertial_motion : forall (H : Type) (md5 : list RR -> H) (Heq : forall a b : H, {a = b} + {a <> b}),
  (forall a b, md5 a = md5 b -> a = b) ->
  forall Om Od x0 v0 a0 o s, make H 1 Om Od (Some x0) (Some v0) (AFuns a0) = NOk (o, s) -> same_shape Om Od ->
  forall Rot, rotating_frame Rot (rotation_rate Om Od) ->
  (forall t, velocity3 (rotation_rate Om Od) t (rotation_accel Om Od t)) ->
  (forall t, velocity3 x0 t (v0 t)) -> (forall t, velocity3 v0 t (a0 t)) ->
  forall (R z phi : RR -> RR) (v G F : RR -> V3),
  let a t := (R t, z t, phi t, v t, t) in
  (forall t, R t <> 0) ->
  (forall t, velocity3 (fun t => call_pos (a t)) t (call_vel (a t))) ->
  (forall t, velocity3 (fun t => call_vel (a t)) t (vadd (G t) (F t))) ->
  (forall t c, fst (method H md5 Heq o s (c, a t)) = NOk (reported c (a t) (F t))) ->
  exists X', (forall t, velocity3 (fun t => mulMV (Rot t) (vadd (call_pos (a t)) (x0 t))) t (X' t)) /\
             (forall t, velocity3 X' t (mulMV (Rot t) (G t))).
Proof.
  intros H md5 Heq CF Om Od x0 v0 a0 o s M SH Rot RF HO Hx Hv R z phi v G F a HR Vp Vv HF.
  assert (EF : forall t, F t = fictitious (rotation_rate Om Od t) (rotation_accel Om Od t) (x0 t) (v0 t) (a0 t) (call_pos (a t)) (call_vel (a t))).
  { intros t. apply (reported_inj (R t) (z t) (phi t) (v t) t); auto. intros c.
    pose proof (C10_every_history H md5 Heq CF 1 Om Od (Some x0) (Some v0) (AFuns a0) o s M SH ltac:(discriminate) [(c, a t)]) as E.
    cbn [calls map fst] in E. specialize (HF t c). destruct (method H md5 Heq o s (c, a t)) as [r s']. cbn [fst] in *. subst r.
    injection E as E. rewrite Rmult_1_l in E. exact E. }
  eapply (inertial_acceleration Rot (rotation_rate Om Od) (rotation_accel Om Od) (fun t => call_pos (a t)) (fun t => call_vel (a t)) G x0 v0 a0); auto.
  intros t. rewrite <- EF. apply Vv.
Qed.
Print Assumptions C10_inertial_motion.

(** The rate and its derivative belong together: always for constants and linear rates; for functions when the function given
    is the derivative. *)
Theorem C10_rate_derivative : forall Om Od t, same_shape Om Od ->
  match Om, Od with
  | FFun f, FFun g => is_derive f t (g t)
  | FFuns f, FFuns g => velocity3 f t (g t)
  | FFun _, FNone | FFuns _, FNone | FList _, _ => False
  | _, _ => True
  end -> velocity3 (rotation_rate Om Od) t (rotation_accel Om Od t).
Proof.
  intros Om Od t SH D. destruct Om as [|w|w|w|f|f]; destruct Od as [|d|d|d|g|g]; try contradiction; unfold rotation_rate, rotation_accel, about_z;
    try (split; [|split]; cbn; auto_derive; auto; ring).
  - split; [|split]; cbn; [auto_derive; auto|auto_derive; auto|exact D].
  - exact D.
Qed.
Print Assumptions C10_rate_derivative.
(** When Omegadot is omitted for a function, the value used is the derivative of the function at some time within 1e-6. *)
Theorem C10_omitted_derivative : forall (f f' : RR -> RR) t, (forall t, is_derive f t (f' t)) ->
  exists c, t - 1 / 10 ^ 6 <= c <= t + 1 / 10 ^ 6 /\ time_derivative f t = f' c.
Proof.
  intros f f' t D. destruct (MVT_gen f (t - 1 / 10 ^ 6) (t + 1 / 10 ^ 6) f') as (c & Hc & E).
  - intros x _. apply D.
  - intros x _. apply continuity_pt_filterlim. apply (ex_derive_continuous f). eexists; apply D.
  - exists c. rewrite Rmin_left, Rmax_right in Hc by lra. split; [exact Hc|]. unfold time_derivative. rewrite E. field.
Qed.
Print Assumptions C10_omitted_derivative.

(** The documented list of three numbers is refused. *)
Theorem C10_list_refuted : forall H amp w Od x0 v0 a0, make H amp (FList w) Od x0 v0 a0 = NErr RuntimeError \/ make H amp (FList w) Od x0 v0 a0 = NErr ValueError.
Proof. intros. destruct Od; cbn; auto. Qed.
Print Assumptions C10_list_refuted.
(** A position of the origin is ignored, without notice, when no acceleration of the origin is given with it: with a rotation about
    the point at distance 1 there is no centrifugal force at the origin. *)
Theorem C10_offset_origin_refuted : exists Om x0 v0 (a : ncall), forall H md5 Heq, exists o s,
  make H 1 Om FNone (Some x0) (Some v0) ANone = NOk (o, s) /\
  fst (method H md5 Heq o s (NR, a)) <>
    NOk (reported NR a (fictitious (rotation_rate Om FNone 0) vzero (x0 0) (v0 0) vzero (call_pos a) (call_vel a))).
Proof.
  exists (FNum 1), (fun _ => mkV 1 0 0), (fun _ => vzero), (0, 0, 0, vzero, 0). intros H md5 Heq. eexists; eexists. split; [reflexivity|].
  unfold method, force. cbn -[compute]. unfold compute, cyl_to_rect, cyl_to_rect_vec. cbn. rewrite sin_0, cos_0. vunfold. intros E. injection E as E.
  rewrite n2_sc in E. lra.
Qed.
Print Assumptions C10_offset_origin_refuted.
(** A scalar rate with a vector derivative is accepted: constants give a force without meaning, functions an exception at every call. *)
Theorem C10_shape_mismatch_refuted : forall H amp w d, exists os, make H amp (FNum w) (FArr d) None None ANone = NOk os.
Proof. intros. eexists. reflexivity. Qed.
Print Assumptions C10_shape_mismatch_refuted.
Theorem C10_function_mismatch_refuted : forall H md5 Heq amp f g, exists o s,
  make H amp (FFun f) (FFuns g) None None ANone = NOk (o, s) /\ forall c, fst (method H md5 Heq o s c) = NErr TypeError.
Proof.
  intros. eexists; eexists. split; [reflexivity|]. intros [c [[[[R z] phi] v] t]]. reflexivity.
Qed.
Print Assumptions C10_function_mismatch_refuted.

(** A frame rotating at a linearly growing rate about a tilted axis with an accelerated origin, and a frame rotating about z. *)
Example C10_case_make : exists o s, make nat 2 (FArr (mkV 1 2 3)) (FArr (mkV 0 1 0)) (Some (fun t => mkV t 0 (t * t)))
  (Some (fun t => mkV 1 0 (2 * t))) (AFuns (fun _ => mkV 0 0 2)) = NOk (o, s) /\ same_shape (FArr (mkV 1 2 3)) (FArr (mkV 0 1 0)).
Proof. eexists; eexists. split; [reflexivity|exact I]. Qed.
Example C10_case_frame : rotating_frame (fun t => mkM (mkV (cos (3 * t)) (- sin (3 * t)) 0) (mkV (sin (3 * t)) (cos (3 * t)) 0) (mkV 0 0 1))
  (rotation_rate (FNum 3) FNone).
Proof.
  intros t [a b c]. unfold rotation_rate, about_z. vunfold. split; [|split]; cbn; auto_derive; auto; ring.
Qed.
Example C10_case_value : fst (method nat (fun _ => 0%nat) PeanoNat.Nat.eq_dec
   (mkNif 1 true true true false (FNum 3) FNone false (fun _ => vzero) (fun _ => vzero) (fun _ => vzero) 9)
   (mkNst None vzero None None) (NR, (2, 0, 0, mkV 0 1 0, 5))) = NOk 24.
Proof. unfold method, force. cbn. unfold cyl_to_rect_vec. vunfold. rewrite sin_0, cos_0. f_equal. ring. Qed.
