From Coq Require Import Reals Lra Psatz List.
From Coquelicot Require Import Coquelicot.
From Verif.Lib Require Import RealAux Atan2 Vec3.
From Verif.Model Require Import Coords CoordsVec CoordsSky CoordsCov.
From Verif.Spec Require Import SkySpec CovSpec.
From Verif.Proofs Require Import SkyProofs SkyProofs2 VecProofs SpheroidProofs.
Import ListNotations.
Open Scope R_scope.
Notation RR := RbaseSymbolsImpl.R (only parsing).

Lemma cov3_cons {A} (g : A -> V3) w x t : cov3 g ((w, x) :: t) = addM (scalM w (outer (g x) (g x))) (cov3 g t).
Proof. reflexivity. Qed.
Lemma cov3_linear {A} (g : A -> V3) (M : M3) s :
  cov3 (fun x => mulMV M (g x)) s = mulMM M (mulMM (cov3 g s) (transp M)).
Proof.
  induction s as [|[w x] t IH]. { unfold cov3, moment. vring. }
  rewrite !cov3_cons, IH. generalize (cov3 g t) (g x). clear. intros. vring.
Qed.
Lemma congr_quad (M C : M3) x : vdot x (mulMV (mulMM M (mulMM C (transp M))) x) = vdot (mulMV (transp M) x) (mulMV C (mulMV (transp M) x)).
Proof. vring. Qed.
Lemma congr_psd (M C : M3) : psd3 C -> psd3 (mulMM M (mulMM C (transp M))).
Proof. intros H x. rewrite congr_quad. apply H. Qed.
Lemma congr_sym (M C : M3) : symmetric3 C -> symmetric3 (mulMM M (mulMM C (transp M))).
Proof. unfold symmetric3. intros H. rewrite !transp_mul, transp_transp, H, mulMM_assoc. auto. Qed.

Definition rot2 (c s : RR) : M2 := mkM2 c s (- s) c.
Definition add2 (a b : M2) : M2 := mkM2 (m00 a + m00 b) (m01 a + m01 b) (m10 a + m10 b) (m11 a + m11 b).
Definition app2 (M : M2) (p : RR * RR) : RR * RR := (m00 M * fst p + m01 M * snd p, m10 M * fst p + m11 M * snd p).
Ltac m2ring := repeat match goal with m : M2 |- _ => destruct m as [? ? ? ?] end; cbv [mul2 transp2 add2 app2 m00 m01 m10 m11 fst snd];
  f_equal; ring.
Lemma cov2_cons {A} (g : A -> RR * RR) w x t :
  cov2 g ((w, x) :: t) = add2 (mkM2 (w * (fst (g x) * fst (g x))) (w * (fst (g x) * snd (g x))) (w * (snd (g x) * fst (g x)))
    (w * (snd (g x) * snd (g x)))) (cov2 g t).
Proof. reflexivity. Qed.
Lemma cov2_linear {A} (g : A -> RR * RR) (M : M2) s :
  cov2 (fun x => app2 M (g x)) s = mul2 M (mul2 (cov2 g s) (transp2 M)).
Proof.
  induction s as [|[w x] t IH]. { cbv [cov2 moment]. m2ring. }
  rewrite !cov2_cons, IH. generalize (cov2 g t). destruct (g x). clear. intros. m2ring.
Qed.
Lemma congr2_psd (M C : M2) : psd2 C -> psd2 (mul2 M (mul2 C (transp2 M))).
Proof.
  intros H x y. specialize (H (m00 M * x + m10 M * y) (m01 M * x + m11 M * y)). destruct M as [p q rr tt0], C as [p1 q1 rr1 tt1].
  cbv [mul2 transp2 m00 m01 m10 m11] in *. eapply Rle_trans; [exact H|]. right. ring.
Qed.
Lemma congr2_sym (M C : M2) : symmetric2 C -> symmetric2 (mul2 M (mul2 C (transp2 M))).
Proof.
  unfold symmetric2. destruct M as [p q rr tt0], C as [p1 q1 rr1 tt1]. cbv [mul2 transp2 m00 m01 m10 m11]. intros H. injection H. intros. subst. f_equal; ring.
Qed.

(** Equatorial to Galactic proper motions. *)
Definition pm_jac (degree : bool) (e : epoch_angles) (ra dec : RR) : M2 :=
  let '(c, s) := pm_angle (dec_ngp e) (ra_ngp e) (deg_in degree ra) (deg_in degree dec) in rot2 c s.
Lemma pm_linear degree e p ra dec :
  pmrapmdec_to_pmllpmbb degree e (fst p) (snd p) ra dec = app2 (pm_jac degree e ra dec) p.
Proof.
  unfold pmrapmdec_to_pmllpmbb, pm_jac. destruct pm_angle as [c s]. unfold rot2, app2. simpl. f_equal; ring.
Qed.
Lemma cov_pm_is degree e C ra dec : deg_in degree dec <> dec_ngp e ->
  cov_pmrapmdec_to_pmllpmbb degree e C ra dec = mul2 (pm_jac degree e ra dec) (mul2 C (transp2 (pm_jac degree e ra dec))).
Proof.
  intros H. unfold cov_pmrapmdec_to_pmllpmbb, pm_jac, pm_angle, nudge.
  destruct Req_EM_T as [E|_]; [tauto|].
  replace (if degree then ra * (PI / 180) else ra) with (deg_in degree ra) by (destruct degree; unfold deg_in; lra).
  replace (if degree then dec * (PI / 180) else dec) with (deg_in degree dec) by (destruct degree; unfold deg_in; lra).
  reflexivity.
Qed.
Lemma app2_velocity M p d : velocity2 (fun t => app2 M (fst p + t * fst d, snd p + t * snd d)) 0 (app2 M d).
Proof. destruct M as [p0 q0 rr0 tt0], p as [pa pb], d as [da db]. split; simpl; auto_derive; auto; ring. Qed.

(** Heliocentric velocities from distance, line-of-sight velocity and proper motions. *)
Lemma block_sample {A} (f : A -> RR) (g : A -> RR * RR) s x C :
  moment (fun a => f a * f a) s = x -> cov2 g s = C ->
  moment (fun a => f a * fst (g a)) s = 0 -> moment (fun a => f a * snd (g a)) s = 0 ->
  block12 x C = cov3 (fun a => mkV (f a) (fst (g a)) (snd (g a))) s.
Proof.
  intros <- <- H1 H2. unfold block12, cov3, cov2. cbn [m00 m01 m10 m11 vx vy vz].
  assert (S : forall p q : A -> RR, moment (fun a => p a * q a) s = moment (fun a => q a * p a) s).
  { intros. clear. induction s as [|[w y] t IH]; simpl; auto. rewrite IH. ring. }
  rewrite H1, H2, (S (fun a => fst (g a)) f), (S (fun a => snd (g a)) f), H1, H2. auto.
Qed.
Lemma congr23_sample {A} (g : A -> V3) a b s :
  congr23 a b (cov3 g s) = cov2 (fun x => (vdot a (g x), vdot b (g x))) s.
Proof.
  induction s as [|[w x] t IH]. { cbv [congr23 cov3 cov2 moment]. vunfold. f_equal; ring. }
  rewrite cov2_cons, <- IH, cov3_cons. generalize (cov3 g t) (g x). clear. intros.
  destruct m as [[] [] []], v, a, b. cbv [congr23 add2 m00 m01 m10 m11 fst snd]. vunfold. f_equal; ring.
Qed.
Lemma block12_psd x C : 0 <= x -> psd2 C -> psd3 (block12 x C).
Proof.
  intros Hx H [a b c]. specialize (H b c). destruct C as [p1 q1 rr1 tt1]. cbv [block12 m00 m01 m10 m11] in *. vunfold. nra.
Qed.
Lemma block12_sym x C : symmetric2 C -> symmetric3 (block12 x C).
Proof. destruct C as [p1 q1 rr1 tt1]. cbv [symmetric2 symmetric3 block12 transp2 m00 m01 m10 m11]. intros H. injection H. intros. subst. vunfold. auto. Qed.
Lemma congr23_psd a b C : psd3 C -> psd2 (congr23 a b C).
Proof.
  intros H x y. specialize (H (vadd (vscal x a) (vscal y b))). eapply Rle_trans; [exact H|]. right.
  destruct a, b, C as [[] [] []]. cbv [congr23 m00 m01 m10 m11]. vunfold. ring.
Qed.
Lemma congr23_sym a b C : symmetric3 C -> symmetric2 (congr23 a b C).
Proof.
  unfold symmetric3, symmetric2. destruct a, b, C as [[] [] []]. cbv [congr23 transp2 m00 m01 m10 m11]. vunfold.
  intros H. injection H. intros. subst. f_equal; ring.
Qed.

(** Every symmetric matrix is the second moment of a (signed) weighted sample. *)
Lemma symmetric_sampled C : symmetric3 C -> exists s : list (RR * V3), C = cov3 (fun x => x) s.
Proof.
  destruct C as [[a b c] [b' d f] [c' f' g]]. unfold symmetric3. vunfold. intros H. injection H. intros. subst f' c' b'.
  exists [(a - b - c, mkV 1 0 0); (d - b - f, mkV 0 1 0); (g - c - f, mkV 0 0 1);
          (b, mkV 1 1 0); (c, mkV 1 0 1); (f, mkV 0 1 1)].
  cbv [cov3 moment]. vunfold. f_equal; f_equal; ring.
Qed.
Lemma symmetric2_sampled C : symmetric2 C -> exists s : list (RR * (RR * RR)), C = cov2 (fun x => x) s.
Proof.
  destruct C as [a b b' d]. unfold symmetric2, transp2. cbn [m00 m01 m10 m11]. intros H. injection H. intros. subst b'.
  exists [(a - b, (1, 0)); (d - b, (0, 1)); (b, (1, 1))]. cbv [cov2 moment fst snd]. f_equal; ring.
Qed.
