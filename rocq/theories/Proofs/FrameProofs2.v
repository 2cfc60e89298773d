From Coq Require Import Reals Lra Psatz List Bool.
From Coquelicot Require Import Coquelicot.
From Verif.Lib Require Import RealAux Atan2 Vec3.
From Verif.Model Require Import Coords CoordsVec NonInertial.
From Verif.Spec Require Import CovSpec FrameSpec.
From Verif.Proofs Require Import CovProofs JacProofs JacProofs2 FrameProofs.
Import ListNotations.
Open Scope R_scope.
Notation RR := RbaseSymbolsImpl.R (only parsing).

Lemma key_inj a b : hash_key a = hash_key b -> a = b.
Proof.
  destruct a as [[[[R z] phi] [v1 v2 v3]] t], b as [[[[R' z'] phi'] [w1 w2 w3]] t']. cbn. intros E. injection E as -> -> -> -> -> -> ->. auto.
Qed.
Lemma component_reported o c a f : component o c a f = n_amp o * reported c a f.
Proof. destruct a as [[[[R z] phi] [v1 v2 v3]] t], f as [f1 f2 f3], c; cbn; vunfold; ring. Qed.

Section S.
  Variable H : Type.
  Variable md5 : list RR -> H.
  Variable Heq : forall a b : H, {a = b} + {a <> b}.
  Hypothesis collision_free : forall a b, md5 a = md5 b -> a = b.
  Lemma calls_ok amp Om Od x0 v0 a0 o s0 l :
    make H amp Om Od x0 v0 a0 = NOk (o, s0) -> same_shape Om Od ->
    fst (calls H md5 Heq o s0 l) = map (fun ca => NOk (amp * reported (fst ca) (snd ca) (pure Om Od x0 v0 a0 (snd ca)))) l.
  Proof.
    intros M SH. destruct (compute_ok H amp Om Od x0 v0 a0 o s0 M SH) as (C0 & H0 & A0 & C).
    assert (I0 : cross_inv o s0 /\ forall h, force_hash s0 = Some h -> exists a, h = md5 (hash_key a) /\ cached_force s0 = pure Om Od x0 v0 a0 a).
    { split; auto. rewrite H0. discriminate. }
    clear M SH C0 H0. revert s0 I0. induction l as [|[c a] l IH]; intros s [CI HI]; [reflexivity|].
    cbn [calls]. unfold method, force. cbn [fst snd].
    assert (K : exists s', (if match force_hash s with Some h => if Heq (md5 (hash_key a)) h then true else false | None => false end
                       then NOk (cached_force s, s)
                       else match compute H o s a with NErr e => NErr e | NOk (f, s1) => NOk (f, mkNst (Some (md5 (hash_key a))) f (Omega_for_cross s1) (Omegadot_for_cross s1)) end)
              = NOk (pure Om Od x0 v0 a0 a, s') /\ cross_inv o s' /\
              forall h, force_hash s' = Some h -> exists a, h = md5 (hash_key a) /\ cached_force s' = pure Om Od x0 v0 a0 a).
    { destruct (force_hash s) as [h|] eqn:E; [destruct (Heq (md5 (hash_key a)) h) as [Q|Q]|].
      - exists s. destruct (HI h eq_refl) as (b & Hb & Cb). rewrite Cb. rewrite Hb in Q. apply collision_free, key_inj in Q. subst b.
        split; auto. split; auto. rewrite E. intros h' [= <-]. eauto.
      - destruct (C s a CI) as (s' & -> & CI'). eexists. split; [reflexivity|]. split; [exact CI'|]. cbn. intros h' [= <-]. eauto.
      - destruct (C s a CI) as (s' & -> & CI'). eexists. split; [reflexivity|]. split; [exact CI'|]. cbn. intros h' [= <-]. eauto. }
    destruct K as (s' & -> & K). specialize (IH s' K).
    destruct (calls H md5 Heq o s' l) as [rs s2] eqn:E2. cbn [fst map snd] in *. rewrite IH, component_reported, A0. reflexivity.
  Qed.
End S.

(** ** Motion seen from the inertial frame *)
Lemma frame_velocity Rot Om r r' t : rotating_frame Rot Om -> (forall t, velocity3 r t (r' t)) ->
  velocity3 (fun t => mulMV (Rot t) (r t)) t (mulMV (Rot t) (vadd (r' t) (vcross (Om t) (r t)))).
Proof.
  intros F V.
  set (e1 := mkV 1 0 0). set (e2 := mkV 0 1 0). set (e3 := mkV 0 0 1).
  assert (L : forall M u, mulMV M u = vadd (vscal (vx u) (mulMV M e1)) (vadd (vscal (vy u) (mulMV M e2)) (vscal (vz u) (mulMV M e3)))).
  { intros M [u1 u2 u3]. unfold e1, e2, e3. vring. }
  destruct (V t) as (V1 & V2 & V3). pose proof (F t e1) as (A1 & A2 & A3). pose proof (F t e2) as (B1 & B2 & B3). pose proof (F t e3) as (C1 & C2 & C3).
  assert (EQ : mulMV (Rot t) (vadd (r' t) (vcross (Om t) (r t))) =
    vadd (vadd (vscal (vx (r' t)) (mulMV (Rot t) e1)) (vadd (vscal (vy (r' t)) (mulMV (Rot t) e2)) (vscal (vz (r' t)) (mulMV (Rot t) e3))))
         (vadd (vscal (vx (r t)) (mulMV (Rot t) (vcross (Om t) e1))) (vadd (vscal (vy (r t)) (mulMV (Rot t) (vcross (Om t) e2))) (vscal (vz (r t)) (mulMV (Rot t) (vcross (Om t) e3)))))).
  { unfold e1, e2, e3. destruct (r' t), (r t), (Om t), (Rot t). vring. }
  rewrite EQ. clear EQ.
  eapply vel_ext; [intros s; symmetry; apply L|].
  set (p1 := fun t => vx (mulMV (Rot t) e1)) in *. set (p2 := fun t => vy (mulMV (Rot t) e1)) in *. set (p3 := fun t => vz (mulMV (Rot t) e1)) in *.
  set (q1 := fun t => vx (mulMV (Rot t) e2)) in *. set (q2 := fun t => vy (mulMV (Rot t) e2)) in *. set (q3 := fun t => vz (mulMV (Rot t) e2)) in *.
  set (s1 := fun t => vx (mulMV (Rot t) e3)) in *. set (s2 := fun t => vy (mulMV (Rot t) e3)) in *. set (s3 := fun t => vz (mulMV (Rot t) e3)) in *.
  set (w1 := fun t => vx (r t)) in *. set (w2 := fun t => vy (r t)) in *. set (w3 := fun t => vz (r t)) in *.
  split; [|split].
  - apply (is_derive_ext (fun t => w1 t * p1 t + (w2 t * q1 t + w3 t * s1 t))); [reflexivity|].
    eapply is_derive_eq; [auto_derive; [exder|derw; reflexivity]|]. unfold w1, w2, w3, p1, q1, s1. cbn [vx vadd vscal]. toR. ring.
  - apply (is_derive_ext (fun t => w1 t * p2 t + (w2 t * q2 t + w3 t * s2 t))); [reflexivity|].
    eapply is_derive_eq; [auto_derive; [exder|derw; reflexivity]|]. unfold w1, w2, w3, p2, q2, s2. cbn [vy vadd vscal]. toR. ring.
  - apply (is_derive_ext (fun t => w1 t * p3 t + (w2 t * q3 t + w3 t * s3 t))); [reflexivity|].
    eapply is_derive_eq; [auto_derive; [exder|derw; reflexivity]|]. unfold w1, w2, w3, p3, q3, s3. cbn [vz vadd vscal]. toR. ring.
Qed.
Lemma vel_add p q s a b : velocity3 p s a -> velocity3 q s b -> velocity3 (fun t => vadd (p t) (q t)) s (vadd a b).
Proof.
  intros (A & B & C) (D & E & F). split; [|split].
  - exact (is_derive_plus (K:=R_AbsRing) (V:=R_NormedModule) _ _ _ _ _ A D).
  - exact (is_derive_plus (K:=R_AbsRing) (V:=R_NormedModule) _ _ _ _ _ B E).
  - exact (is_derive_plus (K:=R_AbsRing) (V:=R_NormedModule) _ _ _ _ _ C F).
Qed.
Lemma vel_cross p q s a b : velocity3 p s a -> velocity3 q s b ->
  velocity3 (fun t => vcross (p t) (q t)) s (vadd (vcross a (q s)) (vcross (p s) b)).
Proof.
  intros (A & B & C) (D & E & F).
  set (p1 := fun t => vx (p t)) in *. set (p2 := fun t => vy (p t)) in *. set (p3 := fun t => vz (p t)) in *.
  set (q1 := fun t => vx (q t)) in *. set (q2 := fun t => vy (q t)) in *. set (q3 := fun t => vz (q t)) in *.
  split; [|split].
  - apply (is_derive_ext (fun t => p2 t * q3 t - p3 t * q2 t)); [reflexivity|]. eapply is_derive_eq; [auto_derive; [exder|derw; reflexivity]|].
    unfold p2, p3, q2, q3. cbn. toR. ring.
  - apply (is_derive_ext (fun t => p3 t * q1 t - p1 t * q3 t)); [reflexivity|]. eapply is_derive_eq; [auto_derive; [exder|derw; reflexivity]|].
    unfold p1, p3, q1, q3. cbn. toR. ring.
  - apply (is_derive_ext (fun t => p1 t * q2 t - p2 t * q1 t)); [reflexivity|]. eapply is_derive_eq; [auto_derive; [exder|derw; reflexivity]|].
    unfold p1, p2, q1, q2. cbn. toR. ring.
Qed.
(** The acceleration in the inertial frame of a point at r + x0 in the rotating one *)
Lemma inertial_acceleration Rot Om Omd r r' G x0 v0 a0 :
  rotating_frame Rot Om -> (forall t, velocity3 Om t (Omd t)) ->
  (forall t, velocity3 x0 t (v0 t)) -> (forall t, velocity3 v0 t (a0 t)) ->
  (forall t, velocity3 r t (r' t)) ->
  (forall t, velocity3 r' t (vadd (G t) (fictitious (Om t) (Omd t) (x0 t) (v0 t) (a0 t) (r t) (r' t)))) ->
  exists X', (forall t, velocity3 (fun t => mulMV (Rot t) (vadd (r t) (x0 t))) t (X' t)) /\
             (forall t, velocity3 X' t (mulMV (Rot t) (G t))).
Proof.
  intros F HO Hx Hv Hr Ha.
  exists (fun t => mulMV (Rot t) (vadd (vadd (r' t) (v0 t)) (vcross (Om t) (vadd (r t) (x0 t))))). split.
  - intros t. apply (frame_velocity Rot Om (fun t => vadd (r t) (x0 t)) (fun t => vadd (r' t) (v0 t))); auto. intros s. apply vel_add; auto.
  - intros t.
    set (A := vadd (vadd (vadd (G t) (fictitious (Om t) (Omd t) (x0 t) (v0 t) (a0 t) (r t) (r' t))) (a0 t))
                   (vadd (vcross (Omd t) (vadd (r t) (x0 t))) (vcross (Om t) (vadd (r' t) (v0 t))))).
    assert (V : velocity3 (fun t => mulMV (Rot t) (vadd (vadd (r' t) (v0 t)) (vcross (Om t) (vadd (r t) (x0 t))))) t
       (mulMV (Rot t) (vadd A (vcross (Om t) (vadd (vadd (r' t) (v0 t)) (vcross (Om t) (vadd (r t) (x0 t)))))))).
    { refine (frame_velocity Rot Om _ (fun t => vadd (vadd (vadd (G t) (fictitious (Om t) (Omd t) (x0 t) (v0 t) (a0 t) (r t) (r' t))) (a0 t))
                   (vadd (vcross (Omd t) (vadd (r t) (x0 t))) (vcross (Om t) (vadd (r' t) (v0 t))))) t F _).
      intros s. apply vel_add; [apply vel_add; auto|]. apply (vel_cross Om (fun t => vadd (r t) (x0 t))); auto. apply vel_add; auto. }
    replace (G t) with (vadd A (vcross (Om t) (vadd (vadd (r' t) (v0 t)) (vcross (Om t) (vadd (r t) (x0 t)))))); auto.
    unfold A, fictitious. generalize (G t) (Om t) (Omd t) (x0 t) (v0 t) (a0 t) (r t) (r' t). clear. intros. vring.
Qed.
