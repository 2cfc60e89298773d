From Coq Require Import Reals Lra Psatz.
From Coquelicot Require Import Coquelicot.
From Verif.Lib Require Import RealAux Atan2 Vec3.
From Verif.Model Require Import Coords CoordsVec CoordsSky CoordsSpheroid CoordsJac.
From Verif.Spec Require Import SkySpec CovSpec JacSpec.
From Verif.Proofs Require Import SkyProofs SkyProofs2 VecProofs SpheroidProofs.
Open Scope R_scope.
Notation RR := RbaseSymbolsImpl.R (only parsing).

Lemma vel_eq3 q s v w : velocity3 q s v -> v = w -> velocity3 q s w.
Proof. intros H <-. auto. Qed.
Lemma vel_mk (f g h : RR -> RR) s a b c : is_derive f s a -> is_derive g s b -> is_derive h s c ->
  velocity3 (fun t => mkV (f t) (g t) (h t)) s (mkV a b c).
Proof. intros. split; [|split]; auto. Qed.
Lemma vel_ext q q' s v : (forall t, q t = q' t) -> velocity3 q s v -> velocity3 q' s v.
Proof.
  intros E (A & B & C). split; [|split]; (eapply is_derive_ext; [|eassumption]); intros t; cbv beta; rewrite E; auto.
Qed.
Lemma V3_eta v : mkV (vx v) (vy v) (vz v) = v.
Proof. destruct v; auto. Qed.

Lemma jac3_intro F x J :
  (forall (f g h : RR -> RR) (s a b c : RR), is_derive f s a -> is_derive g s b -> is_derive h s c -> mkV (f s) (g s) (h s) = x ->
     velocity3 (fun t => F (mkV (f t) (g t) (h t))) s (mulMV J (mkV a b c))) -> jacobian3 F x J.
Proof.
  intros H q s v E (A & B & C).
  specialize (H _ _ _ s _ _ _ A B C). cbv beta in H. rewrite !V3_eta in H. specialize (H E).
  eapply vel_ext; [|exact H]. intros t. cbv beta. rewrite V3_eta. auto.
Qed.
Lemma jac6_intro F x J :
  (forall (f1 f2 f3 f4 f5 f6 : RR -> RR) (s a b c d e g : RR), is_derive f1 s a -> is_derive f2 s b -> is_derive f3 s c ->
     is_derive f4 s d -> is_derive f5 s e -> is_derive f6 s g -> (mkV (f1 s) (f2 s) (f3 s), mkV (f4 s) (f5 s) (f6 s)) = x ->
     velocity6 (fun t => F (mkV (f1 t) (f2 t) (f3 t), mkV (f4 t) (f5 t) (f6 t))) s (mulM6 J (mkV a b c, mkV d e g))) -> jacobian6 F x J.
Proof.
  intros H q s v E ((A & B & C) & (A' & B' & C')).
  specialize (H _ _ _ _ _ _ s _ _ _ _ _ _ A B C A' B' C'). rewrite !V3_eta in H.
  assert (X : forall p : V6, (fst p, snd p) = p) by (intros []; auto). rewrite !X in H. specialize (H E).
  destruct H as [H1 H2]. split; (eapply vel_ext; [|eassumption]); intros t; cbv beta; rewrite !V3_eta, X; auto.
Qed.
Ltac exder := repeat split; auto; try (eexists; eassumption).
Ltac vel := split; [|split]; cbn [vx vy vz fst snd]; (auto_derive; [exder|derw]).

Lemma cyl_jac3 R phi Z : jacobian3 (fun c => let '(x, y, z) := cyl_to_rect (vx c) (vy c) (vz c) in mkV x y z)
  (mkV R phi Z) (cyl_to_rect_jac3 R phi Z).
Proof.
  apply jac3_intro. intros f g h s a b c Hf Hg Hh E. injection E as E1 E2 E3. unfold cyl_to_rect, cyl_to_rect_jac3.
  vunfold. cbn [vx vy vz]. vel; rewrite ?E1, ?E2, ?E3; ring.
Qed.
Lemma cyl_jac6 R vR vT Z vZ phi :
  jacobian6 (fun c => galcencyl_to_galcenrect (vx (fst c)) (vy (fst c)) (vz (fst c)) (vx (snd c)) (vy (snd c)) (vz (snd c)))
  (mkV R vR vT, mkV Z vZ phi) (cyl_to_rect_jac6 R vR vT Z vZ phi).
Proof.
  apply jac6_intro. intros f1 f2 f3 f4 f5 f6 s a b c d e g H1 H2 H3 H4 H5 H6 E. injection E as E1 E2 E3 E4 E5 E6.
  unfold galcencyl_to_galcenrect, cyl_to_rect, cyl_to_rect_vec, cyl_to_rect_jac6, mulM6. cbn [b00 b01 b10 b11 fst snd]. vunfold.
  split; cbn [fst snd]; vel; rewrite ?E1, ?E2, ?E3, ?E4, ?E5, ?E6; ring.
Qed.
Lemma galcen_jac3 Xsun Zsun x : jacobian3 (galcenrect_to_XYZ None Xsun Zsun) x (galcenrect_to_XYZ_jac3 Xsun Zsun).
Proof.
  apply jac3_intro. intros f g h s a b c Hf Hg Hh E. unfold galcenrect_to_XYZ, untilt, galcenrect_to_XYZ_jac3.
  cbv zeta. generalize (Xsun / sqrt (Xsun ^ 2 + Zsun ^ 2)) (Zsun / sqrt (Xsun ^ 2 + Zsun ^ 2)) (nsign Xsun) (sqrt (Xsun ^ 2 + Zsun ^ 2)).
  intros. vunfold. cbn [vx vy vz]. vel; ring.
Qed.
Lemma galcen_jac6 vsun Xsun Zsun x :
  jacobian6 (fun p => (galcenrect_to_XYZ None Xsun Zsun (fst p), galcenrect_to_vxvyvz None vsun Xsun Zsun (snd p))) x
    (galcenrect_to_XYZ_jac6 Xsun Zsun).
Proof.
  apply jac6_intro. intros f1 f2 f3 f4 f5 f6 s a b c d e g H1 H2 H3 H4 H5 H6 E. clear E.
  unfold galcenrect_to_XYZ, galcenrect_to_vxvyvz, untilt, galcenrect_to_XYZ_jac6, galcenrect_to_XYZ_jac3, mulM6, zero33. cbv zeta. destruct vsun as [u1 u2 u3].
  generalize (Xsun / sqrt (Xsun ^ 2 + Zsun ^ 2)) (Zsun / sqrt (Xsun ^ 2 + Zsun ^ 2)) (nsign Xsun) (sqrt (Xsun ^ 2 + Zsun ^ 2)).
  intros. cbn [b00 b01 b10 b11 fst snd]. vunfold. split; cbn [fst snd]; vel; ring.
Qed.

(** Heliocentric spherical to rectangular. *)
Lemma deg_if (degree : bool) (a : RR) : (if degree then a * degtorad else a) = deg_in degree a.
Proof. destruct degree; unfold deg_in, degtorad; lra. Qed.
Lemma colscale_if (degree : bool) m : (if degree then colscale degtorad m else m) = colscale (unit_angle degree) m.
Proof.
  destruct degree; auto. unfold unit_angle, colscale. destruct m as [[a1 a2 a3] [c1 c2 c3] [d1 d2 d3]]. cbn [vx vy vz r0 r1 r2]. rewrite !Rmult_1_r. auto.
Qed.
Lemma deg_fun degree : deg_in degree = (fun a => a * unit_angle degree).
Proof. apply FunctionalExtensionality.functional_extensionality. apply deg_in_unit. Qed.
Lemma lbd_jac3 degree l b D : jacobian3 (fun c => lbd_to_XYZ degree (vx c) (vy c) (vz c)) (mkV l b D) (lbd_to_XYZ_jac3 degree l b D).
Proof.
  apply jac3_intro. intros f g h s a b' c Hf Hg Hh E. injection E as E1 E2 E3.
  unfold lbd_to_XYZ, lbd_to_XYZ_jac3. cbv zeta. rewrite colscale_if, !deg_if, deg_fun. unfold colscale. 
  generalize (unit_angle degree); intros u; vunfold; cbn [vx vy vz]. vel; rewrite ?E1, ?E2, ?E3; ring.
Qed.
Lemma lbd_jac6 K degree l b D vlos pmll pmbb :
  jacobian6 (fun p => sphergal_to_rectgal K degree (fst p) (snd p)) (mkV l b D, mkV vlos pmll pmbb) (lbd_to_XYZ_jac6 K degree l b D vlos pmll pmbb).
Proof.
  apply jac6_intro. intros f1 f2 f3 f4 f5 f6 s a b' c d e g H1 H2 H3 H4 H5 H6 E. injection E as E1 E2 E3 E4 E5 E6.
  unfold sphergal_to_rectgal, lbd_to_XYZ_jac6, lbd_to_XYZ, vrpmllpmbb_to_vxvyvz, sky_matrix.
  cbv zeta. rewrite !colscale_if, !deg_if, deg_fun. unfold mulM6, colscale, zero33. cbn [b00 b01 b10 b11 fst snd].
  generalize (unit_angle degree); intros u; vunfold. split; cbn [fst snd]; cbn [vx vy vz]; vel; rewrite ?E1, ?E2, ?E3, ?E4, ?E5, ?E6; ring.
Qed.
