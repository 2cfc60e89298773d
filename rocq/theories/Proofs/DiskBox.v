(** Integrals over boxes of velocities. *)
From Coq Require Import Reals Lra.
From Coquelicot Require Import Coquelicot.
From Verif.Lib Require Import RealAux.
From Verif.Spec Require Import DiskDFSpec.
From Verif.Proofs Require Import SphericalDFDensity.
Open Scope R_scope.
Notation RR := RbaseSymbolsImpl.R (only parsing).
Ltac rr := match goal with |- ?a = ?b => change (@eq RR a b) end.

Definition Cont2 (g : RR -> RR -> RR) : Prop := forall x y, continuity_2d_pt g x y.
Lemma cont2_slice1 g y x : continuity_2d_pt g x y -> continuous (fun x => g x y) x.
Proof.
  intros H. apply continuity_pt_filterlim. intros eps He. destruct (H (mkposreal eps He)) as [d Hd]. exists d. split; [apply cond_pos|]. intros x' [_ Hx]. apply Hd; [exact Hx|].
  rewrite Rminus_eq_0, Rabs_R0. apply cond_pos.
Qed.
Lemma cont_ex (f : RR -> RR) a b : (forall x, continuous f x) -> ex_RInt f a b.
Proof. intros H. apply (ex_RInt_continuous (V := R_CompleteNormedModule)). intros; apply H. Qed.
Lemma int_cont (g : RR -> RR -> RR) a b y : a <= b -> Cont2 g -> continuous (fun y => RInt (fun x => g x y) a b) y.
Proof.
  intros Hab C. apply continuity_pt_filterlim. intros eps He.
  assert (He' : 0 < eps / (b - a + 1)) by (apply Rdiv_lt_0_compat; lra).
  destruct (uniform_continuity_2d_1d g a b y (fun x _ => C x y) (mkposreal _ He')) as [d Hd]. exists d. split; [apply cond_pos|].
  intros y' [_ Hy]. change (Rabs (y' - y) < d) in Hy. change (Rabs (RInt (fun x => g x y') a b - RInt (fun x => g x y) a b) < eps).
  assert (E1 : forall z, ex_RInt (fun x => g x z) a b) by (intros z; apply cont_ex; intros; apply cont2_slice1, C).
  assert (M : RInt (fun x => g x y' - g x y) a b = RInt (fun x => g x y') a b - RInt (fun x => g x y) a b) by exact (RInt_minus (fun x => g x y') (fun x => g x y) a b (E1 y') (E1 y)).
  rewrite <- M.
  apply Rle_lt_trans with ((b - a) * (eps / (b - a + 1))).
  - apply abs_RInt_le_const; [exact Hab| |].
    + apply cont_ex. intros x. apply (continuous_minus (fun x => g x y') (fun x => g x y)); apply cont2_slice1, C.
    + intros t Ht. left. pose proof (cond_pos d). apply (Hd t y t y'); try exact Ht; try lra.
      * apply Rabs_def2 in Hy. lra.
      * rewrite Rminus_eq_0, Rabs_R0. exact H.
  - apply Rlt_le_trans with ((b - a + 1) * (eps / (b - a + 1))); [apply Rmult_lt_compat_r; lra|right; field; lra].
Qed.
(** Clamping makes a function that is continuous on a box continuous everywhere. *)
Definition clamp (a b x : RR) : RR := Rmax a (Rmin b x).
Lemma clamp_in a b x : a <= b -> a <= clamp a b x <= b.
Proof. intros H. unfold clamp. split; [apply Rmax_l|]. apply Rmax_lub; [exact H|apply Rmin_l]. Qed.
Lemma clamp_id a b x : a <= x <= b -> clamp a b x = x.
Proof. intros H. unfold clamp. rewrite Rmin_right, Rmax_right by (try apply Rmin_glb; lra). reflexivity. Qed.
Lemma clamp_lip a b x y : a <= b -> Rabs (clamp a b x - clamp a b y) <= Rabs (x - y).
Proof. intros H. unfold clamp, Rmax, Rmin. repeat destruct Rle_dec; unfold Rabs; repeat destruct Rcase_abs; lra. Qed.
Definition clamp2 wR cT wT (g : RR -> RR -> RR) (x y : RR) : RR := g (clamp (- wR) wR x) (clamp (cT - wT) (cT + wT) y).
Lemma clamp2_cont wR cT wT g : 0 <= wR -> 0 <= wT -> (forall x y, - wR <= x <= wR -> cT - wT <= y <= cT + wT -> continuity_2d_pt g x y) -> Cont2 (clamp2 wR cT wT g).
Proof.
  intros HR HT C x y eps. destruct (C (clamp (- wR) wR x) (clamp (cT - wT) (cT + wT) y) ltac:(apply clamp_in; lra) ltac:(apply clamp_in; lra) eps) as [d Hd].
  exists d. intros u v Hu Hv. unfold clamp2. apply Hd; (eapply Rle_lt_trans; [apply clamp_lip; lra|assumption]).
Qed.
Lemma box_ext wR cT wT g h : 0 <= wR -> 0 <= wT -> (forall x y, - wR <= x <= wR -> cT - wT <= y <= cT + wT -> g x y = h x y) -> box_integral wR cT wT g = box_integral wR cT wT h.
Proof.
  intros HR HT H. unfold box_integral. apply RInt_ext. intros y Hy. rewrite Rmin_left, Rmax_right in Hy by lra. apply RInt_ext. intros x Hx. rewrite Rmin_left, Rmax_right in Hx by lra. apply H; lra.
Qed.
Lemma clamp2_in wR cT wT g x y : - wR <= x <= wR -> cT - wT <= y <= cT + wT -> clamp2 wR cT wT g x y = g x y.
Proof. intros Hx Hy. unfold clamp2. rewrite !clamp_id by assumption. reflexivity. Qed.

(** *** Linearity *)
Lemma inner_ex g y a b : Cont2 g -> ex_RInt (fun x => g x y) a b.
Proof. intros C. apply cont_ex. intros. apply cont2_slice1, C. Qed.
Lemma outer_ex g a b c d : a <= b -> Cont2 g -> ex_RInt (fun y => RInt (fun x => g x y) a b) c d.
Proof. intros H C. apply cont_ex. intros. apply int_cont; assumption. Qed.
Lemma RInt_k (f : RR -> RR) k a b : ex_RInt f a b -> RInt (fun x => k * f x) a b = k * RInt f a b.
Proof. intros H. exact (RInt_scal f a b k H). Qed.
Lemma RInt_p (f g : RR -> RR) a b : ex_RInt f a b -> ex_RInt g a b -> RInt (fun x => f x + g x) a b = RInt f a b + RInt g a b.
Proof. intros H K. exact (RInt_plus f g a b H K). Qed.
Lemma box_k wR cT wT k g : 0 <= wR -> Cont2 g -> box_integral wR cT wT (fun x y => k * g x y) = k * box_integral wR cT wT g.
Proof.
  intros HR C. unfold box_integral. rewrite <- RInt_k by (apply outer_ex; [lra|exact C]). apply RInt_ext. intros y _. apply RInt_k, inner_ex, C.
Qed.
Lemma box_p wR cT wT f g : 0 <= wR -> Cont2 f -> Cont2 g -> box_integral wR cT wT (fun x y => f x y + g x y) = box_integral wR cT wT f + box_integral wR cT wT g.
Proof.
  intros HR C D. unfold box_integral. rewrite <- RInt_p by (apply outer_ex; [lra|assumption]). apply RInt_ext. intros y _. apply RInt_p; apply inner_ex; assumption.
Qed.
(** *** Scaling *)
Lemma RInt_scaled (f : RR -> RR) k a b : k <> 0 -> ex_RInt f (k * a) (k * b) -> RInt (fun y => f (y * k)) a b = / k * RInt f (k * a) (k * b).
Proof.
  intros Hk H. pose proof (RInt_comp_lin f k 0 a b) as E. rewrite !Rplus_0_r in E. specialize (E H). rewrite <- E.
  rewrite <- RInt_k.
  - apply RInt_ext. intros y _. unfold scal; cbn; unfold mult; cbn. rewrite Rplus_0_r, (Rmult_comm k y). rr. field. exact Hk.
  - apply (ex_RInt_ext (fun y => scal k (f (k * y + 0)))); [intros; reflexivity|]. apply (ex_RInt_comp_lin f k 0 a b). rewrite !Rplus_0_r. exact H.
Qed.
Lemma box_scaled g s t c n : 0 < s -> 0 < t -> 0 <= n -> Cont2 g ->
  RInt (fun y => RInt (fun x => g (x * s) (y * t)) (- n) n) (c - n) (c + n) = / (s * t) * box_integral (n * s) (c * t) (n * t) g.
Proof.
  intros Hs Ht Hn C. unfold box_integral. replace (- (n * s)) with (s * - n) by ring. replace (n * s) with (s * n) by ring.
  replace (c * t - n * t) with (t * (c - n)) by ring. replace (c * t + n * t) with (t * (c + n)) by ring.
  assert (M : s * - n <= s * n) by (apply Rmult_le_compat_l; lra).
  rewrite Rinv_mult. rewrite Rmult_assoc. rewrite <- (RInt_scaled (fun y => RInt (fun x => g x y) (s * - n) (s * n)) t) by (try apply outer_ex; try assumption; lra).
  rewrite <- RInt_k.
  - apply RInt_ext. intros y _. apply (RInt_scaled (fun x => g x (y * t)) s (- n) n); [lra|apply inner_ex, C].
  - apply cont_ex. intros y. apply (continuous_comp (fun y => y * t) (fun y => RInt (fun x => g x y) (s * - n) (s * n))).
    + apply (continuous_mult (fun y => y) (fun _ => t)); [apply continuous_id|apply continuous_const].
    + apply int_cont; assumption.
Qed.
(** *** Parity *)
Lemma RInt_odd (f : RR -> RR) (c : RR) : (forall x, continuous f x) -> (forall x, f (- x) = - f x) -> RInt f (- c) c = 0.
Proof.
  intros Cf O.
  assert (X : forall a b, ex_RInt f a b) by (intros a b; apply cont_ex, Cf).
  pose proof (RInt_comp_lin (V := R_CompleteNormedModule) f (-1) 0 c (- c)) as H.
  replace (-1 * - c + 0) with c in H by ring. replace (-1 * c + 0) with (- c) in H by ring. specialize (H (X _ _)).
  rewrite (RInt_ext (fun y => scal (-1) (f (-1 * y + 0))) f) in H by (intros x _; replace (-1 * x + 0) with (- x) by ring; rewrite O; change (-1 * - f x = f x); ring).
  pose proof (opp_RInt_swap (V := R_CompleteNormedModule) f (- c) c (X _ _)) as K. rewrite H in K. change (- RInt f (- c) c = RInt f (- c) c) in K. lra.
Qed.
Lemma box_odd wR cT wT g : 0 <= wR -> Cont2 g -> (forall x y, g (- x) y = - g x y) -> box_integral wR cT wT g = 0.
Proof.
  intros HR C O. unfold box_integral. rewrite (RInt_ext _ (fun _ => 0)); [rewrite RInt_const; unfold scal; cbn; unfold mult; cbn; ring|]. intros y _.
  apply RInt_odd; [intros; apply cont2_slice1, C|intros; apply O].
Qed.
Lemma half_box g s t c n : 0 <= n -> 0 < s -> 0 < t -> Cont2 g -> (forall x y, g (- x) y = g x y) ->
  RInt (fun y => RInt (fun x => g (x * s) (y * t)) (- n) n) (c - n) (c + n) = 2 * RInt (fun y => RInt (fun x => g (x * s) (y * t)) 0 n) (c - n) (c + n).
Proof.
  intros Hn Hs Ht C Ev.
  assert (CC : forall y x, continuous (fun x => g (x * s) y) x).
  { intros y x. apply (continuous_comp (fun x => x * s) (fun x => g x y)); [apply (continuous_mult (fun x => x) (fun _ => s)); [apply continuous_id|apply continuous_const]|apply cont2_slice1, C]. }
  assert (C2 : Cont2 (fun x y => g (x * s) (y * t))).
  { intros x y eps. destruct (C (x * s) (y * t) eps) as [d Hd]. assert (P : 0 < Rmin (d / s) (d / t)) by (apply Rmin_pos; apply Rdiv_lt_0_compat; try apply cond_pos; assumption).
    exists (mkposreal _ P). intros u v Hu Hv. cbn in Hu, Hv. apply Hd.
    - rewrite <- Rmult_minus_distr_r, Rabs_mult, (Rabs_right s) by lra. apply Rlt_le_trans with (d / s * s); [apply Rmult_lt_compat_r; [exact Hs|eapply Rlt_le_trans; [exact Hu|apply Rmin_l]]|right; field; lra].
    - rewrite <- Rmult_minus_distr_r, Rabs_mult, (Rabs_right t) by lra. apply Rlt_le_trans with (d / t * t); [apply Rmult_lt_compat_r; [exact Ht|eapply Rlt_le_trans; [exact Hv|apply Rmin_r]]|right; field; lra]. }
  rewrite <- RInt_k by (apply (outer_ex (fun x y => g (x * s) (y * t))); [exact Hn|exact C2]). apply RInt_ext. intros y _.
  apply (RInt_even (fun x => g (x * s) (y * t))); [exact Hn|intros; apply CC|intros; replace (- x * s) with (- (x * s)) by ring; apply Ev].
Qed.
