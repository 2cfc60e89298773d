(** Densities of the power-law distribution functions. *)
From Coq Require Import Reals Lra Lia.
From Coquelicot Require Import Coquelicot.
From Verif.Lib Require Import RealAux.
From Verif.Model Require Import PotAxi PowerDF.
From Verif.Spec Require Import PowerDFSpec.
Open Scope R_scope.
Notation RR := RbaseSymbolsImpl.R (only parsing).
Ltac rr := match goal with |- ?a = ?b => change (@eq RR a b) end.

Lemma lim_scal (F : RR -> RR) (flt : (RR -> Prop) -> Prop) {H : Filter flt} k A : filterlim F flt (locally A) -> filterlim (fun x => k * F x) flt (locally (k * A)).
Proof. intros HF. apply (filterlim_comp _ _ _ F (fun y => k * y) _ (locally A)); [exact HF|]. apply (filterlim_scal_r (V := R_NormedModule) k A). Qed.
Lemma to_right (u : RR -> RR) a b : a < b -> continuous u a -> (forall x, a < x < b -> u a < u x) -> filterlim u (at_right a) (at_right (u a)).
Proof.
  intros Hab C H P HP. unfold filtermap, at_right, within in *. pose proof (C _ HP) as C'. apply (filter_imp (fun x => (u a < u x -> P (u x)) /\ x < b)); [intros x [H1 H2] H3; apply H1, H; lra|]. apply filter_and; [exact C'|apply locally_lt; exact Hab].
Qed.
Lemma to_left (u : RR -> RR) a b : a < b -> continuous u a -> (forall x, a < x < b -> u x < u a) -> filterlim u (at_right a) (at_left (u a)).
Proof.
  intros Hab C H P HP. unfold filtermap, at_right, at_left, within in *. pose proof (C _ HP) as C'. apply (filter_imp (fun x => (u x < u a -> P (u x)) /\ x < b)); [intros x [H1 H2] H3; apply H1, H; lra|]. apply filter_and; [exact C'|apply locally_lt; exact Hab].
Qed.
Lemma from_left_up (u : RR -> RR) a b : a < b -> continuous u b -> (forall x, a < x < b -> u x < u b) -> filterlim u (at_left b) (at_left (u b)).
Proof.
  intros Hab C H P HP. unfold filtermap, at_left, within in *. pose proof (C _ HP) as C'. apply (filter_imp (fun x => (u x < u b -> P (u x)) /\ a < x)); [intros x [H1 H2] H3; apply H1, H; lra|]. apply filter_and; [exact C'|apply locally_gt; exact Hab].
Qed.
Lemma from_left_down (u : RR -> RR) a b : a < b -> continuous u b -> (forall x, a < x < b -> u b < u x) -> filterlim u (at_left b) (at_right (u b)).
Proof.
  intros Hab C H P HP. unfold filtermap, at_left, at_right, within in *. pose proof (C _ HP) as C'. apply (filter_imp (fun x => (u b < u x -> P (u x)) /\ a < x)); [intros x [H1 H2] H3; apply H1, H; lra|]. apply filter_and; [exact C'|apply locally_gt; exact Hab].
Qed.
Lemma subst_up (f g u du : RR -> RR) a b v k w : improper f 0 1 v -> a < b -> (forall x, a < x < b -> 0 < u x < 1 /\ is_derive u x (du x)) -> continuous u a -> continuous u b -> u a = 0 -> u b = 1 ->
  (forall x, a < x < b -> g x = k * (f (u x) * du x)) -> w = k * v -> improper g a b w.
Proof.
  intros (F & A & B & D & LA & LB & E) Hab HU Ca Cb Ea Eb G Ew. exists (fun x => k * F (u x)), (k * A), (k * B). split; [|split; [|split]].
  - intros x Hx. destruct (HU x Hx) as [H1 H2]. rewrite (G x Hx). apply is_derive_Rscal. refine (is_derive_eq _ _ _ _ (is_derive_comp (V := R_NormedModule) F u x _ _ (D _ H1) H2) _). change (du x * f (u x) = f (u x) * du x). ring.
  - apply lim_scal; [apply at_right_proper_filter|]. apply (filterlim_comp _ _ _ u F _ (at_right 0)); [|exact LA]. rewrite <- Ea. apply (to_right u a b); [exact Hab|exact Ca|]. intros x Hx. rewrite Ea. apply HU. exact Hx.
  - apply lim_scal; [apply at_left_proper_filter|]. apply (filterlim_comp _ _ _ u F _ (at_left 1)); [|exact LB]. rewrite <- Eb. apply (from_left_up u a b); [exact Hab|exact Cb|]. intros x Hx. rewrite Eb. apply HU. exact Hx.
  - rewrite Ew, E. rr. ring.
Qed.
Lemma subst_down (f g u du : RR -> RR) a b v k w : improper f 0 1 v -> a < b -> (forall x, a < x < b -> 0 < u x < 1 /\ is_derive u x (du x)) -> continuous u a -> continuous u b -> u a = 1 -> u b = 0 ->
  (forall x, a < x < b -> g x = - k * (f (u x) * du x)) -> w = k * v -> improper g a b w.
Proof.
  intros (F & A & B & D & LA & LB & E) Hab HU Ca Cb Ea Eb G Ew. exists (fun x => - k * F (u x)), (- k * B), (- k * A). split; [|split; [|split]].
  - intros x Hx. destruct (HU x Hx) as [H1 H2]. rewrite (G x Hx). apply is_derive_Rscal. refine (is_derive_eq _ _ _ _ (is_derive_comp (V := R_NormedModule) F u x _ _ (D _ H1) H2) _). change (du x * f (u x) = f (u x) * du x). ring.
  - apply lim_scal; [apply at_right_proper_filter|]. apply (filterlim_comp _ _ _ u F _ (at_left 1)); [|exact LB]. rewrite <- Ea. apply (to_left u a b); [exact Hab|exact Ca|]. intros x Hx. rewrite Ea. apply HU. exact Hx.
  - apply lim_scal; [apply at_left_proper_filter|]. apply (filterlim_comp _ _ _ u F _ (at_right 0)); [|exact LA]. rewrite <- Eb. apply (from_left_down u a b); [exact Hab|exact Cb|]. intros x Hx. rewrite Eb. apply HU. exact Hx.
  - rewrite Ew, E. rr. ring.
Qed.
Lemma improper_ext f g a b v : (forall x, a < x < b -> f x = g x) -> improper f a b v -> improper g a b v.
Proof. intros H (F & A & B & D & X). exists F, A, B. split; [|exact X]. intros x Hx. rewrite <- H by exact Hx. apply D. exact Hx. Qed.
Lemma improper_scal k f a b v : improper f a b v -> improper (fun x => k * f x) a b (k * v).
Proof.
  intros (F & A & B & D & LA & LB & E). exists (fun x => k * F x), (k * A), (k * B). split; [|split; [|split]].
  - intros x Hx. apply is_derive_Rscal, D, Hx.
  - apply lim_scal; [apply at_right_proper_filter|exact LA].
  - apply lim_scal; [apply at_left_proper_filter|exact LB].
  - rewrite E. rr. ring.
Qed.
Lemma improper_plus f g a b v w : improper f a b v -> improper g a b w -> improper (fun x => f x + g x) a b (v + w).
Proof.
  intros (F & A & B & D & LA & LB & E) (F' & A' & B' & D' & LA' & LB' & E'). exists (fun x => F x + F' x), (A + A'), (B + B'). split; [|split; [|split]].
  - intros x Hx. apply is_derive_Rplus; [apply D|apply D']; exact Hx.
  - apply (filterlim_comp_2 (G := locally A) (H := locally A') F F' Rplus LA LA'). apply (filterlim_plus (V := R_NormedModule)).
  - apply (filterlim_comp_2 (G := locally B) (H := locally B') F F' Rplus LB LB'). apply (filterlim_plus (V := R_NormedModule)).
  - rewrite E, E'. rr. ring.
Qed.
Lemma cont_d (f : RR -> RR) x l : is_derive f x l -> continuous f x.
Proof. intros H. apply (ex_derive_continuous (K := R_AbsRing) (V := R_NormedModule)). eexists. exact H. Qed.
(** the angular integral *)
Lemma ang Gam beta : beta_integral Gam (1 / 2) (1 - beta) -> let B := Gam (1 / 2) * Gam (1 - beta) / Gam (1 / 2 + (1 - beta)) in
  improper (fun eta => Rpower (sin eta) (- 2 * beta) * sin eta) 0 (PI / 2) (1 / 2 * B) /\ improper (fun eta => Rpower (sin eta) (- 2 * beta) * sin eta) (PI / 2) PI (1 / 2 * B).
Proof.
  intros H B. pose proof PI_RGT_0 as P0. set (u := fun x => cos x ^ 2). set (du := fun x => - 2 * cos x * sin x).
  assert (DU : forall x, is_derive u x (du x)) by (intros x; unfold u, du; auto_derive; [exact I|rr; ring]).
  assert (K : forall x, 0 < sin x -> cos x <> 0 -> 0 < u x < 1). { intros x Hs Hc. unfold u. pose proof (sin2_cos2 x) as E. unfold Rsqr in E. assert (0 < cos x ^ 2) by (apply pow2_gt_0; exact Hc). assert (0 < sin x ^ 2) by (apply pow_lt; exact Hs). split; [assumption|]. simpl in *. lra. }
  assert (V : forall x, 0 < sin x -> cos x <> 0 -> Rpower (u x) (1 / 2 - 1) * Rpower (1 - u x) (1 - beta - 1) = / Rabs (cos x) * Rpower (sin x) (- 2 * beta)).
  { intros x Hs Hc. replace (1 - u x) with (sin x ^ 2) by (unfold u; pose proof (sin2_cos2 x) as E; unfold Rsqr in E; simpl; lra). unfold u. replace (cos x ^ 2) with (Rabs (cos x) ^ 2) by apply pow2_abs. pose proof (Rabs_pos_lt _ Hc) as PA.
    rewrite <- !Rpower_pow by assumption. rewrite !Rpower_mult. f_equal; [|f_equal; simpl; rr; ring]. replace (INR 2 * (1 / 2 - 1)) with (Ropp 1) by (simpl; lra). rewrite (Rpower_Ropp _ 1), Rpower_1 by exact PA. reflexivity. }
  split.
  - apply (subst_down _ _ u du 0 (PI / 2) _ (1 / 2) _ H); try (apply (cont_d _ _ _ (DU _))); try lra.
    + intros x Hx. split; [|apply DU]. apply K; [apply sin_gt_0; lra|]. apply Rgt_not_eq, cos_gt_0; lra.
    + unfold u. rewrite cos_0. ring.
    + unfold u. rewrite cos_PI2. ring.
    + intros x Hx. assert (Hc : 0 < cos x) by (apply cos_gt_0; lra). assert (Hs : 0 < sin x) by (apply sin_gt_0; lra). rewrite V by lra. rewrite Rabs_pos_eq by lra. unfold du. rr. field. lra.
    + reflexivity.
  - apply (subst_up _ _ u du (PI / 2) PI _ (1 / 2) _ H); try (apply (cont_d _ _ _ (DU _))); try lra.
    + intros x Hx. split; [|apply DU]. apply K; [apply sin_gt_0; lra|]. apply Rlt_not_eq, cos_lt_0; lra.
    + unfold u. rewrite cos_PI2. ring.
    + unfold u. rewrite cos_PI. ring.
    + intros x Hx. assert (Hc : cos x < 0) by (apply cos_lt_0; lra). assert (Hs : 0 < sin x) by (apply sin_gt_0; lra). rewrite V by lra. rewrite Rabs_left by lra. unfold du. rr. field. lra.
    + reflexivity.
Qed.
Lemma sq_lt (v s : RR) : 0 < v < s -> v ^ 2 < s ^ 2.
Proof. intros H. nra. Qed.
(** the integral over the speeds: q scales the kinetic energy *)
Lemma spd Gam b n Psi q : 0 < Psi -> 0 < q -> beta_integral Gam b (n + 1) ->
  improper (fun v => Rpower v (2 * b - 1) * Rpower (Psi - q * v ^ 2 / 2) n) 0 (sqrt (2 * Psi / q)) (Rpower Psi n * Psi / q * Rpower (2 * Psi / q) (b - 1) * (Gam b * Gam (n + 1) / Gam (b + (n + 1)))).
Proof.
  intros HP Hq H. set (W := 2 * Psi / q). assert (HW : 0 < W) by (unfold W; apply Rdiv_lt_0_compat; lra). assert (SW : 0 < sqrt W) by (apply sqrt_lt_R0; exact HW). assert (SS : sqrt W ^ 2 = W) by (apply pow2_sqrt; lra).
  apply (subst_up _ _ (fun v => v ^ 2 / W) (fun v => 2 * v / W) 0 (sqrt W) _ (Rpower Psi n * Psi / q * Rpower W (b - 1)) _ H).
  - exact SW.
  - intros v Hv. split.
    + assert (0 < v ^ 2) by (apply pow_lt; lra). assert (v ^ 2 < W) by (rewrite <- SS; apply sq_lt; exact Hv). split; [apply Rdiv_lt_0_compat; assumption|]. apply Rlt_div_l; lra.
    + auto_derive; [exact I|]. rr. field. lra.
  - apply (cont_d _ _ (2 * 0 / W)). auto_derive; [exact I|]. rr. field. lra.
  - apply (cont_d _ _ (2 * sqrt W / W)). auto_derive; [exact I|]. rr. field. lra.
  - rr. field. lra.
  - rewrite SS. rr. field. lra.
  - intros v Hv. assert (V2 : 0 < v ^ 2) by (apply pow_lt; lra). assert (VW : v ^ 2 < W) by (rewrite <- SS; apply sq_lt; exact Hv). assert (D : 0 < 1 - v ^ 2 / W) by (apply (Rmult_lt_reg_r W); [exact HW|]; replace ((1 - v ^ 2 / W) * W) with (W - v ^ 2) by (field; lra); lra).
    replace (n + 1 - 1) with n by ring. replace (Psi - q * v ^ 2 / 2) with (Psi * (1 - v ^ 2 / W)) by (unfold W; field; lra). rewrite <- (Rpower_mult_distr Psi) by assumption.
    replace (v ^ 2 / W) with (v ^ 2 * / W) at 2 by reflexivity. rewrite <- (Rpower_mult_distr (v ^ 2) (/ W)) by (try assumption; apply Rinv_0_lt_compat; exact HW).
    assert (EI : Rpower (/ W) (b - 1) = / Rpower W (b - 1)). { unfold Rpower. rewrite ln_Rinv by exact HW. rewrite <- exp_Ropp. f_equal. ring. }
    rewrite EI. rewrite <- (Rpower_pow 2 v) by lra. rewrite Rpower_mult. replace (2 * b - 1) with (INR 2 * (b - 1) + 1) by (simpl; ring). rewrite Rpower_plus, Rpower_1 by lra.
    set (p1 := Rpower Psi n). set (p2 := Rpower (1 - _) n). set (p3 := Rpower v _). assert (Q : 0 < Rpower W (b - 1)) by apply exp_pos. set (p4 := Rpower W (b - 1)) in *. clearbody p1 p2 p3 p4. unfold W. rr. field. repeat split; try lra.
  - reflexivity.
Qed.

Lemma improper_cont (F f : RR -> RR) a b v : a < b -> (forall x, a <= x <= b -> is_derive F x (f x)) -> v = F b - F a -> improper f a b v.
Proof.
  intros Hab H E. exists F, (F a), (F b). split; [intros x Hx; apply H; lra|]. split; [|split; [|exact E]]; intros P HP; apply filter_le_within; [apply (cont_d _ _ _ (H a ltac:(lra)) P HP)|apply (cont_d _ _ _ (H b ltac:(lra)) P HP)].
Qed.
Lemma Rp_inv x y : 0 < x -> Rpower (/ x) y = / Rpower x y.
Proof. intros H. unfold Rpower. rewrite ln_Rinv by exact H. rewrite <- exp_Ropp. f_equal. ring. Qed.
Lemma Rp_half x : 0 < x -> Rpower x (1 / 2) = sqrt x.
Proof. intros H. rewrite <- Rpower_sqrt by exact H. f_equal. field. Qed.
Lemma Rp_sq r y : 0 < r -> Rpower (r ^ 2) y = Rpower r (2 * y).
Proof. intros H. rewrite <- Rpower_pow by exact H. rewrite Rpower_mult. f_equal. Qed.
Lemma ps_phi amp alpha r : 2 < alpha -> 0 < r -> amp * PS_ev alpha r 0 = - (amp / (alpha - 2) * Rpower r (2 - alpha)).
Proof. intros Ha Hr. unfold PS_ev. destruct (Req_EM_T alpha 2); [exfalso; lra|]. replace (r ^ 2 + 0 ^ 2) with (r ^ 2) by ring. unfold rpow. rewrite Rp_sq by exact Hr. replace (2 * (1 - alpha / 2)) with (2 - alpha) by field. rr. field. lra. Qed.
Lemma ps_dens amp g r : 0 < r -> amp * PS_dens g r 0 = amp * (3 - g) / (4 * PI) * Rpower r (- g).
Proof. intros Hr. unfold PS_dens. replace (r ^ 2 + 0 ^ 2) with (r ^ 2) by ring. rewrite sqrt_pow2 by lra. unfold rpow. rewrite Rpower_Ropp. pose proof PI_RGT_0. assert (0 < Rpower r g) by apply exp_pos. rr. field. lra. Qed.
Lemma Rp_psi C alpha p r : 0 < C -> 0 < r -> Rpower (C * Rpower r (2 - alpha)) p = Rpower C p * Rpower r ((2 - alpha) * p).
Proof. intros HC Hr. rewrite <- Rpower_mult_distr; [|exact HC|apply exp_pos]. rewrite Rpower_mult. reflexivity. Qed.
Lemma twopi32 : Rpower (2 * PI) (3 / 2) = 2 * PI * (sqrt 2 * sqrt PI).
Proof. pose proof PI_RGT_0. replace (3 / 2) with (1 + 1 / 2) by field. rewrite Rpower_plus, Rpower_1, Rp_half by lra. rewrite sqrt_mult by lra. reflexivity. Qed.
Lemma pi32 : Rpower PI (3 / 2) = PI * sqrt PI.
Proof. pose proof PI_RGT_0. replace (3 / 2) with (1 + 1 / 2) by field. rewrite Rpower_plus, Rpower_1, Rp_half by lra. reflexivity. Qed.

Lemma cb_density Gam pamp alpha denspot beta s r : cbpl_init Gam pamp alpha denspot beta = Some s -> 0 < pamp -> 0 < r -> let n := cb_n s in
  beta_integral Gam (3 / 2 - beta) (n + 1) -> beta_integral Gam (1 / 2) (1 - beta) -> Gam (1 / 2) = sqrt PI -> 0 < Gam (3 / 2 - beta) -> 0 < Gam (n + 1) -> 0 < Gam (1 - beta) -> 0 < Gam (n + 5 / 2 - beta) ->
  density_at (cbpl_call s) (pamp * PS_ev alpha r 0) r (fst (tracer pamp alpha denspot) * PS_dens (snd (tracer pamp alpha denspot)) r 0).
Proof.
  intros E Hp Hr n HB1 HB2 G12 G1 G2 G3 G4. unfold cbpl_init in E. destruct (Rle_dec alpha 2) as [|Ha]; [discriminate|]. destruct (Rle_dec 1 beta) as [|Hb]; [discriminate|]. destruct (tracer pamp alpha denspot) as [damp gamma]. cbn [fst snd]. destruct (Rle_dec 3 gamma) as [|Hg]; [discriminate|]. cbv zeta in E.
  set (C := pamp / (alpha - 2)) in *. set (nu0 := damp * (3 - gamma) / (4 * PI)) in *. set (p := (gamma - 2 * beta) / (alpha - 2)) in *. destruct (Rle_dec (p + beta - 3 / 2) (- 1)) as [|Hn]; [discriminate|]. injection E as <-. cbn [cb_n] in n. unfold cbpl_call, cbpl_fE. cbn [cb_beta cb_n cb_norm]. unfold rpow.
  set (norm := nu0 * _ * _ / _). fold n. fold n in norm. assert (HC : 0 < C) by (unfold C; apply Rdiv_lt_0_compat; lra).
  rewrite ps_phi, ps_dens by lra. fold C. fold nu0. set (Psi := C * Rpower r (2 - alpha)). assert (HPsi : 0 < Psi) by (unfold Psi; apply Rmult_lt_0_compat; [exact HC|apply exp_pos]). assert (S2 : 0 < sqrt (2 * Psi / 1)) by (apply sqrt_lt_R0; lra). assert (SS : sqrt (2 * Psi / 1) ^ 2 = 2 * Psi) by (rewrite pow2_sqrt; lra).
  pose proof (spd Gam (3 / 2 - beta) n Psi 1 HPsi Rlt_0_1 HB1) as SP. set (sv := Rpower Psi n * Psi / 1 * _ * _) in SP. destruct (ang Gam beta HB2) as [A1 A2]. set (B := Gam (1 / 2) * Gam (1 - beta) / Gam (1 / 2 + (1 - beta))) in *.
  set (K := Rpower r (- 2 * beta) * norm * sv). exists (fun _ => sqrt (2 * Psi / 1)), (fun eta => K * Rpower (sin eta) (- 2 * beta)), (K * (1 / 2 * B)), (K * (1 / 2 * B)). split; [|split; [|split]].
  - intros eta Heta. assert (Hs : 0 < sin eta) by (apply sin_gt_0; lra). split; [exact S2|]. split.
    + replace (K * Rpower (sin eta) (- 2 * beta)) with (Rpower r (- 2 * beta) * Rpower (sin eta) (- 2 * beta) * norm * sv) by (unfold K; ring).
      refine (improper_ext _ _ _ _ _ _ (improper_scal (Rpower r (- 2 * beta) * Rpower (sin eta) (- 2 * beta) * norm) _ _ _ _ SP)). intros v Hv. cbv beta. pose proof (sq_lt v _ Hv) as V2. rewrite SS in V2. destruct (Rlt_dec 0 (- (- Psi + v ^ 2 / 2))) as [_|Z]; [|exfalso; lra].
      rewrite <- (Rpower_mult_distr r (v * sin eta)), <- (Rpower_mult_distr v (sin eta)); try lra; [|apply Rmult_lt_0_compat; lra]. replace (- (- Psi + v ^ 2 / 2)) with (Psi - 1 * v ^ 2 / 2) by field. replace (2 * (3 / 2 - beta) - 1) with (INR 2 + - 2 * beta) by (simpl; field). rewrite Rpower_plus, Rpower_pow by lra. rr. ring.
    + intros v Hv. assert (V2 : 2 * Psi < v ^ 2) by (rewrite <- SS; apply sq_lt; lra). destruct (Rlt_dec 0 (- (- Psi + v ^ 2 / 2))) as [Z|_]; [exfalso; lra|]. rr. ring.
  - refine (improper_ext _ _ _ _ _ _ (improper_scal K _ _ _ _ A1)). intros eta _. cbv beta. rr. ring.
  - refine (improper_ext _ _ _ _ _ _ (improper_scal K _ _ _ _ A2)). intros eta _. cbv beta. rr. ring.
  - replace (2 * PI * (K * (1 / 2 * B) + K * (1 / 2 * B))) with (2 * PI * K * B) by field. unfold K, B, sv, norm. rewrite G12. replace (1 / 2 + (1 - beta)) with (3 / 2 - beta) by field. replace (3 / 2 - beta + (n + 1)) with (p + 1) by (unfold n; field). replace (n + 5 / 2 - beta) with (p + 1) in G4 by (unfold n; field).
    replace (2 * Psi / 1) with (2 * Psi) by field. rewrite <- (Rpower_mult_distr 2 Psi) by lra. assert (EP : Rpower Psi n * Psi * Rpower Psi (3 / 2 - beta - 1) = Rpower C p * Rpower r ((2 - alpha) * p)). { rewrite <- (Rpower_1 Psi HPsi) at 2. rewrite <- !Rpower_plus. replace (n + 1 + (3 / 2 - beta - 1)) with p by (unfold n; field). apply Rp_psi; assumption. }
    assert (E2 : Rpower 2 beta * Rpower 2 (3 / 2 - beta - 1) = sqrt 2). { rewrite <- Rpower_plus. replace (beta + (3 / 2 - beta - 1)) with (1 / 2) by field. apply Rp_half. lra. }
    assert (E3 : Rpower r (- 2 * beta) * Rpower r ((2 - alpha) * p) = Rpower r (- gamma)). { rewrite <- Rpower_plus. f_equal. unfold p. field. lra. }
    rewrite twopi32. rewrite <- E3. assert (P1 : 0 < Rpower C p) by apply exp_pos. pose proof PI_RGT_0 as P0. assert (P2 : 0 < sqrt PI) by (apply sqrt_lt_R0; exact P0). assert (P3 : 0 < sqrt 2) by (apply sqrt_lt_R0; lra).
    set (x1 := Rpower r (- 2 * beta)) in *. set (x2 := Rpower r ((2 - alpha) * p)) in *. set (x3 := Rpower C p) in *. set (y1 := Rpower Psi n) in *. set (y2 := Rpower Psi (3 / 2 - beta - 1)) in *. set (t1 := Rpower 2 beta) in *. set (t2 := Rpower 2 (3 / 2 - beta - 1)) in *. set (g1 := Gam (3 / 2 - beta)) in *. set (g2 := Gam (n + 1)) in *. set (g3 := Gam (1 - beta)) in *. set (g4 := Gam (p + 1)) in *. set (sp := sqrt PI) in *. set (s2 := sqrt 2) in *.
    replace (2 * PI * (x1 * (nu0 * t1 * g4 / (2 * PI * (s2 * sp) * g3 * g2 * x3)) * (y1 * Psi / 1 * (t2 * y2) * (g1 * g2 / g4))) * (sp * g3 / g1)) with (nu0 * x1 * (t1 * t2) * (y1 * Psi * y2) / (s2 * x3)) by (field; repeat split; lra).
    rewrite EP, E2. rr. field. split; lra.
Qed.
Lemma om_density Gam pamp alpha denspot ra s r : ompl_init Gam pamp alpha denspot ra = Some s -> alpha / 2 + 1 < snd (tracer pamp alpha denspot) -> 0 < pamp -> 0 < r -> 0 < ra -> let n1 := om_n1 s in let n2 := om_n2 s in
  beta_integral Gam (3 / 2) (n1 + 1) -> beta_integral Gam (3 / 2) (n2 + 1) -> Gam (3 / 2) = sqrt PI / 2 -> 0 < Gam (n1 + 1) -> 0 < Gam (n2 + 1) -> 0 < Gam (n1 + 5 / 2) -> 0 < Gam (n2 + 5 / 2) ->
  density_at (ompl_call s) (pamp * PS_ev alpha r 0) r (fst (tracer pamp alpha denspot) * PS_dens (snd (tracer pamp alpha denspot)) r 0).
Proof.
  intros E Hgg Hp Hr Hra n1 n2 HB1 HB2 G32 G1 G2 G3 G4. unfold ompl_init in E. destruct (Rle_dec alpha 2) as [|Ha]; [discriminate|]. destruct (tracer pamp alpha denspot) as [damp gamma]. cbn [fst snd] in *. destruct (Rle_dec gamma (alpha / 2)) as [|Hg2]; [discriminate|]. destruct (Rle_dec 3 gamma) as [|Hg]; [discriminate|]. cbv zeta in E.
  set (C := pamp / (alpha - 2)) in *. set (nu0 := damp * (3 - gamma) / (4 * PI)) in *. set (s1 := gamma / (alpha - 2)) in *. set (s2 := (gamma - 2) / (alpha - 2)) in *. injection E as <-. cbn [om_n1 om_n2] in n1, n2. unfold ompl_call, ompl_fQ. cbn [om_n1 om_n2 om_A1 om_A2 om_ra]. unfold rpow.
  set (A1 := nu0 / _ * _ / _). set (A2 := nu0 / (ra ^ 2 * _) * _ / _). fold n1. fold n2. assert (HC : 0 < C) by (unfold C; apply Rdiv_lt_0_compat; lra).
  rewrite ps_phi, ps_dens by lra. fold C. fold nu0. set (Psi := C * Rpower r (2 - alpha)). assert (HPsi : 0 < Psi) by (unfold Psi; apply Rmult_lt_0_compat; [exact HC|apply exp_pos]).
  set (k := r ^ 2 / ra ^ 2). assert (R2 : 0 < ra ^ 2) by (apply pow_lt; exact Hra). assert (Hk : 0 < k) by (unfold k; apply Rdiv_lt_0_compat; [apply pow_lt; exact Hr|exact R2]).
  set (q := fun eta => 1 + k * sin eta ^ 2). assert (Hq : forall eta, 0 < q eta) by (intros eta; unfold q; pose proof (pow2_ge_0 (sin eta)); nra).
  set (B1 := Gam (3 / 2) * Gam (n1 + 1) / Gam (3 / 2 + (n1 + 1))). set (B2 := Gam (3 / 2) * Gam (n2 + 1) / Gam (3 / 2 + (n2 + 1))).
  set (K := (A1 * Rpower Psi n1 * B1 + A2 * Rpower Psi n2 * B2) * (Psi * sqrt (2 * Psi))). set (inner := fun eta => K / (q eta * sqrt (q eta))).
  set (F := fun eta => K * (- cos eta / ((1 + k) * sqrt (q eta)))).
  assert (DF : forall eta, is_derive F eta (inner eta * sin eta)).
  { intros eta. unfold F, inner. pose proof (Hq eta) as Q. assert (SQ : 0 < sqrt (q eta)) by (apply sqrt_lt_R0; exact Q). assert (QQ : sqrt (q eta) ^ 2 = q eta) by (apply pow2_sqrt; lra). replace (K / (q eta * sqrt (q eta)) * sin eta) with (K * (sin eta / (q eta * sqrt (q eta)))) by (field; lra). apply is_derive_Rscal.
    assert (Dq : is_derive q eta (k * (2 * sin eta * cos eta))) by (unfold q; auto_derive; [exact I|rr; ring]). assert (Ds : is_derive (fun x => sqrt (q x)) eta (k * (2 * sin eta * cos eta) / (2 * sqrt (q eta)))) by (apply (is_derive_sqrt q eta); assumption).
    assert (Dd : is_derive (fun x => (1 + k) * sqrt (q x)) eta ((1 + k) * (k * (2 * sin eta * cos eta) / (2 * sqrt (q eta))))) by (apply is_derive_Rscal; exact Ds). assert (Dc : is_derive (fun x => - cos x) eta (sin eta)) by (auto_derive; [exact I|rr; ring]).
    refine (is_derive_eq _ _ _ _ (is_derive_div _ _ eta _ _ Dc Dd _) _); [apply Rgt_not_eq, Rmult_lt_0_compat; lra|]. assert (T : 1 + k = q eta + k * cos eta ^ 2) by (unfold q; pose proof (sin2_cos2 eta) as X; unfold Rsqr in X; simpl; nra).
    set (w := sqrt (q eta)) in *. rewrite <- QQ in T |- *. set (sn := sin eta). set (cs := cos eta) in *. clearbody w sn cs. transitivity ((sn * w ^ 2 + k * sn * cs ^ 2) / ((1 + k) * w ^ 3)); [rr; field; lra|]. replace (sn * w ^ 2 + k * sn * cs ^ 2) with (sn * (1 + k)) by (rewrite T; ring). rr. field. lra. }
  pose proof PI_RGT_0 as P0. exists (fun eta => sqrt (2 * Psi / q eta)), inner, (F (PI / 2) - F 0), (F PI - F (PI / 2)). split; [|split; [|split]].
  - intros eta Heta. pose proof (Hq eta) as Q. assert (HW : 0 < 2 * Psi / q eta) by (apply Rdiv_lt_0_compat; lra). assert (SS : sqrt (2 * Psi / q eta) ^ 2 = 2 * Psi / q eta) by (apply pow2_sqrt; lra). split; [apply sqrt_lt_R0; exact HW|].
    assert (EQ : forall v, - (- Psi + v ^ 2 / 2) - 0.5 * (r * (v * sin eta)) ^ 2 / ra ^ 2 = Psi - q eta * v ^ 2 / 2) by (intros v; replace 0.5 with (1 / 2) by lra; unfold q, k; rr; field; lra). split.
    + pose proof (spd Gam (3 / 2) n1 Psi (q eta) HPsi Q HB1) as S1. pose proof (spd Gam (3 / 2) n2 Psi (q eta) HPsi Q HB2) as S2. fold B1 in S1. fold B2 in S2.
      replace (inner eta) with (A1 * (Rpower Psi n1 * Psi / q eta * Rpower (2 * Psi / q eta) (3 / 2 - 1) * B1) + A2 * (Rpower Psi n2 * Psi / q eta * Rpower (2 * Psi / q eta) (3 / 2 - 1) * B2)).
      * refine (improper_ext _ _ _ _ _ _ (improper_plus _ _ _ _ _ _ (improper_scal A1 _ _ _ _ S1) (improper_scal A2 _ _ _ _ S2))). intros v Hv. cbv beta. rewrite EQ. pose proof (sq_lt v _ Hv) as V2. rewrite SS in V2. apply (Rmult_lt_compat_r (q eta)) in V2; [|exact Q]. replace (2 * Psi / q eta * q eta) with (2 * Psi) in V2 by (field; lra).
        destruct (Rlt_dec 0 (Psi - q eta * v ^ 2 / 2)) as [_|Z]; [|exfalso; lra]. replace (2 * (3 / 2) - 1) with (INR 2) by (simpl; field). rewrite Rpower_pow by lra. rr. ring.
      * unfold inner, K. replace (3 / 2 - 1) with (1 / 2) by field. rewrite Rp_half by exact HW. rewrite sqrt_div by lra. assert (0 < sqrt (q eta)) by (apply sqrt_lt_R0; exact Q). rr. field. lra.
    + intros v Hv. rewrite EQ. assert (V0 : 0 < sqrt (2 * Psi / q eta)) by (apply sqrt_lt_R0; exact HW). assert (V2 : 2 * Psi / q eta < v ^ 2) by (rewrite <- SS; apply sq_lt; lra). apply (Rmult_lt_compat_r (q eta)) in V2; [|exact Q]. replace (2 * Psi / q eta * q eta) with (2 * Psi) in V2 by (field; lra). destruct (Rlt_dec 0 _) as [Z|_]; [exfalso; lra|reflexivity].
  - apply (improper_cont F); [lra| |reflexivity]. intros; apply DF.
  - apply (improper_cont F); [lra| |reflexivity]. intros; apply DF.
  - replace (F (PI / 2) - F 0 + (F PI - F (PI / 2))) with (F PI - F 0) by ring. unfold F, q. rewrite cos_PI, cos_0, sin_PI, sin_0. replace (1 + k * 0 ^ 2) with 1 by ring. rewrite sqrt_1. unfold K, B1, B2, A1, A2. rewrite G32, pi32.
    replace (3 / 2 + (n1 + 1)) with (s1 + 1) by (unfold n1; field). replace (3 / 2 + (n2 + 1)) with (s2 + 1) by (unfold n2; field). replace (n1 + 5 / 2) with (s1 + 1) in G3 by (unfold n1; field). replace (n2 + 5 / 2) with (s2 + 1) in G4 by (unfold n2; field). replace (n1 + 1) with (s1 - 1 / 2) in * by (unfold n1; field). replace (n2 + 1) with (s2 - 1 / 2) in * by (unfold n2; field).
    assert (EP : forall nn ss, nn = ss - 3 / 2 -> Rpower Psi nn * (Psi * sqrt (2 * Psi)) = sqrt 2 * (Rpower C ss * Rpower r ((2 - alpha) * ss))). { intros nn ss ->. rewrite sqrt_mult by lra. rewrite <- (Rp_half Psi HPsi). rewrite <- (Rp_psi C alpha ss r HC Hr). fold Psi. replace ss with (ss - 3 / 2 + 1 + 1 / 2) at 2 by field. rewrite !Rpower_plus, Rpower_1 by exact HPsi. rr. ring. }
    pose proof (EP n1 s1 eq_refl) as E1. pose proof (EP n2 s2 eq_refl) as E2. assert (X1 : Rpower r ((2 - alpha) * s1) = Rpower r (- gamma)) by (f_equal; unfold s1; field; lra). assert (X2 : Rpower r ((2 - alpha) * s2) = Rpower r (- gamma) * r ^ 2). { rewrite <- (Rpower_pow 2 r Hr). rewrite <- Rpower_plus. f_equal. unfold s2. simpl. field. lra. }
    rewrite X1 in E1. rewrite X2 in E2. assert (Y1 : 0 < Rpower C s1) by apply exp_pos. assert (Y2 : 0 < Rpower C s2) by apply exp_pos. assert (P2 : 0 < sqrt PI) by (apply sqrt_lt_R0; exact P0). assert (P3 : 0 < sqrt 2) by (apply sqrt_lt_R0; lra). assert (EK : 1 + k = (ra ^ 2 + r ^ 2) / ra ^ 2) by (unfold k; field; lra). rewrite EK. assert (RS : 0 < ra ^ 2 + r ^ 2) by (assert (0 < r ^ 2) by (apply pow_lt; exact Hr); lra).
    set (z1 := Rpower Psi n1) in *. set (z2 := Rpower Psi n2) in *. set (m := Psi * sqrt (2 * Psi)) in *. set (c1 := Rpower C s1) in *. set (c2 := Rpower C s2) in *. set (g := Rpower r (- gamma)) in *. set (h1 := Gam (s1 - 1 / 2)) in *. set (h2 := Gam (s2 - 1 / 2)) in *. set (h3 := Gam (s1 + 1)) in *. set (h4 := Gam (s2 + 1)) in *. set (sp := sqrt PI) in *. set (t2 := sqrt 2) in *. clearbody z1 z2 m c1 c2 g h1 h2 h3 h4 sp t2.
    match goal with |- _ = ?rhs => transitivity (nu0 / (t2 * (ra ^ 2 + r ^ 2)) * (ra ^ 2 * (z1 * m) / c1 + (z2 * m) / c2)) end; [rewrite E1, E2; rr; field; repeat split; lra|]. rr. field. repeat split; lra.
Qed.
