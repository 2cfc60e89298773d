(** Actions and angles along the orbits of the isochrone potential. *)
From Coq Require Import Reals Lra Lia Psatz.
From Coquelicot Require Import Coquelicot.
From Verif.Lib Require Import RealAux Atan2.
From Verif.Model Require Import PotAxi ActionAngle.
From Verif.Spec Require Import ActionAngleSpec.
From Verif.Proofs Require Import AngleProofs IsochroneProofs.
Open Scope R_scope.
Notation RR := RbaseSymbolsImpl.R (only parsing).
Ltac toR := match goal with |- ?a = ?b => change (@eq RbaseSymbolsImpl.R a b) end.

Lemma constant f : (forall s, is_derive f s 0) -> forall t : RR, f t = f 0 :> RR.
Proof.
  intros Df t. destruct (MVT_gen f 0 t (fun _ => 0)) as (c & _ & E); [intros; apply Df|intros; apply continuity_pt_filterlim; apply (ex_derive_continuous (K := R_AbsRing) (V := R_NormedModule)); eexists; apply Df|]. lra.
Qed.
(** A point that turns at the rate of an angle stays at that angle *)
Lemma rotates (X Y th om : RR -> RR) : (forall s, is_derive X s (- om s * Y s)) -> (forall s, is_derive Y s (om s * X s)) -> (forall s, is_derive th s (om s)) ->
  X 0 = cos (th 0) -> Y 0 = sin (th 0) -> forall t, X t = cos (th t) /\ Y t = sin (th t).
Proof.
  intros DX DY DT X0 Y0 t.
  assert (Dc : forall s, is_derive (fun s => cos (th s)) s (- (om s) * sin (th s))).
  { intros s. pose proof (DT s) as D. auto_derive; [exact (ex_intro _ _ D)|]. assert (U : Derive (fun x => th x) s = om s) by (apply is_derive_unique; exact D). rewrite U. ring. }
  assert (Ds : forall s, is_derive (fun s => sin (th s)) s (om s * cos (th s))).
  { intros s. pose proof (DT s) as D. auto_derive; [exact (ex_intro _ _ D)|]. assert (U : Derive (fun x => th x) s = om s) by (apply is_derive_unique; exact D). rewrite U. ring. }
  assert (A : forall s, is_derive (fun s => X s * cos (th s) + Y s * sin (th s)) s 0).
  { intros s. eapply is_derive_eq; [apply is_derive_Rplus; [apply (is_derive_Rmult X (fun s => cos (th s))); [apply DX|apply Dc]|apply (is_derive_Rmult Y (fun s => sin (th s))); [apply DY|apply Ds]]|cbv beta; toR; ring]. }
  assert (B : forall s, is_derive (fun s => Y s * cos (th s) + - (X s * sin (th s))) s 0).
  { intros s. eapply is_derive_eq; [apply is_derive_Rplus; [apply (is_derive_Rmult Y (fun s => cos (th s))); [apply DY|apply Dc]|apply (is_derive_opp (K := R_AbsRing) (V := R_NormedModule)); apply (is_derive_Rmult X (fun s => sin (th s))); [apply DX|apply Ds]]|cbv beta; unfold opp; cbn; toR; ring]. }
  pose proof (constant _ A t) as A'. pose proof (constant _ B t) as B'. cbv beta in A', B'. rewrite X0, Y0 in A', B'.
  pose proof (sin2_cos2 (th 0)) as T0. pose proof (sin2_cos2 (th t)) as Tt. rewrite !Rsqr_pow2 in T0, Tt.
  assert (A2 : X t * cos (th t) + Y t * sin (th t) = 1) by (rewrite A'; lra). assert (B2 : Y t * cos (th t) - X t * sin (th t) = 0) by lra.
  split.
  - transitivity (X t * (sin (th t) ^ 2 + cos (th t) ^ 2)); [rewrite Tt; ring|]. transitivity ((X t * cos (th t) + Y t * sin (th t)) * cos (th t) - (Y t * cos (th t) - X t * sin (th t)) * sin (th t)); [ring|]. rewrite A2, B2. ring.
  - transitivity (Y t * (sin (th t) ^ 2 + cos (th t) ^ 2)); [rewrite Tt; ring|]. transitivity ((X t * cos (th t) + Y t * sin (th t)) * sin (th t) + (Y t * cos (th t) - X t * sin (th t)) * cos (th t)); [ring|]. rewrite A2, B2. ring.
Qed.

(** ** arctan (g tan (eta/2)), continued smoothly *)
Definition lift (g eta : RR) : RR := eta / 2 + atan ((g - 1) * sin eta / ((1 + cos eta) + g * (1 - cos eta))).
Lemma lift_den g eta : 0 < g -> 0 < (1 + cos eta) + g * (1 - cos eta).
Proof. intros P. pose proof (COS_bound eta) as B. destruct (Req_EM_T (cos eta) 1) as [->|N]; nra. Qed.
Lemma lift_shift g a b (n : Z) : a = b + 2 * PI * IZR n -> lift g a = lift g b + PI * IZR n.
Proof. intros E. unfold lift. rewrite (same_sin a b), (same_cos a b) by (exists n; exact E). rewrite E. lra. Qed.
Lemma lift_derive g eta : 0 < g -> is_derive (lift g) eta (g / ((1 + cos eta) + g ^ 2 * (1 - cos eta))).
Proof.
  intros P. pose proof (lift_den g eta P) as D. pose proof (lift_den (g ^ 2) eta ltac:(apply pow_lt; exact P)) as D2. pose proof (sin2_cos2 eta) as T. rewrite !Rsqr_pow2 in T.
  unfold lift. auto_derive; [lra|]. set (s := sin eta) in *. set (c := cos eta) in *. set (d := 1 + c + g * (1 - c)) in *. set (d2 := 1 + c + g ^ 2 * (1 - c)) in *.
  assert (Y : d ^ 2 + ((g - 1) * s) ^ 2 = 2 * d2). { assert (S2 : s ^ 2 = 1 - c ^ 2) by lra. rewrite Rpow_mult_distr, S2. unfold d, d2. ring. }
  assert (Hn : 1 * / 2 + ((g - 1) * c * d - (g - 1) * s * (- s + g * s)) / (d ^ 2 + ((g - 1) * s) ^ 2) = g / d2).
  { rewrite Y. assert (N : (g - 1) * c * d - (g - 1) * s * (- s + g * s) = 2 * g - d2). { assert (S2 : s ^ 2 = 1 - c ^ 2) by lra. replace ((g - 1) * s * (- s + g * s)) with ((g - 1) ^ 2 * s ^ 2) by ring. rewrite S2. unfold d, d2. ring. }
    rewrite N. field. lra. }
  rewrite <- Hn. change (1 + c + g * (1 + - c)) with d. clearbody d d2. field. split; [|lra]. match goal with |- ?x <> 0 => replace x with (2 * d2) by (rewrite <- Y; ring) end. lra.
Qed.
Lemma lift_trig g eta : 0 < g -> let n := sqrt (cos (eta / 2) ^ 2 + (g * sin (eta / 2)) ^ 2) in n * cos (lift g eta) = cos (eta / 2) /\ n * sin (lift g eta) = g * sin (eta / 2).
Proof.
  intros P n. set (x := eta / 2) in *. pose proof (sin2_cos2 x) as T. rewrite !Rsqr_pow2 in T. set (s := sin x) in *. set (c := cos x) in *.
  assert (Es : sin eta = 2 * s * c) by (replace eta with (2 * x) by (unfold x; field); apply sin_2a).
  assert (Ec : cos eta = c ^ 2 - s ^ 2) by (replace eta with (2 * x) by (unfold x; field); rewrite cos_2a; fold s c; ring).
  assert (Dp : 0 < c ^ 2 + g * s ^ 2) by (destruct (Req_EM_T s 0) as [Z|Z]; [rewrite Z in *; nra|assert (0 < s ^ 2) by (apply pow2_gt_0; exact Z); nra]).
  assert (Q : (g - 1) * sin eta / (1 + cos eta + g * (1 - cos eta)) = (g - 1) * s * c / (c ^ 2 + g * s ^ 2)).
  { rewrite Es, Ec. assert (C2 : c ^ 2 = 1 - s ^ 2) by lra. assert (1 + (c ^ 2 - s ^ 2) + g * (1 - (c ^ 2 - s ^ 2)) = 2 * (c ^ 2 + g * s ^ 2)) by (rewrite C2; ring). rewrite H. field. lra. }
  unfold lift. rewrite Q. fold x. set (y := (g - 1) * s * c / (c ^ 2 + g * s ^ 2)).
  assert (Yd : y * (c ^ 2 + g * s ^ 2) = (g - 1) * s * c) by (unfold y; field; lra).
  (* n = (c^2 + g s^2) sqrt (1 + y^2) *)
  assert (Nn : n = (c ^ 2 + g * s ^ 2) * sqrt (1 + y ^ 2)).
  { apply sq_eq_nonneg; [apply sqrt_pos|apply Rmult_le_pos; [lra|apply sqrt_pos]|]. unfold n. rewrite sqrt_sq by nra. rewrite (Rpow_mult_distr (c ^ 2 + g * s ^ 2)), sqrt_sq by nra.
    transitivity ((c ^ 2 + g * s ^ 2) ^ 2 + (y * (c ^ 2 + g * s ^ 2)) ^ 2); [|ring]. rewrite Yd. transitivity ((c ^ 2 + (g * s) ^ 2) * (s ^ 2 + c ^ 2)); [rewrite T; ring|ring]. }
  pose proof (cos_atan_sq y) as CA. pose proof (sin_atan_cos y) as SA.
  assert (M1 : n * cos (atan y) = c ^ 2 + g * s ^ 2) by (rewrite Nn, Rmult_assoc, (Rmult_comm (sqrt _)), CA; ring).
  assert (M2 : n * sin (atan y) = (g - 1) * s * c) by (rewrite SA; rewrite <- Yd, <- M1; ring).
  split.
  - rewrite cos_plus. fold s c. transitivity (c * (n * cos (atan y)) - s * (n * sin (atan y))); [ring|]. rewrite M1, M2. transitivity (c * (s ^ 2 + c ^ 2)); [ring|rewrite T; ring].
  - rewrite sin_plus. fold s c. transitivity (s * (n * cos (atan y)) + c * (n * sin (atan y))); [ring|]. rewrite M1, M2. transitivity (g * s * (s ^ 2 + c ^ 2)); [ring|rewrite T; ring].
Qed.
Lemma lift_increasing g x y : 0 < g -> x < y -> lift g x < lift g y.
Proof.
  intros P L. destruct (MVT_gen (lift g) x y (fun eta => g / ((1 + cos eta) + g ^ 2 * (1 - cos eta)))) as (c & _ & E).
  - intros t _. apply lift_derive, P.
  - intros t _. apply continuity_pt_filterlim, (ex_derive_continuous (K := R_AbsRing) (V := R_NormedModule)). eexists. apply lift_derive, P.
  - assert (0 < g / (1 + cos c + g ^ 2 * (1 - cos c)) * (y - x)); [|lra]. apply Rmult_lt_0_compat; [|lra]. apply Rdiv_lt_0_compat; [exact P|]. apply lift_den, pow_lt, P.
Qed.
Lemma lift_eq g eta : 0 < g -> 0 <= eta < 2 * PI -> up_pi (arctan_tan g (/ 2 * eta)) = lift g eta.
Proof.
  intros P H. pose proof PI_RGT_0 as PP. replace (/ 2 * eta) with (eta / 2) by field. destruct (lift_trig g eta P) as [C S0]. set (x := eta / 2) in *.
  assert (Hx : 0 <= x < PI) by (unfold x; lra). set (n := sqrt (cos x ^ 2 + (g * sin x) ^ 2)) in *.
  assert (Pn : 0 < n). { apply sqrt_lt_R0. pose proof (sin2_cos2 x) as T. rewrite !Rsqr_pow2 in T. destruct (Req_EM_T (sin x) 0) as [Z|Z]; [rewrite Z in *; nra|]. assert (0 < (g * sin x) ^ 2) by (apply pow2_gt_0, Rmult_integral_contrapositive_currified; lra). nra. }
  assert (R1 : 0 <= lift g eta < PI).
  { assert (Z0 : lift g 0 = 0) by (unfold lift; rewrite sin_0, Rmult_0_r; unfold Rdiv; rewrite !Rmult_0_l, atan_0; ring).
    assert (Z1 : lift g (2 * PI) = PI) by (rewrite (lift_shift g (2 * PI) 0 1) by (cbn; ring); rewrite Z0; cbn; ring).
    split; [destruct (Req_EM_T eta 0) as [->|N]; [rewrite Z0; lra|pose proof (lift_increasing g 0 eta P ltac:(lra)); lra]|]. pose proof (lift_increasing g eta (2 * PI) P ltac:(lra)). lra. }
  assert (Q : forall a, 0 <= a < PI -> n * cos a = cos x -> n * sin a = g * sin x -> a = lift g eta).
  { intros a Ra Ca Sa. apply angle_unique; try lra; apply (Rmult_eq_reg_l n); try lra. }
  unfold arctan_tan. destruct (Req_EM_T (cos x) 0) as [Z|Z].
  - unfold up_pi. destruct (Rlt_dec (PI / 2) 0); [lra|]. apply Q; [lra|rewrite cos_PI2; lra|]. rewrite sin_PI2.
    assert (Sx : sin x = 1) by (pose proof (sin2_cos2 x) as T; rewrite !Rsqr_pow2, Z in T; assert (0 <= sin x) by (apply sin_ge_0; lra); nra). unfold n. rewrite Sx, Z. replace (0 ^ 2 + (g * 1) ^ 2) with (g ^ 2) by ring. rewrite sqrt_pow2 by lra. ring.
  - set (y := g * tan x). pose proof (cos_atan_sq y) as CA. pose proof (sin_atan_cos y) as SA. assert (0 <= sin x) by (apply sin_ge_0; lra).
    assert (Nn : n = Rabs (cos x) * sqrt (1 + y ^ 2)). { unfold n. rewrite sqrt_scale by exact Z. f_equal. f_equal. unfold y, tan. field. exact Z. }
    assert (M1 : n * cos (atan y) = Rabs (cos x)) by (rewrite Nn, Rmult_assoc, (Rmult_comm (sqrt _)), CA; ring).
    assert (M2 : n * sin (atan y) = Rabs (cos x) * y) by (rewrite SA; rewrite <- M1; ring). pose proof (atan_bound y) as B.
    destruct (Rtotal_order (cos x) 0) as [L|[L|L]]; [|contradiction|].
    + rewrite Rabs_left in M1, M2 by exact L. assert (Sp : 0 < sin x). { destruct (Req_EM_T (sin x) 0) as [W|W]; [|lra]. exfalso. apply sin_eq_O_2PI_0 in W; [|lra|lra]. destruct W as [W|[W|W]]; [rewrite W, cos_0 in L; lra|lra|lra]. }
      assert (Yn : y < 0). { unfold y, tan. assert (0 < g * (sin x / - cos x)) by (apply Rmult_lt_0_compat; [exact P|apply Rdiv_lt_0_compat; lra]). replace (sin x / cos x) with (- (sin x / - cos x)) by (field; lra). lra. }
      pose proof (atan_neg_arg y Yn). unfold up_pi. destruct (Rlt_dec (atan y) 0); [|contradiction]. apply Q; [lra|rewrite neg_cos; lra|]. rewrite neg_sin. transitivity (- (n * sin (atan y))); [ring|]. rewrite M2. unfold y, tan. field. exact Z.
    + rewrite Rabs_pos_eq in M1, M2 by lra. assert (Yn : 0 <= y) by (unfold y, tan; apply Rmult_le_pos; [lra|apply Rmult_le_pos; [lra|apply Rlt_le, Rinv_0_lt_compat; lra]]).
      assert (0 <= atan y) by (destruct Yn as [Yn|Yn]; [apply Rlt_le, atan_pos_arg; exact Yn|rewrite <- Yn, atan_0; lra]). unfold up_pi. destruct (Rlt_dec (atan y) 0); [lra|]. apply Q; [lra|lra|]. rewrite M2. unfold y, tan. field. exact Z.
Qed.

(** ** One point: the radial acceleration and the half-angle factors *)
Section Point.
  Variables amp b R vR vT z vz : RR.
  Hypothesis Pamp : 0 < amp.
  Hypothesis Pb : 0 <= b.
  Hypothesis PR : 0 < R.
  Notation E := (ia_E amp b R vR vT z vz).
  Notation L2 := (ia_L2 R vR vT z vz).
  Hypothesis Bound : E < 0.
  Notation w := (io_w b R z). Notation k := (io_k amp b R vR vT z vz). Notation c := (io_c amp b R vR vT z vz).
  Notation p := (io_p R vR z vz). Notation q := (io_q R vR z vz). Notation e := (io_e amp b R vR vT z vz).
  Lemma pull_gap : vR ^ 2 + vT ^ 2 + vz ^ 2 - isochrone_pull amp b R z * (R ^ 2 + z ^ 2) = k * (c - w) / (w + b).
  Proof.
    unfold isochrone_pull. pose proof (w_pos b R z Pb PR) as W.
    assert (S1 : sqrt (b ^ 2 + R ^ 2 + z ^ 2) = w + b) by (unfold io_w; ring). rewrite S1, (r2_w b R z).
    assert (V : vR ^ 2 + vT ^ 2 + vz ^ 2 = 2 * amp / (w + 2 * b) - k) by (rewrite (k_eq amp b R vR vT z vz Pb PR); ring). rewrite V.
    pose proof (kcb amp b R vR vT z vz Bound) as KC. cbv zeta. clear V. set (kk := k) in *. set (cc := c) in *. clearbody kk cc. rewrite <- KC. field. split; lra.
  Qed.
  Hypothesis Pe : 0 < io_e2 amp b R vR vT z vz.
  Hypothesis PL : 0 < L2.
  Definition g1 := sqrt ((1 + e) / (1 - e)).
  Definition g2 := sqrt ((1 + e + 2 * b / c) / (1 - e + 2 * b / c)).
  Lemma bc_nonneg : 0 <= 2 * b / c.
  Proof. pose proof (c_pos amp b R vR vT z vz Pb PR Bound). apply Rmult_le_pos; [lra|apply Rlt_le, Rinv_0_lt_compat; lra]. Qed.
  Lemma g1_pos : 0 < g1.
  Proof. pose proof (e_pos amp b R vR vT z vz Pe). pose proof (e_lt_1 amp b R vR vT z vz Pb PR Bound Pe PL). apply sqrt_lt_R0, Rdiv_lt_0_compat; lra. Qed.
  Lemma g2_pos : 0 < g2.
  Proof. pose proof (e_pos amp b R vR vT z vz Pe). pose proof (e_lt_1 amp b R vR vT z vz Pb PR Bound Pe PL). pose proof bc_nonneg. apply sqrt_lt_R0, Rdiv_lt_0_compat; lra. Qed.
  (** the derivatives of the two lifts along eta, where e cos eta = 1 - w/c *)
  Lemma g1_rate eta : e * cos eta = 1 - w / c -> g1 / ((1 + cos eta) + g1 ^ 2 * (1 - cos eta)) = sqrt L2 / (2 * sqrt k * w).
  Proof.
    intros CE. pose proof (e_pos amp b R vR vT z vz Pe) as E0. pose proof (e_lt_1 amp b R vR vT z vz Pb PR Bound Pe PL) as E1. pose proof (c_pos amp b R vR vT z vz Pb PR Bound) as C. pose proof (w_pos b R z Pb PR) as W. pose proof (sk_pos amp b R vR vT z vz Bound) as K.
    assert (SE : sqrt L2 / (sqrt k * c * (1 - e)) = g1).
    { symmetry. apply sqrt_of_sq. apply Rmult_le_pos; [apply sqrt_pos|apply Rlt_le, Rinv_0_lt_compat; repeat apply Rmult_lt_0_compat; lra].
      replace ((sqrt L2 / (sqrt k * c * (1 - e))) ^ 2) with (sqrt L2 ^ 2 / (sqrt k ^ 2 * c ^ 2 * (1 - e) ^ 2)) by (field; repeat split; lra). rewrite sqrt_sq by lra. rewrite (sk_sq amp b R vR vT z vz Bound).
      pose proof (kc2e2 amp b R vR vT z vz Pb PR Bound) as X. rewrite <- (e_sq amp b R vR vT z vz Pb PR Bound) in X. replace L2 with (k * c ^ 2 * (1 - e ^ 2)) by lra. pose proof (k_pos amp b R vR vT z vz Bound). field. lra. }
    assert (G2 : g1 ^ 2 = (1 + e) / (1 - e)) by (apply sqrt_sq, Rlt_le, Rdiv_lt_0_compat; lra). rewrite G2.
    assert (Dn : (1 + cos eta) + (1 + e) / (1 - e) * (1 - cos eta) = 2 * (w / c) / (1 - e)) by (replace (w / c) with (1 - e * cos eta) by lra; field; lra). rewrite Dn, <- SE. field. repeat split; lra.
  Qed.
  Lemma g2_rate eta : e * cos eta = 1 - w / c -> g2 / ((1 + cos eta) + g2 ^ 2 * (1 - cos eta)) = sqrt (L2 + 4 * amp * b) / (2 * sqrt k * (w + 2 * b)).
  Proof.
    intros CE. pose proof (e_pos amp b R vR vT z vz Pe) as E0. pose proof (e_lt_1 amp b R vR vT z vz Pb PR Bound Pe PL) as E1. pose proof (c_pos amp b R vR vT z vz Pb PR Bound) as C. pose proof (w_pos b R z Pb PR) as W. pose proof (sk_pos amp b R vR vT z vz Bound) as K. pose proof bc_nonneg as B0.
    assert (PS : 0 <= L2 + 4 * amp * b) by (assert (0 <= amp * b) by (apply Rmult_le_pos; lra); lra).
    assert (C1 : 0 < c * (1 - e)) by (apply Rmult_lt_0_compat; lra).
    assert (SE : sqrt (L2 + 4 * amp * b) / (sqrt k * (c * (1 - e) + 2 * b)) = g2).
    { symmetry. apply sqrt_of_sq. apply Rmult_le_pos; [apply sqrt_pos|apply Rlt_le, Rinv_0_lt_compat; repeat apply Rmult_lt_0_compat; lra].
      replace ((sqrt (L2 + 4 * amp * b) / (sqrt k * (c * (1 - e) + 2 * b))) ^ 2) with (sqrt (L2 + 4 * amp * b) ^ 2 / (sqrt k ^ 2 * (c * (1 - e) + 2 * b) ^ 2)) by (field; repeat split; lra). rewrite sqrt_sq by lra. rewrite (sk_sq amp b R vR vT z vz Bound).
      pose proof (kc2e2 amp b R vR vT z vz Pb PR Bound) as X. rewrite <- (e_sq amp b R vR vT z vz Pb PR Bound) in X. pose proof (kcb amp b R vR vT z vz Bound) as KC. pose proof (k_pos amp b R vR vT z vz Bound).
      replace (L2 + 4 * amp * b) with (k * ((c * (1 - e) + 2 * b) * (c * (1 + e) + 2 * b))) by (replace (4 * amp * b) with (4 * (k * (c + b)) * b) by (rewrite KC; ring); replace L2 with (k * c ^ 2 * (1 - e ^ 2)) by lra; ring). field. repeat split; lra. }
    assert (G2 : g2 ^ 2 = (c * (1 + e) + 2 * b) / (c * (1 - e) + 2 * b)) by (rewrite (g2_inv amp b R vR vT z vz Pb PR Bound Pe PL); apply sqrt_sq, Rlt_le, Rdiv_lt_0_compat; lra). rewrite G2.
    assert (Dn : (1 + cos eta) + (c * (1 + e) + 2 * b) / (c * (1 - e) + 2 * b) * (1 - cos eta) = 2 * (w + 2 * b) / (c * (1 - e) + 2 * b)) by (replace w with (c * (1 - e * cos eta)) by (rewrite CE; field; lra); field; lra). rewrite Dn, <- SE. field. repeat split; lra.
  Qed.
End Point.

(** ** Along an orbit *)
Section Orbit.
  Variables amp b : RR.
  Variables R vR vT z vz phi : RR -> RR.
  Hypothesis Pamp : 0 < amp.
  Hypothesis Pb : 0 <= b.
  Hypothesis HM : isochrone_motion amp b R vR vT z vz phi.
  Notation Et t := (ia_E amp b (R t) (vR t) (vT t) (z t) (vz t)).
  Notation L2t t := (ia_L2 (R t) (vR t) (vT t) (z t) (vz t)).
  Ltac der t :=
    destruct (HM t) as (PRt & DR & Dz & Dp & DvR & DvT & Dvz);
    assert (UR : Derive (fun x => R x) t = vR t) by (apply is_derive_unique; exact DR);
    assert (Uz : Derive (fun x => z x) t = vz t) by (apply is_derive_unique; exact Dz);
    assert (UvR : Derive (fun x => vR x) t = vT t ^ 2 / R t - isochrone_pull amp b (R t) (z t) * R t) by (apply is_derive_unique; exact DvR);
    assert (UvT : Derive (fun x => vT x) t = - vR t * vT t / R t) by (apply is_derive_unique; exact DvT);
    assert (Uvz : Derive (fun x => vz x) t = - isochrone_pull amp b (R t) (z t) * z t) by (apply is_derive_unique; exact Dvz);
    auto_derive;
    [repeat match goal with
            | |- _ /\ _ => apply conj
            | |- True => exact I
            | |- ex_derive (fun x => R x) _ => exact (ex_intro _ _ DR)
            | |- ex_derive (fun x => z x) _ => exact (ex_intro _ _ Dz)
            | |- ex_derive (fun x => vR x) _ => exact (ex_intro _ _ DvR)
            | |- ex_derive (fun x => vT x) _ => exact (ex_intro _ _ DvT)
            | |- ex_derive (fun x => vz x) _ => exact (ex_intro _ _ Dvz)
            end
    |rewrite ?UR, ?Uz, ?UvR, ?UvT, ?Uvz].
  Lemma R_pos t : 0 < R t.
  Proof. apply HM. Qed.
  Lemma w_pos' t : 0 < sqrt (b ^ 2 + R t ^ 2 + z t ^ 2).
  Proof. pose proof (R_pos t). apply sqrt_lt_R0. nra. Qed.
  Lemma Lz_const t : R t * vT t = R 0 * vT 0.
  Proof. apply (constant (fun t => R t * vT t)). intros s. der s. field. lra. Qed.
  Lemma L2_const t : L2t t = L2t 0.
  Proof. apply (constant (fun t => L2t t)). intros s. unfold ia_L2. der s. field. lra. Qed.
  Lemma E_const t : Et t = Et 0.
  Proof.
    apply (constant (fun t => Et t)). intros s. unfold ia_E, ia_Phi, Iso_ev, Iso_rb. pose proof (w_pos' s) as W.
    replace (b ^ 2 + R s ^ 2 + z s ^ 2) with (R s ^ 2 + z s ^ 2 + b ^ 2) in W by ring. der s; try lra.
    - apply sqrt_lt_0_alt. rewrite sqrt_0. exact W.
    - unfold isochrone_pull. replace (b ^ 2 + R s ^ 2 + z s ^ 2) with (R s ^ 2 + z s ^ 2 + b ^ 2) by ring.
      set (q := sqrt (R s ^ 2 + z s ^ 2 + b ^ 2)) in *. cbv zeta. field. lra.
  Qed.

  Hypothesis Bound0 : Et 0 < 0.
  Notation at_ f t := (f amp b (R t) (vR t) (vT t) (z t) (vz t)).
  Notation k0 := (at_ io_k 0). Notation c0 := (at_ io_c 0). Notation e20 := (at_ io_e2 0). Notation e0 := (at_ io_e 0). Notation kap0 := (at_ io_kap 0).
  Notation w t := (io_w b (R t) (z t)). Notation p t := (io_p (R t) (vR t) (z t) (vz t)). Notation q t := (io_q (R t) (vR t) (z t) (vz t)).
  Lemma Bound t : Et t < 0.
  Proof. rewrite E_const. exact Bound0. Qed.
  Lemma k_const t : at_ io_k t = k0.
  Proof. unfold io_k. rewrite E_const. reflexivity. Qed.
  Lemma c_const t : at_ io_c t = c0.
  Proof. unfold io_c. rewrite k_const. reflexivity. Qed.
  Lemma e2_const t : at_ io_e2 t = e20.
  Proof. unfold io_e2. rewrite k_const, c_const, L2_const. reflexivity. Qed.
  Lemma e_const t : at_ io_e t = e0.
  Proof. unfold io_e. rewrite e2_const. reflexivity. Qed.
  Lemma kap_const t : at_ io_kap t = kap0.
  Proof. unfold io_kap. rewrite e_const, c_const. reflexivity. Qed.
  Lemma rho_const t : at_ io_rho t = at_ io_rho 0.
  Proof. unfold io_rho. rewrite L2_const. reflexivity. Qed.
  Lemma g1_const t : at_ g1 t = at_ g1 0.
  Proof. unfold g1. rewrite e_const. reflexivity. Qed.
  Lemma g2_const t : at_ g2 t = at_ g2 0.
  Proof. unfold g2. rewrite e_const, c_const. reflexivity. Qed.
  Lemma w_derive t : is_derive (fun s => w s) t (p t / (w t + b)).
  Proof.
    pose proof (w_pos' t) as W. unfold io_w, io_p. der t.
    - apply sqrt_lt_0_alt. rewrite sqrt_0. exact W.
    - replace (sqrt (b ^ 2 + R t ^ 2 + z t ^ 2) - b + b) with (sqrt (b ^ 2 + R t ^ 2 + z t ^ 2)) by ring. field. lra.
  Qed.
  Lemma p_derive t : is_derive (fun s => p s) t (k0 * (c0 - w t) / (w t + b)).
  Proof.
    rewrite <- (k_const t), <- (c_const t). rewrite <- (pull_gap amp b (R t) (vR t) (vT t) (z t) (vz t) Pb (R_pos t) (Bound t)).
    unfold io_p. der t. field. lra.
  Qed.
  Definition om t := sqrt k0 / (w t + b).
  Lemma wb_pos t : 0 < w t + b.
  Proof. unfold io_w. pose proof (w_pos' t). lra. Qed.
  Lemma om_cont t : continuous om t.
  Proof.
    apply (ex_derive_continuous (K := R_AbsRing) (V := R_NormedModule)).
    assert (G : forall f df, is_derive f t df -> 0 < f t + b -> ex_derive (fun t => sqrt k0 / (f t + b)) t) by (intros f df Df Pf; auto_derive; split; [exact (ex_intro _ _ Df)|]; split; [lra|exact I]).
    exact (G _ _ (w_derive t) (wb_pos t)).
  Qed.
  Hypothesis Pe0 : 0 < e20.
  Hypothesis PL0 : 0 < L2t 0.
  Lemma Pe t : 0 < at_ io_e2 t.
  Proof. rewrite e2_const. exact Pe0. Qed.
  Lemma PL t : 0 < L2t t.
  Proof. rewrite L2_const. exact PL0. Qed.
  Notation eta t := (ia_eta amp b (Et t) (L2t t) (R t) (vR t) (z t) (vz t)).
  Definition etl t := eta 0 + RInt om 0 t.
  Lemma etl_0 : etl 0 = eta 0.
  Proof. unfold etl. rewrite RInt_point. unfold zero; cbn. ring. Qed.
  Lemma etl_derive t : is_derive etl t (om t).
  Proof.
    unfold etl. eapply is_derive_eq; [apply is_derive_Rplus; [apply is_derive_cst|]|].
    - apply (is_derive_RInt om (RInt om 0) 0 t); [|apply om_cont]. exists (mkposreal 1 Rlt_0_1). intros y _. apply (RInt_correct (V := R_CompleteNormedModule) om 0 y). apply (ex_RInt_continuous (V := R_CompleteNormedModule) om). intros; apply om_cont.
    - toR. ring.
  Qed.
  Lemma et_trig t : 0 <= eta t < 2 * PI /\ e0 * cos (eta t) = 1 - w t / c0 /\ sqrt k0 * c0 * e0 * sin (eta t) = p t.
  Proof.
    pose proof (eta_trig amp b (R t) (vR t) (vT t) (z t) (vz t) Pb (R_pos t) (Bound t) (Pe t)) as H. rewrite e_const, c_const, k_const in H. exact H.
  Qed.
  Lemma e0_pos : 0 < e0.
  Proof. apply e_pos, Pe0. Qed.
  Lemma c0_pos : 0 < c0.
  Proof. apply c_pos; [exact Pb|apply R_pos|apply Bound]. Qed.
  Lemma sk0_pos : 0 < sqrt k0.
  Proof. apply sk_pos, Bound. Qed.
  Lemma sk0_sq : sqrt k0 ^ 2 = k0.
  Proof. apply sk_sq, Bound. Qed.
  Lemma eta_etl t : same_angle (eta t) (etl t).
  Proof.
    pose proof e0_pos as E0. pose proof c0_pos as C0. pose proof sk0_pos as K0.
    assert (XE : forall s, (1 - w s / c0) / e0 = cos (eta s)) by (intros s; destruct (et_trig s) as (_ & C & _); rewrite <- C; field; lra).
    assert (YE : forall s, p s / (sqrt k0 * c0 * e0) = sin (eta s)) by (intros s; destruct (et_trig s) as (_ & _ & C); rewrite <- C; field; repeat split; lra).
    destruct (rotates (fun s => (1 - w s / c0) / e0) (fun s => p s / (sqrt k0 * c0 * e0)) etl om) with (t := t) as [A B].
    - intros s. assert (G : forall f df, is_derive f s df -> is_derive (fun s => (1 - f s / c0) / e0) s (- df / c0 / e0)).
      { intros f df Dw. assert (U : Derive (fun x => f x) s = df) by (apply is_derive_unique; exact Dw). auto_derive; [exact (ex_intro _ _ Dw)|]. rewrite U. field. lra. }
      eapply is_derive_eq; [apply (G _ _ (w_derive s))|]. unfold om. pose proof (wb_pos s). toR. field. repeat split; lra.
    - intros s. assert (G : forall f df, is_derive f s df -> is_derive (fun s => f s / (sqrt k0 * c0 * e0)) s (df / (sqrt k0 * c0 * e0))).
      { intros f df Dw. assert (U : Derive (fun x => f x) s = df) by (apply is_derive_unique; exact Dw). auto_derive; [exact (ex_intro _ _ Dw)|]. rewrite U. field. repeat split; lra. }
      eapply is_derive_eq; [apply (G _ _ (p_derive s))|]. unfold om. pose proof (wb_pos s). pose proof sk0_sq as K2. set (s0 := sqrt k0) in *. rewrite <- K2. toR. field. repeat split; lra.
    - apply etl_derive.
    - rewrite etl_0. apply XE.
    - rewrite etl_0. apply YE.
    - cbv beta in A, B. rewrite XE in A. rewrite YE in B. apply same_of_trig; assumption.
  Qed.
  (** the radial angle *)
  Notation Or0 := (sqrt k0 ^ 3 / amp).
  Lemma ar_lift t : etl t - kap0 * sin (etl t) = at_ io_ar 0 + Or0 * t.
  Proof.
    pose proof e0_pos as E0. pose proof c0_pos as C0. pose proof sk0_pos as K0.
    assert (A : forall s, is_derive (fun s => etl s - kap0 * sin (etl s) - Or0 * s) s 0).
    { intros s. pose proof (etl_derive s) as De. assert (U : Derive (fun x => etl x) s = om s) by (apply is_derive_unique; exact De).
      auto_derive; [repeat match goal with |- _ /\ _ => apply conj | |- True => exact I end; exact (ex_intro _ _ De)|]. rewrite U.
      assert (CE : e0 * cos (etl s) = 1 - w s / c0) by (rewrite <- (same_cos _ _ (eta_etl s)); apply et_trig).
      assert (KC : kap0 * cos (etl s) = (c0 - w s) / (c0 + b)). { unfold io_kap. transitivity (c0 / (c0 + b) * (e0 * cos (etl s))); [field; lra|]. rewrite CE. field. lra. }
      transitivity (om s * (1 - kap0 * cos (etl s)) - Or0); [ring|]. rewrite KC. unfold om. pose proof (wb_pos s).
      pose proof (kcb amp b (R 0) (vR 0) (vT 0) (z 0) (vz 0) (Bound 0)) as AC. pose proof sk0_sq as K2. rewrite <- K2 in AC at 1.
      set (s0 := sqrt k0) in *. set (cc := c0) in *. clearbody s0 cc. rewrite <- AC. field. repeat split; lra. }
    pose proof (constant _ A t) as B. cbv beta in B. rewrite etl_0 in B. unfold io_ar. lra.
  Qed.
  Lemma ar_moves t : same_angle (at_ io_ar t) (at_ io_ar 0 + Or0 * t).
  Proof.
    rewrite <- ar_lift. unfold io_ar. rewrite kap_const. rewrite (same_sin _ _ (eta_etl t)). apply same_minus; [apply eta_etl|apply same_refl].
  Qed.
  Notation S0 := (sqrt (L2t 0 + 4 * amp * b)).
  Definition Lam x := lift (at_ g1 0) x + sqrt (L2t 0) / S0 * lift (at_ g2 0) x.
  Lemma az_eq t : exists n : Z, eta t = etl t + 2 * PI * IZR n /\
    at_ io_az t (phi t) = ia_psi (L2t t) (R t * vT t) (R t) (vR t) (z t) (vz t) (phi t) + at_ io_rho 0 * (at_ io_ar 0 + Or0 * t) - Lam (etl t).
  Proof.
    destruct (eta_etl t) as [n En]. exists n. split; [exact En|]. unfold io_az, ia_tan11, ia_tan12. destruct (et_trig t) as (Rg & _ & _).
    fold (at_ g1 t) (at_ g2 t). rewrite g1_const, g2_const, rho_const.
    assert (G1 : 0 < at_ g1 0) by (apply g1_pos; auto using R_pos, Bound). assert (G2 : 0 < at_ g2 0) by (apply g2_pos; auto using R_pos, Bound).
    rewrite (lift_eq _ _ G1 Rg), (lift_eq _ _ G2 Rg). rewrite (lift_shift _ _ _ _ En), (lift_shift _ _ _ _ En).
    assert (AR : at_ io_ar t = at_ io_ar 0 + Or0 * t + 2 * PI * IZR n) by (rewrite <- ar_lift; unfold io_ar; rewrite kap_const, (same_sin _ _ (eta_etl t)), En; ring).
    rewrite AR, (L2_const t). unfold Lam, io_rho. set (x := sqrt (L2t 0) / S0). field. lra.
  Qed.
  Lemma Lam_derive t : is_derive (fun s => Lam (etl s)) t (sqrt (L2t 0) / (R t ^ 2 + z t ^ 2)).
  Proof.
    assert (CE : e0 * cos (etl t) = 1 - w t / c0) by (rewrite <- (same_cos _ _ (eta_etl t)); apply et_trig).
    assert (G1 : 0 < at_ g1 0) by (apply g1_pos; auto using R_pos, Bound). assert (G2 : 0 < at_ g2 0) by (apply g2_pos; auto using R_pos, Bound).
    assert (Sp : 0 < S0) by (apply sqrt_lt_R0; assert (0 <= amp * b) by (apply Rmult_le_pos; lra); lra).
    pose proof (g1_rate amp b (R t) (vR t) (vT t) (z t) (vz t) Pb (R_pos t) (Bound t) (Pe t) (PL t) (etl t)) as Q1.
    pose proof (g2_rate amp b (R t) (vR t) (vT t) (z t) (vz t) Pamp Pb (R_pos t) (Bound t) (Pe t) (PL t) (etl t)) as Q2.
    rewrite e_const, c_const, k_const, L2_const in Q1, Q2. rewrite g1_const in Q1. rewrite g2_const in Q2. specialize (Q1 CE). specialize (Q2 CE).
    pose proof (w_pos b (R t) (z t) Pb (R_pos t)) as W. pose proof sk0_pos as K0.
    eapply is_derive_eq.
    - apply is_derive_Rchain; [|apply etl_derive]. unfold Lam. apply is_derive_Rplus; [apply lift_derive, G1|]. apply (is_derive_Rmult (fun _ => sqrt (L2t 0) / S0) (lift (at_ g2 0))); [apply is_derive_cst|apply lift_derive, G2].
    - cbv beta. rewrite Q1, Q2, (r2_w b (R t) (z t)). unfold om. toR. field. repeat split; lra.
  Qed.
  Notation Lz0 := (R 0 * vT 0).
  Notation D0 := (sqrt (L2t 0 - Lz0 ^ 2)).
  Notation r t := (io_r (R t) (z t)).
  Lemma q_derive t : is_derive (fun s => q s) t (z t * vT t ^ 2 / R t).
  Proof. unfold io_q. der t. field. lra. Qed.
  Lemma r_derive t : is_derive (fun s => r s) t (p t / r t).
  Proof.
    pose proof (r_pos (R t) (z t) (R_pos t)) as P. unfold io_r, io_p in *. der t.
    - apply sqrt_lt_0_alt. rewrite sqrt_0. exact P.
    - field. lra.
  Qed.
  Notation psi t := (ia_psi (L2t t) (R t * vT t) (R t) (vR t) (z t) (vz t) (phi t)).
  Notation u t := (ia_u (L2t t) (R t * vT t) (R t) (vR t) (z t) (vz t) (phi t)).
  Lemma psi_trig_t t : 0 < D0 -> sin (psi t) * (r t * D0) = z t * sqrt (L2t 0) /\ cos (psi t) * (r t * D0) = - q t * R t.
  Proof.
    intros PD. pose proof (psi_trig (R t) (vR t) (vT t) (z t) (vz t) (R_pos t) (PL t)) as H. rewrite !L2_const, !Lz_const in *. apply H. exact PD.
  Qed.
  Lemma u_trig_t t : 0 < D0 -> Lz0 <> 0 -> sin (u t) * (R t * D0) = z t * Lz0 /\ cos (u t) * D0 = - q t.
  Proof.
    intros PD N. pose proof (u_trig (R t) (vR t) (vT t) (z t) (vz t) (R_pos t)) as H. rewrite !L2_const, !Lz_const in *. apply H; assumption.
  Qed.
  Lemma psi_moves t : 0 < D0 -> same_angle (psi t) (psi 0 + (Lam (etl t) - Lam (etl 0))).
  Proof.
    intros PD. pose proof (L_pos (R 0) (vR 0) (vT 0) (z 0) (vz 0) (PL 0)) as Lp. set (L := sqrt (L2t 0)) in *. set (D := D0) in *.
    assert (XE : forall s, - q s * R s / (r s * D) = cos (psi s)) by (intros s; destruct (psi_trig_t s PD) as [_ C]; fold L D in C; rewrite <- C; pose proof (r_pos (R s) (z s) (R_pos s)); field; lra).
    assert (YE : forall s, z s * L / (r s * D) = sin (psi s)) by (intros s; destruct (psi_trig_t s PD) as [C _]; fold L D in C; rewrite <- C; pose proof (r_pos (R s) (z s) (R_pos s)); field; lra).
    destruct (rotates (fun s => - q s * R s / (r s * D)) (fun s => z s * L / (r s * D)) (fun s => psi 0 + (Lam (etl s) - Lam (etl 0))) (fun s => L / (R s ^ 2 + z s ^ 2))) with (t := t) as [A B].
    - intros s. pose proof (r_pos (R s) (z s) (R_pos s)) as Pr. pose proof (r_sq (R s) (z s)) as R2. pose proof (R_pos s) as PRs.
      assert (G : forall f g h df dg dh, is_derive f s df -> is_derive g s dg -> is_derive h s dh -> h s <> 0 -> is_derive (fun s => - f s * g s / (h s * D)) s (((- df * g s - f s * dg) * h s + f s * g s * dh) / (h s ^ 2 * D))).
      { intros f g h df dg dh Df Dg Dh N. assert (U1 : Derive (fun x => f x) s = df) by (apply is_derive_unique; exact Df). assert (U2 : Derive (fun x => g x) s = dg) by (apply is_derive_unique; exact Dg). assert (U3 : Derive (fun x => h x) s = dh) by (apply is_derive_unique; exact Dh).
        auto_derive; [repeat match goal with |- _ /\ _ => apply conj | |- True => exact I end; first [exact (ex_intro _ _ Df)|exact (ex_intro _ _ Dg)|exact (ex_intro _ _ Dh)|apply Rmult_integral_contrapositive_currified; [exact N|lra]]|]. rewrite U1, U2, U3. field. split; [lra|exact N]. }
      destruct (HM s) as (_ & DR & _). eapply is_derive_eq; [apply (G _ _ _ _ _ _ (q_derive s) DR (r_derive s)); lra|]. toR.
      transitivity (- ((R s * vT s) ^ 2 + (z s * vT s) ^ 2 + q s ^ 2) * z s / (r s * r s ^ 2 * D)).
      + transitivity (((- (z s * vT s ^ 2) - q s * vR s) * r s ^ 2 + q s * R s * p s) / (r s * r s ^ 2 * D)); [field; lra|]. rewrite R2. f_equal. unfold io_q, io_p. field.
      + assert (LL : (R s * vT s) ^ 2 + (z s * vT s) ^ 2 + q s ^ 2 = L ^ 2). { unfold L. rewrite sqrt_sq by (apply Rlt_le, PL). rewrite <- (L2_const s). rewrite L2_q. ring. }
        rewrite LL, <- R2. field. lra.
    - intros s. pose proof (r_pos (R s) (z s) (R_pos s)) as Pr. pose proof (r_sq (R s) (z s)) as R2. pose proof (R_pos s) as PRs.
      assert (G : forall f h df dh, is_derive f s df -> is_derive h s dh -> h s <> 0 -> is_derive (fun s => f s * L / (h s * D)) s ((df * h s - f s * dh) * L / (h s ^ 2 * D))).
      { intros f h df dh Df Dh N. assert (U1 : Derive (fun x => f x) s = df) by (apply is_derive_unique; exact Df). assert (U3 : Derive (fun x => h x) s = dh) by (apply is_derive_unique; exact Dh).
        auto_derive; [repeat match goal with |- _ /\ _ => apply conj | |- True => exact I end; first [exact (ex_intro _ _ Df)|exact (ex_intro _ _ Dh)|apply Rmult_integral_contrapositive_currified; [exact N|lra]]|]. rewrite U1, U3. field. split; [lra|exact N]. }
      destruct (HM s) as (_ & _ & Dz & _). eapply is_derive_eq; [apply (G _ _ _ _ Dz (r_derive s)); lra|]. toR.
      rewrite <- R2. transitivity ((vz s * r s ^ 2 - z s * p s) * L / (r s ^ 3 * D)); [field; lra|]. rewrite R2 at 1. transitivity (- q s * R s * L / (r s ^ 3 * D)); [f_equal; f_equal; unfold io_p, io_q; ring|]. field. lra.
    - intros s. eapply is_derive_eq; [apply is_derive_Rplus; [apply is_derive_cst|]; apply (is_derive_minus (K := R_AbsRing) (V := R_NormedModule)); [apply Lam_derive|apply is_derive_cst]|]. unfold minus, plus, opp; cbn. fold L. toR. ring.
    - cbv beta. rewrite Rminus_eq_0, Rplus_0_r. apply XE.
    - cbv beta. rewrite Rminus_eq_0, Rplus_0_r. apply YE.
    - cbv beta in A, B. rewrite XE in A. rewrite YE in B. apply same_of_trig; assumption.
  Qed.
  Lemma u_moves t : 0 < D0 -> Lz0 <> 0 -> same_angle (u t) (u 0 + (phi t - phi 0)).
  Proof.
    intros PD N. set (D := D0) in *.
    assert (XE : forall s, - q s / D = cos (u s)) by (intros s; destruct (u_trig_t s PD N) as [_ C]; fold D in C; rewrite <- C; field; lra).
    assert (YE : forall s, z s * Lz0 / (R s * D) = sin (u s)) by (intros s; destruct (u_trig_t s PD N) as [C _]; fold D in C; rewrite <- C; pose proof (R_pos s); field; lra).
    destruct (rotates (fun s => - q s / D) (fun s => z s * Lz0 / (R s * D)) (fun s => u 0 + (phi s - phi 0)) (fun s => vT s / R s)) with (t := t) as [A B].
    - intros s. pose proof (R_pos s) as PRs.
      assert (G : forall f df, is_derive f s df -> is_derive (fun s => - f s / D) s (- df / D)).
      { intros f df Df. assert (U1 : Derive (fun x => f x) s = df) by (apply is_derive_unique; exact Df). auto_derive; [exact (ex_intro _ _ Df)|]. rewrite U1. field. lra. }
      eapply is_derive_eq; [apply (G _ _ (q_derive s))|]. toR. rewrite <- (Lz_const s). field. lra.
    - intros s. pose proof (R_pos s) as PRs.
      assert (G : forall f h df dh, is_derive f s df -> is_derive h s dh -> h s <> 0 -> is_derive (fun s => f s * Lz0 / (h s * D)) s ((df * h s - f s * dh) * Lz0 / (h s ^ 2 * D))).
      { intros f h df dh Df Dh Nh. assert (U1 : Derive (fun x => f x) s = df) by (apply is_derive_unique; exact Df). assert (U3 : Derive (fun x => h x) s = dh) by (apply is_derive_unique; exact Dh).
        auto_derive; [repeat match goal with |- _ /\ _ => apply conj | |- True => exact I end; first [exact (ex_intro _ _ Df)|exact (ex_intro _ _ Dh)|apply Rmult_integral_contrapositive_currified; [exact Nh|lra]]|]. rewrite U1, U3. field. split; [lra|exact Nh]. }
      destruct (HM s) as (_ & DR & Dz & _). eapply is_derive_eq; [apply (G _ _ _ _ Dz DR); lra|]. toR. rewrite <- (Lz_const s). unfold io_q. field. lra.
    - intros s. destruct (HM s) as (_ & _ & _ & Dp & _). eapply is_derive_eq; [apply is_derive_Rplus; [apply is_derive_cst|]; apply (is_derive_minus (K := R_AbsRing) (V := R_NormedModule)); [exact Dp|apply is_derive_cst]|]. unfold minus, plus, opp; cbn. toR. ring.
    - cbv beta. rewrite Rminus_eq_0, Rplus_0_r. apply XE.
    - cbv beta. rewrite Rminus_eq_0, Rplus_0_r. apply YE.
    - cbv beta in A, B. rewrite XE in A. rewrite YE in B. apply same_of_trig; assumption.
  Qed.
  Lemma az_moves t : same_angle (psi t) (psi 0 + (Lam (etl t) - Lam (etl 0))) -> same_angle (at_ io_az t (phi t)) (at_ io_az 0 (phi 0) + at_ io_rho 0 * Or0 * t).
  Proof.
    intros H. destruct (az_eq t) as (n & _ & E1). destruct (az_eq 0) as (m & _ & E2). rewrite E1, E2.
    match goal with |- same_angle (?a + ?x - ?y) (?c + ?x0 - ?y0 + ?zz) => replace (a + x - y) with (a + (x - y)) by ring; replace (c + x0 - y0 + zz) with ((c + (y - y0)) + (x - y)) by ring end.
    apply same_plus; [exact H|apply same_refl].
  Qed.
  Notation Oz0 := (at_ io_rho 0 * Or0).
  Lemma ap_inclined t : 0 < D0 -> Lz0 <> 0 -> same_angle (at_ io_ap t (phi t)) (at_ io_ap 0 (phi 0) + (if Rlt_dec Lz0 0 then Oz0 * -1 else Oz0) * t).
  Proof.
    intros PD N. pose proof (az_moves t (psi_moves t PD)) as A. pose proof (u_moves t PD N) as U.
    assert (W : same_angle (phi t - u t) (phi 0 - u 0)).
    { apply (same_trans _ (phi t - (u 0 + (phi t - phi 0)))); [apply same_minus; [apply same_refl|exact U]|]. match goal with |- same_angle ?x ?y => replace x with y by ring end. apply same_refl. }
    unfold io_ap. cbv zeta. pose proof (Lz_const t) as LC. destruct (Rlt_dec (R t * vT t) 0) as [Q|Q]; destruct (Rlt_dec Lz0 0) as [Q0|Q0]; try (exfalso; lra).
    - replace (phi 0 - u 0 - at_ io_az 0 (phi 0) + Oz0 * -1 * t) with ((phi 0 - u 0) - (at_ io_az 0 (phi 0) + Oz0 * t)) by ring. apply same_minus; assumption.
    - replace (phi 0 - u 0 + at_ io_az 0 (phi 0) + Oz0 * t) with ((phi 0 - u 0) + (at_ io_az 0 (phi 0) + Oz0 * t)) by ring. apply same_plus; assumption.
  Qed.
  (** ** Orbits in the plane *)
  Lemma planar_D t : D0 = 0 -> sqrt (L2t t) * sqrt (L2t t) = (R t * vT t) ^ 2.
  Proof.
    intros H. rewrite sqrt_sqrt by (apply L2_nonneg). rewrite L2_const, Lz_const. pose proof (Lz_le (R 0) (vR 0) (vT 0) (z 0) (vz 0)). apply sqrt_eq_0 in H; lra.
  Qed.
  Lemma planar_z t : D0 = 0 -> Lz0 <> 0 -> z t = 0.
  Proof.
    intros H N. pose proof (planar_D t H) as P. rewrite sqrt_sqrt in P by apply L2_nonneg. rewrite L2_q in P. assert (NT : vT t <> 0) by (intros Q; apply N; rewrite <- (Lz_const t), Q; ring).
    assert (Q : z t ^ 2 * vT t ^ 2 + q t ^ 2 = 0) by nra. pose proof (pow2_ge_0 (q t)). assert (P2 : 0 < vT t ^ 2) by (apply pow2_gt_0; exact NT).
    assert (0 <= z t ^ 2 * vT t ^ 2) by (apply Rmult_le_pos; [apply pow2_ge_0|lra]). assert (Z : z t ^ 2 * vT t ^ 2 = 0) by lra.
    apply Rmult_integral in Z. destruct Z as [Z|Z]; [|lra]. replace (z t ^ 2) with (z t * z t) in Z by ring. apply Rmult_integral in Z. tauto.
  Qed.
  Lemma psi_planar t : D0 = 0 -> psi t = modulo (phi t) (2 * PI).
  Proof.
    intros H. unfold ia_psi. cbv zeta. rewrite L_sq, L2_const, Lz_const, H. destruct (Req_EM_T (0 / sqrt (L2t 0)) 0) as [Q|Q]; [reflexivity|exfalso; apply Q; unfold Rdiv; ring].
  Qed.
  Lemma u_planar t : D0 = 0 -> Lz0 <> 0 -> u t = phi t.
  Proof.
    intros H N. unfold ia_u. cbv zeta. rewrite L_sq, L2_const, Lz_const, H. destruct (Req_EM_T Lz0 0) as [Z|Z]; [contradiction|].
    destruct (Req_EM_T (0 / Lz0) 0) as [Q|Q]; [reflexivity|exfalso; apply Q; unfold Rdiv; ring].
  Qed.
  Lemma psi_prograde t : D0 = 0 -> 0 < Lz0 -> same_angle (psi t) (psi 0 + (Lam (etl t) - Lam (etl 0))).
  Proof.
    intros H P. rewrite !psi_planar by exact H. assert (A : forall s, is_derive (fun s => phi s - Lam (etl s)) s 0).
    { intros s. destruct (HM s) as (PRs & _ & _ & Dp & _). eapply is_derive_eq; [apply (is_derive_minus (K := R_AbsRing) (V := R_NormedModule)); [exact Dp|apply Lam_derive]|]. unfold minus, plus, opp; cbn. toR.
      assert (LL : sqrt (L2t 0) = Lz0) by (pose proof (planar_D 0 H) as Q; apply sq_eq_nonneg; [apply sqrt_pos|lra|]; rewrite <- Q; ring). rewrite LL, (planar_z s H) by lra. rewrite <- (Lz_const s). field. lra. }
    pose proof (constant _ A t) as B. cbv beta in B. apply (same_trans _ (phi t)); [apply modulo_same|]. replace (phi t) with (phi 0 + (Lam (etl t) - Lam (etl 0))) by lra. apply same_plus; [apply same_sym, modulo_same|apply same_refl].
  Qed.
  Lemma ap_prograde t : D0 = 0 -> 0 < Lz0 -> same_angle (at_ io_ap t (phi t)) (at_ io_ap 0 (phi 0) + (if Rlt_dec Lz0 0 then Oz0 * -1 else Oz0) * t).
  Proof.
    intros H P. pose proof (az_moves t (psi_prograde t H P)) as A. unfold io_ap. cbv zeta. rewrite !u_planar by (try exact H; lra). pose proof (Lz_const t) as LC.
    destruct (Rlt_dec (R t * vT t) 0) as [Q|Q]; [exfalso; lra|]. destruct (Rlt_dec Lz0 0) as [Q0|Q0]; [exfalso; lra|].
    replace (phi t - phi t + at_ io_az t (phi t)) with (at_ io_az t (phi t)) by ring. replace (phi 0 - phi 0 + at_ io_az 0 (phi 0)) with (at_ io_az 0 (phi 0)) by ring. exact A.
  Qed.
End Orbit.
