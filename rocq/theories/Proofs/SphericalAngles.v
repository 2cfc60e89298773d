(** The quadratures of actionAngleSpherical along an orbit. *)
From Coq Require Import Reals Lra ZArith.
From Coquelicot Require Import Coquelicot.
From Verif.Lib Require Import RealAux.
From Verif.Model Require Import Spherical.
From Verif.Model Require ActionAngle.
From Verif.Spec Require Import ActionAngleSpec StaeckelSpec SphericalSpec.
From Verif.Proofs Require Import AngleProofs EOMProofs StaeckelProofs KuzminKutuzovProofs StaeckelParts Libration ChiPrim SubstPrim SphericalOrbit.
Open Scope R_scope.
Notation RR := RbaseSymbolsImpl.R (only parsing).
Ltac rr := match goal with |- ?a = ?b => change (@eq RR a b) end.

Lemma sph_init_spec pot R vR vT z vz :
  sph_init pot R vR vT z vz = mkSph (sph_radius R z) (sph_speed R vR z vz) ((z * vR - R * vz) / sph_radius R z) (R * vT) (sph_energy pot R vR vT z vz) (sph_momentum R vR vT z vz).
Proof. unfold sph_init, sph_radius, sph_speed, sph_energy, sph_momentum. f_equal; [field|f_equal; ring]. Qed.
Lemma Rmean_between p q : 0 < p < q -> p < Rmean_of p q < q.
Proof.
  intros H. unfold Rmean_of. destruct (Rlt_dec 0 p); [|lra]. assert (Ln : ln p < ln q) by (apply ln_increasing; lra).
  split; [rewrite <- (exp_ln p) at 1 by lra|rewrite <- (exp_ln q) at 2 by lra]; apply exp_increasing; lra.
Qed.

Section Quad.
  Variables (Phi F : RR -> RR) (E L rperi rap : RR).
  Let S := sph_radial2 Phi E L.
  Hypotheses (HF : radial_force Phi F) (Hp : 0 < rperi) (W : simple_well S rperi rap).
  Let Rm := Rmean_of rperi rap.
  Lemma Rm_in : rperi < Rm < rap.
  Proof. apply Rmean_between. destruct W. lra. Qed.
  Lemma S_d r : 0 < r -> is_derive S r (2 * (L ^ 2 / r ^ 3 + F r)).
  Proof.
    intros Hr. apply (is_derive_ext (fun r => 2 * (E - Phi r) - L ^ 2 / r ^ 2)); [reflexivity|].
    assert (D2 : is_derive (fun r : RR => L ^ 2 / r ^ 2) r (- 2 * L ^ 2 / r ^ 3)) by (refine (is_derive_eq _ _ _ _ (d_quot (fun _ => L ^ 2) (fun r => r ^ 2) r _ _ (pow_nonzero r 2 ltac:(lra)) (is_derive_cst (L ^ 2) r) (d_sq (fun r => r) r 1 (d_id r))) _); rr; field; lra).
    refine (is_derive_eq _ _ _ _ (d_minus _ _ r _ _ (d_scale (fun r => E - Phi r) r 2 _ (d_minus (fun _ => E) Phi r _ _ (is_derive_cst E r) (HF r Hr))) D2) _). rr. field. lra.
  Qed.
  Lemma S_c r : rperi <= r <= rap -> continuous S r.
  Proof. intros H. eapply cont_derive. apply S_d. lra. Qed.
  Let one := fun _ : RR => 1.
  Let isq := fun r : RR => / r ^ 2.
  Lemma one_c r : rperi <= r <= rap -> continuous one r.
  Proof. intros _. apply continuous_const. Qed.
  Lemma isq_c r : rperi <= r <= rap -> continuous isq r.
  Proof. intros H. apply (@ex_derive_continuous R_AbsRing R_NormedModule). exists (- (2 * r * 1) / (r ^ 2) ^ 2). unfold isq. apply is_derive_inv; [apply (d_sq (fun r => r) r 1 (d_id r))|apply pow_nonzero; lra]. Qed.
  Definition P1 := Pboth S one rperi rap Rm.
  Definition T1 := Psmall S one rperi Rm + Plarge S one rap Rm.
  Definition P2 := Pboth S isq rperi rap Rm.
  Definition T2 := Psmall S isq rperi Rm + Plarge S isq rap Rm.
  Lemma prim1 : prim S one P1 rperi rap T1.
  Proof. apply (both_prim S one rperi rap Rm W S_c one_c Rm_in). Qed.
  Lemma prim2 : prim S isq P2 rperi rap T2.
  Proof. apply (both_prim S isq rperi rap Rm W S_c isq_c Rm_in). Qed.
  Lemma T1_pos : 0 < T1.
  Proof. apply (both_T_pos S one rperi rap Rm W S_c one_c Rm_in). intros q _. unfold one. lra. Qed.
  Lemma T2_pos : 0 < T2.
  Proof. apply (both_T_pos S isq rperi rap Rm W S_c isq_c Rm_in). intros q Hq. apply Rinv_0_lt_compat, pow_lt. lra. Qed.
  Lemma small1 x : RInt (TrSmall Phi E L rperi) 0 (sqrt (x - rperi)) = Psmall S one rperi x.
  Proof. apply RInt_ext. intros t _. unfold TrSmall, sub_small, JrIntegrand, one. rewrite Rmult_1_r. reflexivity. Qed.
  Lemma large1 x : RInt (TrLarge Phi E L rap) 0 (sqrt (rap - x)) = Plarge S one rap x.
  Proof. apply RInt_ext. intros t _. unfold TrLarge, sub_large, JrIntegrand, one. rewrite Rmult_1_r. reflexivity. Qed.
  Lemma small2 x : RInt (ISmall Phi E L rperi) 0 (sqrt (x - rperi)) = Psmall S isq rperi x.
  Proof. apply RInt_ext. intros t _. reflexivity. Qed.
  Lemma large2 x : RInt (ILarge Phi E L rap) 0 (sqrt (rap - x)) = Plarge S isq rap x.
  Proof. apply RInt_ext. intros t _. reflexivity. Qed.
  Lemma or_eq : calc_or Phi E L rperi rap Rm = PI / T1.
  Proof.
    unfold calc_or. pose proof Rm_in. destruct (Rlt_dec rperi Rm); [|lra]. destruct (Rlt_dec Rm rap); [|lra]. rewrite small1, large1. fold T1. pose proof T1_pos. field. lra.
  Qed.
  Lemma op_eq Or : calc_op Phi E L rperi rap Rm Or = L * T2 * Or / PI.
  Proof.
    unfold calc_op. pose proof Rm_in. destruct (Rlt_dec rperi Rm); [|lra]. destruct (Rlt_dec Rm rap); [|lra]. rewrite small2, large2. fold T2. field. pose proof PI_RGT_0. lra.
  Qed.
  (** With the sign test of the code. *)
  Definition branch0 (P : RR -> RR) (T p q : RR) : RR := if Rlt_dec p 0 then 2 * T - P q else P q.
  Lemma P1_cases r : rperi <= r <= rap -> P1 r = if Rlt_dec r Rm then (if Rlt_dec rperi r then Psmall S one rperi r else 0) else T1 - (if Rlt_dec r rap then Plarge S one rap r else 0).
  Proof.
    intros H. unfold P1, Pboth. fold T1. destruct (Rlt_dec r Rm).
    - destruct (Rlt_dec rperi r); [reflexivity|]. replace r with rperi by lra. apply Psmall_0.
    - destruct (Rlt_dec r rap); [reflexivity|]. replace r with rap by lra. rewrite Plarge_1. reflexivity.
  Qed.
  Lemma P2_cases r : rperi <= r <= rap -> P2 r = if Rlt_dec r Rm then (if Req_EM_T (sqrt (r - rperi)) 0 then 0 else Psmall S isq rperi r) else T2 - (if Req_EM_T (sqrt (rap - r)) 0 then 0 else Plarge S isq rap r).
  Proof.
    intros H. unfold P2, Pboth. fold T2. destruct (Rlt_dec r Rm).
    - destruct (Req_EM_T (sqrt (r - rperi)) 0) as [Z|Z]; [|reflexivity]. unfold Psmall. rewrite Z. apply (RInt_point (V := R_CompleteNormedModule)).
    - destruct (Req_EM_T (sqrt (rap - r)) 0) as [Z|Z]; [|reflexivity]. unfold Plarge. rewrite Z. f_equal. apply (RInt_point (V := R_CompleteNormedModule)).
  Qed.
  Let Or := PI / T1.
  Let Op := L * T2 * Or / PI.
  Lemma angler_eq r vr : rperi <= r <= rap -> calc_angler Phi E L rperi rap Rm Or r vr = Or * branch0 P1 T1 vr r.
  Proof.
    intros H. pose proof T1_pos. assert (Q : Or * T1 = PI) by (unfold Or; field; lra). unfold calc_angler, branch0. rewrite small1, large1, (P1_cases r H).
    destruct (Rlt_dec r Rm).
    - destruct (Rlt_dec vr 0), (Rlt_dec rperi r); rewrite <- ?Q; ring.
    - destruct (Rlt_dec vr 0), (Rlt_dec r rap); rewrite <- ?Q; ring.
  Qed.
  Lemma anglez_eq ar z r Lz vr vth phi : rperi <= r <= rap ->
    calc_anglez Phi E L rperi rap Rm Or Op ar z r Lz vr vth phi = calc_psi L z r Lz vth phi + (Op / Or * ar - L * branch0 P2 T2 vr r).
  Proof.
    intros H. pose proof T1_pos. pose proof PI_RGT_0. assert (Q : Op / Or * 2 * PI = 2 * (L * T2)) by (unfold Op, Or; field; lra). unfold calc_anglez, branch0. rewrite Q, small2, large2, (P2_cases r H). clear Q. set (k := Op / Or). clearbody k.
    destruct (Rlt_dec r Rm).
    - destruct (Rlt_dec vr 0), (Req_EM_T (sqrt (r - rperi)) 0); ring.
    - destruct (Rlt_dec vr 0), (Req_EM_T (sqrt (rap - r)) 0); field.
  Qed.
  Lemma K_eq r vr : rperi <= r <= rap -> vr ^ 2 = S r -> Op / Or * (Or * branch0 P1 T1 vr r) - L * branch0 P2 T2 vr r =
    branch (fun q => Op * P1 q + - L * P2 q) (Op * T1 + - L * T2) vr r.
  Proof.
    intros H V. pose proof T1_pos. pose proof PI_RGT_0. assert (Q : Op * T1 = L * T2) by (unfold Op, Or; field; lra). assert (OO : Or <> 0) by (unfold Or; apply Rgt_not_eq, Rdiv_lt_0_compat; lra).
    assert (C2 : forall x, Op / Or * (Or * x) = Op * x) by (intros x; field; exact OO).
    unfold branch0, branch. destruct (Rlt_dec vr 0) as [N|N], (Rlt_dec 0 vr) as [Y|Y]; try lra.
    - field. exact OO.
    - field. exact OO.
    - assert (Z : vr = 0) by lra. rewrite Z in V. destruct prim1 as [A0 A1 _ _]. destruct prim2 as [B0 B1 _ _]. destruct W as (LL & _ & _ & Pos & _).
      assert (C : r = rperi \/ r = rap) by (destruct (Req_dec r rperi); [left; assumption|]; destruct (Req_dec r rap); [right; assumption|]; specialize (Pos r ltac:(lra)); lra).
      destruct C as [C|C]; subst r; rewrite ?A0, ?B0, ?A1, ?B1, C2; lra.
  Qed.
  Lemma ar_mod r vr : rperi <= r <= rap -> vr ^ 2 = S r -> mod2pi (Or * branch0 P1 T1 vr r) (branch (fun q => Or * P1 q + 0 * P1 q) (Or * T1 + 0 * T1) vr r).
  Proof.
    intros H V. pose proof T1_pos. pose proof PI_RGT_0. assert (Q : Or * T1 = PI) by (unfold Or; field; lra).
    unfold branch0, branch. destruct (Rlt_dec vr 0) as [N|N], (Rlt_dec 0 vr) as [Y|Y]; try lra.
    - exists 0%Z. ring.
    - exists 0%Z. ring.
    - assert (Z : vr = 0) by lra. rewrite Z in V. destruct prim1 as [A0 A1 _ _]. destruct W as (LL & _ & _ & Pos & _).
      assert (C : r = rperi \/ r = rap) by (destruct (Req_dec r rperi); [left; assumption|]; destruct (Req_dec r rap); [right; assumption|]; specialize (Pos r ltac:(lra)); lra).
      destruct C as [C|C]; subst r; rewrite ?A0, ?A1.
      + exists (-1)%Z. rewrite <- Q. ring.
      + exists 0%Z. ring.
  Qed.
End Quad.

(** ** A libration in time *)
Section Swing.
  Variables (S q p : RR -> RR) (q0 q1 a b t0 t1 : RR).
  Hypotheses (W : simple_well S q0 q1) (Cs : forall x, q0 <= x <= q1 -> continuous S x).
  Hypotheses (Dq : forall t, a < t < b -> is_derive q t (p t)) (Cp : forall t, a < t < b -> continuous p t) (V : forall t, a < t < b -> p t ^ 2 = S (q t)).
  Hypotheses (In : forall t, a < t < b -> q0 <= q t <= q1) (Hab : a < t0 < b /\ a < t1 < b /\ t0 < t1) (E0 : q t0 = q0) (E1 : q t1 = q1) (Up : forall t, t0 < t < t1 -> 0 < p t).
  Lemma swing_action : is_RInt (fun t => p t ^ 2) t0 t1 (RInt (fun x => sqrt (S x)) q0 q1).
  Proof.
    rewrite <- E0, <- E1. assert (B : forall x, Rmin t0 t1 <= x <= Rmax t0 t1 -> a < x < b) by (intros x Hx; rewrite Rmin_left, Rmax_right in Hx by lra; lra).
    apply (is_RInt_ext (fun y => scal (p y) (sqrt (S (q y))))).
    - intros t Ht. rewrite Rmin_left, Rmax_right in Ht by lra. rewrite <- (V t) by lra. rewrite sqrt_pow2 by (left; apply Up; exact Ht). unfold scal; simpl; unfold mult; simpl. rr. ring.
    - apply (is_RInt_comp (V := R_CompleteNormedModule) (fun x => sqrt (S x)) q p).
      + intros x Hx. apply (continuous_comp S sqrt); [apply Cs, In, B; exact Hx|apply continuous_sqrt].
      + intros x Hx. split; [apply Dq|apply Cp]; apply B; exact Hx.
  Qed.
  Lemma swing_time P T : prim S (fun _ => 1) P q0 q1 T -> t1 - t0 = T.
  Proof.
    intros [P0 P1 Pc Pd]. pose proof W as (LL & Z0 & Z1 & _).
    assert (B : forall t, t0 <= t <= t1 -> continuous (fun t => P (q t) - t) t).
    { intros t Ht. apply (continuous_minus (fun t => P (q t)) (fun t => t)); [|apply continuous_id]. apply (continuous_comp q P); [eapply cont_derive; apply Dq; lra|apply Pc, In; lra]. }
    assert (D : forall t, t0 < t < t1 -> is_derive (fun t => P (q t) - t) t 0).
    { intros t Ht. pose proof (Up t Ht) as U. pose proof (V t ltac:(lra)) as Vt. pose proof (In t ltac:(lra)) as It.
      assert (q0 < q t < q1). { split; apply Rnot_le_lt; intros X; [replace (q t) with q0 in Vt by lra|replace (q t) with q1 in Vt by lra]; nra. }
      refine (is_derive_eq _ _ _ _ (d_minus _ _ t _ _ (is_derive_Rchain P q t _ _ (Pd (q t) ltac:(lra)) (Dq t ltac:(lra))) (d_id t)) _). rewrite <- Vt, sqrt_pow2 by lra. rr. field. lra. }
    destruct (MVT_gen (fun t => P (q t) - t) t0 t1 (fun _ => 0)) as (c & _ & Hc).
    - intros x Hx. rewrite Rmin_left, Rmax_right in Hx by lra. apply D. exact Hx.
    - intros x Hx. rewrite Rmin_left, Rmax_right in Hx by lra. apply continuity_pt_filterlim. apply (B x Hx).
    - cbv beta in Hc. rewrite E0, E1, P0, P1 in Hc. lra.
  Qed.
End Swing.

(** ** The angles in the orbital plane *)
Lemma asin_cos x y : x ^ 2 + y ^ 2 = 1 -> sin (asin x) = x /\ cos (asin x) = Rabs y.
Proof.
  intros H. assert (B : -1 <= x <= 1) by (pose proof (pow2_ge_0 y); nra). split; [apply sin_asin; exact B|]. rewrite cos_asin by exact B.
  replace (1 - x²) with (y ^ 2) by (unfold Rsqr; lra). rewrite <- pow2_abs. apply sqrt_pow2. apply Rabs_pos.
Qed.
Lemma clip11_id x : -1 <= x <= 1 -> clip11 x = x.
Proof. intros H. unfold clip11. destruct (Rlt_dec 1 x); [lra|]. destruct (Rlt_dec x (-1)); [lra|reflexivity]. Qed.
Lemma clip_asc_id x : -1 <= x <= 1 -> clip_asc x = x.
Proof. intros H. unfold clip_asc. destruct (Rlt_dec 1 x); [lra|]. destruct (Rlt_dec x (-1)); [lra|reflexivity]. Qed.
(** The branch of the arc sine chosen by the sign of a number of the sign of - y. *)
Lemma quadrant x y v : x ^ 2 + y ^ 2 = 1 -> (0 < v -> y <= 0) -> (v <= 0 -> 0 <= y) ->
  let p := if Rlt_dec 0 v then PI - asin x else asin x in cos p = y /\ sin p = x.
Proof.
  intros H A B p. destruct (asin_cos x y H) as [S C]. unfold p. destruct (Rlt_dec 0 v) as [P|P].
  - specialize (A P). rewrite sin_PI_x, S. split; [|reflexivity]. rewrite cos_minus, cos_PI, sin_PI, C. rewrite Rabs_left1 by exact A. ring.
  - specialize (B ltac:(lra)). rewrite S, C. split; [|reflexivity]. apply Rabs_pos_eq. exact B.
Qed.
Lemma incl L Lz : 0 < L -> - L <= Lz <= L -> sin (acos (Lz / L)) = sqrt (L ^ 2 - Lz ^ 2) / L /\ cos (acos (Lz / L)) = Lz / L.
Proof.
  intros H B. assert (BB : -1 <= Lz / L <= 1). { split; [apply Rle_div_r; lra|apply Rle_div_l; lra]. }
  split; [|apply cos_acos; exact BB]. rewrite sin_acos by exact BB. replace (1 - (Lz / L)²) with ((L ^ 2 - Lz ^ 2) / L ^ 2) by (unfold Rsqr; field; lra).
  rewrite sqrt_div_alt by (apply pow_lt; exact H). rewrite sqrt_pow2 by lra. reflexivity.
Qed.

Section Main.
  Variables (Phi F : RR -> RR) (R vR vT z vz phi : RR -> RR) (a b t0 rperi rap : RR).
  Hypotheses (HF : radial_force Phi F) (M : forall t, a < t < b -> moves (central_R F) (central_z F) R vR vT z vz phi t) (Ht0 : a < t0 < b).
  Let r (t : RR) : RR := sph_radius (R t) (z t).
  Let vr (t : RR) : RR := sph_speed (R t) (vR t) (z t) (vz t).
  Let E0 := sph_energy Phi (R t0) (vR t0) (vT t0) (z t0) (vz t0).
  Let L0 := sph_momentum (R t0) (vR t0) (vT t0) (z t0) (vz t0).
  Let Lz0 := R t0 * vT t0.
  Let S := sph_radial2 Phi E0 L0.
  Hypotheses (Hp : 0 < rperi) (W : simple_well S rperi rap) (Hr0 : rperi <= r t0 <= rap) (Hinc : - L0 < Lz0).
  Lemma L0_pos : 0 < L0 /\ - L0 <= Lz0 <= L0.
  Proof.
    destruct (L_sq R vR vT z vz t0) as [Q P]. fold L0 in Q, P. assert (X : Lz0 ^ 2 <= L0 ^ 2) by (rewrite Q; unfold Lz0; pose proof (pow2_ge_0 (z t0 * vT t0)); pose proof (pow2_ge_0 (z t0 * vR t0 - R t0 * vz t0)); lra).
    assert (Y : Rabs Lz0 <= L0) by (apply Rsqr_le_abs_0_alt in X || (rewrite <- (Rabs_pos_eq L0 P); apply Rsqr_le_abs_0; unfold Rsqr; lra); assumption).
    apply Rabs_le_between in Y. split; [|exact Y]. destruct P as [P|P]; [exact P|exfalso]. rewrite <- P in *. lra.
  Qed.
  Lemma vr_S t : a < t < b -> vr t ^ 2 = S (r t).
  Proof.
    intros Ht. pose proof (radial_eq Phi F R vR vT z vz phi a b M t Ht) as X. cbv zeta beta in X. rewrite (E_const Phi F R vR vT z vz phi a b HF M t t0 Ht Ht0), (L_const F R vR vT z vz phi a b M t t0 Ht Ht0) in X. exact X.
  Qed.
  Lemma r_in t : a < t < b -> rperi <= r t <= rap.
  Proof.
    apply (stays_in S r a b rperi rap t0 W); [|intros s Hs; rewrite <- (vr_S s Hs); apply pow2_ge_0|exact Ht0|exact Hr0].
    intros s Hs. eapply cont_derive. exact (r_rate F R vR vT z vz phi a b M s Hs).
  Qed.
  Lemma stop_accel t : a < t < b -> vr t = 0 -> L0 ^ 2 / r t ^ 3 + F (r t) <> 0.
  Proof.
    intros Ht Z. pose proof (vr_S t Ht) as V. rewrite Z in V. pose proof (r_in t Ht) as B. destruct W as (LL & _ & _ & Pos & (d0 & P0 & D0) & (d1 & P1 & D1)).
    pose proof (S_d Phi F E0 L0 HF (r t) ltac:(lra)) as D. fold S in D.
    destruct (Req_dec (r t) rperi) as [C|C]; [rewrite C in *; pose proof (d_unique _ _ _ _ D D0); lra|].
    destruct (Req_dec (r t) rap) as [C'|C']; [rewrite C' in *; pose proof (d_unique _ _ _ _ D D1); lra|]. specialize (Pos (r t) ltac:(lra)). lra.
  Qed.
  Let T1' := T1 Phi E0 L0 rperi rap.
  Let T2' := T2 Phi E0 L0 rperi rap.
  Let Or := PI / T1'.
  Let Op := L0 * T2' * Or / PI.
  (** A libration built from a primitive. *)
  Lemma libration f P T n : prim S f P rperi rap T -> T = PI * IZR n -> forall t, a < t < b ->
    (exists B : RR -> RR, continuous B t /\ forall x, mod2pi (branch P T (vr x) (r x)) (B x)) /\
    exists eps, 0 < eps /\ forall x, Rabs (x - t) < eps -> x <> t -> is_derive (fun x => branch P T (vr x) (r x)) x (f (r x)).
  Proof.
    intros HP HT t Ht. pose proof W as (LL & Z0 & Z1 & Pos & _).
    assert (Dq : forall x, a < x < b -> is_derive r x (vr x / 1)) by (intros x Hx; rewrite Rdiv_1; exact (r_rate F R vR vT z vz phi a b M x Hx)).
    assert (Dp : forall x, a < x < b -> is_derive vr x (L0 ^ 2 / r x ^ 3 + F (r x))).
    { intros x Hx. refine (is_derive_eq _ _ _ _ (vr_rate F R vR vT z vz phi a b M x Hx) _). rewrite <- (proj1 (L_sq R vR vT z vz x)), (L_const F R vR vT z vz phi a b M x t0 Hx Ht0). reflexivity. }
    assert (Rq : forall x, a < x < b -> locally x (fun s => rperi <= r s <= rap /\ vr s ^ 2 = 1 ^ 2 * S (r s))).
    { intros x Hx. assert (Lo : locally x (fun s => a < s < b)) by (apply filter_and; [apply locally_gt|apply locally_lt]; lra). eapply filter_imp; [|exact Lo]. intros s Hs. split; [apply r_in; exact Hs|rewrite (vr_S s Hs); ring]. }
    split.
    - apply (branch_cont S f P rperi rap T 1 r vr 1 _ t HP Rlt_0_1 Rlt_0_1 Pos Z0 Z1 (Dq t Ht) (Dp t Ht) (Rq t Ht) n HT).
    - destruct (stops_isolated vr _ t (Dp t Ht) (stop_accel t Ht)) as (e & He & B).
      exists (Rmin e (Rmin (t - a) (b - t))). split; [repeat apply Rmin_glb_lt; lra|]. intros x Hx N.
      assert (X1 : Rabs (x - t) < e) by (eapply Rlt_le_trans; [exact Hx|apply Rmin_l]).
      assert (X2 : Rabs (x - t) < t - a) by (eapply Rlt_le_trans; [exact Hx|eapply Rle_trans; [apply Rmin_r|apply Rmin_l]]).
      assert (X3 : Rabs (x - t) < b - t) by (eapply Rlt_le_trans; [exact Hx|eapply Rle_trans; [apply Rmin_r|apply Rmin_r]]).
      apply Rabs_def2 in X2. apply Rabs_def2 in X3. assert (In : a < x < b) by lra.
      refine (is_derive_eq _ _ _ _ (branch_rate S f P rperi rap T 1 r vr 1 _ x HP Rlt_0_1 Rlt_0_1 Z0 Z1 (Dq x In) (Dp x In) (Rq x In) (B x X1 N)) _). rr. field.
  Qed.
  (** The angle in the plane of the orbit and the node. *)
  Let N := sqrt (L0 ^ 2 - Lz0 ^ 2).
  Lemma sini t : a < t < b -> sin (acos (R t * vT t / L0)) = N / L0 /\ cos (acos (R t * vT t / L0)) = Lz0 / L0.
  Proof. intros Ht. rewrite (Lz_const F R vR vT z vz phi a b M t t0 Ht Ht0). destruct L0_pos as [P B]. exact (incl L0 Lz0 P B). Qed.
  Lemma N_zero : ~ 0 < N -> Lz0 = L0.
  Proof.
    intros H. destruct L0_pos as [P B]. destruct (Req_dec Lz0 L0) as [Y|Y]; [exact Y|exfalso]. apply H. apply sqrt_lt_R0. replace (L0 ^ 2 - Lz0 ^ 2) with ((L0 - Lz0) * (L0 + Lz0)) by ring. apply Rmult_lt_0_compat; lra.
  Qed.
  Let vth (t : RR) : RR := (z t * vR t - R t * vz t) / sph_radius (R t) (z t).
  Let psi (t : RR) : RR := calc_psi L0 (z t) (r t) (R t * vT t) (vth t) (phi t).
  Let asc (t : RR) : RR := calc_long_asc (z t) (R t) (vth t) (phi t) (R t * vT t) L0.
  Let cpsi (t : RR) : RR := if Rlt_dec 0 N then - (R t / r t) * (z t * vR t - R t * vz t) / N else cos (phi t).
  Let spsi (t : RR) : RR := if Rlt_dec 0 N then z t / r t * L0 / N else sin (phi t).
  Lemma vth_sign t : a < t < b -> (0 < vth t -> 0 < z t * vR t - R t * vz t) /\ (vth t <= 0 -> z t * vR t - R t * vz t <= 0).
  Proof.
    intros Ht. destruct (r_facts F R vR vT z vz phi a b M t Ht) as [P _]. cbv zeta beta in P. assert (X : z t * vR t - R t * vz t = vth t * sph_radius (R t) (z t)) by (unfold vth; field; lra).
    rewrite X. split; intros H; [apply Rmult_lt_0_compat; assumption|]. nra.
  Qed.
  Lemma psi_cs t : a < t < b -> cos (psi t) = cpsi t /\ sin (psi t) = spsi t.
  Proof.
    intros Ht. destruct L0_pos as [P B]. destruct (sini t Ht) as [Si Ci]. destruct (r_facts F R vR vT z vz phi a b M t Ht) as [Pr Q]. cbv zeta beta in Pr, Q. fold (r t) in Pr, Q.
    unfold psi, calc_psi. rewrite Si. match goal with |- context [ActionAngle.modulo ?x _] => destruct (mod2pi_cos _ _ (modulo_same x)) as [Cm Sm]; rewrite Cm, Sm; clear Cm Sm end.
    unfold cpsi, spsi. destruct (Rlt_dec 0 N) as [HN|HN].
    - destruct (Req_EM_T (N / L0) 0) as [X|_]; [exfalso; assert (0 < N / L0) by (apply Rdiv_lt_0_compat; assumption); lra|].
      pose proof (psi_unit F R vR vT z vz phi a b M t0 Ht0 HN t Ht) as U. cbv zeta beta in U. fold L0 Lz0 N in U. fold (r t) in U.
      assert (X : z t / r t / (N / L0) = z t / r t * L0 / N) by (field; lra). rewrite X.
      assert (Bx : -1 <= z t / r t * L0 / N <= 1) by (pose proof (pow2_ge_0 (- (R t / r t) * (z t * vR t - R t * vz t) / N)); nra). rewrite (clip11_id _ Bx).
      destruct (vth_sign t Ht) as [V1 V2]. destruct (M t Ht) as (HR & _).
      assert (Y : - (R t / r t) * (z t * vR t - R t * vz t) / N = - ((z t * vR t - R t * vz t) * (R t / (r t * N)))) by (field; lra). assert (Z : 0 < R t / (r t * N)) by (apply Rdiv_lt_0_compat; [exact HR|apply Rmult_lt_0_compat; assumption]).
      apply (quadrant _ _ (vth t)); [lra| |]; rewrite Y; intros H; [specialize (V1 H)|specialize (V2 H)]; nra.
    - destruct (Req_EM_T (N / L0) 0) as [_|X]; [split; reflexivity|]. exfalso. apply X. pose proof (sqrt_pos (L0 ^ 2 - Lz0 ^ 2)) as Y. fold N in Y. replace N with 0 by lra. unfold Rdiv. ring.
  Qed.
  Lemma planar t : a < t < b -> ~ 0 < N -> z t = 0 /\ r t = R t /\ R t * vT t = L0.
  Proof.
    intros Ht HN. destruct L0_pos as [P B]. pose proof (N_zero HN) as E. destruct (M t Ht) as (HR & _). pose proof (Lz_const F R vR vT z vz phi a b M t t0 Ht Ht0) as C. cbv beta in C. fold Lz0 in C. rewrite E in C.
    pose proof (proj1 (L_sq R vR vT z vz t)) as Q. cbv zeta beta in Q. rewrite (L_const F R vR vT z vz phi a b M t t0 Ht Ht0) in Q. fold L0 in Q. rewrite C in Q. cbv zeta beta in Q.
    assert (Z : (z t * vT t) ^ 2 = 0) by (pose proof (pow2_ge_0 (z t * vT t)); pose proof (pow2_ge_0 (z t * vR t - R t * vz t)); lra).
    assert (Z' : z t * vT t = 0) by (destruct (Req_dec (z t * vT t) 0) as [Y|Y]; [exact Y|pose proof (pow2_gt_0 _ Y); lra]).
    assert (Zz : z t = 0). { apply Rmult_integral in Z'. destruct Z' as [Y|Y]; [exact Y|]. rewrite Y, Rmult_0_r in C. lra. }
    split; [exact Zz|]. split; [|exact C]. unfold r, sph_radius. rewrite Zz. replace (R t ^ 2 + 0 ^ 2) with (R t ^ 2) by ring. apply sqrt_pow2. lra.
  Qed.
  Lemma psi_rates t : a < t < b -> is_derive cpsi t (- (L0 / r t ^ 2) * spsi t) /\ is_derive spsi t (L0 / r t ^ 2 * cpsi t).
  Proof.
    intros Ht. unfold cpsi, spsi. destruct (Rlt_dec 0 N) as [HN|HN].
    - exact (psi_rate F R vR vT z vz phi a b M t0 Ht0 HN t Ht).
    - destruct (planar t Ht HN) as (_ & E & C). destruct (M t Ht) as (HR & _ & _ & Dp & _). assert (X : vT t / R t = L0 / r t ^ 2) by (rewrite E, <- C; field; lra). rewrite X in Dp. split.
      + refine (is_derive_eq _ _ _ _ (d_cos phi t _ Dp) _). rr. ring.
      + refine (is_derive_eq _ _ _ _ (d_sin phi t _ Dp) _). rr. ring.
  Qed.
  Lemma asc_const t t' : a < t < b -> a < t' < b -> mod2pi (asc t) (asc t').
  Proof.
    assert (X : forall t, a < t < b -> cos (asc t) = (if Rlt_dec 0 N then (- (z t * vR t - R t * vz t) * cos (phi t) + z t * vT t * sin (phi t)) / N else 1) /\
      sin (asc t) = (if Rlt_dec 0 N then (- (z t * vR t - R t * vz t) * sin (phi t) - z t * vT t * cos (phi t)) / N else 0)).
    { clear t t'. intros t Ht. destruct L0_pos as [P B]. destruct (sini t Ht) as [Si Ci]. unfold asc, calc_long_asc. rewrite Si, Ci. destruct (Rlt_dec 0 N) as [HN|HN].
      - destruct (Req_EM_T (N / L0) 0) as [X|_]; [exfalso; assert (0 < N / L0) by (apply Rdiv_lt_0_compat; assumption); lra|].
        pose proof (N_sq F R vR vT z vz phi a b M t0 Ht0 t Ht) as NN. cbv zeta beta in NN. fold L0 Lz0 N in NN. destruct (M t Ht) as (HR & _).
        assert (X : z t / R t * (Lz0 / L0 / (N / L0)) = z t * vT t / N). { unfold Lz0. rewrite <- (Lz_const F R vR vT z vz phi a b M t t0 Ht Ht0). field. lra. } rewrite X.
        assert (U : (z t * vT t / N) ^ 2 + (- (z t * vR t - R t * vz t) / N) ^ 2 = 1) by (replace ((z t * vT t / N) ^ 2 + (- (z t * vR t - R t * vz t) / N) ^ 2) with (((z t * vT t) ^ 2 + (z t * vR t - R t * vz t) ^ 2) / N ^ 2) by (field; lra); rewrite <- NN; field; lra).
        rewrite clip_asc_id by (pose proof (pow2_ge_0 (- (z t * vR t - R t * vz t) / N)); nra).
        destruct (vth_sign t Ht) as [V1 V2]. assert (Z : 0 < / N) by (apply Rinv_0_lt_compat; exact HN).
        destruct (quadrant (z t * vT t / N) (- (z t * vR t - R t * vz t) / N) (vth t) U) as [Cq Sq]; [intros H; specialize (V1 H); unfold Rdiv; nra|intros H; specialize (V2 H); unfold Rdiv; nra|].
        rewrite cos_minus, sin_minus, Cq, Sq. split; field; lra.
      - destruct (Req_EM_T (N / L0) 0) as [_|X]; [rewrite Rminus_eq_0, cos_0, sin_0; split; reflexivity|]. exfalso. apply X. pose proof (sqrt_pos (L0 ^ 2 - Lz0 ^ 2)) as Y. fold N in Y. replace N with 0 by lra. unfold Rdiv. ring. }
    intros Ht Ht'. destruct (X t Ht) as [A1 A2]. destruct (X t' Ht') as [B1 B2]. apply cos_sin_mod2pi; [rewrite A1, B1|rewrite A2, B2]; destruct (Rlt_dec 0 N) as [HN|HN]; try reflexivity;
      destruct (node_const F R vR vT z vz phi a b M t0 HN t t' Ht Ht') as [C1 C2]; cbv zeta beta in C1, C2; [exact C1|exact C2].
  Qed.
  (** What the code computes, as functions of time. *)
  Let ar (t : RR) : RR := Or * branch0 (P1 Phi E0 L0 rperi rap) T1' (vr t) (r t).
  Let az (t : RR) : RR := psi t + (Op / Or * ar t - L0 * branch0 (P2 Phi E0 L0 rperi rap) T2' (vr t) (r t)).
  Lemma ar_linear t t' : a < t < b -> a < t' < b -> mod2pi (ar t') (ar t + Or * (t' - t)).
  Proof.
    set (A := fun x => branch (fun q => Or * P1 Phi E0 L0 rperi rap q + 0 * P1 Phi E0 L0 rperi rap q) (Or * T1' + 0 * T1') (vr x) (r x)).
    assert (X : forall x, a < x < b -> mod2pi (ar x) (A x)) by (intros x Hx; exact (ar_mod Phi F E0 L0 rperi rap HF Hp W (r x) (vr x) (r_in x Hx) (vr_S x Hx))).
    pose proof (T1_pos Phi F E0 L0 rperi rap HF Hp W) as TP. fold T1' in TP.
    assert (PP := prim_lin _ _ _ _ _ _ _ _ _ Or 0 (prim1 Phi F E0 L0 rperi rap HF Hp W) (prim1 Phi F E0 L0 rperi rap HF Hp W)). fold T1' in PP.
    assert (HT : Or * T1' + 0 * T1' = PI * IZR 1) by (unfold Or; field; lra).
    assert (G : forall t, a < t < b -> angular A Or t).
    { intros x Hx. destruct (libration _ _ _ 1%Z PP HT x Hx) as [G1 (e & He & G2)]. split; [exact G1|]. exists e. split; [exact He|]. intros y Hy Ny. refine (is_derive_eq _ _ _ _ (G2 y Hy Ny) _). rr. ring. }
    intros Ht Ht'. pose proof (angular_linear A Or a b G t t' Ht Ht') as Y. destruct (X t Ht) as [k1 K1]. destruct (X t' Ht') as [k2 K2]. destruct Y as [k3 K3].
    exists (k2 + k3 - k1)%Z. rewrite minus_IZR, plus_IZR, K1, K2, K3. ring.
  Qed.
  Lemma az_linear t t' : a < t < b -> a < t' < b -> mod2pi (az t') (az t + Op * (t' - t)).
  Proof.
    set (K := fun x => branch (fun q => Op * P1 Phi E0 L0 rperi rap q + - L0 * P2 Phi E0 L0 rperi rap q) (Op * T1' + - L0 * T2') (vr x) (r x)).
    assert (X : forall x, a < x < b -> az x = psi x + K x).
    { intros x Hx. unfold az, ar, K. f_equal. exact (K_eq Phi F E0 L0 rperi rap HF Hp W (r x) (vr x) (r_in x Hx) (vr_S x Hx)). }
    pose proof (T1_pos Phi F E0 L0 rperi rap HF Hp W) as TP. fold T1' in TP. pose proof PI_RGT_0.
    assert (PP := prim_lin _ _ _ _ _ _ _ _ _ Op (- L0) (prim1 Phi F E0 L0 rperi rap HF Hp W) (prim2 Phi F E0 L0 rperi rap HF Hp W)). fold T1' T2' in PP.
    assert (HT : Op * T1' + - L0 * T2' = PI * IZR 0) by (unfold Op, Or; field; lra).
    intros Ht Ht'. rewrite (X t Ht), (X t' Ht').
    apply (rotor_linear psi K cpsi spsi (fun x => L0 / r x ^ 2) Op a b psi_cs psi_rates); [|exact Ht|exact Ht'].
    intros x Hx. destruct (libration _ _ _ 0%Z PP HT x Hx) as [G1 (e & He & G2)]. split; [exact G1|]. exists e. split; [exact He|]. intros y Hy Ny. refine (is_derive_eq _ _ _ _ (G2 y Hy Ny) _). rr. unfold Rdiv. ring.
  Qed.
  Variables (epi circ : RR -> RR).
  Hypothesis (Hjr : / 10 ^ 9 <= calc_jr Phi E0 L0 rperi rap).
  Theorem spherical_result t : a < t < b -> sphericalAA Phi epi circ rperi rap (R t) (vR t) (vT t) (z t) (vz t) (phi t) =
    mkAA9 (calc_jr Phi E0 L0 rperi rap) Lz0 (L0 - Rabs Lz0) Or (if Rlt_dec Lz0 0 then - Op else Op) Op
      (ActionAngle.modulo (ar t) (2 * PI)) (ActionAngle.modulo (if Rlt_dec Lz0 0 then asc t - az t else asc t + az t) (2 * PI)) (ActionAngle.modulo (az t) (2 * PI)).
  Proof.
    intros Ht. unfold sphericalAA. rewrite sph_init_spec. cbn [s_r s_vr s_vth s_Lz s_E s_L].
    assert (EE : sph_energy Phi (R t) (vR t) (vT t) (z t) (vz t) = E0) by exact (E_const Phi F R vR vT z vz phi a b HF M t t0 Ht Ht0).
    assert (EL : sph_momentum (R t) (vR t) (vT t) (z t) (vz t) = L0) by exact (L_const F R vR vT z vz phi a b M t t0 Ht Ht0).
    rewrite EE, EL. destruct (Rlt_dec (calc_jr Phi E0 L0 rperi rap) (/ 10 ^ 9)) as [X|_]; [lra|].
    rewrite (or_eq Phi F E0 L0 rperi rap HF Hp W), (op_eq Phi E0 L0 rperi rap Hp W). fold T1' T2'. fold Or. fold Op.
    fold (vth t). fold (r t). fold (vr t). pose proof (r_in t Ht) as Rin.
    pose proof (angler_eq Phi F E0 L0 rperi rap HF Hp W (r t) (vr t) Rin) as AA. cbv zeta in AA. fold T1' in AA. fold Or in AA. fold (ar t) in AA. rewrite AA.
    pose proof (anglez_eq Phi F E0 L0 rperi rap HF Hp W (ar t) (z t) (r t) (R t * vT t) (vr t) (vth t) (phi t) Rin) as AZ. cbv zeta in AZ. fold T1' T2' in AZ. fold Or in AZ. fold Op in AZ. rewrite AZ. fold (psi t). fold (az t). fold (asc t).
    assert (SG : (if Rlt_dec (vT t) 0 then true else false) = (if Rlt_dec Lz0 0 then true else false)).
    { destruct (M t Ht) as (HR & _). pose proof (Lz_const F R vR vT z vz phi a b M t t0 Ht Ht0) as C. cbv beta in C. fold Lz0 in C. destruct (Rlt_dec (vT t) 0), (Rlt_dec Lz0 0); try reflexivity; exfalso; nra. }
    assert (C : R t * vT t = Lz0) by exact (Lz_const F R vR vT z vz phi a b M t t0 Ht Ht0). rewrite C.
    destruct (Rlt_dec (vT t) 0), (Rlt_dec Lz0 0); try discriminate SG; reflexivity.
  Qed.
  Lemma zero_point t : a < t < b -> r t = rperi -> z t = 0 -> 0 < vz t -> ar t = 0 /\ mod2pi (az t) 0 /\ mod2pi (asc t) (phi t).
  Proof.
    intros Ht Er Ez Hv. destruct (prim1 Phi F E0 L0 rperi rap HF Hp W) as [A0 _ _ _]. destruct (prim2 Phi F E0 L0 rperi rap HF Hp W) as [B0 _ _ _].
    pose proof W as (_ & Z0 & _). assert (V0 : vr t = 0). { pose proof (vr_S t Ht) as V. rewrite Er, Z0 in V. destruct (Req_dec (vr t) 0) as [Y|Y]; [exact Y|]. pose proof (pow2_gt_0 _ Y). lra. }
    assert (Ea : ar t = 0). { unfold ar, branch0. rewrite V0, Er. destruct (Rlt_dec 0 0); [lra|]. rewrite A0. ring. }
    destruct (M t Ht) as (HR & _). pose proof (N_sq F R vR vT z vz phi a b M t0 Ht0 t Ht) as NN. cbv zeta beta in NN. fold L0 Lz0 N in NN. rewrite Ez in NN.
    assert (HN : 0 < N). { pose proof (sqrt_pos (L0 ^ 2 - Lz0 ^ 2)) as Y. fold N in Y. destruct Y as [Y|Y]; [exact Y|exfalso]. rewrite <- Y in NN. assert (0 < (R t * vz t) ^ 2) by (apply pow_lt, Rmult_lt_0_compat; assumption). nra. }
    assert (EN : N = R t * vz t). { apply Rsqr_inj; [lra|left; apply Rmult_lt_0_compat; assumption|]. unfold Rsqr. transitivity (N ^ 2); [ring|]. rewrite NN. ring. }
    assert (Err : r t = R t) by (unfold r, sph_radius; rewrite Ez; replace (R t ^ 2 + 0 ^ 2) with (R t ^ 2) by ring; apply sqrt_pow2; lra).
    split; [exact Ea|]. split.
    - unfold az. rewrite Ea. unfold branch0. rewrite V0, Er. destruct (Rlt_dec 0 0); [lra|]. rewrite B0. replace (psi t + (Op / Or * 0 - L0 * 0)) with (psi t) by ring.
      destruct (psi_cs t Ht) as [C1 C2]. apply cos_sin_mod2pi; [rewrite C1, cos_0|rewrite C2, sin_0]; unfold cpsi, spsi; destruct (Rlt_dec 0 N); try contradiction.
      + rewrite Ez, EN, Err. field. split; apply Rgt_not_eq; assumption.
      + rewrite Ez. unfold Rdiv. ring.
    - unfold asc, calc_long_asc. destruct (sini t Ht) as [Si Ci]. rewrite Si, Ci. destruct L0_pos as [P B]. destruct (Req_EM_T (N / L0) 0) as [X|_]; [exfalso; assert (0 < N / L0) by (apply Rdiv_lt_0_compat; assumption); lra|].
      rewrite Ez. replace (0 / R t * (Lz0 / L0 / (N / L0))) with 0 by (field; split; [|split]; lra). rewrite clip_asc_id by lra. rewrite asin_0.
      destruct (Rlt_dec 0 (vth t)) as [Y|_]; [|exists 0%Z; cbn; ring]. exfalso. unfold vth in Y. rewrite Ez in Y. fold (r t) in Y.
      assert (X : 0 < R t * vz t) by (apply Rmult_lt_0_compat; assumption). replace ((0 * vR t - R t * vz t) / sph_radius (R t) 0) with (- (R t * vz t / r t)) in Y by (unfold r; rewrite Ez; unfold Rdiv; ring).
      rewrite Err in Y. assert (0 < R t * vz t / R t) by (apply Rdiv_lt_0_compat; assumption). lra.
  Qed.
  Lemma height t : a < t < b -> Rabs (z t) <= rap * sqrt (1 - Lz0 ^ 2 / L0 ^ 2).
  Proof.
    intros Ht. destruct L0_pos as [P B]. pose proof (r_in t Ht) as In. assert (E : sqrt (1 - Lz0 ^ 2 / L0 ^ 2) = N / L0).
    { replace (1 - Lz0 ^ 2 / L0 ^ 2) with ((L0 ^ 2 - Lz0 ^ 2) / L0 ^ 2) by (field; lra). rewrite sqrt_div_alt by (apply pow_lt; exact P). rewrite sqrt_pow2 by lra. reflexivity. }
    rewrite E. destruct (Rlt_dec 0 N) as [HN|HN].
    - pose proof (psi_unit F R vR vT z vz phi a b M t0 Ht0 HN t Ht) as U. cbv zeta beta in U. fold L0 Lz0 N in U. fold (r t) in U.
      assert (Rp : 0 < r t) by lra. set (k := z t / r t * L0 / N) in *. assert (Bk : Rabs k <= 1) by (apply Rabs_le; pose proof (pow2_ge_0 (- (R t / r t) * (z t * vR t - R t * vz t) / N)); nra).
      replace (z t) with (k * (r t * (N / L0))) by (unfold k; field; split; [|split]; lra). rewrite Rabs_mult. assert (0 < N / L0) by (apply Rdiv_lt_0_compat; assumption).
      rewrite (Rabs_pos_eq (r t * (N / L0))) by (apply Rmult_le_pos; lra). replace (rap * (N / L0)) with (1 * (rap * (N / L0))) by ring. apply Rmult_le_compat; [apply Rabs_pos|apply Rmult_le_pos; lra|exact Bk|apply Rmult_le_compat_r; lra].
    - destruct (planar t Ht HN) as (Z & _). rewrite Z, Rabs_R0. pose proof (sqrt_pos (L0 ^ 2 - Lz0 ^ 2)) as Y. fold N in Y. assert (0 <= N / L0) by (apply Rdiv_le_0_compat; assumption). apply Rmult_le_pos; lra.
  Qed.
  Theorem sph_package : exists Jr Or Oz (tr tp tz : RR -> RR), 0 < Or /\ 0 < Oz /\
    (forall t, a < t < b -> sphericalAA Phi epi circ rperi rap (R t) (vR t) (vT t) (z t) (vz t) (phi t) =
       mkAA9 Jr Lz0 (L0 - Rabs Lz0) Or (if Rlt_dec Lz0 0 then - Oz else Oz) Oz (tr t) (tp t) (tz t) /\
       0 <= tr t < 2 * PI /\ 0 <= tp t < 2 * PI /\ 0 <= tz t < 2 * PI) /\
    (forall t t', a < t < b -> a < t' < b -> same_angle (tr t') (tr t + Or * (t' - t)) /\
       same_angle (tp t') (tp t + (if Rlt_dec Lz0 0 then - Oz else Oz) * (t' - t)) /\ same_angle (tz t') (tz t + Oz * (t' - t))) /\
    (forall t, a < t < b -> r t = rperi -> z t = 0 -> 0 < vz t -> same_angle (tr t) 0 /\ same_angle (tp t) (phi t) /\ same_angle (tz t) 0).
  Proof.
    assert (SA : forall x y, same_angle x y <-> mod2pi x y) by (intros x y; split; intros [k K]; exists k; rewrite K; ring).
    pose proof (T1_pos Phi F E0 L0 rperi rap HF Hp W) as TP1. fold T1' in TP1. pose proof (T2_pos Phi F E0 L0 rperi rap HF Hp W) as TP2. fold T2' in TP2. pose proof PI_RGT_0 as PP. pose proof (proj1 L0_pos) as LP.
    assert (OP : 0 < Or) by (apply Rdiv_lt_0_compat; assumption).
    exists (calc_jr Phi E0 L0 rperi rap), Or, Op, (fun t => ActionAngle.modulo (ar t) (2 * PI)), (fun t => ActionAngle.modulo (if Rlt_dec Lz0 0 then asc t - az t else asc t + az t) (2 * PI)), (fun t => ActionAngle.modulo (az t) (2 * PI)).
    split; [exact OP|]. split; [apply Rdiv_lt_0_compat; [apply Rmult_lt_0_compat; [apply Rmult_lt_0_compat|]|]; assumption|]. split; [|split].
    - intros t Ht. split; [exact (spherical_result t Ht)|]. repeat split; apply modulo_range; lra.
    - assert (MM : forall x y d, mod2pi x (y + d) -> same_angle (ActionAngle.modulo x (2 * PI)) (ActionAngle.modulo y (2 * PI) + d)).
      { intros x y d [k K]. destruct (modulo_same x) as [i I]. destruct (modulo_same y) as [j J]. exists (i + k - j)%Z. rewrite minus_IZR, plus_IZR, I, J, K. ring. }
      intros t t' Ht Ht'. pose proof (ar_linear t t' Ht Ht') as A. pose proof (az_linear t t' Ht Ht') as B. pose proof (asc_const t' t Ht' Ht) as C.
      split; [apply MM; exact A|]. split; [|apply MM; exact B]. apply MM. destruct B as [i I]. destruct C as [j J]. destruct (Rlt_dec Lz0 0).
      + exists (j - i)%Z. rewrite minus_IZR, I, J. ring.
      + exists (j + i)%Z. rewrite plus_IZR, I, J. ring.
    - assert (MM : forall x y, mod2pi x y -> same_angle (ActionAngle.modulo x (2 * PI)) y).
      { intros x y [k K]. destruct (modulo_same x) as [i I]. exists (i + k)%Z. rewrite plus_IZR, I, K. ring. }
      intros t Ht H1 H2 H3. destruct (zero_point t Ht H1 H2 H3) as (A & B & C). split; [apply MM; rewrite A; apply mod2pi_refl|]. split; [|apply MM; exact B]. apply MM. destruct B as [i I]. destruct C as [j J]. destruct (Rlt_dec Lz0 0).
      + exists (j - i)%Z. rewrite minus_IZR, I, J. ring.
      + exists (j + i)%Z. rewrite plus_IZR, I, J. ring.
  Qed.
  (** From pericentre to apocentre. *)
  Lemma half_period tp ta : a < tp < b -> a < ta < b -> tp < ta -> r tp = rperi -> r ta = rap -> (forall t, tp < t < ta -> 0 < vr t) ->
    is_RInt (fun t => vr t ^ 2) tp ta (PI * calc_jr Phi E0 L0 rperi rap) /\ (ta - tp) * Or = PI.
  Proof.
    intros Hp' Ha Lt Ep Ea Up. pose proof PI_RGT_0. pose proof (T1_pos Phi F E0 L0 rperi rap HF Hp W) as TP1. fold T1' in TP1.
    assert (Dq : forall t, a < t < b -> is_derive r t (vr t)) by (intros t Ht; exact (r_rate F R vR vT z vz phi a b M t Ht)).
    assert (Cs : forall x, rperi <= x <= rap -> continuous S x) by (intros x Hx; apply (S_c Phi F E0 L0 rperi rap HF Hp); exact Hx).
    assert (Cv : forall t, a < t < b -> continuous vr t) by (intros t Ht; eapply cont_derive; exact (vr_rate F R vR vT z vz phi a b M t Ht)).
    split.
    - assert (EJ : PI * calc_jr Phi E0 L0 rperi rap = RInt (fun x => sqrt (S x)) rperi rap).
      { unfold calc_jr. rr. transitivity (RInt (JrIntegrand Phi E0 L0) rperi rap); [field; lra|]. apply RInt_ext. intros x _. reflexivity. }
      rewrite EJ.
      apply (swing_action S r vr rperi rap a b tp ta Cs Dq Cv vr_S r_in); try assumption. lra.
    - rewrite (swing_time S r vr rperi rap a b tp ta W Dq vr_S r_in (conj Hp' (conj Ha Lt)) Ep Ea Up _ _ (prim1 Phi F E0 L0 rperi rap HF Hp W)). fold T1'. unfold Or. field. lra.
  Qed.
End Main.
