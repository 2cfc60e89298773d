(** Cartesian forces and tidal tensors. *)
From Coq Require Import Reals Lra Psatz List.
From Coquelicot Require Import Coquelicot.
From Verif.Lib Require Import RealAux Atan2.
From Verif.Model Require Import PotAPI Symplectic RectForce PotAxi PotNonAxi.
From Verif.Spec Require Import PotSpec PotApiSpec SmoothSpec SymplecticSpec Catalog.
From Verif.Proofs Require Import AxiProofs PotLift SmoothProofs WrapProofs WrapProofs2 WrapProofs3 JacProofs SymplecticProofs.
Import ListNotations.
Open Scope R_scope.
Notation RR := RbaseSymbolsImpl.R (only parsing).

Lemma rect_R_sq x y : rect_R x y = sqrt (x ^ 2 + y ^ 2).
Proof. unfold rect_R. f_equal. ring. Qed.
Lemma atan2_nonneg x y : 0 < x ^ 2 + y ^ 2 -> 0 <= y -> 0 <= atan2 y x.
Proof.
  intros H Hy. destruct (Rle_dec 0 (atan2 y x)) as [|N]; auto. exfalso. pose proof (atan2_range x y). pose proof (atan2_sin x y) as E.
  assert (S : sin (atan2 y x) < 0). { rewrite <- (Ropp_involutive (atan2 y x)), sin_neg. assert (0 < sin (- atan2 y x)) by (apply sin_gt_0; lra). lra. }
  pose proof (sqrt_lt_R0 _ H). nra.
Qed.
Lemma atan2_neg x y : 0 < x ^ 2 + y ^ 2 -> y < 0 -> - PI < atan2 y x < 0.
Proof.
  intros H Hy. pose proof (atan2_range x y). split; [lra|]. destruct (Rlt_dec (atan2 y x) 0) as [|N]; auto. exfalso. pose proof (atan2_sin x y) as E.
  assert (S : 0 <= sin (atan2 y x)) by (apply sin_ge_0; lra). pose proof (sqrt_lt_R0 _ H). nra.
Qed.
Lemma rect_phi_cases x y : 0 < x ^ 2 + y ^ 2 -> rect_phi x y = atan2 y x \/ rect_phi x y = atan2 y x + 2 * PI.
Proof.
  intros H. unfold rect_phi. rewrite rect_R_sq. pose proof (sqrt_lt_R0 _ H) as P. pose proof (atan2_cos x y) as C. pose proof (atan2_range x y) as Rg.
  assert (E : x / sqrt (x ^ 2 + y ^ 2) = cos (atan2 y x)). { rewrite <- C at 1. field. lra. }
  rewrite E. destruct (Rlt_dec y 0) as [Hy|Hy].
  - right. pose proof (atan2_neg x y H Hy). rewrite <- cos_neg, acos_cos by lra. lra.
  - left. pose proof (atan2_nonneg x y H). rewrite acos_cos by lra. lra.
Qed.
Lemma rect_phi_cos x y : 0 < x ^ 2 + y ^ 2 -> rect_R x y * cos (rect_phi x y) = x /\ rect_R x y * sin (rect_phi x y) = y.
Proof.
  intros H. rewrite rect_R_sq. destruct (rect_phi_cases x y H) as [-> | ->].
  - split; [apply atan2_cos|apply atan2_sin].
  - replace (atan2 y x + 2 * PI) with (atan2 y x + 2 * INR 1 * PI) by (cbn; ring). rewrite cos_period, sin_period. split; [apply atan2_cos|apply atan2_sin].
Qed.
Definition turn (F : Fun4) : Fun4 := fun R z phi t => F R z (phi + 2 * PI) t.
Lemma dw_turn (D : Dom) F FR Fz Fq : differentiable_with D F FR Fz Fq -> periodic F ->
  differentiable_with (fun R z phi t => D R z (phi + 2 * PI) t) F (turn FR) (turn Fz) (turn Fq).
Proof.
  intros H Per t r h q s dr dz dp HD D1 D2 D3. unfold turn.
  eapply is_derive_ext; [|apply (H t r h (fun u => q u + 2 * PI) s dr dz dp HD D1 D2)].
  - intros u. cbn beta. rewrite Per. reflexivity.
  - eapply is_derive_eq. apply is_derive_Rplus; [exact D3|apply is_derive_cst]. unfold zero; cbn. toR. ring.
Qed.
Lemma is_derive_rect (D : Dom) F FR Fz Fq t (c : RR -> vec axis) s d :
  differentiable_with D F FR Fz Fq -> periodic F -> 0 < c s AX ^ 2 + c s AY ^ 2 ->
  D (rect_R (c s AX) (c s AY)) (c s AZ) (rect_phi (c s AX) (c s AY)) t -> vderive c s d ->
  is_derive (fun u => at_q F t (c u)) s
    (at_q FR t (c s) * ((c s AX * d AX + c s AY * d AY) / rect_R (c s AX) (c s AY)) + at_q Fz t (c s) * d AZ
     + at_q Fq t (c s) * ((c s AX * d AY - c s AY * d AX) / (c s AX ^ 2 + c s AY ^ 2))).
Proof.
  intros H Per Hp HD Hc.
  assert (L : locally s (fun u => 0 < c u AX ^ 2 + c u AY ^ 2)).
  { assert (E : ex_derive (fun u => c u AX ^ 2 + c u AY ^ 2) s).
    { eexists. eapply is_derive_ext with (f := fun u => c u AX * c u AX + c u AY * c u AY). { intros; toR; ring. }
      apply is_derive_Rplus; apply is_derive_Rmult; [apply (Hc AX)|apply (Hc AX)|apply (Hc AY)|apply (Hc AY)]. }
    apply (ex_derive_continuous _ s E (fun v => 0 < v)). apply locally_gt. auto. }
  assert (E : forall u, 0 < c u AX ^ 2 + c u AY ^ 2 ->
    F (sqrt (c u AX ^ 2 + c u AY ^ 2)) (c u AZ) (atan2 (c u AY) (c u AX)) t = at_q F t (c u)).
  { intros u Hu. unfold at_q. rewrite rect_R_sq. destruct (rect_phi_cases _ _ Hu) as [-> | ->]; auto. }
  eapply is_derive_ext_loc with (f := fun u => F (sqrt (c u AX ^ 2 + c u AY ^ 2)) (c u AZ) (atan2 (c u AY) (c u AX)) t).
  { eapply filter_imp; [|exact L]. intros u Hu. apply E. exact Hu. }
  unfold at_q. rewrite rect_R_sq in *. destruct (rect_phi_cases _ _ Hp) as [Ep|Ep]; rewrite Ep in *.
  - apply (is_derive_cyl D F FR Fz Fq t (fun u => c u AX) (fun u => c u AY) (fun u => c u AZ)); auto.
  - apply (is_derive_cyl (fun R z phi t => D R z (phi + 2 * PI) t) F (turn FR) (turn Fz) (turn Fq) t (fun u => c u AX) (fun u => c u AY) (fun u => c u AZ)); auto.
    apply dw_turn; auto.
Qed.

Section Jac.
  Variables (D : Dom) (Rf zf pt R2 p2 Rp z2 Rz zp : Fun4).
  Hypothesis H2 : differentiable_with D (neg Rf) R2 Rz Rp.
  Hypothesis H3 : differentiable_with D (neg zf) Rz z2 zp.
  Hypothesis H4 : differentiable_with D (neg pt) Rp zp p2.
  Hypothesis Q2 : periodic Rf.
  Hypothesis Q3 : periodic zf.
  Hypothesis Q4 : periodic pt.
  Lemma rect_jacobian t q : 0 < q AX ^ 2 + q AY ^ 2 -> D (rect_R (q AX) (q AY)) (q AZ) (rect_phi (q AX) (q AY)) t ->
    force_jacobian axes (rect_force Rf zf pt) t q (rect_hess Rf pt R2 p2 Rp z2 Rz zp t q).
  Proof.
    intros Hp HD c s d E Hc. subst q.
    pose proof (is_derive_rect D _ _ _ _ t c s d H2 (neg_periodic _ Q2) Hp HD Hc) as A2.
    pose proof (is_derive_rect D _ _ _ _ t c s d H3 (neg_periodic _ Q3) Hp HD Hc) as A3.
    pose proof (is_derive_rect D _ _ _ _ t c s d H4 (neg_periodic _ Q4) Hp HD Hc) as A4.
    pose proof (Hc AX) as Dx. pose proof (Hc AY) as Dy. pose proof (Hc AZ) as Dz.
    assert (Pw : 0 < rect_R (c s AX) (c s AY)) by (rewrite rect_R_sq; apply sqrt_lt_R0; auto).
    assert (Ew : c s AX ^ 2 + c s AY ^ 2 = rect_R (c s AX) (c s AY) ^ 2) by (rewrite rect_R_sq, sqrt_sq_eq by lra; reflexivity).
    assert (Dw : is_derive (fun u => rect_R (c u AX) (c u AY)) s ((c s AX * d AX + c s AY * d AY) / rect_R (c s AX) (c s AY))).
    { rewrite rect_R_sq. apply is_derive_ext with (f := fun u => sqrt (c u AX ^ 2 + c u AY ^ 2)); [intros u; symmetry; apply rect_R_sq|].
      apply (d_norm (fun u => c u AX) (fun u => c u AY)); auto. }
    rewrite Ew in A2, A3, A4.
    assert (Ax : is_derive (fun u => at_q Rf t (c u)) s (- (at_q R2 t (c s) * ((c s AX * d AX + c s AY * d AY) / rect_R (c s AX) (c s AY)) + at_q Rz t (c s) * d AZ
      + at_q Rp t (c s) * ((c s AX * d AY - c s AY * d AX) / rect_R (c s AX) (c s AY) ^ 2)))).
    { eapply is_derive_ext; [|apply (is_derive_opp (V := R_NormedModule) _ _ _ A2)]. intros u. unfold at_q, neg, opp; cbn. toR; ring. }
    assert (Az : is_derive (fun u => at_q zf t (c u)) s (- (at_q Rz t (c s) * ((c s AX * d AX + c s AY * d AY) / rect_R (c s AX) (c s AY)) + at_q z2 t (c s) * d AZ
      + at_q zp t (c s) * ((c s AX * d AY - c s AY * d AX) / rect_R (c s AX) (c s AY) ^ 2)))).
    { eapply is_derive_ext; [|apply (is_derive_opp (V := R_NormedModule) _ _ _ A3)]. intros u. unfold at_q, neg, opp; cbn. toR; ring. }
    assert (Ap : is_derive (fun u => at_q pt t (c u)) s (- (at_q Rp t (c s) * ((c s AX * d AX + c s AY * d AY) / rect_R (c s AX) (c s AY)) + at_q zp t (c s) * d AZ
      + at_q p2 t (c s) * ((c s AX * d AY - c s AY * d AX) / rect_R (c s AX) (c s AY) ^ 2)))).
    { eapply is_derive_ext; [|apply (is_derive_opp (V := R_NormedModule) _ _ _ A4)]. intros u. unfold at_q, neg, opp; cbn. toR; ring. }
    clear A2 A3 A4. unfold sum_over, axes. intros j. unfold rect_force, rect_hess.
    set (x := c s AX) in *. set (y := c s AY) in *. set (w := rect_R x y) in *.
    set (fR := at_q Rf t (c s)) in *. set (fp := at_q pt t (c s)) in *.
    assert (Ey : y * y = w ^ 2 - x * x) by (rewrite <- Ew; ring).
    assert (Iw : is_derive (fun u => / rect_R (c u AX) (c u AY)) s (- ((x * d AX + y * d AY) / w) / w ^ 2)). { apply is_derive_inv; [exact Dw|]. exact (Rgt_not_eq _ _ Pw). }
    destruct j.
    - eapply is_derive_ext with (f := fun u => c u AX * (/ rect_R (c u AX) (c u AY) * at_q Rf t (c u)) + - 1 * (/ rect_R (c u AX) (c u AY) * (c u AY * (/ rect_R (c u AX) (c u AY) * at_q pt t (c u))))).
      { intros u. unfold Rdiv. toR; ring. }
      eapply is_derive_eq.
      { apply is_derive_Rplus; [apply is_derive_Rmult; [exact Dx|apply is_derive_Rmult; [exact Iw|exact Ax]]
          |apply (is_derive_Rmult (fun _ => - 1)); [apply is_derive_cst|]; apply is_derive_Rmult; [exact Iw|apply is_derive_Rmult; [exact Dy|apply is_derive_Rmult; [exact Iw|exact Ap]]]]. }
      cbn [map fold_right]. fold x y. fold w fR fp. change zero with 0. clearbody w x y fR fp. toR. field_simplify_eq; [|lra].
      replace (y ^ 3) with (y * (y * y)) by ring. replace (y ^ 2) with (y * y) by ring. rewrite ?Ey. ring.
    - eapply is_derive_ext with (f := fun u => c u AY * (/ rect_R (c u AX) (c u AY) * at_q Rf t (c u)) + / rect_R (c u AX) (c u AY) * (c u AX * (/ rect_R (c u AX) (c u AY) * at_q pt t (c u)))).
      { intros u. unfold Rdiv. toR; ring. }
      eapply is_derive_eq.
      { apply is_derive_Rplus; [apply is_derive_Rmult; [exact Dy|apply is_derive_Rmult; [exact Iw|exact Ax]]
          |apply is_derive_Rmult; [exact Iw|apply is_derive_Rmult; [exact Dx|apply is_derive_Rmult; [exact Iw|exact Ap]]]]. }
      cbn [map fold_right]. fold x y. fold w fR fp. change zero with 0. clearbody w x y fR fp. toR. field_simplify_eq; [|lra].
      replace (y ^ 3) with (y * (y * y)) by ring. replace (y ^ 2) with (y * y) by ring. rewrite ?Ey. ring.
    - eapply is_derive_eq. exact Az. cbn [map fold_right]. clearbody w x y. toR. field. lra.
  Qed.
  Lemma rect_symmetric t q : symmetric axes (rect_hess Rf pt R2 p2 Rp z2 Rz zp t q).
  Proof. intros j k _ _. destruct j, k; reflexivity. Qed.
End Jac.

(** ** The catalogue is periodic in azimuth *)
Lemma sin_turn x : sin (x + 2 * PI) = sin x.
Proof. replace (x + 2 * PI) with (x + 2 * INR 1 * PI) by (cbn; ring). apply sin_period. Qed.
Lemma cos_turn x : cos (x + 2 * PI) = cos x.
Proof. replace (x + 2 * PI) with (x + 2 * INR 1 * PI) by (cbn; ring). apply cos_period. Qed.
Lemma sin_turn2 x : sin (2 * (x + 2 * PI)) = sin (2 * x).
Proof. replace (2 * (x + 2 * PI)) with (2 * x + 2 * INR 2 * PI) by (cbn; ring). apply sin_period. Qed.
Lemma per_scale a F : periodic F -> periodic (scale4 a F).
Proof. intros H R z phi t. unfold scale4. rewrite H. auto. Qed.
Lemma per_sum (l : list F4) : (forall F, In F l -> periodic F) -> periodic (sum4 l).
Proof.
  intros H. unfold sum4. assert (G : forall acc, periodic acc -> periodic (fold_left add4 l acc)).
  { induction l as [|F l IH]; intros acc Ha; auto. cbn [fold_left]. apply IH; [intros; apply H; right; auto|].
    intros R z phi t. unfold add4. rewrite Ha, (H F); auto. left; auto. }
  apply G. intros R z phi t. reflexivity.
Qed.
Lemma per_osum (l : list (option F4)) (G : F4) : (forall F, In (Some F) l -> periodic F) -> osum4 l = Some G -> periodic G.
Proof.
  intros H E. unfold osum4 in E. destruct (sequence l) as [m|] eqn:S; cbn [option_map] in E; [|discriminate E]. injection E as <-. apply per_sum. intros F HF. apply H.
  revert m S HF. induction l as [|o l IH]; intros m S HF; cbn in S. { injection S as <-. destruct HF. }
  destruct o as [F0|]; [|discriminate]. destruct (sequence l) as [m'|]; [|discriminate]. injection S as <-. destruct HF as [->|HF]; [left; auto|right].
  apply (IH (fun F0 HF0 => H F0 (or_intror HF0)) m'); auto.
Qed.
Lemma catalog_periodic D p : Catalog D p -> api_periodic p.
Proof.
  induction 1 as [D amp c H|D E p H IH _ _|D amp ps _ H IH].
  - assert (G : (periodic (c_ev c) /\ periodic (c_Rf c) /\ periodic (c_zf c)) /\ forall a F, dflt (nonaxi c) a (c_pt c) = Some F -> periodic F).
    { destruct H; try (split; [split; [|split]; intros R z phi t; reflexivity|intros amp' F E; cbn in E; injection E as <-; intros R z phi t; reflexivity]).
      split; [split; [|split]|intros amp' F E; cbn in E; injection E as <-];
        intros R z phi t; cbn; unfold scale4, LH_ev, LH_Rf, LH_zf, LH_pt, LH_m, LH_Rt2, LH_nonaxi; cbn; rewrite ?sin_turn, ?sin_turn2; reflexivity. }
    destruct G as ((G1 & G2 & G3) & G4). split; [|split; [|split]].
    + intros F E. cbn in E. injection E as <-. apply per_scale, G1.
    + apply per_scale, G2.
    + apply per_scale, G3.
    + intros F E. apply (G4 amp F E).
  - auto.
  - split; [|split; [|split]].
    + intros F E. cbn in E. destruct (osum4 _) as [S|] eqn:ES; cbn [option_map] in E; [|discriminate E]; injection E as <-. apply per_scale. eapply per_osum; [|exact ES].
      intros F HF. apply in_map_iff in HF. destruct HF as (q & Eq & Hq). destruct (isDiss q). { injection Eq as <-. intros R z phi t; reflexivity. } apply (proj1 (IH q Hq)); auto.
    + apply per_scale. apply per_sum. intros F HF. apply in_map_iff in HF. destruct HF as (q & <- & Hq). exact (proj1 (proj2 (IH q Hq))).
    + apply per_scale. apply per_sum. intros F HF. apply in_map_iff in HF. destruct HF as (q & <- & Hq). exact (proj1 (proj2 (proj2 (IH q Hq)))).
    + intros F E. cbn in E. destruct (osum4 _) as [S|] eqn:ES; cbn [option_map] in E; [|discriminate E]; injection E as <-. apply per_scale. eapply per_osum; [|exact ES].
      intros F HF. apply in_map_iff in HF. destruct HF as (q & Eq & Hq). apply (proj2 (proj2 (proj2 (IH q Hq)))); auto.
Qed.

(** ** In the plane and along a line *)
Lemma prect_jacobian (D : Dom) Rf pt R2 p2 Rp Rz zp t q :
  differentiable_with D (neg Rf) R2 Rz Rp -> differentiable_with D (neg pt) Rp zp p2 -> periodic Rf -> periodic pt ->
  0 < q true ^ 2 + q false ^ 2 -> D (rect_R (q true) (q false)) 0 (rect_phi (q true) (q false)) t ->
  let pl (f : Fun4) : Reduce.F3 := fun R phi t => f R 0 phi t in
  forall own, force_jacobian [true; false] (prect_force (pl Rf) (pl pt)) t q (prect_hess (pl Rf) (pl pt) (pl R2) (pl p2) (pl Rp) own t q).
Proof.
  intros H2 H4 Q2 Q4 Hp HD pl own c s d E Hc j.
  set (flat := fun f : Fun4 => (fun R z phi t => f R 0 phi t) : Fun4). set (zf := (fun _ _ _ _ => 0) : Fun4).
  assert (F2 : forall f fR fz fq, differentiable_with D f fR fz fq -> differentiable_with (fun R _ phi t => D R 0 phi t) (flat f) (flat fR) zf (flat fq)).
  { intros f fR fz fq H t' r h p s' dr dz dp HD' D1 _ D3. eapply is_derive_eq. apply (H t' r (fun _ => 0) p s' dr 0 dp HD' D1 (is_derive_cst 0 s') D3). unfold flat, zf. toR. ring. }
  pose proof (rect_jacobian (fun R _ phi t => D R 0 phi t) (flat Rf) zf (flat pt) (flat R2) (flat p2) (flat Rp) zf zf zf
    (F2 _ _ _ _ H2)) as J.
  specialize (J ltac:(intros t' r h p s' dr dz dp _ _ _ _; unfold neg, zf; eapply is_derive_eq; [apply is_derive_cst|unfold zero; cbn; toR; ring]) (F2 _ _ _ _ H4)).
  specialize (J ltac:(intros R z phi t'; unfold flat; apply Q2) ltac:(intros R z phi t'; reflexivity) ltac:(intros R z phi t'; unfold flat; apply Q4)).
  set (emb := fun (v : vec bool) (b : axis) => match b with AX => v true | AY => v false | AZ => 0 end).
  specialize (J t (emb q) Hp HD (fun u => emb (c u)) s (emb d)). cbv beta in J. rewrite E in J. specialize (J eq_refl).
  assert (Hc' : vderive (fun u => emb (c u)) s (emb d)) by (intros [| |]; cbn; [apply (Hc true)|apply (Hc false)|apply is_derive_cst]).
  specialize (J Hc'). destruct j.
  - eapply is_derive_eq. exact (J AX). cbn. unfold sum_over, axes. cbn [map fold_right]. unfold zf. toR. cbn [rect_hess prect_hess emb].
    unfold at_q, pat_q, flat, pl. cbn. rr.
  - eapply is_derive_eq. exact (J AY). unfold sum_over, axes. cbn [map fold_right]. unfold zf. toR.
    unfold rect_hess, prect_hess, at_q, pat_q, flat, pl. cbn. destruct own; unfold Rdiv; rr.
Qed.
Lemma prect_symmetric Rf pt R2 p2 Rp own t q : symmetric [true; false] (prect_hess Rf pt R2 p2 Rp own t q).
Proof. intros j k _ _. destruct j, k, own; auto; unfold prect_hess; unfold Rdiv; rr. Qed.
Lemma lin_jacobian f d2 t q : is_derive (fun x => f x t) (q tt) (- d2 (q tt) t) -> force_jacobian [tt] (lin_force f) t q (lin_hess d2 t q).
Proof.
  intros H c s d E Hc j. unfold lin_force, lin_hess, sum_over. cbn [map fold_right]. destruct j.
  eapply is_derive_eq. apply (is_derive_Rchain (fun x => f x t) (fun u => c u tt) s); [rewrite E; exact H|apply (Hc tt)]. toR. ring.
Qed.
