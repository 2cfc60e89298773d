(** The quadratures of actionAngleVertical along an orbit, and what actions and frequencies are in time. *)
From Coq Require Import Reals Lra ZArith.
From Coquelicot Require Import Coquelicot.
From Verif.Lib Require Import RealAux.
From Verif.Model Require Import Spherical.
From Verif.Model Require ActionAngle.
From Verif.Spec Require Import ActionAngleSpec StaeckelSpec SphericalSpec.
From Verif.Proofs Require Import AngleProofs EOMProofs StaeckelProofs KuzminKutuzovProofs StaeckelParts Libration ChiPrim SubstPrim SphericalOrbit SphericalAngles.
From Verif.Proofs Require Import StaeckelAngles.
Open Scope R_scope.
Notation RR := RbaseSymbolsImpl.R (only parsing).
Ltac rr := match goal with |- ?a = ?b => change (@eq RR a b) end.

(** ** actionAngleVertical *)
Section Vert.
  Variables (Phi F : RR -> RR) (x v : RR -> RR) (a b t0 xmax : RR).
  Hypotheses (HF : forall s, is_derive Phi s (- F s)) (Ev : forall s, Phi (- s) = Phi s) (M : forall t, a < t < b -> moves1 F x v t) (Ht0 : a < t0 < b).
  Let E0 := v_E Phi (x t0) (v t0).
  Let S (s : RR) : RR := 2 * (E0 - Phi s).
  Hypotheses (W : simple_well S (- xmax) xmax) (Hx0 : Rabs (x t0) <= xmax).
  Lemma xmax_pos : 0 < xmax.
  Proof. destruct W. lra. Qed.
  Lemma vS_d s : is_derive S s (2 * F s).
  Proof. refine (is_derive_eq _ _ _ _ (d_scale (fun s => E0 - Phi s) s 2 _ (d_minus (fun _ => E0) Phi s _ _ (is_derive_cst E0 s) (HF s))) _). rr. ring. Qed.
  Lemma vS_c s : - xmax <= s <= xmax -> continuous S s.
  Proof. intros _. eapply cont_derive. apply vS_d. Qed.
  Lemma v_energy t : a < t < b -> v_E Phi (x t) (v t) = E0.
  Proof.
    intros Ht. apply (const_on a b (fun t => v_E Phi (x t) (v t))); [|exact Ht|exact Ht0]. intros s Hs. destruct (M s Hs) as [Dx Dv]. unfold v_E.
    apply (is_derive_ext (fun t => / 2 * v t ^ 2 + Phi (x t))); [intros y; rr; field|].
    refine (is_derive_eq _ _ _ _ (is_derive_Rplus (fun t => / 2 * v t ^ 2) (fun t => Phi (x t)) s _ _ (d_scale _ s (/ 2) _ (d_sq v s _ Dv)) (is_derive_Rchain Phi x s _ _ (HF (x s)) Dx)) _). rr. field.
  Qed.
  Lemma v_S t : a < t < b -> v t ^ 2 = S (x t).
  Proof. intros Ht. unfold S. rewrite <- (v_energy t Ht). unfold v_E. field. Qed.
  Lemma v_in t : a < t < b -> - xmax <= x t <= xmax.
  Proof.
    apply (stays_in S x a b (- xmax) xmax t0 W); [|intros s Hs; rewrite <- (v_S s Hs); apply pow2_ge_0|exact Ht0|apply Rabs_le_between; exact Hx0].
    intros s Hs. eapply cont_derive. exact (proj1 (M s Hs)).
  Qed.
  Let one := fun _ : RR => 1.
  Lemma v_one_c s : - xmax <= s <= xmax -> continuous one s.
  Proof. intros _. apply continuous_const. Qed.
  Lemma mid : - xmax < 0 < xmax.
  Proof. pose proof xmax_pos. lra. Qed.
  Definition vP := Pboth S one (- xmax) xmax 0.
  Definition vT := 2 * Plarge S one xmax 0.
  Lemma half_T : Psmall S one (- xmax) 0 = Plarge S one xmax 0.
  Proof.
    unfold Psmall, Plarge. replace (0 - - xmax) with (xmax - 0) by ring. apply RInt_ext. intros t _. unfold sub_small, sub_large, one.
    replace (S (- xmax + t ^ 2)) with (S (xmax - t ^ 2)); [reflexivity|]. unfold S. replace (- xmax + t ^ 2) with (- (xmax - t ^ 2)) by ring. rewrite Ev. reflexivity.
  Qed.
  Lemma v_prim : prim S one vP (- xmax) xmax vT.
  Proof. unfold vT. replace (2 * Plarge S one xmax 0) with (Psmall S one (- xmax) 0 + Plarge S one xmax 0) by (rewrite half_T; ring). apply (both_prim S one (- xmax) xmax 0 W vS_c v_one_c mid). Qed.
  Lemma vT_pos : 0 < vT.
  Proof.
    unfold vT. replace (2 * Plarge S one xmax 0) with (Psmall S one (- xmax) 0 + Plarge S one xmax 0) by (rewrite half_T; ring).
    apply (both_T_pos S one (- xmax) xmax 0 W vS_c v_one_c mid). intros q _. unfold one. lra.
  Qed.
  Lemma vP_0 : vP 0 = vT / 2.
  Proof. unfold vP, Pboth, vT. destruct (Rlt_dec 0 0); [lra|]. rewrite half_T. field. Qed.
  Lemma vP_odd s : - xmax <= s <= xmax -> vP (- s) = vT - vP s.
  Proof.
    destruct v_prim as [P0 P1 Pc Pd]. pose proof mid as Md.
    set (g := fun s => vP s + vP (- s)).
    assert (G0 : g 0 = vT) by (unfold g; rewrite Ropp_0, vP_0; field).
    assert (D : forall y, - xmax < y < xmax -> is_derive g y 0).
    { intros y Hy. refine (is_derive_eq _ _ _ _ (is_derive_Rplus vP (fun s => vP (- s)) y _ _ (Pd y Hy) (is_derive_Rchain vP (fun s => - s) y _ _ (Pd (- y) ltac:(lra)) (opp_d y))) _).
      replace (S (- y)) with (S y) by (unfold S; rewrite Ev; reflexivity). unfold one. rr. ring. }
    intros Hs. assert (G : g s = vT).
    { destruct (Req_dec s (- xmax)) as [A|A]; [unfold g; rewrite A, Ropp_involutive, P0, P1; ring|]. destruct (Req_dec s xmax) as [B|B]; [unfold g; rewrite B, P0, P1; ring|].
      rewrite <- G0. destruct (Rtotal_order s 0) as [C|[C|C]]; [|rewrite C; reflexivity|symmetry]; (apply flat_between; [exact C|intros y Hy; apply D; lra]). }
    unfold g in G. lra.
  Qed.
  Lemma v_quad s : 0 <= s <= xmax -> RInt_gen (V := R_CompleteNormedModule) (fun xi => 1 / sqrt (2 * (E0 - Phi xi))) (at_point 0) (at_left s) = vP s - vT / 2.
  Proof.
    intros Hs. pose proof mid as Md. pose proof W as (_ & _ & _ & Pos & _). destruct v_prim as [P0 P1 Pc Pd].
    assert (I : forall y, - xmax < y < xmax -> is_RInt (V := R_CompleteNormedModule) (fun xi => 1 / sqrt (2 * (E0 - Phi xi))) 0 y (vP y - vP 0)).
    { intros y Hy. apply (is_RInt_derive (V := R_CompleteNormedModule) vP (fun xi => 1 / sqrt (2 * (E0 - Phi xi)))).
      - intros s' Hs'. unfold Rmin, Rmax in Hs'. destruct (Rle_dec 0 y); apply Pd; lra.
      - intros s' Hs'. assert (In : - xmax < s' < xmax) by (unfold Rmin, Rmax in Hs'; destruct (Rle_dec 0 y); lra). specialize (Pos s' In).
        apply (continuous_mult (fun _ => 1) (fun xi => / sqrt (S xi))); [apply continuous_const|]. apply (continuous_comp (fun xi => sqrt (S xi)) Rinv).
        + apply (continuous_comp S sqrt); [apply vS_c; lra|apply continuous_sqrt].
        + apply continuous_Rinv. apply Rgt_not_eq, sqrt_lt_R0. exact Pos. }
    apply is_RInt_gen_unique. rewrite <- vP_0. intros Q HQ. cbn.
    assert (LQ : at_left s (fun y => Q (vP y - vP 0))).
    { assert (C : continuous (fun y => vP y - vP 0) s) by (apply (continuous_minus vP (fun _ => vP 0)); [apply Pc; lra|apply continuous_const]).
      specialize (C Q HQ). unfold filtermap in C. unfold at_left, within. eapply filter_imp; [|exact C]. intros y H _. exact H. }
    assert (LI : at_left s (fun y => - xmax < y < xmax)).
    { unfold at_left, within. eapply filter_imp; [|apply (locally_gt (- xmax) s); lra]. intros y H H'. cbv beta in *. lra. }
    apply (Filter_prod _ _ _ (fun u => u = 0) (fun y => Q (vP y - vP 0) /\ - xmax < y < xmax)); [reflexivity|apply filter_and; assumption|].
    intros u y -> [H1 H2]. exists (vP y - vP 0). split; [apply I; exact H2|exact H1].
  Qed.
  Let Om := PI / vT.
  Lemma v_Omega_eq : v_Omega Phi xmax E0 = Om.
  Proof.
    unfold v_Omega, Om, vT. replace (RInt _ 0 (sqrt xmax)) with (Plarge S one xmax 0).
    - pose proof vT_pos as X. unfold vT in X. field. lra.
    - unfold Plarge. rewrite Rminus_0_r. apply RInt_ext. intros t _. unfold sub_large, one, S. rr. ring.
  Qed.
  Lemma v_angle t : a < t < b -> exists ang, verticalAA Phi xmax (x t) (v t) = (v_J Phi xmax E0, Om, ActionAngle.modulo ang (2 * PI)) /\ mod2pi ang (Om * branch vP vT (v t) (x t) + - (PI / 2)).
  Proof.
    intros Ht. unfold verticalAA. rewrite (v_energy t Ht), v_Omega_eq. eexists. split; [reflexivity|]. pose proof (v_in t Ht) as In. pose proof vT_pos as TP. pose proof PI_RGT_0. pose proof mid as Md.
    assert (OT : Om * vT = PI) by (unfold Om; field; lra).
    rewrite v_quad by (split; [apply Rabs_pos|apply Rabs_le_between; exact In]). unfold branch.
    assert (At : v t = 0 -> x t = - xmax \/ x t = xmax).
    { intros Z. pose proof (v_S t Ht) as Q. rewrite Z in Q. pose proof W as (_ & _ & _ & Pos & _). destruct (Req_dec (x t) (- xmax)) as [A|A]; [left; exact A|]. destruct (Req_dec (x t) xmax) as [B|B]; [right; exact B|]. specialize (Pos (x t) ltac:(lra)). lra. }
    destruct (Rlt_dec (x t) 0) as [X|X].
    - rewrite Rabs_left by exact X. rewrite (vP_odd (x t) In). destruct (Rlt_dec 0 (v t)) as [Y|Y].
      + exists 1%Z. replace PI with (Om * vT). field.
      + exists 0%Z. replace PI with (Om * vT). field.
    - rewrite Rabs_pos_eq by lra. destruct (Rlt_dec (v t) 0) as [Y|Y], (Rlt_dec 0 (v t)) as [Y'|Y']; try lra.
      + exists 0%Z. replace PI with (Om * vT). field.
      + exists 0%Z. replace PI with (Om * vT). field.
      + destruct (At ltac:(lra)) as [Q|Q]; [lra|]. rewrite Q. destruct v_prim as [_ P1 _ _]. rewrite P1. exists 0%Z. replace PI with (Om * vT). field.
  Qed.
  Lemma v_stop t : a < t < b -> v t = 0 -> F (x t) <> 0.
  Proof.
    intros Ht Z. pose proof (v_S t Ht) as V. rewrite Z in V. pose proof (v_in t Ht) as B. destruct W as (LL & _ & _ & Pos & (d0 & P0 & D0) & (d1 & P1 & D1)).
    pose proof (vS_d (x t)) as D.
    destruct (Req_dec (x t) (- xmax)) as [C|C]; [rewrite C in *; pose proof (d_unique _ _ _ _ D D0); lra|].
    destruct (Req_dec (x t) xmax) as [C'|C']; [rewrite C' in *; pose proof (d_unique _ _ _ _ D D1); lra|]. specialize (Pos (x t) ltac:(lra)). lra.
  Qed.
  Lemma v_linear t t' : a < t < b -> a < t' < b -> mod2pi (Om * branch vP vT (v t') (x t')) (Om * branch vP vT (v t) (x t) + Om * (t' - t)).
  Proof.
    pose proof vT_pos as TP. pose proof W as (LL & Z0 & Z1 & Pos & _).
    pose proof (prim_lin _ _ _ _ _ _ _ _ _ Om 0 v_prim v_prim) as PP.
    set (A := fun t => branch (fun q => Om * vP q + 0 * vP q) (Om * vT + 0 * vT) (v t) (x t)).
    assert (EA : forall t, A t = Om * branch vP vT (v t) (x t)) by (intros y; unfold A; rewrite branch_lin; ring).
    assert (HT : Om * vT + 0 * vT = PI * IZR 1) by (unfold Om; field; lra).
    rewrite <- !EA. apply angular_linear. intros s Hs.
    assert (Dq : forall y, a < y < b -> is_derive x y (v y / 1)) by (intros y Hy; rewrite Rdiv_1; exact (proj1 (M y Hy))).
    assert (Rq : forall y, a < y < b -> locally y (fun s => - xmax <= x s <= xmax /\ v s ^ 2 = 1 ^ 2 * S (x s))).
    { intros y Hy. assert (Lo : locally y (fun s => a < s < b)) by (apply filter_and; [apply locally_gt|apply locally_lt]; lra). eapply filter_imp; [|exact Lo]. intros u Hu. split; [apply v_in; exact Hu|rewrite (v_S u Hu); ring]. }
    split.
    - apply (branch_cont S _ _ (- xmax) xmax _ 1 x v 1 _ s PP Rlt_0_1 Rlt_0_1 Pos Z0 Z1 (Dq s Hs) (proj2 (M s Hs)) (Rq s Hs) 1%Z HT).
    - destruct (stops_isolated v _ s (proj2 (M s Hs)) (v_stop s Hs)) as (e & He & B).
      exists (Rmin e (Rmin (s - a) (b - s))). split; [repeat apply Rmin_glb_lt; lra|]. intros y Hy N.
      assert (X1 : Rabs (y - s) < e) by (eapply Rlt_le_trans; [exact Hy|apply Rmin_l]).
      assert (X2 : Rabs (y - s) < s - a) by (eapply Rlt_le_trans; [exact Hy|eapply Rle_trans; [apply Rmin_r|apply Rmin_l]]).
      assert (X3 : Rabs (y - s) < b - s) by (eapply Rlt_le_trans; [exact Hy|eapply Rle_trans; [apply Rmin_r|apply Rmin_r]]).
      apply Rabs_def2 in X2. apply Rabs_def2 in X3. assert (In : a < y < b) by lra.
      refine (is_derive_eq _ _ _ _ (branch_rate S _ _ (- xmax) xmax _ 1 x v 1 _ y PP Rlt_0_1 Rlt_0_1 Z0 Z1 (Dq y In) (proj2 (M y In)) (Rq y In) (B y X1 N)) _). unfold one. rr. field.
  Qed.
  Lemma v_action : v_J Phi xmax E0 = RInt (fun s => sqrt (S s)) (- xmax) xmax / PI.
  Proof.
    pose proof mid as Md. assert (C : forall s, - xmax <= s <= xmax -> continuous (fun s => sqrt (S s)) s) by (intros s Hs; apply (continuous_comp S sqrt); [apply vS_c; exact Hs|apply continuous_sqrt]).
    assert (X1 : ex_RInt (fun s => sqrt (S s)) (- xmax) 0) by (apply (ex_RInt_continuous (V := R_CompleteNormedModule)); intros s Hs; rewrite Rmin_left, Rmax_right in Hs by lra; apply C; lra).
    assert (X2 : ex_RInt (fun s => sqrt (S s)) 0 xmax) by (apply (ex_RInt_continuous (V := R_CompleteNormedModule)); intros s Hs; rewrite Rmin_left, Rmax_right in Hs by lra; apply C; lra).
    rewrite <- (RInt_Chasles (V := R_CompleteNormedModule) _ (- xmax) 0 xmax X1 X2).
    assert (Y : RInt (fun s => sqrt (S s)) (- xmax) 0 = RInt (fun s => sqrt (S s)) 0 xmax).
    { apply is_RInt_unique. assert (Z : is_RInt (fun s => opp (sqrt (S (- s)))) (- xmax) 0 (RInt (fun s => sqrt (S s)) (- - xmax) (- 0))).
      { apply (is_RInt_comp_opp (V := R_CompleteNormedModule) (fun s => sqrt (S s))). apply (RInt_correct (V := R_CompleteNormedModule)). rewrite Ropp_involutive, Ropp_0. apply ex_RInt_swap. exact X2. }
      rewrite Ropp_involutive, Ropp_0 in Z. apply (is_RInt_opp (V := R_CompleteNormedModule)) in Z. rewrite (opp_RInt_swap (V := R_CompleteNormedModule)) in Z by (apply ex_RInt_swap; exact X2).
      apply (is_RInt_ext (fun s => opp (opp (sqrt (S (- s)))))); [|exact Z]. intros s _. rewrite opp_opp. unfold S. rewrite Ev. reflexivity. }
    rewrite Y. unfold v_J, S, plus; simpl. field. apply PI_neq0.
  Qed.
End Vert.
