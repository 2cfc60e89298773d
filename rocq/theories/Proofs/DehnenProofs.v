(** The Dehnen smoothing function. *)
From Coq Require Import Reals Lra Psatz.
From Coquelicot Require Import Coquelicot.
From Verif.Lib Require Import RealAux.
From Verif.Model Require Import Wrappers.
Open Scope R_scope.

Lemma glue_derive (f1 f2 : R -> R) a l : f1 a = f2 a -> is_derive f1 a l -> is_derive f2 a l ->
  is_derive (fun t => if Rlt_dec t a then f1 t else f2 t) a l.
Proof.
  intros E D1 D2. apply is_derive_Reals in D1. apply is_derive_Reals in D2. apply is_derive_Reals.
  intros eps He. destruct (D1 eps He) as [d1 H1]. destruct (D2 eps He) as [d2 H2].
  assert (Hd : 0 < Rmin d1 d2) by (apply Rmin_pos; [apply d1|apply d2]).
  exists (mkposreal _ Hd). intros h Hh Hlt. simpl in Hlt.
  pose proof (Rmin_l d1 d2). pose proof (Rmin_r d1 d2).
  destruct (Rlt_dec a a); [lra|]. destruct (Rlt_dec (a + h) a).
  - rewrite <- E. apply H1; auto. lra.
  - apply H2; auto. lra.
Qed.

Definition quintic (xi : R) : R := 3 / 16 * xi ^ 5 - 5 / 8 * xi ^ 3 + 15 / 16 * xi + 1 / 2.
Lemma quintic_range xi : -1 <= xi <= 1 -> 0 <= quintic xi <= 1.
Proof.
  intros H. unfold quintic.
  assert (E1 : 3 / 16 * xi ^ 5 - 5 / 8 * xi ^ 3 + 15 / 16 * xi + 1 / 2 = 1 / 16 * (1 + xi) ^ 3 * (3 * xi ^ 2 - 9 * xi + 8)) by field.
  assert (E2 : 1 - (3 / 16 * xi ^ 5 - 5 / 8 * xi ^ 3 + 15 / 16 * xi + 1 / 2) = 1 / 16 * (1 - xi) ^ 3 * (3 * xi ^ 2 + 9 * xi + 8)) by field.
  assert (0 <= (1 + xi) ^ 3) by (apply pow_le; lra). assert (0 <= (1 - xi) ^ 3) by (apply pow_le; lra).
  assert (0 < 3 * xi ^ 2 - 9 * xi + 8) by nra. assert (0 < 3 * xi ^ 2 + 9 * xi + 8) by nra. split.
  - rewrite E1. apply Rmult_le_pos; [|lra]. nra.
  - assert (0 <= 1 / 16 * (1 - xi) ^ 3 * (3 * xi ^ 2 + 9 * xi + 8)) by (apply Rmult_le_pos; [nra|lra]). lra.
Qed.
Lemma quintic_mono x y : -1 <= x -> x <= y -> y <= 1 -> quintic x <= quintic y.
Proof.
  intros H1 H2 H3. unfold quintic.
  assert (E : 3 / 16 * y ^ 5 - 5 / 8 * y ^ 3 + 15 / 16 * y + 1 / 2 - (3 / 16 * x ^ 5 - 5 / 8 * x ^ 3 + 15 / 16 * x + 1 / 2)
    = (y - x) / 16 * (3 * (x ^ 4 + x ^ 3 * y + x ^ 2 * y ^ 2 + x * y ^ 3 + y ^ 4) - 10 * (x ^ 2 + x * y + y ^ 2) + 15)) by field.
  assert (0 <= 3 * (x ^ 4 + x ^ 3 * y + x ^ 2 * y ^ 2 + x * y ^ 3 + y ^ 4) - 10 * (x ^ 2 + x * y + y ^ 2) + 15).
  { set (s := x + y). set (d := x - y).
    replace (3 * (x ^ 4 + x ^ 3 * y + x ^ 2 * y ^ 2 + x * y ^ 3 + y ^ 4) - 10 * (x ^ 2 + x * y + y ^ 2) + 15)
      with (3 / 16 * (5 * s ^ 4 + 10 * s ^ 2 * d ^ 2 + d ^ 4) - 5 / 2 * (3 * s ^ 2 + d ^ 2) + 15) by (unfold s, d; field).
    assert (s ^ 2 <= 4) by (unfold s; nra).
    replace (3 / 16 * (5 * s ^ 4 + 10 * s ^ 2 * d ^ 2 + d ^ 4) - 5 / 2 * (3 * s ^ 2 + d ^ 2) + 15) with
      (15 / 16 * (s ^ 2 - 4 + d ^ 2) ^ 2 + 3 / 16 * d ^ 2 * (80 / 3 - 4 * d ^ 2)) by field.
    assert (d ^ 2 <= 4) by (unfold d; nra). pose proof (pow2_ge_0 d). pose proof (pow2_ge_0 (s ^ 2 - 4 + d ^ 2)). nra. }
  assert (0 <= (y - x) / 16 * (3 * (x ^ 4 + x ^ 3 * y + x ^ 2 * y ^ 2 + x * y ^ 3 + y ^ 4) - 10 * (x ^ 2 + x * y + y ^ 2) + 15)).
  { apply Rmult_le_pos; auto. lra. }
  lra.
Qed.

Section Growth.
  Variables (tform ts : R).
  Hypothesis Hts : 0 < ts.
  Let tend := tform + ts.
  Let xi (t : R) := 2 * (t - tform) / (tend - tform) - 1.
  Let s := dehnen_smooth tform tend true.
  Lemma xi_eq t : xi t = 2 * (t - tform) / ts - 1.
  Proof. unfold xi, tend. f_equal. f_equal. ring. Qed.
  Lemma xi_range t : tform <= t <= tend -> -1 <= xi t <= 1.
  Proof.
    intros H. rewrite xi_eq. unfold tend in H. split.
    - assert (0 <= 2 * (t - tform) / ts) by (apply Rmult_le_pos; [lra|left; apply Rinv_0_lt_compat; auto]). lra.
    - assert (2 * (t - tform) / ts <= 2). { apply Rmult_le_reg_r with ts; auto. unfold Rdiv. rewrite Rmult_assoc, Rinv_l by lra. lra. } lra.
  Qed.
  Lemma xi_mono t u : t <= u -> xi t <= xi u.
  Proof.
    intros H. rewrite !xi_eq. apply Rplus_le_compat_r. apply Rmult_le_compat_r; [|lra]. left; apply Rinv_0_lt_compat; auto.
  Qed.
  Lemma s_mid t : tform <= t <= tend -> s t = quintic (xi t).
  Proof.
    intros H. unfold s, dehnen_smooth. destruct (Rlt_dec t tform); [lra|]. destruct (Rlt_dec t tend); [reflexivity|].
    assert (t = tend) as -> by lra. rewrite xi_eq. unfold tend. replace (2 * (tform + ts - tform) / ts - 1) with 1 by (field; lra). unfold quintic. field.
  Qed.
  Lemma s_before t : t <= tform -> s t = 0.
  Proof.
    intros H. destruct (Req_dec t tform) as [->|]. 
    - rewrite s_mid by (unfold tend; lra). rewrite xi_eq. unfold quintic. field. lra.
    - unfold s, dehnen_smooth. destruct (Rlt_dec t tform); [auto|lra].
  Qed.
  Lemma s_after t : tend <= t -> s t = 1.
  Proof.
    intros H. unfold s, dehnen_smooth. unfold tend in *. destruct (Rlt_dec t tform); [lra|]. destruct (Rlt_dec t (tform + ts)); [lra|auto].
  Qed.
  Lemma s_range t : 0 <= s t <= 1.
  Proof.
    destruct (Rle_dec t tform). rewrite s_before; lra. destruct (Rle_dec tend t). rewrite s_after; lra.
    rewrite s_mid by lra. apply quintic_range, xi_range; lra.
  Qed.
  Lemma s_mono t u : t <= u -> s t <= s u.
  Proof.
    intros H. destruct (Rle_dec t tform). rewrite (s_before t); auto. apply s_range.
    destruct (Rle_dec tend u). rewrite (s_after u); auto. apply s_range.
    rewrite !s_mid by lra. apply quintic_mono. apply xi_range; lra. apply xi_mono; auto. apply xi_range; lra.
  Qed.
  Definition growth_rate (t : R) : R :=
    let w := 1 - (2 * (t - tform) / ts - 1) ^ 2 in 15 / 8 / ts * ((w + Rabs w) / 2) ^ 2.
  Lemma mid_derive t : is_derive (fun u => quintic (xi u)) t (15 / 8 / ts * (1 - (2 * (t - tform) / ts - 1) ^ 2) ^ 2).
  Proof.
    eapply is_derive_ext with (f := fun u => quintic (2 * (u - tform) / ts - 1)). intros; rewrite xi_eq; reflexivity.
    unfold quintic. auto_derive; auto. field. lra.
  Qed.
  Lemma s_derive (t : R) : is_derive s t (growth_rate t).
  Proof.
    assert (W : forall u, tform <= u <= tend -> growth_rate u = 15 / 8 / ts * (1 - (2 * (u - tform) / ts - 1) ^ 2) ^ 2).
    { intros u Hu. unfold growth_rate. pose proof (xi_range u Hu) as B. rewrite xi_eq in B. cbv zeta.
      rewrite Rabs_pos_eq by nra. f_equal. f_equal. field. lra. }
    assert (W0 : forall u, u <= tform \/ tend <= u -> growth_rate u = 0).
    { intros u Hu. unfold growth_rate. cbv zeta. 
      assert (B : 2 * (u - tform) / ts - 1 <= -1 \/ 1 <= 2 * (u - tform) / ts - 1).
      { unfold tend in Hu. destruct Hu as [Hu|Hu]; [left|right].
        - assert (2 * (u - tform) / ts <= 0); [|lra]. apply Rmult_le_reg_r with ts; auto. unfold Rdiv. rewrite Rmult_assoc, Rinv_l by lra. lra.
        - assert (2 <= 2 * (u - tform) / ts); [|lra]. apply Rmult_le_reg_r with ts; auto. unfold Rdiv. rewrite Rmult_assoc, Rinv_l by lra. lra. }
      rewrite Rabs_left1 by (destruct B; nra). field. lra. }
    destruct (Rtotal_order t tform) as [L|[E|G]].
    - rewrite W0 by lra. eapply is_derive_ext_loc with (f := fun _ => 0); [|apply is_derive_cst].
      eapply filter_imp; [|apply (locally_lt tform t L)]. intros u Hu. symmetry; apply s_before. simpl in Hu; lra.
    - rewrite W0 by lra. subst t.
      eapply is_derive_ext_loc with (f := fun t => if Rlt_dec t tform then 0 else quintic (xi t)).
      { eapply filter_imp; [|apply (locally_lt tend tform); unfold tend; lra]. intros u Hu. simpl in Hu.
        destruct (Rlt_dec u tform). symmetry; apply s_before; lra. symmetry; apply s_mid; lra. }
      apply (glue_derive (fun _ => 0) (fun t => quintic (xi t))).
      + rewrite <- s_mid by (unfold tend; lra). symmetry; apply s_before; lra.
      + apply is_derive_cst.
      + rewrite <- (W0 tform) by lra. rewrite W by (unfold tend; lra). apply mid_derive.
    - destruct (Rtotal_order t tend) as [L'|[E'|G']].
      + rewrite W by lra. eapply is_derive_ext_loc; [|apply mid_derive].
        eapply filter_imp; [|apply filter_and; [apply (locally_lt tend t L')|apply (locally_gt tform t G)]].
        intros u [H1 H2]. simpl in *. symmetry; apply s_mid; lra.
      + rewrite W0 by lra. subst t.
        eapply is_derive_ext_loc with (f := fun t => if Rlt_dec t tend then quintic (xi t) else 1).
        { eapply filter_imp; [|apply (locally_gt tform tend G)]. intros u Hu. simpl in Hu.
          destruct (Rlt_dec u tend). symmetry; apply s_mid; lra. symmetry; apply s_after; lra. }
        apply (glue_derive (fun t => quintic (xi t)) (fun _ => 1)).
        * rewrite <- s_mid by (unfold tend; lra). apply s_after; lra.
        * rewrite <- (W0 tend) by lra. rewrite W by (unfold tend; lra). apply mid_derive.
        * apply is_derive_cst.
      + rewrite W0 by lra. eapply is_derive_ext_loc with (f := fun _ => 1); [|apply is_derive_cst].
        eapply filter_imp; [|apply (locally_gt tend t G')]. intros u Hu. simpl in Hu. symmetry; apply s_after; lra.
  Qed.
  Lemma growth_rate_continuous t : continuous growth_rate t.
  Proof.
    unfold growth_rate. cbv zeta.
    assert (C : continuous (fun t => 1 - (2 * (t - tform) / ts - 1) ^ 2) t).
    { apply (ex_derive_continuous (fun t => 1 - (2 * (t - tform) / ts - 1) ^ 2)). auto_derive; auto. }
    set (w := fun t => 1 - (2 * (t - tform) / ts - 1) ^ 2) in *.
    change (continuous (fun t => 15 / 8 / ts * ((w t + Rabs (w t)) / 2) ^ 2) t).
    assert (C2 : continuous (fun t => w t + Rabs (w t)) t).
    { apply (continuous_plus w (fun t => Rabs (w t))); auto. apply (continuous_comp w Rabs); auto. apply continuous_Rabs. }
    apply (continuous_comp (fun t => w t + Rabs (w t)) (fun y => 15 / 8 / ts * (y / 2) ^ 2)); auto.
    apply (ex_derive_continuous (fun y => 15 / 8 / ts * (y / 2) ^ 2)). auto_derive; auto.
  Qed.
End Growth.

(** default tsteady with tform > 0: a jump *)
Lemma default_jump tform : 0 < tform ->
  (forall t, t < tform -> dehnen_smooth tform (dehnen_tsteady tform None) true t = 0) /\
  (forall t, tform <= t -> dehnen_smooth tform (dehnen_tsteady tform None) true t = 1).
Proof.
  intros H. unfold dehnen_smooth, dehnen_tsteady. split; intros t Ht.
  - destruct (Rlt_dec t tform); [auto|lra].
  - destruct (Rlt_dec t tform); [lra|]. destruct (Rlt_dec t (tform / 2)); [lra|auto].
Qed.
