(** Concrete cases and counterexamples for the spherical distribution functions. *)
From Coq Require Import Reals List ZArith Lra Lia Bool.
From Coquelicot Require Import Coquelicot.
From Verif.Lib Require Import RealAux Atan2.
From Verif.Model Require Import PotAPI PotAxi SOS EOM SphericalDF.
From Verif.Spec Require Import SphericalDFSpec.
From Verif.Proofs Require Import EOMProofs StaeckelProofs KuzminKutuzovProofs SphericalDFIntegrals SphericalDFDensity SphericalDFModels SphericalDFProofs SphericalDFSampling.
Import ListNotations.
Open Scope R_scope.
Notation RR := RbaseSymbolsImpl.R (only parsing).
Ltac rr := match goal with |- ?a = ?b => change (@eq RR a b) end.

(** ** Odd moments *)
Lemma plummer_speed amp b r : 0 < amp -> 0 < b ->
  0 < RInt (fun v => v ^ 3 * plummer_fE amp b (amp * Pl_ev b r 0 + v ^ 2 / 2)) 0 (vmax_at_r (fun R z => amp * Pl_ev b R z) r).
Proof.
  intros Ha Hb. unfold vmax_at_r. set (D := r ^ 2 + 0 ^ 2 + Pl_b2 b).
  assert (HD : b ^ 2 <= D) by (unfold D, Pl_b2; pose proof (pow2_ge_0 r); lra). assert (Hb2 : 0 < b ^ 2) by nra.
  set (sD := sqrt D). assert (HsD : b <= sD) by (unfold sD; rewrite <- (sqrt_pow2 b) by lra; apply sqrt_le_1; lra).
  set (Psi := amp / sD). assert (HP : 0 < Psi) by (apply Rdiv_lt_0_compat; lra).
  assert (EP : amp * Pl_ev b r 0 = - Psi) by (unfold Pl_ev, Psi, sD, D; field; fold D sD; lra).
  rewrite EP. replace (0 - - Psi) with Psi by ring.
  assert (Cap : Psi <= amp / b) by (unfold Psi, Rdiv; apply Rmult_le_compat_l; [lra|]; apply Rinv_le_contravar; lra).
  set (norm := 24 * sqrt 2 / 7 / PI ^ 3 * b ^ 2 / amp ^ 4).
  assert (Hn : 0 < norm).
  { unfold norm. pose proof PI_RGT_0. pose proof (sqrt_lt_R0 2 ltac:(lra)).
    apply Rdiv_lt_0_compat; [|apply pow_lt; lra]. apply Rmult_lt_0_compat; [|lra]. apply Rdiv_lt_0_compat; [|apply pow_lt; lra]. lra. }
  pose proof (sqrt_lt_R0 (2 * Psi) ltac:(lra)) as Hv.
  rewrite (RInt_ext _ (fun v => v ^ 3 * (norm * sqrt (Psi - 0.5 * v ^ 2) ^ 7))).
  - apply RInt_gt_0; [exact Hv| |].
    + intros v Hv'. pose proof (below_vm Psi v HP Hv') as Bd.
      apply Rmult_lt_0_compat; [apply pow_lt; lra|]. apply Rmult_lt_0_compat; [exact Hn|]. apply pow_lt, sqrt_lt_R0. lra.
    + intros v _. apply (continuous_mult (fun v => v ^ 3) (fun v => norm * sqrt (Psi - 0.5 * v ^ 2) ^ 7)).
      * apply (@ex_derive_continuous R_AbsRing R_NormedModule). auto_derive. exact I.
      * apply (continuous_comp (fun v => sqrt (Psi - 0.5 * v ^ 2)) (fun s => norm * s ^ 7)).
        -- apply (continuous_comp (fun v => Psi - 0.5 * v ^ 2) sqrt); [|apply continuous_sqrt].
           apply (@ex_derive_continuous R_AbsRing R_NormedModule). auto_derive. exact I.
        -- apply (@ex_derive_continuous R_AbsRing R_NormedModule). auto_derive. exact I.
  - intros v Hv'. rewrite Rmin_left, Rmax_right in Hv' by lra. pose proof (below_vm Psi v HP Hv') as Bd. unfold plummer_fE.
    replace (- (- Psi + v ^ 2 / 2)) with (Psi - 0.5 * v ^ 2) by lra. fold norm.
    destruct (Rlt_dec 0 (Psi - 0.5 * v ^ 2)) as [_|N]; [|lra]. destruct (Rle_dec (Psi - 0.5 * v ^ 2) (amp / b)) as [_|N]; [|lra].
    replace 3.5 with (7 / 2) by lra. rewrite rpow_7_2 by lra. reflexivity.
Qed.
Lemma plummer_tangential amp b r : 0 < amp -> 0 < b ->
  let Phi := fun R z => amp * Pl_ev b R z in
  0 < velocity_moment (iso_call (plummer_fE amp b)) (Phi r 0) (vmax_at_r Phi r) r 0 1 /\ iso_vmoment (plummer_fE amp b) Phi r 0 1 = 0.
Proof.
  intros Ha Hb Phi. split; [|reflexivity]. unfold velocity_moment, iso_call.
  pose proof (plummer_speed amp b r Ha Hb) as P. fold Phi in P. change (amp * Pl_ev b r 0) with (Phi r 0) in P.
  set (I := RInt _ _ _) in P. pose proof PI_RGT_0.
  rewrite (RInt_ext _ (fun eta => I * (cos eta ^ 0 * sin eta ^ 1 * sin eta))).
  2:{ intros y _. f_equal. unfold I. apply RInt_ext. intros v _. cbn [pow]. rr. ring. }
  rewrite angular. assert (K : 0 < KI (1 + 1) 0).
  { change 0%nat with (2 * 0)%nat. rewrite KI_gamma. apply Rdiv_lt_0_compat; [apply Rmult_lt_0_compat|]; apply gamma_half_pos; lia. }
  apply Rmult_lt_0_compat; [lra|]. apply Rmult_lt_0_compat; assumption.
Qed.

(** ** Several rows *)
Definition two_rows : list cyl := [mkCyl 1 0 (1 / 2) 0 0 0; mkCyl 1 0 (1 / 2) 0 0 0].
Definition pot1 (R z : RR) : RR := 2 * He_ev 1 R z.
Lemma pot1_1 : pot1 1 0 = - (1 / 2).
Proof. unfold pot1, He_ev, He_r. replace (1 ^ 2 + 0 ^ 2) with (1 ^ 2) by ring. rewrite sqrt_pow2 by lra. field. Qed.
Lemma pot1_0 : - pot1 0 0 = 1.
Proof. unfold pot1, He_ev, He_r. replace (0 ^ 2 + 0 ^ 2) with 0 by ring. rewrite sqrt_0. field. Qed.
Lemma two_rows_wrong : call_orbit (cb_call 2 (cbh_fE 2 (- pot1 0 0) 1)) pot1 two_rows <>
  map (fun w => call_coords (cb_call 2 (cbh_fE 2 (- pot1 0 0) 1)) pot1 (y_R w) (y_vR w) (y_vT w) (y_z w) (y_vz w)) two_rows.
Proof.
  rewrite pot1_0. intros E. apply (f_equal (fun l => nth 0 l 0)) in E. unfold call_orbit, two_rows in E. cbn [map nth] in E.
  set (w := mkCyl 1 0 (1 / 2) 0 0 0) in *. unfold call_coords, cb_call in E. cbn [pow_pred] in E.
  assert (P : 0 < y_R w ^ 2 + y_z w ^ 2) by (cbn; lra). rewrite call_L_norm in E by exact P.
  assert (EE : orb_E (fun R z _ _ => pot1 R z) w 0 = call_E pot1 (y_R w) (y_vR w) (y_vT w) (y_z w) (y_vz w)).
  { unfold orb_E, orb_E_z, call_E. cbn beta zeta. rewrite !Rmult_1_l. lra. }
  rewrite EE in E. set (EN := call_E pot1 _ _ _ _ _) in E.
  assert (En : EN = - (3 / 8)) by (unfold EN, call_E, w; cbn [y_R y_vR y_vT y_z y_vz]; rewrite pot1_1; lra).
  assert (F : cbh_fE 2 1 1 EN <> 0).
  { rewrite En. unfold cbh_fE. replace (- (- (3 / 8) / 1)) with (3 / 8) by field. unfold in_unit.
    destruct (Rlt_dec (3 / 8) 0); [lra|]. destruct (Rlt_dec 1 (3 / 8)); [lra|].
    pose proof PI_RGT_0 as Pi. pose proof (pow_lt PI 3 Pi). apply Rgt_not_eq, Rdiv_lt_0_compat; [|lra]. apply Rdiv_lt_0_compat; [lra|]. lra. }
  rewrite !pow_1 in E. apply Rmult_eq_reg_r in E; [|exact F]. unfold sum_sq, norm3 in E. cbn [map fold_right] in E.
  assert (N : fst (fst (orb_L w)) ^ 2 + snd (fst (orb_L w)) ^ 2 + snd (orb_L w) ^ 2 = 1 / 4).
  { unfold orb_L, w. cbn [y_R y_vR y_vT y_z y_vz y_phi fst snd]. rewrite cos_0, sin_0. field. }
  rewrite N in E. apply (f_equal (fun x => x ^ 2)) in E. rewrite !pow2_sqrt in E by lra. lra.
Qed.

(** ** Rows of arrays *)
Lemma array_wrong psi0 a : 0 < psi0 -> 0 < a ->
  ~ elementwise (fun e => if in_unit e then hernquist_norm psi0 a * hernquist_shape e else 0)
      (fE_array2 (fun e => hernquist_norm psi0 a * hernquist_shape e) [[1 / 2; 2]]) [[1 / 2; 2]].
Proof.
  intros Hp Ha E. unfold elementwise, fE_array2 in E. cbn [map forallb] in E.
  assert (U2 : in_unit 2 = false). { unfold in_unit. destruct (Rlt_dec 2 0); [lra|]. destruct (Rlt_dec 1 2); [reflexivity|lra]. }
  assert (U1 : in_unit (1 / 2) = true). { unfold in_unit. destruct (Rlt_dec (1 / 2) 0); [lra|]. destruct (Rlt_dec 1 (1 / 2)); [lra|reflexivity]. }
  rewrite U1, U2 in E. cbn [andb] in E. injection E as E. symmetry in E. apply Rmult_integral in E. pose proof PI_RGT_0 as Pi.
  destruct E as [E|E]; revert E; apply Rgt_not_eq.
  - unfold hernquist_norm. pose proof (sqrt_lt_R0 2 ltac:(lra)). repeat apply Rdiv_lt_0_compat; try lra; [nra|apply pow_lt; lra|apply rpow_pos].
  - unfold hernquist_shape. replace (1 - 2 * (1 / 2)) with 0 by field. rewrite Rmult_0_l, Rplus_0_l.
    pose proof (sqrt_lt_R0 (1 / 2) ltac:(lra)) as S. assert (S1 : sqrt (1 / 2) < 1) by (apply (proj2 (sqrt_bounds (1 / 2) ltac:(lra)))).
    assert (A : 0 < asin (sqrt (1 / 2))).
    { apply Rnot_le_lt. intros L. pose proof (asin_bound (sqrt (1 / 2))) as B. pose proof (sin_asin (sqrt (1 / 2)) ltac:(lra)) as Q.
      pose proof (sin_ge_0 (- asin (sqrt (1 / 2))) ltac:(lra) ltac:(lra)) as G. rewrite sin_neg in G. lra. }
    apply Rmult_lt_0_compat; apply Rdiv_lt_0_compat; try lra. apply sqrt_lt_R0. lra.
Qed.

(** ** A distribution function that is constant for bound stars *)
Definition step (q : RR) : RR := if Rle_dec 0 q then 1 else 0.
Definition sf (v : RR) : RR := v ^ 2 * step (- - (1 / 2) - 0.5 * v ^ 2).
Lemma sf_in v : -1 <= v <= 1 -> sf v = v ^ 2.
Proof. intros H. unfold sf, step. destruct (Rle_dec 0 _) as [_|N]; [lra|]. exfalso. apply N. nra. Qed.
Lemma sf_out v : 1 < v \/ v < -1 -> sf v = 0.
Proof. intros H. unfold sf, step. destruct (Rle_dec 0 _) as [N|_]; [|lra]. exfalso. assert (1 < v ^ 2) by (destruct H; nra). lra. Qed.
Lemma cube_int a b : is_RInt (fun v => v ^ 2) a b (b ^ 3 / 3 - a ^ 3 / 3).
Proof.
  apply (is_RInt_derive (fun v => v ^ 3 / 3)).
  - intros y _. auto_derive; [exact I|]. rr. field.
  - intros y _. apply (@ex_derive_continuous R_AbsRing R_NormedModule). auto_derive. exact I.
Qed.
Lemma sf_small x : -1 <= x <= 1 -> is_RInt sf 0 x (x ^ 3 / 3).
Proof.
  intros H. replace (x ^ 3 / 3) with (x ^ 3 / 3 - 0 ^ 3 / 3) by field. apply (is_RInt_ext (fun v => v ^ 2)); [|apply cube_int].
  intros v Hv. symmetry. apply sf_in. unfold Rmin, Rmax in Hv. destruct (Rle_dec 0 x); lra.
Qed.
Lemma sf_zero a x : (1 = a /\ 1 <= x) \/ (-1 = a /\ x <= -1) -> is_RInt sf a x 0.
Proof.
  intros H. apply (is_RInt_ext (fun _ => 0)).
  - intros v Hv. symmetry. apply sf_out. unfold Rmin, Rmax in Hv. destruct (Rle_dec a x); lra.
  - pose proof (is_RInt_const (V := R_NormedModule) a x (0 : RR)) as C. change (is_RInt (fun _ => (0 : RR)) a x ((x - a) * 0)) in C. rewrite Rmult_0_r in C. exact C.
Qed.
Lemma sf_large x : 1 <= x -> is_RInt sf 0 x (1 / 3).
Proof.
  intros H. replace (1 / 3) with (plus (1 ^ 3 / 3) 0) by (unfold plus; cbn; field).
  apply (is_RInt_Chasles (V := R_NormedModule) sf 0 1 x); [apply sf_small; lra|apply sf_zero; lra].
Qed.
Lemma sf_ex x : ex_RInt sf 0 x.
Proof.
  destruct (Rle_dec x (-1)) as [L|L].
  - apply (ex_RInt_Chasles (V := R_NormedModule) sf 0 (-1) x); [eexists; apply sf_small; lra|eexists; apply sf_zero; lra].
  - destruct (Rle_dec x 1) as [M|M]; [eexists; apply sf_small; lra|eexists; apply sf_large; lra].
Qed.
Lemma vesc_1 : sqrt (2 * - - (1 / 2)) = 1.
Proof. replace (2 * - - (1 / 2)) with 1 by field. apply sqrt_1. Qed.
Lemma sf_total : RInt sf 0 (sqrt (2 * - - (1 / 2))) = 1 / 3.
Proof. rewrite vesc_1. apply is_RInt_unique, sf_large. lra. Qed.
Lemma sf_draw : inverts (fun u => rpow u (1 / 3)) (fun x => RInt sf 0 x / RInt sf 0 (sqrt (2 * - - (1 / 2)))).
Proof.
  intros u x Hu Hx. rewrite sf_total.
  assert (U : rpow (rpow u (1 / 3)) 3 = u) by (apply rpow_inv_r; lra).
  assert (Pu : 0 < rpow u (1 / 3)) by apply rpow_pos.
  destruct (Rle_dec x 1) as [L|L].
  - rewrite (is_RInt_unique (V := R_CompleteNormedModule) sf 0 x (x ^ 3 / 3)) by (apply sf_small; lra).
    replace (x ^ 3 / 3 / (1 / 3)) with (x ^ 3) by field. rewrite <- (rpow_3 x) by exact Hx. rewrite <- U at 2. rewrite rpow_le_iff by lra. reflexivity.
  - rewrite (is_RInt_unique (V := R_CompleteNormedModule) sf 0 x (1 / 3)) by (apply sf_large; lra).
    split; intros _; [lra|]. apply Rle_trans with 1; [|lra]. apply (rpow_le_iff _ 1 3); [lra|lra|lra|]. rewrite U, rpow_3 by lra. lra.
Qed.
Lemma step_neg q : q < 0 -> step q = 0.
Proof. intros H. unfold step. destruct (Rle_dec 0 q); [lra|reflexivity]. Qed.
