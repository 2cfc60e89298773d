(** Orientation, quadrature nodes and mass of the ellipsoidal potentials. *)
From Coq Require Import Reals Lra Psatz List.
From Coquelicot Require Import Coquelicot.
From Verif.Lib Require Import RealAux Vec3.
From Verif.Model Require Import PotAPI Coords RotVec PotEllipsoidal.
From Verif.Spec Require Import SkySpec PotSpec PotApiSpec EllipsoidalSpec.
From Verif.Proofs Require Import SkyProofs SpheroidProofs RotVecProofs PotLift StaeckelProofs EllProofs EllExact EllExactLaws EllClass EllProfiles.
Import ListNotations.
Open Scope R_scope.
Notation RR := RbaseSymbolsImpl.R (only parsing).
Ltac rr := match goal with |- ?a = ?b => change (@eq RR a b) end.

Lemma pa_orth pa : orthogonal (ell_pa_rot pa).
Proof.
  pose proof (sin2_cos2 pa) as T. unfold Rsqr in T. unfold orthogonal, ell_pa_rot, mulMM, transp, col0, col1, col2, mulMV, vdot, eye. cbn [r0 r1 r2 vx vy vz].
  repeat f_equal; try (ring_simplify; lra); nra.
Qed.
Lemma eye_o : orthogonal eye.
Proof. unfold orthogonal. apply mulMM_eye_r. Qed.
Definition unit_of (v : V3) : V3 := vscal (/ sqrt (vnorm2 v)) v.
Lemma unit_norm v : v <> vzero -> vnorm2 (unit_of v) = 1.
Proof.
  intros H. assert (P : 0 < vnorm2 v).
  { destruct v as [x y z]. unfold vnorm2, vdot. cbn. destruct (Req_dec x 0), (Req_dec y 0), (Req_dec z 0); subst; try nra. exfalso. apply H. reflexivity. }
  pose proof (sqrt_lt_R0 _ P) as Q. unfold unit_of. transitivity (/ sqrt (vnorm2 v) ^ 2 * vnorm2 v); [set (q := sqrt (vnorm2 v)) in *; clearbody q; destruct v; unfold vnorm2, vdot, vscal; cbn; field; lra|].
  rewrite pow2_sqrt by lra. field. lra.
Qed.
Lemma ez_ne : mkV 0 0 1 <> vzero.
Proof. intros E. injection E. lra. Qed.
Lemma inv_orth a : vnorm2 a = 1 -> orthogonal (rotate_to_arbitrary_vector true false (mkV 0 0 1) a).
Proof.
  intros Ha. pose proof ez_ne as Hv. destruct (cut_cases _ a Hv Ha true) as [[-> _]|[[-> _]|[E C]]].
  - apply eye_o.
  - unfold orthogonal. vring.
  - destruct (rot_generic _ a Hv Ha) as (R1 & _ & R3); [nra|]. rewrite E, R3. apply ortho_transp. apply R1.
Qed.

Lemma setup_frame b c psi dens deriv zvec pa gl rot : ell_setup_rot zvec pa = rot -> (forall v, zvec = Some v -> v <> vzero) ->
  b = 1 \/ 1 / 10 ^ 10 < Rabs (b - 1) -> frame_ok (mkEll b c psi dens deriv rot gl).
Proof.
  intros E Hz Hb. unfold frame_ok. cbn [e_rot e_b]. subst rot. unfold ell_setup_rot. destruct zvec as [v|].
  - apply ortho_mul; [destruct pa; [apply pa_orth|apply eye_o]|]. apply inv_orth. apply (unit_norm v). apply Hz. reflexivity.
  - destruct pa as [p|]; [|exact Hb]. destruct (Rlt_dec _ _); [exact Hb|]. apply ortho_mul; [apply pa_orth|apply eye_o].
Qed.
(** The body z axis lies along zvec, outside the two caps about the z axis. *)
Lemma setup_zvec v pa m : v <> vzero -> Rabs (vz v) <= (1 - 1 / 10 ^ 10) * sqrt (vnorm2 v) -> ell_setup_rot (Some v) pa = Some m ->
  mulMV m v = vscal (sqrt (vnorm2 v)) (mkV 0 0 1).
Proof.
  intros Hv Hc E. assert (Em : mulMM (match pa with Some p => ell_pa_rot p | None => eye end) (rotate_to_arbitrary_vector true false (mkV 0 0 1) (vscal (/ sqrt (vnorm2 v)) v)) = m).
  { exact (f_equal (fun o => match o with Some x => x | None => eye end) E). }
  rewrite <- Em. clear E Em. pose proof (unit_norm v Hv) as Ha. pose proof ez_ne as He. set (a := vscal (/ sqrt (vnorm2 v)) v) in *.
  change (unit_of v) with a in Ha.
  assert (P : 0 < sqrt (vnorm2 v)).
  { destruct (sqrt_pos (vnorm2 v)) as [H|H]; [exact H|]. exfalso. unfold a, unit_of in Ha. rewrite <- H in Ha. destruct v; unfold vnorm2, vdot, vscal in Ha; cbn in Ha. rewrite Rinv_0 in Ha. lra. }
  assert (Ev : v = vscal (sqrt (vnorm2 v)) a).
  { unfold a. set (q := sqrt (vnorm2 v)) in *. clearbody q. clear - P. destruct v as [x y z]. unfold vscal. cbn. f_equal; field; lra. }
  assert (Hcos : - (1 - 1 / 10 ^ 10) <= vdot (vscal (/ sqrt (vnorm2 (mkV 0 0 1))) (mkV 0 0 1)) a <= 1 - 1 / 10 ^ 10).
  { replace (vnorm2 (mkV 0 0 1)) with 1 by (unfold vnorm2, vdot; cbn; ring). rewrite sqrt_1, Rinv_1. unfold a, vdot, vscal. cbn [vx vy vz].
    replace (1 * 0 * (/ sqrt (vnorm2 v) * vx v) + 1 * 0 * (/ sqrt (vnorm2 v) * vy v) + 1 * 1 * (/ sqrt (vnorm2 v) * vz v)) with (vz v / sqrt (vnorm2 v)) by (unfold Rdiv; ring).
    apply Rabs_le_between. unfold Rdiv at 1. rewrite Rabs_mult, (Rabs_right (/ _)) by (apply Rle_ge, Rlt_le, Rinv_0_lt_compat, P).
    apply Rmult_le_reg_r with (sqrt (vnorm2 v)); [exact P|]. rewrite Rmult_assoc, Rinv_l by lra. lra. }
  assert (K : mulMV (rotate_to_arbitrary_vector true false (mkV 0 0 1) a) a = mkV 0 0 1).
  { destruct (cut_cases _ a He Ha true) as [[_ C]|[[_ C]|[E C]]]; [lra|lra|].
    destruct (rot_generic _ a He Ha) as (R1 & R2 & R3); [nra|]. rewrite E, R3.
    replace (sqrt (vnorm2 (mkV 0 0 1))) with 1 in R2 by (replace (vnorm2 (mkV 0 0 1)) with 1 by (unfold vnorm2, vdot; cbn; ring); rewrite sqrt_1; reflexivity).
    assert (Ea : a = mulMV (rotate_to_arbitrary_vector false true (mkV 0 0 1) a) (mkV 0 0 1)) by (rewrite R2; clearbody a; vring).
    rewrite Ea at 2. rewrite <- mulMV_assoc, ortho_l by apply R1. apply mulMV_eye. }
  match goal with |- mulMV ?M v = _ => transitivity (mulMV M (vscal (sqrt (vnorm2 v)) a)); [f_equal; exact Ev|] end.
  rewrite mulMV_scal, mulMV_assoc, K. f_equal. destruct pa as [p|]; [unfold ell_pa_rot|]; vring.
Qed.
(** Without zvec the body axes are turned by the position angle about the z axis. *)
Lemma setup_pa p m : ell_setup_rot None (Some p) = Some m -> mulMV m (mkV (cos p) (sin p) 0) = mkV 1 0 0 /\ mulMV m (mkV 0 0 1) = mkV 0 0 1.
Proof.
  unfold ell_setup_rot. destruct (Rlt_dec _ _); [discriminate|]. intros E. injection E as <-. rewrite mulMM_eye_r.
  pose proof (sin2_cos2 p) as T. unfold Rsqr in T. unfold ell_pa_rot, mulMV, vdot. cbn [r0 r1 r2 vx vy vz]. split; f_equal; lra.
Qed.
Lemma setup_inside nw l : ell_setup_gl (Some nw) = Some l -> List.Forall (fun p => -1 < fst p < 1) nw -> inside l.
Proof.
  cbn. intros E H. injection E as <-. unfold inside. apply List.Forall_map. revert H. apply List.Forall_impl. intros p Hp. cbn. lra.
Qed.
(** The rescaled weights integrate over [0, 1] what the weights integrate over [-1, 1]. *)
Lemma setup_exact nw l f (I : RR) : ell_setup_gl (Some nw) = Some l ->
  fold_left (fun acc p => acc + snd p * (f (1 / 2 * fst p + 1 / 2) : RR)) nw 0 = 2 * I -> fold_left (fun acc p => acc + snd p * f (fst p)) l 0 = I.
Proof.
  cbn. intros E H. injection E as <-.
  assert (G : forall a b : RR, b = a / 2 -> fold_left (fun acc p => acc + snd p * f (fst p)) (map (fun p => (1 / 2 * fst p + 1 / 2, snd p * (1 / 2))) nw) b
    = fold_left (fun acc p => acc + snd p * f (1 / 2 * fst p + 1 / 2)) nw a / 2).
  { clear H. induction nw as [|p nw IH]; intros a b ->; [reflexivity|]. cbn. apply IH. field. }
  rewrite (G 0 0) by lra. rewrite H. field.
Qed.

(** ** Mass *)
Lemma generic_mass e : is_profile (e_psi e) (e_mdens e) (e_mderiv e) -> filterlim (fun m => m ^ 2 * e_mdens e m) (at_right 0) (locally 0) ->
  is_enclosed_mass (e_b e) (e_c e) (e_mdens e) (ell_mass e).
Proof.
  intros Hp H2. set (g := ext0 (fun m => m ^ 2 * e_mdens e m) 0).
  assert (C : forall m, continuous g m).
  { intros m. apply ext0_cont; [|exact H2]. intros k Hk. apply cmult; [apply cpow, cid|]. apply c_of_d. eexists. apply (proj2 (Hp k Hk)). }
  set (K := 4 * PI * e_b e * e_c e).
  assert (E : forall R, 0 < R -> ell_mass e R = K * RInt g 0 R).
  { intros R HR. unfold ell_mass. fold K. f_equal. apply RInt_ext. intros x Hx. rewrite Rmin_left, Rmax_right in Hx by lra. unfold g. rewrite ext0_pos by lra. reflexivity. }
  assert (D : forall R, is_derive (fun R => K * RInt g 0 R) R (K * g R)).
  { intros R. apply is_derive_scal. apply (is_derive_RInt (V := R_NormedModule) g (fun t => RInt g 0 t) 0 R); [|apply C]. apply filter_forall. intros x. apply (RInt_correct (V := R_CompleteNormedModule)).
    apply (ex_RInt_continuous (V := R_CompleteNormedModule)). intros; apply C. }
  split.
  - intros R HR. apply (is_derive_ext_loc (fun R => K * RInt g 0 R)).
    + apply (filter_imp (fun x => 0 < x)); [|apply locally_pos; exact HR]. intros x Hx. symmetry. apply E. exact Hx.
    + refine (is_derive_eq _ _ _ _ _ _); [apply D|]. unfold g. rewrite ext0_pos by exact HR. fold K. rr. ring.
  - apply (lim_of _ (fun R => K * RInt g 0 R)); [exact E|apply c_of_d; eexists; apply D|]. rewrite RInt_point. apply Rmult_0_r.
Qed.
(** The enclosed mass is determined by the density. *)
Lemma mass_unique b c dens m1 m2 : is_enclosed_mass b c dens m1 -> is_enclosed_mass b c dens m2 -> forall R, 0 < R -> m1 R = m2 R.
Proof.
  intros (D1 & L1) (D2 & L2) R HR.
  assert (K : forall x, 0 < x -> m1 x - m2 x = m1 R - m2 R).
  { intros x Hx. destruct (MVT_gen (fun x => m1 x - m2 x) x R (fun _ => 0)) as (k & _ & E).
    - intros y Hy. assert (0 < y) by (apply Rlt_trans with (Rmin x R); [apply Rmin_pos; assumption|apply Hy]).
      apply (is_derive_eq _ _ (4 * PI * b * c * y ^ 2 * dens y - 4 * PI * b * c * y ^ 2 * dens y)); [|rr; ring]. apply (is_derive_minus (V := R_NormedModule)); [apply D1|apply D2]; assumption.
    - intros y Hy. assert (0 < y) by (apply Rlt_le_trans with (Rmin x R); [apply Rmin_pos; assumption|apply Hy]). apply continuity_pt_filterlim.
      apply (c_of_d (fun x => m1 x - m2 x) y). eexists. apply (is_derive_minus (V := R_NormedModule) m1 m2); [apply D1|apply D2]; assumption.
    - lra. }
  assert (L : filterlim (fun x => m1 x - m2 x) (at_right 0) (locally (0 - 0))).
  { apply (filterlim_comp_2 (F := at_right 0) (G := locally 0) (H := locally (opp 0)) m1 (fun x => opp (m2 x)) plus); [exact L1| |].
    - apply (filterlim_comp _ _ _ m2 opp _ (locally 0)); [exact L2|]. apply (filterlim_opp (V := R_NormedModule)).
    - apply (filterlim_plus (V := R_NormedModule)). }
  assert (L' : filterlim (fun _ : RR => m1 R - m2 R) (at_right 0) (locally (0 - 0))).
  { apply (filterlim_ext_loc (fun x => m1 x - m2 x)); [|exact L]. exists (mkposreal 1 Rlt_0_1). intros y _ Hy. apply K. exact Hy. }
  pose proof (filterlim_locally_unique (F := at_right 0) _ _ _ L' (filterlim_const (m1 R - m2 R))) as E. lra.
Qed.
