(** The multipole expansion: forces, second derivatives, source; an exact family of splines. *)
From Coq Require Import Reals Lra Lia Arith ZArith.
From Coquelicot Require Import Coquelicot.
From Verif.Lib Require Import RealAux Atan2.
From Verif.Model Require Import Coords PotAPI SphHarm Multipole.
From Verif.Spec Require Import PotSpec PotApiSpec ExpansionSpec MultipoleSpec.
From Verif.Proofs Require Import PotLift AxiProofs NonAxiProofs Gegenbauer SphAngular SphCyl SphMass MultiRadial MultiCyl.
Open Scope R_scope.
Notation RR := RbaseSymbolsImpl.R (only parsing).
Ltac rr := match goal with |- ?a = ?b => change (@eq RR a b) end.

Section Top.
  Variables (L M : nat) (rmin rmax : RR).
  Variables rho Ii Io : nat -> nat -> nat -> spline.
  Hypothesis Hm : 0 < rmin.
  Hypothesis Hmm : rmin < rmax.
  Hypothesis Si : forall k l m, twice_differentiable rmin rmax (Ii k l m).
  Hypothesis So : forall k l m, twice_differentiable rmin rmax (Io k l m).
  Notation F0 := (Rl rmin rmax Ii Io).
  Notation F1 := (dRl rmin rmax Ii Io).
  Notation F2 := (d2Rl rmin rmax Ii Io).
  Definition Dr (r : RR) : Prop := 0 < r /\ r <> rmin /\ r <> rmax.
  Lemma both r : Dr r -> forall k l m, is_derive (F0 k l m) r (F1 k l m r) /\ is_derive (F1 k l m) r (F2 k l m r).
  Proof using Hm Hmm Si So.
    intros (H0 & H1 & H2) k l m. unfold Rl, dRl, d2Rl. destruct (Rlt_dec r rmin) as [A|A]; [apply lo_d; lra|]. destruct (Rlt_dec r rmax) as [B|B].
    - apply mi_d; [lra..|]. intros nu Hnu. split; [apply Si|apply So]; try exact Hnu; lra.
    - apply hi_d; lra.
  Qed.
  Lemma Hd1 r : Dr r -> forall k l m, is_derive (F0 k l m) r (F1 k l m r). Proof using Hm Hmm Si So. intros H k l m. apply both. exact H. Qed.
  Lemma Hd2 r : Dr r -> forall k l m, is_derive (F1 k l m) r (F2 k l m r). Proof using Hm Hmm Si So. intros H k l m. apply both. exact H. Qed.
  Lemma off_DD R z phi t : off_edges rmin rmax R z -> DD Dr R z phi t.
  Proof using. intros (HR & A & B). split; [exact HR|]. split; [apply rad_pos; exact HR|]. split; assumption. Qed.
  Lemma Rf_g R z phi t : 0 < R -> mp_Rf L M rmin rmax Ii Io R z phi t = gRf L M F0 F1 R z phi t.
  Proof using. intros HR. unfold mp_Rf. cbv zeta. fold (rad R z). rewrite force_g by exact HR. reflexivity. Qed.
  Lemma zf_g R z phi t : 0 < R -> mp_zf L M rmin rmax Ii Io R z phi t = gzf L M F0 F1 R z phi t.
  Proof using. intros HR. unfold mp_zf. cbv zeta. fold (rad R z). rewrite force_g by exact HR. reflexivity. Qed.
  Ltac near0 HR f := apply (is_derive_ext_loc f); [first [apply (filter_imp (fun x => 0 < x)); [intros x Hx; symmetry|apply locally_pos; exact HR] | apply filter_forall; intros x; symmetry]|].
  Lemma top_forces : is_force_field (fun R z _ _ => off_edges rmin rmax R z) (mp_ev L M rmin rmax Ii Io) (mp_Rf L M rmin rmax Ii Io) (mp_zf L M rmin rmax Ii Io) (mp_pt L M rmin rmax Ii Io).
  Proof using Hm Hmm Si So.
    intros R z phi t H. pose proof (proj1 H) as HR. destruct (gforces L M F0 F1 Dr Hd1 R z phi t (off_DD _ _ _ _ H)) as (A & B & C). rewrite Rf_g, zf_g, torque_g by exact HR. split; [|split].
    - apply (is_derive_ext_loc (fun x => gev L M F0 x z phi t)); [|exact A]. apply (filter_imp (fun x => 0 < x)); [intros x Hx; symmetry; apply ev_g; exact Hx|apply locally_pos; exact HR].
    - apply (is_derive_ext (fun x => gev L M F0 R x phi t)); [|exact B]. intros x. symmetry. apply ev_g. exact HR.
    - apply (is_derive_ext (fun x => gev L M F0 R z x t)); [|exact C]. intros x. symmetry. apply ev_g. exact HR.
  Qed.
  (** with the second derivatives at the true polar angle *)
  Lemma pure_hess : is_meridional_hessian (fun R z _ _ => off_edges rmin rmax R z) (mp_Rf L M rmin rmax Ii Io) (mp_zf L M rmin rmax Ii Io) (gcyl L M F0 F1 F2 dR2) (gcyl L M F0 F1 F2 dz2) (gcyl L M F0 F1 F2 dRz).
  Proof using Hm Hmm Si So.
    intros R z phi t H. pose proof (proj1 H) as HR. destruct (ghess L M F0 F1 F2 Dr Hd1 Hd2 R z phi t (off_DD _ _ _ _ H)) as (A & B & C & D). split; [|split; [|split]].
    - apply (is_derive_ext_loc (fun x => - gRf L M F0 F1 x z phi t)); [|exact A]. apply (filter_imp (fun x => 0 < x)); [intros x Hx; rewrite Rf_g by exact Hx; reflexivity|apply locally_pos; exact HR].
    - apply (is_derive_ext (fun x => - gzf L M F0 F1 R x phi t)); [|exact B]. intros x. rewrite zf_g by exact HR. reflexivity.
    - apply (is_derive_ext (fun x => - gRf L M F0 F1 R x phi t)); [|exact C]. intros x. rewrite Rf_g by exact HR. reflexivity.
    - apply (is_derive_ext_loc (fun x => - gzf L M F0 F1 x z phi t)); [|exact D]. apply (filter_imp (fun x => 0 < x)); [intros x Hx; rewrite zf_g by exact Hx; reflexivity|apply locally_pos; exact HR].
  Qed.
  Lemma pure_azi : is_azimuthal_hessian (fun R z _ _ => off_edges rmin rmax R z) (mp_Rf L M rmin rmax Ii Io) (mp_zf L M rmin rmax Ii Io) (mp_pt L M rmin rmax Ii Io) (gcyl L M F0 F1 F2 dphi2) (gcyl L M F0 F1 F2 dRphi) (gcyl L M F0 F1 F2 dphiz).
  Proof using Hm Hmm Si So.
    intros R z phi t H. pose proof (proj1 H) as HR. destruct (gazi L M F0 F1 F2 Dr Hd1 R z phi t (off_DD _ _ _ _ H)) as (A & B & C & D & E). split; [|split; [|split; [|split]]].
    - apply (is_derive_ext (fun x => - gpt L M F0 R z x t)); [|exact A]. intros x. rewrite torque_g by exact HR. reflexivity.
    - apply (is_derive_ext (fun x => - gRf L M F0 F1 R z x t)); [|exact B]. intros x. rewrite Rf_g by exact HR. reflexivity.
    - apply (is_derive_ext_loc (fun x => - gpt L M F0 x z phi t)); [|exact C]. apply (filter_imp (fun x => 0 < x)); [intros x Hx; rewrite torque_g by exact Hx; reflexivity|apply locally_pos; exact HR].
    - apply (is_derive_ext (fun x => - gzf L M F0 F1 R z x t)); [|exact D]. intros x. rewrite zf_g by exact HR. reflexivity.
    - apply (is_derive_ext (fun x => - gpt L M F0 R x phi t)); [|exact E]. intros x. rewrite torque_g by exact HR. reflexivity.
  Qed.
  Lemma pure_poisson : poisson_alg (fun R z _ _ => off_edges rmin rmax R z) (mp_Rf L M rmin rmax Ii Io) (gcyl L M F0 F1 F2 dR2) (gcyl L M F0 F1 F2 dphi2) (gcyl L M F0 F1 F2 dz2) (gdens L M F0 F1 F2).
  Proof using.
    intros R z phi t H HR. rewrite Rf_g by exact HR. exact (gpoisson L M F0 F1 F2 R z phi t HR HR).
  Qed.
  Lemma cont_rad_R R z : 0 < R -> continuous (fun x => sqrt (x ^ 2 + z ^ 2)) R.
  Proof using. intros HR. apply (ex_derive_continuous (K := R_AbsRing) (V := R_NormedModule)). eexists. apply (dr_R R z HR). Qed.
  Lemma cont_rad_z R z : 0 < R -> continuous (fun x => sqrt (R ^ 2 + x ^ 2)) z.
  Proof using. intros HR. apply (ex_derive_continuous (K := R_AbsRing) (V := R_NormedModule)). eexists. apply (dr_z R z HR). Qed.
  Lemma away (f : RR -> RR) x a : continuous f x -> f x <> a -> locally x (fun y => f y <> a).
  Proof using.
    intros C H. apply (C (fun v => v <> a)). destruct (Rdichotomy _ _ H) as [K|K].
    - apply (filter_imp (fun v => v < a)); [intros v Hv; lra|apply locally_lt; exact K].
    - apply (filter_imp (fun v => a < v)); [intros v Hv; lra|apply locally_gt; exact K].
  Qed.
  Lemma off_open : slice_open (fun R z _ _ => off_edges rmin rmax R z).
  Proof using.
    intros R z phi t (HR & A & B). split; [|split].
    - apply filter_and; [apply locally_pos; exact HR|]. apply filter_and; apply (away (fun x => sqrt (x ^ 2 + z ^ 2))); try assumption; apply cont_rad_R; exact HR.
    - apply filter_and; [apply filter_forall; intros; exact HR|]. apply filter_and; apply (away (fun x => sqrt (R ^ 2 + x ^ 2))); try assumption; apply cont_rad_z; exact HR.
    - apply filter_forall. intros _. repeat split; assumption.
  Qed.
  Definition pure_class nax : PotC := mkPotC nax (mp_ev L M rmin rmax Ii Io) (mp_Rf L M rmin rmax Ii Io) (mp_zf L M rmin rmax Ii Io) (Some (mp_pt L M rmin rmax Ii Io))
    (Some (gcyl L M F0 F1 F2 dR2)) (Some (gcyl L M F0 F1 F2 dz2)) (Some (gcyl L M F0 F1 F2 dRz)) (Some (gcyl L M F0 F1 F2 dphi2)) (Some (gcyl L M F0 F1 F2 dRphi)) (Some (gcyl L M F0 F1 F2 dphiz)) (Some (gdens L M F0 F1 F2)).
  Lemma pure_density nax amp : density_is_source (fun R z _ _ => off_edges rmin rmax R z) (Single amp (pure_class nax)).
  Proof using Hm Hmm Si So.
    eapply (class_density _ _ (pure_class nax)); try reflexivity.
    - exact off_open.
    - constructor; intros k.
      + apply (class_forces _ _ (pure_class nax) (mp_pt L M rmin rmax Ii Io)); [left; reflexivity|]. exact top_forces.
      + eapply (class_hess _ _ (pure_class nax)); [reflexivity..|]. exact pure_hess.
      + apply (class_azi _ _ (pure_class nax)); [intros _; cbn; repeat split; discriminate|]. exact pure_azi.
    - intros _. discriminate.
    - exact pure_poisson.
  Qed.
  Variable grid : RR -> Prop.
  Variables ii io : nat -> nat -> nat -> RR -> RR -> RR.
  Hypothesis Hb : built rmin rmax grid rho Ii Io ii io.
  Hypothesis Hg : grid rmin.
  Lemma nodes_edges R z : at_nodes grid rmin rmax R z -> off_edges rmin rmax R z.
  Proof using Hmm. intros [HR H]. cbv zeta in H. split; [exact HR|]. destruct H as [H|[[_ H]|H]]; lra. Qed.
  Lemma dens_g R z phi t : at_nodes grid rmin rmax R z -> mp_dens L M rmin rmax rho R z phi t = gdens L M F0 F1 F2 R z phi t.
  Proof using Hm Hmm Hb Hg.
    intros [HR H]. cbv zeta in H. fold (rad R z) in H. pose proof (rad_pos R z HR) as RP. pose proof PI_RGT_0 as P0. unfold mp_dens, cyl_to_spher. fold (rad R z). fold (tht R z). unfold gdens.
    assert (EE : forall k l m x, (F2 k l m (rad R z) + 2 / rad R z * F1 k l m (rad R z) - INR l * (INR l + 1) / rad R z ^ 2 * F0 k l m (rad R z)) = 4 * PI * x -> src F0 F1 F2 k l m (rad R z) = x). { intros k l m x E. unfold src. rewrite E. rr. field. lra. }
    destruct H as [H|[[G H]|H]].
    - destruct (Rlt_dec rmax (rad R z)); [exfalso; lra|]. destruct (Rlt_dec (rad R z) rmin); [|exfalso; lra]. apply lp_ext. intros k l m. rewrite (EE k l m (rho k l m 0%nat rmin)); [unfold th0; rr; ring|].
      unfold Rl, dRl, d2Rl. rewrite lo_poisson by lra. unfold P_rho0. destruct (Hb k l m 1%nat rmin ltac:(lia) Hg) as [E _]. rewrite E. cbn [node_inner]. unfold f_inner, pref. pose proof (pos_INR l). pose proof (pow_lt rmin (l + 2) Hm). rr. field. split; lra.
    - destruct (Rlt_dec rmax (rad R z)); [exfalso; lra|]. destruct (Rlt_dec (rad R z) rmin); [exfalso; lra|]. apply lp_ext. intros k l m. rewrite (EE k l m (rho k l m 0%nat (rad R z))); [unfold th0; rr; ring|].
      unfold Rl, dRl, d2Rl. apply (mi_poisson rmin rmax Hm l _ _ (rho k l m) (ii k l m) (io k l m)); [exact H|]. intros nu H1 _. apply Hb; assumption.
    - destruct (Rlt_dec rmax (rad R z)); [|exfalso; lra]. rewrite (lp_ext L M _ (fun k l m => 0 * 0)); [rewrite lp_scal; rr; ring|]. intros k l m. rewrite (EE k l m 0); [rr; ring|]. unfold Rl, dRl, d2Rl. rewrite hi_poisson by lra. rr. ring.
  Qed.
  Lemma top_density nax amp : density_is_source (fun R z _ _ => at_nodes grid rmin rmax R z) (Multipole L M rmin rmax rho Ii Io nax amp).
  Proof using Hm Hmm Hb Hg Si So.
    destruct (pure_density nax amp) as (Phi & dens & E1 & E2 & H). exists Phi. eexists. split; [exact E1|]. split; [reflexivity|]. intros R z phi t K HR. specialize (H R z phi t (nodes_edges _ _ K) HR). cbn in E2. injection E2 as <-. cbn in H |- *. unfold scale4 in H |- *. rewrite (dens_g R z phi t K). exact H.
  Qed.
End Top.

(** densities r^l with any coefficients: the splines are the integrals themselves *)
Section Exact.
  Variables rmin rmax : RR.
  Variable c : nat -> nat -> nat -> RR.
  Definition ex_rho (k l m : nat) : spline := fun nu r => match nu with O => c k l m * r ^ l | _ => c k l m * (INR l * r ^ l / r) end.
  Definition ex_ii (k l m : nat) (a b : RR) : RR := c k l m * (b ^ (2 * l + 3) - a ^ (2 * l + 3)) / (2 * INR l + 3).
  Definition ex_io (k l m : nat) (a b : RR) : RR := c k l m * (b ^ 2 - a ^ 2) / 2.
  Definition ex_I (k l m : nat) : spline := fun nu r => match nu with O => pref l * ex_ii k l m rmin r | S O => pref l * (c k l m * r ^ (2 * l + 2)) | _ => pref l * (c k l m * (2 * INR l + 2) * r ^ (2 * l + 1)) end.
  Definition ex_O (k l m : nat) : spline := fun nu r => match nu with O => pref l * ex_io k l m r rmax | S O => pref l * (- (c k l m * r)) | _ => pref l * - c k l m end.
  Lemma d_pow n (x : RR) : is_derive (fun y => y ^ n) x (INR n * x ^ pred n).
  Proof using. auto_derive; [exact I|]. rr. ring. Qed.
  Lemma ex_smooth k l m : twice_differentiable rmin rmax (ex_I k l m) /\ twice_differentiable rmin rmax (ex_O k l m).
  Proof using.
    split; intros nu r Hnu _; (destruct nu as [|[|nu]]; [| |lia]).
    - cbn [ex_I]. apply is_derive_Rscal. unfold ex_ii. apply (is_derive_ext (fun y => c k l m / (2 * INR l + 3) * (y ^ (2 * l + 3) + - rmin ^ (2 * l + 3)))); [intros y; unfold Rdiv; rr; ring|].
      refine (is_derive_eq _ _ _ _ (is_derive_Rscal _ r _ _ (is_derive_Rplus _ _ r _ _ (d_pow (2 * l + 3) r) (is_derive_const (V := R_NormedModule) _ _))) _). replace (pred (2 * l + 3)) with (2 * l + 2)%nat by lia. rewrite plus_INR, mult_INR. change (INR 2) with 2. replace (INR 3) with 3 by (simpl; ring). change (zero : RR) with 0. pose proof (pos_INR l). set (u := r ^ (2 * l + 2)). clearbody u. rr. field. lra.
    - cbn [ex_I]. apply is_derive_Rscal. refine (is_derive_eq _ _ _ _ (is_derive_Rscal _ r _ _ (d_pow (2 * l + 2) r)) _). replace (pred (2 * l + 2)) with (2 * l + 1)%nat by lia. rewrite plus_INR, mult_INR. change (INR 2) with 2. rr. ring.
    - cbn [ex_O]. apply is_derive_Rscal. unfold ex_io. auto_derive; [exact I|]. rr. field.
    - cbn [ex_O]. apply is_derive_Rscal. auto_derive; [exact I|]. rr. ring.
  Qed.
  Lemma ex_built : built rmin rmax (fun g => 0 < g) ex_rho ex_I ex_O ex_ii ex_io.
  Proof using.
    intros k l m nu g Hnu Hg. pose proof (w0 g l Hg) as W. assert (P2 : forall j, g ^ (2 * l + j) = g ^ l * g ^ l * g ^ j) by (intros j; rewrite pow_add; replace (2 * l)%nat with (l + l)%nat by lia; rewrite pow_add; ring).
    destruct nu as [|[|[|nu]]]; [| | |lia]; cbn [ex_I ex_O node_inner node_outer]; unfold f_inner, f_outer, d2I_inner, d2I_outer; cbn [ex_rho].
    - split; [reflexivity|]. unfold ex_io. rr. f_equal. field.
    - split; [rewrite P2, pow_add; rr; ring|]. rewrite z7 by exact Hg. rr. field. lra.
    - split.
      + rewrite P2, !pow_add, pow_1. rr. field. lra.
      + rewrite z7, zp_nl by exact Hg. rr. field. lra.
  Qed.
End Exact.
Lemma off_pole_mp M R z : off_axis M R z -> near_pole M (tht R z) = false.
Proof.
  intros [HR H]. unfold near_pole. destruct (Nat.ltb_spec 1 M) as [K|K]; [|reflexivity]. destruct H as [H|H]; [lia|]. destruct (Rlt_dec _ _) as [Z|Z]; [exfalso|reflexivity].
  pose proof (sin2_cos2 (tht R z)) as E. unfold Rsqr in E. replace (1 - cos (tht R z) * cos (tht R z)) with (sin (tht R z) ^ 2) in Z by (simpl; lra). rewrite (sin_tht R z HR) in Z. pose proof (rad_pos R z HR) as RP. pose proof (rad_sq R z) as Q. rewrite <- Q in H.
  rewrite Rabs_pos_eq in Z by apply pow2_ge_0. assert (P2 : 0 < rad R z ^ 2) by (apply pow_lt; exact RP). apply (Rmult_lt_compat_r (rad R z ^ 2)) in Z; [|exact P2]. replace ((R / rad R z) ^ 2 * rad R z ^ 2) with (R ^ 2) in Z by (field; lra). lra.
Qed.
Lemma loop_spec L M (P : RR -> nat -> RR) (f : nat -> nat -> nat -> RR) x phi : (forall y, legendre y (P y)) -> loop L M (fun k l m => lpm l m x * az k m phi * f k l m) = multipole_sum L M P f x phi.
Proof.
  intros HP. unfold loop, multipole_sum. rewrite <- sum1_total. apply sum1_ext. intros l. rewrite <- sum1_total. apply sum1_ext. intros m. rewrite lpm_assoc by exact HP. destruct m as [|m]; cbn [Nat.ltb Nat.leb az].
  - change (INR 0) with 0. rewrite Rmult_0_l, sin_0, cos_0. rr. ring.
  - rr. ring.
Qed.
(** a constant density on 1 <= r <= 2 *)
Definition one (k l m : nat) : RR := if Nat.eqb (k + l + m) 0 then 1 else 0.
Lemma loop1 f : loop 1 1 f = f 0%nat 0%nat 0%nat.
Proof. unfold loop. cbn. rr. ring. Qed.
Lemma one_ev : exists Phi, apiEv (Multipole 1 1 1 2 (ex_rho one) (ex_I 1 one) (ex_O 2 one) false 1) = Some Phi /\
  (forall R, 0 < R < 1 -> Phi R 0 0 0 = - 4 * PI * (R ^ 2 / 3 + (4 - R ^ 2) / 2)) /\ Phi 1 0 0 0 = - 4 * PI * (3 / 2) /\ Phi 0 0 0 0 = - 4 * PI * (3 / 2).
Proof.
  assert (L1 : forall x, lpm 0 0 x = 1) by (intros x; unfold lpm; cbn; rr; ring). assert (SQ : forall R, 0 <= R -> sqrt (R ^ 2 + 0 ^ 2) = R) by (intros R HR; replace (R ^ 2 + 0 ^ 2) with (R ^ 2) by ring; apply sqrt_pow2; exact HR).
  eexists. split; [reflexivity|]. cbn [c_ev mp_class Multipole]. unfold scale4, mp_ev, cyl_to_spher. split; [|split].
  - intros R HR. cbv beta iota zeta delta [Multipole].  rewrite SQ by lra. destruct (Req_EM_T R 0); [exfalso; lra|]. rewrite loop1, L1. unfold Rl, eval_R. destruct (Rlt_dec R 1); [|exfalso; lra]. unfold I_inner_ext, I_outer_ext, P_rho0, ex_I, ex_O, ex_io, pref, one. cbn. change (Pos.to_nat 1) with 1%nat. change (Pos.to_nat 2) with 2%nat. rewrite Rmult_0_l, cos_0. rr. field. lra.
  - rewrite SQ by lra. destruct (Req_EM_T 1 0); [exfalso; lra|]. rewrite loop1, L1. unfold Rl, eval_R. destruct (Rlt_dec 1 1); [exfalso; lra|]. destruct (Rle_dec 1 2); [|exfalso; lra]. unfold ex_I, ex_O, ex_ii, ex_io, pref, one. cbn. change (Pos.to_nat 1) with 1%nat. change (Pos.to_nat 2) with 2%nat. rewrite Rmult_0_l, cos_0. rr. field.
  - rewrite SQ by lra. destruct (Req_EM_T 0 0) as [_|Z]; [|contradiction]. rewrite L1. unfold ex_O, ex_io, pref, one. cbn. rr. field.
Qed.
Lemma one_dens : exists rho, apiDens (Multipole 1 1 1 2 (ex_rho one) (ex_I 1 one) (ex_O 2 one) false 1) = Some rho /\
  forall R z phi t, rho R z phi t = if Rlt_dec 2 (sqrt (R ^ 2 + z ^ 2)) then 0 else 1.
Proof.
  assert (L1 : forall x, lpm 0 0 x = 1) by (intros x; unfold lpm; cbn; rr; ring). eexists. split; [reflexivity|]. intros R z phi t. cbn [scale4]. unfold mp_class. unfold scale4. cbn [or0 c_dn]. unfold mp_dens, cyl_to_spher. destruct (Rlt_dec 2 _); [rr; ring|]. rewrite loop1, L1. unfold one. cbn. change (Pos.to_nat 1) with 1%nat. change (Pos.to_nat 2) with 2%nat. rewrite Rmult_0_l, cos_0. destruct (Rlt_dec _ 1); rr; ring.
Qed.
Lemma one_force R : 2 < R -> scale4 1 (mp_Rf 1 1 1 2 (ex_I 1 one) (ex_O 2 one)) R 0 0 0 = - (28 * PI / 3) / R ^ 2.
Proof.
  intros HR. assert (L1 : forall x, lpm 0 0 x = 1) by (intros x; unfold lpm; cbn; rr; ring). unfold scale4. rewrite Rf_g by lra. unfold gRf. rewrite U1_sums. assert (SQ : rad R 0 = R) by (unfold rad; replace (R ^ 2 + 0 ^ 2) with (R ^ 2) by ring; apply sqrt_pow2; lra). rewrite SQ. rewrite !loop1. unfold th0. rewrite L1. unfold dRl, eval_dR. destruct (Rlt_dec R 1); [exfalso; lra|]. destruct (Rle_dec R 2); [exfalso; lra|]. unfold ex_I, ex_ii, pref, one. cbn. change (Pos.to_nat 1) with 1%nat. change (Pos.to_nat 2) with 2%nat. rewrite Rmult_0_l, cos_0. rr. field. lra.
Qed.
