(** C67: multipole expansions tabulated on a radial grid (MultipoleExpansionPotential). *)
From Coq Require Import Reals Lra Lia Arith.
From Coquelicot Require Import Coquelicot.
From Verif.Lib Require Import RealAux Atan2.
From Verif.Model Require Import Coords PotAPI SphHarm Multipole.
From Verif.Spec Require Import PotSpec PotApiSpec ExpansionSpec MultipoleSpec.
From Verif.Proofs Require Import PotLift AxiProofs NonAxiProofs Gegenbauer SphAngular SphCyl SphMass MultiRadial MultiCyl MultiTop.
Open Scope R_scope.
Notation RR := RbaseSymbolsImpl.R (only parsing).
Ltac rr := match goal with |- ?a = ?b => change (@eq RR a b) end.

(** At the grid radii the potential is the multipole expansion of the density within the grid: fi and fo are the splines through the integrands
    s^(l+2) rho_lm and s^(1-l) rho_lm. Above the grid it is that of the mass within the grid. The density is the sum over the density splines,
    held at its value at rmin below the grid and zero above. *)
Theorem C67_expansion : forall L M rmin rmax grid rho Ii Io ii io nax amp (P : RR -> nat -> RR) (fi fo : nat -> nat -> nat -> RR -> RR),
  0 < rmin -> rmin < rmax -> (forall x, legendre x (P x)) -> built rmin rmax grid rho Ii Io ii io -> grid rmax ->
  (forall k l m a b, rmin <= a -> a <= b -> b <= rmax -> is_RInt (fi k l m) a b (ii k l m a b) /\ is_RInt (fo k l m) a b (io k l m a b)) ->
  exists Phi dens, apiEv (Multipole L M rmin rmax rho Ii Io nax amp) = Some Phi /\ apiDens (Multipole L M rmin rmax rho Ii Io nax amp) = Some dens /\
  forall R z phi t, 0 < R -> let r := sqrt (R ^ 2 + z ^ 2) in
    (rmin <= r <= rmax -> grid r -> Phi R z phi t = amp * multipole_sum L M P (fun k l m => multipole_potential l r (RInt (fi k l m) rmin r) (RInt (fo k l m) r rmax)) (z / r) phi) /\
    (rmax < r -> Phi R z phi t = amp * multipole_sum L M P (fun k l m => multipole_potential l r (RInt (fi k l m) rmin rmax) 0) (z / r) phi) /\
    dens R z phi t = amp * (if Rlt_dec rmax r then 0 else multipole_sum L M P (fun k l m => rho k l m 0%nat (Rmax rmin r)) (z / r) phi).
Proof.
  intros L M rmin rmax grid rho Ii Io ii io nax amp P fi fo Hm Hmm HP Hb Gm HI. do 2 eexists. split; [reflexivity|]. split; [reflexivity|]. intros R z phi t HR. cbv zeta. fold (rad R z). pose proof (rad_pos R z HR) as RP.
  cbn [or0 c_dn mp_class c_ev]. unfold scale4, mp_ev, mp_dens, cyl_to_spher. fold (rad R z). fold (tht R z). rewrite (cos_tht R z HR). destruct (Req_EM_T (rad R z) 0) as [Z|_]; [exfalso; lra|]. rewrite <- !loop_spec by exact HP. split; [|split].
  - intros H G. f_equal. apply lp_ext. intros k l m. f_equal. unfold Rl, eval_R. destruct (Rlt_dec _ rmin); [exfalso; lra|]. destruct (Rle_dec _ rmax); [|exfalso; lra]. destruct (Hb k l m 0%nat (rad R z) ltac:(lia) G) as [-> ->]. cbn [node_inner node_outer].
    destruct (HI k l m rmin (rad R z) ltac:(lra) (proj1 H) (proj2 H)) as [A1 A2]. destruct (HI k l m rmin rmax ltac:(lra) ltac:(lra) ltac:(lra)) as [_ A3]. destruct (HI k l m (rad R z) rmax (proj1 H) (proj2 H) ltac:(lra)) as [_ A4].
    rewrite (is_RInt_unique _ _ _ _ A1), (is_RInt_unique _ _ _ _ A4). pose proof (is_RInt_Chasles _ _ _ _ _ _ A2 A4) as A5. pose proof (is_RInt_unique _ _ _ _ A5) as U5. rewrite (is_RInt_unique _ _ _ _ A3) in U5. change (plus (io k l m rmin (rad R z)) (io k l m (rad R z) rmax)) with (io k l m rmin (rad R z) + io k l m (rad R z) rmax) in U5. rewrite U5. unfold multipole_potential, pref. rewrite z1, p1 by exact RP. unfold Rdiv. rr. ring.
  - intros H. f_equal. apply lp_ext. intros k l m. f_equal. unfold Rl, eval_R. destruct (Rlt_dec _ rmin); [exfalso; lra|]. destruct (Rle_dec _ rmax); [exfalso; lra|]. destruct (Hb k l m 0%nat rmax ltac:(lia) Gm) as [-> _]. cbn [node_inner]. destruct (HI k l m rmin rmax ltac:(lra) ltac:(lra) ltac:(lra)) as [A1 _]. rewrite (is_RInt_unique _ _ _ _ A1). unfold multipole_potential, pref. rewrite z1, p1 by exact RP. unfold Rdiv. rr. ring.
  - f_equal. destruct (Rlt_dec rmax _); [reflexivity|]. apply lp_ext. intros k l m. f_equal. f_equal. unfold Rmax. destruct (Rlt_dec (rad R z) rmin); destruct (Rle_dec rmin (rad R z)); try reflexivity; exfalso; lra.
Qed.
Print Assumptions C67_expansion.
(** Densities r^l with any coefficients on any grid of positive radii, with splines that reproduce the integrals *)
Example C67_exact_case : forall rmin rmax c, 0 < rmin -> built rmin rmax (fun g => 0 < g) (ex_rho c) (ex_I rmin c) (ex_O rmax c) (ex_ii c) (ex_io c) /\
  (forall k l m, twice_differentiable rmin rmax (ex_I rmin c k l m) /\ twice_differentiable rmin rmax (ex_O rmax c k l m)) /\
  (forall k l m a b, rmin <= a -> a <= b -> b <= rmax -> is_RInt (fun s => s ^ (l + 2) * ex_rho c k l m 0%nat s) a b (ex_ii c k l m a b) /\ is_RInt (fun s => c k l m * s) a b (ex_io c k l m a b)).
Proof.
  intros rmin rmax c Hm. split; [apply ex_built|]. split; [intros; apply ex_smooth|]. intros k l m a b Ha Hab Hb. split.
  - apply (is_RInt_ext (fun s => c k l m * s ^ (2 * l + 2))); [intros s _; cbn [ex_rho]; replace (2 * l + 2)%nat with (l + (l + 2))%nat by lia; rewrite pow_add; rr; ring|].
    replace (ex_ii c k l m a b) with (minus (c k l m / (2 * INR l + 3) * b ^ (2 * l + 3)) (c k l m / (2 * INR l + 3) * a ^ (2 * l + 3))) by (unfold minus, plus, opp, ex_ii, Rdiv; simpl; ring).
    pose proof (pos_INR l) as PL. apply (is_RInt_derive (V := R_CompleteNormedModule) (fun s => c k l m / (2 * INR l + 3) * s ^ (2 * l + 3))).
    + intros s _. refine (is_derive_eq _ _ _ _ (is_derive_Rscal _ s _ _ (d_pow (2 * l + 3) s)) _). replace (pred (2 * l + 3)) with (2 * l + 2)%nat by lia. rewrite plus_INR, mult_INR. change (INR 2) with 2. replace (INR 3) with 3 by (simpl; ring). set (u := s ^ (2 * l + 2)). clearbody u. rr. field. lra.
    + intros s _. apply (ex_derive_continuous (K := R_AbsRing) (V := R_NormedModule)). eexists. apply is_derive_Rscal, d_pow.
  - replace (ex_io c k l m a b) with (minus (c k l m / 2 * b ^ 2) (c k l m / 2 * a ^ 2)) by (unfold minus, plus, opp, ex_io, Rdiv; simpl; ring).
    apply (is_RInt_derive (V := R_CompleteNormedModule) (fun s => c k l m / 2 * s ^ 2)).
    + intros s _. auto_derive; [exact I|]. rr. field.
    + intros s _. apply (ex_derive_continuous (K := R_AbsRing) (V := R_NormedModule)). auto_derive. exact I.
Qed.
(** The forces and the torque are minus the gradient of the potential, inside and outside the grid. *)
Theorem C67_forces : forall L M rmin rmax rho Ii Io nax amp, 0 < rmin -> rmin < rmax ->
  (forall k l m, twice_differentiable rmin rmax (Ii k l m)) -> (forall k l m, twice_differentiable rmin rmax (Io k l m)) ->
  forces_are_gradient (fun R z _ _ => off_edges rmin rmax R z) (Multipole L M rmin rmax rho Ii Io nax amp).
Proof. intros L M rmin rmax rho Ii Io nax amp Hm Hmm Si So. apply (class_forces _ _ (mp_class L M rmin rmax rho Ii Io nax) (mp_pt L M rmin rmax Ii Io)); [left; reflexivity|]. apply top_forces; assumption. Qed.
Print Assumptions C67_forces.
(** The second derivatives are those of the potential, except within 1e-7 radian of the symmetry axis when there are m > 0 terms. *)
Theorem C67_hessian : forall L M rmin rmax rho Ii Io nax amp, 0 < rmin -> rmin < rmax ->
  (forall k l m, twice_differentiable rmin rmax (Ii k l m)) -> (forall k l m, twice_differentiable rmin rmax (Io k l m)) ->
  hessian_is_correct (fun R z _ _ => off_edges rmin rmax R z /\ off_axis M R z) (Multipole L M rmin rmax rho Ii Io nax amp) /\
  azimuthal_hessian_is_correct (fun R z _ _ => off_edges rmin rmax R z /\ off_axis M R z) (Multipole L M rmin rmax rho Ii Io nax amp).
Proof.
  intros L M rmin rmax rho Ii Io nax amp Hm Hmm Si So. split.
  - eapply (class_hess _ _ (mp_class L M rmin rmax rho Ii Io nax)); [reflexivity..|]. intros R z phi t [H A]. cbn [c_Rf c_zf mp_class]. pose proof (off_pole_mp M R z A) as K. rewrite !cyl_g by (exact (proj1 H) || exact K). exact (pure_hess L M rmin rmax Ii Io Hm Hmm Si So R z phi t H).
  - apply (class_azi _ _ (mp_class L M rmin rmax rho Ii Io nax)); [intros _; cbn; repeat split; discriminate|]. intros R z phi t [H A]. cbn [c_Rf c_zf c_pt c_p2 c_Rp c_pz mp_class or0]. pose proof (off_pole_mp M R z A) as K. rewrite !cyl_g by (exact (proj1 H) || exact K). exact (pure_azi L M rmin rmax Ii Io Hm Hmm Si So R z phi t H).
Qed.
Print Assumptions C67_hessian.
Example C67_hessian_case : off_edges 1 6 3 4 /\ off_axis 5 3 4.
Proof. assert (S : sqrt (3 ^ 2 + 4 ^ 2) = 5) by (replace (3 ^ 2 + 4 ^ 2) with (5 ^ 2) by ring; apply sqrt_pow2; lra). split; [split; [lra|]; rewrite S; split; lra|]. split; [lra|]. right. lra. Qed.
(** The density is the source of the potential below the grid, at every inner grid radius and above the grid. *)
Theorem C67_density : forall L M rmin rmax grid rho Ii Io ii io nax amp, 0 < rmin -> rmin < rmax ->
  (forall k l m, twice_differentiable rmin rmax (Ii k l m)) -> (forall k l m, twice_differentiable rmin rmax (Io k l m)) ->
  built rmin rmax grid rho Ii Io ii io -> grid rmin ->
  density_is_source (fun R z _ _ => at_nodes grid rmin rmax R z) (Multipole L M rmin rmax rho Ii Io nax amp).
Proof. intros L M rmin rmax grid rho Ii Io ii io nax amp Hm Hmm Si So Hb Hg. apply (top_density L M rmin rmax rho Ii Io Hm Hmm Si So grid ii io); assumption. Qed.
Print Assumptions C67_density.
(** With exact splines every radius off the edges is a node: a quadrupole with a sine term *)
Example C67_density_case : let c := fun k l m => if andb (Nat.eqb l 2) (Nat.eqb m 2) then INR k + 1 else 0 in
  density_is_source (fun R z _ _ => at_nodes (fun g => 0 < g) 1 6 R z) (Multipole 3 3 1 6 (ex_rho c) (ex_I 1 c) (ex_O 6 c) true 2) /\ at_nodes (fun g => 0 < g) 1 6 3 4.
Proof.
  intros c. split.
  - apply (C67_density 3 3 1 6 (fun g => 0 < g) (ex_rho c) (ex_I 1 c) (ex_O 6 c) (ex_ii c) (ex_io c)); try lra; try (intros; apply ex_smooth). apply ex_built.
  - split; [lra|]. cbv zeta. replace (3 ^ 2 + 4 ^ 2) with (5 ^ 2) by ring. rewrite sqrt_pow2 by lra. right. left. lra.
Qed.
(** The mass below the grid is left out of the integrals of the splines but used below the grid, so the potential jumps at the first grid radius,
    and the value at the centre is not the limit there: a constant density on 1 <= r <= 2 with exact splines. *)
Theorem C67_continuity_refuted : exists rho Ii Io ii io, built 1 2 (fun g => 0 < g) rho Ii Io ii io /\
  (forall k l m, twice_differentiable 1 2 (Ii k l m) /\ twice_differentiable 1 2 (Io k l m)) /\
  exists Phi, apiEv (Multipole 1 1 1 2 rho Ii Io false 1) = Some Phi /\
    ~ continuous (fun R => Phi R 0 0 0) 1 /\ ~ filterlim (fun R => Phi R 0 0 0) (at_right 0) (locally (Phi 0 0 0 0)).
Proof.
  exists (ex_rho one), (ex_I 1 one), (ex_O 2 one), (ex_ii one), (ex_io one). split; [apply ex_built|]. split; [intros; apply ex_smooth|].
  destruct one_ev as (Phi & E & Lo & E1 & E0). exists Phi. split; [exact E|]. pose proof PI_RGT_0 as P0. set (q := fun x => - 4 * PI * (x ^ 2 / 3 + (4 - x ^ 2) / 2)). assert (C : forall x, continuous q x) by (intros x; apply (ex_derive_continuous (K := R_AbsRing) (V := R_NormedModule)); unfold q; auto_derive; exact I). split.
  - intros H. assert (F1 : filterlim q (at_left 1) (locally (Phi 1 0 0 0))).
    { apply (filterlim_ext_loc (fun R => Phi R 0 0 0)); [|intros S HS; apply filter_le_within; apply H; exact HS]. unfold at_left, within. apply (filter_imp (fun x => 0 < x)); [intros x H0 H1; apply Lo; split; assumption|apply locally_pos; lra]. }
    assert (F2 : filterlim q (at_left 1) (locally (q 1))) by (intros S HS; apply filter_le_within; apply C; exact HS).
    pose proof (filterlim_locally_unique q _ _ F1 F2) as U. rewrite E1 in U. unfold q in U. lra.
  - intros H. assert (F1 : filterlim q (at_right 0) (locally (Phi 0 0 0 0))).
    { apply (filterlim_ext_loc (fun R => Phi R 0 0 0)); [|exact H]. unfold at_right, within. apply (filter_imp (fun x => x < 1)); [intros x H0 H1; apply Lo; split; assumption|apply locally_lt; lra]. }
    assert (F2 : filterlim q (at_right 0) (locally (q 0))) by (intros S HS; apply filter_le_within; apply C; exact HS).
    pose proof (filterlim_locally_unique q _ _ F1 F2) as U. rewrite E0 in U. unfold q in U. lra.
Qed.
Print Assumptions C67_continuity_refuted.
(** For the same reason the force outside is not that of the mass of the density: here a ball of radius 2 and unit density, of mass 32 pi / 3. *)
Theorem C67_enclosed_mass_refuted : exists rho Ii Io ii io, built 1 2 (fun g => 0 < g) rho Ii Io ii io /\
  (forall k l m, twice_differentiable 1 2 (Ii k l m) /\ twice_differentiable 1 2 (Io k l m)) /\
  exists dens, apiDens (Multipole 1 1 1 2 rho Ii Io false 1) = Some dens /\
    (forall R z phi t, dens R z phi t = if Rlt_dec 2 (sqrt (R ^ 2 + z ^ 2)) then 0 else 1) /\
    forall R, 2 < R -> apiRf (Multipole 1 1 1 2 rho Ii Io false 1) (0, 0, 0) R 0 0 0 = - (28 * PI / 3) / R ^ 2 /\ apiRf (Multipole 1 1 1 2 rho Ii Io false 1) (0, 0, 0) R 0 0 0 <> - (32 * PI / 3) / R ^ 2.
Proof.
  exists (ex_rho one), (ex_I 1 one), (ex_O 2 one), (ex_ii one), (ex_io one). split; [apply ex_built|]. split; [intros; apply ex_smooth|]. destruct one_dens as (dens & E & H). exists dens. split; [exact E|]. split; [exact H|]. intros R HR.
  assert (F : apiRf (Multipole 1 1 1 2 (ex_rho one) (ex_I 1 one) (ex_O 2 one) false 1) (0, 0, 0) R 0 0 0 = - (28 * PI / 3) / R ^ 2) by (apply one_force; exact HR). split; [exact F|]. rewrite F. intros Z. pose proof PI_RGT_0 as P0. assert (P2 : 0 < / R ^ 2) by (apply Rinv_0_lt_compat, pow_lt; lra). unfold Rdiv in Z. apply Rmult_eq_reg_r in Z; lra.
Qed.
Print Assumptions C67_enclosed_mass_refuted.
