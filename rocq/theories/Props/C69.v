(** C69: adiabatic contraction of a halo (AdiabaticContractionWrapperPotential). *)
From Coq Require Import Reals Lra Lia.
From Coquelicot Require Import Coquelicot.
From Verif.Lib Require Import RealAux.
From Verif.Model Require Import PotSpecial AdiabContract.
From Verif.Spec Require Import AdiabSpec DensSpec.
From Verif.Proofs Require Import DensMore AdiabProofs.
Open Scope R_scope.
Notation RR := RbaseSymbolsImpl.R (only parsing).
Ltac rr := match goal with |- ?a = ?b => change (@eq RR a b) end.

(** method 'cautun': the mass within each radius (force times radius squared) solves the relation of the paper, and is its only solution. *)
Theorem C69_cautun : forall fp n r mdm mbar fbar, grid n r -> (forall i, (i <= n)%nat -> 0 < mdm i /\ 0 <= mbar i) -> fbar < 1 ->
  fixed_by n (cautun_map mdm mbar fbar) (fp (cautun_map mdm mbar fbar) mdm) ->
  forall i, (i <= n)%nat -> let M := r i ^ 2 * ac_new fp n Cautun r mdm mbar (Some fbar) i in
    0 < M /\ cautun_relation (mdm i) (mbar i) (mdm i / (1 - fbar)) M /\ forall M', 0 < M' -> cautun_relation (mdm i) (mbar i) (mdm i / (1 - fbar)) M' -> M' = M.
Proof.
  intros fp n r mdm mbar fbar G Hm Hf HF i Hi. cbn zeta. unfold ac_new, ac_fbar, cautun. destruct (Hm i Hi) as [H1 H2]. pose proof (r_pos n r G i Hi) as Hr. specialize (HF i Hi). set (M := fp (cautun_map mdm mbar fbar) mdm) in *. unfold cautun_map in HF.
  replace (r i ^ 2 * (M i / mdm i * mdm i / r i ^ 2)) with (M i) by (field; lra). assert (P : 0 < M i) by (rewrite <- HF; apply Rmult_lt_0_compat; [lra|apply exp_pos]). assert (K : cautun_relation (mdm i) (mbar i) (mdm i / (1 - fbar)) (M i)) by (apply caut_rel; assumption).
  split; [exact P|split; [exact K|]]. intros M' P' K'. apply (caut_unique (mdm i) (mbar i) (mdm i / (1 - fbar))); try assumption. apply Rdiv_lt_0_compat; lra.
Qed.
Print Assumptions C69_cautun.
Example C69_cautun_case : let mdm := fun i => INR i + 1 in let mbar := fun i : nat => (INR i + 1) * 0.977 in
  grid 3 mdm /\ (forall i, (i <= 3)%nat -> 0 < mdm i /\ 0 <= mbar i) /\ fixed_by 3 (cautun_map mdm mbar (1 / 2)) (fun i => (INR i + 1) * 1.023).
Proof.
  cbn zeta. assert (P : forall i, 0 < INR i + 1) by (intros i; pose proof (pos_INR i); lra). split; [split; [simpl; lra|intros i j [H _]; apply lt_INR in H; lra]|split; [intros i _; specialize (P i); lra|]].
  intros i _. unfold cautun_map. specialize (P i). replace ((INR i + 1) * 1.023 + (INR i + 1) * 0.977) with (2 * (INR i + 1)) by lra. replace ((INR i + 1) / (1 - 1 / 2) / (2 * (INR i + 1))) with 1 by (field; lra). unfold rpow, Rpower. rewrite ln_1, Rmult_0_r, exp_0. rr. ring.
Qed.
(** Finding: with no baryons and none expected, the 'cautun' halo is still more massive than the one it was given. *)
Theorem C69_cautun_unchanged_refuted : forall fp n r mdm, grid n r -> (forall i, (i <= n)%nat -> 0 < mdm i) ->
  fixed_by n (cautun_map mdm (fun _ => 0) 0) (fp (cautun_map mdm (fun _ => 0) 0) mdm) ->
  forall i, (i <= n)%nat -> mdm i < r i ^ 2 * ac_new fp n Cautun r mdm (fun _ => 0) (Some 0) i.
Proof.
  intros fp n r mdm G Hm HF i Hi. destruct (C69_cautun fp n r mdm (fun _ => 0) 0 G ltac:(intros j Hj; specialize (Hm j Hj); lra) ltac:(lra) HF i Hi) as (P & K & _). apply caut_none; [apply Hm, Hi|exact P|]. replace (mdm i / (1 - 0)) with (mdm i) in K by field. exact K.
Qed.
Print Assumptions C69_cautun_unchanged_refuted.
Example C69_cautun_unchanged_case : fixed_by 3 (cautun_map (fun i => INR i + 1) (fun _ => 0) 0) (fun i => (INR i + 1) * Rpower 1.023 (50 / 23)).
Proof.
  intros i _. unfold cautun_map. pose proof (pos_INR i). set (c := Rpower 1.023 (50 / 23)). assert (C : 0 < c) by apply exp_pos. replace ((INR i + 1) / (1 - 0) / ((INR i + 1) * c + 0)) with (/ c) by (field; lra). unfold c, rpow. rewrite <- Rpower_Ropp, Rpower_mult.
  replace ((INR i + 1) * 1.023 * Rpower 1.023 (- (50 / 23) * -0.54)) with ((INR i + 1) * (Rpower 1.023 1 * Rpower 1.023 (- (50 / 23) * -0.54))) by (rewrite Rpower_1 by lra; ring). rewrite <- Rpower_plus. do 2 f_equal. lra.
Qed.
(** method 'blumenthal': each shell keeps the product of its radius and the mass within, with its own dark mass and the baryons within its new radius;
    the mass within a grid radius is interpolated between the new radii of the shells. *)
Theorem C69_blumenthal : forall fp n r mdm mbar fbar rf, grid n r -> masses n mdm -> (forall i, (i <= n)%nat -> 0 <= mbar i) -> (forall i j, (i <= j <= n)%nat -> mbar i <= mbar j) -> fbar < 1 ->
  rf = fp (blum_map n r mdm mbar fbar) r -> fixed_by n (blum_map n r mdm mbar fbar) rf -> (forall i j, (i < j <= n)%nat -> rf i < rf j) ->
  exists mb mnew, interpolates n r mbar mb /\ interpolates n rf mdm mnew /\ forall i, (i <= n)%nat ->
    invariant (r i) (mdm i / (1 - fbar)) (rf i) (mdm i + mb (rf i)) /\ r i ^ 2 * ac_new fp n Blumenthal r mdm mbar (Some fbar) i = mnew (r i).
Proof.
  intros fp n r mdm mbar fbar rf G [M1 M2] B1 B2 Hf Erf HF HI. pose proof (r_inc n r G) as I. exists (lin r mbar n), (lin rf mdm n). split; [apply lin_interp; exact I|split; [apply lin_interp; exact HI|]]. intros i Hi. split.
  - apply shell_inv; [apply M1, Hi|exact Hf|apply lin_nonneg; assumption|apply (HF i Hi)].
  - unfold ac_new, ac_fbar, blumenthal. rewrite <- Erf. pose proof (r_pos n r G i Hi). rr. field. lra.
Qed.
Print Assumptions C69_blumenthal.
Definition rr2 (i : nat) : RR := INR i + 1.
Definition rf2 (i : nat) : RR := match i with O => 1 / 2 | _ => 8 / 5 end.
Lemma rr2_grid : grid 1 rr2. Proof. split; [unfold rr2; simpl; lra|]. intros i j [H _]. apply lt_INR in H. unfold rr2. lra. Qed.
Lemma rr2_masses : masses 1 rr2.
Proof. split; [intros i _; unfold rr2; pose proof (pos_INR i); lra|]. intros i j [H _]. apply le_INR in H. unfold rr2. lra. Qed.
Example C69_blumenthal_case : grid 1 rr2 /\ masses 1 rr2 /\ fixed_by 1 (blum_map 1 rr2 rr2 (fun _ => 3) (1 / 2)) rf2 /\ (forall i j, (i < j <= 1)%nat -> rf2 i < rf2 j) /\
  forall i, (i <= 1)%nat -> rr2 i * (1 / 2) / (1 - 1 / 2) <= 3.
Proof.
  split; [exact rr2_grid|split; [exact rr2_masses|split; [|split]]].
  - intros i Hi. unfold blum_map. rewrite (lin_const 1 rr2 (fun _ => 3) 3) by reflexivity. destruct i as [|[|i]]; [| |lia]; unfold rr2, rf2; simpl; rr; field.
  - intros i j H. destruct i; [|lia]. destruct j; [lia|]. simpl. lra.
  - intros i Hi. destruct i as [|[|i]]; [| |lia]; unfold rr2; simpl; lra.
Qed.
(** method 'gnedin': the same with the masses at the orbit-averaged radii. *)
Theorem C69_gnedin : forall fp n r mdm mbar Rvir fbar rf, grid n r -> masses n mdm -> (forall i, (i <= n)%nat -> 0 <= mbar i) -> (forall i j, (i <= j <= n)%nat -> mbar i <= mbar j) -> fbar < 1 ->
  rf = fp (gned_map n r mdm mbar Rvir fbar) r -> fixed_by n (gned_map n r mdm mbar Rvir fbar) rf -> (forall i j, (i < j <= n)%nat -> rf i < rf j) ->
  exists md mb mnew, interpolates n r mdm md /\ interpolates n r mbar mb /\ interpolates n rf mdm mnew /\ forall i, (i <= n)%nat ->
    let mm := md (mean_radius Rvir (r i)) in invariant (r i) (mm / (1 - fbar)) (rf i) (mm + mb (mean_radius Rvir (rf i))) /\
    r i ^ 2 * ac_new fp n (Gnedin Rvir) r mdm mbar (Some fbar) i = mnew (r i).
Proof.
  intros fp n r mdm mbar Rvir fbar rf G [M1 M2] B1 B2 Hf Erf HF HI. pose proof (r_inc n r G) as I. exists (lin r mdm n), (lin r mbar n), (lin rf mdm n). split; [apply lin_interp; exact I|split; [apply lin_interp; exact I|split; [apply lin_interp; exact HI|]]]. intros i Hi. split.
  - apply shell_inv; [apply lin_pos; assumption|exact Hf|apply lin_nonneg; assumption|apply (HF i Hi)].
  - unfold ac_new, ac_fbar, gnedin. rewrite <- Erf. pose proof (r_pos n r G i Hi). rr. field. lra.
Qed.
Print Assumptions C69_gnedin.
Example C69_gnedin_case : let rf := fun i => (INR i + 1) / 2 in fixed_by 3 (gned_map 3 rr2 (fun _ => 1) (fun _ => 3) 10 (1 / 2)) rf /\ (forall i j, (i < j <= 3)%nat -> rf i < rf j) /\ masses 3 (fun _ => 1).
Proof.
  cbn zeta. split; [|split].
  - intros i _. unfold gned_map. cbn zeta. rewrite (lin_const 3 rr2 (fun _ => 3) 3), (lin_const 3 rr2 (fun _ => 1) 1) by reflexivity. unfold rr2. rr. field.
  - intros i j [H _]. apply lt_INR in H. lra.
  - split; intros; lra.
Qed.
(** Where the baryons within the new radii are at least the expected fraction, shells move inwards and the mass within every grid radius grows;
    without baryons nothing changes. *)
Theorem C69_contracts : forall fp n r mdm mbar fbar rf, grid n r -> masses n mdm -> (forall i, (i <= n)%nat -> 0 <= mbar i) -> (forall i j, (i <= j <= n)%nat -> mbar i <= mbar j) -> 0 <= fbar < 1 ->
  rf = fp (blum_map n r mdm mbar fbar) r -> fixed_by n (blum_map n r mdm mbar fbar) rf -> (forall i j, (i < j <= n)%nat -> rf i < rf j) ->
  (forall mb, interpolates n r mbar mb -> forall i, (i <= n)%nat -> mdm i * fbar / (1 - fbar) <= mb (rf i)) ->
  forall i, (i <= n)%nat -> rf i <= r i /\ mdm i <= r i ^ 2 * ac_new fp n Blumenthal r mdm mbar (Some fbar) i.
Proof.
  intros fp n r mdm mbar fbar rf G [M1 M2] B1 B2 Hf Erf HF HI HB i Hi. pose proof (r_inc n r G) as I. specialize (HB _ (lin_interp n r mbar I) i Hi). pose proof (r_pos n r G i Hi) as Hr. specialize (M1 i Hi) as Mi.
  assert (L : rf i <= r i). { apply (shell_in (r i) (mdm i) fbar (rf i) (lin r mbar n (rf i))); [exact Hr|exact Mi|lra|apply lin_nonneg; assumption| |apply (HF i Hi)]. replace (mdm i / (1 - fbar)) with (mdm i + mdm i * fbar / (1 - fbar)) by (field; lra). lra. }
  split; [exact L|]. unfold ac_new, ac_fbar, blumenthal. rewrite <- Erf. replace (r i ^ 2 * (lin rf mdm n (r i) / r i ^ 2)) with (lin rf mdm n (r i)) by (field; lra). apply lin_ge; assumption.
Qed.
Print Assumptions C69_contracts.
Theorem C69_no_baryons : forall fp n r mdm m rf, grid n r -> masses n mdm -> (m = Blumenthal /\ rf = fp (blum_map n r mdm (fun _ => 0) 0) r /\ fixed_by n (blum_map n r mdm (fun _ => 0) 0) rf \/
    exists Rvir, m = Gnedin Rvir /\ rf = fp (gned_map n r mdm (fun _ => 0) Rvir 0) r /\ fixed_by n (gned_map n r mdm (fun _ => 0) Rvir 0) rf) ->
  forall i, (i <= n)%nat -> rf i = r i /\ r i ^ 2 * ac_new fp n m r mdm (fun _ => 0) (Some 0) i = mdm i.
Proof.
  intros fp n r mdm m rf G [M1 M2] H. pose proof (r_inc n r G) as I.
  assert (E : forall i, (i <= n)%nat -> rf i = r i).
  { intros i Hi. destruct H as [(_ & _ & HF)|(Rvir & _ & _ & HF)]; rewrite <- (HF i Hi).
    - unfold blum_map. rewrite (lin_const n r (fun _ => 0) 0) by reflexivity. specialize (M1 i Hi). rr. field. lra.
    - unfold gned_map. cbn zeta. rewrite (lin_const n r (fun _ => 0) 0) by reflexivity. assert (0 < lin r mdm n (r_mean Rvir (r i))) by (apply lin_pos; assumption). rr. field. lra. }
  intros i Hi. split; [apply E, Hi|]. pose proof (r_pos n r G i Hi) as Hr. assert (I' : inc n rf) by (intros a b Hab; rewrite !E by lia; apply I; exact Hab).
  assert (K : lin rf mdm n (r i) = mdm i) by (rewrite <- (E i Hi); apply lin_node; assumption).
  destruct H as [(-> & Erf & _)|(Rvir & -> & Erf & _)]; unfold ac_new, ac_fbar, blumenthal, gnedin; rewrite <- Erf, K; rr; field; lra.
Qed.
Print Assumptions C69_no_baryons.
Example C69_no_baryons_case : fixed_by 1 (blum_map 1 rr2 rr2 (fun _ => 0) 0) rr2 /\ fixed_by 1 (gned_map 1 rr2 rr2 (fun _ => 0) 10 0) rr2.
Proof.
  split; intros i Hi.
  - unfold blum_map. rewrite (lin_const 1 rr2 (fun _ => 0) 0) by reflexivity. pose proof (proj1 rr2_masses i Hi). rr. field. lra.
  - unfold gned_map. cbn zeta. rewrite (lin_const 1 rr2 (fun _ => 0) 0) by reflexivity. assert (0 < lin rr2 rr2 1 (r_mean 10 (rr2 i))) by (apply lin_pos; [exact (r_inc 1 rr2 rr2_grid)|exact (proj2 rr2_masses)|exact (proj1 rr2_masses)]). rr. field. lra.
Qed.
(** f_bar=None: the fraction of the mass within the last grid radius, so the last shell stays where it is. *)
Theorem C69_fraction : forall fp n r mdm mbar m, grid n r -> 0 < mdm n -> 0 <= mbar n ->
  ac_new fp n m r mdm mbar None = ac_new fp n m r mdm mbar (Some (mbar n / (mbar n + mdm n))) /\
  forall rf, rf n = r n -> blum_map n r mdm mbar (ac_fbar n mdm mbar None) rf n = r n.
Proof.
  intros fp n r mdm mbar m G H1 H2. split; [reflexivity|]. intros rf E. unfold blum_map, ac_fbar. rewrite E, (lin_node n r mbar n (r_inc n r G)) by lia. rr. field. lra.
Qed.
Print Assumptions C69_fraction.
(** The resulting potential, for any spline S through the table and its antiderivative P: the force at each grid radius is minus the mass over the
    radius squared, and is minus the derivative of the potential everywhere; beyond the grid it is that of the last mass; the potential at the
    centre is the value computed for it, and at infinity it tends to the difference between the integrals of the interpolated force and of the spline. *)
Theorem C69_potential : forall amp n r new (S P : RR -> RR), grid n r -> (forall x, is_derive P x (S x)) -> (forall i, (i <= n)%nat -> S (r i) = ac_rforce n r new (r i)) ->
  (forall i, (i <= n)%nat -> ac_force amp n r S (r i) = - new i) /\
  (forall x, 0 < x -> is_derive (ac_phi amp n r new S P) x (- ac_force amp n r S x)) /\
  (forall x, r n <= x -> ac_force amp n r S x = - (r n ^ 2 * new n) / x ^ 2) /\
  ac_phi amp n r new S P 0 = RInt (ac_rforce n r new) 0 (r n) - new n * r n /\
  at_infinity (ac_phi amp n r new S P) (RInt (ac_rforce n r new) 0 (r n) - (P (r n) - P 0)) /\
  interpolates (Datatypes.S n) (with_centre r) (fun i => - with_centre new i) (ac_rforce n r new).
Proof.
  intros amp n r new S P G HP HN. pose proof (r_pos n r G n ltac:(lia)) as Hn. split; [intros i Hi; apply (tab_force n r new S G HN i amp Hi)|]. split; [|split; [|split; [|split]]].
  - intros x Hx. unfold ac_phi, ac_force. rewrite Rmult_1_l. apply (is_derive_ext (IS_rev S P 0 (r n) (ac_Phi0 n r new))); [intros t; rewrite Rmult_1_l; reflexivity|]. apply (is_force S P 0 (r n) (ac_Phi0 n r new) Hn HP x Hx).
  - intros x Hx. apply (tab_out n r new S G HN x amp Hx).
  - unfold ac_phi, IS_rev. destruct (Rle_dec (r n) 0); [exfalso; lra|]. unfold IS_Phi0, ac_Phi0. rr. ring.
  - unfold at_infinity. set (l := RInt (ac_rforce n r new) 0 (r n) - (P (r n) - P 0)). apply (filterlim_ext_loc (fun x => - (r n ^ 2 * new n) * / x + l)).
    + exists (r n). intros x Hx. rewrite (tab_phi_out n r new S P G HN x amp) by lra. reflexivity.
    + assert (H : is_lim (fun x => - (r n ^ 2 * new n) * / x + l) p_infty (- (r n ^ 2 * new n) * 0 + l)).
      { apply is_lim_plus'; [|apply is_lim_const]. apply (is_lim_scal_l (fun x => / x) (- (r n ^ 2 * new n)) p_infty 0). apply (is_lim_inv (fun x => x) p_infty p_infty (is_lim_id _)). discriminate. }
      replace (- (r n ^ 2 * new n) * 0 + l) with l in H by ring. exact H.
  - pose proof (lin_interp _ _ (with_centre new) (c_inc n r G)) as (A & B & C). unfold ac_rforce. split; [intros t Ht; rewrite A by exact Ht; reflexivity|split; [intros t Ht; rewrite B by exact Ht; reflexivity|]]. intros k t Hk Ht. rewrite (C k t Hk Ht). rr. unfold Rdiv. ring.
Qed.
Print Assumptions C69_potential.
(** a homogeneous contracted halo *)
Example C69_potential_case : grid 1 rr2 /\ (forall x, is_derive (fun x => - x ^ 2 / 2) x (- x)) /\ forall i, (i <= 1)%nat -> - rr2 i = ac_rforce 1 rr2 rr2 (rr2 i).
Proof.
  split; [exact rr2_grid|split; [intros x; auto_derive; [exact I|rr; field]|]]. intros i Hi. rewrite (node_force 1 rr2 rr2 rr2_grid i Hi). reflexivity.
Qed.
(** Finding: the amplitude has no effect. *)
Theorem C69_amplitude_refuted : forall amp n r new (S P : RR -> RR) i, grid n r -> (forall i, (i <= n)%nat -> S (r i) = ac_rforce n r new (r i)) -> (i <= n)%nat -> new i <> 0 -> amp <> 1 ->
  ac_force amp n r S (r i) <> amp * ac_force 1 n r S (r i).
Proof. intros amp n r new S P i G HN Hi H1 H2. rewrite !(tab_force n r new S G HN i _ Hi). intros E. apply H2. apply Rmult_eq_reg_r with (- new i); lra. Qed.
Print Assumptions C69_amplitude_refuted.
Example C69_amplitude_case : 2 * - rr2 1 <> 1 * - rr2 1 /\ ac_force 2 1 rr2 (fun x => - x) (rr2 1) = - rr2 1.
Proof.
  split; [unfold rr2; simpl; lra|]. destruct C69_potential_case as (G & _ & HN). apply (tab_force 1 rr2 rr2 (fun x => - x) G HN 1). lia.
Qed.
