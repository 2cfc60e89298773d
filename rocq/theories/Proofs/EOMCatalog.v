(** Integrals of the motion for the catalogue of potentials, the azimuth of orbits without one, and particular orbits. *)
From Coq Require Import Reals List ZArith Lra Psatz.
From Coquelicot Require Import Coquelicot.
From Verif.Lib Require Import RealAux Atan2.
From Verif.Model Require Import PotAPI PotAxi RectForce SOS EOM.
From Verif.Spec Require Import PotSpec PotApiSpec SmoothSpec Catalog SOSSpec EOMSpec.
From Verif.Proofs Require Import SmoothProofs SmoothCatalog RectProofs SOSProofs EOMProofs EOMIntegrals.
Import ListNotations.
Open Scope R_scope.
Notation RR := RbaseSymbolsImpl.R (only parsing).
#[local] Arguments pow : simpl never.

Lemma catalog_potential D ps : List.Forall (Catalog D) ps -> potential_of D (map comp_pot ps) (pots_value ps).
Proof.
  intros H. split.
  - apply List.Forall_forall. intros c Hc. apply in_map_iff in Hc. destruct Hc as (p & <- & _). exact I.
  - intros t Rf zf pf s dR dz dp HD DR Dz Dp. induction H as [|p ps Hp _ IH].
    + eapply is_derive_eq; [exact (is_derive_cst 0 s)|]. rr. unfold neg, total, add_up, zero. cbn. ring.
    + destruct (catalog_smooth D p Hp) as (Phi & Fphi & ? & ? & ? & ? & ? & ? & Sm).
      assert (Ev : pot_value p = Phi) by (unfold pot_value; rewrite (sm_ev _ _ _ _ _ _ _ _ _ _ Sm); reflexivity).
      assert (Pt : comp_pot p = Static3 (apiRf p v0) (apizf p v0) Fphi) by (unfold comp_pot; rewrite (sm_pt _ _ _ _ _ _ _ _ _ _ Sm); reflexivity).
      pose proof (sm_dPhi _ _ _ _ _ _ _ _ _ _ Sm t Rf zf pf s dR dz dp HD DR Dz Dp) as G.
      apply (is_derive_ext (fun u => Phi (Rf u) (zf u) (pf u) t + pots_value ps (Rf u) (zf u) (pf u) t)).
      { intros u. unfold pots_value, add_up. cbn [map fold_right]. rewrite Ev. reflexivity. }
      eapply is_derive_eq; [exact (is_derive_Rplus _ _ s _ _ G IH)|]. rr. cbn [map]. unfold neg, total, add_up. cbn [map fold_right].
      rewrite !Pt. cbn [comp_R comp_z comp_p]. ring.
Qed.
Lemma catalog_turns D ps : List.Forall (Catalog D) ps -> turns (pots_value ps) /\ List.Forall azimuthal (map comp_pot ps).
Proof.
  induction 1 as [|p ps Hp _ [IH1 IH2]].
  - split; [intros R z phi t; reflexivity|constructor].
  - destruct (catalog_periodic D p Hp) as (A & B & C & E). split.
    + intros R z phi t. unfold pots_value, add_up. cbn [map fold_right]. f_equal; [|apply IH1].
      unfold pot_value. destruct (apiEv p) as [F|]; [apply (A F eq_refl)|reflexivity].
    + cbn [map]. constructor; [|exact IH2]. cbn. split; [exact B|]. split; [exact C|].
      destruct (apiPt p v0) as [F|]; [exact (E F eq_refl)|intros R z phi t; reflexivity].
Qed.

(** ** An azimuth for orbits computed without one *)
Lemma azimuth (L : R) (Rf dR : R -> R) a b t0 phi0 : a < t0 < b -> (forall t, a < t < b -> 0 < Rf t /\ is_derive Rf t (dR t)) ->
  exists phi : R -> R, phi t0 = phi0 /\ forall t, a < t < b -> is_derive phi t (L / Rf t ^ 2).
Proof.
  intros Ht0 H. set (f := fun s : R => L / Rf s ^ 2).
  assert (C : forall t, a < t < b -> continuous f t).
  { intros t Ht. destruct (H t Ht) as [P Dt]. apply (@ex_derive_continuous R_AbsRing R_NormedModule f t).
    eexists. apply (is_derive_ext (fun s => L / (Rf s * Rf s))). { intros s. unfold f. rr. f_equal. ring. }
    apply (d_quot (fun _ => L) (fun s => Rf s * Rf s)); [nra|apply is_derive_cst|apply (is_derive_Rmult Rf Rf); exact Dt]. }
  exists (fun t => phi0 + RInt f t0 t). split; [rewrite RInt_point; unfold zero; cbn; ring|].
  intros t Ht. eapply is_derive_eq. apply is_derive_Rplus; [apply is_derive_cst|].
  - apply (is_derive_RInt f (fun s => RInt f t0 s) t0 t); [|apply C; exact Ht].
    assert (L2 : locally t (fun s => a < s < b)).
    { apply filter_and; [apply (locally_gt a t); lra|apply (locally_lt b t); lra]. }
    revert L2. apply filter_imp. intros s Hs. apply (@RInt_correct R_CompleteNormedModule). apply (@ex_RInt_continuous R_CompleteNormedModule).
    intros u Hu. apply C. destruct (Rle_dec t0 s); [rewrite Rmin_left, Rmax_right in Hu by lra|rewrite Rmin_right, Rmax_left in Hu by lra]; lra.
  - unfold zero, f. cbn. ring.
Qed.

(** ** Particular orbits *)
(** An ellipse in a homogeneous sphere of radius 10. *)
Definition sphere : Pot := Single (1 / 2) (HomogeneousSphere 10).
Definition ellipse (t : RR) : rect := mkRect (cos t) (2 * sin t) (sin t) (- sin t) (2 * cos t) (cos t).
Definition ellipse_row (t : RR) : cyl := rect_to_cyl (ellipse t).
Lemma ellipse_pos t : 0 < q_x (ellipse t) ^ 2 + q_y (ellipse t) ^ 2.
Proof. cbn. pose proof (cs1 t). nra. Qed.
Lemma sphere_in R z phi t : R ^ 2 + z ^ 2 < 100 -> comp_R (comp_pot sphere) 0 0 0 R z phi t = - R /\ comp_z (comp_pot sphere) 0 0 0 R z phi t = - z.
Proof.
  intros H. cbn. unfold scale4, HS_Rf, HS_zf, HS_in. replace (10 ^ 2) with 100 by ring. destruct (Rlt_dec (R ^ 2 + z ^ 2) 100); [|lra]. split; field.
Qed.
Lemma sphere_catalog : Catalog (fun R z _ _ => R ^ 2 + z ^ 2 <> 10 ^ 2) sphere.
Proof. apply cat_single. apply cat_HomogeneousSphere. lra. Qed.
Lemma ellipse_newton t : newton (map comp_pot [sphere]) (fun s => cart_rect (ellipse s)) t.
Proof.
  unfold newton, ellipse, cart_rect. cbn [k_x k_y k_z k_vx k_vy k_vz q_x q_y q_z q_vx q_vy q_vz].
  split; [auto_derive; [exact I|ring]|]. split; [auto_derive; [exact I|ring]|]. split; [auto_derive; [exact I|ring]|].
  exists (- cos t, - (2 * sin t), - sin t). split; [|cbn [fst snd]; split; [auto_derive; [exact I|ring]|split; auto_derive; [exact I|ring|exact I|ring]]].
  intros R phi HR Ex Ey. cbn [k_x k_y k_z k_vx k_vy k_vz] in *. cbv zeta. unfold add_up. cbn [map fold_right].
  assert (B : R ^ 2 + sin t ^ 2 < 100).
  { pose proof (cs1 t) as P. pose proof (cs1 phi) as Q. replace (R ^ 2) with (R ^ 2 * (cos phi * cos phi + sin phi * sin phi)) by (rewrite Q; ring).
    replace (R ^ 2 * (cos phi * cos phi + sin phi * sin phi)) with ((R * cos phi) ^ 2 + (R * sin phi) ^ 2) by ring. rewrite <- Ex, <- Ey. nra. }
  destruct (sphere_in R (sin t) phi t B) as [E1 E2]. cbn [comp_pot comp_R comp_z comp_p] in *. rewrite E1, E2.
  replace (match apiPt sphere v0 with Some f => f | None => fun _ _ _ _ => 0 end R (sin t) phi t) with 0 by reflexivity.
  rewrite Ex, Ey. f_equal; [f_equal|]; field; lra.
Qed.
Lemma ellipse_orbit a b : orbit_rows (map comp_pot [sphere]) ellipse_row a b.
Proof.
  intros t _. destruct (rect_to_cyl_cart (ellipse t) (ellipse_pos t)) as [_ P]. split; [exact P|].
  refine (newton_loc _ _ _ t _ (ellipse_newton t)). exists (mkposreal 1 Rlt_0_1). intros s _. symmetry.
  exact (proj1 (rect_to_cyl_cart (ellipse s) (ellipse_pos s))).
Qed.
Lemma ellipse_stays a b : stays_in (fun R z _ _ => R ^ 2 + z ^ 2 <> 10 ^ 2) ellipse_row a b.
Proof.
  intros t _ phi _ _. cbn. rewrite pow2_sqrt; [|pose proof (cs1 t); nra]. pose proof (cs1 t). nra.
Qed.
Lemma sphere_time_free : time_free (pots_value [sphere]).
Proof. intros R z phi t t'. reflexivity. Qed.
Lemma sphere_central : central (comp_pot sphere).
Proof. intros R z phi t. cbn. unfold scale4, HS_Rf, HS_zf, zero4. split; [|reflexivity]. destruct (HS_in 10 R z); [ring|]. unfold Rdiv. ring. Qed.
Lemma sphere_rotates Om : rotates Om (pots_value [sphere]).
Proof. intros R z phi t t'. reflexivity. Qed.

(** A rotating bar, harmonic in R and z, and a body that corotates with it. *)
Definition bar_Phi (Om : RR) : F4 := fun R z phi t => R ^ 2 / 2 * (3 / 4 + cos (2 * (phi - Om * t)) / 4) + z ^ 2 / 2.
Definition bar_force (Om : RR) : comp3 :=
  Static3 (fun R _ phi t => - R * (3 / 4 + cos (2 * (phi - Om * t)) / 4)) (fun _ z _ _ => - z) (fun R _ phi t => R ^ 2 / 4 * sin (2 * (phi - Om * t))).
Definition corotating (t : RR) : cyl := mkCyl 1 0 1 0 0 t.
Lemma bar_potential Om : potential_of everywhere [bar_force Om] (bar_Phi Om).
Proof.
  split; [repeat constructor|]. intros t Rf zf pf s dR dz dp _ DR Dz Dp. unfold bar_Phi.
  auto_derive. { repeat split; eexists; eassumption. }
  change (fun x : R => Rf x) with Rf. change (fun x : R => zf x) with zf. change (fun x : R => pf x) with pf.
  rewrite (is_derive_unique _ _ _ DR), (is_derive_unique _ _ _ Dz), (is_derive_unique _ _ _ Dp).
  unfold neg, total, add_up. cbn [map fold_right comp_R comp_z comp_p bar_force]. unfold Rminus. field.
Qed.
Lemma trig_turn2 a x : cos (2 * (a + 2 * PI - x)) = cos (2 * (a - x)) /\ sin (2 * (a + 2 * PI - x)) = sin (2 * (a - x)).
Proof. replace (2 * (a + 2 * PI - x)) with (2 * (a - x) + 2 * INR 2 * PI) by (cbn; ring). rewrite cos_period, sin_period. tauto. Qed.
Lemma bar_turns Om : turns (bar_Phi Om).
Proof. intros R z phi t. unfold bar_Phi. rewrite (proj1 (trig_turn2 phi (Om * t))). reflexivity. Qed.
Lemma bar_rotates Om : rotates Om (bar_Phi Om).
Proof. intros R z phi t t'. unfold bar_Phi. do 6 f_equal. ring. Qed.
Lemma corotating_orbit a b : orbit_rows [bar_force 1] corotating a b.
Proof.
  intros t _. split; [cbn; lra|].
  unfold newton, cart_of, corotating. cbn [k_x k_y k_z k_vx k_vy k_vz y_R y_vR y_vT y_z y_vz y_phi].
  split; [auto_derive; [exact I|ring]|]. split; [auto_derive; [exact I|ring]|]. split; [exact (is_derive_cst 0 t)|].
  eexists. split; [refine (acc_at [bar_force 1] t 1 0 1 0 0 t _ Rlt_0_1)|].
  - constructor; [|constructor]. cbn. split; [|split]; intros R z phi s; rewrite ?(proj1 (trig_turn2 phi (1 * s))), ?(proj2 (trig_turn2 phi (1 * s))); reflexivity.
  - unfold acc_cyl, py_force. cbn [fst snd fold_left bar_force pick]. replace (2 * (t - 1 * t)) with 0 by ring. rewrite cos_0, sin_0.
    split; [auto_derive; [exact I|field]|]. split; [auto_derive; [exact I|field]|]. eapply is_derive_eq; [exact (is_derive_cst 0 t)|]. rr. unfold zero. cbn. ring.
Qed.

(** Harmonic, with another frequency for the vertical motion. *)
Definition osc : comp3 := Static3 (fun R _ _ _ => - R) (fun _ z _ _ => - (4 * z)) (fun _ _ _ _ => 0).
Definition osc_Phi : F4 := fun R z _ _ => R ^ 2 / 2 + 2 * z ^ 2.
Definition osc_rect (t : RR) : rect := mkRect (cos t) (2 * sin t) (sin (2 * t)) (- sin t) (2 * cos t) (2 * cos (2 * t)).
Definition osc_row (t : RR) : cyl := rect_to_cyl (osc_rect t).
Lemma osc_potential : potential_of everywhere [osc] osc_Phi.
Proof.
  split; [repeat constructor|]. intros t Rf zf pf s dR dz dp _ DR Dz Dp. unfold osc_Phi.
  auto_derive. { repeat split; eexists; eassumption. }
  change (fun x : R => Rf x) with Rf. change (fun x : R => zf x) with zf.
  rewrite (is_derive_unique _ _ _ DR), (is_derive_unique _ _ _ Dz).
  unfold neg, total, add_up. cbn [map fold_right comp_R comp_z comp_p osc]. field.
Qed.
Lemma osc_orbit a b : orbit_rows [osc] osc_row a b.
Proof.
  intros t _. assert (Q : forall s, 0 < q_x (osc_rect s) ^ 2 + q_y (osc_rect s) ^ 2) by (intros s; cbn; pose proof (cs1 s); nra).
  destruct (rect_to_cyl_cart (osc_rect t) (Q t)) as [_ P]. split; [exact P|].
  apply (newton_loc _ (fun s => cart_rect (osc_rect s))).
  { exists (mkposreal 1 Rlt_0_1). intros s _. symmetry. exact (proj1 (rect_to_cyl_cart (osc_rect s) (Q s))). }
  unfold newton, osc_rect, cart_rect. cbn [k_x k_y k_z k_vx k_vy k_vz q_x q_y q_z q_vx q_vy q_vz].
  split; [auto_derive; [exact I|ring]|]. split; [auto_derive; [exact I|ring]|]. split; [auto_derive; [exact I|ring]|].
  exists (- cos t, - (2 * sin t), - (4 * sin (2 * t))). split; [|cbn [fst snd]; split; [auto_derive; [exact I|ring]|split; auto_derive; [exact I|ring|exact I|ring]]].
  intros R phi HR Ex Ey. cbn [k_x k_y k_z k_vx k_vy k_vz] in *. cbv zeta. unfold add_up. cbn [map fold_right osc comp_R comp_z comp_p].
  rewrite Ex, Ey. f_equal; [f_equal|]; field; lra.
Qed.
Lemma osc_separable : separable osc_Phi.
Proof. exists (fun R => R ^ 2 / 2), (fun z => 2 * z ^ 2). intros R z phi t. reflexivity. Qed.

(** Harmonic, with another frequency along y: static but not axisymmetric. *)
Definition aniso : comp3 :=
  Static3 (fun R _ phi _ => - R * (1 + 3 * sin phi ^ 2)) (fun _ z _ _ => - z) (fun R _ phi _ => - R ^ 2 * (3 * sin phi * cos phi)).
Definition aniso_Phi : F4 := fun R z phi _ => R ^ 2 / 2 * (1 + 3 * sin phi ^ 2) + z ^ 2 / 2.
Definition aniso_rect (t : RR) : rect := mkRect (cos t) (sin (2 * t)) 0 (- sin t) (2 * cos (2 * t)) 0.
Definition aniso_row (t : RR) : cyl := rect_to_cyl (aniso_rect t).
Lemma aniso_potential : potential_of everywhere [aniso] aniso_Phi.
Proof.
  split; [repeat constructor|]. intros t Rf zf pf s dR dz dp _ DR Dz Dp. unfold aniso_Phi.
  auto_derive. { repeat split; eexists; eassumption. }
  change (fun x : R => Rf x) with Rf. change (fun x : R => zf x) with zf. change (fun x : R => pf x) with pf.
  rewrite (is_derive_unique _ _ _ DR), (is_derive_unique _ _ _ Dz), (is_derive_unique _ _ _ Dp).
  unfold neg, total, add_up. cbn [map fold_right comp_R comp_z comp_p aniso]. field.
Qed.
Lemma aniso_turns : turns aniso_Phi.
Proof. intros R z phi t. unfold aniso_Phi. replace (phi + 2 * PI) with (phi + 2 * INR 1 * PI) by (cbn; ring). rewrite sin_period. reflexivity. Qed.
Lemma aniso_orbit : orbit_rows [aniso] aniso_row 0 (PI / 4).
Proof.
  intros t Ht. pose proof PI_RGT_0 as Hpi. assert (C : 0 < cos t) by (apply cos_gt_0; lra).
  assert (Q : forall s, 0 < cos s -> 0 < q_x (aniso_rect s) ^ 2 + q_y (aniso_rect s) ^ 2) by (intros s Hs; cbn; nra).
  destruct (rect_to_cyl_cart (aniso_rect t) (Q t C)) as [_ P]. split; [exact P|].
  apply (newton_loc _ (fun s => cart_rect (aniso_rect s))).
  { assert (L : locally t (fun s => 0 < cos s)) by (apply (d_locally_pos cos t (- sin t)); [auto_derive; [exact I|ring]|exact C]).
    revert L. apply filter_imp. intros s Hs. symmetry. exact (proj1 (rect_to_cyl_cart (aniso_rect s) (Q s Hs))). }
  unfold newton, aniso_rect, cart_rect. cbn [k_x k_y k_z k_vx k_vy k_vz q_x q_y q_z q_vx q_vy q_vz].
  split; [auto_derive; [exact I|ring]|]. split; [auto_derive; [exact I|ring]|]. split; [exact (is_derive_cst 0 t)|].
  exists (- cos t, - (4 * sin (2 * t)), 0). split; [|cbn [fst snd]; split; [auto_derive; [exact I|ring]|split; [auto_derive; [exact I|ring]|exact (is_derive_cst 0 t)]]].
  intros R phi HR Ex Ey. cbn [k_x k_y k_z k_vx k_vy k_vz] in *. cbv zeta. unfold add_up. cbn [map fold_right aniso comp_R comp_z comp_p].
  pose proof (cs1 phi) as S. set (c := cos phi) in *. set (s := sin phi) in *. rewrite Ex, Ey. f_equal; [f_equal|]; [field; lra| |ring].
  transitivity (- (R * s) * (1 + 3 * (c * c + s * s))); [rewrite S; ring|field; lra].
Qed.
Lemma aniso_Lz t : 0 < cos t -> orb_Lz (aniso_row t) = 2 * cos t * cos (2 * t) + sin t * sin (2 * t).
Proof.
  intros C. rewrite <- row_Lz. unfold aniso_row. assert (Q : 0 < q_x (aniso_rect t) ^ 2 + q_y (aniso_rect t) ^ 2) by (cbn; nra).
  rewrite (proj1 (rect_to_cyl_cart _ Q)). unfold k_Lz. cbn. ring.
Qed.
Lemma aniso_drifts : orb_Lz (aniso_row 0) <> orb_Lz (aniso_row (PI / 4)).
Proof.
  pose proof PI_RGT_0 as P. rewrite !aniso_Lz; [|apply cos_gt_0; lra|apply cos_gt_0; lra].
  replace (2 * 0) with 0 by ring. replace (2 * (PI / 4)) with (PI / 2) by field. rewrite cos_0, sin_0, cos_PI2, sin_PI2.
  assert (B : sin (PI / 4) <= 1) by apply SIN_bound. lra.
Qed.

(** A state that passes through the axis: R becomes negative. *)
Definition harm : comp3 := Static3 (fun R _ _ _ => - R) (fun _ z _ _ => - z) (fun _ _ _ _ => 0).
Definition through (t : RR) : eom := mkE (cos t) (- sin t) 0 0 0 0.
Lemma through_solves t : solves_eom (py_eom [harm]) through t.
Proof.
  unfold solves_eom, through, py_eom, py_force. cbn [e_R e_vR e_phi e_w e_z e_vz fold_left harm pick].
  split; [auto_derive; [exact I|ring]|]. split; [auto_derive; [exact I|]; unfold Rdiv; rr; ring|].
  split; [exact (is_derive_cst 0 t)|]. split; [eapply is_derive_eq; [exact (is_derive_cst 0 t)|]; rr; unfold zero; cbn; unfold Rdiv; ring|].
  split; [exact (is_derive_cst 0 t)|]. eapply is_derive_eq; [exact (is_derive_cst 0 t)|]; rr; unfold zero; cbn; ring.
Qed.
Definition harm2 : comp2 := Static2 (fun R _ _ => - R) (fun _ _ _ => 0).
Definition through2 (t : RR) : peom := mkPE (cos t - sin t) (- sin t - cos t) 0 0.
Lemma through2_solves t : solves_peom (py_peom [harm2]) through2 t.
Proof.
  unfold solves_peom, through2, py_peom, force2. cbn [f_R f_vR f_phi f_w fold_left harm2 pick2].
  split; [auto_derive; [exact I|ring]|]. split; [auto_derive; [exact I|]; unfold Rdiv; rr; ring|].
  split; [exact (is_derive_cst 0 t)|]. eapply is_derive_eq; [exact (is_derive_cst 0 t)|]; rr; unfold zero; cbn; unfold Rdiv; ring.
Qed.
