(** Derivatives of the Dehnen bar. *)
From Coq Require Import Reals Lra Psatz List Nsatz.
From Coquelicot Require Import Coquelicot.
From Verif.Lib Require Import RealAux.
From Verif.Model Require Import PotAPI PotBars.
From Verif.Spec Require Import PotSpec PotApiSpec SpiralBarSpec.
From Verif.Proofs Require Import PotLift NonAxiProofs EOMProofs StaeckelProofs SpiralProofs.
Open Scope R_scope.
Notation RR := RbaseSymbolsImpl.R (only parsing).
Ltac rr := match goal with |- ?a = ?b => change (@eq RR a b) end.

(** Choosing between two branches point by point. *)
Lemma either_derive (f g k : RR -> RR) (x l : RR) :
  locally x (fun y => k y = f y \/ k y = g y) ->
  k x = f x -> k x = g x -> is_derive f x l -> is_derive g x l -> is_derive k x l.
Proof.
  intros HL Hf Hg Df Dg. apply is_derive_Reals. apply is_derive_Reals in Df. apply is_derive_Reals in Dg.
  intros eps He. destruct (Df eps He) as [d1 H1]. destruct (Dg eps He) as [d2 H2].
  destruct HL as [d3 H3].
  assert (Hm : 0 < Rmin d1 (Rmin d2 d3)). { repeat apply Rmin_glb_lt; apply cond_pos. }
  exists (mkposreal _ Hm). intros h Hh Hl. cbn in Hl.
  assert (L1 : Rabs h < d1) by (eapply Rlt_le_trans; [exact Hl|apply Rmin_l]).
  assert (L2 : Rabs h < d2). { eapply Rlt_le_trans; [exact Hl|]. eapply Rle_trans; [apply Rmin_r|apply Rmin_l]. }
  assert (L3 : Rabs h < d3). { eapply Rlt_le_trans; [exact Hl|]. eapply Rle_trans; [apply Rmin_r|apply Rmin_r]. }
  assert (B : ball x d3 (x + h)). { unfold ball; cbn. unfold AbsRing_ball, abs, minus, plus, opp; cbn. replace (x + h + - x) with h by ring. exact L3. }
  destruct (H3 _ B) as [E|E].
  - rewrite E, Hf. apply H1; assumption.
  - rewrite E, Hg. apply H2; assumption.
Qed.

Section Bar.
  Variable b : DBar.
  Hypothesis Hrb : 0 < b_rb b.
  Let rb := b_rb b.

  Lemma r_pos R z : 0 < R -> 0 < db_r R z.
  Proof. intros H. apply sqrt_lt_R0. nra. Qed.
  Lemma r_sq R z : db_r R z ^ 2 = R ^ 2 + z ^ 2.
  Proof. unfold db_r. apply pow2_sqrt. nra. Qed.
  Lemma d_rR R z : 0 < R -> is_derive (fun y => db_r y z) R (R / db_r R z).
  Proof.
    intros H. pose proof (r_pos R z H). unfold db_r in *. auto_derive; [nra|]. rr. field. repeat split; lra.
  Qed.
  Lemma d_rz R z : 0 < R -> is_derive (fun y => db_r R y) z (z / db_r R z).
  Proof.
    intros H. pose proof (r_pos R z H). unfold db_r in *. auto_derive; [nra|]. rr. field. repeat split; lra.
  Qed.
  Lemma rbp : 0 < rb. Proof. exact Hrb. Qed.
  (** derivative of an expression in R, z and r, with r^2 = R^2 + z^2 *)
  Ltac prep R z :=
    let H := fresh "HR" in intros H; pose proof (r_pos R z H); pose proof (d_rR R z H); pose proof (d_rz R z H);
    assert (0 < R ^ 2 + z ^ 2) by nra; assert (0 < 1 + z ^ 2 / R ^ 2) by (assert (0 <= z ^ 2 / R ^ 2) by (apply Rdiv_le_0_compat; nra); lra); pose proof rbp;
    refine (is_derive_eq _ _ _ _ _ _); [dv; try lra; try (apply pow_nonzero; lra)|];
    repeat match goal with H : is_derive _ _ _ |- _ => clear H end;
    cbv beta; cbn [INR pred]; pose proof (r_sq R z) as Q;
    generalize dependent (db_r R z); intros r; intros.
  Ltac byR R z := prep R z;
    match goal with r : RR |- _ => replace (z ^ 2) with (r ^ 2 - R ^ 2) by lra end;
    rr; field; repeat split; try lra; try nra.
  Ltac byz R z := prep R z;
    match goal with r : RR |- _ => replace (R ^ 2) with (r ^ 2 - z ^ 2) in * by lra end;
    rr; field; repeat split; try lra; try nra.

  Variable c : RR.
  Lemma ein_R R z : 0 < R -> is_derive (fun y => c * ((db_r y z / rb) ^ 3 - 2) * y ^ 2 / (y ^ 2 + z ^ 2)) R
    (c * ((db_r R z / rb) ^ 3 * R * (3 * R ^ 2 + 2 * z ^ 2) - 4 * R * z ^ 2) / db_r R z ^ 4).
  Proof. byR R z. Qed.
  Lemma ein_z R z : 0 < R -> is_derive (fun y => c * ((db_r R y / rb) ^ 3 - 2) * R ^ 2 / (R ^ 2 + y ^ 2)) z
    (c * ((db_r R z / rb) ^ 3 + 4) * R ^ 2 * z / db_r R z ^ 4).
  Proof. byz R z. Qed.
  Lemma eout_R R z : 0 < R -> is_derive (fun y => c * (rb / db_r y z) ^ 3 * y ^ 2 / (y ^ 2 + z ^ 2)) R
    (- c * (rb / db_r R z) ^ 3 * R / db_r R z ^ 4 * (3 * R ^ 2 - 2 * z ^ 2)).
  Proof. byR R z. Qed.
  Lemma eout_z R z : 0 < R -> is_derive (fun y => c * (rb / db_r R y) ^ 3 * R ^ 2 / (R ^ 2 + y ^ 2)) z
    (- 5 * c * (rb / db_r R z) ^ 3 * R ^ 2 * z / db_r R z ^ 4).
  Proof. byz R z. Qed.
  Lemma Rin_R R z : 0 < R -> is_derive (fun y => c * ((db_r y z / rb) ^ 3 * y * (3 * y ^ 2 + 2 * z ^ 2) - 4 * y * z ^ 2) / db_r y z ^ 4) R
    (c * ((db_r R z / rb) ^ 3 * ((9 * R ^ 2 + 2 * z ^ 2) / db_r R z ^ 4 - R ^ 2 / db_r R z ^ 6 * (3 * R ^ 2 + 2 * z ^ 2))
          + 4 * z ^ 2 / db_r R z ^ 6 * (4 * R ^ 2 - db_r R z ^ 2))).
  Proof. byR R z. Qed.
  Lemma Rin_z R z : 0 < R -> is_derive (fun y => c * ((db_r R y / rb) ^ 3 * R * (3 * R ^ 2 + 2 * y ^ 2) - 4 * R * y ^ 2) / db_r R y ^ 4) z
    (c * R * z / db_r R z ^ 6 * ((db_r R z / rb) ^ 3 * (2 * db_r R z ^ 2 - R ^ 2) + 8 * (db_r R z ^ 2 - 2 * R ^ 2))).
  Proof. byz R z. Qed.
  Lemma Rout_R R z : 0 < R -> is_derive (fun y => c * (rb / db_r y z) ^ 3 * y / db_r y z ^ 4 * (3 * y ^ 2 - 2 * z ^ 2)) R
    (c * (rb / db_r R z) ^ 3 / db_r R z ^ 6 * ((db_r R z ^ 2 - 7 * R ^ 2) * (3 * R ^ 2 - 2 * z ^ 2) + 6 * R ^ 2 * db_r R z ^ 2)).
  Proof. byR R z. Qed.
  Lemma Rout_z R z : 0 < R -> is_derive (fun y => c * (rb / db_r R y) ^ 3 * R / db_r R y ^ 4 * (3 * R ^ 2 - 2 * y ^ 2)) z
    (5 * c * (rb / db_r R z) ^ 3 * R * z / db_r R z ^ 6 * (2 * db_r R z ^ 2 - 7 * R ^ 2)).
  Proof. byz R z. Qed.
  Lemma zin_z R z : 0 < R -> is_derive (fun y => c * ((db_r R y / rb) ^ 3 + 4) * R ^ 2 * y / db_r R y ^ 4) z
    (c * R ^ 2 / db_r R z ^ 6 * ((db_r R z / rb) ^ 3 * (db_r R z ^ 2 - z ^ 2) + 4 * (db_r R z ^ 2 - 4 * z ^ 2))).
  Proof. byz R z. Qed.
  Lemma zin_R R z : 0 < R -> is_derive (fun y => c * ((db_r y z / rb) ^ 3 + 4) * y ^ 2 * z / db_r y z ^ 4) R
    (c * R * z / db_r R z ^ 6 * ((db_r R z / rb) ^ 3 * (2 * db_r R z ^ 2 - R ^ 2) + 8 * (db_r R z ^ 2 - 2 * R ^ 2))).
  Proof. byR R z. Qed.
  Lemma zout_z R z : 0 < R -> is_derive (fun y => 5 * c * (rb / db_r R y) ^ 3 * R ^ 2 * y / db_r R y ^ 4) z
    (5 * c * (rb / db_r R z) ^ 3 * R ^ 2 / db_r R z ^ 6 * (db_r R z ^ 2 - 7 * z ^ 2)).
  Proof. byz R z. Qed.
  Lemma zout_R R z : 0 < R -> is_derive (fun y => 5 * c * (rb / db_r y z) ^ 3 * y ^ 2 * z / db_r y z ^ 4) R
    (5 * c * (rb / db_r R z) ^ 3 * R * z / db_r R z ^ 6 * (2 * db_r R z ^ 2 - 7 * R ^ 2)).
  Proof. byR R z. Qed.
End Bar.

(** A function defined by two branches according to [rho <= a]. *)
Lemma branch_derive (a : RR) (rho f g k : RR -> RR) (x d l : RR) :
  is_derive rho x d ->
  locally x (fun y => (rho y <= a -> k y = f y) /\ (a < rho y -> k y = g y)) ->
  (rho x <= a -> is_derive f x l) -> (a <= rho x -> is_derive g x l) -> (rho x = a -> f x = g x) ->
  is_derive k x l.
Proof.
  intros Dr HL Hf Hg E.
  assert (C : continuous rho x) by (apply (ex_derive_continuous (V := R_NormedModule)); exists d; exact Dr).
  destruct (Rtotal_order (rho x) a) as [H|[H|H]].
  - assert (L : locally x (fun y => rho y < a)) by exact (C _ (locally_lt a (rho x) H)).
    refine (is_derive_loc f k x l _ (filter_and _ _ HL L) _ (Hf (Rlt_le _ _ H))).
    intros y ((A & _) & B). symmetry. apply A. lra.
  - pose proof (locally_singleton _ _ HL) as (A & _).
    apply (either_derive f g); auto.
    + eapply filter_imp; [|exact HL]. intros y (A1 & A2). destruct (Rle_lt_dec (rho y) a); auto.
    + apply A. lra.
    + rewrite A by lra. auto.
    + apply Hf. lra.
    + apply Hg. lra.
  - assert (L : locally x (fun y => a < rho y)) by exact (C _ (locally_gt a (rho x) H)).
    refine (is_derive_loc g k x l _ (filter_and _ _ HL L) _ (Hg (Rlt_le _ _ H))).
    intros y ((_ & A) & B). symmetry. apply A. lra.
Qed.

Section BarAll.
  Variable b : DBar.
  Hypothesis Hrb : 0 < b_rb b.
  Lemma in_true R z : db_r R z <= b_rb b -> db_in b R z = true.
  Proof. unfold db_in. destruct (Rle_dec _ _); auto; lra. Qed.
  Lemma in_false R z : b_rb b < db_r R z -> db_in b R z = false.
  Proof. unfold db_in. destruct (Rle_dec _ _); auto; lra. Qed.
  Lemma ev_off R z phi t : 0 < R -> db_ev b R z phi t =
    if db_in b R z then b_af b * db_smooth b t * db_cos b phi t * ((db_r R z / b_rb b) ^ 3 - 2) * R ^ 2 / (R ^ 2 + z ^ 2)
    else - b_af b * db_smooth b t * db_cos b phi t * (b_rb b / db_r R z) ^ 3 * R ^ 2 / (R ^ 2 + z ^ 2).
  Proof.
    intros HR. unfold db_ev. cbv zeta. pose proof (r_pos R z HR). destruct (Req_EM_T _ 0); [lra|]. destruct (db_in b R z); auto.
    assert (0 < R ^ 2 + z ^ 2) by nra. rr. field. repeat split; try lra.
  Qed.

  Lemma bar_R R z phi t : 0 < R -> is_derive (fun x => db_ev b x z phi t) R (- db_Rf b R z phi t).
  Proof.
    intros HR. set (W := b_af b * db_smooth b t * db_cos b phi t).
    apply (branch_derive (b_rb b) (fun x => db_r x z)
      (fun y => W * ((db_r y z / b_rb b) ^ 3 - 2) * y ^ 2 / (y ^ 2 + z ^ 2))
      (fun y => (- W) * (b_rb b / db_r y z) ^ 3 * y ^ 2 / (y ^ 2 + z ^ 2)) _ R (R / db_r R z)).
    - apply d_rR. exact HR.
    - eapply filter_imp; [|apply locally_pos; exact HR]. intros y Hy. split; intros H.
      + rewrite (ev_off _ _ _ _ Hy), (in_true _ _ H). reflexivity.
      + rewrite (ev_off _ _ _ _ Hy), (in_false _ _ H). unfold W. rr. field. pose proof (r_pos y z Hy). repeat split; nra.
    - intros H. refine (is_derive_eq _ _ _ _ (ein_R b Hrb W R z HR) _). unfold db_Rf. cbv zeta. rewrite (in_true _ _ H).
      unfold W. rr. field. pose proof (r_pos R z HR). split; lra.
    - intros H. refine (is_derive_eq _ _ _ _ (eout_R b Hrb (- W) R z HR) _). unfold db_Rf. cbv zeta.
      pose proof (r_pos R z HR) as Hr. pose proof (r_sq R z) as Q. destruct (Req_EM_T (db_r R z) (b_rb b)) as [E|E].
      + rewrite in_true by lra. rewrite E in *. unfold W. replace (z ^ 2) with (b_rb b ^ 2 - R ^ 2) by lra. rr. field. repeat split; lra.
      + rewrite in_false by lra. unfold W. rr. field. repeat split; lra.
    - intros E. rewrite E. assert (0 < R ^ 2 + z ^ 2) by nra. rr. field. repeat split; lra.
  Qed.
  Lemma bar_z R z phi t : 0 < R -> is_derive (fun x => db_ev b R x phi t) z (- db_zf b R z phi t).
  Proof.
    intros HR. set (W := b_af b * db_smooth b t * db_cos b phi t).
    apply (branch_derive (b_rb b) (fun x => db_r R x)
      (fun y => W * ((db_r R y / b_rb b) ^ 3 - 2) * R ^ 2 / (R ^ 2 + y ^ 2))
      (fun y => (- W) * (b_rb b / db_r R y) ^ 3 * R ^ 2 / (R ^ 2 + y ^ 2)) _ z (z / db_r R z)).
    - apply d_rz. exact HR.
    - apply filter_forall. intros y. split; intros H.
      + rewrite (ev_off _ _ _ _ HR), (in_true _ _ H). reflexivity.
      + rewrite (ev_off _ _ _ _ HR), (in_false _ _ H). unfold W. rr. field. pose proof (r_pos R y HR). repeat split; nra.
    - intros H. refine (is_derive_eq _ _ _ _ (ein_z b Hrb W R z HR) _). unfold db_zf. cbv zeta. rewrite (in_true _ _ H).
      unfold W. rr. field. pose proof (r_pos R z HR). split; lra.
    - intros H. refine (is_derive_eq _ _ _ _ (eout_z b Hrb (- W) R z HR) _). unfold db_zf. cbv zeta.
      pose proof (r_pos R z HR) as Hr. pose proof (r_sq R z) as Q. destruct (Req_EM_T (db_r R z) (b_rb b)) as [E|E].
      + rewrite in_true by lra. rewrite E in *. unfold W. rr. field. repeat split; lra.
      + rewrite in_false by lra. unfold W. rr. field. repeat split; lra.
    - intros E. rewrite E. assert (0 < R ^ 2 + z ^ 2) by nra. rr. field. repeat split; lra.
  Qed.
  Lemma d_dbcos phi t : is_derive (fun y => db_cos b y t) phi (- 2 * db_sin b phi t).
  Proof. unfold db_cos, db_sin. refine (is_derive_eq _ _ _ _ _ _); [dv|]. cbv beta. rr. ring. Qed.
  Lemma d_dbsin phi t : is_derive (fun y => db_sin b y t) phi (2 * db_cos b phi t).
  Proof. unfold db_cos, db_sin. refine (is_derive_eq _ _ _ _ _ _); [dv|]. cbv beta. rr. ring. Qed.
  Lemma bar_phi R z phi t : 0 < R -> is_derive (fun x => db_ev b R z x t) phi (- db_pt b R z phi t).
  Proof.
    intros HR. apply is_derive_ext with (f := fun phi => if db_in b R z then b_af b * db_smooth b t * db_cos b phi t * ((db_r R z / b_rb b) ^ 3 - 2) * R ^ 2 / (R ^ 2 + z ^ 2)
    else - b_af b * db_smooth b t * db_cos b phi t * (b_rb b / db_r R z) ^ 3 * R ^ 2 / (R ^ 2 + z ^ 2)).
    { intros x. symmetry. apply ev_off. exact HR. }
    unfold db_pt. cbv zeta. pose proof (d_dbcos phi t). pose proof (r_pos R z HR). assert (0 < R ^ 2 + z ^ 2) by nra.
    destruct (db_in b R z); (refine (is_derive_eq _ _ _ _ _ _); [dv; try lra|cbv beta; rr; field; repeat split; try lra]).
  Qed.

  (** Off the sphere r = rb. *)
  Notation off_sphere := (off_sphere (b_rb b)).
  Lemma off_ne R z phi t : off_sphere R z phi t -> db_r R z <> b_rb b.
  Proof. intros (_ & H) E. apply H. rewrite <- r_sq, E. reflexivity. Qed.
  Lemma off_open : slice_open off_sphere.
  Proof.
    intros R z phi t (HR & H). repeat split.
    - apply filter_and; [apply locally_pos; exact HR|].
      assert (C : continuous (fun x => x ^ 2 + z ^ 2) R) by (apply (ex_derive_continuous (V := R_NormedModule)); auto_derive; auto).
      exact (C _ (open_neq (b_rb b ^ 2) _ H)).
    - assert (C : continuous (fun x => R ^ 2 + x ^ 2) z) by (apply (ex_derive_continuous (V := R_NormedModule)); auto_derive; auto).
      eapply filter_imp; [|exact (C _ (open_neq (b_rb b ^ 2) _ H))]. intros y Hy. split; auto.
    - apply filter_forall. intros y. split; auto.
  Qed.
  Lemma loc_branch (rho f g k : RR -> RR) (x d l : RR) : is_derive rho x d -> rho x <> b_rb b ->
    locally x (fun y => (rho y <= b_rb b -> k y = f y) /\ (b_rb b < rho y -> k y = g y)) ->
    (rho x < b_rb b -> is_derive f x l) -> (b_rb b < rho x -> is_derive g x l) -> is_derive k x l.
  Proof.
    intros Dr Hne HL Hf Hg. apply (branch_derive (b_rb b) rho f g k x d l); auto; intros; try lra.
    apply Hf. lra. apply Hg. lra.
  Qed.
  Ltac two W R z HR Hne D lin lout :=
    eapply (loc_branch _ _ _ _ _ _ _ D Hne);
    [ apply filter_forall; let y := fresh "y" in intros y; split;
      (let H := fresh in intros H; first [rewrite (in_true _ _ H)|rewrite (in_false _ _ H)]; cbv iota; reflexivity)
    | let H := fresh in intros H; rewrite (in_true R z) by lra;
      refine (is_derive_eq _ _ _ _ (is_derive_ext _ _ _ _ _ (lin)) _); [intros ?; cbv beta; unfold W, Rdiv; rr; ring|rr; unfold W, Rdiv; ring]
    | let H := fresh in intros H; rewrite (in_false R z) by lra;
      refine (is_derive_eq _ _ _ _ (is_derive_ext _ _ _ _ _ (lout)) _); [intros ?; cbv beta; unfold W, Rdiv; rr; ring|rr; unfold W, Rdiv; ring] ].

  Lemma bar_mer : is_meridional_hessian off_sphere (db_Rf b) (db_zf b) (db_R2 b) (db_z2 b) (db_Rz b).
  Proof.
    intros R z phi t HD. pose proof (off_ne _ _ _ _ HD) as Hne. destruct HD as (HR & _).
    set (W := b_af b * db_smooth b t * db_cos b phi t).
    pose proof (d_rR R z HR) as D1. pose proof (d_rz R z HR) as D2.
    unfold db_Rf, db_zf, db_R2, db_z2, db_Rz. cbv zeta. splits.
    - two W R z HR Hne D1 (Rin_R b Hrb W R z HR) (Rout_R b Hrb W R z HR).
    - two W R z HR Hne D2 (zin_z b Hrb W R z HR) (zout_z b Hrb W R z HR).
    - two W R z HR Hne D2 (Rin_z b Hrb W R z HR) (Rout_z b Hrb W R z HR).
    - two W R z HR Hne D1 (zin_R b Hrb W R z HR) (zout_R b Hrb W R z HR).
  Qed.
  Lemma bar_azi : is_azimuthal_hessian off_sphere (db_Rf b) (db_zf b) (db_pt b) (db_p2 b) (db_Rp b) (db_pz b).
  Proof.
    intros R z phi t HD. pose proof (off_ne _ _ _ _ HD) as Hne. destruct HD as (HR & _).
    set (W := - 2 * b_af b * db_smooth b t * db_sin b phi t).
    pose proof (d_rR R z HR) as D1. pose proof (d_rz R z HR) as D2. pose proof (d_dbcos phi t). pose proof (d_dbsin phi t).
    pose proof (r_sq R z) as Q. pose proof (r_pos R z HR). assert (0 < R ^ 2 + z ^ 2) by nra.
    assert (db_r R z ^ 2 <> 0) by (apply pow_nonzero; lra). assert (db_r R z ^ 4 <> 0) by (apply pow_nonzero; lra).
    unfold db_Rf, db_zf, db_pt, db_p2, db_Rp, db_pz. cbv zeta. splits.
    - rewrite !Q. destruct (db_in b R z); (refine (is_derive_eq _ _ _ _ _ _); [dv; try lra|cbv beta; rr; field; repeat split; try lra]).
    - destruct (db_in b R z); (refine (is_derive_eq _ _ _ _ _ _); [dv; try lra|cbv beta; rr; field; repeat split; try lra]).
    - two W R z HR Hne D1 (ein_R b Hrb W R z HR) (eout_R b Hrb (- W) R z HR).
    - destruct (db_in b R z); (refine (is_derive_eq _ _ _ _ _ _); [dv; try lra|cbv beta; rr; field; repeat split; try lra]).
    - two W R z HR Hne D2 (ein_z b Hrb W R z HR) (eout_z b Hrb (- W) R z HR).
  Qed.
End BarAll.
