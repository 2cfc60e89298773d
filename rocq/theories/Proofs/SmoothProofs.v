(** Total differentiability of the catalogued potentials and of their combinations. *)
From Coq Require Import Reals Lra Psatz List Bool.
From Coquelicot Require Import Coquelicot.
From Verif.Lib Require Import RealAux.
From Verif.Model Require Import PotAPI PotAxi PotNonAxi.
From Verif.Spec Require Import PotSpec PotApiSpec Catalog SmoothSpec.
From Verif.Proofs Require Import AxiProofs AxiProofs2 AxiProofs3 AxiProofs4 PotLift NonAxiProofs CatalogProofs.
Import ListNotations.
Open Scope R_scope.
Notation RR := RbaseSymbolsImpl.R (only parsing).

(** A function of three variables is differentiable at a point: the chain rule holds along
    every differentiable path, with some coefficients. *)
Definition Diffble (f : RR -> RR -> RR -> RR) (R z phi : RR) : Prop :=
  exists a b c, forall (r h g : RR -> RR) (s dr dh dg : RR),
    r s = R -> h s = z -> g s = phi -> is_derive r s dr -> is_derive h s dh -> is_derive g s dg ->
    is_derive (fun u => f (r u) (h u) (g u)) s (a * dr + b * dh + c * dg).

Lemma db_const k R z phi : Diffble (fun _ _ _ => k) R z phi.
Proof. exists 0, 0, 0. intros. eapply is_derive_eq. apply is_derive_cst. toR; ring. Qed.
Lemma db_R R z phi : Diffble (fun r _ _ => r) R z phi.
Proof. exists 1, 0, 0. intros. eapply is_derive_eq. eassumption. toR; ring. Qed.
Lemma db_z R z phi : Diffble (fun _ h _ => h) R z phi.
Proof. exists 0, 1, 0. intros. eapply is_derive_eq. eassumption. toR; ring. Qed.
Lemma db_p R z phi : Diffble (fun _ _ g => g) R z phi.
Proof. exists 0, 0, 1. intros. eapply is_derive_eq. eassumption. toR; ring. Qed.
Lemma db_plus f g R z phi : Diffble f R z phi -> Diffble g R z phi -> Diffble (fun r h p => f r h p + g r h p) R z phi.
Proof.
  intros (a & b & c & H) (a' & b' & c' & H'). exists (a + a'), (b + b'), (c + c'). intros.
  eapply is_derive_eq. apply is_derive_Rplus; [apply H|apply H']; eassumption. toR; ring.
Qed.
Lemma db_mult f g R z phi : Diffble f R z phi -> Diffble g R z phi -> Diffble (fun r h p => f r h p * g r h p) R z phi.
Proof.
  intros (a & b & c & H) (a' & b' & c' & H').
  exists (a * g R z phi + f R z phi * a'), (b * g R z phi + f R z phi * b'), (c * g R z phi + f R z phi * c').
  intros r h p s dr dh dg E1 E2 E3 D1 D2 D3.
  eapply is_derive_eq.
  apply (is_derive_Rmult (fun u => f (r u) (h u) (p u)) (fun u => g (r u) (h u) (p u)) s (a * dr + b * dh + c * dg) (a' * dr + b' * dh + c' * dg)); [apply H|apply H']; auto.
  cbv beta. rewrite E1, E2, E3. toR; ring.
Qed.
Lemma db_scal k f R z phi : Diffble f R z phi -> Diffble (fun r h p => k * f r h p) R z phi.
Proof. intros H. apply db_mult; auto. apply db_const. Qed.
Lemma db_comp (k : RR -> RR) f R z phi : ex_derive k (f R z phi) -> Diffble f R z phi -> Diffble (fun r h p => k (f r h p)) R z phi.
Proof.
  intros [k' Hk] (a & b & c & H). exists (k' * a), (k' * b), (k' * c). intros r h p s dr dh dg E1 E2 E3 D1 D2 D3.
  eapply is_derive_eq.
  apply (is_derive_Rchain k (fun u => f (r u) (h u) (p u)) s k' (a * dr + b * dh + c * dg)).
  rewrite E1, E2, E3; exact Hk. apply H; auto. toR; ring.
Qed.
Lemma db_ext f g R z phi : (forall r h p, f r h p = g r h p) -> Diffble f R z phi -> Diffble g R z phi.
Proof.
  intros E (a & b & c & H). exists a, b, c. intros. eapply is_derive_ext; [|eapply H; eassumption]. intros; apply E.
Qed.
(** agreement only near the point, in the sense that every path stays where they agree *)
Definition near (R z phi : RR) (P : RR -> RR -> RR -> Prop) : Prop :=
  forall r h g : RR -> RR, forall s, r s = R -> h s = z -> g s = phi ->
    ex_derive r s -> ex_derive h s -> ex_derive g s -> locally s (fun u => P (r u) (h u) (g u)).
Lemma db_near f g R z phi (P : RR -> RR -> RR -> Prop) : near R z phi P -> (forall r h p, P r h p -> f r h p = g r h p) ->
  Diffble f R z phi -> Diffble g R z phi.
Proof.
  intros N E (a & b & c & H). exists a, b, c. intros r h p s dr dh dg E1 E2 E3 D1 D2 D3.
  eapply is_derive_ext_loc; [|eapply H; eassumption].
  eapply filter_imp; [|apply (N r h p s E1 E2 E3)].
  - intros u Hu. apply E; exact Hu.
  - eexists; eauto.
  - eexists; eauto.
  - eexists; eauto.
Qed.
Lemma near_cont f R z phi (P : RR -> Prop) : Diffble f R z phi -> locally (f R z phi) P -> near R z phi (fun r h p => P (f r h p)).
Proof.
  intros (a & b & c & H) HP r h g s E1 E2 E3 [dr D1] [dh D2] [dg D3].
  assert (C : continuous (fun u => f (r u) (h u) (g u)) s).
  { apply (ex_derive_continuous (fun u => f (r u) (h u) (g u))). eexists. apply (H r h g s dr dh dg); auto. }
  apply (C P). rewrite E1, E2, E3. exact HP.
Qed.
Lemma near_imp R z phi (P Q : RR -> RR -> RR -> Prop) : (forall r h p, P r h p -> Q r h p) -> near R z phi P -> near R z phi Q.
Proof. intros I H r h g s E1 E2 E3 D1 D2 D3. eapply filter_imp; [|apply (H r h g s); auto]. intros u; apply I. Qed.
Lemma near_and R z phi (P Q : RR -> RR -> RR -> Prop) : near R z phi P -> near R z phi Q -> near R z phi (fun r h p => P r h p /\ Q r h p).
Proof. intros H1 H2 r h g s E1 E2 E3 D1 D2 D3. apply filter_and; [apply H1|apply H2]; auto. Qed.
Lemma db_opp f R z phi : Diffble f R z phi -> Diffble (fun r h p => - f r h p) R z phi.
Proof. intros H. apply (db_comp Ropp); auto. auto_derive; auto. Qed.
Lemma db_minus f g R z phi : Diffble f R z phi -> Diffble g R z phi -> Diffble (fun r h p => f r h p - g r h p) R z phi.
Proof. intros. apply db_plus; auto. apply db_opp; auto. Qed.
Lemma db_inv f R z phi : f R z phi <> 0 -> Diffble f R z phi -> Diffble (fun r h p => / f r h p) R z phi.
Proof. intros H0 H. apply (db_comp Rinv); auto. auto_derive; auto. Qed.
Lemma db_div f g R z phi : g R z phi <> 0 -> Diffble f R z phi -> Diffble g R z phi -> Diffble (fun r h p => f r h p / g r h p) R z phi.
Proof. intros. apply db_mult; auto. apply db_inv; auto. Qed.
Lemma db_pow f n R z phi : Diffble f R z phi -> Diffble (fun r h p => f r h p ^ n) R z phi.
Proof. intros H. apply (db_comp (fun x => x ^ n)); auto. auto_derive; auto. Qed.
Lemma db_sqrt f R z phi : 0 < f R z phi -> Diffble f R z phi -> Diffble (fun r h p => sqrt (f r h p)) R z phi.
Proof. intros H0 H. apply (db_comp sqrt); auto. auto_derive; auto. Qed.
Lemma db_ln f R z phi : 0 < f R z phi -> Diffble f R z phi -> Diffble (fun r h p => ln (f r h p)) R z phi.
Proof. intros H0 H. apply (db_comp ln); auto. auto_derive; auto. Qed.
Lemma db_rpow f e R z phi : 0 < f R z phi -> Diffble f R z phi -> Diffble (fun r h p => rpow (f r h p) e) R z phi.
Proof.
  intros H0 H. apply (db_comp (fun x => rpow x e)); auto. unfold rpow, Rpower. auto_derive; auto.
Qed.
Lemma db_cos f R z phi : Diffble f R z phi -> Diffble (fun r h p => cos (f r h p)) R z phi.
Proof. intros H. apply (db_comp cos); auto. auto_derive; auto. Qed.
Lemma db_sin f R z phi : Diffble f R z phi -> Diffble (fun r h p => sin (f r h p)) R z phi.
Proof. intros H. apply (db_comp sin); auto. auto_derive; auto. Qed.

Ltac db := repeat match goal with
  | |- Diffble (fun _ _ _ => ?k) _ _ _ => apply db_const
  | |- Diffble (fun r _ _ => r) _ _ _ => apply db_R
  | |- Diffble (fun _ h _ => h) _ _ _ => apply db_z
  | |- Diffble (fun _ _ p => p) _ _ _ => apply db_p
  | |- Diffble (fun r h p => @?f r h p + @?g r h p) _ _ _ => apply (db_plus f g)
  | |- Diffble (fun r h p => @?f r h p - @?g r h p) _ _ _ => apply (db_minus f g)
  | |- Diffble (fun r h p => @?f r h p * @?g r h p) _ _ _ => apply (db_mult f g)
  | |- Diffble (fun r h p => @?f r h p / @?g r h p) _ _ _ => apply (db_div f g)
  | |- Diffble (fun r h p => - @?f r h p) _ _ _ => apply (db_opp f)
  | |- Diffble (fun r h p => / @?f r h p) _ _ _ => apply (db_inv f)
  | |- Diffble (fun r h p => @?f r h p ^ ?n) _ _ _ => apply (db_pow f n)
  | |- Diffble (fun r h p => sqrt (@?f r h p)) _ _ _ => apply (db_sqrt f)
  | |- Diffble (fun r h p => ln (@?f r h p)) _ _ _ => apply (db_ln f)
  | |- Diffble (fun r h p => rpow (@?f r h p) ?e) _ _ _ => apply (db_rpow f e)
  | |- Diffble (fun r h p => cos (@?f r h p)) _ _ _ => apply (db_cos f)
  | |- Diffble (fun r h p => sin (@?f r h p)) _ _ _ => apply (db_sin f)
  end.

(** The coefficients are the partial derivatives. *)
Lemma dw_from_partials (D : Dom) (F FR Fz Fp : Fun4) :
  (forall R z phi t, D R z phi t -> Diffble (fun r h p => F r h p t) R z phi) ->
  (forall R z phi t, D R z phi t -> is_derive (fun x => F x z phi t) R (FR R z phi t)) ->
  (forall R z phi t, D R z phi t -> is_derive (fun x => F R x phi t) z (Fz R z phi t)) ->
  (forall R z phi t, D R z phi t -> is_derive (fun x => F R z x t) phi (Fp R z phi t)) ->
  differentiable_with D F FR Fz Fp.
Proof.
  intros Hd HR Hz Hp t r h p s dR dz dphi HD D1 D2 D3.
  destruct (Hd _ _ _ _ HD) as (a & b & c & H).
  assert (id : forall x : RR, is_derive (fun y : RR => y) x 1) by (intros; apply (is_derive_id x)).
  assert (Ea : a = FR (r s) (h s) (p s) t).
  { pose proof (H (fun x => x) (fun _ => h s) (fun _ => p s) (r s) 1 0 0 eq_refl eq_refl eq_refl (id _) (is_derive_cst _ _) (is_derive_cst _ _)) as H1.
    apply is_derive_unique in H1. rewrite (is_derive_unique _ _ _ (HR _ _ _ _ HD)) in H1. toR. rewrite H1; ring. }
  assert (Eb : b = Fz (r s) (h s) (p s) t).
  { pose proof (H (fun _ => r s) (fun x => x) (fun _ => p s) (h s) 0 1 0 eq_refl eq_refl eq_refl (is_derive_cst _ _) (id _) (is_derive_cst _ _)) as H1.
    apply is_derive_unique in H1. rewrite (is_derive_unique _ _ _ (Hz _ _ _ _ HD)) in H1. toR. rewrite H1; ring. }
  assert (Ec : c = Fp (r s) (h s) (p s) t).
  { pose proof (H (fun _ => r s) (fun _ => h s) (fun x => x) (p s) 0 0 1 eq_refl eq_refl eq_refl (is_derive_cst _ _) (is_derive_cst _ _) (id _)) as H1.
    apply is_derive_unique in H1. rewrite (is_derive_unique _ _ _ (Hp _ _ _ _ HD)) in H1. toR. rewrite H1; ring. }
  subst. apply H; auto.
Qed.
Lemma dw_diffble (D : Dom) F FR Fz Fp R z phi t :
  differentiable_with D F FR Fz Fp -> D R z phi t -> Diffble (fun r h p => F r h p t) R z phi.
Proof.
  intros H HD. exists (FR R z phi t), (Fz R z phi t), (Fp R z phi t). intros; subst. apply H; auto.
Qed.
Lemma dw_dR (D : Dom) F FR Fz Fp R z phi t : differentiable_with D F FR Fz Fp -> D R z phi t ->
  is_derive (fun x => F x z phi t) R (FR R z phi t).
Proof.
  intros H HD. eapply is_derive_eq.
  apply (H t (fun x => x) (fun _ => z) (fun _ => phi) R 1 0 0 HD); try apply is_derive_cst. apply (is_derive_id R). toR; ring.
Qed.
Lemma dw_dz (D : Dom) F FR Fz Fp R z phi t : differentiable_with D F FR Fz Fp -> D R z phi t ->
  is_derive (fun x => F R x phi t) z (Fz R z phi t).
Proof.
  intros H HD. eapply is_derive_eq.
  apply (H t (fun _ => R) (fun x => x) (fun _ => phi) z 0 1 0 HD); try apply is_derive_cst. apply (is_derive_id z). toR; ring.
Qed.
Lemma dw_dp (D : Dom) F FR Fz Fp R z phi t : differentiable_with D F FR Fz Fp -> D R z phi t ->
  is_derive (fun x => F R z x t) phi (Fp R z phi t).
Proof.
  intros H HD. eapply is_derive_eq.
  apply (H t (fun _ => R) (fun _ => z) (fun x => x) phi 0 0 1 HD); try apply is_derive_cst. apply (is_derive_id phi). toR; ring.
Qed.

(** [smooth] is stronger than the statements of C01 and C02. *)
Lemma smooth_forces D p : smooth D p -> forces_are_gradient D p.
Proof.
  intros (Phi & Fp & P2R & P2z & PRz & P2p & PRp & Ppz & [E1 E2 E3 E4 E5 E6 E7 E8 H1 H2 H3 H4]).
  exists Phi, Fp. splits; auto. intros R z phi t HD. splits.
  - apply (dw_dR _ _ _ _ _ _ _ _ _ H1 HD).
  - apply (dw_dz _ _ _ _ _ _ _ _ _ H1 HD).
  - apply (dw_dp _ _ _ _ _ _ _ _ _ H1 HD).
Qed.
Lemma smooth_hessian D p : smooth D p -> hessian_is_correct D p.
Proof.
  intros (Phi & Fp & P2R & P2z & PRz & P2p & PRp & Ppz & [E1 E2 E3 E4 E5 E6 E7 E8 H1 H2 H3 H4]).
  exists P2R, P2z, PRz. splits; auto. intros R z phi t HD. splits.
  - apply (dw_dR _ _ _ _ _ _ _ _ _ H2 HD).
  - apply (dw_dz _ _ _ _ _ _ _ _ _ H3 HD).
  - apply (dw_dz _ _ _ _ _ _ _ _ _ H2 HD).
  - apply (dw_dR _ _ _ _ _ _ _ _ _ H3 HD).
Qed.
Lemma smooth_azimuthal D p : smooth D p -> azimuthal_hessian_is_correct D p.
Proof.
  intros (Phi & Fp & P2R & P2z & PRz & P2p & PRp & Ppz & [E1 E2 E3 E4 E5 E6 E7 E8 H1 H2 H3 H4]).
  exists Fp, P2p, PRp, Ppz. splits; auto. intros R z phi t HD. splits.
  - apply (dw_dp _ _ _ _ _ _ _ _ _ H4 HD).
  - apply (dw_dp _ _ _ _ _ _ _ _ _ H2 HD).
  - apply (dw_dR _ _ _ _ _ _ _ _ _ H4 HD).
  - apply (dw_dp _ _ _ _ _ _ _ _ _ H3 HD).
  - apply (dw_dz _ _ _ _ _ _ _ _ _ H4 HD).
Qed.

(** From the partial derivatives and differentiability of value and forces. *)
Definition AllDiff (D : Dom) (p : Pot) : Prop :=
  forall R z phi t, D R z phi t ->
    (forall F, apiEv p = Some F -> Diffble (fun r h q => F r h q t) R z phi) /\
    Diffble (fun r h q => apiRf p v0 r h q t) R z phi /\
    Diffble (fun r h q => apizf p v0 r h q t) R z phi /\
    (forall F, apiPt p v0 = Some F -> Diffble (fun r h q => F r h q t) R z phi).
Lemma smooth_intro D p : forces_are_gradient D p -> hessian_is_correct D p -> azimuthal_hessian_is_correct D p ->
  AllDiff D p -> smooth D p.
Proof.
  intros (Phi & Fphi & E1 & E2 & Hf) (P2R & P2z & PRz & E3 & E4 & E5 & Hm)
    (Fphi' & P2p & PRp & Ppz & E6 & E7 & E8 & E9 & Ha) Hd.
  rewrite E2 in E6; inversion E6; subst Fphi'.
  exists Phi, Fphi, P2R, P2z, PRz, P2p, PRp, Ppz. split; [exact E1|exact E2|exact E3|exact E4|exact E5|exact E7|exact E8|exact E9| | | |].
  - apply dw_from_partials; unfold neg; intros R z phi t HD;
      destruct (Hd _ _ _ _ HD) as (d1 & d2 & d3 & d4); destruct (Hf _ _ _ _ HD) as (f1 & f2 & f3).
    + exact (d1 _ E1).
    + exact f1.
    + exact f2.
    + exact f3.
  - apply dw_from_partials; unfold neg; intros R z phi t HD;
      destruct (Hd _ _ _ _ HD) as (d1 & d2 & d3 & d4); destruct (Hm _ _ _ _ HD) as (f1 & f2 & f3 & f4);
      destruct (Ha _ _ _ _ HD) as (g1 & g2 & g3 & g4 & g5).
    + exact (db_opp _ _ _ _ d2).
    + exact f1.
    + exact f3.
    + exact g2.
  - apply dw_from_partials; unfold neg; intros R z phi t HD;
      destruct (Hd _ _ _ _ HD) as (d1 & d2 & d3 & d4); destruct (Hm _ _ _ _ HD) as (f1 & f2 & f3 & f4);
      destruct (Ha _ _ _ _ HD) as (g1 & g2 & g3 & g4 & g5).
    + exact (db_opp _ _ _ _ d3).
    + exact f4.
    + exact f2.
    + exact g4.
  - apply dw_from_partials; unfold neg; intros R z phi t HD;
      destruct (Hd _ _ _ _ HD) as (d1 & d2 & d3 & d4);
      destruct (Ha _ _ _ _ HD) as (g1 & g2 & g3 & g4 & g5).
    + exact (db_opp _ _ _ _ (d4 _ E2)).
    + exact g3.
    + exact g5.
    + exact g1.
Qed.
Lemma smooth_mono (D E : Dom) p : (forall R z phi t, E R z phi t -> D R z phi t) -> smooth D p -> smooth E p.
Proof.
  intros HE (Phi & Fp & P2R & P2z & PRz & P2p & PRp & Ppz & [E1 E2 E3 E4 E5 E6 E7 E8 H1 H2 H3 H4]).
  exists Phi, Fp, P2R, P2z, PRz, P2p, PRp, Ppz. split; auto; intros t r h g s dR dz dp HD; auto.
Qed.
Lemma smooth_alldiff D p : smooth D p -> AllDiff D p.
Proof.
  intros (Phi & Fp & P2R & P2z & PRz & P2p & PRp & Ppz & [E1 E2 E3 E4 E5 E6 E7 E8 H1 H2 H3 H4]) R z phi t HD.
  assert (neg_db : forall F, Diffble (fun r h q => neg F r h q t) R z phi -> Diffble (fun r h q => F r h q t) R z phi).
  { intros F H. eapply db_ext; [|apply (db_opp _ _ _ _ H)]. intros; unfold neg; cbv beta. apply Ropp_involutive. }
  splits.
  - intros F E. rewrite E1 in E; inversion E; subst. eapply dw_diffble; eauto.
  - apply neg_db. eapply (dw_diffble D _ _ _ _ _ _ _ _ H2); auto.
  - apply neg_db. eapply (dw_diffble D _ _ _ _ _ _ _ _ H3); auto.
  - intros F E. rewrite E2 in E; inversion E; subst. apply neg_db. eapply (dw_diffble D _ _ _ _ _ _ _ _ H4); auto.
Qed.

Lemma db_sum4 {A} (l : list A) (F : A -> F4) R z phi t :
  (forall a, In a l -> Diffble (fun r h q => F a r h q t) R z phi) ->
  Diffble (fun r h q => sum4 (map F l) r h q t) R z phi.
Proof.
  induction l as [|a l IH]; intros H; simpl map.
  - apply db_ext with (f := fun _ _ _ => 0). reflexivity. apply db_const.
  - apply db_ext with (f := fun r h q => F a r h q t + sum4 (map F l) r h q t).
    + intros; rewrite sum4_cons; reflexivity.
    + apply db_plus. apply H; left; auto. apply IH. intros; apply H; right; auto.
Qed.
Lemma comp_smooth (D : Dom) amp ps :
  (forall p, In p ps -> isDiss p = false /\ smooth D p) -> smooth D (Comp amp ps).
Proof.
  intros H. apply smooth_intro.
  - apply comp_forces. intros p Hp. destruct (H p Hp); auto using smooth_forces.
  - apply comp_hessian. intros p Hp. destruct (H p Hp); auto using smooth_hessian.
  - apply comp_azimuthal. intros p Hp. destruct (H p Hp); auto using smooth_azimuthal.
  - intros R z phi t HD.
    assert (Hall : forall q, In q ps -> AllDiff D q) by (intros q Hq; apply smooth_alldiff; apply H; auto).
    assert (Hev : forall q, In q ps -> exists g, apiEv q = Some g).
    { intros q Hq. destruct (H q Hq) as (_ & Phi & ? & ? & ? & ? & ? & ? & ? & S). exists Phi. apply S. }
    assert (Hpt : forall q, In q ps -> exists g, apiPt q v0 = Some g).
    { intros q Hq. destruct (H q Hq) as (_ & ? & Fp & ? & ? & ? & ? & ? & ? & S). exists Fp. apply S. }
    assert (Hds : forall q, In q ps -> isDiss q = false) by (intros q Hq; apply H; auto).
    split; [|split; [|split]].
    + intros F E. rewrite (apiEv_comp amp ps Hds Hev) in E. inversion E; subst. unfold scale4. apply db_scal.
      apply (db_sum4 ps (fun p => getF (apiEv p))). intros q Hq. destruct (Hev q Hq) as [g Eg]. rewrite Eg. simpl. exact (proj1 (Hall q Hq R z phi t HD) g Eg).
    + simpl. unfold scale4. apply db_scal. apply (db_sum4 ps (fun q => apiRf q v0)). intros q Hq. exact (proj1 (proj2 (Hall q Hq R z phi t HD))).
    + simpl. unfold scale4. apply db_scal. apply (db_sum4 ps (fun q => apizf q v0)). intros q Hq. exact (proj1 (proj2 (proj2 (Hall q Hq R z phi t HD)))).
    + intros F E. rewrite (apiPt_comp amp v0 ps Hpt) in E. inversion E; subst. unfold scale4. apply db_scal.
      apply (db_sum4 ps (fun p => getF (apiPt p v0))). intros q Hq. destruct (Hpt q Hq) as [g Eg]. rewrite Eg. simpl. exact (proj2 (proj2 (proj2 (Hall q Hq R z phi t HD))) g Eg).
Qed.
