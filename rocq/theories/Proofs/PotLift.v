(** From class-level derivative facts to the public API, for single potentials and for
    composites of any length and nesting. *)
From Coq Require Import Reals Lra Psatz List Bool.
From Coquelicot Require Import Coquelicot.
From Verif.Lib Require Import RealAux.
From Verif.Model Require Import PotAPI PotAxi.
From Verif.Spec Require Import PotSpec PotApiSpec.
From Verif.Proofs Require Import AxiProofs AxiProofs2.
Import ListNotations.
Open Scope R_scope.
Notation RR := RbaseSymbolsImpl.R (only parsing).

Ltac splits := repeat match goal with |- _ /\ _ => split end.

Definition lift2 (D : RR -> RR -> Prop) : Dom := fun R z _ _ => D R z.

Lemma axi_forces D amp ev Rf zf R2 z2 Rz dn :
  AxiForce D ev Rf zf -> forces_are_gradient (lift2 D) (Single amp (mkAxi ev Rf zf R2 z2 Rz dn)).
Proof.
  intros [HR Hz]. eexists; eexists; splits; try reflexivity; simpl; unfold scale4, zero4; intros R z phi t H; splits.
  - eapply is_derive_eq. apply is_derive_Rscal, HR, H. toR; cbn; ring.
  - eapply is_derive_eq. apply is_derive_Rscal, Hz, H. toR; cbn; ring.
  - eapply is_derive_eq. apply is_derive_cst. toR; cbn; ring.
Qed.

Lemma is_derive_scal_opp (f : RR -> RR) a x l :
  is_derive (fun y => - f y) x l -> is_derive (fun y => - (a * f y)) x (a * l).
Proof.
  intros H. apply is_derive_ext with (f := fun y => a * (- f y)). intros; toR; cbn; ring.
  apply is_derive_Rscal; auto.
Qed.

Lemma axi_hessian D amp ev Rf zf R2 z2 Rz dn :
  AxiHess D Rf zf R2 z2 Rz ->
  hessian_is_correct (lift2 D) (Single amp (mkAxi ev Rf zf (Some R2) (Some z2) (Some Rz) dn)).
Proof.
  intros [H1 H2 H3 H4]. eexists; eexists; eexists; splits; try reflexivity; simpl; unfold scale4;
    intros R z phi t H; splits; apply is_derive_scal_opp; auto.
Qed.

Lemma axi_azimuthal D amp ev Rf zf R2 z2 Rz dn :
  azimuthal_hessian_is_correct (lift2 D) (Single amp (mkAxi ev Rf zf R2 z2 Rz dn)).
Proof.
  eexists; eexists; eexists; eexists; splits; try reflexivity; simpl; unfold scale4, zero4; intros R z phi t H; splits;
    apply is_derive_cst.
Qed.

(** Algebraic form of Poisson's equation. *)
Definition poisson_alg (D : Dom) (FR P2R P2p P2z dens : F4) : Prop :=
  forall R z phi t, D R z phi t -> 0 < R ->
    - FR R z phi t / R + P2R R z phi t + P2p R z phi t / R ^ 2 + P2z R z phi t
    = 4 * PI * dens R z phi t.

Lemma laplacian_from_parts (D : Dom) Phi FR Fz Fphi PRR Pzz PRz Ppp PRp Ppz dens :
  slice_open D ->
  is_force_field D Phi FR Fz Fphi ->
  is_meridional_hessian D FR Fz PRR Pzz PRz ->
  is_azimuthal_hessian D FR Fz Fphi Ppp PRp Ppz ->
  poisson_alg D FR PRR Ppp Pzz dens ->
  satisfies_poisson D Phi dens.
Proof.
  intros Ho Hf Hm Ha Hp R z phi t HD HR.
  destruct (Ho _ _ _ _ HD) as (LR & Lz & Lp).
  destruct (Hf _ _ _ _ HD) as (FRd & _ & _).
  destruct (Hm _ _ _ _ HD) as (M1 & M2 & _ & _).
  destruct (Ha _ _ _ _ HD) as (A1 & _).
  exists (- FR R z phi t), (PRR R z phi t), (Ppp R z phi t), (Pzz R z phi t).
  splits; auto.
  - eapply is_derive_ext_loc; [|exact M1]. eapply filter_imp; [|exact LR].
    intros x Hx. symmetry. apply is_derive_unique. apply (Hf _ _ _ _ Hx).
  - eapply is_derive_ext_loc; [|exact A1]. eapply filter_imp; [|exact Lp].
    intros x Hx. symmetry. apply is_derive_unique. apply (Hf _ _ _ _ Hx).
  - eapply is_derive_ext_loc; [|exact M2]. eapply filter_imp; [|exact Lz].
    intros x Hx. symmetry. apply is_derive_unique. apply (Hf _ _ _ _ Hx).
  - rewrite <- (Hp _ _ _ _ HD HR). ring.
Qed.

(** The forcepoisson density of any object whose derivatives are right. *)
Lemma poisson_density (D : Dom) p :
  slice_open D -> forces_are_gradient D p -> hessian_is_correct D p ->
  azimuthal_hessian_is_correct D p -> poisson_density_is_source D p.
Proof.
  intros Ho (Phi & Fphi & E1 & E2 & Hf) (P2R & P2z & PRz & E3 & E4 & E5 & Hm)
    (Fphi' & P2p & PRp & Ppz & E6 & E7 & E8 & E9 & Ha).
  rewrite E2 in E6; inversion E6; subst Fphi'.
  unfold poisson_density_is_source, apiDensPoisson, poisson. rewrite E3, E7, E4.
  exists Phi. eexists. split; [exact E1|]. split; [reflexivity|].
  eapply laplacian_from_parts; eauto.
  intros R z phi t HD HR. cbv beta. unfold v0. pose proof PI_RGT_0. field. split; lra.
Qed.

Lemma axi_density D amp ev Rf zf R2 z2 Rz dn :
  slice_open (lift2 D) -> AxiForce D ev Rf zf -> AxiHess D Rf zf R2 z2 Rz ->
  AxiPoisson D Rf R2 z2 dn ->
  density_is_source (lift2 D) (Single amp (mkAxi ev Rf zf (Some R2) (Some z2) (Some Rz) (Some dn))).
Proof.
  intros Ho Hf Hh Hp.
  destruct (axi_forces D amp ev Rf zf (Some R2) (Some z2) (Some Rz) (Some dn) Hf) as (Phi & Fphi & E1 & E2 & Hf').
  destruct (axi_hessian D amp ev Rf zf R2 z2 Rz (Some dn) Hh) as (P2R & P2z & PRz & E3 & E4 & E5 & Hm).
  destruct (axi_azimuthal D amp ev Rf zf (Some R2) (Some z2) (Some Rz) (Some dn))
    as (Fphi' & P2p & PRp & Ppz & E6 & E7 & E8 & E9 & Ha).
  rewrite E2 in E6; inversion E6; subst Fphi'.
  exists Phi. eexists. split; [exact E1|]. split; [reflexivity|].
  eapply laplacian_from_parts; eauto.
  intros R z phi t HD HR. cbn in E3, E4, E7. inversion E3. inversion E4. inversion E7. simpl.
  unfold scale4, zero4. specialize (Hp R z HD HR).
  replace (4 * PI * (amp * dn R z)) with (amp * (4 * PI * dn R z)) by ring. rewrite <- Hp. field. lra.
Qed.

(** ** Composites *)
Lemma sum4_acc (l : list F4) : forall acc R z phi t,
  fold_left add4 l acc R z phi t = acc R z phi t + sum4 l R z phi t.
Proof.
  unfold sum4. induction l as [|f l IH]; intros acc R z phi t; simpl.
  - unfold zero4. toR; ring.
  - rewrite IH. rewrite (IH (add4 zero4 f)). unfold add4, zero4. toR; ring.
Qed.
Lemma sum4_cons f l R z phi t : sum4 (f :: l) R z phi t = f R z phi t + sum4 l R z phi t.
Proof. unfold sum4 at 1. simpl. rewrite sum4_acc. unfold add4, zero4. toR; ring. Qed.
Lemma sum4_nil R z phi t : sum4 [] R z phi t = 0.
Proof. reflexivity. Qed.

(** A way of looking at a function of four arguments along one coordinate. *)
Lemma is_derive_sum4 {A} (l : list A) (F G : A -> F4) (c : RR -> RR * RR * RR * RR) x :
  (forall a, In a l ->
     is_derive (fun y => let '(R, z, phi, t) := c y in F a R z phi t) x
       (let '(R, z, phi, t) := c x in - G a R z phi t)) ->
  is_derive (fun y => let '(R, z, phi, t) := c y in sum4 (map F l) R z phi t) x
       (let '(R, z, phi, t) := c x in - sum4 (map G l) R z phi t).
Proof.
  induction l as [|a l IH]; intros H; simpl.
  - apply is_derive_ext with (f := fun _ => 0).
    + intros y. destruct (c y) as [[[? ?] ?] ?]. reflexivity.
    + destruct (c x) as [[[? ?] ?] ?]. rewrite sum4_nil.
      eapply is_derive_eq. apply is_derive_cst. toR; ring.
  - apply is_derive_ext with
      (f := fun y => (let '(R, z, phi, t) := c y in F a R z phi t)
                     + (let '(R, z, phi, t) := c y in sum4 (map F l) R z phi t)).
    + intros y. destruct (c y) as [[[? ?] ?] ?]. rewrite sum4_cons. reflexivity.
    + eapply is_derive_eq. apply is_derive_Rplus.
      * apply H. left; auto.
      * apply IH. intros b Hb. apply H. right; auto.
      * destruct (c x) as [[[? ?] ?] ?]. rewrite sum4_cons. toR; ring.
Qed.

(** Specialisations to one coordinate, with the sign on the right or on the left. *)
Lemma sum4_dR {A} (l : list A) (F G : A -> F4) R z phi t :
  (forall a, In a l -> is_derive (fun y => F a y z phi t) R (- G a R z phi t)) ->
  is_derive (fun y => sum4 (map F l) y z phi t) R (- sum4 (map G l) R z phi t).
Proof. intros H. apply (is_derive_sum4 l F G (fun y => (y, z, phi, t)) R H). Qed.
Lemma sum4_dz {A} (l : list A) (F G : A -> F4) R z phi t :
  (forall a, In a l -> is_derive (fun y => F a R y phi t) z (- G a R z phi t)) ->
  is_derive (fun y => sum4 (map F l) R y phi t) z (- sum4 (map G l) R z phi t).
Proof. intros H. apply (is_derive_sum4 l F G (fun y => (R, y, phi, t)) z H). Qed.
Lemma sum4_dp {A} (l : list A) (F G : A -> F4) R z phi t :
  (forall a, In a l -> is_derive (fun y => F a R z y t) phi (- G a R z phi t)) ->
  is_derive (fun y => sum4 (map F l) R z y t) phi (- sum4 (map G l) R z phi t).
Proof. intros H. apply (is_derive_sum4 l F G (fun y => (R, z, y, t)) phi H). Qed.

Lemma sequence_some {A} (l : list (option A)) :
  (forall x, In x l -> exists y, x = Some y) -> exists ys, sequence l = Some ys /\ l = map Some ys.
Proof.
  induction l as [|x l IH]; intros H.
  - exists []; auto.
  - destruct (H x (or_introl eq_refl)) as [y ->].
    destruct IH as (ys & E & El). { intros z Hz; apply H; right; auto. }
    exists (y :: ys). simpl. rewrite E, <- El. auto.
Qed.
Lemma map_sequence {A B} (f : A -> option B) (l : list A) (g : A -> B) :
  (forall x, In x l -> f x = Some (g x)) -> sequence (map f l) = Some (map g l).
Proof.
  induction l as [|x l IH]; intros H; simpl; auto.
  rewrite (H x (or_introl eq_refl)), IH; auto. intros; apply H; right; auto.
Qed.

(** the value of an optional function, with a default *)
Definition getF (o : option F4) : F4 := match o with Some f => f | None => zero4 end.

Lemma osum4_get {A} (f : A -> option F4) (l : list A) :
  (forall x, In x l -> exists g, f x = Some g) ->
  osum4 (map f l) = Some (sum4 (map (fun x => getF (f x)) l)).
Proof.
  intros H. unfold osum4. rewrite (map_sequence f l (fun x => getF (f x))).
  - reflexivity.
  - intros x Hx. destruct (H x Hx) as [g ->]. reflexivity.
Qed.

Lemma api2_comp s a ps :
  (forall p, In p ps -> isDiss p = false) ->
  (forall p, In p ps -> exists g, api2 s p = Some g) ->
  api2 s (Comp a ps) = Some (scale4 a (sum4 (map (fun p => getF (api2 s p)) ps))).
Proof.
  intros Hd H. simpl. 
  assert (E : map (fun q => if isDiss q then Some zero4 else api2 s q) ps = map (api2 s) ps).
  { apply map_ext_in. intros p Hp. rewrite (Hd p Hp). reflexivity. }
  rewrite E, (osum4_get (api2 s)) by auto. reflexivity.
Qed.
Lemma apiEv_comp a ps :
  (forall p, In p ps -> isDiss p = false) ->
  (forall p, In p ps -> exists g, apiEv p = Some g) ->
  apiEv (Comp a ps) = Some (scale4 a (sum4 (map (fun p => getF (apiEv p)) ps))).
Proof.
  intros Hd H. simpl.
  assert (E : map (fun q => if isDiss q then Some zero4 else apiEv q) ps = map apiEv ps).
  { apply map_ext_in. intros p Hp. rewrite (Hd p Hp). reflexivity. }
  rewrite E, (osum4_get apiEv) by auto. reflexivity.
Qed.
Lemma apiPt_comp a v ps :
  (forall p, In p ps -> exists g, apiPt p v = Some g) ->
  apiPt (Comp a ps) v = Some (scale4 a (sum4 (map (fun p => getF (apiPt p v)) ps))).
Proof. intros H. simpl. rewrite (osum4_get (fun q => apiPt q v)) by auto. reflexivity. Qed.

Lemma comp_forces (D : Dom) a ps :
  (forall p, In p ps -> isDiss p = false /\ forces_are_gradient D p) ->
  forces_are_gradient D (Comp a ps).
Proof.
  intros H. unfold forces_are_gradient.
  rewrite apiEv_comp, apiPt_comp.
  2: intros p Hp; destruct (H p Hp) as (_ & ? & ? & ? & ? & ?); eauto.
  2: intros p Hp; apply H; auto.
  2: intros p Hp; destruct (H p Hp) as (_ & ? & ? & ? & ? & ?); eauto.
  eexists; eexists; split; [reflexivity|]; split; [reflexivity|].
  intros R z phi t HD. simpl. unfold scale4. splits.
  - eapply is_derive_eq. apply is_derive_Rscal.
    apply (sum4_dR ps (fun p => getF (apiEv p)) (fun q => apiRf q v0)).
    + intros p Hp. destruct (H p Hp) as (_ & Phi & Fp & E1 & E2 & Hf). rewrite E1. simpl.
      apply (Hf _ _ _ _ HD).
    + toR; ring.
  - eapply is_derive_eq. apply is_derive_Rscal.
    apply (sum4_dz ps (fun p => getF (apiEv p)) (fun q => apizf q v0)).
    + intros p Hp. destruct (H p Hp) as (_ & Phi & Fp & E1 & E2 & Hf). rewrite E1. simpl.
      apply (Hf _ _ _ _ HD).
    + toR; ring.
  - eapply is_derive_eq. apply is_derive_Rscal.
    apply (sum4_dp ps (fun p => getF (apiEv p)) (fun q => getF (apiPt q v0))).
    + intros p Hp. destruct (H p Hp) as (_ & Phi & Fp & E1 & E2 & Hf). rewrite E1, E2. simpl.
      apply (Hf _ _ _ _ HD).
    + toR; ring.
Qed.

Lemma is_derive_flip1 (f : RR -> RR) x l : is_derive (fun y => - f y) x l -> is_derive f x (- l).
Proof.
  intros H. apply is_derive_ext with (f := fun y => -1 * (- f y)). intros; toR; ring.
  eapply is_derive_eq. apply is_derive_Rscal, H. toR; ring.
Qed.
Lemma is_derive_flip2 (f : RR -> RR) x l : is_derive f x (- l) -> is_derive (fun y => - f y) x l.
Proof.
  intros H. apply is_derive_ext with (f := fun y => -1 * f y). intros; toR; ring.
  eapply is_derive_eq. apply is_derive_Rscal, H. toR; ring.
Qed.

Lemma comp_hessian (D : Dom) a ps :
  (forall p, In p ps -> isDiss p = false /\ hessian_is_correct D p) ->
  hessian_is_correct D (Comp a ps).
Proof.
  intros H. unfold hessian_is_correct, apiR2, apiz2, apiRz.
  rewrite !api2_comp.
  all: try (intros p Hp; apply H; auto; fail).
  all: try (intros p Hp; destruct (H p Hp) as (_ & ? & ? & ? & ? & ? & ? & ?); eauto; fail).
  eexists; eexists; eexists; split; [reflexivity|]; split; [reflexivity|]; split; [reflexivity|].
  intros R z phi t HD. simpl. unfold scale4.
  splits; apply is_derive_scal_opp; apply is_derive_flip2.
  1: apply (sum4_dR ps (fun q => apiRf q v0)).
  2: apply (sum4_dz ps (fun q => apizf q v0)).
  3: apply (sum4_dz ps (fun q => apiRf q v0)).
  4: apply (sum4_dR ps (fun q => apizf q v0)).
  all: intros p Hp; apply is_derive_flip1; destruct (H p Hp) as (_ & P2R & P2z & PRz & E1 & E2 & E3 & Hf);
    unfold apiR2, apiz2, apiRz, scale4 in *; destruct (Hf _ _ _ _ HD) as (M1 & M2 & M3 & M4).
  - cbv beta; rewrite E1; exact M1.
  - cbv beta; rewrite E2; exact M2.
  - cbv beta; rewrite E3; exact M3.
  - cbv beta; rewrite E3; exact M4.
Qed.

Lemma comp_azimuthal (D : Dom) a ps :
  (forall p, In p ps -> isDiss p = false /\ azimuthal_hessian_is_correct D p) ->
  azimuthal_hessian_is_correct D (Comp a ps).
Proof.
  intros H. unfold azimuthal_hessian_is_correct, apip2, apiRp, apipz.
  rewrite !api2_comp, apiPt_comp.
  all: try (intros p Hp; apply H; auto; fail).
  all: try (intros p Hp; destruct (H p Hp) as (_ & ? & ? & ? & ? & ? & ? & ? & ? & ?); eauto; fail).
  eexists; eexists; eexists; eexists; split; [reflexivity|]; split; [reflexivity|]; split; [reflexivity|];
   split; [reflexivity|].
  intros R z phi t HD. simpl. unfold scale4.
  splits; apply is_derive_scal_opp; apply is_derive_flip2.
  1: apply (sum4_dp ps (fun q => getF (apiPt q v0))).
  2: apply (sum4_dp ps (fun q => apiRf q v0)).
  3: apply (sum4_dR ps (fun q => getF (apiPt q v0))).
  4: apply (sum4_dp ps (fun q => apizf q v0)).
  5: apply (sum4_dz ps (fun q => getF (apiPt q v0))).
  all: intros p Hp; apply is_derive_flip1;
    destruct (H p Hp) as (_ & Fp & P2p & PRp & Ppz & E0 & E1 & E2 & E3 & Hf);
    unfold apip2, apiRp, apipz in *; destruct (Hf _ _ _ _ HD) as (M1 & M2 & M3 & M4 & M5).
  - cbv beta; rewrite E0, E1; exact M1.
  - cbv beta; rewrite E2; exact M2.
  - cbv beta; rewrite E0, E2; exact M3.
  - cbv beta; rewrite E3; exact M4.
  - cbv beta; rewrite E0, E3; exact M5.
Qed.

(** Sum of Laplacians: the analytic density of a composite. *)
Lemma is_derive_sum4' {A} (l : list A) (F G : A -> F4) (c : RR -> RR * RR * RR * RR) x :
  (forall a, In a l ->
     is_derive (fun y => let '(R, z, phi, t) := c y in F a R z phi t) x
       (let '(R, z, phi, t) := c x in G a R z phi t)) ->
  is_derive (fun y => let '(R, z, phi, t) := c y in sum4 (map F l) R z phi t) x
       (let '(R, z, phi, t) := c x in sum4 (map G l) R z phi t).
Proof.
  intros H.
  pose proof (is_derive_sum4 l F (fun a => fun R z phi t => - G a R z phi t) c x) as H1.
  assert (E : forall R z phi t, - sum4 (map (fun a => fun R z phi t => - G a R z phi t) l) R z phi t
                                = sum4 (map G l) R z phi t).
  { intros R z phi t. clear. induction l as [|a l IH]; simpl map.
    - rewrite !sum4_nil. toR; ring.
    - rewrite !sum4_cons, <- IH. toR; ring. }
  destruct (c x) as [[[R z] phi] t] eqn:Ec. rewrite <- E.
  apply H1. intros a Ha. eapply is_derive_eq. apply (H a Ha). toR; ring.
Qed.

(** The Laplacian through the forces. *)
Definition lap_force_at (FR Fz Fp : F4) R z phi t lap : Prop :=
  exists PRR Ppp Pzz,
    is_derive (fun x => - FR x z phi t) R PRR /\
    is_derive (fun x => - Fp R z x t) phi Ppp /\
    is_derive (fun x => - Fz R x phi t) z Pzz /\
    lap = PRR + - FR R z phi t / R + Ppp / R ^ 2 + Pzz.

Lemma lap_force_iff (D : Dom) Phi FR Fz Fp R z phi t lap :
  slice_open D -> is_force_field D Phi FR Fz Fp -> D R z phi t ->
  (is_laplacian_at Phi R z phi t lap <-> lap_force_at FR Fz Fp R z phi t lap).
Proof.
  intros Ho Hf HD. destruct (Ho _ _ _ _ HD) as (LR & Lz & Lp).
  destruct (Hf _ _ _ _ HD) as (FRd & _ & _).
  assert (ER : locally R (fun x => - FR x z phi t = Derive (fun y => Phi y z phi t) x)).
  { eapply filter_imp; [|exact LR]. intros x Hx. symmetry. apply is_derive_unique. apply (Hf _ _ _ _ Hx). }
  assert (Ep : locally phi (fun x => - Fp R z x t = Derive (fun y => Phi R z y t) x)).
  { eapply filter_imp; [|exact Lp]. intros x Hx. symmetry. apply is_derive_unique. apply (Hf _ _ _ _ Hx). }
  assert (Ez : locally z (fun x => - Fz R x phi t = Derive (fun y => Phi R y phi t) x)).
  { eapply filter_imp; [|exact Lz]. intros x Hx. symmetry. apply is_derive_unique. apply (Hf _ _ _ _ Hx). }
  assert (sym : forall (f g : RR -> RR) x, locally x (fun y => f y = g y) -> locally x (fun y => g y = f y)).
  { intros f g x. apply filter_imp. auto. }
  split.
  - intros (PR & PRR & Ppp & Pzz & H1 & H2 & H3 & H4 & E).
    exists PRR, Ppp, Pzz. splits.
    + eapply is_derive_ext_loc; [|exact H2]. apply sym; exact ER.
    + eapply is_derive_ext_loc; [|exact H3]. apply sym; exact Ep.
    + eapply is_derive_ext_loc; [|exact H4]. apply sym; exact Ez.
    + pose proof (is_derive_unique _ _ _ H1) as E1. rewrite (is_derive_unique _ _ _ FRd) in E1.
      rewrite E, <- E1. reflexivity.
  - intros (PRR & Ppp & Pzz & H2 & H3 & H4 & E).
    exists (- FR R z phi t), PRR, Ppp, Pzz. splits; auto.
    + eapply is_derive_ext_loc; [exact ER|exact H2].
    + eapply is_derive_ext_loc; [exact Ep|exact H3].
    + eapply is_derive_ext_loc; [exact Ez|exact H4].
Qed.

(** sums of forces *)
Lemma lap_sum (ps : list Pot) (FR Fz Fp dn : Pot -> F4) R z phi t :
  0 < R ->
  (forall p, In p ps -> lap_force_at (FR p) (Fz p) (Fp p) R z phi t (4 * PI * dn p R z phi t)) ->
  lap_force_at (sum4 (map FR ps)) (sum4 (map Fz ps)) (sum4 (map Fp ps)) R z phi t
    (4 * PI * sum4 (map dn ps) R z phi t).
Proof.
  intros HR. induction ps as [|p ps IH]; intros H.
  - exists 0, 0, 0. splits; try (unfold sum4; simpl; unfold zero4; apply is_derive_cst).
    unfold sum4, zero4; simpl. field. lra.
  - destruct (H p (or_introl eq_refl)) as (a1 & a2 & a3 & A1 & A2 & A3 & EA).
    destruct IH as (b1 & b2 & b3 & B1 & B2 & B3 & EB). { intros; apply H; right; auto. }
    exists (a1 + b1), (a2 + b2), (a3 + b3). simpl map. splits.
    + eapply is_derive_ext; [|apply (is_derive_Rplus _ _ _ _ _ A1 B1)].
      intros x. cbv beta. rewrite sum4_cons. toR; ring.
    + eapply is_derive_ext; [|apply (is_derive_Rplus _ _ _ _ _ A2 B2)].
      intros x. cbv beta. rewrite sum4_cons. toR; ring.
    + eapply is_derive_ext; [|apply (is_derive_Rplus _ _ _ _ _ A3 B3)].
      intros x. cbv beta. rewrite sum4_cons. toR; ring.
    + rewrite !sum4_cons, Rmult_plus_distr_l, EA, EB. field. lra.
Qed.

Lemma comp_density (D : Dom) a ps :
  slice_open D ->
  (forall p, In p ps -> isDiss p = false /\ forces_are_gradient D p /\ density_is_source D p) ->
  density_is_source D (Comp a ps).
Proof.
  intros Ho H.
  destruct (comp_forces D a ps) as (Phi & Fphi & E1 & E2 & Hf).
  { intros p Hp. destruct (H p Hp) as (? & ? & ?); auto. }
  exists Phi. 
  assert (Ed : apiDens (Comp a ps) = Some (scale4 a (sum4 (map (fun p => getF (apiDens p)) ps)))).
  { unfold apiDens. apply api2_comp.
    - intros p Hp; apply H; auto.
    - intros p Hp; destruct (H p Hp) as (_ & _ & ? & ? & ? & ? & ?); eauto. }
  eexists; split; [exact E1|]; split; [exact Ed|].
  intros R z phi t HD HR.
  apply (lap_force_iff D Phi (apiRf (Comp a ps) v0) (apizf (Comp a ps) v0) Fphi); auto.
  rewrite apiPt_comp in E2.
  2: intros p Hp; destruct (H p Hp) as (_ & (? & ? & ? & ? & ?) & _); eauto.
  inversion E2 as [E2']. clear E2 E2'.
  destruct (lap_sum ps (fun q => apiRf q v0) (fun q => apizf q v0) (fun q => getF (apiPt q v0))
     (fun q => getF (apiDens q)) R z phi t HR) as (b1 & b2 & b3 & B1 & B2 & B3 & EB).
  { intros p Hp. destruct (H p Hp) as (_ & (Ph & Fp & F1 & F2 & Ff) & (Ph' & dn & G1 & G2 & G)).
    rewrite F1 in G1; inversion G1; subst Ph'. rewrite F2, G2. simpl.
    apply (lap_force_iff D Ph); auto. }
  exists (a * b1), (a * b2), (a * b3). simpl. unfold scale4. splits.
  - apply is_derive_scal_opp. exact B1.
  - apply is_derive_scal_opp. exact B2.
  - apply is_derive_scal_opp. exact B3.
  - replace (4 * PI * (a * sum4 (map (fun p => getF (apiDens p)) ps) R z phi t))
      with (a * (4 * PI * sum4 (map (fun p => getF (apiDens p)) ps) R z phi t)) by ring.
    rewrite EB. field. lra.
Qed.

(** Domains *)
Lemma slice_open_lift (D : RR -> RR -> Prop) :
  (forall R z, D R z -> locally R (fun x => D x z) /\ locally z (fun x => D R x)) ->
  slice_open (lift2 D).
Proof.
  intros H R z phi t HD. destruct (H R z HD). splits; auto.
  exists (mkposreal 1 Rlt_0_1). intros; exact HD.
Qed.
Lemma forces_mono (D E : Dom) p : (forall R z phi t, E R z phi t -> D R z phi t) ->
  forces_are_gradient D p -> forces_are_gradient E p.
Proof. intros HE (Phi & Fp & E1 & E2 & Hf). exists Phi, Fp. splits; auto. intros R z phi t H. apply Hf; auto. Qed.
Lemma hessian_mono (D E : Dom) p : (forall R z phi t, E R z phi t -> D R z phi t) ->
  hessian_is_correct D p -> hessian_is_correct E p.
Proof. intros HE (P & Q & S & E1 & E2 & E3 & Hf). exists P, Q, S. splits; auto. intros R z phi t H. apply Hf; auto. Qed.
Lemma azimuthal_mono (D E : Dom) p : (forall R z phi t, E R z phi t -> D R z phi t) ->
  azimuthal_hessian_is_correct D p -> azimuthal_hessian_is_correct E p.
Proof. intros HE (F & P & Q & S & E0 & E1 & E2 & E3 & Hf). exists F, P, Q, S. splits; auto. intros R z phi t H. apply Hf; auto. Qed.
Lemma density_mono (D E : Dom) p : (forall R z phi t, E R z phi t -> D R z phi t) ->
  density_is_source D p -> density_is_source E p.
Proof. intros HE (P & Q & E1 & E2 & Hf). exists P, Q. splits; auto. intros R z phi t H HR. apply Hf; auto. Qed.
