(** The C functions of lists of potentials, nested in wrappers, equal the Python ones *)
From Coq Require Import Reals Lra Lia List Bool ZArith.
From Verif.Lib Require Import RealAux.
From Verif.Model Require Import PotAPI Wrappers CSerial CPot.
From Verif.Model Require PotAxi PotNonAxi.
From Verif.Spec Require Import PotSpec CPotSpec.
From Verif.Proofs Require Import PotLift CSerialProofs CPotLeaf.
Import ListNotations.
Open Scope R_scope.
Notation RR := RbaseSymbolsImpl.R (only parsing).

(** ** Sums *)
Definition agreeL (l : list cfuns) (p : Pot) (D : Dom) : Prop :=
  isDiss p = false /\
  (exists ev, apiEv p = Some ev /\ forall h, evaluatePotentials l = Some h -> forall R z, D R z 0 0 -> h R z = ev R z 0 0) /\
  (forall R z phi t, D R z phi t -> calc cf_Rf l R z phi t = apiRf p novel R z phi t) /\
  (forall R z phi t, D R z phi t -> calc cf_zf l R z phi t = apizf p novel R z phi t) /\
  agrees2 (Some (calc cf_pt l)) (apiPt p novel) D /\
  agrees2 (Some (calc2 cf_R2 l)) (apiR2 p) D /\ agrees2 (Some (calc2 cf_z2 l)) (apiz2 p) D /\ agrees2 (Some (calc2 cf_Rz l)) (apiRz p) D /\
  agrees2 (Some (calc2 cf_p2 l)) (apip2 p) D /\ agrees2 (Some (calc2 cf_Rp l)) (apiRp p) D /\ agrees2 (Some (calc2 cf_pz l)) (apipz p) D /\
  (forall h, calcall cf_dn l = Some h -> agrees2 (Some h) (apiDens p) D).

Lemma fold_acc {A} (g : A -> RR) l : forall acc, fold_left (fun s f => s + g f) l acc = acc + fold_left (fun s f => s + g f) l 0.
Proof. induction l as [|x l IH]; intros acc; cbn; [ring|]. rewrite IH, (IH (0 + g x)). ring. Qed.
Lemma calc_cons g f l R z phi t : calc g (f :: l) R z phi t = g f R z phi t + calc g l R z phi t.
Proof. unfold calc. cbn. rewrite (fold_acc (fun f => g f R z phi t)). ring. Qed.
Lemma calc2_eq g l R z phi t : calc2 g l R z phi t = calc (fun f R z phi t => val (g f) R z phi t) l R z phi t.
Proof. unfold calc2, calc. generalize 0 as a. induction l as [|f l IH]; intros a; cbn; auto. rewrite IH. f_equal. unfold val. destruct (g f); ring. Qed.
Lemma calc2_cons g f l R z phi t : calc2 g (f :: l) R z phi t = val (g f) R z phi t + calc2 g l R z phi t.
Proof. now rewrite !calc2_eq, calc_cons. Qed.
Lemma calcall_cons g f l h : calcall g (f :: l) = Some h -> exists h1 h2, g f = Some h1 /\ calcall g l = Some h2 /\ forall R z phi t, h R z phi t = h1 R z phi t + h2 R z phi t.
Proof.
  unfold calcall. cbn [map sequence]. destruct (g f) as [h1|]; [|discriminate]. destruct (sequence (map g l)) as [hs|]; [|discriminate]. cbn. intros [= <-].
  do 2 eexists. split; [reflexivity|]. split; [reflexivity|]. intros R z phi t. cbn. rewrite (fold_acc (fun f : F4 => f R z phi t)). ring.
Qed.
Lemma agrees2_mono g a (D E : Dom) : (forall R z phi t, E R z phi t -> D R z phi t) -> agrees2 g a D -> agrees2 g a E.
Proof. intros H [h [-> Hh]]. exists h. auto. Qed.
Lemma agrees2_ext g g' a (D : Dom) : (forall R z phi t, D R z phi t -> val g R z phi t = val g' R z phi t) -> agrees2 g a D -> agrees2 g' a D.
Proof. intros H [h [-> Hh]]. exists h. split; auto. intros. rewrite <- H; auto. Qed.

Lemma agreeL_one f p D : agree f p D -> agreeL [f] p D.
Proof.
  intros [Hd [[ev [Ee He]] [HR [Hz [Hp [H1 [H2 [H3 [H4 [H5 [H6 Hn]]]]]]]]]]].
  assert (C : forall g R z phi t, calc g [f] R z phi t = g f R z phi t) by (intros; rewrite calc_cons; unfold calc; cbn; ring).
  assert (C2 : forall g R z phi t, val (Some (calc2 g [f])) R z phi t = val (g f) R z phi t) by (intros; cbn [val]; rewrite calc2_eq, C; reflexivity).
  unfold agreeL. conjs; auto; try (intros; rewrite C; auto).
  - exists ev. split; auto. unfold evaluatePotentials. intros h Eh R z HD. destruct (calcall cf_ev [f]) as [h'|] eqn:E; [|discriminate Eh]. injection Eh as <-.
    apply calcall_cons in E. destruct E as [h1 [h2 [E1 [E2 E]]]]. injection E2 as <-. cbn in E. rewrite E. rewrite (He h1 E1 R z HD). ring.
  - eapply agrees2_ext; [|exact Hp]. intros. cbn [val]. now rewrite C.
  - eapply agrees2_ext; [|exact H1]. intros. now rewrite C2.
  - eapply agrees2_ext; [|exact H2]. intros. now rewrite C2.
  - eapply agrees2_ext; [|exact H3]. intros. now rewrite C2.
  - eapply agrees2_ext; [|exact H4]. intros. now rewrite C2.
  - eapply agrees2_ext; [|exact H5]. intros. now rewrite C2.
  - eapply agrees2_ext; [|exact H6]. intros. now rewrite C2.
  - intros h Eh. apply calcall_cons in Eh. destruct Eh as [h1 [h2 [E1 [E2 E]]]]. injection E2 as <-. cbn in E. eapply agrees2_ext; [|exact (Hn h1 E1)]. intros. cbn. rewrite E. ring.
Qed.
Lemma agreeL_mono l p (D E : Dom) : (forall R z phi t, E R z phi t -> D R z phi t) -> agreeL l p D -> agreeL l p E.
Proof.
  intros M [Hd [[ev [Ee He]] [HR [Hz [Hp [H1 [H2 [H3 [H4 [H5 [H6 Hn]]]]]]]]]]].
  unfold agreeL. conjs; eauto; try (eapply agrees2_mono; eauto; fail). intros h Eh. eapply agrees2_mono; eauto.
Qed.
Lemma agree_mono f p (D E : Dom) : (forall R z phi t, E R z phi t -> D R z phi t) -> agree f p D -> agree f p E.
Proof.
  intros M [Hd [[ev [Ee He]] [HR [Hz [Hp [H1 [H2 [H3 [H4 [H5 [H6 Hn]]]]]]]]]]].
  unfold agree. conjs; eauto; try (eapply agrees2_mono; eauto; fail). intros h Eh. eapply agrees2_mono; eauto.
Qed.

Lemma scale1 (f : F4) R z phi t : scale4 1 f R z phi t = f R z phi t.
Proof. unfold scale4. ring. Qed.
Lemma agreeL_nil D : agreeL [] (Comp 1 []) D.
Proof.
  assert (Z : forall R z phi t, scale4 1 (sum4 []) R z phi t = 0) by (intros; rewrite scale1, sum4_nil; reflexivity).
  unfold agreeL, agrees2. cbn -[scale4 sum4 calc calc2]. conjs; try (intros h [= <-]; eexists; split; [reflexivity|]); try (eexists; split; [reflexivity|]); try (intros; symmetry; apply Z); auto.
  intros h [= <-] R z _. cbn -[scale4 sum4]. symmetry. apply Z.
Qed.
Lemma o_cons a b fs (x : F4) : a = Some x -> option_map (scale4 1) (osum4 fs) = Some b -> exists c, option_map (scale4 1) (osum4 (a :: fs)) = Some c /\ forall R z phi t, c R z phi t = x R z phi t + b R z phi t.
Proof.
  intros -> H. unfold osum4 in *. cbn [sequence]. destruct (sequence fs) as [l|]; [|discriminate H]. cbn [option_map] in H |- *. injection H as <-. eexists. split; [reflexivity|].
  intros. rewrite !scale1, sum4_cons. reflexivity.
Qed.
Lemma agreeL_cons f fs p ps D E : agree f p D -> agreeL fs (Comp 1 ps) E -> agreeL (f :: fs) (Comp 1 (p :: ps)) (fun R z phi t => D R z phi t /\ E R z phi t).
Proof.
  intros [Hd [[ev [Ee He]] [HR [Hz [Hp [H1 [H2 [H3 [H4 [H5 [H6 Hn]]]]]]]]]]] [Gd [[gev [Ge GE]] [GR [Gz [Gp [G1 [G2 [G3 [G4 [G5 [G6 Gn]]]]]]]]]]].
  assert (C : forall (s : RR -> PotC -> option F4) g, agrees2 (g f) (api2 s p) D -> agrees2 (Some (calc2 g fs)) (api2 s (Comp 1 ps)) E -> agrees2 (Some (calc2 g (f :: fs))) (api2 s (Comp 1 (p :: ps))) (fun R z phi t => D R z phi t /\ E R z phi t)).
  { intros s g [h [Eh Hh]] [k [Ek Hk]]. cbn [api2 map] in *. rewrite Hd. destruct (o_cons (api2 s p) k _ h Eh Ek) as [c [Ec Hc]]. exists c. split; [exact Ec|].
    intros R z phi t [HD HE]. cbn [val]. rewrite calc2_cons, Hc, Hh by auto. f_equal. exact (Hk R z phi t HE). }
  unfold agreeL. conjs.
  - cbn in Gd |- *. now rewrite Hd, Gd.
  - cbn [apiEv map] in Ge |- *. rewrite Hd. destruct (o_cons (apiEv p) gev _ ev Ee Ge) as [c [Ec Hc]]. exists c. split; [exact Ec|].
    intros h Eh R z [HD HE]. unfold evaluatePotentials in Eh. destruct (calcall cf_ev (f :: fs)) as [h'|] eqn:E1; [|discriminate Eh]. injection Eh as <-.
    apply calcall_cons in E1. destruct E1 as [h1 [h2 [E1 [E2 E3]]]]. rewrite E3, Hc, (He h1 E1 R z HD). f_equal. apply (GE (fun R z => h2 R z 0 0)); auto. unfold evaluatePotentials. now rewrite E2.
  - intros R z phi t [HD HE]. rewrite calc_cons, HR, GR by auto. cbn [apiRf map]. rewrite !scale1, sum4_cons. reflexivity.
  - intros R z phi t [HD HE]. rewrite calc_cons, Hz, Gz by auto. cbn [apizf map]. rewrite !scale1, sum4_cons. reflexivity.
  - destruct Hp as [h [Eh Hh]], Gp as [k [Ek Hk]]. cbn [apiPt map] in *. destruct (o_cons (apiPt p novel) k _ h Eh Ek) as [c [Ec Hc]]. exists c. split; [exact Ec|].
    intros R z phi t [HD HE]. cbn [val]. rewrite calc_cons, Hc. f_equal; [exact (Hh R z phi t HD) | exact (Hk R z phi t HE)].
  - now apply C.
  - now apply C.
  - now apply C.
  - now apply C.
  - now apply C.
  - now apply C.
  - intros h Eh. apply calcall_cons in Eh. destruct Eh as [h1 [h2 [E1 [E2 E3]]]]. destruct (Hn h1 E1) as [k [Ek Hk]], (Gn h2 E2) as [k' [Ek' Hk']]. unfold apiDens in *. cbn [api2 map] in *. rewrite Hd.
    destruct (o_cons (api2 (dens_single false) p) k' _ k Ek Ek') as [c [Ec Hc]]. exists c. split; [exact Ec|]. intros R z phi t [HD HE]. cbn. rewrite E3, Hc. f_equal; [exact (Hk R z phi t HD) | exact (Hk' R z phi t HE)].
Qed.

(** ** Objects that are symmetric about the axis *)
Definition free (f : F4) : Prop := forall R z phi t, f R z phi t = f R z 0 t.
Definition ofree (o : option F4) : Prop := forall f, o = Some f -> free f.
Definition phi_free (p : Pot) : Prop :=
  ofree (apiEv p) /\ free (apiRf p novel) /\ free (apizf p novel) /\ ofree (apiPt p novel) /\ ofree (apiR2 p) /\ ofree (apiz2 p) /\ ofree (apiRz p) /\
  ofree (apip2 p) /\ ofree (apiRp p) /\ ofree (apipz p).
Lemma free_scale a f : free f -> free (scale4 a f).
Proof. intros H R z phi t. unfold scale4. now rewrite H. Qed.
Lemma ofree_some f : free f -> ofree (Some f).
Proof. intros H g [= <-]. exact H. Qed.
Lemma ofree_map a o : ofree o -> ofree (option_map (scale4 a) o).
Proof. intros H g. destruct o; [|discriminate]. intros [= <-]. apply free_scale. now apply H. Qed.
Lemma ofree_dflt a o : ofree o -> ofree (dflt false a o).
Proof. intros H g. destruct o; intros [= <-]; [apply free_scale; now apply H | intros ? ? ? ?; reflexivity]. Qed.
Definition class_free (c : PotC) : Prop :=
  free (c_ev c) /\ free (c_Rf c) /\ free (c_zf c) /\ ofree (c_pt c) /\ ofree (c_R2 c) /\ ofree (c_z2 c) /\ ofree (c_Rz c) /\ ofree (c_p2 c) /\ ofree (c_Rp c) /\ ofree (c_pz c).
Lemma single_free amp c : nonaxi c = false -> class_free c -> phi_free (Single amp c).
Proof.
  intros N [H1 [H2 [H3 [H4 [H5 [H6 [H7 [H8 [H9 H10]]]]]]]]]. unfold phi_free, apiR2, apiz2, apiRz, apip2, apiRp, apipz. cbn [apiEv apiRf apizf apiPt api2]. rewrite N.
  conjs; try apply free_scale; try apply ofree_some; try apply free_scale; try apply ofree_map; try apply ofree_dflt; auto.
Qed.
Lemma free_sum l : List.Forall free l -> free (sum4 l).
Proof. induction 1 as [|f l Hf _ IH]; intros R z phi t; [now rewrite !sum4_nil|]. rewrite !sum4_cons. now rewrite Hf, IH. Qed.
Lemma ofree_sum a l : List.Forall ofree l -> ofree (option_map (scale4 a) (osum4 l)).
Proof.
  intros H. apply ofree_map. intros f. unfold osum4. destruct (sequence l) as [fs|] eqn:E; [|discriminate]. intros [= <-]. apply free_sum. revert fs E.
  induction H as [|o l Ho _ IH]; cbn [sequence]; intros fs E; [injection E as <-; constructor|]. destruct o as [f|]; [|discriminate E]. destruct (sequence l) as [gs|]; [|discriminate E]. injection E as <-.
  constructor; [now apply Ho | now apply IH].
Qed.
Lemma comp_free a ps : List.Forall phi_free ps -> phi_free (Comp a ps).
Proof.
  intros H. assert (Q : forall (A : Type) (P : A -> Prop) (g : Pot -> A), (forall p, phi_free p -> P (g p)) -> List.Forall P (map g ps)) by (intros A P g Hg; apply List.Forall_map; eapply List.Forall_impl; [|exact H]; exact Hg).
  assert (Z : ofree (Some zero4)) by (apply ofree_some; intros ? ? ? ?; reflexivity).
  unfold phi_free, apiR2, apiz2, apiRz, apip2, apiRp, apipz. cbn [apiEv apiRf apizf apiPt api2].
  conjs; try apply free_scale; try apply ofree_sum; try apply free_sum; apply Q; intros p [H1 [H2 [H3 [H4 [H5 [H6 [H7 [H8 [H9 H10]]]]]]]]]; try (destruct (isDiss p); [exact Z|]); assumption.
Qed.

(** ** Leaves *)
Lemma axi_free ev Rf zf R2 z2 Rz dn : class_free (mkAxi ev Rf zf (Some R2) (Some z2) (Some Rz) dn).
Proof. unfold class_free. cbn. conjs; try (intros ? ? ? ?; reflexivity); intros f [= <-] ? ? ? ?; reflexivity. Qed.
Lemma leaf_free l amp c : same_class l amp c -> nonaxi c = false -> class_free c.
Proof.
  intros H N. destruct H; try apply axi_free; try discriminate N;
    (unfold class_free; cbn; conjs; try (intros ? ? ? ?; reflexivity); intros f [= <-] ? ? ? ?; reflexivity).
Qed.
Definition reads1 := reads c_nargs c_moving.
Lemma leaf_same linspace trange l amp c : same_class l amp c -> exists ty args cf, leaf_to_c linspace trange l = Some (mkSer 1 [ty] args []) /\
  reads1 (mkSer 1 [ty] args []) [CArg ty [] [] args [] []] /\ c_funs (CArg ty [] [] args [] []) = Some cf /\ agree cf (Single amp c) (leaf_dom l) /\ isNull (Leaf l) = false.
Proof.
  intros H. destruct H; do 3 eexists; (split; [reflexivity|]); (split; [unfold reads1; apply reads_simple; solve [reflexivity | lia | intros ?; reflexivity]|]); (split; [reflexivity|]); (split; [|reflexivity]); cbn [leaf_dom].
  - now apply LogHaloAxi_ok.
  - now apply LogHaloTri_ok.
  - now apply MiyamotoNagai_ok.
  - now apply PowerSpherical_ok.
  - now apply Hernquist_ok.
  - now apply NFW_ok.
  - now apply Jaffe_ok.
  - now apply FlattenedPower_ok.
  - now apply Isochrone_ok.
  - now apply Plummer_ok.
  - now apply PseudoIsothermal_ok.
  - now apply KuzminDisk_ok.
  - now apply Burkert_ok.
  - now apply DehnenCore_ok.
  - now apply Dehnen_ok.
  - now apply Homogeneous_ok.
Qed.

(** ** Wrappers *)
Lemma map_free (g : F4 -> F4) o : (forall f, free f -> free (g f)) -> ofree o -> ofree (option_map g o).
Proof. intros Hg H f. destruct o as [h|]; [|discriminate]. intros [= <-]. apply Hg. now apply H. Qed.
Lemma wrapAll_free g p c : (forall f, free f -> free (g f)) -> phi_free p -> wrapAll g p = Some c -> class_free c.
Proof.
  intros Hg [H1 [H2 [H3 [H4 [H5 [H6 [H7 [H8 [H9 H10]]]]]]]]] E. unfold wrapAll in E. destruct (isDiss p); [discriminate E|]. destruct (apiEv p) as [ev|]; [|discriminate E]. injection E as <-.
  unfold class_free. cbn [c_ev c_Rf c_zf c_pt c_R2 c_z2 c_Rz c_p2 c_Rp c_pz]. conjs; try (apply Hg; auto; now apply H1); apply map_free; auto.
Qed.
Lemma wrapAll_nonaxi g p c : wrapAll g p = Some c -> nonaxi c = isNonAxi p.
Proof. unfold wrapAll. destruct (isDiss p); [discriminate|]. destruct (apiEv p); [|discriminate]. now intros [= <-]. Qed.
Lemma wraps_free w amp p c : wraps w amp p c -> nonaxi c = false -> (isNonAxi p = false -> phi_free p) -> class_free c.
Proof.
  intros H N Hp. destruct H as [amp tform ts grow p c E | amp omega pa p c E | amp vpo beta pa to p c E | amp to sigma p c E | amp A p c E | amp a b p c E | amp Rp p c ev E _].
  - rewrite (wrapAll_nonaxi _ _ _ E) in N. eapply wrapAll_free; [|now apply Hp|exact E]. intros f Hf R z phi t. unfold amplitude. now rewrite Hf.
  - rewrite (wrapAll_nonaxi _ _ _ E) in N. eapply wrapAll_free; [|now apply Hp|exact E]. intros f Hf R z phi t. cbv beta. now rewrite Hf, (Hf R z (solid_phi _ _ _ _)).
  - unfold Wrappers.CorotatingRotation in E. destruct (isDiss p); [discriminate E|]. destruct (apiEv p) as [ev|] eqn:Ee; [|discriminate E]. destruct (apiPt p novel) as [pt|] eqn:Ep; [|discriminate E]. injection E as <-.
    cbn in N. destruct (Hp N) as [H1 [H2 [H3 [H4 [H5 [H6 [H7 [H8 [H9 H10]]]]]]]]]. rewrite Ee in H1. rewrite Ep in H4. specialize (H1 ev eq_refl). specialize (H4 pt eq_refl).
    assert (Q : forall f, free f -> free (co_f vpo beta to pa f)) by (intros f Hf R z phi t; unfold co_f; now rewrite Hf, (Hf R z (co_phi _ _ _ _ R 0 t))).
    unfold class_free. cbn [c_ev c_Rf c_zf c_pt c_R2 c_z2 c_Rz c_p2 c_Rp c_pz]. conjs; try (apply Q; assumption); try (apply ofree_some; apply Q; assumption); try (apply map_free; assumption).
    + intros R z phi t. unfold co_Rf. now rewrite (Q _ H2), (Q _ H4).
    + destruct (apiR2 p) as [x|]; [|intros ?; discriminate]. destruct (apiRp p) as [y|]; [|intros ?; discriminate]. destruct (apip2 p) as [v|]; [|intros ?; discriminate].
      apply ofree_some. intros R z phi t. unfold co_R2. now rewrite (Q x (H5 _ eq_refl)), (Q y (H9 _ eq_refl)), (Q v (H8 _ eq_refl)), (Q _ H4).
    + destruct (apiRz p) as [x|]; [|intros ?; discriminate]. destruct (apipz p) as [y|]; [|intros ?; discriminate]. apply ofree_some. intros R z phi t. unfold co_Rz. now rewrite (Q x (H7 _ eq_refl)), (Q y (H10 _ eq_refl)).
    + destruct (apiRp p) as [x|]; [|intros ?; discriminate]. destruct (apip2 p) as [y|]; [|intros ?; discriminate]. apply ofree_some. intros R z phi t. unfold co_Rp. now rewrite (Q x (H9 _ eq_refl)), (Q y (H8 _ eq_refl)).
  - rewrite (wrapAll_nonaxi _ _ _ E) in N. eapply wrapAll_free; [|now apply Hp|exact E]. intros f Hf R z phi t. unfold amplitude. now rewrite Hf.
  - rewrite (wrapAll_nonaxi _ _ _ E) in N. eapply wrapAll_free; [|now apply Hp|exact E]. intros f Hf R z phi t. unfold amplitude. now rewrite Hf.
  - unfold Wrappers.KuzminLike in E. destruct (isDiss p); [discriminate E|]. destruct (isNonAxi p); [discriminate E|]. destruct (Hp eq_refl) as [H1 [H2 [_ [_ [H5 _]]]]].
    destruct (apiEv p) as [ev|]; [|discriminate E]. injection E as <-. specialize (H1 ev eq_refl).
    unfold class_free. cbn [c_ev c_Rf c_zf c_pt c_R2 c_z2 c_Rz c_p2 c_Rp c_pz]. conjs; try (intros R z phi t; rewrite ?H1, ?(H2 _ _ phi t); reflexivity); try (apply ofree_some; intros ? ? ? ?; reflexivity); try (intros ?; discriminate);
      (apply map_free; [|exact H5]; intros f Hf R z phi t; cbv beta; now rewrite (Hf _ _ phi t), (H2 _ _ phi t)).
  - unfold CylSeparable in E. destruct (isDiss p); [discriminate E|]. destruct (isNonAxi p); [discriminate E|]. destruct (apiEv p) as [ev'|]; [|discriminate E]. injection E as <-.
    unfold class_free. cbn [c_ev c_Rf c_zf c_pt c_R2 c_z2 c_Rz c_p2 c_Rp c_pz]. conjs; try (intros R z phi t; reflexivity); try (apply ofree_some; intros ? ? ? ?; reflexivity); try (intros ?; discriminate).
    + destruct (apiR2 p); [apply ofree_some; intros ? ? ? ?; reflexivity | intros ?; discriminate].
    + destruct (apiz2 p); [apply ofree_some; intros ? ? ? ?; reflexivity | intros ?; discriminate].
Qed.

Lemma agree_single cf amp c (D : Dom) :
  (forall h, cf_ev cf = Some h -> forall R z, D R z 0 0 -> h R z 0 0 = amp * c_ev c R z 0 0) ->
  (forall R z phi t, D R z phi t -> cf_Rf cf R z phi t = amp * c_Rf c R z phi t) ->
  (forall R z phi t, D R z phi t -> cf_zf cf R z phi t = amp * c_zf c R z phi t) ->
  agrees2 (Some (cf_pt cf)) (dflt (nonaxi c) amp (c_pt c)) D ->
  agrees2 (cf_R2 cf) (option_map (scale4 amp) (c_R2 c)) D -> agrees2 (cf_z2 cf) (option_map (scale4 amp) (c_z2 c)) D -> agrees2 (cf_Rz cf) (option_map (scale4 amp) (c_Rz c)) D ->
  agrees2 (cf_p2 cf) (dflt (nonaxi c) amp (c_p2 c)) D -> agrees2 (cf_Rp cf) (dflt (nonaxi c) amp (c_Rp c)) D -> agrees2 (cf_pz cf) (dflt (nonaxi c) amp (c_pz c)) D ->
  cf_dn cf = None -> agree cf (Single amp c) D.
Proof.
  intros He HR Hz Hp H1 H2 H3 H4 H5 H6 Hn. unfold agree. conjs; auto; try assumption.
  - eexists. split; [reflexivity|]. exact He.
  - intros h Eh. rewrite Hn in Eh. discriminate Eh.
Qed.
(** The wrappers that call the wrapped functions at one other place: [g] acts on each of them *)
Lemma wrapAll_ok l p (E D : Dom) c amp (g : F4 -> F4) cf :
  agreeL l p E -> wrapAll g p = Some c ->
  (forall h, cf_ev cf = Some h -> exists k, evaluatePotentials l = Some k /\ forall R z ev, D R z 0 0 -> (forall R z, E R z 0 0 -> k R z = ev R z 0 0) -> h R z 0 0 = amp * g ev R z 0 0) ->
  (forall (f api : F4) R z phi t, D R z phi t -> (forall R z phi t, E R z phi t -> f R z phi t = api R z phi t) ->
     let m (f : F4) := (amp * g f R z phi t) in m f = m api) ->
  (forall R z phi t, D R z phi t -> cf_Rf cf R z phi t = amp * g (calc cf_Rf l) R z phi t) ->
  (forall R z phi t, D R z phi t -> cf_zf cf R z phi t = amp * g (calc cf_zf l) R z phi t) ->
  (forall R z phi t, D R z phi t -> cf_pt cf R z phi t = amp * g (calc cf_pt l) R z phi t) ->
  (forall R z phi t, D R z phi t -> val (cf_R2 cf) R z phi t = amp * g (calc2 cf_R2 l) R z phi t) ->
  (forall R z phi t, D R z phi t -> val (cf_z2 cf) R z phi t = amp * g (calc2 cf_z2 l) R z phi t) ->
  (forall R z phi t, D R z phi t -> val (cf_Rz cf) R z phi t = amp * g (calc2 cf_Rz l) R z phi t) ->
  (forall R z phi t, D R z phi t -> val (cf_p2 cf) R z phi t = amp * g (calc2 cf_p2 l) R z phi t) ->
  (forall R z phi t, D R z phi t -> val (cf_Rp cf) R z phi t = amp * g (calc2 cf_Rp l) R z phi t) ->
  (forall R z phi t, D R z phi t -> val (cf_pz cf) R z phi t = amp * g (calc2 cf_pz l) R z phi t) ->
  cf_dn cf = None -> agree cf (Single amp c) D.
Proof.
  intros [Hd [[ev [Ee He]] [HR [Hz [[pt [Ep Hp]] [[h1 [E1 H1]] [[h2 [E2 H2]] [[h3 [E3 H3]] [[h4 [E4 H4]] [[h5 [E5 H5]] [[h6 [E6 H6]] _]]]]]]]]]]] Ec Cv M C1 C2 C3 C4 C5 C6 C7 C8 C9 Hn.
  unfold wrapAll in Ec. rewrite Hd, Ee, Ep, E1, E2, E3, E4, E5, E6 in Ec. injection Ec as <-.
  apply agree_single; cbn [c_ev c_Rf c_zf c_pt c_R2 c_z2 c_Rz c_p2 c_Rp c_pz nonaxi option_map dflt]; unfold agrees2; try (eexists; split; [reflexivity|]); try exact Hn; intros.
  - destruct (Cv h H) as [k [Ek Hk]]. apply Hk; auto.
  - rewrite C1 by auto. now apply (M (calc cf_Rf l) (apiRf p novel)).
  - rewrite C2 by auto. now apply (M (calc cf_zf l) (apizf p novel)).
  - cbn [val]. rewrite C3 by auto. now apply (M (calc cf_pt l) pt).
  - rewrite C4 by auto. now apply (M (calc2 cf_R2 l) h1).
  - rewrite C5 by auto. now apply (M (calc2 cf_z2 l) h2).
  - rewrite C6 by auto. now apply (M (calc2 cf_Rz l) h3).
  - rewrite C7 by auto. now apply (M (calc2 cf_p2 l) h4).
  - rewrite C8 by auto. now apply (M (calc2 cf_Rp l) h5).
  - rewrite C9 by auto. now apply (M (calc2 cf_pz l) h6).
Qed.
Lemma w_amp_ok l p E c amp s (A : RR -> RR) : (forall t, s t = A t) -> agreeL l p E -> wrapAll (amplitude A) p = Some c -> agree (w_amp amp s l) (Single amp c) E.
Proof.
  intros HA HL Hc. eapply wrapAll_ok; eauto; unfold amplitude; try (intros; cbn; rewrite HA; ring); try reflexivity.
  - cbn. intros h Eh. destruct (evaluatePotentials l) as [k|]; [|discriminate Eh]. injection Eh as <-. exists k. split; auto. intros R z ev HD HE. rewrite HA, HE by auto. ring.
  - cbv zeta. intros f api R z phi t HD HE. now rewrite HE.
Qed.
Lemma w_solid_ok l p (E : Dom) c amp omega pa : agreeL l p E -> Wrappers.SolidBodyRotation omega pa p = Some c -> agree (w_solid amp omega pa l) (Single amp c) (fun R z phi t => E R z (phi - omega * t - pa) t).
Proof.
  intros HL Hc. eapply wrapAll_ok; eauto; unfold solid_phi; try (intros; reflexivity).
  - discriminate.
  - cbv zeta. intros f api R z phi t HD HE. now rewrite HE.
Qed.
Lemma w_corot_ok l p (E : Dom) c amp vpo beta pa to : agreeL l p E -> Wrappers.CorotatingRotation vpo beta to pa p = Some c ->
  agree (w_corot amp vpo beta pa to l) (Single amp c) (fun R z phi t => 0 < R /\ E R z (phi - vpo * rpow R (beta - 1) * (t - to) - pa) t).
Proof.
  intros [Hd [[ev [Ee He]] [HR [Hz [[pt [Ep Hp]] [[h1 [E1 H1]] [[h2 [E2 H2]] [[h3 [E3 H3]] [[h4 [E4 H4]] [[h5 [E5 H5]] [[h6 [E6 H6]] _]]]]]]]]]]] Ec.
  unfold Wrappers.CorotatingRotation in Ec. rewrite Hd, Ee, Ep, E1, E2, E3, E4, E5, E6 in Ec. injection Ec as <-. cbn [val] in *.
  apply agree_single; cbn [c_ev c_Rf c_zf c_pt c_R2 c_z2 c_Rz c_p2 c_Rp c_pz nonaxi option_map dflt lift2o w_corot cf_ev cf_Rf cf_zf cf_pt cf_R2 cf_z2 cf_Rz cf_p2 cf_Rp cf_pz cf_dn]; unfold agrees2; try (eexists; split; [reflexivity|]); try reflexivity;
    try discriminate; intros R z phi t [HR0 HE]; cbn [val]; unfold scale4, co_Rf, co_R2, co_Rz, co_Rp, co_f, co_phi;
    rewrite ?HR, ?Hz, ?Hp, ?H1, ?H2, ?H3, ?H4, ?H5, ?H6 by exact HE; ring.
Qed.
Lemma w_kuzmin_ok l p (E : Dom) c amp a b : agreeL l p E -> (isNonAxi p = false -> phi_free p) -> Wrappers.KuzminLike a b 1 p = Some c ->
  agree (w_kuzmin amp a (b ^ 2) l) (Single amp c) (fun R z phi t => 0 < z ^ 2 + b ^ 2 /\ (R <> 0 \/ a + sqrt (z ^ 2 + b ^ 2) <> 0) /\ E (sqrt (R ^ 2 + (a + sqrt (z ^ 2 + b ^ 2)) ^ 2)) 0 0 t).
Proof.
  intros [Hd [[ev [Ee He]] [HR [_ [_ [[h1 [E1 H1]] _]]]]]] Hf Ec. unfold Wrappers.KuzminLike in Ec. rewrite Hd in Ec. destruct (isNonAxi p); [discriminate Ec|].
  destruct (Hf eq_refl) as [F1 [F2 [_ [_ [F5 _]]]]]. rewrite E1 in F5. specialize (F5 h1 eq_refl). rewrite Ee in Ec, F1. specialize (F1 ev eq_refl). rewrite E1 in Ec. injection Ec as <-. cbn [val] in *.
  apply agree_single; cbn [c_ev c_Rf c_zf c_pt c_R2 c_z2 c_Rz c_p2 c_Rp c_pz nonaxi option_map dflt w_kuzmin cf_ev cf_Rf cf_zf cf_pt cf_R2 cf_z2 cf_Rz cf_p2 cf_Rp cf_pz cf_dn]; unfold agrees2; try (eexists; split; [reflexivity|]); try reflexivity;
    try (intros; cbn; unfold scale4, zero4; ring).
  - intros h Eh R z [_ [_ HE]]. destruct (evaluatePotentials l) as [k|]; [|discriminate Eh]. injection Eh as <-. unfold kl_xi, kl_b2, cKL_xi. now rewrite (He k eq_refl) by exact HE.
  - intros R z phi t [_ [_ HE]]. unfold kl_dxidR, kl_xi, kl_b2, cKL_xi, cKL_dxidR. rewrite HR by exact HE. rewrite (F2 _ _ phi t). ring.
  - intros R z phi t [_ [_ HE]]. unfold kl_dxidz, kl_xi, kl_b2, cKL_xi, cKL_dxidz. rewrite HR by exact HE. rewrite (F2 _ _ phi t). ring.
  - intros R z phi t [Hb [HD HE]]. cbn [val]. unfold scale4. unfold cKL_xi at 1 2. rewrite HR, H1 by exact HE. rewrite (F2 _ _ phi t), (F5 _ _ phi t). unfold kl_dxidR, kl_d2xidR2, kl_xi, kl_b2, cKL_dxidR, cKL_d2xidR2, cKL_xi. cbv zeta.
    apply sum_sq_pos in HD. rewrite rpow_3_2 by exact HD. pose proof (sqrt_lt_R0 _ HD). field. lra.
  - intros R z phi t [Hb [HD HE]]. cbn [val]. unfold scale4. unfold cKL_xi at 1 2. rewrite HR, H1 by exact HE. rewrite (F2 _ _ phi t), (F5 _ _ phi t). unfold kl_dxidz, kl_d2xidz2, kl_xi, kl_b2, cKL_dxidz, cKL_d2xidz2, cKL_xi. cbv zeta.
    apply sum_sq_pos in HD. rewrite !(Rplus_comm (b ^ 2) (z ^ 2)), rpow_3_2 by exact Hb. pose proof (sqrt_lt_R0 _ HD). pose proof (sqrt_lt_R0 _ Hb). field. sides.
  - intros R z phi t [Hb [HD HE]]. cbn [val]. unfold scale4. unfold cKL_xi at 1 2. rewrite HR, H1 by exact HE. rewrite (F2 _ _ phi t), (F5 _ _ phi t). unfold kl_dxidR, kl_dxidz, kl_d2xidRdz, kl_xi, kl_b2, cKL_dxidR, cKL_dxidz, cKL_d2xidRdz, cKL_xi. cbv zeta.
    apply sum_sq_pos in HD. rewrite !(Rplus_comm (b ^ 2) (z ^ 2)). rewrite (Rplus_comm ((a + sqrt (z ^ 2 + b ^ 2)) ^ 2) (R ^ 2)), rpow_3_2 by exact HD. pose proof (sqrt_lt_R0 _ HD). pose proof (sqrt_lt_R0 _ Hb). field. sides.
Qed.
Lemma w_cyl_ok l p (E : Dom) c amp Rp ev : agreeL l p E -> Wrappers.CylSeparable Rp p = Some c -> apiEv p = Some ev -> agree (w_cyl amp Rp (ev Rp 0 0 0) l) (Single amp c) (fun R z _ _ => E R 0 0 0 /\ E Rp z 0 0).
Proof.
  intros [Hd [[ev' [Ee He]] [HR [Hz [_ [[h1 [E1 H1]] [[h2 [E2 H2]] _]]]]]]] Ec Ev. rewrite Ev in Ee. injection Ee as <-. unfold Wrappers.CylSeparable in Ec. rewrite Hd in Ec. destruct (isNonAxi p); [discriminate Ec|].
  rewrite Ev, E1, E2 in Ec. injection Ec as <-. cbn [val] in *.
  apply agree_single; cbn [c_ev c_Rf c_zf c_pt c_R2 c_z2 c_Rz c_p2 c_Rp c_pz nonaxi option_map dflt w_cyl cf_ev cf_Rf cf_zf cf_pt cf_R2 cf_z2 cf_Rz cf_p2 cf_Rp cf_pz cf_dn]; unfold agrees2; try (eexists; split; [reflexivity|]); try reflexivity;
    try (intros; cbn; unfold scale4, zero4; ring).
  - intros h Eh R z [HE1 HE2]. destruct (evaluatePotentials l) as [k|]; [|discriminate Eh]. injection Eh as <-. now rewrite !(He k eq_refl) by assumption.
  - intros R z phi t [HE1 HE2]. now rewrite HR.
  - intros R z phi t [HE1 HE2]. now rewrite Hz.
  - intros R z phi t [HE1 HE2]. cbn [val]. now rewrite H1.
  - intros R z phi t [HE1 HE2]. cbn [val]. now rewrite H2.
Qed.

(** ** Everything *)
Section All.
  Variables (nan : RR) (linspace : RR -> RR -> nat -> list RR) (trange : option (RR * RR)).
  Definition ok_pot (s : pot) (p : Pot) : Prop :=
    isNull s = false /\ (isNonAxi p = false -> phi_free p) /\
    exists sr c cf, pot_to_c nan linspace trange s = Some sr /\ reads1 sr [c] /\ c_funs c = Some cf /\ agree cf p (dom s).
  Definition ok_list (l : list pot) (p : Pot) : Prop :=
    (isNonAxi p = false -> phi_free p) /\
    exists sr cs fs, (forall k, pots_to_c nan linspace trange k l = Some sr) /\ reads1 sr cs /\ sequence (map c_funs cs) = Some fs /\ agreeL fs p (doms l).
  Lemma dehnen_same tform ts grow t : dehnenSmooth t tform ts (of_bool grow) = dehnen_smooth tform ts grow t.
  Proof.
    unfold dehnenSmooth, dehnen_smooth. cbv zeta. destruct grow; cbn [of_bool]; destruct (Req_EM_T _ 0); try lra; destruct (Rlt_dec t tform); auto; destruct (Rlt_dec t ts); auto; try lra; cbv zeta; field; lra.
  Qed.
  Lemma gauss_same to sigma t : gaussSmooth t to (sigma ^ 2) = gaussAmp to sigma t.
  Proof. unfold gaussSmooth, gaussAmp. f_equal. replace (1 / 2) with (/ 2) by field. unfold Rdiv. ring. Qed.
  Lemma doms_inner R z phi t : forall l, (fix all (l : list pot) : Prop := match l with [] => True | s :: l => dom s R z phi t /\ all l end) l = doms l R z phi t.
  Proof. induction l as [|s l IH]; cbn; [reflexivity|]. now rewrite IH. Qed.
  Lemma wrap_same w inner amp p c : ok_list inner p -> wraps w amp p c -> ok_pot (Wrap w inner) (Single amp c).
  Proof.
    intros [Hf [sr [cs [fs [Hs [Hr [Hc Ha]]]]]]] H. unfold ok_pot. split; [reflexivity|]. split.
    { cbn [isNonAxi]. intros N. apply single_free; auto. eapply wraps_free; eauto. }
    rewrite pot_to_c_wrap, Hs.
    destruct H as [amp tform ts grow p c E | amp omega pa p c E | amp vpo beta pa to p c E | amp to sigma p c E | amp A p c E | amp a b p c E | amp Rp p c ev E Ev]; cbn [wrapper_ser app];
      do 3 eexists; (split; [reflexivity|]); (split; [unfold reads1; apply (wrap_simple c_nargs c_moving); [lia | reflexivity | reflexivity | intros ?; reflexivity | reflexivity | reflexivity | reflexivity | exact Hr]|]);
      (split; [cbn [c_funs]; rewrite Hc; reflexivity|]); (eapply agree_mono; [intros R z phi t HD; cbn [dom] in HD; rewrite ?doms_inner in HD; exact HD|]).
    - eapply w_amp_ok; [|exact Ha|exact E]. intros t. apply dehnen_same.
    - apply (w_solid_ok fs p (doms inner) c amp omega pa Ha E).
    - apply (w_corot_ok fs p (doms inner) c amp vpo beta pa to Ha E).
    - eapply w_amp_ok; [|exact Ha|exact E]. intros t. apply gauss_same.
    - eapply w_amp_ok; [|exact Ha|exact E]. reflexivity.
    - apply (w_kuzmin_ok fs p (doms inner) c amp a b Ha Hf E).
    - apply (w_cyl_ok fs p (doms inner) c amp Rp ev Ha E Ev).
  Qed.
  Scheme same_ind2 := Minimality for same Sort Prop with same_object_ind2 := Minimality for same_object Sort Prop with sames_ind2 := Minimality for sames Sort Prop.
  Combined Scheme same_all from same_ind2, same_object_ind2, sames_ind2.
  Definition ok_sum (l : list pot) (ps : list Pot) : Prop := (isNonAxi (Comp 1 ps) = false -> List.Forall phi_free ps) /\
    exists sr cs fs, (forall k, pots_to_c nan linspace trange k l = Some sr) /\ reads1 sr cs /\ sequence (map c_funs cs) = Some fs /\ agreeL fs (Comp 1 ps) (doms l).
  Lemma sum_same : (forall s p, same s p -> ok_pot s p) /\ (forall l p, same_object l p -> ok_list l p) /\ (forall l ps, sames l ps -> ok_sum l ps).
  Proof.
    apply same_all.
    - intros l amp c H. destruct (leaf_same linspace trange l amp c H) as [ty [args [cf [E [Hr [Hc [Ha Hn]]]]]]]. unfold ok_pot. split; auto. split.
      { cbn [isNonAxi]. intros N. apply single_free; auto. eapply leaf_free; eauto. }
      do 3 eexists. split; [exact E|]. split; [exact Hr|]. split; [exact Hc|]. exact Ha.
    - intros w inner amp p c _ H W. eapply wrap_same; eauto.
    - intros s p _ [Hn [Hf [sr [c [cf [E [Hr [Hc Ha]]]]]]]]. split; auto. exists (app_ser sr null_ser), ([c] ++ []), [cf].
      split; [intros k; cbn [pots_to_c]; rewrite Hn; cbn [andb]; rewrite E; reflexivity|]. split; [apply reads_app; [exact Hr | apply reads_nil]|]. split; [cbn; now rewrite Hc|].
      eapply agreeL_mono; [|apply agreeL_one; exact Ha]. cbn. tauto.
    - intros l ps _ [Hf H]. split; auto. intros N. apply comp_free. auto.
    - split; [intros _; constructor|]. exists null_ser, [], []. split; [reflexivity|]. split; [apply reads_nil|]. split; [reflexivity|]. apply agreeL_nil.
    - intros s p l ps _ [Hn [Hf [sr [c [cf [E [Hr [Hc Ha]]]]]]]] _ [Gf [sl [cs [fs [El [Gr [Gc Ga]]]]]]]. split.
      { cbn. intros N. apply orb_false_iff in N. destruct N as [N1 N2]. constructor; auto. }
      exists (app_ser sr sl), ([c] ++ cs), (cf :: fs).
      split; [intros k; cbn [pots_to_c]; rewrite Hn; cbn [andb]; rewrite E, El; reflexivity|]. split; [apply reads_app; assumption|]. split; [cbn; now rewrite Hc, Gc|].
      apply (agreeL_cons cf fs p ps (dom s) (doms l)); assumption.
  Qed.
End All.
