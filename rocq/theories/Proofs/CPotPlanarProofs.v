(** The planar C functions equal the Python ones *)
From Coq Require Import Reals Lra Lia List Bool ZArith.
From Verif.Lib Require Import RealAux.
From Verif.Model Require Import PotAPI Wrappers WrappersPlanar CSerial CSerialPlanar Reduce CPot CPotPlanar.
From Verif.Model Require PotAxi PotNonAxi PotPlanar.
From Verif.Spec Require Import PotSpec CPotSpec CPotPlanarSpec PlanarSpec SuperSpec ReduceSpec.
From Verif.Proofs Require CSerialPlanarProofs.
From Verif.Proofs Require Import PotLift ReduceProofs CSerialProofs CPotLeaf CPotProofs.
Import ListNotations.
Open Scope R_scope.
Notation RR := RbaseSymbolsImpl.R (only parsing).

(** ** The planar functions of each potential are its three-dimensional ones at z = 0 *)
Lemma sq0 R : 0 < R -> sqrt (R ^ 2 + 0 ^ 2) = R.
Proof. intros H. replace (R ^ 2 + 0 ^ 2) with (Rsqr R) by (unfold Rsqr; ring). apply sqrt_Rsqr. lra. Qed.
Lemma p0 R : R ^ 2 + 0 ^ 2 = R ^ 2.
Proof. ring. Qed.
Lemma rpow_sq R p : 0 < R -> rpow (R ^ 2) p = rpow R (2 * p).
Proof. intros H. rewrite <- rpow_2 by auto. now rewrite rpow_mult. Qed.
Lemma sph_flat P2 P1 R : 0 < R -> sphR2 P2 P1 R 0 = P2 R.
Proof. intros H. unfold sphR2. cbv zeta. rewrite sq0 by auto. field. lra. Qed.

Lemma kl_b2_eq b : kl_b2 b = b ^ 2.
Proof. reflexivity. Qed.
Section Leaves.
  Variable H : bool.
  Definition flat (f : pfuns) (cf : cfuns) (D : Dom3) : Prop := forall R phi t, D R phi t ->
    pf_Rf f R phi t = cf_Rf cf R 0 phi t /\ pf_pt f R phi t = cf_pt cf R 0 phi t /\
    (H = true -> pf_R2 f R phi t = val (cf_R2 cf) R 0 phi t /\ pf_p2 f R phi t = val (cf_p2 cf) R 0 phi t /\ pf_Rp f R phi t = val (cf_Rp cf) R 0 phi t).
  Lemma flat_axi P1 P2 ev Rf zf R2 z2 Rz dn (D : Dom3) : (forall R phi t, D R phi t -> P1 R = Rf R 0 /\ (H = true -> P2 R = R2 R 0)) -> flat (paxi P1 P2) (axi ev Rf zf R2 z2 Rz dn) D.
  Proof. intros K R phi t HD. destruct (K R phi t HD) as [K1 K2]. unfold paxi, axi, of_Rz, zero3, zero4. cbn [pf_Rf pf_pt pf_R2 pf_p2 pf_Rp cf_Rf cf_pt cf_R2 cf_p2 cf_Rp val]. conjs; auto; intros E; conjs; auto. Qed.
  Lemma leaf_flat nan linspace trange l amp c ty args cf : same_class l amp c -> fine_leaf H l -> leaf_to_c linspace trange l = Some (mkSer 1 [ty] args []) -> c_funs (CArg ty [] [] args [] []) = Some cf ->
    exists args2 f, leaf2_to_c nan linspace trange (Shared l) = Some (mkSer 1 [ty] args2 []) /\ reads c_nargs2 c_moving2 (mkSer 1 [ty] args2 []) [CArg ty [] [] args2 [] []] /\ p_funs nan (CArg ty [] [] args2 [] []) = Some f /\
      flat f cf (leaf_dom2 (Shared l)).
  Proof.
    intros HS HF E Ec. destruct HS; cbn [leaf_to_c leaf_ser] in E; try (destruct (Rlt_dec _ _)); injection E as <- <-; cbn in Ec; injection Ec as <-;
      do 2 eexists; (split; [reflexivity|]); (split; [apply reads_simple0; solve [reflexivity | lia | intros ?; reflexivity]|]); (split; [reflexivity|]);
      unfold leaf_dom2; cbn [leaf_dom]; try (apply flat_axi); intros R phi t [HR HD].
    - unfold cLH, pLH, cLH_PlanarRforce, cLH_Planarphitorque, cLH_PlanarR2deriv, cLH_Planarphi2deriv, cLH_PlanarRphideriv, cLH_Rforce, cLH_phitorque, cLH_R2deriv, cLH_phi2deriv, cLH_Rphideriv.
      cbn [pf_Rf pf_pt pf_R2 pf_p2 pf_Rp cf_Rf cf_pt cf_R2 cf_p2 cf_Rp val]. unfold tri. destruct (Rlt_dec 2 1); [lra|]. cbv zeta. replace (R ^ 2 + (0 / q) ^ 2 + core2) with (R ^ 2 + core2) in * by (field; lra).
      conjs; [reflexivity | reflexivity |]. intros _. conjs; [toR; field; lra | reflexivity | reflexivity].
    - unfold cLH, pLH, cLH_PlanarRforce, cLH_Planarphitorque, cLH_PlanarR2deriv, cLH_Planarphi2deriv, cLH_PlanarRphideriv, cLH_Rforce, cLH_phitorque, cLH_R2deriv, cLH_phi2deriv, cLH_Rphideriv.
      cbn [pf_Rf pf_pt pf_R2 pf_p2 pf_Rp cf_Rf cf_pt cf_R2 cf_p2 cf_Rp val]. unfold tri. destruct HD as [_ HD]. fold (Rt2 (1 - 1 / b ^ 2) R phi) in *. 
      destruct (Rlt_dec _ 1) as [_|N]; cbv zeta; (replace ((0 / q) ^ 2) with 0 in * by (field; lra)); rewrite ?Rplus_0_r in *.
      2:{ exfalso. apply N. assert (0 < b ^ 2) by nra. assert (0 < 1 / b ^ 2) by (apply Rdiv_lt_0_compat; lra). lra. }
      { set (o := 1 - 1 / b ^ 2) in *. conjs; [toR; field; lra | toR; field; lra |]. intros _. conjs; toR; field; lra. }
    - unfold cMN_PlanarRforce, cMN_Rforce, cMN_PlanarR2deriv, cMN_R2deriv. cbv zeta. cbn [fine_leaf] in HF.
      replace (sqrt (0 ^ 2 + b ^ 2)) with b by (rewrite Rplus_comm; symmetry; now apply sq0). rewrite sq0 by auto. split; [reflexivity | intros _; reflexivity].
    - unfold cPS_PlanarRforce, cPS_Rforce. split; [|intros _; now rewrite sph_flat]. rewrite p0, rpow_sq, rpow_plus, rpow_1 by auto. replace (2 * (- / 2 * alpha)) with (- alpha) by field. ring.
    - unfold cHe_PlanarRforce, cHe_Rforce, cHe_PlanarR2deriv, cHe_R2deriv, cHe_dphi, cHe_d2phi. cbv zeta. rewrite sq0 by auto. assert (0 < R / a) by (apply Rdiv_lt_0_compat; lra). split; [|intros _]; field; sides.
    - unfold cNFW_PlanarRforce, cNFW_Rforce, cNFW_PlanarR2deriv, cNFW_R2deriv, cNFW_dphi, cNFW_d2phi. cbv zeta. rewrite ?sq0 by auto. assert (0 < R / a) by (apply Rdiv_lt_0_compat; lra). split; [|intros _]; field; sides.
    - unfold cJa_PlanarRforce, cJa_Rforce, cJa_PlanarR2deriv, cJa_R2deriv, cJa_dphi, cJa_d2phi. cbv zeta. rewrite sq0 by auto. assert (0 < a / R) by (apply Rdiv_lt_0_compat; lra). split; [|intros _]; field; sides.
    - unfold cFP_PlanarRforce, cFP_Rforce, cFP_PlanarR2deriv, cFP_R2deriv. cbv zeta. replace (0 ^ 2 / q2) with 0 in * by (field; lra). rewrite !Rplus_0_r in *. destruct (Req_EM_T alpha 0); (split; [|intros _]); try reflexivity. field. lra.
    - unfold cIso_PlanarRforce, cIso_Rforce. cbv zeta. rewrite p0. split; [reflexivity|]. intros _. now rewrite sph_flat.
    - unfold cPl_PlanarRforce, cPl_Rforce, cPl_PlanarR2deriv, cPl_R2deriv. rewrite p0. split; [reflexivity|]. intros _. f_equal. ring.
    - unfold cPI_PlanarRforce, cPI_Rforce. cbv zeta. rewrite ?sq0 by auto. split; [|intros _; now rewrite sph_flat]. rewrite ?p0. field. sides.
    - unfold cKu_PlanarRforce, cKu_Rforce. rewrite Rabs_R0, Rplus_0_r. split; [reflexivity|]. cbn in HF. rewrite HF. discriminate.
    - unfold cBu_PlanarRforce, cBu_Rforce. cbv zeta. rewrite ?sq0 by auto. split; [|intros _; now rewrite sph_flat]. field. sides.
    - unfold cDC_PlanarRforce, cDC_Rforce. cbv zeta. rewrite ?sq0 by auto. split; [reflexivity | intros _; now rewrite sph_flat].
    - unfold cDe_PlanarRforce, cDe_Rforce. cbv zeta. rewrite ?sq0 by auto. split; [|intros _; now rewrite sph_flat]. field. sides.
    - unfold cHS_PlanarRforce, cHS_Rforce. cbv zeta. rewrite p0. split; [|intros _; now rewrite sph_flat]. destruct (Rlt_dec _ _); [reflexivity|]. rewrite rpow_sq by auto. replace (2 * (3 / 2)) with 3 by field. rewrite rpow_3 by auto. field. lra.
  Qed.

  (** ** Sums of planar functions *)
  Lemma pcalc_cons g f l R phi t : pcalc g (f :: l) R phi t = g f R phi t + pcalc g l R phi t.
  Proof. unfold pcalc. cbn. rewrite (fold_acc (fun f => g f R phi t)). ring. Qed.
  Lemma pcalc_nil g R phi t : pcalc g [] R phi t = 0.
  Proof. reflexivity. Qed.
  Lemma pcalc_one g f R phi t : pcalc g [f] R phi t = g f R phi t.
  Proof. rewrite pcalc_cons, pcalc_nil. ring. Qed.

  (** ** Compared with the three-dimensional methods at z = 0 *)
  Definition eqZ (g : F3) (o : option F4) (D : Dom3) : Prop := exists h, o = Some h /\ forall R phi t, D R phi t -> g R phi t = h R 0 phi t.
  Definition agreeZ (rf pt r2 p2 rp : F3) (p : Pot) (D : Dom3) : Prop :=
    isDiss p = false /\ (forall R phi t, D R phi t -> rf R phi t = apiRf p novel R 0 phi t) /\ eqZ pt (apiPt p novel) D /\
    (exists ev, apiEv p = Some ev) /\ (exists h, apiR2 p = Some h) /\ (exists h, apip2 p = Some h) /\ (exists h, apiRp p = Some h) /\
    (H = true -> eqZ r2 (apiR2 p) D /\ eqZ p2 (apip2 p) D /\ eqZ rp (apiRp p) D).
  Definition agreeZ1 (f : pfuns) := agreeZ (pf_Rf f) (pf_pt f) (pf_R2 f) (pf_p2 f) (pf_Rp f).
  Definition agreeZL (l : list pfuns) := agreeZ (pcalc pf_Rf l) (pcalc pf_pt l) (pcalc pf_R2 l) (pcalc pf_p2 l) (pcalc pf_Rp l).
  Lemma eqZ_ext g g' o (D E : Dom3) : (forall R phi t, E R phi t -> D R phi t /\ g' R phi t = g R phi t) -> eqZ g o D -> eqZ g' o E.
  Proof. intros K [h [-> Hh]]. exists h. split; auto. intros R phi t HE. destruct (K R phi t HE) as [HD ->]. auto. Qed.
  Lemma agreeZ_ext rf pt r2 p2 rp rf' pt' r2' p2' rp' p (D E : Dom3) :
    (forall R phi t, E R phi t -> D R phi t /\ rf' R phi t = rf R phi t /\ pt' R phi t = pt R phi t /\ r2' R phi t = r2 R phi t /\ p2' R phi t = p2 R phi t /\ rp' R phi t = rp R phi t) ->
    agreeZ rf pt r2 p2 rp p D -> agreeZ rf' pt' r2' p2' rp' p E.
  Proof.
    intros K [Hd [HR [Hp [Hx1 [Hx2 [Hx3 [Hx4 HH]]]]]]]. unfold agreeZ. conjs; auto.
    - intros R phi t HE. destruct (K R phi t HE) as [HD [-> _]]. auto.
    - eapply eqZ_ext; [|exact Hp]. intros R phi t HE. destruct (K R phi t HE) as [HD [_ [-> _]]]. auto.
    - intros E1. destruct (HH E1) as [H1 [H2 H3]]. conjs; (eapply eqZ_ext; [|eassumption]); intros R phi t HE; destruct (K R phi t HE) as [HD [_ [_ [Q1 [Q2 Q3]]]]]; auto.
  Qed.
  Lemma agreeZ_one f p D : agreeZ1 f p D -> agreeZL [f] p D.
  Proof. apply agreeZ_ext. intros R phi t HE. rewrite !pcalc_one. conjs; auto. Qed.
  Lemma agreeZ_nil D : agreeZL [] (Comp 1 []) D.
  Proof.
    unfold agreeZL, agreeZ, eqZ, apiR2, apip2, apiRp. cbn -[pcalc]. conjs; eauto.
    - intros R phi t _. rewrite pcalc_nil. unfold scale4. rewrite sum4_nil. unfold zero4. ring.
    - eexists. split; [reflexivity|]. intros R phi t _. rewrite pcalc_nil. unfold scale4, sum4, zero4. cbn. ring.
    - intros _. conjs; (eexists; split; [reflexivity|]; intros R phi t _; rewrite pcalc_nil; unfold scale4, sum4, zero4; cbn; ring).
  Qed.
  Lemma agreeZ_cons f fs p ps D E : agreeZ1 f p D -> agreeZL fs (Comp 1 ps) E -> agreeZL (f :: fs) (Comp 1 (p :: ps)) (fun R phi t => D R phi t /\ E R phi t).
  Proof.
    intros [Hd [HR [Hp [[ev Hev] [[x1 Hx1] [[x2 Hx2] [[x3 Hx3] HH]]]]]]] [Gd [GR [Gp [[gev Gev] [[y1 Gx1] [[y2 Gx2] [[y3 Gx3] GH]]]]]]].
    assert (C : forall (s : RR -> PotC -> option F4) g, eqZ (g f) (api2 s p) D -> eqZ (pcalc g fs) (api2 s (Comp 1 ps)) E -> eqZ (pcalc g (f :: fs)) (api2 s (Comp 1 (p :: ps))) (fun R phi t => D R phi t /\ E R phi t)).
    { intros s g [h [Eh Hh]] [k [Ek Hk]]. cbn [api2 map] in *. rewrite Hd. destruct (o_cons (api2 s p) k _ h Eh Ek) as [c [Ec Hc]]. exists c. split; [exact Ec|].
      intros R phi t [HD HE]. rewrite pcalc_cons, Hc, Hh, Hk by auto. reflexivity. }
    assert (X : forall (s : RR -> PotC -> option F4) h k, api2 s p = Some h -> api2 s (Comp 1 ps) = Some k -> exists c, api2 s (Comp 1 (p :: ps)) = Some c).
    { intros s h k Eh Ek. cbn [api2 map] in *. rewrite Hd. destruct (o_cons (api2 s p) k _ h Eh Ek) as [c [Ec Hc]]. eauto. }
    unfold agreeZL, agreeZ. conjs.
    - cbn in Gd |- *. now rewrite Hd, Gd.
    - intros R phi t [HD HE]. rewrite pcalc_cons, HR, GR by auto. cbn [apiRf map]. rewrite !scale1, sum4_cons. reflexivity.
    - destruct Hp as [h [Eh Hh]], Gp as [k [Ek Hk]]. cbn [apiPt map] in *. destruct (o_cons (apiPt p novel) k _ h Eh Ek) as [c [Ec Hc]]. exists c. split; [exact Ec|].
      intros R phi t [HD HE]. rewrite pcalc_cons, Hc, Hh, Hk by auto. reflexivity.
    - cbn [apiEv map] in Gev |- *. rewrite Hd. destruct (o_cons (apiEv p) gev _ ev Hev Gev) as [c [Ec Hc]]. eauto.
    - unfold apiR2 in *. eapply X; eauto.
    - unfold apip2 in *. eapply X; eauto.
    - unfold apiRp in *. eapply X; eauto.
    - intros E1. destruct (HH E1) as [H1 [H2 H3]], (GH E1) as [G1 [G2 G3]]. unfold apiR2, apip2, apiRp in *. conjs; apply C; auto.
  Qed.
  Lemma flat_agreeZ f cf p (D : Dom) (E : Dom3) : (forall R phi t, E R phi t -> D R 0 phi t) -> agree cf p D -> flat f cf E -> agreeZ1 f p E.
  Proof.
    intros K [Hd [[ev [Ee _]] [HR [_ [[h [Ep Hp]] [[h1 [E1 H1]] [_ [_ [[h4 [E4 H4]] [[h5 [E5 H5]] _]]]]]]]]]] F. unfold agreeZ1, agreeZ, eqZ. conjs; eauto.
    - intros R phi t HE. destruct (F R phi t HE) as [-> _]. auto.
    - exists h. split; auto. intros R phi t HE. destruct (F R phi t HE) as [_ [-> _]]. rewrite <- Hp by auto. reflexivity.
    - intros EH. conjs; [exists h1 | exists h4 | exists h5]; (split; [assumption|]); intros R phi t HE; destruct (F R phi t HE) as [_ [_ Q]]; destruct (Q EH) as [Q1 [Q2 Q3]]; rewrite ?Q1, ?Q2, ?Q3; auto.
  Qed.

  (** ** Wrappers around three-dimensional potentials *)
  Lemma single_Z amp c (rf pt r2 p2 rp : F3) (D : Dom3) fpt f1 f2 f3 :
    (forall R phi t, D R phi t -> rf R phi t = amp * c_Rf c R 0 phi t) -> dflt (nonaxi c) amp (c_pt c) = Some fpt -> (forall R phi t, D R phi t -> pt R phi t = fpt R 0 phi t) ->
    option_map (scale4 amp) (c_R2 c) = Some f1 -> dflt (nonaxi c) amp (c_p2 c) = Some f2 -> dflt (nonaxi c) amp (c_Rp c) = Some f3 ->
    (H = true -> forall R phi t, D R phi t -> r2 R phi t = f1 R 0 phi t /\ p2 R phi t = f2 R 0 phi t /\ rp R phi t = f3 R 0 phi t) -> agreeZ rf pt r2 p2 rp (Single amp c) D.
  Proof.
    intros HR Ep Hp E1 E2 E3 K. unfold agreeZ, eqZ. conjs; auto.
    - exists fpt. auto.
    - eexists. reflexivity.
    - exists f1. exact E1.
    - exists f2. exact E2.
    - exists f3. exact E3.
    - intros EH. conjs; [exists f1 | exists f2 | exists f3]; (split; [assumption|]); intros R phi t HD; destruct (K EH R phi t HD) as [Q1 [Q2 Q3]]; auto.
  Qed.
  Lemma pw_all_ok l p (E D : Dom3) c amp (g : F4 -> F4) (g3 : F3 -> F3) : agreeZL l p E -> wrapAll g p = Some c ->
    (forall (f : F3) (api : F4) R phi t, D R phi t -> (forall R phi t, E R phi t -> f R phi t = api R 0 phi t) -> g3 f R phi t = amp * g api R 0 phi t) ->
    agreeZ (g3 (pcalc pf_Rf l)) (g3 (pcalc pf_pt l)) (g3 (pcalc pf_R2 l)) (g3 (pcalc pf_p2 l)) (g3 (pcalc pf_Rp l)) (Single amp c) D.
  Proof.
    intros [Hd [HR [[h [Ep Hp]] [[ev Ee] [[x1 E1] [[x2 E2] [[x3 E3] HH]]]]]]] Ec M. unfold wrapAll in Ec. rewrite Hd, Ee, Ep, E1, E2, E3 in Ec. injection Ec as <-.
    eapply single_Z; cbn [c_Rf c_pt c_R2 c_p2 c_Rp nonaxi option_map dflt]; try reflexivity.
    - intros R phi t HD. now apply M.
    - intros R phi t HD. unfold scale4. now apply M.
    - intros EH R phi t HD. destruct (HH EH) as [[k1 [Ek1 K1]] [[k2 [Ek2 K2]] [k3 [Ek3 K3]]]]. rewrite E1 in Ek1. rewrite E2 in Ek2. rewrite E3 in Ek3. injection Ek1 as <-. injection Ek2 as <-. injection Ek3 as <-.
      unfold scale4. conjs; now apply M.
  Qed.
  Lemma pw_amp_ok l p E c amp s (A : RR -> RR) : (forall t, s t = A t) -> agreeZL l p E -> wrapAll (Wrappers.amplitude A) p = Some c -> agreeZ1 (pw_amp amp s l) (Single amp c) E.
  Proof.
    intros HA HL Hc. apply (pw_all_ok l p E E c amp (Wrappers.amplitude A) (fun f R phi t => amp * s t * f R phi t) HL Hc). intros f api R phi t HD Q. unfold Wrappers.amplitude. rewrite HA, Q by auto. ring.
  Qed.
  Lemma pw_solid_ok l p (E : Dom3) c amp omega pa : agreeZL l p E -> Wrappers.SolidBodyRotation omega pa p = Some c -> agreeZ1 (pw_solid amp omega pa l) (Single amp c) (fun R phi t => E R (phi - omega * t - pa) t).
  Proof.
    intros HL Hc. apply (pw_all_ok l p E _ c amp (fun f R z phi t => f R z (solid_phi omega pa phi t) t) (fun f R phi t => amp * f R (phi - omega * t - pa) t) HL Hc). intros f api R phi t HD Q. unfold solid_phi. now rewrite Q.
  Qed.
  Lemma pw_corot_ok l p (E : Dom3) c amp vpo beta pa to : agreeZL l p E -> Wrappers.CorotatingRotation vpo beta to pa p = Some c ->
    agreeZ1 (pw_corot amp vpo beta pa to l) (Single amp c) (fun R phi t => 0 < R /\ E R (phi - vpo * rpow R (beta - 1) * (t - to) - pa) t).
  Proof.
    intros [Hd [HR [[h [Ep Hp]] [[ev Ee] [[x1 E1] [[x2 E2] [[x3 E3] HH]]]]]]] Ec. unfold Wrappers.CorotatingRotation in Ec. rewrite Hd, Ee, Ep, E1, E2, E3 in Ec.
    assert (Ec' : exists z2 Rz pz, c = mkPotC (isNonAxi p) (co_f vpo beta to pa ev) (co_Rf vpo beta to pa (apiRf p novel) h) (co_f vpo beta to pa (apizf p novel)) (Some (co_f vpo beta to pa h))
      (Some (co_R2 vpo beta to pa x1 x3 x2 h)) z2 Rz (Some (co_f vpo beta to pa x2)) (Some (co_Rp vpo beta to pa x3 x2)) pz (c_dn c)) by (injection Ec as <-; do 3 eexists; reflexivity).
    clear Ec. destruct Ec' as [z2 [Rz [pz ->]]].
    eapply single_Z; cbn [c_Rf c_pt c_R2 c_p2 c_Rp nonaxi option_map dflt pw_corot pf_Rf pf_pt pf_R2 pf_p2 pf_Rp]; try reflexivity.
    - intros R phi t [HR0 HE]. unfold co_Rf, co_f, co_phi. rewrite HR, Hp by exact HE. ring.
    - intros R phi t [HR0 HE]. unfold scale4, co_f, co_phi. now rewrite Hp by exact HE.
    - intros EH R phi t [HR0 HE]. destruct (HH EH) as [[k1 [Ek1 K1]] [[k2 [Ek2 K2]] [k3 [Ek3 K3]]]]. rewrite E1 in Ek1. rewrite E2 in Ek2. rewrite E3 in Ek3. injection Ek1 as <-. injection Ek2 as <-. injection Ek3 as <-.
      unfold scale4, co_R2, co_Rp, co_f, co_phi. cbv zeta. rewrite K1, K2, K3, Hp by exact HE. conjs; ring.
  Qed.
  Lemma pw_kuzmin_ok l p (E : Dom3) c amp a b : agreeZL l p E -> (isNonAxi p = false -> phi_free p) -> Wrappers.KuzminLike a b 1 p = Some c ->
    agreeZ1 (pw_kuzmin amp a (b ^ 2) l) (Single amp c) (fun R phi t => 0 < b ^ 2 /\ (R <> 0 \/ a + sqrt (b ^ 2) <> 0) /\ E (sqrt (R ^ 2 + (a + sqrt (b ^ 2)) ^ 2)) 0 t).
  Proof.
    intros [Hd [HR [[h [Ep Hp]] [[ev Ee] [[x1 E1] [[x2 E2] [[x3 E3] HH]]]]]]] Hf Ec. unfold Wrappers.KuzminLike in Ec. rewrite Hd in Ec. destruct (isNonAxi p); [discriminate Ec|].
    destruct (Hf eq_refl) as [F1 [F2 [_ [_ [F5 _]]]]]. rewrite E1 in F5. specialize (F5 x1 eq_refl). rewrite Ee in Ec. rewrite E1 in Ec. injection Ec as <-.
    assert (X : forall R, cKL_xi a (b ^ 2) R 0 = sqrt (R ^ 2 + (a + sqrt (b ^ 2)) ^ 2)) by (intros R; unfold cKL_xi; now rewrite pow_i, Rplus_0_l by lia).
    assert (X' : forall R, kl_xi a b R 0 = sqrt (R ^ 2 + (a + sqrt (b ^ 2)) ^ 2)) by (intros R; unfold kl_xi, kl_b2; now rewrite pow_i, Rplus_0_l by lia).
    eapply single_Z; cbn [c_Rf c_pt c_R2 c_p2 c_Rp nonaxi option_map dflt pw_kuzmin pf_Rf pf_pt pf_R2 pf_p2 pf_Rp]; try reflexivity.
    - intros R phi t [_ [_ HE]]. rewrite X, HR by exact HE. rewrite X', (F2 _ _ phi t). unfold kl_dxidR, cKL_dxidR. rewrite X', pow_i, Rplus_0_l by lia. ring.
    - intros R phi t _. unfold scale4, zero4, zero3. ring.
    - intros EH R phi t [Hb [HD HE]]. destruct (HH EH) as [[k1 [Ek1 K1]] _]. rewrite E1 in Ek1. injection Ek1 as <-. unfold scale4, zero4, zero3. conjs; [|reflexivity|reflexivity].
      rewrite X, HR, K1 by exact HE. rewrite X', (F2 _ _ phi t), (F5 _ _ phi t). unfold kl_dxidR, kl_d2xidR2, cKL_dxidR, cKL_d2xidR2. cbv zeta. rewrite X', kl_b2_eq, !pow_i, !Rplus_0_l by lia.
      apply sum_sq_pos in HD. rewrite rpow_3_2 by exact HD. pose proof (sqrt_lt_R0 _ HD). field. lra.
  Qed.
  Lemma pw_cyl_ok l p (E : Dom3) c amp Rp : agreeZL l p E -> CylSeparable Rp p = Some c -> agreeZ1 (pw_cyl amp l) (Single amp c) (fun R phi t => E R 0 0).
  Proof.
    intros [Hd [HR [[h [Ep Hp]] [[ev Ee] [[x1 E1] [[x2 E2] [[x3 E3] HH]]]]]]] Ec. unfold CylSeparable in Ec. rewrite Hd in Ec. destruct (isNonAxi p); [discriminate Ec|]. rewrite Ee in Ec. rewrite E1 in Ec. injection Ec as <-.
    eapply single_Z; cbn [c_Rf c_pt c_R2 c_p2 c_Rp nonaxi option_map dflt pw_cyl pf_Rf pf_pt pf_R2 pf_p2 pf_Rp]; try reflexivity.
    - intros R phi t HE. now rewrite HR by exact HE.
    - intros EH R phi t HE. destruct (HH EH) as [[k1 [Ek1 K1]] _]. rewrite E1 in Ek1. injection Ek1 as <-. unfold scale4, zero4, zero3. conjs; [|reflexivity|reflexivity]. now rewrite K1 by exact HE.
  Qed.
End Leaves.

(** ** An object that calls itself axisymmetric has no torque *)
Definition ozero (o : option F4) : Prop := exists f, o = Some f /\ forall R z phi t, f R z phi t = 0.
Definition zeros (p : Pot) : Prop := ozero (apiPt p novel) /\ ozero (apip2 p) /\ ozero (apiRp p).
Lemma ozero_zero4 : ozero (Some zero4).
Proof. exists zero4. split; auto. Qed.
Lemma ozero_dflt amp o : match o with None => True | Some f => forall R z phi t, f R z phi t = 0 end -> ozero (dflt false amp o).
Proof.
  destruct o as [f|]; intros H; cbn.
  - exists (scale4 amp f). split; auto. intros. unfold scale4. rewrite H. ring.
  - apply ozero_zero4.
Qed.
Lemma ozero_inv o f : ozero o -> o = Some f -> forall R z phi t, f R z phi t = 0.
Proof. intros [g [E H]] E'. rewrite E in E'. now injection E' as <-. Qed.
Lemma leaf_zero l amp c : same_class l amp c -> nonaxi c = false -> zeros (Single amp c).
Proof.
  intros H N. unfold zeros, apip2, apiRp. cbn [apiPt api2]. rewrite N. destruct H; try discriminate N; conjs; apply ozero_dflt; cbn; auto.
Qed.
Definition zero_or_none (o : option F4) : Prop := match o with None => True | Some f => forall R z phi t, f R z phi t = 0 end.
Lemma zon_map (g : F4 -> F4) o : (forall f, (forall R z phi t, f R z phi t = 0) -> forall R z phi t, g f R z phi t = 0) -> ozero o -> zero_or_none (option_map g o).
Proof. intros Hg [f [-> Hf]]. cbn. auto. Qed.
Lemma wrap_zero g p c amp : (forall f, (forall R z phi t, f R z phi t = 0) -> forall R z phi t, g f R z phi t = 0) -> wrapAll g p = Some c -> nonaxi c = false -> zeros p -> zeros (Single amp c).
Proof.
  intros Hg E N [H1 [H2 H3]]. unfold zeros, apip2, apiRp. cbn [apiPt api2]. rewrite N. unfold wrapAll in E. destruct (isDiss p); [discriminate|]. destruct (apiEv p); [|discriminate]. injection E as <-. cbn [c_pt c_p2 c_Rp].
  conjs; apply ozero_dflt; apply zon_map; auto.
Qed.
Lemma wraps_zero w amp p c : wraps w amp p c -> nonaxi c = false -> (isNonAxi p = false -> zeros p) -> zeros (Single amp c).
Proof.
  intros H N Hp. destruct H as [amp tform ts grow p c E | amp omega pa p c E | amp vpo beta pa to p c E | amp to sigma p c E | amp A p c E | amp a b p c E | amp Rp p c ev E _].
  - pose proof N as M. rewrite (wrapAll_nonaxi _ _ _ E) in M. eapply wrap_zero; [|exact E|exact N|auto]. intros f Hf R z phi t. unfold Wrappers.amplitude. rewrite Hf. ring.
  - pose proof N as M. rewrite (wrapAll_nonaxi _ _ _ E) in M. eapply wrap_zero; [|exact E|exact N|auto]. intros f Hf R z phi t. apply Hf.
  - unfold Wrappers.CorotatingRotation in E. destruct (isDiss p); [discriminate|]. destruct (apiEv p); [|discriminate]. destruct (apiPt p novel) as [pt|] eqn:Ept; [|discriminate].
    injection E as <-. unfold zeros, apip2, apiRp. cbn [apiPt api2 nonaxi c_pt c_p2 c_Rp] in *. destruct (Hp N) as [H1 [H2 H3]]. unfold apip2, apiRp in H2, H3. rewrite N. destruct H2 as [p2 [-> Hp2]], H3 as [rp [-> Hrp]]. pose proof (ozero_inv _ _ H1 Ept) as Hpt.
    conjs; apply ozero_dflt; cbn; intros R z phi t; unfold co_Rp, co_f; rewrite ?Hpt, ?Hp2, ?Hrp; ring.
  - pose proof N as M. rewrite (wrapAll_nonaxi _ _ _ E) in M. eapply wrap_zero; [|exact E|exact N|auto]. intros f Hf R z phi t. unfold Wrappers.amplitude. rewrite Hf. ring.
  - pose proof N as M. rewrite (wrapAll_nonaxi _ _ _ E) in M. eapply wrap_zero; [|exact E|exact N|auto]. intros f Hf R z phi t. unfold Wrappers.amplitude. rewrite Hf. ring.
  - unfold Wrappers.KuzminLike in E. destruct (isDiss p); [discriminate|]. destruct (isNonAxi p); [discriminate|]. destruct (apiEv p); [|discriminate]. injection E as <-.
    unfold zeros, apip2, apiRp. cbn. conjs; eexists; split; try reflexivity; intros; unfold scale4, zero4; ring.
  - unfold CylSeparable in E. destruct (isDiss p); [discriminate|]. destruct (isNonAxi p); [discriminate|]. destruct (apiEv p); [|discriminate]. injection E as <-.
    unfold zeros, apip2, apiRp. cbn. conjs; eexists; split; try reflexivity; intros; unfold scale4, zero4; ring.
Qed.
Lemma osum_zero l : List.Forall ozero l -> ozero (option_map (scale4 1) (osum4 l)).
Proof.
  intros H. assert (K : exists fs, sequence l = Some fs /\ List.Forall (fun f : F4 => forall R z phi t, f R z phi t = 0) fs).
  { induction H as [|o l [f [-> Hf]] _ [fs [E IH]]]; cbn; [exists []; auto|]. rewrite E. exists (f :: fs). auto. }
  destruct K as [fs [E K]]. unfold osum4. rewrite E. cbn. eexists. split; [reflexivity|]. intros R z phi t. unfold scale4. assert (S : sum4 fs R z phi t = 0).
  { clear E. induction K as [|f fs Hf _ IH]; [now rewrite sum4_nil|]. rewrite sum4_cons, Hf, IH. ring. }
  rewrite S. ring.
Qed.
Lemma comp_zero ps : List.Forall (fun p => isDiss p = false /\ zeros p) ps -> zeros (Comp 1 ps).
Proof.
  intros H. unfold zeros, apip2, apiRp. cbn [apiPt api2]. conjs; apply osum_zero, List.Forall_map; (eapply List.Forall_impl; [|exact H]); intros p [D [Z1 [Z2 Z3]]]; cbv beta; rewrite ?D; auto.
Qed.
Lemma honest_free amp c : (nonaxi c = false -> phi_free (Single amp c)) -> (nonaxi c = false -> zeros (Single amp c)) -> honest_axi (Single amp c).
Proof.
  intros HF HZ N. destruct (HF N) as [F1 [F2 [_ [_ [F5 _]]]]], (HZ N) as [Z1 [Z2 Z3]]. split.
  - intros q v f Hq E R z phi phi' t. destruct Hq as [<-|[<-|[<-|[]]]]; cbn [qty3 value] in E.
    + rewrite (F1 f E), (F1 f E _ _ phi'). reflexivity.
    + cbn in E. injection E as <-. specialize (F2 R z) as F. cbn in F. rewrite (F phi t), (F phi' t). reflexivity.
    + rewrite (F5 f E), (F5 f E _ _ phi'). reflexivity.
  - intros q v Hq. destruct Hq as [<-|[<-|[<-|[]]]]; cbn [qty3 value]; [exact Z1 | exact Z2 | exact Z3].
Qed.

(** ** Three-dimensional potentials in the plane *)
Section Plane.
  Variables (nan : RR) (linspace : RR -> RR -> nat -> list RR) (trange : option (RR * RR)) (H : bool).
  Notation to_c := (pot2_to_c nan linspace trange).
  Notation parse := (parse_pot2 nan linspace trange).
  Notation reads2 := (reads c_nargs2 c_moving2).
  Lemma pot2_wrap w inner : to_c (Wrap2 w inner) =
    match parse inner with
    | Some s => match wrapper2_ser nan w (n_pot s) with Some (ty, before, after, tfs) => Some (mkSer 1 (ty ++ pot_type s) (before ++ pot_args s ++ after) (pot_tfuncs s ++ tfs)) | None => None end
    | None => None
    end.
  Proof. apply CSerialPlanarProofs.pot2_to_c_wrap. Qed.
  Definition fines (l : list pot) : Prop := List.Forall (fine H) l.
  Lemma fines_eq : forall l, (fix all (l : list pot) : Prop := match l with [] => True | s :: l => fine H s /\ all l end) l -> fines l.
  Proof. induction l as [|s l IH]; intros Hl; constructor; destruct Hl; [assumption|]. now apply IH. Qed.
  Lemma doms2_inner R phi t : forall l, (fix all (l : list pot2) : Prop := match l with [] => True | s :: l => dom2 s R phi t /\ all l end) l = doms2 l R phi t.
  Proof. induction l as [|s l IH]; cbn; [reflexivity|]. now rewrite IH. Qed.
  Definition serialises (s : pot2) (f : pfuns) : Prop := exists sr c, to_c s = Some sr /\ reads2 sr [c] /\ p_funs nan c = Some f.
  Definition serialise (l : list pot2) (fs : list pfuns) : Prop := exists sr cs, parse l = Some sr /\ reads2 sr cs /\ sequence (map (p_funs nan) cs) = Some fs.
  Lemma ser_nil : serialise [] [].
  Proof. exists null_ser, []. split; [reflexivity|]. split; [apply reads_nil|]. reflexivity. Qed.
  Lemma ser_cons s l f fs : serialises s f -> serialise l fs -> serialise (s :: l) (f :: fs).
  Proof.
    intros [sr [c [E [Hr Hc]]]] [sl [cs [El [Gr Gc]]]]. exists (app_ser sr sl), ([c] ++ cs). split; [cbn [parse_pot2]; rewrite E, El; reflexivity|]. split; [apply reads_app; assumption|]. cbn. now rewrite Hc, Gc.
  Qed.
  Lemma ser_one s f : serialises s f -> serialise [s] [f].
  Proof. intros Hs. apply ser_cons; [assumption|apply ser_nil]. Qed.
  (** The function a wrapper makes *)
  Definition w_fun (w : wrapper) (l : list pfuns) : option pfuns :=
    match w with
    | DehnenSmooth amp tform tsteady grow => Some (pw_amp amp (fun t => dehnenSmooth t tform tsteady (of_bool grow)) l)
    | SolidBodyRotation amp omega pa => Some (pw_solid amp omega pa l)
    | CorotatingRotation amp vpo beta pa to => Some (pw_corot amp vpo beta pa to l)
    | GaussianAmplitude amp to sigma2 => Some (pw_amp amp (fun t => gaussSmooth t to sigma2) l)
    | KuzminLike amp a b2 => Some (pw_kuzmin amp a b2 l)
    | CylindricallySeparable amp Rp refpot => Some (pw_cyl amp l)
    | _ => None
    end.
  Lemma ser_wrap w inner fs f : serialise inner fs -> w_fun w fs = Some f -> serialises (Wrap2 w inner) f.
  Proof.
    intros [sr [cs [E [Hr Hc]]]] Hf. unfold serialises. rewrite pot2_wrap, E.
    destruct w; cbn [w_fun] in Hf; try discriminate Hf; injection Hf as <-; cbn [wrapper2_ser wrapper_ser app];
      do 2 eexists; (split; [reflexivity|]); (split; [apply (wrap_simple c_nargs2 c_moving2); [lia | reflexivity | reflexivity | intros ?; reflexivity | reflexivity | reflexivity | reflexivity | exact Hr]|]);
      (cbn [p_funs]; rewrite Hc; reflexivity).
  Qed.
  Definition ok3 (s : pot) (p : Pot) : Prop :=
    (exists amp c, p = Single amp c) /\ (isNonAxi p = false -> zeros p) /\ (fine H s -> exists f, serialises (in_plane s) f /\ agreeZ1 H f p (dom2 (in_plane s))).
  Definition ok3l (l : list pot) (p : Pot) : Prop := (isNonAxi p = false -> zeros p) /\ (fines l -> exists fs, serialise (map in_plane l) fs /\ agreeZL H fs p (doms2 (map in_plane l))).
  Definition ok3s (l : list pot) (ps : list Pot) : Prop :=
    (isNonAxi (Comp 1 ps) = false -> List.Forall (fun p => isDiss p = false /\ zeros p) ps) /\ (fines l -> exists fs, serialise (map in_plane l) fs /\ agreeZL H fs (Comp 1 ps) (doms2 (map in_plane l))).
  Lemma agreeZ_mono f p (D E : Dom3) : (forall R phi t, E R phi t -> D R phi t) -> agreeZ1 H f p D -> agreeZ1 H f p E.
  Proof. intros K. apply agreeZ_ext. intros R phi t HE. conjs; auto. Qed.
  Lemma agreeZL_mono fs p (D E : Dom3) : (forall R phi t, E R phi t -> D R phi t) -> agreeZL H fs p D -> agreeZL H fs p E.
  Proof. intros K. apply agreeZ_ext. intros R phi t HE. conjs; auto. Qed.
  Lemma plane_same : (forall s p, CPotSpec.same s p -> ok3 s p) /\ (forall l p, same_object l p -> ok3l l p) /\ (forall l ps, sames l ps -> ok3s l ps).
  Proof.
    apply same_all.
    - intros l amp c HS. split; [eauto|]. split; [cbn; intros N; eapply leaf_zero; eauto|]. cbn [fine in_plane]. intros HF.
      destruct (leaf_same linspace trange l amp c HS) as [ty [args [cf [E [_ [Hc [Ha _]]]]]]]. destruct (leaf_flat H nan linspace trange l amp c ty args cf HS HF E Hc) as [args2 [f [E2 [Hn [Hf Hl]]]]].
      exists f. split.
      + exists (mkSer 1 [ty] args2 []), (CArg ty [] [] args2 [] []). auto.
      + eapply flat_agreeZ; [|exact Ha|exact Hl]. intros R phi t [_ HD]. exact HD.
    - intros w inner amp p c HO [Hz Hi] W. split; [eauto|]. split; [cbn; intros N; eapply wraps_zero; eauto|]. cbn [fine in_plane]. intros [Hw HF]. apply fines_eq in HF. destruct (Hi HF) as [fs [Hs Ha]].
      assert (Fr : isNonAxi p = false -> phi_free p) by (apply (proj1 (proj2 (sum_same nan linspace trange)) inner p HO)).
      assert (K : exists f, w_fun w fs = Some f /\ agreeZ1 H f (Single amp c) (dom2 (Wrap2 w (map in_plane inner)))).
      { destruct W as [amp tform ts grow p c E | amp omega pa p c E | amp vpo beta pa to p c E | amp to sigma p c E | amp A p c E | amp a b p c E | amp Rp p c ev E Ev]; try contradiction Hw;
          (eexists; split; [reflexivity|]); (eapply agreeZ_mono; [intros R phi t HD; cbn [dom2] in HD; rewrite ?doms2_inner in HD; exact HD|]).
        - eapply pw_amp_ok; [|exact Ha|exact E]. intros t. apply dehnen_same.
        - apply (pw_solid_ok H fs p (doms2 (map in_plane inner)) c amp omega pa Ha E).
        - apply (pw_corot_ok H fs p (doms2 (map in_plane inner)) c amp vpo beta pa to Ha E).
        - eapply pw_amp_ok; [|exact Ha|exact E]. intros t. apply gauss_same.
        - apply (pw_kuzmin_ok H fs p (doms2 (map in_plane inner)) c amp a b Ha Fr E).
        - apply (pw_cyl_ok H fs p (doms2 (map in_plane inner)) c amp Rp Ha E). }
      destruct K as [f [Ef Af]]. exists f. split; [|exact Af]. eapply ser_wrap; eauto.
    - intros s p _ [_ [Hz Hi]]. split; auto. intros HF. inversion HF; subst. destruct (Hi ltac:(assumption)) as [f [Hs Ha]]. exists [f]. split; [now apply ser_one|]. eapply agreeZL_mono; [|apply agreeZ_one; exact Ha]. cbn. tauto.
    - intros l ps _ [Hz Hi]. split; auto. intros N. apply comp_zero. auto.
    - split; [constructor|]. intros _. exists []. split; [apply ser_nil | apply agreeZ_nil].
    - intros s p l ps _ [Hs1 [Hz Hi]] _ [Gz Gi]. split.
      + cbn. intros N. apply orb_false_iff in N. destruct N as [N1 N2]. constructor; auto. split; auto. destruct Hs1 as [amp [c ->]]. reflexivity.
      + intros HF. inversion HF; subst. destruct (Hi ltac:(assumption)) as [f [Hs Ha]], (Gi ltac:(assumption)) as [fs [Gs Ga]]. exists (f :: fs). split; [now apply ser_cons|]. apply (agreeZ_cons H f fs p ps _ _ Ha Ga).
  Qed.

  (** ** Two-dimensional objects *)
  Notation equals2 := CPotPlanarSpec.equals2.
  Definition agreeP (rf pt r2 p2 rp : F3) (p : Planar) (D : Dom3) : Prop :=
    plDiss p = false /\ equals2 rf (plRf p novel2) D /\ equals2 pt (plPt p novel2) D /\ (H = true -> equals2 r2 (plR2 p) D /\ equals2 p2 (plp2 p) D /\ equals2 rp (plRp p) D).
  Definition agreeP1 (f : pfuns) := agreeP (pf_Rf f) (pf_pt f) (pf_R2 f) (pf_p2 f) (pf_Rp f).
  Definition agreePL (l : list pfuns) := agreeP (pcalc pf_Rf l) (pcalc pf_pt l) (pcalc pf_R2 l) (pcalc pf_p2 l) (pcalc pf_Rp l).
  Lemma eq2_ext g g' o (D E : Dom3) : (forall R phi t, E R phi t -> D R phi t /\ g' R phi t = g R phi t) -> equals2 g o D -> equals2 g' o E.
  Proof. intros K [h [-> Hh]]. exists h. split; auto. intros R phi t HE. destruct (K R phi t HE) as [HD ->]. auto. Qed.
  Lemma agreeP_ext rf pt r2 p2 rp rf' pt' r2' p2' rp' p (D E : Dom3) :
    (forall R phi t, E R phi t -> D R phi t /\ rf' R phi t = rf R phi t /\ pt' R phi t = pt R phi t /\ r2' R phi t = r2 R phi t /\ p2' R phi t = p2 R phi t /\ rp' R phi t = rp R phi t) ->
    agreeP rf pt r2 p2 rp p D -> agreeP rf' pt' r2' p2' rp' p E.
  Proof.
    intros K [Hd [HR [Hp HH]]]. unfold agreeP. conjs; auto.
    - eapply eq2_ext; [|exact HR]. intros R phi t HE. destruct (K R phi t HE) as [HD [-> _]]. auto.
    - eapply eq2_ext; [|exact Hp]. intros R phi t HE. destruct (K R phi t HE) as [HD [_ [-> _]]]. auto.
    - intros E1. destruct (HH E1) as [H1 [H2 H3]]. conjs; (eapply eq2_ext; [|eassumption]); intros R phi t HE; destruct (K R phi t HE) as [HD [_ [_ [Q1 [Q2 Q3]]]]]; auto.
  Qed.
  Lemma agreeP_one f p D : agreeP1 f p D -> agreePL [f] p D.
  Proof. apply agreeP_ext. intros R phi t HE. rewrite !pcalc_one. conjs; auto. Qed.
  Definition sum3 (l : list F3) : F3 := fold_left add3 l zero3.
  Lemma sum3_cons (f : F3) l R phi t : sum3 (f :: l) R phi t = f R phi t + sum3 l R phi t.
  Proof.
    assert (K : forall l (a : F3), fold_left add3 l a R phi t = a R phi t + fold_left add3 l zero3 R phi t).
    { clear. induction l as [|g l IH]; intros a; cbn; [unfold zero3; ring|]. rewrite IH, (IH (add3 zero3 g)). unfold add3, zero3. ring. }
    unfold sum3. cbn. rewrite K. unfold add3 at 1, zero3 at 1. ring.
  Qed.
  Lemma o3_cons a b fs (x : F3) : a = Some x -> option_map (scale3 1) (osum3 fs) = Some b -> exists c, option_map (scale3 1) (osum3 (a :: fs)) = Some c /\ forall R phi t, c R phi t = x R phi t + b R phi t.
  Proof.
    intros -> E. unfold osum3 in *. cbn [sequence]. destruct (sequence fs) as [l|]; [|discriminate E]. cbn [option_map] in E |- *. injection E as <-. eexists. split; [reflexivity|].
    intros. unfold scale3. change (fold_left add3 (x :: l) zero3) with (sum3 (x :: l)). rewrite sum3_cons. unfold sum3. ring.
  Qed.
  Lemma agreeP_nil D : agreePL [] (PComp 1 []) D.
  Proof.
    assert (Z : equals2 zero3 (option_map (scale3 1) (osum3 [])) D) by (eexists; split; [reflexivity|]; intros; unfold scale3, zero3; cbn; unfold zero3; ring).
    unfold agreePL, agreeP. conjs; auto; try (intros _; conjs); cbn [plRf plPt plR2 plp2 plRp map]; exact Z.
  Qed.
  Lemma agreeP_cons f fs p ps D E : agreeP1 f p D -> agreePL fs (PComp 1 ps) E -> agreePL (f :: fs) (PComp 1 (p :: ps)) (fun R phi t => D R phi t /\ E R phi t).
  Proof.
    intros [Hd [HR [Hp HH]]] [Gd [GR [Gp GH]]].
    assert (C : forall g a l, equals2 (g f) a D -> equals2 (pcalc g fs) (option_map (scale3 1) (osum3 l)) E -> equals2 (pcalc g (f :: fs)) (option_map (scale3 1) (osum3 (a :: l))) (fun R phi t => D R phi t /\ E R phi t)).
    { intros g a l [h [Eh Hh]] [k [Ek Hk]]. destruct (o3_cons a k l h Eh Ek) as [c [Ec Hc]]. exists c. split; [exact Ec|]. intros R phi t [HD HE]. rewrite pcalc_cons, Hc, Hh, Hk by auto. reflexivity. }
    unfold agreePL, agreeP. conjs.
    - cbn in Gd |- *. now rewrite Hd, Gd.
    - cbn [plRf map] in *. now apply C.
    - cbn [plPt map] in *. now apply C.
    - intros E1. destruct (HH E1) as [H1 [H2 H3]], (GH E1) as [G1 [G2 G3]]. cbn [plR2 plp2 plRp map] in *. rewrite Hd. conjs; now apply C.
  Qed.
  (** A three-dimensional object agrees with its planar restriction *)
  Lemma plane_P s amp c f D : CPotSpec.same s (Single amp c) -> agreeZ1 H f (Single amp c) D -> agreeP1 f (planar_of (Single amp c)) D.
  Proof.
    intros HS [_ [HR [[h [Ep Hp]] [_ [_ [_ [_ HH]]]]]]]. destruct (proj1 plane_same s _ HS) as [_ [Hz _]]. destruct (proj1 (sum_same nan linspace trange) s _ HS) as [_ [Hf _]].
    pose proof (single_restriction (Single amp c) I (honest_free amp c Hf Hz)) as K.
    assert (T : forall q g o, eqZ g o D -> value (qty3 q) (Single amp c) (0, 0, 0) = o -> equals2 g (planar_value q (planar_of (Single amp c)) novel2) D).
    { intros q g o [k [-> Hk]] Eq. specialize (K q novel2). cbn [fst snd novel2] in K. rewrite Eq in K. destruct (planar_value q (planar_of (Single amp c)) novel2) as [m|]; [|contradiction K]. exists m. split; auto. intros R phi t HD. rewrite Hk by auto. symmetry. apply K. }
    unfold agreeP1, agreeP. conjs.
    - cbn. destruct (nonaxi c); reflexivity.
    - apply (T PRf _ (Some (apiRf (Single amp c) novel))); [|reflexivity]. eexists. split; [reflexivity|exact HR].
    - apply (T PPt _ (apiPt (Single amp c) novel)); [|reflexivity]. exists h. auto.
    - intros E1. destruct (HH E1) as [H1 [H2 H3]]. conjs; [apply (T PR2 _ (apiR2 (Single amp c))) | apply (T Pp2 _ (apip2 (Single amp c))) | apply (T PRp _ (apiRp (Single amp c)))]; auto.
  Qed.

  (** The classes of the plane *)
  Lemma smooth_growth tf ts t : tf <> nan -> smooth_nan nan t tf ts = PotPlanar.growth (Some (tf, ts)) t.
  Proof. intros N. unfold smooth_nan, PotPlanar.growth. destruct (Req_EM_T tf nan); [contradiction|]. reflexivity. Qed.
  Lemma smooth_none t : smooth_nan nan t nan nan = PotPlanar.growth None t.
  Proof. unfold smooth_nan, PotPlanar.growth. destruct (Req_EM_T nan nan); [|contradiction]. reflexivity. Qed.
  Lemma agreeP_nat f amp c pt r2 p2 rp (D : Dom3) : pl_pt c = Some pt -> pl_R2 c = Some r2 -> pl_p2 c = Some p2 -> pl_Rp c = Some rp ->
    (forall R phi t, D R phi t -> pf_Rf f R phi t = amp * pl_Rf c R phi t /\ pf_pt f R phi t = amp * pt R phi t /\ pf_R2 f R phi t = amp * r2 R phi t /\ pf_p2 f R phi t = amp * p2 R phi t /\ pf_Rp f R phi t = amp * rp R phi t) -> agreeP1 f (PNat amp c) D.
  Proof.
    intros E1 E2 E3 E4 K. unfold agreeP1, agreeP. cbn [plDiss plRf plPt plR2 plp2 plRp]. rewrite E1, E2, E3, E4. cbn [dflt3 option_map]. conjs; auto; try (intros _; conjs); (eexists; split; [reflexivity|]); intros R phi t HD; unfold scale3;
      destruct (K R phi t HD) as [K1 [K2 [K3 [K4 K5]]]]; assumption.
  Qed.
  Lemma native_ok l amp c : same_native nan l amp c -> exists f, serialises (Leaf2 l) f /\ agreeP1 f (PNat amp c) (leaf_dom2 l).
  Proof.
    intros HS. destruct HS as [amp A to sigma2 alpha m omegas gamma|amp g A alpha m omegas gamma Hg|amp g twophio p phib Hg|amp mphio p phib|amp mphio p mphib m rb r1p Hm|amp c E].
    - eexists. split.
      + do 2 eexists. split; [reflexivity|]. split; [apply reads_simple0; solve [reflexivity | lia]|]. reflexivity.
      + eapply agreeP_nat; try reflexivity. intros R phi t [HR _]. cbn. unfold PotPlanar.TLS_Rf, PotPlanar.TLS_pt, PotPlanar.TLS_R2, PotPlanar.TLS_p2, PotPlanar.TLS_Rp, PotPlanar.TLS_amp, PotPlanar.SLS_chi. unfold Rdiv. conjs; try (field; lra); ring.
    - destruct g as [[tf ts]|]; (eexists; split;
        [do 2 eexists; split; [reflexivity|]; split; [apply reads_simple0; solve [reflexivity | lia]|]; reflexivity|];
        eapply agreeP_nat; try reflexivity; intros R phi t [HR _]; cbn [pf_Rf pf_pt pf_R2 pf_p2 pf_Rp pl_Rf pSLS PotPlanar.SLS_class]; unfold PotPlanar.SLS_Rf, PotPlanar.SLS_pt, PotPlanar.SLS_R2, PotPlanar.SLS_p2, PotPlanar.SLS_Rp, PotPlanar.SLS_chi;
        rewrite ?smooth_none, ?smooth_growth by exact Hg; set (gr := PotPlanar.growth _ _); unfold Rdiv; conjs; try (field; lra); ring).
    - destruct g as [[tf ts]|]; (eexists; split;
        [do 2 eexists; split; [reflexivity|]; split; [apply reads_simple0; solve [reflexivity | lia]|]; reflexivity|];
        eapply agreeP_nat; try reflexivity; intros R phi t [HR _]; cbn [pf_Rf pf_pt pf_R2 pf_p2 pf_Rp pl_Rf pED PotPlanar.ED_class]; unfold PotPlanar.ED_Rf, PotPlanar.ED_pt, PotPlanar.ED_R2, PotPlanar.ED_p2, PotPlanar.ED_Rp;
        rewrite ?smooth_none, ?smooth_growth by exact Hg; set (gr := PotPlanar.growth _ _); unfold Rdiv; conjs; ring).
    - eexists. split.
      + do 2 eexists. split; [reflexivity|]. split; [apply reads_simple0; solve [reflexivity | lia]|]. reflexivity.
      + eapply agreeP_nat; try reflexivity. intros R phi t [HR _]. cbn. unfold PotPlanar.CD_Rf, PotPlanar.CD_pt, PotPlanar.CD_R2, PotPlanar.CD_p2, PotPlanar.CD_Rp. destruct (Rlt_dec R 0); [lra|]. rewrite !Rmult_1_l. conjs; field.
    - eexists. split.
      + do 2 eexists. split; [reflexivity|]. split; [apply reads_simple0; solve [reflexivity | lia]|]. reflexivity.
      + assert (Hm' : IZR m <> 0) by (intros Q; apply Hm; now apply eq_IZR). eapply agreeP_nat; try reflexivity. intros R phi t [HR HN]. cbn.
        unfold PotPlanar.CD_Rf, PotPlanar.CD_pt, PotPlanar.CD_R2, PotPlanar.CD_p2, PotPlanar.CD_Rp, PotPlanar.CD_rb2p, PotPlanar.CD_rbp.
        pose proof (rpow_pos R p) as P0. pose proof (rpow_pos R (p + 1)) as P1. pose proof (rpow_pos R (p + 2)) as P2.
        destruct (Rlt_dec R rb); destruct (Rle_dec R rb); try lra; conjs; field; lra.
    - injection E as <-. eexists. split.
      + do 2 eexists. split; [reflexivity|]. split; [apply reads_simple0; solve [reflexivity | lia]|]. reflexivity.
      + eapply agreeP_nat; try reflexivity. intros R phi t _. cbn. unfold PotPlanar.HH_Rf, PotPlanar.HH_pt, PotPlanar.HH_R2, PotPlanar.HH_p2, PotPlanar.HH_Rp. conjs; ring.
  Qed.

  (** Wrappers around two-dimensional objects *)
  Lemma pw_all3_ok l p (E D : Dom3) c amp (g : F3 -> F3) (g3 : F3 -> F3) : agreePL l p E -> wrapAll3 g p = Some c ->
    (forall (f : F3) (api : F3) R phi t, D R phi t -> (forall R phi t, E R phi t -> f R phi t = api R phi t) -> g3 f R phi t = amp * g api R phi t) ->
    agreeP (g3 (pcalc pf_Rf l)) (g3 (pcalc pf_pt l)) (g3 (pcalc pf_R2 l)) (g3 (pcalc pf_p2 l)) (g3 (pcalc pf_Rp l)) (PNat amp c) D.
  Proof.
    intros [Hd [[rf [Er HR]] [[pt [Ep Hp]] HH]]] Ec M. unfold wrapAll3 in Ec. destruct (plEv p); [|discriminate]. rewrite Er, Ep in Ec. injection Ec as <-. unfold agreeP.
    cbn [plDiss plRf plPt plR2 plp2 plRp pl_Rf pl_pt pl_R2 pl_p2 pl_Rp option_map dflt3]. conjs; auto.
    - eexists. split; [reflexivity|]. intros R phi t HD. unfold scale3. now apply M.
    - eexists. split; [reflexivity|]. intros R phi t HD. unfold scale3. now apply M.
    - intros E1. destruct (HH E1) as [[k1 [-> K1]] [[k2 [-> K2]] [k3 [-> K3]]]]. cbn [option_map].
      conjs; (eexists; split; [reflexivity|]); intros R phi t HD; unfold scale3; now apply M.
  Qed.
  Lemma pw_amp3_ok l p E c amp s (A : RR -> RR) : (forall t, s t = A t) -> agreePL l p E -> wrapAll3 (amplitude3 A) p = Some c -> agreeP1 (pw_amp amp s l) (PNat amp c) E.
  Proof.
    intros HA HL Hc. apply (pw_all3_ok l p E E c amp (amplitude3 A) (fun f R phi t => amp * s t * f R phi t) HL Hc). intros f api R phi t HD Q. unfold amplitude3. rewrite HA, Q by auto. ring.
  Qed.
  Lemma pw_solid3_ok l p (E : Dom3) c amp omega pa : agreePL l p E -> SolidBodyRotation3 omega pa p = Some c -> agreeP1 (pw_solid amp omega pa l) (PNat amp c) (fun R phi t => E R (phi - omega * t - pa) t).
  Proof.
    intros HL Hc. apply (pw_all3_ok l p E _ c amp (fun f R phi t => f R (solid_phi omega pa phi t) t) (fun f R phi t => amp * f R (phi - omega * t - pa) t) HL Hc). intros f api R phi t HD Q. unfold solid_phi. now rewrite Q.
  Qed.
  Lemma pw_corot3_ok l p (E : Dom3) c amp vpo beta pa to : agreePL l p E -> CorotatingRotation3 vpo beta to pa p = Some c ->
    agreeP1 (pw_corot amp vpo beta pa to l) (PNat amp c) (fun R phi t => 0 < R /\ E R (phi - vpo * rpow R (beta - 1) * (t - to) - pa) t).
  Proof.
    intros [Hd [[rf [Er HR]] [[pt [Ep Hp]] HH]]] Ec. unfold CorotatingRotation3 in Ec. destruct (plEv p); [|discriminate]. rewrite Er, Ep in Ec. injection Ec as <-. unfold agreeP1, agreeP.
    cbn [plDiss plRf plPt plR2 plp2 plRp pl_Rf pl_pt pl_R2 pl_p2 pl_Rp option_map dflt3 pw_corot pf_Rf pf_pt pf_R2 pf_p2 pf_Rp]. conjs; auto.
    - eexists. split; [reflexivity|]. intros R phi t [HR0 HE]. unfold scale3, co3, co_phi. rewrite HR, Hp by exact HE. ring.
    - eexists. split; [reflexivity|]. intros R phi t [HR0 HE]. unfold scale3, co3, co_phi. now rewrite Hp by exact HE.
    - intros E1. destruct (HH E1) as [[k1 [-> K1]] [[k2 [-> K2]] [k3 [-> K3]]]]. cbn [option_map].
      conjs; (eexists; split; [reflexivity|]); intros R phi t [HR0 HE]; unfold scale3, co3, co_phi; cbv zeta; rewrite ?K1, ?K2, ?K3, ?Hp by exact HE; ring.
  Qed.
  Definition okp (s : pot2) (p : Planar) : Prop := exists f, serialises s f /\ agreeP1 f p (dom2 s).
  Definition okpl (l : list pot2) (p : Planar) : Prop := exists fs, serialise l fs /\ agreePL fs p (doms2 l).
  Definition okps (l : list pot2) (ps : list Planar) : Prop := exists fs, serialise l fs /\ agreePL fs (PComp 1 ps) (doms2 l).
  Lemma agreeP_mono f p (D E : Dom3) : (forall R phi t, E R phi t -> D R phi t) -> agreeP1 f p D -> agreeP1 f p E.
  Proof. intros K. apply agreeP_ext. intros R phi t HE. conjs; auto. Qed.
  Lemma agreePL_mono fs p (D E : Dom3) : (forall R phi t, E R phi t -> D R phi t) -> agreePL fs p D -> agreePL fs p E.
  Proof. intros K. apply agreeP_ext. intros R phi t HE. conjs; auto. Qed.
  Scheme same2_ind2 := Minimality for same2 Sort Prop with same2_object_ind2 := Minimality for same2_object Sort Prop with sames2_ind2 := Minimality for sames2 Sort Prop.
  Combined Scheme same2_all from same2_ind2, same2_object_ind2, sames2_ind2.
  Lemma planar_same : (forall s p, same2 nan H s p -> okp s p) /\ (forall l p, same2_object nan H l p -> okpl l p) /\ (forall l ps, sames2 nan H l ps -> okps l ps).
  Proof.
    apply same2_all.
    - intros l amp c HS. exact (native_ok l amp c HS).
    - intros s p HS HF. destruct (proj1 plane_same s p HS) as [[amp [c ->]] [_ Hi]]. destruct (Hi HF) as [f [Hs Ha]]. exists f. split; [exact Hs|]. eapply plane_P; eauto.
    - intros w inner amp p c _ [fs [Hs Ha]] W.
      assert (K : exists f, w_fun w fs = Some f /\ agreeP1 f (PNat amp c) (dom2 (Wrap2 w inner))).
      { destruct W as [amp tform ts grow p c E | amp omega pa p c E | amp vpo beta pa to p c E | amp to sigma p c E];
          (eexists; split; [reflexivity|]); (eapply agreeP_mono; [intros R phi t HD; cbn [dom2] in HD; rewrite ?doms2_inner in HD; exact HD|]).
        - eapply pw_amp3_ok; [|exact Ha|exact E]. intros t. apply dehnen_same.
        - apply (pw_solid3_ok fs p (doms2 inner) c amp omega pa Ha E).
        - apply (pw_corot3_ok fs p (doms2 inner) c amp vpo beta pa to Ha E).
        - eapply pw_amp3_ok; [|exact Ha|exact E]. intros t. apply gauss_same. }
      destruct K as [f [Ef Af]]. exists f. split; [|exact Af]. eapply ser_wrap; eauto.
    - intros s p _ [f [Hs Ha]]. exists [f]. split; [now apply ser_one|]. eapply agreePL_mono; [|apply agreeP_one; exact Ha]. cbn. tauto.
    - intros l ps _ Hi. exact Hi.
    - exists []. split; [apply ser_nil | apply agreeP_nil].
    - intros s p l ps _ [f [Hs Ha]] _ [fs [Gs Ga]]. exists (f :: fs). split; [now apply ser_cons|]. apply (agreeP_cons f fs p ps _ _ Ha Ga).
  Qed.
End Plane.
