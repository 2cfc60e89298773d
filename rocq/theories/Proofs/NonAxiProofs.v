(** Generic spherical potentials, Burkert, the spherical shell and the logarithmic halo. *)
From Coq Require Import Reals Lra Psatz List Bool.
From Coquelicot Require Import Coquelicot.
From Verif.Lib Require Import RealAux.
From Verif.Model Require Import PotAPI PotAxi PotNonAxi.
From Verif.Spec Require Import PotSpec PotApiSpec.
From Verif.Proofs Require Import AxiProofs AxiProofs2 AxiProofs3 PotLift.
Open Scope R_scope.
Notation RR := RbaseSymbolsImpl.R (only parsing).

(** What is shown about one class. *)
Record ClassOK (D : Dom) (c : PotC) : Prop := {
  ok_force : forall amp, forces_are_gradient D (Single amp c);
  ok_hess : forall amp, hessian_is_correct D (Single amp c);
  ok_azi : forall amp, azimuthal_hessian_is_correct D (Single amp c) }.

(** Assemble from class-level functions. *)
Lemma class_forces D amp c Fp :
  (c_pt c = Some Fp \/ (c_pt c = None /\ nonaxi c = false /\ Fp = zero4)) ->
  is_force_field D (c_ev c) (c_Rf c) (c_zf c) Fp ->
  forces_are_gradient D (Single amp c).
Proof.
  intros Hp Hf. exists (scale4 amp (c_ev c)), (scale4 amp Fp). splits; auto.
  - unfold apiPt, dflt. destruct Hp as [E|(E & En & ->)]; rewrite E; auto. rewrite En.
    f_equal. unfold scale4, zero4. do 4 (apply FunctionalExtensionality.functional_extensionality; intro). ring.
  - intros R z phi t HD. destruct (Hf R z phi t HD) as (H1 & H2 & H3). simpl. unfold scale4.
    splits; (eapply is_derive_eq; [apply is_derive_Rscal; eassumption|toR; ring]).
Qed.

Lemma class_hess D amp c a b e :
  c_R2 c = Some a -> c_z2 c = Some b -> c_Rz c = Some e ->
  is_meridional_hessian D (c_Rf c) (c_zf c) a b e ->
  hessian_is_correct D (Single amp c).
Proof.
  intros E1 E2 E3 H. exists (scale4 amp a), (scale4 amp b), (scale4 amp e).
  splits; cbn; rewrite ?E1, ?E2, ?E3; auto.
  intros R z phi t HD. destruct (H R z phi t HD) as (M1 & M2 & M3 & M4). unfold scale4.
  splits; apply is_derive_scal_opp; assumption.
Qed.

Definition or0 (o : option F4) : F4 := match o with Some f => f | None => zero4 end.

Lemma dflt_or0 n a o : (o = None -> n = false) -> dflt n a o = Some (scale4 a (or0 o)).
Proof.
  intros H. destruct o; simpl; auto. rewrite H by auto.
  f_equal. unfold scale4, zero4. do 4 (apply FunctionalExtensionality.functional_extensionality; intro). ring.
Qed.

Lemma class_azi D amp c :
  (nonaxi c = true -> c_pt c <> None /\ c_p2 c <> None /\ c_Rp c <> None /\ c_pz c <> None) ->
  is_azimuthal_hessian D (c_Rf c) (c_zf c) (or0 (c_pt c)) (or0 (c_p2 c)) (or0 (c_Rp c)) (or0 (c_pz c)) ->
  azimuthal_hessian_is_correct D (Single amp c).
Proof.
  intros Hn H.
  assert (A : forall o, (nonaxi c = true -> o <> None) -> @eq (option F4) o None -> nonaxi c = false).
  { intros o Ho E. destruct (nonaxi c); auto. exfalso. apply Ho; auto. }
  exists (scale4 amp (or0 (c_pt c))), (scale4 amp (or0 (c_p2 c))), (scale4 amp (or0 (c_Rp c))), (scale4 amp (or0 (c_pz c))).
  splits; cbn; rewrite ?dflt_or0; auto; try (apply A; intros; apply Hn; auto).
  intros R z phi t HD. destruct (H R z phi t HD) as (M1 & M2 & M3 & M4 & M5). unfold scale4.
  splits; apply is_derive_scal_opp; assumption.
Qed.

Lemma class_density D amp c dn a b :
  slice_open D -> ClassOK D c -> c_dn c = Some dn -> c_R2 c = Some a -> c_z2 c = Some b ->
  (nonaxi c = true -> c_p2 c <> None) ->
  poisson_alg D (c_Rf c) a (or0 (c_p2 c)) b dn ->
  density_is_source D (Single amp c).
Proof.
  intros Ho [Hf Hh Ha] Ed E2 Ez Hn Hp. specialize (Hf amp). specialize (Hh amp). specialize (Ha amp).
  destruct Hf as (Phi & Fphi & E1 & F2 & Hf').
  destruct Hh as (P2R & P2z & PRz & E3 & E4 & E5 & Hm).
  destruct Ha as (Fphi' & P2p & PRp & Ppz & E6 & E7 & E8 & E9 & Ha).
  rewrite F2 in E6; inversion E6; subst Fphi'.
  exists Phi, (scale4 amp dn). splits; auto.
  { unfold apiDens; cbn. unfold dens_single. rewrite Ed. reflexivity. }
  eapply laplacian_from_parts; eauto.
  intros R z phi t HD HR. cbn in E3, E4, E7. rewrite E2 in E3. rewrite Ez in E4.
  rewrite dflt_or0 in E7. 2:{ destruct (nonaxi c); auto. intros. exfalso; apply Hn; auto. }
  inversion E3. inversion E4. inversion E7. simpl. unfold scale4.
  specialize (Hp R z phi t HD HR).
  replace (4 * PI * (amp * dn R z phi t)) with (amp * (4 * PI * dn R z phi t)) by ring. rewrite <- Hp. field. lra.
Qed.

(** ** Spherical potentials from radial functions *)
Section Sph.
  Variables (rev rf r2d : RR -> RR -> RR) (rdens : option (RR -> RR -> RR)).
  Variable Dr : RR -> RR -> Prop.      (* radii and times *)
  Hypothesis Hpos : forall r t, Dr r t -> 0 < r.
  Hypothesis Hev : forall r t, Dr r t -> is_derive (fun x => rev x t) r (- rf r t).
  Hypothesis Hrf : forall r t, Dr r t -> is_derive (fun x => - rf x t) r (r2d r t).
  Definition DSph : Dom := fun R z phi t => DOrigin R z /\ Dr (sqrt (R ^ 2 + z ^ 2)) t.
  Let c := Spherical rev rf r2d rdens.
  Lemma dsq_R R z : DOrigin R z -> is_derive (fun x => sqrt (x ^ 2 + z ^ 2)) R (R / sqrt (R ^ 2 + z ^ 2)).
  Proof.
    intros H. pose proof (DO_pos _ _ H) as Hp. auto_derive; auto. pose proof (sqrt_lt_R0 _ Hp). field. lra.
  Qed.
  Lemma dsq_z R z : DOrigin R z -> is_derive (fun x => sqrt (R ^ 2 + x ^ 2)) z (z / sqrt (R ^ 2 + z ^ 2)).
  Proof.
    intros H. pose proof (DO_pos _ _ H) as Hp. auto_derive; auto. pose proof (sqrt_lt_R0 _ Hp). field. lra.
  Qed.
  Lemma sph_force : is_force_field DSph (c_ev c) (c_Rf c) (c_zf c) zero4.
  Proof.
    intros R z phi t (HO & Hr). specialize (Hev _ _ Hr). unfold c; simpl. unfold Sph_r, zero4.
    pose proof (Hpos _ _ Hr). splits.
    - eapply is_derive_eq. apply (is_derive_Rchain (fun x => rev x t) (fun x => sqrt (x ^ 2 + z ^ 2))).
      exact Hev. apply dsq_R; auto. toR; field. lra.
    - eapply is_derive_eq. apply (is_derive_Rchain (fun x => rev x t) (fun x => sqrt (R ^ 2 + x ^ 2))).
      exact Hev. apply dsq_z; auto. toR; field. lra.
    - eapply is_derive_eq. apply is_derive_cst. toR; ring.
  Qed.
  Lemma is_derive_inv_r (s : RR -> RR) x ds : s x <> 0 -> is_derive s x ds -> is_derive (fun y => / s y) x (- ds / s x ^ 2).
  Proof. intros Hs Hd. apply is_derive_inv; auto. Qed.
  Lemma sph_hess : exists a b e, c_R2 c = Some a /\ c_z2 c = Some b /\ c_Rz c = Some e /\
    is_meridional_hessian DSph (c_Rf c) (c_zf c) a b e.
  Proof.
    unfold c; simpl. do 3 eexists. splits; try reflexivity.
    intros R z phi t (HO & Hr). specialize (Hrf _ _ Hr). unfold Sph_r.
    pose proof (Hpos _ _ Hr) as Hp. pose proof (DO_pos _ _ HO) as Hq.
    pose proof (sqrt_sqrt _ (Rlt_le _ _ Hq)) as Es.
    pose proof (dsq_R _ _ HO) as dR. pose proof (dsq_z _ _ HO) as dz.
    assert (HiR : is_derive (fun x => / sqrt (x ^ 2 + z ^ 2)) R (- (R / sqrt (R ^ 2 + z ^ 2)) / sqrt (R ^ 2 + z ^ 2) ^ 2)).
    { apply (is_derive_inv_r (fun x => sqrt (x ^ 2 + z ^ 2))); auto. lra. }
    assert (Hiz : is_derive (fun x => / sqrt (R ^ 2 + x ^ 2)) z (- (z / sqrt (R ^ 2 + z ^ 2)) / sqrt (R ^ 2 + z ^ 2) ^ 2)).
    { apply (is_derive_inv_r (fun x => sqrt (R ^ 2 + x ^ 2))); auto. lra. }
    assert (FR : is_derive (fun x => - rf (sqrt (x ^ 2 + z ^ 2)) t) R (r2d (sqrt (R ^ 2 + z ^ 2)) t * (R / sqrt (R ^ 2 + z ^ 2)))).
    { apply (is_derive_Rchain (fun x => - rf x t) (fun x => sqrt (x ^ 2 + z ^ 2))); auto. }
    assert (Fz : is_derive (fun x => - rf (sqrt (R ^ 2 + x ^ 2)) t) z (r2d (sqrt (R ^ 2 + z ^ 2)) t * (z / sqrt (R ^ 2 + z ^ 2)))).
    { apply (is_derive_Rchain (fun x => - rf x t) (fun x => sqrt (R ^ 2 + x ^ 2))); auto. }
    assert (id : forall x : RR, is_derive (fun y : RR => y) x 1) by (intros; apply (is_derive_id x)).
    splits.
    - eapply is_derive_eq. 
      + eapply is_derive_ext; [|apply (is_derive_Rmult _ _ _ _ _ (is_derive_Rmult _ _ _ _ _ FR (id R)) HiR)].
        intros x. cbv beta. toR. unfold Rdiv. ring.
      + toR. set (s := sqrt (R ^ 2 + z ^ 2)) in *. set (g := rf s t). set (h := r2d s t). clearbody g h s.
        assert (E : z ^ 2 = s * s - R ^ 2) by lra. rewrite E. field. lra.
    - eapply is_derive_eq. 
      + eapply is_derive_ext; [|apply (is_derive_Rmult _ _ _ _ _ (is_derive_Rmult _ _ _ _ _ Fz (id z)) Hiz)].
        intros x. cbv beta. toR. unfold Rdiv. ring.
      + toR. set (s := sqrt (R ^ 2 + z ^ 2)) in *. set (g := rf s t). set (h := r2d s t). clearbody g h s.
        assert (E : R ^ 2 = s * s - z ^ 2) by lra. rewrite E. field. lra.
    - eapply is_derive_eq. 
      + eapply is_derive_ext; [|apply (is_derive_Rmult _ _ _ _ _ (is_derive_Rmult _ _ _ _ _ Fz (is_derive_cst R z)) Hiz)].
        intros x. cbv beta. toR. unfold Rdiv. ring.
      + toR. set (s := sqrt (R ^ 2 + z ^ 2)) in *. set (g := rf s t). set (h := r2d s t). clearbody g h s.
        field. lra.
    - eapply is_derive_eq. 
      + eapply is_derive_ext; [|apply (is_derive_Rmult _ _ _ _ _ (is_derive_Rmult _ _ _ _ _ FR (is_derive_cst z R)) HiR)].
        intros x. cbv beta. toR. unfold Rdiv. ring.
      + toR. set (s := sqrt (R ^ 2 + z ^ 2)) in *. set (g := rf s t). set (h := r2d s t). clearbody g h s.
        field. lra.
  Qed.
  Lemma Spherical_ok : ClassOK DSph c.
  Proof.
    split; intros amp.
    - apply class_forces with (Fp := zero4); auto. apply sph_force.
    - destruct sph_hess as (a & b & e & E1 & E2 & E3 & H). eapply class_hess; eauto.
    - apply class_azi. { discriminate. }
      intros R z phi t HD. simpl. unfold zero4. splits; apply is_derive_cst.
  Qed.
  (** with an explicit radial density that satisfies the radial Poisson equation *)
  Hypothesis Hdens : forall f r t, rdens = Some f -> Dr r t ->
    r2d r t - 2 * rf r t / r = 4 * PI * f r t.
  Lemma Spherical_density amp : slice_open DSph -> density_is_source DSph (Single amp c).
  Proof.
    intros Ho. eapply class_density; try reflexivity; auto.
    - apply Spherical_ok.
    - intros R z phi t (HO & Hr) HR. unfold c; simpl. unfold Sph_r, zero4, Sph_rdens.
      pose proof (DO_pos _ _ HO) as Hq. pose proof (Hpos _ _ Hr) as Hp.
      pose proof (sqrt_sqrt _ (Rlt_le _ _ Hq)) as Es. pose proof PI_RGT_0.
      assert (Hd : 4 * PI * match rdens with Some f => f (sqrt (R ^ 2 + z ^ 2)) t
         | None => (r2d (sqrt (R ^ 2 + z ^ 2)) t - 2 * rf (sqrt (R ^ 2 + z ^ 2)) t / sqrt (R ^ 2 + z ^ 2)) / 4 / PI end
         = r2d (sqrt (R ^ 2 + z ^ 2)) t - 2 * rf (sqrt (R ^ 2 + z ^ 2)) t / sqrt (R ^ 2 + z ^ 2)).
      { destruct rdens as [f|] eqn:Er.
        - symmetry. apply Hdens; auto.
        - field. lra. }
      rewrite Hd. set (s := sqrt (R ^ 2 + z ^ 2)) in *. set (g := rf s t). set (h := r2d s t). clearbody g h s.
      assert (E : z ^ 2 = s * s - R ^ 2) by lra. rewrite E. field. lra.
  Qed.
End Sph.

Lemma slice_open_sph (Dr : RR -> RR -> Prop) :
  (forall r t, Dr r t -> locally r (fun x => Dr x t)) -> slice_open (DSph Dr).
Proof.
  intros H R z phi t (HO & Hr). pose proof (DO_pos _ _ HO) as Hq. specialize (H _ _ Hr).
  splits.
  - apply filter_and; [apply DO_loc_R; auto|].
    assert (Hc : continuous (fun x => sqrt (x ^ 2 + z ^ 2)) R).
    { apply (ex_derive_continuous (fun x => sqrt (x ^ 2 + z ^ 2))). eexists. apply dsq_R; auto. }
    apply (Hc (fun s => Dr s t)). exact H.
  - apply filter_and; [apply DO_loc_z; auto|].
    assert (Hc : continuous (fun x => sqrt (R ^ 2 + x ^ 2)) z).
    { apply (ex_derive_continuous (fun x => sqrt (R ^ 2 + x ^ 2))). eexists. apply dsq_z; auto. }
    apply (Hc (fun s => Dr s t)). exact H.
  - exists (mkposreal 1 Rlt_0_1). intros; split; auto.
Qed.

Section Burkertp.
  Variable a : RR.
  Hypothesis Ha : 0 < a.
  Lemma Bu_log x : 0 < x -> ln ((1 + 1 / x) ^ 2 / (1 + 1 / x ^ 2)) = 2 * ln (1 + x) - ln (1 + x ^ 2).
  Proof.
    intros Hx. replace ((1 + 1 / x) ^ 2 / (1 + 1 / x ^ 2)) with ((1 + x) * (1 + x) / (1 + x ^ 2)) by (field; nra).
    rewrite ln_div by nra. rewrite ln_mult by lra. ring.
  Qed.
  Lemma Bu_ev_d r t : 0 < r -> is_derive (fun x => Bu_rev a x t) r (- Bu_rf a r t).
  Proof.
    intros Hr. 
    eapply is_derive_loc with (P := fun y => 0 < y) (f := fun r => 
      - a ^ 2 * PI * (- PI / (r / a) + 2 * (1 / (r / a) + 1) * atan (1 / (r / a))
      + (1 / (r / a) + 1) * (2 * ln (1 + r / a) - ln (1 + (r / a) ^ 2)) + 2 / (r / a) * ln (1 + (r / a) ^ 2))).
    { apply locally_pos; auto. }
    { intros y Hy. unfold Bu_rev. rewrite Bu_log; [reflexivity|]. apply Rdiv_lt_0_compat; auto. }
    unfold Bu_rf.
    assert (Hx : 0 < r / a) by (apply Rdiv_lt_0_compat; auto).
    assert (Hi : 0 < 1 / (r / a)) by (apply Rdiv_lt_0_compat; lra).
    auto_derive.
    - change (r * / a) with (r / a). splits; auto; try lra; try nra.
    - change (r * / a) with (r / a). 
      set (L1 := ln (1 + r / a)) in *. set (L2 := ln (1 + (r / a) ^ 2)) in *.
      change (1 * / (r / a)) with (1 / (r / a)). set (A := atan (1 / (r / a))) in *.
      clearbody L1 L2 A. unfold Rsqr. field. splits; try lra; nra.
  Qed.
  Lemma Bu_rf_d r t : 0 < r -> is_derive (fun x => - Bu_rf a x t) r (Bu_r2 a r t).
  Proof.
    intros Hr. unfold Bu_r2, Bu_rf.
    assert (Hx : 0 < r / a) by (apply Rdiv_lt_0_compat; auto).
    assert (Hi : 0 < 1 / (r / a)) by (apply Rdiv_lt_0_compat; lra).
    auto_derive.
    - change (r * / a) with (r / a). splits; auto; try lra; try nra.
    - change (r * / a) with (r / a). 
      set (L1 := ln (1 + r / a)) in *. set (L2 := ln (1 + (r / a) ^ 2)) in *.
      change (1 * / (r / a)) with (1 / (r / a)). set (A := atan (1 / (r / a))) in *.
      clearbody L1 L2 A. unfold Rsqr. field. splits; try lra; nra.
  Qed.
  Definition Dpos (r t : RR) : Prop := 0 < r.
  Lemma Burkert_ok : ClassOK (DSph Dpos) (Burkert a).
  Proof. apply Spherical_ok; unfold Dpos; intros; auto using Bu_ev_d, Bu_rf_d. Qed.
  Lemma Bu_rad f r t : Some (Bu_rdens a) = Some f -> Dpos r t ->
    Bu_r2 a r t - 2 * Bu_rf a r t / r = 4 * PI * f r t.
  Proof.
    unfold Dpos. intros E Hr. inversion E; subst f. unfold Bu_r2, Bu_rdens.
    set (g := Bu_rf a r t). assert (0 < r / a) by (apply Rdiv_lt_0_compat; auto).
    field. splits; try lra; nra.
  Qed.
  Lemma Burkert_density amp : density_is_source (DSph Dpos) (Single amp (Burkert a)).
  Proof.
    apply Spherical_density; try (unfold Dpos; intros; auto using Bu_ev_d, Bu_rf_d).
    - eapply Bu_rad; eauto.
    - apply slice_open_sph. intros r t Hr. apply locally_pos; auto.
  Qed.
End Burkertp.

Section Shellp.
  Variable a : RR.
  Hypothesis Ha : 0 < a.
  Definition DShell (r t : RR) : Prop := 0 < r /\ r <> a.
  Lemma SS_loc (f g : RR -> RR) r l : r <> a ->
    (r < a -> is_derive f r l) -> (a < r -> is_derive g r l) ->
    is_derive (fun x => if SS_in a x then f x else g x) r l.
  Proof.
    intros Hne Hf Hg. destruct (Rlt_dec r a) as [H|H].
    - eapply is_derive_loc with (P := fun y => y < a) (f := f); auto.
      + apply locally_lt; auto.
      + intros y Hy. unfold SS_in. destruct (Rle_dec y a); auto; lra.
    - eapply is_derive_loc with (P := fun y => a < y) (f := g).
      + apply locally_gt; lra.
      + intros y Hy. unfold SS_in. destruct (Rle_dec y a); auto; lra.
      + apply Hg. lra.
  Qed.
  Lemma SS_ev_d r t : DShell r t -> is_derive (fun x => SS_rev a x t) r (- SS_rf a r t).
  Proof.
    intros (Hr & Hne). unfold SS_rev. apply (SS_loc (fun _ => - 1 / a) (fun r => - 1 / r)); auto; intros H;
    unfold SS_rf, SS_in; destruct (Rle_dec r a); try lra.
    - eapply is_derive_eq. apply is_derive_cst. toR; ring.
    - auto_derive; [lra|]. field. lra.
  Qed.
  Lemma SS_rf_d r t : DShell r t -> is_derive (fun x => - SS_rf a x t) r (SS_r2 a r t).
  Proof.
    intros (Hr & Hne). unfold SS_rf.
    apply is_derive_ext with (f := fun x => if SS_in a x then - 0 else - (- 1 / x ^ 2)).
    { intros. destruct (SS_in a t0); auto. }
    apply (SS_loc (fun _ => - 0) (fun r => - (- 1 / r ^ 2))); auto; intros H;
    unfold SS_r2, SS_in; destruct (Rle_dec r a); try lra.
    - apply is_derive_cst.
    - auto_derive; [nra|]. field. lra.
  Qed.
  Lemma SphericalShell_ok : ClassOK (DSph DShell) (SphericalShell a).
  Proof. apply Spherical_ok; auto using SS_ev_d, SS_rf_d. intros r t []; auto. Qed.
  Lemma SphericalShell_density amp : density_is_source (DSph DShell) (Single amp (SphericalShell a)).
  Proof.
    apply Spherical_density; auto using SS_ev_d, SS_rf_d. intros r t []; auto.
    - intros f r t E (Hr & Hne). inversion E. unfold SS_r2, SS_rf, SS_rdens. destruct (SS_in a r); field; lra.
    - apply slice_open_sph. intros r t (Hr & Hne). apply filter_and.
      + apply locally_pos; auto.
      + apply (open_neq a r Hne).
  Qed.
End Shellp.

Section LHp.
  Variables (core2 q : RR) (b : option RR).
  Hypothesis Hq : q <> 0.
  (** in the triaxial case R = 0 divides by zero *)
  Definition DLH : Dom := fun R z phi t =>
    match b with Some _ => R <> 0 /\ 0 < LH_m core2 q b R z phi | None => 0 < LH_ma core2 q R z end.
  Lemma sin_2 x : sin (2 * x) = 2 * sin x * cos x.  Proof. apply sin_2a. Qed.
  Lemma cos_2 x : cos (2 * x) = cos x ^ 2 - sin x ^ 2.
  Proof. rewrite cos_2a. ring. Qed.
  Ltac absm H := match type of H with 0 < ?x => let m := fresh "m" in set (m := x) in *; clearbody m end.
  Lemma LH_force : is_force_field DLH (LH_ev core2 q b) (LH_Rf core2 q b) (LH_zf core2 q b) (LH_pt core2 q b).
  Proof.
    intros R z phi t HD. unfold DLH in HD. unfold LH_ev, LH_Rf, LH_zf, LH_pt, LH_nonaxi.
    destruct b as [bb|].
    - destruct HD as (HR & Hm). unfold LH_m, LH_Rt2 in *. set (e := LH_1m1overb2 (Some bb)) in *. clearbody e.
      change (z / q) with (z * / q) in *.
      splits; (auto_derive; [auto|]); try rewrite sin_2; change (1 + - (e * sin phi ^ 2)) with (1 - e * sin phi ^ 2); absm Hm; field; splits; auto; lra.
    - unfold LH_ma in *. change (z / q) with (z * / q) in *.
      splits; (auto_derive; [auto|]); absm HD; try (field; splits; auto; lra). 
  Qed.
  Lemma LH_hess : is_meridional_hessian DLH (LH_Rf core2 q b) (LH_zf core2 q b) (LH_R2 core2 q b) (LH_z2 core2 q b) (LH_Rz core2 q b).
  Proof.
    intros R z phi t HD. unfold DLH in HD. unfold LH_R2, LH_z2, LH_Rz, LH_Rf, LH_zf, LH_nonaxi.
    destruct b as [bb|].
    - destruct HD as (HR & Hm). unfold LH_m, LH_Rt2 in *. set (e := LH_1m1overb2 (Some bb)) in *. clearbody e.
      change (z / q) with (z * / q) in *.
      splits; (auto_derive; [splits; auto; lra|]); change (1 + - (e * sin phi ^ 2)) with (1 - e * sin phi ^ 2); absm Hm; field; splits; auto; lra.
    - unfold LH_ma in *. change (z / q) with (z * / q) in *.
      splits; (auto_derive; [splits; auto; lra|]); absm HD; try (field; splits; auto; lra). 
  Qed.
  Lemma LH_azi : is_azimuthal_hessian DLH (LH_Rf core2 q b) (LH_zf core2 q b) (LH_pt core2 q b)
     (LH_p2 core2 q b) (LH_Rp core2 q b) (LH_pz core2 q b).
  Proof.
    intros R z phi t HD. unfold DLH in HD. unfold LH_p2, LH_Rp, LH_pz, LH_Rf, LH_zf, LH_pt, LH_nonaxi.
    destruct b as [bb|].
    - destruct HD as (HR & Hm). unfold LH_m, LH_Rt2 in *. set (e := LH_1m1overb2 (Some bb)) in *. clearbody e.
      change (z / q) with (z * / q) in *.
      splits; (auto_derive; [splits; auto; lra|]); rewrite ?sin_2, ?cos_2; change (1 + - (e * sin phi ^ 2)) with (1 - e * sin phi ^ 2); absm Hm; field; splits; auto; lra.
    - splits; try apply is_derive_cst.
  Qed.
  Lemma LH_ok : ClassOK DLH (LogarithmicHalo core2 q b).
  Proof.
    split; intros amp.
    - eapply class_forces; [left; reflexivity|]. apply LH_force.
    - eapply class_hess; try reflexivity. apply LH_hess.
    - apply class_azi. { intros _; simpl; splits; discriminate. } apply LH_azi.
  Qed.
  Lemma DLH_open : slice_open DLH.
  Proof.
    intros R z phi t HD. unfold DLH in *. destruct b as [bb|].
    - destruct HD as (HR & Hm).
      assert (P : forall (f : RR -> RR) x, ex_derive f x -> 0 < f x -> locally x (fun y => 0 < f y)).
      { intros f x Hf Hx. apply (ex_derive_continuous f x Hf (fun v => 0 < v)). apply locally_pos; auto. }
      splits.
      + apply filter_and. apply (open_neq 0 R HR). apply P; auto. unfold LH_m, LH_Rt2. auto_derive; auto.
      + apply filter_and. exists (mkposreal 1 Rlt_0_1); auto. apply P; auto. unfold LH_m, LH_Rt2. auto_derive; auto.
      + apply filter_and. exists (mkposreal 1 Rlt_0_1); auto. apply P; auto. unfold LH_m, LH_Rt2. auto_derive; auto.
    - assert (P : forall (f : RR -> RR) x, ex_derive f x -> 0 < f x -> locally x (fun y => 0 < f y)).
      { intros f x Hf Hx. apply (ex_derive_continuous f x Hf (fun v => 0 < v)). apply locally_pos; auto. }
      splits; apply P; auto; unfold LH_ma; auto_derive; auto.
  Qed.
  Lemma LH_density amp : density_is_source DLH (Single amp (LogarithmicHalo core2 q b)).
  Proof.
    eapply class_density; try reflexivity.
    - apply DLH_open.
    - apply LH_ok.
    - intros _; discriminate.
    - intros R z phi t HD HR. simpl. pose proof PI_RGT_0.
      unfold DLH in HD. unfold LH_p2, LH_R2, LH_z2, LH_dens, LH_Rf, LH_nonaxi.
      destruct b as [bb|].
      + destruct HD as (HR' & Hm). set (m := LH_m core2 q (Some bb) R z phi) in *.
        assert (Em : core2 = m - LH_Rt2 (Some bb) R phi - (z / q) ^ 2) by (unfold m, LH_m; ring).
        clearbody m. unfold LH_Rt2 in *. set (e := LH_1m1overb2 (Some bb)) in *. clearbody e.
        rewrite ?sin_2, ?cos_2. field. splits; auto; lra.
      + set (m := LH_ma core2 q R z) in *.
        assert (Em : core2 = m - R ^ 2 - (z / q) ^ 2) by (unfold m, LH_ma; ring).
        clearbody m. rewrite Em. field. splits; auto; lra.
  Qed.
End LHp.
