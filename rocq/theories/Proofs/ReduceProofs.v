From Coq Require Import Reals List Lra Bool.
From Coquelicot Require Import Coquelicot.
From Verif.Lib Require Import RealAux.
From Verif.Model Require Import PotAPI PotAxi PotNonAxi Reduce.
From Verif.Spec Require Import PotSpec PotApiSpec SuperSpec Catalog ReduceSpec.
From Verif.Proofs Require Import Superposition PotLift CatalogProofs.
Import ListNotations.
Open Scope R_scope.
Notation RR := RbaseSymbolsImpl.R (only parsing).

Lemma restricts_scale a o3 o2 : restricts o3 o2 -> restricts (option_map (scale4 a) o3) (option_map (scale3 a) o2).
Proof. destruct o3, o2; cbn; auto. intros H R phi t. unfold scale4, scale3. rewrite H. auto. Qed.
Lemma fold_restricts l4 l3 : Forall2 (fun f g => forall R phi t, g R phi t = f R 0 phi t) l4 l3 ->
  forall (a4 : F4) (a3 : F3), (forall R phi t, a3 R phi t = a4 R 0 phi t) ->
  forall R phi t, fold_left add3 l3 a3 R phi t = fold_left add4 l4 a4 R 0 phi t.
Proof.
  induction 1 as [|f g l4 l3 H _ IH]; intros a4 a3 E R phi t; cbn; auto. apply IH. intros. unfold add3, add4. rewrite E, H. auto.
Qed.
Lemma osum_restricts l4 l3 : Forall2 restricts l4 l3 -> restricts (osum4 l4) (osum3 l3).
Proof.
  intros H. assert (K : match sequence l4, sequence l3 with
    | Some a, Some b => Forall2 (fun f g => forall R phi t, g R phi t = f R 0 phi t) a b | None, None => True | _, _ => False end).
  { induction H as [|x y l4 l3 HR H IH]; cbn; auto. destruct x as [f|], y as [g|]; try contradiction; auto.
    cbn in HR. destruct (sequence l4), (sequence l3); try contradiction; auto. }
  unfold osum4, osum3. destruct (sequence l4), (sequence l3); try contradiction; cbn; auto.
  intros. apply fold_restricts; auto.
Qed.
Lemma Forall2_map {A B C D} (P : C -> D -> Prop) (f : A -> C) (g : B -> D) (h : A -> B) l :
  (forall x, In x l -> P (f x) (g (h x))) -> Forall2 P (map f l) (map g (map h l)).
Proof. induction l; cbn; intros H; constructor; auto. Qed.

Lemma single_restriction p : simple p -> honest_axi p -> is_planar_restriction p (planar_of p).
Proof.
  intros SP HA q v. destruct p as [a c|a d|]; [| |contradiction].
  - cbn [planar_of]. destruct (isNonAxi (Single a c)) eqn:N.
    + clear HA. assert (K : forall o : option F4, restricts o (option_map (fun f => scale3 1 (fun R phi t => f R 0 phi t)) o)).
      { intros [f|]; cbn; auto. intros. unfold scale3. ring. }
      destruct q; exact (K _).
    + destruct (HA N) as [H1 H2]. destruct q; cbn [qty3 value planar_value plEv plRf plPt plR2 plp2 plRp isDiss].
      * pose proof (H1 PEv (0,0,0)) as K. cbn in K. cbn. intros. unfold scale3. rewrite Rmult_1_l. apply (K _ (or_introl eq_refl) eq_refl).
      * pose proof (H1 PRf (0,0,0)) as K. cbn in K. cbn. intros. unfold scale3. rewrite Rmult_1_l. apply (K _ (or_intror (or_introl eq_refl)) eq_refl).
      * destruct (H2 PPt (fst v, snd v, 0) (or_introl eq_refl)) as (f & E & Z). cbn [qty3 value] in E. rewrite E. cbn. intros. rewrite Z. unfold scale3, zero3. ring.
      * pose proof (H1 PR2 (0,0,0)) as K. cbn [qty3 value] in K. destruct (apiR2 (Single a c)) eqn:E; cbn; auto. intros. unfold scale3. rewrite Rmult_1_l.
        apply (K _ (or_intror (or_intror (or_introl eq_refl))) eq_refl).
      * destruct (H2 Pp2 (fst v, snd v, 0) (or_intror (or_introl eq_refl))) as (f & E & Z). cbn [qty3 value] in E. rewrite E. cbn. intros. rewrite Z. unfold scale3, zero3. ring.
      * destruct (H2 PRp (fst v, snd v, 0) (or_intror (or_intror (or_introl eq_refl)))) as (f & E & Z). cbn [qty3 value] in E. rewrite E. cbn. intros. rewrite Z. unfold scale3, zero3. ring.
  - destruct q; cbn; auto.
    + intros. unfold scale3. ring.
    + destruct (d_pt d); cbn; [|destruct (d_nonaxi d); cbn; auto]; intros; unfold scale3, scale4, zero4; ring.
Qed.
Lemma planar_of_diss p : simple p -> plDiss (planar_of p) = isDiss p.
Proof. destruct p as [a c|a d|]; [|auto|contradiction]. intros _. cbn. destruct (nonaxi c); auto. Qed.
Lemma osum4_Some {A} (f : A -> F4) l : osum4 (map (fun x => Some (f x)) l) = Some (sum4 (map f l)).
Proof. unfold osum4. assert (E : sequence (map (fun x => Some (f x)) l) = Some (map f l)) by (induction l; cbn; [|rewrite IHl]; auto). rewrite E. auto. Qed.

Lemma comp_restriction a ps : (forall p, In p ps -> simple p /\ honest_axi p) ->
  is_planar_restriction (Comp a ps) (PComp a (map planar_of ps)).
Proof.
  intros HP q v.
  assert (HM : forall p, In p ps -> restricts (value (qty3 q) p (fst v, snd v, 0)) (planar_value q (planar_of p) v)).
  { intros p Hp. destruct (HP p Hp) as [S HA]. apply single_restriction; auto. }
  assert (HF : forall p, In p ps -> restricts (if isDiss p then Some zero4 else value (qty3 q) p (fst v, snd v, 0))
    (if plDiss (planar_of p) then Some zero3 else planar_value q (planar_of p) v)).
  { intros p Hp. destruct (HP p Hp) as [S HA]. rewrite planar_of_diss by auto. destruct (isDiss p); [cbn; auto|]. apply HM; auto. }
  destruct q; cbn [qty3 value planar_value] in *.
  - cbn [apiEv plEv]. apply restricts_scale, osum_restricts, Forall2_map. auto.
  - cbn [apiRf plRf]. change (Some (scale4 a (sum4 (map (fun q => apiRf q (fst v, snd v, 0)) ps))))
      with (option_map (scale4 a) (Some (sum4 (map (fun q => apiRf q (fst v, snd v, 0)) ps)))).
    rewrite <- osum4_Some. apply restricts_scale, osum_restricts, Forall2_map. auto.
  - cbn [apiPt plPt]. apply restricts_scale, osum_restricts, Forall2_map. auto.
  - unfold apiR2 in *. cbn [api2 plR2]. apply restricts_scale, osum_restricts, Forall2_map. auto.
  - unfold apip2 in *. cbn [api2 plp2]. apply restricts_scale, osum_restricts, Forall2_map. auto.
  - unfold apiRp in *. cbn [api2 plRp]. apply restricts_scale, osum_restricts, Forall2_map. auto.
Qed.

(** ** Vertical lines *)
Lemma fold_line R phi l4 l2 : Forall2 (fun (f : F4) (g : F2) => forall x t, g x t = f R x phi t) l4 l2 ->
  forall (a4 : F4) (a2 : F2), (forall x t, a2 x t = a4 R x phi t) ->
  forall x t, fold_left add2 l2 a2 x t = fold_left add4 l4 a4 R x phi t.
Proof. induction 1 as [|f g l4 l2 H _ IH]; intros a4 a2 E x t; cbn; auto. apply IH. intros. unfold add2, add4. rewrite E, H. auto. Qed.
Lemma osum_line R phi l4 l2 : Forall2 (on_line R phi) l4 l2 -> on_line R phi (osum4 l4) (osum2 l2).
Proof.
  intros H. assert (K : match sequence l4, sequence l2 with
    | Some a, Some b => Forall2 (fun (f : F4) (g : F2) => forall x t, g x t = f R x phi t) a b | None, None => True | _, _ => False end).
  { induction H as [|x y l4 l2 HR H IH]; cbn; auto. destruct x as [f|], y as [g|]; try contradiction; auto.
    cbn in HR. destruct (sequence l4), (sequence l2); try contradiction; auto. }
  unfold osum4, osum2. destruct (sequence l4), (sequence l2); try contradiction; cbn; auto.
  intros. apply fold_line; auto.
Qed.
Lemma line_scale R phi a o4 o2 : on_line R phi o4 o2 -> on_line R phi (option_map (scale4 a) o4) (option_map (scale2 a) o2).
Proof. destruct o4, o2; cbn; auto. intros H x t. unfold scale4, scale2. rewrite H. auto. Qed.

Lemma mkVert_ok p R phi t0 l : mkVert p R phi t0 = ROk l -> vertical_of p R (the_phi phi) t0 l.
Proof.
  intros H. assert (E : exists ev, apiEv p = Some ev /\ l = LVert 1 p R (the_phi phi) (ev R 0 (the_phi phi) t0)).
  { unfold mkVert in H. destruct phi as [f|]; [|destruct (isNonAxi p); [discriminate|]]; destruct (apiEv p) as [ev|]; try discriminate;
    injection H as <-; eexists; split; reflexivity. }
  destruct E as (ev & E & ->). split; [|split].
  - exists ev. split; auto. cbn. rewrite E. cbn. eexists. split; [reflexivity|]. intros. unfold scale2. ring.
  - cbn. intros. unfold scale2. ring.
  - cbn. destruct (apiz2 p); cbn; auto. intros. unfold scale2. ring.
Qed.
Lemma comp_not_diss a ps : isDiss (Comp a ps) = false -> forall p, In p ps -> isDiss p = false.
Proof.
  cbn. intros H p Hp. destruct (isDiss p) eqn:E; auto. rewrite <- H. symmetry. apply existsb_exists. eauto.
Qed.
Lemma vert_seq ps R phi t0 : forall ls, rsequence (map (fun p => mkVert p R phi t0) ps) = ROk ls -> Forall2 (fun p l => mkVert p R phi t0 = ROk l) ps ls.
Proof.
  induction ps as [|p ps IH]; cbn; intros ls H. injection H as <-. constructor.
  destruct (mkVert p R phi t0) eqn:E; [|discriminate]. destruct (rsequence _) eqn:E2; [|discriminate]. injection H as <-. constructor; auto.
Qed.
Lemma Forall2_map2 {A B C D} (P : C -> D -> Prop) (f : A -> C) (g : B -> D) l l' :
  Forall2 (fun x y => P (f x) (g y)) l l' -> Forall2 P (map f l) (map g l').
Proof. induction 1; cbn; constructor; auto. Qed.

Lemma F2_impl {A B} (P Q : A -> B -> Prop) l l' : (forall x y, P x y -> Q x y) -> Forall2 P l l' -> Forall2 Q l l'.
Proof. intros H. induction 1; constructor; auto. Qed.

Lemma comp_vertical a ps R phi t0 ls : isDiss (Comp a ps) = false ->
  rsequence (map (fun p => mkVert p R phi t0) ps) = ROk ls -> vertical_of (Comp a ps) R (the_phi phi) t0 (LComp a ls).
Proof.
  intros ND H. apply vert_seq in H. pose proof (comp_not_diss a ps ND) as HD. clear ND.
  assert (HV : Forall2 (fun p l => isDiss p = false /\ vertical_of p R (the_phi phi) t0 l) ps ls).
  { revert HD. induction H; intros HD; constructor. { split; [apply HD; left; auto|]. apply mkVert_ok; auto. } apply IHForall2. intros; apply HD; right; auto. }
  clear H HD. set (f := the_phi phi) in *. split; [|split].
  - cbn [apiEv liEv].
    assert (K : exists l4, sequence (map (fun q => if isDiss q then Some zero4 else apiEv q) ps) = Some l4 /\
                exists l2, sequence (map liEv ls) = Some l2 /\
                Forall2 (fun (F : F4) (g : F2) => forall x t, g x t = F R x f t - F R 0 f t0) l4 l2).
    { induction HV as [|p l ps ls [HD (V & _ & _)] _ IH]; cbn. { exists []; split; auto. exists []; split; auto. }
      destruct IH as (l4 & E4 & l2 & E2 & F). destruct V as (Phi & EP & g & EG & Hg).
      exists (Phi :: l4). rewrite HD, EP, E4. split; auto. exists (g :: l2). rewrite EG, E2. split; auto. }
    destruct K as (l4 & E4 & l2 & E2 & F). unfold osum4, osum2. rewrite E4, E2. cbn. eexists. split; [reflexivity|]. eexists. split; [reflexivity|].
    intros x t. unfold scale2, scale4, sum4.
    assert (S : forall (a4 : F4) (a2 : F2), (forall x t, a2 x t = a4 R x f t - a4 R 0 f t0) ->
       fold_left add2 l2 a2 x t = fold_left add4 l4 a4 R x f t - fold_left add4 l4 a4 R 0 f t0).
    { clear E4 E2. induction F as [|F g l4 l2 HF _ IH]; intros a4 a2 E; cbn; auto. apply IH. intros. unfold add2, add4. rewrite E, HF. ring. }
    rewrite (S zero4 zero2). ring. intros. unfold zero2, zero4. ring.
  - cbn [apizf liF]. change (Some (scale4 a (sum4 (map (fun q => apizf q (0,0,0)) ps)))) with (option_map (scale4 a) (Some (sum4 (map (fun q => apizf q (0, 0, 0)) ps)))).
    rewrite <- osum4_Some. apply line_scale, osum_line, Forall2_map2. eapply F2_impl; [|exact HV]. cbn. intros p l [_ (_ & H & _)]. exact H.
  - unfold apiz2. cbn [api2 liF2]. apply line_scale, osum_line, Forall2_map2. eapply F2_impl; [|exact HV]. cbn. intros p l [D (_ & _ & H)]. rewrite D. exact H.
Qed.

(** ** The catalogue *)
Lemma axi_honest amp ev Rf zf R2 z2 Rz dn : honest_axi (Single amp (mkAxi ev Rf zf R2 z2 Rz dn)).
Proof.
  intros _. split.
  - intros q v f [<-|[<-|[<-|[]]]]; cbn; [intros [= <-]; reflexivity|intros [= <-]; reflexivity|].
    destruct R2; cbn; [intros [= <-]; reflexivity|discriminate].
  - intros q v [<-|[<-|[<-|[]]]]; cbn; eexists; split; try reflexivity.
Qed.
Lemma honest_class amp c : (forall R z phi phi' t, c_ev c R z phi t = c_ev c R z phi' t) -> (forall R z phi phi' t, c_Rf c R z phi t = c_Rf c R z phi' t) ->
  (forall f, c_R2 c = Some f -> forall R z phi phi' t, f R z phi t = f R z phi' t) ->
  (forall f, In (Some f) [c_pt c; c_p2 c; c_Rp c] -> forall R z phi t, f R z phi t = 0) -> honest_axi (Single amp c).
Proof.
  intros H1 H2 H3 H4 N. split.
  - intros q v f [<-|[<-|[<-|[]]]].
    + intros [= <-]. intros. unfold scale4. rewrite (H1 _ _ phi phi'). auto.
    + intros [= <-]. intros. unfold scale4. rewrite (H2 _ _ phi phi'). auto.
    + cbn. destruct (c_R2 c); [|discriminate]. intros [= <-]. intros. unfold scale4. rewrite (H3 _ eq_refl _ _ phi phi'). auto.
  - cbn in N. assert (K : forall m, In m [c_pt c; c_p2 c; c_Rp c] -> exists f, dflt (nonaxi c) amp m = Some f /\ forall R z phi t, f R z phi t = 0).
    { intros [g|] Hin; cbn; [|rewrite N]; eexists; (split; [reflexivity|]); intros; [|auto]. unfold scale4. rewrite (H4 g Hin). ring. }
    intros q v [<-|[<-|[<-|[]]]]; apply K; cbn; auto.
Qed.
Lemma catalog_honest D c amp : CatalogSingle D c -> honest_axi (Single amp c).
Proof.
  destruct 1; try apply axi_honest.
  - apply honest_class; cbn; try reflexivity; [intros f [= <-]; reflexivity|]. intros f [E|[E|[E|[]]]]; discriminate.
  - apply honest_class; cbn; try reflexivity; [intros f [= <-]; reflexivity|]. intros f [E|[E|[E|[]]]]; discriminate.
  - apply honest_class; cbn; try reflexivity; [intros f [= <-]; reflexivity|]. intros f [E|[E|[E|[]]]]; injection E as <-; reflexivity.
  - intros N. discriminate N.
Qed.

Lemma catalog_inv D p : Catalog D p -> match p with Single a c => exists D', CatalogSingle D' c | Diss _ _ => False | Comp _ ps => forall q, In q ps -> exists D', Catalog D' q end.
Proof. induction 1; eauto. Qed.

(** ** Main statements *)
Lemma toPlanar_ok p : amplitude_one_if_composite p -> List.Forall (fun q => simple q /\ honest_axi q) (members p) ->
  exists pl, toPlanar (O3 p) = ROk pl /\ is_planar_restriction p pl.
Proof.
  intros HA HM. rewrite Forall_forall in HM. destruct p as [a c|a d|a ps].
  - eexists; split; [reflexivity|]. apply (single_restriction (Single a c)); [exact I|]. apply HM. left; auto.
  - eexists; split; [reflexivity|]. apply (single_restriction (Diss a d)); [exact I|]. apply HM. left; auto.
  - eexists; split; [reflexivity|]. cbn in HA. subst a. apply comp_restriction. auto.
Qed.
Lemma leaves_simple p : List.Forall simple (leaves p).
Proof.
  revert p. fix IH 1. intros [a c|a d|a ps]; cbn; [repeat constructor|repeat constructor|].
  induction ps as [|p ps IHl]; cbn; [constructor|]. apply Forall_app. split; auto.
Qed.
Lemma simple_leaves p : simple p -> leaves p = [p].
Proof. destruct p; cbn; auto. contradiction. Qed.
Lemma toPlanarList_ok l : List.Forall honest_axi (flatten (map Leaf l)) ->
  exists pl, toPlanarList (map O3 l) = ROk pl /\ is_planar_restriction (mkComp (map Leaf l)) pl.
Proof.
  intros H. unfold toPlanarList.
  assert (E : forall l, flat_map (fun o => match o with O3 p => map O3 (leaves p) | O2 p => map O2 (plLeaves p) | O1 p => [O1 p] end) (map O3 l) = map O3 (flatten (map Leaf l))).
  { induction l0; cbn; auto. rewrite IHl0. unfold flatten. cbn. rewrite map_app. auto. }
  rewrite E.
  assert (E2 : forallb (fun o => match o with O3 _ => true | _ => false end) (map O3 (flatten (map Leaf l))) = true).
  { apply forallb_forall. intros x Hx. apply in_map_iff in Hx. destruct Hx as (y & <- & _). auto. }
  rewrite E2.
  assert (S : List.Forall simple (flatten (map Leaf l))).
  { clear. unfold flatten. induction l; cbn; [constructor|]. apply Forall_app. split; [apply leaves_simple|auto]. }
  assert (E3 : flat_map (fun o => match o with O3 p => leaves p | _ => [] end) (map O3 (flatten (map Leaf l))) = flatten (map Leaf l)).
  { clear - S. induction S; cbn; auto. rewrite IHS, simple_leaves; auto. }
  rewrite E3. eexists. split; [reflexivity|]. apply comp_restriction. intros p Hp.
  rewrite Forall_forall in S, H. auto.
Qed.
Lemma toVertical_ok p R phi t0 l : amplitude_one_if_composite p -> toVertical (O3 p) R phi t0 = ROk l -> vertical_of p R (the_phi phi) t0 l.
Proof.
  intros HA H. unfold toVertical in H. destruct (isDiss p) eqn:D; [discriminate|]. destruct p as [a c|a d|a ps].
  - apply mkVert_ok; auto.
  - discriminate.
  - destruct (rsequence _) eqn:E; [|discriminate]. injection H as <-. cbn in HA. subst a. apply comp_vertical; auto.
Qed.
Lemma toVertical_total p R phi t0 : List.Forall simple (members p) -> isDiss p = false ->
  (phi <> None \/ List.Forall (fun q => isNonAxi q = false) (members p)) -> exists l, toVertical (O3 p) R phi t0 = ROk l.
Proof.
  intros S D HP. unfold toVertical. rewrite D.
  assert (K : forall q, In q (members p) -> isDiss q = false -> exists l, mkVert q R phi t0 = ROk l).
  { intros q Hq Dq. rewrite Forall_forall in S. specialize (S q Hq). destruct q as [a c|a d|]; [|discriminate|contradiction].
    unfold mkVert. destruct phi; [eexists; reflexivity|]. destruct HP as [HP|HP]; [congruence|]. rewrite Forall_forall in HP. rewrite (HP _ Hq). eexists; reflexivity. }
  destruct p as [a c|a d|a ps]; [|discriminate|].
  - apply K; cbn; auto.
  - pose proof (comp_not_diss a ps D) as HD. cbn [members] in K.
    assert (exists ls, rsequence (map (fun p => mkVert p R phi t0) ps) = ROk ls) as [ls E].
    { clear - K HD. induction ps as [|p ps IH]; cbn; [eexists; reflexivity|]. destruct (K p (or_introl eq_refl) (HD p (or_introl eq_refl))) as [l E].
      destruct IH as [ls El]. intros; apply K; [right|]; auto. intros; apply HD; right; auto. rewrite E, El. eexists; reflexivity. }
    rewrite E. eexists; reflexivity.
Qed.

Lemma catalog_conservative_planar D p pl : Catalog D p -> amplitude_one_if_composite p -> List.Forall (fun q => simple q /\ honest_axi q) (members p) ->
  toPlanar (O3 p) = ROk pl ->
  exists Phi FR Fphi, plEv pl = Some Phi /\ (forall v, plRf pl v = Some FR) /\ (forall v, plPt pl v = Some Fphi) /\
    forall R phi t, D R 0 phi t ->
      is_derive (fun x => Phi x phi t) R (- FR R phi t) /\ is_derive (fun x => Phi R x t) phi (- Fphi R phi t).
Proof.
  intros C HA HM E. destruct (toPlanar_ok p HA HM) as (pl' & E' & HR). rewrite E in E'. injection E' as <-.
  destruct (catalog_forces D p C) as (Phi & Fp & E1 & E2 & G).
  assert (V : forall q : Pot, (exists a c, q = Single a c) -> forall v, plRf (planar_of q) v = plRf (planar_of q) (0,0) /\ plPt (planar_of q) v = plPt (planar_of q) (0,0)).
  { intros q (a & c & ->) v. cbn. destruct (nonaxi c); cbn; auto. }
  assert (VP : forall v, plRf pl v = plRf pl (0,0) /\ plPt pl v = plPt pl (0,0)).
  { pose proof (catalog_inv D p C) as CI. destruct p as [a c|a d|a ps]; [|contradiction|].
    - injection E as <-. exact (V (Single a c) (ex_intro _ a (ex_intro _ c eq_refl))).
    - injection E as <-. intros v. rewrite Forall_forall in HM. cbn [members] in HM. cbn [plRf plPt].
      assert (Q : forall q, In q ps -> exists a c, q = Single a c).
      { intros q Hq. destruct (CI q Hq) as [D' Cq]. apply catalog_inv in Cq. destruct (HM q Hq) as [S _]. destruct q; [eauto|contradiction|contradiction]. }
      rewrite !map_map. split; f_equal; f_equal; apply map_ext_in; intros q Hq; apply V; auto. }
  pose proof (HR PEv (0,0)) as H1. pose proof (HR PRf (0,0)) as H2. pose proof (HR PPt (0,0)) as H3. cbn [qty3 value planar_value fst snd] in H1, H2, H3.
  unfold v0 in E2, G. rewrite E1 in H1. rewrite E2 in H3.
  destruct (plEv pl) as [P2|] eqn:X1; [|contradiction]. destruct (plRf pl (0,0)) as [R2|] eqn:X2; [|contradiction]. destruct (plPt pl (0,0)) as [T2|] eqn:X3; [|contradiction].
  cbn in H1, H2, H3. exists P2, R2, T2. split; [auto|]. split; [intros v; apply VP|]. split; [intros v; apply VP|].
  intros R phi t HD. destruct (G R 0 phi t HD) as (A & _ & B). split.
  - rewrite H2. eapply is_derive_ext; [|exact A]. intros x. rewrite H1. auto.
  - rewrite H3. eapply is_derive_ext; [|exact B]. intros x. rewrite H1. auto.
Qed.

Lemma catalog_vertical_force D p R phi t0 l : Catalog D p -> amplitude_one_if_composite p -> toVertical (O3 p) R phi t0 = ROk l ->
  exists Phi F F2, liEv l = Some Phi /\ liF l = Some F /\ liF2 l = Some F2 /\ (Phi 0 t0 = 0) /\
    forall x t, D R x (the_phi phi) t ->
      is_derive (fun y => Phi y t) x (- F x t) /\ is_derive (fun y => - F y t) x (F2 x t).
Proof.
  intros C HA E. destruct (toVertical_ok p R phi t0 l HA E) as ((Phi & EP & g & EG & Hg) & HF & H2).
  destruct (catalog_forces D p C) as (Phi' & Fp & E1 & E2 & G). rewrite EP in E1. injection E1 as <-.
  destruct (catalog_hessian D p C) as (P2R & P2z & PRz & _ & K2 & _ & GH). rewrite K2 in H2. unfold v0 in *.
  destruct (liF l) as [F|]; [|contradiction]. destruct (liF2 l) as [F2|]; [|contradiction]. cbn in HF, H2.
  exists g, F, F2. splits; auto. { rewrite Hg. ring. }
  intros x t HD. destruct (G R x _ t HD) as (_ & A & _). destruct (GH R x _ t HD) as (_ & B & _). split.
  - rewrite HF. eapply is_derive_ext. { intros y. symmetry. apply Hg. }
    replace (- apizf p (0,0,0) R x (the_phi phi) t) with (- apizf p (0,0,0) R x (the_phi phi) t - 0) by ring.
    apply (is_derive_minus (K:=R_AbsRing) (V:=R_NormedModule)); [exact A|apply is_derive_cst].
  - rewrite H2. eapply is_derive_ext; [|exact B]. intros y. cbn. rewrite HF. auto.
Qed.
