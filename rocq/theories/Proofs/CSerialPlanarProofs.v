(** C35 in the plane *)
From Coq Require Import Reals String List Bool ZArith Lia Lra.
From Verif Require Import Model.CSerial Model.CView Spec.CSerialSpec Proofs.CSerialProofs Model.CSerialPlanar Spec.CSerialPlanarSpec.
Import ListNotations.
Open Scope string_scope. Open Scope list_scope. Open Scope R_scope.

Definition special : list Z := [2; 3; 4; 6; 12; 15; 28; 29; -9; 13; -7; -8; -11]%Z.
Lemma agrees2 ty : ~ In ty special -> agrees c_nargs2 ty.
Proof.
  intros H pa. unfold c_nargs2. destruct ty as [|p|p]; [reflexivity| |];
  (do 5 (try (destruct p as [p|p|]; try reflexivity))); exfalso; apply H; cbn; tauto.
Qed.
Section All.
  Variable nan : R.
  Variable linspace : R -> R -> nat -> list R.
  Variable trange : option (R * R).
  Hypothesis linspace_length : forall a b n, length (linspace a b n) = n.
  Notation reads2 := (reads c_nargs2 c_moving2).
  Notation view2 := (c_view true).
  Lemma pairs_types amp l ty : In ty (pot_type (pairs_ser amp l)) -> ty = 26%Z.
  Proof. unfold pairs_ser. cbn. apply repeat_spec. Qed.
  Lemma shared_types l s : (forall amp alpha q2 core2, l <> FlattenedPower amp alpha q2 core2) -> (forall amp alpha rc, l <> PowerSphericalwCutoff amp alpha rc) ->
    (forall a b c d e f g h i j, l <> InterpRZ a b c d e f g h i j) -> leaf_to_c linspace trange l = Some s -> forall ty, In ty (pot_type s) -> ~ In ty special.
  Proof.
    intros N1 N2 N3 E ty H.
    assert (K : forall z, In ty [z] -> existsb (Z.eqb z) special = false -> ~ In ty special).
    { intros z [Hz|[]] Hs Hin. rewrite Hz in Hs. assert (existsb (Z.eqb ty) special = true); [|congruence]. apply existsb_exists. exists ty. split; [exact Hin | apply Z.eqb_refl]. }
    assert (K26 : forall z amp ps, In ty (pot_type (pairs_ser amp ps)) \/ In ty [z] -> existsb (Z.eqb z) special = false -> ~ In ty special).
    { intros z amp ps [Hz|Hz] Hs; [|exact (K z Hz Hs)]. apply pairs_types in Hz. apply (K 26%Z); [now left | reflexivity]. }
    destruct l; cbn [leaf_to_c] in E; unfold leaf_ser in E;
      try (injection E as <-; cbn [pot_type] in H; refine (K _ H _); reflexivity).
    - destruct onem1overb2; injection E as <-; refine (K _ H _); reflexivity.
    - now destruct (N1 amp alpha q2 core2).
    - now destruct (N3 amp logR rgrid zgrid pot rforce zforce r2deriv z2deriv rzderiv).
    - now destruct (N2 amp alpha rc).
    - destruct disks as [[[[m1 a1] b1] [[m2 a2] b2]] [[m3 a3] b3]]. injection E as <-. cbn [pot_type] in H. apply (K 5%Z); [|reflexivity]. destruct H as [H|[H|[H|[]]]]; now left.
    - injection E as <-. cbn [pot_type] in H. refine (K _ H _). now destruct e.
    - injection E as <-. apply in_app_or in H. apply (K26 44%Z amp pairs); [tauto | reflexivity].
    - injection E as <-. apply in_app_or in H. apply (K26 24%Z amp pairs); [tauto | reflexivity].
    - unfold frame_ser in E. destruct (cinterp f) as [n|]; [destruct (genuine f); [destruct trange as [[tmin tmax]|]|]|]; try discriminate E; injection E as <-; refine (K _ H _); reflexivity.
  Qed.
  Lemma leaf2_ok l s : match l with Shared l => leaf_wf l | _ => True end -> leaf2_to_c nan linspace trange l = Some s -> exists cs, reads2 s cs /\ describes2 nan linspace trange l (map view2 cs).
  Proof.
    intros W E.
    destruct l as [l|amp A to s2 alpha m om ga|amp g A alpha m om ga|amp g t p ph|amp m p ph|amp mo p mb m rb rbp rb2p r1p|amp].
    1:{ assert (C : (exists amp alpha q2 core2, l = FlattenedPower amp alpha q2 core2) \/ (exists amp alpha rc, l = PowerSphericalwCutoff amp alpha rc) \/
                    (exists a b c d e f g h i j, l = InterpRZ a b c d e f g h i j) \/
                    ((forall amp alpha q2 core2, l <> FlattenedPower amp alpha q2 core2) /\ (forall amp alpha rc, l <> PowerSphericalwCutoff amp alpha rc) /\ (forall a b c d e f g h i j, l <> InterpRZ a b c d e f g h i j) /\
                     leaf2_to_c nan linspace trange (Shared l) = leaf_to_c linspace trange l /\ match l with FlattenedPower _ _ _ _ => False | _ => True end)).
        { destruct l; try (right; right; right; (split; [|split; [|split; [|split]]]); [discriminate | discriminate | discriminate | reflexivity | exact I]); [left; eauto | right; right; left; eauto 12 | right; left; eauto]. }
        destruct C as [[amp [alpha [q2 [core2 ->]]]]|[[amp [alpha [rc ->]]]|[C|[N1 [N2 [N3 [Es Nf]]]]]]].
        - injection E as <-. eexists. split; [apply reads_simple0; solve [reflexivity | lia] | apply d2_fp].
        - injection E as <-. eexists. split; [apply reads_simple0; solve [reflexivity | lia] | apply d2_shared; [discriminate | apply d_psc]].
        - destruct C as [a [b [c [d [e [f [g [h [i [j ->]]]]]]]]]]. discriminate E.
        - rewrite Es in E. destruct (leaf_ok c_nargs2 c_moving2 true linspace trange linspace_length l s (fun _ => Nf) (fun ty H => agrees2 ty (shared_types l s N1 N2 N3 E ty H)) W E) as [cs [Hr Hd]].
          exists cs. split; [exact Hr | now apply d2_shared]. }
    all: cbn [leaf2_to_c leaf_ser] in E; try (destruct g as [[tf ts]|]; cbn [growth_args app] in E); injection E as <-; eexists; (split; [apply reads_simple0; solve [reflexivity | lia] |]).
    - apply d2_tls.
    - apply (d2_sls nan linspace trange amp (Some (tf, ts))).
    - apply (d2_sls nan linspace trange amp None).
    - apply (d2_ell nan linspace trange amp (Some (tf, ts))).
    - apply (d2_ell nan linspace trange amp None).
    - apply d2_lop.
    - apply d2_cos.
    - apply d2_hh.
  Qed.
  Lemma wrap2_ok w s cs ty before after tfs : wrapper_wf w -> (forall amp A, w <> TimeDependentAmplitude amp A) -> reads2 s cs -> wrapper2_ser nan w (n_pot s) = Some (ty, before, after, tfs) ->
    exists c, reads2 (mkSer 1 (ty ++ pot_type s) (before ++ pot_args s ++ after) (pot_tfuncs s ++ tfs)) [c] /\ view2 c = describes_wrapper2 nan w (map view2 cs).
  Proof.
    intros W Nt Hr E.
    assert (C : (exists amp ts xs ys zs, w = MovingObject amp ts xs ys zs) \/
                (wrapper_ser nan w (n_pot s) = (ty, before, after, tfs) /\ (forall z, In z ty -> ~ In z special) /\ match w with MovingObject _ _ _ _ _ => False | _ => True end)).
    { destruct w; cbn [wrapper2_ser] in E; try discriminate E; try (right; (split; [now injection E as <- <- <- <-|]); (split; [|exact I]); injection E as <- _ _ _; intros z [<-|[]]; cbn; intuition discriminate); [left; eauto 6|].
      now destruct (Nt amp A). }
    destruct C as [[amp [ts [xs [ys [zs ->]]]]]|[Ew [Ht Nm]]].
    - cbn [wrapper2_ser wrapper_wf] in *. destruct W as [Lx [Ly _]]. injection E as <- <- <- <-. set (n := length ts) in *. set (after := [of_nat n] ++ ts ++ xs ++ ys ++ [amp] ++ [hd 0 ts; last ts 0]).
      exists (CArg (-6) [scaled (first ts) (final ts) ts; xs; ys] [] [amp; hd 0 ts; last ts 0] [] cs). split; [|reflexivity].
      apply (reads_wrap c_nargs2 c_moving2 (-6) s cs after [] _ [amp; hd 0 ts; last ts 0] 3); try reflexivity; [|exact Hr]. intros pa. cbn [Z.eqb Pos.eqb orb]. unfold c_moving2.
      assert (E1 : after ++ pa = ([of_nat n] ++ ts ++ xs ++ ys ++ [amp]) ++ hd 0 ts :: last ts 0 :: pa) by (unfold after; rewrite <- !app_assoc; reflexivity).
      assert (E2 : after ++ pa = ([of_nat n] ++ ts ++ xs ++ ys ++ [amp] ++ [hd 0 ts]) ++ last ts 0 :: pa) by (unfold after; rewrite <- !app_assoc; reflexivity).
      replace (nth_error (after ++ pa) 0) with (Some (of_nat n)) by reflexivity. cbn [obind]. cbv zeta. replace (to_int (of_nat n)) with n by (symmetry; apply to_int_INR).
      replace (nth_error (after ++ pa) (1 + 3 * n + 1)) with (Some (hd 0 ts)).
      2:{ symmetry. rewrite E1. apply nth_mid. rewrite !app_length. cbn [length]. fold n. lia. }
      replace (nth_error (after ++ pa) (1 + 3 * n + 2)) with (Some (last ts 0)).
      2:{ symmetry. rewrite E2. apply nth_mid. rewrite !app_length. cbn [length]. fold n. lia. }
      cbn [obind]. unfold after. rewrite <- !app_assoc. rewrite (take_len 1) by reflexivity. cbn [obind]. rewrite (take_len n ts) by reflexivity. cbn [obind].
      rewrite (take_len n xs) by exact Lx. cbn [obind]. rewrite (take_len n ys) by exact Ly. reflexivity.
    - destruct (wrap_ok c_nargs2 c_moving2 true nan w s cs) as [c [Hc Hv]]; [rewrite Ew; cbn [fst]; intros z Hz; apply agrees2; auto | destruct w; auto; contradiction | exact W | exact Hr |].
      exists c. unfold wrapped_ser in Hc. rewrite Ew in Hc. split; [exact Hc|]. rewrite Hv. destruct w; try reflexivity; contradiction.
  Qed.
  Lemma pot2_to_c_wrap w inner : pot2_to_c nan linspace trange (Wrap2 w inner) =
    match parse_pot2 nan linspace trange inner with
    | Some s => match wrapper2_ser nan w (n_pot s) with Some (ty, before, after, tfs) => Some (mkSer 1 (ty ++ pot_type s) (before ++ pot_args s ++ after) (pot_tfuncs s ++ tfs)) | None => None end
    | None => None
    end.
  Proof.
    cbn [pot2_to_c].
    assert (E : forall l, (fix go (l : list pot2) : option serial := match l with [] => Some null_ser | p :: l => bind_ser (pot2_to_c nan linspace trange p) (go l) end) l = parse_pot2 nan linspace trange l).
    { intros l. induction l as [|p l IH]; [reflexivity|]. cbn [parse_pot2]. now rewrite IH. }
    now rewrite E.
  Qed.
  Definition ok2 (p : pot2) : Prop := forall s, pot2_to_c nan linspace trange p = Some s -> exists cs, reads2 s cs /\ means2 nan linspace trange p (map view2 cs).
  Lemma pots2_ok l : List.Forall ok2 l -> forall s, parse_pot2 nan linspace trange l = Some s -> exists cs, reads2 s cs /\ means2_all nan linspace trange l (map view2 cs).
  Proof.
    induction 1 as [|p l Hp Hl IH]; intros s E.
    - injection E as <-. exists []. split; [apply reads_nil | constructor].
    - cbn [parse_pot2] in E. destruct (pot2_to_c nan linspace trange p) as [sp|] eqn:Ep; [|discriminate E]. destruct (parse_pot2 nan linspace trange l) as [sl|] eqn:El; [|discriminate E]. cbn in E. injection E as <-.
      destruct (Hp sp Ep) as [c1 [R1 M1]]. destruct (IH sl eq_refl) as [c2 [R2 M2]]. exists (c1 ++ c2). split; [now apply reads_app|]. rewrite map_app. now constructor.
  Qed.
  Lemma pot2_ok p : pot2_wf p -> no_tdep p -> ok2 p.
  Proof.
    revert p. fix IH 2. intros p W N. destruct W as [l Wl|w inner Ww Wi].
    - intros s E. destruct (leaf2_ok l s Wl E) as [cs [Hr Hd]]. exists cs. split; [exact Hr | now constructor].
    - inversion N as [|? ? Nw Ni]; subst.
      assert (Hi : List.Forall ok2 inner).
      { clear N Ww Nw. induction Wi as [|p l Hp Hl IHl]; constructor; [apply IH; [exact Hp | now inversion Ni] | apply IHl; now inversion Ni]. }
      clear IH. intros s E. rewrite pot2_to_c_wrap in E. destruct (parse_pot2 nan linspace trange inner) as [si|] eqn:Ei; [|discriminate E].
      destruct (wrapper2_ser nan w (n_pot si)) as [[[[ty before] after] tfs]|] eqn:Ew; [|discriminate E]. injection E as <-.
      destruct (pots2_ok _ Hi si Ei) as [cs [Hr Hm]]. destruct (wrap2_ok w si cs ty before after tfs Ww Nw Hr Ew) as [c [Hc Hv]]. exists [c]. split; [exact Hc|]. cbn [map]. rewrite Hv. constructor. exact Hm.
  Qed.
End All.
