(** C22: whether output is physical, and with which scales *)
From Coq Require Import Reals List Bool String ZArith Lra Lia.
From Verif Require Import Model.Conversion Spec.UnitsSpec Proofs.UnitsProofs.
Import ListNotations.
Open Scope string_scope. Open Scope list_scope. Open Scope R_scope.

(** ** Specification *)
(** Was physical output asked for?  Names with an underscore are always in physical units. *)
Definition asked (kw : keywords) (q : string) : Prop := (use_physical kw <> Some false /\ kw_log kw = false) \/ underscore q = true.
(** The scale in use: the keyword of the call if given, else the object's own if it is switched on (or the kind is always physical), else none *)
Inductive scale_in_use (u : unit_) (kw : option (option input)) (own : option (R * bool)) (always : bool) : option R -> Prop :=
| by_keyword x : kw = Some (Some (Number x)) -> scale_in_use u kw own always (Some x)
| by_quantity x : kw = Some (Some (Q x)) -> dimension x = dimension u -> scale_in_use u kw own always (Some (value x / value u))
| by_object x b : kw = None \/ kw = Some None -> own = Some (x, b) -> b = true \/ always = true -> scale_in_use u kw own always (Some x)
| by_none : kw = None \/ kw = Some None -> own = None \/ (exists x, own = Some (x, false) /\ always = false) -> scale_in_use u kw own always None.
Definition flag (q : string) (l : list (string * bool)) : bool := match lookup (lower q) l with Some b => b | None => false end.
(** Which scales a kind depends on: the mass unit is vo^2 ro / G *)
Definition depends_ro (e : exps) : bool := negb (Z.eqb (of_length e + of_mass e) 0).
Definition depends_vo (e : exps) : bool := negb (Z.eqb (of_velocity e + 2 * of_mass e) 0).

Section C22.
  Variables parsec solar grav light evolt : R.
  Local Notation output := (physical_output parsec).
  Definition own_ro (obj : option scales) := match obj with Some s => Some (s_ro s, s_roSet s) | None => None end.
  Definition own_vo (obj : option scales) := match obj with Some s => Some (s_vo s, s_voSet s) | None => None end.

  Lemma scale_kw_spec u kw (obj : option scales) (get : scales -> R) (set : scales -> bool) always r (own := match obj with Some s => Some (get s, set s) | None => None end) :
    scale_kw u kw (match obj with Some s => if (always || set s)%bool then Some (get s) else None | None => None end) = Ok r -> scale_in_use u kw own always r.
  Proof.
    destruct kw as [[[x | x] |] |]; cbn.
    - intros [= <-]. now apply by_keyword.
    - unfold to_value. destruct (dim_eqb (dimension x) (dimension u)) eqn:E; [| discriminate]. intros [= <-]. apply by_quantity; [reflexivity |].
      destruct (dimension x), (dimension u). unfold dim_eqb in E; cbn in E. rewrite !andb_true_iff, !Z.eqb_eq in E. destruct E as [[-> ->] ->]. reflexivity.
    - intros [= <-]. subst own. destruct obj as [s |]; [| apply by_none; auto].
      destruct always, (set s) eqn:F; cbn; [eapply by_object | eapply by_object | eapply by_object | apply by_none]; eauto; try (rewrite F; eauto).
    - intros [= <-]. subst own. destruct obj as [s |]; [| apply by_none; auto].
      destruct always, (set s) eqn:F; cbn; [eapply by_object | eapply by_object | eapply by_object | apply by_none]; eauto; try (rewrite F; eauto).
  Qed.

  (** The decision, for every call on every object: it is made, with the scales in use, if physical output is asked for and the flagged scales are known *)
  Theorem C22_decision obj kw q b ro vo : output obj kw q = Ok (b, ro, vo) ->
    scale_in_use (kpc parsec) (kw_ro kw) (own_ro obj) (underscore q) ro /\
    scale_in_use kms (kw_vo kw) (own_vo obj) (underscore q) vo /\
    (b = true <-> asked kw q /\ (flag q roNecessary = true -> ro <> None) /\ (flag q voNecessary = true -> vo <> None)).
  Proof.
    unfold physical_output. destruct (scale_kw (kpc parsec) (kw_ro kw) _) as [r | | |] eqn:E1; try discriminate;
    destruct (scale_kw kms (kw_vo kw) _) as [v | | |] eqn:E2; try discriminate.
    destruct (lookup (lower q) voNecessary) as [nv |] eqn:N1; try discriminate. destruct (lookup (lower q) roNecessary) as [nr |] eqn:N2; try discriminate.
    intros [= <- <- <-]. split; [| split].
    - exact (scale_kw_spec _ _ obj s_ro s_roSet _ _ E1).
    - exact (scale_kw_spec _ _ obj s_vo s_voSet _ _ E2).
    - unfold flag. rewrite N1, N2. unfold asked. rewrite !andb_true_iff, orb_true_iff, andb_true_iff, !negb_true_iff, !andb_false_iff.
      split.
      + intros [[A B] C]. split; [| split].
        * destruct A as [[A A'] | A]; [left; split; [intros U; rewrite U in A; discriminate | assumption] | right; assumption].
        * intros ->. destruct C as [C | C]; [discriminate |]. destruct r; [discriminate | discriminate C].
        * intros ->. destruct B as [B | B]; [discriminate |]. destruct v; [discriminate | discriminate B].
      + intros (A & B & C). split; [split |].
        * destruct A as [[A A'] | A]; [left; split; [destruct (use_physical kw) as [[|] |]; auto; congruence | assumption] | right; assumption].
        * destruct nv; [right; destruct v; auto; now destruct (C eq_refl) | left; reflexivity].
        * destruct nr; [right; destruct r; auto; now destruct (B eq_refl) | left; reflexivity].
  Qed.
  (** The scale in use is determined by the call and the object: there is at most one *)
  Theorem C22_scale_unique u kw own always a b : scale_in_use u kw own always a -> scale_in_use u kw own always b -> a = b.
  Proof.
    intros A B. destruct A as [x E | x E D | x c K O C | K O]; destruct B as [y E' | y E' D' | y c' K' O' C' | K' O']; try reflexivity;
    try congruence; try (destruct K as [K | K]; congruence); try (destruct K' as [K' | K']; congruence).
    - destruct O' as [O' | (z & O' & F)]; [congruence |]. rewrite O in O'. injection O' as -> ->. destruct C; congruence.
    - destruct O as [O | (z & O & F)]; [congruence |]. rewrite O in O'. injection O' as -> <-. destruct C'; congruence.
  Qed.

  (** What is returned: the value as it is when the decision is no, and never when it is yes *)
  Theorem C22_returned apy obj kw q out b ro vo : output obj kw q = Ok (b, ro, vo) ->
    (b = false -> physical_conversion parsec solar grav apy obj kw q out = Ok (Raw out)) /\
    (b = true -> forall y, physical_conversion parsec solar grav apy obj kw q out = Ok y ->
       match y with Raw _ => False | Phys _ => kw_quantity kw = Some false \/ (kw_quantity kw = None /\ apy = false) | PhysQ _ => kw_quantity kw = Some true \/ (kw_quantity kw = None /\ apy = true) end).
  Proof.
    intros H. unfold physical_conversion. rewrite H. split; intros ->; [reflexivity |]. intros y.
    destruct (lookup (lower q) (output_table parsec solar grav)) as [[fac u] |]; [| discriminate].
    destruct (if (String.eqb (lower q) "frequency" && kmskpc kw && negb (match kw_quantity kw with Some b => b | None => apy end))%bool then with_both freq_in_kmskpc ro vo else fac ro vo);
      try discriminate. intros [= <-].
    destruct (kw_quantity kw) as [[|] |]; auto. destruct apy; auto.
  Qed.

  (** ** Which kinds need which scale *)
  (** The flags are right for all kinds but five *)
  Definition odd : list string := ["numberdensity"; "numbersurfacedensity"; "massenergydensity"; "surfacedensitydistance"; "angle"].
  Theorem C22_flags q e : lookup q kinds = Some e -> ~ In q odd ->
    lookup q roNecessary = Some (depends_ro e) /\ lookup q voNecessary = Some (depends_vo e).
  Proof.
    intros K N. apply lookup_In in K. unfold kinds in K. cbn [In] in K.
    repeat (destruct K as [[= <- <-] | K]; [first [split; reflexivity | exfalso; apply N; cbn; tauto] |]). destruct K.
  Qed.
  (** When they are, and the decision is yes, there is a physical result: no scale is missing *)
  Theorem C22_no_missing_scale apy obj kw q out ro vo fac u : output obj kw q = Ok (true, ro, vo) -> lower q <> "massenergydensity" ->
    lookup (lower q) (output_table parsec solar grav) = Some (fac, u) ->
    exists y, physical_conversion parsec solar grav apy obj kw q out = Ok y.
  Proof.
    intros H N L. destruct (C22_decision _ _ _ _ _ _ H) as (_ & _ & D). destruct D as [D _]. destruct (D eq_refl) as (_ & A & B). clear D.
    unfold physical_conversion. rewrite H, L. unfold flag in A, B. apply lookup_In in L.
    assert (F : forall b, exists k, (if (String.eqb (lower q) "frequency" && b)%bool then with_both freq_in_kmskpc ro vo else fac ro vo) = Ok k).
    { intros b. unfold output_table in L. cbn [In] in L. revert N A B. generalize dependent (lower q). intros q' L N A B.
      repeat (destruct L as [[= <- <- <-] | L]; [vm_compute in A, B;
        try (destruct ro as [r |]; [| now destruct (A eq_refl)]); try (destruct vo as [v |]; [| now destruct (B eq_refl)]); try (now destruct N);
        destruct b; eexists; reflexivity |]). destruct L. }
    destruct (F (kmskpc kw && negb (match kw_quantity kw with Some b => b | None => apy end)))%bool as [k K].
    rewrite <- andb_assoc, K. eexists; reflexivity.
  Qed.

  (** Refuted: "a quantity that needs only one of the scales converts when only that scale is known".  It does for position, velocity, velocity2 and energy *)
  Definition only_ro := Some (mkScales 8 true 220 false).
  Definition only_vo := Some (mkScales 8 false 220 true).
  Definition plain := mkKw None None None false false None.
  Theorem C22_one_scale q e apy out : lookup q kinds = Some e -> ~ In q odd ->
    (depends_vo e = false -> exists y, physical_conversion parsec solar grav apy only_ro plain q out = Ok y /\ y <> Raw out) /\
    (depends_ro e = false -> exists y, physical_conversion parsec solar grav apy only_vo plain q out = Ok y /\ y <> Raw out).
  Proof.
    intros K N. apply lookup_In in K. unfold kinds in K. cbn [In] in K.
    repeat (destruct K as [[= <- <-] | K]; [first [exfalso; apply N; cbn; tauto |
      split; intros D; try discriminate D; destruct apy; eexists; split; try reflexivity; discriminate] |]). destruct K.
  Qed.
  Theorem C22_one_scale_refuted apy out :
    (forall q e, In (q, e) [("numberdensity", mkExps (-3) 0 0); ("numbersurfacedensity", mkExps (-2) 0 0)] ->
       lookup q kinds = Some e /\ depends_vo e = false /\ physical_conversion parsec solar grav apy only_ro plain q out = Ok (Raw out)) /\
    (forall q e, In (q, e) [("surfacedensitydistance", mkExps (-1) 0 1); ("angle", mkExps 0 0 0)] ->
       lookup q kinds = Some e /\ depends_ro e = false /\ physical_conversion parsec solar grav apy only_vo plain q out = Ok (Raw out)) /\
    (* and one kind raises an exception, although physical output is not impossible but only not available *)
    physical_conversion parsec solar grav apy only_vo plain "massenergydensity" out = TypeError.
  Proof.
    split; [| split].
    - intros q e [[= <- <-] | [[= <- <-] | []]]; repeat split.
    - intros q e [[= <- <-] | [[= <- <-] | []]]; repeat split.
    - destruct apy; reflexivity.
  Qed.

  (** ** Histories of turn_physical_on and turn_physical_off; latest first *)
  Definition length_of (a : arg) : result (option R) :=
    match a with Given x => match parse_length_kpc parsec x with Ok v => Ok (Some v) | _ => UnitConversionError end | _ => Ok None end.
  Definition velocity_of (a : arg) : result (option R) :=
    match a with Given x => match parse_velocity_kms x with Ok v => Ok (Some v) | _ => UnitConversionError end | _ => Ok None end.
  (** is ro switched on?  as the latest event that was not On with ro=False says *)
  Fixpoint ro_on (start : bool) (h : list event) : bool :=
    match h with [] => start | Off :: _ => false | On IsFalse _ :: h => ro_on start h | On _ _ :: _ => true end.
  (** a call with an ro that is not a length fails before it looks at vo *)
  Fixpoint vo_on (start : bool) (h : list event) : bool :=
    match h with [] => start | Off :: _ => false
    | On ro vo :: h => match length_of ro, vo with Ok _, IsFalse => vo_on start h | Ok _, _ => true | _, _ => vo_on start h end end.
  (** the value of ro: the latest that was given *)
  Fixpoint ro_last (start : R) (h : list event) : R :=
    match h with [] => start | On (Given x) _ :: h => match length_of (Given x) with Ok (Some v) => v | _ => ro_last start h end | _ :: h => ro_last start h end.
  Fixpoint vo_last (start : R) (h : list event) : R :=
    match h with [] => start
    | On ro (Given x) :: h => match length_of ro, velocity_of (Given x) with Ok _, Ok (Some v) => v | _, _ => vo_last start h end
    | _ :: h => vo_last start h end.
  Theorem C22_history s h :
    fold_left (turn parsec) (rev h) s = mkScales (ro_last (s_ro s) h) (ro_on (s_roSet s) h) (vo_last (s_vo s) h) (vo_on (s_voSet s) h).
  Proof.
    induction h as [|e h IH]; [destruct s; reflexivity |]. cbn [rev]. rewrite fold_left_app, IH. cbn [fold_left]. unfold turn.
    assert (L : forall x, parse_length_kpc parsec x = TypeError -> False) by (intros [x | x]; cbn; [discriminate | unfold to_value; destruct (dim_eqb _ _); discriminate]).
    assert (L' : forall x, parse_length_kpc parsec x = KeyError -> False) by (intros [x | x]; cbn; [discriminate | unfold to_value; destruct (dim_eqb _ _); discriminate]).
    assert (V : forall x, parse_velocity_kms x = TypeError -> False) by (intros [x | x]; cbn; [discriminate | unfold to_value; destruct (dim_eqb _ _); discriminate]).
    assert (V' : forall x, parse_velocity_kms x = KeyError -> False) by (intros [x | x]; cbn; [discriminate | unfold to_value; destruct (dim_eqb _ _); discriminate]).
    destruct e as [| ro vo]; [reflexivity |].
    destruct ro as [| | x]; destruct vo as [| | y]; cbn [turn1 ro_last ro_on vo_last vo_on length_of velocity_of fst s_ro s_vo s_roSet s_voSet];
    try (destruct (parse_length_kpc parsec x) eqn:?); try (destruct (parse_velocity_kms y) eqn:?);
    cbn [s_ro s_vo s_roSet s_voSet]; try reflexivity; exfalso; eauto.
  Qed.
  (** So after any history a call without keywords converts with the latest scales, exactly if each flagged one is switched on by the latest event that concerns it *)
  Corollary C22_history_output s h kw q b ro vo : kw_ro kw = None -> kw_vo kw = None -> underscore q = false ->
    output (Some (fold_left (turn parsec) (rev h) s)) kw q = Ok (b, ro, vo) ->
    ro = (if ro_on (s_roSet s) h then Some (ro_last (s_ro s) h) else None) /\ vo = (if vo_on (s_voSet s) h then Some (vo_last (s_vo s) h) else None) /\
    (b = true <-> asked kw q /\ (flag q roNecessary = true -> ro_on (s_roSet s) h = true) /\ (flag q voNecessary = true -> vo_on (s_voSet s) h = true)).
  Proof.
    intros K1 K2 U H. destruct (C22_decision _ _ _ _ _ _ H) as (A & B & C). rewrite C22_history in A, B. rewrite K1, U in A. rewrite K2, U in B. cbn in A, B.
    assert (A' : ro = if ro_on (s_roSet s) h then Some (ro_last (s_ro s) h) else None).
    { apply (C22_scale_unique _ _ _ _ _ _ A). destruct (ro_on (s_roSet s) h); [eapply by_object | eapply by_none]; eauto. }
    assert (B' : vo = if vo_on (s_voSet s) h then Some (vo_last (s_vo s) h) else None).
    { apply (C22_scale_unique _ _ _ _ _ _ B). destruct (vo_on (s_voSet s) h); [eapply by_object | eapply by_none]; eauto. }
    split; [exact A' | split; [exact B' |]]. rewrite C, A', B'. clear.
    generalize (flag q roNecessary) (flag q voNecessary) (asked kw q) (ro_last (s_ro s) h) (vo_last (s_vo s) h). intros fr fv P r v.
    destruct (ro_on (s_roSet s) h), (vo_on (s_voSet s) h), fr, fv; split; intros (P0 & P1 & P2); (split; [exact P0 | split]); intros F; try congruence;
      try (specialize (P1 eq_refl)); try (specialize (P2 eq_refl)); congruence.
  Qed.
  (** What __init__ makes: scales that are given are switched on *)
  Theorem C22_init rd vd ro vo s : init parsec rd vd ro vo = Ok s ->
    (s_roSet s = true <-> ro <> None) /\ (s_voSet s = true <-> vo <> None) /\ (ro = None -> s_ro s = rd) /\ (vo = None -> s_vo s = vd) /\
    (forall x, ro = Some x -> parse_length_kpc parsec x = Ok (s_ro s)) /\ (forall x, vo = Some x -> parse_velocity_kms x = Ok (s_vo s)).
  Proof.
    unfold init. destruct ro as [x |]; [destruct (parse_length_kpc parsec x) eqn:E |]; destruct vo as [y |]; try (destruct (parse_velocity_kms y) eqn:E'); try discriminate;
    intros [= <-]; cbn; (split; [| split; [| split; [| split; [| split]]]]); try (split; intros; congruence); intros; congruence.
  Qed.
End C22.

(** Not vacuous: a history, and calls that use each rule *)
Example C22_example : let h := [On IsFalse IsNone; Off; On (Given (Number 7)) (Given (Number 200))] in
  let s := fold_left (turn 1) (rev h) (mkScales 8 true 220 false) in
  s = mkScales 7 false 200 true /\
  physical_output 1 (Some s) plain "velocity" = Ok (true, None, Some 200) /\
  physical_output 1 (Some s) plain "force" = Ok (false, None, Some 200) /\
  physical_output 1 (Some s) (mkKw None (Some (Some (Number 9))) None false false None) "force" = Ok (true, Some 9, Some 200) /\
  physical_output 1 (Some s) (mkKw (Some false) None None false false None) "position_kpc" = Ok (true, Some 7, Some 200).
Proof. repeat split; reflexivity. Qed.

Print Assumptions C22_decision. Print Assumptions C22_scale_unique. Print Assumptions C22_returned. Print Assumptions C22_flags. Print Assumptions C22_no_missing_scale.
Print Assumptions C22_one_scale. Print Assumptions C22_one_scale_refuted. Print Assumptions C22_history. Print Assumptions C22_history_output. Print Assumptions C22_init.
