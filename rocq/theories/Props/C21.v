(** C21: conversions between internal and physical units are coherent, for all scales ro and vo.
    The values in SI of the parsec, the solar mass, G, the speed of light and the electron volt are arbitrary positive numbers. *)
From Coq Require Import Reals List Bool String ZArith Lra Lia.
From Verif Require Import Model.Conversion Spec.UnitsSpec Proofs.UnitsProofs.
Import ListNotations.
Open Scope string_scope. Open Scope list_scope. Open Scope R_scope.

Section C21.
  Variables parsec solar grav light evolt : R.
  Hypothesis Hpc : 0 < parsec. Hypothesis Hs : 0 < solar. Hypothesis HG : 0 < grav. Hypothesis Hc : 0 < light. Hypothesis Hev : 0 < evolt.
  Local Notation iu := (internal parsec grav).

  (** *** Output *)
  Lemma fac_some q fac u ro vo k oro ovo : In (q, (fac, u)) (output_table parsec solar grav) -> fac oro ovo = Ok k ->
    (forall r, oro = Some r -> r = ro) -> (forall v, ovo = Some v -> v = vo) -> fac (Some ro) (Some vo) = Ok k.
  Proof.
    intros L E Hr Hv. unfold output_table in L. cbn [In] in L.
    repeat (destruct L as [[= <- <- <-] | L]; [
      destruct oro as [r |]; destruct ovo as [v |]; cbn in E |- *; try discriminate E;
      try (rewrite <- (Hr r) by reflexivity); try (rewrite <- (Hv v) by reflexivity); exact E |]).
    destruct L.
  Qed.

  (** A Quantity that is returned is the internal value times the internal unit of its kind: independent of the units it happens to be expressed in *)
  Theorem C21_output apy obj kw q out oro ovo ro vo e x : 0 < ro -> 0 < vo ->
    physical_output parsec obj kw q = Ok (true, oro, ovo) -> (forall r, oro = Some r -> r = ro) -> (forall v, ovo = Some v -> v = vo) ->
    lookup (lower q) kinds = Some e ->
    physical_conversion parsec solar grav apy obj kw q out = Ok (PhysQ x) ->
    value x = out * iu ro vo e /\ dimension x = exps_dim e.
  Proof.
    intros Hro Hvo Hp Hr Hv Hk H. unfold physical_conversion in H. rewrite Hp in H.
    destruct (lookup (lower q) (output_table parsec solar grav)) as [[fac u] |] eqn:L; [| discriminate].
    set (b := match kw_quantity kw with Some b => b | None => apy end) in *. destruct b.
    2: { destruct (if (String.eqb (lower q) "frequency" && kmskpc kw && negb false)%bool then with_both freq_in_kmskpc oro ovo else fac oro ovo); discriminate. }
    rewrite !andb_false_r in H. destruct (fac oro ovo) as [f | | |] eqn:F; try discriminate. injection H as <-.
    destruct (table_ok parsec solar grav ro vo Hpc Hs HG Hro Hvo _ _ _ _ L Hk) as (k & K & V & D & _).
    rewrite (fac_some _ _ _ _ _ _ _ _ (lookup_In _ _ _ L) F Hr Hv) in K. injection K as ->. cbn. split; [rewrite <- V; ring | exact D].
  Qed.

  (** A plain number is that value expressed in the unit documented for its kind; frequencies on request in km/s/kpc *)
  Theorem C21_output_number apy obj kw q out oro ovo ro vo e y fac u : 0 < ro -> 0 < vo ->
    physical_output parsec obj kw q = Ok (true, oro, ovo) -> (forall r, oro = Some r -> r = ro) -> (forall v, ovo = Some v -> v = vo) ->
    lookup (lower q) kinds = Some e -> lookup (lower q) (output_table parsec solar grav) = Some (fac, u) ->
    physical_conversion parsec solar grav apy obj kw q out = Ok (Phys y) ->
    let shown := if (String.eqb (lower q) "frequency" && kmskpc kw)%bool then udiv kms (kpc parsec) else u in
    y * value shown = out * iu ro vo e /\ dimension shown = exps_dim e.
  Proof.
    intros Hro Hvo Hp Hr Hv Hk L H. unfold physical_conversion in H. rewrite Hp, L in H. cbv zeta in H |- *.
    set (b := match kw_quantity kw with Some b => b | None => apy end) in *. destruct b.
    { rewrite !andb_false_r in H. destruct (fac oro ovo); discriminate. }
    rewrite andb_true_r in H. destruct (String.eqb (lower q) "frequency" && kmskpc kw)%bool eqn:K.
    - apply andb_prop in K as [K _]. apply String.eqb_eq in K. rewrite K in Hk. vm_compute in Hk. injection Hk as <-.
      destruct oro as [r |]; destruct ovo as [v |]; cbn in H; try discriminate. injection H as <-. rewrite (Hr r), (Hv v) by reflexivity.
      split; [units_solve | reflexivity].
    - destruct (fac oro ovo) as [f | | |] eqn:F; try discriminate. injection H as <-.
      destruct (table_ok parsec solar grav ro vo Hpc Hs HG Hro Hvo _ _ _ _ L Hk) as (k & J & V & D & _).
      rewrite (fac_some _ _ _ _ _ _ _ _ (lookup_In _ _ _ L) F Hr Hv) in J. injection J as ->. split; [rewrite <- V; ring | exact D].
  Qed.

  (** Every kind of output that does not come in fixed units is covered by the two theorems above *)
  Theorem C21_kinds_complete q fac u : lookup q (output_table parsec solar grav) = Some (fac, u) -> underscore q = false -> exists e, lookup q kinds = Some e.
  Proof.
    intros L U. apply lookup_In in L. unfold output_table in L. cbn [In] in L.
    repeat (destruct L as [[= <- <- <-] | L]; [vm_compute in U |- *; first [discriminate U | eexists; reflexivity] |]). destruct L.
  Qed.

  (** The choice of scales does not matter: internal values that stand for the same physical value in two systems of scales are output as the same Quantity *)
  Theorem C21_scale_free apy apy' obj obj' kw kw' q out out' ro vo ro' vo' e x x' : 0 < ro -> 0 < vo -> 0 < ro' -> 0 < vo' ->
    physical_output parsec obj kw q = Ok (true, Some ro, Some vo) -> physical_output parsec obj' kw' q = Ok (true, Some ro', Some vo') ->
    lookup (lower q) kinds = Some e ->
    out * iu ro vo e = out' * iu ro' vo' e ->
    physical_conversion parsec solar grav apy obj kw q out = Ok (PhysQ x) ->
    physical_conversion parsec solar grav apy' obj' kw' q out' = Ok (PhysQ x') -> x = x'.
  Proof.
    intros A B A' B' P P' K E H H'.
    destruct (C21_output _ _ _ _ _ _ _ ro vo _ _ A B P ltac:(intros; congruence) ltac:(intros; congruence) K H) as [V D].
    destruct (C21_output _ _ _ _ _ _ _ ro' vo' _ _ A' B' P' ltac:(intros; congruence) ltac:(intros; congruence) K H') as [V' D'].
    destruct x, x'; cbn in *; congruence.
  Qed.

  (** *** Physical laws.  A product of powers of quantities: internal values x_i with kinds e_i raised to n_i *)
  Fixpoint product (l : list (R * exps * Z)) (scale : exps -> R) : R := match l with [] => 1 | (x, e, n) :: l => powerRZ (x * scale e) n * product l scale end.
  Fixpoint total (l : list (R * exps * Z)) : exps := match l with [] => mkExps 0 0 0 | (x, e, n) :: l => exps_add (exps_mul n e) (total l) end.
  Lemma product_internal ro vo l : 0 < ro -> 0 < vo -> product l (iu ro vo) = product l (fun _ => 1) * iu ro vo (total l).
  Proof.
    intros Hro Hvo. induction l as [|[[x e] n] l IH]; cbn [product total].
    - unfold internal; cbn. ring.
    - rewrite IH, internal_add, internal_mul by assumption. rewrite Rmult_1_r, powerRZ_mult. ring.
  Qed.
  (** If the product has the dimension of G^g, its value in SI is G^g times its value in internal units.  So an equation of physics, dimensionally correct with its
      powers of G, holds of the physical values exactly if it holds of the internal values with G = 1 *)
  Theorem C21_laws ro vo l g : 0 < ro -> 0 < vo ->
    exps_dim (total l) = mkDim (- g) (3 * g) (- 2 * g) ->
    product l (iu ro vo) = product l (fun _ => 1) * powerRZ grav g.
  Proof.
    intros Hro Hvo D. rewrite product_internal by assumption. f_equal.
    assert (E : total l = exps_mul g (mkExps 1 2 (-1))).
    { destruct (total l) as [a b c]. unfold exps_dim in D. cbn [of_length of_velocity of_mass] in D.
      assert (D1 := f_equal mass_dim D). assert (D2 := f_equal length_dim D). assert (D3 := f_equal time_dim D). cbn [mass_dim length_dim time_dim] in D1, D2, D3.
      unfold exps_mul; cbn [of_length of_velocity of_mass]. f_equal; lia. }
    rewrite E, internal_mul by assumption. f_equal. units_solve.
  Qed.
  (** For example v^2 = G M / R: an orbit circular in internal units is circular in SI *)
  Example C21_laws_example v M r : v <> 0 -> M <> 0 -> r <> 0 -> v ^ 2 = M / r ->
    forall ro vo, 0 < ro -> 0 < vo ->
    let V := v * iu ro vo (mkExps 0 1 0) in let Mass := M * iu ro vo (mkExps 0 0 1) in let R := r * iu ro vo (mkExps 1 0 0) in
    V ^ 2 = grav * Mass / R.
  Proof.
    intros Hv HM Hr E ro vo Hro Hvo V Mass R.
    pose proof (C21_laws ro vo [(v, mkExps 0 1 0, 2%Z); (M, mkExps 0 0 1, (-1)%Z); (r, mkExps 1 0 0, 1%Z)] 1 Hro Hvo eq_refl) as L.
    cbn [product] in L. fold V Mass R in L.
    cbn [powerRZ] in L. change (Pos.to_nat 2) with 2%nat in L. change (Pos.to_nat 1) with 1%nat in L. rewrite !Rmult_1_r, !pow_1 in L.
    assert (HMass : Mass <> 0) by (apply Rmult_integral_contrapositive_currified; [assumption | apply Rgt_not_eq, internal_pos; assumption]).
    assert (HR : R <> 0) by (apply Rmult_integral_contrapositive_currified; [assumption | apply Rgt_not_eq, internal_pos; assumption]).
    replace (v ^ 2 * (/ M * r)) with 1 in L.
    - replace (V ^ 2) with (V ^ 2 * (/ Mass * R) * Mass / R) by (field; split; assumption). rewrite L. field. assumption.
    - rewrite E. field. split; assumption.
  Qed.

  (** *** Input *)
  (** Parsers, with the kind of what they parse *)
  Definition parsers (ro vo : R) : list ((input -> result R) * exps) :=
    [(parse_length parsec ro vo, mkExps 1 0 0); (parse_velocity ro vo, mkExps 0 1 0); (parse_time parsec ro vo, mkExps 1 (-1) 0);
     (parse_mass parsec solar grav light ro vo, mkExps 0 0 1); (parse_energy ro vo, mkExps 0 2 0); (parse_angmom parsec ro vo, mkExps 1 1 0);
     (parse_frequency parsec ro vo, mkExps (-1) 1 0); (parse_force parsec solar grav ro vo, mkExps (-1) 2 0); (parse_dens parsec solar grav ro vo, mkExps (-3) 0 1);
     (parse_surfdens parsec solar grav ro vo, mkExps (-2) 0 1); (parse_numdens parsec ro vo, mkExps (-3) 0 0)].
  (** What else they take: a physical value [x] of dimension [d] stands for [conv x] *)
  Definition alternatives (ro vo : R) : list ((input -> result R) * exps * dim * (R -> R)) :=
    [(parse_mass parsec solar grav light ro vo, mkExps 0 0 1, mkDim 0 3 (-2), fun x => x / grav);                   (* G M *)
     (parse_mass parsec solar grav light ro vo, mkExps 0 0 1, mkDim 1 2 (-2), fun x => x / light ^ 2);              (* M c^2 *)
     (parse_force parsec solar grav ro vo, mkExps (-1) 2 0, mkDim 1 (-2) 0, fun x => 2 * PI * grav * x);            (* a surface density, as 2 pi G Sigma *)
     (parse_dens parsec solar grav ro vo, mkExps (-3) 0 1, mkDim 0 0 (-2), fun x => x / grav);                      (* G rho *)
     (parse_surfdens parsec solar grav ro vo, mkExps (-2) 0 1, mkDim 0 1 (-2), fun x => x / grav)].                 (* G Sigma *)

  Lemma dim_eqb_spec a b : dim_eqb a b = true <-> a = b.
  Proof.
    destruct a, b; unfold dim_eqb; cbn. rewrite !andb_true_iff, !Z.eqb_eq. split; [intros [[-> ->] ->]; reflexivity | intros [= -> -> ->]; auto].
  Qed.
  Theorem C21_parse ro vo p e : 0 < ro -> 0 < vo -> In (p, e) (parsers ro vo) ->
    (forall x, p (Number x) = Ok x) /\
    (forall x, dimension x = exps_dim e -> p (Q x) = Ok (value x / iu ro vo e)) /\
    (forall e' d conv x, In (p, e', d, conv) (alternatives ro vo) -> dimension x = d -> p (Q x) = Ok (conv (value x) / iu ro vo e')).
  Proof.
    intros Hro Hvo HI. split; [| split].
    - intros x. cbn [parsers In] in HI. repeat (destruct HI as [[= <- <-] | HI]; [reflexivity |]). destruct HI.
    - intros [x d] D. cbn in D. subst d. cbn [parsers In] in HI.
      repeat (destruct HI as [[= <- <-] | HI]; [cbn -[pow internal]; f_equal; units_solve |]). destruct HI.
    - clear HI. intros e' d conv [x d'] HI D. cbn in D. subst d'. cbn [alternatives In] in HI.
      repeat (destruct HI as [[= <- <- <- <-] | HI]; [cbn -[pow internal]; f_equal; units_solve |]). destruct HI.
  Qed.

  (** Anything else is refused.  Any dimension that the parser takes is that of its kind or one of the alternatives *)
  Definition accepted (ro vo : R) (i : nat) : list dim :=
    match nth_error (parsers ro vo) i with Some (_, e) => exps_dim e :: nth i [[]; []; []; [mkDim 0 3 (-2); mkDim 1 2 (-2)]; []; []; []; [mkDim 1 (-2) 0]; [mkDim 0 0 (-2)]; [mkDim 0 1 (-2)]; []] [] | None => [] end.
  Theorem C21_parse_refuses ro vo i p e x : nth_error (parsers ro vo) i = Some (p, e) -> ~ In (dimension x) (accepted ro vo i) -> p (Q x) = UnitConversionError.
  Proof.
    intros HI HN. destruct x as [x d]. cbn [dimension] in HN.
    assert (F : forall a, d <> a -> dim_eqb d a = false).
    { intros a H. destruct (dim_eqb d a) eqn:E; [| reflexivity]. apply dim_eqb_spec in E. contradiction. }
    do 11 (destruct i as [|i]; [injection HI as <- <-;
      unfold parse_length, parse_velocity, parse_time, parse_mass, parse_energy, parse_angmom, parse_frequency, parse_force, parse_dens, parse_surfdens, parse_numdens, parse, to_value;
      cbn [dimension value]; vm_compute in HN;
      repeat match goal with |- context [dim_eqb d (dimension ?u)] =>
        let a := eval vm_compute in (dimension u) in change (dimension u) with a; rewrite (F a) by (intro; subst; tauto) end; reflexivity |]).
    destruct i; discriminate HI.
  Qed.

  (** Reading what was output gives back the internal value *)
  Definition pairs (ro vo : R) : list (string * (input -> result R)) :=
    [("position", parse_length parsec ro vo); ("velocity", parse_velocity ro vo); ("time", parse_time parsec ro vo); ("mass", parse_mass parsec solar grav light ro vo);
     ("energy", parse_energy ro vo); ("velocity2", parse_energy ro vo); ("action", parse_angmom parsec ro vo); ("frequency", parse_frequency parsec ro vo);
     ("frequency-kmskpc", parse_frequency parsec ro vo); ("force", parse_force parsec solar grav ro vo); ("density", parse_dens parsec solar grav ro vo);
     ("surfacedensity", parse_surfdens parsec solar grav ro vo); ("numberdensity", parse_numdens parsec ro vo)].
  Theorem C21_round_trip apy obj kw q p out ro vo x : 0 < ro -> 0 < vo -> In (q, p) (pairs ro vo) ->
    physical_output parsec obj kw q = Ok (true, Some ro, Some vo) ->
    physical_conversion parsec solar grav apy obj kw q out = Ok (PhysQ x) -> p (Q x) = Ok out.
  Proof.
    intros Hro Hvo HI P H.
    assert (K : exists e, lookup (lower q) kinds = Some e /\ In (p, e) (parsers ro vo)).
    { cbn [pairs In] in HI. repeat (destruct HI as [[= <- <-] | HI]; [eexists; split; [reflexivity | cbn; tauto] |]). destruct HI. }
    destruct K as (e & K & HP).
    destruct (C21_output _ _ _ _ _ _ _ ro vo _ _ Hro Hvo P ltac:(intros; congruence) ltac:(intros; congruence) K H) as [V D].
    destruct (C21_parse ro vo p e Hro Hvo HP) as (_ & C & _). rewrite (C x D), V. f_equal. field. apply Rgt_not_eq, internal_pos; assumption.
  Qed.

  (** The amplitude of a potential given as a Quantity *)
  Definition amp_meaning (k : amp_kind) (d : dim) : option (exps * (R -> R)) :=
    match k with
    | Velocity2 => if dim_eqb d (mkDim 0 2 (-2)) then Some (mkExps 0 2 0, fun x => x) else None
    | MassAmp => if dim_eqb d (mkDim 1 0 0) then Some (mkExps 0 0 1, fun x => x) else if dim_eqb d (mkDim 0 3 (-2)) then Some (mkExps 0 0 1, fun x => x / grav)
                 else if dim_eqb d (mkDim 1 2 (-2)) then Some (mkExps 0 0 1, fun x => x / light ^ 2) else None
    | DensityAmp => if dim_eqb d (mkDim 1 (-3) 0) then Some (mkExps (-3) 0 1, fun x => x) else if dim_eqb d (mkDim 0 0 (-2)) then Some (mkExps (-3) 0 1, fun x => x / grav) else None
    | SurfaceDensityAmp => if dim_eqb d (mkDim 1 (-2) 0) then Some (mkExps (-2) 0 1, fun x => x) else if dim_eqb d (mkDim 0 1 (-2)) then Some (mkExps (-2) 0 1, fun x => x / grav) else None
    end.
  Theorem C21_amplitude ro vo k x : 0 < ro -> 0 < vo ->
    force_amp parsec solar grav light ro vo k x =
      match amp_meaning k (dimension x) with Some (e, conv) => Ok (conv (value x) / iu ro vo e) | None => UnitConversionError end.
  Proof.
    intros Hro Hvo. destruct x as [x d]. unfold force_amp, try_amp, parse_energy, parse_mass, parse_dens, parse_surfdens, parse, to_value. cbn [dimension value].
    assert (G : forall b, dim_eqb d b = true -> d = b) by (intros b; apply dim_eqb_spec).
    unfold amp_meaning.
    repeat match goal with
    | |- context [dim_eqb d (dimension ?u)] => let a := eval vm_compute in (dimension u) in change (dimension u) with a
    end.
    repeat match goal with
    | |- context [dim_eqb d ?b] => destruct (dim_eqb d b) eqn:?
    end;
    repeat match goal with H : dim_eqb d _ = true |- _ => apply G in H; subst d end;
    try (match goal with H : dim_eqb _ _ = false |- _ => vm_compute in H; discriminate H end);
    destruct k; cbn [fmap or_else amp_eqb]; try reflexivity; try (f_equal; units_solve); try discriminate.
  Qed.

  (** *** Other factors of the module *)
  (** in units of the critical density 3 H^2 / (8 pi G), H in km/s/Mpc *)
  Theorem C21_critical ro vo H Om : 0 < ro -> 0 < vo -> 0 < H -> 0 < Om ->
    let Hsi := H * 1000 / (10 ^ 6 * parsec) in let crit := 3 * Hsi ^ 2 / (8 * PI * grav) in
    dens_in_criticaldens vo ro H * crit = iu ro vo (mkExps (-3) 0 1) /\ dens_in_meanmatterdens vo ro H Om * (Om * crit) = iu ro vo (mkExps (-3) 0 1).
  Proof. intros. subst Hsi crit. split; units_solve. Qed.
  (** rho c^2 in GeV per cubic centimetre *)
  Theorem C21_gevcc ro vo : 0 < ro -> 0 < vo -> dens_in_gevcc parsec solar grav light evolt vo ro * (10 ^ 9 * evolt / (1 / 100) ^ 3) = iu ro vo (mkExps (-3) 0 1) * light ^ 2.
  Proof. intros. units_solve. Qed.
  Theorem C21_other_factors ro vo : 0 < ro -> 0 < vo ->
    force_in_2piGmsolpc2 parsec solar grav vo ro * (2 * PI * grav * (solar / parsec ^ 2)) = iu ro vo (mkExps (-1) 2 0) /\
    force_in_pcMyr2 parsec vo ro * (parsec / value Myr ^ 2) = iu ro vo (mkExps (-1) 2 0) /\
    mass_in_1010msol parsec solar grav vo ro * (10 ^ 10 * solar) = iu ro vo (mkExps 0 0 1) /\
    velocity_in_kpcGyr parsec vo ro * (1000 * parsec / value Gyr) = iu ro vo (mkExps 0 1 0).
  Proof. intros. split; [units_solve | split; [units_solve | split; units_solve]]. Qed.
  (** force_in_10m13kms2 is off by the ratio of the Julian to the tropical year, because it mixes the two *)
  Theorem C21_force_10m13_refuted ro vo : 0 < ro -> 0 < vo ->
    let factor := force_in_10m13kms2 parsec vo ro in let unit := / 10 ^ 13 * 1000 in let right := iu ro vo (mkExps (-1) 2 0) in
    factor * unit = right * (365250000 / 365242198) /\ factor * unit <> right.
  Proof.
    intros Hro Hvo. cbv zeta. assert (E : force_in_10m13kms2 parsec vo ro * (/ 10 ^ 13 * 1000) = iu ro vo (mkExps (-1) 2 0) * (365250000 / 365242198)).
    { units_solve. }
    split; [exact E |]. rewrite E. pose proof (internal_pos parsec grav ro vo (mkExps (-1) 2 0) Hpc HG Hro Hvo). nra.
  Qed.
End C21.

(** Not vacuous: an object with ro = 8 and vo = 220 returns a Quantity for "mass", and "position" needs no vo *)
Example C21_example : let kw := mkKw None None None false false None in
  (exists x, physical_conversion 1 2 3 true (Some (mkScales 8 true 220 true)) kw "mass" 5 = Ok (PhysQ x)) /\
  (exists x, physical_conversion 1 2 3 true (Some (mkScales 8 true 220 false)) kw "position" 5 = Ok (PhysQ x)) /\
  physical_output 1 (Some (mkScales 8 true 220 true)) kw "mass" = Ok (true, Some 8, Some 220).
Proof.
  intros kw. split; [| split].
  - eexists. unfold physical_conversion, physical_output. cbn. reflexivity.
  - eexists. unfold physical_conversion, physical_output. cbn. reflexivity.
  - reflexivity.
Qed.

Print Assumptions C21_output. Print Assumptions C21_output_number. Print Assumptions C21_kinds_complete. Print Assumptions C21_scale_free. Print Assumptions C21_laws.
Print Assumptions C21_parse. Print Assumptions C21_parse_refuses. Print Assumptions C21_round_trip. Print Assumptions C21_amplitude. Print Assumptions C21_critical.
Print Assumptions C21_gevcc. Print Assumptions C21_other_factors. Print Assumptions C21_force_10m13_refuted.
