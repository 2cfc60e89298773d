(** C35: what Python writes for the C integrators, C reads back *)
From Coq Require Import Reals String List Bool ZArith Lia Lra.
From Verif Require Import Model.CSerial Model.CView Spec.CSerialSpec Proofs.CSerialProofs Model.CSerialPlanar Spec.CSerialPlanarSpec Proofs.CSerialPlanarProofs.
Import ListNotations.
Open Scope string_scope. Open Scope list_scope. Open Scope R_scope.

(** For every list of potentials, forces and wrappers nested to any depth, whatever follows in the buffers: C reads exactly what was written, no entry more or less, and the
    functions that evaluate the potentials then find, by position, every quantity, table and time function under its own name *)
Theorem C35_round_trip :
  forall nan linspace trange l s, (forall a b n, length (linspace a b n) = n) -> List.Forall pot_wf l -> parse_pot nan linspace trange l = Some s ->
    exists cs, means_all nan linspace trange (relevant l) (map (c_view false) cs) /\
      forall fuel types args tfs, (length (pot_type s) <= fuel)%nat ->
        parse_c fuel (n_pot s) (pot_type s ++ types) (pot_args s ++ args) (pot_tfuncs s ++ tfs) = Some (cs, types, args, tfs).
Proof.
  intros nan linspace trange l s Hl W E.
  assert (Hi : List.Forall (ok c_nargs c_moving false nan linspace trange) l) by (revert W; apply Forall_impl; intros p; now apply pot_ok).
  destruct (pots_ok c_nargs c_moving false nan linspace trange (forallb isNull l) l Hi s E) as [cs [[_ Hr] Hm]]. exists cs. split; [exact Hm|].
  intros fuel types args tfs L. specialize (Hr fuel 0%nat types args tfs L). rewrite Nat.add_0_r in Hr. unfold parse_c. rewrite Hr.
  replace (parse_gen c_nargs c_moving (fuel - n_pot s) 0 types args tfs) with (Some (@nil carg, types, args, tfs)) by (now destruct (fuel - n_pot s)%nat). cbn. now rewrite app_nil_r.
Qed.
Print Assumptions C35_round_trip.

(** Serialisation is refused only when a frame is to be interpolated and the times are not known (integration to a surface of section) *)
Fixpoint needs_times (p : pot) : bool :=
  match p with
  | Leaf (NonInertialFrame f) => match cinterp f with Some _ => genuine f | None => false end
  | Leaf _ => false
  | Wrap _ inner => existsb needs_times inner
  end.
Theorem C35_refused :
  forall nan linspace trange l, parse_pot nan linspace trange l = None <-> trange = None /\ existsb needs_times l = true.
Proof.
  intros nan linspace trange l. unfold parse_pot.
  assert (L : forall lf, leaf_to_c linspace trange lf = None <-> trange = None /\ needs_times (Leaf lf) = true).
  { intros lf. destruct lf; cbn [leaf_to_c needs_times leaf_ser]; try (split; [intros HH; discriminate HH | intros [_ HH]; discriminate HH]).
    - destruct onem1overb2; (split; [intros HH; discriminate HH | intros [_ HH]; discriminate HH]).
    - destruct disks as [[[[? ?] ?] [[? ?] ?]] [[? ?] ?]]; (split; [intros HH; discriminate HH | intros [_ HH]; discriminate HH]).
    - unfold frame_ser. destruct (cinterp f) as [n|]; [|split; [intros HH; discriminate HH | intros [_ HH]; discriminate HH]]. destruct (genuine f); [|split; [intros HH; discriminate HH | intros [_ HH]; discriminate HH]].
      destruct trange as [[? ?]|]; [split; [intros HH; discriminate HH | intros [H _]; discriminate H] | split; auto]. }
  assert (G : forall p, pot_to_c nan linspace trange p = None <-> trange = None /\ needs_times p = true).
  2:{ generalize (forallb isNull l). intros k. induction l as [|p l IH]; cbn [pots_to_c existsb]; [split; [intros H; discriminate H | intros [_ H]; discriminate H]|].
      destruct (isNull p && negb k)%bool eqn:En.
      - apply andb_true_iff in En. destruct En as [En _]. destruct p as [[]|]; try discriminate En. cbn [needs_times orb]. exact IH.
      - rewrite orb_true_iff. specialize (G p). destruct (pot_to_c nan linspace trange p) as [sp|]; cbn [bind_ser].
        + destruct (pots_to_c nan linspace trange k l) as [sl|]; [split; [intros H; discriminate H|]|split; [intros _|reflexivity]].
          * intros [Ht [H|H]]; [discriminate (proj2 G (conj Ht H)) | discriminate (proj2 IH (conj Ht H))].
          * destruct (proj1 IH eq_refl); auto.
        + split; [intros _ | reflexivity]. destruct (proj1 G eq_refl); auto. }
  fix IH 1. intros p. destruct p as [lf|w inner]; [apply L|]. rewrite pot_to_c_wrap. cbn [needs_times]. generalize (forallb isNull inner). intros k.
  assert (E : pots_to_c nan linspace trange k inner = None <-> trange = None /\ existsb needs_times inner = true).
  { induction inner as [|p inner IHi]; cbn [pots_to_c existsb]; [split; [intros H; discriminate H | intros [_ H]; discriminate H]|].
      destruct (isNull p && negb k)%bool eqn:En.
      - apply andb_true_iff in En. destruct En as [En _]. destruct p as [[]|]; try discriminate En. cbn [needs_times orb]. exact IHi.
      - rewrite orb_true_iff. pose proof (IH p) as G. destruct (pot_to_c nan linspace trange p) as [sp|]; cbn [bind_ser].
        + destruct (pots_to_c nan linspace trange k inner) as [sl|]; [split; [intros H; discriminate H|]|split; [intros _|reflexivity]].
          * intros [Ht [H|H]]; [discriminate (proj2 G (conj Ht H)) | discriminate (proj2 IHi (conj Ht H))].
          * destruct (proj1 IHi eq_refl); auto.
        + split; [intros _ | reflexivity]. destruct (proj1 G eq_refl); auto. }
  destruct (pots_to_c nan linspace trange k inner); [|exact E]. split; [intros H; discriminate H | intros H; apply E in H; discriminate H].
Qed.
Print Assumptions C35_refused.

(** The count Python sends is the number of potentials C finds at that level *)
Theorem C35_count :
  forall fuel n types args tfs cs t a f, parse_c fuel n types args tfs = Some (cs, t, a, f) -> length cs = n.
Proof.
  intros fuel n ty pa tf cs t a f. revert fuel cs ty t a f pa tf.
  induction n as [|n IH]; intros fuel cs ty t a f pa tf H.
  - destruct fuel; cbn in H; injection H as <- _ _ _; reflexivity.
  - destruct fuel as [|fuel]; [discriminate H|]. destruct ty as [|y ty]; [discriminate H|]. unfold parse_c in H. rewrite parse_S in H.
    repeat match type of H with
    | obind ?x _ = Some _ => let E := fresh in destruct x eqn:E; [|discriminate H]; cbn [obind] in H
    | (let '(_, _) := ?x in _) = Some _ => destruct x
    end.
    injection H as <- _ _ _. cbn [length]. f_equal. eapply IH; eassumption.
Qed.
Print Assumptions C35_count.

(** A rotating, slowly growing triaxial halo around a disk, a friction force and a satellite on an orbit *)
Example C35_example :
  let halo := Leaf (Ellipsoidal 2 (TriaxialNFW 1 1) 0.8 0.7 0.64 0.49 None [0.2; 0.8] [0.5; 0.5]) in
  let l := [Wrap (DehnenSmooth 1 (-4) 2 true) [Wrap (SolidBodyRotation 1 1.5 0.3) [halo; Leaf NullPot]]; Leaf (MiyamotoNagai 1 0.5 0.05); Leaf NullPot;
            Wrap (Chandrasekhar (mkFric 1 [0.1; 1; 10] [0.7; 0.7; 0.6] 0.01 0.1 1 None 0.1)) [halo]; Wrap (MovingObject 1 [0; 1] [1; 2] [0; 1] [0; 0]) [Leaf (Plummer 0.1 0.05)]] in
  List.Forall pot_wf l /\ exists s, parse_pot 0 (fun a b n => repeat a n) None l = Some s /\ n_pot s = 4%nat /\ pot_type s = [-1; -2; 22; 5; -7; 22; -6; 17]%Z.
Proof.
  cbv zeta. split.
  - repeat (constructor; try reflexivity; try exact I).
  - eexists. split; [reflexivity|]. split; reflexivity.
Qed.

(** ** Orbits in the plane *)
(** The same for planar potentials, as long as no amplitude is a function of time *)
Theorem C35_planar_round_trip :
  forall nan linspace trange l s, (forall a b n, length (linspace a b n) = n) -> List.Forall pot2_wf l -> List.Forall no_tdep l -> parse_pot2 nan linspace trange l = Some s ->
    exists cs, means2_all nan linspace trange l (map (c_view true) cs) /\
      forall fuel types args tfs, (length (pot_type s) <= fuel)%nat ->
        parse_c2 fuel (n_pot s) (pot_type s ++ types) (pot_args s ++ args) (pot_tfuncs s ++ tfs) = Some (cs, types, args, tfs).
Proof.
  intros nan linspace trange l s Hl W N E.
  assert (Hi : List.Forall (ok2 nan linspace trange) l).
  { clear E. induction W as [|p l Wp Wl IH]; constructor; inversion N; subst; [now apply pot2_ok | now apply IH]. }
  destruct (pots2_ok nan linspace trange l Hi s E) as [cs [[_ Hr] Hm]]. exists cs. split; [exact Hm|].
  intros fuel types args tfs L. specialize (Hr fuel 0%nat types args tfs L). rewrite Nat.add_0_r in Hr. unfold parse_c2. rewrite Hr.
  replace (parse_gen c_nargs2 c_moving2 (fuel - n_pot s) 0 types args tfs) with (Some (@nil carg, types, args, tfs)) by (now destruct (fuel - n_pot s)%nat). cbn. now rewrite app_nil_r.
Qed.
Print Assumptions C35_planar_round_trip.
Example C35_planar_example :
  let l := [Wrap2 (DehnenSmooth 1 (-4) 2 true) [Leaf2 (EllipticalDisk 1 None 0.1 1 0.3)]; Leaf2 (Shared NullPot); Leaf2 (Shared (FlattenedPower 1 0.5 0.8 0.01)); Leaf2 (SteadyLogSpiral 1 (Some (-2, 3)) 0.1 7 2 0.6 0.8);
            Wrap2 (MovingObject 1 [0; 1] [1; 2] [0; 1] [0; 0]) [Leaf2 (Shared (Plummer 0.1 0.05))]] in
  List.Forall pot2_wf l /\ List.Forall no_tdep l /\ exists s, parse_pot2 0 (fun a b n => repeat a n) None l = Some s /\ n_pot s = 5%nat /\ pot_type s = [-1; 4; 40; 12; 3; -6; 17]%Z.
Proof.
  cbv zeta. split; [|split].
  - repeat (constructor; try reflexivity; try exact I).
  - repeat (constructor; try discriminate).
  - eexists. split; [reflexivity|]. split; reflexivity.
Qed.

(** With a TimeDependentAmplitudeWrapperPotential it is false: for it C takes four arguments where Python wrote one.  A halo whose amplitude varies and a disk next to it: C runs over the end
    of the arguments; whatever three numbers [x], [y], [z] it finds in memory there, it takes for the parameters of the disk *)
Theorem C35_planar_time_dependent_refuted :
  forall nan linspace trange amp A h q c amp2 a b, exists s,
    parse_pot2 nan linspace trange [Wrap2 (TimeDependentAmplitude amp A) [Leaf2 (Shared (LogarithmicHalo h q c None))]; Leaf2 (Shared (MiyamotoNagai amp2 a b))] = Some s /\
    (forall fuel, parse_c2 fuel (n_pot s) (pot_type s) (pot_args s) (pot_tfuncs s) = None) /\
    (forall fuel x y z mem, (3 <= fuel)%nat -> exists c1 c2,
       parse_c2 fuel (n_pot s) (pot_type s) (pot_args s ++ [x; y; z] ++ mem) (pot_tfuncs s) = Some ([c1; c2], [], mem, []) /\
       c_view true c2 = flat "MiyamotoNagai" [("amp", x); ("a", y); ("b", z)]).
Proof.
  intros nan linspace trange amp A h q c amp2 a b. eexists. split; [reflexivity|].
  assert (E1 : to_int (of_nat 1) = 1%nat) by (apply to_int_INR).
  cbn [n_pot pot_type pot_args pot_tfuncs app_ser null_ser app Nat.add wrapper_ser fst]. split.
  - intros fuel. unfold parse_c2. destruct fuel as [|[|[|fuel]]]; [reflexivity | | |]; cbn [parse_gen c_nargs2 c_ntfuncs c_switch_reads obind Z.ltb Z.compare take Nat.leb length firstn skipn nth]; rewrite E1; reflexivity.
  - intros fuel x y z mem L. unfold parse_c2. destruct fuel as [|[|[|fuel]]]; [lia | lia | lia |].
    cbn [app parse_gen c_nargs2 c_ntfuncs c_switch_reads obind Z.ltb Z.compare take Nat.leb length firstn skipn nth]. rewrite E1. eexists. eexists. split; reflexivity.
Qed.
Print Assumptions C35_planar_time_dependent_refuted.
