(** C25: the integrator that runs is allowed for the potential. *)
From Coq Require Import List Bool String Arith Lia.
From Verif.Model Require Import Integrator.
Import ListNotations.
Open Scope string_scope. Open Scope list_scope. Open Scope nat_scope.

(** ** Specification *)
(** Every force and every wrapper in the tree has the C implementation *)
Inductive all_in_C (attr : flags -> bool) : force -> Prop :=
| AC_leaf c d : attr c = true -> all_in_C attr (Leaf c d)
| AC_wrapper c f : attr c = true -> all_in_C attr f -> all_in_C attr (Wrapper c f)
| AC_composite fs : (forall f, In f fs -> all_in_C attr f) -> all_in_C attr (Composite fs).
(** Some force in the tree is dissipative *)
Inductive some_dissipative : force -> Prop :=
| SD_leaf c : some_dissipative (Leaf c true)
| SD_wrapper c f : some_dissipative f -> some_dissipative (Wrapper c f)
| SD_composite f fs : In f fs -> some_dissipative f -> some_dissipative (Composite fs).
(** Wrappers refuse dissipative forces when they are set up (WrapperPotential.py 122-133) *)
Inductive legal : force -> Prop :=
| L_leaf c d : legal (Leaf c d)
| L_wrapper c f : legal f -> ~ some_dissipative f -> legal (Wrapper c f)
| L_composite fs : (forall f, In f fs -> legal f) -> legal (Composite fs).
(** The integrator each name stands for *)
Definition meaning : list (string * executed) :=
  [("odeint", PyOdeint); ("leapfrog", PyLeapfrog); ("dop853", PyDop853); ("leapfrog_c", InC 0); ("symplec4_c", InC 3); ("symplec6_c", InC 4);
   ("rk4_c", InC 1); ("rk6_c", InC 2); ("dopr54_c", InC 5); ("dop853_c", InC 6); ("ias15_c", InC 7)].
Definition symplectic (e : executed) : Prop := match e with PyLeapfrog | InC 0 | InC 3 | InC 4 => True | _ => False end.
Definition in_C (e : executed) : Prop := match e with InC _ => True | _ => False end.
Definition allowed (ext : bool) (pot : force) (e : executed) : Prop :=
  (in_C e -> ext = true /\ all_in_C hasC pot) /\ (some_dissipative pot -> ~ symplectic e).

Fixpoint fsize (f : force) : nat := match f with Leaf _ _ => 1 | Wrapper _ f => S (fsize f) | Composite fs => S (list_sum (map fsize fs)) end.
Lemma in_fsize f fs : In f fs -> (fsize f <= list_sum (map fsize fs))%nat.
Proof. unfold list_sum. induction fs; cbn; [tauto|]. intros [->|H]; [lia|]. specialize (IHfs H). lia. Qed.
Lemma force_rect (P : force -> Prop) : (forall c d, P (Leaf c d)) -> (forall c f, P f -> P (Wrapper c f)) ->
  (forall fs, (forall f, In f fs -> P f) -> P (Composite fs)) -> forall f, P f.
Proof.
  intros HL HW HC. assert (A : forall n f, (fsize f <= n)%nat -> P f).
  { induction n; intros f H; [destruct f; cbn in H; lia|]. destruct f as [c d|c f|fs]; cbn [fsize] in H; [apply HL|apply HW, IHn; lia|].
    apply HC. intros f Hf. apply IHn. pose proof (in_fsize f fs Hf). lia. }
  intros f. apply (A (fsize f)). lia.
Qed.
Lemma check_c_spec attr f : check_c attr f = true <-> all_in_C attr f.
Proof.
  induction f as [c d|c f IH|fs IH] using force_rect; cbn.
  - split; intros H; [constructor; auto|inversion H; auto].
  - rewrite andb_true_iff, IH. split; [intros [A B]; constructor; auto|intros H; inversion H; auto].
  - rewrite forallb_forall. split; [intros H; constructor; intros f Hf; apply IH; auto|]. intros H f Hf. inversion H. apply IH; auto.
Qed.
Lemma diss_spec f : legal f -> isDissipative f = true <-> some_dissipative f.
Proof.
  induction f as [c d|c f IH|fs IH] using force_rect; intros HL; cbn.
  - split; [intros ->; constructor|intros H; inversion H; auto].
  - inversion HL; subst. split; [discriminate|]. intros H. inversion H; subst. tauto.
  - inversion HL; subst. rewrite existsb_exists. split.
    + intros (f & Hf & D). apply (SD_composite f); auto. apply IH; auto.
    + intros H. inversion H; subst. eexists. split; [eassumption|]. apply IH; auto.
Qed.

(** _check_c is true exactly when every force in the tree has a C implementation. *)
Theorem C25_check_c : forall attr f, check_c attr f = true <-> all_in_C attr f.
Proof. apply check_c_spec. Qed.
Print Assumptions C25_check_c.
Theorem C25_isDissipative : forall f, legal f -> isDissipative f = true <-> some_dissipative f.
Proof. apply diss_spec. Qed.
Print Assumptions C25_isDissipative.

(** The choice depends on the forces through three booleans only; with those it is a finite table. *)
Definition stub (c x d : bool) : force := Composite [Leaf (mkFlags c x x false) d].
Definition bools := [true; false].
Lemma in_bools b : In b bools. Proof. destruct b; cbn; auto. Qed.
Definition executed_eqb (a b : executed) : bool :=
  match a, b with PyLeapfrog, PyLeapfrog | PyDop853, PyDop853 | PyOdeint, PyOdeint => true | InC i, InC j => i =? j | _, _ => false end.
Lemma executed_eqb_eq a b : executed_eqb a b = true -> a = b.
Proof. destruct a, b; cbn; try discriminate; auto. intros H. apply Nat.eqb_eq in H. congruence. Qed.
Definition in_Cb (e : executed) : bool := match e with InC _ => true | _ => false end.
Definition symplb (e : executed) : bool := match e with PyLeapfrog | InC 0 | InC 3 | InC 4 => true | _ => false end.
Lemma symplb_spec e : symplb e = true <-> symplectic e.
Proof. destruct e as [| | |[|[|[|[|[|k]]]]]]; cbn; intuition discriminate. Qed.
Definition allowedb (ext c d : bool) (e : executed) : bool := implb (in_Cb e) (ext && c) && implb d (negb (symplb e)).
Lemma allowedb_spec ext (c d : bool) (PC PD : Prop) e : (c = true <-> PC) -> (d = true <-> PD) ->
  (allowedb ext c d e = true <-> (in_C e -> ext = true /\ PC) /\ (PD -> ~ symplectic e)).
Proof.
  intros HC HD. unfold allowedb. rewrite andb_true_iff. rewrite <- HC, <- HD, <- symplb_spec.
  assert (IC : in_C e <-> in_Cb e = true) by (destruct e; cbn; intuition discriminate). rewrite IC.
  destruct (in_Cb e), ext, c, d, (symplb e); cbn; intuition discriminate.
Qed.
Lemma table_integrate : forall ext fm c d mr, In mr meaning ->
  match integrate_method ext fm (stub c c d) (fst mr) with
  | Runs e => allowedb ext c d e && implb (allowedb ext c d (snd mr)) (executed_eqb e (snd mr)) && implb (d && negb (String.eqb (fst mr) "ias15_c")) (velocity_passed e)
  | _ => false end = true.
Proof.
  intros ext fm c d. apply forallb_forall. destruct ext, fm, c, d; vm_compute; reflexivity.
Qed.
Lemma table_sos : forall ext fm c d mr, In mr meaning ->
  (if symplb (snd mr) || executed_eqb (snd mr) (InC 7) then match sos_method ext fm (stub c c d) (fst mr) with ValueError => true | _ => false end
   else match sos_method ext fm (stub c c d) (fst mr) with
        | Runs e => allowedb ext c d e && negb (symplb e) && implb (allowedb ext c d (snd mr)) (executed_eqb e (snd mr))
        | _ => false end) = true.
Proof. intros ext fm c d. apply forallb_forall. destruct ext, fm, c, d; vm_compute; reflexivity. Qed.
Lemma table_dxdv : forall ext pd c x d, In pd [2; 3; 4; 5; 6] -> forall mr, In mr meaning ->
  match dxdv_method ext pd (stub c x d) (fst mr) with
  | Runs e => allowedb ext (c && x) d e && implb (allowedb ext (c && x) d (snd mr)) (executed_eqb e (snd mr)) &&
              negb (executed_eqb e PyLeapfrog) && negb (executed_eqb e (InC 7)) && implb ((pd =? 3) || (pd =? 5)) (negb (symplb e))
  | _ => true end = true.
Proof.
  intros ext pd c x d HP. apply forallb_forall. revert pd HP. apply forallb_forall. destruct ext, c, x, d; vm_compute; reflexivity.
Qed.
Lemma stub_integrate ext fm pot m : integrate_method ext fm pot m = integrate_method ext fm (stub (check_c hasC pot) (check_c hasC pot) (isDissipative pot)) m.
Proof. unfold integrate_method, check_method_dissipative_compatible, check_method_c_compatible, stub. cbn [check_c isDissipative forallb existsb hasC]. rewrite andb_true_r, orb_false_r. reflexivity. Qed.
Lemma stub_sos ext fm pot m : sos_method ext fm pot m = sos_method ext fm (stub (check_c hasC pot) (check_c hasC pot) (isDissipative pot)) m.
Proof. unfold sos_method, check_method_dissipative_compatible, check_method_c_compatible, stub. cbn [check_c isDissipative forallb existsb hasC]. rewrite andb_true_r, orb_false_r. reflexivity. Qed.
Lemma stub_dxdv ext pd pot m : dxdv_method ext pd pot m = dxdv_method ext pd (stub (check_c hasC pot) (check_c (if pd =? 6 then hasC_dxdv3d else hasC_dxdv) pot) (isDissipative pot)) m.
Proof.
  unfold dxdv_method, check_method_dissipative_compatible, stub. cbn [check_c isDissipative forallb existsb hasC]. rewrite !andb_true_r, orb_false_r.
  destruct (pd =? 6); cbn [hasC_dxdv3d hasC_dxdv]; reflexivity.
Qed.
(** integrate: whatever valid name is asked for, something runs, it is allowed, and the requested integrator runs if it is allowed. *)
Theorem C25_integrate : forall ext force_map pot m req, legal pot -> In (m, req) meaning ->
  exists e, integrate_method ext force_map pot m = Runs e /\ allowed ext pot e /\ (allowed ext pot req -> e = req).
Proof.
  intros ext fm pot m req HL HM. rewrite stub_integrate. pose proof (table_integrate ext fm (check_c hasC pot) (isDissipative pot) (m, req) HM) as H. cbn [fst snd] in H.
  destruct (integrate_method _ _ _ _) as [e| |]; try discriminate. exists e. split; auto. apply andb_true_iff in H. destruct H as [H _]. apply andb_true_iff in H. destruct H as [H1 H2].
  pose proof (allowedb_spec ext _ _ _ _ e (check_c_spec hasC pot) (diss_spec pot HL)) as A.
  pose proof (allowedb_spec ext _ _ _ _ req (check_c_spec hasC pot) (diss_spec pot HL)) as B.
  split; [apply A; auto|]. intros K. apply B in K. rewrite K in H2. apply executed_eqb_eq. exact H2.
Qed.
Print Assumptions C25_integrate.
(** The names accepted: exactly those in the list, in any mixture of upper and lower case; anything else is refused. *)
Theorem C25_refuses_unknown : forall ext force_map pot m,
  integrate_method ext force_map pot m = ValueError <-> ~ In (lower m) (map fst meaning).
Proof.
  intros ext fm pot m. assert (E : check_integrator m false false = true <-> In (lower m) (map fst meaning)).
  { unfold check_integrator, mem, valid_methods. rewrite existsb_exists. split.
    - intros (x & Hx & E). apply String.eqb_eq in E. rewrite E. unfold all_methods in Hx. cbn in *. intuition.
    - intros H. exists (lower m). rewrite String.eqb_refl. unfold all_methods. cbn in *. intuition. }
  unfold integrate_method. destruct (check_integrator m false false); cbn [negb].
  - split; [|intros H; elim H; apply E; auto]. destruct (_ || _); discriminate.
  - split; auto. intros _ H. apply E in H. discriminate.
Qed.
Print Assumptions C25_refuses_unknown.

(** integrate_SOS *)
Theorem C25_sos : forall ext force_map pot m req, legal pot -> In (m, req) meaning ->
  (symplectic req \/ req = InC 7 -> sos_method ext force_map pot m = ValueError) /\
  (~ symplectic req -> req <> InC 7 -> exists e, sos_method ext force_map pot m = Runs e /\ allowed ext pot e /\ ~ symplectic e /\ (allowed ext pot req -> e = req)).
Proof.
  intros ext fm pot m req HL HM. rewrite stub_sos. pose proof (table_sos ext fm (check_c hasC pot) (isDissipative pot) (m, req) HM) as H. cbn [fst snd] in H.
  pose proof (allowedb_spec ext _ _ _ _ req (check_c_spec hasC pot) (diss_spec pot HL)) as B.
  split.
  - intros [S| ->].
    + apply symplb_spec in S. rewrite S in H. cbn [orb] in H. destruct (sos_method _ _ _ _); auto; discriminate.
    + cbn in H. destruct (sos_method _ _ _ _); auto; discriminate.
  - intros NS NI. assert (E : symplb req || executed_eqb req (InC 7) = false).
    { apply orb_false_iff. split; apply not_true_iff_false; intros X; [apply NS, symplb_spec; auto|apply NI, executed_eqb_eq; auto]. }
    rewrite E in H. destruct (sos_method _ _ _ _) as [e| |]; try discriminate. exists e. split; auto.
    apply andb_true_iff in H. destruct H as [H H3]. apply andb_true_iff in H. destruct H as [H1 H2].
    pose proof (allowedb_spec ext _ _ _ _ e (check_c_spec hasC pot) (diss_spec pot HL)) as A.
    split; [apply A; auto|]. split; [rewrite <- symplb_spec; intros X; rewrite X in H2; discriminate|].
    intros K. apply B in K. rewrite K in H3. apply executed_eqb_eq. exact H3.
Qed.
Print Assumptions C25_sos.

(** integrate_dxdv: what runs in C has the forces and the derivatives that the phase space needs in C, and symplectic integrators never run
    with dissipative forces; a request that is already so runs as asked. *)
Definition allowed_dxdv (ext : bool) (phasedim : nat) (pot : force) (e : executed) : Prop :=
  (in_C e -> ext = true /\ all_in_C hasC pot /\ all_in_C (if phasedim =? 6 then hasC_dxdv3d else hasC_dxdv) pot) /\ (some_dissipative pot -> ~ symplectic e).
Theorem C25_dxdv : forall ext phasedim pot m req e, (2 <= phasedim <= 6)%nat -> legal pot -> In (m, req) meaning ->
  dxdv_method ext phasedim pot m = Runs e -> allowed_dxdv ext phasedim pot e /\ (allowed_dxdv ext phasedim pot req -> e = req) /\
    e <> PyLeapfrog /\ e <> InC 7 /\ (phasedim = 3 \/ phasedim = 5 -> ~ symplectic e).
Proof.
  intros ext pd pot m req e HP HL HM E. rewrite stub_dxdv in E. assert (HI : In pd [2; 3; 4; 5; 6]) by (cbn; lia).
  set (at_ := if pd =? 6 then hasC_dxdv3d else hasC_dxdv) in *.
  pose proof (table_dxdv ext pd (check_c hasC pot) (check_c at_ pot) (isDissipative pot) HI (m, req) HM) as H. cbn [fst snd] in H. rewrite E in H.
  rewrite !andb_true_iff in H. destruct H as [[[[H1 H2] H3] H4] H5].
  assert (C : check_c hasC pot && check_c at_ pot = true <-> all_in_C hasC pot /\ all_in_C at_ pot) by (rewrite andb_true_iff, !check_c_spec; tauto).
  pose proof (allowedb_spec ext _ _ _ _ e C (diss_spec pot HL)) as A. pose proof (allowedb_spec ext _ _ _ _ req C (diss_spec pot HL)) as B. unfold allowed_dxdv. fold at_.
  split; [apply A; auto|]. split; [intros K; apply B in K; rewrite K in H2; apply executed_eqb_eq; exact H2|].
  split; [intros ->; discriminate|]. split; [intros ->; discriminate|]. intros K S. apply symplb_spec in S. rewrite S in H5. destruct K as [->| ->]; discriminate.
Qed.
Print Assumptions C25_dxdv.

(** ** What does not hold *)
(** Names are accepted in any case but only recognised in lower case: "LEAPFROG" runs the symplectic integrator with a dissipative force, and
    "SYMPLEC4_C" runs the C code with a potential that is not implemented in C (and is then tried even when there is no C library). *)
Theorem C25_upper_case_refuted : exists pot pot', legal pot /\ some_dissipative pot /\ ~ all_in_C hasC pot' /\
  integrate_method true false pot "LEAPFROG" = Runs PyLeapfrog /\ integrate_method true false pot' "SYMPLEC4_C" = Runs (InC 3) /\
  integrate_method false false pot' "SYMPLEC4_C" = Runs (InC 3).
Proof.
  exists (Composite [Leaf (mkFlags true true true true) false; Leaf (mkFlags true false false false) true]), (Leaf (mkFlags false false false false) false).
  split; [constructor; intros f Hf; cbn in Hf; destruct Hf as [<-|[<-|[]]]; constructor|]. split; [eapply SD_composite; [right; left; reflexivity|constructor]|].
  split; [intros H; inversion H; discriminate|]. repeat split; reflexivity.
Qed.
Print Assumptions C25_upper_case_refuted.
(** The 15th-order integrator is kept with dissipative forces although it calls the forces without velocities (as the symplectic
    integrators do). *)
Theorem C25_ias15_refuted : exists pot, legal pot /\ some_dissipative pot /\ all_in_C hasC pot /\
  integrate_method true false pot "ias15_c" = Runs (InC 7) /\ velocity_passed (InC 7) = false.
Proof.
  exists (Leaf (mkFlags true true true true) true). split; [constructor|]. split; [constructor|]. split; [constructor; reflexivity|]. split; reflexivity.
Qed.
Print Assumptions C25_ias15_refuted.
(** Every other name: with dissipative forces the forces get the velocities. *)
Theorem C25_velocities_passed : forall ext force_map pot m req e, legal pot -> In (m, req) meaning -> m <> "ias15_c" -> some_dissipative pot ->
  integrate_method ext force_map pot m = Runs e -> velocity_passed e = true.
Proof.
  intros ext fm pot m req e HL HM HN HS E. apply (diss_spec pot HL) in HS. rewrite stub_integrate in E.
  pose proof (table_integrate ext fm (check_c hasC pot) (isDissipative pot) (m, req) HM) as H. cbn [fst snd] in H. rewrite E in H.
  apply andb_true_iff in H. destruct H as [_ H]. rewrite HS in H. destruct (String.eqb_spec m "ias15_c"); [congruence|]. exact H.
Qed.
Print Assumptions C25_velocities_passed.

(** Non-vacuity: a legal tree with a wrapper, and a fallback *)
Example C25_nonvacuous : exists pot, legal pot /\ some_dissipative pot /\ ~ all_in_C hasC pot /\ In ("symplec4_c", InC 3) meaning /\
  integrate_method true false pot "symplec4_c" = Runs PyOdeint /\ integrate_method true false pot "dop853" = Runs PyDop853.
Proof.
  exists (Composite [Wrapper (mkFlags true true false false) (Leaf (mkFlags false true true true) false); Leaf (mkFlags true false false false) true]).
  split; [constructor; intros f Hf; cbn in Hf; destruct Hf as [<-|[<-|[]]]; repeat constructor; intros X; inversion X|].
  split; [eapply SD_composite; [right; left; reflexivity|constructor]|].
  split; [intros H; inversion H as [| |? K]; specialize (K _ (or_introl eq_refl)); inversion K as [|? ? ? K2|]; inversion K2; discriminate|].
  split; [cbn; auto 10|]. split; reflexivity.
Qed.
