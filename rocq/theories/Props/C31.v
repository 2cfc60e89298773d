(** C31: save_pickles leaves the target old or complete at every crash point. *)
From Coq Require Import List Bool Arith Lia.
From Verif.Model Require Import SavePickles.
Import ListNotations.

(** Invariant when both files are on one file system *)
Definition inv {byte} (data : list (list byte)) (old : option (list byte)) (s : st byte) : Prop :=
  (target s = old \/ target s = Some (concat data)) /\
  match at_ s with
  | Dump k => k <= length (concat data) /\ tmp s = Some (firstn k (concat data)) /\ saving s = true
  | Close | SetClosed | Rename => tmp s = Some (concat data) /\ saving s = true
  | SetSaved => target s = Some (concat data) /\ saving s = true
  | Check => target s = Some (concat data) /\ saving s = false
  | Returned => target s = Some (concat data) /\ interrupted s = false
  | CopyOpen | Copy _ | Unlink => False
  | SetOpen => tmp s = Some [] /\ saving s = true
  | Mkstemp | Open | Handler => saving s = true
  | _ => True
  end /\
  match at_ s with Mkstemp => True | Dump _ | Close | SetClosed => file_open s = Some true | Rename | SetSaved | Check => file_open s = Some false | _ => True end.
Lemma firstn_step {X} (l : list X) : forall k b, nth_error l k = Some b -> firstn (S k) l = firstn k l ++ [b].
Proof. induction l; intros [|k] b H; cbn in *; try discriminate; [congruence|]. f_equal. apply IHl. auto. Qed.
Lemma inv_step {byte} data old (s : st byte) e : inv data old s -> inv data old (step data true s e).
Proof.
  intros (T & P & F). destruct s as [p tm ta sa it fo]; cbn in *. destruct p.
  4:{ destruct P as (K & Et & S). subst. destruct e; [|split; [exact T|split; cbn; auto]|split; [exact T|split; cbn; auto]].
      unfold step, goto, bytes; cbn. destruct (nth_error (concat data) written) as [b|] eqn:N.
      - assert (written < length (concat data)) by (apply nth_error_Some; rewrite N; discriminate).
        split; [exact T|]. split; [|reflexivity]. cbn [at_ tmp saving option_map]. rewrite (firstn_step _ _ _ N). auto.
      - apply nth_error_None in N. split; [exact T|]. split; [|reflexivity]. cbn [at_ tmp saving]. rewrite firstn_all2 by lia. auto. }
  all: unfold inv, step, finally, goto, bytes; cbn; destruct e; try (destruct sa); try (destruct fo as [fo|]); try (destruct it); cbn; try tauto; try (intuition congruence).
  all: destruct P; split; [auto|]; split; [split; [lia|auto]|auto].
Qed.
Lemma inv_run {byte} data (old : option (list byte)) es : inv data old (run data true old es).
Proof.
  unfold run. assert (I : inv data old (init old)) by (repeat split; auto). revert I. generalize (init old). induction es; intros s I; cbn; auto.
  apply IHes. apply inv_step. auto.
Qed.

(** With the temporary directory on the target's file system: after any sequence of events (hence at every crash point, with any number of
    interrupts and a failure anywhere) the target is what it was or the complete new content. *)
Theorem C31_old_or_complete : forall (byte : Type) (data : list (list byte)) old es,
  target (run data true old es) = old \/ target (run data true old es) = Some (concat data).
Proof. intros byte data old es. apply (inv_run data old es). Qed.
Print Assumptions C31_old_or_complete.
(** Returning normally means that the new content is in place and that no interrupt was swallowed. *)
Theorem C31_return_means_saved : forall (byte : Type) (data : list (list byte)) old es,
  at_ (run data true old es) = Returned -> target (run data true old es) = Some (concat data) /\ interrupted (run data true old es) = false.
Proof. intros byte data old es H. destruct (inv_run data old es) as (_ & P & _). rewrite H in P. exact P. Qed.
Print Assumptions C31_return_means_saved.
(** Once the new content is in place it stays. *)
Lemma complete_stays {byte} data old (s : st byte) e : inv data old s -> target s = Some (concat data) -> target (step data true s e) = Some (concat data).
Proof.
  intros (_ & P & _) T. destruct s as [p tm ta sa it fo]; cbn in *. destruct p; unfold step, finally, goto; cbn; destruct e; try (destruct sa); try (destruct fo as [fo|]); cbn; auto;
   try contradiction; try (destruct (nth_error (bytes data) written); cbn; auto); destruct P; auto.
Qed.
Theorem C31_complete_stays : forall (byte : Type) (data : list (list byte)) old es es',
  target (run data true old es) = Some (concat data) -> target (run data true old (es ++ es')) = Some (concat data).
Proof.
  intros byte data old es es' H. unfold run. rewrite fold_left_app. fold (run data true old es). pose proof (inv_run data old es) as I. revert H I.
  generalize (run data true old es). induction es' as [|e es' IH]; intros s T I; cbn; auto. apply IH; [eapply complete_stays; eauto|apply inv_step; auto].
Qed.
Print Assumptions C31_complete_stays.
(** A failure (without interrupts) leaves the target as it was, if it happens before the move; after it there is nothing left to fail. *)
Theorem C31_failure_keeps_old : forall (byte : Type) (data : list (list byte)) old es,
  ~ In CtrlC es -> at_ (run data true old es) = RaisedError -> target (run data true old es) = old.
Proof.
  intros byte data old es.
  assert (G : forall es (s : st byte), ~ In CtrlC es -> inv data old s ->
     (match at_ s with SetSaved | Check | Returned | RaisedInterrupt => True | Handler => False | _ => target s = old end) ->
     match at_ (fold_left (step data true) es s) with RaisedError => target (fold_left (step data true) es s) = old | _ => True end).
  { induction es0 as [|e es0 IH]; intros s N I H; cbn [fold_left]. { destruct (at_ s); auto. }
    assert (N' : ~ In CtrlC es0) by (intros X; apply N; right; auto). assert (Ne : e <> CtrlC) by (intros X; apply N; left; auto).
    apply IH; auto; [apply inv_step; auto|]. destruct I as (_ & P & F). destruct s as [p tm ta sa it fo]; cbn in *.
    destruct p; unfold step, finally, goto; cbn; destruct e; try congruence; try (destruct fo as [fo|]); cbn; auto; try contradiction;
      try discriminate; try (destruct (nth_error (bytes data) written); cbn; auto); destruct it; cbn; auto. }
  intros N H. specialize (G es (init old) N ltac:(repeat split; auto) eq_refl). fold (run data true old es) in G. rewrite H in G. exact G.
Qed.
Print Assumptions C31_failure_keeps_old.

(** Interrupts are deferred, not lost: after any events that leave the call running inside the loop, letting it go on completes the save and
    then raises KeyboardInterrupt if there was an interrupt. *)
Lemma gos_dump {byte} data (s : st byte) : forall n k, at_ s = Dump k -> k <= length (concat data) -> n = length (concat data) - k ->
  exists s', fold_left (step data true) (repeat Go (S n)) s = s' /\ at_ s' = Close /\ saving s' = saving s /\ interrupted s' = interrupted s /\ file_open s' = file_open s.
Proof.
  intros n. revert s. induction n; intros s k H K N; destruct s as [p tm ta sa it fo]; cbn in *; subst p.
  - unfold step, goto, bytes; cbn. rewrite (proj2 (nth_error_None _ _)) by lia. eauto 10.
  - destruct (nth_error (concat data) k) as [b|] eqn:E; [|apply nth_error_None in E; lia].
    assert (E1 : step data true (mkSt (Dump k) tm ta sa it fo) Go = mkSt (Dump (S k)) (option_map (fun c => c ++ [b]) tm) ta sa it fo).
    { unfold step, goto, bytes; cbn. rewrite E. reflexivity. }
    rewrite E1.
    assert (Lk : k < length (concat data)) by (apply nth_error_Some; rewrite E; discriminate).
    destruct (IHn (mkSt (Dump (S k)) (option_map (fun c => c ++ [b]) tm) ta sa it fo) (S k) eq_refl ltac:(lia) ltac:(lia)) as (s' & A & B).
    exists s'. split; [exact A|exact B].
Qed.
Lemma from_open {byte} data old (s : st byte) : inv data old s -> at_ s = Open -> exists gos, ended (at_ (fold_left (step data true) (repeat Go gos) s)) = true /\
  target (fold_left (step data true) (repeat Go gos) s) = Some (concat data) /\
  at_ (fold_left (step data true) (repeat Go gos) s) = (if interrupted s then RaisedInterrupt else Returned).
Proof.
  intros I H. exists (2 + (S (length (concat data)) + 5)). rewrite !repeat_app, !fold_left_app.
  assert (I2 : inv data old (fold_left (step data true) (repeat Go 2) s)) by (cbn; apply inv_step, inv_step; auto).
  assert (S2 : at_ (fold_left (step data true) (repeat Go 2) s) = Dump 0 /\ interrupted (fold_left (step data true) (repeat Go 2) s) = interrupted s).
  { destruct s as [p tm ta sa it fo]; cbn in *; subst p. cbn. auto. }
  destruct S2 as [A2 B2]. destruct (gos_dump data _ (length (concat data)) 0 A2 ltac:(lia) ltac:(lia)) as (s3 & E3 & A3 & B3 & C3 & D3).
  assert (I3 : inv data old s3). { rewrite <- E3. clear - I2. revert I2. generalize (fold_left (step data true) (repeat Go 2) s). induction (S (length (concat data))); intros s0 I; cbn; auto. apply IHn. apply inv_step. auto. }
  rewrite E3. destruct I3 as (_ & P3 & F3). rewrite A3 in P3, F3. destruct P3 as [T3 V3]. rewrite B2 in C3. clear - A3 T3 V3 C3 F3. destruct s3 as [p tm ta sa it fo]; cbn in *. subst. cbn. destruct (interrupted s); auto.
Qed.
Theorem C31_completes : forall (byte : Type) (data : list (list byte)) old es,
  at_ (run data true old es) = Open \/ (at_ (run data true old es) = Handler /\ file_open (run data true old es) <> None) ->
  exists gos, let s' := run data true old (es ++ repeat Go gos) in
    target s' = Some (concat data) /\ (at_ s' = Returned \/ at_ s' = RaisedInterrupt /\ interrupted s' = true).
Proof.
  intros byte data old es H. pose proof (inv_run data old es) as I.
  assert (R : forall n (s : st byte), fold_left (step data true) (repeat Go (S n)) s = fold_left (step data true) (repeat Go n) (step data true s Go)) by reflexivity.
  assert (IT : forall n (s : st byte), inv data old s -> interrupted (fold_left (step data true) (repeat Go n) s) = true \/ interrupted (fold_left (step data true) (repeat Go n) s) = interrupted s).
  { induction n; intros s Is; auto. rewrite R. destruct (IHn (step data true s Go)) as [X|X]; [apply inv_step; auto|auto|]. rewrite X. clear. destruct s as [p tm ta sa it fo].
    destruct p; unfold step, finally, goto; cbn; auto; try (destruct fo; cbn; auto); try (destruct (nth_error _ _)); auto; destruct tm; auto; destruct (nth_error _ _); auto. }
  assert (K : forall (s : st byte), inv data old s -> at_ s = Open -> exists gos, target (fold_left (step data true) (repeat Go gos) s) = Some (concat data) /\
     (at_ (fold_left (step data true) (repeat Go gos) s) = Returned \/ at_ (fold_left (step data true) (repeat Go gos) s) = RaisedInterrupt /\ interrupted (fold_left (step data true) (repeat Go gos) s) = true)).
  { intros s Is As. destruct (from_open data old s Is As) as (g & _ & T & A). exists g. split; auto. destruct (interrupted s) eqn:Z; [|auto]. right. split; auto. destruct (IT g s Is); congruence. }
  unfold run. destruct H as [H|[H Fo]].
  - destruct (K _ I H) as (g & A). exists g. cbv zeta. rewrite fold_left_app. exact A.
  - destruct (K (step data true (run data true old es) Go)) as (g & A); [apply inv_step; auto| |].
    + destruct (run data true old es) as [p tm ta sa it fo]; cbn in *; subst p. unfold step, finally, goto; cbn. destruct fo; [auto|congruence].
    + exists (S g). cbv zeta. rewrite fold_left_app. rewrite R. exact A.
Qed.
Print Assumptions C31_completes.

(** ** What does not hold *)
(** Temporary directory on another file system: the move is a copy, and a crash during it leaves a truncated target. *)
Theorem C31_other_filesystem_refuted : exists (data : list (list nat)) old es,
  target (run data false old es) <> old /\ target (run data false old es) <> Some (concat data).
Proof. exists [[1; 2]], (Some [9]), (repeat Go 10). split; discriminate. Qed.
Print Assumptions C31_other_filesystem_refuted.
(** An interrupt (or a failure) before the file has been opened for the first time surfaces as an UnboundLocalError and nothing is saved. *)
Theorem C31_interrupt_before_open_refuted : exists (data : list (list nat)) old es,
  at_ (run data true old es) = RaisedUnbound /\ target (run data true old es) = old /\ old <> Some (concat data) /\ In CtrlC es.
Proof. exists [[1; 2]], None, [Go; CtrlC; Go]. cbn. intuition discriminate. Qed.
Print Assumptions C31_interrupt_before_open_refuted.
(** A pickling error leaves the temporary file behind. *)
Theorem C31_temporary_left_refuted : exists (data : list (list nat)) old es,
  at_ (run data true old es) = RaisedError /\ tmp (run data true old es) <> None.
Proof. exists [[1; 2]], None, [Go; Go; Go; Go; Fail]. cbn. intuition discriminate. Qed.
Print Assumptions C31_temporary_left_refuted.

(** Non-vacuity: a normal run; one with an interrupt half-way *)
Example C31_nonvacuous : at_ (run [[1; 2]; [3]] true (Some [9]) (repeat Go 14)) = Returned /\ target (run [[1; 2]; [3]] true (Some [9]) (repeat Go 14)) = Some [1; 2; 3].
Proof. split; reflexivity. Qed.
Example C31_interrupted : let s := run [[1; 2]; [3]] true (Some [9]) ([Go; Go; Go; Go; CtrlC] ++ repeat Go 20) in
  at_ s = RaisedInterrupt /\ target s = Some [1; 2; 3].
Proof. split; reflexivity. Qed.
