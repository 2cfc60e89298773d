(** C30: parallel_map is map whatever the schedule. *)
From Coq Require Import List Arith Lia ZArith Bool.
From Verif.Model Require Import Multi.
From Verif.Proofs Require Import MultiProofs.
Import ListNotations.

(** Chunks: in order, nothing lost or repeated, sizes within one of each other. *)
Theorem C30_chunks : forall (A : Type) (xs : list A) n, n > 0 ->
  concat (array_split xs n) = xs /\ length (array_split xs n) = n /\
  forall c, In c (array_split xs n) -> length xs / n <= length c <= length xs / n + 1.
Proof. intros A xs n H. split; [apply split_concat; auto|]. split; [apply split_length; auto|]. intros c. apply split_balanced. auto. Qed.
Print Assumptions C30_chunks.

Lemma to_run {A B E} (f : A -> res B E) ncpus xs numcores pbar schedule o : length xs <> 1 ->
  parallel_map f true false ncpus xs numcores pbar schedule = Some o ->
  o = ValueError /\ (length xs = 0 \/ (match numcores with Some n => n | None => ncpus end <= 0)%Z) \/
  exists n, n > 0 /\ n <= length xs /\ collect n (fold_left (step f pbar (n - 1)) schedule (start (array_split xs n))) = Some o.
Proof.
  intros Hl H. unfold parallel_map in H. rewrite (proj2 (Nat.eqb_neq _ _) Hl) in H. cbn [negb orb] in H.
  set (n := match numcores with None => ncpus | Some n => n end) in *. destruct (Z.ltb_spec (Z.of_nat (length xs)) n).
  - destruct (Z.leb_spec (Z.of_nat (length xs)) 0).
    + left. split; [congruence|]. left. lia.
    + right. exists (length xs). rewrite Nat2Z.id in H. split; [lia|]. split; [lia|auto].
  - destruct (Z.leb_spec n 0).
    + left. split; [congruence|]. right. lia.
    + right. exists (Z.to_nat n). split; [lia|]. split; [lia|auto].
Qed.

(** Whatever the schedule and whichever workers are killed, if a list is returned it is exactly map f in the order of the sequence: no
    partial, reordered or repeated results. *)
Theorem C30_result_is_map : forall (A B E : Type) (f : A -> res B E) windows ncpus xs numcores pbar schedule l,
  parallel_map f true windows ncpus xs numcores pbar schedule = Some (List l) -> map f xs = map Val l.
Proof.
  intros A B E f windows ncpus xs numcores pbar schedule l H. destruct (Nat.eq_dec (length xs) 1) as [L|L].
  { unfold parallel_map in H. rewrite L in H. discriminate. }
  destruct windows.
  - unfold parallel_map in H. rewrite (proj2 (Nat.eqb_neq _ _) L) in H. cbn [negb orb] in H. injection H as H. clear L. revert l H.
    induction xs as [|x xs IH]; intros l H; [injection H as <-; auto|]. destruct (f x) as [b|e] eqn:Fx; [|discriminate].
    destruct ((fix go (l : list A) : list B + E := match l with [] => inl [] | x :: l => match f x with Val b => match go l with inl r => inl (b :: r) | inr e => inr e end | Exc e => inr e end end) xs) as [r|e]; [|discriminate].
    injection H as <-. cbn. rewrite Fx, (IH r eq_refl). auto.
  - destruct (to_run f ncpus xs numcores pbar schedule _ L H) as [[X _]|(n & Hn & _ & C)]; [discriminate|].
    rewrite <- (split_length n xs Hn) in C at 1. apply (collect_cases f (array_split xs n)) in C; [|apply inv_run; apply inv_start].
    destruct C as [_ [C _]]. rewrite (split_concat n xs Hn) in C. exact C.
Qed.
Print Assumptions C30_result_is_map.

(** When a call raises (an Exception), no schedule leads to a list; and an exception that comes out is one that a call raised. *)
Theorem C30_exception_raised : forall (A B E : Type) (f : A -> res B E) windows ncpus xs numcores pbar schedule o x e,
  In x xs -> f x = Exc e -> parallel_map f true windows ncpus xs numcores pbar schedule = Some o -> forall l, o <> List l.
Proof.
  intros A B E f windows ncpus xs numcores pbar schedule o x e Hx Fx H l ->. apply C30_result_is_map in H.
  assert (I : In (Exc e) (map f xs)) by (rewrite <- Fx; apply in_map; auto). rewrite H in I. apply in_map_iff in I. destruct I as (b & X & _). discriminate.
Qed.
Print Assumptions C30_exception_raised.
Theorem C30_exception_genuine : forall (A B E : Type) (f : A -> res B E) ncpus xs numcores pbar schedule e,
  parallel_map f true false ncpus xs numcores pbar schedule = Some (Raises e) -> exists x, In x xs /\ f x = Exc e.
Proof.
  intros A B E f ncpus xs numcores pbar schedule e H. destruct (Nat.eq_dec (length xs) 1) as [L|L].
  { unfold parallel_map in H. rewrite L in H. discriminate. }
  destruct (to_run f ncpus xs numcores pbar schedule _ L H) as [[X _]|(n & Hn & _ & C)]; [discriminate|].
  rewrite <- (split_length n xs Hn) in C at 1. apply (collect_cases f (array_split xs n)) in C; [|apply inv_run; apply inv_start].
  destruct C as [_ C]. rewrite (split_concat n xs Hn) in C. exact C.
Qed.
Print Assumptions C30_exception_genuine.

(** Full correctness: at least two elements, at least one core, no worker killed, all workers finished.  If no call raises, the result is the
    list; if one does, the result is an exception raised by a call. *)
Theorem C30_complete : forall (A B E : Type) (f : A -> res B E) ncpus xs numcores pbar schedule o,
  length xs >= 2 -> (match numcores with Some n => n | None => ncpus end > 0)%Z -> (forall ev, In ev schedule -> exists i, ev = Step i) ->
  parallel_map f true false ncpus xs numcores pbar schedule = Some o ->
  (exists l, o = List l /\ map f xs = map Val l) \/ (exists x e, o = Raises e /\ In x xs /\ f x = Exc e).
Proof.
  intros A B E f ncpus xs numcores pbar schedule o L N K H.
  destruct (to_run f ncpus xs numcores pbar schedule _ ltac:(lia) H) as [[_ [X|X]]|(n & Hn & _ & C)]; try lia.
  rewrite <- (split_length n xs Hn) in C at 1. apply (collect_cases f (array_split xs n)) in C; [|apply inv_run; apply inv_start].
  destruct C as [_ C]. rewrite (split_concat n xs Hn) in C. destruct o as [l| |e| |]; try contradiction.
  - left. exists l. split; auto. apply C.
  - right. destruct C as (x & I & Fx). eauto.
  - exfalso. destruct C as [[i D] _]. revert D. apply (no_dead f pbar (n - 1) schedule K). intros j D. cbn in D. rewrite nth_error_map in D.
    destruct (nth_error (array_split xs n) j); discriminate.
Qed.
Print Assumptions C30_complete.
(** A killed worker is noticed: an exception, not a list with its part missing (instance of C30_result_is_map); no call raised. *)
Theorem C30_killed_worker : forall (A B E : Type) (f : A -> res B E) ncpus xs numcores pbar schedule,
  parallel_map f true false ncpus xs numcores pbar schedule = Some ConcatError -> exists i, In (Kill i) schedule.
Proof.
  intros A B E f ncpus xs numcores pbar schedule H. destruct (Nat.eq_dec (length xs) 1) as [L|L].
  { unfold parallel_map in H. rewrite L in H. discriminate. }
  destruct (to_run f ncpus xs numcores pbar schedule _ L H) as [[X _]|(n & Hn & _ & C)]; [discriminate|].
  rewrite <- (split_length n xs Hn) in C at 1. apply (collect_cases f (array_split xs n)) in C; [|apply inv_run; apply inv_start].
  destruct C as [_ [[i D] _]].
  destruct (existsb (fun ev => match ev with Kill _ => true | _ => false end) schedule) eqn:K.
  - apply existsb_exists in K. destruct K as (ev & I & Hk). destruct ev as [|j]; [discriminate|]. eauto.
  - exfalso. revert D. apply (no_dead f pbar (n - 1) schedule).
    + intros ev I. destruct ev as [j|j]; [eauto|]. assert (existsb (fun ev => match ev with Kill _ => true | _ => false end) schedule = true); [|congruence].
      apply existsb_exists. exists (Kill j). auto.
    + intros j D. cbn in D. rewrite nth_error_map in D. destruct (nth_error (array_split xs n) j); discriminate.
Qed.
Print Assumptions C30_killed_worker.

(** Progress: whatever has happened so far, every schedule that lets the running workers take their steps comes to an end (each such step
    decreases the work left, which is at most the number of elements plus the number of workers), and the call then returns. *)
Theorem C30_terminates : forall (A B E : Type) (f : A -> res B E) ncpus xs numcores pbar schedule, 
  exists more, parallel_map f true false ncpus xs numcores pbar (schedule ++ more) <> None /\ (forall ev, In ev more -> exists i, ev = Step i).
Proof.
  intros A B E f ncpus xs numcores pbar schedule. unfold parallel_map. destruct (length xs =? 1); cbn [negb orb]. { exists []. split; [discriminate|intros ev []]. }
  set (n := match numcores with None => ncpus | Some n => n end). set (n' := if (Z.of_nat (length xs) <? n)%Z then Z.of_nat (length xs) else n).
  destruct (n' <=? 0)%Z. { exists []. split; [discriminate|intros ev []]. }
  destruct (finishes f pbar (Z.to_nat n' - 1) _ (fold_left (step f pbar (Z.to_nat n' - 1)) schedule (start (array_split xs (Z.to_nat n')))) (le_n _)) as (more & _ & F & K).
  exists more. split; [|exact K]. rewrite fold_left_app. unfold collect. rewrite F. destruct (err_q _); [|discriminate]. destruct (concat_all _); discriminate.
Qed.
Print Assumptions C30_terminates.
Theorem C30_each_step_progresses : forall (A B E : Type) (f : A -> res B E) pbar last (s : state A B E) i p,
  nth_error (procs s) i = Some p -> running p = true -> work (step f pbar last s (Step i)) < work s.
Proof. intros A B E f pbar last s i p. apply step_work. Qed.
Print Assumptions C30_each_step_progresses.

(** ** What does not hold *)
(** An empty sequence is an error rather than an empty list. *)
Theorem C30_empty_sequence_refuted : forall (A B E : Type) (f : A -> res B E) ncpus numcores pbar schedule,
  parallel_map f true false ncpus [] numcores pbar schedule = Some ValueError.
Proof.
  intros A B E f ncpus numcores pbar schedule. unfold parallel_map. cbn [length Nat.eqb negb orb Z.of_nat].
  set (n := match numcores with None => ncpus | Some n => n end). destruct (Z.ltb_spec 0 n); auto. destruct (Z.leb_spec n 0); auto. lia.
Qed.
Print Assumptions C30_empty_sequence_refuted.
(** One element: a lazy iterator comes back, so nothing has been computed and no exception raised yet. *)
Theorem C30_single_element_refuted : exists (f : nat -> res nat unit) xs, map f xs = [Exc tt] /\
  parallel_map f true false 4%Z xs None false [] = Some (Lazy xs).
Proof. exists (fun _ => Exc tt), [0]. split; reflexivity. Qed.
Print Assumptions C30_single_element_refuted.

(** Non-vacuity: three elements, two workers finishing in the opposite order; and a failing call *)
Example C30_nonvacuous : parallel_map (E := unit) (fun x => Val (x * x)) true false 2%Z [1; 2; 3] None true
   [Step 1; Step 1; Step 0; Step 0; Step 0] = Some (List [1; 4; 9]).
Proof. reflexivity. Qed.
Example C30_failing : parallel_map (fun x => if x =? 3 then Exc 7 else Val x) true false 2%Z [1; 2; 3] None true
   [Step 1; Step 0; Step 0; Step 0] = Some (Raises 7).
Proof. reflexivity. Qed.
Example C30_killed : parallel_map (E := unit) (fun x => Val x) true false 2%Z [1; 2; 3] None true [Kill 1; Step 0; Step 0; Step 0] = Some ConcatError.
Proof. reflexivity. Qed.
