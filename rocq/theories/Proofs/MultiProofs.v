(** Lemmas for C30. *)
From Coq Require Import List Arith Lia ZArith Bool.
From Verif.Model Require Import Multi.
Import ListNotations.

Section P.
  Context {A B E : Type}.
  Variable f : A -> res B E.

  Lemma cut_concat : forall sizes (xs : list A), fold_right Nat.add 0 sizes = length xs -> concat (cut sizes xs) = xs.
  Proof.
    induction sizes as [|k l IH]; intros xs H; cbn in *. { destruct xs; [auto|discriminate]. }
    rewrite IH. apply firstn_skipn. rewrite skipn_length. lia.
  Qed.
  Lemma cut_length : forall sizes (xs : list A), length (cut sizes xs) = length sizes.
  Proof. induction sizes; intros; cbn; auto. Qed.
  Lemma sum_app l l' : fold_right Nat.add 0 (l ++ l') = fold_right Nat.add 0 l + fold_right Nat.add 0 l'.
  Proof. induction l; cbn; lia. Qed.
  Lemma sum_repeat k n : fold_right Nat.add 0 (repeat k n) = n * k.
  Proof. induction n; cbn; lia. Qed.
  Lemma split_sizes n (xs : list A) : n > 0 ->
    fold_right Nat.add 0 (repeat (length xs / n + 1) (length xs mod n) ++ repeat (length xs / n) (n - length xs mod n)) = length xs.
  Proof.
    intros H. rewrite sum_app, !sum_repeat. pose proof (Nat.div_mod (length xs) n ltac:(lia)). pose proof (Nat.mod_upper_bound (length xs) n ltac:(lia)). nia.
  Qed.
  Lemma split_concat n (xs : list A) : n > 0 -> concat (array_split xs n) = xs.
  Proof. intros H. apply cut_concat. apply split_sizes. auto. Qed.
  Lemma split_length n (xs : list A) : n > 0 -> length (array_split xs n) = n.
  Proof.
    intros H. unfold array_split. rewrite cut_length, app_length, !repeat_length. pose proof (Nat.mod_upper_bound (length xs) n ltac:(lia)). lia.
  Qed.
  Lemma cut_sizes : forall sizes (xs : list A), fold_right Nat.add 0 sizes = length xs -> map (@length A) (cut sizes xs) = sizes.
  Proof.
    induction sizes as [|k l IH]; intros xs H; cbn in *; auto. rewrite firstn_length, IH by (rewrite skipn_length; lia). f_equal. lia.
  Qed.
  Lemma split_balanced n (xs : list A) c : n > 0 -> In c (array_split xs n) -> length xs / n <= length c <= length xs / n + 1.
  Proof.
    intros H Hc. assert (I : In (length c) (map (@length A) (array_split xs n))) by (apply in_map; auto).
    unfold array_split in I. rewrite cut_sizes in I by (apply split_sizes; auto). apply in_app_or in I. destruct I as [I|I]; apply repeat_spec in I; lia.
  Qed.

  Lemma upd_length {X} (l : list X) i x : length (upd l i x) = length l.
  Proof. revert i. induction l; intros [|i]; cbn; auto. Qed.
  Lemma upd_same {X} (l : list X) i x : i < length l -> nth_error (upd l i x) i = Some x.
  Proof. revert i. induction l; intros [|i] H; cbn in *; try lia; auto. apply IHl. lia. Qed.
  Lemma upd_other {X} (l : list X) i j x : i <> j -> nth_error (upd l i x) j = nth_error l j.
  Proof. revert i j. induction l; intros [|i] [|j] H; cbn; auto; try lia. Qed.
  Lemma nth_len {X} (l : list X) i x : nth_error l i = Some x -> i < length l.
  Proof. intros H. apply nth_error_Some. rewrite H. discriminate. Qed.

  Variable chunks : list (list A).
  (** The invariant *)
  Definition good (c : list A) (v : list B) : Prop := map f c = map Val v.
  Definition pinv (s : state A B E) (i : nat) (c : list A) (p : proc A B) : Prop :=
    match p with
    | Run rest vals => exists pre, c = pre ++ rest /\ good pre vals
    | Finished => exists v, In (i, v) (out_q s)
    | Failed => err_q s <> []
    | Dead => True
    end /\ (p <> Finished -> forall v, ~ In (i, v) (out_q s)).
  Definition inv (s : state A B E) : Prop :=
    length (procs s) = length chunks /\
    (forall i p, nth_error (procs s) i = Some p -> exists c, nth_error chunks i = Some c /\ pinv s i c p) /\
    (forall i v, In (i, v) (out_q s) -> exists c, nth_error chunks i = Some c /\ good c v) /\
    (forall e, In e (err_q s) -> exists x, In x (concat chunks) /\ f x = Exc e).
  Lemma inv_start : inv (start chunks).
  Proof.
    unfold start. split; [cbn; apply map_length|]. split.
    - intros i p H. cbn in H. rewrite nth_error_map in H. destruct (nth_error chunks i) as [c|]; [|discriminate]. injection H as <-.
      exists c. split; auto. split; [exists []; split; [auto|reflexivity]|intros _ v []].
    - split; intros; destruct H.
  Qed.
  Lemma inv_step pbar last s ev : inv s -> inv (step f pbar last s ev).
  Proof.
    intros (L & P & O & X). destruct ev as [i|i]; cbn [step]; destruct (nth_error (procs s) i) as [p|] eqn:Ei; try (split; [|split; [|split]]; assumption).
    - pose proof (nth_len _ _ _ Ei) as Li. destruct (P i p Ei) as (c & Ec & Hp & Hq). destruct p as [rest vals| | |]; try (split; [|split; [|split]]; assumption).
      destruct Hp as (pre & E1 & G). destruct rest as [|x rest].
      + (* put the result *) rewrite app_nil_r in E1. subst pre. split; [cbn; rewrite upd_length; auto|]. split; [|split].
        * intros j p' Hj. cbn [procs] in Hj. destruct (Nat.eq_dec i j) as [<-|N].
          -- rewrite upd_same in Hj by auto. injection Hj as <-. exists c. split; auto. split; [|congruence]. exists vals. cbn. apply in_or_app. right. left. auto.
          -- rewrite upd_other in Hj by auto. destruct (P j p' Hj) as (c' & Ec' & H1 & H2). exists c'. split; auto. split.
             ++ destruct p'; auto. destruct H1 as [v Hv]. exists v. cbn. apply in_or_app. auto.
             ++ intros Hn v Hv. cbn in Hv. apply in_app_or in Hv. destruct Hv as [Hv|[Hv|[]]]; [apply (H2 Hn v Hv)|congruence].
        * intros j v Hv. cbn in Hv. apply in_app_or in Hv. destruct Hv as [Hv|[Hv|[]]]; [auto|]. injection Hv as <- <-. exists c. auto.
        * exact X.
      + destruct (f x) as [b|e] eqn:Fx.
        * split; [cbn; rewrite upd_length; auto|]. split; [|split; assumption].
          intros j p' Hj. cbn [procs] in Hj. destruct (Nat.eq_dec i j) as [<-|N].
          -- rewrite upd_same in Hj by auto. injection Hj as <-. exists c. split; auto. split.
             ++ exists (pre ++ [x]). split; [rewrite <- app_assoc; auto|]. unfold good in *. rewrite !map_app, G. cbn. rewrite Fx. auto.
             ++ intros _. apply Hq. discriminate.
          -- rewrite upd_other in Hj by auto. apply (P j p' Hj).
        * split; [cbn; rewrite upd_length; auto|]. split; [|split; [assumption|]].
          -- intros j p' Hj. cbn [procs] in Hj. destruct (Nat.eq_dec i j) as [<-|N].
             ++ rewrite upd_same in Hj by auto. injection Hj as <-. exists c. split; auto. split; [cbn; destruct (err_q s); discriminate|]. intros _. apply Hq. discriminate.
             ++ rewrite upd_other in Hj by auto. destruct (P j p' Hj) as (c' & Ec' & H1 & H2). exists c'. split; auto. split; auto.
                destruct p'; auto. cbn. destruct (err_q s); discriminate.
          -- intros e' He. cbn in He. apply in_app_or in He. destruct He as [He|[<-|[]]]; [auto|]. exists x. split; auto.
             apply in_concat. exists c. split; [eapply nth_error_In; eauto|]. rewrite E1. apply in_or_app. right. left. auto.
    - pose proof (nth_len _ _ _ Ei) as Li. destruct (P i p Ei) as (c & Ec & Hp & Hq). destruct p as [rest vals| | |]; try (split; [|split; [|split]]; assumption).
      split; [cbn; rewrite upd_length; auto|]. split; [|split; assumption].
      intros j p' Hj. cbn [procs] in Hj. destruct (Nat.eq_dec i j) as [<-|N].
      + rewrite upd_same in Hj by auto. injection Hj as <-. exists c. split; auto. split; auto. intros _. apply Hq. discriminate.
      + rewrite upd_other in Hj by auto. apply (P j p' Hj).
  Qed.
  Lemma inv_run pbar last sched s : inv s -> inv (fold_left (step f pbar last) sched s).
  Proof. revert s. induction sched; intros s H; cbn; auto. apply IHsched. apply inv_step. auto. Qed.

  (** Draining *)
  Lemma val_inj (v v' : list B) : map (@Val B E) v = map Val v' -> v = v'.
  Proof. revert v'. induction v; destruct v'; cbn; intros H; try discriminate; auto. injection H as -> H. f_equal. auto. Qed.
  Lemma drain_length num (q : list (nat * list B)) : length (drain (B := B) num q) = num.
  Proof.
    unfold drain. assert (G : forall r, length (fold_left (fun r p => upd r (fst p) (Some (snd p))) q r) = length r).
    { induction q as [|p q IH]; intros r; cbn; auto. rewrite IH. apply upd_length. }
    rewrite G. apply repeat_length.
  Qed.
  Lemma drain_nth num (q : list (nat * list B)) i : i < num ->
    (forall r, nth_error (drain num q) i = Some r -> match r with Some v => In (i, v) q | None => forall v, ~ In (i, v) q end).
  Proof.
    intros Hi. unfold drain.
    assert (G : forall q0 (r0 : list (option (list B))), length r0 = num ->
              (forall r, nth_error r0 i = Some r -> match r with Some v => In (i, v) q0 | None => forall v, ~ In (i, v) q0 end) ->
              forall r, nth_error (fold_left (fun r p => upd r (fst p) (Some (snd p))) q r0) i = Some r ->
              match r with Some v => In (i, v) (q0 ++ q) | None => forall v, ~ In (i, v) (q0 ++ q) end).
    { induction q as [|[j w] q IH]; intros q0 r0 L H r Hr; cbn in Hr. { rewrite app_nil_r. exact (H r Hr). }
      specialize (IH (q0 ++ [(j, w)]) (upd r0 j (Some w))). rewrite <- app_assoc in IH. apply IH; [| |exact Hr].
      - rewrite upd_length. auto.
      - intros r' Hr'. destruct (Nat.eq_dec j i) as [->|N].
        + rewrite upd_same in Hr' by lia. injection Hr' as <-. apply in_or_app. right. left. auto.
        + rewrite upd_other in Hr' by auto. specialize (H r' Hr'). destruct r' as [v|].
          * apply in_or_app. auto.
          * intros v Hv. apply in_app_or in Hv. destruct Hv as [Hv|[Hv|[]]]; [apply (H v Hv)|congruence]. }
    intros r Hr. apply (G [] (repeat None num) (repeat_length _ _)); auto.
    intros r' Hr'. assert (r' = None). { eapply repeat_spec. eapply nth_error_In. eauto. } subst. intros v [].
  Qed.
  Lemma concat_some (r : list (option (list B))) : (forall i x, nth_error r i = Some x -> exists v, x = Some v) ->
    concat_all r = Some (concat (map (fun o => match o with Some v => v | None => [] end) r)).
  Proof.
    induction r as [|o r IH]; intros H; auto. destruct (H 0 o eq_refl) as [v ->]. cbn. rewrite IH; auto. intros i x Hx. apply (H (S i) x Hx).
  Qed.
  Lemma concat_none (r : list (option (list B))) i : nth_error r i = Some None -> concat_all r = None.
  Proof. revert i. induction r as [|o r IH]; intros [|i] H; try discriminate. { injection H as ->. auto. } cbn in *. destruct o; auto. rewrite (IH i H). auto. Qed.
  Lemma nth_ext_list {X} (l l' : list X) : length l = length l' -> (forall i x y, nth_error l i = Some x -> nth_error l' i = Some y -> x = y) -> l = l'.
  Proof.
    revert l'. induction l as [|a l IH]; destruct l' as [|b l']; intros L H; try discriminate; auto. f_equal; [apply (H 0 a b); auto|]. apply IH; [cbn in L; lia|].
    intros i x y Hx Hy. apply (H (S i) x y Hx Hy).
  Qed.
  Lemma good_concat (cs : list (list A)) (vs : list (list B)) : length cs = length vs ->
    (forall i c v, nth_error cs i = Some c -> nth_error vs i = Some v -> good c v) -> good (concat cs) (concat vs).
  Proof.
    revert vs. induction cs as [|c cs IH]; destruct vs as [|v vs]; intros L H; try discriminate; [reflexivity|]. unfold good in *. cbn. rewrite !map_app.
    rewrite (H 0 c v eq_refl eq_refl). f_equal. apply IH; [cbn in L; lia|]. intros i c' v' Hc Hv. apply (H (S i) c' v' Hc Hv).
  Qed.
  Lemma existsb_nth (g : proc A B -> bool) l : existsb g l = false <-> forall i p, nth_error l i = Some p -> g p = false.
  Proof.
    split.
    - intros H i p Hp. destruct (g p) eqn:E'; auto. assert (existsb g l = true); [|congruence]. apply existsb_exists. exists p. split; auto. eapply nth_error_In; eauto.
    - intros H. destruct (existsb g l) eqn:E'; auto. apply existsb_exists in E'. destruct E' as (p & I & G). apply In_nth_error in I. destruct I as [i I]. rewrite (H i p I) in G. auto.
  Qed.
  Lemma collect_cases s o : inv s -> collect (length chunks) s = Some o ->
    (forall i p, nth_error (procs s) i = Some p -> running p = false) /\
    match o with
    | List l => map f (concat chunks) = map Val l /\ forall i p, nth_error (procs s) i = Some p -> p = Finished
    | Raises e => exists x, In x (concat chunks) /\ f x = Exc e
    | ConcatError => (exists i, nth_error (procs s) i = Some Dead) /\ err_q s = []
    | _ => False
    end.
  Proof.
    intros (L & P & O & X) H. unfold collect in H. destruct (existsb running (procs s)) eqn:R; [discriminate|].
    pose proof (proj1 (existsb_nth _ _) R) as R'. split; [exact R'|].
    destruct (err_q s) as [|e q] eqn:Q.
    2:{ injection H as <-. apply X. left. auto. }
    assert (FD : forall i p, nth_error (procs s) i = Some p -> p = Finished \/ p = Dead).
    { intros i p Hp. pose proof (R' i p Hp) as Z. destruct (P i p Hp) as (c & _ & Hc & _). destruct p; auto; try discriminate. rewrite Q in Hc. congruence. }
    destruct (concat_all (drain (length chunks) (out_q s))) as [l|] eqn:C.
    - injection H as <-.
      assert (FF : forall i p, nth_error (procs s) i = Some p -> p = Finished).
      { intros i p Hp. destruct (FD i p Hp) as [|D]; auto. subst p. destruct (P i Dead Hp) as (c & _ & _ & Hn).
        pose proof (nth_len _ _ _ Hp) as Li. rewrite L in Li. assert (Hd : nth_error (drain (length chunks) (out_q s)) i <> None) by (apply nth_error_Some; rewrite drain_length; auto).
        destruct (nth_error (drain (length chunks) (out_q s)) i) as [r|] eqn:D; [|congruence]. pose proof (drain_nth _ _ _ Li r D) as Z. destruct r as [v|].
        - exfalso. apply (Hn ltac:(discriminate) v Z).
        - rewrite (concat_none _ _ D) in C. discriminate. }
      split; [|exact FF].
      rewrite concat_some in C.
      + injection C as <-. apply good_concat. { rewrite map_length, drain_length. auto. }
        intros i c v Hc Hv. rewrite nth_error_map in Hv. destruct (nth_error (drain (length chunks) (out_q s)) i) as [r|] eqn:D; [|discriminate].
        pose proof (nth_len _ _ _ Hc) as Li. pose proof (drain_nth _ _ _ Li r D) as Z. cbn in Hv. injection Hv as <-. destruct r as [v|].
        * destruct (O i v Z) as (c' & Ec' & G). congruence.
        * exfalso. rewrite <- L in Li. destruct (nth_error (procs s) i) as [p|] eqn:Ep; [|apply nth_error_None in Ep; lia].
          pose proof (FF i p Ep). subst p. destruct (P i _ Ep) as (c' & _ & [v Hv] & _). apply (Z v Hv).
      + intros i x Hx. destruct x as [v|]; [eauto|]. rewrite (concat_none _ _ Hx) in C. discriminate.
    - injection H as <-. split; auto.
      assert (D : exists i, nth_error (procs s) i = Some Dead \/ forall i p, nth_error (procs s) i = Some p -> p = Finished).
      { destruct (existsb (fun p => match p with Dead => true | _ => false end) (procs s)) eqn:Z.
        - apply existsb_exists in Z. destruct Z as (p & I & Hp). destruct p; try discriminate. apply In_nth_error in I. destruct I as [i I]. exists i. auto.
        - exists 0. right. intros i p Hp. destruct (FD i p Hp) as [ | ->]; auto. rewrite existsb_nth in Z. pose proof (Z i Dead Hp). discriminate. }
      destruct D as [i [D|FF]]; [eauto|]. exfalso. assert (Y : concat_all (drain (length chunks) (out_q s)) <> None); [|congruence].
      rewrite concat_some; [discriminate|]. intros j x Hx. destruct x as [v|]; [eauto|]. exfalso. pose proof (nth_len _ _ _ Hx) as Lj. rewrite drain_length in Lj.
      pose proof (drain_nth _ _ _ Lj None Hx) as Z. rewrite <- L in Lj. destruct (nth_error (procs s) j) as [p|] eqn:Ep; [|apply nth_error_None in Ep; lia].
      pose proof (FF j p Ep). subst p. destruct (P j _ Ep) as (c' & _ & [v Hv] & _). apply (Z v Hv).
  Qed.
  Lemma no_dead pbar last sched : (forall ev, In ev sched -> exists i, ev = Step i) -> forall s : state A B E, (forall i, nth_error (procs s) i <> Some Dead) ->
    forall i, nth_error (procs (fold_left (step f pbar last) sched s)) i <> Some Dead.
  Proof.
    induction sched as [|ev sched IH]; intros H s D; [exact D|]. cbn [fold_left]. apply IH; [intros; apply H; right; auto|].
    destruct (H ev (or_introl eq_refl)) as [i ->]. cbn [step]. destruct (nth_error (procs s) i) as [p|] eqn:Ei; auto. pose proof (nth_len _ _ _ Ei) as Li.
    assert (U : forall q, q <> Dead -> forall j, nth_error (upd (procs s) i q) j <> Some Dead).
    { intros q Hq j. destruct (Nat.eq_dec i j) as [<-|N]; [rewrite upd_same by auto; congruence|rewrite upd_other by auto; auto]. }
    destruct p as [[|x rest] vals| | |]; auto; [apply U; discriminate|]. destruct (f x); apply U; discriminate.
  Qed.
  (** Work left: every step of a running worker does one unit; killing only reduces it *)
  Definition todo (p : proc A B) : nat := match p with Run rest _ => S (length rest) | _ => 0 end.
  Definition work (s : state A B E) : nat := fold_right (fun p n => todo p + n) 0 (procs s).
  Lemma work_upd l i p p' : nth_error l i = Some p -> fold_right (fun p n => todo p + n) 0 (upd l i p') + todo p = fold_right (fun p n => todo p + n) 0 l + todo p'.
  Proof. revert i. induction l as [|a l IH]; intros [|i] H; cbn in *; try discriminate. { injection H as ->. lia. } specialize (IH i H). lia. Qed.
  Lemma step_work pbar last s i p : nth_error (procs s) i = Some p -> running p = true -> work (step f pbar last s (Step i)) < work s.
  Proof.
    intros H R. unfold step. rewrite H. destruct p as [rest vals| | |]; try discriminate. unfold work. destruct rest as [|x rest].
    - pose proof (work_upd _ _ _ Finished H) as W. cbn in W |- *. lia.
    - destruct (f x) as [b|e].
      + pose proof (work_upd _ _ _ (Run rest (vals ++ [b])) H) as W. cbn in W |- *. lia.
      + pose proof (work_upd _ _ _ Failed H) as W. cbn in W |- *. lia.
  Qed.
  Lemma finishes pbar last : forall n s, work s <= n -> exists sched, length sched <= n /\
    existsb running (procs (fold_left (step f pbar last) sched s)) = false /\ (forall ev, In ev sched -> exists i, ev = Step i).
  Proof.
    induction n as [n IH] using lt_wf_ind. intros s W. destruct (existsb running (procs s)) eqn:R.
    - apply existsb_exists in R. destruct R as (p & I & Rp). apply In_nth_error in I. destruct I as [i I]. pose proof (step_work pbar last s i p I Rp) as D.
      destruct (IH (work (step f pbar last s (Step i))) ltac:(lia) (step f pbar last s (Step i)) ltac:(lia)) as (sched & L & F & K).
      exists (Step i :: sched). split; [cbn; lia|]. split; [exact F|]. intros ev [<-|H]; eauto.
    - exists []. cbn. split; [lia|]. split; [auto|intros ev []].
  Qed.
End P.
