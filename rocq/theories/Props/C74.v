(** C74: stars are assigned to the nearest allowed point and the nearest node of a stream track (df/streamTrack.py). *)
From Coq Require Import Reals Lra List Arith Bool Lia Permutation Sorted.
Import ListNotations.
From Verif.Model Require Import StreamTrackFit.
Open Scope R_scope.
Notation RR := RbaseSymbolsImpl.R (only parsing).

Lemma existsb_in p l : existsb (Nat.eqb p) l = true <-> In p l.
Proof. rewrite existsb_exists. split; [intros (x & H & E); apply Nat.eqb_eq in E; subst; auto|intros H; exists p; split; [auto|apply Nat.eqb_refl]]. Qed.
Lemma find_firstn {A} (f : A -> bool) l : forall k j, find f (firstn k l) = Some j -> find f l = Some j.
Proof. induction l as [|a l IH]; intros [|k] j; simpl; try discriminate. destruct (f a); auto. apply IH. Qed.
Lemma find_nearest (f : nat -> bool) (d : nat -> RR) l : StronglySorted (fun a b => d a <= d b) l ->
  forall j, find f l = Some j -> forall i, In i l -> f i = true -> d j <= d i.
Proof.
  induction 1 as [|a l S IH F]; simpl; intros j E i I T; [tauto|]. rewrite Forall_forall in F. destruct (f a) eqn:Fa.
  - injection E as <-. destruct I as [<-|I]; [apply Rle_refl|auto].
  - destruct I as [<-|I]; [congruence|]. apply IH; auto.
Qed.

Section Closest.
  Variables (M N : nat) (allowed : nat -> nat -> bool) (order : nat -> nat -> list nat) (curve_t : nat -> RR) (dist : nat -> nat -> RR).
  Hypothesis Hord : forall k p, (p < N)%nat -> Permutation (seq 0 M) (order k p) /\ StronglySorted (fun a b => dist p a <= dist p b) (order k p).
  Let good (p : nat) (v : RR) : Prop :=
    (exists j, (j < M)%nat /\ allowed p j = true /\ v = curve_t j /\ forall i, (i < M)%nat -> allowed p i = true -> dist p j <= dist p i) \/
    ((forall j, (j < M)%nat -> allowed p j = false) /\ v = 0).
  Lemma order_in k p j : (p < N)%nat -> In j (order k p) <-> (j < M)%nat.
  Proof. intros L. destruct (Hord k p L) as [P _]. split; intros K; [apply (Permutation_in _ (Permutation_sym P)) in K; apply in_seq in K; lia|apply (Permutation_in _ P), in_seq; lia]. Qed.
  Lemma passes_ok fuel : forall k remaining out, (M - k < fuel)%nat -> (1 <= k \/ M = 0)%nat -> (forall p, In p remaining -> (p < N)%nat) ->
    (forall p, (p < N)%nat -> ~ In p remaining -> good p (out p)) ->
    exists o, passes M allowed order curve_t fuel k remaining out = Some o /\ forall p, (p < N)%nat -> good p (o p).
  Proof.
    induction fuel as [|f IH]; intros k remaining out Hf Hk HR HO; [lia|]. destruct remaining as [|p0 rem].
    { exists out. split; [reflexivity|]. intros p L. apply HO; auto. }
    cbn [passes]. set (R := p0 :: rem) in *. set (out' := fun p => if existsb (Nat.eqb p) R then _ else out p). set (R' := filter (fun p => negb (hit M allowed order k p)) R).
    assert (O' : forall p, (p < N)%nat -> ~ In p R' -> good p (out' p)).
    { intros p L NI. unfold out'. destruct (existsb (Nat.eqb p) R) eqn:E.
      - apply existsb_in in E. destruct (choose M allowed order k p) as [j|] eqn:C.
        + unfold choose in C. apply find_firstn in C. pose proof (find_some _ _ C) as [I A]. left. exists j. split; [apply (order_in _ _ _ L) in I; exact I|]. split; [exact A|]. split; [reflexivity|].
          intros i Li Ai. destruct (Hord (min k M) p L) as [_ S]. apply (find_nearest (allowed p) (dist p) _ S j C i); [apply order_in; auto|exact Ai].
        + exfalso. apply NI. apply filter_In. split; auto. unfold hit. rewrite C. reflexivity.
      - apply HO; auto. intros I. apply existsb_in in I. congruence. }
    destruct (Nat.leb_spec M k) as [G|G].
    - exists (fun p => if existsb (Nat.eqb p) R' then 0 else out' p). split; [reflexivity|]. intros p L. cbv beta. destruct (existsb (Nat.eqb p) R') eqn:E.
      + right. split; [|reflexivity]. apply existsb_in in E. apply filter_In in E as [_ E]. unfold hit, choose in E. rewrite Nat.min_r in E by auto.
        assert (LEN : length (order M p) = M) by (rewrite <- (Permutation_length (proj1 (Hord M p L))); apply seq_length).
        rewrite <- LEN in E at 1. rewrite firstn_all in E. intros j Lj.
        destruct (find (allowed p) (order M p)) eqn:F; [discriminate|]. apply (find_none _ _ F). apply order_in; auto.
      + apply O'; auto. intros I. apply existsb_in in I. congruence.
    - apply IH; auto; [lia|lia|]. intros p I. apply filter_In in I as [I _]. auto.
  Qed.
End Closest.

(** With a mask: whatever order the nearest-neighbour search gives equal distances in, each star gets the time of the nearest point of the curve among those that it
    is allowed, and zero if none is; the search ends. *)
Theorem C74_closest : forall M N allowed order curve_t junk (dist : nat -> nat -> RR),
  (forall k p, (p < N)%nat -> Permutation (seq 0 M) (order k p) /\ StronglySorted (fun a b => dist p a <= dist p b) (order k p)) ->
  exists out, closest_masked M allowed order curve_t N junk = Some out /\ forall p, (p < N)%nat ->
    ((forall j, (j < M)%nat -> allowed p j = false) -> out p = 0) /\
    ((exists j, (j < M)%nat /\ allowed p j = true) ->
      exists j, (j < M)%nat /\ allowed p j = true /\ out p = curve_t j /\ forall i, (i < M)%nat -> allowed p i = true -> dist p j <= dist p i).
Proof.
  intros M N allowed order curve_t junk dist H.
  destruct (passes_ok M N allowed order curve_t dist H) with (fuel := S M) (k := min (max 1 (M / 64)) M) (remaining := seq 0 N) (out := junk) as (o & E & O).
  - lia.
  - lia.
  - intros p I. apply in_seq in I. lia.
  - intros p L NI. exfalso. apply NI, in_seq. lia.
  - exists o. split; [exact E|]. intros p L. destruct (O p L) as [(j & Lj & A & V & B)|[A V]].
    + split; [intros K; rewrite (K j Lj) in A; discriminate|]. intros _. exists j. auto.
    + split; [auto|]. intros (j & Lj & K). rewrite (A j Lj) in K. discriminate.
Qed.
(** Without a mask. *)
Theorem C74_closest_free : forall M order curve_t (dist : nat -> RR) p, (1 <= M)%nat ->
  Permutation (seq 0 M) (order 1%nat p) -> StronglySorted (fun a b => dist a <= dist b) (order 1%nat p) ->
  exists j, (j < M)%nat /\ closest_free order curve_t p = curve_t j /\ forall i, (i < M)%nat -> dist j <= dist i.
Proof.
  intros M order curve_t dist p H P S. unfold closest_free. assert (L : length (order 1%nat p) = M) by (rewrite <- (Permutation_length P); apply seq_length).
  destruct (order 1%nat p) as [|j l]; [simpl in L; lia|]. exists j. split; [|split; [reflexivity|]].
  - assert (I : In j (seq 0 M)) by (apply (Permutation_in _ (Permutation_sym P)); left; auto). apply in_seq in I. lia.
  - intros i Li. assert (I : In i (j :: l)) by (apply (Permutation_in _ P), in_seq; lia). inversion S as [|? ? ? F]; subst. rewrite Forall_forall in F. destruct I as [<-|I]; [apply Rle_refl|auto].
Qed.
(** hypotheses are met: three points at distances 2, 0, 1 of one star that may not be assigned to the nearest *)
Example C74_closest_ex : let dist := fun j : nat => match j with O => 2 | 1%nat => 0 | _ => 1 end in
  Permutation (seq 0 3) [1; 2; 0]%nat /\ StronglySorted (fun a b => dist a <= dist b) [1; 2; 0]%nat /\
  exists out, closest_masked 3 (fun _ j => negb (Nat.eqb j 1)) (fun _ _ => [1; 2; 0]%nat) INR 1 (fun _ => 7) = Some out /\ out 0%nat = 2.
Proof.
  split; [|split].
  - simpl. change [1; 2; 0]%nat with ([1; 2] ++ [0])%nat. change [0; 1; 2]%nat with ([0] ++ [1; 2])%nat. apply Permutation_app_comm.
  - repeat constructor; lra.
  - eexists. split; [reflexivity|]. simpl. lra.
Qed.
(** The distance: with six coordinates the velocities count with their weight, otherwise the weight is ignored. *)
Theorem C74_distance : forall w,
  (forall a b c d e f a' b' c' d' e' f', d2 (scale w [a; b; c; d; e; f]) (scale w [a'; b'; c'; d'; e'; f']) =
     (a - a') ^ 2 + (b - b') ^ 2 + (c - c') ^ 2 + w ^ 2 * ((d - d') ^ 2 + (e - e') ^ 2 + (f - f') ^ 2)) /\
  (forall p, length p <> 6%nat -> scale w p = p).
Proof.
  intros w. split.
  - intros. unfold scale. destruct (Req_EM_T w 1) as [->|N]; unfold d2; simpl; ring.
  - intros p L. unfold scale. destruct (Req_EM_T w 1); auto. destruct (Nat.eqb_spec (length p) 6); [contradiction|auto].
Qed.

(** ** Bins *)
Lemma ss_spec e t : let s := searchsorted e t in (s <= length e)%nat /\ (forall j, (j < s)%nat -> nth j e 0 < t) /\ ((s < length e)%nat -> t <= nth s e 0).
Proof.
  induction e as [|a e IH]; simpl; [split; [lia|split; intros; lia]|]. destruct (Rlt_dec a t) as [L|L]; simpl.
  - destruct IH as (A & B & C). split; [lia|]. split; [intros [|j] H; [exact L|apply B; lia]|intros H; apply C; lia].
  - split; [lia|]. split; [intros; lia|intros; lra].
Qed.
Lemma mids_length l : length (mids l) = (length l - 1)%nat.
Proof. induction l as [|a l IH]; [reflexivity|]. destruct l as [|b l]; [reflexivity|]. change (mids (a :: b :: l)) with (0.5 * (a + b) :: mids (b :: l)). simpl length in *. lia. Qed.
Lemma mids_nth l : forall i, (S i < length l)%nat -> nth i (mids l) 0 = 0.5 * (nth i l 0 + nth (S i) l 0).
Proof.
  induction l as [|a l IH]; intros i H; [simpl in H; lia|]. destruct l as [|b l]; [simpl in H; lia|].
  change (mids (a :: b :: l)) with (0.5 * (a + b) :: mids (b :: l)). destruct i as [|i]; [reflexivity|]. simpl nth at 1. rewrite IH by (simpl in *; lia). reflexivity.
Qed.
Lemma edges_nth nodes i : (1 <= i)%nat -> (i < length nodes)%nat -> nth i (edges nodes) 0 = 0.5 * (nth (i - 1) nodes 0 + nth i nodes 0).
Proof.
  intros A B. unfold edges. destruct i as [|i]; [lia|]. simpl nth at 1. rewrite app_nth1 by (rewrite mids_length; lia). rewrite mids_nth by lia. rewrite Nat.sub_succ, Nat.sub_0_r. reflexivity.
Qed.
Lemma edges_length nodes : (1 <= length nodes)%nat -> length (edges nodes) = S (length nodes).
Proof. intros H. unfold edges. simpl. rewrite app_length, mids_length. simpl. lia. Qed.
(** Each star is counted at the node nearest to it, wherever it is, also beyond the first and the last node, and for nodes that are not evenly spaced; halfway it goes
    to the lower one; and no star is lost or counted twice. *)
Theorem C74_bins : forall nodes t, (2 <= length nodes)%nat -> (forall i j, (i < j)%nat -> (j < length nodes)%nat -> nth i nodes 0 < nth j nodes 0) ->
  (bin nodes t < length nodes)%nat /\ (forall m, (m < length nodes)%nat -> Rabs (t - nth (bin nodes t) nodes 0) <= Rabs (t - nth m nodes 0)) /\
  (forall m, (m < bin nodes t)%nat -> Rabs (t - nth (bin nodes t) nodes 0) < Rabs (t - nth m nodes 0)).
Proof.
  intros nodes t L INC. unfold bin. destruct (ss_spec (edges nodes) t) as (A & B & C). rewrite edges_length in A, C by lia. set (s := searchsorted (edges nodes) t) in *.
  set (i := min (s - 1) (length nodes - 1)). assert (Li : (i < length nodes)%nat) by (unfold i; lia).
  assert (LO : forall m, (m < i)%nat -> Rabs (t - nth i nodes 0) < Rabs (t - nth m nodes 0)).
  { intros m Hm. assert (E := B i ltac:(unfold i in *; lia)). rewrite edges_nth in E by lia.
    assert (nth m nodes 0 <= nth (i - 1) nodes 0) by (destruct (Nat.eq_dec m (i - 1)) as [->|]; [apply Rle_refl|left; apply INC; lia]).
    pose proof (INC m i Hm Li). rewrite (Rabs_right (t - nth m nodes 0)) by lra. apply Rabs_def1; lra. }
  split; [exact Li|]. split; [|exact LO]. intros m Hm. destruct (Nat.lt_trichotomy m i) as [K|[->|K]]; [left; apply LO; auto|apply Rle_refl|].
  pose proof (INC i m K Hm) as G.
  assert (T : t <= 0.5 * (nth i nodes 0 + nth m nodes 0)).
  { destruct (Nat.eq_dec s 0) as [Z|Z].
    - assert (I0 : i = 0%nat) by (unfold i; lia). pose proof (C ltac:(lia)) as E. rewrite Z in E. unfold edges in E. simpl nth at 1 in E. rewrite I0 in *.
      pose proof (INC 0%nat 1%nat ltac:(lia) ltac:(lia)). lra.
    - assert (Is : s = S i) by (unfold i in *; lia). pose proof (C ltac:(lia)) as E. rewrite Is, edges_nth in E by lia. rewrite Nat.sub_succ, Nat.sub_0_r in E.
      assert (nth (S i) nodes 0 <= nth m nodes 0) by (destruct (Nat.eq_dec m (S i)) as [->|]; [apply Rle_refl|left; apply INC; lia]). lra. }
  rewrite (Rabs_left1 (t - nth m nodes 0)) by lra. apply Rabs_le. lra.
Qed.
Theorem C74_counts : forall nodes ts, (1 <= length nodes)%nat -> list_sum (List.map (count nodes ts) (seq 0 (length nodes))) = length ts.
Proof.
  intros nodes ts H. assert (Bd : forall t, (bin nodes t < length nodes)%nat) by (intros; unfold bin; lia). set (n := length nodes) in *. clearbody n.
  induction ts as [|t ts IH].
  - generalize (seq 0 n). induction l as [|a l IHl]; simpl; auto.
  - assert (CC : forall m, count nodes (t :: ts) m = ((if Nat.eqb (bin nodes t) m then 1 else 0) + count nodes ts m)%nat)
      by (intros m; unfold count; simpl; destruct (Nat.eqb (bin nodes t) m); reflexivity).
    assert (Q : forall l, NoDup l -> list_sum (List.map (count nodes (t :: ts)) l) = ((if existsb (Nat.eqb (bin nodes t)) l then 1 else 0) + list_sum (List.map (count nodes ts) l))%nat).
    { induction 1 as [|a l NI ND IHl]; [reflexivity|]. cbn [List.map existsb]. 
      change (list_sum (count nodes (t :: ts) a :: List.map (count nodes (t :: ts)) l)) with (count nodes (t :: ts) a + list_sum (List.map (count nodes (t :: ts)) l))%nat.
      change (list_sum (count nodes ts a :: List.map (count nodes ts) l)) with (count nodes ts a + list_sum (List.map (count nodes ts) l))%nat.
      rewrite CC, IHl. destruct (Nat.eqb_spec (bin nodes t) a) as [E|E]; cbn [orb].
      - replace (existsb (Nat.eqb (bin nodes t)) l) with false; [lia|]. symmetry. apply not_true_is_false. rewrite existsb_in, E. exact NI.
      - destruct (existsb _ l); lia. }
    rewrite Q by apply seq_NoDup. rewrite IH. replace (existsb (Nat.eqb (bin nodes t)) (seq 0 n)) with true; [reflexivity|]. symmetry. apply existsb_in, in_seq. pose proof (Bd t). lia.
Qed.
Example C74_bins_ex : bin [0; 1; 3] 2 = 1%nat.
Proof.
  unfold bin, edges. cbn [nth last mids app searchsorted length].
  destruct (Rlt_dec (0 - 0.5 * (1 - 0)) 2) as [A|A]; [|exfalso; apply A; lra]. destruct (Rlt_dec (0.5 * (0 + 1)) 2) as [B|B]; [|exfalso; apply B; lra].
  destruct (Rlt_dec (0.5 * (1 + 3)) 2) as [C|C]; [exfalso; lra|]. reflexivity.
Qed.

Print Assumptions C74_closest.
Print Assumptions C74_closest_free.
Print Assumptions C74_distance.
Print Assumptions C74_bins.
Print Assumptions C74_counts.
