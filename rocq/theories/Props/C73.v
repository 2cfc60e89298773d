(** C73: actions, frequencies and angles from an isochrone approximation (actionAngle/actionAngleIsochroneApprox.py). *)
From Coq Require Import Reals Lra List ZArith Arith Bool Lia.
Import ListNotations.
From Verif.Model Require Import IsoApprox.
From Verif.Proofs Require Import IsoApproxProofs.
Open Scope R_scope.
Notation RR := RbaseSymbolsImpl.R (only parsing).

(** The action is a weighted average of the toy action along the orbit: it lies between the smallest and the largest, and is the toy action when that is constant,
    as in an isochrone potential. *)
Theorem C73_actions : forall js angles lo hi, length js = length angles -> (forall j, In j js -> lo <= j <= hi) -> suml (dangle angles) <> 0 ->
  lo <= avg_action js angles <= hi.
Proof.
  intros js angles lo hi L B N. unfold avg_action. cbv zeta. set (d := dangle angles) in *.
  assert (P : 0 <= suml d). { assert (Q : forall l, (forall x, In x l -> 0 <= x) -> 0 <= suml l) by (induction l as [|a l IH]; simpl; intros H; [lra|pose proof (H a (or_introl eq_refl)); pose proof (IH (fun x K => H x (or_intror K))); lra]).
    apply Q. apply dangle_nonneg. }
  assert (P' : 0 < suml d) by lra.
  destruct (suml_bounds lo hi (removelast js) d) as [U V].
  - unfold d. rewrite removelast_len, dangle_length. lia.
  - intros j J. apply B, removelast_in, J.
  - apply dangle_nonneg.
  - split; apply Rmult_le_reg_r with (suml d); auto; unfold Rdiv; rewrite Rmult_assoc, Rinv_l, Rmult_1_r; lra.
Qed.
Theorem C73_actions_constant : forall n j angles, length angles = n -> suml (dangle angles) <> 0 -> avg_action (repeat j n) angles = j.
Proof.
  intros n j angles L N. destruct (C73_actions (repeat j n) angles j j) as [A B]; auto; [rewrite repeat_length; auto| |lra].
  intros x H. apply repeat_spec in H. lra.
Qed.
(** The exact average: each toy action but the last counts with the advance of its angle up to the next time, taken between 0 and 2 pi. *)
Lemma suml_sumn l : forall n (f : nat -> RR), length l = n -> (forall i, (i < n)%nat -> nth i l 0 = f i) -> suml l = sumn n f.
Proof.
  induction l as [|a l IH] using rev_ind; intros n f L H; [simpl in L; subst; reflexivity|]. rewrite app_length in L. simpl in L. destruct n as [|n]; [lia|].
  assert (E : suml (l ++ [a]) = suml l + a) by (clear; induction l as [|b l IH]; simpl; [lra|rewrite IH; lra]).
  rewrite E. simpl. rewrite (IH n f); [|lia|].
  - rewrite <- (H n) by lia. rewrite app_nth2 by lia. replace (n - length l)%nat with 0%nat by lia. reflexivity.
  - intros i K. rewrite <- (H i) by lia. rewrite app_nth1 by lia. reflexivity.
Qed.
Lemma sum_f_sumn f n : sum_f_R0 f n = sumn (S n) f.
Proof. induction n as [|n IH]; simpl in *; [lra|rewrite IH; lra]. Qed.
Lemma zipw_nth {A B} (f : A -> B -> RR) da db : forall l k i, (i < length l)%nat -> (i < length k)%nat -> nth i (zipw f l k) 0 = f (nth i l da) (nth i k db).
Proof. induction l as [|a l IH]; intros [|b k] [|i] H K; simpl in *; try lia; [reflexivity|apply IH; lia]. Qed.
Lemma zipw_len {A B} (f : A -> B -> RR) : forall l k, length l = length k -> length (zipw f l k) = length l.
Proof. induction l as [|a l IH]; intros [|b k] H; simpl in *; try lia. rewrite IH; lia. Qed.
Lemma removelast_nth (l : list RR) : forall i, (S i < length l)%nat -> nth i (removelast l) 0 = nth i l 0.
Proof. induction l as [|a l IH]; intros i H; [simpl in H; lia|]. destruct l as [|b l]; [simpl in H; lia|]. destruct i as [|i]; [reflexivity|]. change (nth i (removelast (b :: l)) 0 = nth i (b :: l) 0). apply IH. simpl in *. lia. Qed.
Lemma fmod_unique x d (k : Z) : 0 <= d < 2 * PI -> x = d + 2 * PI * IZR k -> fmod x = d.
Proof.
  intros [A B] ->. unfold fmod, twopi. pose proof PI_RGT_0 as P. set (y := (d + 2 * PI * IZR k) / (2 * PI)).
  assert (E : y = d / (2 * PI) + IZR k) by (unfold y; field; lra).
  assert (U : 0 <= d / (2 * PI) < 1). { split; [apply Rmult_le_pos; [lra|left; apply Rinv_0_lt_compat; lra]|apply Rmult_lt_reg_r with (2 * PI); [lra|]; unfold Rdiv; rewrite Rmult_assoc, Rinv_l; lra]. }
  destruct (base_Int_part y) as [V W]. assert (K : Int_part y = k).
  { apply Z.le_antisymm; apply Z.lt_succ_r; apply lt_IZR; rewrite succ_IZR; lra. }
  rewrite K. ring.
Qed.
Theorem C73_actions_weights : forall n js angles (d : nat -> RR), length js = S (S n) -> length angles = S (S n) ->
  (forall i, (i <= n)%nat -> 0 <= d i < 2 * PI /\ exists k : Z, nth (S i) angles 0 - nth i angles 0 = d i + 2 * PI * IZR k) ->
  avg_action js angles = sum_f_R0 (fun i => nth i js 0 * d i) n / sum_f_R0 d n.
Proof.
  intros n js angles d Lj La H.
  assert (T : length (tl angles) = S n) by (destruct angles; simpl in *; lia).
  assert (Ra : length (removelast angles) = S n) by (rewrite removelast_len, La; lia).
  assert (Rj : length (removelast js) = S n) by (rewrite removelast_len, Lj; lia).
  assert (Ld : length (dangle angles) = S n) by (unfold dangle; rewrite zipw_len; lia).
  assert (D : forall i, (i < S n)%nat -> nth i (dangle angles) 0 = d i).
  { intros i Hi. unfold dangle. rewrite (zipw_nth _ 0 0) by lia. rewrite removelast_nth by lia. destruct (H i ltac:(lia)) as [Q (k & E)].
    apply fmod_unique with k; auto. rewrite <- E. destruct angles; [simpl in La; lia|reflexivity]. }
  unfold avg_action. cbv zeta. rewrite !sum_f_sumn. f_equal; [|f_equal]; apply suml_sumn; auto.
  - rewrite zipw_len; lia.
  - intros i Hi. rewrite (zipw_nth _ 0 0) by lia. rewrite D by auto. rewrite removelast_nth by lia. reflexivity.
Qed.
(** Unwrapping always adds whole turns, so no angle changes modulo 2 pi. *)
Theorem C73_unwrap_turns : forall arr i, (i < length arr)%nat -> length (dePeriod arr) = length arr /\ exists n : nat, nth i (dePeriod arr) 0 = nth i arr 0 + 2 * PI * INR n.
Proof.
  intros arr i L. split; [apply dePeriod_length|]. destruct arr as [|a l]; [simpl in L; lia|]. rewrite dePeriod_is. cbv zeta. destruct i as [|i]; [eexists; reflexivity|].
  simpl. apply (unw_shift l). simpl in L. lia.
Qed.
(** An angle that never decreases and advances by less than 2 pi - 6 (about 16 degrees) between successive times is recovered, up to a whole number of turns that is
    the same for all times. *)
Theorem C73_unwrap : forall arr (th : nat -> RR) (m : nat -> Z),
  (forall i, (i < length arr)%nat -> 0 <= nth i arr 0 < 2 * PI /\ nth i arr 0 = th i + 2 * PI * IZR (m i)) ->
  (forall i, (S i < length arr)%nat -> 0 <= th (S i) - th i < 2 * PI - 6) ->
  exists k : Z, forall i, (i < length arr)%nat -> nth i (dePeriod arr) 0 = th i + 2 * PI * IZR k.
Proof.
  intros arr th m M S. apply (dePeriod_true arr th m); auto.
  - intros i L. apply M; auto.
  - intros i L. pose proof (proj1 (M i ltac:(lia))). pose proof (proj1 (M (Datatypes.S i) L)). unfold twopi. apply Rabs_def1; lra.
Qed.
Example C73_unwrap_ex : exists k : Z, forall i, (i < 2)%nat -> nth i (dePeriod [6; 6.05]) 0 = 6 + 0.05 * INR i + 2 * PI * IZR k.
Proof.
  pose proof PI_bounds. apply (C73_unwrap [6; 6.05] (fun i => 6 + 0.05 * INR i) (fun _ => 0%Z)).
  - intros [|[|i]] L; simpl in *; try lia; split; lra.
  - intros [|i] L; simpl in *; try lia. lra.
Qed.
(** Findings. Coarser output, even with more than twelve points per turn, is not recovered; *)
Theorem C73_unwrap_coarse_refuted : exists arr th, length arr = 2%nat /\ 0 <= th 1%nat - th 0%nat < 2 * PI / 12 /\
  (forall i, (i < 2)%nat -> 0 <= nth i arr 0 < 2 * PI /\ exists m : Z, nth i arr 0 = th i + 2 * PI * IZR m) /\
  nth 1 (dePeriod arr) 0 - nth 0 (dePeriod arr) 0 <> th 1%nat - th 0%nat.
Proof.
  pose proof PI_bounds as P. exists [6; 6.5 - 2 * PI], (fun i => match i with O => 6 | _ => 6.5 end). split; [reflexivity|]. split; [lra|]. split.
  - intros [|[|i]] L; simpl; try lia; (split; [lra|]); [exists 0%Z|exists (-1)%Z]; lra.
  - rewrite dePeriod_is. simpl. unfold jump. destruct (Rlt_dec (6 - (6.5 - 2 * PI)) (-6)); [lra|]. destruct (Rlt_dec (6.5 - 2 * PI - 6) (-6)); [lra|]. simpl. lra.
Qed.
(** an angle that decreases through zero is not recovered however fine the output; *)
Theorem C73_unwrap_decreasing_refuted : forall e, 0 < e < 1 -> exists arr th, length arr = 2%nat /\ Rabs (th 1%nat - th 0%nat) = e /\
  (forall i, (i < 2)%nat -> 0 <= nth i arr 0 < 2 * PI /\ exists m : Z, nth i arr 0 = th i + 2 * PI * IZR m) /\
  nth 1 (dePeriod arr) 0 - nth 0 (dePeriod arr) 0 <> th 1%nat - th 0%nat.
Proof.
  intros e E. pose proof PI_bounds as P. exists [e / 2; 2 * PI - e / 2], (fun i => match i with O => e / 2 | _ => - (e / 2) end). split; [reflexivity|].
  split; [rewrite Rabs_left; lra|]. split.
  - intros [|[|i]] L; simpl; try lia; (split; [lra|]); [exists 0%Z|exists 1%Z]; lra.
  - rewrite dePeriod_is. simpl. assert (J : jump (e / 2) (2 * PI - e / 2) = 0%nat) by (unfold jump; destruct (Rlt_dec _ _); [lra|reflexivity]). rewrite J, Nat.add_0_r. lra.
Qed.
(** and the first angle may be moved by a turn, because it is compared with the last one. *)
Theorem C73_unwrap_first_refuted : exists arr, (forall a, In a arr -> 0 <= a < 2 * PI) /\ nth 0 (dePeriod arr) 0 <> nth 0 arr 0.
Proof.
  pose proof PI_bounds as P. exists [0; 6.1]. split; [intros a [<-|[<-|[]]]; lra|]. rewrite dePeriod_is. simpl. unfold jump. destruct (Rlt_dec (0 - 6.1) (-6)); [|lra].
  simpl. unfold twopi. lra.
Qed.

(** The fit returns the exact frequency and the angle modulo 2 pi whenever the toy angle is a constant, plus frequency times time, plus a combination of the fitted
    sines (for an isochrone potential, without them): for angles that increase (neg = false) and that decrease (neg = true). *)
Theorem C73_fit : forall (neg : bool) nt nc ts sines atainv arr (th : nat -> RR) (m : nat -> Z) (X : nat -> RR),
  let A := design ts sines in let s := if neg then -1 else 1 in
  (2 <= nc)%nat -> length arr = nt ->
  (forall t, (t < nt)%nat -> th t = X 0%nat + X 1%nat * ts t + sumn (nc - 2) (fun k => sines t k * X (k + 2)%nat)) ->
  (forall t, (t < nt)%nat -> 0 <= nth t arr 0 < 2 * PI /\ nth t arr 0 = s * th t + 2 * PI * IZR (m t)) ->
  (forall t, (S t < nt)%nat -> 0 <= th (S t) - th t < 2 * PI - 6) ->
  (forall r c, (r < nc)%nat -> (c < nc)%nat -> sumn nc (fun b => atainv r b * ATA nt A b c) = if Nat.eqb r c then 1 else 0) ->
  fst (fit neg nt nc A atainv arr) = s * X 1%nat /\
  0 <= snd (fit neg nt nc A atainv arr) < 2 * PI /\ exists k : Z, snd (fit neg nt nc A atainv arr) = s * X 0%nat + 2 * PI * IZR k.
Proof.
  intros neg nt nc ts sines atainv arr th m X A s Hc L TH M S I.
  assert (U : exists k : Z, forall t, (t < nt)%nat -> nth t (unwrap neg arr) 0 = th t + twopi * IZR k).
  { unfold unwrap. destruct neg.
    - set (arr' := List.map (fun a => twopi - a) arr). assert (L' : length arr' = nt) by (unfold arr'; rewrite map_length; exact L).
      assert (N : forall t, (t < nt)%nat -> nth t arr' 0 = twopi - nth t arr 0).
      { intros t Ht. unfold arr'. rewrite (nth_indep _ 0 (twopi - 0)) by (rewrite map_length; lia). apply (map_nth (fun a => twopi - a)). }
      rewrite <- L'. apply (dePeriod_true arr' th (fun t => (1 - m t)%Z)); rewrite L'.
      + intros t Ht. rewrite (N t Ht), (proj2 (M t Ht)), minus_IZR. unfold s, twopi. ring.
      + intros t Ht. rewrite !N by lia. pose proof (proj1 (M t ltac:(lia))). pose proof (proj1 (M (Datatypes.S t) Ht)). unfold twopi. apply Rabs_def1; lra.
      + exact S.
    - rewrite <- L. apply (C73_unwrap arr th m); rewrite L; [|exact S]. intros t Ht. destruct (M t Ht) as [B E]. split; [exact B|]. rewrite E. unfold s. ring. }
  destruct U as [k U].
  assert (C : forall r, (r < nc)%nat -> coef nt nc A atainv (fun t => nth t (unwrap neg arr) 0) r = X r + (if Nat.eqb r 0 then twopi * IZR k else 0)).
  { intros r Hr. apply (coef_exact nt nc A atainv (fun c => X c + (if Nat.eqb c 0 then twopi * IZR k else 0))); auto.
    intros t Ht. rewrite (U t Ht), (TH t Ht).
    assert (Q : forall n f, sumn (n + 2) f = f 0%nat + f 1%nat + sumn n (fun k => f (k + 2)%nat)).
    { induction n; intros f; simpl; [ring|]. rewrite IHn. ring. }
    replace nc with (nc - 2 + 2)%nat at 2 by lia. rewrite Q. simpl.
    rewrite (sumn_ext (nc - 2) (fun k0 => A t (k0 + 2)%nat * _) (fun k0 => sines t k0 * X (k0 + 2)%nat)).
    - unfold A, design. ring.
    - intros j _. replace (j + 2)%nat with (Datatypes.S (Datatypes.S j)) by lia. simpl. ring. }
  assert (C0 := C 0%nat ltac:(lia)). assert (C1 := C 1%nat ltac:(lia)). simpl in C0, C1. rewrite Rplus_0_r in C1.
  unfold fit. cbv zeta. unfold fst, snd. rewrite C0, C1. split; [unfold s; destruct neg; ring|].
  set (y := if neg then _ else _). destruct (fmod_spec y) as [B [j J]]. split; [exact B|].
  exists (j + (if neg then 1 - k else k))%Z. rewrite J, plus_IZR. unfold y, s, twopi. destruct neg; rewrite ?minus_IZR; ring.
Qed.
(** the hypotheses are met: two times, no sines *)
Example C73_fit_ex : let A := design INR (fun _ _ => 0) in let inv := fun r c => match r, c with O, O => 1 | 1%nat, 1%nat => 2 | _, _ => -1 end in
  fst (fit false 2 2 A inv [6; 6.05]) = 0.05.
Proof.
  intros A inv. pose proof PI_bounds as P.
  destruct (C73_fit false 2 2 INR (fun _ _ => 0) inv [6; 6.05] (fun t => 6 + 0.05 * INR t) (fun _ => 0%Z) (fun c => match c with O => 6 | _ => 0.05 end)) as [F _].
  - lia.
  - reflexivity.
  - intros t _. simpl. ring.
  - intros [|[|t]] H; simpl; try lia; split; lra.
  - intros [|t] H; try lia. simpl. lra.
  - intros [|[|r]] [|[|c]] H K; try lia; unfold ATA, inv, design; simpl; ring.
  - etransitivity; [exact F|]. ring.
Qed.
(** The vectors n of the sines for an axisymmetric potential: exactly one of n and -n for every n within the limits, except zero, and as many as the code makes room for. *)
Theorem C73_vectors : forall maxn, (1 <= maxn)%nat ->
  (forall r z, In (r, z) (nvectors maxn) <-> (r < maxn)%nat /\ (Z.abs z < Z.of_nat maxn)%Z /\ ((0 < r)%nat \/ (0 < z)%Z)) /\ length (nvectors maxn) = nn maxn.
Proof.
  intros maxn H. rewrite nvectors_is by auto. split.
  - intros r z. rewrite in_app_iff, in_map_iff, in_prod_iff, (phig_in maxn z H), in_seq. split.
    + intros [(k & E & K)|[K Z]]; [|lia]. injection E as <- <-. apply in_seq in K. lia.
    + intros (R & Z & [P|P]); [right; lia|]. destruct (Nat.eq_dec r 0) as [->|N]; [left|right; lia]. exists (Z.to_nat z). split; [f_equal; lia|apply in_seq; lia].
  - rewrite app_length, map_length, prod_length, !seq_length, phig_length by auto. unfold nn. nia.
Qed.
Example C73_vectors_ex : nvectors 2 = [(0%nat, 1%Z); (1%nat, 0%Z); (1%nat, (-1)%Z); (1%nat, 1%Z)].
Proof. reflexivity. Qed.

Print Assumptions C73_actions.
Print Assumptions C73_actions_constant.
Print Assumptions C73_actions_weights.
Print Assumptions C73_unwrap_turns.
Print Assumptions C73_unwrap.
Print Assumptions C73_unwrap_coarse_refuted.
Print Assumptions C73_unwrap_decreasing_refuted.
Print Assumptions C73_unwrap_first_refuted.
Print Assumptions C73_fit.
Print Assumptions C73_vectors.
