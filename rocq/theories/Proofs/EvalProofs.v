(** Lemmas on evaluating an integrated Orbit: sorting and unsorting, exactness of the interpolation at its nodes. *)
From Coq Require Import Reals List Arith Bool Lra Lia Sorted Permutation.
From Verif.Lib Require Import Atan2.
From Verif.Model Require Import OrbitState.
From Verif.Proofs Require Import OrbitProofs.
Import ListNotations.
Open Scope R_scope.
Notation RR := RbaseSymbolsImpl.R (only parsing).

(** ** argsort *)
Section Argsort.
  Context {A : Type} (leb : A -> A -> bool).
  Lemma insert_perm x l : Permutation (insert leb x l) (x :: l).
  Proof.
    induction l as [|y l IH]; [easy|]. cbn [insert]. destruct (leb (fst x) (fst y)); [easy|].
    rewrite IH. apply perm_swap.
  Qed.
  Lemma isort_perm l : Permutation (isort leb l) l.
  Proof. induction l as [|x l IH]; [easy|]. cbn [isort fold_right]. rewrite insert_perm. now constructor. Qed.
  Lemma argsort_perm l : Permutation (argsort leb l) (seq 0 (length l)).
  Proof.
    unfold argsort. etransitivity; [apply Permutation_map, isort_perm|].
    assert (E : forall (k : list A) (m : list nat), length k = length m -> map snd (combine k m) = m).
    { induction k as [|x k IH]; intros [|y m] H; try discriminate; [easy|]. cbn. f_equal. apply IH. now injection H. }
    rewrite E; [easy|]. now rewrite seq_length.
  Qed.
  Lemma argsort_bound l i : In i (argsort leb l) -> (i < length l)%nat.
  Proof. intros H. apply (Permutation_in _ (argsort_perm l)) in H. apply in_seq in H. lia. Qed.
  Hypothesis total : forall a b, leb a b = true \/ leb b a = true.
  Hypothesis trans : forall a b c, leb a b = true -> leb b c = true -> leb a c = true.
  Notation le := (fun a b => leb (fst a) (fst b) = true).
  Lemma insert_sorted x l : StronglySorted le l -> StronglySorted le (insert leb x l).
  Proof.
    induction l as [|y l IH]; intros H; [repeat constructor|]. cbn [insert]. destruct (leb (fst x) (fst y)) eqn:E.
    - apply SS_cons_inv in H as H'. destruct H' as [H1 H2]. constructor; [easy|]. constructor; [easy|]. apply Forall_forall. intros z Hz. apply (trans _ (fst y)); auto.
    - apply SS_cons_inv in H as [H1 H2]. constructor; [now apply IH|]. apply Forall_forall. intros z Hz. apply (Permutation_in _ (insert_perm x l)) in Hz.
      destruct Hz as [<- |Hz]; [|now apply H2]. destruct (total (fst x) (fst y)); congruence.
  Qed.
  Lemma isort_sorted l : StronglySorted le (isort leb l).
  Proof. induction l as [|x l IH]; [constructor|]. cbn [isort fold_right]. now apply insert_sorted. Qed.
  Lemma combine_nth_in (l : list A) n d x i : In (x, i) (combine l (seq n (length l))) -> nth (i - n) l d = x /\ (n <= i)%nat.
  Proof.
    revert n. induction l as [|y l IH]; intros n H; [easy|]. cbn [length seq combine] in H. destruct H as [E|H].
    - injection E as <- <-. replace (n - n)%nat with O by lia. cbn. split; [easy|lia].
    - destruct (IH (S n) H) as [E L]. split; [|lia]. replace (i - n)%nat with (S (i - S n)) by lia. exact E.
  Qed.
  Lemma take_argsort_isort l d : take l d (argsort leb l) = map fst (isort leb (combine l (seq 0 (length l)))).
  Proof.
    unfold take, argsort. rewrite map_map. apply map_ext_in. intros [x i] H. cbn [fst snd].
    apply (Permutation_in _ (isort_perm _)) in H. apply (combine_nth_in l 0 d) in H as [E _]. now rewrite Nat.sub_0_r in E.
  Qed.
  Lemma take_argsort_sorted l d : StronglySorted (fun a b => leb a b = true) (take l d (argsort leb l)).
  Proof.
    rewrite take_argsort_isort. pose proof (isort_sorted (combine l (seq 0 (length l)))) as H. revert H. generalize (isort leb (combine l (seq 0 (length l)))).
    induction l0 as [|x l0 IH]; intros H; [constructor|]. apply SS_cons_inv in H as [H1 H2]. cbn [map]. constructor; [now apply IH|].
    apply Forall_forall. intros y Hy. apply in_map_iff in Hy as (z & <- & Hz). now apply H2.
  Qed.
End Argsort.
Lemma take_length {A} (l : list A) d idx : length (take l d idx) = length idx.
Proof. apply map_length. Qed.
Lemma take_seq {A} (l : list A) d : take l d (seq 0 (length l)) = l.
Proof.
  apply (nth_ext _ _ d d); [now rewrite take_length, seq_length|]. rewrite take_length, seq_length. intros n H. unfold take.
  rewrite (nth_map_seq (fun i => nth i l d)) by easy. easy.
Qed.
Lemma take_perm {A} (l : list A) d idx : Permutation idx (seq 0 (length l)) -> Permutation (take l d idx) l.
Proof. intros H. rewrite <- (take_seq l d) at 2. unfold take. now apply Permutation_map. Qed.

(** Sorted permutations of 0, 1, ..., n - 1 *)
Lemma sorted_perm_unique (l m : list nat) : StronglySorted (fun a b => (a <=? b)%nat = true) l -> StronglySorted (fun a b => (a <=? b)%nat = true) m ->
  Permutation l m -> l = m.
Proof.
  revert m. induction l as [|x l IH]; intros m Hl Hm P; [now apply Permutation_nil in P|].
  destruct m as [|y m]; [now apply Permutation_sym, Permutation_nil in P|].
  apply SS_cons_inv in Hl as [Hl Hx]. apply SS_cons_inv in Hm as [Hm Hy].
  assert (x = y) as ->.
  { assert (In x (y :: m)) as I1 by (apply (Permutation_in _ P); now left). assert (In y (x :: l)) as I2 by (apply (Permutation_in _ (Permutation_sym P)); now left).
    destruct I1 as [->|I1]; [easy|]. destruct I2 as [->|I2]; [easy|]. specialize (Hx _ I2). specialize (Hy _ I1). apply Nat.leb_le in Hx, Hy. lia. }
  f_equal. apply IH; auto. now apply Permutation_cons_inv in P.
Qed.
Lemma seq_sorted n m : StronglySorted (fun a b => (a <=? b)%nat = true) (seq n m).
Proof.
  revert n. induction m as [|m IH]; intros n; [constructor|]. cbn [seq]. constructor; [apply IH|]. apply Forall_forall. intros x Hx. apply in_seq in Hx. apply Nat.leb_le. lia.
Qed.
Lemma nat_leb_total a b : (a <=? b)%nat = true \/ (b <=? a)%nat = true.
Proof. destruct (Nat.le_ge_cases a b); [left|right]; now apply Nat.leb_le. Qed.
Lemma nat_leb_trans a b c : (a <=? b)%nat = true -> (b <=? c)%nat = true -> (a <=? c)%nat = true.
Proof. rewrite !Nat.leb_le. lia. Qed.
Lemma take_usindx idx n : Permutation idx (seq 0 n) -> take idx O (argsort Nat.leb idx) = seq 0 n.
Proof.
  intros P. assert (L : length idx = n) by (rewrite (Permutation_length P); apply seq_length).
  apply sorted_perm_unique; [apply take_argsort_sorted; [apply nat_leb_total|apply nat_leb_trans]|apply seq_sorted|].
  etransitivity; [apply take_perm|exact P]. rewrite L. rewrite <- L at 1. apply argsort_perm.
Qed.
(** Unsorting undoes sorting *)
Lemma unsort {A B} (l : list A) (idx : list nat) (d : A) (f : A -> B) (e : B) : Permutation idx (seq 0 (length l)) ->
  take (map f (take l d idx)) e (argsort Nat.leb idx) = map f l.
Proof.
  intros P. assert (L : length idx = length l) by (rewrite (Permutation_length P); apply seq_length).
  assert (E : take (map f (take l d idx)) e (argsort Nat.leb idx) = map (fun i => f (nth i l d)) (take idx O (argsort Nat.leb idx))).
  { unfold take. rewrite !map_map. apply map_ext_in. intros j Hj. apply argsort_bound in Hj. now rewrite (nth_map_d _ idx j O). }
  rewrite E, (take_usindx idx (length l) P). rewrite <- (map_map (fun i => nth i l d) f). f_equal. apply take_seq.
Qed.
Lemma Rleb_total a b : Rleb a b = true \/ Rleb b a = true.
Proof. rewrite !Rleb_spec. destruct (Rle_dec a b); [now left|right; lra]. Qed.
Lemma Rleb_trans a b c : Rleb a b = true -> Rleb b c = true -> Rleb a c = true.
Proof. rewrite !Rleb_spec. lra. Qed.
Lemma mono_NoDup l : strictly_monotone l -> NoDup l.
Proof.
  intros [H|H]; (induction l as [|x l IH]; [constructor|]); apply SS_cons_inv in H as [H HF]; (constructor; [|now apply IH]); intros I; specialize (HF x I); lra.
Qed.
Lemma argsort_ascending l : NoDup l -> StronglySorted Rlt (take l 0 (argsort Rleb l)).
Proof.
  intros N. pose proof (take_argsort_sorted Rleb Rleb_total Rleb_trans l 0) as S.
  assert (N' : NoDup (take l 0 (argsort Rleb l))).
  { apply (Permutation_NoDup (l := l)); [|easy]. apply Permutation_sym, take_perm, argsort_perm. }
  revert S N'. generalize (take l 0 (argsort Rleb l)). induction l0 as [|x l0 IH]; intros S N'; [constructor|].
  apply SS_cons_inv in S as [S1 S2]. inversion N'; subst. constructor; [now apply IH|]. apply Forall_forall. intros y Hy.
  pose proof (S2 y Hy) as L. apply Rleb_spec in L. destruct L as [L| ->]; [easy|contradiction].
Qed.

(** ** Finding times *)
Lemma index_of_some x l k : index_of x l = Some k -> (k < length l)%nat /\ nth k l 0 = x.
Proof.
  revert k. induction l as [|y l IH]; intros k; [easy|]. cbn [index_of]. destruct (Reqb x y) eqn:E.
  - intros [= <-]. apply Reqb_spec in E. subst y. split; [cbn; lia|easy].
  - destruct (index_of x l) as [j|]; [|easy]. cbn [option_map]. intros [= <-]. destruct (IH j eq_refl). split; [cbn; lia|easy].
Qed.
Lemma index_of_in x l : In x l -> exists k, index_of x l = Some k.
Proof.
  induction l as [|y l IH]; [easy|]. intros [->|H]; cbn [index_of]; [rewrite Reqb_refl; eauto|]. destruct (Reqb x y); [eauto|].
  destruct (IH H) as [k ->]. now exists (S k).
Qed.
Lemma index_of_nth l k : NoDup l -> (k < length l)%nat -> index_of (nth k l 0) l = Some k.
Proof.
  intros N H. destruct (index_of_in (nth k l 0) l) as [j E]; [now apply nth_In|]. rewrite E. f_equal. apply index_of_some in E as [L E].
  now apply (proj1 (NoDup_nth l 0) N).
Qed.
Lemma list_eqb_spec a b : list_eqb a b = true <-> a = b.
Proof.
  revert b. induction a as [|x a IH]; intros [|y b]; cbn; try easy. rewrite andb_true_iff, Reqb_spec, IH. split; [intros [-> ->]; easy|intros [= -> ->]; easy].
Qed.
Lemma Rmax_list_ge l x : In x l -> x <= Rmax_list l.
Proof.
  unfold Rmax_list. generalize (hd 0 l). induction l as [|y l IH]; intros d; [easy|]. intros [->|H]; cbn [fold_right].
  - apply Rmax_l.
  - eapply Rle_trans; [now apply (IH d)|apply Rmax_r].
Qed.
Lemma Rmin_list_le l x : In x l -> Rmin_list l <= x.
Proof.
  unfold Rmin_list. generalize (hd 0 l). induction l as [|y l IH]; intros d; [easy|]. intros [->|H]; cbn [fold_right].
  - apply Rmin_l.
  - eapply Rle_trans; [apply Rmin_r|now apply (IH d)].
Qed.
Lemma Rmax_list_in l : l <> [] -> In (Rmax_list l) l.
Proof.
  unfold Rmax_list. intros N. assert (H : forall d m, In (fold_right Rmax d m) (d :: m)).
  { induction m as [|y m IH]; [now left|]. cbn [fold_right]. unfold Rmax at 1. destruct (Rle_dec _ _); [|now right; left]. destruct IH as [IH|IH]; [left; exact IH|now right; right]. }
  destruct (H (hd 0 l) l) as [<- |H']; [|easy]. destruct l; [easy|now left].
Qed.
Lemma Rmin_list_in l : l <> [] -> In (Rmin_list l) l.
Proof.
  unfold Rmin_list. intros N. assert (H : forall d m, In (fold_right Rmin d m) (d :: m)).
  { induction m as [|y m IH]; [now left|]. cbn [fold_right]. unfold Rmin at 1. destruct (Rle_dec _ _); [now right; left|]. destruct IH as [IH|IH]; [left; exact IH|now right; right]. }
  destruct (H (hd 0 l) l) as [<- |H']; [|easy]. destruct l; [easy|now left].
Qed.

(** ** Splines *)
Definition spline_exact (spline : list RR -> list (list RR) -> option (list (RR -> RR))) : Prop :=
  forall ts vals fs, StronglySorted Rlt ts -> (forall v, In v vals -> length v = length ts) -> spline ts vals = Some fs ->
  forall i k, (i < length vals)%nat -> (k < length ts)%nat -> nth i fs (fun _ => 0) (nth k ts 0) = nth k (nth i vals []) 0.

Section Eval.
  Context {pot : Type} (spline : list RR -> list (list RR) -> option (list (RR -> RR))).
  Hypothesis exact : spline_exact spline.
  (** The stored trajectory of an Orbit integrated on shared times *)
  Definition stored (o : orb pot cache) (ts : list RR) (rows : list (list point)) : Prop :=
    t_ o = Some (Shared ts) /\ orbit_ o = Some rows /\ strictly_monotone ts /\ ts <> [] /\ length rows = length (vxvv o) /\
    (forall row, In row rows -> length row = length ts /\ forall p, In p row -> length p = phasedim o).
  Definition cache_ok (o : orb pot cache) (ts : list RR) (rows : list (list point)) : Prop :=
    forall c, orbInterp o = Some c -> forall i k, (i < length rows)%nat -> (k < length ts)%nat ->
      map (fun fs => nth i fs (fun _ => 0) (nth k ts 0)) c = map (fun ii => interp_coord (phasedim o) ii (nth k (nth i rows []) [])) (seq 0 (phasedim o)).
  (** Same attributes except the interpolation *)
  Definition same_but_cache (o o' : orb pot cache) : Prop :=
    vxvv o' = vxvv o /\ t_ o' = t_ o /\ orbit_ o' = orbit_ o /\ pot_ o' = pot_ o /\ orig_pot o' = orig_pot o /\ cannot_continue o' = cannot_continue o.
  Lemma same_refl o : same_but_cache o o. Proof. repeat split. Qed.

  Lemma cache_from ts rows c pd : StronglySorted Rlt ts -> (forall row, In row rows -> length row = length ts) ->
    all_some (map (fun ii => spline ts (map (map (interp_coord pd ii)) rows)) (seq 0 pd)) = Some c ->
    forall i k, (i < length rows)%nat -> (k < length ts)%nat ->
      map (fun fs => nth i fs (fun _ => 0) (nth k ts 0)) c = map (fun ii => interp_coord pd ii (nth k (nth i rows []) [])) (seq 0 pd).
  Proof.
    intros S L E i k Hi Hk. destruct (all_some_map _ _ _ E) as [Lc Nc]. rewrite seq_length in Lc.
    apply (nth_ext _ _ 0 0); [now rewrite !map_length, seq_length|]. rewrite map_length, Lc. intros n Hn.
    rewrite (nth_map_d _ c n []) by lia. rewrite nth_map_seq by easy.
    pose proof (Nc n n [] (nth_error_seq pd n Hn)) as En.
    assert (HL : forall v, In v (map (map (interp_coord pd n)) rows) -> length v = length ts).
    { intros v Hv. apply in_map_iff in Hv as (r & <- & Hr). rewrite map_length. now apply L. }
    rewrite (exact ts _ _ S HL En i k); [|now rewrite map_length|easy].
    rewrite (nth_map_d _ rows i []) by easy.
    rewrite (nth_map_d _ (nth i rows []) k []); [easy|]. rewrite L; [easy|]. now apply nth_In.
  Qed.

  Lemma setup_spec o ts rows : stored o ts rows -> cache_ok o ts rows ->
    (StronglySorted Rlt ts \/ forall a b, spline a b <> None) ->
    same_but_cache o (fst (setup spline o)) /\ cache_ok (fst (setup spline o)) ts rows /\
    (snd (setup spline o) = true -> exists c, orbInterp (fst (setup spline o)) = Some c) /\
    (snd (setup spline o) = false -> orbInterp (fst (setup spline o)) = None).
  Proof.
    intros (Et & Eo & M & N & Lr & Hrow) C Hsp. unfold setup. destruct (orbInterp o) as [c|] eqn:Ei.
    { cbn [fst snd]. rewrite Ei. split; [apply same_refl|]. split; [easy|]. split; [eauto|easy]. }
    rewrite Et, Eo. destruct ts as [|t0 [|t1 ts]].
    { easy. }
    { cbn [fst snd]. rewrite Ei. split; [apply same_refl|]. split; [easy|]. split; [easy|easy]. }
    set (l := t0 :: t1 :: ts) in *. cbv zeta.
    destruct (Rltb t1 t0) eqn:B.
    - (* backward *)
      assert (Hdec : forall a b, spline a b <> None).
      { destruct Hsp as [H|H]; [|easy]. exfalso. apply SS_cons_inv in H as [_ H]. specialize (H t1 (or_introl eq_refl)). apply Rltb_spec in B. lra. }
      set (sindx := argsort Rleb l). assert (P : Permutation sindx (seq 0 (length l))) by apply argsort_perm.
      assert (Ls : length sindx = length l) by (rewrite (Permutation_length P); apply seq_length).
      destruct (all_some _) as [c|] eqn:E.
      2: { exfalso. revert E. generalize (seq 0 (phasedim o)). induction l0 as [|x l0 IH]; cbn [map all_some]; [easy|].
           destruct (spline _ _) eqn:Es; [|now apply Hdec in Es]. destruct (all_some _); [easy|]. intros _. now apply IH. }
      cbn [fst snd orbInterp].
      assert (Et' : take (take l 0 sindx) 0 (argsort Nat.leb sindx) = l).
      { pose proof (unsort l sindx 0 (fun x => x) 0 P) as U. now rewrite !map_id in U. }
      assert (Er' : map (fun row : list point => take row [] (argsort Nat.leb sindx)) (map (fun row : list point => take row [] sindx) rows) = rows).
      { rewrite map_map. rewrite <- (map_id rows) at 2. apply map_ext_in. intros row Hr.
        assert (P' : Permutation sindx (seq 0 (length row))) by (now rewrite (proj1 (Hrow row Hr))).
        pose proof (unsort row sindx [] (fun x => x) [] P') as U. now rewrite !map_id in U. }
      rewrite Et', Er'. split; [repeat split; auto|]. split; [|split; [eauto|easy]].
      intros c' [= <-]. cbn [phasedim vxvv]. change (phasedim (mkOrb _ _ _ _ _ _ _)) with (phasedim o). intros i k Hi Hk.
      (* the node k of the original grid is some node j of the sorted grid *)
      assert (exists j, (j < length l)%nat /\ nth j sindx O = k) as (j & Hj & Ek).
      { assert (In k sindx) as I by (apply (Permutation_in _ (Permutation_sym P)); apply in_seq; lia). apply (In_nth _ _ O) in I as (j & Hj & E'). exists j. split; [lia|easy]. }
      assert (Ht : nth j (take l 0 sindx) 0 = nth k l 0).
      { unfold take. rewrite (nth_map_d _ sindx j O) by lia. now rewrite Ek. }
      rewrite <- Ht.
      assert (HL : forall row, In row (map (fun row : list point => take row [] sindx) rows) -> length row = length (take l 0 sindx)).
      { intros row Hr. apply in_map_iff in Hr as (r & <- & _). now rewrite !take_length. }
      rewrite (cache_from (take l 0 sindx) (map (fun row : list point => take row [] sindx) rows) c (phasedim o) (argsort_ascending l (mono_NoDup l M)) HL E i j);
        [|now rewrite map_length|now rewrite take_length, Ls].
      apply map_ext. intros ii. f_equal. rewrite (nth_map_d _ rows i []) by easy. unfold take. rewrite (nth_map_d _ sindx j O) by lia. now rewrite Ek.
    - assert (S : StronglySorted Rlt l).
      { destruct M as [M|M]; [easy|]. exfalso. apply SS_cons_inv in M as [_ M]. specialize (M t1 (or_introl eq_refl)).
        assert (Rltb t1 t0 = true) by (apply Rltb_spec; lra). congruence. }
      destruct (all_some _) as [c|] eqn:E; cbn [fst snd orbInterp].
      + split; [repeat split; auto|]. split; [|split; [eauto|easy]]. intros c' [= <-]. change (phasedim (mkOrb _ _ _ _ _ _ _)) with (phasedim o).
        apply (cache_from l rows c (phasedim o) S (fun row Hr => proj1 (Hrow row Hr)) E).
      + split; [repeat split; auto|]. now split; [|split].
  Qed.

  (** A stored point and its copy through the interpolation *)
  Definition same_point (p q : point) : Prop :=
    length q = length p /\
    if has_phi (length p) then (forall j, (j < length p - 1)%nat -> nth j q 0 = nth j p 0) /\ cos (last q 0) = cos (last p 0) /\ sin (last q 0) = sin (last p 0)
    else q = p.
  Lemma same_point_refl p : same_point p p.
  Proof. split; [easy|]. destruct (has_phi _); repeat split. Qed.
  Definition off_axis (p : point) : Prop := has_phi (length p) = true -> 0 < nth 0 p 0.
  Lemma uninterp_spec p : off_axis p -> same_point p (uninterp (length p) (map (fun ii => interp_coord (length p) ii p) (seq 0 (length p)))).
  Proof.
    intros H. unfold same_point, uninterp. destruct (has_phi (length p)) eqn:Hp.
    - specialize (H Hp).
      assert (A : forall R f, 0 < R -> sqrt (R * cos f * (R * cos f) + R * sin f * (R * sin f)) = R /\
                  cos (atan2 (R * sin f) (R * cos f)) = cos f /\ sin (atan2 (R * sin f) (R * cos f)) = sin f).
      { intros R f HR. assert (E : sqrt ((R * cos f) ^ 2 + (R * sin f) ^ 2) = R) by (rewrite polar_norm; apply Rabs_pos_eq; lra).
        split; [rewrite <- E at 5; f_equal; ring|]. pose proof (atan2_cos (R * cos f) (R * sin f)) as C1. pose proof (atan2_sin (R * cos f) (R * sin f)) as C2.
        rewrite E in C1, C2. split; apply (Rmult_eq_reg_l R); lra. }
      assert (length p = 4 \/ length p = 6)%nat as L.
      { unfold has_phi in Hp. apply orb_true_iff in Hp as [Hp|Hp]; apply Nat.eqb_eq in Hp; auto. }
      destruct L as [L|L].
      + destruct p as [|R [|vR [|vT [|f [|? ?]]]]]; try discriminate. cbn in H. destruct (A R f H) as (A1 & A2 & A3).
        split; [reflexivity|]. cbn -[sqrt]. split; [|now split]. intros [|[|[|j]]] Hj; try reflexivity; [exact A1|lia].
      + destruct p as [|R [|vR [|vT [|z [|vz [|f [|? ?]]]]]]]; try discriminate. cbn in H. destruct (A R f H) as (A1 & A2 & A3).
        split; [reflexivity|]. cbn -[sqrt]. split; [|now split]. intros [|[|[|[|[|j]]]]] Hj; try reflexivity; [exact A1|lia].
    - assert (E : map (fun ii => interp_coord (length p) ii p) (seq 0 (length p)) = p).
      { unfold interp_coord. rewrite Hp. cbn [andb]. apply take_seq. }
      rewrite E. now split.
  Qed.

  (** The points returned for stored times *)
  Definition answers (ts : list RR) (rows : list (list point)) (req : list RR) (out : list (list point)) : Prop :=
    length out = length rows /\ forall i, (i < length rows)%nat -> length (nth i out []) = length req /\
      forall j k, (j < length req)%nat -> (k < length ts)%nat -> nth j req 0 = nth k ts 0 -> same_point (nth k (nth i rows []) []) (nth j (nth i out []) []).
  Definition req_times (r : request) : list RR := match r with NoTime => [] | Scalar t => [t] | Array l => l end.

  Lemma same_stored o o' ts rows : same_but_cache o o' -> stored o ts rows -> stored o' ts rows.
  Proof.
    intros (A & B & C & _) (H1 & H2 & H3 & H4 & H5 & H6). unfold stored, phasedim in *. rewrite A, B, C. repeat split; auto; now apply H6.
  Qed.

  (** Evaluation never changes anything but the interpolation, which stays right *)
  Lemma call_keeps o r ts rows : stored o ts rows -> cache_ok o ts rows -> (StronglySorted Rlt ts \/ forall a b, spline a b <> None) ->
    same_but_cache o (fst (call_internal spline o r)) /\ cache_ok (fst (call_internal spline o r)) ts rows.
  Proof.
    intros S C Hsp. pose proof (setup_spec o ts rows S C Hsp) as (A1 & A2 & _ & _).
    unfold call_internal. destruct r as [|t|l]; [split; [apply same_refl|easy]| |]; destruct S as (Et & Eo & S); rewrite Et, Eo.
    - destruct (option_map _ _); [split; [apply same_refl|easy]|]. cbv zeta. destruct (_ || _); [split; [apply same_refl|easy]|].
      destruct (setup spline o) as [o' ok]. cbn [fst snd] in *. destruct ok; [destruct (orbInterp o') eqn:Ei|]; [now split| |];
        (rewrite (proj1 (proj2 A1)), (proj1 (proj2 (proj2 A1))), Et, Eo); destruct (all_some _); now split.
    - destruct (if list_eqb l ts then _ else _); [split; [apply same_refl|easy]|]. cbv zeta. destruct (_ || _); [split; [apply same_refl|easy]|].
      destruct (setup spline o) as [o' ok]. cbn [fst snd] in *. destruct ok; [destruct (orbInterp o') eqn:Ei|]; [now split| |];
        (rewrite (proj1 (proj2 A1)), (proj1 (proj2 (proj2 A1))), Et, Eo); destruct (all_some _); now split.
  Qed.

  Lemma range_ok ts l : (forall t, In t l -> In t ts) -> existsb (fun t => Rltb (Rmax_list ts) t) l || existsb (fun t => Rltb t (Rmin_list ts)) l = false.
  Proof.
    intros H. apply orb_false_iff. split.
    - destruct (existsb _ l) eqn:E; [|easy]. apply existsb_exists in E as (t & I & E). apply Rltb_spec in E. pose proof (Rmax_list_ge ts t (H t I)). lra.
    - destruct (existsb _ l) eqn:E; [|easy]. apply existsb_exists in E as (t & I & E). apply Rltb_spec in E. pose proof (Rmin_list_le ts t (H t I)). lra.
  Qed.

  (** Both ways of answering a request not answered directly *)
  Lemma interpolated_answer o l ts rows : stored o ts rows -> cache_ok o ts rows -> (StronglySorted Rlt ts \/ forall a b, spline a b <> None) ->
    (forall row p, In row rows -> In p row -> off_axis p) -> (forall t, In t l -> In t ts) ->
    exists out, (let '(o, ok) := setup spline o in
      match ok, orbInterp o with
      | true, Some c =>
        let sindx := argsort Rleb l in let sorted := take l 0 sindx in let usindx := argsort Nat.leb sindx in
        let out := map (fun i => map (interpolated (phasedim o) c i) sorted) (seq 0 (length (vxvv o))) in
        (o, Ok (if (length l =? 1)%nat then out else map (fun row : list point => take row [] usindx) out))
      | _, _ => match t_ o, orbit_ o with
        | Some (Shared self_t), Some rows => match all_some (map (fun t => index_of t self_t) l) with
          | Some idx => (o, Ok (map (fun row : list point => take row [] idx) rows)) | None => (o, LookupError) end
        | _, _ => (o, AttributeError) end
      end) = (fst (setup spline o), Ok out) /\ answers ts rows l out.
  Proof.
    intros S C Hsp Hax Hin. destruct (setup_spec o ts rows S C Hsp) as (A1 & A2 & A3 & A4). pose proof (same_stored _ _ _ _ A1 S) as S'.
    destruct (setup spline o) as [o' ok] eqn:Es. cbn [fst snd] in *. clear S C. destruct S' as (Et & Eo & M & N & Lr & Hrow).
    pose proof (mono_NoDup ts M) as ND. destruct ok.
    - destruct (A3 eq_refl) as [c Ec]. rewrite Ec. cbv zeta. eexists. split; [reflexivity|].
      assert (P : Permutation (argsort Rleb l) (seq 0 (length l))) by apply argsort_perm.
      assert (E : (if (length l =? 1)%nat then map (fun i => map (interpolated (phasedim o') c i) (take l 0 (argsort Rleb l))) (seq 0 (length (vxvv o')))
        else map (fun row : list point => take row [] (argsort Nat.leb (argsort Rleb l))) (map (fun i => map (interpolated (phasedim o') c i) (take l 0 (argsort Rleb l))) (seq 0 (length (vxvv o')))))
        = map (fun i => map (interpolated (phasedim o') c i) l) (seq 0 (length (vxvv o')))).
      { destruct (length l =? 1)%nat eqn:E1.
        - apply Nat.eqb_eq in E1. destruct l as [|t [|? ?]]; try discriminate. reflexivity.
        - rewrite map_map. apply map_ext. intros i. now apply unsort. }
      rewrite E. split; [now rewrite map_length, seq_length|]. intros i Hi. rewrite nth_map_seq by lia. split; [apply map_length|].
      intros j k Hj Hk Et'. rewrite (nth_map_d _ l j 0) by easy. rewrite Et'. unfold interpolated. rewrite (A2 c Ec i k Hi Hk).
      assert (Ir : In (nth i rows []) rows) by now apply nth_In. destruct (Hrow _ Ir) as [Lrow Lp].
      assert (Ip : In (nth k (nth i rows []) []) (nth i rows [])) by (apply nth_In; lia).
      rewrite <- (Lp _ Ip). apply uninterp_spec. now apply (Hax _ _ Ir).
    - destruct (orbInterp o') eqn:Ei; [now specialize (A4 eq_refl)|]. rewrite Et, Eo.
      assert (exists idx, all_some (map (fun t => index_of t ts) l) = Some idx) as [idx Ex].
      { clear -Hin. induction l as [|t l IH]; [now exists []|]. cbn [map all_some]. destruct (index_of_in t ts) as [k ->]; [apply Hin; now left|].
        destruct IH as [idx ->]; [intros; apply Hin; now right|]. cbn. eauto. }
      rewrite Ex. eexists. split; [reflexivity|]. destruct (all_some_map _ _ _ Ex) as [Li Ni]. split; [apply map_length|]. intros i Hi.
      rewrite (nth_map_d _ rows i []) by easy. split; [now rewrite take_length|]. intros j k Hj Hk E. unfold take. rewrite (nth_map_d _ idx j O) by lia.
      pose proof (Ni j (nth j l 0) O (nth_error_nth' l 0 Hj)) as Ej. rewrite E, (index_of_nth ts k ND Hk) in Ej. injection Ej as <-. apply same_point_refl.
  Qed.

  Lemma call_answers o r ts rows : stored o ts rows -> cache_ok o ts rows -> (StronglySorted Rlt ts \/ forall a b, spline a b <> None) ->
    (forall row p, In row rows -> In p row -> off_axis p) -> r <> NoTime -> (forall t, In t (req_times r) -> In t ts) ->
    exists out, snd (call_internal spline o r) = Ok out /\ answers ts rows (req_times r) out.
  Proof.
    intros S C Hsp Hax Hr Hin. pose proof S as (Et & Eo & M & N & Lr & Hrow). pose proof (mono_NoDup ts M) as ND.
    unfold call_internal. destruct r as [|t|l]; [easy| |]; rewrite Et, Eo; cbn [req_times] in *.
    - destruct (index_of_in t ts (Hin t (or_introl eq_refl))) as [k Ek]. rewrite Ek. cbn [option_map]. eexists. split; [reflexivity|].
      split; [apply map_length|]. intros i Hi. rewrite (nth_map_d _ rows i []) by easy. split; [easy|]. intros [|j] k' Hj Hk' E; [|cbn in Hj; lia].
      cbn [nth] in E |- *. rewrite E, index_of_nth in Ek by easy. injection Ek as <-. apply same_point_refl.
    - destruct (list_eqb l ts) eqn:El.
      + apply list_eqb_spec in El. subst l. eexists. split; [reflexivity|]. split; [easy|]. intros i Hi.
        assert (Ir : In (nth i rows []) rows) by now apply nth_In. split; [apply Hrow; easy|]. intros j k Hj Hk E.
        assert (j = k) as -> by (now apply (proj1 (NoDup_nth ts 0) ND)). apply same_point_refl.
      + rewrite range_ok by easy. cbv zeta. destruct (interpolated_answer o l ts rows S C Hsp Hax Hin) as (out & E & A). cbv zeta in E. rewrite E. exists out. now split.
  Qed.

  Lemma call_refuses (o : orb pot cache) r ts rows : t_ o = Some (Shared ts) -> orbit_ o = Some rows -> ts <> [] ->
    (exists t, In t (req_times r) /\ ((forall s, In s ts -> s < t) \/ (forall s, In s ts -> t < s))) -> call_internal spline o r = (o, ValueError).
  Proof.
    intros Et Eo N (t & I & H).
    assert (Nin : ~ In t ts) by (intros J; destruct H as [H|H]; specialize (H t J); lra).
    assert (E : existsb (fun t => Rltb (Rmax_list ts) t) (req_times r) || existsb (fun t => Rltb t (Rmin_list ts)) (req_times r) = true).
    { apply orb_true_iff. destruct H as [H|H]; [left|right]; apply existsb_exists; exists t; (split; [easy|]); apply Rltb_spec; apply H; [now apply Rmax_list_in|now apply Rmin_list_in]. }
    unfold call_internal. destruct r as [|t'|l]; [easy| |]; rewrite Et, Eo; cbn [req_times] in *.
    - destruct I as [->|[]]. destruct (index_of t ts) as [k|] eqn:Ek.
      { apply index_of_some in Ek as [L Ek]. exfalso. apply Nin. rewrite <- Ek. now apply nth_In. }
      cbn [option_map]. cbv zeta. now rewrite E.
    - destruct (list_eqb l ts) eqn:El; [apply list_eqb_spec in El; now subst|]. cbv zeta. now rewrite E.
  Qed.
End Eval.
