(** Lemmas on the state of an Orbit: time grids, continued integration. *)
From Coq Require Import Reals List Arith Bool Lra Lia Sorted RelationClasses.
From Verif.Model Require Import OrbitState.
Import ListNotations.
Open Scope R_scope.
Notation RR := RbaseSymbolsImpl.R (only parsing).

Definition strictly_monotone (l : list RR) : Prop := StronglySorted Rlt l \/ StronglySorted Rgt l.

Lemma Rleb_spec a b : Rleb a b = true <-> a <= b.
Proof. unfold Rleb. destruct (Rle_dec a b); intuition congruence. Qed.
Lemma Rltb_spec a b : Rltb a b = true <-> a < b.
Proof. unfold Rltb. destruct (Rlt_dec a b); intuition congruence. Qed.
Lemma Reqb_spec a b : Reqb a b = true <-> a = b.
Proof. unfold Reqb. destruct (Req_EM_T a b); intuition congruence. Qed.
Lemma Reqb_refl a : Reqb a a = true.
Proof. now apply Reqb_spec. Qed.

(** ** Sorted lists *)
Section SS.
  Context {A : Type} (R : A -> A -> Prop).
  Lemma SS_app l1 l2 : StronglySorted R l1 -> StronglySorted R l2 -> (forall a b, In a l1 -> In b l2 -> R a b) -> StronglySorted R (l1 ++ l2).
  Proof.
    induction l1 as [|x l1 IH]; intros H1 H2 H; cbn [app]; [easy|].
    inversion H1 as [|? ? H1' HF]; subst. constructor.
    - apply IH; [easy|easy|]. intros; apply H; [now right|easy].
    - apply Forall_app; split; [easy|]. apply Forall_forall. intros b Hb. apply H; [now left|easy].
  Qed.
  Lemma SS_app_inv l1 l2 : StronglySorted R (l1 ++ l2) -> StronglySorted R l1 /\ StronglySorted R l2 /\ forall a b, In a l1 -> In b l2 -> R a b.
  Proof.
    induction l1 as [|x l1 IH]; cbn [app]; intros H; [repeat split; [constructor|easy|easy]|].
    inversion H as [|? ? H' HF]; subst. destruct (IH H') as (A1 & A2 & A3). apply Forall_app in HF as [F1 F2].
    repeat split; [now constructor|easy|]. intros a b [<- | Ha] Hb; [|now apply A3]. rewrite Forall_forall in F2. now apply F2.
  Qed.
  Lemma SS_cons_inv x l : StronglySorted R (x :: l) -> StronglySorted R l /\ forall a, In a l -> R x a.
  Proof. intros H. inversion H; subst. split; [easy|]. now apply Forall_forall. Qed.
  Lemma SS_last x l d : StronglySorted R (x :: l) -> l <> [] -> R x (last (x :: l) d).
  Proof.
    intros H Hl. apply SS_cons_inv in H as [_ H]. apply H. destruct l as [|y l]; [easy|]. change (last (x :: y :: l) d) with (last (y :: l) d).
    rewrite (app_removelast_last d (l := y :: l)) at 2; [|easy]. apply in_or_app; right; now left.
  Qed.
End SS.
Lemma SS_rev {A} (R R' : A -> A -> Prop) (HR : forall a b, R a b -> R' b a) l : StronglySorted R l -> StronglySorted R' (rev l).
Proof.
  induction l as [|x l IH]; intros H; [constructor|]. cbn [rev]. apply SS_cons_inv in H as [H HF].
  apply SS_app; [now apply IH|repeat constructor|]. intros a b Ha [<- |[]]. apply HR, HF. now apply in_rev.
Qed.
Lemma in_last {A} (l : list A) d : l <> [] -> In (last l d) l.
Proof. intros H. rewrite (app_removelast_last d (l := l)) at 2; [|easy]. apply in_or_app; right; now left. Qed.
(** Gluing two sorted lists at a common end *)
Lemma SS_glue {A} (R : A -> A -> Prop) (HT : forall a b c, R a b -> R b c -> R a c) l x t d :
  StronglySorted R l -> StronglySorted R (x :: t) -> l <> [] -> last l d = x -> StronglySorted R (l ++ t).
Proof.
  intros H1 H2 Hne Hl. apply SS_cons_inv in H2 as [H2 HF].
  apply SS_app; [easy|easy|]. intros a b Ha Hb.
  rewrite (app_removelast_last d (l := l)) in Ha, H1 by easy. apply SS_app_inv in H1 as (_ & _ & H1).
  apply in_app_or in Ha as [Ha|[<- |[]]]; [|rewrite Hl; now apply HF].
  apply (HT a x b); [|now apply HF]. rewrite <- Hl. apply H1; [easy|now left].
Qed.

(** ** Direction of a grid *)
Lemma mono_dir l : strictly_monotone l -> if Rltb (hd 0 l) (last l 0) then StronglySorted Rlt l else StronglySorted Rgt l.
Proof.
  intros [H|H]; destruct l as [|x [|y l]]; cbn [hd].
  - destruct (Rltb _ _); constructor.
  - destruct (Rltb _ _); repeat constructor.
  - pose proof (SS_last Rlt x (y :: l) 0 H ltac:(easy)) as L. apply Rltb_spec in L. now rewrite L.
  - destruct (Rltb _ _); constructor.
  - destruct (Rltb _ _); repeat constructor.
  - pose proof (SS_last Rgt x (y :: l) 0 H ltac:(easy)) as L. destruct (Rltb x (last (x :: y :: l) 0)) eqn:E; [|easy]. apply Rltb_spec in E. lra.
Qed.
Lemma Rgt_trans' a b c : a > b -> b > c -> a > c. Proof. lra. Qed.

Lemma last_cons2 {A} (a b : A) l d : last (a :: b :: l) d = last (b :: l) d.
Proof. reflexivity. Qed.
(** The two ways of extending a grid *)
Lemma mono_forward old t : strictly_monotone old -> strictly_monotone t -> old <> [] -> t <> [] -> hd 0 t = last old 0 ->
  Rltb (hd 0 old) (last old 0) = (if (1 <? length t)%nat then Rltb (hd 0 t) (last t 0) else Rltb (hd 0 old) (last old 0)) -> strictly_monotone (old ++ tl t).
Proof.
  intros Ho Ht No Nt E D. pose proof (mono_dir old Ho) as So. pose proof (mono_dir t Ht) as St.
  destruct t as [|x [|y t]]; [easy| |]; cbn [tl]; [now rewrite app_nil_r|].
  change ((1 <? length (x :: y :: t))%nat) with true in D. cbv iota in D. rewrite <- D in St.
  destruct (Rltb (hd 0 old) (last old 0)); [left|right].
  - apply (SS_glue Rlt Rlt_trans old x (y :: t) 0); auto.
  - apply (SS_glue Rgt Rgt_trans' old x (y :: t) 0); auto.
Qed.
Lemma last_rev {A} (x : A) l d : last (rev (x :: l)) d = x.
Proof. cbn [rev]. apply last_last. Qed.
Lemma mono_backward old t : strictly_monotone old -> strictly_monotone t -> old <> [] -> t <> [] -> hd 0 t = hd 0 old ->
  Rltb (hd 0 old) (last old 0) = negb (if (1 <? length t)%nat then Rltb (hd 0 t) (last t 0) else negb (Rltb (hd 0 old) (last old 0))) ->
  strictly_monotone (rev (tl t) ++ old).
Proof.
  intros Ho Ht No Nt E D. pose proof (mono_dir old Ho) as So. pose proof (mono_dir t Ht) as St.
  destruct t as [|x [|y t]]; [easy|easy|]. cbn [tl].
  change ((1 <? length (x :: y :: t))%nat) with true in D. cbv iota in D. rewrite D in So.
  destruct old as [|o old]; [easy|]. cbn [hd] in E. subst o.
  replace (rev (y :: t) ++ x :: old) with (rev (x :: y :: t) ++ old) by (cbn [rev]; now rewrite <- !app_assoc).
  destruct (Rltb (hd 0 (x :: y :: t)) (last (x :: y :: t) 0)); cbn [negb] in So; [right|left].
  - apply (SS_glue Rgt Rgt_trans' _ x old 0); [|easy| |apply last_rev].
    + now apply (SS_rev Rlt Rgt).
    + intros C. apply (f_equal (@length RR)) in C. rewrite rev_length in C. discriminate.
  - apply (SS_glue Rlt Rlt_trans _ x old 0); [|easy| |apply last_rev].
    + now apply (SS_rev Rgt Rlt).
    + intros C. apply (f_equal (@length RR)) in C. rewrite rev_length in C. discriminate.
Qed.

(** ** Continued integration keeps any property closed under starting and extending a trajectory *)
Lemma all_some_map {A B} (f : A -> option B) l out : all_some (map f l) = Some out ->
  length out = length l /\ forall i a d, nth_error l i = Some a -> f a = Some (nth i out d).
Proof.
  revert out. induction l as [|x l IH]; intros out; cbn [map all_some].
  - intros [= <-]. split; [easy|]. intros [|i] a d E; discriminate.
  - destruct (f x) as [y|] eqn:Ef; [|easy]. destruct (all_some (map f l)) as [ys|] eqn:E; [|easy]. cbn [option_map]. intros [= <-].
    destruct (IH ys eq_refl) as [L N]. split; [cbn; now rewrite L|]. intros [|i] a d E'; cbn in E' |- *; [now injection E' as <-|now apply N].
Qed.
Lemma all_some_total {A B} (f : A -> option B) (g : A -> B) l : (forall a, In a l -> f a = Some (g a)) -> all_some (map f l) = Some (map g l).
Proof.
  induction l as [|x l IH]; intros H; [easy|]. cbn [map all_some]. rewrite (H x) by now left. rewrite IH; [easy|]. intros; apply H; now right.
Qed.
Lemma nth_map_seq {A} (f : nat -> A) n i d : (i < n)%nat -> nth i (map f (seq 0 n)) d = f i.
Proof. intros H. rewrite (nth_indep _ d (f O)) by (now rewrite map_length, seq_length). rewrite map_nth, seq_nth; easy. Qed.
Lemma nth_error_seq n i : (i < n)%nat -> nth_error (seq 0 n) i = Some i.
Proof. intros H. rewrite (nth_error_nth' _ O) by now rewrite seq_length. now rewrite seq_nth. Qed.
Lemma nth_map_d {A B} (f : A -> B) l i d d' : (i < length l)%nat -> nth i (map f l) d' = f (nth i l d).
Proof. intros H. rewrite (nth_indep _ d' (f d)) by now rewrite map_length. apply map_nth. Qed.

Section Inv.
  Context {pot cache : Type} (integ : pot -> list RR -> point -> option (list point)) (v0 : list point).
  Variable P : pot -> Prop.
  Variable Q : point -> list RR -> list point -> Prop.
  Definition good_times (n : nat) (T : times) : Prop :=
    match T with Shared ts => ts <> [] /\ strictly_monotone ts
    | PerOrbit tss => length tss = n /\ List.Forall (fun ts => ts <> [] /\ strictly_monotone ts) tss end.
  Definition state_ok (o : orb pot cache) : Prop :=
    vxvv o = v0 /\ cannot_continue o = false /\
    match t_ o, orbit_ o with
    | None, None => pot_ o = None
    | Some T, Some rows => (exists p, pot_ o = Some p) /\ (exists p, orig_pot o = Some p) /\ good_times (length v0) T /\ length rows = length v0 /\
        forall i, (i < length v0)%nat -> Q (nth i v0 []) (times_of T i) (nth i rows [])
    | _, _ => False
    end.
  Definition separated (U : list RR) : Prop := forall a b, In a U -> In b U -> isclose a b = true -> a = b.
  Definition all_times (T : times) : list RR := match T with Shared ts => ts | PerOrbit tss => concat tss end.
  Hypothesis Q_start : forall p ts v out, P p -> ts <> [] -> strictly_monotone ts -> integ p ts v = Some out -> Q v ts out.
  Hypothesis Q_forward : forall p old row ts v out, P p -> old <> [] -> ts <> [] -> strictly_monotone old -> strictly_monotone ts -> Q v old row ->
    hd 0 ts = last old 0 -> integ p ts (last row []) = Some out -> Q v (old ++ tl ts) (row ++ tl out).
  Hypothesis Q_backward : forall p old row ts v out, P p -> old <> [] -> ts <> [] -> strictly_monotone old -> strictly_monotone ts -> Q v old row ->
    hd 0 ts = hd 0 old -> integ p ts (hd [] row) = Some out -> Q v (rev (tl ts) ++ old) (rev (tl out) ++ row).
  Hypothesis total : forall p ts v, P p -> ts <> [] -> strictly_monotone ts -> exists out, integ p ts v = Some out.

  Lemma good_times_i n T i : good_times n T -> (i < n)%nat -> times_of T i <> [] /\ strictly_monotone (times_of T i).
  Proof. destruct T as [ts|tss]; cbn; [easy|]. intros [L F] Hi. rewrite Forall_forall in F. apply F. apply nth_In. lia. Qed.

  Lemma run_ok p T (vx : list point) : P p -> good_times (length vx) T ->
    exists out, all_some (map (fun i => integ p (times_of T i) (nth i vx ([] : point))) (seq 0 (length vx))) = Some out /\ length out = length vx /\
      forall i, (i < length vx)%nat -> integ p (times_of T i) (nth i vx ([] : point)) = Some (nth i out []).
  Proof.
    intros Hp HT.
    assert (exists g, forall i, In i (seq 0 (length vx)) -> integ p (times_of T i) (nth i vx ([] : point)) = Some (g i)) as [g Hg].
    { exists (fun i => match integ p (times_of T i) (nth i vx ([] : point)) with Some x => x | None => [] end). intros i Hi. apply in_seq in Hi.
      destruct (good_times_i _ T i HT ltac:(lia)) as [N M]. destruct (total p _ (nth i vx ([] : point)) Hp N M) as [x E]. now rewrite E. }
    pose proof (all_some_total _ g _ Hg) as E. exists (map g (seq 0 (length vx))). split; [easy|].
    destruct (all_some_map _ _ _ E) as [L Nn]. split; [now rewrite L, seq_length|].
    intros i Hi. apply (Nn i i []). now apply nth_error_seq.
  Qed.

  (** What a call leaves: one of the three outcomes *)
  Definition extends (o o' : orb pot cache) (T : times) : Prop :=
    t_ o' = Some T \/
    exists old ts, t_ o = Some (Shared old) /\ T = Shared ts /\
      ((hd 0 ts = last old 0 /\ t_ o' = Some (Shared (old ++ tl ts))) \/ (hd 0 ts = hd 0 old /\ t_ o' = Some (Shared (rev (tl ts) ++ old)))).

  Lemma integrate_step U o c : state_ok o -> separated U -> P (c_pot c) -> good_times (length v0) (c_times c) ->
    incl (all_times (c_times c)) U -> (forall T, t_ o = Some T -> incl (all_times T) U) -> c_valid c = true ->
    snd (integrate integ o c) = Ok tt /\ state_ok (fst (integrate integ o c)) /\
    (forall T, t_ (fst (integrate integ o c)) = Some T -> incl (all_times T) U) /\
    extends o (fst (integrate integ o c)) (c_times c).
  Proof.
    destruct o as [vx to ob pt og cc oi]. unfold state_ok at 1. cbn [vxvv t_ orbit_ pot_ orig_pot cannot_continue orbInterp].
    intros (-> & -> & Hs) Sep Hp HT HU HU' Hv. unfold integrate. rewrite Hv. cbn [negb vxvv t_ orbit_ pot_ orig_pot cannot_continue orbInterp].
    destruct c as [T pc vc]. cbn [c_times c_pot c_valid] in *. clear Hv vc. set (o := mkOrb v0 to ob pt og false oi).
    assert (match T with PerOrbit tss => negb (length tss =? length v0)%nat | Shared _ => false end = false) as ->.
    { destruct T as [ts|tss]; [easy|]. destruct HT as [L _]. rewrite L, Nat.eqb_refl. easy. }
    (* the case of a restart *)
    assert (let o1 := mkOrb v0 (Some T) ob (Some pc) (Some pc) false None in
      let res := match all_some (map (fun i => integ pc (times_of T i) (nth i v0 [])) (seq 0 (length v0))) with
        | None => (o1, IntegrationError)
        | Some out => (mkOrb v0 (t_ o1) (Some out) (pot_ o1) (orig_pot o1) (cannot_continue o1) (@None cache), Ok tt) end in
      snd res = Ok tt /\ state_ok (fst res) /\ (forall T', t_ (fst res) = Some T' -> incl (all_times T') U) /\ extends o (fst res) T) as Restart.
    { cbv zeta. destruct (run_ok pc T v0 Hp HT) as (out & -> & L & N). cbn [fst snd]. split; [easy|]. split; [|split].
      - repeat split; cbn; auto; [now exists pc|now exists pc|]. intros i Hi.
        destruct (good_times_i _ _ i HT Hi) as [Nn M]. apply (Q_start pc); auto.
      - cbn. now intros T' [= <-].
      - now left. }
    unfold should_continue. unfold o. cbn [vxvv t_ orbit_ pot_ orig_pot cannot_continue orbInterp].
    destruct to as [T0|]; [|exact Restart].
    destruct ob as [rows|]; [|easy]. destruct Hs as ([p0 ->] & [p1 ->] & HT0 & Lr & HQ).
    destruct T as [ts|tss]; [|exact Restart].
    destruct T0 as [old|tss0]; [|exact Restart].
    destruct HT as [Nts Mts]. destruct HT0 as [Nold Mold].
    destruct ts as [|t0 ts']; [easy|]. destruct old as [|s0 old']; [easy|].
    set (ts := t0 :: ts') in *. set (old := s0 :: old') in *.
    assert (HUo : incl old U) by (apply (HU' (Shared old)); easy).
    assert (HUt : incl ts U) by exact HU.
    assert (It0 : In t0 U) by (apply HUt; now left).
    assert (Is0 : In s0 U) by (apply HUo; now left).
    assert (Il : In (last old 0) U) by (apply HUo, in_last; easy).
    destruct (isclose t0 (last old 0)) eqn:C1.
    { pose proof (Sep _ _ It0 Il C1) as E1.
      cbv zeta. match goal with |- context [eqb ?a ?b] => destruct (eqb a b) eqn:D end; [|exact Restart].
      apply eqb_prop in D.
      assert (GT : good_times (length (map (fun row : list point => last row []) rows)) (Shared ts)) by (split; easy).
      destruct (run_ok pc (Shared ts) _ Hp GT) as (out & E & L & N). cbv beta iota. cbn [vxvv t_ orbit_ pot_ orig_pot cannot_continue orbInterp]. rewrite E. clear E. cbn [fst snd]. rewrite map_length, Lr in *.
      split; [easy|]. split; [|split].
      - refine (conj eq_refl (conj eq_refl (conj (ex_intro _ pc eq_refl) (conj (ex_intro _ pc eq_refl) (conj (conj _ _) (conj _ _)))))); cbn -[tl nth app]; [unfold old; now destruct (tl ts)|apply (mono_forward old ts); auto; easy|now rewrite map_length, seq_length|].
        intros i Hi. rewrite nth_map_seq by easy. apply (Q_forward pc); auto; [now apply (HQ i Hi)|].
        rewrite <- (N i Hi). f_equal. symmetry. rewrite (nth_map_d _ rows i []) by lia. easy.
      - cbn [t_]. intros T' E. assert (T' = Shared (old ++ tl ts)) as -> by congruence. cbn [all_times]. apply incl_app; [easy|]. intros x Hx. apply HUt. now right.
      - right. exists old, ts. repeat split; auto. }
    destruct (isclose t0 s0) eqn:C2; [|exact Restart].
    pose proof (Sep _ _ It0 Is0 C2) as E1.
    cbv zeta. match goal with |- context [negb (eqb ?a ?b)] => destruct (negb (eqb a b)) eqn:D end; [|exact Restart].
    assert (GT : good_times (length (map (fun row : list point => hd [] row) rows)) (Shared ts)) by (split; easy).
    destruct (run_ok pc (Shared ts) _ Hp GT) as (out & E & L & N). cbv beta iota. cbn [vxvv t_ orbit_ pot_ orig_pot cannot_continue orbInterp]. rewrite E. clear E. cbn [fst snd]. rewrite map_length, Lr in *.
    split; [easy|]. split; [|split].
    - refine (conj eq_refl (conj eq_refl (conj (ex_intro _ pc eq_refl) (conj (ex_intro _ pc eq_refl) (conj (conj _ _) (conj _ _)))))); cbn -[tl nth app]; [now destruct (rev (tl ts))| |now rewrite map_length, seq_length|].
      + apply mono_backward; auto; try easy.
        change (hd 0 ts) with t0. change (hd 0 old) with s0. destruct (Rltb s0 (last old 0)), (if (1 <? length ts)%nat then Rltb t0 (last ts 0) else _); easy.
      + intros i Hi. rewrite nth_map_seq by easy. apply (Q_backward pc); auto; [now apply (HQ i Hi)|].
        rewrite <- (N i Hi). f_equal. symmetry. rewrite (nth_map_d _ rows i []) by lia. easy.
    - cbn [t_]. intros T' E. assert (T' = Shared (rev (tl ts) ++ old)) as -> by congruence. cbn [all_times]. apply incl_app; [|easy]. intros x Hx. apply HUt. right. now apply in_rev.
    - right. exists old, ts. repeat split; auto.
  Qed.

  Lemma integrate_invalid (o : orb pot cache) c : c_valid c = false -> integrate integ o c = (o, ValueError).
  Proof. intros H. unfold integrate. now rewrite H. Qed.

  Lemma integrate_all_ok U cs : forall o, state_ok o -> separated U ->
    (forall T, t_ o = Some T -> incl (all_times T) U) ->
    List.Forall (fun c => P (c_pot c) /\ good_times (length v0) (c_times c) /\ incl (all_times (c_times c)) U) cs ->
    state_ok (integrate_all integ o cs) /\ forall T, t_ (integrate_all integ o cs) = Some T -> incl (all_times T) U.
  Proof.
    induction cs as [|c cs IH]; intros o Ho Sep HU HF; [easy|]. inversion HF as [|? ? (A & B & C) HF']; subst.
    cbn [integrate_all fold_left]. destruct (c_valid c) eqn:V.
    - destruct (integrate_step U o c Ho Sep A B C HU V) as (_ & S & S' & _). now apply IH.
    - rewrite integrate_invalid by easy. now apply IH.
  Qed.
  Lemma fresh_ok : state_ok (fresh v0 : orb pot cache).
  Proof. repeat split. Qed.
End Inv.
