(** C24: continued integration extends the trajectory and keeps the initial condition. *)
From Coq Require Import Reals List Arith Bool Lra Lia Sorted.
From Verif.Model Require Import OrbitState.
From Verif.Proofs Require Import OrbitProofs.
Import ListNotations.
Open Scope R_scope.
Notation RR := RbaseSymbolsImpl.R (only parsing).

(** ** Specification *)
(** A time-dependent flow: F s t v is where v at time s is at time t *)
Definition flow (F : RR -> RR -> point -> point) : Prop := (forall s v, F s s v = v) /\ forall s t u v, F t u (F s t v) = F s u v.
(** An integrator that returns the solution of the flow at the requested times *)
Definition solves {pot} (integ : pot -> list RR -> point -> option (list point)) (F : pot -> RR -> RR -> point -> point) : Prop :=
  forall p ts v, ts <> [] -> strictly_monotone ts -> integ p ts v = Some (map (fun t => F p (hd 0 ts) t v) ts).
(** The requested grids: non-empty, strictly monotone, and no two times of all grids closer than numpy's tolerance without being equal *)
Definition grids_ok {pot} (n : nat) (cs : list (call (pot := pot))) : Prop :=
  List.Forall (fun c => match c_times c with
                        | Shared ts => ts <> [] /\ strictly_monotone ts
                        | PerOrbit tss => length tss = n /\ List.Forall (fun ts => ts <> [] /\ strictly_monotone ts) tss end) cs /\
  forall a b, In a (concat (map (fun c => all_times (c_times c)) cs)) -> In b (concat (map (fun c => all_times (c_times c)) cs)) ->
    Rabs (a - b) <= 1 / 10 ^ 8 + 1 / 10 ^ 5 * Rabs b -> a = b.

(** ** Proofs *)
Lemma separated_of {pot} n (cs : list (call (pot := pot))) : grids_ok n cs -> separated (concat (map (fun c => all_times (c_times c)) cs)).
Proof. intros [_ H] a b Ha Hb C. apply H; auto. now apply Rleb_spec in C. Qed.
Lemma incl_concat {A} (x : list A) l : In x l -> incl x (concat l).
Proof. intros H a Ha. apply in_concat. now exists x. Qed.
Lemma tl_map {A B} (f : A -> B) l : tl (map f l) = map f (tl l). Proof. now destruct l. Qed.
Lemma last_map {A B} (f : A -> B) l d d' : l <> [] -> last (map f l) d' = f (last l d).
Proof. intros H. induction l as [|x [|y l] IH]; [easy|easy|]. cbn [map]. rewrite !last_cons2. now apply IH. Qed.

Section Flow.
  Context {pot cache : Type} (integ : pot -> list RR -> point -> option (list point)) (F : pot -> RR -> RR -> point -> point) (p : pot).
  Hypothesis HF : flow (F p).
  Hypothesis HS : solves integ F.
  Definition Qflow (v : point) (ts : list RR) (row : list point) : Prop := exists t0, In t0 ts /\ row = map (fun t => F p t0 t v) ts.
  Lemma Qflow_start q ts v out : q = p -> ts <> [] -> strictly_monotone ts -> integ q ts v = Some out -> Qflow v ts out.
  Proof. intros -> N M. rewrite (HS p ts v N M). intros [= <-]. exists (hd 0 ts). split; [|easy]. destruct ts; [easy|now left]. Qed.
  Lemma Qflow_forward q old row ts v out : q = p -> old <> [] -> ts <> [] -> strictly_monotone old -> strictly_monotone ts -> Qflow v old row ->
    hd 0 ts = last old 0 -> integ q ts (last row []) = Some out -> Qflow v (old ++ tl ts) (row ++ tl out).
  Proof.
    intros -> No N Mo M (t0 & I & ->) E. rewrite (HS p ts _ N M). intros [= <-]. exists t0. split; [apply in_or_app; now left|].
    rewrite map_app, tl_map. f_equal. apply map_ext. intros t. rewrite (last_map _ _ 0) by easy. rewrite E. apply HF.
  Qed.
  Lemma Qflow_backward q old row ts v out : q = p -> old <> [] -> ts <> [] -> strictly_monotone old -> strictly_monotone ts -> Qflow v old row ->
    hd 0 ts = hd 0 old -> integ q ts (hd [] row) = Some out -> Qflow v (rev (tl ts) ++ old) (rev (tl out) ++ row).
  Proof.
    intros -> No N Mo M (t0 & I & ->) E. rewrite (HS p ts _ N M). intros [= <-]. exists t0. split; [apply in_or_app; now right|].
    rewrite map_app, tl_map, map_rev. f_equal. f_equal. apply map_ext. intros t. destruct old as [|o old]; [easy|]. cbn [map hd]. cbn [hd] in E. rewrite E. apply HF.
  Qed.
End Flow.

Lemma solves_total {pot} (integ : pot -> list RR -> point -> option (list point)) F (P : pot -> Prop) : solves integ F ->
  forall p ts v, P p -> ts <> [] -> strictly_monotone ts -> exists out, integ p ts v = Some out.
Proof. intros H p ts v _ N M. rewrite (H p ts v N M). eauto. Qed.

(** The state after any history of integrate calls with one potential *)
Theorem C24_history {pot cache : Type} (integ : pot -> list RR -> point -> option (list point)) F p (v0 : list point) cs :
  flow (F p) -> solves integ F -> grids_ok (length v0) cs -> (forall c, In c cs -> c_pot c = p) ->
  let o := integrate_all integ (fresh v0 : orb pot cache) cs in
  vxvv o = v0 /\
  forall T rows, t_ o = Some T -> orbit_ o = Some rows ->
    length rows = length v0 /\
    forall i, (i < length v0)%nat ->
      strictly_monotone (times_of T i) /\ length (nth i rows []) = length (times_of T i) /\
      exists t0, In t0 (times_of T i) /\ forall k, (k < length (times_of T i))%nat -> nth k (nth i rows []) [] = F p t0 (nth k (times_of T i) 0) (nth i v0 []).
Proof.
  intros HF HS HG HP o.
  destruct (integrate_all_ok integ v0 (fun q => q = p) (Qflow F p) (Qflow_start integ F p HS) (Qflow_forward integ F p HF HS)
    (Qflow_backward integ F p HF HS) (solves_total integ F _ HS) (concat (map (fun c => all_times (c_times c)) cs)) cs (fresh v0 : orb pot cache))
    as [(Ev & _ & H) _]; [apply fresh_ok|now apply (separated_of (length v0))|easy| |].
  { apply Forall_forall. intros c Hc. destruct HG as [HG _]. rewrite Forall_forall in HG. specialize (HG c Hc). repeat split; [now apply HP|exact HG|].
    apply incl_concat. now apply (in_map (fun c => all_times (c_times c))). }
  fold o in Ev, H. split; [easy|]. intros T rows ET ER. rewrite ET, ER in H. destruct H as (_ & _ & HT & L & H). split; [easy|]. intros i Hi.
  destruct (H i Hi) as (t0 & I & E). destruct (good_times_i (length v0) T i HT Hi) as [_ M]. rewrite E. split; [easy|]. split; [now rewrite map_length|].
  exists t0. split; [easy|]. intros k Hk. now apply (nth_map_d (fun t => F p t0 t (nth i v0 []))).
Qed.

(** The next call after such a history: it succeeds when its arguments are valid, keeps all the requested times, and keeps what was stored when it starts
    from a stored time and runs away from all the others *)
Theorem C24_next_call {pot cache : Type} (integ : pot -> list RR -> point -> option (list point)) F (v0 : list point) cs c :
  solves integ F -> grids_ok (length v0) (cs ++ [c]) -> c_valid c = true ->
  let o := integrate_all integ (fresh v0 : orb pot cache) cs in
  let o' := fst (integrate integ o c) in
  snd (integrate integ o c) = Ok tt /\ vxvv o' = vxvv o /\
  (forall i t, In t (times_of (c_times c) i) -> exists T, t_ o' = Some T /\ In t (times_of T i)) /\
  (forall old ts, t_ o = Some (Shared old) -> c_times c = Shared ts -> In (hd 0 ts) old ->
     ((forall a b, In a old -> In b ts -> a <= b) \/ (forall a b, In a old -> In b ts -> b <= a)) ->
     exists new, t_ o' = Some (Shared new) /\ forall t, In t old -> In t new).
Proof.
  intros HS HG HV o o'.
  set (Q := fun (v : point) (ts : list RR) (row : list point) => True).
  set (U := concat (map (fun c => all_times (c_times c)) (cs ++ [c]))).
  assert (Sep : separated U) by now apply (separated_of (length v0)).
  assert (HF : List.Forall (fun c => True /\ good_times (length v0) (c_times c) /\ incl (all_times (c_times c)) U) (cs ++ [c])).
  { apply Forall_forall. intros d Hd. destruct HG as [HG _]. rewrite Forall_forall in HG. specialize (HG d Hd). repeat split; [exact HG|].
    apply incl_concat. now apply (in_map (fun c => all_times (c_times c))). }
  apply Forall_app in HF as [HF1 HF2]. inversion HF2 as [|? ? (_ & Gc & Uc) _]; subst.
  destruct (integrate_all_ok integ v0 (fun _ => True) Q ltac:(easy) ltac:(easy) ltac:(easy) (solves_total integ F _ HS) U cs (fresh v0 : orb pot cache))
    as [Ho HoU]; [apply fresh_ok|easy|easy|exact HF1|]. fold o in Ho, HoU.
  destruct (integrate_step integ v0 (fun _ => True) Q ltac:(easy) ltac:(easy) ltac:(easy) (solves_total integ F _ HS) U o c Ho Sep I Gc Uc HoU HV)
    as (R & S' & _ & Ext). fold o' in S', Ext.
  split; [easy|]. split; [now rewrite (proj1 Ho), (proj1 S')|]. split.
  - intros i t Hi. destruct Ext as [E|(old & ts & Eo & Ec & [[E1 E2]|[E1 E2]])]; [eauto| |].
    + rewrite Ec in Hi. cbn [times_of] in Hi. eexists; split; [exact E2|]. cbn [times_of].
      assert (Go : good_times (length v0) (Shared old)) by (destruct Ho as (_ & _ & H); rewrite Eo in H; destruct (orbit_ o); [apply H|easy]).
      destruct ts as [|x ts]; [easy|]. cbn [tl]. destruct Hi as [<- |Hi]; apply in_or_app; [left|now right]. cbn [hd] in E1. rewrite E1. apply in_last, Go.
    + rewrite Ec in Hi. cbn [times_of] in Hi. eexists; split; [exact E2|]. cbn [times_of].
      assert (Go : good_times (length v0) (Shared old)) by (destruct Ho as (_ & _ & H); rewrite Eo in H; destruct (orbit_ o); [apply H|easy]).
      destruct ts as [|x ts]; [easy|]. cbn [tl]. destruct Hi as [<- |Hi]; apply in_or_app; [right|left; now apply in_rev in Hi].
      cbn [hd] in E1. rewrite E1. destruct Go as [Go _]. destruct old; [easy|now left].
  - intros old ts Eo Ec Hin Away.
    destruct Ho as (Ev & Ecc & Ho). rewrite Eo in Ho. destruct (orbit_ o) as [rows|] eqn:Er; [|easy]. destruct Ho as ([p0 Ep] & [p1 Eg] & [No Mo] & Lr & _).
    rewrite Ec in Gc. destruct Gc as [Nt Mt].
    (* a continuation was chosen, or the stored grid is a single time *)
    destruct Ext as [E|(old' & ts' & Eo' & Ec' & Ext)].
    2: { rewrite Eo in Eo'. injection Eo' as <-. rewrite Ec in Ec'. injection Ec' as <-.
         destruct Ext as [[_ E]|[_ E]]; eexists; (split; [exact E|]); intros t Ht; apply in_or_app; auto. }
    rewrite Ec in E. exists ts. split; [easy|].
    (* restart: show that old = [hd ts] or that the direction test cannot have failed *)
    unfold o', integrate in E. rewrite HV, Ec in E. cbn [negb] in E. unfold should_continue in E. rewrite Ecc, Eo, Ep, Eg in E.
    destruct ts as [|t0 ts]; [easy|]. destruct old as [|s0 old]; [easy|]. cbn [hd] in Hin.
    set (lst := last (s0 :: old) 0) in *.
    assert (Close : forall a, isclose a a = true).
    { intros a. apply Rleb_spec. replace (a - a) with 0 by lra. rewrite Rabs_R0. pose proof (Rabs_pos a). lra. }
    assert (Hlst : In lst (s0 :: old)) by now apply in_last.
    assert (Ends : t0 = lst \/ t0 = s0).
    { pose proof (mono_dir _ Mo) as D. cbn [hd] in D. fold lst in D.
      destruct Hin as [<- |Hin]; [now right|]. left.
      assert (exists l1 l2, old = l1 ++ t0 :: l2) as (l1 & l2 & E') by now apply in_split.
      destruct l2 as [|y l2].
      { unfold lst. rewrite E'. change (s0 :: l1 ++ [t0]) with ((s0 :: l1) ++ [t0]). now rewrite last_last. }
      exfalso. assert (Iy : In y (s0 :: old)) by (rewrite E'; right; apply in_or_app; right; right; now left).
      destruct (Rltb s0 lst); destruct Away as [A|A].
      - pose proof (A y t0 Iy (or_introl eq_refl)). rewrite E' in D. change (s0 :: l1 ++ t0 :: y :: l2) with ((s0 :: l1) ++ t0 :: y :: l2) in D.
        apply SS_app_inv in D as (_ & D & _). apply SS_cons_inv in D as [_ D]. specialize (D y (or_introl eq_refl)). lra.
      - pose proof (A s0 t0 (or_introl eq_refl) (or_introl eq_refl)). apply SS_cons_inv in D as [_ D]. specialize (D t0 Hin). lra.
      - pose proof (A s0 t0 (or_introl eq_refl) (or_introl eq_refl)). apply SS_cons_inv in D as [_ D]. specialize (D t0 Hin). lra.
      - pose proof (A y t0 Iy (or_introl eq_refl)). rewrite E' in D. change (s0 :: l1 ++ t0 :: y :: l2) with ((s0 :: l1) ++ t0 :: y :: l2) in D.
        apply SS_app_inv in D as (_ & D & _). apply SS_cons_inv in D as [_ D]. specialize (D y (or_introl eq_refl)). lra. }
    destruct old as [|s1 old].
    { intros t [<- |[]]. destruct Hin as [<- |[]]. now left. }
    (* two stored times at least: the continuation is taken and the grid is not ts *)
    exfalso.
    pose proof (mono_dir _ Mo) as Do. cbn [hd] in Do. fold lst in Do. pose proof (mono_dir _ Mt) as Dt. cbn [hd] in Dt.
    assert (Ns : s0 <> lst).
    { intros C. destruct Mo as [Mo|Mo]; pose proof (SS_last _ _ _ 0 Mo ltac:(easy)) as L; fold lst in L; lra. }
    assert (Hl2 : In (last (t0 :: ts) 0) (t0 :: ts)) by now apply in_last.
    assert (Long : forall new, Some (Shared new) = Some (Shared (t0 :: ts)) -> (length new > length (t0 :: ts))%nat -> False).
    { intros new [= ->]. lia. }
    destruct Ends as [Et|Et].
    + subst t0. rewrite Close in E.
      destruct (eqb (Rltb s0 lst) (if (1 <? length (lst :: ts))%nat then Rltb lst (last (lst :: ts) 0) else Rltb s0 lst)) eqn:B.
      * cbv beta iota zeta in E. rewrite Er in E.
        destruct (run_ok integ (fun _ => True) (solves_total integ F _ HS) (c_pot c) (Shared (lst :: ts)) (map (fun row : list point => last row []) rows) I
          ltac:(split; easy)) as (out & Eout & _). rewrite Eout in E. cbn [fst t_ tl] in E. apply (Long _ E). rewrite app_length. cbn. lia.
      * destruct ts as [|t1 ts]; [cbn [length Nat.ltb Nat.leb] in B; rewrite eqb_reflx in B; discriminate|]. cbn [length Nat.ltb Nat.leb] in B.
        destruct Away as [A|A].
        -- pose proof (A s0 lst (or_introl eq_refl) (or_introl eq_refl)). assert (Rltb s0 lst = true) as X by (apply Rltb_spec; lra). rewrite X in B.
           pose proof (A lst _ Hlst Hl2). destruct (Rltb lst (last (lst :: t1 :: ts) 0)) eqn:Y; [discriminate|].
           pose proof (SS_last _ _ _ 0 Dt ltac:(easy)). lra.
        -- pose proof (A s0 lst (or_introl eq_refl) (or_introl eq_refl)). assert (Rltb s0 lst = false) as X.
           { destruct (Rltb s0 lst) eqn:X; [|easy]. apply Rltb_spec in X. lra. }
           rewrite X in B. destruct (Rltb lst (last (lst :: t1 :: ts) 0)) eqn:Y; [|discriminate].
           apply Rltb_spec in Y. pose proof (A lst _ Hlst Hl2). lra.
    + subst t0. assert (isclose s0 lst = false) as NC.
      { destruct (isclose s0 lst) eqn:C; [|easy]. exfalso. apply Ns. apply Sep; [| |easy]; apply (HoU _ Eo); [now left|easy]. }
      rewrite NC, Close in E.
      destruct (negb (eqb (Rltb s0 lst) (if (1 <? length (s0 :: ts))%nat then Rltb s0 (last (s0 :: ts) 0) else negb (Rltb s0 lst)))) eqn:B.
      * cbv beta iota zeta in E. rewrite Er in E.
        destruct (run_ok integ (fun _ => True) (solves_total integ F _ HS) (c_pot c) (Shared (s0 :: ts)) (map (fun row : list point => hd [] row) rows) I
          ltac:(split; easy)) as (out & Eout & _). rewrite Eout in E. cbn [fst t_ tl] in E. apply (Long _ E). rewrite app_length, rev_length. cbn. lia.
      * destruct ts as [|t1 ts]; [cbn [length Nat.ltb Nat.leb] in B; destruct (Rltb s0 lst); discriminate|]. cbn [length Nat.ltb Nat.leb] in B.
        destruct Away as [A|A].
        -- pose proof (A lst s0 Hlst (or_introl eq_refl)). assert (Rltb s0 lst = false) as X.
           { destruct (Rltb s0 lst) eqn:X; [|easy]. apply Rltb_spec in X. lra. }
           rewrite X in B. destruct (Rltb s0 (last (s0 :: t1 :: ts) 0)) eqn:Y; [discriminate|].
           pose proof (SS_last _ _ _ 0 Dt ltac:(easy)). pose proof (A s0 _ (or_introl eq_refl) Hl2). lra.
        -- pose proof (A lst s0 Hlst (or_introl eq_refl)). assert (Rltb s0 lst = true) as X by (apply Rltb_spec; lra).
           rewrite X in B. destruct (Rltb s0 (last (s0 :: t1 :: ts) 0)) eqn:Y; [|discriminate].
           apply Rltb_spec in Y. pose proof (A s0 _ (or_introl eq_refl) Hl2). lra.
Qed.

(** A grid that does not start at an end of what is stored starts afresh from the initial condition *)
Theorem C24_restart {pot cache : Type} (integ : pot -> list RR -> point -> option (list point)) F (v0 : list point) cs c ts old :
  solves integ F -> grids_ok (length v0) (cs ++ [c]) -> c_valid c = true -> c_times c = Shared ts ->
  let o := integrate_all integ (fresh v0 : orb pot cache) cs in
  t_ o = Some (Shared old) -> hd 0 ts <> hd 0 old -> hd 0 ts <> last old 0 ->
  let o' := fst (integrate integ o c) in
  t_ o' = Some (Shared ts) /\ orbit_ o' = Some (map (fun v => map (fun t => F (c_pot c) (hd 0 ts) t v) ts) v0).
Proof.
  intros HS HG HV Ec o Eo N1 N2 o'.
  set (Q := fun (v : point) (ts : list RR) (row : list point) => True).
  set (U := concat (map (fun c => all_times (c_times c)) (cs ++ [c]))).
  assert (Sep : separated U) by now apply (separated_of (length v0)).
  assert (HF : List.Forall (fun c => True /\ good_times (length v0) (c_times c) /\ incl (all_times (c_times c)) U) (cs ++ [c])).
  { apply Forall_forall. intros d Hd. destruct HG as [HG _]. rewrite Forall_forall in HG. specialize (HG d Hd). repeat split; [exact HG|].
    apply incl_concat. now apply (in_map (fun c => all_times (c_times c))). }
  apply Forall_app in HF as [HF1 HF2]. inversion HF2 as [|? ? (_ & Gc & Uc) _]; subst.
  destruct (integrate_all_ok integ v0 (fun _ => True) Q ltac:(easy) ltac:(easy) ltac:(easy) (solves_total integ F _ HS) U cs (fresh v0 : orb pot cache))
    as [Ho HoU]; [apply fresh_ok|easy|easy|exact HF1|]. fold o in Ho, HoU.
  destruct Ho as (Ev & Ecc & Ho). rewrite Eo in Ho. destruct (orbit_ o) as [rows|] eqn:Er; [|easy]. destruct Ho as ([p0 Ep] & [p1 Eg] & [No Mo] & Lr & _).
  rewrite Ec in Gc, Uc. destruct Gc as [Nt Mt]. cbn [all_times] in Uc.
  unfold o', integrate. rewrite HV, Ec. cbn [negb]. unfold should_continue. rewrite Ecc, Eo, Ep, Eg.
  destruct ts as [|t0 ts]; [easy|]. destruct old as [|s0 old]; [easy|]. cbn [hd] in N1, N2.
  assert (isclose t0 (last (s0 :: old) 0) = false) as ->.
  { destruct (isclose _ _) eqn:C; [|easy]. exfalso. apply N2. apply Sep; [apply Uc; now left|apply (HoU _ Eo); cbn [all_times]; now apply in_last|easy]. }
  assert (isclose t0 s0 = false) as ->.
  { destruct (isclose _ _) eqn:C; [|easy]. exfalso. apply N1. apply Sep; [apply Uc; now left|apply (HoU _ Eo); now left|easy]. }
  rewrite Ev.
  rewrite (all_some_total _ (fun i => map (fun t => F (c_pot c) t0 t (nth i v0 [])) (t0 :: ts))) by (intros i _; cbn [times_of]; now apply (HS (c_pot c) (t0 :: ts))).
  cbn [fst t_ orbit_]. split; [easy|]. f_equal. apply (nth_ext _ _ [] []); [now rewrite !map_length, seq_length|].
  intros n Hn. rewrite map_length, seq_length in Hn. rewrite nth_map_seq by easy. symmetry. now rewrite (nth_map_d _ v0 n []).
Qed.

(** ** Histories in which the potential changes: each stored point is the flow of its neighbour in one of the potentials given *)
Section Chain.
  Context {A : Type} (R : A -> A -> Prop).
  Lemma Sorted_glue l1 l2 d : Sorted R l1 -> Sorted R (last l1 d :: l2) -> l1 <> [] -> Sorted R (l1 ++ l2).
  Proof.
    induction l1 as [|x [|y l1] IH]; intros H1 H2 N; [easy|exact H2|]. rewrite last_cons2 in H2.
    inversion H1 as [|? ? H1' HR]; subst. change ((x :: y :: l1) ++ l2) with (x :: ((y :: l1) ++ l2)). constructor; [now apply IH|].
    inversion HR; subst. cbn [app]. now constructor.
  Qed.
  Lemma Sorted_rev l : (forall a b, R a b -> R b a) -> Sorted R l -> Sorted R (rev l).
  Proof.
    intros HS. induction l as [|x l IH]; intros H; [constructor|]. inversion H as [|? ? H' HR]; subst. cbn [rev]. destruct l as [|y l]; [repeat constructor|].
    apply (Sorted_glue _ _ x); [now apply IH| |].
    - cbn [rev]. rewrite last_last. inversion HR; subst. repeat constructor. now apply HS.
    - intros C. apply (f_equal (@length A)) in C. rewrite rev_length in C. discriminate.
  Qed.
End Chain.
Lemma combine_app {A B} (l1 l2 : list A) (m1 m2 : list B) : length l1 = length m1 -> combine (l1 ++ l2) (m1 ++ m2) = combine l1 m1 ++ combine l2 m2.
Proof. revert m1. induction l1 as [|x l1 IH]; intros [|y m1] E; try discriminate; [easy|]. cbn. f_equal. apply IH. now injection E. Qed.
Lemma combine_rev {A B} (l : list A) (m : list B) : length l = length m -> combine (rev l) (rev m) = rev (combine l m).
Proof.
  revert m. induction l as [|x l IH]; intros [|y m] E; try discriminate; [easy|]. cbn [rev combine]. injection E as E.
  rewrite combine_app by now rewrite !rev_length. now rewrite IH.
Qed.
Lemma combine_last {A B} (l : list A) (m : list B) d e : length l = length m -> l <> [] -> last (combine l m) (d, e) = (last l d, last m e).
Proof.
  revert m. induction l as [|x l IH]; intros [|y m] E N; try discriminate; [easy|]. injection E as E. destruct l as [|x' l], m as [|y' m]; try discriminate; [easy|].
  change (combine (x :: x' :: l) (y :: y' :: m)) with ((x, y) :: (x', y') :: combine l m). rewrite !last_cons2. rewrite <- (IH (y' :: m)); easy.
Qed.
Lemma combine_map {A B} (f : A -> B) l : combine l (map f l) = map (fun a => (a, f a)) l.
Proof. induction l as [|x l IH]; cbn; congruence. Qed.

Section Piecewise.
  Context {pot : Type} (integ : pot -> list RR -> point -> option (list point)) (F : pot -> RR -> RR -> point -> point) (P : pot -> Prop).
  Hypothesis HF : forall p, P p -> flow (F p).
  Hypothesis HS : solves integ F.
  Definition moved (a b : RR * point) : Prop := exists p, P p /\ snd b = F p (fst a) (fst b) (snd a).
  Definition Qpiece (v : point) (ts : list RR) (row : list point) : Prop :=
    length row = length ts /\ (exists t0, In (t0, v) (combine ts row)) /\ Sorted moved (combine ts row).
  Lemma moved_sym a b : moved a b -> moved b a.
  Proof. intros (p & Hp & E). exists p. split; [easy|]. rewrite E. destruct (HF p Hp) as [F0 FC]. now rewrite FC, F0. Qed.
  Lemma run_sorted p ts v : P p -> Sorted moved (combine ts (map (fun t => F p (hd 0 ts) t v) ts)).
  Proof.
    intros Hp. rewrite combine_map. set (t0 := hd 0 ts). clearbody t0. induction ts as [|x [|y l] IH]; [constructor|repeat constructor|]. cbn [map] in *. constructor; [exact IH|].
    constructor. exists p. split; [easy|]. cbn [fst snd]. now rewrite (proj2 (HF p Hp)).
  Qed.
  Lemma Qpiece_start q ts v out : P q -> ts <> [] -> strictly_monotone ts -> integ q ts v = Some out -> Qpiece v ts out.
  Proof.
    intros Hp N M. rewrite (HS q ts v N M). intros [= <-]. split; [now rewrite map_length|]. split; [|now apply run_sorted].
    exists (hd 0 ts). destruct ts; [easy|]. cbn [hd map combine]. left. f_equal. apply (HF q Hp).
  Qed.
  Lemma Qpiece_forward q old row ts v out : P q -> old <> [] -> ts <> [] -> strictly_monotone old -> strictly_monotone ts -> Qpiece v old row ->
    hd 0 ts = last old 0 -> integ q ts (last row []) = Some out -> Qpiece v (old ++ tl ts) (row ++ tl out).
  Proof.
    intros Hp No N Mo M (L & (t0 & I) & S) E. rewrite (HS q ts _ N M). intros [= <-].
    pose proof (run_sorted q ts (last row []) Hp) as S2. destruct ts as [|x ts]; [easy|]. cbn [hd map tl combine] in *.
    rewrite (proj1 (HF q Hp)) in S2.
    repeat split.
    - rewrite !app_length, map_length. lia.
    - exists t0. rewrite combine_app by easy. apply in_or_app. now left.
    - rewrite combine_app by easy. apply (Sorted_glue _ _ _ (0, [])); [easy| |].
      + rewrite combine_last by easy. now rewrite <- E.
      + destruct old, row; easy.
  Qed.
  Lemma Qpiece_backward q old row ts v out : P q -> old <> [] -> ts <> [] -> strictly_monotone old -> strictly_monotone ts -> Qpiece v old row ->
    hd 0 ts = hd 0 old -> integ q ts (hd [] row) = Some out -> Qpiece v (rev (tl ts) ++ old) (rev (tl out) ++ row).
  Proof.
    intros Hp No N Mo M (L & (t0 & I) & S) E. rewrite (HS q ts _ N M). intros [= <-].
    pose proof (run_sorted q ts (hd [] row) Hp) as S2. destruct ts as [|x ts]; [easy|]. cbn [hd map tl combine] in *.
    rewrite (proj1 (HF q Hp)) in S2. destruct old as [|o old]; [easy|]. destruct row as [|r row]; [easy|]. cbn [hd] in *. subst x.
    assert (EL : length (rev ts) = length (rev (map (fun t => F q o t r) ts))) by now rewrite !rev_length, map_length.
    repeat split.
    - rewrite !app_length, !rev_length, map_length. lia.
    - exists t0. rewrite combine_app by easy. apply in_or_app. now right.
    - rewrite combine_app, combine_rev by (auto; now rewrite map_length). cbn [combine].
      apply (Sorted_rev _ _ moved_sym) in S2. cbn [rev] in S2.
      replace (rev (combine ts (map (fun t => F q o t r) ts)) ++ (o, r) :: combine old row) with
        ((rev (combine ts (map (fun t => F q o t r) ts)) ++ [(o, r)]) ++ combine old row) by now rewrite <- app_assoc.
      apply (Sorted_glue _ _ _ (0, [])); [easy|now rewrite last_last|]. now destruct (rev _).
  Qed.
End Piecewise.

Theorem C24_history_changing_potential {pot cache : Type} (integ : pot -> list RR -> point -> option (list point)) F (P : pot -> Prop) (v0 : list point) cs :
  (forall p, P p -> flow (F p)) -> solves integ F -> grids_ok (length v0) cs -> (forall c, In c cs -> P (c_pot c)) ->
  let o := integrate_all integ (fresh v0 : orb pot cache) cs in
  vxvv o = v0 /\
  forall T rows, t_ o = Some T -> orbit_ o = Some rows ->
    length rows = length v0 /\
    forall i, (i < length v0)%nat ->
      strictly_monotone (times_of T i) /\ length (nth i rows []) = length (times_of T i) /\
      (exists t0, In (t0, nth i v0 []) (combine (times_of T i) (nth i rows []))) /\
      Sorted (fun a b => exists p, P p /\ snd b = F p (fst a) (fst b) (snd a)) (combine (times_of T i) (nth i rows [])).
Proof.
  intros HF HS HG HP o.
  destruct (integrate_all_ok integ v0 P (Qpiece F P) (Qpiece_start integ F P HF HS) (Qpiece_forward integ F P HF HS)
    (Qpiece_backward integ F P HF HS) (solves_total integ F _ HS) (concat (map (fun c => all_times (c_times c)) cs)) cs (fresh v0 : orb pot cache))
    as [(Ev & _ & H) _]; [apply fresh_ok|now apply (separated_of (length v0))|easy| |].
  { apply Forall_forall. intros c Hc. destruct HG as [HG _]. rewrite Forall_forall in HG. specialize (HG c Hc). repeat split; [now apply HP|exact HG|].
    apply incl_concat. now apply (in_map (fun c => all_times (c_times c))). }
  fold o in Ev, H. split; [easy|]. intros T rows ET ER. rewrite ET, ER in H. destruct H as (_ & _ & HT & L & H). split; [easy|]. intros i Hi.
  destruct (H i Hi) as (A & B & C). destruct (good_times_i (length v0) T i HT Hi) as [_ M]. now repeat split.
Qed.

(** ** Free motion on a line, integrated exactly: a case that meets the hypotheses *)
Definition free (p : bool) (s t : RR) (v : point) : point := match v with [x; vx] => [x + vx * (t - s); vx] | _ => v end.
Definition free_integ (p : bool) (ts : list RR) (v : point) : option (list point) := Some (map (fun t => free p (hd 0 ts) t v) ts).
Lemma free_flow p : flow (free p).
Proof.
  split; [intros s v|intros s t u v]; destruct v as [|x [|vx [|? ?]]]; cbn [free]; try easy; f_equal; ring.
Qed.
Lemma free_solves : solves free_integ free.
Proof. now intros p ts v _ _. Qed.
(** forward from 0 to 2, then backward from 0 to -1, then forward again, with a request refused in between *)
Definition history : list (call (pot := bool)) :=
  [mkCall (Shared [0; 1; 2]) true true; mkCall (Shared [0; -1]) true true; mkCall (Shared [5; 6]) true false; mkCall (Shared [2; 3]) true true].
Example C24_nonvacuous : grids_ok 1 history /\ (forall c, In c history -> c_pot c = true) /\
  t_ (integrate_all free_integ (fresh [[7; 1]] : orb bool unit) history) = Some (Shared [-1; 0; 1; 2; 3]).
Proof.
  assert (HL : forall a b, In a [0; 1; 2; 0; -1; 5; 6; 2; 3] -> In b [0; 1; 2; 0; -1; 5; 6; 2; 3] -> Rabs (a - b) <= 1 / 10 ^ 8 + 1 / 10 ^ 5 * Rabs b -> a = b).
  { intros a b Ha Hb H.
    assert (Rabs b <= 6) by (unfold Rabs; cbn in Hb; repeat destruct Hb as [<- |Hb]; try easy; destruct Rcase_abs; lra).
    assert (Rabs (a - b) < 1) by lra. apply Rabs_def2 in H1. cbn in Ha, Hb. repeat destruct Ha as [<- |Ha]; try easy; repeat destruct Hb as [<- |Hb]; try easy; lra. }
  split; [split|split].
  - apply Forall_forall. intros c Hc. cbn in Hc. destruct Hc as [<- |[<- |[<- |[<- |[]]]]]; cbn; (split; [easy|]);
      first [solve [left; repeat constructor; lra]|solve [right; repeat constructor; lra]].
  - exact HL.
  - unfold history. cbn. intros c [<- |[<- |[<- |[<- |[]]]]]; easy.
  - assert (NC : forall a b, In a [0; 1; 2; 0; -1; 5; 6; 2; 3] -> In b [0; 1; 2; 0; -1; 5; 6; 2; 3] -> a <> b -> isclose a b = false).
    { intros a b Ha Hb N. destruct (isclose a b) eqn:E; [|easy]. exfalso. apply N, HL; auto. now apply Rleb_spec in E. }
    assert (CC : forall a, isclose a a = true).
    { intros a. apply Rleb_spec. replace (a - a) with 0 by lra. rewrite Rabs_R0. pose proof (Rabs_pos a). lra. }
    assert (Lt : forall a b, a < b -> Rltb a b = true) by (intros; now apply Rltb_spec).
    assert (Ge : forall a b, b <= a -> Rltb a b = false).
    { intros a b H. destruct (Rltb a b) eqn:E; [|easy]. apply Rltb_spec in E. lra. }
    unfold history, integrate_all. cbn [fold_left].
    unfold integrate at 4. cbn -[isclose Rltb integrate].
    unfold integrate at 3. cbn -[isclose Rltb integrate]. rewrite (NC 0 2) by (cbn; try lra; auto 10). rewrite CC. rewrite (Lt 0 2), (Ge 0 (-1)) by lra. cbn -[isclose Rltb integrate].
    unfold integrate at 2. cbn -[isclose Rltb integrate].
    unfold integrate. cbn -[isclose Rltb]. rewrite CC. rewrite (Lt (-1) 2), (Lt 2 3) by lra. cbn. reflexivity.
Qed.

(** ** Findings *)
(** The starts of grids are compared with a tolerance: integrating twice over [0, 10^-9] "continues" from the end of the first run, and the stored
    times repeat *)
Theorem C24_close_times_refuted :
  exists (v0 : list point) (ts : list RR), ts <> [] /\ strictly_monotone ts /\
  let o := integrate_all free_integ (fresh v0 : orb bool unit) [mkCall (Shared ts) true true; mkCall (Shared ts) true true] in
  exists T, t_ o = Some T /\ ~ strictly_monotone (times_of T 0).
Proof.
  exists [[7; 1]], [0; 1 / 10 ^ 9]. split; [easy|]. split; [left; repeat constructor; lra|].
  assert (C : isclose 0 (1 / 10 ^ 9) = true).
  { apply Rleb_spec. rewrite (Rabs_pos_eq (1 / 10 ^ 9)) by lra. rewrite Rabs_left by lra. lra. }
  assert (D : Rltb 0 (1 / 10 ^ 9) = true) by (apply Rltb_spec; lra).
  set (e := 1 / 10 ^ 9) in *.
  assert (He : 0 < e) by (unfold e; lra). clearbody e.
  unfold integrate_all. cbn [fold_left]. unfold integrate at 2. cbn -[isclose Rltb integrate]. unfold integrate. cbn -[isclose Rltb]. rewrite C, D. cbn.
  eexists. split; [reflexivity|]. cbn. intros [H|H].
  - apply SS_cons_inv in H as [H _]. apply SS_cons_inv in H as [_ H]. specialize (H e (or_introl eq_refl)). lra.
  - apply SS_cons_inv in H as [H _]. apply SS_cons_inv in H as [_ H]. specialize (H e (or_introl eq_refl)). lra.
Qed.
(** When the integrator raises during a continuation the initial condition is lost *)
Definition failing_integ (p : bool) (ts : list RR) (v : point) : option (list point) := if p then free_integ p ts v else None.
Theorem C24_failed_continuation_refuted :
  exists (v0 : list point) cs, grids_ok (length v0) cs /\ vxvv (integrate_all failing_integ (fresh v0 : orb bool unit) cs) <> v0.
Proof.
  exists [[7; 1]], [mkCall (Shared [0; 1]) true true; mkCall (Shared [1; 2]) false true]. split; [split|].
  - apply Forall_forall. intros c Hc. cbn in Hc. destruct Hc as [<- |[<- |[]]]; cbn; (split; [easy|]); left; repeat constructor; lra.
  - cbn. intros a b Ha Hb H.
    assert (Rabs b <= 6) by (unfold Rabs; repeat destruct Hb as [<- |Hb]; try easy; destruct Rcase_abs; lra).
    assert (Rabs (a - b) < 1) by lra. apply Rabs_def2 in H1. repeat destruct Ha as [<- |Ha]; try easy; repeat destruct Hb as [<- |Hb]; try easy; lra.
  - assert (CC : forall a, isclose a a = true).
    { intros a. apply Rleb_spec. replace (a - a) with 0 by lra. rewrite Rabs_R0. pose proof (Rabs_pos a). lra. }
    assert (Lt : forall a b, a < b -> Rltb a b = true) by (intros; now apply Rltb_spec).
    unfold integrate_all. cbn [fold_left]. unfold integrate at 2. cbn -[isclose Rltb integrate]. unfold integrate. cbn -[isclose Rltb]. rewrite CC, !Lt by lra. cbn.
    intros H. injection H as H. lra.
Qed.
Print Assumptions C24_history.
Print Assumptions C24_next_call.
Print Assumptions C24_restart.
Print Assumptions C24_history_changing_potential.
Print Assumptions C24_close_times_refuted.
Print Assumptions C24_failed_continuation_refuted.
