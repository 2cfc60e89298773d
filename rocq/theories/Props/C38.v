(** C38: evaluating an integrated Orbit at stored times. *)
From Coq Require Import Reals List Arith Bool Lra Lia Sorted Permutation.
From Verif.Model Require Import OrbitState.
From Verif.Proofs Require Import OrbitProofs EvalProofs.
From Verif.Props Require Import C24 C37.
Import ListNotations.
Open Scope R_scope.
Notation RR := RbaseSymbolsImpl.R (only parsing).

(** ** Specification *)
(** The same point: equal coordinates, where the azimuth (last of four or six coordinates) is an angle *)
Definition same_phase_space_point (p q : point) : Prop :=
  length q = length p /\
  if ((length p =? 4) || (length p =? 6))%nat
  then (forall j, (j < length p - 1)%nat -> nth j q 0 = nth j p 0) /\ cos (last q 0) = cos (last p 0) /\ sin (last q 0) = sin (last p 0)
  else q = p.
(** [out] lists, for each member and each requested time, the stored point of that time *)
Definition gives_stored (ts : list RR) (rows : list (list point)) (req : list RR) (out : list (list point)) : Prop :=
  length out = length rows /\ forall i, (i < length rows)%nat -> length (nth i out []) = length req /\
    forall j k, (j < length req)%nat -> (k < length ts)%nat -> nth j req 0 = nth k ts 0 ->
      same_phase_space_point (nth k (nth i rows []) []) (nth j (nth i out []) []).
(** Histories: integrations, evaluations, in-place flips *)
Inductive op (pot : Type) := Integrate (c : call (pot := pot)) | Evaluate (r : request) | Flip.
Arguments Integrate {pot}. Arguments Evaluate {pot}. Arguments Flip {pot}.
Definition step {pot} integ spline (o : orb pot cache) (a : op pot) : orb pot cache :=
  match a with Integrate c => fst (integrate integ o c) | Evaluate r => fst (call_internal spline o r) | Flip => flip_inplace o end.
Definition run {pot} integ spline (o : orb pot cache) (l : list (op pot)) : orb pot cache := fold_left (step integ spline) l o.
Definition is_evaluation {pot} (a : op pot) : bool := match a with Evaluate _ => true | _ => false end.
Definition integrations {pot} (l : list (op pot)) : list (call (pot := pot)) := flat_map (fun a => match a with Integrate c => [c] | _ => [] end) l.
Definition shared_times {pot} (c : call (pot := pot)) : Prop := exists ts, c_times c = Shared ts.
(** The integrator never raises and returns one point, of the right dimension, per time *)
Definition integrator_ok {pot} (integ : pot -> list RR -> point -> option (list point)) : Prop :=
  forall p ts v, exists out, integ p ts v = Some out /\ length out = length ts /\ forall q, In q out -> length q = length v.

(** ** Proofs *)
Section Hist.
  Context {pot : Type} (integ : pot -> list RR -> point -> option (list point)) (spline : list RR -> list (list RR) -> option (list (RR -> RR))).
  Hypothesis HI : integrator_ok integ.
  Hypothesis exact : spline_exact spline.
  Hypothesis total : forall a b, spline a b <> None.
  Variable pd : nat.
  Definition Qd (v : point) (ts : list RR) (row : list point) : Prop := length v = pd -> length row = length ts /\ forall q, In q row -> length q = pd.
  Lemma tl_length {A} (l : list A) : length (tl l) = (length l - 1)%nat. Proof. destruct l; cbn; lia. Qed.
  Lemma in_tl {A} (x : A) l : In x (tl l) -> In x l. Proof. destruct l; cbn; auto. Qed.
  Lemma Qd_start p ts v out : True -> ts <> [] -> strictly_monotone ts -> integ p ts v = Some out -> Qd v ts out.
  Proof. intros _ _ _ E L. destruct (HI p ts v) as (o & E' & L1 & L2). rewrite E in E'. injection E' as <-. split; [easy|]. intros q Hq. rewrite (L2 q Hq). easy. Qed.
  Lemma Qd_forward p old row ts v out : True -> old <> [] -> ts <> [] -> strictly_monotone old -> strictly_monotone ts -> Qd v old row ->
    hd 0 ts = last old 0 -> integ p ts (last row []) = Some out -> Qd v (old ++ tl ts) (row ++ tl out).
  Proof.
    intros _ No _ _ _ HQ _ E L. destruct (HQ L) as [A B]. destruct (HI p ts (last row [])) as (o & E' & L1 & L2). rewrite E in E'. injection E' as <-.
    split; [rewrite !app_length, !tl_length; lia|]. intros q Hq. apply in_app_or in Hq as [Hq|Hq]; [now apply B|]. apply in_tl in Hq. rewrite (L2 q Hq).
    apply B, in_last. destruct old, row; easy.
  Qed.
  Lemma Qd_backward p old row ts v out : True -> old <> [] -> ts <> [] -> strictly_monotone old -> strictly_monotone ts -> Qd v old row ->
    hd 0 ts = hd 0 old -> integ p ts (hd [] row) = Some out -> Qd v (rev (tl ts) ++ old) (rev (tl out) ++ row).
  Proof.
    intros _ No _ _ _ HQ _ E L. destruct (HQ L) as [A B]. destruct (HI p ts (hd [] row)) as (o & E' & L1 & L2). rewrite E in E'. injection E' as <-.
    split; [rewrite !app_length, !rev_length, !tl_length; lia|]. intros q Hq. apply in_app_or in Hq as [Hq|Hq]; [|now apply B]. apply in_rev, in_tl in Hq. rewrite (L2 q Hq).
    apply B. destruct old, row; try easy. now left.
  Qed.
  Lemma Qd_total p ts v : True -> ts <> [] -> strictly_monotone ts -> exists out, integ p ts v = Some out.
  Proof. intros _ _ _. destruct (HI p ts v) as (o & E & _). eauto. Qed.

  Definition inv (o : orb pot cache) : Prop :=
    (forall v, In v (vxvv o) -> length v = pd) /\ state_ok (vxvv o) Qd o /\
    match t_ o, orbit_ o with
    | Some (Shared ts), Some rows => cache_ok o ts rows
    | Some (PerOrbit _), _ => False
    | _, _ => orbInterp o = None
    end.
  Lemma inv_stored (o : orb pot cache) ts rows : inv o -> t_ o = Some (Shared ts) -> orbit_ o = Some rows -> stored o ts rows /\ cache_ok o ts rows.
  Proof.
    intros (V & (_ & _ & S) & C) Et Eo. rewrite Et, Eo in S, C. destruct S as (_ & _ & [N M] & L & HQ). split; [|easy].
    repeat split; auto.
    - destruct (In_nth _ _ [] H) as (i & Hi & <-). rewrite L in Hi. apply (HQ i Hi). apply V. now apply nth_In.
    - intros p Hp. destruct (In_nth _ _ [] H) as (i & Hi & E). rewrite L in Hi. unfold phasedim.
      rewrite (V (nth 0 (vxvv o) [])) by (apply nth_In; lia). apply (HQ i Hi); [apply V; now apply nth_In|now rewrite E].
  Qed.
  Lemma same_state_ok (o o' : orb pot cache) : same_but_cache o o' -> state_ok (vxvv o) Qd o -> state_ok (vxvv o') Qd o'.
  Proof. intros (A & B & C & D & E & F) (H1 & H2 & H3). unfold state_ok. rewrite A, B, C, D, E, F. now repeat split. Qed.
  Lemma inv_eval (o : orb pot cache) r : inv o -> inv (fst (call_internal spline o r)) /\ same_but_cache o (fst (call_internal spline o r)).
  Proof.
    intros H. pose proof H as (V & S & C). destruct (t_ o) as [[ts|tss]|] eqn:Et; [|easy|].
    - pose proof S as (_ & _ & S'). rewrite Et in S'. destruct (orbit_ o) as [rows|] eqn:Eo; [|easy]. destruct (inv_stored o ts rows H Et Eo) as [St Ct].
      destruct (call_keeps spline exact o r ts rows St Ct (or_intror total)) as [A B]. split; [|easy]. pose proof A as (A1 & A2 & A3 & _). split; [|split].
      + now rewrite A1.
      + now apply (same_state_ok o).
      + rewrite A2, A3, Et, Eo. exact B.
    - assert (fst (call_internal spline o r) = o) as ->; [|split; [easy|apply same_refl]].
      unfold call_internal. rewrite Et. destruct r; [easy| |easy]. now destruct (Reqb t 0).
  Qed.
  Lemma integrate_cache (o : orb pot cache) c : snd (integrate integ o c) = Ok tt -> orbInterp (fst (integrate integ o c) : orb pot cache) = None.
  Proof.
    unfold integrate. repeat (match goal with |- snd (match ?x with _ => _ end) = _ -> _ => destruct x end; cbn [snd]; try discriminate; try reflexivity).
  Qed.
  Lemma inv_integrate U (o : orb pot cache) c : inv o -> separated U -> good_times (length (vxvv o)) (c_times c) -> shared_times c -> incl (all_times (c_times c)) U ->
    (forall T, t_ o = Some T -> incl (all_times T) U) ->
    inv (fst (integrate integ o c)) /\ (forall T, t_ (fst (integrate integ o c)) = Some T -> incl (all_times T) U) /\ vxvv (fst (integrate integ o c)) = vxvv o.
  Proof.
    intros H Sep G [ts Ec] I J. destruct (c_valid c) eqn:V; [|now rewrite integrate_invalid].
    pose proof H as (Hv & S & C).
    destruct (integrate_step integ (vxvv o) (fun _ => True) Qd Qd_start Qd_forward Qd_backward Qd_total U o c S Sep Logic.I G I J V) as (R & S' & J' & X).
    pose proof (integrate_cache o c R) as Ei. pose proof S' as (Ev & Ecc & S2). split; [|split; [exact J'|exact Ev]]. split; [|split].
    - now rewrite Ev.
    - now rewrite Ev.
    - destruct X as [X|(old & ts' & _ & _ & [[_ X]|[_ X]])]; rewrite X in S2 |- *; [rewrite Ec in S2 |- *| |];
        (destruct (orbit_ (fst (integrate integ o c))) as [rows|]; [intros c' E; congruence|exact Ei]).
  Qed.
  Lemma inv_flip (o : orb pot cache) : inv o -> inv (flip_inplace o).
  Proof.
    intros (V & (_ & Ecc & S) & C).
    assert (FL : forall i, (i < length (vxvv o))%nat -> length (nth i (vxvv o) []) = pd) by (intros; apply V; now apply nth_In).
    split; [|split].
    - cbn. intros v Hv. apply in_map_iff in Hv as (w & <- & Hw). rewrite flip_columns_dim. now apply V.
    - unfold state_ok. cbn [flip_inplace vxvv t_ orbit_ pot_ orig_pot cannot_continue orbInterp]. split; [easy|]. split; [easy|].
      destruct (t_ o) as [T|], (orbit_ o) as [rows|]; cbn [option_map]; try easy. destruct S as (A & B & G & L & HQ). rewrite !map_length. split; [exact A|]. split; [exact B|]. split; [exact G|]. split; [exact L|].
      intros i Hi. rewrite (nth_map_d _ rows i []) by lia. intros _. destruct (HQ i Hi (FL i Hi)) as [Q1 Q2]. split; [now rewrite map_length|].
      intros q Hq. apply in_map_iff in Hq as (w & <- & Hw). rewrite flip_columns_dim. now apply Q2.
    - cbn [flip_inplace vxvv t_ orbit_ pot_ orig_pot cannot_continue orbInterp]. destruct (t_ o) as [[ts|tss]|]; try easy; destruct (orbit_ o) as [rows|] eqn:Eo; cbn [option_map]; try easy.
      intros c E. cbn [flip_inplace orbInterp] in E. rewrite Eo in E. discriminate.
  Qed.
  Lemma inv_fresh v0 : (forall v, In v v0 -> length v = pd) -> inv (fresh v0).
  Proof. intros H. repeat split; auto. Qed.
End Hist.

(** Two states that differ only in the interpolation behave alike *)
Lemma integrate_same {pot} (integ : pot -> list RR -> point -> option (list point)) (a b : orb pot cache) c :
  same_but_cache a b -> same_but_cache (fst (integrate integ a c)) (fst (integrate integ b c)).
Proof.
  destruct a as [a1 a2 a3 a4 a5 a6 a7], b as [b1 b2 b3 b4 b5 b6 b7]. unfold same_but_cache. cbn. intros (-> & -> & -> & -> & -> & ->).
  unfold integrate, should_continue. cbn [vxvv t_ orbit_ pot_ orig_pot cannot_continue orbInterp].
  repeat match goal with |- context [match ?x with _ => _ end] => destruct x; cbn [fst vxvv t_ orbit_ pot_ orig_pot cannot_continue orbInterp]; try (repeat split; fail) end;
    repeat split.
Qed.
Lemma flip_same {pot} (a b : orb pot cache) : same_but_cache a b -> same_but_cache (flip_inplace a) (flip_inplace b).
Proof. intros (A & B & C & D & E & F). unfold same_but_cache. cbn. now rewrite A, B, C, D, E, F. Qed.
Lemma same_trans {pot} (a b c : orb pot cache) : same_but_cache a b -> same_but_cache b c -> same_but_cache a c.
Proof. intros (A1 & A2 & A3 & A4 & A5 & A6) (B1 & B2 & B3 & B4 & B5 & B6). repeat split; congruence. Qed.

(** At one moment: every stored time is answered with its point, in whatever order the times are given, and nothing stored changes.  The stored grid
    must be increasing, or the splines must not fail. *)
Theorem C38_evaluation {pot : Type} (spline : list RR -> list (list RR) -> option (list (RR -> RR))) (o : orb pot cache) ts rows r :
  spline_exact spline -> t_ o = Some (Shared ts) -> orbit_ o = Some rows -> orbInterp o = None ->
  ts <> [] -> strictly_monotone ts -> length rows = length (vxvv o) ->
  (forall row, In row rows -> length row = length ts /\ forall p, In p row -> length p = phasedim o /\ ((length p = 4 \/ length p = 6)%nat -> 0 < nth 0 p 0)) ->
  (StronglySorted Rlt ts \/ forall a b, spline a b <> None) ->
  r <> NoTime -> (forall t, In t (req_times r) -> In t ts) ->
  exists out, snd (call_internal spline o r) = Ok out /\ gives_stored ts rows (req_times r) out /\
    t_ (fst (call_internal spline o r)) = Some (Shared ts) /\ orbit_ (fst (call_internal spline o r)) = Some rows /\ vxvv (fst (call_internal spline o r)) = vxvv o.
Proof.
  intros HX Et Eo Ei N M L Hrow Hsp Hr Hin.
  assert (St : stored o ts rows).
  { repeat split; auto; [now apply Hrow|]. intros p Hp. destruct (Hrow row H) as [_ Hp']. now apply Hp'. }
  assert (Ct : cache_ok o ts rows) by (intros c E; congruence).
  destruct (call_answers spline HX o r ts rows St Ct Hsp) as (out & E & A); auto.
  { intros row p Ir Ip. destruct (Hrow row Ir) as [_ Hp]. destruct (Hp p Ip) as [_ P]. intros Hf. apply P. unfold has_phi in Hf. apply orb_true_iff in Hf as [Hf|Hf]; apply Nat.eqb_eq in Hf; auto. }
  destruct (call_keeps spline HX o r ts rows St Ct Hsp) as [(A1 & A2 & A3 & _) _].
  exists out. rewrite A1, A2, A3. now repeat split; try apply A.
Qed.
Print Assumptions C38_evaluation.

(** Along any history of integrations, evaluations and in-place flips: what is stored does not depend on the evaluations made, and evaluations are
    answered from what is stored now (never from an earlier trajectory) *)
Theorem C38_history {pot : Type} (integ : pot -> list RR -> point -> option (list point)) (spline : list RR -> list (list RR) -> option (list (RR -> RR))) pd
    (v0 : list point) (l : list (op pot)) :
  integrator_ok integ -> spline_exact spline -> (forall a b, spline a b <> None) -> (forall v, In v v0 -> length v = pd) ->
  grids_ok (length v0) (integrations l) -> List.Forall shared_times (integrations l) ->
  let o := run integ spline (fresh v0) l in
  let o0 := run integ spline (fresh v0) (filter (fun a => negb (is_evaluation a)) l) in
  vxvv o = vxvv o0 /\ t_ o = t_ o0 /\ orbit_ o = orbit_ o0 /\
  forall ts rows r, t_ o = Some (Shared ts) -> orbit_ o = Some rows ->
    ((pd = 4 \/ pd = 6)%nat -> forall row p, In row rows -> In p row -> 0 < nth 0 p 0) ->
    r <> NoTime -> (forall t, In t (req_times r) -> In t ts) ->
    exists out, snd (call_internal spline o r) = Ok out /\ gives_stored ts rows (req_times r) out.
Proof.
  intros HI HX HT HV HG HSh o o0.
  assert (Main : forall (l : list (op pot)) U a b, inv pd a -> same_but_cache b a -> separated U -> (forall T, t_ a = Some T -> incl (all_times T) U) ->
    List.Forall (fun c => good_times (length (vxvv a)) (c_times c) /\ shared_times c /\ incl (all_times (c_times c)) U) (integrations l) ->
    inv pd (run integ spline a l) /\ same_but_cache (run integ spline b (filter (fun a => negb (is_evaluation a)) l)) (run integ spline a l)).
  { clear -HI HX HT. induction l as [|x l IH]; intros U a b Ha Hab Sep HU HF; [now split|]. destruct x as [c|r|]; cbn [run fold_left step filter is_evaluation negb].
    - cbn [integrations flat_map app] in HF. inversion HF as [|? ? (G & Sh & Iu) HF']; subst.
      destruct (inv_integrate integ HI pd U a c Ha Sep G Sh Iu HU) as (I1 & I2 & I3). apply (IH U); auto.
      + now apply integrate_same.
      + now rewrite I3.
    - destruct (inv_eval spline HX HT pd a r Ha) as [I1 I2]. apply (IH U); auto.
      + now apply (same_trans _ a).
      + intros T. rewrite (proj1 (proj2 I2)). apply HU.
      + rewrite (proj1 I2). exact HF.
    - apply (IH U); auto; [now apply inv_flip|now apply flip_same|]. cbn. rewrite map_length. exact HF. }
  destruct (Main l (concat (map (fun c => all_times (c_times c)) (integrations l))) (fresh v0) (fresh v0)) as [I1 I2].
  - now apply inv_fresh.
  - apply same_refl.
  - now apply (separated_of (length v0)).
  - easy.
  - apply Forall_forall. intros c Hc. destruct HG as [HG _]. rewrite Forall_forall in HG, HSh. specialize (HG c Hc). split; [exact HG|]. split; [now apply HSh|].
    apply incl_concat. now apply (in_map (fun c => all_times (c_times c))).
  - fold o in I1, I2. fold o0 in I2. destruct I2 as (A1 & A2 & A3 & _). repeat split; auto. intros ts rows r Et Eo Hax Hr Hin.
    destruct (inv_stored pd o ts rows I1 Et Eo) as [St Ct].
    apply (call_answers spline HX o r ts rows St Ct (or_intror HT)); auto.
    intros row p Ir Ip. intros Hf. apply (Hax) with (row := row); auto. destruct St as (_ & _ & _ & _ & L & Hrow). destruct (Hrow row Ir) as [_ Lp].
    assert (phasedim o = pd) as Epd.
    { apply (proj1 I1). apply nth_In. rewrite <- L. destruct rows; [easy|cbn; lia]. }
    rewrite (Lp p Ip), Epd in Hf. unfold has_phi in Hf. apply orb_true_iff in Hf as [Hf|Hf]; apply Nat.eqb_eq in Hf; auto.
Qed.
Print Assumptions C38_history.

(** Times outside the integrated interval are refused, and so is any time before the first integration except 0 *)
Theorem C38_out_of_range {pot : Type} (spline : list RR -> list (list RR) -> option (list (RR -> RR))) (o : orb pot cache) ts rows r t :
  t_ o = Some (Shared ts) -> orbit_ o = Some rows -> ts <> [] -> In t (req_times r) -> (forall s, In s ts -> s < t) \/ (forall s, In s ts -> t < s) ->
  call_internal spline o r = (o, ValueError).
Proof. intros Et Eo N I H. apply (call_refuses spline o r ts rows); eauto. Qed.
Print Assumptions C38_out_of_range.
Theorem C38_not_integrated {pot : Type} (spline : list RR -> list (list RR) -> option (list (RR -> RR))) (o : orb pot cache) t :
  t_ o = None ->
  call_internal spline o NoTime = (o, Ok (map (fun p => [p]) (vxvv o))) /\ call_internal spline o (Scalar 0) = (o, Ok (map (fun p => [p]) (vxvv o))) /\
  (t <> 0 -> call_internal spline o (Scalar t) = (o, ValueError)).
Proof.
  intros E. unfold call_internal. rewrite E, Reqb_refl. repeat split. intros H. destruct (Reqb t 0) eqn:X; [|easy]. now apply Reqb_spec in X.
Qed.
Print Assumptions C38_not_integrated.

(** A case that meets the hypotheses: piecewise constant interpolation is exact at its nodes, and a 6D circular orbit on a decreasing grid *)
Definition step_spline (ts : list RR) (vals : list (list RR)) : option (list (RR -> RR)) :=
  Some (map (fun v t => match index_of t ts with Some k => nth k v 0 | None => 0 end) vals).
Lemma step_spline_exact : spline_exact step_spline.
Proof.
  intros ts vals fs S L [= <-] i k Hi Hk. rewrite (nth_map_d _ vals i []) by easy. rewrite index_of_nth; [easy| |easy]. apply mono_NoDup. now left.
Qed.
Definition circ (t : RR) : point := [1; 0; 1; 0; 0; t].
Definition circ_integ (p : unit) (ts : list RR) (v : point) : option (list point) :=
  Some (map (fun t => match v with [R; vR; vT; z; vz; phi] => [R; vR; vT; z; vz; phi + (t - hd 0 ts)] | _ => v end) ts).
Lemma circ_integ_ok : integrator_ok circ_integ.
Proof.
  intros p ts v. eexists. split; [reflexivity|]. split; [apply map_length|]. intros q Hq. apply in_map_iff in Hq as (t & <- & _).
  now destruct v as [|? [|? [|? [|? [|? [|? [|? ?]]]]]]].
Qed.
Example C38_nonvacuous :
  let l := [Integrate (mkCall (Shared [0; -1; -2]) tt true); Evaluate (Array [-2; 0]); Flip; Evaluate (Scalar (-1))] in
  (forall a b, step_spline a b <> None) /\ (forall v, In v [circ 5] -> length v = 6%nat) /\ grids_ok 1 (integrations l) /\ List.Forall shared_times (integrations l) /\
  t_ (run circ_integ step_spline (fresh [circ 5]) l) = Some (Shared [0; -1; -2]) /\ off_axis (circ 5).
Proof.
  split; [easy|]. split; [now intros v [<- |[]]|]. split; [split|].
  - constructor; [|constructor]. cbn. split; [easy|]. right. repeat constructor; lra.
  - cbn. intros a b Ha Hb H.
    assert (Rabs b <= 6) by (unfold Rabs; repeat destruct Hb as [<- |Hb]; try easy; destruct Rcase_abs; lra).
    assert (Rabs (a - b) < 1) by lra. apply Rabs_def2 in H1. repeat destruct Ha as [<- |Ha]; try easy; repeat destruct Hb as [<- |Hb]; try easy; lra.
  - split; [repeat constructor; now eexists|]. split; [|intros _; cbn; lra].
    assert (HG : grids_ok 1 [mkCall (Shared [0; -1; -2]) tt true]).
    { split.
      - constructor; [|constructor]. cbn. split; [easy|]. right. repeat constructor; lra.
      - cbn. intros a b Ha Hb H. assert (Rabs b <= 6) by (unfold Rabs; repeat destruct Hb as [<- |Hb]; try easy; destruct Rcase_abs; lra).
        assert (Rabs (a - b) < 1) by lra. apply Rabs_def2 in H1. repeat destruct Ha as [<- |Ha]; try easy; repeat destruct Hb as [<- |Hb]; try easy; lra. }
    destruct (C38_history circ_integ step_spline 6 [circ 5] [Integrate (mkCall (Shared [0; -1; -2]) tt true); Evaluate (Array [-2; 0]); Flip; Evaluate (Scalar (-1))]
      circ_integ_ok step_spline_exact ltac:(easy) ltac:(now intros v [<- |[]]) HG ltac:(repeat constructor; now eexists)) as (_ & E & _).
    rewrite E. reflexivity.
Qed.

(** ** Findings *)
(** Evaluating an orbit integrated backward on a grid too short for the splines leaves the stored times and trajectory in increasing order *)
Theorem C38_backward_reordered_refuted :
  exists (spline : list RR -> list (list RR) -> option (list (RR -> RR))) (o : orb unit cache) ts rows r,
  spline_exact spline /\ t_ o = Some (Shared ts) /\ orbit_ o = Some rows /\ ts <> [] /\ strictly_monotone ts /\ (forall t, In t (req_times r) -> In t ts) /\
  orbit_ (fst (call_internal spline o r)) <> Some rows.
Proof.
  exists (fun ts vals => if (length ts <? 4)%nat then None else step_spline ts vals),
    (mkOrb [[1; 2]] (Some (Shared [0; -1])) (Some [[[1; 2]; [3; 4]]]) (Some tt) (Some tt) false None), [0; -1], [[[1; 2]; [3; 4]]], (Array [-1; 0]).
  split. { intros ts vals fs S L E. destruct (length ts <? 4)%nat; [discriminate|]. now apply step_spline_exact. }
  split; [easy|]. split; [easy|]. split; [easy|]. split; [right; repeat constructor; lra|]. split; [cbn; intros t [<- |[<- |[]]]; auto|].
  assert (E1 : Reqb (-1) 0 = false) by (destruct (Reqb (-1) 0) eqn:E; [apply Reqb_spec in E; lra|easy]).
  assert (E2 : Rltb (-1) 0 = true) by (apply Rltb_spec; lra).
  assert (E3 : Rleb 0 (-1) = false) by (destruct (Rleb 0 (-1)) eqn:E; [apply Rleb_spec in E; lra|easy]).
  assert (RO : existsb (fun t => Rltb (Rmax_list [0; -1]) t) [-1; 0] || existsb (fun t => Rltb t (Rmin_list [0; -1])) [-1; 0] = false).
  { apply range_ok. cbn. intros t [<- |[<- |[]]]; auto. }
  unfold call_internal. cbn [t_ orbit_]. cbn [list_eqb]. rewrite E1. cbn [andb]. cbv iota. rewrite RO. unfold setup. cbn [t_ orbit_ orbInterp]. rewrite E2. cbv zeta.
  assert (S : argsort Rleb [0; -1] = [1; 0]%nat) by (unfold argsort; cbn -[Rleb]; now rewrite E3).
  rewrite S. cbn -[index_of]. destruct (index_of (-1) [-1; 0]), (index_of 0 [-1; 0]); cbn; intros [= H]; lra.
Qed.
Print Assumptions C38_backward_reordered_refuted.
(** The azimuth comes back in (-pi, pi]: at a stored time asked for in an array the value is not the stored one *)
Theorem C38_azimuth_wrapped_refuted :
  exists (o : orb unit cache) ts rows r out,
  t_ o = Some (Shared ts) /\ orbit_ o = Some rows /\ StronglySorted Rlt ts /\ (forall t, In t (req_times r) -> In t ts) /\
  snd (call_internal step_spline o r) = Ok out /\ nth 0 (nth 0 out []) [] <> nth 0 (nth 0 rows []) [].
Proof.
  set (o := mkOrb [circ 5] (Some (Shared [0; 1])) (Some [[circ 5; circ 6]]) (Some tt) (Some tt) false None : orb unit cache).
  exists o, [0; 1], [[circ 5; circ 6]], (Array [0]).
  assert (Hin : forall t, In t (req_times (Array [0])) -> In t [0; 1]) by (cbn; intros t [<- |[]]; auto).
  destruct (call_internal step_spline o (Array [0])) as [o' res] eqn:E.
  assert (E0 : Reqb 0 1 = false) by (destruct (Reqb 0 1) eqn:X; [apply Reqb_spec in X; lra|easy]).
  assert (E2 : Rltb 1 0 = false) by (destruct (Rltb 1 0) eqn:X; [apply Rltb_spec in X; lra|easy]).
  unfold call_internal in E. cbn [t_ orbit_ o] in E.
  assert (list_eqb [0] [0; 1] = false) as X by (cbn; now rewrite andb_false_r). rewrite X in E. cbv iota in E. rewrite range_ok in E by exact Hin.
  unfold setup in E. cbn [t_ orbit_ orbInterp o] in E. rewrite E2 in E. cbv zeta in E. cbn -[Reqb cos sin sqrt Atan2.atan2] in E. rewrite Reqb_refl in E.
  injection E as <- <-. eexists. split; [reflexivity|]. split; [reflexivity|]. split; [repeat constructor; lra|]. split; [exact Hin|]. split; [reflexivity|].
  cbn -[cos sin sqrt Atan2.atan2]. intros [= _ H]. pose proof (Atan2.atan2_range (1 * cos 5) (1 * sin 5)) as B.
  pose proof PI_4. rewrite H in B. lra.
Qed.
Print Assumptions C38_azimuth_wrapped_refuted.
