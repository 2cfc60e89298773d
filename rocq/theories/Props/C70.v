(** C70: distribution functions that evolve from an initial one (evolveddiskdf). *)
From Coq Require Import Reals List Lra Lia Sorted.
Import ListNotations.
From Verif.Model Require Import EvolvedDF.
From Verif.Spec Require Import EvolvedSpec.
Open Scope R_scope.
Notation RR := RbaseSymbolsImpl.R (only parsing).

(** Called with one time, the value is that of the initial distribution function where the orbit was at time to; it is constant along orbits. *)
Theorem C70_liouville : forall (St : Type) Rad (flow : RR -> RR -> St -> St) f0 to eps, orbits flow -> (forall w, 0 < Rad w) ->
  (forall t w, ev_call St Rad flow f0 to eps t w = evolved flow f0 to t w) /\ (forall w, ev_call St Rad flow f0 to eps to w = f0 w) /\
  forall t1 t2 w, ev_call St Rad flow f0 to eps t2 (flow t1 t2 w) = ev_call St Rad flow f0 to eps t1 w.
Proof.
  intros St Rad flow f0 to eps [O1 O2] HR. assert (E : forall t w, ev_call St Rad flow f0 to eps t w = evolved flow f0 to t w).
  { intros t w. unfold ev_call, evolved. destruct (Req_EM_T to t) as [<-|N]; [rewrite O1; reflexivity|]. cbv zeta. destruct (Rle_dec _ 0) as [L|L]; [specialize (HR (flow t to w)); lra|reflexivity]. }
  split; [exact E|split; [intros w; rewrite E; unfold evolved; rewrite O1; reflexivity|]]. intros t1 t2 w. rewrite !E. unfold evolved. rewrite O2. reflexivity.
Qed.
Print Assumptions C70_liouville.
(** With log=True it is the logarithm, wherever the value is positive. *)
Theorem C70_log : forall (St : Type) Rad (flow : RR -> RR -> St -> St) f0 to eps maxfloat t w, orbits flow -> (forall w, 0 < Rad w) -> 0 < ev_call St Rad flow f0 to eps t w ->
  exp (ev_log St Rad flow f0 to maxfloat t w) = evolved flow f0 to t w.
Proof.
  intros St Rad flow f0 to eps maxfloat t w O HR. rewrite (proj1 (C70_liouville St Rad flow f0 to eps O HR)). intros P. unfold evolved in P. unfold ev_log, evolved. destruct (Req_EM_T to t) as [<-|N]; [rewrite (proj1 O) in *; apply exp_ln; exact P|]. cbv zeta. destruct (Rle_dec _ 0) as [L|L]; [specialize (HR (flow t to w)); lra|]. destruct (Req_EM_T _ 0) as [Z|Z]; [lra|]. apply exp_ln. exact P.
Qed.
Print Assumptions C70_log.
(** Uniform motion: in a static potential. A particle pushed by a force growing with time: not. *)
Definition free (a b : RR) (w : RR * RR) : RR * RR := (fst w + snd w * (b - a), snd w).
Definition pushed (a b x : RR) : RR := x + (b ^ 2 - a ^ 2) / 2.
Lemma free_ok : orbits free /\ static free.
Proof. split; [split|]; [intros t [x v]|intros a b c [x v]|intros s a b [x v]]; unfold free; cbn [fst snd]; f_equal; ring. Qed.
Lemma pushed_ok : orbits pushed. Proof. split; intros; unfold pushed; field. Qed.
Example C70_liouville_case : orbits free /\ (ev_call (RR * RR) (fun _ => 1) free (fun w => exp (- fst w ^ 2)) (- 3) 0 2 (1, 1)) = exp (- 16).
Proof. split; [apply free_ok|]. rewrite (proj1 (C70_liouville _ _ _ _ _ _ (proj1 free_ok) (fun _ => Rlt_0_1))). unfold evolved, free. cbn [fst snd]. f_equal. ring. Qed.

Lemma desc_iff t : descending_dec t = true <-> descending t.
Proof. induction t as [|a [|b u] IH]; cbn; [tauto|tauto|]. destruct (Rle_dec b a); cbn in IH; tauto || (split; [discriminate|intros [H _]; contradiction]). Qed.
Lemma desc_last a t : descending (a :: t) -> forall x, In x (a :: t) -> x <= a.
Proof.
  revert a. induction t as [|b u IH]; intros a H x [->|Hx]; try lra; [contradiction|]. destruct H as [H1 H2]. apply Rle_trans with b; [apply IH; assumption|exact H1].
Qed.
Lemma rev_hd (l : list RR) d : hd d (rev l) = last l d.
Proof. induction l as [|a l IH] using rev_ind; [reflexivity|]. rewrite rev_app_distr, last_last. reflexivity. Qed.
Lemma last_map (f : RR -> RR) l d e : l <> [] -> last (List.map f l) d = f (last l e).
Proof. induction l as [|a [|b l] IH]; intros H; [contradiction|reflexivity|]. change (last (List.map f (b :: l)) d = f (last (b :: l) e)). apply IH. discriminate. Qed.
(** What a list of two or more descending times gives with the integrators other than odeint: in a static potential, each value is evolved back to the
    last time of the list; it is the evolved distribution function when the list ends with to. *)
Lemma list_general (St : Type) (flow : RR -> RR -> St -> St) f0 to t0 t1 u w : static flow -> to <> t0 -> descending (t0 :: t1 :: u) ->
  ev_list St flow f0 to (t0 :: t1 :: u) w = Some (List.map (fun ti => evolved flow f0 (last (t1 :: u) 0) ti w) (t0 :: t1 :: u)).
Proof.
  intros HS N D. unfold ev_list. destruct (Req_EM_T to t0); [contradiction|]. rewrite (proj2 (desc_iff _) D). cbn [negb]. cbv zeta. f_equal. set (t := t0 :: t1 :: u). rewrite rev_hd, (last_map _ t 0 0) by discriminate. rewrite List.map_rev, List.rev_involutive, List.map_map. apply List.map_ext. intros ti. unfold evolved. change (last t 0) with (last (t1 :: u) 0). set (z := last (t1 :: u) 0). f_equal.
  rewrite <- (HS (to + t0 - z - ti) ti z). f_equal; ring.
Qed.
Theorem C70_list : forall (St : Type) (flow : RR -> RR -> St -> St) f0 to t0 u w, orbits flow -> static flow -> descending (t0 :: u) -> last (t0 :: u) 0 = to -> to <> t0 ->
  ev_list St flow f0 to (t0 :: u) w = Some (List.map (fun ti => evolved flow f0 to ti w) (t0 :: u)).
Proof.
  intros St flow f0 to t0 u w O HS D L N. destruct u as [|t1 u]; [cbn in L; congruence|]. rewrite list_general by assumption. cbn [last] in L. cbn [last]. rewrite L. reflexivity.
Qed.
Print Assumptions C70_list.
Example C70_list_case : descending [2; 1; 0; - 1] /\ last [2; 1; 0; - 1] 0 = - 1 /\ static free. Proof. split; [cbn; lra|split; [reflexivity|apply free_ok]]. Qed.
(** With odeint any descending times after to will do. *)
Theorem C70_list_odeint : forall (St : Type) (flow : RR -> RR -> St -> St) f0 to t0 u w, orbits flow -> static flow -> descending (t0 :: u) -> to <> t0 -> (forall x, In x (t0 :: u) -> to <= x) ->
  ev_list_odeint St flow f0 to (t0 :: u) w = Some (List.map (fun ti => evolved flow f0 to ti w) (t0 :: u)).
Proof.
  intros St flow f0 to t0 u w O HS D N HT. unfold ev_list_odeint. destruct (Req_EM_T to t0); [contradiction|]. rewrite (proj2 (desc_iff _) D). cbn [negb]. f_equal.
  assert (E : ev_start to t0 (t0 :: u) = t0).
  { unfold ev_start. assert (K : forall l, (forall x, In x l -> to <= x) -> fold_right Rmax (Rmax t0 to) (List.map (fun ti => to + t0 - ti) l) = t0).
    { induction l as [|a l IH]; intros H; cbn. { apply Rmax_left. apply HT. left. reflexivity. } rewrite IH by (intros x Hx; apply H; right; exact Hx). apply Rmax_right. specialize (H a (or_introl eq_refl)). lra. }
    apply K. exact HT. }
  rewrite E. apply List.map_ext. intros ti. unfold evolved. f_equal. rewrite <- (HS (t0 - ti) ti to). f_equal; ring.
Qed.
Print Assumptions C70_list_odeint.
Example C70_list_odeint_case : descending [2; 1; 0] /\ (forall x, In x [2; 1; 0] -> - 5 <= x). Proof. split; [cbn; lra|]. intros x [<-|[<-|[<-|[]]]]; lra. Qed.
(** Finding: a list that does not end with to is evolved back to its last time instead, in every static potential; for instance: *)
Theorem C70_list_end_refuted : (forall (St : Type) (flow : RR -> RR -> St -> St) f0 to t0 t1 u w, orbits flow -> static flow -> to <> t0 -> descending (t0 :: t1 :: u) ->
    ev_list St flow f0 to (t0 :: t1 :: u) w = Some (List.map (fun ti => evolved flow f0 (last (t1 :: u) 0) ti w) (t0 :: t1 :: u))) /\
  ev_list (RR * RR) free fst (- 3) [1; 0] (5, 1) = Some [4; 5] /\ List.map (fun ti => evolved free fst (- 3) ti (5, 1)) [1; 0] = [1; 2].
Proof.
  split; [intros; apply list_general; assumption|split].
  - rewrite list_general; [|apply free_ok|lra|cbn; lra]. cbn [List.map last]. unfold evolved, free. cbn [fst snd]. do 2 f_equal; [ring|]. f_equal. ring.
  - cbn [List.map]. unfold evolved, free. cbn [fst snd]. f_equal; [ring|]. f_equal. ring.
Qed.
Print Assumptions C70_list_end_refuted.
(** Finding: in a time-dependent potential a list of times gives wrong values with every integrator, even when it ends with to. *)
Theorem C70_list_time_dependent_refuted : exists flow : RR -> RR -> RR -> RR, orbits flow /\ descending [2; 1; 0] /\
  List.map (fun ti => evolved flow (fun x => x) 0 ti 10) [2; 1; 0] = [8; 19 / 2; 10] /\
  ev_list RR flow (fun x => x) 0 [2; 1; 0] 10 = Some [8; 17 / 2; 10] /\ ev_list_odeint RR flow (fun x => x) 0 [2; 1; 0] 10 = Some [8; 17 / 2; 10].
Proof.
  exists pushed. split; [exact pushed_ok|split; [cbn; lra|split; [|split]]].
  - cbn [List.map]. unfold evolved, pushed. f_equal; [field|]. f_equal; [field|]. f_equal. field.
  - unfold ev_list. destruct (Req_EM_T 0 2); [exfalso; lra|]. rewrite (proj2 (desc_iff _)) by (cbn; lra). cbn [negb]. cbv zeta. cbn [List.map rev app hd]. unfold pushed. f_equal. f_equal; [field|]. f_equal; [field|]. f_equal. field.
  - unfold ev_list_odeint. destruct (Req_EM_T 0 2); [exfalso; lra|]. rewrite (proj2 (desc_iff _)) by (cbn; lra). cbn [negb]. assert (E : ev_start 0 2 [2; 1; 0] = 2). { unfold ev_start. cbn [fold_right List.map]. rewrite (Rmax_left 2 0), (Rmax_right (0 + 2 - 0) 2), (Rmax_right (0 + 2 - 1) 2) by lra. apply Rmax_right. lra. }
    rewrite E. cbn [List.map]. unfold pushed. f_equal. f_equal; [field|]. f_equal; [field|]. f_equal. field.
Qed.
Print Assumptions C70_list_time_dependent_refuted.
(** Finding: a list that begins with to gives one value, whatever its length; a list of one time before to is integrated in the wrong direction. *)
Theorem C70_list_start_refuted : forall (St : Type) (flow : RR -> RR -> St -> St) f0 to w, orbits flow ->
  (forall u, ev_list St flow f0 to (to :: u) w = Some [f0 w] /\ ev_list_odeint St flow f0 to (to :: u) w = Some [f0 w]) /\
  forall t, t < to -> ev_list St flow f0 to [t] w = Some [f0 (flow to t w)].
Proof.
  intros St flow f0 to w O. split.
  - intros u. unfold ev_list, ev_list_odeint. destruct (Req_EM_T to to); [split; reflexivity|congruence].
  - intros t Ht. unfold ev_list. destruct (Req_EM_T to t); [lra|]. cbn. rewrite Rmax_right, Rmin_left by lra. reflexivity.
Qed.
Print Assumptions C70_list_start_refuted.
Example C70_list_start_case : ev_list (RR * RR) free fst 0 [- 2] (5, 1) = Some [3] /\ evolved free fst 0 (- 2) (5, 1) = 7.
Proof. rewrite (proj2 (C70_list_start_refuted _ free fst 0 (5, 1) (proj1 free_ok))) by lra. unfold evolved, free. cbn [fst snd]. split; [do 2 f_equal; ring|ring]. Qed.
(** One time at or after to: as without the list; times that are not descending are refused. *)
Theorem C70_list_edge : forall (St : Type) (flow : RR -> RR -> St -> St) f0 to w, orbits flow ->
  (forall t, to <= t -> ev_list St flow f0 to [t] w = Some [evolved flow f0 to t w]) /\
  forall t0 u, to <> t0 -> ~ descending (t0 :: u) -> ev_list St flow f0 to (t0 :: u) w = None /\ ev_list_odeint St flow f0 to (t0 :: u) w = None.
Proof.
  intros St flow f0 to w O. split.
  - intros t Ht. unfold ev_list, evolved. destruct (Req_EM_T to t) as [<-|N]; [rewrite (proj1 O); reflexivity|]. cbn. rewrite Rmax_left, Rmin_right by lra. reflexivity.
  - intros t0 u N D. unfold ev_list, ev_list_odeint. destruct (Req_EM_T to t0); [contradiction|]. destruct (descending_dec (t0 :: u)) eqn:E; [apply desc_iff in E; contradiction|]. split; reflexivity.
Qed.
Print Assumptions C70_list_edge.
