(** The Gauss-Legendre moments: the nested sums are the two-panel product rule, and its error is bounded by the distance to polynomials. *)
From Coq Require Import Reals List Lra Lia Permutation.
From Coquelicot Require Import Coquelicot.
From Verif.Lib Require Import RealAux.
From Verif.Model Require Import QuasiDF.
From Verif.Spec Require Import QuasiDFSpec.
Import ListNotations.
Open Scope R_scope.
Notation RR := RbaseSymbolsImpl.R (only parsing).
Ltac rr := match goal with |- ?a = ?b => change (@eq RR a b) end.

(** ** Sums *)
Lemma sum_ext {A} (f g : A -> RR) l : (forall a, In a l -> f a = g a) -> sum (List.map f l) = sum (List.map g l).
Proof. intros H. f_equal. apply map_ext_in. exact H. Qed.
Lemma sum_app l m : sum (l ++ m) = sum l + sum m. Proof. unfold sum. induction l as [|a l IH]; cbn; [lra|]. rewrite IH. lra. Qed.
Lemma sum_plus {A} (f g : A -> RR) l : sum (List.map (fun a => f a + g a) l) = sum (List.map f l) + sum (List.map g l).
Proof. unfold sum. induction l as [|a l IH]; cbn; [lra|]. rewrite IH. lra. Qed.
Lemma sum_scal {A} (f : A -> RR) k l : sum (List.map (fun a => k * f a) l) = k * sum (List.map f l).
Proof. unfold sum. induction l as [|a l IH]; cbn; [lra|]. rewrite IH. lra. Qed.
Lemma sum_scal_r {A} (f : A -> RR) k l : sum (List.map (fun a => f a * k) l) = sum (List.map f l) * k.
Proof. rewrite Rmult_comm, <- sum_scal. apply sum_ext. intros. ring. Qed.
Lemma sum_flat {A B} (f : B -> RR) (g : A -> list B) l : sum (List.map f (flat_map g l)) = sum (List.map (fun a => sum (List.map f (g a))) l).
Proof. induction l as [|a l IH]; [reflexivity|]. cbn [flat_map List.map]. rewrite map_app, sum_app, IH. reflexivity. Qed.
Lemma sum_perm l m : Permutation l m -> sum l = sum m.
Proof. induction 1; unfold sum in *; cbn; lra. Qed.
Lemma sum_le {A} (f g : A -> RR) l : (forall a, In a l -> f a <= g a) -> sum (List.map f l) <= sum (List.map g l).
Proof. induction l as [|a l IH]; intros H; unfold sum in *; cbn; [lra|]. pose proof (H a (or_introl eq_refl)). specialize (IH (fun b Hb => H b (or_intror Hb))). lra. Qed.
Lemma sum_abs {A} (f : A -> RR) l : Rabs (sum (List.map f l)) <= sum (List.map (fun a => Rabs (f a)) l).
Proof. induction l as [|a l IH]; unfold sum in *; cbn; [rewrite Rabs_R0; lra|]. eapply Rle_trans; [apply Rabs_triang|]. lra. Qed.

(** ** Rules *)
Definition Sm (r : rule) (h : RR -> RR) : RR := sum (List.map (fun xw => snd xw * h (fst xw)) r).
Lemma Sm_ext r h h' : (forall x, h x = h' x) -> Sm r h = Sm r h'. Proof. intros H. apply sum_ext. intros. rewrite H. reflexivity. Qed.
Lemma Sm_scal r h k : Sm r (fun x => k * h x) = k * Sm r h. Proof. unfold Sm. rewrite <- sum_scal. apply sum_ext. intros. ring. Qed.
Lemma Sm_half c r h : c / 2 * Sm (half_nodes c r) h = rule_on r 0 c h.
Proof.
  unfold Sm, half_nodes, rule_on. rewrite map_map. replace ((c - 0) / 2) with (c / 2) by (unfold Rdiv; ring). apply f_equal. change (fold_right Rplus 0) with sum. apply sum_ext. intros [x w] _. cbn. do 2 f_equal. field.
Qed.
Lemma Sm_sym c r h : Permutation r (List.map (fun xw => (- fst xw, snd xw)) r) -> c / 2 * Sm (sym_nodes c r) h = two_panels r c h.
Proof.
  intros P. unfold Sm, sym_nodes. rewrite map_app, sum_app, Rmult_plus_distr_l. unfold two_panels. rewrite Rplus_comm. f_equal; [|apply (Sm_half c r h)].
  unfold rule_on. replace ((0 - - c) / 2) with (c / 2) by (unfold Rdiv; ring). apply f_equal. change (fold_right Rplus 0) with sum. rewrite map_map.
  rewrite (sum_perm _ _ (Permutation_map (fun xw => snd xw * h ((- c + 0) / 2 + c / 2 * fst xw)) P)), map_map. apply sum_ext. intros [x w] _. cbn. do 2 f_equal. field.
Qed.

(** ** Evaluations at the nodes *)
Lemma all_some_map {A B} (f : A -> option B) l js : all_some (List.map f l) = Some js -> Forall2 (fun a j => f a = Some j) l js.
Proof.
  revert js. induction l as [|a l IH]; intros js; cbn; [intros [= <-]; constructor|]. destruct (f a) as [b|] eqn:E; [|discriminate]. destruct (all_some (List.map f l)); [|discriminate]. intros [= <-]. constructor; auto.
Qed.
(** The array evaluation of one point. *)
Definition fa (q : QDF) (R z vR vT vz : RR) : RR := match q_aA q R vR vT z vz with Some J => lexp (call_log true q None None J) | None => 0 end.
Lemma nodes_eval {A B} (ev : A -> option B) (F : B -> RR) (g : list A) js (K : RR * A -> RR) : all_some (List.map ev g) = Some js ->
  sum (List.map K (combine (List.map F js) g)) = sum (List.map (fun a => K (match ev a with Some J => F J | None => 0 end, a)) g).
Proof.
  intros H. apply all_some_map in H. induction H as [|a j l js E H IH]; [reflexivity|]. cbn. unfold sum in IH. rewrite IH, E. reflexivity.
Qed.
Lemma list_eval q (g : list Point) l : exp_call_array q g = AList l -> exists js, all_some (List.map (aA_at q) g) = Some js /\ l = List.map (fun J => lexp (call_log true q None None J)) js.
Proof. unfold exp_call_array. destruct (all_some (List.map (aA_at q) g)) as [js|]; [|discriminate]. intros [= <-]. exists js. auto. Qed.
Lemma grid_eval {A} q (pt : A -> Point) (g : list A) l (K : RR * A -> RR) : exp_call_array q (List.map pt g) = AList l ->
  sum (List.map K (combine l g)) = sum (List.map (fun a => K (match aA_at q (pt a) with Some J => lexp (call_log true q None None J) | None => 0 end, a)) g).
Proof.
  intros H. apply list_eval in H. destruct H as (js & E & ->). rewrite map_map in E. apply (nodes_eval (fun a => aA_at q (pt a)) _ g js K E).
Qed.

Definition wgt (n m o : nat) (f : RR -> RR -> RR -> RR) vR vT vz : RR := vR ^ n * vT ^ m * vz ^ o * f vR vT vz.
Lemma vmoment_nested q gl ngl ns vTm R z n m o I : vmoment_gl q gl ngl ns vTm R z n m o = Some I -> andb (q_adia q) (orb (Nat.odd n) (Nat.odd o)) = false ->
  I = vTm / 2 * Sm (half_nodes vTm (gl ngl)) (fun vT => ns * sigR1 q R / 2 * Sm (nodesR q gl ngl (ns * sigR1 q R)) (fun vR => ns * sigz1 q R / 2 * Sm (nodesR q gl ngl (ns * sigz1 q R)) (fun vz =>
     wgt n m o (fa q R z) vR vT vz))).
Proof.
  unfold vmoment_gl. intros H E. rewrite E in H. destruct (Nat.odd ngl); [discriminate|]. cbv zeta in H. set (NR := nodesR q gl ngl (ns * sigR1 q R)) in *. set (NZ := nodesR q gl ngl (ns * sigz1 q R)) in *. set (NT := half_nodes vTm (gl ngl)) in *.
  destruct (exp_call_array q (List.map (point3 R z) (grid3 NT NR NZ))) as [l|] eqn:EE; [|discriminate]. injection H as <-. rewrite (grid_eval q (point3 R z) (grid3 NT NR NZ) l _ EE).
  set (C := sigR1 q R * sigz1 q R * (125 / 1000) * vTm * ns ^ 2). unfold grid3. rewrite sum_flat.
  transitivity (sum (List.map (fun t => C * (snd t * Sm NR (fun vR => Sm NZ (fun vz => wgt n m o (fa q R z) vR (fst t) vz)))) NT)).
  - apply sum_ext. intros t _. rewrite sum_flat. unfold Sm. rewrite <- !sum_scal. apply sum_ext. intros r _. rewrite map_map, <- !sum_scal. apply sum_ext. intros v _. cbn. unfold fa, wgt, C. rr. ring.
  - rewrite sum_scal. fold (Sm NT (fun vT => Sm NR (fun vR => Sm NZ (fun vz => wgt n m o (fa q R z) vR vT vz)))).
    rewrite (Sm_ext NT (fun vT => ns * sigR1 q R / 2 * Sm NR (fun vR => ns * sigz1 q R / 2 * Sm NZ (fun vz => wgt n m o (fa q R z) vR vT vz))) (fun vT => ns * sigR1 q R / 2 * (ns * sigz1 q R / 2) * Sm NR (fun vR => Sm NZ (fun vz => wgt n m o (fa q R z) vR vT vz)))).
    + rewrite Sm_scal. unfold C. rr. field.
    + intros vT. rewrite Sm_scal. rr. ring.
Qed.
Lemma Rule_on_ext r a b h h' : (forall x, h x = h' x) -> rule_on r a b h = rule_on r a b h'.
Proof. intros H. unfold rule_on. f_equal. f_equal. apply map_ext. intros. rewrite H. reflexivity. Qed.
Lemma two_panels_ext r c h h' : (forall x, h x = h' x) -> two_panels r c h = two_panels r c h'.
Proof. intros H. unfold two_panels. rewrite !(Rule_on_ext r _ _ h h' H). reflexivity. Qed.
Definition symmetric (r : rule) := Permutation r (List.map (fun xw => (- fst xw, snd xw)) r).
Lemma vmoment_product q gl ngl ns vTm R z n m o I : q_adia q = false -> symmetric (gl (ngl / 2)%nat) -> vmoment_gl q gl ngl ns vTm R z n m o = Some I ->
  I = rule_on (gl ngl) 0 vTm (fun vT => two_panels (gl (ngl / 2)%nat) (ns * sigR1 q R) (fun vR => two_panels (gl (ngl / 2)%nat) (ns * sigz1 q R) (fun vz => wgt n m o (fa q R z) vR vT vz))).
Proof.
  intros A S H. rewrite (vmoment_nested _ _ _ _ _ _ _ _ _ _ _ H) by (rewrite A; reflexivity). rewrite Sm_half. apply Rule_on_ext. intros vT. unfold nodesR. rewrite A, Sm_sym by exact S.
  apply two_panels_ext. intros vR. rewrite Sm_sym by exact S. reflexivity.
Qed.

(** ** Error of product rules *)
Record quad (A : (RR -> RR) -> RR) (a b : RR) (d : nat) : Prop := {
  quad_le : a <= b;
  quad_plus : forall h h', A (fun x => h x + h' x) = A h + A h';
  quad_scal : forall k h, A (fun x => k * h x) = k * A h;
  quad_close : forall h h' eps, (forall x, a <= x <= b -> Rabs (h x - h' x) <= eps) -> Rabs (A h - A h') <= eps * (b - a);
  quad_exact : forall k, (k < d)%nat -> is_RInt (fun x => x ^ k) a b (A (fun x => x ^ k)) }.
Lemma rule_plus r a b h h' : rule_on r a b (fun x => h x + h' x) = rule_on r a b h + rule_on r a b h'.
Proof. unfold rule_on. rewrite <- Rmult_plus_distr_l. f_equal. change (fold_right Rplus 0) with sum. rewrite <- sum_plus. apply sum_ext. intros. ring. Qed.
Lemma rule_scal r a b k h : rule_on r a b (fun x => k * h x) = k * rule_on r a b h.
Proof. unfold rule_on. change (fold_right Rplus 0) with sum. rewrite (sum_ext _ (fun xw => k * (snd xw * h ((a + b) / 2 + (b - a) / 2 * fst xw)))) by (intros; ring). rewrite sum_scal. ring. Qed.
Lemma gl_lin n r (m h : RR) k j : gauss_legendre n r -> (k + j < 2 * n)%nat -> is_RInt (fun x => (m + h * x) ^ k * x ^ j) (-1) 1 (sum (List.map (fun xw => snd xw * ((m + h * fst xw) ^ k * fst xw ^ j)) r)).
Proof.
  intros G. revert j. induction k as [|k IH]; intros j Hk.
  - destruct G as (_ & _ & _ & G). apply (is_RInt_ext (fun x => x ^ j)); [intros; cbn; rr; ring|]. replace (sum _) with (fold_right Rplus 0 (List.map (fun xw => snd xw * fst xw ^ j) r)); [apply G; lia|].
    change (fold_right Rplus 0) with sum. apply sum_ext. intros. cbn. ring.
  - pose proof (IH j ltac:(lia)) as A. pose proof (IH (S j) ltac:(lia)) as B.
    apply (is_RInt_ext (fun x => plus (scal m ((m + h * x) ^ k * x ^ j)) (scal h ((m + h * x) ^ k * x ^ S j)))); [intros x _; change (@eq RR (m * ((m + h * x) ^ k * x ^ j) + h * ((m + h * x) ^ k * x ^ S j)) ((m + h * x) ^ S k * x ^ j)); rewrite <- !tech_pow_Rmult; generalize ((m + h * x) ^ k); generalize (x ^ j); intros; ring|].
    replace (sum (List.map (fun xw => snd xw * ((m + h * fst xw) ^ S k * fst xw ^ j)) r)) with (plus (scal m (sum (List.map (fun xw => snd xw * ((m + h * fst xw) ^ k * fst xw ^ j)) r))) (scal h (sum (List.map (fun xw => snd xw * ((m + h * fst xw) ^ k * fst xw ^ S j)) r)))).
    + apply (is_RInt_plus (V := R_NormedModule)); apply (is_RInt_scal (V := R_NormedModule)); assumption.
    + change (@eq RR (m * sum (List.map (fun xw => snd xw * ((m + h * fst xw) ^ k * fst xw ^ j)) r) + h * sum (List.map (fun xw => snd xw * ((m + h * fst xw) ^ k * fst xw ^ S j)) r)) (sum (List.map (fun xw => snd xw * ((m + h * fst xw) ^ S k * fst xw ^ j)) r))).
      rewrite <- !sum_scal, <- sum_plus. apply sum_ext. intros. rewrite <- !tech_pow_Rmult. generalize ((m + h * fst a) ^ k). generalize (fst a ^ j). intros. rr. ring.
Qed.
Lemma pow_cont k x : continuous (fun x : RR => x ^ k) x.
Proof. apply (ex_derive_continuous (fun x : RR => x ^ k) x). exists (INR k * 1 * x ^ pred k). apply (is_derive_pow (fun x => x) k x 1). apply (is_derive_id (K := R_AbsRing)). Qed.
Lemma rule_exact n r a b k : gauss_legendre n r -> (k < 2 * n)%nat -> is_RInt (fun x => x ^ k) a b (rule_on r a b (fun x => x ^ k)).
Proof.
  intros G Hk. assert (E : ex_RInt (fun x : RR => x ^ k) a b) by (apply (ex_RInt_continuous (V := R_CompleteNormedModule)); intros; apply pow_cont).
  destruct E as [L HL]. replace (rule_on r a b (fun x => x ^ k)) with L; [exact HL|].
  set (u := (b - a) / 2). set (v := (a + b) / 2). assert (HL' : is_RInt (fun x : RR => x ^ k) (u * (-1) + v) (u * 1 + v) L) by (replace (u * -1 + v) with a by (unfold u, v; field); replace (u * 1 + v) with b by (unfold u, v; field); exact HL).
  apply (is_RInt_comp_lin (V := R_NormedModule)) in HL'. pose proof (gl_lin n r v u k 0 G ltac:(lia)) as Q. apply (is_RInt_scal (V := R_NormedModule) _ _ _ u) in Q.
  assert (U : forall l l' : RR, is_RInt (fun y => scal u ((u * y + v) ^ k)) (-1) 1 l -> is_RInt (fun y => scal u ((v + u * y) ^ k * y ^ 0)) (-1) 1 l' -> l = l').
  { intros l l' H1 H2. apply (is_RInt_unique (V := R_CompleteNormedModule)) in H1. apply (is_RInt_unique (V := R_CompleteNormedModule)) in H2. rewrite <- H1, <- H2. apply RInt_ext. intros x _. change (@eq RR (u * (u * x + v) ^ k) (u * ((v + u * x) ^ k * 1))). rewrite Rmult_1_r, (Rplus_comm v). reflexivity. }
  rewrite (U _ _ HL' Q). unfold rule_on. fold u v. change (fold_right Rplus 0) with sum.
  change (@eq RR (u * sum (List.map (fun xw => snd xw * ((v + u * fst xw) ^ k * fst xw ^ 0)) r)) (u * sum (List.map (fun xw => snd xw * (v + u * fst xw) ^ k) r))).
  apply f_equal. apply sum_ext. intros. cbn [pow]. rr. ring.
Qed.
Lemma weights_two n r : gauss_legendre n r -> (0 < n)%nat -> sum (List.map snd r) = 2.
Proof.
  intros (_ & _ & _ & G) Hn. pose proof (G 0%nat ltac:(lia)) as H. apply (is_RInt_unique (V := R_CompleteNormedModule)) in H. rewrite (RInt_ext _ (fun _ => 1)) in H by (intros; reflexivity). rewrite RInt_const in H.
  unfold scal in H; cbn -[sum] in H; unfold mult in H; cbn -[sum] in H. change (fold_right Rplus 0) with sum in H. transitivity (sum (List.map (fun xw : RR * RR => snd xw * fst xw ^ 0) r)); [apply sum_ext; intros; cbn; ring|]. refine (eq_trans (eq_sym H) _). rr. ring.
Qed.
Lemma rule_close n r a b h h' eps : gauss_legendre n r -> (0 < n)%nat -> a <= b -> (forall x, a <= x <= b -> Rabs (h x - h' x) <= eps) -> Rabs (rule_on r a b h - rule_on r a b h') <= eps * (b - a).
Proof.
  intros G Hn Hab Hc. pose proof (weights_two n r G Hn) as W. destruct G as (_ & F & _ & _). rewrite Forall_forall in F. unfold rule_on. rewrite <- Rmult_minus_distr_l, Rabs_mult, Rabs_pos_eq by lra.
  change (fold_right Rplus 0) with sum. set (p := fun xw : RR * RR => (a + b) / 2 + (b - a) / 2 * fst xw).
  replace (sum (List.map (fun xw => snd xw * h ((a + b) / 2 + (b - a) / 2 * fst xw)) r) - sum (List.map (fun xw => snd xw * h' ((a + b) / 2 + (b - a) / 2 * fst xw)) r))
    with (sum (List.map (fun xw => snd xw * (h (p xw) - h' (p xw))) r)).
  - assert (B : Rabs (sum (List.map (fun xw => snd xw * (h (p xw) - h' (p xw))) r)) <= sum (List.map (fun xw => snd xw * eps) r)).
    { eapply Rle_trans; [apply sum_abs|]. apply sum_le. intros xw Hin. destruct (F xw Hin) as [Hw Hx]. rewrite Rabs_mult, Rabs_pos_eq by lra. apply Rmult_le_compat_l; [lra|]. apply Hc. unfold p. split; nra. }
    rewrite sum_scal_r, W in B. pose proof (Rmult_le_compat_l ((b - a) / 2) _ _ ltac:(lra) B). lra.
  - rewrite (sum_ext _ (fun xw => snd xw * h (p xw) + -1 * (snd xw * h' (p xw)))) by (intros; ring). rewrite sum_plus, sum_scal. unfold p. lra.
Qed.
Lemma rule_quad n r a b : gauss_legendre n r -> (0 < n)%nat -> a <= b -> quad (rule_on r a b) a b (2 * n).
Proof.
  intros G Hn Hab. constructor; [exact Hab|apply rule_plus|apply rule_scal| |].
  - intros h h' e He. apply (rule_close n); assumption.
  - intros k Hk. apply (rule_exact n); assumption.
Qed.
Lemma panels_quad n r c : gauss_legendre n r -> (0 < n)%nat -> 0 <= c -> quad (two_panels r c) (- c) c (2 * n).
Proof.
  intros G Hn Hc. constructor; [lra| | | |]; unfold two_panels.
  - intros. rewrite !rule_plus. ring.
  - intros. rewrite !rule_scal. ring.
  - intros h h' e He. pose proof (rule_close n r (- c) 0 h h' e G Hn ltac:(lra) ltac:(intros; apply He; lra)) as A. pose proof (rule_close n r 0 c h h' e G Hn ltac:(lra) ltac:(intros; apply He; lra)) as B.
    replace (rule_on r (- c) 0 h + rule_on r 0 c h - (rule_on r (- c) 0 h' + rule_on r 0 c h')) with ((rule_on r (- c) 0 h - rule_on r (- c) 0 h') + (rule_on r 0 c h - rule_on r 0 c h')) by ring.
    eapply Rle_trans; [apply Rabs_triang|]. lra.
  - intros k Hk. apply (is_RInt_Chasles (V := R_NormedModule) _ (- c) 0 c); apply (rule_exact n); assumption.
Qed.
(** A finite combination of powers. *)
Lemma quad_comb A a b d {T} (c : T -> RR) (e : T -> nat) (l : list T) : quad A a b d -> (forall t, In t l -> (e t < d)%nat) ->
  A (fun x => sum (List.map (fun t => c t * x ^ e t) l)) = sum (List.map (fun t => c t * A (fun x => x ^ e t)) l) /\
  is_RInt (fun x => sum (List.map (fun t => c t * x ^ e t) l)) a b (sum (List.map (fun t => c t * A (fun x => x ^ e t)) l)).
Proof.
  intros Q. induction l as [|t l IH]; intros H.
  - cbn. split.
    + pose proof (quad_scal _ _ _ _ Q 0 (fun _ => 0)) as Z. cbv beta in Z. rewrite Rmult_0_l in Z. rewrite Z. ring.
    + replace 0 with (scal (b - a) 0) at 1 by (unfold scal; cbn; unfold mult; cbn; rr; ring). apply (is_RInt_const (V := R_NormedModule)).
  - destruct (IH (fun t' Ht' => H t' (or_intror Ht'))) as [IA IB]. cbn -[sum pow]. split.
    + transitivity (A (fun x => c t * x ^ e t + sum (List.map (fun t => c t * x ^ e t) l))); [reflexivity|]. rewrite (quad_plus _ _ _ _ Q (fun x => c t * x ^ e t) (fun x => sum (List.map (fun t => c t * x ^ e t) l))), (quad_scal _ _ _ _ Q), IA. reflexivity.
    + apply (is_RInt_plus (V := R_NormedModule) (fun x => c t * x ^ e t) (fun x => sum (List.map (fun t => c t * x ^ e t) l))); [|exact IB].
      apply (is_RInt_scal (V := R_NormedModule) (fun x => x ^ e t)). apply (quad_exact _ _ _ _ Q). apply H. left. reflexivity.
Qed.
Lemma int_close (f g : RR -> RR) a b I J eps : a <= b -> is_RInt f a b I -> is_RInt g a b J -> (forall x, a <= x <= b -> Rabs (f x - g x) <= eps) -> Rabs (I - J) <= eps * (b - a).
Proof.
  intros Hab HI HJ H. pose proof (is_RInt_minus (V := R_NormedModule) _ _ _ _ _ _ HI HJ) as M. rewrite Rmult_comm. apply (norm_RInt_le_const (V := R_NormedModule) (fun x => minus (f x) (g x)) a b (I - J) eps Hab H M).
Qed.
Lemma product_error AR AT AZ cR a b cz dR dT dz g p I eps : quad AR (- cR) cR dR -> quad AT a b dT -> quad AZ (- cz) cz dz -> poly dR dT dz p -> velocity_integral cR a b cz g I ->
  (forall x y z, - cR <= x <= cR -> a <= y <= b -> - cz <= z <= cz -> Rabs (g x y z - p x y z) <= eps) ->
  Rabs (AT (fun y => AR (fun x => AZ (fun z => g x y z))) - I) <= 2 * eps * (2 * cR * (b - a) * (2 * cz)).
Proof.
  intros QR QT QZ [l [D P]] (G1 & HG1 & H & HH & HI) C. rewrite Forall_forall in D.
  set (ci := fun t : RR * (nat * nat * nat) => fst t). set (di := fun t : RR * (nat * nat * nat) => fst (fst (snd t))). set (dj := fun t : RR * (nat * nat * nat) => snd (fst (snd t))). set (dk := fun t : RR * (nat * nat * nat) => snd (snd t)).
  assert (DI : forall t, In t l -> (di t < dR)%nat /\ (dj t < dT)%nat /\ (dk t < dz)%nat) by (intros [c [[i j] k]] Hin; apply (D _ Hin)).
  assert (P0 : forall x y z, p x y z = sum (List.map (fun t => ci t * x ^ di t * y ^ dj t * z ^ dk t) l)).
  { intros x y z. rewrite P. change (fold_right Rplus 0) with sum. apply sum_ext. intros [c [[i j] k]] _. reflexivity. }
  set (aR := fun k => AR (fun x => x ^ k)). set (aT := fun k => AT (fun x => x ^ k)). set (aZ := fun k => AZ (fun x => x ^ k)).
  pose proof (fun x y => quad_comb AZ _ _ _ (fun t => ci t * x ^ di t * y ^ dj t) dk l QZ (fun t Ht => proj2 (proj2 (DI t Ht)))) as CZ.
  pose proof (fun y => quad_comb AR _ _ _ (fun t => ci t * y ^ dj t * aZ (dk t)) di l QR (fun t Ht => proj1 (DI t Ht))) as CR.
  pose proof (quad_comb AT _ _ _ (fun t => ci t * aZ (dk t) * aR (di t)) dj l QT (fun t Ht => proj1 (proj2 (DI t Ht)))) as CT.
  set (P1 := fun x y => sum (List.map (fun t => ci t * x ^ di t * y ^ dj t * aZ (dk t)) l)). set (P2 := fun y => sum (List.map (fun t => ci t * y ^ dj t * aZ (dk t) * aR (di t)) l)). set (P3 := sum (List.map (fun t => ci t * aZ (dk t) * aR (di t) * aT (dj t)) l)).
  assert (Z1 : forall x y, AZ (fun z => sum (List.map (fun t => ci t * x ^ di t * y ^ dj t * z ^ dk t) l)) = P1 x y) by (intros; apply CZ).
  assert (Z2 : forall x y, is_RInt (fun z => sum (List.map (fun t => ci t * x ^ di t * y ^ dj t * z ^ dk t) l)) (- cz) cz (P1 x y)) by (intros; apply CZ).
  assert (E1 : forall x y, sum (List.map (fun t => ci t * y ^ dj t * aZ (dk t) * x ^ di t) l) = P1 x y) by (intros; apply sum_ext; intros; rr; ring).
  assert (E2 : forall y, sum (List.map (fun t => ci t * aZ (dk t) * aR (di t) * y ^ dj t) l) = P2 y) by (intros; apply sum_ext; intros; rr; ring).
  pose proof (quad_le _ _ _ _ QR). pose proof (quad_le _ _ _ _ QT). pose proof (quad_le _ _ _ _ QZ).
  (* the rule *)
  assert (R1 : forall x y, - cR <= x <= cR -> a <= y <= b -> Rabs (AZ (fun z => g x y z) - P1 x y) <= eps * (cz - - cz)).
  { intros x y Hx Hy. rewrite <- Z1. apply (quad_close _ _ _ _ QZ). intros z Hz. rewrite <- P0. apply C; assumption. }
  assert (R2 : forall y, a <= y <= b -> Rabs (AR (fun x => AZ (fun z => g x y z)) - P2 y) <= eps * (cz - - cz) * (cR - - cR)).
  { intros y Hy. replace (P2 y) with (AR (fun x => sum (List.map (fun t => ci t * y ^ dj t * aZ (dk t) * x ^ di t) l))) by apply CR. apply (quad_close _ _ _ _ QR). intros x Hx. rewrite E1. apply R1; assumption. }
  assert (R3 : Rabs (AT (fun y => AR (fun x => AZ (fun z => g x y z))) - P3) <= eps * (cz - - cz) * (cR - - cR) * (b - a)).
  { replace P3 with (AT (fun y => sum (List.map (fun t => ci t * aZ (dk t) * aR (di t) * y ^ dj t) l))) by apply CT. apply (quad_close _ _ _ _ QT). intros y Hy. rewrite E2. apply R2; assumption. }
  (* the integral *)
  assert (I1 : forall x y, - cR <= x <= cR -> a <= y <= b -> Rabs (G1 x y - P1 x y) <= eps * (cz - - cz)).
  { intros x y Hx Hy. apply (int_close _ _ _ _ _ _ eps H2 (HG1 x y Hx Hy) (Z2 x y)). intros z Hz. rewrite <- P0. apply C; assumption. }
  assert (I2 : forall y, a <= y <= b -> Rabs (H y - P2 y) <= eps * (cz - - cz) * (cR - - cR)).
  { intros y Hy. apply (int_close _ _ _ _ _ _ _ H0 (HH y Hy) (proj2 (CR y))). intros x Hx. cbv beta. rewrite E1. apply I1; assumption. }
  assert (I3 : Rabs (I - P3) <= eps * (cz - - cz) * (cR - - cR) * (b - a)).
  { apply (int_close _ _ _ _ _ _ _ H1 HI (proj2 CT)). intros y Hy. cbv beta. rewrite E2. apply I2; assumption. }
  replace (AT (fun y => AR (fun x => AZ (fun z => g x y z))) - I) with ((AT (fun y => AR (fun x => AZ (fun z => g x y z))) - P3) + - (I - P3)) by ring.
  eapply Rle_trans; [apply Rabs_triang|]. rewrite Rabs_Ropp. nra.
Qed.
