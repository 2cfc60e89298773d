(** Moment ratios, marginals, Monte-Carlo weights, samplers and the counterexamples of the quasi-isothermal distribution function. *)
From Coq Require Import Reals List Lra Lia Permutation.
From Coquelicot Require Import Coquelicot.
From Verif.Lib Require Import RealAux.
From Verif.Model Require Import QuasiDF.
From Verif.Spec Require Import QuasiDFSpec.
From Verif.Proofs Require Import QuasiForm QuasiGauss.
Import ListNotations.
Open Scope R_scope.
Notation RR := RbaseSymbolsImpl.R (only parsing).
Ltac rr := match goal with |- ?a = ?b => change (@eq RR a b) end.

(** ** Two Gauss-Legendre rules *)
Definition gl1 : rule := [(0, 2)].
Definition gl2 : rule := [(- / sqrt 3, 1); (/ sqrt 3, 1)].
Lemma pow_int k : is_RInt (fun x : RR => x ^ k) (-1) 1 ((1 ^ S k - (-1) ^ S k) / INR (S k)).
Proof.
  assert (N : INR (S k) <> 0) by (apply not_0_INR; lia).
  replace ((1 ^ S k - (-1) ^ S k) / INR (S k)) with (minus ((fun x => x ^ S k / INR (S k)) 1) ((fun x => x ^ S k / INR (S k)) (-1))) by (unfold minus, plus, opp; cbn -[pow INR]; rr; field; exact N).
  apply (is_RInt_derive (V := R_CompleteNormedModule) (fun x => x ^ S k / INR (S k)) (fun x => x ^ k)).
  - intros x _. pose proof (is_derive_pow (fun x : RR => x) (S k) x 1 (is_derive_id (K := R_AbsRing) x)) as D. pose proof (is_derive_scal (fun x : RR => x ^ S k) x (/ INR (S k)) _ D) as D2.
    eapply is_derive_ext; [|eapply is_derive_eq; [exact D2|]]; [intros; cbn -[pow INR]; rr; unfold Rdiv; ring|]. cbn -[pow INR]. cbn [pred]. rr. field. exact N.
  - intros x _. apply pow_cont.
Qed.
Lemma pow_val k v : (1 ^ S k - (-1) ^ S k) / INR (S k) = v -> is_RInt (fun x : RR => x ^ k) (-1) 1 v.
Proof. intros <-. apply pow_int. Qed.
Lemma gl1_ok : gauss_legendre 1 gl1.
Proof.
  split; [reflexivity|]. split; [repeat constructor; cbn; lra|]. split; [cbn; rewrite Ropp_0; apply Permutation_refl|].
  intros k Hk. destruct k as [|[|k]]; [| |lia]; apply pow_val; cbn; field.
Qed.
Lemma gl2_ok : gauss_legendre 2 gl2.
Proof.
  assert (S3 : 0 < sqrt 3) by (apply sqrt_lt_R0; lra). assert (Q : sqrt 3 * sqrt 3 = 3) by (apply sqrt_sqrt; lra).
  assert (I : 0 < / sqrt 3) by (apply Rinv_0_lt_compat; exact S3). assert (I2 : / sqrt 3 * / sqrt 3 = / 3) by (transitivity (/ (sqrt 3 * sqrt 3)); [field; lra|rewrite Q; reflexivity]). assert (I1 : / sqrt 3 <= 1) by nra.
  split; [reflexivity|]. split; [apply List.Forall_cons; [cbn; lra|]; apply List.Forall_cons; [cbn; lra|]; apply List.Forall_nil|]. split; [cbn; rewrite Ropp_involutive; apply perm_swap|].
  intros k Hk. destruct k as [|[|[|[|k]]]]; [| | | |lia]; apply pow_val; cbn; generalize dependent (/ sqrt 3); intros s; intros; first [lra|nra|field].
Qed.
Definition gl12 (n : nat) : rule := match n with 1%nat => gl1 | 2%nat => gl2 | _ => [] end.

(** ** Moments as one weighted sum; inequalities *)
Definition node : Type := ((RR * RR) * (RR * RR) * (RR * RR))%type.
Definition nT (g : node) := fst (fst (fst g)). Definition nR (g : node) := fst (snd (fst g)). Definition nZ (g : node) := fst (snd g).
Definition Wt q ns vTm R z (g : node) : RR := let '(t, r, v) := g in fa q R z (fst r) (fst t) (fst v) * snd t * snd r * snd v * (sigR1 q R * sigz1 q R * (125 / 1000) * vTm * ns ^ 2).
Definition the_grid q gl ngl ns vTm R : list node := grid3 (half_nodes vTm (gl ngl)) (nodesR q gl ngl (ns * sigR1 q R)) (nodesR q gl ngl (ns * sigz1 q R)).
Lemma vmoment_flat q gl ngl ns vTm R z n m o I : vmoment_gl q gl ngl ns vTm R z n m o = Some I ->
  I = if andb (q_adia q) (orb (Nat.odd n) (Nat.odd o)) then 0 else sum (List.map (fun g => Wt q ns vTm R z g * (nR g ^ n * nT g ^ m * nZ g ^ o)) (the_grid q gl ngl ns vTm R)).
Proof.
  unfold vmoment_gl. destruct (andb (q_adia q) (orb (Nat.odd n) (Nat.odd o))); [intros [= <-]; reflexivity|]. destruct (Nat.odd ngl); [discriminate|]. cbv zeta. fold (the_grid q gl ngl ns vTm R). intros H.
  destruct (exp_call_array q (List.map (point3 R z) (the_grid q gl ngl ns vTm R))) as [l|] eqn:EE; [|discriminate]. injection H as <-. rewrite (grid_eval q (point3 R z) (the_grid q gl ngl ns vTm R) l _ EE).
  apply sum_ext. intros [[t r] v] _. unfold Wt, nR, nT, nZ, fa. cbn [point3 aA_at fst snd]. rr. ring.
Qed.
Definition pos_rule (r : rule) := List.Forall (fun xw => 0 < snd xw) r.
Lemma half_pos c r : pos_rule r -> pos_rule (half_nodes c r).
Proof. unfold pos_rule, half_nodes. intros H. apply Forall_map. exact H. Qed.
Lemma sym_pos c r : pos_rule r -> pos_rule (sym_nodes c r).
Proof. intros H. apply Forall_app. split; [apply half_pos; exact H|]. unfold pos_rule. apply Forall_map. exact H. Qed.
Lemma nodes_pos q gl ngl c : (forall n, pos_rule (gl n)) -> pos_rule (nodesR q gl ngl c).
Proof. intros H. unfold nodesR. destruct (q_adia q); [apply half_pos|apply sym_pos]; apply H. Qed.
Lemma fa_nonneg q R z a b c : 0 <= fa q R z a b c.
Proof. unfold fa. destruct (q_aA q R a b z c) as [J|]; [|lra]. destruct (call_log true q None None J); cbn; try lra. left. apply exp_pos. Qed.
Lemma Wt_nonneg q gl ngl ns vTm R z g : (forall n, pos_rule (gl n)) -> q_ok q -> 0 <= vTm -> In g (the_grid q gl ngl ns vTm R) -> 0 <= Wt q ns vTm R z g.
Proof.
  intros Hg [H1 H2] HT Hin. unfold the_grid, grid3 in Hin. apply in_flat_map in Hin. destruct Hin as (t & Ht & Hin). apply in_flat_map in Hin. destruct Hin as (r & Hr & Hin). apply in_map_iff in Hin. destruct Hin as (v & <- & Hv).
  pose proof (proj1 (Forall_forall _ _) (half_pos vTm _ (Hg ngl)) t Ht) as W1. pose proof (proj1 (Forall_forall _ _) (nodes_pos q gl ngl _ Hg) r Hr) as W2. pose proof (proj1 (Forall_forall _ _) (nodes_pos q gl ngl _ Hg) v Hv) as W3. cbn in W1, W2, W3.
  unfold Wt. pose proof (fa_nonneg q R z (fst r) (fst t) (fst v)). assert (0 < sigR1 q R) by (apply Rmult_lt_0_compat; [exact H1|apply exp_pos]). assert (0 < sigz1 q R) by (apply Rmult_lt_0_compat; [exact H2|apply exp_pos]).
  pose proof (pow2_ge_0 ns). generalize dependent (sigR1 q R). generalize dependent (sigz1 q R). generalize dependent (fa q R z (fst r) (fst t) (fst v)). generalize dependent (ns ^ 2). intros. repeat apply Rmult_le_pos; lra.
Qed.
Lemma sum_nonneg {A} (f : A -> RR) l : (forall a, In a l -> 0 <= f a) -> 0 <= sum (List.map f l).
Proof. intros H. replace 0 with (sum (List.map (fun _ : A => 0) l)) at 1; [apply sum_le; exact H|]. clear H. induction l as [|a l IH]; unfold sum in *; cbn; [reflexivity|]. rewrite IH. lra. Qed.
Lemma cauchy {A} (w a b : A -> RR) l : (forall x, In x l -> 0 <= w x) -> sum (List.map (fun x => w x * (a x * b x)) l) ^ 2 <= sum (List.map (fun x => w x * (a x * a x)) l) * sum (List.map (fun x => w x * (b x * b x)) l).
Proof.
  intros H. set (A1 := sum (List.map (fun x => w x * (a x * a x)) l)). set (B := sum (List.map (fun x => w x * (a x * b x)) l)). set (C := sum (List.map (fun x => w x * (b x * b x)) l)).
  assert (P : forall s t, 0 <= s ^ 2 * A1 + 2 * s * t * B + t ^ 2 * C).
  { intros s t. replace (s ^ 2 * A1 + 2 * s * t * B + t ^ 2 * C) with (sum (List.map (fun x => w x * (s * a x + t * b x) ^ 2) l)).
    - apply sum_nonneg. intros x Hx. apply Rmult_le_pos; [apply H; exact Hx|apply pow2_ge_0].
    - unfold A1, B, C. rewrite <- !sum_scal, <- !sum_plus. apply sum_ext. intros. ring. }
  assert (C0 : 0 <= C) by (specialize (P 0 1); lra). destruct C0 as [C0|C0].
  - pose proof (P C (- B)) as Q. assert (0 <= C * (A1 * C - B ^ 2)) by (eapply Rle_trans; [exact Q|right; ring]). apply Rmult_le_reg_l with C; [exact C0|]. lra.
  - rewrite <- C0 in *. destruct (Req_dec B 0) as [Z|Z]; [rewrite Z; lra|]. pose proof (P 1 (- (A1 + 1) / (2 * B))) as Q. replace (1 ^ 2 * A1 + 2 * 1 * (- (A1 + 1) / (2 * B)) * B + (- (A1 + 1) / (2 * B)) ^ 2 * 0) with (-1) in Q by (field; exact Z). lra.
Qed.

(** ** Marginals *)
Definition vrule q gl ngl c (h : RR -> RR) : RR := if q_adia q then 2 * rule_on (gl ngl) 0 c h else two_panels (gl (ngl / 2)%nat) c h.
Lemma fac_rule q gl ngl c h : (q_adia q = false -> symmetric (gl (ngl / 2)%nat)) -> facR q c * Sm (nodesR q gl ngl c) h = vrule q gl ngl c h.
Proof.
  intros S. unfold facR, nodesR, vrule. destruct (q_adia q); [rewrite <- Sm_half; field|]. rewrite <- Sm_sym by (apply S; reflexivity). field.
Qed.
Lemma vrule_ext q gl ngl c h h' : (forall x, h x = h' x) -> vrule q gl ngl c h = vrule q gl ngl c h'.
Proof. intros H. unfold vrule. destruct (q_adia q); [f_equal; apply Rule_on_ext|apply two_panels_ext]; exact H. Qed.
Section Marginals.
  Variables (q : QDF) (gl : nat -> rule) (ngl : nat) (ns vTm R z : RR).
  Hypothesis S : q_adia q = false -> symmetric (gl (ngl / 2)%nat).
  Let f := fa q R z.
  Lemma pvR_rule vR I : pvR q gl ngl ns vTm vR R z = Some I -> I = rule_on (gl ngl) 0 vTm (fun vT => vrule q gl ngl (ns * sigz1 q R) (fun vz => f vR vT vz)).
  Proof.
    unfold pvR. destruct (Nat.odd ngl); [discriminate|]. cbv zeta. set (c := ns * sigz1 q R). match goal with |- match exp_call_array q (List.map ?pt ?g) with _ => _ end = _ -> _ => destruct (exp_call_array q (List.map pt g)) as [l|] eqn:EE; [|discriminate] end.
    intros [= <-]. rewrite (grid_eval q _ _ l _ EE). unfold grid2. rewrite sum_flat. rewrite <- Sm_half. unfold Sm at 1. replace (1 / 2 * vTm) with (vTm / 2) by field. rewrite Rmult_comm. apply f_equal. apply sum_ext. intros t _.
    rewrite map_map. rewrite <- fac_rule by exact S. fold c. unfold Sm. rewrite <- !sum_scal. apply sum_ext. intros v _. cbn. unfold f, fa. rr. ring.
  Qed.
  Lemma pvT_rule vT I : pvT q gl ngl ns vT R z = Some I -> I = vrule q gl ngl (ns * sigR1 q R) (fun vR => vrule q gl ngl (ns * sigz1 q R) (fun vz => f vR vT vz)).
  Proof.
    unfold pvT. destruct (Nat.odd ngl); [discriminate|]. cbv zeta. set (c := ns * sigz1 q R). set (d := ns * sigR1 q R). match goal with |- match exp_call_array q (List.map ?pt ?g) with _ => _ end = _ -> _ => destruct (exp_call_array q (List.map pt g)) as [l|] eqn:EE; [|discriminate] end.
    intros [= <-]. rewrite (grid_eval q _ _ l _ EE). unfold grid2. rewrite sum_flat. rewrite <- fac_rule by exact S. unfold Sm at 1. rewrite <- sum_scal. apply sum_ext. intros t _.
    rewrite map_map. rewrite <- fac_rule by exact S. fold c. unfold Sm. rewrite <- !sum_scal. apply sum_ext. intros v _. cbn. unfold f, fa. rr. ring.
  Qed.
  Lemma nodes_scaled c s : List.map (fun xw : RR * RR => (fst xw * s, snd xw)) (nodesR q gl ngl c) = nodesR q gl ngl (c * s).
  Proof.
    unfold nodesR. destruct (q_adia q); unfold sym_nodes, half_nodes; rewrite ?map_app, ?map_map; [|f_equal]; apply map_ext; intros [x w]; cbn; f_equal; field.
  Qed.
  Lemma pvz_rule vz I : pvz q gl ngl ns vTm vz R z = Some I -> I = rule_on (gl ngl) 0 vTm (fun vT => vrule q gl ngl (ns * sigR1 q R) (fun vR => f vR vT vz)).
  Proof.
    unfold pvz. destruct (Nat.odd ngl); [discriminate|]. cbv zeta. rewrite nodes_scaled. replace (2 * (ns * sigR1 q R / 2)) with (ns * sigR1 q R) by field. set (c := ns * sigR1 q R).
    match goal with |- match exp_call_array q (List.map ?pt ?g) with _ => _ end = _ -> _ => destruct (exp_call_array q (List.map pt g)) as [l|] eqn:EE; [|discriminate] end.
    intros [= <-]. rewrite (grid_eval q _ _ l _ EE). unfold grid2. rewrite sum_flat. rewrite <- Sm_half. unfold Sm at 1. replace (1 / 2 * vTm) with (vTm / 2) by field. rewrite Rmult_comm. apply f_equal. rewrite Rmult_comm, <- sum_scal. apply sum_ext. intros t _.
    rewrite map_map. rewrite <- fac_rule by exact S. fold c. unfold Sm. rewrite <- !sum_scal. apply sum_ext. intros v _. cbn. unfold f, fa. rr. ring.
  Qed.
  Lemma pvRvz_rule vR vz I : pvRvz q gl ngl vTm vR vz R z = Some I -> I = rule_on (gl ngl) 0 vTm (fun vT => f vR vT vz).
  Proof.
    unfold pvRvz. destruct (Nat.odd ngl); [discriminate|]. cbv zeta. match goal with |- match exp_call_array q (List.map ?pt ?g) with _ => _ end = _ -> _ => destruct (exp_call_array q (List.map pt g)) as [l|] eqn:EE; [|discriminate] end.
    intros [= <-]. rewrite (grid_eval q _ _ l _ EE). rewrite <- Sm_half. unfold Sm at 1. rewrite <- sum_scal. apply sum_ext. intros t _. cbn. unfold f, fa. rr. field.
  Qed.
  Lemma pvRvT_rule vR vT I : (forall xw, In xw (nodesR q gl ngl (ns * sigz1 q R)) -> q_aA q R vR vT z (fst xw) <> None) -> pvRvT q gl ngl ns vR vT R z = Some I -> I = vrule q gl ngl (ns * sigz1 q R) (fun vz => f vR vT vz).
  Proof.
    unfold pvRvT. intros B. destruct (Nat.odd ngl); [discriminate|]. cbv zeta. set (c := ns * sigz1 q R) in *. set (g := nodesR q gl ngl c) in *.
    destruct (exp_call_array q (List.map (fun v => (R, vR, vT, z, fst v)) g)) as [l|x] eqn:EE.
    - intros [= <-]. rewrite (grid_eval q (fun v => (R, vR, vT, z, fst v)) g l _ EE). rewrite <- fac_rule by exact S. fold g. unfold Sm. rewrite <- sum_scal. apply sum_ext. intros v _. cbn. unfold f, fa. rr. ring.
    - exfalso. unfold exp_call_array in EE. destruct (all_some (List.map (aA_at q) (List.map (fun v => (R, vR, vT, z, fst v)) g))) eqn:E; [discriminate|]. clear EE. rewrite map_map in E. cbn in E. clearbody g. clear -B E. induction g as [|a g IH]; cbn in E; [discriminate|].
      destruct (q_aA q R vR vT z (fst a)) eqn:Ea; [|exact (B a (or_introl eq_refl) Ea)]. apply IH; [intros xw Hx; apply B; right; exact Hx|]. destruct (all_some _); [discriminate|reflexivity].
  Qed.
  Lemma pvTvz_rule vT vz I : (forall xw, In xw (nodesR q gl ngl (ns * sigR1 q R)) -> q_aA q R (fst xw) vT z vz <> None) -> pvTvz q gl ngl ns vT vz R z = Some I -> I = vrule q gl ngl (ns * sigR1 q R) (fun vR => f vR vT vz).
  Proof.
    unfold pvTvz. intros B. destruct (Nat.odd ngl); [discriminate|]. cbv zeta. set (c := ns * sigR1 q R) in *. set (g := nodesR q gl ngl c) in *.
    destruct (exp_call_array q (List.map (fun v => (R, fst v, vT, z, vz)) g)) as [l|x] eqn:EE.
    - intros [= <-]. rewrite (grid_eval q (fun v => (R, fst v, vT, z, vz)) g l _ EE). rewrite <- fac_rule by exact S. fold g. unfold Sm. rewrite <- sum_scal. apply sum_ext. intros v _. cbn. unfold f, fa. rr. ring.
    - exfalso. unfold exp_call_array in EE. destruct (all_some (List.map (aA_at q) (List.map (fun v => (R, fst v, vT, z, vz)) g))) eqn:E; [discriminate|]. clear EE. rewrite map_map in E. cbn in E. clearbody g. clear -B E. induction g as [|a g IH]; cbn in E; [discriminate|].
      destruct (q_aA q R (fst a) vT z vz) eqn:Ea; [|exact (B a (or_introl eq_refl) Ea)]. apply IH; [intros xw Hx; apply B; right; exact Hx|]. destruct (all_some _); [discriminate|reflexivity].
  Qed.
End Marginals.
