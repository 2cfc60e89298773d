(** Angles of librations: primitives of f / sqrt(S) between two turning points, continued along an orbit by the sign of the momentum. *)
From Coq Require Import Reals Lra ZArith.
From Coquelicot Require Import Coquelicot.
From Verif.Lib Require Import RealAux.
From Verif.Proofs Require Import EOMProofs StaeckelProofs.
Open Scope R_scope.
Notation RR := RbaseSymbolsImpl.R (only parsing).
Ltac rr := match goal with |- ?a = ?b => change (@eq RR a b) end.

(** ** Functions that are constant between isolated points *)
Lemma flat_between (h : RR -> RR) (x y : RR) : x < y -> (forall s, x <= s <= y -> is_derive h s 0) -> h x = h y.
Proof. intros L H. apply (eq_is_derive h x y H L). Qed.
Lemma cont_eps (h : RR -> RR) t : continuous h t -> forall e, 0 < e -> exists d, 0 < d /\ forall s, Rabs (s - t) < d -> Rabs (h s - h t) < e.
Proof.
  intros C e He. assert (L : locally t (fun s => Rabs (h s - h t) < e)).
  { apply (C (fun y => Rabs (y - h t) < e)). exists (mkposreal e He). intros y B. exact B. }
  destruct L as [d L]. exists d. split; [apply cond_pos|]. intros s Hs. apply L. exact Hs.
Qed.
Lemma eps_cont (h : RR -> RR) t : (forall e, 0 < e -> exists d, 0 < d /\ forall s, Rabs (s - t) < d -> Rabs (h s - h t) < e) -> continuous h t.
Proof.
  intros H P [e HP]. destruct (H e (cond_pos e)) as (d & Hd & B). exists (mkposreal d Hd). intros s Hs. apply HP. apply B. exact Hs.
Qed.
Lemma locally_const (h : RR -> RR) t (eps : RR) : 0 < eps -> continuous h t -> (forall s, Rabs (s - t) < eps -> s <> t -> is_derive h s 0) ->
  forall s, Rabs (s - t) < eps -> h s = h t.
Proof.
  intros He C D s Hs. destruct (Req_dec s t) as [E|N]; [rewrite E; reflexivity|].
  destruct (Req_dec (h s) (h t)) as [E|Nh]; [exact E|exfalso].
  destruct (cont_eps h t C (Rabs (h s - h t)) ltac:(apply Rabs_pos_lt; lra)) as (d & Hd & B).
  assert (R : exists r, Rabs (r - t) < d /\ h r = h s).
  { destruct (Rlt_dec s t) as [L|L].
    - exists (Rmax s (t - d / 2)). assert (A : s <= Rmax s (t - d / 2) < t) by (split; [apply Rmax_l|apply Rmax_lub_lt; lra]). pose proof (Rmax_r s (t - d / 2)).
      split; [rewrite Rabs_left; lra|]. destruct (Req_dec s (Rmax s (t - d / 2))) as [E|Ne]; [rewrite <- E; reflexivity|].
      symmetry. apply flat_between; [lra|]. intros x Hx. apply D; [|lra]. rewrite Rabs_left by lra. rewrite Rabs_left in Hs by lra. lra.
    - exists (Rmin s (t + d / 2)). assert (A : t < Rmin s (t + d / 2) <= s) by (split; [apply Rmin_glb_lt; lra|apply Rmin_l]). pose proof (Rmin_r s (t + d / 2)).
      split; [rewrite Rabs_pos_eq; lra|]. destruct (Req_dec s (Rmin s (t + d / 2))) as [E|Ne]; [rewrite <- E; reflexivity|].
      apply flat_between; [lra|]. intros x Hx. apply D; [|lra]. rewrite Rabs_pos_eq by lra. rewrite Rabs_pos_eq in Hs by lra. lra. }
  destruct R as (r & Hr & E). specialize (B r Hr). rewrite E in B. lra.
Qed.
Lemma isolated_constant (h : RR -> RR) a b : (forall t, a < t < b -> continuous h t) ->
  (forall t, a < t < b -> exists eps, 0 < eps /\ forall s, Rabs (s - t) < eps -> s <> t -> is_derive h s 0) ->
  forall t t', a < t < b -> a < t' < b -> h t = h t'.
Proof.
  intros C D. assert (Z : forall t, a < t < b -> is_derive h t 0).
  { intros t Ht. destruct (D t Ht) as (eps & He & B). apply (is_derive_ext_loc (fun _ => h t)).
    - exists (mkposreal eps He). intros s Hs. symmetry. apply (locally_const h t eps He (C t Ht) B). exact Hs.
    - exact (is_derive_cst (h t) t). }
  assert (W : forall t t', a < t < b -> a < t' < b -> t < t' -> h t = h t').
  { intros t t' Ht Ht' L. apply flat_between; [exact L|]. intros s Hs. apply Z. lra. }
  intros t t' Ht Ht'. destruct (Rtotal_order t t') as [L|[E|L]]; [apply W; assumption|rewrite E; reflexivity|symmetry; apply W; assumption].
Qed.

(** ** Angles *)
(** [A] and [B] are the same angle. *)
Definition mod2pi (A B : RR) : Prop := exists k : Z, A = B + 2 * PI * IZR k.
Lemma mod2pi_cos A B : mod2pi A B -> cos A = cos B /\ sin A = sin B.
Proof.
  intros [k E]. subst A. assert (H : forall n : nat, forall x, cos (x + 2 * PI * INR n) = cos x /\ sin (x + 2 * PI * INR n) = sin x).
  { intros n x. replace (x + 2 * PI * INR n) with (x + 2 * INR n * PI) by ring. split; [apply cos_period|apply sin_period]. }
  destruct (Z_le_dec 0 k) as [L|L].
  - rewrite <- (Z2Nat.id k L), <- INR_IZR_INZ. apply H.
  - assert (K : IZR k = - INR (Z.to_nat (- k))). { rewrite INR_IZR_INZ, Z2Nat.id by (apply Z.opp_nonneg_nonpos; apply Z.lt_le_incl; apply Z.nle_gt; exact L). rewrite opp_IZR. ring. }
    rewrite K. set (n := Z.to_nat (- k)). destruct (H n (B + 2 * PI * - INR n)) as [C S].
    replace (B + 2 * PI * - INR n + 2 * PI * INR n) with B in * by ring. split; symmetry; assumption.
Qed.
(** A function of time that grows at the rate [om] except at isolated times, and is continuous as an angle there. *)
Definition angular (A : RR -> RR) (om : RR) (t : RR) : Prop :=
  (exists B : RR -> RR, continuous B t /\ forall s, mod2pi (A s) (B s)) /\
  (exists eps, 0 < eps /\ forall s, Rabs (s - t) < eps -> s <> t -> is_derive A s om).
Lemma mod2pi_sym A B : mod2pi A B -> mod2pi B A.
Proof. intros [k E]. exists (- k)%Z. rewrite opp_IZR, E. ring. Qed.
Lemma mod2pi_refl A : mod2pi A A.
Proof. exists 0%Z. ring. Qed.
Lemma mod2pi_add A B A' B' : mod2pi A B -> mod2pi A' B' -> mod2pi (A + A') (B + B').
Proof. intros [k E] [k' E']. exists (k + k')%Z. rewrite plus_IZR, E, E'. ring. Qed.
Lemma cos_sin_mod2pi A B : cos A = cos B -> sin A = sin B -> mod2pi A B.
Proof.
  intros C S. assert (Z : cos (A - B) = 1). { rewrite cos_minus, C, S. pose proof (sin2_cos2 B) as Q. unfold Rsqr in Q. lra. }
  assert (H : sin ((A - B) / 2) = 0).
  { replace (A - B) with (2 * ((A - B) / 2)) in Z by field. rewrite cos_2a_sin in Z. assert (Q : sin ((A - B) / 2) * sin ((A - B) / 2) = 0) by lra. apply Rmult_integral in Q. tauto. }
  destruct (sin_eq_0_0 _ H) as [k E]. exists k. lra.
Qed.
Theorem angular_linear (A : RR -> RR) om a b : (forall t, a < t < b -> angular A om t) ->
  forall t t', a < t < b -> a < t' < b -> mod2pi (A t') (A t + om * (t' - t)).
Proof.
  intros H.
  assert (Cc : forall t, a < t < b -> continuous (fun s => cos (A s)) t /\ continuous (fun s => sin (A s)) t).
  { intros t Ht. destruct (H t Ht) as ((B & C & E) & _). split.
    - apply (continuous_ext (fun s => cos (B s))); [intros s; symmetry; apply (mod2pi_cos _ _ (E s))|].
      apply (continuous_comp B cos); [exact C|apply (@ex_derive_continuous R_AbsRing R_NormedModule); auto_derive; exact I].
    - apply (continuous_ext (fun s => sin (B s))); [intros s; symmetry; apply (mod2pi_cos _ _ (E s))|].
      apply (continuous_comp B sin); [exact C|apply (@ex_derive_continuous R_AbsRing R_NormedModule); auto_derive; exact I]. }
  assert (K : forall g : RR -> RR, (forall x, continuous g x) -> forall t, continuous (fun s => g (om * s)) t).
  { intros g Cg t. apply (continuous_comp (fun s => om * s) g); [|apply Cg]. apply (@ex_derive_continuous R_AbsRing R_NormedModule). auto_derive. exact I. }
  assert (Kc : forall t, continuous (fun s => cos (om * s)) t) by (apply K; intros x; apply (@ex_derive_continuous R_AbsRing R_NormedModule); auto_derive; exact I).
  assert (Ks : forall t, continuous (fun s => sin (om * s)) t) by (apply K; intros x; apply (@ex_derive_continuous R_AbsRing R_NormedModule); auto_derive; exact I).
  assert (D : forall t, a < t < b -> exists eps, 0 < eps /\ forall s, Rabs (s - t) < eps -> s <> t -> is_derive (fun s => A s - om * s) s 0).
  { intros t Ht. destruct (H t Ht) as (_ & eps & He & B). exists eps. split; [exact He|]. intros s Hs N.
    refine (is_derive_eq _ _ _ _ (d_minus A (fun s => om * s) s _ _ (B s Hs N) (d_scale (fun s => s) s om 1 (d_id s))) _). rr. ring. }
  assert (C1 : forall t t', a < t < b -> a < t' < b -> cos (A t - om * t) = cos (A t' - om * t')).
  { apply (isolated_constant (fun t => cos (A t - om * t))).
    - intros t Ht. apply (continuous_ext (fun s => cos (A s) * cos (om * s) + sin (A s) * sin (om * s))); [intros s; rewrite cos_minus; reflexivity|].
      destruct (Cc t Ht). apply (continuous_plus (fun s => cos (A s) * cos (om * s)) (fun s => sin (A s) * sin (om * s)));
        [apply (continuous_mult (fun s => cos (A s)) (fun s => cos (om * s)))|apply (continuous_mult (fun s => sin (A s)) (fun s => sin (om * s)))]; auto.
    - intros t Ht. destruct (D t Ht) as (eps & He & B). exists eps. split; [exact He|]. intros s Hs N.
      refine (is_derive_eq _ _ _ _ (d_cos _ s _ (B s Hs N)) _). rr. ring. }
  assert (C2 : forall t t', a < t < b -> a < t' < b -> sin (A t - om * t) = sin (A t' - om * t')).
  { apply (isolated_constant (fun t => sin (A t - om * t))).
    - intros t Ht. apply (continuous_ext (fun s => sin (A s) * cos (om * s) - cos (A s) * sin (om * s))); [intros s; rewrite sin_minus; reflexivity|].
      destruct (Cc t Ht). apply (continuous_minus (fun s => sin (A s) * cos (om * s)) (fun s => cos (A s) * sin (om * s)));
        [apply (continuous_mult (fun s => sin (A s)) (fun s => cos (om * s)))|apply (continuous_mult (fun s => cos (A s)) (fun s => sin (om * s)))]; auto.
    - intros t Ht. destruct (D t Ht) as (eps & He & B). exists eps. split; [exact He|]. intros s Hs N.
      refine (is_derive_eq _ _ _ _ (d_sin _ s _ (B s Hs N)) _). rr. ring. }
  intros t t' Ht Ht'. destruct (cos_sin_mod2pi (A t' - om * t') (A t - om * t) (C1 t' t Ht' Ht) (C2 t' t Ht' Ht)) as [k E]. exists k. lra.
Qed.

(** ** Primitives between turning points *)
Record prim (Sq f P : RR -> RR) (q0 q1 T : RR) : Prop := mkPrim {
  prim_0 : P q0 = 0; prim_1 : P q1 = T; prim_c : forall q, q0 <= q <= q1 -> continuous P q;
  prim_d : forall q, q0 < q < q1 -> is_derive P q (f q / sqrt (Sq q)) }.
Definition branch (P : RR -> RR) (T p q : RR) : RR := if Rlt_dec 0 p then P q else 2 * T - P q.
Lemma prim_lin Sq f P f' P' q0 q1 T T' x y : prim Sq f P q0 q1 T -> prim Sq f' P' q0 q1 T' ->
  prim Sq (fun q => x * f q + y * f' q) (fun q => x * P q + y * P' q) q0 q1 (x * T + y * T').
Proof.
  intros [A0 A1 A2 A3] [B0 B1 B2 B3]. constructor.
  - rewrite A0, B0. ring.
  - rewrite A1, B1. reflexivity.
  - intros q Hq. apply (continuous_plus (fun q => x * P q) (fun q => y * P' q)).
    + apply (continuous_scal_r x P). exact (A2 q Hq).
    + apply (continuous_scal_r y P'). exact (B2 q Hq).
  - intros q Hq. refine (is_derive_eq _ _ _ _ (is_derive_Rplus _ _ q _ _ (d_scale P q x _ (A3 q Hq)) (d_scale P' q y _ (B3 q Hq))) _). rr. unfold Rdiv. ring.
Qed.
Lemma branch_lin P P' T T' x y p q : branch (fun q => x * P q + y * P' q) (x * T + y * T') p q = x * branch P T p q + y * branch P' T' p q.
Proof. unfold branch. destruct (Rlt_dec 0 p); ring. Qed.

(** ** Along an orbit *)
Section Curve.
  Variables (Sq f P : RR -> RR) (q0 q1 T kap : RR) (q p : RR -> RR) (m dp : RR) (t : RR).
  Hypotheses (HP : prim Sq f P q0 q1 T) (Hk : 0 < kap) (Hm : 0 < m) (L01 : q0 < q1)
    (Pos : forall x, q0 < x < q1 -> 0 < Sq x) (S0 : Sq q0 = 0) (S1 : Sq q1 = 0)
    (Dq : is_derive q t (p t / m)) (Dp : is_derive p t dp)
    (Rq : locally t (fun s => q0 <= q s <= q1 /\ p s ^ 2 = kap ^ 2 * Sq (q s))).
  Lemma at_t : q0 <= q t <= q1 /\ p t ^ 2 = kap ^ 2 * Sq (q t).
  Proof. exact (locally_singleton t _ Rq). Qed.
  Lemma moving_inside : p t <> 0 -> q0 < q t < q1.
  Proof.
    intros N. destruct at_t as [[A B] E]. split.
    - destruct A as [A|A]; [exact A|]. exfalso. rewrite <- A, S0, Rmult_0_r in E. apply N. replace (p t ^ 2) with (p t * p t) in E by ring. apply Rmult_integral in E. tauto.
    - destruct B as [B|B]; [exact B|]. exfalso. rewrite B, S1, Rmult_0_r in E. apply N. replace (p t ^ 2) with (p t * p t) in E by ring. apply Rmult_integral in E. tauto.
  Qed.
  Lemma stopped_outside : p t = 0 -> q t = q0 \/ q t = q1.
  Proof.
    intros Z. destruct at_t as [[A B] E]. destruct A as [A|A]; [|left; auto]. destruct B as [B|B]; [|right; auto]. exfalso.
    pose proof (Pos (q t) ltac:(lra)). rewrite Z in E. pose proof (pow_lt _ 2 Hk). nra.
  Qed.
  Lemma p_cont : continuous p t.
  Proof. apply (@ex_derive_continuous R_AbsRing R_NormedModule). exists dp. exact Dp. Qed.
  Lemma q_cont : continuous q t.
  Proof. apply (@ex_derive_continuous R_AbsRing R_NormedModule). eexists. exact Dq. Qed.
  Lemma sqrt_S (s : RR) : p s ^ 2 = kap ^ 2 * Sq (q s) -> sqrt (Sq (q s)) = Rabs (p s) / kap.
  Proof.
    intros E. assert (Q : Sq (q s) = (Rabs (p s) / kap) ^ 2).
    { replace ((Rabs (p s) / kap) ^ 2) with (Rabs (p s) ^ 2 / kap ^ 2) by (field; lra). rewrite pow2_abs, E. field. lra. }
    rewrite Q. apply sqrt_pow2. apply Rdiv_le_0_compat; [apply Rabs_pos|exact Hk].
  Qed.
  Lemma branch_rate : p t <> 0 -> is_derive (fun s => branch P T (p s) (q s)) t (kap * f (q t) / m).
  Proof.
    intros N. pose proof (moving_inside N) as In. pose proof (prim_d _ _ _ _ _ _ HP (q t) In) as D. rewrite (sqrt_S t (proj2 at_t)) in D.
    pose proof (is_derive_Rchain P q t _ _ D Dq) as DP. pose proof p_cont as C.
    destruct (Rtotal_order (p t) 0) as [L|[L|L]]; [|contradiction|].
    - apply (is_derive_ext_loc (fun s => 2 * T - P (q s))).
      + assert (Lo : locally t (fun s => p s < 0)) by (apply (C (fun y => y < 0)); apply (open_lt 0); exact L).
        eapply filter_imp; [|exact Lo]. intros s Hs. cbv beta in Hs. unfold branch. destruct (Rlt_dec 0 (p s)); [lra|reflexivity].
      + refine (is_derive_eq _ _ _ _ (d_minus (fun _ => 2 * T) (fun s => P (q s)) t _ _ (is_derive_cst _ _) DP) _).
        rewrite Rabs_left by exact L. rr. field. lra.
    - apply (is_derive_ext_loc (fun s => P (q s))).
      + assert (Lo : locally t (fun s => 0 < p s)) by (apply (C (fun y => 0 < y)); apply (open_gt 0); exact L).
        eapply filter_imp; [|exact Lo]. intros s Hs. cbv beta in Hs. unfold branch. destruct (Rlt_dec 0 (p s)); [reflexivity|lra].
      + refine (is_derive_eq _ _ _ _ DP _). rewrite Rabs_pos_eq by lra. rr. field. lra.
  Qed.
  Lemma PQ_cont : continuous (fun s => P (q s)) t.
  Proof. apply (continuous_comp q P); [exact q_cont|]. apply (prim_c _ _ _ _ _ _ HP), at_t. Qed.
  Lemma branch_cont (n : Z) : T = PI * IZR n -> exists B : RR -> RR, continuous B t /\ forall s, mod2pi (branch P T (p s) (q s)) (B s).
  Proof.
    intros HT. destruct (Req_dec (p t) 0) as [Z|N].
    2:{ exists (fun s => branch P T (p s) (q s)). split; [|intros s; apply mod2pi_refl].
        apply (@ex_derive_continuous R_AbsRing R_NormedModule). eexists. exact (branch_rate N). }
    pose proof PQ_cont as C. destruct (stopped_outside Z) as [E|E].
    - exists (fun s => if Rlt_dec 0 (p s) then P (q s) else - P (q s)). split.
      + assert (V : P (q t) = 0) by (rewrite E; apply (prim_0 _ _ _ _ _ _ HP)).
        apply eps_cont. intros e He. destruct (cont_eps _ t C e He) as (d & Hd & Bd). exists d. split; [exact Hd|]. intros s Hs. specialize (Bd s Hs).
        cbv beta in *. rewrite V in *. rewrite Ropp_0, Rminus_0_r in *.
        replace (if Rlt_dec 0 (p t) then 0 else 0) with 0 by (destruct (Rlt_dec 0 (p t)); reflexivity). rewrite Rminus_0_r.
        destruct (Rlt_dec 0 (p s)); [exact Bd|rewrite Rabs_Ropp; exact Bd].
      + intros s. unfold branch. destruct (Rlt_dec 0 (p s)); [apply mod2pi_refl|]. exists n. rewrite HT. ring.
    - exists (fun s => branch P T (p s) (q s)). split; [|intros s; apply mod2pi_refl].
      assert (V : P (q t) = T) by (rewrite E; apply (prim_1 _ _ _ _ _ _ HP)).
      apply eps_cont. intros e He. destruct (cont_eps _ t C e He) as (d & Hd & Bd). exists d. split; [exact Hd|]. intros s Hs. specialize (Bd s Hs).
      cbv beta in *. unfold branch. rewrite V in *.
      replace (if Rlt_dec 0 (p t) then T else 2 * T - T) with T by (destruct (Rlt_dec 0 (p t)); ring).
      destruct (Rlt_dec 0 (p s)); [exact Bd|]. replace (2 * T - P (q s) - T) with (- (P (q s) - T)) by ring. rewrite Rabs_Ropp. exact Bd.
  Qed.
  (** The momentum vanishes at isolated times only. *)
  Lemma stops_isolated : (p t = 0 -> dp <> 0) -> exists eps, 0 < eps /\ forall s, Rabs (s - t) < eps -> s <> t -> p s <> 0.
  Proof.
    intros H. destruct (Req_dec (p t) 0) as [Z|N].
    - specialize (H Z). apply is_derive_Reals in Dp. destruct (Dp (Rabs dp) ltac:(apply Rabs_pos_lt; exact H)) as [d Bd].
      exists d. split; [apply cond_pos|]. intros s Hs Ns Ps. specialize (Bd (s - t) ltac:(lra) Hs).
      replace (t + (s - t)) with s in Bd by ring. rewrite Ps, Z in Bd. replace ((0 - 0) / (s - t) - dp) with (- dp) in Bd by (field; lra).
      rewrite Rabs_Ropp in Bd. lra.
    - destruct (cont_eps p t p_cont (Rabs (p t)) ltac:(apply Rabs_pos_lt; exact N)) as (d & Hd & Bd). exists d. split; [exact Hd|].
      intros s Hs _ Ps. specialize (Bd s Hs). rewrite Ps, Rminus_0_l, Rabs_Ropp in Bd. lra.
  Qed.
End Curve.
