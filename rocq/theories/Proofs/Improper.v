(** Improper integrals of functions continuous on the positive half line, and their derivatives. *)
From Coq Require Import Reals Lra.
From Coquelicot Require Import Coquelicot.
From Verif.Lib Require Import RealAux.
From Verif.Spec Require Import JeansSpec.
From Verif.Proofs Require Import JeansProofs.
Open Scope R_scope.
Notation RR := RbaseSymbolsImpl.R (only parsing).
Ltac rr := match goal with |- ?a = ?b => change (@eq RR a b) end.

Definition low (h : RR -> RR) (x : RR) : RR := RInt_gen (V := R_CompleteNormedModule) h (at_right 0) (at_point x).
Definition high (h : RR -> RR) (x : RR) : RR := RInt_gen (V := R_CompleteNormedModule) h (at_point x) (Rbar_locally p_infty).
Lemma pos_near (x : RR) : 0 < x -> locally x (fun y => 0 < y). Proof. intros H. apply (open_gt 0 x H). Qed.
Lemma right_pos : at_right 0 (fun x => 0 < x). Proof. exists (mkposreal 1 Rlt_0_1). intros y _ Hy. exact Hy. Qed.
Lemma inf_pos : Rbar_locally p_infty (fun x => 0 < x). Proof. exists 0. auto. Qed.
Lemma ftc (h F : RR -> RR) a b : continuous_outside h -> (forall x, 0 < x -> is_derive F x (h x)) -> 0 < a -> 0 < b -> is_RInt h a b (F b - F a).
Proof.
  intros C D Ha Hb. apply (is_RInt_derive (V := R_CompleteNormedModule) F h); intros x [H _]; assert (0 < x) by (apply Rlt_le_trans with (2 := H); unfold Rmin; destruct (Rle_dec a b); assumption); [apply D|apply C]; assumption.
Qed.
(** From an antiderivative that vanishes at 0 or at infinity. *)
Lemma low_ftc (h F : RR -> RR) x : continuous_outside h -> (forall x, 0 < x -> is_derive F x (h x)) -> filterlim F (at_right 0) (locally 0) -> 0 < x -> is_RInt_gen h (at_right 0) (at_point x) (F x).
Proof.
  intros C D L Hx P HP. assert (Lim : filterlim (fun a => F x - F a) (at_right 0) (locally (F x))).
  { apply (filterlim_comp _ _ _ F (fun y => F x - y) _ (locally 0)); [exact L|]. assert (Q : continuous (fun y : RR => F x - y) 0) by (apply (ex_derive_continuous (V := R_NormedModule)); auto_derive; exact I). unfold continuous in Q. rewrite Rminus_0_r in Q. exact Q. }
  specialize (Lim P HP). apply Filter_prod with (Q := fun a => 0 < a /\ P (F x - F a)) (R := fun b => b = x).
  - apply filter_and; [apply right_pos|exact Lim].
  - reflexivity.
  - intros a b [Ha HPa] ->. exists (F x - F a). split; [apply ftc; assumption|exact HPa].
Qed.
Lemma high_ftc (h F : RR -> RR) x : continuous_outside h -> (forall x, 0 < x -> is_derive F x (h x)) -> filterlim F (Rbar_locally p_infty) (locally 0) -> 0 < x -> is_RInt_gen h (at_point x) (Rbar_locally p_infty) (- F x).
Proof.
  intros C D L Hx P HP. assert (Lim : filterlim (fun a => F a - F x) (Rbar_locally p_infty) (locally (- F x))).
  { apply (filterlim_comp _ _ _ F (fun y => y - F x) _ (locally 0)); [exact L|]. assert (Q : continuous (fun y : RR => y - F x) 0) by (apply (ex_derive_continuous (V := R_NormedModule)); auto_derive; exact I). unfold continuous in Q. rewrite Rminus_0_l in Q. exact Q. }
  specialize (Lim P HP). apply Filter_prod with (Q := fun b => b = x) (R := fun a => 0 < a /\ P (F a - F x)).
  - reflexivity.
  - apply filter_and; [apply inf_pos|exact Lim].
  - intros a b -> [Hb HPb]. exists (F b - F x). split; [apply ftc; assumption|exact HPb].
Qed.
(** From the existence of one improper integral. *)
Definition prim (h : RR -> RR) (x : RR) : RR := RInt h 1 x.
Lemma prim_derive h x : continuous_outside h -> 0 < x -> is_derive (prim h) x (h x).
Proof.
  intros C Hx. apply (is_derive_RInt (V := R_CompleteNormedModule) h (prim h) 1 x); [|apply C; exact Hx]. apply filter_imp with (2 := pos_near x Hx). intros y Hy. apply (RInt_correct (V := R_CompleteNormedModule)). apply cont_ex_RInt; [lra|exact Hy|exact C].
Qed.
Lemma prim_low h x L : continuous_outside h -> 0 < x -> is_RInt_gen h (at_right 0) (at_point x) L -> filterlim (prim h) (at_right 0) (locally (prim h x - L)).
Proof.
  intros C Hx H P HP. assert (HP' : locally L (fun y => P (prim h x - y))).
  { assert (Q : continuous (fun y : RR => prim h x - y) L) by (apply (ex_derive_continuous (V := R_NormedModule)); auto_derive; exact I). exact (Q P HP). }
  destruct (H _ HP') as [A B HA HB HH]. cbn in HB. pose proof right_pos as HR. unfold filtermap. apply filter_imp with (2 := filter_and _ _ HA HR). intros a [Ha Ha0]. destruct (HH a x Ha HB) as (y & Hy & Py). cbn in Hy.
  assert (E : y = prim h x - prim h a). { rewrite <- (is_RInt_unique (V := R_CompleteNormedModule) _ _ _ _ Hy). symmetry. rewrite <- (is_RInt_unique (V := R_CompleteNormedModule) _ _ _ _ (ftc h (prim h) a x C (fun z Hz => prim_derive h z C Hz) Ha0 Hx)). reflexivity. }
  rewrite E in Py. replace (prim h x - (prim h x - prim h a)) with (prim h a) in Py by ring. exact Py.
Qed.
Lemma prim_high h x L : continuous_outside h -> 0 < x -> is_RInt_gen h (at_point x) (Rbar_locally p_infty) L -> filterlim (prim h) (Rbar_locally p_infty) (locally (prim h x + L)).
Proof.
  intros C Hx H P HP. assert (HP' : locally L (fun y => P (prim h x + y))).
  { assert (Q : continuous (fun y : RR => prim h x + y) L) by (apply (ex_derive_continuous (V := R_NormedModule)); auto_derive; exact I). exact (Q P HP). }
  destruct (H _ HP') as [A B HA HB HH]. cbn in HA. pose proof inf_pos as HR. unfold filtermap. apply filter_imp with (2 := filter_and _ _ HB HR). intros a [Ha Ha0]. destruct (HH x a HA Ha) as (y & Hy & Py). cbn in Hy.
  assert (E : y = prim h a - prim h x). { rewrite <- (is_RInt_unique (V := R_CompleteNormedModule) _ _ _ _ Hy). symmetry. rewrite <- (is_RInt_unique (V := R_CompleteNormedModule) _ _ _ _ (ftc h (prim h) x a C (fun z Hz => prim_derive h z C Hz) Hx Ha0)). reflexivity. }
  rewrite E in Py. replace (prim h x + (prim h a - prim h x)) with (prim h a) in Py by ring. exact Py.
Qed.
Lemma shift_lim (F : RR -> RR) G (l : RR) : Filter G -> filterlim F G (locally l) -> filterlim (fun x => F x - l) G (locally 0).
Proof.
  intros FG H. apply (filterlim_comp _ _ _ F (fun y => y - l) _ (locally l)); [exact H|]. assert (Q : continuous (fun y : RR => y - l) l) by (apply (ex_derive_continuous (V := R_NormedModule)); auto_derive; exact I). unfold continuous in Q. rewrite Rminus_eq_0 in Q. exact Q.
Qed.
Lemma shift_derive (F : RR -> RR) l x d : is_derive F x d -> is_derive (fun y => F y - l) x d.
Proof. intros H. replace d with (minus d 0) by (unfold minus, plus, opp; cbn; rr; ring). apply (is_derive_minus F (fun _ => l)); [exact H|apply (is_derive_const (V := R_NormedModule))]. Qed.
Section OneSide.
  Variable h : RR -> RR.
  Hypothesis C : continuous_outside h.
  Lemma low_all : ex_RInt_gen h (at_right 0) (at_point 1) -> exists l, filterlim (prim h) (at_right 0) (locally l) /\ (forall x, 0 < x -> is_RInt_gen h (at_right 0) (at_point x) (prim h x - l)) /\ (forall x, 0 < x -> low h x = prim h x - l).
  Proof.
    intros [L H]. pose proof (prim_low h 1 L C Rlt_0_1 H) as Lim. exists (prim h 1 - L). split; [exact Lim|]. assert (A : forall x, 0 < x -> is_RInt_gen h (at_right 0) (at_point x) (prim h x - (prim h 1 - L))).
    { intros x Hx. apply (low_ftc h (fun y => prim h y - (prim h 1 - L))); [exact C| |apply shift_lim; [apply _|exact Lim]|exact Hx]. intros y Hy. apply shift_derive. apply prim_derive; assumption. }
    split; [exact A|]. intros x Hx. unfold low. exact (is_RInt_gen_unique (V := R_CompleteNormedModule) (Fa := at_right 0) (Fb := at_point x) h _ (A x Hx)).
  Qed.
  Lemma low_ok x : ex_RInt_gen h (at_right 0) (at_point 1) -> 0 < x -> is_RInt_gen h (at_right 0) (at_point x) (low h x).
  Proof. intros E Hx. destruct (low_all E) as (l & _ & A & B). rewrite B by exact Hx. apply A. exact Hx. Qed.
  Lemma low_derive x : ex_RInt_gen h (at_right 0) (at_point 1) -> 0 < x -> is_derive (low h) x (h x).
  Proof.
    intros E Hx. destruct (low_all E) as (l & _ & A & B). apply (is_derive_ext_loc (fun y => prim h y - l)).
    - apply filter_imp with (2 := pos_near x Hx). intros y Hy. symmetry. apply B. exact Hy.
    - apply shift_derive. apply prim_derive; assumption.
  Qed.
  Lemma low_lim : ex_RInt_gen h (at_right 0) (at_point 1) -> filterlim (low h) (at_right 0) (locally 0).
  Proof.
    intros E. destruct (low_all E) as (l & L & A & B). apply (filterlim_ext_loc (fun y => prim h y - l)).
    - generalize right_pos. apply filter_imp. intros y Hy. symmetry. apply B. exact Hy.
    - apply shift_lim; [apply _|exact L].
  Qed.
  Lemma high_all : ex_RInt_gen h (at_point 1) (Rbar_locally p_infty) -> exists l, filterlim (prim h) (Rbar_locally p_infty) (locally l) /\ (forall x, 0 < x -> is_RInt_gen h (at_point x) (Rbar_locally p_infty) (l - prim h x)) /\ (forall x, 0 < x -> high h x = l - prim h x).
  Proof.
    intros [L H]. pose proof (prim_high h 1 L C Rlt_0_1 H) as Lim. exists (prim h 1 + L). split; [exact Lim|]. assert (A : forall x, 0 < x -> is_RInt_gen h (at_point x) (Rbar_locally p_infty) (prim h 1 + L - prim h x)).
    { intros x Hx. replace (prim h 1 + L - prim h x) with (- (prim h x - (prim h 1 + L))) by ring. apply (high_ftc h (fun y => prim h y - (prim h 1 + L))); [exact C| |apply shift_lim; [apply _|exact Lim]|exact Hx]. intros y Hy. apply shift_derive. apply prim_derive; assumption. }
    split; [exact A|]. intros x Hx. unfold high. exact (is_RInt_gen_unique (V := R_CompleteNormedModule) (Fa := at_point x) (Fb := Rbar_locally p_infty) h _ (A x Hx)).
  Qed.
  Lemma high_ok x : ex_RInt_gen h (at_point 1) (Rbar_locally p_infty) -> 0 < x -> is_RInt_gen h (at_point x) (Rbar_locally p_infty) (high h x).
  Proof. intros E Hx. destruct (high_all E) as (l & _ & A & B). rewrite B by exact Hx. apply A. exact Hx. Qed.
  Lemma high_derive x : ex_RInt_gen h (at_point 1) (Rbar_locally p_infty) -> 0 < x -> is_derive (high h) x (- h x).
  Proof.
    intros E Hx. destruct (high_all E) as (l & _ & A & B). apply (is_derive_ext_loc (fun y => - (prim h y - l))).
    - apply filter_imp with (2 := pos_near x Hx). intros y Hy. rewrite B by exact Hy. rr. ring.
    - apply (is_derive_opp (fun y => prim h y - l)). apply shift_derive. apply prim_derive; assumption.
  Qed.
  Lemma high_lim : ex_RInt_gen h (at_point 1) (Rbar_locally p_infty) -> filterlim (high h) (Rbar_locally p_infty) (locally 0).
  Proof.
    intros E. destruct (high_all E) as (l & L & A & B). apply (filterlim_ext_loc (fun y => - (prim h y - l))).
    - generalize inf_pos. apply filter_imp. intros y Hy. rewrite B by exact Hy. rr. ring.
    - apply (filterlim_comp _ _ _ (fun y => prim h y - l) (fun y => - y) _ (locally 0)); [apply shift_lim; [apply _|exact L]|]. assert (Q : continuous (fun y : RR => - y) 0) by (apply (ex_derive_continuous (V := R_NormedModule)); auto_derive; exact I). unfold continuous in Q. rewrite Ropp_0 in Q. exact Q.
  Qed.
End OneSide.
(** A non-negative function bounded by one with a convergent integral. *)
Lemma mono_lim (F : RR -> RR) B : (forall x y, 1 <= x -> x <= y -> F x <= F y) -> (forall x, 1 <= x -> F x <= B) -> exists l, filterlim F (Rbar_locally p_infty) (locally l).
Proof.
  intros M H. destruct (completeness (fun v => exists x, 1 <= x /\ v = F x)) as [l [U L]].
  - exists B. intros v (x & Hx & ->). apply H. exact Hx.
  - exists (F 1), 1. split; [lra|reflexivity].
  - exists l. intros P [e HP]. assert (exists x, 1 <= x /\ l - e < F x) as (x & Hx & Hl).
    { destruct (Classical_Prop.classic (exists x, 1 <= x /\ l - e < F x)) as [G|G]; [exact G|]. exfalso. assert (l <= l - e); [|pose proof (cond_pos e); lra]. apply L. intros v (x & Hx & ->). apply Rnot_lt_le. intros Q. apply G. exists x. split; assumption. }
    exists x. intros y Hy. apply HP. unfold ball. cbn. unfold AbsRing_ball, abs, minus, plus, opp. cbn. pose proof (M x y Hx ltac:(lra)). pose proof (U (F y) ltac:(exists y; split; [lra|reflexivity])). rewrite Rabs_left1 by lra. lra.
Qed.
Lemma dom_high (h g G : RR -> RR) : continuous_outside h -> (forall x, 1 <= x -> 0 <= h x <= g x) -> continuous_outside g -> (forall x, 0 < x -> is_derive G x (g x)) -> (forall x, 1 <= x -> G x <= 0) -> ex_RInt_gen h (at_point 1) (Rbar_locally p_infty).
Proof.
  intros C H Cg D HG. destruct (mono_lim (prim h) (- G 1)) as [l L].
  - intros x y Hx Hxy. assert (is_RInt h x y (prim h y - prim h x)) by (apply ftc; [exact C|intros; apply prim_derive; assumption|lra|lra]). assert (0 <= prim h y - prim h x); [|lra]. rewrite <- (is_RInt_unique (V := R_CompleteNormedModule) _ _ _ _ H0). apply RInt_ge_0; [lra|eexists; exact H0|]. intros z Hz. apply H. lra.
  - intros x Hx. assert (Q : prim h x <= G x - G 1). { assert (I : is_RInt g 1 x (G x - G 1)) by (apply ftc; [exact Cg|exact D|lra|lra]). rewrite <- (is_RInt_unique (V := R_CompleteNormedModule) _ _ _ _ I). apply RInt_le; [lra|apply cont_ex_RInt; [lra|lra|exact C]|eexists; exact I|]. intros z Hz. apply H. lra. }
    specialize (HG x Hx). lra.
  - exists (l - prim h 1). replace (l - prim h 1) with (- (prim h 1 - l)) by ring. apply (high_ftc h (fun y => prim h y - l)); [exact C| |apply shift_lim; [apply _|exact L]|lra]. intros y Hy. apply shift_derive. apply prim_derive; assumption.
Qed.
(** A continuous function with a positive value somewhere and no negative ones has a positive integral. *)
Lemma high_pos (h : RR -> RR) x : continuous_outside h -> ex_RInt_gen h (at_point 1) (Rbar_locally p_infty) -> 0 < x -> (forall y, 0 < y -> 0 < h y) -> 0 < high h x.
Proof.
  intros C E Hx Hp. destruct (high_all h C E) as (l & L & A & B).
  assert (Mono : forall u v, 0 < u -> u < v -> prim h u < prim h v).
  { intros u v Hu Huv. assert (I : is_RInt h u v (prim h v - prim h u)) by (apply ftc; [exact C|intros; apply prim_derive; assumption|lra|lra]).
    assert (0 < prim h v - prim h u); [|lra]. rewrite <- (is_RInt_unique (V := R_CompleteNormedModule) _ _ _ _ I). apply RInt_gt_0; [lra|intros; apply Hp; lra|]. intros y Hy. apply C. lra. }
  rewrite B by exact Hx. assert (prim h (x + 1) <= l); [|pose proof (Mono x (x + 1) Hx ltac:(lra)); lra].
  apply (filterlim_le (F := Rbar_locally p_infty) (fun _ => prim h (x + 1)) (prim h) (prim h (x + 1)) l); [|apply filterlim_const|exact L].
  exists (x + 1). intros y Hy. apply Rlt_le. apply Mono; lra.
Qed.
Lemma low_pos (h : RR -> RR) x : continuous_outside h -> ex_RInt_gen h (at_right 0) (at_point 1) -> 0 < x -> (forall y, 0 < y -> 0 < h y) -> 0 < low h x.
Proof.
  intros C E Hx Hp. destruct (low_all h C E) as (l & L & A & B).
  assert (Mono : forall u v, 0 < u -> u < v -> prim h u < prim h v).
  { intros u v Hu Huv. assert (I : is_RInt h u v (prim h v - prim h u)) by (apply ftc; [exact C|intros; apply prim_derive; assumption|lra|lra]).
    assert (0 < prim h v - prim h u); [|lra]. rewrite <- (is_RInt_unique (V := R_CompleteNormedModule) _ _ _ _ I). apply RInt_gt_0; [lra|intros; apply Hp; lra|]. intros y Hy. apply C. lra. }
  rewrite B by exact Hx. assert (l <= prim h (x / 2)); [|pose proof (Mono (x / 2) x ltac:(lra) ltac:(lra)); lra].
  assert (Q : Rbar_le (Finite l) (Finite (prim h (x / 2)))); [|exact Q]. apply (filterlim_le (F := at_right 0) (prim h) (fun _ => prim h (x / 2)) (Finite l) (Finite (prim h (x / 2)))); [|exact L|apply filterlim_const].
  assert (H2 : 0 < x / 2) by lra. exists (mkposreal _ H2). intros y Hy Hy0. unfold ball in Hy; cbn in Hy; unfold AbsRing_ball, abs, minus, plus, opp in Hy; cbn in Hy. apply Rlt_le. apply Mono; [exact Hy0|]. rewrite Rabs_pos_eq in Hy by lra. lra.
Qed.
Lemma whole (h : RR -> RR) x : continuous_outside h -> ex_RInt_gen h (at_right 0) (at_point 1) -> ex_RInt_gen h (at_point 1) (Rbar_locally p_infty) -> 0 < x ->
  is_RInt_gen h (at_right 0) (Rbar_locally p_infty) (low h x + high h x).
Proof.
  intros C E1 E2 Hx. apply (is_RInt_gen_Chasles (V := R_NormedModule) (Fa := at_right 0) (Fc := Rbar_locally p_infty) h x (low h x) (high h x)); [apply low_ok|apply high_ok]; assumption.
Qed.
