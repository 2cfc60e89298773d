(** Stability of the steps of bovy_rk.c and the error of runs made of them. *)
From Coq Require Import Reals Lra Lia List FunctionalExtensionality ZArith.
From Coquelicot Require Import Coquelicot.
From Verif.Lib Require Import RealAux.
From Verif.Model Require Import Symplectic RungeKutta.
From Verif.Spec Require Import OrderSpec.
From Verif.Proofs Require Import RKOrder RK4Local RKLinear RK6Local DP5Local RKConv.
Import ListNotations.
Open Scope R_scope.
Notation RR := RbaseSymbolsImpl.R (only parsing).

Section Stages.
  Context {J : Type}.
  Variables (f : RR -> vec J -> vec J) (y : RR -> vec J) (T delta L : RR) (n : nat).
  Variables (d : nat -> RR -> vec J) (A : nat -> RR -> vec J -> vec J).
  Hypothesis (HT : 0 < T) (Hdelta : 0 < delta) (HL : 0 <= L) (Hs : smooth_with f y T delta L n d A) (Hn : (1 <= n)%nat).
  Notation St := (St y T).
  Definition SB (G : sfam (J := J)) : Prop := St G /\ O T 0 (fun t h => G t h (y t)).
  Lemma SB_St G : SB G -> St G.
  Proof. intros H. exact (proj1 H). Qed.
  Lemma SB_plus G G' : SB G -> SB G' -> SB (fun t h x j => G t h x j + G' t h x j).
  Proof. intros [H1 H2] [H3 H4]. split; [apply St_plus; assumption|]. exact (O_plus T 0 _ _ H2 H4). Qed.
  Lemma SB_scal c G : SB G -> SB (fun t h x j => c * G t h x j).
  Proof. intros [H1 H2]. split; [apply St_scal; assumption|]. exact (O_scal T 0 c _ H2). Qed.
  Lemma d0_step c : 0 <= c <= 1 -> O T 1 (fun t h j => y (t + c * h) j - y t j).
  Proof.
    intros Hc. refine (O_ext T 1 _ _ _ (O_drem f y T delta L n d A HL Hs 0 1 c ltac:(lia) Hc)). intros t h j Ht Hh Hth.
    unfold drem. rewrite tp1. cbn [Nat.add]. assert (B : 0 <= c * h <= h) by (split; nra). rewrite !(s_d0 _ _ _ _ _ _ _ _ Hs) by lra. reflexivity.
  Qed.
  Lemma SB_stage (c : RR) (tau : RR -> RR -> RR) (Z G : sfam (J := J)) : 0 <= c <= 1 -> (forall t h, tau t h = t + c * h) ->
    (forall t h x j, Z t h x j = x j + h * G t h x j) -> SB G -> SB (fun t h x => f (tau t h) (Z t h x)).
  Proof.
    intros Hc Ht HZ [G1 G2].
    assert (SZ : St Z) by (refine (St_ext _ _ _ _ (fun t h x j => eq_sym (HZ t h x j)) _); apply St_plus; [apply St_id|apply St_h; exact G1]).
    assert (OZ : O T 1 (off y c (fun t h => Z t h (y t)))).
    { refine (O_ext T 1 _ _ _ (O_plus T 1 _ _ (O_scal T 1 (-1) _ (d0_step c Hc)) (O_h T 0 _ G2))). intros t h j _ _ _. unfold off, oplus, oscal, oh. rewrite HZ. ring. }
    assert (E : (fun t h x => f (tau t h) (Z t h x)) = (fun t h x => f (t + c * h) (Z t h x))) by (do 3 (apply functional_extensionality; intros); rewrite Ht; reflexivity).
    rewrite E. split; [apply (St_f f y T delta L Hdelta HL (s_lip _ _ _ _ _ _ _ _ Hs) c Z Hc OZ SZ)|].
    destruct OZ as (D & h2 & HD & Hh2 & HO). set (h3 := Rmin h2 (delta / (D + 1))).
    assert (Q1 : 0 < delta / (D + 1)) by (apply Rdiv_lt_0_compat; lra).
    assert (A1 : h3 <= h2) by apply Rmin_l. assert (A2 : h3 <= delta / (D + 1)) by apply Rmin_r. assert (P3 : 0 < h3) by (unfold h3; apply Rmin_glb_lt; lra).
    exists (L * delta + L), h3. split; [pose proof (Rmult_le_pos L delta HL); lra|]. split; [lra|]. intros t h H1 H2 H3 j. cbn [pow]. rewrite Rmult_1_r.
    assert (B : 0 <= c * h <= h) by (split; nra).
    assert (W : within delta (Z t h (y t)) (y (t + c * h))).
    { intros i. pose proof (HO t h H1 ltac:(lra) H3 i) as W. unfold off in W. rewrite pow_1 in W. eapply Rle_trans; [exact W|]. apply Rle_trans with (D * (delta / (D + 1))); [apply Rmult_le_compat_l; lra|].
      assert (D * (delta / (D + 1)) = delta - delta / (D + 1)) by (field; lra). lra. }
    assert (W0 : within delta (y (t + c * h)) (y (t + c * h))) by (intros i; rewrite Rminus_eq_0, Rabs_R0; lra).
    pose proof (s_lip _ _ _ _ _ _ _ _ Hs (t + c * h) _ _ delta ltac:(lra) W W0 W j) as V.
    pose proof (s_bound _ _ _ _ _ _ _ _ Hs 1%nat (t + c * h) Hn ltac:(lra) j) as B1. rewrite (s_d1 _ _ _ _ _ _ _ _ Hs) in B1 by lra.
    replace (f (t + c * h) (Z t h (y t)) j) with ((f (t + c * h) (Z t h (y t)) j - f (t + c * h) (y (t + c * h)) j) + f (t + c * h) (y (t + c * h)) j) by ring.
    eapply Rle_trans; [apply Rabs_triang|]. lra.
  Qed.
  Lemma SB_zero : SB (fun t h x j => 0).
  Proof. split; [exists 0, 1, 1|exists 0, 1]; repeat split; try lra; intros; intros j; rewrite ?Rminus_eq_0, Rabs_R0; lra. Qed.
  Lemma SB_first : SB (fun t h x => f t x).
  Proof. apply (SB_stage 0 (fun t _ => t) (fun t h x => x) (fun t h x j => 0)); [lra|intros; ring|intros; ring|apply SB_zero]. Qed.
  Ltac comb := repeat (apply SB_plus || apply SB_scal); try apply SB_first; try assumption.

  Section R4.
    Definition p2 : sfam := fun t h x => f (t + h / 2) (fun i => x i + h * f t x i / 2).
    Definition p3 : sfam := fun t h x => f (t + h / 2) (fun i => x i + h * p2 t h x i / 2).
    Definition p4 : sfam := fun t h x => f (t + h) (fun i => x i + h * p3 t h x i).
    Lemma rk4_form t h x j : rk4_onestep f x x t h j = x j + h * (1 / 6 * f t x j + 1 / 3 * p2 t h x j + 1 / 3 * p3 t h x j + 1 / 6 * p4 t h x j).
    Proof. unfold rk4_onestep. fold (p2 t h x). fold (p3 t h x). fold (p4 t h x). field. Qed.
    Lemma rk4_stable : stable_step y T (fun t h x => rk4_onestep f x x t h).
    Proof.
      assert (H2 : SB p2) by (apply (SB_stage (1 / 2) (fun t h => t + h / 2) (fun t h x i => x i + h * f t x i / 2) (fun t h x i => 1 / 2 * f t x i)); [lra|intros; field|intros; field|comb]).
      assert (H3 : SB p3) by (apply (SB_stage (1 / 2) (fun t h => t + h / 2) (fun t h x i => x i + h * p2 t h x i / 2) (fun t h x i => 1 / 2 * p2 t h x i)); [lra|intros; field|intros; field|comb]).
      assert (H4 : SB p4) by (apply (SB_stage 1 (fun t h => t + h) (fun t h x i => x i + h * p3 t h x i) (fun t h x i => p3 t h x i)); [lra|intros; ring|intros; ring|comb]).
      apply (step_stable y T _ (fun t h x i => 1 / 6 * f t x i + 1 / 3 * p2 t h x i + 1 / 3 * p3 t h x i + 1 / 6 * p4 t h x i)).
      - intros t h x j. apply rk4_form.
      - apply SB_St. comb.
    Qed.
  End R4.
  Section R6.
    Definition q2 : sfam := fun t h x => f (t + h / 3) (fun i => x i + h * f t x i / 3).
    Definition q3 : sfam := fun t h x => f (t + 2 * h / 3) (fun i => x i + 2 * (h * q2 t h x i) / 3).
    Definition q4 : sfam := fun t h x => f (t + h / 3) (fun i => x i + (h * f t x i + 4 * (h * q2 t h x i) - h * q3 t h x i) / 12).
    Definition q5 : sfam := fun t h x => f (t + h / 2) (fun i => x i + (- (h * f t x i) + 18 * (h * q2 t h x i) - 3 * (h * q3 t h x i) - 6 * (h * q4 t h x i)) / 16).
    Definition q6 : sfam := fun t h x => f (t + h / 2) (fun i => x i + (9 * (h * q2 t h x i) - 3 * (h * q3 t h x i) - 6 * (h * q4 t h x i) + 4 * (h * q5 t h x i)) / 8).
    Definition q7 : sfam := fun t h x => f (t + h) (fun i => x i + (9 * (h * f t x i) - 36 * (h * q2 t h x i) + 63 * (h * q3 t h x i) + 72 * (h * q4 t h x i) - 64 * (h * q6 t h x i)) / 44).
    Lemma rk6_form t h x j : rk6_onestep f x x t h j =
      x j + h * (11 / 120 * f t x j + 81 / 120 * q3 t h x j + 81 / 120 * q4 t h x j + - (32 / 120) * q5 t h x j + - (32 / 120) * q6 t h x j + 11 / 120 * q7 t h x j).
    Proof. unfold rk6_onestep. fold (q2 t h x). fold (q3 t h x). fold (q4 t h x). fold (q5 t h x). fold (q6 t h x). fold (q7 t h x). field. Qed.
    Lemma rk6_stable : stable_step y T (fun t h x => rk6_onestep f x x t h).
    Proof.
      assert (H2 : SB q2) by (eapply (SB_stage (1 / 3) (fun t h => t + h / 3) _ (fun t h x i => 1 / 3 * f t x i)); [lra|intros; field|intros; field|comb]).
      assert (H3 : SB q3) by (eapply (SB_stage (2 / 3) (fun t h => t + 2 * h / 3) _ (fun t h x i => 2 / 3 * q2 t h x i)); [lra|intros; field|intros; field|comb]).
      assert (H4 : SB q4) by (eapply (SB_stage (1 / 3) (fun t h => t + h / 3) _ (fun t h x i => 1 / 12 * f t x i + 4 / 12 * q2 t h x i + - (1 / 12) * q3 t h x i)); [lra|intros; field|intros; field|comb]).
      assert (H5 : SB q5) by (eapply (SB_stage (1 / 2) (fun t h => t + h / 2) _ (fun t h x i => - (1 / 16) * f t x i + 18 / 16 * q2 t h x i + - (3 / 16) * q3 t h x i + - (6 / 16) * q4 t h x i)); [lra|intros; field|intros; field|comb]).
      assert (H6 : SB q6) by (eapply (SB_stage (1 / 2) (fun t h => t + h / 2) _ (fun t h x i => 9 / 8 * q2 t h x i + - (3 / 8) * q3 t h x i + - (6 / 8) * q4 t h x i + 4 / 8 * q5 t h x i)); [lra|intros; field|intros; field|comb]).
      assert (H7 : SB q7) by (eapply (SB_stage 1 (fun t h => t + h) _ (fun t h x i => 9 / 44 * f t x i + - (36 / 44) * q2 t h x i + 63 / 44 * q3 t h x i + 72 / 44 * q4 t h x i + - (64 / 44) * q6 t h x i)); [lra|intros; field|intros; field|comb]).
      apply (step_stable y T _ (fun t h x i => 11 / 120 * f t x i + 81 / 120 * q3 t h x i + 81 / 120 * q4 t h x i + - (32 / 120) * q5 t h x i + - (32 / 120) * q6 t h x i + 11 / 120 * q7 t h x i)).
      - intros t h x j. apply rk6_form.
      - apply SB_St. comb.
    Qed.
  End R6.
  Section D5.
    Definition r2 : sfam := fun t h x => f (t + 2 / 10 * h) (fun i => x i + 2 / 10 * (h * f t x i)).
    Definition r3 : sfam := fun t h x => f (t + 3 / 10 * h) (fun i => x i + 3 / 40 * (h * f t x i) + 9 / 40 * (h * r2 t h x i)).
    Definition r4 : sfam := fun t h x => f (t + 8 / 10 * h) (fun i => x i + 44 / 45 * (h * f t x i) + - (56 / 15) * (h * r2 t h x i) + 32 / 9 * (h * r3 t h x i)).
    Definition r5 : sfam := fun t h x => f (t + 8 / 9 * h) (fun i => x i + 19372 / 6561 * (h * f t x i) + - (25360 / 2187) * (h * r2 t h x i) + 64448 / 6561 * (h * r3 t h x i) + - (212 / 729) * (h * r4 t h x i)).
    Definition r6 : sfam := fun t h x => f (t + h) (fun i => x i + 9017 / 3168 * (h * f t x i) + - (355 / 33) * (h * r2 t h x i) + 46732 / 5247 * (h * r3 t h x i) + 49 / 176 * (h * r4 t h x i) + - (5103 / 18656) * (h * r5 t h x i)).
    Lemma dopr54_form t h x j : fst (fst (dopr54_propose f x (f t x) t h)) j =
      x j + h * (35 / 384 * f t x j + 500 / 1113 * r3 t h x j + 125 / 192 * r4 t h x j + - (2187 / 6784) * r5 t h x j + 11 / 84 * r6 t h x j).
    Proof. unfold dopr54_propose. cbn [fst]. fold (r2 t h x). fold (r3 t h x). fold (r4 t h x). fold (r5 t h x). fold (r6 t h x). field. Qed.
    Lemma dopr54_last t h x : snd (dopr54_propose f x (f t x) t h) = f (t + h) (fst (fst (dopr54_propose f x (f t x) t h))).
    Proof.
      unfold dopr54_propose. cbn [fst snd]. fold (r2 t h x). fold (r3 t h x). fold (r4 t h x). fold (r5 t h x). fold (r6 t h x).
      f_equal. 
    Qed.
    Lemma dopr54_stable : stable_step y T (fun t h x => fst (fst (dopr54_propose f x (f t x) t h))).
    Proof.
      assert (H2 : SB r2) by (eapply (SB_stage (2 / 10) (fun t h => t + 2 / 10 * h) _ (fun t h x i => 2 / 10 * f t x i)); [lra|intros; field|intros; field|comb]).
      assert (H3 : SB r3) by (eapply (SB_stage (3 / 10) (fun t h => t + 3 / 10 * h) _ (fun t h x i => 3 / 40 * f t x i + 9 / 40 * r2 t h x i)); [lra|intros; field|intros; field|comb]).
      assert (H4 : SB r4) by (eapply (SB_stage (8 / 10) (fun t h => t + 8 / 10 * h) _ (fun t h x i => 44 / 45 * f t x i + - (56 / 15) * r2 t h x i + 32 / 9 * r3 t h x i)); [lra|intros; field|intros; field|comb]).
      assert (H5 : SB r5) by (eapply (SB_stage (8 / 9) (fun t h => t + 8 / 9 * h) _ (fun t h x i => 19372 / 6561 * f t x i + - (25360 / 2187) * r2 t h x i + 64448 / 6561 * r3 t h x i + - (212 / 729) * r4 t h x i)); [lra|intros; field|intros; field|comb]).
      assert (H6 : SB r6) by (eapply (SB_stage 1 (fun t h => t + h) _ (fun t h x i => 9017 / 3168 * f t x i + - (355 / 33) * r2 t h x i + 46732 / 5247 * r3 t h x i + 49 / 176 * r4 t h x i + - (5103 / 18656) * r5 t h x i)); [lra|intros; field|intros; field|comb]).
      apply (step_stable y T _ (fun t h x i => 35 / 384 * f t x i + 500 / 1113 * r3 t h x i + 125 / 192 * r4 t h x i + - (2187 / 6784) * r5 t h x i + 11 / 84 * r6 t h x i)).
      - intros t h x j. apply dopr54_form.
      - apply SB_St. comb.
    Qed.
  End D5.
End Stages.
