(** From the local error to the error of a run: stability of the steps, sums of errors, directions of time. *)
From Coq Require Import Reals Lra Lia List FunctionalExtensionality ZArith.
From Coquelicot Require Import Coquelicot.
From Verif.Lib Require Import RealAux.
From Verif.Model Require Import Symplectic RungeKutta.
From Verif.Spec Require Import OrderSpec.
From Verif.Proofs Require Import RKOrder RK4Local RKLinear RK6Local DP5Local.
Import ListNotations.
Open Scope R_scope.
Notation RR := RbaseSymbolsImpl.R (only parsing).

Section Stable.
  Context {J : Type}.
  Variables (f : RR -> vec J -> vec J) (y : RR -> vec J) (T delta L : RR).
  Hypothesis (HT : 0 < T) (Hdelta : 0 < delta) (HL : 0 <= L).
  Hypothesis Hlip : forall s x x' e, 0 <= s <= T -> within delta x (y s) -> within delta x' (y s) -> within e x x' -> within (L * e) (f s x) (f s x').
  Definition sfam := RR -> RR -> vec J -> vec J.
  Definition St (Z : sfam) : Prop := exists C h1 e0, 0 <= C /\ 0 < h1 <= 1 /\ 0 < e0 /\
    forall t h x e, 0 <= t -> 0 <= h <= h1 -> t + h <= T -> 0 <= e <= e0 -> within e x (y t) -> within (C * e) (Z t h x) (Z t h (y t)).
  Lemma St_id : St (fun t h x => x).
  Proof. exists 1, 1, 1. repeat split; try lra. intros t h x e _ _ _ He W. rewrite Rmult_1_l. exact W. Qed.
  Lemma St_ext Z Z' : (forall t h x j, Z t h x j = Z' t h x j) -> St Z -> St Z'.
  Proof. intros E (C & h1 & e0 & HC & Hh & He & H). exists C, h1, e0. do 3 (split; [assumption|]). intros t h x e H1 H2 H3 H4 W j. rewrite <- !E. apply H; assumption. Qed.
  Lemma St_plus Z Z' : St Z -> St Z' -> St (fun t h x j => Z t h x j + Z' t h x j).
  Proof.
    intros (C & h1 & e0 & HC & Hh & He & H) (C' & h1' & e0' & HC' & Hh' & He' & H'). exists (C + C'), (Rmin h1 h1'), (Rmin e0 e0').
    pose proof (Rmin_l h1 h1') as A1. pose proof (Rmin_r h1 h1') as A2. pose proof (Rmin_l e0 e0') as A3. pose proof (Rmin_r e0 e0') as A4.
    split; [lra|]. split; [split; [apply Rmin_glb_lt; lra|lra]|]. split; [apply Rmin_glb_lt; lra|]. intros t h x e H1 H2 H3 H4 W j.
    replace (Z t h x j + Z' t h x j - (Z t h (y t) j + Z' t h (y t) j)) with ((Z t h x j - Z t h (y t) j) + (Z' t h x j - Z' t h (y t) j)) by ring.
    rewrite Rmult_plus_distr_r. eapply Rle_trans; [apply Rabs_triang|]. apply Rplus_le_compat; [apply H|apply H']; try assumption; lra.
  Qed.
  Lemma St_scal c Z : St Z -> St (fun t h x j => c * Z t h x j).
  Proof.
    intros (C & h1 & e0 & HC & Hh & He & H). exists (Rabs c * C), h1, e0. split; [apply Rmult_le_pos; [apply Rabs_pos|exact HC]|]. do 2 (split; [assumption|]).
    intros t h x e H1 H2 H3 H4 W j. rewrite <- Rmult_minus_distr_l, Rabs_mult, Rmult_assoc. apply Rmult_le_compat_l; [apply Rabs_pos|]. apply H; assumption.
  Qed.
  Lemma St_h Z : St Z -> St (fun t h x j => h * Z t h x j).
  Proof.
    intros (C & h1 & e0 & HC & Hh & He & H). exists C, h1, e0. do 3 (split; [assumption|]).
    intros t h x e H1 H2 H3 H4 W j. rewrite <- Rmult_minus_distr_l, Rabs_mult, (Rabs_right h) by lra.
    apply Rle_trans with (1 * (C * e)); [|lra]. apply Rmult_le_compat; [lra|apply Rabs_pos|lra|]. apply H; assumption.
  Qed.
  Lemma St_f c Z : 0 <= c <= 1 -> O T 1 (off y c (fun t h => Z t h (y t))) -> St Z -> St (fun t h x => f (t + c * h) (Z t h x)).
  Proof.
    intros Hc (D & h2 & HD & Hh2 & HO) (C & h1 & e0 & HC & Hh & He & H).
    set (h3 := Rmin h1 (Rmin h2 (delta / 2 / (D + 1)))). set (e1 := Rmin e0 (delta / 2 / (C + 1))).
    assert (Q1 : 0 < delta / 2 / (D + 1)) by (apply Rdiv_lt_0_compat; lra). assert (Q2 : 0 < delta / 2 / (C + 1)) by (apply Rdiv_lt_0_compat; lra).
    assert (A1 : h3 <= h1) by apply Rmin_l. assert (A2 : h3 <= h2) by (eapply Rle_trans; [apply Rmin_r|apply Rmin_l]).
    assert (A3 : h3 <= delta / 2 / (D + 1)) by (eapply Rle_trans; [apply Rmin_r|apply Rmin_r]).
    assert (A4 : e1 <= e0) by apply Rmin_l. assert (A5 : e1 <= delta / 2 / (C + 1)) by apply Rmin_r.
    assert (P3 : 0 < h3) by (unfold h3; repeat apply Rmin_glb_lt; lra). assert (P1 : 0 < e1) by (unfold e1; repeat apply Rmin_glb_lt; lra).
    exists (L * C), h3, e1. split; [apply Rmult_le_pos; assumption|]. split; [lra|]. split; [exact P1|]. intros t h x e H1 H2 H3 H4 W.
    assert (B : 0 <= c * h <= h) by (split; nra).
    pose proof (H t h x e H1 ltac:(lra) H3 ltac:(lra) W) as WZ. pose proof (HO t h H1 ltac:(lra) H3) as WO.
    assert (HW : within (delta / 2) (Z t h (y t)) (y (t + c * h))).
    { intros j. specialize (WO j). unfold off in WO. eapply Rle_trans; [exact WO|]. rewrite pow_1. apply Rle_trans with (D * (delta / 2 / (D + 1))); [apply Rmult_le_compat_l; lra|].
      assert (D * (delta / 2 / (D + 1)) = delta / 2 - delta / 2 / (D + 1)) by (field; lra). lra. }
    assert (HZ : within (delta / 2) (Z t h x) (Z t h (y t))).
    { intros j. eapply Rle_trans; [apply WZ|]. apply Rle_trans with (C * (delta / 2 / (C + 1))); [apply Rmult_le_compat_l; lra|].
      assert (C * (delta / 2 / (C + 1)) = delta / 2 - delta / 2 / (C + 1)) by (field; lra). lra. }
    rewrite Rmult_assoc. apply Hlip; [lra| | |exact WZ].
    - intros j. replace (Z t h x j - y (t + c * h) j) with ((Z t h x j - Z t h (y t) j) + (Z t h (y t) j - y (t + c * h) j)) by ring.
      eapply Rle_trans; [apply Rabs_triang|]. specialize (HW j). specialize (HZ j). lra.
    - intros j. eapply Rle_trans; [apply HW|]. lra.
  Qed.
  (** A step x + h W is stable when W is. *)
  Definition stable_step (step : RR -> RR -> vec J -> vec J) : Prop := exists C h1 e0, 0 <= C /\ 0 < h1 <= 1 /\ 0 < e0 /\
    forall t h x e, 0 <= t -> 0 <= h <= h1 -> t + h <= T -> 0 <= e <= e0 -> within e x (y t) -> within ((1 + C * h) * e) (step t h x) (step t h (y t)).
  Lemma step_stable (step W : sfam) : (forall t h x j, step t h x j = x j + h * W t h x j) -> St W -> stable_step step.
  Proof.
    intros E (C & h1 & e0 & HC & Hh & He & H). exists C, h1, e0. do 3 (split; [assumption|]). intros t h x e H1 H2 H3 H4 W0 j. rewrite !E.
    replace (x j + h * W t h x j - (y t j + h * W t h (y t) j)) with ((x j - y t j) + h * (W t h x j - W t h (y t) j)) by ring.
    eapply Rle_trans; [apply Rabs_triang|]. rewrite Rabs_mult, (Rabs_right h) by lra. replace ((1 + C * h) * e) with (e + h * (C * e)) by ring.
    apply Rplus_le_compat; [apply W0|]. apply Rmult_le_compat_l; [lra|]. apply H; assumption.
  Qed.

  (** ** The error of a run with steps [hs] *)
  Variable step : RR -> RR -> vec J -> vec J.
  Definition run (hs : list RR) (s : RR * vec J) : RR * vec J := fold_left (fun s h => (fst s + h, step (fst s) h (snd s))) hs s.
  Lemma run_time hs : forall s, fst (run hs s) = fst s + fold_right Rplus 0 hs.
  Proof. induction hs as [|h hs IH]; intros s; cbn; [ring|]. change (fst (run hs (fst s + h, step (fst s) h (snd s))) = fst s + (h + fold_right Rplus 0 hs)). rewrite IH. cbn. ring. Qed.
  Lemma sum_nonneg hs b : List.Forall (fun h => 0 <= h <= b) hs -> 0 <= fold_right Rplus 0 hs.
  Proof. induction 1; cbn; lra. Qed.
  Theorem converge (p : nat) : (0 < p)%nat -> stable_step step -> O T (S p) (fun t h j => step t h (y t) j - y (t + h) j) ->
    exists C h1, 0 <= C /\ 0 < h1 <= 1 /\ forall b hs, 0 <= b <= h1 -> List.Forall (fun h => 0 <= h <= b) hs -> fold_right Rplus 0 hs <= T ->
      within (C * b ^ p) (snd (run hs (0, y 0))) (y (fold_right Rplus 0 hs)).
  Proof.
    intros Hp (M & h1 & e0 & HM & Hh1 & He0 & HS) (C & h2 & HC & Hh2 & HO).
    set (K := C * T * exp (M * T)).
    assert (HK : 0 <= K) by (unfold K; apply Rmult_le_pos; [apply Rmult_le_pos; lra|apply Rlt_le, exp_pos]).
    assert (Qe : 0 < e0 / (K + 1)) by (apply Rdiv_lt_0_compat; lra).
    set (h3 := Rmin h1 (Rmin h2 (e0 / (K + 1)))).
    assert (A1 : h3 <= h1) by apply Rmin_l. assert (A2 : h3 <= h2) by (eapply Rle_trans; [apply Rmin_r|apply Rmin_l]). assert (A3 : h3 <= e0 / (K + 1)) by (eapply Rle_trans; [apply Rmin_r|apply Rmin_r]).
    assert (P3 : 0 < h3) by (unfold h3; repeat apply Rmin_glb_lt; lra).
    exists K, h3. split; [exact HK|]. split; [lra|]. intros b hs Hb Hhs Hsum.
    assert (Bp : 0 <= b ^ p) by (apply pow_le; lra).
    assert (Bp1 : b ^ p <= b).
    { destruct p as [|q]; [lia|]. rewrite <- tech_pow_Rmult. rewrite <- (Rmult_1_r b) at 3. apply Rmult_le_compat_l; [lra|]. rewrite <- (pow1 q). apply pow_incr. lra. }
    set (E := fun t => C * b ^ p * t * exp (M * t)).
    assert (EM : forall t, 0 <= t <= T -> 0 <= E t <= K * b ^ p).
    { intros t Ht. unfold E, K. assert (exp (M * t) <= exp (M * T)).
      { destruct (Req_dec (M * t) (M * T)) as [Q|Q]; [rewrite Q; lra|]. apply Rlt_le, exp_increasing. assert (M * t <= M * T) by (apply Rmult_le_compat_l; lra). lra. }
      pose proof (exp_pos (M * t)). split; [repeat apply Rmult_le_pos; lra|]. replace (C * T * exp (M * T) * b ^ p) with (C * b ^ p * T * exp (M * T)) by ring.
      apply Rmult_le_compat; [repeat apply Rmult_le_pos; lra|lra| |assumption]. apply Rmult_le_compat_l; [apply Rmult_le_pos; lra|lra]. }
    assert (KE : K * b ^ p <= e0).
    { apply Rle_trans with (K * (e0 / (K + 1))); [apply Rmult_le_compat_l; lra|]. assert (K * (e0 / (K + 1)) = e0 - e0 / (K + 1)) by (field; lra). lra. }
    assert (G : forall hs t x, List.Forall (fun h => 0 <= h <= b) hs -> 0 <= t -> t + fold_right Rplus 0 hs <= T -> within (E t) x (y t) ->
              within (E (t + fold_right Rplus 0 hs)) (snd (run hs (t, x))) (y (t + fold_right Rplus 0 hs))).
    { clear hs Hhs Hsum. induction hs as [|h hs IH]; intros t x F Ht HsT W; cbn [fold_right]; [rewrite Rplus_0_r; exact W|].
      apply Forall_cons_iff in F. destruct F as [Fh F]. pose proof (sum_nonneg hs b F) as SN. cbn [fold_right] in HsT.
      change (run (h :: hs) (t, x)) with (run hs (t + h, step t h x)). rewrite <- Rplus_assoc. apply IH; [exact F|lra|lra|].
      destruct (EM t ltac:(lra)) as [E1 E2].
      pose proof (HS t h x (E t) Ht ltac:(lra) ltac:(lra) ltac:(lra) W) as W1. pose proof (HO t h Ht ltac:(lra) ltac:(lra)) as W2.
      intros j. specialize (W1 j). specialize (W2 j). cbv beta in W2.
      replace (step t h x j - y (t + h) j) with ((step t h x j - step t h (y t) j) + (step t h (y t) j - y (t + h) j)) by ring.
      eapply Rle_trans; [apply Rabs_triang|]. eapply Rle_trans; [apply Rplus_le_compat; [exact W1|exact W2]|].
      unfold E. rewrite (Rmult_plus_distr_l M t h), exp_plus. rewrite <- tech_pow_Rmult.
      assert (X1 : 1 + M * h <= exp (M * h)).
      { destruct (Req_dec (M * h) 0) as [Q|Q]; [rewrite Q, exp_0; lra|]. apply Rlt_le, exp_ineq1. exact Q. }
      assert (Mh : 0 <= M * h) by (apply Rmult_le_pos; lra). assert (Mt : 0 <= M * t) by (apply Rmult_le_pos; lra).
      assert (X2 : 1 <= exp (M * t)). { destruct (Req_dec (M * t) 0) as [Q|Q]; [rewrite Q, exp_0; lra|]. pose proof (exp_ineq1 (M * t) Q). lra. }
      assert (X3 : h ^ p <= b ^ p) by (apply pow_incr; lra). assert (X4 : 0 <= h ^ p) by (apply pow_le; lra).
      replace (C * b ^ p * (t + h) * (exp (M * t) * exp (M * h))) with (exp (M * h) * (C * b ^ p * t * exp (M * t)) + C * (h * b ^ p) * (exp (M * t) * exp (M * h))) by ring.
      apply Rplus_le_compat; [apply Rmult_le_compat_r; [exact E1|exact X1]|].
      apply Rle_trans with (C * (h * b ^ p)); [apply Rmult_le_compat_l; [exact HC|]; apply Rmult_le_compat_l; [lra|exact X3]|].
      rewrite <- (Rmult_1_r (C * (h * b ^ p))) at 1. apply Rmult_le_compat_l; [repeat apply Rmult_le_pos; lra|]. nra. }
    specialize (G hs 0 (y 0) Hhs ltac:(lra)). rewrite Rplus_0_l in G.
    intros j. eapply Rle_trans; [apply G; [exact Hsum|]|apply EM; split; [eapply sum_nonneg; eassumption|exact Hsum]].
    intros j'. unfold E. rewrite Rminus_eq_0, Rabs_R0. lra.
  Qed.
End Stable.
