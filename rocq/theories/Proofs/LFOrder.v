(** Second order of the leapfrog integrators. *)
From Coq Require Import Reals Lra Lia List FunctionalExtensionality ZArith.
From Coquelicot Require Import Coquelicot.
From Verif.Lib Require Import RealAux.
From Verif.Model Require Import Symplectic RungeKutta.
From Verif.Spec Require Import SymplecticSpec OrderSpec.
From Verif.Proofs Require Import SymplecticProofs RKOrder RK4Local RKConv RKStab RKLoops.
Import ListNotations.
Open Scope R_scope.
Notation RR := RbaseSymbolsImpl.R (only parsing).

Section Pick.
  Context {J : Type}.
  Variables (y : RR -> vec J) (T : RR).
  Lemma O_pick k (g : J -> J) X : O T k X -> O T k (fun t h j => X t h (g j)).
  Proof. intros (C & h1 & HC & Hh & H). exists C, h1. do 2 (split; [assumption|]). intros t h H1 H2 H3 j. apply H; assumption. Qed.
  Lemma O_case k (b : J -> bool) X Y : O T k X -> O T k Y -> O T k (fun t h j => if b j then X t h j else Y t h j).
  Proof.
    intros (C & h1 & HC & Hh & H) (C' & h1' & HC' & Hh' & H'). exists (C + C'), (Rmin h1 h1').
    pose proof (Rmin_l h1 h1') as A1. pose proof (Rmin_r h1 h1') as A2. split; [lra|]. split; [split; [apply Rmin_glb_lt; lra|lra]|]. intros t h H1 H2 H3 j.
    assert (P : 0 <= h ^ k) by (apply pow_le; lra). pose proof (Rmult_le_pos C _ HC P). pose proof (Rmult_le_pos C' _ HC' P).
    destruct (b j); [specialize (H t h H1 ltac:(lra) H3 j)|specialize (H' t h H1 ltac:(lra) H3 j)]; lra.
  Qed.
  Lemma St_pick (g : J -> J) Z : St y T Z -> St y T (fun t h x j => Z t h x (g j)).
  Proof. intros (C & h1 & e0 & HC & Hh & He & H). exists C, h1, e0. do 3 (split; [assumption|]). intros t h x e H1 H2 H3 H4 W j. apply H; assumption. Qed.
  Lemma St_case (b : J -> bool) Z Z' : St y T Z -> St y T Z' -> St y T (fun t h x j => if b j then Z t h x j else Z' t h x j).
  Proof.
    intros (C & h1 & e0 & HC & Hh & He & H) (C' & h1' & e0' & HC' & Hh' & He' & H'). exists (C + C'), (Rmin h1 h1'), (Rmin e0 e0').
    pose proof (Rmin_l h1 h1') as A1. pose proof (Rmin_r h1 h1') as A2. pose proof (Rmin_l e0 e0') as A3. pose proof (Rmin_r e0 e0') as A4.
    split; [lra|]. split; [split; [apply Rmin_glb_lt; lra|lra]|]. split; [apply Rmin_glb_lt; lra|]. intros t h x e H1 H2 H3 H4 W j.
    assert (P : 0 <= e) by lra. pose proof (Rmult_le_pos C _ HC P). pose proof (Rmult_le_pos C' _ HC' P).
    destruct (b j); [specialize (H t h x e H1 ltac:(lra) H3 ltac:(lra) W j)|specialize (H' t h x e H1 ltac:(lra) H3 ltac:(lra) W j)]; lra.
  Qed.
End Pick.

Section Leap.
  Context {J : Type}.
  Variables (F : RR -> vec J -> vec J) (t0 sigma : RR).
  Notation K := (J + J)%type.
  Notation f := (clock_field (phase_field F) t0 sigma).
  Definition is_q (k : K) : bool := match k with inl _ => true | inr _ => false end.
  Definition to_p (k : K) : K := match k with inl i => inr i | inr i => inr i end.
  Definition join (s : sstate J) : vec K := fun k => match k with inl i => fst (fst s) i | inr i => snd (fst s) i end.
  Definition kick (t h : RR) (x : vec K) : vec K := f (t + h / 2) (fun i => x i + h * f t x i / 2).
  Definition lstep (t h : RR) (x : vec K) : vec K := fun k =>
    x k + h * (if is_q k then sigma * x (to_p k) + h * (sigma / 2 * kick t h x (to_p k)) else kick t h x k).
  Lemma lstep_model t h x : lf_interval F (sigma * h) 1 (fun i => x (inl i), fun i => x (inr i), t0 + sigma * t) =
    (fun i => lstep t h x (inl i), fun i => lstep t h x (inr i), t0 + sigma * (t + h)).
  Proof.
    unfold lf_interval. cbn [Nat.sub Nat.iter nat_rect]. unfold leapq, leapp, lstep, kick, clock_field, phase_field, is_q, to_p.
    assert (E : t0 + sigma * t + sigma * h / 2 = t0 + sigma * (t + h / 2)) by field. rewrite E.
    assert (E2 : (fun j : J => x (inl j) + sigma * h / 2 * x (inr j)) = (fun k : J => x (inl k) + h * (sigma * x (inr k)) / 2)) by (apply functional_extensionality; intros; field).
    rewrite E2. f_equal; [f_equal|]; [apply functional_extensionality; intros j; field|apply functional_extensionality; intros j; ring|ring].
  Qed.

  Variables (y : RR -> vec K) (T delta L : RR) (n : nat) (d : nat -> RR -> vec K) (A : nat -> RR -> vec K -> vec K).
  Hypothesis (HT : 0 < T) (Hdelta : 0 < delta) (HL : 0 <= L) (Hs : smooth_with f y T delta L n d A) (Hn : (3 <= n)%nat).
  Lemma lstep_stable : stable_step y T lstep.
  Proof.
    assert (HK : SB y T kick).
    { apply (SB_stage f y T delta L n d A Hdelta HL Hs ltac:(lia) (1 / 2) (fun t h => t + h / 2) (fun t h x i => x i + h * f t x i / 2) (fun t h x i => 1 / 2 * f t x i)); [lra|intros; field|intros; field|].
      apply SB_scal, (SB_first f y T delta L n d A Hdelta HL Hs ltac:(lia)). }
    apply (step_stable y T lstep (fun t h x k => if is_q k then sigma * x (to_p k) + h * (sigma / 2 * kick t h x (to_p k)) else kick t h x k)); [reflexivity|].
    apply (St_case y T is_q (fun t h x k => sigma * x (to_p k) + h * (sigma / 2 * kick t h x (to_p k))) kick); [|exact (proj1 HK)].
    apply St_plus; [apply (St_scal y T sigma (fun t h x k => x (to_p k))), (St_pick y T to_p (fun t h x => x)), St_id|].
    apply (St_h y T (fun t h x k => sigma / 2 * kick t h x (to_p k))), (St_scal y T (sigma / 2) (fun t h x k => kick t h x (to_p k))), (St_pick y T to_p kick). exact (proj1 HK).
  Qed.
  Ltac rng := match goal with |- forall t h j, _ -> _ -> _ -> _ => intros t h j Ht Hh Hth end.
  Lemma kick_O : O T 2 (fun t h k => kick t h (y t) k - d 1%nat t k - h / 2 * d 2%nat t k).
  Proof.
    set (Y := fun t h i => y t i + h * f t (y t) i / 2 : RR).
    assert (R2 : O T 2 (off y (1 / 2) Y)).
    { refine (O_ext T 2 _ _ _ (O_scal T 2 (-1) _ (O_drem f y T delta L n d A HL Hs 0 2 (1 / 2) ltac:(lia) ltac:(lra)))). rng. unfold off, oscal, drem, Y. tp.
      rewrite <- !(s_d0 _ _ _ _ _ _ _ _ Hs), <- (s_d1 _ _ _ _ _ _ _ _ Hs) by lra. field. }
    refine (O_ext T 2 _ _ _ (O_plus T 2 _ _ (kap_O f y T delta L n d A Hdelta HL Hs (1 / 2) 2 Y ltac:(lia) ltac:(lra) R2) (O_drem f y T delta L n d A HL Hs 1 2 (1 / 2) ltac:(lia) ltac:(lra)))).
    rng. unfold oplus, kap, drem, kick. fold (Y t h). tp. replace (t + 1 / 2 * h) with (t + h / 2) by field. field.
  Qed.
  Lemma q_second : O T 2 (fun t h k => h * (d 2%nat t k - sigma * d 1%nat t (to_p k)) * (if is_q k then 1 else 0)).
  Proof.
    refine (O_ext T 2 _ _ _ (O_case T 2 is_q _ (fun _ _ _ => 0) (O_plus T 2 _ _ (O_scal T 2 (-1) _ (O_drem f y T delta L n d A HL Hs 1 2 1 ltac:(lia) ltac:(lra)))
      (O_pick T 2 to_p _ (O_scal T 2 sigma _ (O_drem f y T delta L n d A HL Hs 0 2 1 ltac:(lia) ltac:(lra))))) (O_zero T 2))).
    rng. unfold oplus, oscal, drem. destruct j as [i|i]; cbn [is_q to_p]; [|ring]. tp. rewrite Rmult_1_l.
    rewrite !(s_d1 _ _ _ _ _ _ _ _ Hs) with (j := inl i) by lra. rewrite !(s_d0 _ _ _ _ _ _ _ _ Hs) by lra. unfold clock_field at 1 2, phase_field. ring.
  Qed.
  Theorem lstep_local : O T 3 (fun t h k => lstep t h (y t) k - y (t + h) k).
  Proof.
    assert (B1 : O T 2 (fun t h k => h * (d 2%nat t k * (h / 2)))).
    { refine (O_ext T 2 _ _ _ (O_h T 1 _ (O_h T 0 _ (O_scal T 0 (1 / 2) _ (O_d f y T delta L n d A HL Hs 2 ltac:(lia)))))). rng. unfold oh, oscal. field. }
    refine (O_ext T 3 _ _ _ (O_plus T 3 _ _ (O_scal T 3 (-1) _ (O_drem f y T delta L n d A HL Hs 0 3 1 ltac:(lia) ltac:(lra)))
      (O_h T 2 _ (O_case T 2 is_q _ _ (O_plus T 2 _ _ (O_h T 1 _ (O_scal T 1 (sigma / 2) _ (O_pick T 1 to_p _ (O_plus T 1 _ _ (O_le T 2 1 _ ltac:(lia) kick_O)
         (O_h T 0 _ (O_scal T 0 (1 / 2) _ (O_d f y T delta L n d A HL Hs 2 ltac:(lia)))))))) (O_scal T 2 (- (1 / 2)) _ q_second)) kick_O)))).
    rng. unfold oplus, oscal, oh, drem, lstep. tp. rewrite Rmult_1_l. rewrite <- (s_d0 _ _ _ _ _ _ _ _ Hs) by lra.
    destruct j as [i|i]; cbn [is_q to_p].
    - rewrite !(s_d1 _ _ _ _ _ _ _ _ Hs) with (j := inl i) by lra. unfold clock_field at 1, phase_field at 1. rewrite <- !(s_d0 _ _ _ _ _ _ _ _ Hs) by lra. field.
    - rewrite <- !(s_d0 _ _ _ _ _ _ _ _ Hs) by lra. field.
  Qed.
End Leap.
Section Runs.
  Context {J : Type}.
  Variables (F : RR -> vec J -> vec J) (t0 sigma : RR).
  Notation K := (J + J)%type.
  Definition split_at (u : RR) (x : vec K) : sstate J := (fun i => x (inl i), fun i => x (inr i), t0 + sigma * u).
  Lemma join_split u x : join (split_at u x) = x.
  Proof. apply functional_extensionality. intros [i|i]; reflexivity. Qed.
  Lemma iter_lf h m u x : Nat.iter m (lf_interval F (sigma * h) 1) (split_at u x) = split_at (u + INR m * h) (snd (run (lstep F t0 sigma) (repeat h m) (u, x))).
  Proof.
    induction m as [|m IH]; [cbn; rewrite Rmult_0_l, Rplus_0_r; reflexivity|]. rewrite iter_S, IH. unfold split_at at 1. rewrite lstep_model.
    replace (repeat h (S m)) with (repeat h m ++ [h]) by (rewrite <- repeat_cons; reflexivity). rewrite run_app.
    pose proof (run_time (lstep F t0 sigma) (repeat h m) (u, x)) as RT. rewrite sum_repeat in RT. cbn [fst] in RT.
    assert (R1 : forall S0, run (lstep F t0 sigma) [h] S0 = (fst S0 + h, lstep F t0 sigma (fst S0) h (snd S0))) by reflexivity. rewrite R1, RT. cbn [snd].
    replace (u + INR (S m) * h) with (u + INR m * h + h) by (rewrite S_INR; ring). reflexivity.
  Qed.
  Lemma lf_intervals dt ndt n s : (0 < ndt)%nat -> Nat.iter n (lf_interval F dt ndt) s = Nat.iter (n * ndt) (lf_interval F dt 1) s.
  Proof.
    intros H. assert (E : forall ndt n s, (0 < ndt)%nat -> Nat.iter n (lf_interval F dt ndt) s = dk_run F leapfrog_scheme dt (n * ndt) s).
    { clear. intros ndt n s H. induction n as [|n IH]; [reflexivity|]. rewrite iter_S, IH, lf_interval_run by exact H. rewrite <- run_add. reflexivity. }
    rewrite E by exact H. rewrite (E 1%nat) by lia. rewrite Nat.mul_1_r. reflexivity.
  Qed.
  Lemma rows_iter (iv : sstate J -> sstate J) n : forall s i dflt, (i < n)%nat -> nth i (rows iv n s) dflt = Nat.iter (S i) iv s.
  Proof.
    induction n as [|n IH]; intros s i dflt Hi; [lia|]. cbn [rows]. destruct i as [|i]; [reflexivity|]. cbn [nth]. rewrite IH by lia. rewrite (iter_S (S i)), iter_swap. reflexivity.
  Qed.
  Theorem leap_main (z : RR -> vec K) T delta : 0 < T -> 0 < delta -> smooth_near (clock_field (phase_field F) t0 sigma) z T delta 3 ->
    exists C h1, 0 <= C /\ 0 < h1 /\ forall D ndt n, (1 <= ndt)%nat -> 0 <= D -> D / INR ndt <= h1 -> INR n * D <= T -> forall i dflt, (i < n)%nat ->
      within (C * (D / INR ndt) ^ 2) (join (nth i (rows (lf_interval F (sigma * (D / INR ndt)) ndt) n (split_at 0 (z 0))) dflt)) (z (INR (S i) * D)).
  Proof.
    intros HT Hdelta (L & d & A & HL & Hs).
    destruct (converge z T HT (lstep F t0 sigma) 2 ltac:(lia) (lstep_stable F t0 sigma z T delta L 3 d A Hdelta HL Hs (le_n _)) (lstep_local F t0 sigma z T delta L 3 d A Hdelta HL Hs (le_n _))) as (C & h1 & HC & Hh1 & H).
    exists C, h1. split; [exact HC|]. split; [lra|]. intros D ndt n Hndt HD Hh HnT i dflt Hi.
    rewrite rows_iter by exact Hi. rewrite lf_intervals by lia. rewrite iter_lf, join_split.
    assert (Np : 0 < INR ndt) by (apply lt_0_INR; lia). assert (H0 : 0 <= D / INR ndt) by (apply Rmult_le_pos; [lra|apply Rlt_le, Rinv_0_lt_compat; exact Np]).
    pose proof (H (D / INR ndt) (repeat (D / INR ndt) (S i * ndt)) ltac:(lra)) as G. rewrite sum_repeat, mult_INR in G.
    replace (INR (S i) * INR ndt * (D / INR ndt)) with (INR (S i) * D) in G by (field; lra). apply G.
    - apply Forall_forall. intros h Hin. apply repeat_spec in Hin. subst h. lra.
    - eapply Rle_trans; [|exact HnT]. apply Rmult_le_compat_r; [exact HD|]. apply le_INR. lia.
  Qed.
End Runs.
