(** The local error of the fourth-order Runge-Kutta step. *)
From Coq Require Import Reals Lra Lia List FunctionalExtensionality.
From Coquelicot Require Import Coquelicot.
From Verif.Lib Require Import RealAux.
From Verif.Model Require Import Symplectic RungeKutta.
From Verif.Spec Require Import OrderSpec.
From Verif.Proofs Require Import RKOrder.
Open Scope R_scope.
Notation RR := RbaseSymbolsImpl.R (only parsing).

Lemma tp1 g x : tpoly g 1 x = g 0%nat.
Proof. rewrite tpoly_S. unfold tpoly. cbn. field. Qed.
Lemma tp2 g x : tpoly g 2 x = g 0%nat + x * g 1%nat.
Proof. rewrite tpoly_S, tp1. cbn. field. Qed.
Lemma tp3 g x : tpoly g 3 x = g 0%nat + x * g 1%nat + x ^ 2 / 2 * g 2%nat.
Proof. rewrite tpoly_S, tp2. cbn. field. Qed.
Lemma tp4 g x : tpoly g 4 x = g 0%nat + x * g 1%nat + x ^ 2 / 2 * g 2%nat + x ^ 3 / 6 * g 3%nat.
Proof. rewrite tpoly_S, tp3. cbn. field. Qed.
Lemma tp5 g x : tpoly g 5 x = g 0%nat + x * g 1%nat + x ^ 2 / 2 * g 2%nat + x ^ 3 / 6 * g 3%nat + x ^ 4 / 24 * g 4%nat.
Proof. rewrite tpoly_S, tp4. cbn. field. Qed.
Lemma tp6 g x : tpoly g 6 x = g 0%nat + x * g 1%nat + x ^ 2 / 2 * g 2%nat + x ^ 3 / 6 * g 3%nat + x ^ 4 / 24 * g 4%nat + x ^ 5 / 120 * g 5%nat.
Proof. rewrite tpoly_S, tp5. cbn [fact Nat.mul Nat.add INR]. field. Qed.
Lemma tp7 g x : tpoly g 7 x = g 0%nat + x * g 1%nat + x ^ 2 / 2 * g 2%nat + x ^ 3 / 6 * g 3%nat + x ^ 4 / 24 * g 4%nat + x ^ 5 / 120 * g 5%nat + x ^ 6 / 720 * g 6%nat.
Proof. rewrite tpoly_S, tp6. change (fact 6) with 720%nat. replace (INR 720) with 720 by (rewrite INR_IZR_INZ; reflexivity). field. Qed.
Ltac tp := rewrite ?tp7, ?tp6, ?tp5, ?tp4, ?tp3, ?tp2, ?tp1; cbn [Nat.add].

(** Taking O-goals apart. *)
Ltac ostep :=
  match goal with
  | H : O _ ?k ?X |- O _ ?k ?X => exact H
  | |- O _ _ (oplus _ _) => apply O_plus
  | |- O _ _ (oscal _ _) => apply O_scal
  | |- O _ (S _) (oh _) => apply O_h
  | |- O _ _ (oh _) => apply O_h
  | H : O _ _ ?X |- O _ _ ?X => refine (O_le _ _ _ _ _ H); lia
  | |- O _ _ (fun _ _ _ => 0) => apply O_zero
  end.
Ltac os := repeat ostep.

Section Along.
  Context {J : Type}.
  Variables (f : RR -> vec J -> vec J) (y : RR -> vec J) (T delta L : RR) (n : nat) (d : nat -> RR -> vec J) (A : nat -> RR -> vec J -> vec J).
  Hypothesis (HT : 0 < T) (Hdelta : 0 < delta) (HL : 0 <= L) (Hs : smooth_with f y T delta L n d A).
  Local Notation OO := (O T).
  Local Notation dr := (drem d).

  Lemma y_d0 s j : 0 <= s <= T -> y s j = d 0%nat s j.
  Proof. intros H. symmetry. apply (s_d0 _ _ _ _ _ _ _ _ Hs s H). Qed.
  Lemma f_d1 s j : 0 <= s <= T -> f s (y s) j = d 1%nat s j.
  Proof. intros H. symmetry. apply (s_d1 _ _ _ _ _ _ _ _ Hs s H). Qed.
  Lemma A_lin2 i s a u b v j : (i <= n - 4)%nat -> 0 <= s <= T -> A i s (fun k => a * u k + b * v k) j = a * A i s u j + b * A i s v j.
  Proof. intros Hi H. apply (s_lin _ _ _ _ _ _ _ _ Hs i s Hi H). Qed.
  Lemma A_lin1 i s a u j : (i <= n - 4)%nat -> 0 <= s <= T -> A i s (fun k => a * u k) j = a * A i s u j.
  Proof.
    intros Hi H. rewrite <- (Rplus_0_r (a * A i s u j)), <- (Rmult_0_l (A i s u j)) at 1. rewrite <- A_lin2 by assumption. f_equal. f_equal.
    apply functional_extensionality. intros k. ring.
  Qed.
  Lemma O_At i k X : (i <= n - 4)%nat -> OO k X -> OO k (fun t h => A i t (X t h)).
  Proof.
    intros Hi HX. refine (O_ext _ _ _ _ _ (O_A f y T delta L n d A HL Hs i k 0 X Hi _ HX)); [|lra]. intros t h j _ _ _. replace (t + 0 * h) with t by ring. reflexivity.
  Qed.
  Lemma O_At_diff c k X : (1 <= n - 4)%nat -> 0 <= c <= 1 -> OO k X -> OO (S k) (fun t h j => A 0%nat (t + c * h) (X t h) j - A 0%nat t (X t h) j).
  Proof. intros Hi Hc HX. refine (O_ext _ _ _ _ _ (O_Arem f y T delta L n d A HL Hs 1 c k X Hi Hc HX)). intros t h j _ _ _. unfold Arem. tp. reflexivity. Qed.
  (** A stage: [Y] is the state at which the field is evaluated, [X] its distance from the solution. *)
  Definition off (c : RR) (Y : fam) : fam := fun t h j => Y t h j - y (t + c * h) j.
  Definition kap (c : RR) (Y : fam) : fam := fun t h j => f (t + c * h) (Y t h) j - d 1%nat (t + c * h) j.
  Lemma kap_eq c Y t h j : kap c Y t h j = A 0%nat (t + c * h) (off c Y t h) j + frem f y d A c (off c Y) t h j.
  Proof.
    unfold kap, frem, off. replace (fun i => y (t + c * h) i + (Y t h i - y (t + c * h) i)) with (Y t h) by (apply functional_extensionality; intros i; ring). ring.
  Qed.
  Lemma kap_rem c k Y : (0 < k)%nat -> 0 <= c <= 1 -> OO k (off c Y) -> OO (k + k) (frem f y d A c (off c Y)).
  Proof. intros Hk Hc H. apply (O_frem f y T delta L n d A Hdelta HL Hs c k _ Hk Hc H). Qed.
  Lemma kap_O c k Y : (0 < k)%nat -> 0 <= c <= 1 -> OO k (off c Y) -> OO k (kap c Y).
  Proof.
    intros Hk Hc H. pose proof (kap_rem c k Y Hk Hc H) as R. pose proof (O_A f y T delta L n d A HL Hs 0 k c _ (Nat.le_0_l _) Hc H) as Q.
    refine (O_ext _ _ (oplus (fun t h => A 0%nat (t + c * h) (off c Y t h)) (frem f y d A c (off c Y))) _ _ _); [intros t h j _ _ _; symmetry; apply kap_eq|].
    apply O_plus; [exact Q|]. refine (O_le _ _ _ _ _ R). lia.
  Qed.
  (** ... and the Jacobian may be taken at the beginning of the step, up to one order more. *)
  Lemma kap_J c k Y : (1 <= n - 4)%nat -> (0 < k)%nat -> 0 <= c <= 1 -> OO k (off c Y) -> OO (S k) (fun t h j => kap c Y t h j - A 0%nat t (off c Y t h) j).
  Proof.
    intros Hn Hk Hc H. pose proof (kap_rem c k Y Hk Hc H) as R. pose proof (O_At_diff c k _ Hn Hc H) as Q.
    refine (O_ext _ _ (oplus (fun t h j => A 0%nat (t + c * h) (off c Y t h) j - A 0%nat t (off c Y t h) j) (frem f y d A c (off c Y))) _ _ _);
      [intros t h j _ _ _; unfold oplus; rewrite kap_eq; ring|].
    apply O_plus; [exact Q|]. refine (O_le _ _ _ _ _ R). lia.
  Qed.

  (** ** The fourth-order step *)
  Section Four.
    Hypothesis Hn : (5 <= n)%nat.
    Definition Y1 : fam := fun t h => y t.
    Definition Y2 : fam := fun t h i => y t i + h * f t (y t) i / 2.
    Definition Y3 : fam := fun t h i => y t i + h * f (t + 1 / 2 * h) (Y2 t h) i / 2.
    Definition Y4 : fam := fun t h i => y t i + h * f (t + 1 / 2 * h) (Y3 t h) i.
    Let r2 := off (1 / 2) Y2. Let r3 := off (1 / 2) Y3. Let r4 := off 1 Y4.
    Let k2 := kap (1 / 2) Y2. Let k3 := kap (1 / 2) Y3. Let k4 := kap 1 Y4.
    Let od i m c (H : (i + m <= n)%nat) (Hc : 0 <= c <= 1) : OO m (dr i m c) := O_drem f y T delta L n d A HL Hs i m c H Hc.
    Let Ad : fam := fun t h => A 0%nat t (d 2%nat t).

    Ltac rng := match goal with |- forall t h j, _ -> _ -> _ -> _ => intros t h j Ht Hh Hth end.

    Lemma r2_O : OO 2 r2.
    Proof.
      pose proof (od 0 2 (1 / 2) ltac:(lia) ltac:(lra)) as D. refine (O_ext _ _ (oscal (-1) (dr 0 2 (1 / 2))) _ _ _); [|os]. rng.
      unfold r2, off, Y2, oscal, drem. tp. rewrite f_d1, !y_d0 by lra. field.
    Qed.
    Lemma r2_exp : OO 4 (fun t h j => r2 t h j + h ^ 2 / 8 * d 2%nat t j + h ^ 3 / 48 * d 3%nat t j).
    Proof.
      pose proof (od 0 4 (1 / 2) ltac:(lia) ltac:(lra)) as D. refine (O_ext _ _ (oscal (-1) (dr 0 4 (1 / 2))) _ _ _); [|os]. rng.
      unfold r2, off, Y2, oscal, drem. tp. rewrite f_d1, !y_d0 by lra. field.
    Qed.
    Lemma k2_O : OO 2 k2.
    Proof. apply kap_O; [lia|lra|exact r2_O]. Qed.
    Lemma k2_exp : OO 3 (fun t h j => k2 t h j + h ^ 2 / 8 * Ad t h j).
    Proof.
      pose proof (kap_J (1 / 2) 2 Y2 ltac:(lia) ltac:(lia) ltac:(lra) r2_O) as Q.
      assert (P : OO 3 (fun t h j => r2 t h j + h ^ 2 / 8 * d 2%nat t j)).
      { pose proof (od 0 3 (1 / 2) ltac:(lia) ltac:(lra)) as D. refine (O_ext _ _ (oscal (-1) (dr 0 3 (1 / 2))) _ _ _); [|os]. rng.
        unfold r2, off, Y2, oscal, drem. tp. rewrite f_d1, !y_d0 by lra. field. }
      pose proof (O_At 0 3 _ ltac:(lia) P) as P'.
      refine (O_ext _ _ (oplus (fun t h j => k2 t h j - A 0%nat t (r2 t h) j) (fun t h => A 0%nat t (fun j => r2 t h j + h ^ 2 / 8 * d 2%nat t j))) _ _ _); [|apply O_plus; assumption]. rng.
      unfold oplus, Ad. replace (fun j0 => r2 t h j0 + h ^ 2 / 8 * d 2%nat t j0) with (fun j0 => 1 * r2 t h j0 + h ^ 2 / 8 * d 2%nat t j0) by (apply functional_extensionality; intros; ring).
      rewrite A_lin2 by (lia || lra). ring.
    Qed.
    (** h/2 d1(t + h/2) - (y(t + h/2) - y(t)) *)
    Lemma r3_split : forall t h j, 0 <= t -> 0 <= h -> t + h <= T ->
      r3 t h j = h / 2 * d 1%nat (t + 1 / 2 * h) j - (d 0%nat (t + 1 / 2 * h) j - d 0%nat t j) + h / 2 * k2 t h j.
    Proof. rng. unfold r3, off, Y3, k2, kap. rewrite !y_d0 by lra. field. Qed.
    Lemma r3_exp2 : OO 3 (fun t h j => r3 t h j - h ^ 2 / 8 * d 2%nat t j).
    Proof.
      pose proof (od 0 3 (1 / 2) ltac:(lia) ltac:(lra)) as D. pose proof (od 1 2 (1 / 2) ltac:(lia) ltac:(lra)) as D1. pose proof k2_O as K.
      refine (O_ext _ _ (oplus (oscal (-1) (dr 0 3 (1 / 2))) (oplus (oscal (1 / 2) (oh (dr 1 2 (1 / 2)))) (oscal (1 / 2) (oh k2)))) _ _ _); [|os]. rng.
      rewrite r3_split by lra. unfold oplus, oscal, oh, drem. tp. field.
    Qed.
    Lemma r3_O : OO 2 r3.
    Proof.
      pose proof r3_exp2 as E. pose proof (O_d f y T delta L n d A HL Hs 2 ltac:(lia)) as D.
      refine (O_ext _ _ (oplus (fun t h j => r3 t h j - h ^ 2 / 8 * d 2%nat t j) (oscal (1 / 8) (oh (oh (fun t _ => d 2%nat t))))) _ _ _); [|os]. rng.
      unfold oplus, oscal, oh. field.
    Qed.
    Lemma r23_exp : OO 4 (fun t h j => r2 t h j + r3 t h j - h ^ 3 / 48 * d 3%nat t j + h ^ 3 / 16 * Ad t h j).
    Proof.
      pose proof r2_exp as E. pose proof (od 0 4 (1 / 2) ltac:(lia) ltac:(lra)) as D. pose proof (od 1 3 (1 / 2) ltac:(lia) ltac:(lra)) as D1. pose proof k2_exp as K.
      refine (O_ext _ _ (oplus (fun t h j => r2 t h j + h ^ 2 / 8 * d 2%nat t j + h ^ 3 / 48 * d 3%nat t j)
        (oplus (oscal (-1) (dr 0 4 (1 / 2))) (oplus (oscal (1 / 2) (oh (dr 1 3 (1 / 2)))) (oscal (1 / 2) (oh (fun t h j => k2 t h j + h ^ 2 / 8 * Ad t h j)))))) _ _ _); [|os]. rng.
      rewrite r3_split by lra. unfold oplus, oscal, oh, drem. tp. field.
    Qed.
    Lemma r23_O : OO 3 (fun t h j => r2 t h j + r3 t h j).
    Proof.
      pose proof r23_exp as E. pose proof (O_d f y T delta L n d A HL Hs 3 ltac:(lia)) as D. pose proof (O_At 0 0 _ ltac:(lia) (O_d f y T delta L n d A HL Hs 2 ltac:(lia))) as D2. fold Ad in D2.
      refine (O_ext _ _ (oplus (fun t h j => r2 t h j + r3 t h j - h ^ 3 / 48 * d 3%nat t j + h ^ 3 / 16 * Ad t h j)
        (oplus (oscal (1 / 48) (oh (oh (oh (fun t _ => d 3%nat t))))) (oscal (- (1 / 16)) (oh (oh (oh Ad)))))) _ _ _); [|os]. rng. unfold oplus, oscal, oh. field.
    Qed.
    Lemma k3_exp : OO 3 (fun t h j => k3 t h j - h ^ 2 / 8 * Ad t h j).
    Proof.
      pose proof (kap_J (1 / 2) 2 Y3 ltac:(lia) ltac:(lia) ltac:(lra) r3_O) as Q. pose proof (O_At 0 3 _ ltac:(lia) r3_exp2) as P'.
      refine (O_ext _ _ (oplus (fun t h j => k3 t h j - A 0%nat t (r3 t h) j) (fun t h => A 0%nat t (fun j => r3 t h j - h ^ 2 / 8 * d 2%nat t j))) _ _ _); [|apply O_plus; assumption]. rng.
      unfold oplus, Ad. replace (fun j0 => r3 t h j0 - h ^ 2 / 8 * d 2%nat t j0) with (fun j0 => 1 * r3 t h j0 + - (h ^ 2 / 8) * d 2%nat t j0) by (apply functional_extensionality; intros; ring).
      rewrite A_lin2 by (lia || lra). ring.
    Qed.
    Lemma r4_split : forall t h j, 0 <= t -> 0 <= h -> t + h <= T ->
      r4 t h j = h * d 1%nat (t + 1 / 2 * h) j - (d 0%nat (t + 1 * h) j - d 0%nat t j) + h * k3 t h j.
    Proof. rng. unfold r4, off, Y4, k3, kap. rewrite !y_d0 by lra. field. Qed.
    Lemma r4_exp : OO 4 (fun t h j => r4 t h j + h ^ 3 / 24 * d 3%nat t j - h ^ 3 / 8 * Ad t h j).
    Proof.
      pose proof (od 0 4 1 ltac:(lia) ltac:(lra)) as D. pose proof (od 1 3 (1 / 2) ltac:(lia) ltac:(lra)) as D1. pose proof k3_exp as K.
      refine (O_ext _ _ (oplus (oscal (-1) (dr 0 4 1)) (oplus (oh (dr 1 3 (1 / 2))) (oh (fun t h j => k3 t h j - h ^ 2 / 8 * Ad t h j)))) _ _ _); [|os]. rng.
      rewrite r4_split by lra. unfold oplus, oscal, oh, drem. tp. field.
    Qed.
    Lemma r4_O : OO 3 r4.
    Proof.
      pose proof r4_exp as E. pose proof (O_d f y T delta L n d A HL Hs 3 ltac:(lia)) as D. pose proof (O_At 0 0 _ ltac:(lia) (O_d f y T delta L n d A HL Hs 2 ltac:(lia))) as D2. fold Ad in D2.
      refine (O_ext _ _ (oplus (fun t h j => r4 t h j + h ^ 3 / 24 * d 3%nat t j - h ^ 3 / 8 * Ad t h j)
        (oplus (oscal (- (1 / 24)) (oh (oh (oh (fun t _ => d 3%nat t))))) (oscal (1 / 8) (oh (oh (oh Ad)))))) _ _ _); [|os]. rng. unfold oplus, oscal, oh. field.
    Qed.
    Lemma kappa_sum : OO 4 (fun t h j => 2 * (k2 t h j + k3 t h j) + k4 t h j).
    Proof.
      pose proof (kap_rem (1 / 2) 2 Y2 ltac:(lia) ltac:(lra) r2_O) as F2. pose proof (kap_rem (1 / 2) 2 Y3 ltac:(lia) ltac:(lra) r3_O) as F3. cbn [Nat.add] in F2, F3.
      pose proof (O_At_diff (1 / 2) 3 _ ltac:(lia) ltac:(lra) r23_O) as Q. pose proof (kap_J 1 3 Y4 ltac:(lia) ltac:(lia) ltac:(lra) r4_O) as Q4.
      assert (P : OO 4 (fun t h j => 2 * (r2 t h j + r3 t h j) + 1 * r4 t h j)).
      { pose proof r23_exp as E1. pose proof r4_exp as E2.
        refine (O_ext _ _ (oplus (oscal 2 (fun t h j => r2 t h j + r3 t h j - h ^ 3 / 48 * d 3%nat t j + h ^ 3 / 16 * Ad t h j))
          (fun t h j => r4 t h j + h ^ 3 / 24 * d 3%nat t j - h ^ 3 / 8 * Ad t h j)) _ _ _); [|os]. rng. unfold oplus, oscal. field. }
      pose proof (O_At 0 4 _ ltac:(lia) P) as P'.
      refine (O_ext _ _ (oplus (oscal 2 (oplus (frem f y d A (1 / 2) r2) (frem f y d A (1 / 2) r3)))
        (oplus (oscal 2 (fun t h j => A 0%nat (t + 1 / 2 * h) (fun j => r2 t h j + r3 t h j) j - A 0%nat t (fun j => r2 t h j + r3 t h j) j))
         (oplus (fun t h j => kap 1 Y4 t h j - A 0%nat t (off 1 Y4 t h) j) (fun t h => A 0%nat t (fun j => 2 * (r2 t h j + r3 t h j) + 1 * r4 t h j))))) _ _ _); [|os]. rng.
      unfold oplus, oscal. rewrite (A_lin2 0 t 2 (fun k => r2 t h k + r3 t h k) 1 (r4 t h)) by (lia || lra).
      assert (E : forall s, 0 <= s <= T -> A 0%nat s (fun j0 => r2 t h j0 + r3 t h j0) j = A 0%nat s (r2 t h) j + A 0%nat s (r3 t h) j).
      { intros s Hsr. replace (fun j0 => r2 t h j0 + r3 t h j0) with (fun j0 => 1 * r2 t h j0 + 1 * r3 t h j0) by (apply functional_extensionality; intros; ring).
        rewrite A_lin2 by (lia || lra). ring. }
      rewrite !E by lra. unfold k2, k3, k4. rewrite !kap_eq. fold r2 r3 r4. ring.
    Qed.
    Theorem rk4_local : OO 5 (fun t h j => rk4_onestep f (y t) (y t) t h j - y (t + h) j).
    Proof.
      pose proof kappa_sum as K. pose proof (od 0 5 1 ltac:(lia) ltac:(lra)) as D. pose proof (od 1 4 (1 / 2) ltac:(lia) ltac:(lra)) as D1. pose proof (od 1 4 1 ltac:(lia) ltac:(lra)) as D2.
      refine (O_ext _ _ (oplus (oscal (-1) (dr 0 5 1)) (oplus (oscal (4 / 6) (oh (dr 1 4 (1 / 2)))) (oplus (oscal (1 / 6) (oh (dr 1 4 1)))
        (oscal (1 / 6) (oh (fun t h j => 2 * (k2 t h j + k3 t h j) + k4 t h j)))))) _ _ _); [|os]. rng.
      assert (E : rk4_onestep f (y t) (y t) t h j = y t j + h / 6 * (f t (y t) j + 2 * f (t + 1 / 2 * h) (Y2 t h) j + 2 * f (t + 1 / 2 * h) (Y3 t h) j + f (t + 1 * h) (Y4 t h) j)).
      { unfold rk4_onestep, Y4, Y3, Y2. replace (t + h / 2) with (t + 1 / 2 * h) by field. replace (t + 1 * h) with (t + h) by ring. field. }
      rewrite E. replace (y (t + h) j) with (y (t + 1 * h) j) by (f_equal; ring). rewrite f_d1, !y_d0 by lra.
      unfold oplus, oscal, oh, k2, k3, k4, kap, drem. tp. field.
    Qed.
  End Four.
End Along.
