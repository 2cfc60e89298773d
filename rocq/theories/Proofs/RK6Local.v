(** The local error of the sixth-order Runge-Kutta step. *)
From Coq Require Import Reals Lra Lia List FunctionalExtensionality.
From Coquelicot Require Import Coquelicot.
From Verif.Lib Require Import RealAux.
From Verif.Model Require Import Symplectic RungeKutta.
From Verif.Spec Require Import OrderSpec.
From Verif.Proofs Require Import RKOrder RK4Local RKLinear.
Import ListNotations.
Open Scope R_scope.
Notation RR := RbaseSymbolsImpl.R (only parsing).

Section Along.
  Context {J : Type}.
  Variables (f : RR -> vec J -> vec J) (y : RR -> vec J) (T delta L : RR) (n : nat) (d : nat -> RR -> vec J) (A : nat -> RR -> vec J -> vec J).
  Hypothesis (HT : 0 < T) (Hdelta : 0 < delta) (HL : 0 <= L) (Hs : smooth_with f y T delta L n d A).
  Local Notation OO := (O T).
  Local Notation dr := (drem d).
  Local Notation A_sub := (RKLinear.A_sub f y T delta L n d A Hs).
  Local Notation A_lc := (RKLinear.A_lc f y T delta L n d A Hs).
  Local Notation kap_J1 := (RKLinear.kap_J1 f y T delta L n d A Hdelta HL Hs).
  Local Notation kap_J2 := (RKLinear.kap_J2 f y T delta L n d A Hdelta HL Hs).
  Local Notation kap_J3 := (RKLinear.kap_J3 f y T delta L n d A Hdelta HL Hs).
  Section Steps.
    Hypothesis Hn : (7 <= n)%nat.
    Ltac rng := match goal with |- forall t h j, _ -> _ -> _ -> _ => intros t h j Ht Hh Hth end.
    Let od i m c (H : (i + m <= n)%nat) (Hc : 0 <= c <= 1) : OO m (dr i m c) := O_drem f y T delta L n d A HL Hs i m c H Hc.
    Definition G1 : fam := fun t h => f t (y t).
    Definition Y2 : fam := fun t h i => y t i + h * G1 t h i / 3.
    Definition G2 : fam := fun t h => f (t + 1 / 3 * h) (Y2 t h).
    Definition Y3 : fam := fun t h i => y t i + 2 * (h * G2 t h i) / 3.
    Definition G3 : fam := fun t h => f (t + 2 / 3 * h) (Y3 t h).
    Definition Y4 : fam := fun t h i => y t i + (h * G1 t h i + 4 * (h * G2 t h i) - h * G3 t h i) / 12.
    Definition G4 : fam := fun t h => f (t + 1 / 3 * h) (Y4 t h).
    Definition Y5 : fam := fun t h i => y t i + (- (h * G1 t h i) + 18 * (h * G2 t h i) - 3 * (h * G3 t h i) - 6 * (h * G4 t h i)) / 16.
    Definition G5 : fam := fun t h => f (t + 1 / 2 * h) (Y5 t h).
    Definition Y6 : fam := fun t h i => y t i + (9 * (h * G2 t h i) - 3 * (h * G3 t h i) - 6 * (h * G4 t h i) + 4 * (h * G5 t h i)) / 8.
    Definition G6 : fam := fun t h => f (t + 1 / 2 * h) (Y6 t h).
    Definition Y7 : fam := fun t h i => y t i + (9 * (h * G1 t h i) - 36 * (h * G2 t h i) + 63 * (h * G3 t h i) + 72 * (h * G4 t h i) - 64 * (h * G6 t h i)) / 44.
    Let r2 := off y (1 / 3) Y2. Let k2 := kap f d (1 / 3) Y2.
    Let r3 := off y (2 / 3) Y3. Let k3 := kap f d (2 / 3) Y3.
    Let r4 := off y (1 / 3) Y4. Let k4 := kap f d (1 / 3) Y4.
    Let r5 := off y (1 / 2) Y5. Let k5 := kap f d (1 / 2) Y5.
    Let r6 := off y (1 / 2) Y6. Let k6 := kap f d (1 / 2) Y6.
    Let r7 := off y 1 Y7. Let k7 := kap f d 1 Y7.
    Lemma r2_split : forall t h j, 0 <= t -> 0 <= h -> t + h <= T -> r2 t h j = h * ((1 / 3) * d 1%nat t j) - (d 0%nat (t + (1 / 3) * h) j - d 0%nat t j) + h * (0).
    Proof. rng. unfold r2, kap, off. unfold Y2 at 1. unfold G6, G5, G4, G3, G2, G1. rewrite ?(f_d1 f y T delta L n d A Hs t), !(y_d0 f y T delta L n d A Hs) by lra. field. Qed.
    Lemma r3_split : forall t h j, 0 <= t -> 0 <= h -> t + h <= T -> r3 t h j = h * ((2 / 3) * d 1%nat (t + (1 / 3) * h) j) - (d 0%nat (t + (2 / 3) * h) j - d 0%nat t j) + h * ((2 / 3) * k2 t h j).
    Proof. rng. unfold r3, k2, kap, off. unfold Y3 at 1. unfold G6, G5, G4, G3, G2, G1. rewrite ?(f_d1 f y T delta L n d A Hs t), !(y_d0 f y T delta L n d A Hs) by lra. field. Qed.
    Lemma r4_split : forall t h j, 0 <= t -> 0 <= h -> t + h <= T -> r4 t h j = h * ((1 / 12) * d 1%nat t j + (1 / 3) * d 1%nat (t + (1 / 3) * h) j + (- (1 / 12)) * d 1%nat (t + (2 / 3) * h) j) - (d 0%nat (t + (1 / 3) * h) j - d 0%nat t j) + h * ((1 / 3) * k2 t h j + (- (1 / 12)) * k3 t h j).
    Proof. rng. unfold r4, k2, k3, kap, off. unfold Y4 at 1. unfold G6, G5, G4, G3, G2, G1. rewrite ?(f_d1 f y T delta L n d A Hs t), !(y_d0 f y T delta L n d A Hs) by lra. field. Qed.
    Lemma r5_split : forall t h j, 0 <= t -> 0 <= h -> t + h <= T -> r5 t h j = h * ((- (1 / 16)) * d 1%nat t j + (9 / 8) * d 1%nat (t + (1 / 3) * h) j + (- (3 / 16)) * d 1%nat (t + (2 / 3) * h) j + (- (3 / 8)) * d 1%nat (t + (1 / 3) * h) j) - (d 0%nat (t + (1 / 2) * h) j - d 0%nat t j) + h * ((9 / 8) * k2 t h j + (- (3 / 16)) * k3 t h j + (- (3 / 8)) * k4 t h j).
    Proof. rng. unfold r5, k2, k3, k4, kap, off. unfold Y5 at 1. unfold G6, G5, G4, G3, G2, G1. rewrite ?(f_d1 f y T delta L n d A Hs t), !(y_d0 f y T delta L n d A Hs) by lra. field. Qed.
    Lemma r6_split : forall t h j, 0 <= t -> 0 <= h -> t + h <= T -> r6 t h j = h * ((9 / 8) * d 1%nat (t + (1 / 3) * h) j + (- (3 / 8)) * d 1%nat (t + (2 / 3) * h) j + (- (3 / 4)) * d 1%nat (t + (1 / 3) * h) j + (1 / 2) * d 1%nat (t + (1 / 2) * h) j) - (d 0%nat (t + (1 / 2) * h) j - d 0%nat t j) + h * ((9 / 8) * k2 t h j + (- (3 / 8)) * k3 t h j + (- (3 / 4)) * k4 t h j + (1 / 2) * k5 t h j).
    Proof. rng. unfold r6, k2, k3, k4, k5, kap, off. unfold Y6 at 1. unfold G6, G5, G4, G3, G2, G1. rewrite ?(f_d1 f y T delta L n d A Hs t), !(y_d0 f y T delta L n d A Hs) by lra. field. Qed.
    Lemma r7_split : forall t h j, 0 <= t -> 0 <= h -> t + h <= T -> r7 t h j = h * ((9 / 44) * d 1%nat t j + (- (9 / 11)) * d 1%nat (t + (1 / 3) * h) j + (63 / 44) * d 1%nat (t + (2 / 3) * h) j + (18 / 11) * d 1%nat (t + (1 / 3) * h) j + (- (16 / 11)) * d 1%nat (t + (1 / 2) * h) j) - (d 0%nat (t + 1 * h) j - d 0%nat t j) + h * ((- (9 / 11)) * k2 t h j + (63 / 44) * k3 t h j + (18 / 11) * k4 t h j + (- (16 / 11)) * k6 t h j).
    Proof. rng. unfold r7, k2, k3, k4, k6, kap, off. unfold Y7 at 1. unfold G6, G5, G4, G3, G2, G1. rewrite ?(f_d1 f y T delta L n d A Hs t), !(y_d0 f y T delta L n d A Hs) by lra. field. Qed.
    Lemma r2_O : OO 2 r2.
    Proof. pose proof (od 0 2 (1 / 3) ltac:(lia) ltac:(lra)) as D0. refine (O_ext _ _ (oscal (-1) (dr 0 2 (1 / 3))) _ _ _); [|os]. rng. rewrite r2_split by lra. unfold oplus, oscal, oh, drem. tp. field. Qed.
    Lemma k2_O : OO 2 k2.
    Proof. apply (kap_O f y T delta L n d A Hdelta HL Hs); [lia|lra|exact r2_O]. Qed.
    Lemma r3_O : OO 3 r3.
    Proof. pose proof (od 0 3 (2 / 3) ltac:(lia) ltac:(lra)) as D0. pose proof (od 1 2 (1 / 3) ltac:(lia) ltac:(lra)) as D2. pose proof k2_O as K2. refine (O_ext _ _ (oplus (oscal (-1) (dr 0 3 (2 / 3))) (oplus (oscal (2 / 3) (oh (dr 1 2 (1 / 3)))) (oscal (2 / 3) (oh k2)))) _ _ _); [|os]. rng. rewrite r3_split by lra. unfold oplus, oscal, oh, drem. tp. field. Qed.
    Lemma k3_O : OO 3 k3.
    Proof. apply (kap_O f y T delta L n d A Hdelta HL Hs); [lia|lra|exact r3_O]. Qed.
    Lemma r4_O : OO 3 r4.
    Proof. pose proof (od 0 3 (1 / 3) ltac:(lia) ltac:(lra)) as D0. pose proof (od 1 2 (1 / 3) ltac:(lia) ltac:(lra)) as D2. pose proof (od 1 2 (2 / 3) ltac:(lia) ltac:(lra)) as D3. pose proof k2_O as K2. pose proof k3_O as K3. refine (O_ext _ _ (oplus (oscal (-1) (dr 0 3 (1 / 3))) (oplus (oscal (1 / 3) (oh (dr 1 2 (1 / 3)))) (oplus (oscal (- (1 / 12)) (oh (dr 1 2 (2 / 3)))) (oplus (oscal (1 / 3) (oh k2)) (oscal (- (1 / 12)) (oh k3)))))) _ _ _); [|os]. rng. rewrite r4_split by lra. unfold oplus, oscal, oh, drem. tp. field. Qed.
    Lemma k4_O : OO 3 k4.
    Proof. apply (kap_O f y T delta L n d A Hdelta HL Hs); [lia|lra|exact r4_O]. Qed.
    Lemma r5_O : OO 3 r5.
    Proof. pose proof (od 0 3 (1 / 2) ltac:(lia) ltac:(lra)) as D0. pose proof (od 1 2 (1 / 3) ltac:(lia) ltac:(lra)) as D2. pose proof (od 1 2 (2 / 3) ltac:(lia) ltac:(lra)) as D3. pose proof k2_O as K2. pose proof k3_O as K3. pose proof k4_O as K4. refine (O_ext _ _ (oplus (oscal (-1) (dr 0 3 (1 / 2))) (oplus (oscal (9 / 8) (oh (dr 1 2 (1 / 3)))) (oplus (oscal (- (3 / 16)) (oh (dr 1 2 (2 / 3)))) (oplus (oscal (- (3 / 8)) (oh (dr 1 2 (1 / 3)))) (oplus (oscal (9 / 8) (oh k2)) (oplus (oscal (- (3 / 16)) (oh k3)) (oscal (- (3 / 8)) (oh k4)))))))) _ _ _); [|os]. rng. rewrite r5_split by lra. unfold oplus, oscal, oh, drem. tp. field. Qed.
    Lemma k5_O : OO 3 k5.
    Proof. apply (kap_O f y T delta L n d A Hdelta HL Hs); [lia|lra|exact r5_O]. Qed.
    Lemma r6_O : OO 3 r6.
    Proof. pose proof (od 0 3 (1 / 2) ltac:(lia) ltac:(lra)) as D0. pose proof (od 1 2 (1 / 3) ltac:(lia) ltac:(lra)) as D2. pose proof (od 1 2 (2 / 3) ltac:(lia) ltac:(lra)) as D3. pose proof (od 1 2 (1 / 2) ltac:(lia) ltac:(lra)) as D5. pose proof k2_O as K2. pose proof k3_O as K3. pose proof k4_O as K4. pose proof k5_O as K5. refine (O_ext _ _ (oplus (oscal (-1) (dr 0 3 (1 / 2))) (oplus (oscal (9 / 8) (oh (dr 1 2 (1 / 3)))) (oplus (oscal (- (3 / 8)) (oh (dr 1 2 (2 / 3)))) (oplus (oscal (- (3 / 4)) (oh (dr 1 2 (1 / 3)))) (oplus (oscal (1 / 2) (oh (dr 1 2 (1 / 2)))) (oplus (oscal (9 / 8) (oh k2)) (oplus (oscal (- (3 / 8)) (oh k3)) (oplus (oscal (- (3 / 4)) (oh k4)) (oscal (1 / 2) (oh k5)))))))))) _ _ _); [|os]. rng. rewrite r6_split by lra. unfold oplus, oscal, oh, drem. tp. field. Qed.
    Lemma k6_O : OO 3 k6.
    Proof. apply (kap_O f y T delta L n d A Hdelta HL Hs); [lia|lra|exact r6_O]. Qed.
    Lemma r7_O : OO 3 r7.
    Proof. pose proof (od 0 3 1 ltac:(lia) ltac:(lra)) as D0. pose proof (od 1 2 (1 / 3) ltac:(lia) ltac:(lra)) as D2. pose proof (od 1 2 (2 / 3) ltac:(lia) ltac:(lra)) as D3. pose proof (od 1 2 (1 / 2) ltac:(lia) ltac:(lra)) as D6. pose proof k2_O as K2. pose proof k3_O as K3. pose proof k4_O as K4. pose proof k6_O as K6. refine (O_ext _ _ (oplus (oscal (-1) (dr 0 3 1)) (oplus (oscal (- (9 / 11)) (oh (dr 1 2 (1 / 3)))) (oplus (oscal (63 / 44) (oh (dr 1 2 (2 / 3)))) (oplus (oscal (18 / 11) (oh (dr 1 2 (1 / 3)))) (oplus (oscal (- (16 / 11)) (oh (dr 1 2 (1 / 2)))) (oplus (oscal (- (9 / 11)) (oh k2)) (oplus (oscal (63 / 44) (oh k3)) (oplus (oscal (18 / 11) (oh k4)) (oscal (- (16 / 11)) (oh k6)))))))))) _ _ _); [|os]. rng. rewrite r7_split by lra. unfold oplus, oscal, oh, drem. tp. field. Qed.
    Lemma k7_O : OO 3 k7.
    Proof. apply (kap_O f y T delta L n d A Hdelta HL Hs); [lia|lra|exact r7_O]. Qed.
    Let R3_3 : fam := fun t h => lc [((- (1 / 81)) * h ^ 3, d 3%nat t); ((2 / 3) * h ^ 1, k2 t h)].
    Let R3_4 : fam := fun t h => lc [((- (1 / 162)) * h ^ 3, d 3%nat t); ((1 / 3) * h ^ 1, k2 t h)].
    Let R3_5 : fam := fun t h => lc [((- (1 / 48)) * h ^ 3, d 3%nat t); ((9 / 8) * h ^ 1, k2 t h)].
    Let R3_6 : fam := fun t h => lc [((- (1 / 48)) * h ^ 3, d 3%nat t); ((9 / 8) * h ^ 1, k2 t h)].
    Let R3_7 : fam := fun t h => lc [((1 / 66) * h ^ 3, d 3%nat t); ((- (9 / 11)) * h ^ 1, k2 t h)].
    Let K3_3 : fam := fun t h => lc [((- (1 / 81)) * h ^ 3, A 0%nat t (d 3%nat t)); ((2 / 3) * h ^ 1, A 0%nat t (k2 t h))].
    Let K3_4 : fam := fun t h => lc [((- (1 / 162)) * h ^ 3, A 0%nat t (d 3%nat t)); ((1 / 3) * h ^ 1, A 0%nat t (k2 t h))].
    Let K3_5 : fam := fun t h => lc [((- (1 / 48)) * h ^ 3, A 0%nat t (d 3%nat t)); ((9 / 8) * h ^ 1, A 0%nat t (k2 t h))].
    Let K3_6 : fam := fun t h => lc [((- (1 / 48)) * h ^ 3, A 0%nat t (d 3%nat t)); ((9 / 8) * h ^ 1, A 0%nat t (k2 t h))].
    Let K3_7 : fam := fun t h => lc [((1 / 66) * h ^ 3, A 0%nat t (d 3%nat t)); ((- (9 / 11)) * h ^ 1, A 0%nat t (k2 t h))].
    Lemma r3_3 : OO 4 (fun t h j => r3 t h j - R3_3 t h j).
    Proof. pose proof (od 0 4 (2 / 3) ltac:(lia) ltac:(lra)) as D0. pose proof (od 1 3 (1 / 3) ltac:(lia) ltac:(lra)) as D2.  refine (O_ext _ _ (oplus (oscal (-1) (dr 0 4 (2 / 3))) (oscal (2 / 3) (oh (dr 1 3 (1 / 3))))) _ _ _); [|os]. rng. rewrite r3_split by lra. unfold oplus, oscal, oh, drem, R3_3. unfold lc. cbn [fold_right fst snd]. tp. field. Qed.
    Lemma r4_3 : OO 4 (fun t h j => r4 t h j - R3_4 t h j).
    Proof. pose proof (od 0 4 (1 / 3) ltac:(lia) ltac:(lra)) as D0. pose proof (od 1 3 (1 / 3) ltac:(lia) ltac:(lra)) as D2. pose proof (od 1 3 (2 / 3) ltac:(lia) ltac:(lra)) as D3. pose proof k3_O as Q3. refine (O_ext _ _ (oplus (oscal (-1) (dr 0 4 (1 / 3))) (oplus (oscal (1 / 3) (oh (dr 1 3 (1 / 3)))) (oplus (oscal (- (1 / 12)) (oh (dr 1 3 (2 / 3)))) (oscal (- (1 / 12)) (oh k3))))) _ _ _); [|os]. rng. rewrite r4_split by lra. unfold oplus, oscal, oh, drem, R3_4. unfold lc. cbn [fold_right fst snd]. tp. field. Qed.
    Lemma r5_3 : OO 4 (fun t h j => r5 t h j - R3_5 t h j).
    Proof. pose proof (od 0 4 (1 / 2) ltac:(lia) ltac:(lra)) as D0. pose proof (od 1 3 (1 / 3) ltac:(lia) ltac:(lra)) as D2. pose proof (od 1 3 (2 / 3) ltac:(lia) ltac:(lra)) as D3. pose proof k3_O as Q3. pose proof k4_O as Q4. refine (O_ext _ _ (oplus (oscal (-1) (dr 0 4 (1 / 2))) (oplus (oscal (9 / 8) (oh (dr 1 3 (1 / 3)))) (oplus (oscal (- (3 / 16)) (oh (dr 1 3 (2 / 3)))) (oplus (oscal (- (3 / 8)) (oh (dr 1 3 (1 / 3)))) (oplus (oscal (- (3 / 16)) (oh k3)) (oscal (- (3 / 8)) (oh k4))))))) _ _ _); [|os]. rng. rewrite r5_split by lra. unfold oplus, oscal, oh, drem, R3_5. unfold lc. cbn [fold_right fst snd]. tp. field. Qed.
    Lemma r6_3 : OO 4 (fun t h j => r6 t h j - R3_6 t h j).
    Proof. pose proof (od 0 4 (1 / 2) ltac:(lia) ltac:(lra)) as D0. pose proof (od 1 3 (1 / 3) ltac:(lia) ltac:(lra)) as D2. pose proof (od 1 3 (2 / 3) ltac:(lia) ltac:(lra)) as D3. pose proof (od 1 3 (1 / 2) ltac:(lia) ltac:(lra)) as D5. pose proof k3_O as Q3. pose proof k4_O as Q4. pose proof k5_O as Q5. refine (O_ext _ _ (oplus (oscal (-1) (dr 0 4 (1 / 2))) (oplus (oscal (9 / 8) (oh (dr 1 3 (1 / 3)))) (oplus (oscal (- (3 / 8)) (oh (dr 1 3 (2 / 3)))) (oplus (oscal (- (3 / 4)) (oh (dr 1 3 (1 / 3)))) (oplus (oscal (1 / 2) (oh (dr 1 3 (1 / 2)))) (oplus (oscal (- (3 / 8)) (oh k3)) (oplus (oscal (- (3 / 4)) (oh k4)) (oscal (1 / 2) (oh k5))))))))) _ _ _); [|os]. rng. rewrite r6_split by lra. unfold oplus, oscal, oh, drem, R3_6. unfold lc. cbn [fold_right fst snd]. tp. field. Qed.
    Lemma r7_3 : OO 4 (fun t h j => r7 t h j - R3_7 t h j).
    Proof. pose proof (od 0 4 1 ltac:(lia) ltac:(lra)) as D0. pose proof (od 1 3 (1 / 3) ltac:(lia) ltac:(lra)) as D2. pose proof (od 1 3 (2 / 3) ltac:(lia) ltac:(lra)) as D3. pose proof (od 1 3 (1 / 2) ltac:(lia) ltac:(lra)) as D6. pose proof k3_O as Q3. pose proof k4_O as Q4. pose proof k6_O as Q6. refine (O_ext _ _ (oplus (oscal (-1) (dr 0 4 1)) (oplus (oscal (- (9 / 11)) (oh (dr 1 3 (1 / 3)))) (oplus (oscal (63 / 44) (oh (dr 1 3 (2 / 3)))) (oplus (oscal (18 / 11) (oh (dr 1 3 (1 / 3)))) (oplus (oscal (- (16 / 11)) (oh (dr 1 3 (1 / 2)))) (oplus (oscal (63 / 44) (oh k3)) (oplus (oscal (18 / 11) (oh k4)) (oscal (- (16 / 11)) (oh k6))))))))) _ _ _); [|os]. rng. rewrite r7_split by lra. unfold oplus, oscal, oh, drem, R3_7. unfold lc. cbn [fold_right fst snd]. tp. field. Qed.
    Lemma k3_3 : OO 4 (fun t h j => k3 t h j - K3_3 t h j).
    Proof.
      pose proof (kap_J1 (2 / 3) 3 Y3 ltac:(lia) ltac:(lia) ltac:(lra) r3_O) as Q.
      pose proof (O_At f y T delta L n d A HL Hs 0 4 _ ltac:(lia) r3_3) as P0.
      refine (O_ext _ _ (oplus (fun t h j => kap f d (2 / 3) Y3 t h j - tpoly (fun l => A l t (off y (2 / 3) Y3 t h) j) 1 ((2 / 3) * h)) (oscal 1 (fun t h => A 0%nat t (fun j => r3 t h j - R3_3 t h j)))) _ _ _); [|os]. rng. unfold oplus, oscal, oh. rewrite ?A_sub by (lia || lra). fold r3 k3. tp.
      unfold R3_3, K3_3. rewrite ?A_lc by (lia || lra). unfold lc. cbn [map fold_right fst snd]. field.
    Qed.
    Lemma k4_3 : OO 4 (fun t h j => k4 t h j - K3_4 t h j).
    Proof.
      pose proof (kap_J1 (1 / 3) 3 Y4 ltac:(lia) ltac:(lia) ltac:(lra) r4_O) as Q.
      pose proof (O_At f y T delta L n d A HL Hs 0 4 _ ltac:(lia) r4_3) as P0.
      refine (O_ext _ _ (oplus (fun t h j => kap f d (1 / 3) Y4 t h j - tpoly (fun l => A l t (off y (1 / 3) Y4 t h) j) 1 ((1 / 3) * h)) (oscal 1 (fun t h => A 0%nat t (fun j => r4 t h j - R3_4 t h j)))) _ _ _); [|os]. rng. unfold oplus, oscal, oh. rewrite ?A_sub by (lia || lra). fold r4 k4. tp.
      unfold R3_4, K3_4. rewrite ?A_lc by (lia || lra). unfold lc. cbn [map fold_right fst snd]. field.
    Qed.
    Lemma k5_3 : OO 4 (fun t h j => k5 t h j - K3_5 t h j).
    Proof.
      pose proof (kap_J1 (1 / 2) 3 Y5 ltac:(lia) ltac:(lia) ltac:(lra) r5_O) as Q.
      pose proof (O_At f y T delta L n d A HL Hs 0 4 _ ltac:(lia) r5_3) as P0.
      refine (O_ext _ _ (oplus (fun t h j => kap f d (1 / 2) Y5 t h j - tpoly (fun l => A l t (off y (1 / 2) Y5 t h) j) 1 ((1 / 2) * h)) (oscal 1 (fun t h => A 0%nat t (fun j => r5 t h j - R3_5 t h j)))) _ _ _); [|os]. rng. unfold oplus, oscal, oh. rewrite ?A_sub by (lia || lra). fold r5 k5. tp.
      unfold R3_5, K3_5. rewrite ?A_lc by (lia || lra). unfold lc. cbn [map fold_right fst snd]. field.
    Qed.
    Lemma k6_3 : OO 4 (fun t h j => k6 t h j - K3_6 t h j).
    Proof.
      pose proof (kap_J1 (1 / 2) 3 Y6 ltac:(lia) ltac:(lia) ltac:(lra) r6_O) as Q.
      pose proof (O_At f y T delta L n d A HL Hs 0 4 _ ltac:(lia) r6_3) as P0.
      refine (O_ext _ _ (oplus (fun t h j => kap f d (1 / 2) Y6 t h j - tpoly (fun l => A l t (off y (1 / 2) Y6 t h) j) 1 ((1 / 2) * h)) (oscal 1 (fun t h => A 0%nat t (fun j => r6 t h j - R3_6 t h j)))) _ _ _); [|os]. rng. unfold oplus, oscal, oh. rewrite ?A_sub by (lia || lra). fold r6 k6. tp.
      unfold R3_6, K3_6. rewrite ?A_lc by (lia || lra). unfold lc. cbn [map fold_right fst snd]. field.
    Qed.
    Lemma k7_3 : OO 4 (fun t h j => k7 t h j - K3_7 t h j).
    Proof.
      pose proof (kap_J1 1 3 Y7 ltac:(lia) ltac:(lia) ltac:(lra) r7_O) as Q.
      pose proof (O_At f y T delta L n d A HL Hs 0 4 _ ltac:(lia) r7_3) as P0.
      refine (O_ext _ _ (oplus (fun t h j => kap f d 1 Y7 t h j - tpoly (fun l => A l t (off y 1 Y7 t h) j) 1 (1 * h)) (oscal 1 (fun t h => A 0%nat t (fun j => r7 t h j - R3_7 t h j)))) _ _ _); [|os]. rng. unfold oplus, oscal, oh. rewrite ?A_sub by (lia || lra). fold r7 k7. tp.
      unfold R3_7, K3_7. rewrite ?A_lc by (lia || lra). unfold lc. cbn [map fold_right fst snd]. field.
    Qed.
    Let R4_3 : fam := fun t h => lc [((- (1 / 81)) * h ^ 3, d 3%nat t); ((- (1 / 243)) * h ^ 4, d 4%nat t); ((2 / 3) * h ^ 1, k2 t h)].
    Let R4_4 : fam := fun t h => lc [((- (1 / 162)) * h ^ 3, d 3%nat t); ((1 / 972) * h ^ 4, A 0%nat t (d 3%nat t)); ((- (5 / 1944)) * h ^ 4, d 4%nat t); ((1 / 3) * h ^ 1, k2 t h); ((- (1 / 18)) * h ^ 2, A 0%nat t (k2 t h))].
    Let R4_5 : fam := fun t h => lc [((- (1 / 48)) * h ^ 3, d 3%nat t); ((1 / 216) * h ^ 4, A 0%nat t (d 3%nat t)); ((- (25 / 3456)) * h ^ 4, d 4%nat t); ((9 / 8) * h ^ 1, k2 t h); ((- (1 / 4)) * h ^ 2, A 0%nat t (k2 t h))].
    Let R4_6 : fam := fun t h => lc [((- (1 / 48)) * h ^ 3, d 3%nat t); ((- (1 / 864)) * h ^ 4, A 0%nat t (d 3%nat t)); ((- (29 / 3456)) * h ^ 4, d 4%nat t); ((9 / 8) * h ^ 1, k2 t h); ((1 / 16) * h ^ 2, A 0%nat t (k2 t h))].
    Let R4_7 : fam := fun t h => lc [((1 / 66) * h ^ 3, d 3%nat t); ((1 / 396) * h ^ 4, A 0%nat t (d 3%nat t)); ((1 / 264) * h ^ 4, d 4%nat t); ((- (9 / 11)) * h ^ 1, k2 t h); ((- (3 / 22)) * h ^ 2, A 0%nat t (k2 t h))].
    Let K4_3 : fam := fun t h => lc [((- (1 / 81)) * h ^ 3, A 0%nat t (d 3%nat t)); ((- (2 / 243)) * h ^ 4, A 1%nat t (d 3%nat t)); ((- (1 / 243)) * h ^ 4, A 0%nat t (d 4%nat t)); ((2 / 3) * h ^ 1, A 0%nat t (k2 t h)); ((4 / 9) * h ^ 2, A 1%nat t (k2 t h))].
    Let K4_4 : fam := fun t h => lc [((1 / 972) * h ^ 4, A 0%nat t (A 0%nat t (d 3%nat t))); ((- (1 / 162)) * h ^ 3, A 0%nat t (d 3%nat t)); ((- (1 / 486)) * h ^ 4, A 1%nat t (d 3%nat t)); ((- (5 / 1944)) * h ^ 4, A 0%nat t (d 4%nat t)); ((- (1 / 18)) * h ^ 2, A 0%nat t (A 0%nat t (k2 t h))); ((1 / 3) * h ^ 1, A 0%nat t (k2 t h)); ((1 / 9) * h ^ 2, A 1%nat t (k2 t h))].
    Let K4_5 : fam := fun t h => lc [((1 / 216) * h ^ 4, A 0%nat t (A 0%nat t (d 3%nat t))); ((- (1 / 48)) * h ^ 3, A 0%nat t (d 3%nat t)); ((- (1 / 96)) * h ^ 4, A 1%nat t (d 3%nat t)); ((- (25 / 3456)) * h ^ 4, A 0%nat t (d 4%nat t)); ((- (1 / 4)) * h ^ 2, A 0%nat t (A 0%nat t (k2 t h))); ((9 / 8) * h ^ 1, A 0%nat t (k2 t h)); ((9 / 16) * h ^ 2, A 1%nat t (k2 t h))].
    Let K4_6 : fam := fun t h => lc [((- (1 / 864)) * h ^ 4, A 0%nat t (A 0%nat t (d 3%nat t))); ((- (1 / 48)) * h ^ 3, A 0%nat t (d 3%nat t)); ((- (1 / 96)) * h ^ 4, A 1%nat t (d 3%nat t)); ((- (29 / 3456)) * h ^ 4, A 0%nat t (d 4%nat t)); ((1 / 16) * h ^ 2, A 0%nat t (A 0%nat t (k2 t h))); ((9 / 8) * h ^ 1, A 0%nat t (k2 t h)); ((9 / 16) * h ^ 2, A 1%nat t (k2 t h))].
    Let K4_7 : fam := fun t h => lc [((1 / 396) * h ^ 4, A 0%nat t (A 0%nat t (d 3%nat t))); ((1 / 66) * h ^ 3, A 0%nat t (d 3%nat t)); ((1 / 66) * h ^ 4, A 1%nat t (d 3%nat t)); ((1 / 264) * h ^ 4, A 0%nat t (d 4%nat t)); ((- (3 / 22)) * h ^ 2, A 0%nat t (A 0%nat t (k2 t h))); ((- (9 / 11)) * h ^ 1, A 0%nat t (k2 t h)); ((- (9 / 11)) * h ^ 2, A 1%nat t (k2 t h))].
    Lemma r3_4 : OO 5 (fun t h j => r3 t h j - R4_3 t h j).
    Proof. pose proof (od 0 5 (2 / 3) ltac:(lia) ltac:(lra)) as D0. pose proof (od 1 4 (1 / 3) ltac:(lia) ltac:(lra)) as D2.  refine (O_ext _ _ (oplus (oscal (-1) (dr 0 5 (2 / 3))) (oscal (2 / 3) (oh (dr 1 4 (1 / 3))))) _ _ _); [|os]. rng. rewrite r3_split by lra. unfold oplus, oscal, oh, drem, R4_3. unfold lc. cbn [fold_right fst snd]. tp. field. Qed.
    Lemma r4_4 : OO 5 (fun t h j => r4 t h j - R4_4 t h j).
    Proof. pose proof (od 0 5 (1 / 3) ltac:(lia) ltac:(lra)) as D0. pose proof (od 1 4 (1 / 3) ltac:(lia) ltac:(lra)) as D2. pose proof (od 1 4 (2 / 3) ltac:(lia) ltac:(lra)) as D3. pose proof k3_3 as Q3. refine (O_ext _ _ (oplus (oscal (-1) (dr 0 5 (1 / 3))) (oplus (oscal (1 / 3) (oh (dr 1 4 (1 / 3)))) (oplus (oscal (- (1 / 12)) (oh (dr 1 4 (2 / 3)))) (oscal (- (1 / 12)) (oh (fun t h j => k3 t h j - K3_3 t h j)))))) _ _ _); [|os]. rng. rewrite r4_split by lra. unfold oplus, oscal, oh, drem, R4_4, K3_3. unfold lc. cbn [fold_right fst snd]. tp. field. Qed.
    Lemma r5_4 : OO 5 (fun t h j => r5 t h j - R4_5 t h j).
    Proof. pose proof (od 0 5 (1 / 2) ltac:(lia) ltac:(lra)) as D0. pose proof (od 1 4 (1 / 3) ltac:(lia) ltac:(lra)) as D2. pose proof (od 1 4 (2 / 3) ltac:(lia) ltac:(lra)) as D3. pose proof k3_3 as Q3. pose proof k4_3 as Q4. refine (O_ext _ _ (oplus (oscal (-1) (dr 0 5 (1 / 2))) (oplus (oscal (9 / 8) (oh (dr 1 4 (1 / 3)))) (oplus (oscal (- (3 / 16)) (oh (dr 1 4 (2 / 3)))) (oplus (oscal (- (3 / 8)) (oh (dr 1 4 (1 / 3)))) (oplus (oscal (- (3 / 16)) (oh (fun t h j => k3 t h j - K3_3 t h j))) (oscal (- (3 / 8)) (oh (fun t h j => k4 t h j - K3_4 t h j)))))))) _ _ _); [|os]. rng. rewrite r5_split by lra. unfold oplus, oscal, oh, drem, R4_5, K3_3, K3_4. unfold lc. cbn [fold_right fst snd]. tp. field. Qed.
    Lemma r6_4 : OO 5 (fun t h j => r6 t h j - R4_6 t h j).
    Proof. pose proof (od 0 5 (1 / 2) ltac:(lia) ltac:(lra)) as D0. pose proof (od 1 4 (1 / 3) ltac:(lia) ltac:(lra)) as D2. pose proof (od 1 4 (2 / 3) ltac:(lia) ltac:(lra)) as D3. pose proof (od 1 4 (1 / 2) ltac:(lia) ltac:(lra)) as D5. pose proof k3_3 as Q3. pose proof k4_3 as Q4. pose proof k5_3 as Q5. refine (O_ext _ _ (oplus (oscal (-1) (dr 0 5 (1 / 2))) (oplus (oscal (9 / 8) (oh (dr 1 4 (1 / 3)))) (oplus (oscal (- (3 / 8)) (oh (dr 1 4 (2 / 3)))) (oplus (oscal (- (3 / 4)) (oh (dr 1 4 (1 / 3)))) (oplus (oscal (1 / 2) (oh (dr 1 4 (1 / 2)))) (oplus (oscal (- (3 / 8)) (oh (fun t h j => k3 t h j - K3_3 t h j))) (oplus (oscal (- (3 / 4)) (oh (fun t h j => k4 t h j - K3_4 t h j))) (oscal (1 / 2) (oh (fun t h j => k5 t h j - K3_5 t h j)))))))))) _ _ _); [|os]. rng. rewrite r6_split by lra. unfold oplus, oscal, oh, drem, R4_6, K3_3, K3_4, K3_5. unfold lc. cbn [fold_right fst snd]. tp. field. Qed.
    Lemma r7_4 : OO 5 (fun t h j => r7 t h j - R4_7 t h j).
    Proof. pose proof (od 0 5 1 ltac:(lia) ltac:(lra)) as D0. pose proof (od 1 4 (1 / 3) ltac:(lia) ltac:(lra)) as D2. pose proof (od 1 4 (2 / 3) ltac:(lia) ltac:(lra)) as D3. pose proof (od 1 4 (1 / 2) ltac:(lia) ltac:(lra)) as D6. pose proof k3_3 as Q3. pose proof k4_3 as Q4. pose proof k6_3 as Q6. refine (O_ext _ _ (oplus (oscal (-1) (dr 0 5 1)) (oplus (oscal (- (9 / 11)) (oh (dr 1 4 (1 / 3)))) (oplus (oscal (63 / 44) (oh (dr 1 4 (2 / 3)))) (oplus (oscal (18 / 11) (oh (dr 1 4 (1 / 3)))) (oplus (oscal (- (16 / 11)) (oh (dr 1 4 (1 / 2)))) (oplus (oscal (63 / 44) (oh (fun t h j => k3 t h j - K3_3 t h j))) (oplus (oscal (18 / 11) (oh (fun t h j => k4 t h j - K3_4 t h j))) (oscal (- (16 / 11)) (oh (fun t h j => k6 t h j - K3_6 t h j)))))))))) _ _ _); [|os]. rng. rewrite r7_split by lra. unfold oplus, oscal, oh, drem, R4_7, K3_3, K3_4, K3_6. unfold lc. cbn [fold_right fst snd]. tp. field. Qed.
    Lemma k3_4 : OO 5 (fun t h j => k3 t h j - K4_3 t h j).
    Proof.
      pose proof (kap_J2 (2 / 3) 3 Y3 ltac:(lia) ltac:(lia) ltac:(lra) r3_O) as Q.
      pose proof (O_At f y T delta L n d A HL Hs 0 5 _ ltac:(lia) r3_4) as P0.
      pose proof (O_At f y T delta L n d A HL Hs 1 4 _ ltac:(lia) r3_3) as P1.
      refine (O_ext _ _ (oplus (fun t h j => kap f d (2 / 3) Y3 t h j - tpoly (fun l => A l t (off y (2 / 3) Y3 t h) j) 2 ((2 / 3) * h)) (oplus (oscal 1 (fun t h => A 0%nat t (fun j => r3 t h j - R4_3 t h j))) (oscal (2 / 3) (oh (fun t h => A 1%nat t (fun j => r3 t h j - R3_3 t h j)))))) _ _ _); [|os]. rng. unfold oplus, oscal, oh. rewrite ?A_sub by (lia || lra). fold r3 k3. tp.
      unfold R4_3, R3_3, K4_3. rewrite ?A_lc by (lia || lra). unfold lc. cbn [map fold_right fst snd]. field.
    Qed.
    Lemma k4_4 : OO 5 (fun t h j => k4 t h j - K4_4 t h j).
    Proof.
      pose proof (kap_J2 (1 / 3) 3 Y4 ltac:(lia) ltac:(lia) ltac:(lra) r4_O) as Q.
      pose proof (O_At f y T delta L n d A HL Hs 0 5 _ ltac:(lia) r4_4) as P0.
      pose proof (O_At f y T delta L n d A HL Hs 1 4 _ ltac:(lia) r4_3) as P1.
      refine (O_ext _ _ (oplus (fun t h j => kap f d (1 / 3) Y4 t h j - tpoly (fun l => A l t (off y (1 / 3) Y4 t h) j) 2 ((1 / 3) * h)) (oplus (oscal 1 (fun t h => A 0%nat t (fun j => r4 t h j - R4_4 t h j))) (oscal (1 / 3) (oh (fun t h => A 1%nat t (fun j => r4 t h j - R3_4 t h j)))))) _ _ _); [|os]. rng. unfold oplus, oscal, oh. rewrite ?A_sub by (lia || lra). fold r4 k4. tp.
      unfold R4_4, R3_4, K4_4. rewrite ?A_lc by (lia || lra). unfold lc. cbn [map fold_right fst snd]. field.
    Qed.
    Lemma k5_4 : OO 5 (fun t h j => k5 t h j - K4_5 t h j).
    Proof.
      pose proof (kap_J2 (1 / 2) 3 Y5 ltac:(lia) ltac:(lia) ltac:(lra) r5_O) as Q.
      pose proof (O_At f y T delta L n d A HL Hs 0 5 _ ltac:(lia) r5_4) as P0.
      pose proof (O_At f y T delta L n d A HL Hs 1 4 _ ltac:(lia) r5_3) as P1.
      refine (O_ext _ _ (oplus (fun t h j => kap f d (1 / 2) Y5 t h j - tpoly (fun l => A l t (off y (1 / 2) Y5 t h) j) 2 ((1 / 2) * h)) (oplus (oscal 1 (fun t h => A 0%nat t (fun j => r5 t h j - R4_5 t h j))) (oscal (1 / 2) (oh (fun t h => A 1%nat t (fun j => r5 t h j - R3_5 t h j)))))) _ _ _); [|os]. rng. unfold oplus, oscal, oh. rewrite ?A_sub by (lia || lra). fold r5 k5. tp.
      unfold R4_5, R3_5, K4_5. rewrite ?A_lc by (lia || lra). unfold lc. cbn [map fold_right fst snd]. field.
    Qed.
    Lemma k6_4 : OO 5 (fun t h j => k6 t h j - K4_6 t h j).
    Proof.
      pose proof (kap_J2 (1 / 2) 3 Y6 ltac:(lia) ltac:(lia) ltac:(lra) r6_O) as Q.
      pose proof (O_At f y T delta L n d A HL Hs 0 5 _ ltac:(lia) r6_4) as P0.
      pose proof (O_At f y T delta L n d A HL Hs 1 4 _ ltac:(lia) r6_3) as P1.
      refine (O_ext _ _ (oplus (fun t h j => kap f d (1 / 2) Y6 t h j - tpoly (fun l => A l t (off y (1 / 2) Y6 t h) j) 2 ((1 / 2) * h)) (oplus (oscal 1 (fun t h => A 0%nat t (fun j => r6 t h j - R4_6 t h j))) (oscal (1 / 2) (oh (fun t h => A 1%nat t (fun j => r6 t h j - R3_6 t h j)))))) _ _ _); [|os]. rng. unfold oplus, oscal, oh. rewrite ?A_sub by (lia || lra). fold r6 k6. tp.
      unfold R4_6, R3_6, K4_6. rewrite ?A_lc by (lia || lra). unfold lc. cbn [map fold_right fst snd]. field.
    Qed.
    Lemma k7_4 : OO 5 (fun t h j => k7 t h j - K4_7 t h j).
    Proof.
      pose proof (kap_J2 1 3 Y7 ltac:(lia) ltac:(lia) ltac:(lra) r7_O) as Q.
      pose proof (O_At f y T delta L n d A HL Hs 0 5 _ ltac:(lia) r7_4) as P0.
      pose proof (O_At f y T delta L n d A HL Hs 1 4 _ ltac:(lia) r7_3) as P1.
      refine (O_ext _ _ (oplus (fun t h j => kap f d 1 Y7 t h j - tpoly (fun l => A l t (off y 1 Y7 t h) j) 2 (1 * h)) (oplus (oscal 1 (fun t h => A 0%nat t (fun j => r7 t h j - R4_7 t h j))) (oscal 1 (oh (fun t h => A 1%nat t (fun j => r7 t h j - R3_7 t h j)))))) _ _ _); [|os]. rng. unfold oplus, oscal, oh. rewrite ?A_sub by (lia || lra). fold r7 k7. tp.
      unfold R4_7, R3_7, K4_7. rewrite ?A_lc by (lia || lra). unfold lc. cbn [map fold_right fst snd]. field.
    Qed.
    Let R5_3 : fam := fun t h => lc [((- (1 / 81)) * h ^ 3, d 3%nat t); ((- (1 / 243)) * h ^ 4, d 4%nat t); ((- (11 / 14580)) * h ^ 5, d 5%nat t); ((2 / 3) * h ^ 1, k2 t h)].
    Let R5_4 : fam := fun t h => lc [((- (1 / 162)) * h ^ 3, d 3%nat t); ((1 / 972) * h ^ 4, A 0%nat t (d 3%nat t)); ((1 / 1458) * h ^ 5, A 1%nat t (d 3%nat t)); ((- (5 / 1944)) * h ^ 4, d 4%nat t); ((1 / 2916) * h ^ 5, A 0%nat t (d 4%nat t)); ((- (2 / 3645)) * h ^ 5, d 5%nat t); ((1 / 3) * h ^ 1, k2 t h); ((- (1 / 18)) * h ^ 2, A 0%nat t (k2 t h)); ((- (1 / 27)) * h ^ 3, A 1%nat t (k2 t h))].
    Let R5_5 : fam := fun t h => lc [((- (1 / 48)) * h ^ 3, d 3%nat t); ((- (1 / 2592)) * h ^ 5, A 0%nat t (A 0%nat t (d 3%nat t))); ((1 / 216) * h ^ 4, A 0%nat t (d 3%nat t)); ((1 / 432) * h ^ 5, A 1%nat t (d 3%nat t)); ((- (25 / 3456)) * h ^ 4, d 4%nat t); ((1 / 576) * h ^ 5, A 0%nat t (d 4%nat t)); ((- (49 / 34560)) * h ^ 5, d 5%nat t); ((9 / 8) * h ^ 1, k2 t h); ((1 / 48) * h ^ 3, A 0%nat t (A 0%nat t (k2 t h))); ((- (1 / 4)) * h ^ 2, A 0%nat t (k2 t h)); ((- (1 / 8)) * h ^ 3, A 1%nat t (k2 t h))].
    Let R5_6 : fam := fun t h => lc [((- (1 / 48)) * h ^ 3, d 3%nat t); ((1 / 648) * h ^ 5, A 0%nat t (A 0%nat t (d 3%nat t))); ((- (1 / 864)) * h ^ 4, A 0%nat t (d 3%nat t)); ((- (1 / 1728)) * h ^ 5, A 1%nat t (d 3%nat t)); ((- (29 / 3456)) * h ^ 4, d 4%nat t); ((- (1 / 6912)) * h ^ 5, A 0%nat t (d 4%nat t)); ((- (1 / 540)) * h ^ 5, d 5%nat t); ((9 / 8) * h ^ 1, k2 t h); ((- (1 / 12)) * h ^ 3, A 0%nat t (A 0%nat t (k2 t h))); ((1 / 16) * h ^ 2, A 0%nat t (k2 t h)); ((1 / 32) * h ^ 3, A 1%nat t (k2 t h))].
    Let R5_7 : fam := fun t h => lc [((1 / 66) * h ^ 3, d 3%nat t); ((1 / 297) * h ^ 5, A 0%nat t (A 0%nat t (d 3%nat t))); ((1 / 396) * h ^ 4, A 0%nat t (d 3%nat t)); ((1 / 264) * h ^ 4, d 4%nat t); ((5 / 2376) * h ^ 5, A 0%nat t (d 4%nat t)); ((1 / 11880) * h ^ 5, d 5%nat t); ((- (9 / 11)) * h ^ 1, k2 t h); ((- (2 / 11)) * h ^ 3, A 0%nat t (A 0%nat t (k2 t h))); ((- (3 / 22)) * h ^ 2, A 0%nat t (k2 t h))].
    Let K5_3 : fam := fun t h => lc [((- (1 / 81)) * h ^ 3, A 0%nat t (d 3%nat t)); ((- (2 / 243)) * h ^ 4, A 1%nat t (d 3%nat t)); ((- (2 / 729)) * h ^ 5, A 2%nat t (d 3%nat t)); ((- (1 / 243)) * h ^ 4, A 0%nat t (d 4%nat t)); ((- (2 / 729)) * h ^ 5, A 1%nat t (d 4%nat t)); ((- (11 / 14580)) * h ^ 5, A 0%nat t (d 5%nat t)); ((2 / 3) * h ^ 1, A 0%nat t (k2 t h)); ((4 / 9) * h ^ 2, A 1%nat t (k2 t h)); ((4 / 27) * h ^ 3, A 2%nat t (k2 t h))].
    Let K5_4 : fam := fun t h => lc [((1 / 972) * h ^ 4, A 0%nat t (A 0%nat t (d 3%nat t))); ((1 / 1458) * h ^ 5, A 0%nat t (A 1%nat t (d 3%nat t))); ((- (1 / 162)) * h ^ 3, A 0%nat t (d 3%nat t)); ((1 / 2916) * h ^ 5, A 1%nat t (A 0%nat t (d 3%nat t))); ((- (1 / 486)) * h ^ 4, A 1%nat t (d 3%nat t)); ((- (1 / 2916)) * h ^ 5, A 2%nat t (d 3%nat t)); ((1 / 2916) * h ^ 5, A 0%nat t (A 0%nat t (d 4%nat t))); ((- (5 / 1944)) * h ^ 4, A 0%nat t (d 4%nat t)); ((- (5 / 5832)) * h ^ 5, A 1%nat t (d 4%nat t)); ((- (2 / 3645)) * h ^ 5, A 0%nat t (d 5%nat t)); ((- (1 / 18)) * h ^ 2, A 0%nat t (A 0%nat t (k2 t h))); ((- (1 / 27)) * h ^ 3, A 0%nat t (A 1%nat t (k2 t h))); ((1 / 3) * h ^ 1, A 0%nat t (k2 t h)); ((- (1 / 54)) * h ^ 3, A 1%nat t (A 0%nat t (k2 t h))); ((1 / 9) * h ^ 2, A 1%nat t (k2 t h)); ((1 / 54) * h ^ 3, A 2%nat t (k2 t h))].
    Let K5_5 : fam := fun t h => lc [((1 / 216) * h ^ 4, A 0%nat t (A 0%nat t (d 3%nat t))); ((- (1 / 2592)) * h ^ 5, A 0%nat t (A 0%nat t (A 0%nat t (d 3%nat t)))); ((1 / 432) * h ^ 5, A 0%nat t (A 1%nat t (d 3%nat t))); ((- (1 / 48)) * h ^ 3, A 0%nat t (d 3%nat t)); ((1 / 432) * h ^ 5, A 1%nat t (A 0%nat t (d 3%nat t))); ((- (1 / 96)) * h ^ 4, A 1%nat t (d 3%nat t)); ((- (1 / 384)) * h ^ 5, A 2%nat t (d 3%nat t)); ((1 / 576) * h ^ 5, A 0%nat t (A 0%nat t (d 4%nat t))); ((- (25 / 3456)) * h ^ 4, A 0%nat t (d 4%nat t)); ((- (25 / 6912)) * h ^ 5, A 1%nat t (d 4%nat t)); ((- (49 / 34560)) * h ^ 5, A 0%nat t (d 5%nat t)); ((- (1 / 4)) * h ^ 2, A 0%nat t (A 0%nat t (k2 t h))); ((1 / 48) * h ^ 3, A 0%nat t (A 0%nat t (A 0%nat t (k2 t h)))); ((- (1 / 8)) * h ^ 3, A 0%nat t (A 1%nat t (k2 t h))); ((9 / 8) * h ^ 1, A 0%nat t (k2 t h)); ((- (1 / 8)) * h ^ 3, A 1%nat t (A 0%nat t (k2 t h))); ((9 / 16) * h ^ 2, A 1%nat t (k2 t h)); ((9 / 64) * h ^ 3, A 2%nat t (k2 t h))].
    Let K5_6 : fam := fun t h => lc [((- (1 / 864)) * h ^ 4, A 0%nat t (A 0%nat t (d 3%nat t))); ((1 / 648) * h ^ 5, A 0%nat t (A 0%nat t (A 0%nat t (d 3%nat t)))); ((- (1 / 1728)) * h ^ 5, A 0%nat t (A 1%nat t (d 3%nat t))); ((- (1 / 48)) * h ^ 3, A 0%nat t (d 3%nat t)); ((- (1 / 1728)) * h ^ 5, A 1%nat t (A 0%nat t (d 3%nat t))); ((- (1 / 96)) * h ^ 4, A 1%nat t (d 3%nat t)); ((- (1 / 384)) * h ^ 5, A 2%nat t (d 3%nat t)); ((- (1 / 6912)) * h ^ 5, A 0%nat t (A 0%nat t (d 4%nat t))); ((- (29 / 3456)) * h ^ 4, A 0%nat t (d 4%nat t)); ((- (29 / 6912)) * h ^ 5, A 1%nat t (d 4%nat t)); ((- (1 / 540)) * h ^ 5, A 0%nat t (d 5%nat t)); ((1 / 16) * h ^ 2, A 0%nat t (A 0%nat t (k2 t h))); ((- (1 / 12)) * h ^ 3, A 0%nat t (A 0%nat t (A 0%nat t (k2 t h)))); ((1 / 32) * h ^ 3, A 0%nat t (A 1%nat t (k2 t h))); ((9 / 8) * h ^ 1, A 0%nat t (k2 t h)); ((1 / 32) * h ^ 3, A 1%nat t (A 0%nat t (k2 t h))); ((9 / 16) * h ^ 2, A 1%nat t (k2 t h)); ((9 / 64) * h ^ 3, A 2%nat t (k2 t h))].
    Let K5_7 : fam := fun t h => lc [((1 / 396) * h ^ 4, A 0%nat t (A 0%nat t (d 3%nat t))); ((1 / 297) * h ^ 5, A 0%nat t (A 0%nat t (A 0%nat t (d 3%nat t)))); ((1 / 66) * h ^ 3, A 0%nat t (d 3%nat t)); ((1 / 396) * h ^ 5, A 1%nat t (A 0%nat t (d 3%nat t))); ((1 / 66) * h ^ 4, A 1%nat t (d 3%nat t)); ((1 / 132) * h ^ 5, A 2%nat t (d 3%nat t)); ((5 / 2376) * h ^ 5, A 0%nat t (A 0%nat t (d 4%nat t))); ((1 / 264) * h ^ 4, A 0%nat t (d 4%nat t)); ((1 / 264) * h ^ 5, A 1%nat t (d 4%nat t)); ((1 / 11880) * h ^ 5, A 0%nat t (d 5%nat t)); ((- (3 / 22)) * h ^ 2, A 0%nat t (A 0%nat t (k2 t h))); ((- (2 / 11)) * h ^ 3, A 0%nat t (A 0%nat t (A 0%nat t (k2 t h)))); ((- (9 / 11)) * h ^ 1, A 0%nat t (k2 t h)); ((- (3 / 22)) * h ^ 3, A 1%nat t (A 0%nat t (k2 t h))); ((- (9 / 11)) * h ^ 2, A 1%nat t (k2 t h)); ((- (9 / 22)) * h ^ 3, A 2%nat t (k2 t h))].
    Lemma r3_5 : OO 6 (fun t h j => r3 t h j - R5_3 t h j).
    Proof. pose proof (od 0 6 (2 / 3) ltac:(lia) ltac:(lra)) as D0. pose proof (od 1 5 (1 / 3) ltac:(lia) ltac:(lra)) as D2.  refine (O_ext _ _ (oplus (oscal (-1) (dr 0 6 (2 / 3))) (oscal (2 / 3) (oh (dr 1 5 (1 / 3))))) _ _ _); [|os]. rng. rewrite r3_split by lra. unfold oplus, oscal, oh, drem, R5_3. unfold lc. cbn [fold_right fst snd]. tp. field. Qed.
    Lemma r4_5 : OO 6 (fun t h j => r4 t h j - R5_4 t h j).
    Proof. pose proof (od 0 6 (1 / 3) ltac:(lia) ltac:(lra)) as D0. pose proof (od 1 5 (1 / 3) ltac:(lia) ltac:(lra)) as D2. pose proof (od 1 5 (2 / 3) ltac:(lia) ltac:(lra)) as D3. pose proof k3_4 as Q3. refine (O_ext _ _ (oplus (oscal (-1) (dr 0 6 (1 / 3))) (oplus (oscal (1 / 3) (oh (dr 1 5 (1 / 3)))) (oplus (oscal (- (1 / 12)) (oh (dr 1 5 (2 / 3)))) (oscal (- (1 / 12)) (oh (fun t h j => k3 t h j - K4_3 t h j)))))) _ _ _); [|os]. rng. rewrite r4_split by lra. unfold oplus, oscal, oh, drem, R5_4, K4_3. unfold lc. cbn [fold_right fst snd]. tp. field. Qed.
    Lemma r5_5 : OO 6 (fun t h j => r5 t h j - R5_5 t h j).
    Proof. pose proof (od 0 6 (1 / 2) ltac:(lia) ltac:(lra)) as D0. pose proof (od 1 5 (1 / 3) ltac:(lia) ltac:(lra)) as D2. pose proof (od 1 5 (2 / 3) ltac:(lia) ltac:(lra)) as D3. pose proof k3_4 as Q3. pose proof k4_4 as Q4. refine (O_ext _ _ (oplus (oscal (-1) (dr 0 6 (1 / 2))) (oplus (oscal (9 / 8) (oh (dr 1 5 (1 / 3)))) (oplus (oscal (- (3 / 16)) (oh (dr 1 5 (2 / 3)))) (oplus (oscal (- (3 / 8)) (oh (dr 1 5 (1 / 3)))) (oplus (oscal (- (3 / 16)) (oh (fun t h j => k3 t h j - K4_3 t h j))) (oscal (- (3 / 8)) (oh (fun t h j => k4 t h j - K4_4 t h j)))))))) _ _ _); [|os]. rng. rewrite r5_split by lra. unfold oplus, oscal, oh, drem, R5_5, K4_3, K4_4. unfold lc. cbn [fold_right fst snd]. tp. field. Qed.
    Lemma r6_5 : OO 6 (fun t h j => r6 t h j - R5_6 t h j).
    Proof. pose proof (od 0 6 (1 / 2) ltac:(lia) ltac:(lra)) as D0. pose proof (od 1 5 (1 / 3) ltac:(lia) ltac:(lra)) as D2. pose proof (od 1 5 (2 / 3) ltac:(lia) ltac:(lra)) as D3. pose proof (od 1 5 (1 / 2) ltac:(lia) ltac:(lra)) as D5. pose proof k3_4 as Q3. pose proof k4_4 as Q4. pose proof k5_4 as Q5. refine (O_ext _ _ (oplus (oscal (-1) (dr 0 6 (1 / 2))) (oplus (oscal (9 / 8) (oh (dr 1 5 (1 / 3)))) (oplus (oscal (- (3 / 8)) (oh (dr 1 5 (2 / 3)))) (oplus (oscal (- (3 / 4)) (oh (dr 1 5 (1 / 3)))) (oplus (oscal (1 / 2) (oh (dr 1 5 (1 / 2)))) (oplus (oscal (- (3 / 8)) (oh (fun t h j => k3 t h j - K4_3 t h j))) (oplus (oscal (- (3 / 4)) (oh (fun t h j => k4 t h j - K4_4 t h j))) (oscal (1 / 2) (oh (fun t h j => k5 t h j - K4_5 t h j)))))))))) _ _ _); [|os]. rng. rewrite r6_split by lra. unfold oplus, oscal, oh, drem, R5_6, K4_3, K4_4, K4_5. unfold lc. cbn [fold_right fst snd]. tp. field. Qed.
    Lemma r7_5 : OO 6 (fun t h j => r7 t h j - R5_7 t h j).
    Proof. pose proof (od 0 6 1 ltac:(lia) ltac:(lra)) as D0. pose proof (od 1 5 (1 / 3) ltac:(lia) ltac:(lra)) as D2. pose proof (od 1 5 (2 / 3) ltac:(lia) ltac:(lra)) as D3. pose proof (od 1 5 (1 / 2) ltac:(lia) ltac:(lra)) as D6. pose proof k3_4 as Q3. pose proof k4_4 as Q4. pose proof k6_4 as Q6. refine (O_ext _ _ (oplus (oscal (-1) (dr 0 6 1)) (oplus (oscal (- (9 / 11)) (oh (dr 1 5 (1 / 3)))) (oplus (oscal (63 / 44) (oh (dr 1 5 (2 / 3)))) (oplus (oscal (18 / 11) (oh (dr 1 5 (1 / 3)))) (oplus (oscal (- (16 / 11)) (oh (dr 1 5 (1 / 2)))) (oplus (oscal (63 / 44) (oh (fun t h j => k3 t h j - K4_3 t h j))) (oplus (oscal (18 / 11) (oh (fun t h j => k4 t h j - K4_4 t h j))) (oscal (- (16 / 11)) (oh (fun t h j => k6 t h j - K4_6 t h j)))))))))) _ _ _); [|os]. rng. rewrite r7_split by lra. unfold oplus, oscal, oh, drem, R5_7, K4_3, K4_4, K4_6. unfold lc. cbn [fold_right fst snd]. tp. field. Qed.
    Lemma k3_5 : OO 6 (fun t h j => k3 t h j - K5_3 t h j).
    Proof.
      pose proof (kap_J3 (2 / 3) 3 Y3 ltac:(lia) ltac:(lia) ltac:(lra) r3_O) as Q.
      pose proof (O_At f y T delta L n d A HL Hs 0 6 _ ltac:(lia) r3_5) as P0.
      pose proof (O_At f y T delta L n d A HL Hs 1 5 _ ltac:(lia) r3_4) as P1.
      pose proof (O_At f y T delta L n d A HL Hs 2 4 _ ltac:(lia) r3_3) as P2.
      refine (O_ext _ _ (oplus (fun t h j => kap f d (2 / 3) Y3 t h j - tpoly (fun l => A l t (off y (2 / 3) Y3 t h) j) 3 ((2 / 3) * h)) (oplus (oscal 1 (fun t h => A 0%nat t (fun j => r3 t h j - R5_3 t h j))) (oplus (oscal (2 / 3) (oh (fun t h => A 1%nat t (fun j => r3 t h j - R4_3 t h j)))) (oscal (2 / 9) (oh (oh (fun t h => A 2%nat t (fun j => r3 t h j - R3_3 t h j)))))))) _ _ _); [|os]. rng. unfold oplus, oscal, oh. rewrite ?A_sub by (lia || lra). fold r3 k3. tp.
      unfold R5_3, R4_3, R3_3, K5_3. rewrite ?A_lc by (lia || lra). unfold lc. cbn [map fold_right fst snd]. field.
    Qed.
    Lemma k4_5 : OO 6 (fun t h j => k4 t h j - K5_4 t h j).
    Proof.
      pose proof (kap_J3 (1 / 3) 3 Y4 ltac:(lia) ltac:(lia) ltac:(lra) r4_O) as Q.
      pose proof (O_At f y T delta L n d A HL Hs 0 6 _ ltac:(lia) r4_5) as P0.
      pose proof (O_At f y T delta L n d A HL Hs 1 5 _ ltac:(lia) r4_4) as P1.
      pose proof (O_At f y T delta L n d A HL Hs 2 4 _ ltac:(lia) r4_3) as P2.
      refine (O_ext _ _ (oplus (fun t h j => kap f d (1 / 3) Y4 t h j - tpoly (fun l => A l t (off y (1 / 3) Y4 t h) j) 3 ((1 / 3) * h)) (oplus (oscal 1 (fun t h => A 0%nat t (fun j => r4 t h j - R5_4 t h j))) (oplus (oscal (1 / 3) (oh (fun t h => A 1%nat t (fun j => r4 t h j - R4_4 t h j)))) (oscal (1 / 18) (oh (oh (fun t h => A 2%nat t (fun j => r4 t h j - R3_4 t h j)))))))) _ _ _); [|os]. rng. unfold oplus, oscal, oh. rewrite ?A_sub by (lia || lra). fold r4 k4. tp.
      unfold R5_4, R4_4, R3_4, K5_4. rewrite ?A_lc by (lia || lra). unfold lc. cbn [map fold_right fst snd]. field.
    Qed.
    Lemma k5_5 : OO 6 (fun t h j => k5 t h j - K5_5 t h j).
    Proof.
      pose proof (kap_J3 (1 / 2) 3 Y5 ltac:(lia) ltac:(lia) ltac:(lra) r5_O) as Q.
      pose proof (O_At f y T delta L n d A HL Hs 0 6 _ ltac:(lia) r5_5) as P0.
      pose proof (O_At f y T delta L n d A HL Hs 1 5 _ ltac:(lia) r5_4) as P1.
      pose proof (O_At f y T delta L n d A HL Hs 2 4 _ ltac:(lia) r5_3) as P2.
      refine (O_ext _ _ (oplus (fun t h j => kap f d (1 / 2) Y5 t h j - tpoly (fun l => A l t (off y (1 / 2) Y5 t h) j) 3 ((1 / 2) * h)) (oplus (oscal 1 (fun t h => A 0%nat t (fun j => r5 t h j - R5_5 t h j))) (oplus (oscal (1 / 2) (oh (fun t h => A 1%nat t (fun j => r5 t h j - R4_5 t h j)))) (oscal (1 / 8) (oh (oh (fun t h => A 2%nat t (fun j => r5 t h j - R3_5 t h j)))))))) _ _ _); [|os]. rng. unfold oplus, oscal, oh. rewrite ?A_sub by (lia || lra). fold r5 k5. tp.
      unfold R5_5, R4_5, R3_5, K5_5. rewrite ?A_lc by (lia || lra). unfold lc. cbn [map fold_right fst snd]. field.
    Qed.
    Lemma k6_5 : OO 6 (fun t h j => k6 t h j - K5_6 t h j).
    Proof.
      pose proof (kap_J3 (1 / 2) 3 Y6 ltac:(lia) ltac:(lia) ltac:(lra) r6_O) as Q.
      pose proof (O_At f y T delta L n d A HL Hs 0 6 _ ltac:(lia) r6_5) as P0.
      pose proof (O_At f y T delta L n d A HL Hs 1 5 _ ltac:(lia) r6_4) as P1.
      pose proof (O_At f y T delta L n d A HL Hs 2 4 _ ltac:(lia) r6_3) as P2.
      refine (O_ext _ _ (oplus (fun t h j => kap f d (1 / 2) Y6 t h j - tpoly (fun l => A l t (off y (1 / 2) Y6 t h) j) 3 ((1 / 2) * h)) (oplus (oscal 1 (fun t h => A 0%nat t (fun j => r6 t h j - R5_6 t h j))) (oplus (oscal (1 / 2) (oh (fun t h => A 1%nat t (fun j => r6 t h j - R4_6 t h j)))) (oscal (1 / 8) (oh (oh (fun t h => A 2%nat t (fun j => r6 t h j - R3_6 t h j)))))))) _ _ _); [|os]. rng. unfold oplus, oscal, oh. rewrite ?A_sub by (lia || lra). fold r6 k6. tp.
      unfold R5_6, R4_6, R3_6, K5_6. rewrite ?A_lc by (lia || lra). unfold lc. cbn [map fold_right fst snd]. field.
    Qed.
    Lemma k7_5 : OO 6 (fun t h j => k7 t h j - K5_7 t h j).
    Proof.
      pose proof (kap_J3 1 3 Y7 ltac:(lia) ltac:(lia) ltac:(lra) r7_O) as Q.
      pose proof (O_At f y T delta L n d A HL Hs 0 6 _ ltac:(lia) r7_5) as P0.
      pose proof (O_At f y T delta L n d A HL Hs 1 5 _ ltac:(lia) r7_4) as P1.
      pose proof (O_At f y T delta L n d A HL Hs 2 4 _ ltac:(lia) r7_3) as P2.
      refine (O_ext _ _ (oplus (fun t h j => kap f d 1 Y7 t h j - tpoly (fun l => A l t (off y 1 Y7 t h) j) 3 (1 * h)) (oplus (oscal 1 (fun t h => A 0%nat t (fun j => r7 t h j - R5_7 t h j))) (oplus (oscal 1 (oh (fun t h => A 1%nat t (fun j => r7 t h j - R4_7 t h j)))) (oscal (1 / 2) (oh (oh (fun t h => A 2%nat t (fun j => r7 t h j - R3_7 t h j)))))))) _ _ _); [|os]. rng. unfold oplus, oscal, oh. rewrite ?A_sub by (lia || lra). fold r7 k7. tp.
      unfold R5_7, R4_7, R3_7, K5_7. rewrite ?A_lc by (lia || lra). unfold lc. cbn [map fold_right fst snd]. field.
    Qed.
    Lemma kappa_sum : OO 6 (fun t h j => (27 / 40) * k3 t h j + (27 / 40) * k4 t h j + (- (4 / 15)) * k5 t h j + (- (4 / 15)) * k6 t h j + (11 / 120) * k7 t h j).
    Proof.
      pose proof k3_5 as Q3. pose proof k4_5 as Q4. pose proof k5_5 as Q5. pose proof k6_5 as Q6. pose proof k7_5 as Q7.
      refine (O_ext _ _ (oplus (oscal (27 / 40) (fun t h j => k3 t h j - K5_3 t h j)) (oplus (oscal (27 / 40) (fun t h j => k4 t h j - K5_4 t h j)) (oplus (oscal (- (4 / 15)) (fun t h j => k5 t h j - K5_5 t h j)) (oplus (oscal (- (4 / 15)) (fun t h j => k6 t h j - K5_6 t h j)) (oscal (11 / 120) (fun t h j => k7 t h j - K5_7 t h j)))))) _ _ _); [|os]. rng.
      unfold oplus, oscal, K5_3, K5_4, K5_5, K5_6, K5_7. unfold lc. cbn [fold_right fst snd]. field.
    Qed.
    Theorem rk6_local : OO 7 (fun t h j => rk6_onestep f (y t) (y t) t h j - y (t + h) j).
    Proof.
      pose proof kappa_sum as KS. pose proof (od 0 7 1 ltac:(lia) ltac:(lra)) as D0. pose proof (od 1 6 (2 / 3) ltac:(lia) ltac:(lra)) as D3. pose proof (od 1 6 (1 / 3) ltac:(lia) ltac:(lra)) as D4. pose proof (od 1 6 (1 / 2) ltac:(lia) ltac:(lra)) as D5. pose proof (od 1 6 1 ltac:(lia) ltac:(lra)) as D7.
      refine (O_ext _ _ (oplus (oscal (-1) (dr 0 7 1)) (oplus (oscal (27 / 40) (oh (dr 1 6 (2 / 3)))) (oplus (oscal (27 / 40) (oh (dr 1 6 (1 / 3)))) (oplus (oscal (- (4 / 15)) (oh (dr 1 6 (1 / 2)))) (oplus (oscal (- (4 / 15)) (oh (dr 1 6 (1 / 2)))) (oplus (oscal (11 / 120) (oh (dr 1 6 1))) (oh (fun t h j => (27 / 40) * k3 t h j + (27 / 40) * k4 t h j + (- (4 / 15)) * k5 t h j + (- (4 / 15)) * k6 t h j + (11 / 120) * k7 t h j)))))))) _ _ _); [|os]. rng.
      assert (E : rk6_onestep f (y t) (y t) t h j = y t j + h * ((11 / 120) * f t (y t) j + (27 / 40) * f (t + (2 / 3) * h) (Y3 t h) j + (27 / 40) * f (t + (1 / 3) * h) (Y4 t h) j + (- (4 / 15)) * f (t + (1 / 2) * h) (Y5 t h) j + (- (4 / 15)) * f (t + (1 / 2) * h) (Y6 t h) j + (11 / 120) * f (t + 1 * h) (Y7 t h) j)).
      { unfold rk6_onestep, Y7, G6, Y6, G5, Y5, G4, Y4, G3, Y3, G2, Y2, G1. replace (t + h / 3) with (t + 1 / 3 * h) by field. replace (t + 2 * h / 3) with (t + 2 / 3 * h) by field. replace (t + h / 2) with (t + 1 / 2 * h) by field. replace (t + 1 * h) with (t + h) by ring. field. }
      rewrite E. replace (y (t + h) j) with (y (t + 1 * h) j) by (f_equal; ring). rewrite (f_d1 f y T delta L n d A Hs t), !(y_d0 f y T delta L n d A Hs) by lra.
      unfold oplus, oscal, oh, k3, k4, k5, k6, k7, kap, drem. tp. field.
    Qed.
  End Steps.
End Along.
