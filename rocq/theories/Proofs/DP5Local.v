(** The local error of the Dormand-Prince step of order five. *)
From Coq Require Import Reals Lra Lia List FunctionalExtensionality.
From Coquelicot Require Import Coquelicot.
From Verif.Lib Require Import RealAux.
From Verif.Model Require Import Symplectic RungeKutta.
From Verif.Spec Require Import OrderSpec.
From Verif.Proofs Require Import RKOrder RK4Local RKLinear.
Import ListNotations.
Open Scope R_scope.
Notation RR := RbaseSymbolsImpl.R (only parsing).

Section Along.
  Context {J : Type}.
  Variables (f : RR -> vec J -> vec J) (y : RR -> vec J) (T delta L : RR) (n : nat) (d : nat -> RR -> vec J) (A : nat -> RR -> vec J -> vec J).
  Hypothesis (HT : 0 < T) (Hdelta : 0 < delta) (HL : 0 <= L) (Hs : smooth_with f y T delta L n d A).
  Local Notation OO := (O T).
  Local Notation dr := (drem d).
  Local Notation A_sub := (RKLinear.A_sub f y T delta L n d A Hs).
  Local Notation A_lc := (RKLinear.A_lc f y T delta L n d A Hs).
  Local Notation kap_J1 := (RKLinear.kap_J1 f y T delta L n d A Hdelta HL Hs).
  Local Notation kap_J2 := (RKLinear.kap_J2 f y T delta L n d A Hdelta HL Hs).
  Local Notation kap_J3 := (RKLinear.kap_J3 f y T delta L n d A Hdelta HL Hs).
  Section Steps.
    Hypothesis Hn : (6 <= n)%nat.
    Ltac rng := match goal with |- forall t h j, _ -> _ -> _ -> _ => intros t h j Ht Hh Hth end.
    Let od i m c (H : (i + m <= n)%nat) (Hc : 0 <= c <= 1) : OO m (dr i m c) := O_drem f y T delta L n d A HL Hs i m c H Hc.
    Definition G1 : fam := fun t h => f t (y t).
    Definition Y2 : fam := fun t h i => y t i + (1 / 5) * (h * G1 t h i).
    Definition G2 : fam := fun t h => f (t + (1 / 5) * h) (Y2 t h).
    Definition Y3 : fam := fun t h i => y t i + (3 / 40) * (h * G1 t h i) + (9 / 40) * (h * G2 t h i).
    Definition G3 : fam := fun t h => f (t + (3 / 10) * h) (Y3 t h).
    Definition Y4 : fam := fun t h i => y t i + (44 / 45) * (h * G1 t h i) + (- (56 / 15)) * (h * G2 t h i) + (32 / 9) * (h * G3 t h i).
    Definition G4 : fam := fun t h => f (t + (4 / 5) * h) (Y4 t h).
    Definition Y5 : fam := fun t h i => y t i + (19372 / 6561) * (h * G1 t h i) + (- (25360 / 2187)) * (h * G2 t h i) + (64448 / 6561) * (h * G3 t h i) + (- (212 / 729)) * (h * G4 t h i).
    Definition G5 : fam := fun t h => f (t + (8 / 9) * h) (Y5 t h).
    Definition Y6 : fam := fun t h i => y t i + (9017 / 3168) * (h * G1 t h i) + (- (355 / 33)) * (h * G2 t h i) + (46732 / 5247) * (h * G3 t h i) + (49 / 176) * (h * G4 t h i) + (- (5103 / 18656)) * (h * G5 t h i).
    Let r2 := off y (1 / 5) Y2. Let k2 := kap f d (1 / 5) Y2.
    Let r3 := off y (3 / 10) Y3. Let k3 := kap f d (3 / 10) Y3.
    Let r4 := off y (4 / 5) Y4. Let k4 := kap f d (4 / 5) Y4.
    Let r5 := off y (8 / 9) Y5. Let k5 := kap f d (8 / 9) Y5.
    Let r6 := off y 1 Y6. Let k6 := kap f d 1 Y6.
    Lemma r2_split : forall t h j, 0 <= t -> 0 <= h -> t + h <= T -> r2 t h j = h * ((1 / 5) * d 1%nat t j) - (d 0%nat (t + (1 / 5) * h) j - d 0%nat t j) + h * (0).
    Proof. rng. unfold r2, kap, off. unfold Y2 at 1. unfold G5, G4, G3, G2, G1. rewrite ?(f_d1 f y T delta L n d A Hs t), !(y_d0 f y T delta L n d A Hs) by lra. field. Qed.
    Lemma r3_split : forall t h j, 0 <= t -> 0 <= h -> t + h <= T -> r3 t h j = h * ((3 / 40) * d 1%nat t j + (9 / 40) * d 1%nat (t + (1 / 5) * h) j) - (d 0%nat (t + (3 / 10) * h) j - d 0%nat t j) + h * ((9 / 40) * k2 t h j).
    Proof. rng. unfold r3, k2, kap, off. unfold Y3 at 1. unfold G5, G4, G3, G2, G1. rewrite ?(f_d1 f y T delta L n d A Hs t), !(y_d0 f y T delta L n d A Hs) by lra. field. Qed.
    Lemma r4_split : forall t h j, 0 <= t -> 0 <= h -> t + h <= T -> r4 t h j = h * ((44 / 45) * d 1%nat t j + (- (56 / 15)) * d 1%nat (t + (1 / 5) * h) j + (32 / 9) * d 1%nat (t + (3 / 10) * h) j) - (d 0%nat (t + (4 / 5) * h) j - d 0%nat t j) + h * ((- (56 / 15)) * k2 t h j + (32 / 9) * k3 t h j).
    Proof. rng. unfold r4, k2, k3, kap, off. unfold Y4 at 1. unfold G5, G4, G3, G2, G1. rewrite ?(f_d1 f y T delta L n d A Hs t), !(y_d0 f y T delta L n d A Hs) by lra. field. Qed.
    Lemma r5_split : forall t h j, 0 <= t -> 0 <= h -> t + h <= T -> r5 t h j = h * ((19372 / 6561) * d 1%nat t j + (- (25360 / 2187)) * d 1%nat (t + (1 / 5) * h) j + (64448 / 6561) * d 1%nat (t + (3 / 10) * h) j + (- (212 / 729)) * d 1%nat (t + (4 / 5) * h) j) - (d 0%nat (t + (8 / 9) * h) j - d 0%nat t j) + h * ((- (25360 / 2187)) * k2 t h j + (64448 / 6561) * k3 t h j + (- (212 / 729)) * k4 t h j).
    Proof. rng. unfold r5, k2, k3, k4, kap, off. unfold Y5 at 1. unfold G5, G4, G3, G2, G1. rewrite ?(f_d1 f y T delta L n d A Hs t), !(y_d0 f y T delta L n d A Hs) by lra. field. Qed.
    Lemma r6_split : forall t h j, 0 <= t -> 0 <= h -> t + h <= T -> r6 t h j = h * ((9017 / 3168) * d 1%nat t j + (- (355 / 33)) * d 1%nat (t + (1 / 5) * h) j + (46732 / 5247) * d 1%nat (t + (3 / 10) * h) j + (49 / 176) * d 1%nat (t + (4 / 5) * h) j + (- (5103 / 18656)) * d 1%nat (t + (8 / 9) * h) j) - (d 0%nat (t + 1 * h) j - d 0%nat t j) + h * ((- (355 / 33)) * k2 t h j + (46732 / 5247) * k3 t h j + (49 / 176) * k4 t h j + (- (5103 / 18656)) * k5 t h j).
    Proof. rng. unfold r6, k2, k3, k4, k5, kap, off. unfold Y6 at 1. unfold G5, G4, G3, G2, G1. rewrite ?(f_d1 f y T delta L n d A Hs t), !(y_d0 f y T delta L n d A Hs) by lra. field. Qed.
    Lemma r2_O : OO 2 r2.
    Proof. pose proof (od 0 2 (1 / 5) ltac:(lia) ltac:(lra)) as D0. refine (O_ext _ _ (oscal (-1) (dr 0 2 (1 / 5))) _ _ _); [|os]. rng. rewrite r2_split by lra. unfold oplus, oscal, oh, drem. tp. field. Qed.
    Lemma k2_O : OO 2 k2.
    Proof. apply (kap_O f y T delta L n d A Hdelta HL Hs); [lia|lra|exact r2_O]. Qed.
    Lemma r3_O : OO 3 r3.
    Proof. pose proof (od 0 3 (3 / 10) ltac:(lia) ltac:(lra)) as D0. pose proof (od 1 2 (1 / 5) ltac:(lia) ltac:(lra)) as D2. pose proof k2_O as K2. refine (O_ext _ _ (oplus (oscal (-1) (dr 0 3 (3 / 10))) (oplus (oscal (9 / 40) (oh (dr 1 2 (1 / 5)))) (oscal (9 / 40) (oh k2)))) _ _ _); [|os]. rng. rewrite r3_split by lra. unfold oplus, oscal, oh, drem. tp. field. Qed.
    Lemma k3_O : OO 3 k3.
    Proof. apply (kap_O f y T delta L n d A Hdelta HL Hs); [lia|lra|exact r3_O]. Qed.
    Lemma r4_O : OO 3 r4.
    Proof. pose proof (od 0 3 (4 / 5) ltac:(lia) ltac:(lra)) as D0. pose proof (od 1 2 (1 / 5) ltac:(lia) ltac:(lra)) as D2. pose proof (od 1 2 (3 / 10) ltac:(lia) ltac:(lra)) as D3. pose proof k2_O as K2. pose proof k3_O as K3. refine (O_ext _ _ (oplus (oscal (-1) (dr 0 3 (4 / 5))) (oplus (oscal (- (56 / 15)) (oh (dr 1 2 (1 / 5)))) (oplus (oscal (32 / 9) (oh (dr 1 2 (3 / 10)))) (oplus (oscal (- (56 / 15)) (oh k2)) (oscal (32 / 9) (oh k3)))))) _ _ _); [|os]. rng. rewrite r4_split by lra. unfold oplus, oscal, oh, drem. tp. field. Qed.
    Lemma k4_O : OO 3 k4.
    Proof. apply (kap_O f y T delta L n d A Hdelta HL Hs); [lia|lra|exact r4_O]. Qed.
    Lemma r5_O : OO 3 r5.
    Proof. pose proof (od 0 3 (8 / 9) ltac:(lia) ltac:(lra)) as D0. pose proof (od 1 2 (1 / 5) ltac:(lia) ltac:(lra)) as D2. pose proof (od 1 2 (3 / 10) ltac:(lia) ltac:(lra)) as D3. pose proof (od 1 2 (4 / 5) ltac:(lia) ltac:(lra)) as D4. pose proof k2_O as K2. pose proof k3_O as K3. pose proof k4_O as K4. refine (O_ext _ _ (oplus (oscal (-1) (dr 0 3 (8 / 9))) (oplus (oscal (- (25360 / 2187)) (oh (dr 1 2 (1 / 5)))) (oplus (oscal (64448 / 6561) (oh (dr 1 2 (3 / 10)))) (oplus (oscal (- (212 / 729)) (oh (dr 1 2 (4 / 5)))) (oplus (oscal (- (25360 / 2187)) (oh k2)) (oplus (oscal (64448 / 6561) (oh k3)) (oscal (- (212 / 729)) (oh k4)))))))) _ _ _); [|os]. rng. rewrite r5_split by lra. unfold oplus, oscal, oh, drem. tp. field. Qed.
    Lemma k5_O : OO 3 k5.
    Proof. apply (kap_O f y T delta L n d A Hdelta HL Hs); [lia|lra|exact r5_O]. Qed.
    Lemma r6_O : OO 3 r6.
    Proof. pose proof (od 0 3 1 ltac:(lia) ltac:(lra)) as D0. pose proof (od 1 2 (1 / 5) ltac:(lia) ltac:(lra)) as D2. pose proof (od 1 2 (3 / 10) ltac:(lia) ltac:(lra)) as D3. pose proof (od 1 2 (4 / 5) ltac:(lia) ltac:(lra)) as D4. pose proof (od 1 2 (8 / 9) ltac:(lia) ltac:(lra)) as D5. pose proof k2_O as K2. pose proof k3_O as K3. pose proof k4_O as K4. pose proof k5_O as K5. refine (O_ext _ _ (oplus (oscal (-1) (dr 0 3 1)) (oplus (oscal (- (355 / 33)) (oh (dr 1 2 (1 / 5)))) (oplus (oscal (46732 / 5247) (oh (dr 1 2 (3 / 10)))) (oplus (oscal (49 / 176) (oh (dr 1 2 (4 / 5)))) (oplus (oscal (- (5103 / 18656)) (oh (dr 1 2 (8 / 9)))) (oplus (oscal (- (355 / 33)) (oh k2)) (oplus (oscal (46732 / 5247) (oh k3)) (oplus (oscal (49 / 176) (oh k4)) (oscal (- (5103 / 18656)) (oh k5)))))))))) _ _ _); [|os]. rng. rewrite r6_split by lra. unfold oplus, oscal, oh, drem. tp. field. Qed.
    Lemma k6_O : OO 3 k6.
    Proof. apply (kap_O f y T delta L n d A Hdelta HL Hs); [lia|lra|exact r6_O]. Qed.
    Let R3_3 : fam := fun t h => lc [((9 / 40) * h ^ 1, k2 t h)].
    Let R3_4 : fam := fun t h => lc [((- (56 / 15)) * h ^ 1, k2 t h)].
    Let R3_5 : fam := fun t h => lc [((- (25360 / 2187)) * h ^ 1, k2 t h)].
    Let R3_6 : fam := fun t h => lc [((- (355 / 33)) * h ^ 1, k2 t h)].
    Let K3_3 : fam := fun t h => lc [((9 / 40) * h ^ 1, A 0%nat t (k2 t h))].
    Let K3_4 : fam := fun t h => lc [((- (56 / 15)) * h ^ 1, A 0%nat t (k2 t h))].
    Let K3_5 : fam := fun t h => lc [((- (25360 / 2187)) * h ^ 1, A 0%nat t (k2 t h))].
    Let K3_6 : fam := fun t h => lc [((- (355 / 33)) * h ^ 1, A 0%nat t (k2 t h))].
    Lemma r3_3 : OO 4 (fun t h j => r3 t h j - R3_3 t h j).
    Proof. pose proof (od 0 4 (3 / 10) ltac:(lia) ltac:(lra)) as D0. pose proof (od 1 3 (1 / 5) ltac:(lia) ltac:(lra)) as D2.  refine (O_ext _ _ (oplus (oscal (-1) (dr 0 4 (3 / 10))) (oscal (9 / 40) (oh (dr 1 3 (1 / 5))))) _ _ _); [|os]. rng. rewrite r3_split by lra. unfold oplus, oscal, oh, drem, R3_3. unfold lc. cbn [fold_right fst snd]. tp. field. Qed.
    Lemma r4_3 : OO 4 (fun t h j => r4 t h j - R3_4 t h j).
    Proof. pose proof (od 0 4 (4 / 5) ltac:(lia) ltac:(lra)) as D0. pose proof (od 1 3 (1 / 5) ltac:(lia) ltac:(lra)) as D2. pose proof (od 1 3 (3 / 10) ltac:(lia) ltac:(lra)) as D3. pose proof k3_O as Q3. refine (O_ext _ _ (oplus (oscal (-1) (dr 0 4 (4 / 5))) (oplus (oscal (- (56 / 15)) (oh (dr 1 3 (1 / 5)))) (oplus (oscal (32 / 9) (oh (dr 1 3 (3 / 10)))) (oscal (32 / 9) (oh k3))))) _ _ _); [|os]. rng. rewrite r4_split by lra. unfold oplus, oscal, oh, drem, R3_4. unfold lc. cbn [fold_right fst snd]. tp. field. Qed.
    Lemma r5_3 : OO 4 (fun t h j => r5 t h j - R3_5 t h j).
    Proof. pose proof (od 0 4 (8 / 9) ltac:(lia) ltac:(lra)) as D0. pose proof (od 1 3 (1 / 5) ltac:(lia) ltac:(lra)) as D2. pose proof (od 1 3 (3 / 10) ltac:(lia) ltac:(lra)) as D3. pose proof (od 1 3 (4 / 5) ltac:(lia) ltac:(lra)) as D4. pose proof k3_O as Q3. pose proof k4_O as Q4. refine (O_ext _ _ (oplus (oscal (-1) (dr 0 4 (8 / 9))) (oplus (oscal (- (25360 / 2187)) (oh (dr 1 3 (1 / 5)))) (oplus (oscal (64448 / 6561) (oh (dr 1 3 (3 / 10)))) (oplus (oscal (- (212 / 729)) (oh (dr 1 3 (4 / 5)))) (oplus (oscal (64448 / 6561) (oh k3)) (oscal (- (212 / 729)) (oh k4))))))) _ _ _); [|os]. rng. rewrite r5_split by lra. unfold oplus, oscal, oh, drem, R3_5. unfold lc. cbn [fold_right fst snd]. tp. field. Qed.
    Lemma r6_3 : OO 4 (fun t h j => r6 t h j - R3_6 t h j).
    Proof. pose proof (od 0 4 1 ltac:(lia) ltac:(lra)) as D0. pose proof (od 1 3 (1 / 5) ltac:(lia) ltac:(lra)) as D2. pose proof (od 1 3 (3 / 10) ltac:(lia) ltac:(lra)) as D3. pose proof (od 1 3 (4 / 5) ltac:(lia) ltac:(lra)) as D4. pose proof (od 1 3 (8 / 9) ltac:(lia) ltac:(lra)) as D5. pose proof k3_O as Q3. pose proof k4_O as Q4. pose proof k5_O as Q5. refine (O_ext _ _ (oplus (oscal (-1) (dr 0 4 1)) (oplus (oscal (- (355 / 33)) (oh (dr 1 3 (1 / 5)))) (oplus (oscal (46732 / 5247) (oh (dr 1 3 (3 / 10)))) (oplus (oscal (49 / 176) (oh (dr 1 3 (4 / 5)))) (oplus (oscal (- (5103 / 18656)) (oh (dr 1 3 (8 / 9)))) (oplus (oscal (46732 / 5247) (oh k3)) (oplus (oscal (49 / 176) (oh k4)) (oscal (- (5103 / 18656)) (oh k5))))))))) _ _ _); [|os]. rng. rewrite r6_split by lra. unfold oplus, oscal, oh, drem, R3_6. unfold lc. cbn [fold_right fst snd]. tp. field. Qed.
    Lemma k3_3 : OO 4 (fun t h j => k3 t h j - K3_3 t h j).
    Proof.
      pose proof (kap_J1 (3 / 10) 3 Y3 ltac:(lia) ltac:(lia) ltac:(lra) r3_O) as Q.
      pose proof (O_At f y T delta L n d A HL Hs 0 4 _ ltac:(lia) r3_3) as P0.
      refine (O_ext _ _ (oplus (fun t h j => kap f d (3 / 10) Y3 t h j - tpoly (fun l => A l t (off y (3 / 10) Y3 t h) j) 1 ((3 / 10) * h)) (oscal 1 (fun t h => A 0%nat t (fun j => r3 t h j - R3_3 t h j)))) _ _ _); [|os]. rng. unfold oplus, oscal, oh. rewrite ?A_sub by (lia || lra). fold r3 k3. tp.
      unfold R3_3, K3_3. rewrite ?A_lc by (lia || lra). unfold lc. cbn [map fold_right fst snd]. field.
    Qed.
    Lemma k4_3 : OO 4 (fun t h j => k4 t h j - K3_4 t h j).
    Proof.
      pose proof (kap_J1 (4 / 5) 3 Y4 ltac:(lia) ltac:(lia) ltac:(lra) r4_O) as Q.
      pose proof (O_At f y T delta L n d A HL Hs 0 4 _ ltac:(lia) r4_3) as P0.
      refine (O_ext _ _ (oplus (fun t h j => kap f d (4 / 5) Y4 t h j - tpoly (fun l => A l t (off y (4 / 5) Y4 t h) j) 1 ((4 / 5) * h)) (oscal 1 (fun t h => A 0%nat t (fun j => r4 t h j - R3_4 t h j)))) _ _ _); [|os]. rng. unfold oplus, oscal, oh. rewrite ?A_sub by (lia || lra). fold r4 k4. tp.
      unfold R3_4, K3_4. rewrite ?A_lc by (lia || lra). unfold lc. cbn [map fold_right fst snd]. field.
    Qed.
    Lemma k5_3 : OO 4 (fun t h j => k5 t h j - K3_5 t h j).
    Proof.
      pose proof (kap_J1 (8 / 9) 3 Y5 ltac:(lia) ltac:(lia) ltac:(lra) r5_O) as Q.
      pose proof (O_At f y T delta L n d A HL Hs 0 4 _ ltac:(lia) r5_3) as P0.
      refine (O_ext _ _ (oplus (fun t h j => kap f d (8 / 9) Y5 t h j - tpoly (fun l => A l t (off y (8 / 9) Y5 t h) j) 1 ((8 / 9) * h)) (oscal 1 (fun t h => A 0%nat t (fun j => r5 t h j - R3_5 t h j)))) _ _ _); [|os]. rng. unfold oplus, oscal, oh. rewrite ?A_sub by (lia || lra). fold r5 k5. tp.
      unfold R3_5, K3_5. rewrite ?A_lc by (lia || lra). unfold lc. cbn [map fold_right fst snd]. field.
    Qed.
    Lemma k6_3 : OO 4 (fun t h j => k6 t h j - K3_6 t h j).
    Proof.
      pose proof (kap_J1 1 3 Y6 ltac:(lia) ltac:(lia) ltac:(lra) r6_O) as Q.
      pose proof (O_At f y T delta L n d A HL Hs 0 4 _ ltac:(lia) r6_3) as P0.
      refine (O_ext _ _ (oplus (fun t h j => kap f d 1 Y6 t h j - tpoly (fun l => A l t (off y 1 Y6 t h) j) 1 (1 * h)) (oscal 1 (fun t h => A 0%nat t (fun j => r6 t h j - R3_6 t h j)))) _ _ _); [|os]. rng. unfold oplus, oscal, oh. rewrite ?A_sub by (lia || lra). fold r6 k6. tp.
      unfold R3_6, K3_6. rewrite ?A_lc by (lia || lra). unfold lc. cbn [map fold_right fst snd]. field.
    Qed.
    Let R4_3 : fam := fun t h => lc [((- (3 / 80000)) * h ^ 4, d 4%nat t); ((9 / 40) * h ^ 1, k2 t h)].
    Let R4_4 : fam := fun t h => lc [((- (34 / 5625)) * h ^ 4, d 4%nat t); ((- (56 / 15)) * h ^ 1, k2 t h); ((4 / 5) * h ^ 2, A 0%nat t (k2 t h))].
    Let R4_5 : fam := fun t h => lc [((- (10868 / 492075)) * h ^ 4, d 4%nat t); ((- (25360 / 2187)) * h ^ 1, k2 t h); ((7208 / 2187) * h ^ 2, A 0%nat t (k2 t h))].
    Let R4_6 : fam := fun t h => lc [((- (479 / 19800)) * h ^ 4, d 4%nat t); ((- (355 / 33)) * h ^ 1, k2 t h); ((91 / 22) * h ^ 2, A 0%nat t (k2 t h))].
    Let K4_3 : fam := fun t h => lc [((- (3 / 80000)) * h ^ 4, A 0%nat t (d 4%nat t)); ((9 / 40) * h ^ 1, A 0%nat t (k2 t h)); ((27 / 400) * h ^ 2, A 1%nat t (k2 t h))].
    Let K4_4 : fam := fun t h => lc [((- (34 / 5625)) * h ^ 4, A 0%nat t (d 4%nat t)); ((4 / 5) * h ^ 2, A 0%nat t (A 0%nat t (k2 t h))); ((- (56 / 15)) * h ^ 1, A 0%nat t (k2 t h)); ((- (224 / 75)) * h ^ 2, A 1%nat t (k2 t h))].
    Let K4_5 : fam := fun t h => lc [((- (10868 / 492075)) * h ^ 4, A 0%nat t (d 4%nat t)); ((7208 / 2187) * h ^ 2, A 0%nat t (A 0%nat t (k2 t h))); ((- (25360 / 2187)) * h ^ 1, A 0%nat t (k2 t h)); ((- (202880 / 19683)) * h ^ 2, A 1%nat t (k2 t h))].
    Let K4_6 : fam := fun t h => lc [((- (479 / 19800)) * h ^ 4, A 0%nat t (d 4%nat t)); ((91 / 22) * h ^ 2, A 0%nat t (A 0%nat t (k2 t h))); ((- (355 / 33)) * h ^ 1, A 0%nat t (k2 t h)); ((- (355 / 33)) * h ^ 2, A 1%nat t (k2 t h))].
    Lemma r3_4 : OO 5 (fun t h j => r3 t h j - R4_3 t h j).
    Proof. pose proof (od 0 5 (3 / 10) ltac:(lia) ltac:(lra)) as D0. pose proof (od 1 4 (1 / 5) ltac:(lia) ltac:(lra)) as D2.  refine (O_ext _ _ (oplus (oscal (-1) (dr 0 5 (3 / 10))) (oscal (9 / 40) (oh (dr 1 4 (1 / 5))))) _ _ _); [|os]. rng. rewrite r3_split by lra. unfold oplus, oscal, oh, drem, R4_3. unfold lc. cbn [fold_right fst snd]. tp. field. Qed.
    Lemma r4_4 : OO 5 (fun t h j => r4 t h j - R4_4 t h j).
    Proof. pose proof (od 0 5 (4 / 5) ltac:(lia) ltac:(lra)) as D0. pose proof (od 1 4 (1 / 5) ltac:(lia) ltac:(lra)) as D2. pose proof (od 1 4 (3 / 10) ltac:(lia) ltac:(lra)) as D3. pose proof k3_3 as Q3. refine (O_ext _ _ (oplus (oscal (-1) (dr 0 5 (4 / 5))) (oplus (oscal (- (56 / 15)) (oh (dr 1 4 (1 / 5)))) (oplus (oscal (32 / 9) (oh (dr 1 4 (3 / 10)))) (oscal (32 / 9) (oh (fun t h j => k3 t h j - K3_3 t h j)))))) _ _ _); [|os]. rng. rewrite r4_split by lra. unfold oplus, oscal, oh, drem, R4_4, K3_3. unfold lc. cbn [fold_right fst snd]. tp. field. Qed.
    Lemma r5_4 : OO 5 (fun t h j => r5 t h j - R4_5 t h j).
    Proof. pose proof (od 0 5 (8 / 9) ltac:(lia) ltac:(lra)) as D0. pose proof (od 1 4 (1 / 5) ltac:(lia) ltac:(lra)) as D2. pose proof (od 1 4 (3 / 10) ltac:(lia) ltac:(lra)) as D3. pose proof (od 1 4 (4 / 5) ltac:(lia) ltac:(lra)) as D4. pose proof k3_3 as Q3. pose proof k4_3 as Q4. refine (O_ext _ _ (oplus (oscal (-1) (dr 0 5 (8 / 9))) (oplus (oscal (- (25360 / 2187)) (oh (dr 1 4 (1 / 5)))) (oplus (oscal (64448 / 6561) (oh (dr 1 4 (3 / 10)))) (oplus (oscal (- (212 / 729)) (oh (dr 1 4 (4 / 5)))) (oplus (oscal (64448 / 6561) (oh (fun t h j => k3 t h j - K3_3 t h j))) (oscal (- (212 / 729)) (oh (fun t h j => k4 t h j - K3_4 t h j)))))))) _ _ _); [|os]. rng. rewrite r5_split by lra. unfold oplus, oscal, oh, drem, R4_5, K3_3, K3_4. unfold lc. cbn [fold_right fst snd]. tp. field. Qed.
    Lemma r6_4 : OO 5 (fun t h j => r6 t h j - R4_6 t h j).
    Proof. pose proof (od 0 5 1 ltac:(lia) ltac:(lra)) as D0. pose proof (od 1 4 (1 / 5) ltac:(lia) ltac:(lra)) as D2. pose proof (od 1 4 (3 / 10) ltac:(lia) ltac:(lra)) as D3. pose proof (od 1 4 (4 / 5) ltac:(lia) ltac:(lra)) as D4. pose proof (od 1 4 (8 / 9) ltac:(lia) ltac:(lra)) as D5. pose proof k3_3 as Q3. pose proof k4_3 as Q4. pose proof k5_3 as Q5. refine (O_ext _ _ (oplus (oscal (-1) (dr 0 5 1)) (oplus (oscal (- (355 / 33)) (oh (dr 1 4 (1 / 5)))) (oplus (oscal (46732 / 5247) (oh (dr 1 4 (3 / 10)))) (oplus (oscal (49 / 176) (oh (dr 1 4 (4 / 5)))) (oplus (oscal (- (5103 / 18656)) (oh (dr 1 4 (8 / 9)))) (oplus (oscal (46732 / 5247) (oh (fun t h j => k3 t h j - K3_3 t h j))) (oplus (oscal (49 / 176) (oh (fun t h j => k4 t h j - K3_4 t h j))) (oscal (- (5103 / 18656)) (oh (fun t h j => k5 t h j - K3_5 t h j)))))))))) _ _ _); [|os]. rng. rewrite r6_split by lra. unfold oplus, oscal, oh, drem, R4_6, K3_3, K3_4, K3_5. unfold lc. cbn [fold_right fst snd]. tp. field. Qed.
    Lemma k3_4 : OO 5 (fun t h j => k3 t h j - K4_3 t h j).
    Proof.
      pose proof (kap_J2 (3 / 10) 3 Y3 ltac:(lia) ltac:(lia) ltac:(lra) r3_O) as Q.
      pose proof (O_At f y T delta L n d A HL Hs 0 5 _ ltac:(lia) r3_4) as P0.
      pose proof (O_At f y T delta L n d A HL Hs 1 4 _ ltac:(lia) r3_3) as P1.
      refine (O_ext _ _ (oplus (fun t h j => kap f d (3 / 10) Y3 t h j - tpoly (fun l => A l t (off y (3 / 10) Y3 t h) j) 2 ((3 / 10) * h)) (oplus (oscal 1 (fun t h => A 0%nat t (fun j => r3 t h j - R4_3 t h j))) (oscal (3 / 10) (oh (fun t h => A 1%nat t (fun j => r3 t h j - R3_3 t h j)))))) _ _ _); [|os]. rng. unfold oplus, oscal, oh. rewrite ?A_sub by (lia || lra). fold r3 k3. tp.
      unfold R4_3, R3_3, K4_3. rewrite ?A_lc by (lia || lra). unfold lc. cbn [map fold_right fst snd]. field.
    Qed.
    Lemma k4_4 : OO 5 (fun t h j => k4 t h j - K4_4 t h j).
    Proof.
      pose proof (kap_J2 (4 / 5) 3 Y4 ltac:(lia) ltac:(lia) ltac:(lra) r4_O) as Q.
      pose proof (O_At f y T delta L n d A HL Hs 0 5 _ ltac:(lia) r4_4) as P0.
      pose proof (O_At f y T delta L n d A HL Hs 1 4 _ ltac:(lia) r4_3) as P1.
      refine (O_ext _ _ (oplus (fun t h j => kap f d (4 / 5) Y4 t h j - tpoly (fun l => A l t (off y (4 / 5) Y4 t h) j) 2 ((4 / 5) * h)) (oplus (oscal 1 (fun t h => A 0%nat t (fun j => r4 t h j - R4_4 t h j))) (oscal (4 / 5) (oh (fun t h => A 1%nat t (fun j => r4 t h j - R3_4 t h j)))))) _ _ _); [|os]. rng. unfold oplus, oscal, oh. rewrite ?A_sub by (lia || lra). fold r4 k4. tp.
      unfold R4_4, R3_4, K4_4. rewrite ?A_lc by (lia || lra). unfold lc. cbn [map fold_right fst snd]. field.
    Qed.
    Lemma k5_4 : OO 5 (fun t h j => k5 t h j - K4_5 t h j).
    Proof.
      pose proof (kap_J2 (8 / 9) 3 Y5 ltac:(lia) ltac:(lia) ltac:(lra) r5_O) as Q.
      pose proof (O_At f y T delta L n d A HL Hs 0 5 _ ltac:(lia) r5_4) as P0.
      pose proof (O_At f y T delta L n d A HL Hs 1 4 _ ltac:(lia) r5_3) as P1.
      refine (O_ext _ _ (oplus (fun t h j => kap f d (8 / 9) Y5 t h j - tpoly (fun l => A l t (off y (8 / 9) Y5 t h) j) 2 ((8 / 9) * h)) (oplus (oscal 1 (fun t h => A 0%nat t (fun j => r5 t h j - R4_5 t h j))) (oscal (8 / 9) (oh (fun t h => A 1%nat t (fun j => r5 t h j - R3_5 t h j)))))) _ _ _); [|os]. rng. unfold oplus, oscal, oh. rewrite ?A_sub by (lia || lra). fold r5 k5. tp.
      unfold R4_5, R3_5, K4_5. rewrite ?A_lc by (lia || lra). unfold lc. cbn [map fold_right fst snd]. field.
    Qed.
    Lemma k6_4 : OO 5 (fun t h j => k6 t h j - K4_6 t h j).
    Proof.
      pose proof (kap_J2 1 3 Y6 ltac:(lia) ltac:(lia) ltac:(lra) r6_O) as Q.
      pose proof (O_At f y T delta L n d A HL Hs 0 5 _ ltac:(lia) r6_4) as P0.
      pose proof (O_At f y T delta L n d A HL Hs 1 4 _ ltac:(lia) r6_3) as P1.
      refine (O_ext _ _ (oplus (fun t h j => kap f d 1 Y6 t h j - tpoly (fun l => A l t (off y 1 Y6 t h) j) 2 (1 * h)) (oplus (oscal 1 (fun t h => A 0%nat t (fun j => r6 t h j - R4_6 t h j))) (oscal 1 (oh (fun t h => A 1%nat t (fun j => r6 t h j - R3_6 t h j)))))) _ _ _); [|os]. rng. unfold oplus, oscal, oh. rewrite ?A_sub by (lia || lra). fold r6 k6. tp.
      unfold R4_6, R3_6, K4_6. rewrite ?A_lc by (lia || lra). unfold lc. cbn [map fold_right fst snd]. field.
    Qed.
    Lemma kappa_sum : OO 5 (fun t h j => (500 / 1113) * k3 t h j + (125 / 192) * k4 t h j + (- (2187 / 6784)) * k5 t h j + (11 / 84) * k6 t h j).
    Proof.
      pose proof k3_4 as Q3. pose proof k4_4 as Q4. pose proof k5_4 as Q5. pose proof k6_4 as Q6.
      refine (O_ext _ _ (oplus (oscal (500 / 1113) (fun t h j => k3 t h j - K4_3 t h j)) (oplus (oscal (125 / 192) (fun t h j => k4 t h j - K4_4 t h j)) (oplus (oscal (- (2187 / 6784)) (fun t h j => k5 t h j - K4_5 t h j)) (oscal (11 / 84) (fun t h j => k6 t h j - K4_6 t h j))))) _ _ _); [|os]. rng.
      unfold oplus, oscal, K4_3, K4_4, K4_5, K4_6. unfold lc. cbn [fold_right fst snd]. field.
    Qed.
    Theorem dopr54_local : OO 6 (fun t h j => fst (fst (dopr54_propose f (y t) (f t (y t)) t h)) j - y (t + h) j).
    Proof.
      pose proof kappa_sum as KS. pose proof (od 0 6 1 ltac:(lia) ltac:(lra)) as D0. pose proof (od 1 5 (3 / 10) ltac:(lia) ltac:(lra)) as D3. pose proof (od 1 5 (4 / 5) ltac:(lia) ltac:(lra)) as D4. pose proof (od 1 5 (8 / 9) ltac:(lia) ltac:(lra)) as D5. pose proof (od 1 5 1 ltac:(lia) ltac:(lra)) as D6.
      refine (O_ext _ _ (oplus (oscal (-1) (dr 0 6 1)) (oplus (oscal (500 / 1113) (oh (dr 1 5 (3 / 10)))) (oplus (oscal (125 / 192) (oh (dr 1 5 (4 / 5)))) (oplus (oscal (- (2187 / 6784)) (oh (dr 1 5 (8 / 9)))) (oplus (oscal (11 / 84) (oh (dr 1 5 1))) (oh (fun t h j => (500 / 1113) * k3 t h j + (125 / 192) * k4 t h j + (- (2187 / 6784)) * k5 t h j + (11 / 84) * k6 t h j))))))) _ _ _); [|os]. rng.
      assert (E : fst (fst (dopr54_propose f (y t) (f t (y t)) t h)) j = y t j + h * ((35 / 384) * f t (y t) j + (500 / 1113) * f (t + (3 / 10) * h) (Y3 t h) j + (125 / 192) * f (t + (4 / 5) * h) (Y4 t h) j + (- (2187 / 6784)) * f (t + (8 / 9) * h) (Y5 t h) j + (11 / 84) * f (t + 1 * h) (Y6 t h) j)).
      { unfold dopr54_propose, Y6, G5, Y5, G4, Y4, G3, Y3, G2, Y2, G1. cbn [fst snd]. replace (2 / 10) with (1 / 5) by field. replace (8 / 10) with (4 / 5) by field. replace (t + 1 * h) with (t + h) by ring. field. }
      rewrite E. replace (y (t + h) j) with (y (t + 1 * h) j) by (f_equal; ring). rewrite (f_d1 f y T delta L n d A Hs t), !(y_d0 f y T delta L n d A Hs) by lra.
      unfold oplus, oscal, oh, k3, k4, k5, k6, kap, drem. tp. field.
    Qed.
  End Steps.
End Along.
