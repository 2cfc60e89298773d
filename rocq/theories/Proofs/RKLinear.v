(** The local error of the higher-order Runge-Kutta steps: linear combinations under the Jacobian. *)
From Coq Require Import Reals Lra Lia List FunctionalExtensionality.
From Coquelicot Require Import Coquelicot.
From Verif.Lib Require Import RealAux.
From Verif.Model Require Import Symplectic RungeKutta.
From Verif.Spec Require Import OrderSpec.
From Verif.Proofs Require Import RKOrder RK4Local.
Import ListNotations.
Open Scope R_scope.
Notation RR := RbaseSymbolsImpl.R (only parsing).

(** Linear combinations. *)
Definition lc {J : Type} (l : list (RR * vec J)) : vec J := fun j => fold_right (fun p acc => fst p * snd p j + acc) 0 l.

Section Along.
  Context {J : Type}.
  Variables (f : RR -> vec J -> vec J) (y : RR -> vec J) (T delta L : RR) (n : nat) (d : nat -> RR -> vec J) (A : nat -> RR -> vec J -> vec J).
  Hypothesis (HT : 0 < T) (Hdelta : 0 < delta) (HL : 0 <= L) (Hs : smooth_with f y T delta L n d A).
  Local Notation OO := (O T).
  Local Notation dr := (drem d).

  Lemma A_sub i s u v j : (i <= n - 4)%nat -> 0 <= s <= T -> A i s (fun k => u k - v k) j = A i s u j - A i s v j.
  Proof.
    intros Hi H. replace (fun k => u k - v k) with (fun k => 1 * u k + -1 * v k) by (apply functional_extensionality; intros; ring).
    rewrite (A_lin2 f y T delta L n d A Hs) by assumption. ring.
  Qed.
  Lemma A_lc i s l j : (i <= n - 4)%nat -> 0 <= s <= T -> A i s (lc l) j = lc (map (fun p => (fst p, A i s (snd p))) l) j.
  Proof.
    intros Hi H. revert j. induction l as [|(a, u) l IH]; intros j.
    - unfold lc. cbn. replace (fun _ : J => 0) with (fun k : J => 0 * 0 : RR) by (apply functional_extensionality; intros; ring).
      rewrite (A_lin1 f y T delta L n d A Hs i s 0 (fun _ => 0)) by assumption. ring.
    - replace (lc ((a, u) :: l)) with (fun k => a * u k + 1 * lc l k) by (apply functional_extensionality; intros; unfold lc; cbn; ring).
      rewrite (A_lin2 f y T delta L n d A Hs) by assumption. rewrite IH. unfold lc. cbn. ring.
  Qed.
  Lemma kap_Jm m c k Y : (m <= n - 4)%nat -> (m <= k)%nat -> (0 < k)%nat -> 0 <= c <= 1 -> OO k (off y c Y) ->
    OO (m + k) (fun t h j => kap f d c Y t h j - tpoly (fun l => A l t (off y c Y t h) j) m (c * h)).
  Proof.
    intros Hm Hmk Hk Hc H. pose proof (kap_rem f y T delta L n d A Hdelta HL Hs c k Y Hk Hc H) as R. pose proof (O_Arem f y T delta L n d A HL Hs m c k _ Hm Hc H) as Q.
    refine (O_ext _ _ (oplus (Arem A m c (off y c Y)) (frem f y d A c (off y c Y))) _ _ _); [intros t h j _ _ _; unfold oplus, Arem; rewrite (kap_eq f y d A); ring|].
    apply O_plus; [exact Q|]. refine (O_le _ _ _ _ _ R). lia.
  Qed.
  Lemma kap_J1 c k Y : (1 <= n - 4)%nat -> (1 <= k)%nat -> 0 <= c <= 1 -> OO k (off y c Y) -> OO (1 + k) (fun t h j => kap f d c Y t h j - tpoly (fun l => A l t (off y c Y t h) j) 1 (c * h)).
  Proof. intros. apply kap_Jm; assumption || lia. Qed.
  Lemma kap_J2 c k Y : (2 <= n - 4)%nat -> (2 <= k)%nat -> 0 <= c <= 1 -> OO k (off y c Y) -> OO (2 + k) (fun t h j => kap f d c Y t h j - tpoly (fun l => A l t (off y c Y t h) j) 2 (c * h)).
  Proof. intros. apply kap_Jm; assumption || lia. Qed.
  Lemma kap_J3 c k Y : (3 <= n - 4)%nat -> (3 <= k)%nat -> 0 <= c <= 1 -> OO k (off y c Y) -> OO (3 + k) (fun t h j => kap f d c Y t h j - tpoly (fun l => A l t (off y c Y t h) j) 3 (c * h)).
  Proof. intros. apply kap_Jm; assumption || lia. Qed.
End Along.
