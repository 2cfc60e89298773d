(** C05: superposition and amplitude scaling. *)
From Coq Require Import Reals List Lra.
From Verif.Lib Require Import RealAux.
From Verif.Model Require Import PotAPI PotAxi.
From Verif.Spec Require Import SuperSpec.
From Verif.Proofs Require Import Superposition.
Import ListNotations.
Open Scope R_scope.

(** p1 + p2: every quantity is the sum of the two. *)
Theorem C05_add : forall q p1 p2 v, Built p1 -> Built p2 ->
  same (value q (addPot p1 p2) v) (plus (contribution q p1 v) (contribution q p2 v)).
Proof. intros q p1 p2 v. exact (add_value q v p1 p2). Qed.
Print Assumptions C05_add.

(** A combination made from an arbitrarily nested list is the sum over its elements. *)
Theorem C05_list : forall q l v, Forall BuiltItem l ->
  same (value q (mkComp l) v) (total (map (item_value q v) l)).
Proof. intros q l v. exact (items_value q v l). Qed.
Print Assumptions C05_list.

(** Multiplying by a number multiplies every quantity. *)
Theorem C05_mul : forall q p b v, Built p -> same (value q (mulPot p b) v) (times b (value q p v)).
Proof. intros q p b v H. exact (mul_value q v b p (built_flat p H)). Qed.
Print Assumptions C05_mul.

(** Multiplying and dividing by the same non-zero number restores every quantity. *)
Theorem C05_mul_div : forall q p b v, b <> 0 -> Built p ->
  same (value q (divPot (mulPot p b) b) v) (value q p v).
Proof. intros q p b v Hb H. exact (mul_div_value q v b p Hb (built_flat p H)). Qed.
Print Assumptions C05_mul_div.

(** After normalize() on a combination, multiplying by a number does not multiply the values:
    normalize sets the combination's own amplitude, and * rebuilds the combination from its
    members.  So the property fails for normalized combinations. *)
Theorem C05_normalized_refuted : exists p b norm,
  Built p /\ ~ same (value QRf (mulPot (normalize p norm) b) (0, 0, 0))
                    (times b (value QRf (normalize p norm) (0, 0, 0))).
Proof.
  exists (mkComp [Leaf (Single 1 Kepler)]), 1, 4. split. { apply b_list. repeat constructor. }
  assert (E1 : rpow (1 ^ 2 + 0 ^ 2) (3 / 2) = 1).
  { replace (1 ^ 2 + 0 ^ 2) with 1 by ring. unfold rpow, Rpower. rewrite ln_1, Rmult_0_r. apply exp_0. }
  intros H. specialize (H 1 0 0 0). revert H.
  cbv [mkComp flatten flattenItem flat_map leaves app value mulPot normalize setAmp apiRf scale4 sum4 map fold_left
       add4 zero4 Kepler PowerSpherical mkAxi c_Rf PS_Rf]. rewrite E1.
  rewrite Rabs_left by lra.
  replace (1 * (1 * (4 / - (1 * (0 + 1 * (- (1) / 1)))) * (0 + 1 * (- (1) / 1)))) with (-4) by field. lra.
Qed.
Print Assumptions C05_normalized_refuted.

(** Non-vacuity: (2 * (Plummer + [NFW, [Hernquist]])) + friction is a built object. *)
Example C05_nonvacuous d : Built (addPot (mulPot (mkComp [Leaf (Single 1 (Plummer 1));
   Nest [Leaf (Single 2 (NFW 1)); Nest [Leaf (Single 1 (Hernquist 1))]]]) 2) (Diss 1 d)).
Proof. repeat constructor. Qed.
