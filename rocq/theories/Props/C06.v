(** C06: flatten. *)
From Coq Require Import Reals List.
From Verif.Model Require Import PotAPI PotAxi.
From Verif.Spec Require Import SuperSpec FlattenSpec.
From Verif.Proofs Require Import Superposition.
Import ListNotations.

Lemma reads_leaves : forall p, Reads (Leaf p) (leaves p).
Proof.
  fix IH 1. intros [a c|a d|a ps]; simpl; [constructor|constructor|]. constructor.
  induction ps as [|q ps IHl]; simpl; [constructor|]. constructor; auto.
Qed.
Lemma reads_flattenItem : forall i, Reads i (flattenItem i).
Proof.
  fix IH 1. intros [p|l]; simpl. { apply reads_leaves. } constructor.
  induction l as [|q l IHl]; simpl; [constructor|]. constructor; auto.
Qed.
Lemma reads_flatten l : ReadsAll l (flatten l).
Proof. induction l as [|i l IH]; simpl; [constructor|]. constructor; auto. apply reads_flattenItem. Qed.
Scheme Reads_ind2 := Induction for Reads Sort Prop
with ReadsAll_ind2 := Induction for ReadsAll Sort Prop.
Lemma reads_fun i l : Reads i l -> l = flattenItem i.
Proof.
  intros H. induction H using Reads_ind2
    with (P0 := fun l ls _ => ls = flatten l); simpl; auto.
  - rewrite IHReads. apply flatten_leaf_map.
  - subst; auto.
Qed.
Lemma readsall_fun l ls : ReadsAll l ls -> ls = flatten l.
Proof.
  induction 1 as [|i l a b Hi Hl IH]; simpl; auto. rewrite IH, (reads_fun _ _ Hi). reflexivity.
Qed.

(** flatten returns exactly the potentials of the input, each once, in reading order. *)
Theorem C06_reading_order : forall l out, flatten l = out <-> ReadsAll l out.
Proof.
  intros l out. split.
  - intros <-. apply reads_flatten.
  - intros H. symmetry. apply readsall_fun; auto.
Qed.
Print Assumptions C06_reading_order.

(** Nothing nested remains. *)
Theorem C06_no_nesting : forall l p, In p (flatten l) -> is_plain p.
Proof.
  intros l p H. pose proof (flatten_noncomp l) as F. rewrite Forall_forall in F. specialize (F p H).
  destruct p; simpl in *; auto; discriminate.
Qed.
Print Assumptions C06_no_nesting.

(** Flattening twice is flattening once. *)
Theorem C06_idempotent : forall l, flatten (map Leaf (flatten l)) = flatten l.
Proof. intros l. rewrite flatten_leaf_map. apply flat_map_leaves, flatten_noncomp. Qed.
Print Assumptions C06_idempotent.

(** The flattened list has the same values as the nested one. *)
Theorem C06_same_values : forall q l v, Forall BuiltItem l ->
  same (total (map (fun p => contribution q p v) (flatten l))) (total (map (item_value q v) l)).
Proof.
  intros q l v H. eapply same_trans; [|apply items_value; auto].
  apply same_sym, flat_comp_value, flatten_noncomp.
Qed.
Print Assumptions C06_same_values.

Example C06_nonvacuous (p1 p2 p3 : PotC) :
  flatten [Leaf (Single 1 p1); Nest [Leaf (Comp 1 [Single 2 p2; Comp 1 [Single 3 p3]]); Nest []]]
  = [Single 1 p1; Single 2 p2; Single 3 p3].
Proof. reflexivity. Qed.
