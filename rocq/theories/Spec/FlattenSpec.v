(** Reading order of an arbitrarily nested list, as a relation: [Reads i l] says that the
    potentials met when reading [i] from left to right, opening every list and every
    combination, are [l]. *)
From Coq Require Import Reals List.
From Verif.Model Require Import PotAPI.
Import ListNotations.

Inductive Reads : item -> list Pot -> Prop :=
| reads_single a c : Reads (Leaf (Single a c)) [Single a c]
| reads_diss a d : Reads (Leaf (Diss a d)) [Diss a d]
| reads_comp a ps ls : ReadsAll (map Leaf ps) ls -> Reads (Leaf (Comp a ps)) ls
| reads_nest l ls : ReadsAll l ls -> Reads (Nest l) ls
with ReadsAll : list item -> list Pot -> Prop :=
| reads_nil : ReadsAll [] []
| reads_cons i l a b : Reads i a -> ReadsAll l b -> ReadsAll (i :: l) (a ++ b).

(** No combination and no list is left inside. *)
Definition is_plain (p : Pot) : Prop := match p with Comp _ _ => False | _ => True end.
