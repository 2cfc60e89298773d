(** Cartesian derivatives of a potential given in cylindrical coordinates. *)
From Coq Require Import Reals List.
From Coquelicot Require Import Coquelicot.
From Verif.Lib Require Import Atan2.
From Verif.Spec Require Import PotSpec.
Open Scope R_scope.
Notation RR := RbaseSymbolsImpl.R (only parsing).

Inductive dir := DX | DY | DZ.
(** The point q moved by u along an axis *)
Definition move (i : dir) (u : RR) (q : RR * RR * RR) : RR * RR * RR :=
  let '(x, y, z) := q in match i with DX => (x + u, y, z) | DY => (x, y + u, z) | DZ => (x, y, z + u) end.
(** The potential as a function of Cartesian coordinates at time t *)
Definition cartesian (Phi : Fun4) (t : RR) (q : RR * RR * RR) : RR :=
  let '(x, y, z) := q in Phi (sqrt (x ^ 2 + y ^ 2)) z (atan2 y x) t.
(** [l] is the second partial derivative of f at q, first along i and then along j; the first derivative exists around q. *)
Definition is_second_partial (f : RR * RR * RR -> RR) (i j : dir) (q : RR * RR * RR) (l : RR) : Prop :=
  locally 0 (fun s => ex_derive (fun u => f (move i u (move j s q))) 0) /\
  is_derive (fun s => Derive (fun u => f (move i u (move j s q))) 0) 0 l.
(** Entry of a 3 by 3 matrix given by rows *)
Definition index (i : dir) : nat := match i with DX => 0 | DY => 1 | DZ => 2 end.
Definition entry (T : list (list RR)) (i j : dir) : RR := nth (index j) (nth (index i) T nil) 0.
(** A region that does not depend on the azimuth *)
Definition round (D : Dom) : Prop := forall R z phi phi' t, D R z phi t -> D R z phi' t.
(** The value on the ray from the centre through (R, z), at distance s *)
Definition on_ray (Phi : Fun4) (R z phi t : RR) (s : RR) : RR :=
  let r := sqrt (R ^ 2 + z ^ 2) in Phi (s * (R / r)) (s * (z / r)) phi t.
