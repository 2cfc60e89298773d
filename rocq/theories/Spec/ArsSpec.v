(** What adaptive-rejection sampling is about: a strictly concave differentiable log-density on an interval, its tangents and their envelope *)
From Coq Require Import Reals List.
From Coquelicot Require Import Coquelicot.
From Verif.Model Require Import Ars.
Import ListNotations.
Open Scope R_scope.
Notation RR := RbaseSymbolsImpl.R (only parsing).

(** Strictly inside the domain *)
Definition inside (d : domain) (x : RR) : Prop := (lower_finite d = true -> lower d < x) /\ (upper_finite d = true -> x < upper d).
Definition concave (h hp : RR -> RR) (d : domain) : Prop :=
  (forall x, inside d x -> is_derive h x (hp x)) /\ (forall x y, inside d x -> inside d y -> x < y -> hp y < hp x).
(** The tangent at a *)
Definition tan (h hp : RR -> RR) (a x : RR) : RR := hp a * (x - a) + h a.
(** The least of the tangents at the abscissae *)
Definition envelope (h hp : RR -> RR) (l : list RR) (x : RR) : RR :=
  match l with [] => 0 | a :: t => fold_right (fun b m => Rmin (tan h hp b x) m) (tan h hp a x) t end.
(** Abscissae: at least two, different and inside the domain; the tangents at the outermost have a mass on their sides of the domain.  (The program divides by
    the outermost slopes: they must not vanish.) *)
Definition abscissae_ok (h hp : RR -> RR) (d : domain) (l : list RR) : Prop :=
  (2 <= length l)%nat /\ NoDup l /\ (forall x, In x l -> inside d x) /\
  (forall x, In x l -> (forall y, In y l -> x <= y) -> hp x <> 0 /\ (lower_finite d = false -> 0 < hp x)) /\
  (forall x, In x l -> (forall y, In y l -> y <= x) -> hp x <> 0 /\ (upper_finite d = false -> hp x < 0)).
(** The ends of the domain *)
Definition left_end (d : domain) : (RR -> Prop) -> Prop := if lower_finite d then at_point (lower d) else Rbar_locally m_infty.
Definition right_end (d : domain) : (RR -> Prop) -> Prop := if upper_finite d then at_point (upper d) else Rbar_locally p_infty.
