(** What an interpolated potential should return, element by element. *)
From Coq Require Import Reals List Bool.
From Verif.Model Require Import InterpRZ.
Open Scope R_scope.
Notation RR := RbaseSymbolsImpl.R (only parsing).

(** numpy broadcasting of two arguments *)
Definition at_ (a : arg) (i : nat) : RR := match a with Sc r => r | Ar l => nth i l 0 end.
Definition shape (R z : arg) : option nat :=       (* None: the shapes do not match; scalars count as one element *)
  match R, z with
  | Sc _, Sc _ => Some 1%nat
  | Sc _, Ar l => Some (length l)
  | Ar l, Sc _ => Some (length l)
  | Ar l, Ar k => if Nat.eqb (length l) (length k) then Some (length l) else None
  end.
Definition is_scalar (R z : arg) : bool := match R, z with Sc _, Sc _ => true | _, _ => false end.
(** the result: a number for numbers, else an array, with the given elements *)
Definition returns (R z : arg) (n : nat) (P : nat -> RR -> Prop) (out : option arg) : Prop :=
  if is_scalar R z then exists v, out = Some (Sc v) /\ P 0%nat v
  else exists l, out = Some (Ar l) /\ length l = n /\ forall i, (i < n)%nat -> P i (nth i l 0).
(** inside the grid the interpolation, outside the original potential; with zsym both at |z|, with the sign of z for odd functions *)
Definition inside (G : grid) (R z : RR) : Prop := rlo G <= R <= rhi G /\ zlo G <= z <= zhi G.
Definition is_value (G : grid) (odd interp : bool) (inner : RR -> RR -> RR) (orig : RR -> RR -> RR) (R z v : RR) : Prop :=
  let h := if zsym G then Rabs z else z in
  let s := if odd && zsym G then (if Rlt_dec z 0 then -1 else 1) else 1 in
  (interp = true -> inside G R h -> v = s * inner (if logR G then ln R else R) h) /\
  (interp = false \/ ~ inside G R h -> v = s * orig R h).
