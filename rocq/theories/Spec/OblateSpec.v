(** What wrapping a potential as a Staeckel potential promises.  Staeckel potentials, gradients and spheroidal coordinates are those of StaeckelSpec. *)
From Coq Require Import Reals.
From Coquelicot Require Import Coquelicot.
From Verif.Spec Require Import StaeckelSpec.
Open Scope R_scope.
Notation RR := RbaseSymbolsImpl.R (only parsing).
Notation F2 := (RR -> RR -> RR) (only parsing).

(** The reference spheroid u = u0 can be used: it is off the axis, or it is the segment of the axis between the foci and the potential is differentiable along it. *)
Definition reference_force (delta u0 : RR) (Phi Fz : F2) : Prop := 0 < u0 \/ u0 = 0 /\ forall z, - delta < z < delta -> is_derive (Phi 0) z (- Fz 0 z).
Definition reference_hess (delta u0 : RR) (Fz P2z : F2) : Prop := 0 < u0 \/ u0 = 0 /\ forall z, - delta < z < delta -> is_derive (fun z => - Fz 0 z) z (P2z 0 z).
(** [F e] differs from [G] off the axis by no more than a multiple of [e] that does not depend on [e]. *)
Definition regularises (F : RR -> F2) (G : F2) : Prop := forall R z, 0 < R -> exists K, 0 <= K /\ forall e, 0 <= e -> Rabs (F e R z - G R z) <= K * e.
