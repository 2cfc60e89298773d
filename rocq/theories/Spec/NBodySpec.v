(** Conserved quantities of a system of gravitating particles. *)
From Coq Require Import Reals List.
From Verif.Model Require Import Symplectic.
From Verif.Spec Require Import SymplecticSpec.
Import ListNotations.
Open Scope R_scope.
Notation RR := RbaseSymbolsImpl.R (only parsing).

Section Spec.
  Context {J : Type}.
  Variables (n : nat) (m : nat -> RR).
  Definition particles : list nat := seq 0 n.
  (** Component c of the total momentum, of mass times the centre of mass, and component (a, b) of the total angular momentum *)
  Definition momentum (p : vec (nat * J)) (c : J) : RR := sum_over particles (fun i => m i * p (i, c)).
  Definition mass_moment (q : vec (nat * J)) (c : J) : RR := sum_over particles (fun i => m i * q (i, c)).
  Definition angular_momentum (q p : vec (nat * J)) (a b : J) : RR :=
    sum_over particles (fun i => m i * (q (i, a) * p (i, b) - q (i, b) * p (i, a))).
  (** Square distance, and the softened gravitational energy, each pair counted once *)
  Definition sq_dist (js : list J) (q : vec (nat * J)) (i j : nat) : RR := sum_over js (fun c => (q (j, c) - q (i, c)) ^ 2).
  Definition energy (js : list J) (eps : RR) (q : vec (nat * J)) : RR :=
    sum_over particles (fun i => sum_over (seq 0 i) (fun j => - (m i * m j / sqrt (sq_dist js q i j + eps ^ 2)))).
  (** No two particles at the same place *)
  Definition apart (js : list J) (q : vec (nat * J)) : Prop := forall i j, (i < n)%nat -> (j < n)%nat -> i <> j -> 0 < sq_dist js q i j.
End Spec.
