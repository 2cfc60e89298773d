(** Adiabatic contraction of a halo, as in the papers the code cites. *)
From Coq Require Import Reals.
Open Scope R_scope.
Notation RR := RbaseSymbolsImpl.R (only parsing).

Definition grid (n : nat) (r : nat -> RR) : Prop := (0 < r O) /\ forall i j, (i < j <= n)%nat -> r i < r j.
Definition masses (n : nat) (m : nat -> RR) : Prop := (forall i, (i <= n)%nat -> 0 < m i) /\ forall i j, (i <= j <= n)%nat -> m i <= m j.
(** x is a fixed point of g up to index n *)
Definition fixed_by (n : nat) (g : (nat -> RR) -> nat -> RR) (x : nat -> RR) : Prop := forall i, (i <= n)%nat -> g x i = x i.
(** Cautun et al. (2020): halo mass M from the halo mass without baryons, the baryonic mass and the total mass before *)
Definition cautun_relation (mdm mbar mtot M : RR) : Prop := M = 1.023 * mdm * Rpower ((M + mbar) / mtot) 0.54.
(** a shell at ri, with mass mi within, ends at rf with mass mf within, keeping radius times mass *)
Definition invariant (ri mi rf mf : RR) : Prop := rf * mf = ri * mi.
(** g is the piecewise linear function through the points (x i, y i), i <= n, constant outside *)
Definition interpolates (n : nat) (x y : nat -> RR) (g : RR -> RR) : Prop :=
  (forall t, t <= x O -> g t = y O) /\ (forall t, x n <= t -> g t = y n) /\
  forall k t, (k < n)%nat -> x k <= t <= x (S k) -> g t = y k + (t - x k) / (x (S k) - x k) * (y (S k) - y k).
(** radius averaged over an orbit in Gnedin et al. (2004) *)
Definition mean_radius (Rvir x : RR) : RR := 0.85 * Rvir * Rpower (x / Rvir) 0.8.
