(** What a multipole expansion is, independently of the code. *)
From Coq Require Import Reals List.
From Coquelicot Require Import Coquelicot.
From Verif.Spec Require Import ExpansionSpec.
Open Scope R_scope.
Notation RR := RbaseSymbolsImpl.R (only parsing).

(** sum over l < L and m <= l, m < M of P_l^m(x) (c_lm cos m phi + s_lm sin m phi), c = f 0 and s = f 1 *)
Definition multipole_sum (L M : nat) (P : RR -> nat -> RR) (f : nat -> nat -> nat -> RR) (x phi : RR) : RR :=
  total L (fun l => total (Nat.min (l + 1) M) (fun m => assoc_legendre P l m x * (f 0%nat l m * cos (INR m * phi) + f 1%nat l m * sin (INR m * phi)))).
(** the potential at r of the l-th multipole of a density: inner is the integral of s^(l+2) rho over the radii below r, outer that of
    s^(1-l) rho over the radii above r *)
Definition multipole_potential (l : nat) (r inner outer : RR) : RR := - 4 * PI / (2 * INR l + 1) * (inner / r ^ (l + 1) + r ^ l * outer).
(** s 1 and s 2 are the first and second derivatives of s 0 between a and b *)
Definition twice_differentiable (a b : RR) (s : nat -> RR -> RR) : Prop :=
  forall nu r, (nu < 2)%nat -> a < r < b -> is_derive (s nu) r (s (S nu) r).
(** off the first and the last grid radius *)
Definition off_edges (rmin rmax R z : RR) : Prop := 0 < R /\ sqrt (R ^ 2 + z ^ 2) <> rmin /\ sqrt (R ^ 2 + z ^ 2) <> rmax.
(** where the density is the exact source: below the grid, at the inner grid radii and above the grid *)
Definition at_nodes (grid : RR -> Prop) (rmin rmax R z : RR) : Prop := 0 < R /\ let r := sqrt (R ^ 2 + z ^ 2) in r < rmin \/ (grid r /\ rmin < r < rmax) \/ rmax < r.
