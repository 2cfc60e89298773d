(** What a basis-function expansion is, independently of the code: Gegenbauer and Legendre polynomials, spherical harmonics, the
    Hernquist & Ostriker (1992) radial functions and the mass of a shell. *)
From Coq Require Import Reals List Factorial.
From Coquelicot Require Import Coquelicot.
Open Scope R_scope.
Notation RR := RbaseSymbolsImpl.R (only parsing).

(** C n is the Gegenbauer polynomial of degree n and order lam at x *)
Definition gegenbauer (lam x : RR) (C : nat -> RR) : Prop :=
  C 0%nat = 1 /\ C 1%nat = 2 * lam * x /\
  forall n, (INR n + 2) * C (n + 2)%nat = 2 * (INR n + 1 + lam) * x * C (n + 1)%nat - (INR n + 2 * lam) * C n.
(** P l is the Legendre polynomial of degree l at x *)
Definition legendre (x : RR) (P : nat -> RR) : Prop :=
  P 0%nat = 1 /\ P 1%nat = x /\ forall l, (INR l + 2) * P (l + 2)%nat = (2 * INR l + 3) * x * P (l + 1)%nat - (INR l + 1) * P l.
(** the associated Legendre function, from the m-th derivative of the polynomial *)
Definition assoc_legendre (P : RR -> nat -> RR) (l m : nat) (x : RR) : RR := (- 1) ^ m * sqrt (1 - x ^ 2) ^ m * Derive_n (fun y => P y l) m x.
(** the normalisation of the real spherical harmonics *)
Definition Nlm (l m : nat) : RR := sqrt ((2 * INR l + 1) / (4 * PI) * (INR (fact (l - m)) / INR (fact (l + m)))) * (match m with O => 1 | _ => 2 end).
(** the radial functions, from the Gegenbauer polynomials C *)
Definition xi (a r : RR) : RR := (r - a) / (r + a).
Definition phi_nl (a : RR) (C : RR -> RR -> nat -> RR) (r : RR) (n l : nat) : RR :=
  - sqrt (4 * PI) * ((a * r) ^ l / (a + r) ^ (2 * l + 1)) * C (2 * INR l + 3 / 2) (xi a r) n.
Definition K_nl (n l : nat) : RR := INR n * (INR n + 4 * INR l + 3) / 2 + (INR l + 1) * (2 * INR l + 1).
Definition rho_nl (a : RR) (C : RR -> RR -> nat -> RR) (r : RR) (n l : nat) : RR :=
  sqrt (4 * PI) * (K_nl n l / (2 * PI) * (a * (a * r) ^ l / (r * (a + r) ^ (2 * l + 3)))) * C (2 * INR l + 3 / 2) (xi a r) n.
Definition total (N : nat) (f : nat -> RR) : RR := fold_right Rplus 0 (List.map f (seq 0 N)).
Definition expansion (N L M : nat) (A B : nat -> nat -> nat -> RR) (P : RR -> nat -> RR) (F : nat -> nat -> RR) (x phi : RR) : RR :=
  total N (fun n => total L (fun l => total M (fun m => F n l * Nlm l m * assoc_legendre P l m x * (A n l m * cos (INR m * phi) + B n l m * sin (INR m * phi))))).

(** v is the mass per unit radius of the density rho (given in cylindrical coordinates) at radius r *)
Definition shell_mass (rho : RR -> RR -> RR -> RR) (r v : RR) : Prop := exists inner : RR -> RR,
  (forall th, 0 < th < PI -> is_RInt (fun phi => rho (r * sin th) (r * cos th) phi) 0 (2 * PI) (inner th)) /\
  is_RInt (fun th => inner th * (r ^ 2 * sin th)) 0 PI v.
(** m is the mass within r of the density rho *)
Definition enclosed_mass (rho : RR -> RR -> RR -> RR) (m : RR -> RR) : Prop :=
  (forall r, 0 < r -> exists v, shell_mass rho r v /\ is_derive m r v) /\ filterlim m (at_right 0) (locally 0).

(** away from the symmetry axis: what the second derivatives need when the expansion has m > 0 terms *)
Definition off_axis (M : nat) (R z : RR) : Prop := 0 < R /\ ((M <= 1)%nat \/ / 10 ^ 14 * (R ^ 2 + z ^ 2) <= R ^ 2).
