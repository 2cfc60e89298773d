(** Integrals of distribution functions that may be singular at the ends of the range. *)
From Coq Require Import Reals.
From Coquelicot Require Import Coquelicot.
Open Scope R_scope.
Notation RR := RbaseSymbolsImpl.R (only parsing).

(** the integral of f over the open interval (a, b), through a primitive with limits at both ends *)
Definition improper (f : RR -> RR) (a b v : RR) : Prop := exists (F : RR -> RR) (A B : RR),
  (forall x, a < x < b -> is_derive F x (f x)) /\ filterlim F (at_right a) (locally A) /\ filterlim F (at_left b) (locally B) /\ v = B - A.
(** Euler's beta integral at (a, b), the relation between it and the gamma function *)
Definition beta_integral (Gam : RR -> RR) (a b : RR) : Prop :=
  improper (fun x => Rpower x (a - 1) * Rpower (1 - x) (b - 1)) 0 1 (Gam a * Gam b / Gam (a + b)).
(** nu is the integral over all velocities of f(E, L) at radius r where the potential is Phi: speeds v and angles eta from the radial direction,
    outward and inward; vmax eta is the largest speed in that direction *)
Definition density_at (f : RR -> RR -> RR) (Phi r nu : RR) : Prop := exists (vmax inner : RR -> RR) (a b : RR),
  (forall eta, 0 < eta < PI -> 0 < vmax eta /\ improper (fun v => v ^ 2 * f (Phi + v ^ 2 / 2) (r * (v * sin eta))) 0 (vmax eta) (inner eta) /\
     forall v, vmax eta < v -> f (Phi + v ^ 2 / 2) (r * (v * sin eta)) = 0) /\
  improper (fun eta => inner eta * sin eta) 0 (PI / 2) a /\ improper (fun eta => inner eta * sin eta) (PI / 2) PI b /\ nu = 2 * PI * (a + b).
