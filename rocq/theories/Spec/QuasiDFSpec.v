(** What the quasi-isothermal distribution function, its moments and its samples should be (Binney 2010; Binney & McMillan 2011). *)
From Coq Require Import Reals List Permutation.
From Coquelicot Require Import Coquelicot.
Open Scope R_scope.
Notation RR := RbaseSymbolsImpl.R (only parsing).

(** An exponential profile that equals [s] at [refr]. *)
Definition exp_profile (s h refr R : RR) : RR := s * exp (- (R - refr) / h).
(** f(J) at guiding radius Rg: Sigma, sR and sz are the surface density and the dispersions there. *)
Definition qi_form (Sigma sR sz Omega kappa nu L0 : RR) (jr lz jz : RR) : RR :=
  (Omega * Sigma / (PI * sR ^ 2 * kappa)) * (1 + tanh (lz / L0)) * exp (- (kappa * jr / sR ^ 2)) * (nu / (2 * PI * sz ^ 2) * exp (- (nu * jz / sz ^ 2))).

(** The integral over [0, infinity). *)
Definition half_line (g : RR -> RR) (I : RR) : Prop := is_RInt_gen g (at_point 0) (Rbar_locally p_infty) I.

(** A quadrature rule moved from [-1, 1] to [a, b]. *)
Definition rule_on (r : list (RR * RR)) (a b : RR) (h : RR -> RR) : RR :=
  (b - a) / 2 * fold_right Rplus 0 (List.map (fun xw => snd xw * h ((a + b) / 2 + (b - a) / 2 * fst xw)) r).
(** Two panels, [-c, 0] and [0, c]. *)
Definition two_panels (r : list (RR * RR)) (c : RR) (h : RR -> RR) : RR := rule_on r (- c) 0 h + rule_on r 0 c h.
(** A Gauss-Legendre rule with n nodes: positive weights, nodes in [-1, 1], symmetric, and exact for the powers below 2 n. *)
Definition gauss_legendre (n : nat) (r : list (RR * RR)) : Prop :=
  length r = n /\ List.Forall (fun xw => 0 < snd xw /\ -1 <= fst xw <= 1) r /\ Permutation r (List.map (fun xw => (- fst xw, snd xw)) r) /\
  forall k, (k < 2 * n)%nat -> is_RInt (fun x => x ^ k) (-1) 1 (fold_right Rplus 0 (List.map (fun xw => snd xw * fst xw ^ k) r)).

(** Integral of g over vR in [-cR, cR], vT in [a, b], vz in [-cz, cz]. *)
Definition velocity_integral (cR a b cz : RR) (g : RR -> RR -> RR -> RR) (I : RR) : Prop := exists G1 : RR -> RR -> RR,
  (forall vR vT, - cR <= vR <= cR -> a <= vT <= b -> is_RInt (fun vz => g vR vT vz) (- cz) cz (G1 vR vT)) /\
  exists H : RR -> RR, (forall vT, a <= vT <= b -> is_RInt (fun vR => G1 vR vT) (- cR) cR (H vT)) /\ is_RInt H a b I.
(** Polynomials in the three velocities with degree below dR, dT and dz. *)
Definition poly (dR dT dz : nat) (p : RR -> RR -> RR -> RR) : Prop := exists terms : list (RR * (nat * nat * nat)),
  List.Forall (fun t => let '(c, (i, j, k)) := t in (i < dR /\ j < dT /\ k < dz)%nat) terms /\
  forall x y z, p x y z = fold_right Rplus 0 (List.map (fun t => let '(c, (i, j, k)) := t in c * x ^ i * y ^ j * z ^ k) terms).

(** The probability of a set of uniform variates that lie below a threshold. *)
Definition uniform_probability (A : RR -> Prop) (p : RR) : Prop := 0 <= p <= 1 /\ forall u, 0 < u < 1 -> (A u <-> u < p).
(** The density of independent normal velocities with centre (0, c, 0) and widths sR, sR, sz. *)
Definition normal3 (c sR sz : RR) (v : RR * RR * RR) : RR := let '(vR, vT, vz) := v in
  exp (- (vR ^ 2 / (2 * sR ^ 2) + (vT - c) ^ 2 / (2 * sR ^ 2) + vz ^ 2 / (2 * sz ^ 2))) / (sqrt (2 * PI) ^ 3 * sR ^ 2 * sz).
