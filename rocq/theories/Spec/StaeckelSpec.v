(** What actionAngleStaeckel promises: axisymmetric potentials, their orbits, Staeckel potentials, and the meaning of momenta,
    actions, frequencies and angles.  Nothing here refers to how the library computes them. *)
From Coq Require Import Reals.
From Coquelicot Require Import Coquelicot.
Open Scope R_scope.
Notation RR := RbaseSymbolsImpl.R (only parsing).

(** [G] has partial derivatives [GR], [Gz] off the axis, in the sense of the chain rule along every differentiable curve. *)
Definition gradient (G GR Gz : RR -> RR -> RR) : Prop :=
  forall (R z : RR -> RR) (s dR dz : RR), 0 < R s -> is_derive R s dR -> is_derive z s dz ->
    is_derive (fun t => G (R t) (z t)) s (GR (R s) (z s) * dR + Gz (R s) (z s) * dz).
(** [FR], [Fz] are the forces of the potential [Phi]. *)
Definition force_of (Phi FR Fz : RR -> RR -> RR) : Prop := gradient Phi (fun R z => - FR R z) (fun R z => - Fz R z).
(** Second derivatives. *)
Definition hessian_of (FR Fz P2R P2z PRz : RR -> RR -> RR) : Prop :=
  gradient (fun R z => - FR R z) P2R PRz /\ gradient (fun R z => - Fz R z) PRz P2z.

(** Equations of motion of a unit mass in cylindrical coordinates, off the axis, at time t. *)
Definition moves (FR Fz : RR -> RR -> RR) (R vR vT z vz phi : RR -> RR) (t : RR) : Prop :=
  0 < R t /\ is_derive R t (vR t) /\ is_derive z t (vz t) /\ is_derive phi t (vT t / R t) /\
  is_derive vR t (vT t ^ 2 / R t + FR (R t) (z t)) /\ is_derive vT t (- vR t * vT t / R t) /\ is_derive vz t (Fz (R t) (z t)).

(** Prolate spheroidal coordinates with focal distance delta: R = delta sinh u sin v, z = delta cosh u cos v.
    Phi is a Staeckel potential: (sinh^2 u + sin^2 v) Phi is a function of u minus a function of v. *)
Definition staeckel (delta : RR) (Phi : RR -> RR -> RR) (U V : RR -> RR) : Prop :=
  forall u v, 0 < u -> 0 < v < PI ->
    (sinh u ^ 2 + sin v ^ 2) * Phi (delta * sinh u * sin v) (delta * cosh u * cos v) = U u - V v.
Definition mirror (Phi : RR -> RR -> RR) : Prop := forall R z, Phi R (- z) = Phi R z.

(** (u, v) are the spheroidal coordinates of (R, z). *)
Definition spheroidal (delta R z u v : RR) : Prop :=
  0 < u /\ 0 < v < PI /\ R = delta * sinh u * sin v /\ z = delta * cosh u * cos v.
(** The squares of the momenta conjugate to u and v of an orbit with energy E, angular momentum Lz and third integral I3 in the Staeckel
    potential (U(u) - V(v)) / (sinh^2 u + sin^2 v). *)
Definition pu2 (delta : RR) (U : RR -> RR) (E Lz I3 u : RR) : RR :=
  2 * delta ^ 2 * (E * sinh u ^ 2 - I3 - U u - Lz ^ 2 / (2 * delta ^ 2 * sinh u ^ 2)).
Definition pv2 (delta : RR) (V : RR -> RR) (E Lz I3 v : RR) : RR :=
  2 * delta ^ 2 * (E * sin v ^ 2 + I3 + V v - Lz ^ 2 / (2 * delta ^ 2 * sin v ^ 2)).
(** The momenta conjugate to u and v: derivatives of the kinetic energy (u'^2 + v'^2) delta^2 (sinh^2 u + sin^2 v) / 2. *)
Definition metric (delta u v : RR) : RR := delta ^ 2 * (sinh u ^ 2 + sin v ^ 2).
(** The third integral at a point of phase space, from the momentum conjugate to u. *)
Definition third_integral (delta : RR) (U : RR -> RR) (E Lz u pu : RR) : RR :=
  E * sinh u ^ 2 - pu ^ 2 / (2 * delta ^ 2) - Lz ^ 2 / (2 * delta ^ 2 * sinh u ^ 2) - U u.

(** ** Librations *)
(** [S] is positive between [q0] and [q1] and has simple zeros there: a momentum whose square is [S] swings between [q0] and [q1]. *)
Definition simple_well (S : RR -> RR) (q0 q1 : RR) : Prop :=
  q0 < q1 /\ S q0 = 0 /\ S q1 = 0 /\ (forall q, q0 < q < q1 -> 0 < S q) /\
  (exists d, 0 < d /\ is_derive S q0 d) /\ (exists d, d < 0 /\ is_derive S q1 d).
