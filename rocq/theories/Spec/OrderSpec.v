(** Orbits of a smooth field and distances between states. *)
From Coq Require Import Reals Lra.
From Coquelicot Require Import Coquelicot.
Open Scope R_scope.
Notation RR := RbaseSymbolsImpl.R (only parsing).

Section Order.
  Context {J : Type}.
  (** Every component of the vector is at most e in absolute value; two states are within e of each other. *)
  Definition below (e : RR) (v : J -> RR) : Prop := forall j, Rabs (v j) <= e.
  Definition within (e : RR) (x y : J -> RR) : Prop := forall j, Rabs (x j - y j) <= e.
  Definition linear_map (A : (J -> RR) -> J -> RR) : Prop :=
    forall a b u v j, A (fun i => a * u i + b * v i) j = a * A u j + b * A v j.
  (** [y] solves y' = f(s, y) for 0 <= s <= T and is n times differentiable there, with [d i] its i-th derivative.  Within [delta] of the solution the field is Lipschitz and the
      linear map [A 0 s], its Jacobian, leaves a quadratic remainder; the Jacobian is n - 4 times differentiable along the solution, with
      [A i] its i-th derivative.  [L] bounds all of it. *)
  Record smooth_with (f : RR -> (J -> RR) -> J -> RR) (y : RR -> J -> RR) (T delta L : RR) (n : nat)
      (d : nat -> RR -> J -> RR) (A : nat -> RR -> (J -> RR) -> J -> RR) : Prop := {
    s_d0 : forall s, 0 <= s <= T -> forall j, d 0%nat s j = y s j;
    s_d1 : forall s, 0 <= s <= T -> forall j, d 1%nat s j = f s (y s) j;
    s_der : forall i s, (i < n)%nat -> 0 <= s <= T -> forall j, is_derive (fun s => d i s j) s (d (S i) s j);
    s_bound : forall i s, (i <= n)%nat -> 0 <= s <= T -> below L (d i s);
    s_lin : forall i s, (i <= n - 4)%nat -> 0 <= s <= T -> linear_map (A i s);
    s_Abound : forall i s v e, (i <= n - 4)%nat -> 0 <= s <= T -> below e v -> below (L * e) (A i s v);
    s_Ader : forall i s v, (i < n - 4)%nat -> 0 <= s <= T -> forall j, is_derive (fun s => A i s v j) s (A (S i) s v j);
    s_quad : forall s v e, 0 <= s <= T -> e <= delta -> below e v ->
      below (L * e ^ 2) (fun j => f s (fun i => y s i + v i) j - f s (y s) j - A 0%nat s v j);
    s_lip : forall s x x' e, 0 <= s <= T -> within delta x (y s) -> within delta x' (y s) -> within e x x' -> within (L * e) (f s x) (f s x') }.
  Definition smooth_near (f : RR -> (J -> RR) -> J -> RR) (y : RR -> J -> RR) (T delta : RR) (n : nat) : Prop :=
    exists L d A, 0 <= L /\ smooth_with f y T delta L n d A.
  (** The field for the clock s with t = t0 + sigma s: sigma = 1 forwards, sigma = -1 backwards in time. *)
  Definition clock_field (f : RR -> (J -> RR) -> J -> RR) (t0 sigma s : RR) (x : J -> RR) (j : J) : RR := sigma * f (t0 + sigma * s) x j.
End Order.
(** Positions and velocities as one state: (q, p)' = (p, F(t, q)). *)
Definition phase_field {J : Type} (F : RR -> (J -> RR) -> J -> RR) (t : RR) (x : J + J -> RR) (k : J + J) : RR :=
  match k with inl i => x (inr i) | inr i => F t (fun j => x (inl j)) i end.
