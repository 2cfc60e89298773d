(** Evolution of a collisionless distribution function. *)
From Coq Require Import Reals List.
Open Scope R_scope.
Notation RR := RbaseSymbolsImpl.R (only parsing).

(** orbits of any, possibly time-dependent, potential *)
Definition orbits {St} (flow : RR -> RR -> St -> St) : Prop := (forall t w, flow t t w = w) /\ forall a b c w, flow b c (flow a b w) = flow a c w.
(** the potential does not depend on time *)
Definition static {St} (flow : RR -> RR -> St -> St) : Prop := forall s a b w, flow (a + s) (b + s) w = flow a b w.
(** Liouville: the distribution function at time t at w is the initial one at the point where the orbit through w at t was at time to *)
Definition evolved {St} (flow : RR -> RR -> St -> St) (f0 : St -> RR) (to t : RR) (w : St) : RR := f0 (flow t to w).
