(** Vocabulary for the velocity kick that a passing body gives to a star, in the approximation that star and body both keep straight lines. *)
From Coq Require Import Reals.
From Coquelicot Require Import Coquelicot.
From Verif.Lib Require Import Vec3.
Open Scope R_scope.
Notation RR := RbaseSymbolsImpl.R (only parsing).

(** The improper integral of [f] over all times is [l]. *)
Definition all_time (f : RR -> RR) (l : RR) : Prop := is_RInt_gen (V := R_NormedModule) f (Rbar_locally m_infty) (Rbar_locally p_infty) l.

(** The kick: the integral over all times, component by component, of the acceleration at the star's position relative to the body. *)
Definition is_kick (acc : V3 -> V3) (path : RR -> V3) (k : V3) : Prop :=
  all_time (fun t => vx (acc (path t))) (vx k) /\ all_time (fun t => vy (acc (path t))) (vy k) /\ all_time (fun t => vz (acc (path t))) (vz k).

(** A straight line through [B] with velocity [V]. *)
Definition line (B V : V3) (t : RR) : V3 := vadd B (vscal t V).

(** The acceleration toward a body at the origin whose radial force at distance r is [F r]. *)
Definition central (F : RR -> RR) (X : V3) : V3 := vscal (F (vnorm X) / vnorm X) X.
(** Plummer sphere: Phi = -GM / sqrt(r^2 + rs^2), so the radial force is -GM r / (r^2 + rs^2)^(3/2). *)
Definition plummer_force (GM rs r : RR) : RR := - (GM * r / (sqrt (r ^ 2 + rs ^ 2) * (r ^ 2 + rs ^ 2))).
(** Hernquist sphere: Phi = -GM / (r + rs), so the radial force is -GM / (r + rs)^2. *)
Definition hernquist_force (GM rs r : RR) : RR := - (GM / (r + rs) ^ 2).

(** The fly-by: at time 0 the body is at x0 - b n, where x0 is a point of the stream with velocity v0 and n is the unit vector along w x v0; it moves
    with velocity w.  The star is at x with velocity v.  [flyby] is the star's position relative to the body. *)
Definition side (w v0 : V3) : V3 := vscal (/ vnorm (vcross w v0)) (vcross w v0).
Definition flyby (x v x0 v0 w : V3) (b t : RR) : V3 := vsub (line x v t) (line (vsub x0 (vscal b (side w v0))) w t).
(** A fly-by with the body on a given side [n] of the point x0. *)
Definition flyby_on (n x v x0 w : V3) (b t : RR) : V3 := vsub (line x v t) (line (vsub x0 (vscal b n)) w t).
(** A star at distance [y] along a straight stream through the origin with velocity [v]. *)
Definition along (v : V3) (y : RR) : V3 := vscal (y / vnorm v) v.
(** The least distance along a path. *)
Definition closest (path : RR -> V3) (d : RR) : Prop := (exists t, vnorm (path t) = d) /\ forall t, d <= vnorm (path t).
