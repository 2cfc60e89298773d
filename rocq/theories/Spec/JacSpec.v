(** Specification of a Jacobian matrix: along every differentiable curve through the point, the transformed curve has
    the velocity obtained by applying the matrix. *)
From Coq Require Import Reals.
From Coquelicot Require Import Coquelicot.
From Verif.Lib Require Import Vec3.
From Verif.Model Require Import CoordsSky CoordsJac.
From Verif.Spec Require Import CovSpec.
Open Scope R_scope.
Notation RR := RbaseSymbolsImpl.R (only parsing).

Definition velocity6 (q : RR -> V6) (t : RR) (v : V6) : Prop :=
  velocity3 (fun t => fst (q t)) t (fst v) /\ velocity3 (fun t => snd (q t)) t (snd v).
Definition jacobian3 (F : V3 -> V3) (x : V3) (J : M3) : Prop :=
  forall (q : RR -> V3) s v, q s = x -> velocity3 q s v -> velocity3 (fun t => F (q t)) s (mulMV J v).
Definition jacobian6 (F : V6 -> V6) (x : V6) (J : M6) : Prop :=
  forall (q : RR -> V6) s v, q s = x -> velocity6 q s v -> velocity6 (fun t => F (q t)) s (mulM6 J v).
Definition jacobian2 (F : RR * RR -> RR * RR) (x : RR * RR) (J : (RR * RR) * (RR * RR)) : Prop :=
  forall (q : RR -> RR * RR) s v, q s = x -> velocity2 q s v ->
    velocity2 (fun t => F (q t)) s
      (fst (fst J) * fst v + snd (fst J) * snd v, fst (snd J) * fst v + snd (snd J) * snd v).

(** The transformations of all six phase-space coordinates (longitude, latitude, distance | the two proper motions, line-of-sight
    velocity) from (ra, dec) to custom coordinates and from Galactic coordinates to (ra, dec). *)
Definition customsky (degree : bool) (T : M3) (p : V6) : V6 :=
  let '(p1, p2) := radec_to_custom degree T (vx (fst p)) (vy (fst p)) in
  let '(q1, q2) := pmrapmdec_to_custom degree T (vx (snd p)) (vy (snd p)) (vx (fst p)) (vy (fst p)) in
  (mkV p1 p2 (vz (fst p)), mkV q1 q2 (vz (snd p))).
Definition galsky (degree : bool) (e : epoch_angles) (p : V6) : V6 :=
  let '(p1, p2) := lb_to_radec degree e (vx (fst p)) (vy (fst p)) in
  let '(q1, q2) := pmllpmbb_to_pmrapmdec degree e (vx (snd p)) (vy (snd p)) (vx (fst p)) (vy (fst p)) in
  (mkV p1 p2 (vz (fst p)), mkV q1 q2 (vz (snd p))).
