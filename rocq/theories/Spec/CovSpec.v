(** Specification of covariance propagation: a covariance matrix is the second moment of a weighted sample of
    errors, and the propagated matrix is the second moment of the errors carried along by the transformation. *)
From Coq Require Import Reals List.
From Coquelicot Require Import Coquelicot.
From Verif.Lib Require Import Vec3.
From Verif.Model Require Import CoordsCov.
Import ListNotations.
Open Scope R_scope.
Notation RR := RbaseSymbolsImpl.R (only parsing).

(** Sum over a weighted sample. *)
Fixpoint moment {A : Type} (f : A -> RR) (s : list (RR * A)) : RR :=
  match s with [] => 0 | (w, x) :: t => w * f x + moment f t end.
(** Second moments in three dimensions and in two. *)
Definition cov3 {A} (g : A -> V3) (s : list (RR * A)) : M3 :=
  let c (p q : V3 -> RR) := moment (fun x => p (g x) * q (g x)) s in
  mkM (mkV (c vx vx) (c vx vy) (c vx vz)) (mkV (c vy vx) (c vy vy) (c vy vz)) (mkV (c vz vx) (c vz vy) (c vz vz)).
Definition cov2 {A} (g : A -> RR * RR) (s : list (RR * A)) : M2 :=
  let c (p q : RR * RR -> RR) := moment (fun x => p (g x) * q (g x)) s in
  mkM2 (c fst fst) (c fst snd) (c snd fst) (c snd snd).

(** Symmetric positive semi-definite. *)
Definition symmetric3 (m : M3) : Prop := transp m = m.
Definition psd3 (m : M3) : Prop := forall x, 0 <= vdot x (mulMV m x).
Definition symmetric2 (m : M2) : Prop := transp2 m = m.
Definition psd2 (m : M2) : Prop := forall x y, 0 <= x * x * m00 m + x * y * m01 m + y * x * m10 m + y * y * m11 m.

(** [v] is the derivative of the curve [q] at [t]. *)
Definition velocity3 (q : RR -> V3) (t : RR) (v : V3) : Prop :=
  is_derive (fun t => vx (q t)) t (vx v) /\ is_derive (fun t => vy (q t)) t (vy v) /\ is_derive (fun t => vz (q t)) t (vz v).
Definition velocity2 (q : RR -> RR * RR) (t : RR) (v : RR * RR) : Prop :=
  is_derive (fun t => fst (q t)) t (fst v) /\ is_derive (fun t => snd (q t)) t (snd v).
