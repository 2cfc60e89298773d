(** What the release of a star means: the frame of the progenitor, from its position and velocity relative to the centre. *)
From Coq Require Import Reals.
From Verif.Lib Require Import Vec3.
Open Scope R_scope.
Notation RR := RbaseSymbolsImpl.R (only parsing).

Definition unit (a : V3) : V3 := vscal (/ vnorm a) a.
(** outward; along the angular momentum; in the plane of the motion, forward *)
Definition e_r (x : V3) : V3 := unit x.
Definition e_L (x v : V3) : V3 := unit (vcross x v).
Definition e_t (x v : V3) : V3 := vcross (e_L x v) (e_r x).
Definition comb (x v : V3) (a b c : RR) : V3 := vadd (vadd (vscal a (e_r x)) (vscal b (e_t x v))) (vscal c (e_L x v)).
(** the plane of the motion is defined, and its pole is either +z or farther than about 1.4e-5 rad from +z and -z *)
Definition regular (x v : V3) : Prop :=
  vcross x v <> vzero /\ (-1 + 1 / 10 ^ 10 <= vz (e_L x v) <= 1 - 1 / 10 ^ 10 \/ e_L x v = mkV 0 0 1).
(** reflection in the plane y = 0 *)
Definition mirror (a : V3) : V3 := mkV (vx a) (- vy a) (vz a).
