(** Handing planar potentials to the C code: galpy/orbit/integratePlanarOrbit.py:_parse_pot 33-663 and galpy/orbit/orbit_c_ext/integratePlanarOrbit.c:parse_leapFuncArgs 52-740
    (initPlanarMovingObjectSplines 1177-1210).  As in Model/CSerial.v; the three-dimensional potentials among them are given by their three-dimensional attributes (p._Pot). *)
From Coq Require Import Reals String List Bool ZArith Lia.
From Verif Require Import Model.CSerial.
Import ListNotations.
Open Scope string_scope. Open Scope list_scope. Open Scope R_scope.

Inductive leaf2 :=
| Shared (l : leaf)                                                                          (* planarPotentialFromRZPotential, planarPotentialFromFullPotential and the dissipative variant *)
| TransientLogSpiral (amp A to sigma2 alpha m omegas gamma : R)
| SteadyLogSpiral (amp : R) (growth : option (R * R)) (A alpha m omegas gamma : R)           (* tform and tsteady *)
| EllipticalDisk (amp : R) (growth : option (R * R)) (twophio p phib : R)
| LopsidedDisk (amp mphio p phib : R)
| CosmphiDisk (amp mphio p mphib m rb rbp rb2p r1p : R)
| HenonHeiles (amp : R).
Inductive pot2 := Leaf2 (l : leaf2) | Wrap2 (w : wrapper) (inner : list pot2).

Section Python.
  Variable nan : R.
  Variable linspace : R -> R -> nat -> list R.
  Variable trange : option (R * R).
  Definition growth_args (g : option (R * R)) : list R := match g with Some (tform, tsteady) => [tform; tsteady] | None => [nan; nan] end.
  (** 67-484; interpRZPotential is not among the cases *)
  Definition leaf2_to_c (l : leaf2) : option serial :=
    match l with
    | Shared (FlattenedPower amp alpha q2 core2) => leaf_ser 12 [amp; alpha; core2]
    | Shared (PowerSphericalwCutoff amp alpha rc) => leaf_ser 15 [amp; alpha; rc]
    | Shared (InterpRZ _ _ _ _ _ _ _ _ _ _) => None
    | Shared l => leaf_to_c linspace trange l
    | TransientLogSpiral amp A to sigma2 alpha m omegas gamma => leaf_ser 2 [amp; A; to; sigma2; alpha; m; omegas; gamma]
    | SteadyLogSpiral amp g A alpha m omegas gamma => leaf_ser 3 ([amp] ++ growth_args g ++ [A; alpha; m; omegas; gamma])
    | EllipticalDisk amp g twophio p phib => leaf_ser 4 ([amp] ++ growth_args g ++ [twophio; p; phib])
    | LopsidedDisk amp mphio p phib => leaf_ser 6 [amp; mphio; p; phib]
    | CosmphiDisk amp mphio p mphib m rb rbp rb2p r1p => leaf_ser 28 [amp; mphio; p; mphib; m; rb; rbp; rb2p; r1p]
    | HenonHeiles amp => leaf_ser 29 [amp]
    end.
  (** 486-659 *)
  Definition wrapper2_ser (w : wrapper) (n : nat) : option (list Z * list R * list R * list tfunc) :=
    match w with
    | MovingObject amp ts xs ys zs => Some ([-6]%Z, [of_nat n], [of_nat (length ts)] ++ ts ++ xs ++ ys ++ [amp] ++ [hd 0 ts; last ts 0], [])
    | Chandrasekhar _ | FDM _ _ _ | RotateAndTilt _ _ _ _ => None
    | w => Some (wrapper_ser nan w n)
    end.
  (** 41-43 do not remove anything: a NullPotential in the plane is a planarPotentialFromRZPotential *)
  Fixpoint pot2_to_c (p : pot2) : option serial :=
    match p with
    | Leaf2 l => leaf2_to_c l
    | Wrap2 w inner =>
      match (fix go (l : list pot2) : option serial := match l with [] => Some null_ser | p :: l => bind_ser (pot2_to_c p) (go l) end) inner with
      | Some s => match wrapper2_ser w (n_pot s) with Some (ty, before, after, tfs) => Some (mkSer 1 (ty ++ pot_type s) (before ++ pot_args s ++ after) (pot_tfuncs s ++ tfs)) | None => None end
      | None => None
      end
    end.
  Fixpoint parse_pot2 (l : list pot2) : option serial :=
    match l with [] => Some null_ser | p :: l => bind_ser (pot2_to_c p) (parse_pot2 l) end.
End Python.

(** ** C *)
(** nargs, as set in the switch 63-705: note 12, 15 and -9 *)
Definition c_nargs2 (ty : Z) (pa : list R) : option nat :=
  match ty with
  | 2 => Some 8%nat | 3 => Some 8%nat | 4 => Some 6%nat | 6 => Some 4%nat | 12 => Some 3%nat | 15 => Some 3%nat | 28 => Some 9%nat | 29 => Some 1%nat
  | -9 => Some 4%nat
  | 13 | -7 | -8 | -11 => None
  | _ => c_nargs ty pa
  end%Z.
(** initPlanarMovingObjectSplines *)
Definition c_moving2 (pa : list R) : option (list (list R) * list R) :=
  let? n := nth_error pa 0 in let n := to_int n in
  let? to := nth_error pa (1 + 3 * n + 1) in let? tf := nth_error pa (1 + 3 * n + 2) in
  let? (_, pa) := take 1 pa in
  let? (t, pa) := take n pa in let? (x, pa) := take n pa in let? (y, pa) := take n pa in
  Some ([map (fun t => (t - to) / (tf - to)) t; x; y], pa).
Definition parse_c2 := parse_gen c_nargs2 c_moving2.
