(** Model of the unit scales carried by forces and combinations, and of the compatibility
    checks: conversion.py 495-528 [physical_compatible], Force.py 45-58, 202-222,
    CompositePotential.py 31-77, 91-133, baseCompositePotential.py 41-79.
    Scales are exact reals.  Only 3D objects (planar operands are in Model/Planar.v). *)
From Coq Require Import Reals List Bool ZArith.
Import ListNotations.
Open Scope R_scope.

(** _ro, _vo, _roSet, _voSet *)
Record US := mkUS { u_ro : R; u_vo : R; u_roSet : bool; u_voSet : bool }.

(** The relative test of conversion.py 525, 527: fabs((a-b)/a) < 1e-8. *)
Definition close (a b : R) : bool :=
  if Rlt_dec (Rabs ((a - b) / a)) (/ 10 ^ 8) then true else false.

(** conversion.py 495-528 *)
Definition compatible (u w : US) : bool :=
  (if u_roSet u && u_roSet w then close (u_ro u) (u_ro w) else true) &&
  (if u_voSet u && u_voSet w then close (u_vo u) (u_vo w) else true).

(** A force, or a combination with its own scales and its members (flat lists, by C06). *)
Inductive UObj :=
| UForce (u : US)
| UComp (u : US) (members : list US).
Definition phys (o : UObj) : US := match o with UForce u => u | UComp u _ => u end.
Definition members (o : UObj) : list US := match o with UForce u => [u] | UComp _ ms => ms end.

Section Defaults.
  Variables (cro cvo : R).   (* configuration defaults, Force.py 48, 54 *)

  (** CompositePotential.__init__ (31-77) on an already flat list; [None] is AssertionError. *)
  Definition mkUComp (ro vo : option R) (ms : list US) : option UObj :=
    let ok := match ms with [] => true | f :: rest => forallb (compatible f) rest end in
    if ok then
      let scale (given : option R) (own : US -> R) (ownSet : US -> bool) (dflt : R) : R * bool :=
        match given, ms with
        | None, f :: _ => (own f, ownSet f)                            (* 57-60, 63-65 *)
        | None, [] => (dflt, false)
        | Some x, _ => (x, true)
        end in
      let '(r, rs) := scale ro u_ro u_roSet cro in
      let '(v, vs) := scale vo u_vo u_voSet cvo in
      Some (UComp (mkUS r v rs vs) ms)
    else None.

  (** Force.__add__ (202-222) and CompositePotential.__add__ (91-133). *)
  Definition addU (a b : UObj) : option UObj :=
    if compatible (phys a) (phys b) then mkUComp None None (members a ++ members b) else None.

  (** baseCompositePotential.__mul__ (107-129) and Force.__mul__ (deep copy). *)
  Definition mulU (a : UObj) : option UObj :=
    match a with
    | UForce u => Some (UForce u)
    | UComp _ ms => mkUComp None None ms
    end.

  (** baseCompositePotential.__setitem__ (41-79) with a non-negative integer key; a slice key
      skips the test altogether. *)
  Fixpoint replace_nth (n : nat) (x : US) (l : list US) : list US :=
    match n, l with
    | _, [] => []
    | O, _ :: r => x :: r
    | S m, y :: r => y :: replace_nth m x r
    end.
  Definition setitemU (o : UObj) (key : nat) (w : US) : option UObj :=
    match o with
    | UForce _ => None
    | UComp u ms =>
        let ok := match key, ms with
                  | S _, f :: _ => compatible f w
                  | _, _ => true
                  end in
        if ok then Some (UComp u (replace_nth key w ms)) else None
    end.
End Defaults.
