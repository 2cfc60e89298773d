(** potential/interpRZPotential.py: the Python evaluation (enable_c=False) and the filling of the grid. Arrays of one dimension are lists, scipy's splines are
    arbitrary functions, values are exact reals. Not modelled: units, C, not-a-number values, epifreq on radii without a frequency. *)
From Coq Require Import Reals List Arith Bool.
Import ListNotations.
Open Scope R_scope.
Notation RR := RbaseSymbolsImpl.R (only parsing).

Inductive arg := Sc (a : RR) | Ar (l : list RR).

(** out[mask] and out[mask] = values *)
Fixpoint gather {A} (m : list bool) (l : list A) : list A :=
  match m, l with b :: m', a :: l' => if b then a :: gather m' l' else gather m' l' | _, _ => [] end.
Fixpoint scatter {A} (m : list bool) (out vals : list A) : list A :=
  match m, out with
  | b :: m', o :: out' => if b then match vals with v :: vals' => v :: scatter m' out' vals' | [] => o :: scatter m' out' [] end else o :: scatter m' out' vals
  | _, _ => out
  end.
Fixpoint zip {A B C} (f : A -> B -> C) (l : list A) (k : list B) : list C :=
  match l, k with a :: l', b :: k' => f a b :: zip f l' k' | _, _ => [] end.
Definition any (m : list bool) : bool := existsb (fun b => b) m.

(** the grid and the options *)
Record grid := mkGrid { rlo : RR; rhi : RR; zlo : RR; zhi : RR; logR : bool; zsym : bool }.
Definition leb (a b : RR) : bool := if Rle_dec a b then true else false.

Section Eval.
  Variable G : grid.
  (** 613-618 *)
  Definition in_grid (R z : RR) : bool := leb (rlo G) R && leb R (rhi G) && leb z (zhi G) && leb (zlo G) z.
  (** the argument of the spline, 623-626 *)
  Definition sarg (R : RR) : RR := if logR G then ln R else R.
  (** 609-632, and likewise 638-661, 667-690, 709-727, 746-764, 783-801, 809-834. [inner]: the spline (or for the density exp of the spline minus 1e-10);
      [orig]: the evaluation of the original potential, which the code calls without the time, so at t=0; [junk]: what numpy.empty holds *)
  Definition core (interp : bool) (inner : RR -> RR -> RR) (orig : RR -> RR -> RR -> RR) (junk : list RR) (Rs zs : list RR) (t : RR) : list RR :=
    if interp then
      let indx := zip in_grid Rs zs in
      let nindx := List.map negb indx in
      let out := junk in
      let out := if any indx then scatter indx out (zip (fun R z => inner (sarg R) z) (gather indx Rs) (gather indx zs)) else out in
      if any nindx then scatter nindx out (zip (fun R z => orig R z 0) (gather nindx Rs) (gather nindx zs)) else out
    else zip (fun R z => orig R z 0) Rs zs.
  (** sign, 1296-1299 *)
  Definition sign1 (x : RR) : RR := if Rlt_dec x 0 then -1 else 1.
  (** zsymDecorator, 50-67 *)
  Definition zsym_wrap (odd : bool) (func : list RR -> list RR -> RR -> list RR) (Rs zs : list RR) (t : RR) : list RR :=
    let out := if zsym G then func Rs (List.map Rabs zs) t else func Rs zs t in
    if odd && zsym G then zip Rmult (List.map sign1 zs) out else out.
  (** scalarVectorDecorator, 19-47. None: an exception (result[0] of an empty array) *)
  Definition sv_wrap (func : list RR -> list RR -> RR -> list RR) (R z : arg) (t : RR) : option arg :=
    match R, z with
    | Sc R, Sc z => match func [R] [z] t with v :: _ => Some (Sc v) | [] => None end
    | Sc R, Ar zs => Some (Ar (func (List.map (fun _ => R * 1) zs) zs t))
    | Ar Rs, Sc z => Some (Ar (func Rs (List.map (fun _ => z * 1) Rs) t))
    | Ar Rs, Ar zs => Some (Ar (func Rs zs t))
    end.
  (** _evaluate, _Rforce (odd = false) and _zforce (odd = true), 603-690 *)
  Definition ev2 (odd interp : bool) inner orig junk (R z : arg) (t : RR) : option arg := sv_wrap (zsym_wrap odd (core interp inner orig junk)) R z t.
  (** _R2deriv, _z2deriv (odd = false) and _Rzderiv (odd = true), 692-801: without interpolation the original potential is called directly *)
  Definition pass (orig : RR -> RR -> RR -> RR) (R z : arg) : option arg :=
    match R, z with
    | Sc R, Sc z => Some (Sc (orig R z 0))
    | Sc R, Ar zs => Some (Ar (List.map (fun z => orig R z 0) zs))
    | Ar Rs, Sc z => Some (Ar (List.map (fun R => orig R z 0) Rs))
    | Ar Rs, Ar zs => Some (Ar (zip (fun R z => orig R z 0) Rs zs))
    end.
  Definition ev2d (odd interp : bool) inner orig junk (R z : arg) (t : RR) : option arg :=
    if negb interp then pass orig R z else sv_wrap (zsym_wrap odd (core true inner orig junk)) R z t.
  (** _dens, 803-834, with the grid of 457-480 *)
  Definition dens_node (d : RR) : RR := ln (d + / 10 ^ 10).
  Definition dens_inner (spl : RR -> RR -> RR) (x z : RR) : RR := exp (spl x z) - / 10 ^ 10.
  Definition ev_dens (interp : bool) spl orig junk (R z : arg) (t : RR) : option arg := ev2 false interp (dens_inner spl) orig junk R z t.
  (** vcirc, dvcircdR, epifreq, verticalfreq, 834-917, with scalarDecorator, 70-86 *)
  Definition core1 (interp : bool) (spl orig : RR -> RR) (junk : list RR) (Rs : list RR) : list RR :=
    if interp then
      let indx := List.map (fun R => leb (rlo G) R && leb R (rhi G)) Rs in
      let nindx := List.map negb indx in
      let out := junk in
      let out := if any indx then scatter indx out (List.map (fun R => spl (sarg R)) (gather indx Rs)) else out in
      if any nindx then scatter nindx out (List.map orig (gather nindx Rs)) else out
    else List.map orig Rs.
  Definition ev1 (interp : bool) (spl orig : RR -> RR) (junk : list RR) (R : arg) : option arg :=
    match R with
    | Sc R => match core1 interp spl orig junk [R] with v :: _ => Some (Sc v) | [] => None end
    | Ar Rs => Some (Ar (core1 interp spl orig junk Rs))
    end.
End Eval.

(** _spot_check_cells, 89-111. k/3.0*(n-1) rounded down is written as an integer division; sets are lists *)
Definition spot_check_cells (nR nz : nat) : list (nat * nat) :=
  if (nR <? 1)%nat || (nz <? 1)%nat then []
  else
    let ii := [0; nR / 2; nR - 1]%nat in
    let jj := [0; nz / 4; nz / 2; 3 * nz / 4; nz - 1]%nat in
    list_prod ii jj ++
    List.map (fun k => (k * (nR - 1) / 3, k * (nz - 1) / 3)%nat) [0; 1; 2; 3]%nat ++
    List.map (fun k => (k * (nR - 1) / 3, (3 - k) * (nz - 1) / 3)%nat) [0; 1; 2; 3]%nat.
(** _grid_eval, 114-182. What the call on the whole mesh does: raise, return an array of another shape, or return a grid of values *)
Inductive vectorised := VRaise | VShape | VGrid (g : nat -> nat -> RR).
Definition eqbR (a b : RR) : bool := if Req_EM_T a b then true else false.
Definition grid_eval (vec : vectorised) (scalar : RR -> RR -> RR) (rgrid zgrid : list RR) : nat -> nat -> RR :=
  let loop := fun i j => scalar (nth i rgrid 0) (nth j zgrid 0) in
  match vec with
  | VRaise => loop
  | VShape => loop
  | VGrid g => if forallb (fun c => eqbR (g (fst c) (snd c)) (scalar (nth (fst c) rgrid 0) (nth (snd c) zgrid 0)))
                          (spot_check_cells (length rgrid) (length zgrid)) then g else loop
  end.
