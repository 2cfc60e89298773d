(** actionAngle/actionAngleIsochroneApprox.py: actions, frequencies and angles from the toy actions and angles (those of an isochrone potential) along one orbit.
    Arrays of one orbit are lists or functions of the time index. Not modelled: the orbit integration, warnings, numpy.linalg.inv (any left inverse), the median that
    decides whether an azimuthal angle decreases (the decision is an argument), potentials that are not axisymmetric. *)
From Coq Require Import Reals List ZArith Arith Bool.
Import ListNotations.
Open Scope R_scope.
Notation RR := RbaseSymbolsImpl.R (only parsing).

Definition twopi : RR := 2 * PI.
(** x % _TWOPI *)
Definition fmod (x : RR) : RR := x - twopi * IZR (Int_part (x / twopi)).
Fixpoint suml (l : list RR) : RR := match l with [] => 0 | a :: l' => a + suml l' end.
Fixpoint sumn (n : nat) (f : nat -> RR) : RR := match n with O => 0 | S m => sumn m f + f m end.
Fixpoint zipw {A B C} (f : A -> B -> C) (l : list A) (k : list B) : list C :=
  match l, k with a :: l', b :: k' => f a b :: zipw f l' k' | _, _ => [] end.

(** 305-324: the change of the angle between successive times, and the average of the toy action *)
Definition dangle (angles : list RR) : list RR := zipw (fun a b => fmod (b - a)) (removelast angles) (tl angles).
Definition avg_action (js angles : list RR) : RR :=
  let d := dangle angles in suml (zipw Rmult (removelast js) d) / suml d.

(** dePeriod, 965-970 *)
Definition roll1 (l : list RR) : list RR := last l 0 :: removelast l.
Fixpoint cumsum (acc : nat) (w : list bool) : list nat := match w with [] => [] | b :: w' => let a := (acc + (if b then 1 else 0))%nat in a :: cumsum a w' end.
Definition dePeriod (arr : list RR) : list RR :=
  let diff := zipw Rminus arr (roll1 arr) in
  let w := List.map (fun d => if Rlt_dec d (-6) then true else false) diff in
  let addto := cumsum 0 w in
  zipw (fun a n => a + twopi * INR n) arr addto.

(** 343-353: a decreasing azimuthal angle is replaced by 2 pi minus it *)
Definition unwrap (neg : bool) (arr : list RR) : list RR := if neg then dePeriod (List.map (fun a => twopi - a) arr) else dePeriod arr.
(** 354-437: the row of A of one time has a one, the time and the sines of the angles [sines t]; the normal equations *)
Definition design (ts : nat -> RR) (sines : nat -> nat -> RR) (t c : nat) : RR := match c with O => 1 | 1%nat => ts t | S (S k) => sines t k end.
Definition ATA (nt : nat) (A : nat -> nat -> RR) (c c' : nat) : RR := sumn nt (fun t => A t c * A t c').
Definition coef (nt nc : nat) (A : nat -> nat -> RR) (atainv : nat -> nat -> RR) (Y : nat -> RR) (r : nat) : RR :=
  sumn nc (fun c => atainv r c * sumn nt (fun t => A t c * Y t)).
(** 427-458: frequency and angle *)
Definition fit (neg : bool) (nt nc : nat) (A atainv : nat -> nat -> RR) (arr : list RR) : RR * RR :=
  let Y := unwrap neg arr in
  let angle := coef nt nc A atainv (fun t => nth t Y 0) 0 in
  let Omega := coef nt nc A atainv (fun t => nth t Y 0) 1 in
  let Omega := if neg then - Omega else Omega in
  let angle := if neg then twopi - angle else angle in
  (Omega, fmod angle).

(** 359-389: the vectors n of the sines for an axisymmetric potential. The stable sort by absolute value of -maxn+1, ..., maxn-1 is written out *)
Definition phig (maxn : nat) : list Z := 0%Z :: flat_map (fun k => [- Z.of_nat k; Z.of_nat k]%Z) (seq 1 (maxn - 1)).
Definition grid0 (maxn : nat) : list (nat * Z) := tl (list_prod (seq 0 maxn) (phig maxn)).
(** mask[: 2*maxn-3 : 2] = False *)
Fixpoint drop_mask (stop : Z) (i : nat) (l : list (nat * Z)) : list (nat * Z) :=
  match l with
  | [] => []
  | a :: l' => if (Z.of_nat i <? stop)%Z && Nat.even i then drop_mask stop (S i) l' else a :: drop_mask stop (S i) l'
  end.
Definition nvectors (maxn : nat) : list (nat * Z) := drop_mask (2 * Z.of_nat maxn - 3) 0 (grid0 maxn).
Definition nn (maxn : nat) : nat := maxn * (2 * maxn - 1) - maxn.
