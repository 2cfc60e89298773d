(** Potentials completed by numerical derivatives, or assembled from other potentials:
    galpy/potential/NumericalPotentialDerivativesMixin.py, MN3ExponentialDiskPotential.py and NullPotential.py.  Numbers are exact reals: the
    rounding of the additions R + dR that the code tries to undo by (Rplus2dR - R) / 2 is not modelled. *)
From Coq Require Import Reals List String Lra.
From Verif.Lib Require Import RealAux.
From Verif.Model Require Import PotAPI PotAxi.
Import ListNotations.
Open Scope R_scope.
Notation RR := RbaseSymbolsImpl.R (only parsing).

(** ** NumericalPotentialDerivativesMixin.py *)
(** 27-35 the six steps *)
Record Steps := { s_R : RR; s_phi : RR; s_z : RR; s_R2 : RR; s_phi2 : RR; s_z2 : RR }.

(** dict.pop(key, default) on a dictionary given as a list of distinct keys: the value and what is left *)
Fixpoint pop {A : Type} (k : string) (d : A) (kw : list (string * A)) : A * list (string * A) := match kw with
  | [] => (d, [])
  | (n, v) :: r => if String.eqb n k then (v, r) else let '(x, r') := pop k d r in (x, (n, v) :: r')
  end.
(** 27-35 __init__ works on the caller's own dictionary of keywords *)
Definition ND_init (kw : list (string * RR)) : Steps * list (string * RR) :=
  let '(dR, kw1) := pop "dR"%string (/ 10 ^ 8) kw in
  let '(dphi, kw2) := pop "dphi"%string (/ 10 ^ 8) kw1 in
  let '(dz, kw3) := pop "dz"%string (/ 10 ^ 8) kw2 in
  let '(dR2, kw4) := pop "dR2"%string (/ 10 ^ 4) kw3 in
  let '(dphi2, kw5) := pop "dphi2"%string (/ 10 ^ 4) kw4 in
  let '(dz2, kw6) := pop "dz2"%string (/ 10 ^ 4) kw5 in
  ({| s_R := dR; s_phi := dphi; s_z := dz; s_R2 := dR2; s_phi2 := dphi2; s_z2 := dz2 |}, kw6).

Section ND.
  Variables (nonax : bool) (f : F4) (s : Steps).
  (** 37-46 *)
  Definition ND_Rf : F4 := fun R z phi t =>
    let Rp := R + s_R s in let R2p := R + 2 * s_R s in let dR := (R2p - R) / 2 in
    (3 / 2 * f R z phi t - 2 * f Rp z phi t + 1 / 2 * f R2p z phi t) / dR.
  (** 48-56 *)
  Definition ND_zf : F4 := fun R z phi t =>
    let zp := z + s_z s in let zm := z - s_z s in let dz := zp - zm in
    (f R zm phi t - f R zp phi t) / dz.
  (** 58-68 *)
  Definition ND_pt : F4 := fun R z phi t =>
    if negb nonax then 0 else
    let pp := phi + s_phi s in let pm := phi - s_phi s in let dphi := pp - pm in
    (f R z pm t - f R z pp t) / dphi.
  (** 70-81 *)
  Definition ND_R2 : F4 := fun R z phi t =>
    let Rp := R + s_R2 s in let R2p := R + 2 * s_R2 s in let R3p := R + 3 * s_R2 s in let dR := (R3p - R) / 3 in
    (2 * f R z phi t - 5 * f Rp z phi t + 4 * f R2p z phi t - 1 * f R3p z phi t) / dR ^ 2.
  (** 83-92 *)
  Definition ND_z2 : F4 := fun R z phi t =>
    let zp := z + s_z2 s in let zm := z - s_z2 s in let dz := (zp - zm) / 2 in
    (f R zp phi t + f R zm phi t - 2 * f R z phi t) / dz ^ 2.
  (** 94-105 *)
  Definition ND_p2 : F4 := fun R z phi t =>
    if negb nonax then 0 else
    let pp := phi + s_phi2 s in let pm := phi - s_phi2 s in let dphi := (pp - pm) / 2 in
    (f R z pp t + f R z pm t - 2 * f R z phi t) / dphi ^ 2.
  (** 107-126 *)
  Definition ND_Rz : F4 := fun R z phi t =>
    let Rp := R + s_R2 s in let R2p := R + 2 * s_R2 s in let dR := (R2p - R) / 2 in
    let zp := z + s_z2 s in let zm := z - s_z2 s in let dz := zp - zm in
    (- (3 / 2) * f R zp phi t + 2 * f Rp zp phi t - 1 / 2 * f R2p zp phi t
     + 3 / 2 * f R zm phi t - 2 * f Rp zm phi t + 1 / 2 * f R2p zm phi t) / dR / dz.
  (** 128-149 *)
  Definition ND_Rp : F4 := fun R z phi t =>
    if negb nonax then 0 else
    let Rp := R + s_R2 s in let R2p := R + 2 * s_R2 s in let dR := (R2p - R) / 2 in
    let pp := phi + s_phi2 s in let pm := phi - s_phi2 s in let dphi := pp - pm in
    (- (3 / 2) * f R z pp t + 2 * f Rp z pp t - 1 / 2 * f R2p z pp t
     + 3 / 2 * f R z pm t - 2 * f Rp z pm t + 1 / 2 * f R2p z pm t) / dR / dphi.
  (** 151-171 *)
  Definition ND_pz : F4 := fun R z phi t =>
    if negb nonax then 0 else
    let pp := phi + s_phi2 s in let pm := phi - s_phi2 s in let dphi := (pp - pm) / 2 in
    let zp := z + s_z2 s in let zm := z - s_z2 s in let dz := zp - zm in
    (f R zp pp t - f R zp pm t - f R zm pp t + f R zm pm t) / dz / dphi / 2.
  (** A class that implements only _evaluate and inherits from Potential and from the mixin; no _dens *)
  Definition ND_class : PotC := {| nonaxi := nonax; c_ev := f; c_Rf := ND_Rf; c_zf := ND_zf; c_pt := Some ND_pt; c_R2 := Some ND_R2; c_z2 := Some ND_z2; c_Rz := Some ND_Rz;
    c_p2 := Some ND_p2; c_Rp := Some ND_Rp; c_pz := Some ND_pz; c_dn := None |}.
End ND.

(** ** MN3ExponentialDiskPotential.py *)
(** 209-334 the tables of Smith et al. (2015) *)
Definition quartic (c4 c3 c2 c1 c0 x : RR) : RR := c4 * x ^ 4 + c3 * x ^ 3 + c2 * x ^ 2 + c1 * x + c0.
Definition mass1_tab1 := quartic (- (90 / 10000)) (640 / 10000) (- (1653 / 10000)) (1164 / 10000) (19487 / 10000).
Definition mass2_tab1 := quartic (173 / 10000) (- (903 / 10000)) (877 / 10000) (2029 / 10000) (- (13077 / 10000)).
Definition mass3_tab1 := quartic (- (51 / 10000)) (287 / 10000) (- (361 / 10000)) (- (544 / 10000)) (2242 / 10000).
Definition a1_tab1 := quartic (- (358 / 10000)) (2610 / 10000) (- (6987 / 10000)) (- (1193 / 10000)) (20074 / 10000).
Definition a2_tab1 := quartic (- (830 / 10000)) (4992 / 10000) (- (7967 / 10000)) (- (12966 / 10000)) (44441 / 10000).
Definition a3_tab1 := quartic (- (247 / 10000)) (1718 / 10000) (- (4124 / 10000)) (- (5944 / 10000)) (7333 / 10000).
Definition mass1_tab2 := quartic (36 / 10000) (- (330 / 10000)) (1117 / 10000) (- (1335 / 10000)) (1749 / 10000).
Definition mass2_tab2 := quartic (- (131 / 10000)) (1090 / 10000) (- (3035 / 10000)) (2921 / 10000) (- (57976 / 10000)).
Definition mass3_tab2 := quartic (- (48 / 10000)) (454 / 10000) (- (1425 / 10000)) (1012 / 10000) (67120 / 10000).
Definition a1_tab2 := quartic (- (158 / 10000)) (993 / 10000) (- (2070 / 10000)) (- (7089 / 10000)) (6445 / 10000).
Definition a2_tab2 := quartic (- (319 / 10000)) (1514 / 10000) (- (1279 / 10000)) (- (9325 / 10000)) (26836 / 10000).
Definition a3_tab2 := quartic (- (326 / 10000)) (1816 / 10000) (- (2943 / 10000)) (- (6329 / 10000)) (23193 / 10000).
(** 337-343 *)
Definition b_exphz (h : RR) : RR := - (269 / 1000) * h ^ 3 + 1080 / 1000 * h ^ 2 + 1092 / 1000 * h.
Definition b_sechhz (h : RR) : RR := - (33 / 1000) * h ^ 3 + 262 / 1000 * h ^ 2 + 659 / 1000 * h.

(** 70-129 __init__ after the units have been removed and without normalize: [None] is the OSError of line 83, the warning of lines 88-93 is
    [MN3_warns].  The three disks are (mass, a, b) *)
Definition MN3_brd (sech : bool) (hr hz : RR) : RR := if sech then b_sechhz (hz / hr) else b_exphz (hz / hr).
Definition MN3_warns (posdens : bool) (brd : RR) : bool :=
  orb (andb (negb posdens) (if Rlt_dec 3 brd then true else false)) (andb posdens (if Rlt_dec (135 / 100) brd then true else false)).
Definition MN3_disks (hr : RR) (posdens : bool) (brd : RR) : list (RR * RR * RR) := let b := brd * hr in
  if posdens
  then [(mass1_tab2 brd, a1_tab2 brd * hr, b); (mass2_tab2 brd, a2_tab2 brd * hr, b); (mass3_tab2 brd, a3_tab2 brd * hr, b)]
  else [(mass1_tab1 brd, a1_tab1 brd * hr, b); (mass2_tab1 brd, a2_tab1 brd * hr, b); (mass3_tab1 brd, a3_tab1 brd * hr, b)].
(** 140-194 the methods: the sum of those of the three disks; [fl] as in MiyamotoNagaiPotential *)
Definition MN3_sum (fl : bool) (g : RR -> RR -> bool -> RR -> RR -> RR) (l : list (RR * RR * RR)) (R z : RR) : RR := match l with
  | [(m1, a1, b1); (m2, a2, b2); (m3, a3, b3)] => m1 * g a1 b1 fl R z + m2 * g a2 b2 fl R z + m3 * g a3 b3 fl R z
  | _ => 0
  end.
Definition MN3_of (fl : bool) (l : list (RR * RR * RR)) : PotC := mkAxi
  (MN3_sum fl (fun a b _ => MN_ev a b) l) (MN3_sum fl (fun a b _ => MN_Rf a b) l) (MN3_sum fl MN_zf l)
  (Some (MN3_sum fl (fun a b _ => MN_R2 a b) l)) (Some (MN3_sum fl MN_z2 l)) (Some (MN3_sum fl MN_Rz l)) (Some (MN3_sum fl MN_dens l)).
Definition MN3_pot (fl : bool) (amp hr hz : RR) (sech posdens : bool) : option Pot :=
  let brd := MN3_brd sech hr hz in
  if Rlt_dec brd 0 then None else Some (Single (amp * (4 * PI * hr ^ 2 * hz)) (MN3_of fl (MN3_disks hr posdens brd))).

(** ** NullPotential.py 44-63 *)
Definition Null_class : PotC := mkAxi (fun _ _ => 1) (fun _ _ => 0) (fun _ _ => 0) (Some (fun _ _ => 0)) (Some (fun _ _ => 0)) (Some (fun _ _ => 0)) (Some (fun _ _ => 0)).
