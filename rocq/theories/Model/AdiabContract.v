(** potential/AdiabaticContractionWrapperPotential.py over exact reals. An array with last index n is a function on nat.
    Not modelled: units, the grid (any increasing grid of positive radii), rvir, the masses of the two potentials (any arrays).
    scipy's fixed_point is an oracle [fix]: exact fixed points instead of a relative tolerance of 1e-8. *)
From Coq Require Import Reals.
From Coquelicot Require Import Coquelicot.
From Verif.Lib Require Import RealAux.
From Verif.Model Require Import PotSpecial.
Open Scope R_scope.
Notation RR := RbaseSymbolsImpl.R (only parsing).

(** numpy.interp (118), and interp1d with the end values as fill values (142, 146-148, 155-160, 169-171); for increasing abscissae: the sorting by
    interp1d is left out *)
Fixpoint lin (x y : nat -> RR) (n : nat) (t : RR) : RR :=
  match n with
  | O => y O
  | S k => if Rle_dec t (x k) then lin x y k t else if Rle_dec (x (S k)) t then y (S k) else y k + (t - x k) / (x (S k) - x k) * (y (S k) - y k)
  end.

Section Contraction.
  Variable fix_point : ((nat -> RR) -> nat -> RR) -> (nat -> RR) -> nat -> RR.
  Variable n : nat.
  (** _contraction_Cautun2020, 130-136 *)
  Definition cautun_map (mdm mbar : nat -> RR) (fbar : RR) (M : nat -> RR) (i : nat) : RR := mdm i * 1.023 * rpow (mdm i / (1 - fbar) / (M i + mbar i)) (- 0.54).
  Definition cautun (r mdm mbar : nat -> RR) (fbar : RR) (i : nat) : RR := fix_point (cautun_map mdm mbar fbar) mdm i / mdm i * mdm i / r i ^ 2.
  (** _contraction_Blumenthal1986, 139-149 *)
  Definition blum_map (r mdm mbar : nat -> RR) (fbar : RR) (rf : nat -> RR) (i : nat) : RR := r i * (mdm i / (1 - fbar)) / (mdm i + lin r mbar n (rf i)).
  Definition blumenthal (r mdm mbar : nat -> RR) (fbar : RR) (i : nat) : RR :=
    let rf := fix_point (blum_map r mdm mbar fbar) r in lin rf mdm n (r i) / r i ^ 2.
  (** _contraction_Gnedin2004, 152-172 *)
  Definition r_mean (Rvir ri : RR) : RR := 0.85 * Rvir * rpow (ri / Rvir) 0.8.
  Definition gned_map (r mdm mbar : nat -> RR) (Rvir fbar : RR) (rf : nat -> RR) (i : nat) : RR :=
    let mm := lin r mdm n (r_mean Rvir (r i)) in r i * (mm / (1 - fbar)) / (mm + lin r mbar n (r_mean Rvir (rf i))).
  Definition gnedin (r mdm mbar : nat -> RR) (Rvir fbar : RR) (i : nat) : RR :=
    let rf := fix_point (gned_map r mdm mbar Rvir fbar) r in lin rf mdm n (r i) / r i ^ 2.
  Inductive ac_method := Cautun | Gnedin (Rvir : RR) | Blumenthal.
  (** __init__: the baryon fraction (99-100) and the choice of the method (101-114) *)
  Definition ac_fbar (mdm mbar : nat -> RR) (fbar : option RR) : RR := match fbar with Some f => f | None => mbar n / (mbar n + mdm n) end.
  Definition ac_new (m : ac_method) (r mdm mbar : nat -> RR) (fbar : option RR) : nat -> RR :=
    let f := ac_fbar mdm mbar fbar in
    match m with Cautun => cautun r mdm mbar f | Gnedin Rvir => gnedin r mdm mbar Rvir f | Blumenthal => blumenthal r mdm mbar f end.
End Contraction.

(** __init__, 115-127: the central point, the interpolated force, the potential at the centre, the table. [S], [P]: the spline that
    interpSphericalPotential draws through the table and its antiderivative. The amplitude is not passed on. *)
Definition with_centre (a : nat -> RR) (i : nat) : RR := match i with O => 0 | S k => a k end.
Definition ac_rforce (n : nat) (r new : nat -> RR) (x : RR) : RR := - lin (with_centre r) (with_centre new) (S n) x.
Definition ac_Phi0 (n : nat) (r new : nat -> RR) : RR := RInt (ac_rforce n r new) 0 (r n) - new n * r n.
Definition ac_phi (amp : RR) (n : nat) (r new : nat -> RR) (S P : RR -> RR) (x : RR) : RR := 1 * IS_rev S P 0 (r n) (ac_Phi0 n r new) x.
Definition ac_force (amp : RR) (n : nat) (r : nat -> RR) (S : RR -> RR) (x : RR) : RR := 1 * IS_rforce S (r n) x.
