(** KuzminKutuzovStaeckelPotential.py 64-250: the potential, forces and second derivatives (amp = 1; Potential.py multiplies by amp).
    KK_l and KK_n are the two components of coords.Rz_to_lambdanu; l**1.5 is the cube of the square root. *)
From Coq Require Import Reals.
From Coquelicot Require Import Coquelicot.
From Verif.Model Require Import CoordsSpheroid.
Open Scope R_scope.
Notation RR := RbaseSymbolsImpl.R (only parsing).

Section KuzminKutuzov.
  Variables (ac Delta : RR).
  Definition KK_l (R z : RR) : RR := fst (Rz_to_lambdanu ac Delta R z).
  Definition KK_n (R z : RR) : RR := snd (Rz_to_lambdanu ac Delta R z).
  (** 132-250 *)
  Definition lderiv (l n : RR) : RR := 0.5 / sqrt l / (sqrt l + sqrt n) ^ 2.
  Definition nderiv (l n : RR) : RR := 0.5 / sqrt n / (sqrt l + sqrt n) ^ 2.
  Definition l2deriv (l n : RR) : RR := (-3 * sqrt l - sqrt n) / (4 * sqrt l ^ 3 * (sqrt l + sqrt n) ^ 3).
  Definition n2deriv (l n : RR) : RR := (- sqrt l - 3 * sqrt n) / (4 * sqrt n ^ 3 * (sqrt l + sqrt n) ^ 3).
  Definition lnderiv (l n : RR) : RR := -0.5 / (sqrt l * sqrt n * (sqrt l + sqrt n) ^ 3).
  (** 64-66 *)
  Definition KK_ev (R z : RR) : RR := -1 / (sqrt (KK_l R z) + sqrt (KK_n R z)).
  (** 68-80 *)
  Definition KK_Rf (R z : RR) : RR :=
    let '((dldR, dldz), (dndR, dndz)) := Rz_to_lambdanu_jac Delta R z in
    - (dldR * lderiv (KK_l R z) (KK_n R z) + dndR * nderiv (KK_l R z) (KK_n R z)).
  Definition KK_zf (R z : RR) : RR :=
    let '((dldR, dldz), (dndR, dndz)) := Rz_to_lambdanu_jac Delta R z in
    - (dldz * lderiv (KK_l R z) (KK_n R z) + dndz * nderiv (KK_l R z) (KK_n R z)).
  (** 82-96 *)
  Definition KK_R2 (R z : RR) : RR :=
    let l := KK_l R z in let n := KK_n R z in
    let '((dldR, dldz), (dndR, dndz)) := Rz_to_lambdanu_jac Delta R z in
    let '((d2ldR2, d2ldRdz, d2ldz2), (d2ndR2, d2ndRdz, d2ndz2)) := Rz_to_lambdanu_hess Delta R z in
    d2ldR2 * lderiv l n + d2ndR2 * nderiv l n + dldR ^ 2 * l2deriv l n + dndR ^ 2 * n2deriv l n + 2 * dldR * dndR * lnderiv l n.
  (** 98-112 *)
  Definition KK_z2 (R z : RR) : RR :=
    let l := KK_l R z in let n := KK_n R z in
    let '((dldR, dldz), (dndR, dndz)) := Rz_to_lambdanu_jac Delta R z in
    let '((d2ldR2, d2ldRdz, d2ldz2), (d2ndR2, d2ndRdz, d2ndz2)) := Rz_to_lambdanu_hess Delta R z in
    d2ldz2 * lderiv l n + d2ndz2 * nderiv l n + dldz ^ 2 * l2deriv l n + dndz ^ 2 * n2deriv l n + 2 * dldz * dndz * lnderiv l n.
  (** 114-130 *)
  Definition KK_Rz (R z : RR) : RR :=
    let l := KK_l R z in let n := KK_n R z in
    let '((dldR, dldz), (dndR, dndz)) := Rz_to_lambdanu_jac Delta R z in
    let '((d2ldR2, d2ldRdz, d2ldz2), (d2ndR2, d2ndRdz, d2ndz2)) := Rz_to_lambdanu_hess Delta R z in
    d2ldRdz * lderiv l n + d2ndRdz * nderiv l n + dldR * dldz * l2deriv l n + dndR * dndz * n2deriv l n + (dldR * dndz + dldz * dndR) * lnderiv l n.
End KuzminKutuzov.
