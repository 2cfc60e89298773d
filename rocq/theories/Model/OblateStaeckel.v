(** galpy/potential/OblateStaeckelWrapperPotential.py and galpy/potential/potential_c_ext/OblateStaeckelWrapperPotential.c over exact reals.
    [eps] is the literal 1e-12 added to tanh(u).  1/tan(v) is cos v / sin v, and R0z[1] * tan(v) is delta cosh(u0) sin(v): the two expressions at pi/2, which no float equals, are their limits.
    The wrapped potential is evaluated by _evaluatePotentials(self._pot, R, z), that is without an azimuth and at t = 0.
    Not modelled: units; wrapping a non-axisymmetric potential, which raises. *)
From Coq Require Import Reals.
From Coquelicot Require Import Coquelicot.
From Verif.Model Require Import PotAPI CoordsSpheroid.
Open Scope R_scope.
Notation RR := RbaseSymbolsImpl.R (only parsing).
Notation F2 := (RR -> RR -> RR) (only parsing).

(** 483-492 *)
Definition prefactor (u v : RR) : RR := sinh u ^ 2 + sin v ^ 2.
Definition dprefactor (u v : RR) : RR * RR := (2 * sinh u * cosh u, 2 * sin v * cos v).
Definition d2prefactor (u v : RR) : RR * RR := (2 * cosh (2 * u), 2 * cos (2 * v)).

Definition cot (v : RR) : RR := cos v / sin v.

(** 72-86: u0 is a number, or the pair (R, z) of a point *)
Inductive U0 := AtU (u : RR) | AtRz (R z : RR).
Definition get_u0 (delta : RR) (a : U0) : RR := match a with AtU u => u | AtRz R z => fst (Rz_to_uv false delta R z) end.

Section OS.
  Variables (delta u0 eps : RR) (Phi FR Fz P2R P2z PRz : F2).
  Definition v0 : RR := PI / 2.                                                               (* 87 *)
  Definition at_uv (f : F2) (u v : RR) : RR := let '(R, z) := uv_to_Rz false delta u v in f R z.
  Definition refpot : RR := at_uv Phi u0 v0 * cosh u0 ^ 2.                                      (* 88-91 *)
  (** R0z[1] * tan(v) *)
  Definition ztan (u v : RR) : RR := delta * cosh u * sin v.
  Definition OS_U (u : RR) : RR := cosh u ^ 2 * at_uv Phi u v0.                                  (* 374-377 *)
  Definition OS_dU (u : RR) : RR := let '(R, z) := uv_to_Rz false delta u v0 in                  (* 379-389 *)
    2 * cosh u * sinh u * Phi R z - cosh u ^ 2 * (FR R z * R / (tanh u + eps) + Fz R z * z * tanh u).
  Definition OS_d2U (u : RR) : RR := let '(R, z) := uv_to_Rz false delta u v0 in                 (* 391-421 *)
    2 * cosh (2 * u) * Phi R z - 4 * cosh u * sinh u * (FR R z * R / (tanh u + eps) + Fz R z * z * tanh u)
    - cosh u ^ 2 * (- P2R R z * R ^ 2 / (tanh u + eps) ^ 2 - 2 * PRz R z * R * z + FR R z * R - P2z R z * z ^ 2 * tanh u ^ 2 + Fz R z * z).
  Definition OS_V (v : RR) : RR := refpot - prefactor u0 v * at_uv Phi u0 v.                     (* 423-429 *)
  Definition OS_dV (v : RR) : RR := let '(R, z) := uv_to_Rz false delta u0 v in                  (* 431-438 *)
    - 2 * sin v * cos v * Phi R z + prefactor u0 v * (FR R z * R * cot v - Fz R z * ztan u0 v).
  Definition OS_d2V (v : RR) : RR := let '(R, z) := uv_to_Rz false delta u0 v in                 (* 440-465 *)
    - 2 * cos (2 * v) * Phi R z + 2 * sin (2 * v) * (FR R z * R * cot v - Fz R z * ztan u0 v)
    + prefactor u0 v * (- P2R R z * R ^ 2 * cot v ^ 2 + 2 * PRz R z * R * z - FR R z * R - P2z R z * ztan u0 v ^ 2 - Fz R z * z).
  (** 103-119 *)
  Definition OS_ev (R z : RR) : RR := let '(u, v) := Rz_to_uv false delta R z in (OS_U u - OS_V v) / prefactor u v.
  (** 121-153 *)
  Definition OS_Rf (R z : RR) : RR := let '(u, v) := Rz_to_uv false delta R z in let prefac := prefactor u v in let '(pu, pv) := dprefactor u v in
    (- OS_dU u * delta * sin v * cosh u + OS_dV v * tanh u * z + (OS_U u - OS_V v) * (pu * delta * sin v * cosh u + pv * tanh u * z) / prefac) / delta ^ 2 / prefac ^ 2.
  (** 155-187 *)
  Definition OS_zf (R z : RR) : RR := let '(u, v) := Rz_to_uv false delta R z in let prefac := prefactor u v in let '(pu, pv) := dprefactor u v in
    (- OS_dU u * R * cot v - OS_dV v * delta * sin v * cosh u + (OS_U u - OS_V v) * (pu * cot v * R - pv * delta * sin v * cosh u) / prefac) / delta ^ 2 / prefac ^ 2.
  (** 189-251 *)
  Definition OS_R2 (R z : RR) : RR := let '(u, v) := Rz_to_uv false delta R z in let prefac := prefactor u v in let '(pu, pv) := dprefactor u v in let '(puu, pvv) := d2prefactor u v in
    let umvfac := (pu * delta * sin v * cosh u + pv * tanh u * z) / prefac in
    let U := OS_U u in let dU := OS_dU u in let d2U := OS_d2U u in let V := OS_V v in let dV := OS_dV v in let d2V := OS_d2V v in
    (d2U * sin v ^ 2 * cosh u ^ 2 + dU * sinh u * cosh u - d2V * sinh u ^ 2 * cos v ^ 2 - dV * sin v * cos v
      + ((- dU * cosh u * sin v + dV * sinh u * cos v) / delta * umvfac
         + (U - V) * (- puu * cosh u ^ 2 * sin v ^ 2 - pu * sinh u * cosh u - pvv * sinh u ^ 2 * cos v ^ 2 - pv * sin v * cos v) / prefac
         + (U - V) * umvfac / prefac / delta * (pu * cosh u * sin v + pv * sinh u * cos v))) / delta ^ 2 / prefac ^ 3
    + 2 * OS_Rf R z / prefac ^ 2 * (pu * cosh u * sin v + pv * sinh u * cos v) / delta.
  (** 253-313 *)
  Definition OS_z2 (R z : RR) : RR := let '(u, v) := Rz_to_uv false delta R z in let prefac := prefactor u v in let '(pu, pv) := dprefactor u v in let '(puu, pvv) := d2prefactor u v in
    let umvfac := (pu * cot v * R - pv * delta * sin v * cosh u) / prefac in
    let U := OS_U u in let dU := OS_dU u in let d2U := OS_d2U u in let V := OS_V v in let dV := OS_dV v in let d2V := OS_d2V v in
    (d2U * sinh u ^ 2 * cos v ^ 2 + dU * cosh u * sinh u - d2V * sin v ^ 2 * cosh u ^ 2 - dV * cos v * sin v
      + ((- dU * sinh u * cos v - dV * cosh u * sin v) / delta * umvfac
         + (U - V) * (- puu * sinh u ^ 2 * cos v ^ 2 - pu * sinh u * cosh u - pvv * sin v ^ 2 * cosh u ^ 2 - pv * cos v * sin v) / prefac
         - (U - V) * umvfac / prefac / delta * (- pu * sinh u * cos v + pv * cosh u * sin v))) / delta ^ 2 / prefac ^ 3
    - 2 * OS_zf R z / prefac ^ 2 * (- pu * sinh u * cos v + pv * cosh u * sin v) / delta.
  (** 315-372 *)
  Definition OS_Rz (R z : RR) : RR := let '(u, v) := Rz_to_uv false delta R z in let prefac := prefactor u v in let '(pu, pv) := dprefactor u v in let '(puu, pvv) := d2prefactor u v in
    let umvfac := (pu * cot v * R - pv * delta * sin v * cosh u) / prefac in
    let U := OS_U u in let dU := OS_dU u in let d2U := OS_d2U u in let V := OS_V v in let dV := OS_dV v in let d2V := OS_d2V v in
    ((d2U + d2V) * cosh u * sin v * cos v * sinh u + dU * sin v * cos v + dV * sinh u * cosh u
      + ((- dU * cosh u * sin v + dV * sinh u * cos v) / delta * umvfac
         + (U - V) * ((- puu + pvv) * sin v * cosh u * sinh u * cos v - pu * sin v * cos v + pv * cosh u * sinh u) / prefac
         + (U - V) * umvfac / prefac / delta * (pu * cosh u * sin v + pv * sinh u * cos v))) / delta ^ 2 / prefac ^ 3
    + 2 * OS_zf R z / prefac ^ 2 * (pu * cosh u * sin v + pv * sinh u * cos v) / delta.
End OS.

(** ** OblateStaeckelWrapperPotential.c; [a] is args: amp, delta, u0, v0, refpot; Phi, FR, ... are the C functions of the wrapped potential at phi = 0, t = 0, pFR and pP2R its planar ones *)
Section C.
  Variables (eps : RR) (amp delta u0 v0 refpot : RR) (Phi FR Fz P2R P2z PRz : F2) (pFR pP2R : RR -> RR).
  (** 4-16 Rz_to_uv and uv_to_Rz are the same formulas *)
  Definition cU (u : RR) : RR := let '(R, z) := uv_to_Rz false delta u v0 in cosh u ^ 2 * Phi R z.                       (* 30-36 *)
  Definition cdU (u : RR) : RR := let '(R, z) := uv_to_Rz false delta u v0 in                                           (* 37-50 *)
    2 * cosh u * sinh u * Phi R z - cosh u ^ 2 * (FR R z * R / (tanh u + eps) + Fz R z * z * tanh u).
  Definition cd2U (u : RR) : RR := let '(R, z) := uv_to_Rz false delta u v0 in                                          (* 51-79 *)
    2 * cosh (2 * u) * Phi R z - 4 * cosh u * sinh u * (FR R z * R / (tanh u + eps) + Fz R z * z * tanh u)
    - cosh u ^ 2 * (- P2R R z * R * R / (tanh u + eps) ^ 2 - 2 * PRz R z * R * z + FR R z * R - P2z R z * z * z * tanh u ^ 2 + Fz R z * z).
  Definition cpdU (u : RR) : RR := let '(R, z) := uv_to_Rz false delta u v0 in                                          (* 80-91 *)
    2 * cosh u * sinh u * Phi R z - cosh u ^ 2 * pFR R * R / (tanh u + eps).
  Definition cpd2U (u : RR) : RR := let '(R, z) := uv_to_Rz false delta u v0 in                                         (* 92-116 *)
    2 * cosh (2 * u) * Phi R z - 4 * cosh u * sinh u * pFR R * R / (tanh u + eps) - cosh u ^ 2 * (- pP2R R * R * R / (tanh u + eps) ^ 2 + pFR R * R).
  Definition cV (v : RR) : RR := let '(R, z) := uv_to_Rz false delta u0 v in refpot - prefactor u0 v * Phi R z.          (* 117-124 *)
  Definition cdV (v : RR) : RR := let '(R, z) := uv_to_Rz false delta u0 v in                                           (* 125-137 *)
    - 2 * sin v * cos v * Phi R z + prefactor u0 v * (FR R z * R * cot v - Fz R z * ztan delta u0 v).
  Definition cd2V (v : RR) : RR := let '(R, z) := uv_to_Rz false delta u0 v in                                          (* 138-163 *)
    - 2 * cos (2 * v) * Phi R z + 2 * sin (2 * v) * (FR R z * R * cot v - Fz R z * ztan delta u0 v)
    + prefactor u0 v * (- P2R R z * R * R * cot v ^ 2 + 2 * PRz R z * R * z - FR R z * R - P2z R z * (ztan delta u0 v * ztan delta u0 v) - Fz R z * z).
  Definition cOS_ev (R z : RR) : RR := let '(u, v) := Rz_to_uv false delta R z in amp * (cU u - cV v) / prefactor u v.   (* 164-174 *)
  Definition cOS_Rf (R z : RR) : RR := let '(u, v) := Rz_to_uv false delta R z in let p := prefactor u v in let '(pu, pv) := dprefactor u v in  (* 175-194 *)
    amp * ((- cdU u * delta * sin v * cosh u + cdV v * tanh u * z + (cU u - cV v) * (pu * delta * sin v * cosh u + pv * tanh u * z) / p) / (delta * p) ^ 2).
  Definition cOS_zf (R z : RR) : RR := let '(u, v) := Rz_to_uv false delta R z in let p := prefactor u v in let '(pu, pv) := dprefactor u v in  (* 195-214 *)
    amp * ((- cdU u * R * cot v - cdV v * delta * sin v * cosh u + (cU u - cV v) * (pu * cot v * R - pv * delta * sin v * cosh u) / p) / (delta * p) ^ 2).
  Definition cOS_pRf (R : RR) : RR := let '(u, v) := Rz_to_uv false delta R 0 in let p := prefactor u v in let '(pu, pv) := dprefactor u v in   (* 215-230 *)
    amp * ((- cpdU u * delta * sin v * cosh u + cU u * pu * delta * sin v * cosh u / p) / (delta * p) ^ 2).
  Definition cOS_R2 (R z : RR) : RR := let '(u, v) := Rz_to_uv false delta R z in let p := prefactor u v in let '(pu, pv) := dprefactor u v in let '(puu, pvv) := d2prefactor u v in  (* 243-290 *)
    let umvfac := (pu * delta * sin v * cosh u + pv * tanh u * z) / p in
    amp * (cd2U u * sin v ^ 2 * cosh u ^ 2 + cdU u * sinh u * cosh u - cd2V v * sinh u ^ 2 * cos v ^ 2 - cdV v * sin v * cos v
      + ((- cdU u * cosh u * sin v + cdV v * sinh u * cos v) / delta * umvfac
         + (cU u - cV v) * (- puu * cosh u ^ 2 * sin v ^ 2 - pu * sinh u * cosh u - pvv * sinh u ^ 2 * cos v ^ 2 - pv * sin v * cos v) / p
         + (cU u - cV v) * umvfac / p / delta * (pu * cosh u * sin v + pv * sinh u * cos v))) / delta ^ 2 / p ^ 3
    + 2 * cOS_Rf R z / p ^ 2 * (pu * cosh u * sin v + pv * sinh u * cos v) / delta.
  Definition cOS_z2 (R z : RR) : RR := let '(u, v) := Rz_to_uv false delta R z in let p := prefactor u v in let '(pu, pv) := dprefactor u v in let '(puu, pvv) := d2prefactor u v in  (* 291-338 *)
    let umvfac := (pu * cot v * R - pv * delta * sin v * cosh u) / p in
    amp * (cd2U u * sinh u ^ 2 * cos v ^ 2 + cdU u * cosh u * sinh u - cd2V v * sin v ^ 2 * cosh u ^ 2 - cdV v * cos v * sin v
      + ((- cdU u * sinh u * cos v - cdV v * cosh u * sin v) / delta * umvfac
         + (cU u - cV v) * (- puu * sinh u ^ 2 * cos v ^ 2 - pu * sinh u * cosh u - pvv * sin v ^ 2 * cosh u ^ 2 - pv * cos v * sin v) / p
         - (cU u - cV v) * umvfac / p / delta * (- pu * sinh u * cos v + pv * cosh u * sin v))) / delta ^ 2 / p ^ 3
    - 2 * cOS_zf R z / p ^ 2 * (- pu * sinh u * cos v + pv * cosh u * sin v) / delta.
  Definition cOS_Rz (R z : RR) : RR := let '(u, v) := Rz_to_uv false delta R z in let p := prefactor u v in let '(pu, pv) := dprefactor u v in let '(puu, pvv) := d2prefactor u v in  (* 339-385 *)
    let umvfac := (pu * cot v * R - pv * delta * sin v * cosh u) / p in
    amp * ((cd2U u + cd2V v) * cosh u * sin v * cos v * sinh u + cdU u * sin v * cos v + cdV v * sinh u * cosh u
      + ((- cdU u * cosh u * sin v + cdV v * sinh u * cos v) / delta * umvfac
         + (cU u - cV v) * ((- puu + pvv) * sin v * cosh u * sinh u * cos v - pu * sin v * cos v + pv * cosh u * sinh u) / p
         + (cU u - cV v) * umvfac / p / delta * (pu * cosh u * sin v + pv * sinh u * cos v))) / delta ^ 2 / p ^ 3
    + 2 * cOS_zf R z / p ^ 2 * (pu * cosh u * sin v + pv * sinh u * cos v) / delta.
  Definition cOS_pR2 (R : RR) : RR := let '(u, v) := Rz_to_uv false delta R 0 in let p := prefactor u v in let '(pu, pv) := dprefactor u v in let '(puu, pvv) := d2prefactor u v in     (* 386-426 *)
    let umvfac := pu * delta * sin v * cosh u / p in
    amp * (cpd2U u * sin v ^ 2 * cosh u ^ 2 + cpdU u * sinh u * cosh u
      + (- cpdU u * cosh u * sin v / delta * umvfac + cU u * (- puu * cosh u ^ 2 * sin v ^ 2 - pu * sinh u * cosh u) / p + cU u * umvfac / p / delta * pu * cosh u * sin v)) / delta ^ 2 / p ^ 3
    + 2 * cOS_pRf R / p ^ 2 * pu * cosh u * sin v / delta.
End C.

(** The class: the methods called with any azimuth and time *)
Definition tiny : RR := / 10 ^ 12.
Definition sec (o : option F4) : F2 := fun R z => match o with Some f => f R z 0 0 | None => 0 end.
Definition OS_class (delta : RR) (a : U0) (p : Pot) : PotC :=
  let u0 := get_u0 delta a in let Phi := sec (apiEv p) in let FR R z := apiRf p (0, 0, 0) R z 0 0 in let Fz R z := apizf p (0, 0, 0) R z 0 0 in
  let P2R := sec (apiR2 p) in let P2z := sec (apiz2 p) in let PRz := sec (apiRz p) in
  mkAxi (OS_ev delta u0 Phi) (OS_Rf delta u0 tiny Phi FR Fz) (OS_zf delta u0 tiny Phi FR Fz) (Some (OS_R2 delta u0 tiny Phi FR Fz P2R P2z PRz))
    (Some (OS_z2 delta u0 tiny Phi FR Fz P2R P2z PRz)) (Some (OS_Rz delta u0 tiny Phi FR Fz P2R P2z PRz)) None.
