(** Cartesian forces and tidal tensors of the C orbit integrators: galpy/orbit/orbit_c_ext/integrateFullOrbit.c, integratePlanarOrbit.c and
    integrateLinearOrbit.c.  calcRforce etc. sum the functions of the components; here they are arguments, the functions of
    the potential the user passed (CPot.v models the C functions of individual potentials; C44 proves that their sums are those
    functions).  Velocity-dependent forces are excluded (jac_x and jac_v are zero). *)
From Coq Require Import Reals List.
From Verif.Model Require Import Symplectic PotAPI Reduce.
Import ListNotations.
Open Scope R_scope.
Notation RR := RbaseSymbolsImpl.R (only parsing).

Inductive axis := AX | AY | AZ.
Definition axes : list axis := [AX; AY; AZ].
(** Full 1338-1344, 1501-1507, 1596-1602; Planar 1134-1140, 1238-1243 *)
Definition rect_R (x y : RR) : RR := sqrt (x * x + y * y).
Definition rect_phi (x y : RR) : RR :=
  let phi := acos (x / rect_R x y) in
  if Rlt_dec y 0 then 2 * PI - phi else phi.

Section Full.
  Variables Rf zf pt R2 p2 Rp z2 Rz zp : F4.
  Definition at_q (f : F4) (t : RR) (q : vec axis) : RR := f (rect_R (q AX) (q AY)) (q AZ) (rect_phi (q AX) (q AY)) t.
  (** evalRectForce, Full 1293-1321 and evalRectForce_dxdv 1605-1609 *)
  Definition rect_force (t : RR) (q : vec axis) : vec axis :=
    let R := rect_R (q AX) (q AY) in
    let sinphi := q AY / R in
    let cosphi := q AX / R in
    let Rforce := at_q Rf t q in
    let phitorque := at_q pt t q in
    fun j => match j with
             | AX => cosphi * Rforce - 1 / R * sinphi * phitorque
             | AY => sinphi * Rforce + 1 / R * cosphi * phitorque
             | AZ => at_q zf t q
             end.
  (** Full 1546-1566 and 1613-1637 *)
  Definition rect_hess (t : RR) (q : vec axis) : axis -> axis -> RR :=
    let R := rect_R (q AX) (q AY) in
    let sinphi := q AY / R in
    let cosphi := q AX / R in
    let R2deriv := at_q R2 t q in
    let phi2deriv := at_q p2 t q in
    let Rphideriv := at_q Rp t q in
    let z2deriv := at_q z2 t q in
    let Rzderiv := at_q Rz t q in
    let zphideriv := at_q zp t q in
    let RforceK := at_q Rf t q in
    let phitorqueK := at_q pt t q in
    let dFxdx := - cosphi * cosphi * R2deriv + 2 * cosphi * sinphi / R / R * phitorqueK + sinphi * sinphi / R * RforceK
                 + 2 * sinphi * cosphi / R * Rphideriv - sinphi * sinphi / R / R * phi2deriv in
    let dFxdy := - sinphi * cosphi * R2deriv + (sinphi * sinphi - cosphi * cosphi) / R / R * phitorqueK - cosphi * sinphi / R * RforceK
                 - (cosphi * cosphi - sinphi * sinphi) / R * Rphideriv + cosphi * sinphi / R / R * phi2deriv in
    let dFydy := - sinphi * sinphi * R2deriv - 2 * sinphi * cosphi / R / R * phitorqueK - 2 * sinphi * cosphi / R * Rphideriv
                 + cosphi * cosphi / R * RforceK - cosphi * cosphi / R / R * phi2deriv in
    let dFxdz := - cosphi * Rzderiv + sinphi / R * zphideriv in
    let dFydz := - sinphi * Rzderiv - cosphi / R * zphideriv in
    let dFzdz := - z2deriv in
    fun j k => match j, k with
               | AX, AX => dFxdx | AX, AY => dFxdy | AX, AZ => dFxdz
               | AY, AX => dFxdy | AY, AY => dFydy | AY, AZ => dFydz
               | AZ, AX => dFxdz | AZ, AY => dFydz | AZ, AZ => dFzdz
               end.
  (** evalRectDeriv_dxdv, Full 1476-1588: right-hand side for the orbit (q, v) and one deviation (dq, dv) *)
  Definition rect_deriv_dxdv (t : RR) (q v dq dv : vec axis) : vec axis * vec axis * vec axis * vec axis :=
    let K := rect_hess t q in
    (v, rect_force t q, dv,
     fun j => match j with
              | AX => K AX AX * dq AX + K AX AY * dq AY + K AX AZ * dq AZ
              | AY => K AX AY * dq AX + K AY AY * dq AY + K AY AZ * dq AZ
              | AZ => K AX AZ * dq AX + K AY AZ * dq AY + K AZ AZ * dq AZ
              end).
End Full.

(** In the plane: components [true] = x, [false] = y; forces are functions of (R, phi, t). *)

Section Planar.
  Variables Rf pt R2 p2 Rp : F3.
  Definition pat_q (f : F3) (t : RR) (q : vec bool) : RR := f (rect_R (q true) (q false)) (rect_phi (q true) (q false)) t.
  (** Planar 1245-1248 *)
  Definition prect_force (t : RR) (q : vec bool) : vec bool :=
    let R := rect_R (q true) (q false) in
    let sinphi := q false / R in
    let cosphi := q true / R in
    fun j => if j then cosphi * pat_q Rf t q - 1 / R * sinphi * pat_q pt t q
             else sinphi * pat_q Rf t q + 1 / R * cosphi * pat_q pt t q.
  (** Planar 1154-1175 (evalPlanarRectDeriv_dxdv, with its own dFydx) and 1252-1268 *)
  Definition prect_hess (own_dFydx : bool) (t : RR) (q : vec bool) : bool -> bool -> RR :=
    let R := rect_R (q true) (q false) in
    let sinphi := q false / R in
    let cosphi := q true / R in
    let R2deriv := pat_q R2 t q in
    let phi2deriv := pat_q p2 t q in
    let Rphideriv := pat_q Rp t q in
    let Rforce := pat_q Rf t q in
    let phitorque := pat_q pt t q in
    let dFxdx := - cosphi * cosphi * R2deriv + 2 * cosphi * sinphi / R / R * phitorque + sinphi * sinphi / R * Rforce
                 + 2 * sinphi * cosphi / R * Rphideriv - sinphi * sinphi / R / R * phi2deriv in
    let dFxdy := - sinphi * cosphi * R2deriv + (sinphi * sinphi - cosphi * cosphi) / R / R * phitorque - cosphi * sinphi / R * Rforce
                 - (cosphi * cosphi - sinphi * sinphi) / R * Rphideriv + cosphi * sinphi / R / R * phi2deriv in
    let dFydx := - cosphi * sinphi * R2deriv + (sinphi * sinphi - cosphi * cosphi) / R / R * phitorque
                 + (sinphi * sinphi - cosphi * cosphi) / R * Rphideriv - sinphi * cosphi / R * Rforce + sinphi * cosphi / R / R * phi2deriv in
    let dFydy := - sinphi * sinphi * R2deriv - 2 * sinphi * cosphi / R / R * phitorque - 2 * sinphi * cosphi / R * Rphideriv
                 + cosphi * cosphi / R * Rforce - cosphi * cosphi / R / R * phi2deriv in
    fun j k => match j, k with
               | true, true => dFxdx | true, false => dFxdy
               | false, true => if own_dFydx then dFydx else dFxdy | false, false => dFydy
               end.
End Planar.

(** Linear 331-343: one component *)
Definition lin_force (f : RR -> RR -> RR) (t : RR) (q : vec unit) : vec unit := fun _ => f (q tt) t.
Definition lin_hess (d2 : RR -> RR -> RR) (t : RR) (q : vec unit) : unit -> unit -> RR := fun _ _ => - d2 (q tt) t.
