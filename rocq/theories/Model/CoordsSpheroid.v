(** Spheroidal coordinates of galpy/util/coords.py over exact reals, element by element. *)
From Coq Require Import Reals.
Open Scope R_scope.
Notation RR := RbaseSymbolsImpl.R (only parsing).

(** numpy.arccosh *)
Definition acosh (x : RR) : RR := ln (x + sqrt (x ^ 2 - 1)).

(** coords.py 2348-2383 *)
Definition Rz_to_coshucosv (oblate : bool) (delta R z : RR) : RR * RR :=
  let d12 := if oblate then (R + delta) ^ 2 + z ^ 2 else (z + delta) ^ 2 + R ^ 2 in
  let d22 := if oblate then (R - delta) ^ 2 + z ^ 2 else (z - delta) ^ 2 + R ^ 2 in
  let coshu := 1 / 2 / delta * (sqrt d12 + sqrt d22) in
  let cosv := 1 / 2 / delta * (sqrt d12 - sqrt d22) in
  let cosv := if oblate then sqrt (1 - cosv ^ 2) else cosv in
  (coshu, cosv).
(** coords.py 2386-2415 *)
Definition Rz_to_uv (oblate : bool) (delta R z : RR) : RR * RR :=
  let '(coshu, cosv) := Rz_to_coshucosv oblate delta R z in (acosh coshu, acos cosv).
(** coords.py 2418-2450 *)
Definition uv_to_Rz (oblate : bool) (delta u v : RR) : RR * RR :=
  if oblate then (delta * cosh u * sin v, delta * sinh u * cos v)
  else (delta * sinh u * sin v, delta * cosh u * cos v).
(** coords.py 2453-2501; [uv]: the position is given as (u, v) *)
Definition vRvz_to_pupv (oblate uv : bool) (delta vR vz R z : RR) : RR * RR :=
  let '(u, v) := if uv then (R, z) else Rz_to_uv oblate delta R z in
  if oblate then
    (delta * (vR * sinh u * sin v + vz * cosh u * cos v), delta * (vR * cosh u * cos v - vz * sinh u * sin v))
  else
    (delta * (vR * cosh u * sin v + vz * sinh u * cos v), delta * (vR * sinh u * cos v - vz * cosh u * sin v)).
(** coords.py 2504-2548 *)
Definition pupv_to_vRvz (oblate : bool) (delta pu pv u v : RR) : RR * RR :=
  if oblate then
    let denom := delta * (sinh u ^ 2 + cos v ^ 2) in
    ((pu * sinh u * sin v + pv * cosh u * cos v) / denom, (pu * cosh u * cos v - pv * sinh u * sin v) / denom)
  else
    let denom := delta * (sinh u ^ 2 + sin v ^ 2) in
    ((pu * cosh u * sin v + pv * sinh u * cos v) / denom, (pu * sinh u * cos v - pv * cosh u * sin v) / denom).

(** coords.py 2576-2577, 2724-2725 *)
Definition lam_g (ac Delta : RR) : RR := Delta ^ 2 / (1 - ac ^ 2).
Definition lam_a (ac Delta : RR) : RR := lam_g ac Delta - Delta ^ 2.
(** coords.py 2551-2589 *)
Definition Rz_to_lambdanu (ac Delta R z : RR) : RR * RR :=
  let g := lam_g ac Delta in let a := lam_a ac Delta in
  let term := R ^ 2 + z ^ 2 - a - g in
  let discr := (R ^ 2 + z ^ 2 - Delta ^ 2) ^ 2 + 4 * Delta ^ 2 * R ^ 2 in
  if Req_EM_T z 0 then (R ^ 2 - a, - g)
  else (1 / 2 * (term + sqrt discr), 1 / 2 * (term - sqrt discr)).
(** coords.py 2700-2740; 1e-10 is 1/10^10 *)
Definition lambdanu_to_Rz (ac Delta l n : RR) : RR * RR :=
  let g := lam_g ac Delta in let a := lam_a ac Delta in
  let r2 := (l + a) * (n + a) / (a - g) in
  let z2 := (l + g) * (n + g) / (g - a) in
  let r2 := if Rlt_dec r2 0 then if Rlt_dec 0 (n + a) then if Rlt_dec (n + a) (1 / 10 ^ 10) then 0 else r2 else r2 else r2 in
  let z2 := if Rlt_dec z2 0 then if Rlt_dec (n + g) 0 then if Rlt_dec (- (1 / 10 ^ 10)) (n + g) then 0 else z2 else z2 else z2 in
  (sqrt r2, sqrt z2).

(** coords.py 2592-2629: the entries dl/dR, dl/dz, dn/dR, dn/dz *)
Definition Rz_to_lambdanu_jac (Delta R z : RR) : (RR * RR) * (RR * RR) :=
  let discr := (R ^ 2 + z ^ 2 - Delta ^ 2) ^ 2 + 4 * Delta ^ 2 * R ^ 2 in
  let dldR := R * (1 + (R ^ 2 + z ^ 2 + Delta ^ 2) / sqrt discr) in
  let dndR := R * (1 - (R ^ 2 + z ^ 2 + Delta ^ 2) / sqrt discr) in
  let dldz := z * (1 + (R ^ 2 + z ^ 2 - Delta ^ 2) / sqrt discr) in
  let dndz := z * (1 - (R ^ 2 + z ^ 2 - Delta ^ 2) / sqrt discr) in
  ((dldR, dldz), (dndR, dndz)).
(** coords.py 2632-2697: the entries of the two symmetric matrices: (d2l/dR2, d2l/dRdz, d2l/dz2) and the same for n.
    discr**0.5 is the square root and discr**1.5 its cube *)
Definition Rz_to_lambdanu_hess (Delta R z : RR) : (RR * RR * RR) * (RR * RR * RR) :=
  let D2 := Delta ^ 2 in let R2 := R ^ 2 in let z2 := z ^ 2 in
  let discr := (R2 + z2 - D2) ^ 2 + 4 * D2 * R2 in
  let s := sqrt discr in
  let d2ldR2 := 1 + (3 * R2 + z2 + D2) / s - 2 * R2 * (R2 + z2 + D2) ^ 2 / s ^ 3 in
  let d2ndR2 := 1 - (3 * R2 + z2 + D2) / s + 2 * R2 * (R2 + z2 + D2) ^ 2 / s ^ 3 in
  let d2ldz2 := 1 + (R2 + 3 * z2 - D2) / s - 2 * z2 * (R2 + z2 - D2) ^ 2 / s ^ 3 in
  let d2ndz2 := 1 - (R2 + 3 * z2 - D2) / s + 2 * z2 * (R2 + z2 - D2) ^ 2 / s ^ 3 in
  let d2ldRdz := 2 * R * z / s * (1 - ((R2 + z2) ^ 2 - Delta ^ 4) / discr) in
  let d2ndRdz := 2 * R * z / s * (-1 + ((R2 + z2) ^ 2 - Delta ^ 4) / discr) in
  ((d2ldR2, d2ldRdz, d2ldz2), (d2ndR2, d2ndRdz, d2ndz2)).
