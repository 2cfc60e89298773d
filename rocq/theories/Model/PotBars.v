(** Models of galpy/potential/DehnenBarPotential.py and SoftenedNeedleBarPotential.py. *)
From Coq Require Import Reals List.
From Verif.Lib Require Import RealAux.
From Verif.Model Require Import PotAPI Coords.
Import ListNotations.
Open Scope R_scope.
Notation RR := RbaseSymbolsImpl.R (only parsing).

(** ** DehnenBarPotential *)
(** The attributes after construction. *)
Record DBar := mkDBar {
  b_omegab : RR; b_rb : RR; b_af : RR; b_barphi : RR; b_tform : RR; b_tsteady : RR }.

(** DehnenBarPotential.py 141-146: [tform] and [tsteady] are given in bar periods. *)
Definition db_tb (omegab : RR) : RR :=
  if Req_EM_T omegab 0 then 1 else 2 * PI / omegab.
Definition db_finish (omegab rb af barphi tform : RR) (tsteady : option RR) : DBar :=
  let tb := db_tb omegab in
  let tf := tform * tb in
  mkDBar omegab rb af barphi tf
    (match tsteady with None => tf / 2 | Some ts => tf + ts * tb end).
(** 125-136: the form without [omegab]; the bar is placed by its outer Lindblad resonance. *)
Definition db_from_olr (rolr chi beta alpha barphi tform : RR) (tsteady : option RR) : DBar :=
  let omegab := 1 / (rpow rolr (1 - beta) / (1 + sqrt ((1 + beta) / 2))) in
  let rb := chi * rpow omegab (1 / (beta - 1)) in
  let af := alpha / 3 / rb ^ 3 in
  db_finish omegab rb af barphi tform tsteady.

Section DehnenBar.
  Variable b : DBar.
  Definition db_smooth (t : RR) : RR :=                              (* 161-171 *)
    if Rlt_dec t (b_tform b) then 0
    else if Rlt_dec t (b_tsteady b) then
      let deltat := t - b_tform b in
      let xi := 2 * deltat / (b_tsteady b - b_tform b) - 1 in
      3 / 16 * xi ^ 5 - 5 / 8 * xi ^ 3 + 15 / 16 * xi + 1 / 2
    else 1.
  Definition db_cos (phi t : RR) : RR := cos (2 * (phi - b_omegab b * t - b_barphi b)).
  Definition db_sin (phi t : RR) : RR := sin (2 * (phi - b_omegab b * t - b_barphi b)).
  Definition db_r (R z : RR) : RR := sqrt (R ^ 2 + z ^ 2).
  (** [r <= self._rb] *)
  Definition db_in (R z : RR) : bool := if Rle_dec (db_r R z) (b_rb b) then true else false.

  Definition db_ev : F4 := fun R z phi t =>                          (* 173-177, 202-226 *)
    let r2 := R ^ 2 + z ^ 2 in let r := db_r R z in
    if Req_EM_T r 0 then - 2 * b_af b * db_smooth t * db_cos phi t
    else if db_in R z then
      b_af b * db_smooth t * db_cos phi t * ((r / b_rb b) ^ 3 - 2) * R ^ 2 / r2
    else - b_af b * db_smooth t * db_cos phi t * (b_rb b / r) ^ 3 * 1 / (1 + z ^ 2 / R ^ 2).
  Definition db_Rf : F4 := fun R z phi t =>                          (* 228-231, 263-283 *)
    let r := db_r R z in
    if db_in R z then
      - b_af b * db_smooth t * db_cos phi t
      * ((r / b_rb b) ^ 3 * R * (3 * R ^ 2 + 2 * z ^ 2) - 4 * R * z ^ 2) / r ^ 4
    else - b_af b * db_smooth t * db_cos phi t * (b_rb b / r) ^ 3 * R / r ^ 4
         * (3 * R ^ 2 - 2 * z ^ 2).
  Definition db_pt : F4 := fun R z phi t =>                          (* 285-289, 308-327 *)
    let r2 := R ^ 2 + z ^ 2 in let r := db_r R z in
    if db_in R z then
      2 * b_af b * db_smooth t * db_sin phi t * ((r / b_rb b) ^ 3 - 2) * R ^ 2 / r2
    else - 2 * b_af b * db_smooth t * db_sin phi t * (b_rb b / r) ^ 3 * R ^ 2 / r2.
  Definition db_zf : F4 := fun R z phi t =>                          (* 329-332, 362-382 *)
    let r := db_r R z in
    if db_in R z then
      - b_af b * db_smooth t * db_cos phi t * ((r / b_rb b) ^ 3 + 4) * R ^ 2 * z / r ^ 4
    else - 5 * b_af b * db_smooth t * db_cos phi t * (b_rb b / r) ^ 3 * R ^ 2 * z / r ^ 4.
  Definition db_R2 : F4 := fun R z phi t =>                          (* 384-387, 421-446 *)
    let r := db_r R z in
    if db_in R z then
      b_af b * db_smooth t * db_cos phi t
      * ((r / b_rb b) ^ 3 * ((9 * R ^ 2 + 2 * z ^ 2) / r ^ 4
                             - R ^ 2 / r ^ 6 * (3 * R ^ 2 + 2 * z ^ 2))
         + 4 * z ^ 2 / r ^ 6 * (4 * R ^ 2 - r ^ 2))
    else b_af b * db_smooth t * db_cos phi t * (b_rb b / r) ^ 3 / r ^ 6
         * ((r ^ 2 - 7 * R ^ 2) * (3 * R ^ 2 - 2 * z ^ 2) + 6 * R ^ 2 * r ^ 2).
  Definition db_p2 : F4 := fun R z phi t =>                          (* 448-451, 473-492 *)
    let r := db_r R z in
    if db_in R z then
      - 4 * b_af b * db_smooth t * db_cos phi t * ((r / b_rb b) ^ 3 - 2) * R ^ 2 / r ^ 2
    else 4 * b_af b * db_smooth t * db_cos phi t * (b_rb b / r) ^ 3 * R ^ 2 / r ^ 2.
  Definition db_Rp : F4 := fun R z phi t =>                          (* 494-497, 527-549 *)
    let r := db_r R z in
    if db_in R z then
      - 2 * b_af b * db_smooth t * db_sin phi t
      * ((r / b_rb b) ^ 3 * R * (3 * R ^ 2 + 2 * z ^ 2) - 4 * R * z ^ 2) / r ^ 4
    else - 2 * b_af b * db_smooth t * db_sin phi t * (b_rb b / r) ^ 3 * R / r ^ 4
         * (3 * R ^ 2 - 2 * z ^ 2).
  Definition db_z2 : F4 := fun R z phi t =>                          (* 551-554, 586-608 *)
    let r := db_r R z in
    if db_in R z then
      b_af b * db_smooth t * db_cos phi t * R ^ 2 / r ^ 6
      * ((r / b_rb b) ^ 3 * (r ^ 2 - z ^ 2) + 4 * (r ^ 2 - 4 * z ^ 2))
    else 5 * b_af b * db_smooth t * db_cos phi t * (b_rb b / r) ^ 3 * R ^ 2 / r ^ 6
         * (r ^ 2 - 7 * z ^ 2).
  Definition db_Rz : F4 := fun R z phi t =>                          (* 610-613, 648-672 *)
    let r := db_r R z in
    if db_in R z then
      b_af b * db_smooth t * db_cos phi t * R * z / r ^ 6
      * ((r / b_rb b) ^ 3 * (2 * r ^ 2 - R ^ 2) + 8 * (r ^ 2 - 2 * R ^ 2))
    else 5 * b_af b * db_smooth t * db_cos phi t * (b_rb b / r) ^ 3 * R * z / r ^ 6
         * (2 * r ^ 2 - 7 * R ^ 2).
  Definition db_pz : F4 := fun R z phi t =>                          (* 674-677, 707-728 *)
    let r := db_r R z in
    if db_in R z then
      - 2 * b_af b * db_smooth t * db_sin phi t * ((r / b_rb b) ^ 3 + 4) * R ^ 2 * z / r ^ 4
    else - 10 * b_af b * db_smooth t * db_sin phi t * (b_rb b / r) ^ 3 * R ^ 2 * z / r ^ 4.
  Definition DehnenBar : PotC :=                                     (* 12-764; no _dens *)
    mkPotC true db_ev db_Rf db_zf (Some db_pt) (Some db_R2) (Some db_z2) (Some db_Rz)
      (Some db_p2) (Some db_Rp) (Some db_pz) None.

  (** [_evaluate] of arrays R, z of the same length. 178-200.  The quotient R^2 / r^2 is
      computed only where R <> 0 and is 1 elsewhere (185-187).  In the outer branch z^2 / R^2
      is infinite for R = 0 and the value is 0. *)
  Definition db_ev_elem (R z phi t : RR) : RR :=
    let r2 := R ^ 2 + z ^ 2 in let r := db_r R z in
    (if db_in R z then ((r / b_rb b) ^ 3 - 2) * (if Req_EM_T R 0 then 1 else R ^ 2 / r2)
     else if Req_EM_T R 0 then 0
     else - (b_rb b / r) ^ 3 * 1 / (1 + z ^ 2 / R ^ 2))
    * (b_af b * db_smooth t * db_cos phi t).
  Definition db_ev_array (Rs zs : list RR) (phi t : RR) : list RR :=
    map (fun Rz => db_ev_elem (fst Rz) (snd Rz) phi t) (combine Rs zs).
  (** The scalar value on the axis outside the bar: numpy's division by zero gives infinity
      and the value 0. 218-226. *)
  Definition db_ev_scalar (R z phi t : RR) : RR :=
    if Req_EM_T (db_r R z) 0 then db_ev R z phi t
    else if db_in R z then db_ev R z phi t
    else if Req_EM_T R 0 then 0 else db_ev R z phi t.
End DehnenBar.

(** ** SoftenedNeedleBarPotential *)
(** The attributes.  71-91. *)
Record NBar := mkNBar { n_a : RR; n_b : RR; n_c2 : RR; n_pa : RR; n_omegab : RR }.
Definition nb_make (a b c pa omegab : RR) : NBar := mkNBar a b (c ^ 2) pa omegab.

Section Needle.
  Variable k : NBar.
  Let a := n_a k.
  Let b := n_b k.
  Let c2 := n_c2 k.
  Definition nb_xyz (R phi z t : RR) : RR * RR * RR :=               (* 140-141 *)
    cyl_to_rect R (phi - n_pa k - n_omegab k * t) z.
  Definition nb_TpTm (x y z : RR) : RR * RR :=                       (* 143-148 *)
    let secondpart := y ^ 2 + (b + sqrt (c2 + z ^ 2)) ^ 2 in
    (sqrt ((a + x) ^ 2 + secondpart), sqrt ((a - x) ^ 2 + secondpart)).
  Definition nb_ev : F4 := fun R z phi t =>                          (* 94-97 *)
    let '(x, y, z) := nb_xyz R phi z t in
    let '(Tp, Tm) := nb_TpTm x y z in
    ln ((x - a + Tm) / (x + a + Tp)) / 2 / a.
  Definition nb_xforce (x y z Tp Tm : RR) : RR := - 2 * x / Tp / Tm / (Tp + Tm). (* 216-217 *)
  Definition nb_yforce (x y z Tp Tm : RR) : RR :=                    (* 219-227 *)
    - y / 2 / Tp / Tm * (Tp + Tm - 4 * x ^ 2 / (Tp + Tm))
    / (y ^ 2 + (b + sqrt (z ^ 2 + c2)) ^ 2).
  Definition nb_zforce (x y z Tp Tm : RR) : RR :=                    (* 229-240 *)
    let zc := sqrt (z ^ 2 + c2) in
    - z / 2 / Tp / Tm * (Tp + Tm - 4 * x ^ 2 / (Tp + Tm)) / (y ^ 2 + (b + zc) ^ 2)
    * (b + zc) / zc.
  (** 150-164: the cached rectangular forces.  The cache is keyed by the arguments, so that
      its content is the value computed for them; the model leaves the cache out. *)
  Definition nb_xyzforces (R z phi t : RR) : RR * RR * RR :=
    let '(x, y, z) := nb_xyz R phi z t in
    let '(Tp, Tm) := nb_TpTm x y z in
    let Fx := nb_xforce x y z Tp Tm in let Fy := nb_yforce x y z Tp Tm in
    let Fz := nb_zforce x y z Tp Tm in
    let tp := n_pa k + n_omegab k * t in
    (cos tp * Fx - sin tp * Fy, sin tp * Fx + cos tp * Fy, Fz).
  Definition nb_Rf : F4 := fun R z phi t =>                          (* 99-101 *)
    let '(Fx, Fy, Fz) := nb_xyzforces R z phi t in cos phi * Fx + sin phi * Fy.
  Definition nb_pt : F4 := fun R z phi t =>                          (* 103-107 *)
    let '(Fx, Fy, Fz) := nb_xyzforces R z phi t in R * (- sin phi * Fx + cos phi * Fy).
  Definition nb_zf : F4 := fun R z phi t =>                          (* 109-111 *)
    let '(Fx, Fy, Fz) := nb_xyzforces R z phi t in Fz.
  (** 166-214 [_compute_cylhess]: RR, phiphi, Rphi, Rz, zz, phiz. *)
  Definition nb_cylhess (R z phi t : RR) : RR * RR * RR * RR * RR * RR :=
    let phid := phi - n_pa k - n_omegab k * t in
    let cd := cos phid in let sd := sin phid in
    let x := R * cd in let y := R * sd in
    let zc := sqrt (z ^ 2 + c2) in
    let u := b + zc in
    let s2 := y ^ 2 + u ^ 2 in
    let '(Tp, Tm) := nb_TpTm x y z in
    let G := (a - x) / Tm + (a + x) / Tp in
    let H := (a - x) / Tm ^ 3 + (a + x) / Tp ^ 3 in
    let K := 1 / Tm ^ 3 - 1 / Tp ^ 3 in
    let w := z * u / zc in
    let px := (1 / Tm - 1 / Tp) / 2 / a in
    let py := y * G / 2 / a / s2 in
    let pxx := H / 2 / a in
    let pxy := - y * K / 2 / a in
    let pxz := - w * K / 2 / a in
    let pyy := (G * (s2 - 2 * y ^ 2) / s2 ^ 2 - y ^ 2 * H / s2) / 2 / a in
    let pyz := - y * w * (2 * G / s2 ^ 2 + H / s2) / 2 / a in
    let pzz := ((1 + b * c2 / zc ^ 3) * G / s2 - w ^ 2 * (H / s2 + 2 * G / s2 ^ 2)) / 2 / a in
    (cd ^ 2 * pxx + 2 * cd * sd * pxy + sd ^ 2 * pyy,
     R ^ 2 * (sd ^ 2 * pxx - 2 * sd * cd * pxy + cd ^ 2 * pyy) - R * (cd * px + sd * py),
     R * (- sd * cd * pxx + (cd ^ 2 - sd ^ 2) * pxy + sd * cd * pyy) + (- sd * px + cd * py),
     cd * pxz + sd * pyz,
     pzz,
     R * (- sd * pxz + cd * pyz)).
  Definition nb_R2 : F4 := fun R z phi t =>                          (* 113-115 *)
    let '(rr, pp, rp, rz, zz, pz) := nb_cylhess R z phi t in rr.
  Definition nb_z2 : F4 := fun R z phi t =>                          (* 117-119 *)
    let '(rr, pp, rp, rz, zz, pz) := nb_cylhess R z phi t in zz.
  Definition nb_p2 : F4 := fun R z phi t =>                          (* 121-123 *)
    let '(rr, pp, rp, rz, zz, pz) := nb_cylhess R z phi t in pp.
  Definition nb_Rz : F4 := fun R z phi t =>                          (* 125-127 *)
    let '(rr, pp, rp, rz, zz, pz) := nb_cylhess R z phi t in rz.
  Definition nb_Rp : F4 := fun R z phi t =>                          (* 129-131 *)
    let '(rr, pp, rp, rz, zz, pz) := nb_cylhess R z phi t in rp.
  Definition nb_pz : F4 := fun R z phi t =>                          (* 133-135 *)
    let '(rr, pp, rp, rz, zz, pz) := nb_cylhess R z phi t in pz.
  Definition nb_dens : F4 := fun R z phi t =>                        (* 242-269 *)
    let '(x, y, z) := nb_xyz R phi z t in
    let zc := sqrt (z ^ 2 + c2) in
    let bzc2 := (b + zc) ^ 2 in
    let bigA := b * y ^ 2 + (b + 3 * zc) * bzc2 in
    let bigC := y ^ 2 + bzc2 in
    c2 / 24 / PI / a / bigC ^ 2 / zc ^ 3
    * ((x + a) * (3 * bigA * bigC + (2 * bigA + b * bigC) * (x + a) ^ 2)
         / rpow (bigC + (x + a) ^ 2) (3 / 2)
       - (x - a) * (3 * bigA * bigC + (2 * bigA + b * bigC) * (x - a) ^ 2)
         / rpow (bigC + (x - a) ^ 2) (3 / 2)).
  Definition SoftenedNeedleBar : PotC :=                             (* 13-269 *)
    mkPotC true nb_ev nb_Rf nb_zf (Some nb_pt) (Some nb_R2) (Some nb_z2) (Some nb_Rz)
      (Some nb_p2) (Some nb_Rp) (Some nb_pz) (Some nb_dens).
End Needle.
