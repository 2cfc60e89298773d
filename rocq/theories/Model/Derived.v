(** Quantities derived from forces and second derivatives: galpy/potential/Potential.py (methods and module functions) and the planar versions in
    planarPotential.py.

    Values with use_physical=False.  A NumPy computation that gives nan (square root of a negative number, division by zero) is [NaN]; infinities
    are counted as [NaN]; an exception is [Raises].  The eigenvalue option of ttensor is not modelled. *)
From Coq Require Import Reals List Bool.
From Verif.Model Require Import PotAPI Reduce.
Import ListNotations.
Open Scope R_scope.
Notation RR := RbaseSymbolsImpl.R (only parsing).

Inductive num := Raises | NaN | Val (x : RR).
Definition nsqrt (x : RR) : num := if Rle_dec 0 x then Val (sqrt x) else NaN.
Definition ndiv (x y : RR) : num := if Req_EM_T y 0 then NaN else Val (x / y).
Definition nbind (m : num) (k : RR -> num) : num := match m with Val x => k x | other => other end.
Definition noption {A} (o : option A) (k : A -> num) : num := match o with Some x => k x | None => Raises end.
Notation v3 := (0, 0, 0)%R (only parsing).

(** ** Methods of a three-dimensional potential.  Calling Rforce without a velocity raises when a dissipative force takes part. *)
Definition meth_Rforce (p : Pot) : option F4 := if isDiss p then None else Some (apiRf p v3).
Definition meth_zforce (p : Pot) : option F4 := if isDiss p then None else Some (apizf p v3).
(** vcirc, Potential.py 1212-1236 *)
Definition vcirc (p : Pot) (R phi t : RR) : num :=
  noption (meth_Rforce p) (fun Rf => nsqrt (R * - Rf R 0 phi t)).
(** dvcircdR, 1240-1271 *)
Definition dvcircdR (p : Pot) (R phi t : RR) : num :=
  noption (meth_Rforce p) (fun Rf => noption (apiR2 p) (fun R2 =>
    nbind (vcirc p R phi t) (fun vc => ndiv (/ 2 * (- Rf R 0 phi t + R * R2 R 0 phi t)) vc))).
(** omegac, 1275-1296; phi keeps its default *)
Definition omegac (p : Pot) (R t : RR) : num :=
  noption (meth_Rforce p) (fun Rf => nbind (ndiv (- Rf R 0 0 t) R) nsqrt).
(** epifreq, 1300-1324 *)
Definition epifreq (p : Pot) (R t : RR) : num :=
  noption (apiR2 p) (fun R2 => noption (meth_Rforce p) (fun Rf =>
    nbind (ndiv 3 R) (fun c => nsqrt (R2 R 0 0 t - c * Rf R 0 0 t)))).
(** verticalfreq, 1328-1349 *)
Definition verticalfreq (p : Pot) (R t : RR) : num := noption (apiz2 p) (fun z2 => nsqrt (z2 R 0 0 t)).
(** Force.rforce, Force.py 322-351 *)
Definition rforce (p : Pot) (R z phi t : RR) : num :=
  noption (meth_Rforce p) (fun Rf => noption (meth_zforce p) (fun zf =>
    let r := sqrt (R ^ 2 + z ^ 2) in
    nbind (ndiv (Rf R z phi t * R) r) (fun a => nbind (ndiv (zf R z phi t * z) r) (fun b => Val (a + b))))).
(** r2deriv, Potential.py 541-573 *)
Definition r2deriv (p : Pot) (R z phi t : RR) : num :=
  noption (apiR2 p) (fun R2 => noption (apiRz p) (fun Rz => noption (apiz2 p) (fun z2 =>
    let r := sqrt (R ^ 2 + z ^ 2) in
    if Req_EM_T r 0 then NaN else
    Val ((R2 R z phi t * R / r + Rz R z phi t * z / r) * R / r + (Rz R z phi t * R / r + z2 R z phi t * z / r) * z / r)))).
(** rtide, 1727-1769: the cube root of a negative number is nan *)
Definition rtide (p : Pot) (R z phi t : RR) (M : option RR) : num :=
  match M with
  | None => Raises
  | Some M =>
      nbind (rforce p R z phi t) (fun f => nbind (ndiv (- f) (sqrt (R ^ 2 + z ^ 2))) (fun omegac2 =>
        nbind (r2deriv p R z phi t) (fun d2phidr2 =>
          nbind (ndiv M (omegac2 - d2phidr2)) (fun q =>
            if Rlt_dec 0 q then Val (Rpower q (1 / 3)) else if Req_EM_T q 0 then Val 0 else NaN))))
  end.
(** flattening, 1498-1528 *)
Definition flattening (p : Pot) (R z t : RR) : num :=
  noption (meth_Rforce p) (fun Rf => noption (meth_zforce p) (fun zf =>
    nbind (ndiv z R) (fun s => nbind (ndiv (s * Rf R z 0 t) (zf R z 0 t)) (fun q => nsqrt (Rabs q))))).
(** vterm, 1531-1564; [l] in degrees when [deg] *)
Definition vterm (p : Pot) (l t : RR) (deg : bool) : num :=
  let sinl := if deg then sin (l / 180 * PI) else sin l in
  nbind (omegac p (Rabs sinl) t) (fun o1 => nbind (omegac p 1 t) (fun o2 => Val (sinl * (o1 - o2)))).

(** ttensor, 1773-1853 and the identical module function 4285-4368 *)
Inductive tens := TRaises | TVal (T : list (list RR)).
Definition ttensor (p : Pot) (R z phi t : RR) : tens :=
  if isNonAxi p then TRaises else
  match meth_Rforce p, (if isDiss p then None else apiPt p v3), apiR2 p, apiz2 p, apip2 p, apiRz p, apiRp p with
  | Some fRf, Some fpt, Some fR2, Some fz2, Some fp2, Some fRz, Some fRp =>
    let Rderiv := - fRf R z phi t in
    let phideriv := - fpt R z phi t in
    let R2deriv := fR2 R z phi t in
    let z2deriv := fz2 R z phi t in
    let phi2deriv := fp2 R z phi t in
    let Rzderiv := fRz R z phi t in
    let Rphideriv := fRp R z phi t in
    let zphideriv := 0 in
    let cosphi := cos phi in
    let sinphi := sin phi in
    let cos2phi := cosphi ^ 2 in
    let sin2phi := sinphi ^ 2 in
    let R2 := R ^ 2 in
    let txx := R2deriv * cos2phi - Rphideriv * 2 * cosphi * sinphi / R + Rderiv * sin2phi / R + phi2deriv * sin2phi / R2
               + phideriv * 2 * cosphi * sinphi / R2 in
    let tyx := R2deriv * sinphi * cosphi + Rphideriv * (cos2phi - sin2phi) / R - Rderiv * sinphi * cosphi / R
               - phi2deriv * sinphi * cosphi / R2 + phideriv * (sin2phi - cos2phi) / R2 in
    let tzx := Rzderiv * cosphi - zphideriv * sinphi / R in
    let tyy := R2deriv * sin2phi + Rphideriv * 2 * cosphi * sinphi / R + Rderiv * cos2phi / R + phi2deriv * cos2phi / R2
               - phideriv * 2 * sinphi * cosphi / R2 in
    let txy := tyx in
    let tzy := Rzderiv * sinphi + zphideriv * cosphi / R in
    let txz := tzx in
    let tyz := tzy in
    let tzz := z2deriv in
    TVal (map (map Ropp) [[txx; txy; txz]; [tyx; tyy; tyz]; [tzx; tzy; tzz]])
  | _, _, _, _, _, _, _ => TRaises
  end.

(** ** Module functions, called with a three-dimensional potential.  They first try the planar evaluators, which refuse it, then reduce it to the plane. *)
Definition plNonAxi (p : Planar) : bool :=
  let fix go p := match p with PNat _ c => pl_nonaxi c | PFromRZ _ _ => false | PFromFull _ _ => true | PFromDiss _ p => isNonAxi p
                  | PComp _ ps => existsb go ps end in go p.
(** evaluateplanarRforces, planarPotential.py 1038-1094, without velocity; evaluateplanarR2derivs 1163-1200 *)
Definition evaluateplanarRforces (p : Planar) (R : RR) (phi : option RR) (t : RR) : option RR :=
  match phi with
  | None => if plNonAxi p || plDiss p then None else option_map (fun f => f R 0 t) (plRf p (0, 0))
  | Some a => if plDiss p then None else option_map (fun f => f R a t) (plRf p (0, 0))
  end.
Definition evaluateplanarR2derivs (p : Planar) (R : RR) (phi : option RR) (t : RR) : option RR :=
  match phi with
  | None => if plNonAxi p then None else option_map (fun f => f R 0 t) (plR2 p)
  | Some a => option_map (fun f => f R a t) (plR2 p)
  end.
(** RZToplanarPotential, planarPotential.py 654-700, of a three-dimensional potential *)
Definition RZToplanar (p : Pot) : option Planar :=
  if isDiss p then None else
  match p with
  | Comp _ ps => if forallb (fun q => negb (isNonAxi q)) ps then Some (PComp 1 (map (PFromRZ 1) ps)) else None
  | _ => if isNonAxi p then None else Some (PFromRZ 1 p)
  end.
(** vcirc, 3445-3482 *)
Definition fun_vcirc (p : Pot) (R : RR) (phi : option RR) (t : RR) : num :=
  match toPlanar (O3 p) with
  | ROk pl => noption (evaluateplanarRforces pl R phi t) (fun f => nsqrt (- R * f))
  | RErr _ => Raises
  end.
(** dvcircdR, 3488-3541 *)
Definition fun_dvcircdR (p : Pot) (R : RR) (phi : option RR) (t : RR) : num :=
  nbind (fun_vcirc p R phi t) (fun tvc =>
    noption (RZToplanar p) (fun pl => noption (evaluateplanarRforces pl R phi t) (fun f => noption (evaluateplanarR2derivs pl R phi t) (fun f2 =>
      ndiv (/ 2 * (- f + R * f2)) tvc)))).
(** omegac, 3408-3439 *)
Definition fun_omegac (p : Pot) (R t : RR) : num :=
  noption (RZToplanar p) (fun pl => noption (evaluateplanarRforces pl R None t) (fun f => nbind (ndiv (- f) R) nsqrt)).
