(** Potentials that only exist in the plane or in one dimension: galpy/potential/EllipticalDiskPotential.py, CosmphiDiskPotential.py (with
    LopsidedDiskPotential), SteadyLogSpiralPotential.py, TransientLogSpiralPotential.py, HenonHeilesPotential.py, IsothermalDiskPotential.py, KGPotential.py.
    Parameters are those after parsing of units (conversion.parse_length and the like); scalars (the arrays of the code go element by element). *)
From Coq Require Import Reals ZArith Bool.
From Verif.Lib Require Import RealAux Atan2.
From Verif.Model Require Import Reduce.
Open Scope R_scope.
Notation RR := RbaseSymbolsImpl.R (only parsing).

(** The growth factor repeated in every method: EllipticalDiskPotential.py 105-117, SteadyLogSpiralPotential.py 99-111.  [Some (tform, tsteady)] are the attributes. *)
Definition growth (w : option (RR * RR)) (t : RR) : RR :=
  match w with
  | None => 1
  | Some (tform, tsteady) =>
    if Rlt_dec t tform then 0
    else if Rlt_dec t tsteady then
      let xi := 2 * (t - tform) / (tsteady - tform) - 1 in 3 / 16 * xi ^ 5 - 5 / 8 * xi ^ 3 + 15 / 16 * xi + / 2
    else 1
  end.
(** The attributes from the arguments, in units of [ts]: EllipticalDiskPotential.py 91-101 ([ts] = 1), SteadyLogSpiralPotential.py 84-94.  A tsteady without a
    tform is a TypeError (None + number): the outer None. *)
Definition growth_args (ts : RR) (tform tsteady : option RR) : option (option (RR * RR)) :=
  match tform, tsteady with
  | None, None => Some None
  | None, Some _ => None
  | Some f, None => Some (Some (f * ts, f * ts + 2 * ts))
  | Some f, Some s => Some (Some (f * ts, f * ts + s * ts))
  end.

(** EllipticalDiskPotential.py 103-236 *)
Section Elliptical.
  Variables (phib p twophio : RR) (w : option (RR * RR)).
  Definition ED_ev : F3 := fun R phi t => growth w t * twophio / 2 * rpow R p * cos (2 * (phi - phib)).                          (* 118-124 *)
  Definition ED_Rf : F3 := fun R phi t => - growth w t * p * twophio / 2 * rpow R (p - 1) * cos (2 * (phi - phib)).              (* 141-148 *)
  Definition ED_pt : F3 := fun R phi t => growth w t * twophio * rpow R p * sin (2 * (phi - phib)).                              (* 165 *)
  Definition ED_R2 : F3 := fun R phi t => growth w t * p * (p - 1) / 2 * twophio * rpow R (p - 2) * cos (2 * (phi - phib)).      (* 182-190 *)
  Definition ED_p2 : F3 := fun R phi t => - 2 * growth w t * twophio * rpow R p * cos (2 * (phi - phib)).                        (* 207-213 *)
  Definition ED_Rp : F3 := fun R phi t => - growth w t * p * twophio * rpow R (p - 1) * sin (2 * (phi - phib)).                  (* 230-236 *)
  Definition ED_class : PlC := mkPlC true ED_ev ED_Rf (Some ED_pt) (Some ED_R2) (Some ED_p2) (Some ED_Rp).
End Elliptical.
(** Strength and angle: either (twophio, phib) or the pair (cp, sp) that replaces them.  EllipticalDiskPotential.py 84-89 *)
Definition ED_strength (phib twophio : RR) (cpsp : option (RR * RR)) : RR * RR :=
  match cpsp with None => (phib, twophio) | Some (cp, sp) => (atan2 sp cp / 2, sqrt (cp * cp + sp * sp)) end.
(** __init__ 72-101 *)
Definition EllipticalDisk (amp phib p twophio r1 : RR) (tform tsteady : option RR) (cpsp : option (RR * RR)) : option Planar :=
  let (phib, twophio) := ED_strength phib twophio cpsp in
  option_map (fun w => PNat (amp / rpow r1 p) (ED_class phib p twophio w)) (growth_args 1 tform tsteady).

(** CosmphiDiskPotential.py 108-209.  Attributes: [m], [mphio], [mphib], [p], [rb], [r1p]; _rbp is rb**p and _rb2p its square (1 and never used without rb: 96-103). *)
Section Cosmphi.
  Variables (m mphio mphib p rb r1p : RR).
  Definition CD_rbp : RR := rpow rb p.
  Definition CD_rb2p : RR := CD_rbp ^ 2.
  Definition CD_ev : F3 := fun R phi t =>                                                                                         (* 108-123 *)
    if Rlt_dec R rb then mphio / m * cos (m * phi - mphib) * CD_rbp * (2 * r1p - CD_rbp / rpow R p) else mphio / m * rpow R p * cos (m * phi - mphib).
  Definition CD_Rf : F3 := fun R phi t =>                                                                                         (* 125-142 *)
    if Rlt_dec R rb then - p * mphio / m * CD_rb2p / rpow R (p + 1) * cos (m * phi - mphib) else - p * mphio / m * rpow R (p - 1) * cos (m * phi - mphib).
  Definition CD_pt : F3 := fun R phi t =>                                                                                         (* 144-153 *)
    if Rlt_dec R rb then mphio * sin (m * phi - mphib) * CD_rbp * (2 * r1p - CD_rbp / rpow R p) else mphio * rpow R p * sin (m * phi - mphib).
  Definition CD_R2 : F3 := fun R phi t =>                                                                                         (* 155-174 *)
    if Rlt_dec R rb then - p * (p + 1) * mphio / m * CD_rb2p / rpow R (p + 2) * cos (m * phi - mphib) else p * (p - 1) / m * mphio * rpow R (p - 2) * cos (m * phi - mphib).
  Definition CD_p2 : F3 := fun R phi t =>                                                                                         (* 176-191 *)
    if Rlt_dec R rb then - m * mphio * cos (m * phi - mphib) * CD_rbp * (2 * r1p - CD_rbp / rpow R p) else - m * mphio * rpow R p * cos (m * phi - mphib).
  Definition CD_Rp : F3 := fun R phi t =>                                                                                         (* 193-209 *)
    if Rlt_dec R rb then - p * mphio / m * CD_rb2p / rpow R (p + 1) * sin (m * phi - mphib) else - p * mphio * rpow R (p - 1) * sin (m * phi - mphib).
  Definition CD_class : PlC := mkPlC true CD_ev CD_Rf (Some CD_pt) (Some CD_R2) (Some CD_p2) (Some CD_Rp).
End Cosmphi.
(** Strength and phase (_mphio, _phib): 87-94.  numpy.arctan(sp / cp), for cp <> 0 *)
Definition CD_strength (m : Z) (phib phio : RR) (cpsp : option (RR * RR)) : RR * RR :=
  match cpsp with
  | None => (phio * IZR m, phib)
  | Some (cp, sp) => (sqrt (cp * cp + sp * sp), if ((m <? 2)%Z && (if Rlt_dec cp 0 then true else false))%bool then PI + atan (sp / cp) / IZR m else atan (sp / cp) / IZR m)
  end.
(** __init__ 75-106; rb = None is 0 *)
Definition CosmphiDisk (amp phib p phio : RR) (m : Z) (r1 : RR) (rb : option RR) (cpsp : option (RR * RR)) : Planar :=
  let (mphio, phib) := CD_strength m phib phio cpsp in
  PNat (amp / rpow r1 p) (CD_class (IZR m) mphio (IZR m * phib) p (match rb with Some rb => rb | None => 0 end) (rpow r1 p)).
(** LopsidedDiskPotential 222-238: r1 is not handed on *)
Definition LopsidedDisk (amp phib p phio r1 : RR) (cpsp : option (RR * RR)) : Planar := CosmphiDisk amp phib p phio 1 1 None cpsp.

(** SteadyLogSpiralPotential.py 98-240 *)
Section Steady.
  Variables (omegas A alpha m gamma : RR) (w : option (RR * RR)).
  Definition SLS_chi (R phi t : RR) : RR := alpha * ln R - m * (phi - omegas * t - gamma).
  Definition SLS_ev : F3 := fun R phi t => growth w t * A / alpha * cos (SLS_chi R phi t).                                        (* 112-120 *)
  Definition SLS_Rf : F3 := fun R phi t => growth w t * A / R * sin (SLS_chi R phi t).                                            (* 136-144 *)
  Definition SLS_pt : F3 := fun R phi t => - growth w t * A / alpha * m * sin (SLS_chi R phi t).                                  (* 160-169 *)
  Definition SLS_R2 : F3 := fun R phi t => growth w t * A / R ^ 2 * (sin (SLS_chi R phi t) - alpha * cos (SLS_chi R phi t)).      (* 185-190 *)
  Definition SLS_p2 : F3 := fun R phi t => - growth w t * A / alpha * m ^ 2 * cos (SLS_chi R phi t).                              (* 206-215 *)
  Definition SLS_Rp : F3 := fun R phi t => growth w t * A * m / R * cos (SLS_chi R phi t).                                        (* 231-240 *)
  Definition SLS_class : PlC := mkPlC true SLS_ev SLS_Rf (Some SLS_pt) (Some SLS_R2) (Some SLS_p2) (Some SLS_Rp).
End Steady.
(** The winding from the pitch angle p, when given: SteadyLogSpiralPotential.py 79-82, TransientLogSpiralPotential.py 85-88 *)
Definition winding (m alpha : RR) (p : option RR) : RR := match p with Some p => m / tan p | None => alpha end.
(** __init__ 70-94 *)
Definition SteadyLogSpiral (amp omegas A alpha m gamma : RR) (p tform tsteady : option RR) : option Planar :=
  let ts := if Req_EM_T omegas 0 then 1 else 2 * PI / omegas in
  option_map (fun w => PNat amp (SLS_class omegas A (winding m alpha p) m gamma w)) (growth_args ts tform tsteady).

(** TransientLogSpiralPotential.py 92-159 *)
Section Transient.
  Variables (omegas A alpha m gamma sigma2 to : RR).
  Notation chi := (SLS_chi omegas alpha m gamma).
  Definition TLS_amp (t : RR) : RR := exp (- (t - to) ^ 2 / 2 / sigma2).
  Definition TLS_ev : F3 := fun R phi t => A * TLS_amp t / alpha * cos (chi R phi t).                                             (* 93-101 *)
  Definition TLS_Rf : F3 := fun R phi t => A * TLS_amp t / R * sin (chi R phi t).                                                 (* 104-112 *)
  Definition TLS_pt : F3 := fun R phi t => - A * TLS_amp t / alpha * m * sin (chi R phi t).                                       (* 115-124 *)
  Definition TLS_R2 : F3 := fun R phi t => A * TLS_amp t / R ^ 2 * (sin (chi R phi t) - alpha * cos (chi R phi t)).               (* 127-135 *)
  Definition TLS_p2 : F3 := fun R phi t => - A * TLS_amp t / alpha * m ^ 2 * cos (chi R phi t).                                   (* 138-147 *)
  Definition TLS_Rp : F3 := fun R phi t => A * TLS_amp t * m / R * cos (chi R phi t).                                             (* 150-159 *)
  Definition TLS_class : PlC := mkPlC true TLS_ev TLS_Rf (Some TLS_pt) (Some TLS_R2) (Some TLS_p2) (Some TLS_Rp).
End Transient.
Definition TransientLogSpiral (amp omegas A alpha m gamma : RR) (p : option RR) (sigma to : RR) : Planar :=                       (* 72-88 *)
  PNat amp (TLS_class omegas A (winding m alpha p) m gamma (sigma ^ 2) to).

(** HenonHeilesPotential.py 39-55 *)
Definition HH_ev : F3 := fun R phi t => / 2 * R * R * (1 + 2 / 3 * R * sin (3 * phi)).
Definition HH_Rf : F3 := fun R phi t => - R * (1 + R * sin (3 * phi)).
Definition HH_pt : F3 := fun R phi t => - R ^ 3 * cos (3 * phi).
Definition HH_R2 : F3 := fun R phi t => 1 + 2 * R * sin (3 * phi).
Definition HH_p2 : F3 := fun R phi t => - 3 * R ^ 3 * sin (3 * phi).
Definition HH_Rp : F3 := fun R phi t => 3 * R ^ 2 * cos (3 * phi).
Definition HenonHeiles (amp : RR) : Planar := PNat amp (mkPlC true HH_ev HH_Rf (Some HH_pt) (Some HH_R2) (Some HH_p2) (Some HH_Rp)).

(** IsothermalDiskPotential.py 42-62; the amplitude goes into the scale height and is then set to one *)
Definition ID_ev (sigma H : RR) : F2 := fun x t => 2 * sigma ^ 2 * ln (cosh (/ 2 * x / H)).
Definition ID_f (sigma H : RR) : F2 := fun x t => - sigma ^ 2 * tanh (/ 2 * x / H) / H.
Definition ID_f2 (sigma H : RR) : F2 := fun x t => sigma ^ 2 / (2 * H ^ 2) * (1 - tanh (/ 2 * x / H) ^ 2).
Definition IsothermalDisk (amp sigma : RR) : Linear :=
  let H := sigma / sqrt (8 * PI * amp) in LNat 1 (mkLiC (ID_ev sigma H) (ID_f sigma H) (Some (ID_f2 sigma H))).
(** KGPotential.py 44-79 *)
Definition KG_ev (K F D : RR) : F2 := fun x t => K * (sqrt (x ^ 2 + D ^ 2) - D) + F * x ^ 2.
Definition KG_f (K F D : RR) : F2 := fun x t => - x * (K / sqrt (x ^ 2 + D ^ 2) + 2 * F).
Definition KG_f2 (K F D : RR) : F2 := fun x t => K * D ^ 2 / rpow (x ^ 2 + D ^ 2) (3 / 2) + 2 * F.
Definition KG (amp K F D : RR) : Linear := LNat amp (mkLiC (KG_ev K F D) (KG_f K F D) (Some (KG_f2 K F D))).
