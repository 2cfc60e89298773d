(** Wrapper potentials: WrapperPotential.py and the wrapper classes, for 3D wrapped objects.
    A wrapper is built from any object [p] of the public layer (single or composite) and is
    itself a class in the sense of PotAPI.  [None] is a constructor that raises. *)
From Coq Require Import Reals List Bool.
From Verif.Lib Require Import RealAux Atan2 Vec3.
From Verif.Model Require Import PotAPI Coords.
Open Scope R_scope.
Notation RR := RbaseSymbolsImpl.R (only parsing).

Definition novel : RR * RR * RR := (0, 0, 0).

(** WrapperPotential.__init__ (90-146) refuses dissipative forces (120-133); __getattr__
    (184-202) sends every method to [_wrap] with the same method of the wrapped object
    (204-252).  [g] is what [_wrap] does with that method.  Unit-compatibility checks are in
    UnitCompat.v.  A wrapped method that raises makes the wrapper's method raise. *)
Definition wrapAll (g : F4 -> F4) (p : Pot) : option PotC :=
  if isDiss p then None else
  match apiEv p with
  | None => None
  | Some ev =>
      Some (mkPotC (isNonAxi p) (g ev) (g (apiRf p novel)) (g (apizf p novel))
        (option_map g (apiPt p novel)) (option_map g (apiR2 p)) (option_map g (apiz2 p))
        (option_map g (apiRz p)) (option_map g (apip2 p)) (option_map g (apiRp p))
        (option_map g (apipz p)) (option_map g (apiDens p)))
  end.

(** TimeDependentAmplitudeWrapperPotential.py 78-81; [A] is the user's function. *)
Definition amplitude (A : RR -> RR) (f : F4) : F4 := fun R z phi t => A t * f R z phi t.
Definition TimeDependentAmplitude (A : RR -> RR) : Pot -> option PotC := wrapAll (amplitude A).

(** GaussianAmplitudeWrapperPotential.py 46-60 *)
Definition gaussAmp (to_ sigma : RR) (t : RR) : RR := exp (- (1 / 2) * (t - to_) ^ 2 / sigma ^ 2).
Definition GaussianAmplitude (to_ sigma : RR) : Pot -> option PotC := wrapAll (amplitude (gaussAmp to_ sigma)).

(** DehnenSmoothWrapperPotential.py 57-65: the time at which the amplitude is steady. *)
Definition dehnen_tsteady (tform : RR) (tsteady : option RR) : RR :=
  match tsteady with None => tform / 2 | Some s => tform + s end.
(** 74-85 [_smooth] (scalar branch); [tend] is the attribute [_tsteady]. *)
Definition dehnen_smooth (tform tend : RR) (grow : bool) (t : RR) : RR :=
  let s := if Rlt_dec t tform then 0
           else if Rlt_dec t tend then
             let xi := 2 * (t - tform) / (tend - tform) - 1 in
             3 / 16 * xi ^ 5 - 5 / 8 * xi ^ 3 + 15 / 16 * xi + 1 / 2
           else 1 in
  if grow then s else 1 - s.
Definition DehnenSmooth (tform : RR) (tsteady : option RR) (grow : bool) : Pot -> option PotC :=
  wrapAll (amplitude (dehnen_smooth tform (dehnen_tsteady tform tsteady) grow)).

(** SolidBodyRotationWrapperPotential.py 59-63 *)
Definition solid_phi (omega pa : RR) (phi t : RR) : RR := phi - omega * t - pa.
Definition SolidBodyRotation (omega pa : RR) : Pot -> option PotC :=
  wrapAll (fun f R z phi t => f R z (solid_phi omega pa phi t) t).

(** CorotatingRotationWrapperPotential.py 71-166; [R ** x] with R > 0. *)
Section Corot.
  Variables (vpo beta to_ pa : RR).
  Definition co_phi (R phi t : RR) : RR := phi - vpo * rpow R (beta - 1) * (t - to_) - pa.
  Definition co_f (f : F4) : F4 := fun R z phi t => f R z (co_phi R phi t) t.
  (** 83-98 *)
  Definition co_Rf (Rf Pt : F4) : F4 := fun R z phi t =>
    co_f Rf R z phi t - co_f Pt R z phi t * (vpo * (beta - 1) * rpow R (beta - 2) * (t - to_)).
  (** 100-129 *)
  Definition co_R2 (R2 Rp p2 Pt : F4) : F4 := fun R z phi t =>
    let phiRderiv := - vpo * (beta - 1) * rpow R (beta - 2) * (t - to_) in
    co_f R2 R z phi t + 2 * co_f Rp R z phi t * phiRderiv + co_f p2 R z phi t * phiRderiv ^ 2
    + co_f Pt R z phi t * (vpo * (beta - 1) * (beta - 2) * rpow R (beta - 3) * (t - to_)).
  (** 131-150 *)
  Definition co_Rz (Rz pz : F4) : F4 := fun R z phi t =>
    co_f Rz R z phi t - co_f pz R z phi t * (vpo * (beta - 1) * rpow R (beta - 2) * (t - to_)).
  (** 152-166 *)
  Definition co_Rp (Rp p2 : F4) : F4 := fun R z phi t =>
    co_f Rp R z phi t - co_f p2 R z phi t * vpo * (beta - 1) * rpow R (beta - 2) * (t - to_).

  Definition lift2o (h : F4 -> F4 -> F4) (a b : option F4) : option F4 :=
    match a, b with Some x, Some y => Some (h x y) | _, _ => None end.
  (** If phitorque of the wrapped object raises, so does the radial force; such objects are
      not modelled ([None]). *)
  Definition CorotatingRotation (p : Pot) : option PotC :=
    if isDiss p then None else
    match apiEv p, apiPt p novel with
    | Some ev, Some Pt =>
        Some (mkPotC (isNonAxi p) (co_f ev) (co_Rf (apiRf p novel) Pt) (co_f (apizf p novel))
          (Some (co_f Pt))
          (match apiR2 p, apiRp p, apip2 p with
           | Some a, Some b, Some c => Some (co_R2 a b c Pt) | _, _, _ => None end)
          (option_map co_f (apiz2 p))
          (lift2o co_Rz (apiRz p) (apipz p)) (option_map co_f (apip2 p))
          (lift2o co_Rp (apiRp p) (apip2 p)) (option_map co_f (apipz p)) (option_map co_f (apiDens p)))
    | _, _ => None
    end.
End Corot.

(** KuzminLikeWrapperPotential.py 65-157.  [fac] is the factor by which the decorated
    function [evaluateR2derivs] multiplies its result: 1 unless the wrapped object has its
    physical output switched on (lines 139, 146, 153 do not pass use_physical=False). *)
Section KuzminLike.
  Variables (a b fac : RR).
  Definition kl_b2 : RR := b ^ 2.
  Definition kl_xi (R z : RR) : RR := sqrt (R ^ 2 + (a + sqrt (z ^ 2 + kl_b2)) ^ 2).          (* 85-86 *)
  Definition kl_dxidR (R z : RR) : RR := R / kl_xi R z.                                        (* 88-89 *)
  Definition kl_dxidz (R z : RR) : RR :=
    (a + sqrt (z ^ 2 + kl_b2)) * z / kl_xi R z / sqrt (z ^ 2 + kl_b2).                         (* 91-97 *)
  Definition kl_d2xidR2 (R z : RR) : RR := (a + sqrt (z ^ 2 + kl_b2)) ^ 2 / kl_xi R z ^ 3.     (* 99-102 *)
  Definition kl_d2xidz2 (R z : RR) : RR :=                                                     (* 104-114 *)
    (a ^ 3 * kl_b2 + 3 * a ^ 2 * kl_b2 * sqrt (kl_b2 + z ^ 2)
     + a * kl_b2 * (3 * kl_b2 + R ^ 2 + 3 * z ^ 2)
     + (kl_b2 + R ^ 2) * rpow (kl_b2 + z ^ 2) (3 / 2))
    / rpow (kl_b2 + z ^ 2) (3 / 2) / kl_xi R z ^ 3.
  Definition kl_d2xidRdz (R z : RR) : RR :=                                                    (* 116-120 *)
    - (R * z * (a + sqrt (kl_b2 + z ^ 2)))
    / (sqrt (kl_b2 + z ^ 2) * rpow ((a + sqrt (kl_b2 + z ^ 2)) ^ 2 + R ^ 2) (3 / 2)).
  Definition KuzminLike (p : Pot) : option PotC :=
    if isDiss p then None else
    if isNonAxi p then None else
    match apiEv p with
    | None => None
    | Some ev =>
        let F : F4 := apiRf p novel in
        let at_ (f : F4) : F4 := fun R z phi t => f (kl_xi R z) 0 phi t in
        let second (d2 dd : RR -> RR -> RR) (R2 : F4) : F4 := fun R z phi t =>
          fac * at_ R2 R z phi t * dd R z - at_ F R z phi t * d2 R z in
        Some (mkPotC false (at_ ev)
          (fun R z phi t => at_ F R z phi t * kl_dxidR R z)
          (fun R z phi t => at_ F R z phi t * kl_dxidz R z)
          (Some zero4)
          (option_map (second kl_d2xidR2 (fun R z => kl_dxidR R z ^ 2)) (apiR2 p))
          (option_map (second kl_d2xidz2 (fun R z => kl_dxidz R z ^ 2)) (apiR2 p))
          (option_map (second kl_d2xidRdz (fun R z => kl_dxidR R z * kl_dxidz R z)) (apiR2 p))
          None None None None)
    end.
End KuzminLike.

(** CylindricallySeparablePotentialWrapper.py 71-192.  The wrapped object is evaluated with
    the default t = 0 (and phi = None, so that a non-axisymmetric object raises). *)
Section CylSep.
  Variable Rp : RR.
  Definition CylSeparable (p : Pot) : option PotC :=
    if isDiss p then None else
    if isNonAxi p then None else
    match apiEv p with
    | None => None
    | Some ev =>
        Some (mkPotC false
          (fun R z _ _ => ev R 0 0 0 + ev Rp z 0 0 - ev Rp 0 0 0)
          (fun R z _ _ => apiRf p novel R 0 0 0)
          (fun R z _ _ => apizf p novel Rp z 0 0)
          None
          (option_map (fun f (R z phi t : RR) => f R 0 0 0 : RR) (apiR2 p))
          (option_map (fun f (R z phi t : RR) => f Rp z 0 0 : RR) (apiz2 p))
          (Some zero4) None None None None)
    end.
End CylSep.

(** Cartesian second derivatives and the passage to cylindrical components shared by
    RotateAndTiltWrapperPotential.py 176-249 and MovingObjectPotential.py 152-197. *)

(** RotateAndTiltWrapperPotential.py 164-331.  [rot] and [inv_rot] are the attributes [_rot]
    and [_inv_rot] = numpy.linalg.inv(_rot), [offset] is [_offset].  The shortcut [_norot] for
    the identity matrix and the infinite-radius case are not separate in the model. *)
Section RotateTilt.
  Variables (rot inv_rot : M3) (offset : option V3).
  (** 166-173: cylindrical coordinates in the frame of the wrapped object *)
  Definition rt_xyz (R z phi : RR) : V3 :=
    let v := mulMV rot (mkV (R * cos phi) (R * sin phi) z) in
    match offset with None => v | Some o => vadd v o end.
  Definition rt_R (v : V3) : RR := sqrt (vx v ^ 2 + vy v ^ 2).
  Definition rt_phi (v : V3) : RR := atan2 (vy v) (vx v).
  Definition rt_at (f : F4) (R z phi t : RR) : RR :=
    let v := rt_xyz R z phi in f (rt_R v) (vz v) (rt_phi v) t.
  (** 190-205 [_force_xyz] *)
  Definition rt_force (Rf zf Pt : F4) (R z phi t : RR) : V3 :=
    let v := rt_xyz R z phi in
    let Rp := rt_R v in let phip := rt_phi v in
    let Rforcep := rt_at Rf R z phi t in
    let phitorquep := rt_at Pt R z phi t in
    let zforcep := rt_at zf R z phi t in
    let xforcep := cos phip * Rforcep - sin phip * phitorquep / Rp in
    let yforcep := sin phip * Rforcep + cos phip * phitorquep / Rp in
    mulMV inv_rot (mkV xforcep yforcep zforcep).
  (** 251-319 [_2ndderiv_xyz] *)
  Definition rt_hess (Rf Pt R2 p2 z2 Rz Rph pz : F4) (R z phi t : RR) : M3 :=
    let v := rt_xyz R z phi in
    let Rp := rt_R v in
    let cp := cos (rt_phi v) in let sp := sin (rt_phi v) in
    let cp2 := cp ^ 2 in let sp2 := sp ^ 2 in let cpsp := cp * sp in
    let Rp2 := Rp * Rp in
    let g f := rt_at f R z phi t in
    let x2 := g R2 * cp2 - 2 * g Rph * cpsp / Rp + g p2 * sp2 / Rp2 - g Rf * sp2 / Rp - 2 * g Pt * cpsp / Rp2 in
    let y2 := g R2 * sp2 + 2 * g Rph * cpsp / Rp + g p2 * cp2 / Rp2 - g Rf * cp2 / Rp + 2 * g Pt * cpsp / Rp2 in
    let xy := g R2 * cpsp + g Rph * (cp2 - sp2) / Rp - g p2 * cpsp / Rp2 + g Rf * cpsp / Rp + g Pt * (cp2 - sp2) / Rp2 in
    let xz := g Rz * cp - g pz * sp / Rp in
    let yz := g Rz * sp + g pz * cp / Rp in
    mulMM inv_rot (mulMM (mkM (mkV x2 xy xz) (mkV xy y2 yz) (mkV xz yz (g z2))) (transp inv_rot)).
  Definition RotateAndTilt (p : Pot) : option PotC :=
    if isDiss p then None else
    match apiEv p, apiPt p novel, apiR2 p, apip2 p, apiz2 p, apiRz p, apiRp p, apipz p with
    | Some ev, Some Pt, Some R2, Some p2, Some z2, Some Rz, Some Rph, Some pz =>
        let Rf := apiRf p novel in let zf := apizf p novel in
        let F := rt_force Rf zf Pt in let H := rt_hess Rf Pt R2 p2 z2 Rz Rph pz in
        Some (mkPotC true (rt_at ev)
          (fun R z phi t => cos phi * vx (F R z phi t) + sin phi * vy (F R z phi t))           (* 176-179 *)
          (fun R z phi t => vz (F R z phi t))                                                  (* 186-188 *)
          (Some (fun R z phi t => R * (- sin phi * vx (F R z phi t) + cos phi * vy (F R z phi t))))  (* 181-184 *)
          (Some (fun R z phi t => let h := H R z phi t in                                      (* 207-214 *)
             cos phi ^ 2 * vx (r0 h) + sin phi ^ 2 * vy (r1 h) + 2 * cos phi * sin phi * vy (r0 h)))
          (Some (fun R z phi t => vz (r2 (H R z phi t))))                                      (* 221-223 *)
          (Some (fun R z phi t => let h := H R z phi t in                                      (* 216-219 *)
             cos phi * vz (r0 h) + sin phi * vz (r1 h)))
          (Some (fun R z phi t => let h := H R z phi t in                                      (* 225-233 *)
             R ^ 2 * (sin phi ^ 2 * vx (r0 h) + cos phi ^ 2 * vy (r1 h) - 2 * cos phi * sin phi * vy (r0 h))
             + R * (cos phi * vx (F R z phi t) + sin phi * vy (F R z phi t))))
          (Some (fun R z phi t => let h := H R z phi t in                                      (* 235-244 *)
             R * cos phi * sin phi * (vy (r1 h) - vx (r0 h)) + R * cos (2 * phi) * vy (r0 h)
             + sin phi * vx (F R z phi t) - cos phi * vy (F R z phi t)))
          (Some (fun R z phi t => let h := H R z phi t in                                      (* 246-249 *)
             R * (cos phi * vz (r1 h) - sin phi * vz (r0 h))))
          (option_map rt_at (apiDens p)))                                                      (* 321-331 *)
    | _, _, _, _, _, _, _, _ => None
    end.
End RotateTilt.

(** MovingObjectPotential.py 53-219: an axisymmetric object carried along an orbit given by
    the functions [oR], [ophi], [oz] (R(t), phi(t), z(t) of the Orbit; 0 in the plane). *)
Section MovingObject.
  Variables (oR ophi oz : RR -> RR).
  Definition cylR (R1 phi1 R2 phi2 : RR) : RR :=
    sqrt (R1 ^ 2 + R2 ^ 2 - 2 * R1 * R2 * cos (phi1 - phi2)).                                  (* 209-212 *)
  Definition mo_d (R phi t : RR) : RR := cylR R phi (oR t) (ophi t).
  Definition mo_xd (R phi t : RR) : RR := oR t * cos (ophi t) - R * cos phi.                   (* 215-219 *)
  Definition mo_yd (R phi t : RR) : RR := oR t * sin (ophi t) - R * sin phi.
  Definition mo_zd (z t : RR) : RR := oz t - z.
  Definition mo_at (f : F4) : F4 := fun R z phi t => f (mo_d R phi t) (mo_zd z t) 0 t.
  (** A combination with a dissipative member has no force without a velocity: [None]. *)
  Definition MovingObject (p : Pot) : option PotC :=
    if isDiss p then None else
    if isNonAxi p then None else
    match apiEv p, apiR2 p, apiz2 p, apiRz p with
    | Some ev, Some R2, Some z2, Some Rz =>
        let RF := mo_at (apiRf p novel) in
        let zF := mo_at (apizf p novel) in
        let d := mo_d in let xd := mo_xd in let yd := mo_yd in
        let phix R z phi t := RF R z phi t * xd R phi t / d R phi t in                         (* 142-149 *)
        let phiy R z phi t := RF R z phi t * yd R phi t / d R phi t in
        let phixx R z phi t := mo_at R2 R z phi t * xd R phi t ^ 2 / d R phi t ^ 2 - RF R z phi t * yd R phi t ^ 2 / d R phi t ^ 3 in
        let phiyy R z phi t := mo_at R2 R z phi t * yd R phi t ^ 2 / d R phi t ^ 2 - RF R z phi t * xd R phi t ^ 2 / d R phi t ^ 3 in
        let phixy R z phi t := (mo_at R2 R z phi t + RF R z phi t / d R phi t) * xd R phi t * yd R phi t / d R phi t ^ 2 in
        let phixz R z phi t := mo_at Rz R z phi t * xd R phi t / d R phi t in
        let phiyz R z phi t := mo_at Rz R z phi t * yd R phi t / d R phi t in
        Some (mkPotC true (mo_at ev)
          (fun R z phi t => - RF R z phi t * (cos phi * xd R phi t + sin phi * yd R phi t) / d R phi t)       (* 85-95 *)
          (fun R z phi t => - zF R z phi t)                                                                   (* 97-104 *)
          (Some (fun R z phi t => - RF R z phi t * R * (cos phi * yd R phi t - sin phi * xd R phi t) / d R phi t))  (* 106-115 *)
          (Some (fun R z phi t => cos phi ^ 2 * phixx R z phi t + 2 * cos phi * sin phi * phixy R z phi t + sin phi ^ 2 * phiyy R z phi t))
          (Some (mo_at z2))
          (Some (fun R z phi t => cos phi * phixz R z phi t + sin phi * phiyz R z phi t))
          (Some (fun R z phi t =>
             R ^ 2 * (sin phi ^ 2 * phixx R z phi t - 2 * cos phi * sin phi * phixy R z phi t + cos phi ^ 2 * phiyy R z phi t)
             - R * (cos phi * phix R z phi t + sin phi * phiy R z phi t)))
          (Some (fun R z phi t =>
             R * (cos phi * sin phi * (phiyy R z phi t - phixx R z phi t) + (cos phi ^ 2 - sin phi ^ 2) * phixy R z phi t)
             - sin phi * phix R z phi t + cos phi * phiy R z phi t))
          (Some (fun R z phi t => R * (cos phi * phiyz R z phi t - sin phi * phixz R z phi t)))
          (option_map mo_at (apiDens p)))
    | _, _, _, _ => None
    end.
End MovingObject.
