(** The C functions of the planar integrators: galpy/potential/potential_c_ext/*.c (the functions of the plane), the table of galpy/orbit/orbit_c_ext/integratePlanarOrbit.c:parse_leapFuncArgs 52-740
    and the sums of galpy_potentials.c.  As in Model/CPot.v. *)
From Coq Require Import Reals List Bool ZArith.
From Verif.Lib Require Import RealAux.
From Verif.Model Require Import PotAPI Reduce CSerial CPot.
Import ListNotations.
Open Scope R_scope.
Notation RR := RbaseSymbolsImpl.R (only parsing).

(** struct potentialArg, galpy_potentials.h: planarRforce, planarphitorque, planarR2deriv, planarphi2deriv, planarRphideriv *)
Record pfuns := mkPf { pf_Rf : F3; pf_pt : F3; pf_R2 : F3; pf_p2 : F3; pf_Rp : F3 }.
(** calcPlanarRforce 180-194, calcPlanarphitorque 195-209, calcR2deriv 319-332 ... of galpy_potentials.c; every entry is called *)
Definition pcalc (g : pfuns -> F3) (l : list pfuns) : F3 := fun R phi t => fold_left (fun s f => s + g f R phi t) l 0.
(** The axisymmetric entries: the other three are ZeroPlanarForce (ZeroForce.c) *)
Definition paxi (Rf R2 : RR -> RR) : pfuns := mkPf (fun R _ _ => Rf R) zero3 (fun R _ _ => R2 R) zero3 zero3.
Definition pLH (amp c o : RR) : pfuns :=
  mkPf (fun R phi _ => cLH_PlanarRforce amp c o R phi) (fun R phi _ => cLH_Planarphitorque amp c o R phi) (fun R phi _ => cLH_PlanarR2deriv amp c o R phi)
       (fun R phi _ => cLH_Planarphi2deriv amp c o R phi) (fun R phi _ => cLH_PlanarRphideriv amp c o R phi).

Section Nan.
  Variable nan : RR.
  (** EllipticalDiskSmooth, EllipticalDiskPotential.c 5-21; dehnenSpiralSmooth, SteadyLogSpiralPotential.c 5-21 *)
  Definition smooth_nan (t tform tsteady : RR) : RR :=
    if Req_EM_T tform nan then 1
    else if Rlt_dec t tform then 0
    else if Rlt_dec t tsteady then
      let deltat := t - tform in let xi := 2 * deltat / (tsteady - tform) - 1 in
      3 / 16 * xi ^ 5 - 5 / 8 * xi ^ 3 + 15 / 16 * xi + / 2
    else 1.
  (** TransientLogSpiralPotential.c 5-87 *)
  Definition pTLS (amp A to sigma2 alpha m omegas gamma : RR) : pfuns :=
    let chi R phi t : RR := alpha * ln R - m * (phi - omegas * t - gamma) in
    let e t : RR := exp (- (t - to) ^ 2 / 2 / sigma2) in
    mkPf (fun R phi t => amp * A * e t / R * sin (chi R phi t))
         (fun R phi t => - amp * A * e t / alpha * m * sin (chi R phi t))
         (fun R phi t => amp * A * e t / R / R * (sin (chi R phi t) - alpha * cos (chi R phi t)))
         (fun R phi t => - amp * A * e t / alpha * m * m * cos (chi R phi t))
         (fun R phi t => amp * A * e t * m / R * cos (chi R phi t)).
  (** SteadyLogSpiralPotential.c 22-115 *)
  Definition pSLS (amp tform tsteady A alpha m omegas gamma : RR) : pfuns :=
    let chi R phi t : RR := alpha * ln R - m * (phi - omegas * t - gamma) in
    let s t : RR := smooth_nan t tform tsteady in
    mkPf (fun R phi t => amp * s t * A / R * sin (chi R phi t))
         (fun R phi t => - amp * s t * A / alpha * m * sin (chi R phi t))
         (fun R phi t => amp * s t * A / R / R * (sin (chi R phi t) - alpha * cos (chi R phi t)))
         (fun R phi t => - amp * s t * A / alpha * m * m * cos (chi R phi t))
         (fun R phi t => amp * s t * A * m / R * cos (chi R phi t)).
  (** EllipticalDiskPotential.c 22-106 *)
  Definition pED (amp tform tsteady twophio p phib : RR) : pfuns :=
    let s t : RR := smooth_nan t tform tsteady in
    mkPf (fun R phi t => - amp * s t * p * twophio / 2 * rpow R (p - 1) * cos (2 * (phi - phib)))
         (fun R phi t => amp * s t * twophio * rpow R p * sin (2 * (phi - phib)))
         (fun R phi t => amp * s t * p * (p - 1) * twophio / 2 * rpow R (p - 2) * cos (2 * (phi - phib)))
         (fun R phi t => - 2 * amp * s t * twophio * rpow R p * cos (2 * (phi - phib)))
         (fun R phi t => - amp * s t * p * twophio * rpow R (p - 1) * sin (2 * (phi - phib))).
  (** LopsidedDiskPotential.c *)
  Definition pLD (amp phio p phib : RR) : pfuns :=
    mkPf (fun R phi t => - amp * p * phio * rpow R (p - 1) * cos (phi - phib))
         (fun R phi t => amp * phio * rpow R p * sin (phi - phib))
         (fun R phi t => amp * p * (p - 1) * phio * rpow R (p - 2) * cos (phi - phib))
         (fun R phi t => - amp * phio * rpow R p * cos (phi - phib))
         (fun R phi t => - amp * p * phio * rpow R (p - 1) * sin (phi - phib)).
  (** CosmphiDiskPotential.c 4-88 (m is cast to int: it is an integer) *)
  Definition pCD (amp mphio p mphib m rb rbp rb2p r1p : RR) : pfuns :=
    mkPf (fun R phi t => if Rle_dec R rb then - amp * p * mphio / m * rb2p / rpow R (p + 1) * cos (m * phi - mphib) else - amp * p * mphio / m * rpow R (p - 1) * cos (m * phi - mphib))
         (fun R phi t => if Rle_dec R rb then amp * mphio * rbp * (2 * r1p - rbp / rpow R p) * sin (m * phi - mphib) else amp * mphio * rpow R p * sin (m * phi - mphib))
         (fun R phi t => if Rle_dec R rb then - amp * p * (p + 1) * mphio / m * rb2p / rpow R (p + 2) * cos (m * phi - mphib) else amp * p * (p - 1) * mphio / m * rpow R (p - 2) * cos (m * phi - mphib))
         (fun R phi t => if Rle_dec R rb then - amp * m * mphio * rbp * (2 * r1p - rbp / rpow R p) * cos (m * phi - mphib) else - amp * m * mphio * rpow R p * cos (m * phi - mphib))
         (fun R phi t => if Rle_dec R rb then - amp * p * mphio / m * rb2p / rpow R (p + 1) * sin (m * phi - mphib) else - amp * p * mphio * rpow R (p - 1) * sin (m * phi - mphib)).
  (** HenonHeilesPotential.c *)
  Definition pHH (amp : RR) : pfuns :=
    mkPf (fun R phi t => - amp * R * (1 + R * sin (3 * phi))) (fun R phi t => - amp * R ^ 3 * cos (3 * phi)) (fun R phi t => amp * (1 + 2 * R * sin (3 * phi)))
         (fun R phi t => - 3 * amp * R ^ 3 * sin (3 * phi)) (fun R phi t => 3 * amp * R * R * cos (3 * phi)).

  (** The cases of the switch, integratePlanarOrbit.c 63-440 *)
  Definition p_leaf (ty : Z) (args : list RR) : option pfuns :=
    match ty, args with
    | 0%Z, [amp; q; c; o] => Some (pLH amp c o)
    | 2%Z, [amp; A; to; sigma2; alpha; m; omegas; gamma] => Some (pTLS amp A to sigma2 alpha m omegas gamma)
    | 3%Z, [amp; tform; tsteady; A; alpha; m; omegas; gamma] => Some (pSLS amp tform tsteady A alpha m omegas gamma)
    | 4%Z, [amp; tform; tsteady; twophio; p; phib] => Some (pED amp tform tsteady twophio p phib)
    | 5%Z, [amp; a; b] => Some (paxi (cMN_PlanarRforce amp a b) (cMN_PlanarR2deriv amp a b))
    | 6%Z, [amp; phio; p; phib] => Some (pLD amp phio p phib)
    | 7%Z, [amp; al] => Some (paxi (cPS_PlanarRforce amp al) (cPS_PlanarR2deriv amp al))
    | 8%Z, [amp; a] => Some (paxi (cHe_PlanarRforce amp a) (cHe_PlanarR2deriv amp a))
    | 9%Z, [amp; a] => Some (paxi (cNFW_PlanarRforce amp a) (cNFW_PlanarR2deriv amp a))
    | 10%Z, [amp; a] => Some (paxi (cJa_PlanarRforce amp a) (cJa_PlanarR2deriv amp a))
    | 12%Z, [amp; al; c2] => Some (paxi (cFP_PlanarRforce amp al c2) (cFP_PlanarR2deriv amp al c2))
    | 14%Z, [amp; b] => Some (paxi (cIso_PlanarRforce amp b) (cIso_PlanarR2deriv amp b))
    | 17%Z, [amp; b] => Some (paxi (cPl_PlanarRforce amp b) (cPl_PlanarR2deriv amp b))
    | 18%Z, [amp; a] => Some (paxi (cPI_PlanarRforce amp a) (cPI_PlanarR2deriv amp a))
    | 19%Z, [amp; a] => Some (paxi (cKu_PlanarRforce amp a) (cKu_PlanarR2deriv amp a))
    | 20%Z, [amp; a] => Some (paxi (cBu_PlanarRforce amp a) (cBu_PlanarR2deriv amp a))
    | 28%Z, [amp; mphio; p; mphib; m; rb; rbp; rb2p; r1p] => Some (pCD amp mphio p mphib m rb rbp rb2p r1p)
    | 29%Z, [amp] => Some (pHH amp)
    | 33%Z, [amp; a] => Some (paxi (cDC_PlanarRforce amp a) (cDC_PlanarR2deriv amp a))
    | 34%Z, [amp; a; al] => Some (paxi (cDe_PlanarRforce amp a al) (cDe_PlanarR2deriv amp a al))
    | 35%Z, [amp; R2; R3] => Some (paxi (cHS_PlanarRforce amp R2 R3) (cHS_PlanarR2deriv amp R2 R3))
    | _, _ => None
    end.
End Nan.

(** DehnenSmoothWrapperPotential.c 56-104, GaussianAmplitudeWrapperPotential.c 45-93, TimeDependentAmplitudeWrapperPotential.c 39-82 *)
Definition pw_amp (amp : RR) (s : RR -> RR) (l : list pfuns) : pfuns :=
  let m (f : F3) : F3 := fun R phi t => amp * s t * f R phi t in
  mkPf (m (pcalc pf_Rf l)) (m (pcalc pf_pt l)) (m (pcalc pf_R2 l)) (m (pcalc pf_p2 l)) (m (pcalc pf_Rp l)).
(** SolidBodyRotationWrapperPotential.c 29-72 *)
Definition pw_solid (amp omega pa : RR) (l : list pfuns) : pfuns :=
  let m (f : F3) : F3 := fun R phi t => amp * f R (phi - omega * t - pa) t in
  mkPf (m (pcalc pf_Rf l)) (m (pcalc pf_pt l)) (m (pcalc pf_R2 l)) (m (pcalc pf_p2 l)) (m (pcalc pf_Rp l)).
(** CorotatingRotationWrapperPotential.c 38-106 *)
Definition pw_corot (amp vpo beta pa to : RR) (l : list pfuns) : pfuns :=
  let phi_new R phi t : RR := phi - vpo * rpow R (beta - 1) * (t - to) - pa in
  let at_ (f : F3) : F3 := fun R phi t => f R (phi_new R phi t) t in
  let phiRderiv R t : RR := - vpo * (beta - 1) * rpow R (beta - 2) * (t - to) in
  mkPf (fun R phi t => amp * (at_ (pcalc pf_Rf l) R phi t - at_ (pcalc pf_pt l) R phi t * vpo * (beta - 1) * rpow R (beta - 2) * (t - to)))
       (fun R phi t => amp * at_ (pcalc pf_pt l) R phi t)
       (fun R phi t => amp * (at_ (pcalc pf_R2 l) R phi t + 2 * phiRderiv R t * at_ (pcalc pf_Rp l) R phi t
          + phiRderiv R t * phiRderiv R t * at_ (pcalc pf_p2 l) R phi t
          + at_ (pcalc pf_pt l) R phi t * vpo * (beta - 1) * (beta - 2) * rpow R (beta - 3) * (t - to)))
       (fun R phi t => amp * at_ (pcalc pf_p2 l) R phi t)
       (fun R phi t => amp * (at_ (pcalc pf_Rp l) R phi t - at_ (pcalc pf_p2 l) R phi t * vpo * (beta - 1) * rpow R (beta - 2) * (t - to))).
(** KuzminLikeWrapperPotential.c 93-131 *)
Definition pw_kuzmin (amp a b2 : RR) (l : list pfuns) : pfuns :=
  let at_ (f : F3) R t : RR := f (cKL_xi a b2 R 0) 0 t in
  mkPf (fun R phi t => amp * at_ (pcalc pf_Rf l) R t * cKL_dxidR a b2 R 0) zero3
       (fun R phi t => amp * (at_ (pcalc pf_R2 l) R t * cKL_dxidR a b2 R 0 * cKL_dxidR a b2 R 0 - at_ (pcalc pf_Rf l) R t * cKL_d2xidR2 a b2 R 0)) zero3 zero3.
(** CylindricallySeparablePotentialWrapper.c 29-36, 61-68 *)
Definition pw_cyl (amp : RR) (l : list pfuns) : pfuns :=
  mkPf (fun R phi t => amp * pcalc pf_Rf l R 0 0) zero3 (fun R phi t => amp * pcalc pf_R2 l R 0 0) zero3 zero3.

(** integratePlanarOrbit.c 597-616 (-1, -2), 631-650 (-4, -5), 668-705 (-9, -10, -12).  With type -9, nargs = 4 although one argument is sent. *)
Fixpoint p_funs (nan : RR) (c : carg) : option pfuns :=
  match c with
  | CArg ty _ _ args tfs wrapped =>
      match sequence (map (p_funs nan) wrapped) with
      | None => None
      | Some l =>
          match ty, args, tfs with
          | (-1)%Z, [amp; tform; tsteady; grow], [] => Some (pw_amp amp (fun t => dehnenSmooth t tform tsteady grow) l)
          | (-2)%Z, [amp; omega; pa], [] => Some (pw_solid amp omega pa l)
          | (-4)%Z, [amp; vpo; beta; pa; to], [] => Some (pw_corot amp vpo beta pa to l)
          | (-5)%Z, [amp; to; sigma2], [] => Some (pw_amp amp (fun t => gaussSmooth t to sigma2) l)
          | (-9)%Z, amp :: _ :: _ :: _ :: [], [A] => Some (pw_amp amp A l)
          | (-10)%Z, [amp; a; b2], [] => Some (pw_kuzmin amp a b2 l)
          | (-12)%Z, [amp; Rp; refpot], [] => Some (pw_cyl amp l)
          | _, _, _ => match wrapped with [] => p_leaf nan ty args | _ => None end
          end
      end
  end.
