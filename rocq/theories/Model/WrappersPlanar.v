(** Wrapper potentials around two-dimensional objects: galpy/potential/WrapperPotential.py, planarWrapperPotential 255-393, and the wrapper classes that do not override it
    for three dimensions only.  Every method is sent to [_wrap] with the same method of the wrapped object (336-392).  [None]: a method of the wrapped object that [_evaluate] needs raises
    (two-dimensional wrappers do not refuse dissipative forces, whose evaluation raises). *)
From Coq Require Import Reals List Bool.
From Verif.Lib Require Import RealAux.
From Verif.Model Require Import PotAPI Wrappers Reduce.
Import ListNotations.
Open Scope R_scope.
Notation RR := RbaseSymbolsImpl.R (only parsing).

Definition novel2 : RR * RR := (0, 0).
(** isNonAxi of planar objects: planarForce.py 46, planarPotential.py 356 (planarAxiPotential); planarCompositePotential.py 91 *)
Fixpoint plNonAxi (p : Planar) : bool :=
  match p with
  | PNat _ c => pl_nonaxi c
  | PFromRZ _ _ => false
  | PFromFull _ _ => true
  | PFromDiss _ p => isNonAxi p
  | PComp _ ps => existsb plNonAxi ps
  end.
Definition wrapAll3 (g : F3 -> F3) (p : Planar) : option PlC :=
  match plEv p, plRf p novel2 with
  | Some ev, Some Rf => Some (mkPlC (plNonAxi p) (g ev) (g Rf) (option_map g (plPt p novel2)) (option_map g (plR2 p)) (option_map g (plp2 p)) (option_map g (plRp p)))
  | _, _ => None
  end.
Definition amplitude3 (A : RR -> RR) (f : F3) : F3 := fun R phi t => A t * f R phi t.
(** TimeDependentAmplitudeWrapperPotential.py 78-81, GaussianAmplitudeWrapperPotential.py 46-60, DehnenSmoothWrapperPotential.py 57-90 *)
Definition TimeDependentAmplitude3 (A : RR -> RR) : Planar -> option PlC := wrapAll3 (amplitude3 A).
Definition GaussianAmplitude3 (to_ sigma : RR) : Planar -> option PlC := wrapAll3 (amplitude3 (gaussAmp to_ sigma)).
Definition DehnenSmooth3 (tform : RR) (tsteady : option RR) (grow : bool) : Planar -> option PlC := wrapAll3 (amplitude3 (dehnen_smooth tform (dehnen_tsteady tform tsteady) grow)).
(** SolidBodyRotationWrapperPotential.py 59-63 *)
Definition SolidBodyRotation3 (omega pa : RR) : Planar -> option PlC := wrapAll3 (fun f R phi t => f R (solid_phi omega pa phi t) t).
(** CorotatingRotationWrapperPotential.py 71-129, 152-166 *)
Section Corot3.
  Variables (vpo beta to_ pa : RR).
  Definition co3 (f : F3) : F3 := fun R phi t => f R (co_phi vpo beta to_ pa R phi t) t.
  Definition CorotatingRotation3 (p : Planar) : option PlC :=
    match plEv p, plRf p novel2, plPt p novel2 with
    | Some ev, Some Rf, Some Pt =>
        Some (mkPlC (plNonAxi p) (co3 ev)
          (fun R phi t => co3 Rf R phi t - co3 Pt R phi t * (vpo * (beta - 1) * rpow R (beta - 2) * (t - to_)))
          (Some (co3 Pt))
          (match plR2 p, plRp p, plp2 p with
           | Some R2, Some Rp, Some p2 => Some (fun R phi t =>
               let phiRderiv := - vpo * (beta - 1) * rpow R (beta - 2) * (t - to_) in
               co3 R2 R phi t + 2 * co3 Rp R phi t * phiRderiv + co3 p2 R phi t * phiRderiv ^ 2 + co3 Pt R phi t * (vpo * (beta - 1) * (beta - 2) * rpow R (beta - 3) * (t - to_)))
           | _, _, _ => None
           end)
          (option_map co3 (plp2 p))
          (match plRp p, plp2 p with
           | Some Rp, Some p2 => Some (fun R phi t => co3 Rp R phi t - co3 p2 R phi t * vpo * (beta - 1) * rpow R (beta - 2) * (t - to_))
           | _, _ => None
           end))
    | _, _, _ => None
    end.
End Corot3.
