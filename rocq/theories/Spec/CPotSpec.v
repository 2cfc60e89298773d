(** When what Python hands to C describes a Python potential, and where the two can be compared.  [same s p]: the object [s] that is serialised has the class, amplitude and
    attributes of the Python object [p].  The parameter ranges are those of the constructors, or what makes both formulas defined. *)
From Coq Require Import Reals List Bool.
From Verif.Lib Require Import RealAux.
From Verif.Model Require Import PotAPI Wrappers CSerial CPot.
From Verif.Model Require PotAxi PotNonAxi.
From Verif.Spec Require Import PotSpec.
Import ListNotations.
Open Scope R_scope.
Notation RR := RbaseSymbolsImpl.R (only parsing).

(** The attributes of each class, integrateFullOrbit.py 66-395.  [fl]: the coordinates are floats, not arrays *)
Inductive same_class : leaf -> RR -> PotC -> Prop :=
| same_LogHaloAxi amp q core2 : q <> 0 -> same_class (LogarithmicHalo amp q core2 None) amp (PotNonAxi.LogarithmicHalo core2 q None)
| same_LogHaloTri amp q core2 b : q <> 0 -> b <> 0 -> same_class (LogarithmicHalo amp q core2 (Some (1 - 1 / b ^ 2))) amp (PotNonAxi.LogarithmicHalo core2 q (Some b))
| same_MiyamotoNagai amp a b fl : b <> 0 -> same_class (MiyamotoNagai amp a b) amp (PotAxi.MiyamotoNagai a b fl)
| same_PowerSpherical amp alpha : same_class (PowerSpherical amp alpha) amp (PotAxi.PowerSpherical alpha)
| same_Hernquist amp a : 0 < a -> same_class (Hernquist amp a) amp (PotAxi.Hernquist a)
| same_NFW amp a : 0 < a -> same_class (NFW amp a) amp (PotAxi.NFW a)
| same_Jaffe amp a : 0 < a -> same_class (Jaffe amp a) amp (PotAxi.Jaffe a)
| same_FlattenedPower amp alpha q2 core2 : 0 < q2 -> same_class (FlattenedPower amp alpha q2 core2) amp (PotAxi.FlattenedPower alpha q2 core2)
| same_Isochrone amp b : 0 < b -> same_class (Isochrone amp b) amp (PotAxi.Isochrone b)
| same_Plummer amp b : b <> 0 -> same_class (Plummer amp b) amp (PotAxi.Plummer b)
| same_PseudoIsothermal amp a : 0 < a -> same_class (PseudoIsothermal amp a) amp (PotAxi.PseudoIsothermal a)
| same_KuzminDisk amp a : same_class (KuzminDisk amp a) amp (PotAxi.KuzminDisk a)
| same_Burkert amp a : 0 < a -> same_class (Burkert amp a) amp (PotAxi.Burkert a)
| same_DehnenCore amp a : 0 < a -> same_class (DehnenCoreSpherical amp a) amp (PotAxi.DehnenCore a)
| same_DehnenSpherical amp a alpha : 0 < a -> alpha <> 2 -> alpha <> 3 -> same_class (DehnenSpherical amp a alpha) amp (PotAxi.DehnenSpherical a alpha)
| same_HomogeneousSphere amp Rs : 0 < Rs -> same_class (HomogeneousSphere amp (Rs ^ 2) (Rs ^ 3)) amp (PotAxi.HomogeneousSphere Rs).

(** The wrapper class [c] built around [p], with the attributes that are passed (396-602) *)
Inductive wraps : wrapper -> RR -> Pot -> PotC -> Prop :=
| wraps_DehnenSmooth amp tform ts grow p c : Wrappers.DehnenSmooth tform ts grow p = Some c ->
    wraps (DehnenSmooth amp tform (dehnen_tsteady tform ts) grow) amp p c
| wraps_SolidBody amp omega pa p c : Wrappers.SolidBodyRotation omega pa p = Some c -> wraps (SolidBodyRotation amp omega pa) amp p c
| wraps_Corotating amp vpo beta pa to p c : Wrappers.CorotatingRotation vpo beta to pa p = Some c -> wraps (CorotatingRotation amp vpo beta pa to) amp p c
| wraps_Gaussian amp to sigma p c : Wrappers.GaussianAmplitude to sigma p = Some c -> wraps (GaussianAmplitude amp to (sigma ^ 2)) amp p c
| wraps_TimeDependent amp A p c : Wrappers.TimeDependentAmplitude A p = Some c -> wraps (TimeDependentAmplitude amp A) amp p c
| wraps_KuzminLike amp a b p c : Wrappers.KuzminLike a b 1 p = Some c -> wraps (KuzminLike amp a (b ^ 2)) amp p c
| wraps_CylSeparable amp Rp p c ev : Wrappers.CylSeparable Rp p = Some c -> apiEv p = Some ev -> wraps (CylindricallySeparable amp Rp (ev Rp 0 0 0)) amp p c.

(** A wrapper holds one potential, or a sum of potentials whose own amplitude is one *)
Inductive same : pot -> Pot -> Prop :=
| same_leaf l amp c : same_class l amp c -> same (Leaf l) (Single amp c)
| same_wrap w inner amp p c : same_object inner p -> wraps w amp p c -> same (Wrap w inner) (Single amp c)
with same_object : list pot -> Pot -> Prop :=
| same_one s p : same s p -> same_object [s] p
| same_sum l ps : sames l ps -> same_object l (Comp 1 ps)
with sames : list pot -> list Pot -> Prop :=
| sames_nil : sames [] []
| sames_cons s p l ps : same s p -> sames l ps -> sames (s :: l) (p :: ps).

(** Where the formulas of both sides are defined (the C second derivatives of spherical potentials divide by r) *)
Definition off_centre (R z : RR) : Prop := R <> 0 \/ z <> 0.
Definition leaf_dom (l : leaf) : Dom := fun R z phi t =>
  match l with
  | LogarithmicHalo amp q core2 None => R ^ 2 + (z / q) ^ 2 + core2 <> 0
  | LogarithmicHalo amp q core2 (Some o) => R <> 0 /\ R ^ 2 * (1 - o * sin phi ^ 2) + (z / q) ^ 2 + core2 <> 0
  | MiyamotoNagai amp a b => R <> 0 \/ a + sqrt (z ^ 2 + b ^ 2) <> 0
  | FlattenedPower amp alpha q2 core2 => 0 < core2 + R ^ 2 + z ^ 2 / q2
  | Plummer _ _ => True
  | KuzminDisk amp a => R <> 0 \/ a + Rabs z <> 0
  | _ => off_centre R z
  end.
Fixpoint dom (s : pot) (R z phi t : RR) {struct s} : Prop :=
  match s with
  | Leaf l => leaf_dom l R z phi t
  | Wrap w inner =>
      let all (R z phi t : RR) : Prop := (fix all (l : list pot) : Prop := match l with [] => True | s :: l => dom s R z phi t /\ all l end) inner in
      match w with
      | SolidBodyRotation amp omega pa => all R z (phi - omega * t - pa) t
      | CorotatingRotation amp vpo beta pa to => 0 < R /\ all R z (phi - vpo * rpow R (beta - 1) * (t - to) - pa) t
      | KuzminLike amp a b2 => 0 < z ^ 2 + b2 /\ (R <> 0 \/ a + sqrt (z ^ 2 + b2) <> 0) /\ all (sqrt (R ^ 2 + (a + sqrt (z ^ 2 + b2)) ^ 2)) 0 0 t
      | CylindricallySeparable amp Rp refpot => all R 0 0 0 /\ all Rp z 0 0
      | _ => all R z phi t
      end
  end.
Fixpoint doms (l : list pot) (R z phi t : RR) : Prop := match l with [] => True | s :: l => dom s R z phi t /\ doms l R z phi t end.

(** What the C integrators get from the array of function pointers [fs] is what the methods of [p] return, throughout [D].  Energies and densities are compared where C has
    a function to call (and C calls the potential at phi = 0, t = 0). *)
Definition equals (g : F4) (method : option F4) (D : Dom) : Prop := exists h, method = Some h /\ forall R z phi t, D R z phi t -> g R z phi t = h R z phi t.
Definition computes (fs : list cfuns) (p : Pot) (D : Dom) : Prop :=
  (forall R z phi t, D R z phi t -> calc cf_Rf fs R z phi t = apiRf p novel R z phi t) /\
  (forall R z phi t, D R z phi t -> calc cf_zf fs R z phi t = apizf p novel R z phi t) /\
  equals (calc cf_pt fs) (apiPt p novel) D /\
  equals (calc2 cf_R2 fs) (apiR2 p) D /\ equals (calc2 cf_z2 fs) (apiz2 p) D /\ equals (calc2 cf_Rz fs) (apiRz p) D /\
  equals (calc2 cf_p2 fs) (apip2 p) D /\ equals (calc2 cf_Rp fs) (apiRp p) D /\ equals (calc2 cf_pz fs) (apipz p) D /\
  (exists ev, apiEv p = Some ev /\ forall h, evaluatePotentials fs = Some h -> forall R z, D R z 0 0 -> h R z = ev R z 0 0) /\
  (forall h, calcall cf_dn fs = Some h -> equals h (apiDens p) D).
(** Python serialises [l], C reads it back as [cs] (whatever follows in the buffers) and sets the function pointers [fs] *)
Definition handed_over (nan : RR) (linspace : RR -> RR -> nat -> list RR) (trange : option (RR * RR)) (l : list pot) (fs : list cfuns) : Prop :=
  exists s cs, parse_pot nan linspace trange l = Some s /\
    (forall fuel types args tfs, (length (pot_type s) <= fuel)%nat ->
       parse_c fuel (n_pot s) (pot_type s ++ types) (pot_args s ++ args) (pot_tfuncs s ++ tfs) = Some (cs, types, args, tfs)) /\
    sequence (map c_funs cs) = Some fs.
