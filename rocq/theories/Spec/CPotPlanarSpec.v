(** When what Python hands to the planar C integrators describes a planar potential, and where the two can be compared; as in Spec/CPotSpec.v. *)
From Coq Require Import Reals List Bool ZArith.
From Verif.Lib Require Import RealAux.
From Verif.Model Require Import PotAPI Wrappers WrappersPlanar CSerial CSerialPlanar Reduce CPotPlanar.
From Verif.Model Require PotPlanar.
From Verif.Spec Require Import PotSpec CPotSpec PlanarSpec.
Import ListNotations.
Open Scope R_scope.
Notation RR := RbaseSymbolsImpl.R (only parsing).

(** A three-dimensional potential as it is handed over when it is used in the plane *)
Fixpoint in_plane (s : pot) : pot2 := match s with Leaf l => Leaf2 (Shared l) | Wrap w inner => Wrap2 w (map in_plane inner) end.
(** What is excluded (each shown to fail in Props/C44): the amplitude given by a function of time, Miyamoto-Nagai with negative b, and, when second derivatives are asked for
    ([H]), the Kuzmin disk *)
Definition fine_leaf (H : bool) (l : leaf) : Prop := match l with MiyamotoNagai _ _ b => 0 < b | KuzminDisk _ _ => H = false | _ => True end.
Fixpoint fine (H : bool) (s : pot) : Prop :=
  match s with
  | Leaf l => fine_leaf H l
  | Wrap w inner => (match w with TimeDependentAmplitude _ _ => False | _ => True end) /\
      (fix all (l : list pot) : Prop := match l with [] => True | s :: l => fine H s /\ all l end) inner
  end.
(** The wrapper class [c] built around the two-dimensional object [p], integratePlanarOrbit.py 486-659 *)
Inductive wraps2 : wrapper -> RR -> Planar -> PlC -> Prop :=
| wraps2_DehnenSmooth amp tform ts grow p c : DehnenSmooth3 tform ts grow p = Some c -> wraps2 (DehnenSmooth amp tform (dehnen_tsteady tform ts) grow) amp p c
| wraps2_SolidBody amp omega pa p c : SolidBodyRotation3 omega pa p = Some c -> wraps2 (SolidBodyRotation amp omega pa) amp p c
| wraps2_Corotating amp vpo beta pa to p c : CorotatingRotation3 vpo beta to pa p = Some c -> wraps2 (CorotatingRotation amp vpo beta pa to) amp p c
| wraps2_Gaussian amp to sigma p c : GaussianAmplitude3 to sigma p = Some c -> wraps2 (GaussianAmplitude amp to (sigma ^ 2)) amp p c.

Section Same.
  Variable nan : RR.
  Variable H : bool.
  (** None for tform and tsteady is sent as nan, which no number equals *)
  Definition numbers (g : option (RR * RR)) : Prop := match g with Some (tform, _) => tform <> nan | None => True end.
  (** The classes of the plane and the attributes that are sent, integratePlanarOrbit.py 90-160, 370-400 *)
  Inductive same_native : leaf2 -> RR -> PlC -> Prop :=
  | same_TransientLogSpiral amp A to sigma2 alpha m omegas gamma : same_native (TransientLogSpiral amp A to sigma2 alpha m omegas gamma) amp (PotPlanar.TLS_class omegas A alpha m gamma sigma2 to)
  | same_SteadyLogSpiral amp g A alpha m omegas gamma : numbers g -> same_native (SteadyLogSpiral amp g A alpha m omegas gamma) amp (PotPlanar.SLS_class omegas A alpha m gamma g)
  | same_EllipticalDisk amp g twophio p phib : numbers g -> same_native (EllipticalDisk amp g twophio p phib) amp (PotPlanar.ED_class phib p twophio g)
  | same_LopsidedDisk amp mphio p phib : same_native (LopsidedDisk amp mphio p phib) amp (PotPlanar.CD_class 1 mphio phib p 0 1)
  | same_CosmphiDisk amp mphio p mphib m rb r1p : m <> 0%Z ->
      same_native (CosmphiDisk amp mphio p mphib (IZR m) rb (rpow rb p) (rpow rb p ^ 2) r1p) amp (PotPlanar.CD_class (IZR m) mphio mphib p rb r1p)
  | same_HenonHeiles amp c : PotPlanar.HenonHeiles amp = PNat amp c -> same_native (HenonHeiles amp) amp c.
  Inductive same2 : pot2 -> Planar -> Prop :=
  | same2_native l amp c : same_native l amp c -> same2 (Leaf2 l) (PNat amp c)
  | same2_3D s p : same s p -> fine H s -> same2 (in_plane s) (planar_of p)
  | same2_wrap w inner amp p c : same2_object inner p -> wraps2 w amp p c -> same2 (Wrap2 w inner) (PNat amp c)
  with same2_object : list pot2 -> Planar -> Prop :=
  | same2_one s p : same2 s p -> same2_object [s] p
  | same2_sum l ps : sames2 l ps -> same2_object l (PComp 1 ps)
  with sames2 : list pot2 -> list Planar -> Prop :=
  | sames2_nil : sames2 [] []
  | sames2_cons s p l ps : same2 s p -> sames2 l ps -> sames2 (s :: l) (p :: ps).

  Definition leaf_dom2 (l : leaf2) : Dom3 := fun R phi t =>
    0 < R /\ match l with Shared l => leaf_dom l R 0 phi t | CosmphiDisk amp mphio p mphib m rb rbp rb2p r1p => R <> rb | _ => True end.
  Fixpoint dom2 (s : pot2) (R phi t : RR) {struct s} : Prop :=
    match s with
    | Leaf2 l => leaf_dom2 l R phi t
    | Wrap2 w inner =>
        let all (R phi t : RR) : Prop := (fix all (l : list pot2) : Prop := match l with [] => True | s :: l => dom2 s R phi t /\ all l end) inner in
        match w with
        | SolidBodyRotation amp omega pa => all R (phi - omega * t - pa) t
        | CorotatingRotation amp vpo beta pa to => 0 < R /\ all R (phi - vpo * rpow R (beta - 1) * (t - to) - pa) t
        | KuzminLike amp a b2 => 0 < b2 /\ (R <> 0 \/ a + sqrt b2 <> 0) /\ all (sqrt (R ^ 2 + (a + sqrt b2) ^ 2)) 0 t
        | CylindricallySeparable amp Rp refpot => all R 0 0
        | _ => all R phi t
        end
    end.
  Fixpoint doms2 (l : list pot2) (R phi t : RR) : Prop := match l with [] => True | s :: l => dom2 s R phi t /\ doms2 l R phi t end.

  (** The planar forces, and with [H] the second derivatives, that C sums up are those of the methods of [p] *)
  Definition equals2 (g : F3) (method : option F3) (D : Dom3) : Prop := exists h, method = Some h /\ forall R phi t, D R phi t -> g R phi t = h R phi t.
  Definition computes2 (fs : list pfuns) (p : Planar) (D : Dom3) : Prop :=
    equals2 (pcalc pf_Rf fs) (plRf p novel2) D /\ equals2 (pcalc pf_pt fs) (plPt p novel2) D /\
    (H = true -> equals2 (pcalc pf_R2 fs) (plR2 p) D /\ equals2 (pcalc pf_p2 fs) (plp2 p) D /\ equals2 (pcalc pf_Rp fs) (plRp p) D).
End Same.
Definition handed_over2 (nan : RR) (linspace : RR -> RR -> nat -> list RR) (trange : option (RR * RR)) (l : list pot2) (fs : list pfuns) : Prop :=
  exists s cs, parse_pot2 nan linspace trange l = Some s /\
    (forall fuel types args tfs, (length (pot_type s) <= fuel)%nat ->
       parse_c2 fuel (n_pot s) (pot_type s ++ types) (pot_args s ++ args) (pot_tfuncs s ++ tfs) = Some (cs, types, args, tfs)) /\
    sequence (map (p_funs nan) cs) = Some fs.
