(** Model of the public layer of 3D potentials:
    galpy/potential/Potential.py, Force.py and CompositePotential.py.

    Simplifications: floats are exact reals; unit conversion decorators are modelled
    separately (Model/Units.v), i.e. these are the values with use_physical=False;
    arrays are treated pointwise; "method not implemented" (AttributeError turned
    into PotentialError) is [None]. *)
From Coq Require Import Reals List Bool.
Import ListNotations.
Open Scope R_scope.

(** Functions of (R, z, phi, t). *)
Definition F4 := R -> R -> R -> R -> R.

(** What a concrete class provides.  Every concrete class of the repository modelled
    here defines [_evaluate], [_Rforce], [_zforce]; the others may be missing. *)
Record PotC := mkPotC {
  nonaxi : bool;            (* self.isNonAxi *)
  c_ev : F4;                (* _evaluate *)
  c_Rf : F4;                (* _Rforce *)
  c_zf : F4;                (* _zforce *)
  c_pt : option F4;         (* _phitorque *)
  c_R2 : option F4;         (* _R2deriv *)
  c_z2 : option F4;         (* _z2deriv *)
  c_Rz : option F4;         (* _Rzderiv *)
  c_p2 : option F4;         (* _phi2deriv *)
  c_Rp : option F4;         (* _Rphideriv *)
  c_pz : option F4;         (* _phizderiv *)
  c_dn : option F4          (* _dens *)
}.

(** A class without dependence on phi. *)
Definition mkAxi (ev Rf zf : R -> R -> R) (R2 z2 Rz dn : option (R -> R -> R)) : PotC :=
  let l (f : R -> R -> R) : F4 := fun R z _ _ => f R z in
  mkPotC false (l ev) (l Rf) (l zf) None
    (option_map l R2) (option_map l z2) (option_map l Rz) None None None (option_map l dn).

(** A velocity-dependent (dissipative) force: it has no potential. Force.py 287-318. *)
Record DissC := mkDissC {
  d_nonaxi : bool;
  d_Rf : (R * R * R) -> F4;
  d_zf : (R * R * R) -> F4;
  d_pt : option ((R * R * R) -> F4)
}.

(** Instances.  [amp] is the attribute [_amp]. CompositePotential.py 15-89. *)
Inductive Pot :=
| Single (amp : R) (c : PotC)
| Diss (amp : R) (d : DissC)
| Comp (amp : R) (ps : list Pot).

(** DissipativeForce.py [_isDissipative], and the class attribute. *)
Fixpoint isDiss (p : Pot) : bool :=
  match p with
  | Single _ _ => false
  | Diss _ _ => true
  | Comp _ ps => existsb isDiss ps
  end.

(** Potential.py 4189-4218 [_isNonAxi]. *)
Fixpoint isNonAxi (p : Pot) : bool :=
  match p with
  | Single _ c => nonaxi c
  | Diss _ d => d_nonaxi d
  | Comp _ ps => existsb isNonAxi ps
  end.

Definition scale4 (a : R) (f : F4) : F4 := fun R z phi t => a * f R z phi t.
Definition zero4 : F4 := fun _ _ _ _ => 0.
Definition add4 (f g : F4) : F4 := fun R z phi t => f R z phi t + g R z phi t.

(** Python's built-in sum over already evaluated values: starts from 0, left to right. *)
Definition sum4 (l : list F4) : F4 := fold_left add4 l zero4.

(** The same when some summand raises. *)
Fixpoint sequence {A} (l : list (option A)) : option (list A) :=
  match l with
  | [] => Some []
  | None :: _ => None
  | Some x :: r => match sequence r with None => None | Some xs => Some (x :: xs) end
  end.
Definition osum4 (l : list (option F4)) : option F4 := option_map sum4 (sequence l).

(** "if not pot.isDissipative" filters of CompositePotential.py. *)
Definition conservative (ps : list Pot) : list Pot := filter (fun p => negb (isDiss p)) ps.

(** Potential.py 221-229 [_call_nodecorator] with dR=dphi=0, CompositePotential.py 135-160.
    For a lone dissipative force the method does not exist. *)
Fixpoint apiEv (p : Pot) : option F4 :=
  match p with
  | Single a c => Some (scale4 a (c_ev c))
  | Diss _ _ => None
  | Comp a ps =>
      option_map (scale4 a)
        (osum4 (map (fun q => if isDiss q then Some zero4 else apiEv q) ps))
  end.
(* The filter "if not pot.isDissipative" is written as a zero summand. *)

(** Force.py 287-294 [_Rforce_nodecorator], CompositePotential.py 162-192. *)
Fixpoint apiRf (p : Pot) (v : R * R * R) : F4 :=
  match p with
  | Single a c => scale4 a (c_Rf c)
  | Diss a d => scale4 a (d_Rf d v)
  | Comp a ps => scale4 a (sum4 (map (fun q => apiRf q v) ps))
  end.

(** Force.py 296-305, CompositePotential.py 194-224. *)
Fixpoint apizf (p : Pot) (v : R * R * R) : F4 :=
  match p with
  | Single a c => scale4 a (c_zf c)
  | Diss a d => scale4 a (d_zf d v)
  | Comp a ps => scale4 a (sum4 (map (fun q => apizf q v) ps))
  end.

(** The "missing method" rule of phitorque, phi2deriv, Rphideriv and phizderiv:
    zero for an axisymmetric object, an error otherwise.
    Force.py 307-318, Potential.py 425-432, 494-501, 530-537. *)
Definition dflt (nonax : bool) (a : R) (m : option F4) : option F4 :=
  match m with
  | Some f => Some (scale4 a f)
  | None => if nonax then None else Some zero4
  end.

(** Force.py 307-318, CompositePotential.py 226-256. *)
Fixpoint apiPt (p : Pot) (v : R * R * R) : option F4 :=
  match p with
  | Single a c => dflt (nonaxi c) a (c_pt c)
  | Diss a d => dflt (d_nonaxi d) a (option_map (fun f => f v) (d_pt d))
  | Comp a ps => option_map (scale4 a) (osum4 (map (fun q => apiPt q v) ps))
  end.

(** The common shape of the second-derivative methods of a composite. *)
Section Second.
  Variable single : R -> PotC -> option F4.
  Fixpoint api2 (p : Pot) : option F4 :=
    match p with
    | Single a c => single a c
    | Diss _ _ => None
    | Comp a ps =>
        option_map (scale4 a)
          (osum4 (map (fun q => if isDiss q then Some zero4 else api2 q) ps))
    end.
End Second.

(** Potential.py 333-363, CompositePotential.py 310-335. *)
Definition apiR2 : Pot -> option F4 := api2 (fun a c => option_map (scale4 a) (c_R2 c)).
(** Potential.py 367-397, CompositePotential.py 337-362. *)
Definition apiz2 : Pot -> option F4 := api2 (fun a c => option_map (scale4 a) (c_z2 c)).
(** Potential.py 436-466, CompositePotential.py 364-389. *)
Definition apiRz : Pot -> option F4 := api2 (fun a c => option_map (scale4 a) (c_Rz c)).
(** Potential.py 401-432, CompositePotential.py 391-416. *)
Definition apip2 : Pot -> option F4 := api2 (fun a c => dflt (nonaxi c) a (c_p2 c)).
(** Potential.py 470-501, CompositePotential.py 418-443. *)
Definition apiRp : Pot -> option F4 := api2 (fun a c => dflt (nonaxi c) a (c_Rp c)).
(** Potential.py 505-537, CompositePotential.py 445-470. *)
Definition apipz : Pot -> option F4 := api2 (fun a c => dflt (nonaxi c) a (c_pz c)).

(** The Poisson fallback of dens. Potential.py 609-620. *)
Definition poisson (Rf : F4) (R2 p2 z2 : option F4) : option F4 :=
  match R2, p2, z2 with
  | Some f2, Some g2, Some h2 =>
      Some (fun R z phi t =>
        (- Rf R z phi t / R + f2 R z phi t + g2 R z phi t / R ^ 2 + h2 R z phi t)
          / 4 / PI)
  | _, _, _ => None
  end.

(** Potential.dens of a single potential. Potential.py 577-620. *)
Definition dens_single (forcepoisson : bool) (a : R) (c : PotC) : option F4 :=
  match c_dn c with
  | Some f =>
      if forcepoisson
      then poisson (scale4 a (c_Rf c)) (option_map (scale4 a) (c_R2 c))
             (dflt (nonaxi c) a (c_p2 c)) (option_map (scale4 a) (c_z2 c))
      else Some (scale4 a f)
  | None => poisson (scale4 a (c_Rf c)) (option_map (scale4 a) (c_R2 c))
             (dflt (nonaxi c) a (c_p2 c)) (option_map (scale4 a) (c_z2 c))
  end.

(** Potential.dens, CompositePotential.py 258-283 (forcepoisson=False). *)
Definition apiDens : Pot -> option F4 := api2 (dens_single false).

(** Potential.dens(forcepoisson=True) on any instance. Potential.py 609-620. *)
Definition apiDensPoisson (p : Pot) : option F4 :=
  poisson (apiRf p (0,0,0)) (apiR2 p) (apip2 p) (apiz2 p).

(** Potential.py 4033-4059 [_flatten_list] on one item that is a force or a composite:
    a composite yields the flattening of its components; its own [_amp] is not used. *)
Fixpoint leaves (p : Pot) : list Pot :=
  match p with
  | Comp _ ps => flat_map leaves ps
  | _ => [p]
  end.

(** Arguments of flatten and of the CompositePotential constructor: nested Python lists. *)
Inductive item :=
| Leaf (p : Pot)
| Nest (l : list item).

(** Potential.py 4033-4086 [_flatten_list], [flatten] on a list. *)
Fixpoint flattenItem (i : item) : list Pot :=
  match i with
  | Leaf p => leaves p
  | Nest l => flat_map flattenItem l
  end.
Definition flatten (l : list item) : list Pot := flat_map flattenItem l.

(** CompositePotential.__init__ (CompositePotential.py 15-39, 71-73): flattened list, amp=1. *)
Definition mkComp (l : list item) : Pot := Comp 1 (flatten l).

(** Force.__mul__ (Force.py 115-140): deep copy with [_amp *= b];
    baseCompositePotential.__mul__ (baseCompositePotential.py 107-129): a new composite of
    the scaled members. *)
Fixpoint mulPot (p : Pot) (b : R) : Pot :=
  match p with
  | Single a c => Single (a * b) c
  | Diss a d => Diss (a * b) d
  | Comp _ ps => mkComp (map Leaf (map (fun q => mulPot q b) ps))
  end.

(** Force.__div__ (Force.py 145-148), baseCompositePotential.py 133-150. *)
Definition divPot (p : Pot) (b : R) : Pot := mulPot p (1 / b).

(** Force.__add__ (Force.py 182-222), CompositePotential.__add__ (91-133), 3D operands. *)
Definition addPot (p q : Pot) : Pot :=
  match p, q with
  | Comp _ ps, Comp _ qs => mkComp (map Leaf (ps ++ qs))
  | Comp _ ps, _ => mkComp (map Leaf (ps ++ [q]))
  | _, _ => mkComp [Leaf p; Leaf q]
  end.

(** Potential.normalize (Potential.py 902-920), inherited by composites. *)
Definition setAmp (p : Pot) (k : R) : Pot :=
  match p with
  | Single a c => Single (a * k) c
  | Diss a d => Diss (a * k) d
  | Comp a ps => Comp (a * k) ps
  end.
Definition normalize (p : Pot) (norm : R) : Pot :=
  setAmp p (norm / Rabs (apiRf p (0, 0, 0) 1 0 0 0)).
