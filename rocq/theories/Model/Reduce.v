(** Reductions of potentials to fewer dimensions: galpy/potential/planarPotential.py, planarDissipativeForce.py,
    planarCompositePotential.py, verticalPotential.py, linearPotential.py, linearCompositePotential.py.

    Values are those with use_physical=False; the unit checks of the composite constructors are modelled in UnitCompat.v. *)
From Coq Require Import Reals List Bool.
From Verif.Model Require Import PotAPI.
Import ListNotations.
Open Scope R_scope.
Notation RR := RbaseSymbolsImpl.R (only parsing).

(** Functions of (R, phi, t), and of (x, t) *)
Definition F3 := RR -> RR -> RR -> RR.
Definition F2 := RR -> RR -> RR.
Definition scale3 (a : RR) (f : F3) : F3 := fun R phi t => a * f R phi t.
Definition zero3 : F3 := fun _ _ _ => 0.
Definition add3 (f g : F3) : F3 := fun R phi t => f R phi t + g R phi t.
Definition osum3 (l : list (option F3)) : option F3 := option_map (fun l => fold_left add3 l zero3) (sequence l).
Definition scale2 (a : RR) (f : F2) : F2 := fun x t => a * f x t.
Definition zero2 : F2 := fun _ _ => 0.
Definition add2 (f g : F2) : F2 := fun x t => f x t + g x t.
Definition osum2 (l : list (option F2)) : option F2 := option_map (fun l => fold_left add2 l zero2) (sequence l).

(** A class written for the plane, and one written for one dimension *)
Record PlC := mkPlC { pl_nonaxi : bool; pl_ev : F3; pl_Rf : F3; pl_pt : option F3; pl_R2 : option F3; pl_p2 : option F3; pl_Rp : option F3 }.
Record LiC := mkLiC { li_ev : F2; li_f : F2; li_f2 : option F2 }.

(** Two-dimensional objects: a native one, planarPotentialFromRZPotential (524-651), planarPotentialFromFullPotential (703-922),
    planarDissipativeForceFromFullDissipativeForce (planarDissipativeForce.py 94-184) and planarCompositePotential *)
Inductive Planar :=
| PNat (amp : RR) (c : PlC)
| PFromRZ (amp : RR) (p : Pot)
| PFromFull (amp : RR) (p : Pot)
| PFromDiss (amp : RR) (p : Pot)
| PComp (amp : RR) (ps : list Planar).
(** One-dimensional objects: a native one, verticalPotential (attributes _Pot, _R, _phi, _midplanePot), linearCompositePotential *)
Inductive Linear :=
| LNat (amp : RR) (c : LiC)
| LVert (amp : RR) (p : Pot) (R phi midplane : RR)
| LComp (amp : RR) (ps : list Linear).

Fixpoint plDiss (p : Planar) : bool :=
  match p with PNat _ _ | PFromRZ _ _ | PFromFull _ _ => false | PFromDiss _ _ => true | PComp _ ps => existsb plDiss ps end.

(** planarPotential.py 68-76, 602, 782; planarCompositePotential.py 139-162.  A dissipative force is left out of the sum (zero). *)
Fixpoint plEv (p : Planar) : option F3 :=
  match p with
  | PNat a c => Some (scale3 a (pl_ev c))
  | PFromRZ a p => option_map (fun f => scale3 a (fun R phi t => f R 0 0 t)) (apiEv p)
  | PFromFull a p => option_map (fun f => scale3 a (fun R phi t => f R 0 phi t)) (apiEv p)
  | PFromDiss _ _ => None
  | PComp a ps => option_map (scale3 a) (osum3 (map (fun q => if plDiss q then Some zero3 else plEv q) ps))
  end.
(** planarForce.py 248-257, planarPotential.py 626, 807, planarDissipativeForce.py 153, planarCompositePotential.py 164-192.
    The three-dimensional object is called without a velocity by PFromFull: an error for one that needs it. *)
Fixpoint plRf (p : Planar) (v : RR * RR) : option F3 :=
  match p with
  | PNat a c => Some (scale3 a (pl_Rf c))
  | PFromRZ a p => if isDiss p then None else Some (scale3 a (fun R phi t => apiRf p (0, 0, 0) R 0 0 t))
  | PFromFull a p => if isDiss p then None else Some (scale3 a (fun R phi t => apiRf p (0, 0, 0) R 0 phi t))
  | PFromDiss a p => Some (scale3 a (fun R phi t => apiRf p (fst v, snd v, 0) R 0 phi t))
  | PComp a ps => option_map (scale3 a) (osum3 (map (fun q => plRf q v) ps))
  end.
(** planarForce.py 259-270: a missing method is zero for an axisymmetric object.  planarAxiPotential._phitorque is 0 (358). *)
Definition dflt3 (nonax : bool) (a : RR) (m : option F3) : option F3 :=
  match m with Some f => Some (scale3 a f) | None => if nonax then None else Some zero3 end.
Fixpoint plPt (p : Planar) (v : RR * RR) : option F3 :=
  match p with
  | PNat a c => dflt3 (pl_nonaxi c) a (pl_pt c)
  | PFromRZ a p => Some (scale3 a zero3)
  | PFromFull a p => if isDiss p then None else option_map (fun f => scale3 a (fun R phi t => f R 0 phi t)) (apiPt p (0, 0, 0))
  | PFromDiss a p => option_map (fun f => scale3 a (fun R phi t => f R 0 phi t)) (apiPt p (fst v, snd v, 0))
  | PComp a ps => option_map (scale3 a) (osum3 (map (fun q => plPt q v) ps))
  end.
(** planarPotential.py 146-175, 651, 857; planarCompositePotential.py 224-247 *)
Fixpoint plR2 (p : Planar) : option F3 :=
  match p with
  | PNat a c => option_map (scale3 a) (pl_R2 c)
  | PFromRZ a p => option_map (fun f => scale3 a (fun R phi t => f R 0 0 t)) (apiR2 p)
  | PFromFull a p => option_map (fun f => scale3 a (fun R phi t => f R 0 phi t)) (apiR2 p)
  | PFromDiss _ _ => None
  | PComp a ps => option_map (scale3 a) (osum3 (map (fun q => if plDiss q then Some zero3 else plR2 q) ps))
  end.
(** planarPotential.py 177-239, 361-409, 859-907; planarCompositePotential.py 249-297 *)
Fixpoint plp2 (p : Planar) : option F3 :=
  match p with
  | PNat a c => option_map (scale3 a) (pl_p2 c)
  | PFromRZ a p => Some (scale3 a zero3)
  | PFromFull a p => option_map (fun f => scale3 a (fun R phi t => f R 0 phi t)) (apip2 p)
  | PFromDiss _ _ => None
  | PComp a ps => option_map (scale3 a) (osum3 (map (fun q => if plDiss q then Some zero3 else plp2 q) ps))
  end.
Fixpoint plRp (p : Planar) : option F3 :=
  match p with
  | PNat a c => option_map (scale3 a) (pl_Rp c)
  | PFromRZ a p => Some (scale3 a zero3)
  | PFromFull a p => option_map (fun f => scale3 a (fun R phi t => f R 0 phi t)) (apiRp p)
  | PFromDiss _ _ => None
  | PComp a ps => option_map (scale3 a) (osum3 (map (fun q => if plDiss q then Some zero3 else plRp q) ps))
  end.

(** linearPotential.py 255-307, verticalPotential.py 89-153, linearCompositePotential.py 123-178 *)
Fixpoint liEv (p : Linear) : option F2 :=
  match p with
  | LNat a c => Some (scale2 a (li_ev c))
  | LVert a p R phi mid => option_map (fun f => scale2 a (fun x t => f R x phi t - mid)) (apiEv p)
  | LComp a ps => option_map (scale2 a) (osum2 (map liEv ps))
  end.
Fixpoint liF (p : Linear) : option F2 :=
  match p with
  | LNat a c => Some (scale2 a (li_f c))
  | LVert a p R phi _ => Some (scale2 a (fun x t => apizf p (0, 0, 0) R x phi t))
  | LComp a ps => option_map (scale2 a) (osum2 (map liF ps))
  end.
Fixpoint liF2 (p : Linear) : option F2 :=
  match p with
  | LNat a c => option_map (scale2 a) (li_f2 c)
  | LVert a p R phi _ => option_map (fun f => scale2 a (fun x t => f R x phi t)) (apiz2 p)
  | LComp a ps => option_map (scale2 a) (osum2 (map liF2 ps))
  end.

(** What may be passed; a Python list is a list of such objects *)
Inductive obj := O3 (p : Pot) | O2 (p : Planar) | O1 (p : Linear).
Inductive rerr := PotentialError | NotImplementedError | ValueError.
Inductive rres (A : Type) := ROk (a : A) | RErr (e : rerr).
Arguments ROk {A} a. Arguments RErr {A} e.

(** planarPotential.py 949-970 on one member *)
Definition planar_of (p : Pot) : Planar :=
  match p with
  | Diss _ _ => PFromDiss 1 p
  | _ => if isNonAxi p then PFromFull 1 p else PFromRZ 1 p
  end.
(** toPlanarPotential, planarPotential.py 925-978 *)
Definition toPlanar (o : obj) : rres Planar :=
  match o with
  | O3 (Comp _ ps) => ROk (PComp 1 (map planar_of ps))
  | O3 p => ROk (planar_of p)
  | O2 (PFromDiss _ _) => RErr PotentialError     (* it is no planarPotential: falls through to 976 *)
  | O2 p => ROk p
  | O1 _ => RErr PotentialError
  end.
(** Potential.py 89-131 for a list, then toPlanarPotential.  planarCompositePotential flattens its argument. *)
Fixpoint plLeaves (p : Planar) : list Planar := match p with PComp _ ps => flat_map plLeaves ps | _ => [p] end.
Definition toPlanarList (l : list obj) : rres Planar :=
  let d3 o := match o with O3 _ => true | _ => false end in
  let d2 o := match o with O3 _ | O2 _ => true | _ => false end in
  let leaves3 o := match o with O3 p => map O3 (leaves p) | O2 p => map O2 (plLeaves p) | O1 p => [O1 p] end in
  let l := flat_map leaves3 l in
  if forallb d3 l then toPlanar (O3 (Comp 1 (flat_map (fun o => match o with O3 p => leaves p | _ => [] end) l)))
  else if forallb d2 l then
    ROk (PComp 1 (flat_map (fun o => match o with O3 p => [planar_of p] | O2 p => [p] | O1 _ => [] end) l))
  else RErr PotentialError.

(** verticalPotential.__init__, verticalPotential.py 15-62 *)
Definition mkVert (p : Pot) (R : RR) (phi : option RR) (t0 : RR) : rres Linear :=
  let go f := match apiEv p with
              | Some ev => ROk (LVert 1 p R f (ev R 0 f t0))
              | None => RErr PotentialError
              end in
  match phi with
  | None => if isNonAxi p then RErr PotentialError else go 0
  | Some f => go f
  end.
Fixpoint rsequence {A} (l : list (rres A)) : rres (list A) :=
  match l with
  | [] => ROk []
  | RErr e :: _ => RErr e
  | ROk x :: r => match rsequence r with RErr e => RErr e | ROk xs => ROk (x :: xs) end
  end.
(** toVerticalPotential, verticalPotential.py 221-291; RZToverticalPotential (156-218) is the case phi=None, t0=0 *)
Definition toVertical (o : obj) (R : RR) (phi : option RR) (t0 : RR) : rres Linear :=
  match o with
  | O3 p =>
    if isDiss p then RErr NotImplementedError else
    match p with
    | Comp _ ps => match rsequence (map (fun p => mkVert p R phi t0) ps) with RErr e => RErr e | ROk l => ROk (LComp 1 l) end
    | _ => mkVert p R phi t0
    end
  | O2 p => if plDiss p then RErr NotImplementedError else RErr PotentialError
  | O1 p => ROk p
  end.
