(** C35 specification for orbits in the plane *)
From Coq Require Import Reals String List Bool ZArith Lia.
From Verif Require Import Model.CSerial Spec.CSerialSpec Model.CSerialPlanar.
Import ListNotations.
Open Scope string_scope. Open Scope list_scope. Open Scope R_scope.

Section Spec.
  Variable nan : R.
  Variable linspace : R -> R -> nat -> list R.
  Variable trange : option (R * R).
  (** when a spiral or disk is not grown, its growth times are passed as NaN *)
  Definition growth_fields (g : option (R * R)) : list (string * R) :=
    match g with Some (tform, tsteady) => [("tform", tform); ("tsteady", tsteady)] | None => [("tform", nan); ("tsteady", nan)] end.
  Inductive describes2 : leaf2 -> list seen -> Prop :=
  | d2_shared l s : (forall amp alpha q2 core2, l <> FlattenedPower amp alpha q2 core2) -> describes linspace trange l s -> describes2 (Shared l) s
  | d2_fp amp alpha q2 core2 : describes2 (Shared (FlattenedPower amp alpha q2 core2)) [flat "FlattenedPower" [("amp", amp); ("alpha", alpha); ("core2", core2)]]     (* q does not matter in the plane *)
  | d2_tls amp A to s2 alpha m om ga : describes2 (TransientLogSpiral amp A to s2 alpha m om ga)
      [flat "TransientLogSpiral" [("amp", amp); ("A", A); ("to", to); ("sigma2", s2); ("alpha", alpha); ("m", m); ("omegas", om); ("gamma", ga)]]
  | d2_sls amp g A alpha m om ga : describes2 (SteadyLogSpiral amp g A alpha m om ga)
      [flat "SteadyLogSpiral" ([("amp", amp)] ++ growth_fields g ++ [("A", A); ("alpha", alpha); ("m", m); ("omegas", om); ("gamma", ga)])]
  | d2_ell amp g t p ph : describes2 (EllipticalDisk amp g t p ph) [flat "EllipticalDisk" ([("amp", amp)] ++ growth_fields g ++ [("twophio", t); ("p", p); ("phib", ph)])]
  | d2_lop amp m p ph : describes2 (LopsidedDisk amp m p ph) [flat "LopsidedDisk" [("amp", amp); ("mphio", m); ("p", p); ("phib", ph)]]
  | d2_cos amp mo p mb m rb rbp rb2p r1p : describes2 (CosmphiDisk amp mo p mb m rb rbp rb2p r1p)
      [flat "CosmphiDisk" [("amp", amp); ("mphio", mo); ("p", p); ("mphib", mb); ("m", m); ("rb", rb); ("rbp", rbp); ("rb2p", rb2p); ("r1p", r1p)]]
  | d2_hh amp : describes2 (HenonHeiles amp) [flat "HenonHeiles" [("amp", amp)]].
  (** in the plane, the height of a moving object is not used *)
  Definition describes_wrapper2 (w : wrapper) (inner : list seen) : seen :=
    match w with
    | MovingObject amp ts xs ys zs => Seen "MovingObject" [("amp", [amp]); ("t0", [first ts]); ("tf", [final ts]); ("t, scaled", scaled (first ts) (final ts) ts); ("x", xs); ("y", ys)] [] [] inner
    | w => describes_wrapper nan w inner
    end.
  Inductive means2 : pot2 -> list seen -> Prop :=
  | m2_leaf l s : describes2 l s -> means2 (Leaf2 l) s
  | m2_wrap w inner s : means2_all inner s -> means2 (Wrap2 w inner) [describes_wrapper2 w s]
  with means2_all : list pot2 -> list seen -> Prop :=
  | m2_nil : means2_all [] []
  | m2_cons p l s s' : means2 p s -> means2_all l s' -> means2_all (p :: l) (s ++ s').
  Inductive pot2_wf : pot2 -> Prop :=
  | wf2_leaf l : match l with Shared l => leaf_wf l | _ => True end -> pot2_wf (Leaf2 l)
  | wf2_wrap w inner : wrapper_wf w -> List.Forall pot2_wf inner -> pot2_wf (Wrap2 w inner).
  (** no TimeDependentAmplitudeWrapperPotential anywhere *)
  Inductive no_tdep : pot2 -> Prop :=
  | nt_leaf l : no_tdep (Leaf2 l)
  | nt_wrap w inner : (forall amp A, w <> TimeDependentAmplitude amp A) -> List.Forall no_tdep inner -> no_tdep (Wrap2 w inner).
End Spec.
