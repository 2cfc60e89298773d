(** Restriction of a potential to the plane z = 0, or to a vertical line. *)
From Coq Require Import Reals List.
From Verif.Model Require Import PotAPI Reduce.
From Verif.Spec Require Import SuperSpec.
Open Scope R_scope.
Notation RR := RbaseSymbolsImpl.R (only parsing).

Inductive pqty := PEv | PRf | PPt | PR2 | Pp2 | PRp.
Definition qty3 (q : pqty) : qty := match q with PEv => QEv | PRf => QRf | PPt => QPt | PR2 => QR2 | Pp2 => Qp2 | PRp => QRp end.
(** What the planar object returns for the quantity at planar velocity (vR, vT); None when it raises. *)
Definition planar_value (q : pqty) (p : Planar) (v : RR * RR) : option F3 :=
  match q with PEv => plEv p | PRf => plRf p v | PPt => plPt p v | PR2 => plR2 p | Pp2 => plp2 p | PRp => plRp p end.

(** The planar quantity is the three-dimensional one at z = 0, with no vertical velocity: the same number at every point, or an exception
    in both. *)
Definition restricts (o3 : option F4) (o2 : option F3) : Prop :=
  match o3, o2 with
  | Some f, Some g => forall R phi t, g R phi t = f R 0 phi t
  | None, None => True
  | _, _ => False
  end.
Definition is_planar_restriction (p : Pot) (pl : Planar) : Prop :=
  forall q v, restricts (value (qty3 q) p (fst v, snd v, 0)) (planar_value q pl v).

(** An object that calls itself axisymmetric is: its values do not depend on phi and its azimuthal derivatives vanish. *)
Definition honest_axi (p : Pot) : Prop := isNonAxi p = false ->
  (forall q v f, In q (PEv :: PRf :: PR2 :: nil) -> value (qty3 q) p v = Some f -> forall R z phi phi' t, f R z phi t = f R z phi' t) /\
  (forall q v, In q (PPt :: Pp2 :: PRp :: nil) -> exists f, value (qty3 q) p v = Some f /\ forall R z phi t, f R z phi t = 0).
(** A conservative three-dimensional object does not look at the velocity. *)
Definition members (p : Pot) : list Pot := match p with Comp _ ps => ps | _ => p :: nil end.
Definition simple (p : Pot) : Prop := match p with Comp _ _ => False | _ => True end.
Definition amplitude (p : Pot) : RR := match p with Single a _ | Diss a _ | Comp a _ => a end.
(** A combination as the constructor and the operators build it, with no amplitude of its own. *)
Definition amplitude_one_if_composite (p : Pot) : Prop := match p with Comp a _ => a = 1 | _ => True end.

(** The one-dimensional quantity is the three-dimensional one along the line (R, phi). *)
Definition on_line (R phi : RR) (o4 : option F4) (o2 : option F2) : Prop :=
  match o4, o2 with Some f, Some g => forall x t, g x t = f R x phi t | None, None => True | _, _ => False end.
(** The angle used when none is given *)
Definition the_phi (phi : option RR) : RR := match phi with Some f => f | None => 0 end.
(** A vertical potential of [p]: potential measured from its midplane value at time t0, vertical force, and second derivative. *)
Definition vertical_of (p : Pot) (R phi t0 : RR) (l : Linear) : Prop :=
  (exists Phi, apiEv p = Some Phi /\ exists g, liEv l = Some g /\ forall x t, g x t = Phi R x phi t - Phi R 0 phi t0) /\
  on_line R phi (Some (apizf p (0, 0, 0))) (liF l) /\ on_line R phi (apiz2 p) (liF2 l).
