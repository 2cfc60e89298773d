(** What "the value of a quantity" means for superposition and scaling. *)
From Coq Require Import Reals List Bool.
From Verif.Model Require Import PotAPI.
Import ListNotations.
Open Scope R_scope.

(** The quantities of the public API. *)
Inductive qty := QEv | QRf | Qzf | QPt | QR2 | Qz2 | QRz | Qp2 | QRp | Qpz | QDens.

(** What the API returns for a quantity of an object; [None] when it raises. *)
Definition value (q : qty) (p : Pot) (v : R * R * R) : option F4 :=
  match q with
  | QEv => apiEv p
  | QRf => Some (apiRf p v)
  | Qzf => Some (apizf p v)
  | QPt => apiPt p v
  | QR2 => apiR2 p
  | Qz2 => apiz2 p
  | QRz => apiRz p
  | Qp2 => apip2 p
  | QRp => apiRp p
  | Qpz => apipz p
  | QDens => apiDens p
  end.

Definition is_force_qty (q : qty) : bool :=
  match q with QRf | Qzf | QPt => true | _ => false end.

(** A dissipative force contributes to forces only; to everything else it contributes 0. *)
Definition contribution (q : qty) (p : Pot) (v : R * R * R) : option F4 :=
  match p with
  | Diss _ _ => if is_force_qty q then value q p v else Some (fun _ _ _ _ => 0)
  | _ => value q p v
  end.

(** Same outcome: both raise, or the same number at every point. *)
Definition same (o1 o2 : option F4) : Prop :=
  match o1, o2 with
  | Some f, Some g => forall R z phi t, f R z phi t = g R z phi t
  | None, None => True
  | _, _ => False
  end.

(** Sum and multiple of outcomes: raising is contagious. *)
Definition plus (o1 o2 : option F4) : option F4 :=
  match o1, o2 with
  | Some f, Some g => Some (fun R z phi t => f R z phi t + g R z phi t)
  | _, _ => None
  end.
Definition times (b : R) (o : option F4) : option F4 :=
  match o with Some f => Some (fun R z phi t => b * f R z phi t) | None => None end.
Definition total (l : list (option F4)) : option F4 :=
  fold_right plus (Some (fun _ _ _ _ => 0)) l.

(** The value of an arbitrarily nested list of objects is the sum of its elements. *)
Fixpoint item_value (q : qty) (v : R * R * R) (i : item) : option F4 :=
  match i with
  | Leaf p => contribution q p v
  | Nest l => total (map (item_value q v) l)
  end.

(** The objects a user can build: instances, list constructor (nested lists, possibly
    containing composites), + and * and / by a number. *)
Inductive Built : Pot -> Prop :=
| b_single a c : Built (Single a c)
| b_diss a d : Built (Diss a d)
| b_list l : Forall BuiltItem l -> Built (mkComp l)
| b_add p q : Built p -> Built q -> Built (addPot p q)
| b_mul p b : Built p -> Built (mulPot p b)
| b_div p b : Built p -> Built (divPot p b)
with BuiltItem : item -> Prop :=
| bi_leaf p : Built p -> BuiltItem (Leaf p)
| bi_nest l : Forall BuiltItem l -> BuiltItem (Nest l).
