(** df/streamTrack.py: assigning stars to the points of a track and to bins. scipy's cKDTree is an oracle that returns the indices of the curve in order of distance. Points at equal distances may come in a different order for each number of neighbours that is asked for. *)
From Coq Require Import Reals List Arith Bool.
Import ListNotations.
Open Scope R_scope.
Notation RR := RbaseSymbolsImpl.R (only parsing).

Fixpoint zip2 {A B C} (f : A -> B -> C) (l : list A) (k : list B) : list C :=
  match l, k with a :: l', b :: k' => f a b :: zip2 f l' k' | _, _ => [] end.
Fixpoint total (l : list RR) : RR := match l with [] => 0 | a :: l' => a + total l' end.
(** the distance used by cKDTree, squared *)
Definition d2 (a b : list RR) : RR := total (zip2 (fun x y => (x - y) ^ 2) a b).
(** _closest_point_on_curve, 149-154: the velocities are scaled when there are six coordinates. The code tests the width of the curve only, here each list its own length: stars and curve have the same width *)
Definition scale (w : RR) (l : list RR) : list RR :=
  if Req_EM_T w 1 then l else if Nat.eqb (length l) 6 then zip2 Rmult l [1; 1; 1; w; w; w] else l.

Section Closest.
  Variable M : nat.                       (* points of the curve *)
  Variable allowed : nat -> nat -> bool.  (* mask[star, point] *)
  Variable order : nat -> nat -> list nat. (* for each number of neighbours asked for and star, the points in order of distance *)
  Variable curve_t : nat -> RR.
  (** streamTrack.py 156-158 *)
  Definition closest_free (p : nat) : RR := curve_t (hd 0%nat (order 1%nat p)).
  (** streamTrack.py 164-175: the first allowed of the min(k, M) nearest points of star p *)
  Definition choose (k p : nat) : option nat := find (allowed p) (firstn (min k M) (order (min k M) p)).
  Definition hit (k p : nat) : bool := match choose k p with Some _ => true | None => false end.
  (** streamTrack.py 163-181: the loop over all stars that remain; [fuel] bounds the passes, None: out of fuel *)
  Fixpoint passes (fuel k : nat) (remaining : list nat) (out : nat -> RR) : option (nat -> RR) :=
    match remaining with
    | [] => Some out
    | _ =>
      match fuel with
      | O => None
      | S f =>
        let out := fun p => if existsb (Nat.eqb p) remaining then match choose k p with Some j => curve_t j | None => out p end else out p in
        let remaining := filter (fun p => negb (hit k p)) remaining in
        if (M <=? k)%nat then Some (fun p => if existsb (Nat.eqb p) remaining then 0 else out p)
        else passes f (min (k * 4) M) remaining out
      end
    end.
  (** streamTrack.py 159-162 and 182; [junk]: what numpy.empty holds *)
  Definition closest_masked (N : nat) (junk : nat -> RR) : option (nat -> RR) := passes (S M) (min (max 1 (M / 64)) M) (seq 0 N) junk.
End Closest.

(** _bin_by_tp, streamTrack.py 22-30; 36-39 for [count]. The means and covariances (42-44) are not modelled. *)
Fixpoint mids (l : list RR) : list RR := match l with a :: (b :: _) as l' => 0.5 * (a + b) :: mids l' | _ => [] end.
Definition edges (nodes : list RR) : list RR :=
  let dt := nth 1 nodes 0 - nth 0 nodes 0 in (nth 0 nodes 0 - 0.5 * dt) :: mids nodes ++ [last nodes 0 + 0.5 * dt].
(** numpy.searchsorted(edges, t) for sorted edges *)
Fixpoint searchsorted (e : list RR) (t : RR) : nat := match e with [] => O | a :: e' => if Rlt_dec a t then S (searchsorted e' t) else O end.
(** streamTrack.py 31, numpy.clip(... - 1, 0, M - 1); the subtraction of natural numbers stops at zero *)
Definition bin (nodes : list RR) (t : RR) : nat := min (searchsorted (edges nodes) t - 1) (length nodes - 1).
(** streamTrack.py 37-39 *)
Definition count (nodes : list RR) (ts : list RR) (m : nat) : nat := length (filter (fun t => Nat.eqb (bin nodes t) m) ts).
