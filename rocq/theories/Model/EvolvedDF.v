(** df/evolveddiskdf.py: evaluation of a distribution function that evolves from an initial one at time [to] (60-64, 104-135, 166-230, 351-427, 2949-2969).
    [St]: phase-space positions; [Rad]: o.R; [flow t0 t1 w]: the orbit that is at w at the first of the integration times t0, at time t1 (Orbit.integrate
    and the orbit at a stored time; exact instead of a numerical integration). [f0]: the initial distribution function.
    Not modelled: units, the derivatives (deriv), the marginalisations, the moments, not-a-number values of f0. *)
From Coq Require Import Reals List.
Import ListNotations.
Open Scope R_scope.
Notation RR := RbaseSymbolsImpl.R (only parsing).

Section Evolved.
  Variable St : Type.
  Variable Rad : St -> RR.
  Variable flow : RR -> RR -> St -> St.
  Variable f0 : St -> RR.
  Variable to : RR.
  (** numpy.finfo(float64).eps and .max *)
  Variables eps maxfloat : RR.

  (** __call__ with a number t: 351-355, 363-366, 387, 390-397 *)
  Definition ev_call (t : RR) (w : St) : RR :=
    if Req_EM_T to t then f0 w else let o := flow t to w in if Rle_dec (Rad o) 0 then eps else f0 o.
  (** the same with log=True: 352-353, 390-393, 413-424 *)
  Definition ev_log (t : RR) (w : St) : RR :=
    if Req_EM_T to t then ln (f0 w) else let o := flow t to w in
    if Rle_dec (Rad o) 0 then - maxfloat else if Req_EM_T (f0 o) 0 then - maxfloat else ln (f0 o).

  Fixpoint descending (t : list RR) : Prop := match t with a :: (b :: _) as u => b <= a /\ descending u | _ => True end.
  Fixpoint descending_dec (t : list RR) : bool := match t with a :: (b :: _) as u => if Rle_dec b a then descending_dec u else false | _ => true end.
  (** __call__ with a list of times and the integrators other than odeint: 168-173, 206, 217-230; _create_ts_tlist, 2951-2952, 2961-2969. None: an exception.
      The times are descending when they are sorted, so that sorting is reversal; one time: a list of one value instead of a value *)
  Definition ev_list (t : list RR) (w : St) : option (list RR) :=
    match t with
    | [] => None
    | t0 :: rest =>
        if Req_EM_T to t0 then Some [f0 w] else if negb (descending_dec t) then None else
        match rest with
        | [] => Some [f0 (flow (Rmax t0 to) (Rmin t0 to) w)]
        | _ => let ts := rev (List.map (fun ti => - ti + to + t0) t) in Some (rev (List.map (fun s => f0 (flow (hd 0 ts) s w)) ts))
        end
    end.
  (** the same with odeint: 212-215; 2954-2960, 2967-2968: the orbit starts at the largest of the times *)
  Definition ev_start (t0 : RR) (t : list RR) : RR := fold_right Rmax (Rmax t0 to) (List.map (fun ti => to + t0 - ti) t).
  Definition ev_list_odeint (t : list RR) (w : St) : option (list RR) :=
    match t with
    | [] => None
    | t0 :: _ =>
        if Req_EM_T to t0 then Some [f0 w] else if negb (descending_dec t) then None else
        Some (List.map (fun ti => f0 (flow (ev_start t0 t) (to + t0 - ti) w)) t)
    end.
End Evolved.
