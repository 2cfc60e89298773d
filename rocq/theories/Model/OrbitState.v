(** The mutable state of an Orbit: galpy/orbit/Orbits.py.

    Orbits with [size] members; arrays of members are lists.  A phase-space point is the list of its phasedim coordinates
    ([x,vx], [R,vR,vT], [R,vR,vT,phi], [R,vR,vT,z,vz] or [R,vR,vT,z,vz,phi]).  Left out: unit conversion of times, NaN (bruteSOS), the names, the
    warnings, and evaluation when each member has its own times (_call_internal_indiv_t). *)
From Coq Require Import Reals List Arith Bool.
From Verif.Lib Require Import Atan2.
Import ListNotations.
Open Scope R_scope.
Notation RR := RbaseSymbolsImpl.R (only parsing).

Definition point := list RR.
Inductive times := Shared (ts : list RR) | PerOrbit (tss : list (list RR)).
Definition times_of (T : times) (i : nat) : list RR := match T with Shared ts => ts | PerOrbit tss => nth i tss [] end.
Inductive outcome (A : Type) := Ok (a : A) | ValueError | IndexError | AttributeError | LookupError | IntegrationError | NotModelled.
Arguments Ok {A}. Arguments ValueError {A}. Arguments IndexError {A}. Arguments AttributeError {A}. Arguments LookupError {A}.
Arguments IntegrationError {A}. Arguments NotModelled {A}.

Definition Rleb (a b : RR) : bool := if Rle_dec a b then true else false.
Definition Rltb (a b : RR) : bool := if Rlt_dec a b then true else false.
Definition Reqb (a b : RR) : bool := if Req_EM_T a b then true else false.
(** numpy.isclose with its default tolerances *)
Definition isclose (a b : RR) : bool := Rleb (Rabs (a - b)) (1 / 10 ^ 8 + 1 / 10 ^ 5 * Rabs b).

(** numpy.argsort and fancy indexing *)
Section Argsort.
  Context {A : Type} (leb : A -> A -> bool).
  Fixpoint insert (x : A * nat) (l : list (A * nat)) : list (A * nat) :=
    match l with [] => [x] | y :: l' => if leb (fst x) (fst y) then x :: l else y :: insert x l' end.
  Definition isort (l : list (A * nat)) : list (A * nat) := fold_right insert [] l.
  Definition argsort (l : list A) : list nat := map snd (isort (combine l (seq 0 (length l)))).
End Argsort.
Definition take {A} (l : list A) (d : A) (idx : list nat) : list A := map (fun i => nth i l d) idx.

(** Attributes; [None]: hasattr is False *)
Record orb (pot cache : Type) := mkOrb { vxvv : list point; t_ : option times; orbit_ : option (list (list point)); pot_ : option pot;
  orig_pot : option pot; cannot_continue : bool; orbInterp : option cache }.
Arguments mkOrb {pot cache}. Arguments vxvv {pot cache}. Arguments t_ {pot cache}. Arguments orbit_ {pot cache}. Arguments pot_ {pot cache}.
Arguments orig_pot {pot cache}. Arguments cannot_continue {pot cache}. Arguments orbInterp {pot cache}.
Definition fresh {pot cache} (v : list point) : orb pot cache := mkOrb v None None None None false None.

Section Integrate.
  Context {pot cache : Type}.
  (** The integration of one member (one of the integrators); None: it raises *)
  Variable integ : pot -> list RR -> point -> option (list point).
  Fixpoint all_some {A} (l : list (option A)) : option (list A) :=
    match l with [] => Some [] | None :: _ => None | Some a :: l => option_map (cons a) (all_some l) end.

  (** _should_continue_integration, 1428-1496; whether the potential changed only matters for a warning, but the attribute _orig_pot must
      exist.  Returns should_continue and is_forward. *)
  Definition should_continue (o : orb pot cache) (t : times) : outcome (bool * bool) :=
    if cannot_continue o then Ok (false, true)
    else match t_ o, pot_ o with
    | Some self_t, Some _ =>
      match t, self_t with
      | Shared t, Shared self_t =>
        match orig_pot o with
        | None => AttributeError
        | Some _ =>
          match t, self_t with
          | [], _ | _, [] => IndexError
          | t0 :: _, s0 :: _ =>
            let old_direction := Rltb s0 (last self_t 0) in
            if isclose t0 (last self_t 0) then
              let new_direction := if (1 <? length t)%nat then Rltb t0 (last t 0) else old_direction in
              Ok (if eqb old_direction new_direction then (true, true) else (false, true))
            else if isclose t0 s0 then
              let new_direction := if (1 <? length t)%nat then Rltb t0 (last t 0) else negb old_direction in
              Ok (if negb (eqb old_direction new_direction) then (true, false) else (false, true))
            else Ok (false, true)
          end
        end
      | _, _ => Ok (false, true)
      end
    | _, _ => Ok (false, true)
    end.
  (** A call of integrate: the times, the potential, and whether the checks of 1644-1687 (name of the integrator, dimension, units, spacing, dt)
      pass; they come before any change of the state *)
  Record call := mkCall { c_times : times; c_pot : pot; c_valid : bool }.
  (** _integrate_impl, 1624-1837 *)
  Definition integrate (o : orb pot cache) (c : call) : orb pot cache * outcome unit :=
    if negb (c_valid c) then (o, ValueError)
    else if match c_times c with PerOrbit tss => negb (length tss =? length (vxvv o))%nat | Shared _ => false end then (o, ValueError)
    else match should_continue o (c_times c) with
    | Ok (cont, forward) =>
      match (if cont then match t_ o, orbit_ o with
                          | Some (Shared old_t), Some old_orbit => Some (Some (old_t, old_orbit))
                          | _, _ => None end
             else Some None) with
      | None => (o, AttributeError)
      | Some old =>
        (* 1711-1721 *)
        let vx : list point := match old with
                  | None => vxvv o
                  | Some (_, old_orbit) => if forward then map (fun row : list point => last row []) old_orbit else map (fun row : list point => hd [] row) old_orbit
                  end in
        (* 1724-1729 *)
        let o1 := mkOrb vx (Some (c_times c)) (orbit_ o) (Some (c_pot c)) (Some (c_pot c)) (cannot_continue o) None in
        match all_some (map (fun i => integ (c_pot c) (times_of (c_times c) i) (nth i vx [])) (seq 0 (length vx))) with
        | None => (o1, IntegrationError)
        | Some out =>
          match old, c_times c with
          | Some (old_t, old_orbit), Shared t =>
            (* 1823-1837 *)
            let '(t, out) := if forward then (old_t ++ tl t, map (fun i => nth i old_orbit [] ++ tl (nth i out [])) (seq 0 (length vx)))
                             else (rev (tl t) ++ old_t, map (fun i => rev (tl (nth i out [])) ++ nth i old_orbit []) (seq 0 (length vx))) in
            (mkOrb (vxvv o) (Some (Shared t)) (Some out) (pot_ o1) (orig_pot o1) (cannot_continue o1) None, Ok tt)
          | _, _ => (mkOrb vx (t_ o1) (Some out) (pot_ o1) (orig_pot o1) (cannot_continue o1) None, Ok tt)
          end
        end
      end
    | e => (o, match e with IndexError => IndexError | _ => AttributeError end)
    end.
  Definition integrate_all (o : orb pot cache) (cs : list call) : orb pot cache := fold_left (fun o c => fst (integrate o c)) cs o.
End Integrate.
Arguments mkCall {pot}. Arguments c_times {pot}. Arguments c_pot {pot}. Arguments c_valid {pot}.

(** flip, 2803-2865 (inplace=False): a new Orbit from the coordinates listed for each phasedim; any other phasedim leaves [out] unbound *)
Definition flip_point (p : point) : option point :=
  match p with
  | [x; vx] => Some [x; - vx]
  | [R; vR; vT] => Some [R; - vR; - vT]
  | [R; vR; vT; phi] => Some [R; - vR; - vT; phi]
  | [R; vR; vT; z; vz] => Some [R; - vR; - vT; z; - vz]
  | [R; vR; vT; z; vz; phi] => Some [R; - vR; - vT; z; - vz; phi]
  | _ => None
  end.
Definition flip {pot cache} (o : orb pot cache) : outcome (orb pot cache) :=
  match all_some (map flip_point (vxvv o)) with Some v => Ok (fresh v) | None => NotModelled end.
(** flip, 2788-2802 (inplace=True): vxvv and a stored trajectory are negated by column, and the interpolation is dropped *)
Fixpoint neg_at (k : nat) (p : point) : point := match p, k with [], _ => [] | a :: p, O => - a :: p | a :: p, S k => a :: neg_at k p end.
Definition flip_columns (p : point) : point :=
  let n := length p in
  let p := neg_at 1 p in let p := if (2 <? n)%nat then neg_at 2 p else p in if (4 <? n)%nat then neg_at 4 p else p.
Definition flip_inplace {pot cache} (o : orb pot cache) : orb pot cache :=
  mkOrb (map flip_columns (vxvv o)) (t_ o) (option_map (map (map flip_columns)) (orbit_ o)) (pot_ o) (orig_pot o) (cannot_continue o)
        (match orbit_ o with Some _ => None | None => orbInterp o end).

(** Evaluation of an integrated orbit *)
Section Eval.
  Context {pot : Type}.
  (** scipy's splines through the given values of each member (_1DInterp for one member, RectBivariateSpline for more); None: it raises
      (for instance for fewer than four times) *)
  Variable spline : list RR -> list (list RR) -> option (list (RR -> RR)).
  (** _orbInterp: for each coordinate the functions of the members *)
  Definition cache := list (list (RR -> RR)).
  Definition has_phi (phasedim : nat) : bool := ((phasedim =? 4) || (phasedim =? 6))%nat.
  (** 6787-6835: the coordinate ii that is interpolated *)
  Definition interp_coord (phasedim ii : nat) (p : point) : RR :=
    if has_phi phasedim && (ii =? 0)%nat then nth 0 p 0 * cos (last p 0)
    else if has_phi phasedim && (ii =? phasedim - 1)%nat then nth 0 p 0 * sin (last p 0)
    else nth ii p 0.
  (** 6560-6570: back *)
  Definition uninterp (phasedim : nat) (q : list RR) : point :=
    if has_phi phasedim then
      let x := nth 0 q 0 in let y := last q 0 in
      map (fun ii => if (ii =? 0)%nat then sqrt (x * x + y * y) else if (ii =? phasedim - 1)%nat then atan2 y x else nth ii q 0) (seq 0 phasedim)
    else q.
  Definition phasedim (o : orb pot cache) : nat := length (nth 0 (vxvv o) []).
  (** _setupOrbitInterp, 6739-6843, for shared times: the new state and whether it raised.  Times that decrease are sorted first and unsorted
      at the end, so not if a spline raises. *)
  Definition setup (o : orb pot cache) : orb pot cache * bool :=
    match orbInterp o with
    | Some _ => (o, true)
    | None =>
      match t_ o, orbit_ o with
      | Some (Shared (t0 :: t1 :: ts)), Some rows =>
        let t := t0 :: t1 :: ts in
        let backward := Rltb t1 t0 in
        let sindx := argsort Rleb t in
        let t' := if backward then take t 0 sindx else t in
        let rows' := if backward then map (fun row : list point => take row [] sindx) rows else rows in
        let o' := mkOrb (vxvv o) (Some (Shared t')) (Some rows') (pot_ o) (orig_pot o) (cannot_continue o) None in
        match all_some (map (fun ii => spline t' (map (map (interp_coord (phasedim o) ii)) rows')) (seq 0 (phasedim o))) with
        | None => (o', false)
        | Some c =>
          let usindx := argsort Nat.leb sindx in
          let t'' := if backward then take t' 0 usindx else t' in
          let rows'' := if backward then map (fun row : list point => take row [] usindx) rows' else rows' in
          (mkOrb (vxvv o) (Some (Shared t'')) (Some rows'') (pot_ o) (orig_pot o) (cannot_continue o) (Some c), true)
        end
      | _, _ => (o, false)
      end
    end.
  Fixpoint index_of (x : RR) (l : list RR) : option nat := match l with [] => None | y :: l => if Reqb x y then Some O else option_map S (index_of x l) end.
  Fixpoint list_eqb (a b : list RR) : bool := match a, b with [], [] => true | x :: a, y :: b => Reqb x y && list_eqb a b | _, _ => false end.
  Definition Rmax_list (l : list RR) : RR := fold_right Rmax (hd 0 l) l.
  Definition Rmin_list (l : list RR) : RR := fold_right Rmin (hd 0 l) l.
  Inductive request := NoTime | Scalar (t : RR) | Array (ts : list RR).
  (** The interpolated points of member i at the times ts, 6560-6570 *)
  Definition interpolated (pd : nat) (c : cache) (i : nat) (t : RR) : point := uninterp pd (map (fun fs => nth i fs (fun _ => 0) t) c).
  (** _call_internal, 6460-6575.  The result lists for each member the points at the requested times (one point for a single time). *)
  Definition call_internal (o : orb pot cache) (r : request) : orb pot cache * outcome (list (list point)) :=
    match r with
    | NoTime => (o, Ok (map (fun p => [p]) (vxvv o)))
    | Scalar _ | Array _ =>
      match t_ o with
      | None => match r with
                | Scalar t => if Reqb t 0 then (o, Ok (map (fun p => [p]) (vxvv o))) else (o, ValueError)
                | _ => (o, ValueError)
                end
      | Some (PerOrbit _) => (o, NotModelled)
      | Some (Shared self_t) =>
        match orbit_ o with
        | None => (o, AttributeError)
        | Some rows =>
          match (match r with
                 | Array ts => if list_eqb ts self_t then Some rows else None                               (* 6498-6525 *)
                 | Scalar t => option_map (fun k => map (fun row : list point => [nth k row []]) rows) (index_of t self_t)   (* 6526-6531 *)
                 | NoTime => None
                 end) with
          | Some out => (o, Ok out)
          | None =>
            let ts := match r with Scalar t => [t] | Array ts => ts | NoTime => [] end in
            if existsb (fun t => Rltb (Rmax_list self_t) t) ts || existsb (fun t => Rltb t (Rmin_list self_t)) ts then (o, ValueError)   (* 6538-6541 *)
            else
              let '(o, ok) := setup o in
              match ok, orbInterp o with
              | true, Some c =>
                let sindx := argsort Rleb ts in                                                              (* 6557-6575 *)
                let sorted := take ts 0 sindx in
                let usindx := argsort Nat.leb sindx in
                let out := map (fun i => map (interpolated (phasedim o) c i) sorted) (seq 0 (length (vxvv o))) in
                (o, Ok (if (length ts =? 1)%nat then out else map (fun row : list point => take row [] usindx) out))
              | _, _ =>
                match t_ o, orbit_ o with                                                                     (* 6544-6554 *)
                | Some (Shared self_t), Some rows =>
                  match all_some (map (fun t => index_of t self_t) ts) with
                  | Some idx => (o, Ok (map (fun row : list point => take row [] idx) rows))
                  | None => (o, LookupError)
                  end
                | _, _ => (o, AttributeError)
                end
              end
          end
        end
      end
    end.
End Eval.
