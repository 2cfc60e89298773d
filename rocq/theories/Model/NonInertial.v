(** galpy/potential/NonInertialFrameForce.py *)
From Coq Require Import Reals List Bool.
From Verif.Lib Require Import Atan2 Vec3.
From Verif.Model Require Import Coords CoordsVec.
Import ListNotations.
Open Scope R_scope.
Notation RR := RbaseSymbolsImpl.R (only parsing).

Inductive nerr := ValueError | RuntimeError | TypeError.
Inductive nres (A : Type) := NOk (a : A) | NErr (e : nerr).
Arguments NOk {A} a. Arguments NErr {A} e.

(** What may be passed as Omega or Omegadot: nothing, a number (a Quantity is one after parsing), a numpy array of three, a
    Python list of three numbers, a function of time or a list of three functions (here one vector-valued function). *)
Inductive freq := FNone | FNum (w : RR) | FArr (w : V3) | FList (w : V3) | FFun (f : RR -> RR) | FFuns (f : RR -> V3).
(** What may be passed as a0 *)
Inductive acc := ANone | AConst (a : V3) | AFuns (f : RR -> V3).

(** lines 15-24 *)
Definition is_freq_func (x : freq) : bool := match x with FFun _ | FFuns _ => true | _ => false end.
Definition is_none (x : freq) : bool := match x with FNone => true | _ => false end.
(** lines 27-31; [dt] is 1e-6 *)
Definition time_derivative (f : RR -> RR) (t : RR) : RR := (f (t + 1 / 10 ^ 6) - f (t - 1 / 10 ^ 6)) / (2 * (1 / 10 ^ 6)).
(** conversion.py 540-553, 695-701: lists and functions are refused, None, numbers and arrays are returned *)
Definition parse_frequency (x : freq) : nres freq :=
  match x with FList _ | FFun _ | FFuns _ => NErr RuntimeError | x => NOk x end.

(** numpy values: a number or an array of three, with broadcasting products *)
Inductive nv := Sc (w : RR) | Ve (w : V3).
Definition mulN (a : nv) (v : V3) : V3 :=
  match a with Sc w => vscal w v | Ve w => mkV (vx w * vx v) (vy w * vy v) (vz w * vz v) end.
Definition addN (a b : nv) : nv :=
  match a, b with
  | Sc x, Sc y => Sc (x + y)
  | Sc x, Ve y => Ve (mkV (x + vx y) (x + vy y) (x + vz y))
  | Ve x, Sc y => Ve (mkV (vx x + y) (vy x + y) (vz x + y))
  | Ve x, Ve y => Ve (vadd x y)
  end.
Definition scaleN (k : RR) (a : nv) : nv := match a with Sc x => Sc (k * x) | Ve x => Ve (vscal k x) end.
Definition norm2N (a : nv) : RR := match a with Sc x => sqrt (x * x) ^ 2 | Ve x => vnorm x ^ 2 end.
(** the 3x3 arrays of lines 223-229, 232-238, 296-310 *)
Definition for_cross (w : V3) : M3 :=
  mkM (mkV 0 (- vz w) (vy w)) (mkV (vz w) 0 (- vx w)) (mkV (- vy w) (vx w) 0).

(** The attributes set by __init__ and never changed afterwards *)
Record nif := mkNif {
  n_amp : RR; rot_acc : bool; omegaz_only : bool; const_freq : bool; Omega_as_func : bool;
  n_Omega : freq; n_Omegadot : freq; lin_acc : bool; n_a0 : RR -> V3; n_x0 : RR -> V3; n_v0 : RR -> V3; Omega2 : RR }.
(** The attributes that _force changes.  H is the type of MD5 digests. *)
Record nstate (H : Type) := mkNst { force_hash : option H; cached_force : V3; Omega_for_cross : option M3; Omegadot_for_cross : option M3 }.
Arguments mkNst {H}. Arguments force_hash {H}. Arguments cached_force {H}. Arguments Omega_for_cross {H}. Arguments Omegadot_for_cross {H}.

Definition value (x : freq) : nv := match x with FNum w => Sc w | FArr w | FList w => Ve w | _ => Sc 0 end.

(** lines 136-258, without the options that only concern the C code.  The position and velocity of the origin are options. *)
Definition make (H : Type) (amp : RR) (Omega Omegadot : freq) (x0 v0 : option (RR -> V3)) (a0 : acc) : nres (nif * nstate H) :=
  let rot := negb (is_none Omega) in
  let zonly := match Omega with FArr _ | FList _ | FFuns _ => false | _ => true end in
  if rot && negb (is_none Omegadot) && xorb (is_freq_func Omegadot) (is_freq_func Omega) then NErr ValueError else
  let const0 := is_none Omegadot in
  let rest (asfunc const : bool) (Om Od : freq) :=
    let lin := match a0 with ANone => false | _ => true end in
    let a0f := match a0 with ANone => fun _ => vzero | AConst a => fun _ => a | AFuns f => f end in
    if lin && rot && match x0, v0 with Some _, Some _ => false | _, _ => true end then NErr ValueError else
    let x0f := match x0 with Some f => f | None => fun _ => vzero end in
    let v0f := match v0 with Some f => f | None => fun _ => vzero end in
    let O2 := if rot && negb asfunc then norm2N (value Om) else 0 in
    let ob := mkNif amp rot zonly const asfunc Om Od lin a0f x0f v0f O2 in
    if negb zonly && negb asfunc then
      match Om with
      | FArr w =>
        if const then NOk (ob, mkNst None vzero (Some (for_cross w)) None)
        else match Od with
             | FArr wd => NOk (ob, mkNst None vzero (Some (for_cross w)) (Some (for_cross wd)))
             | _ => NErr TypeError       (* self._Omegadot[2] of a number *)
             end
      | _ => NErr TypeError
      end
    else NOk (ob, mkNst None vzero None None) in
  match Omega with
  | FFun f => if is_none Omegadot then rest true false Omega (FFun (time_derivative f)) else rest true const0 Omega Omegadot
  | FFuns f =>
    if is_none Omegadot then
      rest true false Omega (FFuns (fun t => mkV (time_derivative (fun t => vx (f t)) t) (time_derivative (fun t => vy (f t)) t)
                                                  (time_derivative (fun t => vz (f t)) t)))
    else rest true const0 Omega Omegadot
  | _ => match parse_frequency Omega with
         | NErr e => NErr e
         | NOk Om => match parse_frequency Omegadot with NErr e => NErr e | NOk Od => rest false const0 Om Od end
         end
  end.

(** The argument of the hash: R, phi, z, the three velocity components and the time (262-264) *)
Definition ncall : Type := RR * RR * RR * V3 * RR.    (* R, z, phi, v, t *)
Definition hash_key (a : ncall) : list RR := let '(R, z, phi, v, t) := a in [R; phi; z; vx v; vy v; vz v; t].

Section Cache.
  (** hashlib.md5(...).hexdigest() and comparison of digests *)
  Variable H : Type.
  Variable md5 : list RR -> H.
  Variable Heq : forall a b : H, {a = b} + {a <> b}.

  (** lines 267-340: the uncached computation *)
  Definition compute (o : nif) (s : nstate H) (a : ncall) : nres (V3 * nstate H) :=
    let '(R, z, phi, v, t) := a in
    let '(x, y, z) := cyl_to_rect R phi z in
    let w := cyl_to_rect_vec (vx v) (vy v) (vz v) phi in
    let pos := mkV x y z in
    let finish (force : V3) (s : nstate H) : nres (V3 * nstate H) :=
      NOk (if lin_acc o then vsub force (n_a0 o t) else force, s) in
    if negb (rot_acc o) then finish vzero s else
    let tOm := if const_freq o then value (n_Omega o)
               else if Omega_as_func o then match n_Omega o with FFun f => Sc (f t) | FFuns f => Ve (f t) | _ => Sc 0 end
               else addN (value (n_Omega o)) (scaleN t (value (n_Omegadot o))) in
    let tOm2 := if const_freq o then Omega2 o else norm2N tOm in
    if omegaz_only o then
      let force := vadd vzero (vadd (mulN (scaleN (-2) tOm) (mkV (- vy w) (vx w) 0)) (vscal tOm2 (mkV x y 0))) in
      let force := if lin_acc o then
        vadd force (vadd (mulN (scaleN (-2) tOm) (mkV (- vy (n_v0 o t)) (vx (n_v0 o t)) 0))
                         (vscal tOm2 (mkV (vx (n_x0 o t)) (vy (n_x0 o t)) 0))) else force in
      if const_freq o then finish force s else
      match (if Omega_as_func o then match n_Omegadot o with FFun f => NOk (Sc (f t)) | _ => NErr TypeError end
             else NOk (value (n_Omegadot o))) with
      | NErr e => NErr e
      | NOk od =>
        let force := vsub force (mulN od (mkV (- y) x 0)) in
        finish (if lin_acc o then vsub force (mulN od (mkV (- vy (n_x0 o t)) (vx (n_x0 o t)) 0)) else force) s
      end
    else
      (* 295-310 *)
      let upd := if Omega_as_func o then
          match n_Omega o with
          | FFuns f =>
            let s := mkNst (force_hash s) (cached_force s) (Some (for_cross (f t))) (Omegadot_for_cross s) in
            if const_freq o then NOk s
            else match n_Omegadot o with
                 | FFuns g => NOk (mkNst (force_hash s) (cached_force s) (Omega_for_cross s) (Some (for_cross (g t))))
                 | _ => NErr TypeError
                 end
          | _ => NErr TypeError
          end
        else NOk s in
      match upd with
      | NErr e => NErr e
      | NOk s =>
        match Omega_for_cross s, tOm with
        | Some oc, Ve om =>
          let force := vadd vzero (vsub (vadd (vscal (-2) (mulMV oc w)) (vscal tOm2 pos)) (vscal (vdot om pos) om)) in
          let force := if lin_acc o then
            vadd force (vsub (vadd (vscal (-2) (mulMV oc (n_v0 o t))) (vscal tOm2 (n_x0 o t))) (vscal (vdot om (n_x0 o t)) om)) else force in
          if const_freq o then finish force s else
          match Omegadot_for_cross s with
          | Some dc =>
            let force := if Omega_as_func o then force else vsub force (vscal (2 * t) (mulMV dc w)) in
            let force := vsub force (mulMV dc pos) in
            let force := if lin_acc o then
                let force := if Omega_as_func o then force else vsub force (vscal (2 * t) (mulMV dc (n_v0 o t))) in
                vsub force (mulMV dc (n_x0 o t))
              else force in
            finish force s
          | None => NErr TypeError
          end
        | _, _ => NErr TypeError
        end
      end.

  (** lines 259-344 *)
  Definition force (o : nif) (s : nstate H) (a : ncall) : nres (V3 * nstate H) :=
    let new_hash := md5 (hash_key a) in
    if match force_hash s with Some h => if Heq new_hash h then true else false | None => false end then NOk (cached_force s, s) else
    match compute o s a with
    | NErr e => NErr e
    | NOk (f, s) => NOk (f, mkNst (Some new_hash) f (Omega_for_cross s) (Omegadot_for_cross s))
    end.

  (** The public methods: Rforce, phitorque and zforce, lines 346-355 with the factor amp of Force.py *)
  Inductive ncomp := NR | Nphi | Nz.
  Definition component (o : nif) (c : ncomp) (a : ncall) (f : V3) : RR :=
    let '(R, z, phi, v, t) := a in
    n_amp o * match c with
              | NR => cos phi * vx f + sin phi * vy f
              | Nphi => R * (- sin phi * vx f + cos phi * vy f)
              | Nz => vz f
              end.
  Definition method (o : nif) (s : nstate H) (ca : ncomp * ncall) : nres RR * nstate H :=
    match force o s (snd ca) with
    | NErr e => (NErr e, s)
    | NOk (f, s') => (NOk (component o (fst ca) (snd ca) f), s')
    end.
  (** A sequence of calls on one object.  (An exception leaves the object as it was; the array _Omega_for_cross that may have
      been set before it is set again by the next call that uses it.) *)
  Fixpoint calls (o : nif) (s : nstate H) (l : list (ncomp * ncall)) : list (nres RR) * nstate H :=
    match l with
    | [] => ([], s)
    | c :: l => let '(r, s) := method o s c in let '(rs, s) := calls o s l in (r :: rs, s)
    end.
End Cache.
