(** Direct-summation N-body code: galpy/snapshot/directnbody.py.

    Positions and velocities of nq particles are arrays indexed by (particle, component); the components are listed by [js].  A NaN, which
    numpy produces as 0 * (0 / 0) when two particles coincide, is modelled by the run returning no value.  The printing of the step
    number (line 73) is left out. *)
From Coq Require Import Reals List Arith Bool.
From Verif.Lib Require Import RealAux.
From Verif.Model Require Import Symplectic.
Import ListNotations.
Open Scope R_scope.
Notation RR := RbaseSymbolsImpl.R (only parsing).

(** 193-194 *)
Definition plummer_soft (d eps : RR) : RR := d / rpow (d ^ 2 + eps ^ 2) (3 / 2).

Section NBody.
  Context {J : Type} (js : list J).
  Variable nq : nat.
  Variable m : nat -> RR.
  Variable softening : RR -> RR.
  (** _external_force(x, t, pot), 150-190, as a function of time and position; None is pot=None *)
  Variable ext : option (RR -> vec J -> vec J).

  (** linalg.norm *)
  Definition norm (v : vec J) : RR := sqrt (fold_left (fun s j => s + v j ^ 2) js 0).
  (** The two loops of 115-120 fill the upper triangle and copy it (with opposite sign for the vectors) below the diagonal, which stays 0. *)
  Definition dist_vec (q : vec (nat * J)) (i j : nat) : vec J := fun c =>
    if i <? j then q (j, c) - q (i, c) else if j <? i then - (q (i, c) - q (j, c)) else 0.
  Definition dist (q : vec (nat * J)) (i j : nat) : RR :=
    if i <? j then norm (dist_vec q i j) else if j <? i then norm (dist_vec q j i) else 0.
  (** 123-135: the loop over jj with continue at ii == jj *)
  Definition self_force (q : vec (nat * J)) (i : nat) : vec J :=
    fold_left (fun f j => if i =? j then f else fun c => f c + m j * softening (dist q i j) / dist q i j * dist_vec q i j c)
              (seq 0 nq) (fun _ => 0).
  (** 105-141 *)
  Definition nbody_force (t : RR) (q : vec (nat * J)) : vec (nat * J) := fun ic =>
    let '(i, c) := ic in
    match ext with
    | None => self_force q i c
    | Some f => self_force q i c + f t (block i q) c
    end.
  (** No division 0 / 0 in 123-135 *)
  Definition separate (q : vec (nat * J)) : bool :=
    forallb (fun i => forallb (fun j => if Req_EM_T (dist q i j) 0 then false else true) (seq 0 i)) (seq 0 nq).
  (** _direct_nbody_step, 86-98 *)
  Definition nbody_step (dt t : RR) (q p : vec (nat * J)) : option (vec (nat * J) * vec (nat * J)) :=
    let q12 := leapq q p (dt / 2) in
    if separate q12 then
      let force := nbody_force (t + dt / 2) q12 in
      let p := leapp p dt force in
      Some (leapq q12 p (dt / 2), p)
    else None.
  (** The loop 72-80; ndt = 1 *)
  Fixpoint nbody_rows (n : nat) (dt to : RR) (q p : vec (nat * J)) : option (list (vec (nat * J) * vec (nat * J))) :=
    match n with
    | O => Some []
    | S n => match nbody_step dt to q p with
             | None => None
             | Some (q, p) => option_map (cons (q, p)) (nbody_rows n dt (to + dt) q p)
             end
    end.
End NBody.

(** direct_nbody, 18-82, with softening_model="plummer" (any other name leaves the variable softening unset: an exception).
    None also for fewer than two times (IndexError). *)
Definition direct_nbody {J} (js : list J) (nq : nat) (m : nat -> RR) (ext : option (RR -> vec J -> vec J)) (softening_length : option RR)
    (q p : vec (nat * J)) (t : list RR) : option (list (vec (nat * J) * vec (nat * J))) :=
  match t with
  | t0 :: t1 :: _ =>
    let eps := match softening_length with Some e => e | None => 1 / 100 end in
    option_map (cons (q, p)) (nbody_rows js nq m (fun d => plummer_soft d eps) ext (length t - 1) (t1 - t0) t0 q p)
  | _ => None
  end.
