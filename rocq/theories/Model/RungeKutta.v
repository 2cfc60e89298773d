(** The fixed-step Runge-Kutta integrators of galpy/util/bovy_rk.c (rk4_c, rk6_c) with their step-size estimates.  Arrays of doubles are
    functions from an index type; floats are exact reals, except in [ndt64], which follows the two roundings behind the number of steps.
    The SIGINT check (104-114, 214-224) and memory allocation are left out. *)
From Coq Require Import Reals List ZArith Lia.
From Flocq Require Import IEEE754.BinarySingleNaN IEEE754.Binary IEEE754.Bits.
From Verif.Model Require Import Symplectic.
Import ListNotations.
Open Scope R_scope.
Notation RR := RbaseSymbolsImpl.R (only parsing).

(** ceil, as a whole number *)
Definition ceilZ (x : RR) : Z := (- Int_part (- x))%Z.
(** 91, 201: ndt = (long) (init_dt / dt), truncation towards zero *)
Definition ndt_of (init_dt dt : RR) : Z := if Rle_dec 0 (init_dt / dt) then Int_part (init_dt / dt) else ceilZ (init_dt / dt).

Section Arrays.
  Context {J : Type}.
  (** func(t, q, a): the derivative of the state *)
  Variable func : RR -> vec J -> vec J.

  (** bovy_rk4_onestep, 142-166: yn1 is updated in place *)
  Definition rk4_onestep (yn yn1 : vec J) (tn dt : RR) : vec J :=
    let a := func tn yn in
    let yn1 := fun i => yn1 i + dt * a i / 6 in
    let ynk := fun i => yn i + dt * a i / 2 in
    let a := func (tn + dt / 2) ynk in
    let yn1 := fun i => yn1 i + dt * a i / 3 in
    let ynk := fun i => yn i + dt * a i / 2 in
    let a := func (tn + dt / 2) ynk in
    let yn1 := fun i => yn1 i + dt * a i / 3 in
    let ynk := fun i => yn i + dt * a i in
    let a := func (tn + dt) ynk in
    fun i => yn1 i + dt * a i / 6.

  (** bovy_rk6_onestep, 270-326; k5 is reused for k6 *)
  Definition rk6_onestep (yn yn1 : vec J) (tn dt : RR) : vec J :=
    let a := func tn yn in
    let yn1 := fun i => yn1 i + 11 * dt * a i / 120 in
    let k1 := fun i => dt * a i in
    let ynk := fun i => yn i + k1 i / 3 in
    let a := func (tn + dt / 3) ynk in
    let k2 := fun i => dt * a i in
    let ynk := fun i => yn i + 2 * k2 i / 3 in
    let a := func (tn + 2 * dt / 3) ynk in
    let yn1 := fun i => yn1 i + 81 * dt * a i / 120 in
    let k3 := fun i => dt * a i in
    let ynk := fun i => yn i + (k1 i + 4 * k2 i - k3 i) / 12 in
    let a := func (tn + dt / 3) ynk in
    let yn1 := fun i => yn1 i + 81 * dt * a i / 120 in
    let k4 := fun i => dt * a i in
    let ynk := fun i => yn i + (- k1 i + 18 * k2 i - 3 * k3 i - 6 * k4 i) / 16 in
    let a := func (tn + dt / 2) ynk in
    let yn1 := fun i => yn1 i - 32 * dt * a i / 120 in
    let k5 := fun i => dt * a i in
    let ynk := fun i => yn i + (9 * k2 i - 3 * k3 i - 6 * k4 i + 4 * k5 i) / 8 in
    let a := func (tn + dt / 2) ynk in
    let yn1 := fun i => yn1 i - 32 * dt * a i / 120 in
    let k5 := fun i => dt * a i in
    let ynk := fun i => yn i + (9 * k1 i - 36 * k2 i + 63 * k3 i + 72 * k4 i - 64 * k5 i) / 44 in
    let a := func (tn + dt) ynk in
    fun i => yn1 i + 11 * dt * a i / 120.

  (** bovy_dopr54_actualstep, 617-722: the proposed state yn1, the error yerr and the last derivative; [a1] is the derivative at (to, yo).  Decimal
      constants are exact fractions. *)
  Definition dopr54_propose (yo a1 : vec J) (to dt : RR) : vec J * vec J * vec J :=
    let k1 := fun i => dt * a1 i in
    let yn1 := fun i => yo i + 35 / 384 * k1 i in
    let yerr := fun i => (35 / 384 - 5179 / 57600) * k1 i in
    let ynk := fun i => yo i + 2 / 10 * k1 i in
    let a := func (to + 2 / 10 * dt) ynk in
    let k2 := fun i => dt * a i in
    let ynk := fun i => yo i + 3 / 40 * k1 i + 9 / 40 * k2 i in
    let a := func (to + 3 / 10 * dt) ynk in
    let k3 := fun i => dt * a i in
    let yn1 := fun i => yn1 i + 500 / 1113 * k3 i in
    let yerr := fun i => yerr i + (500 / 1113 - 7571 / 16695) * k3 i in
    let ynk := fun i => yo i + 44 / 45 * k1 i + - (56 / 15) * k2 i + 32 / 9 * k3 i in
    let a := func (to + 8 / 10 * dt) ynk in
    let k4 := fun i => dt * a i in
    let yn1 := fun i => yn1 i + 125 / 192 * k4 i in
    let yerr := fun i => yerr i + (125 / 192 - 393 / 640) * k4 i in
    let ynk := fun i => yo i + 19372 / 6561 * k1 i + - (25360 / 2187) * k2 i + 64448 / 6561 * k3 i + - (212 / 729) * k4 i in
    let a := func (to + 8 / 9 * dt) ynk in
    let k5 := fun i => dt * a i in
    let yn1 := fun i => yn1 i + - (2187 / 6784) * k5 i in
    let yerr := fun i => yerr i + (- (2187 / 6784) + 92097 / 339200) * k5 i in
    let ynk := fun i => yo i + 9017 / 3168 * k1 i + - (355 / 33) * k2 i + 46732 / 5247 * k3 i + 49 / 176 * k4 i + - (5103 / 18656) * k5 i in
    let a := func (to + dt) ynk in
    let k6 := fun i => dt * a i in
    let yn1 := fun i => yn1 i + 11 / 84 * k6 i in
    let yerr := fun i => yerr i + (11 / 84 - 187 / 2100) * k6 i in
    let ynk := fun i => yo i + 35 / 384 * k1 i + 500 / 1113 * k3 i + 125 / 192 * k4 i + - (2187 / 6784) * k5 i + 11 / 84 * k6 i in
    let a := func (to + dt) ynk in
    let yerr := fun i => yerr i + - (1 / 40) * dt * a i in
    (yn1, yerr, a).

  Section Adaptive.
    (** The power of two found from yo and yerr, 724-744, before it is restricted to -3 .. 3; [dt_one] is changed by it *)
    Variable power : vec J -> vec J -> Z.
    Record dstate := mkD { d_yo : vec J; d_a1 : vec J; d_to : RR; d_dt : RR }.
    Definition clip3 (p : Z) : Z := if (3 <? p)%Z then 3%Z else if (p <? -3)%Z then (-3)%Z else p.
    Definition dopr54_actualstep (accept : bool) (s : dstate) : dstate :=        (* 617-761 *)
      let '(yn1, yerr, a) := dopr54_propose (d_yo s) (d_a1 s) (d_to s) (d_dt s) in
      let p := clip3 (power (d_yo s) yerr) in
      let dt_one := d_dt s * powerRZ 2 p in
      if ((0 <=? p)%Z || accept)%bool then mkD yn1 a (d_to s + d_dt s) dt_one else mkD (d_yo s) (d_a1 s) (d_to s) dt_one.
    (** bovy_dopr54_onestep, 584-616: the loop up to the next output time; the error flag is left out.  None: out of fuel. *)
    Fixpoint dopr54_loop (fuel : nat) (init_to dt init_dt_one : RR) (s : dstate) : option dstate :=
      if (if Rle_dec 0 dt then if Rlt_dec (d_to s) (init_to + dt) then true else false
          else if Rlt_dec (init_to + dt) (d_to s) then true else false) then
        match fuel with
        | O => None
        | S fuel =>
            let least := if Rlt_dec 10000 (init_dt_one / d_dt s) then true else false in
            let h := if least then init_dt_one / 10000 else d_dt s in
            let h := if Rle_dec 0 dt then (if Rlt_dec (init_to + dt - d_to s) h then init_to + dt - d_to s else h)
                     else (if Rlt_dec h (init_to + dt - d_to s) then init_to + dt - d_to s else h) in
            dopr54_loop fuel init_to dt init_dt_one (dopr54_actualstep least (mkD (d_yo s) (d_a1 s) (d_to s) h))
        end
      else Some s.
    Definition dopr54_onestep (fuel : nat) (dt : RR) (s : dstate) : option dstate := dopr54_loop fuel (d_to s) dt (d_dt s) s.
    (** bovy_dopr54, 520-563, from the first derivative and step on: the rows after the first *)
    Fixpoint dopr54_rows (fuel : nat) (dt : RR) (n : nat) (s : dstate) : option (list (vec J)) :=
      match n with
      | O => Some []
      | S n => match dopr54_onestep fuel dt s with
               | None => None
               | Some s => option_map (cons (d_yo s)) (dopr54_rows fuel dt n s)
               end
      end.
  End Adaptive.

  Section Loops.
    Variable onestep : vec J -> vec J -> RR -> RR -> vec J.
    (** (yn, yn1, to) *)
    Definition rk_state : Type := vec J * vec J * RR.
    (** 115-120, 225-231: one step and the copy of yn1 to yn *)
    Definition rk_sub (dt : RR) (s : rk_state) : rk_state :=
      let '(yn, yn1, to) := s in let yn1 := onestep yn yn1 to dt in (yn1, yn1, to + dt).
    (** 115-127, 225-239: ndt - 1 passes of the loop and the step before saving; the saved row is yn1 *)
    Definition rk_interval (dt : RR) (ndt : nat) (s : rk_state) : rk_state := rk_sub dt (Nat.iter (ndt - 1) (rk_sub dt) s).
    Fixpoint rk_rows (dt : RR) (ndt n : nat) (s : rk_state) : list (vec J) :=
      match n with O => [] | S n => let s := rk_interval dt ndt s in snd (fst s) :: rk_rows dt ndt n s end.
    (** bovy_rk4 and bovy_rk6 from the given step on, 80-128 and 190-240: nt rows, the first being the initial state *)
    Definition rk_run (yo : vec J) (t0 dt : RR) (ndt nt : nat) : list (vec J) := yo :: rk_rows dt ndt (nt - 1) (yo, yo, t0).

    (** rk4_estimate_step 328-395 and rk6_estimate_step 396-474.  [js] are the indices 0 .. dim-1, [inv] is 5 or 7.  exp(2 log|x| - 2 s) is
        (x / exp s)^2, which also is the value for x = 0.  pow(err, 1/inv) is [root].  None: out of fuel. *)
    Variables (js : list J) (s : RR) (root : RR -> RR).
    Definition est_err (yo : vec J) (to dt : RR) : RR :=
      let y1 := onestep yo yo to dt in
      let y21 := onestep yo yo to (dt / 2) in
      let y2 := onestep y21 y21 (to + dt / 2) (dt / 2) in
      sqrt (fold_right (fun i acc => ((y1 i - y2 i) / exp s) ^ 2 + acc) 0 js / INR (length js)).
    Fixpoint est_step (fuel : nat) (yo : vec J) (to init_dt dt err : RR) : option RR :=
      match fuel with
      | O => None
      | S fuel =>
          if Rlt_dec 1 err then
            let err := est_err yo to dt in
            let c := IZR (ceilZ (root err)) in
            if Rlt_dec 1 c then
              if Rlt_dec (init_dt / dt * c) 10000 then est_step fuel yo to init_dt (dt / c) err else Some dt
            else Some dt
          else Some dt
      end.
    Definition estimate (fuel : nat) (yo : vec J) (to dt : RR) : option RR := est_step fuel yo to dt dt 2.
    (** bovy_rk4 67-140 and bovy_rk6 178-268: [given] is the step of the caller, None for -9999.99; init_dt = t[1] - t[0] *)
    Definition rk_c (fuel : nat) (given : option RR) (yo : vec J) (t0 init_dt : RR) (nt : nat) : option (list (vec J)) :=
      match match given with Some dt => Some dt | None => estimate fuel yo t0 init_dt end with
      | None => None
      | Some dt => Some (rk_run yo t0 dt (Z.to_nat (ndt_of init_dt dt)) nt)
      end.
  End Loops.
  (** bovy_dopr54, 501-582: the first step is given or is that of rk4_estimate_step *)
  Definition dopr54_c (power : vec J -> vec J -> Z) (js : list J) (s : RR) (root : RR -> RR) (fuel_est fuel : nat) (given : option RR)
      (yo : vec J) (t0 dt : RR) (nt : nat) : option (list (vec J)) :=
    match match given with Some d => Some d | None => estimate rk4_onestep js s root fuel_est yo t0 dt end with
    | None => None
    | Some dt_one => option_map (cons yo) (dopr54_rows power fuel dt (nt - 1) (mkD yo (func t0 yo) t0 dt_one))
    end.
End Arrays.
(** 348-355, 421-428: the scale of the error; atol and rtol are logarithms and max_val is the largest log |yo_i| *)
Definition est_scale (rtol atol max_val : RR) : RR :=
  let c := Rmax atol (rtol + max_val) in ln (exp (atol - c) + exp (rtol + max_val - c)) + c.

(** The same number of steps with the two divisions rounded to double precision: dt / c of the estimate with c = [m], then init_dt / dt
    and the cast to long. *)
Definition b64_of_Z (m : Z) : binary64 := binary_normalize 53 1024 eq_refl eq_refl mode_NE m 0 false.
Definition trunc64 (x : binary64) : Z := Btrunc 53 1024 x.
Definition ndt64 (init_dt : binary64) (m : Z) : Z := trunc64 (b64_div mode_NE init_dt (b64_div mode_NE init_dt (b64_of_Z m))).
