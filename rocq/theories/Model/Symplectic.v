(** Symplectic integrators: galpy/util/symplecticode.py (leapfrog) and galpy/util/bovy_symplecticode.c (leapfrog, symplec4, symplec6 and their
    variational versions).

    Arrays of doubles are functions from an index type; floats are exact reals, so rounding is not modelled; nor are the SIGINT check
    (C 175-185) and memory allocation. *)
From Coq Require Import Reals List ZArith.
Import ListNotations.
Open Scope R_scope.
Notation RR := RbaseSymbolsImpl.R (only parsing).

Definition vec (J : Type) := J -> RR.

Section Arrays.
  Context {J : Type}.
  (** func(q, t) of the Python code, func(t, q, a) of the C code *)
  Variable func : RR -> vec J -> vec J.

  (** symplecticode.py 105-110, bovy_symplecticode.c 63-72 *)
  Definition leapq (q p : vec J) (dt : RR) : vec J := fun j => q j + dt * p j.
  Definition leapp (p : vec J) (dt : RR) (a : vec J) : vec J := fun j => p j + dt * a j.

  (** (q, p, to) *)
  Definition sstate : Type := vec J * vec J * RR.

  (** Body of the loop over sub-intervals: py 85-92, C 189-201; (q12, po, to) *)
  Definition lf_sub (dt : RR) (s : sstate) : sstate :=
    let '(q12, po, to) := s in
    let a := func (to + dt / 2) q12 in
    let po := leapp po dt a in
    let q12 := leapq q12 po dt in
    (q12, po, to + dt).
  (** One output interval: py 82-98, C 186-208.  range(ndt - 1) passes of the inner loop. *)
  Definition lf_interval (dt : RR) (ndt : nat) (s : sstate) : sstate :=
    let '(qo, po, to) := s in
    let q12 := leapq qo po (dt / 2) in
    let '(q12, po, to) := Nat.iter (ndt - 1) (lf_sub dt) (q12, po, to) in
    let a := func (to + dt / 2) q12 in
    let po := leapp po dt a in
    let qo := leapq q12 po (dt / 2) in
    (qo, po, to + dt).

  (** The rows of the output after the first: one interval after another.  C 174-212, 300-365, 461-574 *)
  Fixpoint rows (interval : sstate -> sstate) (n : nat) (s : sstate) : list sstate :=
    match n with O => [] | S n => let s := interval s in s :: rows interval n s end.

  (** symplec4: coefficients C 96-99, body of the inner loop 316-340, output step 342-361 *)
  Definition s4_c1 : RR := 6756035959798289 / 10 ^ 16.
  Definition s4_c2 : RR := - 1756035959798288 / 10 ^ 16.
  Definition s4_c3 : RR := - 1756035959798288 / 10 ^ 16.
  Definition s4_c4 : RR := 6756035959798289 / 10 ^ 16.
  Definition s4_d1 : RR := 13512071919596578 / 10 ^ 16.
  Definition s4_d2 : RR := - 17024143839193153 / 10 ^ 16.
  Definition s4_d3 : RR := 13512071919596578 / 10 ^ 16.
  Definition s4_sub (dt : RR) (s : sstate) : sstate :=
    let '(q12, po, to) := s in
    let p12 := leapp po (s4_d1 * dt) (func to q12) in
    let qo := leapq q12 p12 (s4_c2 * dt) in
    let to := to + s4_c2 * dt in
    let po := leapp p12 (s4_d2 * dt) (func to qo) in
    let q12 := leapq qo po (s4_c3 * dt) in
    let to := to + s4_c3 * dt in
    let p12 := leapp po (s4_d3 * dt) (func to q12) in
    let qo := leapq q12 p12 ((s4_c4 + s4_c1) * dt) in
    (qo, p12, to + (s4_c4 + s4_c1) * dt).
  Definition s4_interval (dt : RR) (ndt : nat) (s : sstate) : sstate :=
    let '(qo, po, to) := s in
    let q12 := leapq qo po (s4_c1 * dt) in
    let to := to + s4_c1 * dt in
    let '(q12, po, to) := Nat.iter (ndt - 1) (s4_sub dt) (q12, po, to) in
    let p12 := leapp po (s4_d1 * dt) (func to q12) in
    let qo := leapq q12 p12 (s4_c2 * dt) in
    let to := to + s4_c2 * dt in
    let po := leapp p12 (s4_d2 * dt) (func to qo) in
    let q12 := leapq qo po (s4_c3 * dt) in
    let to := to + s4_c3 * dt in
    let p12 := leapp po (s4_d3 * dt) (func to q12) in
    let qo := leapq q12 p12 (s4_c4 * dt) in
    (qo, p12, to + s4_c4 * dt).

  (** symplec6: coefficients C 100-107, inner loop 477-525, output step 527-570 *)
  Definition s6_c1 : RR := 392256805238780 / 10 ^ 15.
  Definition s6_c2 : RR := 510043411918458 / 10 ^ 15.
  Definition s6_c3 : RR := - 471053385409758 / 10 ^ 15.
  Definition s6_c4 : RR := 687531682525198 / 10 ^ 15 / 10.
  Definition s6_c5 : RR := 687531682525198 / 10 ^ 15 / 10.
  Definition s6_c6 : RR := - 471053385409758 / 10 ^ 15.
  Definition s6_c7 : RR := 510043411918458 / 10 ^ 15.
  Definition s6_c8 : RR := 392256805238780 / 10 ^ 15.
  Definition s6_d1 : RR := 784513610477560 / 10 ^ 15.
  Definition s6_d2 : RR := 235573213359357 / 10 ^ 15.
  Definition s6_d3 : RR := - (117767998417887 / 10 ^ 15 * 10).
  Definition s6_d4 : RR := 131518632068391 / 10 ^ 15 * 10.
  Definition s6_d5 : RR := - (117767998417887 / 10 ^ 15 * 10).
  Definition s6_d6 : RR := 235573213359357 / 10 ^ 15.
  Definition s6_d7 : RR := 784513610477560 / 10 ^ 15.
  Definition s6_sub (dt : RR) (s : sstate) : sstate :=
    let '(q12, po, to) := s in
    let p12 := leapp po (s6_d1 * dt) (func to q12) in
    let qo := leapq q12 p12 (s6_c2 * dt) in
    let to := to + s6_c2 * dt in
    let po := leapp p12 (s6_d2 * dt) (func to qo) in
    let q12 := leapq qo po (s6_c3 * dt) in
    let to := to + s6_c3 * dt in
    let p12 := leapp po (s6_d3 * dt) (func to q12) in
    let qo := leapq q12 p12 (s6_c4 * dt) in
    let to := to + s6_c4 * dt in
    let po := leapp p12 (s6_d4 * dt) (func to qo) in
    let q12 := leapq qo po (s6_c5 * dt) in
    let to := to + s6_c5 * dt in
    let p12 := leapp po (s6_d5 * dt) (func to q12) in
    let qo := leapq q12 p12 (s6_c6 * dt) in
    let to := to + s6_c6 * dt in
    let po := leapp p12 (s6_d6 * dt) (func to qo) in
    let q12 := leapq qo po (s6_c7 * dt) in
    let to := to + s6_c7 * dt in
    let p12 := leapp po (s6_d7 * dt) (func to q12) in
    let qo := leapq q12 p12 ((s6_c8 + s6_c1) * dt) in
    (qo, p12, to + (s6_c8 + s6_c1) * dt).
  Definition s6_interval (dt : RR) (ndt : nat) (s : sstate) : sstate :=
    let '(qo, po, to) := s in
    let q12 := leapq qo po (s6_c1 * dt) in
    let to := to + s6_c1 * dt in
    let '(q12, po, to) := Nat.iter (ndt - 1) (s6_sub dt) (q12, po, to) in
    let p12 := leapp po (s6_d1 * dt) (func to q12) in
    let qo := leapq q12 p12 (s6_c2 * dt) in
    let to := to + s6_c2 * dt in
    let po := leapp p12 (s6_d2 * dt) (func to qo) in
    let q12 := leapq qo po (s6_c3 * dt) in
    let to := to + s6_c3 * dt in
    let p12 := leapp po (s6_d3 * dt) (func to q12) in
    let qo := leapq q12 p12 (s6_c4 * dt) in
    let to := to + s6_c4 * dt in
    let po := leapp p12 (s6_d4 * dt) (func to qo) in
    let q12 := leapq qo po (s6_c5 * dt) in
    let to := to + s6_c5 * dt in
    let p12 := leapp po (s6_d5 * dt) (func to q12) in
    let qo := leapq q12 p12 (s6_c6 * dt) in
    let to := to + s6_c6 * dt in
    let po := leapp p12 (s6_d6 * dt) (func to qo) in
    let q12 := leapq qo po (s6_c7 * dt) in
    let to := to + s6_c7 * dt in
    let p12 := leapp po (s6_d7 * dt) (func to q12) in
    let qo := leapq q12 p12 (s6_c8 * dt) in
    (qo, p12, to + s6_c8 * dt).

  (** ** Step-size estimation *)
  Definition max_dt_reduce : RR := 10000.
  Definition Rgt_b (x y : RR) : bool := if Rlt_dec y x then true else false.
  Definition Rlt_b (x y : RR) : bool := if Rlt_dec x y then true else false.
  (** The while loops: py 119-140 (halves dt at the end of the body), C 627-650, 712-795, 865-1020 (at the start).  [error dt] is the norm
      computed by the body; None is running out of fuel, i.e. a loop that has not ended after that many passes.
      NaN, for which both tests are false, is not modelled. *)
  Fixpoint est_py (fuel : nat) (error : RR -> RR) (init_dt dt err : RR) : option RR :=
    match fuel with
    | O => None
    | S fuel => if andb (Rgt_b err 1) (Rlt_b (init_dt / dt) max_dt_reduce)
                then est_py fuel error init_dt (dt / 2) (error dt) else Some dt
    end.
  Fixpoint est_c (fuel : nat) (error : RR -> RR) (init_dt dt err : RR) : option RR :=
    match fuel with
    | O => None
    | S fuel => if andb (Rgt_b err 1) (Rlt_b (init_dt / dt) max_dt_reduce)
                then est_c fuel error init_dt (dt / 2) (error (dt / 2)) else Some dt
    end.
  (** The norm of py 121-139: [js] lists the components *)
  Variable js : list J.
  Definition amax (v : vec J) : RR := fold_right Rmax 0 (map (fun j => Rabs (v j)) js).
  Definition sumj (f : J -> RR) : RR := fold_right Rplus 0 (map f js).
  Definition lf_error (qo po : vec J) (to rtol atol dt : RR) : RR :=
    let q12 := leapq qo po (dt / 2) in
    let p11 := leapp po dt (func (to + dt / 2) q12) in
    let q11 := leapq q12 p11 (dt / 2) in
    let q12 := leapq qo po (dt / 4) in
    let ptmp := leapp po (dt / 2) (func (to + dt / 4) q12) in
    let qtmp := leapq q12 ptmp (dt / 2) in
    let p12 := leapp ptmp (dt / 2) (func (to + 3 * dt / 4) qtmp) in
    let q12 := leapq qtmp p12 (dt / 4) in
    let sq := atol + rtol * amax qo in
    let sp := atol + rtol * amax po in
    sqrt ((sumj (fun j => (Rabs (q11 j - q12 j) / sq) ^ 2) + sumj (fun j => (Rabs (p11 j - p12 j) / sp) ^ 2))
          / (2 * INR (length js))).
  (** int(...) and the C cast to long: truncation towards zero *)
  Definition trunc (x : RR) : Z := if Rle_dec 0 x then Int_part x else (- Int_part (- x))%Z.
  (** symplecticode.leapfrog, 38-102, for len(t) >= 2; None when t[1] == t[0] (int() of NaN raises ValueError) or with fewer times.
      The fuel is shown to be enough. *)
  Definition leapfrog (fuel : nat) (rtol atol : RR) (qo po : vec J) (t : list RR) : option (list sstate) :=
    match t with
    | t0 :: t1 :: _ =>
      let init_dt := t1 - t0 in
      if Req_EM_T init_dt 0 then None else
      match est_py fuel (lf_error qo po t0 rtol atol) init_dt (init_dt * 2) 2 with
      | None => None
      | Some dt =>
        let ndt := Z.to_nat (trunc (init_dt / dt)) in
        Some ((qo, po, t0) :: rows (lf_interval dt ndt) (length t - 1) (qo, po, t0))
      end
    | _ => None
    end.
  (** The C entry points leapfrog 132-222, symplec4 254-372, symplec6 415-585: [given] is the dt argument (None is the sentinel -9999.99), the
      interval function one of the three above and [error] the norm of the corresponding estimate (a logarithmic form of the one above for
      leapfrog, similar ones for the others; nothing below depends on which). *)
  Definition c_integrate (interval : RR -> nat -> sstate -> sstate) (error : RR -> RR) (fuel : nat) (given : option RR)
      (qo po : vec J) (t : list RR) : option (list sstate) :=
    match t with
    | t0 :: t1 :: _ =>
      let init_dt := t1 - t0 in
      if Req_EM_T init_dt 0 then None else
      match match given with Some dt => Some dt | None => est_c fuel error init_dt (init_dt * 2) 2 end with
      | None => None
      | Some dt =>
        let ndt := Z.to_nat (trunc (init_dt / dt)) in
        Some ((qo, po, t0) :: rows (interval dt ndt) (length t - 1) (qo, po, t0))
      end
    | _ => None
    end.
End Arrays.
(** orbit/Orbits.py 9456-9462, _check_integrate_dt, for one time array.  numpy.round at a tie x.5 goes to the even neighbour and here to the
    upper one; both leave the same distance |dt| / 2. *)
Definition check_dt (spacing : RR) (dt : option RR) : bool :=
  match dt with
  | None => true
  | Some dt => let mult := Int_part (spacing / dt + 1 / 2) in
               if Rlt_dec (Rabs (IZR mult * dt - spacing)) (/ 10 ^ 10) then true else false
  end.
Arguments sstate : clear implicits.

(** ** Variational versions: C 1053-1448.  The same code on the augmented arrays: block 0 is the orbit, the others are deviations; the
    indices are (block, component).  force_aug (integrateFullOrbit.c etc.) puts the acceleration in block 0 and Hessian times deviation in
    the others; the step size is estimated from block 0. *)
Section Variational.
  Context {J : Type} (js : list J).
  Variable func : RR -> vec J -> vec J.
  Variable hess : RR -> vec J -> J -> J -> RR.      (* d func_j / d q_k *)
  Definition block {B : Type} (b : B) (v : vec (B * J)) : vec J := fun j => v (b, j).
  Definition force_aug (t : RR) (q : vec (nat * J)) : vec (nat * J) := fun bj =>
    match bj with
    | (O, j) => func t (block O q) j
    | (S b, j) => fold_right Rplus 0 (map (fun k => hess t (block O q) j k * q (S b, k)) js)
    end.
End Variational.
