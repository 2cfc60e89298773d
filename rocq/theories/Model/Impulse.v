(** galpy/df/streamgapdf.py: the kicks of a fly-by in the impulse approximation, for one star (one row of the arrays v, x and y).
    A division by zero is nan or inf in the code and 0 here; the theorems say where divisors vanish. *)
From Coq Require Import Reals List Lra.
From Coquelicot Require Import Coquelicot.
From Verif.Lib Require Import Vec3.
From Verif.Model Require Import RotVec.
Import ListNotations.
Open Scope R_scope.
Notation RR := RbaseSymbolsImpl.R (only parsing).

(** 2085-2086 *)
Definition rotation_vy (inv : bool) (v : V3) : M3 := rotate_to_arbitrary_vector inv false v (mkV 0 1 0).

(** The subhalo's velocity in the stream frame and the four numbers computed from it: 1317-1324, 1447-1455, 1901-1909 *)
Record Frame := { f_w : V3; f_perp : RR; f_par : RR; f_mag2 : RR; f_mag : RR }.
Definition stream_frame (v w : V3) : Frame :=
  let tilew := mulMV (rotation_vy false v) w in
  let wperp := sqrt (vx tilew ^ 2 + vz tilew ^ 2) in
  let wpar := sqrt (vnorm2 v) - vy tilew in
  let wmag2 := wpar ^ 2 + wperp ^ 2 in
  {| f_w := tilew; f_perp := wperp; f_par := wpar; f_mag2 := wmag2; f_mag := sqrt wmag2 |}.

(** 1282-1348 impulse_deltav_plummer *)
Definition impulse_deltav_plummer (v : V3) (y b : RR) (w : V3) (GM rs : RR) : V3 :=
  let f := stream_frame v w in let tw := f_w f in
  let denom := f_mag f * ((b ^ 2 + rs ^ 2) * f_mag2 f + f_perp f ^ 2 * y ^ 2) in
  let out := mkV ((b * f_mag2 f * vz tw / f_perp f - y * f_par f * vx tw) / denom)
                 (- (f_perp f ^ 2) * y / denom)
                 (- (b * f_mag2 f * vx tw / f_perp f + y * f_par f * vz tw) / denom) in
  let out := if Rlt_dec (Rabs (f_perp f)) (1 / 10 ^ 10)
             then mkV ((b * f_mag2 f - y * f_par f * vx tw) / denom) (vy out) (- (b * f_mag2 f + y * f_par f * vz tw) / denom)
             else out in
  vscal (2 * GM) (mulMV (rotation_vy true v) out).

(** 1385-1387, 1536-1538, 1655-1657: the star's offset from the body at closest approach *)
Definition offset (x : V3) (b : RR) (w x0 v0 : V3) : V3 :=
  let b0 := vcross w v0 in
  let b0 := vscal (b / sqrt (vnorm2 b0)) b0 in
  vsub (vadd b0 x) x0.
(** 1388-1395 *)
Definition plummer_core (b_ w : V3) (GM rs : RR) : V3 :=
  let wmag := sqrt (vnorm2 w) in
  let bdotw := vdot b_ w / wmag in
  let denom := wmag * (vnorm2 b_ + rs ^ 2 - bdotw ^ 2) in
  vscal (-2 * GM) (vscal (1 / denom) (vsub b_ (vscal (bdotw / wmag) w))).
(** 1351-1395 impulse_deltav_plummer_curvedstream *)
Definition impulse_deltav_plummer_curvedstream (v x : V3) (b : RR) (w x0 v0 : V3) (GM rs : RR) : V3 :=
  plummer_core (offset x b w x0 v0) (vsub w v) GM rs.

(** 1398-1409 HernquistX; None is the ValueError *)
Definition HernquistX (s : RR) : option RR :=
  if Rlt_dec s 0 then None
  else if Rlt_dec s 1 then Some (ln ((1 + sqrt (1 - s * s)) / s) / sqrt (1 - s * s))
  else if Req_EM_T s 1 then Some 1
  else Some (acos (1 / s) / sqrt (s * s - 1)).
(** 1456-1462, 1542-1547: from the distance B of closest approach, Xfac * denom; None when HernquistX raises or a divisor vanishes *)
Definition hernquist_factor (B rs wmag : RR) : option RR :=
  if Req_EM_T (wmag * (B ^ 2 - rs ^ 2)) 0 then None
  else match HernquistX (sqrt (2 * B / (rs + B))) with
       | None => None
       | Some X => Some ((1 - 2 * rs / (rs + B) * X) * (1 / (wmag * (B ^ 2 - rs ^ 2))))
       end.
(** 1412-1498 impulse_deltav_hernquist *)
Definition impulse_deltav_hernquist (v : V3) (y b : RR) (w : V3) (GM rs : RR) : option V3 :=
  let f := stream_frame v w in let tw := f_w f in
  let B := sqrt (b ^ 2 + f_perp f ^ 2 * y ^ 2 / f_mag2 f) in
  match hernquist_factor B rs (f_mag f) with
  | None => None
  | Some h =>
    let out := mkV ((b * vz tw / f_perp f - y * f_par f * vx tw / f_mag2 f) * h)
                   (- (f_perp f ^ 2) * y * h / f_mag2 f)
                   (- (b * vx tw / f_perp f + y * f_par f * vz tw / f_mag2 f) * h) in
    let out := if Rlt_dec (Rabs (f_perp f)) (1 / 10 ^ 10)
               then mkV ((b - y * f_par f * vx tw / f_mag2 f) * h) (vy out) (- (b + y * f_par f * vz tw / f_mag2 f) * h)
               else out in
    Some (vscal (2 * GM) (mulMV (rotation_vy true v) out))
  end.
(** 1539-1550 *)
Definition hernquist_core (b_ w : V3) (GM rs : RR) : option V3 :=
  let wmag := sqrt (vnorm2 w) in
  let bdotw := vdot b_ w / wmag in
  let B := sqrt (vnorm2 b_ - bdotw ^ 2) in
  match hernquist_factor B rs wmag with
  | None => None
  | Some h => Some (vscal (-2 * GM) (vscal h (vsub b_ (vscal (bdotw / wmag) w))))
  end.
(** 1501-1550 impulse_deltav_hernquist_curvedstream *)
Definition impulse_deltav_hernquist_curvedstream (v x : V3) (b : RR) (w x0 v0 : V3) (GM rs : RR) : option V3 :=
  hernquist_core (offset x b w x0 v0) (vsub w v) GM rs.

(** 1553-1557 _a_integrand for the three components at once; [F r] is evaluateRforces(pot, r, 0) *)
Definition a_integrand (F : RR -> RR) (y : RR) (b w : V3) (T : RR) : V3 :=
  let t := T / (1 - T * T) in
  let X := vadd (vadd b (vscal t w)) (vscal y (mkV 0 1 0)) in
  let r := sqrt (vnorm2 X) in
  mkV ((1 + T * T) / (1 - T * T) ^ 2 * F r * vx X / r) ((1 + T * T) / (1 - T * T) ^ 2 * F r * vy X / r) ((1 + T * T) / (1 - T * T) ^ 2 * F r * vz X / r).
(** 1560-1566 _deltav_integrate; quad never evaluates at the ends of the interval: the integral over -1 < T < 1 *)
Definition open_integral (f : RR -> RR) : RR := RInt_gen (V := R_CompleteNormedModule) f (at_right (-1)) (at_left 1).
Definition deltav_integrate (F : RR -> RR) (y : RR) (b w : V3) : V3 :=
  mkV (open_integral (fun T => vx (a_integrand F y b w T))) (open_integral (fun T => vy (a_integrand F y b w T))) (open_integral (fun T => vz (a_integrand F y b w T))).
(** 1569-1617 impulse_deltav_general; None is the nan of a zero divisor *)
Definition impulse_deltav_general (v : V3) (y b : RR) (w : V3) (F : RR -> RR) : option V3 :=
  let tw := mulMV (rotation_vy false v) w in
  let tw := mkV (vx tw) (vy tw - sqrt (vnorm2 v)) (vz tw) in
  let wmag := sqrt (vx tw ^ 2 + vz tw ^ 2) in
  if Req_EM_T wmag 0 then None
  else
    let b0 := vscal b (mkV (- vz tw / wmag) 0 (vx tw / wmag)) in
    Some (mulMV (rotation_vy true v) (deltav_integrate F y b0 tw)).
(** 1620-1661 impulse_deltav_general_curvedstream *)
Definition impulse_deltav_general_curvedstream (v x : V3) (b : RR) (w x0 v0 : V3) (F : RR -> RR) : V3 :=
  deltav_integrate F 0 (offset x b w x0 v0) (vsub w v).

(** 1844-1865 the integrands of a perturbing stream *)
Definition astream_integrand (f : Frame) (GSigma : RR -> RR) (y v b rs t : RR) : V3 :=
  let w := f_w f in
  let d := (b ^ 2 + rs ^ 2) * f_mag2 f + f_perp f ^ 2 * (y - v * t) ^ 2 in
  mkV (GSigma t * (b * f_mag2 f * vz w / f_perp f - (y - v * t) * f_par f * vx w) / d)
      (GSigma t * (y - v * t) / d)
      (- GSigma t * (b * f_mag2 f * vx w / f_perp f + (y - v * t) * f_par f * vz w) / d).
(** 1868-1977 impulse_deltav_plummerstream with both bounds given *)
Definition plummerstream_kick (v : V3) (y b : RR) (w : V3) (GSigma : RR -> RR) (rs tmin tmax : RR) : V3 :=
  let f := stream_frame v w in let vmag := sqrt (vnorm2 v) in
  let out := mkV (1 / f_mag f * RInt (fun t => vx (astream_integrand f GSigma y vmag b rs t)) tmin tmax)
                 (- (f_perp f ^ 2) / f_mag f * RInt (fun t => vy (astream_integrand f GSigma y vmag b rs t)) tmin tmax)
                 (1 / f_mag f * RInt (fun t => vz (astream_integrand f GSigma y vmag b rs t)) tmin tmax) in
  vscal 2 (mulMV (rotation_vy true v) out).
(** 1900-1901 the check of the bounds: the ValueError, or what quad does with the bounds it is given ([BadBound]: a bound that is None) *)
Inductive Outcome (A : Type) := Done (a : A) | ValueError | BadBound.
Arguments Done {A} a. Arguments ValueError {A}. Arguments BadBound {A}.
Definition impulse_deltav_plummerstream (v : V3) (y b : RR) (w : V3) (GSigma : RR -> RR) (rs : RR) (tmin tmax : option RR) : Outcome V3 :=
  match tmax with
  | None => ValueError
  | Some hi => match tmin with None => BadBound | Some lo => Done (plummerstream_kick v y b w GSigma rs lo hi) end
  end.

(** 1980-1989 _astream_integrand with the orbit at time teval given by its position and velocity; plummer_core with GM = 1 and GSigma(t) as factor *)
Definition astream_curved (b_ : V3) (orb_x orb_v : RR -> V3) (tx : RR) (w : V3) (GSigma : RR -> RR) (rs otmin t : RR) : V3 :=
  let teval := tx - otmin - t in
  vscal (GSigma t) (plummer_core (vadd b_ (orb_x teval)) (vsub w (orb_v teval)) 1 rs).
(** 2052-2082: from the stream's orbit as a function of the time since the closest impact, the integrated orbit starts at -|min(t) + tmin| and lasts
    max(t) + tmax - min(t) - tmin; asked outside that range an orbit raises a ValueError.  [lo] and [hi] are the least and the greatest of the times t. *)
Definition curved_start (lo tmin : RR) : RR := - Rabs (lo + tmin).
Definition curved_length (lo hi tmin tmax : RR) : RR := hi + tmax - lo - tmin.
Definition curved_asked (lo tmin tx t : RR) : RR := tx - (lo + tmin) - t.
Definition curved_kick (pos vel : RR -> V3) (b : RR) (w x0 v0 : V3) (GSigma : RR -> RR) (rs lo hi tmin tmax tx : RR) : V3 :=
  let orb_x s := pos (curved_start lo tmin + s) in let orb_v s := vel (curved_start lo tmin + s) in
  let b0 := vcross w v0 in let b0 := vscal (b / sqrt (vnorm2 b0)) b0 in
  let g t := astream_curved (vsub b0 x0) orb_x orb_v tx w GSigma rs (lo + tmin) t in
  mkV (RInt (fun t => vx (g t)) tmin tmax) (RInt (fun t => vy (g t)) tmin tmax) (RInt (fun t => vz (g t)) tmin tmax).
