(** Spherical distribution functions: galpy/df/sphericaldf.py, constantbetadf.py, osipkovmerrittdf.py, isotropicPlummerdf.py,
    isotropicHernquistdf.py, constantbetaHernquistdf.py, osipkovmerrittHernquistdf.py and the power-law inverses of isotropicPowerLawdf.py.
    Numbers are exact reals, [integrate.quad] is the Riemann integral, and random numbers are arguments.  Not modelled: units, the
    interpolating splines of [_make_cmf_interpolator] and [_make_pvr_interpolator], [dMdE], the numerical inversions of eddingtondf and
    constantbetadf, and the hypergeometric branch of constantbetaHernquistdf.fE. *)
From Coq Require Import Reals List ZArith Bool.
From Coquelicot Require Import Coquelicot.
From Verif.Lib Require Import RealAux Atan2.
From Verif.Model Require Import PotAPI SOS EOM.
Import ListNotations.
Open Scope R_scope.
Notation RR := RbaseSymbolsImpl.R (only parsing).

(** ** Evaluation *)
(** sphericaldf.__call__(R, vR, vT, z, vz), sphericaldf.py 243-255: (E, L, Lz); [Phi R z] is the potential *)
Definition call_E (Phi : RR -> RR -> RR) (R vR vT z vz : RR) : RR := 0.5 * (vR ^ 2 + vT ^ 2 + vz ^ 2) + Phi R z.
Definition call_Lz (R vT : RR) : RR := R * vT.
Definition call_L (R vR vT z vz : RR) : RR :=
  let vtotSq := vR ^ 2 + vT ^ 2 + vz ^ 2 in
  let r := sqrt (R ^ 2 + z ^ 2) in
  let vrad := (R * vR + z * vz) / r in
  sqrt (vtotSq - vrad ^ 2) * r.
(** 256: [f] is [_call_internal] *)
Definition call_coords (f : RR -> RR -> RR -> RR) (Phi : RR -> RR -> RR) (R vR vT z vz : RR) : RR :=
  f (call_E Phi R vR vT z vz) (call_L R vR vT z vz) (call_Lz R vT).
(** 236-242, 256: the call with an Orbit holding the rows [os].  E and Lz are arrays with an entry for each row; [numpy.sum] has no
    axis, so that L is one number for all of the rows.  Orbit.E, Orbit.L and Orbit.Lz are those of Model/EOM. *)
Definition sum_sq (l : list (RR * RR * RR)) : RR :=
  fold_right (fun L s => fst (fst L) ^ 2 + snd (fst L) ^ 2 + snd L ^ 2 + s) 0 l.
Definition call_orbit (f : RR -> RR -> RR -> RR) (Phi : RR -> RR -> RR) (os : list cyl) : list RR :=
  let L := sqrt (sum_sq (map orb_L os)) in
  map (fun w => f (orb_E (fun R z _ _ => Phi R z) w 0) L (orb_Lz w)) os.

(** ** Moments *)
(** special.gamma(k / 2) for a positive integer k *)
Fixpoint gamma_half (k : nat) : RR :=
  match k with
  | O => 0                        (* a pole; never used *)
  | S O => sqrt PI
  | S (S O) => 1
  | S (S k' as k1) => INR k' / 2 * gamma_half k'
  end.
(** sphericaldf._vmax_at_r, 612-622, for rmax = inf, where the potentials of this file vanish *)
Definition vmax_at_r (Phi : RR -> RR -> RR) (r : RR) : RR := sqrt (2 * (0 - Phi r 0)).
(** sphericaldf._vmomentdensity, 340-363 *)
Definition base_vmoment (f : RR -> RR -> RR -> RR) (Phi : RR -> RR -> RR) (r : RR) (n m : nat) : RR :=
  2 * PI * RInt (fun v => RInt (fun eta =>
    v ^ (2 + m + n) * sin eta ^ (1 + m) * cos eta ^ n * call_coords f Phi r (v * cos eta) (v * sin eta) 0 0) 0 PI) 0 (vmax_at_r Phi r).
(** isotropicsphericaldf._call_internal, 803-821 *)
Definition iso_call (fE : RR -> RR) : RR -> RR -> RR -> RR := fun E _ _ => fE E.
(** isotropicsphericaldf._vmomentdensity, 853-870.  gamma(m // 2 + 1), gamma(n // 2 + 0.5), gamma(m // 2 + n // 2 + 1.5) *)
Definition odd_moment (n m : nat) : bool := Nat.odd m || Nat.odd n.
Definition iso_vmoment (fE : RR -> RR) (Phi : RR -> RR -> RR) (r : RR) (n m : nat) : RR :=
  if odd_moment n m then 0
  else 2 * PI * RInt (fun v => v ^ (2 + m + n) * fE (Phi r 0 + 0.5 * v ^ 2)) 0 (vmax_at_r Phi r)
       * gamma_half (2 * (m / 2) + 2) * gamma_half (2 * (n / 2) + 1) / gamma_half (2 * (m / 2) + 2 * (n / 2) + 3).
(** _constantbetadf._call_internal, constantbetadf.py 71-72: L ** (-2 beta) fE(E).  [b] is the integer 1 - 2 beta, so that beta is
    1/2, 0, -1/2, ...: L ** (-2 beta) = L ** (b - 1). *)
Definition pow_pred (x : RR) (b : nat) : RR := match b with O => / x | S k => x ^ k end.
Definition cb_call (b : nat) (fE : RR -> RR) : RR -> RR -> RR -> RR := fun E L _ => pow_pred L b * fE E.
(** _constantbetadf._vmomentdensity, 132-150.  v ** (2 - 2 beta + m + n); gamma(m/2 - beta + 1), gamma((n + 1)/2),
    gamma(0.5 (m + n - 2 beta + 3)) *)
Definition cb_vmoment (b : nat) (fE : RR -> RR) (Phi : RR -> RR -> RR) (r : RR) (n m : nat) : RR :=
  if odd_moment n m then 0
  else 2 * PI * pow_pred r b * RInt (fun v => v ^ (1 + b + m + n) * fE (Phi r 0 + 0.5 * v ^ 2)) 0 (vmax_at_r Phi r)
       * gamma_half (m + b + 1) * gamma_half (n + 1) / gamma_half (m + n + b + 2).
(** _osipkovmerrittdf._call_internal, osipkovmerrittdf.py 72-73 *)
Definition om_call (ra : RR) (fQ : RR -> RR) : RR -> RR -> RR -> RR := fun E L _ => fQ (- E - 0.5 * L ^ 2 / ra ^ 2).
(** _osipkovmerrittdf._vmomentdensity, 177-195; m is even at the last line *)
Definition om_vmoment (ra : RR) (fQ : RR -> RR) (Phi : RR -> RR -> RR) (r : RR) (n m : nat) : RR :=
  if odd_moment n m then 0
  else 2 * PI * RInt (fun v => v ^ (2 + m + n) * fQ (- Phi r 0 - 0.5 * v ^ 2)) 0 (vmax_at_r Phi r)
       * gamma_half (m + 2) * gamma_half (n + 1) / gamma_half (m + n + 3) / (1 + r ^ 2 / ra ^ 2) ^ (m / 2 + 1).
(** sigmar, sigmat, beta: sphericaldf.py 387, 412, 442, from the moments [vm n m] *)
Definition sigmar_of (vm : nat -> nat -> RR) : RR := sqrt (vm 2%nat 0%nat / vm 0%nat 0%nat).
Definition sigmat_of (vm : nat -> nat -> RR) : RR := sqrt (vm 0%nat 2%nat / vm 0%nat 0%nat).
Definition beta_of (vm : nat -> nat -> RR) : RR := 1 - vm 0%nat 2%nat / 2 / vm 2%nat 0%nat.

(** ** Closed forms *)
(** isotropicPlummerdf: fEnorm 42-44, fE 65-69 for one energy *)
Definition plummer_fE (amp b E : RR) : RR :=
  let Et := - E in
  let norm := 24 * sqrt 2 / 7 / PI ^ 3 * b ^ 2 / amp ^ 4 in
  if Rlt_dec 0 Et then (if Rle_dec Et (amp / b) then norm * rpow Et 3.5 else 0) else 0.
(** isotropicHernquistdf: _GMa and _fEnorm 35-43, fE 63-85 for one energy.  [psi0] is minus the potential at the centre. *)
Definition hernquist_norm (psi0 a : RR) : RR := psi0 * a / sqrt 2 / (2 * PI) ^ 3 / rpow (psi0 * a ^ 2) 1.5.
Definition hernquist_shape (e : RR) : RR :=
  sqrt e / (1 - e) ^ 2 * ((1 - 2 * e) * (8 * e ^ 2 - 8 * e - 3) + 3 * asin (sqrt e) / sqrt (e * (1 - e))).
Definition in_unit (e : RR) : bool := if Rlt_dec e 0 then false else if Rlt_dec 1 e then false else true.
Definition hernquist_fE (psi0 a E : RR) : RR :=
  let e := - (E / psi0) in
  if in_unit e then hernquist_norm psi0 a * hernquist_shape e else 0.
(** constantbetaHernquistdf.fE 71-116 for beta = 0, 1/2, -1/2 *)
Definition cbh_fE (b : nat) (psi0 a E : RR) : RR :=
  let e := - (E / psi0) in
  if in_unit e then
    match b with
    | 0%nat => 3 * e ^ 2 / (4 * PI ^ 3 * a)                                                               (* beta = 0.5, 96-97 *)
    | 1%nat => hernquist_norm psi0 a * hernquist_shape e                                                  (* beta = 0, 78-95 *)
    | _ => (20 * e ^ 3 - 20 * e ^ 4 + 6 * e ^ 5) / (1 - e) ^ 4 / (4 * PI ^ 3 * (psi0 * a ^ 2) * a)        (* beta = -0.5, 98-102 *)
    end
  else 0.
(** osipkovmerrittHernquistdf: 45-54, fQ 74-97 *)
Definition omh_fQ (psi0 a ra Q : RR) : RR :=
  let q := Q / psi0 in
  hernquist_norm psi0 a * (if in_unit q then hernquist_shape q + 8 * (a ^ 2 / ra ^ 2) * sqrt q * (1 - 2 * q) else 0).

(** isotropicPowerLawdf: 78-98, fE 119-126.  [k] = 2 s is an integer: gamma(s + 1) and gamma(s - 1/2).  [nu0] and [C] are those of 78-83. *)
Definition powerlaw_fE (k : nat) (nu0 C E : RR) : RR :=
  let eps := - E in
  let norm := nu0 * gamma_half (k + 2) / (2 * sqrt 2 * rpow PI 1.5 * gamma_half (k - 1) * rpow C (INR k / 2)) in
  if Rlt_dec 0 eps then norm * rpow eps (INR k / 2 - 1.5) else 0.

(** fE with an array of energies, isotropicHernquistdf.py 63-85 (constantbetaHernquistdf and osipkovmerrittHernquistdf have the same
    lines): numpy.where(...)[0] holds the first index of every entry out of range, and those rows are set to 0.5 before and to 0 after
    the evaluation.  [g] is the formula. *)
Definition fE_array1 (g : RR -> RR) (es : list RR) : list RR :=
  map (fun e => if in_unit e then g e else 0) es.
Definition fE_array2 (g : RR -> RR) (rows : list (list RR)) : list (list RR) :=
  map (fun row => if forallb in_unit row then map g row else map (fun _ => 0) row) rows.

(** ** Sampling *)
(** _icmf: isotropicPlummerdf.py 74; isotropicHernquistdf.py 107, constantbetaHernquistdf.py 121, osipkovmerrittHernquistdf.py 102 *)
Definition plummer_icmf (b ms : RR) : RR := b / sqrt (rpow ms (- (2 / 3)) - 1).
Definition hernquist_icmf (a ms : RR) : RR := a * sqrt ms / (1 - sqrt ms).
(** isotropicPowerLawdf.py 132-137, for 0 < rmin *)
Definition powerlaw_icmf (gamma rmin rmax ms : RR) : RR :=
  let rmin_g := rpow rmin (3 - gamma) in
  let rmax_g := rpow rmax (3 - gamma) in
  rpow (ms * (rmax_g - rmin_g) + rmin_g) (1 / (3 - gamma)).
(** sphericaldf.sample, 483-486 and 510-516: the row of a sample, from the radius, the angles theta and phi of the position, the
    angles eta and psi of the velocity, and the speed *)
Definition sample_row (r theta phi eta psi v : RR) : cyl :=
  let vr := v * cos eta in
  let vtheta := v * sin eta * cos psi in
  mkCyl (r * sin theta) (vr * sin theta + vtheta * cos theta) (v * sin eta * sin psi) (r * cos theta)
        (vr * cos theta - vtheta * sin theta) phi.
(** sample(R=, z=), 499-500 and 510-516 *)
Definition sample_row_at (R z phi eta psi v : RR) : cyl :=
  let theta := atan2 R z in
  let vr := v * cos eta in
  let vtheta := v * sin eta * cos psi in
  mkCyl R (vr * sin theta + vtheta * cos theta) (v * sin eta * sin psi) z (vr * cos theta - vtheta * sin theta) phi.
(** _sample_position_angles 588-590 and isotropicsphericaldf._sample_eta 874 *)
Definition sample_theta (u : RR) : RR := acos (1 - 2 * u).
Definition sample_phi (u : RR) : RR := u * 2 * PI.
(** _osipkovmerrittdf._sample_eta, osipkovmerrittdf.py 137-152; [neg] is the random sign *)
Definition om_sample_eta (ra r c : RR) (neg : bool) : RR :=
  let x := c * sqrt (1 + r ^ 2 / ra ^ 2) / sqrt (r ^ 2 / ra ^ 2 * c ^ 2 + 1) in
  acos (x * (if neg then -1 else 1)).
(** _osipkovmerrittdf._sample_v, 170-175, from the speed of the isotropic sampler *)
Definition om_sample_v (ra r eta v : RR) : RR := v / sqrt (1 + r ^ 2 / ra ^ 2 * sin eta ^ 2).

(** sphericaldf._sample_r, 532-549, with the radius of the mass fraction [u].  [icmf] is [_icmf] if the class has one; otherwise
    [cmf rmin u] is the interpolated inverse for the minimum radius [_rmin_sampling]. *)
Definition sample_r (icmf : option (RR -> RR)) (cmf : RR -> RR -> RR) (rmin u : RR) : RR :=
  match icmf with Some f => f u | None => cmf rmin u end.

(** The caches of sample(): _rmin_sampling (474-481), _xi_cmf_interpolator (545-546), _v_vesc_pvr_interpolator (594-600).  A cached
    interpolator is recorded by the minimum radius it was built for.  [full] says whether positions are drawn (482). *)
Record sampler := mkS { s_rmin : option RR; s_cmf : option RR; s_pvr : option RR }.
Definition fresh_sampler : sampler := mkS None None None.
Definition sample_step (has_icmf : bool) (s : sampler) (full : bool) (rmin : RR) : sampler * (option RR * RR) :=
  let s1 := match s_rmin s with
            | Some old => if Req_EM_T rmin old then s else mkS (s_rmin s) None None
            | None => s
            end in
  let s2 := mkS (Some rmin) (s_cmf s1) (s_pvr s1) in
  let cmf := if full && negb has_icmf then (match s_cmf s2 with Some c => Some c | None => Some rmin end) else s_cmf s2 in
  let pvr := match s_pvr s2 with Some p => p | None => rmin end in
  (mkS (Some rmin) cmf (Some pvr), (if full && negb has_icmf then cmf else None, pvr)).
