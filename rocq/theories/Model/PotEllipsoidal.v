(** Models of galpy/potential/EllipsoidalPotential.py and of its subclasses in PerfectEllipsoidPotential.py,
    PowerTriaxialPotential.py, TriaxialGaussianPotential.py and TwoPowerTriaxialPotential.py. *)
From Coq Require Import Reals List Bool.
From Coquelicot Require Import Coquelicot.
From Verif.Lib Require Import RealAux Vec3.
From Verif.Model Require Import PotAPI Coords RotVec.
Import ListNotations.
Open Scope R_scope.
Notation RR := RbaseSymbolsImpl.R (only parsing).

(** The attributes and methods an instance has after construction: _b, _c, _psi, _mdens, _mdens_deriv; _rot, which is absent when
    _aligned; the rescaled nodes and weights zip(_glx, _glw), which are absent for glorder=None. *)
Record Ell := mkEll {
  e_b : RR; e_c : RR; e_psi : RR -> RR; e_mdens : RR -> RR; e_mderiv : RR -> RR;
  e_rot : option M3; e_gl : option (list (RR * RR)) }.

(** _setup_zvec_pa, EllipsoidalPotential.py 97-124.  parse_angle is the identity on numbers. *)
Definition ell_pa_rot (pa : RR) : M3 :=                              (* 105-111 *)
  mkM (mkV (cos pa) (sin pa) 0) (mkV (- sin pa) (cos pa) 0) (mkV 0 0 1).
Definition ell_setup_rot (zvec : option V3) (pa : option RR) : option M3 :=
  let pa_rot := match pa with Some p => ell_pa_rot p | None => eye end in
  match zvec with
  | None =>
      match pa with
      | None => None
      | Some p => if Rlt_dec (Rabs p) (1 / 10 ^ 10) then None else Some (mulMM pa_rot eye)
      end
  | Some v =>
      let v := vscal (/ sqrt (vnorm2 v)) v in                        (* 117 *)
      Some (mulMM pa_rot (rotate_to_arbitrary_vector true false (mkV 0 0 1) v))
  end.
(** _setup_gl, 126-135: [nw] is what leggauss returns. *)
Definition ell_setup_gl (nw : option (list (RR * RR))) : option (list (RR * RR)) :=
  option_map (map (fun p => (1 / 2 * fst p + 1 / 2, snd p * (1 / 2)))) nw.

Section Ellipsoidal.
  Variable e : Ell.
  Let b2 := e_b e ^ 2.                                               (* 85 *)
  Let c2 := e_c e ^ 2.                                               (* 86 *)
  (** 93-94 *)
  Definition ell_nonaxi : bool :=
    match e_rot e with
    | Some _ => true
    | None => if Rlt_dec (1 / 10 ^ 10) (Rabs (e_b e - 1)) then true else false
    end.

  (** ** The integrands of _potInt 376-397, _forceInt_all 400-444 and _2ndDerivInt_all 447-519 *)
  Definition ell_t (s : RR) : RR := 1 / s ^ 2 - 1.
  Definition ell_i1 (s : RR) : RR := 1 / (1 + ell_t s).
  Definition ell_ib (s : RR) : RR := 1 / (b2 + ell_t s).
  Definition ell_ic (s : RR) : RR := 1 / (c2 + ell_t s).
  Definition ell_m (x y z s : RR) : RR :=
    sqrt (x ^ 2 * ell_i1 s + y ^ 2 * ell_ib s + z ^ 2 * ell_ic s).
  Definition ell_denom (s : RR) : RR :=
    sqrt ((1 + (b2 - 1) * s ^ 2) * (1 + (c2 - 1) * s ^ 2)).
  (** integrate.quad over [0, 1], or the loop over the Gauss-Legendre nodes.  In the loop the weight is a factor of every term. *)
  Definition ell_int (f : RR -> RR) : RR :=
    match e_gl e with
    | None => RInt f 0 1
    | Some l => fold_left (fun acc p => acc + snd p * f (fst p)) l 0
    end.
  Definition ell_potInt (x y z : RR) : RR :=
    ell_int (fun s => e_psi e (ell_m x y z s) / ell_denom s).
  (** One component of the force: [v] is the coordinate and [i] its factor. *)
  Definition ell_forceInt (x y z v : RR) (i : RR -> RR) : RR :=
    ell_int (fun s => e_mdens e (ell_m x y z s) * (v * i s) / ell_denom s).
  (** One of the second derivatives: [d] is (i == j). *)
  Definition ell_2ndInt (x y z v : RR) (i : RR -> RR) (w : RR) (j : RR -> RR) (d : bool) : RR :=
    ell_int (fun s =>
      (e_mderiv e (ell_m x y z s) * (v * i s) * (w * j s) / ell_m x y z s
       + (if d then e_mdens e (ell_m x y z s) * i s else 0)) / ell_denom s).

  (** ** The class *)
  Definition ell_phi (phi : RR) : RR := if ell_nonaxi then phi else 0.
  Definition ell_xyz (R z phi : RR) : V3 :=
    let '(x, y, z) := cyl_to_rect R phi z in mkV x y z.
  (** 149, 170-173, 356 *)
  Definition ell_body (p : V3) : V3 :=
    match e_rot e with None => p | Some m => mulMV m p end.
  Definition ell_ev : F4 := fun R z phi t =>                         (* 137-163; an infinite R is left out *)
    let p := ell_body (ell_xyz R z (ell_phi phi)) in
    2 * PI * e_b e * e_c e * ell_potInt (vx p) (vy p) (vz p).
  (** 165-188 and 197-199, 209-211, 220-225.  The cache is keyed by a hash of x, y, z and is left out. *)
  Definition ell_forces (p : V3) : V3 :=
    let q := ell_body p in
    let x := vx q in let y := vy q in let z := vz q in
    let F := vscal (- 4 * PI * e_b e * e_c e)
               (mkV (ell_forceInt x y z x ell_i1) (ell_forceInt x y z y ell_ib) (ell_forceInt x y z z ell_ic)) in
    match e_rot e with None => F | Some m => mulMV (transp m) F end.
  Definition ell_Rf : F4 := fun R z phi t =>                         (* 190-200 *)
    let phi := ell_phi phi in
    let F := ell_forces (ell_xyz R z phi) in cos phi * vx F + sin phi * vy F.
  Definition ell_pt : F4 := fun R z phi t =>                         (* 202-212 *)
    let phi := ell_phi phi in
    let F := ell_forces (ell_xyz R z phi) in R * (- sin phi * vx F + cos phi * vy F).
  Definition ell_zf : F4 := fun R z phi t =>                         (* 214-226 *)
    vz (ell_forces (ell_xyz R z (ell_phi phi))).
  (** 228-251: xx, xy, xz, yy, yz, zz *)
  Definition ell_2nd (p : V3) : RR * RR * RR * RR * RR * RR :=
    let x := vx p in let y := vy p in let z := vz p in
    let k := 4 * PI * e_b e * e_c e in
    (k * ell_2ndInt x y z x ell_i1 x ell_i1 true, k * ell_2ndInt x y z x ell_i1 y ell_ib false,
     k * ell_2ndInt x y z x ell_i1 z ell_ic false, k * ell_2ndInt x y z y ell_ib y ell_ib true,
     k * ell_2ndInt x y z y ell_ib z ell_ic false, k * ell_2ndInt x y z z ell_ic z ell_ic true).
  Definition ell_R2 : F4 := fun R z phi t =>                         (* 253-269 *)
    let phi := ell_phi phi in
    let '(xx, xy, xz, yy, yz, zz) := ell_2nd (ell_xyz R z phi) in
    cos phi ^ 2 * xx + sin phi ^ 2 * yy + 2 * cos phi * sin phi * xy.
  Definition ell_Rz : F4 := fun R z phi t =>                         (* 271-282 *)
    let phi := ell_phi phi in
    let '(xx, xy, xz, yy, yz, zz) := ell_2nd (ell_xyz R z phi) in cos phi * xz + sin phi * yz.
  Definition ell_z2 : F4 := fun R z phi t =>                         (* 284-293 *)
    let '(xx, xy, xz, yy, yz, zz) := ell_2nd (ell_xyz R z (ell_phi phi)) in zz.
  Definition ell_p2 : F4 := fun R z phi t =>                         (* 295-314 *)
    let phi := ell_phi phi in
    let F := ell_forces (ell_xyz R z phi) in
    let '(xx, xy, xz, yy, yz, zz) := ell_2nd (ell_xyz R z phi) in
    R ^ 2 * (sin phi ^ 2 * xx + cos phi ^ 2 * yy - 2 * cos phi * sin phi * xy)
    + R * (cos phi * vx F + sin phi * vy F).
  Definition ell_Rp : F4 := fun R z phi t =>                         (* 316-336 *)
    let phi := ell_phi phi in
    let F := ell_forces (ell_xyz R z phi) in
    let '(xx, xy, xz, yy, yz, zz) := ell_2nd (ell_xyz R z phi) in
    R * cos phi * sin phi * (yy - xx) + R * cos (2 * phi) * xy + sin phi * vx F - cos phi * vy F.
  Definition ell_pz : F4 := fun R z phi t =>                         (* 338-349 *)
    let phi := ell_phi phi in
    let '(xx, xy, xz, yy, yz, zz) := ell_2nd (ell_xyz R z phi) in R * (cos phi * yz - sin phi * xz).
  Definition ell_dens : F4 := fun R z phi t =>                       (* 351-359 *)
    let p := ell_body (ell_xyz R z phi) in
    e_mdens e (sqrt (vx p ^ 2 + vy p ^ 2 / b2 + vz p ^ 2 / c2)).
  Definition ell_mass (R : RR) : RR :=                               (* 361-370 *)
    4 * PI * e_b e * e_c e * RInt (fun m => m ^ 2 * e_mdens e m) 0 R.
  (** A rotated instance raises NotImplementedError for the second derivatives. *)
  Definition ell_aligned_only (f : F4) : option F4 :=
    match e_rot e with None => Some f | Some _ => None end.
  Definition EllipsoidalC : PotC :=
    mkPotC ell_nonaxi ell_ev ell_Rf ell_zf (Some ell_pt)
      (ell_aligned_only ell_R2) (ell_aligned_only ell_z2) (ell_aligned_only ell_Rz)
      (ell_aligned_only ell_p2) (ell_aligned_only ell_Rp) (ell_aligned_only ell_pz) (Some ell_dens).
End Ellipsoidal.

(** ** The profiles: _psi, _mdens, _mdens_deriv, _mass(R) and the factor of amp *)
Record EProfile := mkEProfile { p_psi : RR -> RR; p_dens : RR -> RR; p_deriv : RR -> RR }.
Definition ell_of (p : EProfile) (b c : RR) (rot : option M3) (gl : option (list (RR * RR))) : Ell :=
  mkEll b c (p_psi p) (p_dens p) (p_deriv p) rot gl.

(** PerfectEllipsoidPotential.py 99-121, 85 *)
Definition perfect (a : RR) : EProfile := mkEProfile
  (fun m => - 1 / (a ^ 2 + m ^ 2))
  (fun m => / (a ^ 2 + m ^ 2) ^ 2)
  (fun m => - 4 * m * / (a ^ 2 + m ^ 2) ^ 3).
Definition perfect_mass (a b c R : RR) : RR :=
  2 * PI * b * c / a * (atan (R / a) - R * a / (1 + R ^ 2)).
Definition perfect_amp (amp a b c : RR) : RR := amp * (a / (PI ^ 2 * b * c)).
(** The same with the scale in the denominator. *)
Definition perfect_mass_scaled (a b c R : RR) : RR :=
  2 * PI * b * c / a * (atan (R / a) - R * a / (a ^ 2 + R ^ 2)).
(** PowerTriaxialPotential.py 103-113, 87-90 *)
Definition power_triaxial (alpha : RR) : EProfile := mkEProfile
  (fun m => 2 / (2 - alpha) * rpow m (2 - alpha))
  (fun m => rpow m (- alpha))
  (fun m => - alpha * rpow m (- (1 + alpha))).
Definition power_amp (amp alpha rr1 : RR) : RR :=
  (if Req_EM_T alpha 3 then amp else amp * (rpow rr1 (alpha - 3) * 4 * PI / (3 - alpha)))
  * ((3 - alpha) / 4 / PI).
(** TriaxialGaussianPotential.py 101-127; special.erf is the argument [erf] *)
Definition gaussian (sigma : RR) : EProfile := mkEProfile
  (fun m => - (2 * sigma ^ 2) * exp (- m ^ 2 / (2 * sigma ^ 2)))
  (fun m => exp (- m ^ 2 / (2 * sigma ^ 2)))
  (fun m => - 2 * m * exp (- m ^ 2 / (2 * sigma ^ 2)) / (2 * sigma ^ 2)).
Definition gaussian_mass (erf : RR -> RR) (sigma b c R : RR) : RR :=
  PI * b * c * (2 * sigma ^ 2) * sigma
  * (sqrt (2 * PI) * erf (R / sigma / sqrt 2) - 2 * R / sigma * exp (- R ^ 2 / (2 * sigma ^ 2))).
(** TwoPowerTriaxialPotential.py 286-310, 273 *)
Definition tri_hernquist (a : RR) : EProfile := mkEProfile
  (fun m => - a ^ 4 / (m + a) ^ 2)
  (fun m => a ^ 4 / m / (m + a) ^ 3)
  (fun m => - a ^ 4 * (a + 4 * m) / m ^ 2 / (a + m) ^ 4).
Definition tri_hernquist_mass (a b c R : RR) : RR :=
  4 * PI * a ^ 4 / a / (1 + a / R) ^ 2 / 2 * b * c.
(** 405-426 *)
Definition tri_jaffe (a : RR) : EProfile := mkEProfile
  (fun m => 2 * a ^ 2 * (1 / (1 + m / a) + ln (1 / (1 + a / m))))
  (fun m => a ^ 2 / m ^ 2 / (1 + m / a) ^ 2)
  (fun m => - 2 * (a ^ 2) ^ 2 * (a + 2 * m) / m ^ 3 / (a + m) ^ 3).
Definition tri_jaffe_mass (a b c R : RR) : RR := 4 * PI * a * a ^ 2 / (1 + a / R) * b * c.
(** 557-579 *)
Definition tri_nfw (a : RR) : EProfile := mkEProfile
  (fun m => - 2 * a ^ 3 / (a + m))
  (fun m => a / m / (1 + m / a) ^ 2)
  (fun m => - a ^ 3 * (a + 3 * m) / m ^ 2 / (a + m) ^ 3).
Definition tri_nfw_mass (a b c R : RR) : RR :=
  4 * PI * a ^ 3 * b * c * (ln (1 + R / a) - R / a / (1 + R / a)).
(** 134-190; special.hyp2f1 is the argument [F], [psi_inf] the constant of 114-119 *)
Definition two_power (F : RR -> RR -> RR -> RR -> RR) (psi_inf a alpha beta : RR) : EProfile :=
  let dens := fun m => rpow (a / m) alpha / rpow (1 + m / a) (beta - alpha) in
  mkEProfile
    (fun m =>
       if Req_EM_T (2 - alpha) 0 then
         - 2 * a ^ 2 * rpow (a / m) (beta - alpha) / (beta - alpha)
         * F (beta - alpha) (beta - alpha) (beta - alpha + 1) (- a / m)
       else
         - 2 * a ^ 2 * (psi_inf - rpow (m / a) (2 - alpha) / (2 - alpha)
                                  * F (2 - alpha) (beta - alpha) (3 - alpha) (- m / a)))
    dens
    (fun m => - dens m * (a * alpha + beta * m) / m / (a + m)).
Definition two_power_mass (F : RR -> RR -> RR -> RR -> RR) (a alpha beta b c R : RR) : RR :=
  4 * PI * rpow a alpha * rpow R (3 - alpha) / (3 - alpha) * b * c
  * F (3 - alpha) (beta - alpha) (4 - alpha) (- R / a).
(** 105-108: the range accepted by the constructor *)
Definition two_power_accepts (alpha beta : RR) : bool :=
  negb ((if Rle_dec beta 2 then true else false) || (if Rle_dec 3 alpha then true else false)).
