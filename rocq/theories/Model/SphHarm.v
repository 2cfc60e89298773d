(** Basis-function expansions: potential/SCFPotential.py and potential/SphericalHarmonicPotentialMixin.py over exact reals, at one point
    (arrays are evaluated point by point, SphericalHarmonicPotentialMixin.py 66-85, 130-147).
    The coefficients at the time t are functions of (n, l, m) below the sizes N, L, M.
    Not modelled: units, the checks of the shapes, the interpolation of the coefficients in time, the caches of the last point, the
    computation of coefficients from a density or from particles. *)
From Coq Require Import Reals Arith Factorial.
From Verif.Lib Require Import RealAux Atan2.
From Verif.Model Require Import Coords PotAPI.
Open Scope R_scope.
Notation RR := RbaseSymbolsImpl.R (only parsing).

(** ** Gegenbauer polynomials: SCFPotential.py 1243-1255, the recurrence of _C *)
Fixpoint geg (a xi : RR) (n : nat) : RR := match n with
  | O => 1
  | S k => match k with
    | O => 2 * a * xi
    | S j => (2 * (INR k + a) * xi * geg a xi k - (INR k + 2 * a - 1) * geg a xi j) / (INR k + 1) end end.
(** 1211, default alpha; 1266-1272; 1275-1289: the rolled arrays with their first rows set to zero *)
Definition alpha (l : nat) : RR := 2 * INR l + 3 / 2.
Definition CC (xi : RR) (n l : nat) : RR := geg (alpha l) xi n.
Definition dCC (xi : RR) (n l : nat) : RR := match n with O => 0 | S k => geg (2 * INR l + 5 / 2) xi k end * (2 * (2 * INR l + 3 / 2)).
Definition d2CC (xi : RR) (n l : nat) : RR := match n with O => 0 | S O => 0 | S (S k) => geg (2 * INR l + 7 / 2) xi k end * (4 * (2 * INR l + 3 / 2) * (2 * INR l + 3 / 2 + 1)).

(** ** Radial functions *)
Section Radial.
  Variable a : RR.
  (** 1201-1208 for finite r *)
  Definition RToxi (r : RR) : RR := (r / a - 1) / (r / a + 1).
  (** 1150-1170 *)
  Definition rhoTilde (r : RR) (n l : nat) : RR :=
    let K := 1 / 2 * INR n * (INR n + 4 * INR l + 3) + (INR l + 1) * (2 * INR l + 1) in
    K * (a * r) ^ l / (r / a * (a + r) ^ (2 * l + 3)) * CC (RToxi r) n l * / sqrt PI.
  (** 1173-1194 *)
  Definition phiTilde (r : RR) (n l : nat) : RR :=
    if Req_EM_T r 0 then - 1 / a * CC (RToxi r) n l * sqrt (4 * PI)
    else - a ^ l * / r ^ (l + 1) / (1 + a / r) ^ (2 * l + 1) * CC (RToxi r) n l * sqrt (4 * PI).
  (** 935-947 *)
  Definition dphiTilde (r : RR) (n l : nat) : RR :=
    - sqrt (4 * PI) * ((a * r) ^ l * (INR l * (a + r) * / r - (2 * INR l + 1)) / (a + r) ^ (2 * l + 2) * CC (RToxi r) n l
      + / a * (1 - RToxi r) ^ 2 * (a * r) ^ l / (a + r) ^ (2 * l + 1) * dCC (RToxi r) n l / 2).
  (** 949-987 *)
  Definition d2phiTilde (r : RR) (n l : nat) : RR :=
    let ar := a + r in let lf := INR l in
    if Req_EM_T r 0 then 0 else
    let ar2 := ar * ar in let ar3 := ar2 * ar in let ar4 := ar3 * ar in
    let rterm := (a * r / ar2) ^ l / (r * r * ar3 * ar2) in
    rterm * (CC (RToxi r) n l * (lf * (1 - lf) * ar4 - (4 * lf ^ 2 + 6 * lf + 2) * r * r * ar2 + lf * (4 * lf + 2) * r * ar3)
      + a * r * ((4 * r * r + 4 * a * r + (8 * lf + 4) * r * ar - 4 * lf * ar2) * dCC (RToxi r) n l - 4 * a * r * d2CC (RToxi r) n l)) * sqrt (4 * PI).
End Radial.

(** ** Associated Legendre functions: util/special.py 16-72.  scipy's P_l^m(x) with the phase (-1)^m, through the Gegenbauer polynomials:
    the m-th derivative of the Legendre polynomial is (2m-1)!! C_(l-m)^(m+1/2); zero for m > l *)
Fixpoint odd_fact (m : nat) : RR := match m with O => 1 | S k => (2 * INR k + 1) * odd_fact k end.
Definition lpm (l m : nat) (x : RR) : RR := if Nat.leb m l then (- 1) ^ m * odd_fact m * sqrt (1 - x ^ 2) ^ m * geg (INR m + 1 / 2) x (l - m) else 0.
(** its derivative, as scipy returns it *)
Definition dlpm (l m : nat) (x : RR) : RR := if Nat.leb m l then (- 1) ^ m * odd_fact m * sqrt (1 - x ^ 2) ^ m *
    (match (l - m)%nat with O => 0 | S k => (2 * INR m + 1) * geg (INR m + 3 / 2) x k end - INR m * x / (1 - x ^ 2) * geg (INR m + 1 / 2) x (l - m)) else 0.
(** 75-119 _compute_legendre_2nd_deriv away from the poles *)
Definition d2lpm (l m : nat) (x : RR) : RR := if Nat.leb m l then
  (2 * x * dlpm l m x - INR l * (INR l + 1) * lpm l m x + INR m * INR m / (1 - x * x) * lpm l m x) / (1 - x * x) else 0.
(** 120-149 sph_harm_normalization *)
Definition NN (l m : nat) : RR := if Nat.leb m l then
  sqrt ((2 * INR l + 1) / (4 * PI) * (INR (fact (l - m)) / INR (fact (l + m)))) * (if Nat.eqb m 0 then 1 else 2) else 0.

(** numpy.sum over the array of size N, L, M *)
Fixpoint sum1 (N : nat) (f : nat -> RR) : RR := match N with O => 0 | S k => sum1 k f + f k end.
Definition sum3 (N L M : nat) (f : nat -> nat -> nat -> RR) : RR := sum1 N (fun n => sum1 L (fun l => sum1 M (fun m => f n l m))).

(** ** The expansion *)
Section Expansion.
  Variables (N L M : nat) (a : RR).
  Variables Acos0 Asin0 : RR -> nat -> nat -> nat -> RR.          (* the arguments Acos, Asin, at the time t *)
  Variable nax : bool.                                             (* self.isNonAxi *)
  (** 193-197, 289-293 *)
  Definition Acos (t : RR) (n l m : nat) : RR := Acos0 t n l m * NN l m.
  Definition Asin (t : RR) (n l m : nat) : RR := Asin0 t n l m * NN l m.
  Definition cos_sin (phi t : RR) (n l m : nat) : RR := Acos t n l m * cos (INR m * phi) + Asin t n l m * sin (INR m * phi).
  Definition dphi_coef (phi t : RR) (n l m : nat) : RR := INR m * (Asin t n l m * cos (INR m * phi) - Acos t n l m * sin (INR m * phi)).
  (** 826-869 *)
  Definition at_point (radial : RR -> nat -> nat -> RR) (R z phi t : RR) : RR :=
    let '(r, theta, phi) := cyl_to_spher R z phi in
    sum3 N L M (fun n l m => radial r n l * cos_sin phi t n l m * lpm l m (cos theta)).
  Definition scf_ev : F4 := at_point (phiTilde a).                 (* 930-933 *)
  Definition scf_dens : F4 := at_point (rhoTilde a).               (* 917-920 *)
  (** 922-928 *)
  Definition scf_mass (r t : RR) : RR := r ^ 2 * sum1 N (fun n => Acos t n 0%nat 0%nat * dphiTilde a r n 0).
  (** 989-1055 *)
  Definition spher_forces (R z phi t : RR) : RR * RR * RR :=
    let '(r, theta, phi) := cyl_to_spher R z phi in
    (- sum3 N L M (fun n l m => cos_sin phi t n l m * lpm l m (cos theta) * dphiTilde a r n l),
     - sum3 N L M (fun n l m => cos_sin phi t n l m * phiTilde a r n l * dlpm l m (cos theta) * (- sin theta)),
     - sum3 N L M (fun n l m => dphi_coef phi t n l m * phiTilde a r n l * lpm l m (cos theta))).
  (** SphericalHarmonicPotentialMixin.py 56-86 *)
  Definition cyl_force (dr_dx dtheta_dx dphi_dx R z phi t : RR) : RR :=
    let '(Fr, Ft, Fp) := spher_forces R z phi t in dr_dx * Fr + dtheta_dx * Ft + Fp * dphi_dx.
  (** 88-94, 96-102, 104-107 *)
  Definition scf_Rf : F4 := fun R z phi t => let r := sqrt (R ^ 2 + z ^ 2) in cyl_force (R / r) (z / r ^ 2) 0 R z phi t.
  Definition scf_zf : F4 := fun R z phi t => let r := sqrt (R ^ 2 + z ^ 2) in cyl_force (z / r) (- R / r ^ 2) 0 R z phi t.
  Definition scf_pt : F4 := fun R z phi t => cyl_force 0 0 1 R z phi t.
  (** SCFPotential.py 1057-1126 *)
  Record spher2 := mkS2 { Phi_rr : RR; Phi_tt : RR; Phi_pp : RR; Phi_rt : RR; Phi_rp : RR; Phi_tp : RR; Phi_r : RR; Phi_t : RR }.
  Definition near_pole (theta : RR) : bool := if Nat.ltb 1 M then (if Rlt_dec (Rabs (1 - cos theta * cos theta)) (/ 10 ^ 14) then true else false) else false.
  Definition sgn (x : RR) : RR := if Rlt_dec 0 x then 1 else if Rlt_dec x 0 then - 1 else 0.
  Definition spher_2nd (R z phi t : RR) : spher2 :=
    let '(r, theta, phi) := cyl_to_spher R z phi in
    if Req_EM_T r 0 then mkS2 0 0 0 0 0 0 0 0 else
    let costheta := if near_pole theta then sgn (cos theta) * (1 - / 10 ^ 7) else cos theta in
    let sintheta := if near_pole theta then sqrt (1 - costheta ^ 2) else sin theta in
    let dPth l m := dlpm l m costheta * (- sintheta) in
    let d2Pth l m := d2lpm l m costheta * sintheta ^ 2 - dlpm l m costheta * costheta in
    let PP l m := lpm l m costheta in
    mkS2 (sum3 N L M (fun n l m => cos_sin phi t n l m * PP l m * d2phiTilde a r n l))
         (sum3 N L M (fun n l m => cos_sin phi t n l m * d2Pth l m * phiTilde a r n l))
         (sum3 N L M (fun n l m => - INR m * INR m * cos_sin phi t n l m * PP l m * phiTilde a r n l))
         (sum3 N L M (fun n l m => cos_sin phi t n l m * dPth l m * dphiTilde a r n l))
         (sum3 N L M (fun n l m => dphi_coef phi t n l m * PP l m * dphiTilde a r n l))
         (sum3 N L M (fun n l m => dphi_coef phi t n l m * dPth l m * phiTilde a r n l))
         (sum3 N L M (fun n l m => cos_sin phi t n l m * PP l m * dphiTilde a r n l))
         (sum3 N L M (fun n l m => cos_sin phi t n l m * dPth l m * phiTilde a r n l)).
  (** SphericalHarmonicPotentialMixin.py 149-203 *)
  Inductive deriv := dR2 | dz2 | dRz | dphi2 | dRphi | dphiz.
  Definition cyl_2nd (d : deriv) (R z phi t : RR) : RR :=
    let s := spher_2nd R z phi t in
    let r2 := R * R + z * z in let r := sqrt r2 in
    if Req_EM_T r 0 then 0 else
    let r3 := r * r2 in let r4 := r2 * r2 in
    match d with
    | dR2 => Phi_rr s * R * R / r2 + Phi_r s * z * z / r3 + 2 * Phi_rt s * R * z / r3 + Phi_tt s * z * z / r4 + Phi_t s * (- 2 * R * z) / r4
    | dz2 => Phi_rr s * z * z / r2 + Phi_r s * R * R / r3 - 2 * Phi_rt s * z * R / r3 + Phi_tt s * R * R / r4 + Phi_t s * 2 * R * z / r4
    | dRz => Phi_rr s * R * z / r2 + Phi_r s * (- R * z) / r3 + Phi_rt s * (z * z - R * R) / r3 + Phi_tt s * (- z * R) / r4 + Phi_t s * (R * R - z * z) / r4
    | dphi2 => Phi_pp s
    | dRphi => Phi_rp s * R / r + Phi_tp s * z / r2
    | dphiz => Phi_rp s * z / r + Phi_tp s * (- R) / r2
    end.
  (** SCFPotential.py 1128-1144 *)
  Definition scf_class : PotC := mkPotC nax scf_ev scf_Rf scf_zf (Some scf_pt) (Some (cyl_2nd dR2)) (Some (cyl_2nd dz2)) (Some (cyl_2nd dRz))
    (Some (cyl_2nd dphi2)) (Some (cyl_2nd dRphi)) (Some (cyl_2nd dphiz)) (Some scf_dens).
  (** 113: the amplitude is halved *)
  Definition SCF (amp : RR) : Pot := Single (amp / 2) scf_class.
  (** Potential.py 760-763 with z = None *)
  Definition SCF_mass (amp r t : RR) : RR := amp / 2 * scf_mass r t.
End Expansion.

(** ** The constructor: SCFPotential.py 140-197 for static coefficients of shape N, L, M; Asin, when given, has the same shape.
    None is a RuntimeError or a RuntimeWarning; otherwise isNonAxi and the coefficients *)
Fixpoint all1 (N : nat) (f : nat -> bool) : bool := match N with O => true | S k => andb (all1 k f) (f k) end.
Definition all3 (N L M : nat) (f : nat -> nat -> nat -> bool) : bool := all1 N (fun n => all1 L (fun l => all1 M (fun m => f n l m))).
Definition isz (x : RR) : bool := if Req_EM_T x 0 then true else false.
Definition coefs := nat -> nat -> nat -> RR.
Definition low (N L M : nat) (A : coefs) : bool := all3 N L M (fun n l m => orb (Nat.leb m l) (isz (A n l m))).          (* not any triu *)
Definition axi (N L M : nat) (A : coefs) : bool := all3 N L M (fun n l m => orb (Nat.eqb m 0) (isz (A n l m))).          (* all of [:, :, 1:] zero *)
Definition init_static (N L M : nat) (Ac : coefs) (As : option coefs) : option (bool * coefs * coefs) := match As with
  | Some B => if negb (Nat.eqb L M) then None else if negb (andb (low N L M Ac) (low N L M B)) then None else
      Some (negb (orb (Nat.eqb L 1) (andb (axi N L M Ac) (all3 N L M (fun n l m => isz (B n l m))))), Ac, B)
  | None => if negb (orb (Nat.eqb M 1) (Nat.eqb L M)) then None else if andb (Nat.ltb 1 L) (negb (axi N L M Ac)) then None else
      if negb (low N L M Ac) then None else Some (false, Ac, fun _ _ _ => 0) end.
