(** Model of galpy/potential/AnySphericalPotential.py, EinastoPotential.py, PowerSphericalPotentialwCutoff.py, ExpTruncNFWPotential.py
    and interpSphericalPotential.py.

    Simplifications: floats are exact reals; scipy.special's gamma, gammainc, gammaincc, hyp1f1 and exp1 are the mathematical functions
    (on the arguments at which they are called here); scipy.integrate.quad is the exact improper integral; fsolve and brentq return an
    exact root.  Unit parsing (parse_length, parse_mass, parse_dens) is modelled elsewhere (C21).  Scalar arguments only (an array is
    evaluated element by element by the same expressions). *)
From Coq Require Import Reals List.
From Coquelicot Require Import Coquelicot.
From Verif.Lib Require Import RealAux.
From Verif.Model Require Import PotAPI PotAxi.
From Verif.Spec Require Import DensSpec.
Open Scope R_scope.
Notation RR := RbaseSymbolsImpl.R (only parsing).

(** scipy.special: gamma, gammainc, gammaincc (regularised), hyp1f1, exp1 *)
Definition sp_gamma (a : RR) : RR := Gamma a.
Definition sp_gammainc (a x : RR) : RR := Gamma_low a x / Gamma a.
Definition sp_gammaincc (a x : RR) : RR := Gamma_up a x / Gamma a.
Definition sp_hyp1f1 (a b z : RR) : RR := Kummer a b z.
Definition sp_exp1 (x : RR) : RR := ExpInt x.

(** ** AnySphericalPotential.py *)
Section AnySph.
  Variable rawdens : RR -> RR.             (* 54-82: self._rawdens, after unit handling *)
  Variables zero_diverges mass_diverges : bool.   (* 88-91, 100-105: quad's message for the integrals of a rho and a^2 rho over (0, inf) *)
  Definition AS_rawmass (r : RR) : RR :=                                          (* 84-86 *)
    4 * PI * RInt_gen (V := R_CompleteNormedModule) (fun a => a ^ 2 * rawdens a) (at_right 0) (at_point r).
  Definition AS_pot_zero : Rbar :=                                                (* 91-99 *)
    if zero_diverges then m_infty
    else Finite (- 4 * PI * RInt_gen (V := R_CompleteNormedModule) (fun a => a * rawdens a) (at_right 0) (Rbar_locally p_infty)).
  Definition AS_pot_inf : Rbar := if mass_diverges then p_infty else Finite 0.    (* 106 *)
  Definition AS_rev_inner (r : RR) : RR :=                                        (* 129-131 *)
    - AS_rawmass r / r - 4 * PI * RInt_gen (V := R_CompleteNormedModule) (fun a => rawdens a * a) (at_point r) (Rbar_locally p_infty).
  Definition AS_revaluate (r : Rbar) : Rbar :=                                    (* 123-131; r is not negative *)
    match r with
    | Finite x => if Req_EM_T x 0 then AS_pot_zero else Finite (AS_rev_inner x)
    | _ => AS_pot_inf
    end.
  Definition AS_rforce (r : RR) : RR := - AS_rawmass r / r ^ 2.                   (* 133-134 *)
  Definition AS_r2deriv (r : RR) : RR := - 2 * AS_rawmass r / rpow r 3 + 4 * PI * rawdens r.  (* 136-137 *)
  Definition AS_rdens (r : RR) : RR := rawdens r.                                 (* 139-140 *)
  Definition AnySpherical : PotC :=
    Spherical (fun r _ => AS_rev_inner r) (fun r _ => AS_rforce r) (fun r _ => AS_r2deriv r) (Some (fun r _ => AS_rdens r)).
End AnySph.

(** ** EinastoPotential.py *)
Section Einasto.
  Variables h n : RR.
  Definition Ei_x (r : RR) : RR := rpow (r / h) (1 / n).                          (* s ** (1 / self.n) *)
  Definition Ei_core : RR := - (4 * PI * h ^ 2 * n) * sp_gamma (2 * n).           (* 107 *)
  Definition Ei_revaluate (r : RR) : RR :=                                        (* 97-116 *)
    if Req_EM_T r 0 then Ei_core
    else - (4 * PI * h ^ 2 * n * sp_gamma (3 * n))
         * ((1 - sp_gammaincc (3 * n) (Ei_x r)) / (r / h) + sp_gammaincc (2 * n) (Ei_x r) * (sp_gamma (2 * n) / sp_gamma (3 * n))).
  Definition Ei_rforce (r : RR) : RR :=                                           (* 118-124 *)
    4 * PI * h * n * sp_gamma (3 * n) * / (r / h) ^ 2 * (sp_gammaincc (3 * n) (Ei_x r) - 1).
  Definition Ei_r2deriv (r : RR) : RR :=                                          (* 126-134 *)
    - (4 * PI * n * sp_gamma (3 * n)) * (- 2 * / (r / h) ^ 3 * (sp_gammaincc (3 * n) (Ei_x r) - 1) - 1 / n * exp (- Ei_x r) / sp_gamma (3 * n)).
  Definition Ei_rdens (r : RR) : RR := exp (- Ei_x r).                            (* 136-137 *)
  Definition Einasto : PotC :=
    Spherical (fun r _ => Ei_revaluate r) (fun r _ => Ei_rforce r) (fun r _ => Ei_r2deriv r) (Some (fun r _ => Ei_rdens r)).
End Einasto.
(** 150-157: the function whose root _calculate_dn finds. *)
Definition Ei_dn_eq (n x : RR) : RR := 2 * (sp_gammaincc (3 * n) x * sp_gamma (3 * n)) - sp_gamma (3 * n).
(** 69-85, the constructor: which length is given decides h; the rescaled amplitude is stored as self.amp (75, 80), which nothing
    reads: every evaluation multiplies by self._amp, set by SphericalPotential.__init__ to amp (69).  [dn] is _calculate_dn's root. *)
Inductive ei_length := Ei_h (h : RR) | Ei_rs (rs : RR) | Ei_rm2 (rm2 : RR).
Record ei_obj := mkEi { ei_amp : RR (* self._amp *); ei_unused_amp : RR (* self.amp *); ei_h : RR; ei_n : RR }.
Definition Ei_init (dn amp n : RR) (l : ei_length) : ei_obj :=
  match l with
  | Ei_rs rs => mkEi amp (amp * exp dn) (rs / rpow dn n) n                          (* 70-76 *)
  | Ei_rm2 rm2 => mkEi amp (amp * exp (2 * n)) (rm2 / rpow (2 * n) n) n             (* 77-81 *)
  | Ei_h h => mkEi amp amp h n                                                      (* 82-83 *)
  end.
(** Potential.dens (Potential.py): self._amp times _dens. *)
Definition Ei_public_dens (o : ei_obj) (r : RR) : RR := ei_amp o * Ei_rdens (ei_h o) (ei_n o) r.

(** ** PowerSphericalPotentialwCutoff.py *)
Section Cutoff.
  Variables alpha rc : RR.
  Definition PC_r (R z : RR) : RR := sqrt (R ^ 2 + z ^ 2).
  Definition PC_rev (r : RR) : RR :=                                              (* 75-98, as a function of r *)
    if Req_EM_T r 0 then 0
    else 2 * PI * rpow rc (3 - alpha)
         * (1 / rc * sp_gamma (1 - alpha / 2) * sp_gammainc (1 - alpha / 2) ((r / rc) ^ 2)
            - sp_gamma (3 / 2 - alpha / 2) * sp_gammainc (3 / 2 - alpha / 2) ((r / rc) ^ 2) / r).
  Definition PC_ev (R z : RR) : RR := PC_rev (PC_r R z).
  Definition PC_mass (R : RR) : RR :=                                             (* 206-221, finite R *)
    2 * PI * rpow R (3 - alpha) / (3 / 2 - alpha / 2) * sp_hyp1f1 (3 / 2 - alpha / 2) (5 / 2 - alpha / 2) (- (R / rc) ^ 2).
  Definition PC_mass_inf : RR := 2 * PI * rpow rc (3 - alpha) * sp_gamma (3 / 2 - alpha / 2).    (* 222-227 *)
  Definition PC_Rf (R z : RR) : RR := - PC_mass (PC_r R z) * R / rpow (PC_r R z) 3.              (* 100-102 *)
  Definition PC_zf (R z : RR) : RR := - PC_mass (PC_r R z) * z / rpow (PC_r R z) 3.              (* 104-106 *)
  Definition PC_R2 (R z : RR) : RR :=                                             (* 108-112 *)
    4 * PI * rpow (PC_r R z) (- 2 - alpha) * exp (- (PC_r R z / rc) ^ 2) * R ^ 2
    + PC_mass (PC_r R z) / rpow (PC_r R z) 5 * (z ^ 2 - 2 * R ^ 2).
  Definition PC_z2 (R z : RR) : RR :=                                             (* 114-118 *)
    4 * PI * rpow (PC_r R z) (- 2 - alpha) * exp (- (PC_r R z / rc) ^ 2) * z ^ 2
    + PC_mass (PC_r R z) / rpow (PC_r R z) 5 * (R ^ 2 - 2 * z ^ 2).
  Definition PC_Rz (R z : RR) : RR :=                                             (* 120-132 *)
    R * z * (4 * PI * rpow (PC_r R z) (- 2 - alpha) * exp (- (PC_r R z / rc) ^ 2) - 3 * PC_mass (PC_r R z) / rpow (PC_r R z) 5).
  Definition PC_dens (R z : RR) : RR := 1 / rpow (PC_r R z) alpha * exp (- (PC_r R z / rc) ^ 2).  (* 202-204 *)
  Definition PowerSphericalwCutoff : PotC :=
    mkAxi PC_ev PC_Rf PC_zf (Some PC_R2) (Some PC_z2) (Some PC_Rz) (Some PC_dens).
  (** 134-147: _rforce_jax; exp(gammaln(a)) is gamma(a) for the positive a used here *)
  Definition PC_rforce_jax (amp r : RR) : RR :=
    - amp * 2 * PI * rpow rc (3 - alpha) * sp_gammainc (3 / 2 - 1 / 2 * alpha) ((r / rc) ^ 2) * sp_gamma (3 / 2 - 1 / 2 * alpha) / r ^ 2.
  (** 149-155 *)
  Definition PC_ddensdr (amp r : RR) : RR :=
    - amp * rpow r (- 1 - alpha) * exp (- (r / rc) ^ 2) * (2 * r ^ 2 / rc ^ 2 + alpha).
  (** 157-169 *)
  Definition PC_d2densdr2 (amp r : RR) : RR :=
    amp * rpow r (- 2 - alpha) * exp (- (r / rc) ^ 2)
    * (alpha ^ 2 + alpha + 4 * alpha * r ^ 2 / rc ^ 2 - 2 * r ^ 2 / rc ^ 2 + 4 * r ^ 4 / rc ^ 4).
  (** 171-200 *)
  Definition PC_ddenstwobetadr (amp beta r : RR) : RR :=
    - amp * exp (- (r / rc) ^ 2) / rpow r (alpha - 2 * beta) * ((alpha - 2 * beta) / r + 2 * r / rc ^ 2).
End Cutoff.
(** 57-62: the amplitude the object stores for the arguments amp and r1. *)
Definition PC_amp (amp r1 alpha : RR) : RR := amp * rpow r1 alpha.

(** ** ExpTruncNFWPotential.py *)
Section ExpTrunc.
  Variables a rc : RR.
  Definition ET_alpha : RR := a / rc.                                             (* 77 *)
  Definition ET_Ftot : RR := exp ET_alpha * (1 + ET_alpha) * sp_exp1 ET_alpha - 1.   (* 78-82 *)
  Definition ET_thresh : RR := 1 / 1000 * Rmin a rc.                              (* 91 *)
  Definition ET_F_closed (r : RR) : RR :=                                         (* 252-262 *)
    exp ET_alpha * (1 + ET_alpha) * (sp_exp1 ET_alpha - sp_exp1 ((a + r) / rc)) - 1 + a * exp (- r / rc) / (a + r).
  Definition ET_c2 : RR := 1 / 2.                                                 (* 264-283 *)
  Definition ET_c3 : RR := - (1 / rc + 2 / a) / 3.
  Definition ET_c4 : RR := (1 / 2 / rc / rc + 2 / (rc * a) + 3 / (a * a)) / 4.
  Definition ET_c5 : RR := - (1 / (6 * rc ^ 3) + 1 / (rc * rc * a) + 3 / (rc * a * a) + 4 / a ^ 3) / 5.
  Definition ET_F_series (r : RR) : RR := r * r / (a * a) * (ET_c2 + r * (ET_c3 + r * (ET_c4 + r * ET_c5))).
  Definition ET_F (r : RR) : RR := if Rlt_dec r ET_thresh then ET_F_series r else ET_F_closed r.   (* 233-250 *)
  Definition ET_G (r : RR) : RR := exp (- r / rc) / (a + r) - exp ET_alpha * sp_exp1 ((a + r) / rc) / rc.  (* 285-291 *)
  Definition ET_rdens (r : RR) : RR := exp (- r / rc) / (4 * PI * a * a * r * (1 + r / a) ^ 2).    (* 293-300 *)
  Definition ET_revaluate (r : RR) : RR := if Req_EM_T r 0 then - ET_G 0 else - (ET_F r / r + ET_G r).   (* 302-314 *)
  Definition ET_rforce (r : RR) : RR := if Req_EM_T r 0 then - (1 / 2) / (a * a) else - ET_F r / (r * r).  (* 316-327 *)
  Definition ET_r2deriv (r : RR) : RR := 4 * PI * ET_rdens r - 2 * ET_F r / r ^ 3.                (* 329-330 *)
  Definition ET_mass (r : RR) : RR := ET_F r.                                     (* 332-339 *)
  Definition ExpTruncNFW : PotC :=
    Spherical (fun r _ => ET_revaluate r) (fun r _ => ET_rforce r) (fun r _ => ET_r2deriv r) (Some (fun r _ => ET_rdens r)).
  Definition ET_g (r : RR) : RR := 1 / r + 2 / (a + r) + 1 / rc.
  Definition ET_ddensdr (amp r : RR) : RR := - (amp * ET_rdens r) * ET_g r.        (* 341-346 *)
  Definition ET_d2densdr2 (amp r : RR) : RR :=                                    (* 348-352 *)
    amp * ET_rdens r * (ET_g r * ET_g r - (- 1 / (r * r) - 2 / (a + r) ^ 2)).
  Definition ET_ddenstwobetadr (amp beta r : RR) : RR :=                          (* 354-393 *)
    amp * exp (- r / rc) / (4 * PI * a * a * r * (1 + r / a) ^ 2) * rpow r (2 * beta) * ((2 * beta - 1) / r - 2 / (a + r) - 1 / rc).
End ExpTrunc.
(** 83-87: self._amp for the arguments amp and mass. *)
Definition ET_amp (a rc amp : RR) (mass : option RR) : RR :=
  match mass with Some m => m / ET_Ftot a rc | None => amp end.
(** 179: Froot without the target. *)
Definition ET_Fal (al : RR) : RR := exp al * (1 + al) * sp_exp1 al - 1.
(** 102-231, from_nfw: [root target] is what brentq returns for target_F; a result is the (amp, a, rc) of the new object, None an exception
    (163-166: not exactly one of rc and mass; 187-193: mass too small for alpha = 690; 194: brentq raises ValueError when Froot has the
    same sign at 1e-150 and 690).  The warnings (196-222) are not modelled. *)
Definition ET_from_nfw (root : RR -> RR) (nfw_amp nfw_a : RR) (rc mass : option RR) : option (RR * RR * RR) :=
  match rc, mass with
  | Some r, None => Some (nfw_amp, nfw_a, r)
  | None, Some m =>
      if Rlt_dec 0 (ET_Fal 690 - m / nfw_amp) then None
      else if Rlt_dec (ET_Fal (rpow 10 (- 150)) - m / nfw_amp) 0 then None
      else Some (nfw_amp, nfw_a, nfw_a / root (m / nfw_amp))
  | _, _ => None
  end.

(** ** interpSphericalPotential.py *)
Section InterpSph.
  (** the spline of the radial force, its antiderivative and its derivative, as scipy returns them (81-90); the grid's ends (92-93)
      and the value Phi0 of the potential at rmin, given or computed (60-67) *)
  Variables S P DS : RR -> RR.
  Variables rmin rmax Phi0 : RR.
  Definition IS_Phi0 : RR := Phi0 + P rmin.                                       (* 89 *)
  Definition IS_total_mass : RR := - rmax ^ 2 * S rmax.                           (* 94 *)
  Definition IS_Phimax : RR := - P rmax + IS_Phi0 + IS_total_mass / rmax.         (* 95-97 *)
  Definition IS_rev (r : RR) : RR := if Rle_dec rmax r then - IS_total_mass / r + IS_Phimax else - P r + IS_Phi0.   (* 104-108 *)
  Definition IS_rforce (r : RR) : RR := if Rle_dec rmax r then - IS_total_mass / r ^ 2 else S r.    (* 110-114 *)
  Definition IS_r2deriv (r : RR) : RR := if Rle_dec rmax r then - 2 * IS_total_mass / r ^ 3 else - DS r.   (* 123-127 *)
  Definition IS_rdens (r : RR) : RR :=                                            (* 129-134 *)
    if Rle_dec rmax r then 0 else (IS_r2deriv r - 2 * IS_rforce r / r) / 4 / PI.
  Definition InterpSpherical : PotC :=
    Spherical (fun r _ => IS_rev r) (fun r _ => IS_rforce r) (fun r _ => IS_r2deriv r) (Some (fun r _ => IS_rdens r)).
End InterpSph.
