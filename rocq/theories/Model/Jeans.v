(** Model of galpy/df/jeans.py: the velocity dispersions [sigmar] and [sigmalos] of a tracer population in a spherical potential.
    Floating-point numbers are exact reals; [scipy.integrate.quad] is the integral (of Riemann; improper at an infinite limit, and at the lower
    limit of [sigmalos], where the integrand is singular).  The physical-units decorators are property C21's. *)
From Coq Require Import Reals.
From Coquelicot Require Import Coquelicot.
From Verif.Lib Require Import RealAux.
From Verif.Model Require Import PotAPI.
Open Scope R_scope.
Notation RR := RbaseSymbolsImpl.R (only parsing).

(** An argument that may be a number or a function of the radius. *)
Inductive NumOrFun := Num (x : RR) | Fun (f : RR -> RR).
(** jeans.py 132-135: [call_beta]; 140-143: the last two cases of [call_sigma_r]. *)
Definition called (a : NumOrFun) (x : RR) : RR := match a with Num b => b | Fun f => f x end.

(** jeans.py 13. *)
Definition INVSQRTTWO : RR := 1 / sqrt 2.

(** Force.py 349-351 [rforce]. *)
Definition rforce (p : Pot) (R z phi : RR) : RR :=
  let r := sqrt (R ^ 2 + z ^ 2) in
  apiRf p (0, 0, 0) R z phi 0 * R / r + apizf p (0, 0, 0) R z phi 0 * z / r.
(** Potential.py 2292-2305 [evaluaterforces] without [v]: an error for a dissipative force. jeans.py 62-68: the arguments. *)
Definition radial_force (p : Pot) : option (RR -> RR) :=
  if isDiss p then None else Some (fun x => rforce p (x * INVSQRTTWO) (x * INVSQRTTWO) (PI / 4)).
(** jeans.py 43-50: [dens] of [sigmar]. *)
Definition dens_sigmar (p : Pot) (dens : option (RR -> RR)) : option (RR -> RR) :=
  match dens with
  | Some d => Some d
  | None => option_map (fun D r => D (r * INVSQRTTWO) (r * INVSQRTTWO) (PI / 4) 0) (apiDens p)
  end.
(** jeans.py 109-115: [dens] of [sigmalos]; no azimuth is given, which is an error for a non-axisymmetric potential (Potential.py 2003-2007);
    for the others the density does not depend on it and 0 stands for it. *)
Definition dens_sigmalos (p : Pot) (dens : option (RR -> RR)) : option (RR -> RR) :=
  match dens with
  | Some d => Some d
  | None => if isNonAxi p then None else option_map (fun D r => D (r * INVSQRTTWO) (r * INVSQRTTWO) 0 0) (apiDens p)
  end.
(** jeans.py 51-56. *)
Definition intFactor (beta : NumOrFun) (x : RR) : RR :=
  match beta with
  | Fun b => exp (2 * RInt (fun y => b y / y) 1 x)
  | Num b => rpow x (2 * b)
  end.
(** jeans.py 57-75, for a density [dens] and a force [fr]. *)
Definition sigmar_of (dens fr : RR -> RR) (beta : NumOrFun) (r : RR) : RR :=
  sqrt (RInt_gen (V := R_CompleteNormedModule) (fun x => - intFactor beta x * dens x * fr x) (at_point r) (Rbar_locally p_infty)
        / dens r / intFactor beta r).
(** jeans.py 18-75 [sigmar]; [None]: an exception. *)
Definition sigmar (p : Pot) (r : RR) (dens : option (RR -> RR)) (beta : NumOrFun) : option RR :=
  match dens_sigmar p dens, radial_force p with
  | Some d, Some fr => Some (sigmar_of d fr beta r)
  | _, _ => None
  end.

(** The [surfdens] argument. *)
Inductive Surf := SNone | SArg (s : NumOrFun).
Section Sigmalos.
(** evaluateSurfaceDensities(Pot, R, inf): [None] is not-a-number. *)
Variable surf_pot : Pot -> RR -> option RR.
(** jeans.py 116-131. *)
Definition surf_int (dens : RR -> RR) (R : RR) : RR :=
  2 * RInt_gen (V := R_CompleteNormedModule) (fun x => dens (sqrt (R ^ 2 + x ^ 2))) (at_point 0) (Rbar_locally p_infty).
Definition called_surfdens (p : Pot) (R : RR) (densPot : bool) (dens : RR -> RR) (surfdens : Surf) : RR :=
  match surfdens with
  | SArg s => called s R
  | SNone => if densPot then match surf_pot p R with Some s => s | None => surf_int dens R end
             else surf_int dens R
  end.
(** jeans.py 144-158. *)
Definition sigmalos_of (dens sr b : RR -> RR) (S R : RR) : RR :=
  sqrt (2 * RInt_gen (V := R_CompleteNormedModule) (fun x => (1 - b x * R ^ 2 / x ^ 2) * x * dens x * sr x ^ 2 / sqrt (x ^ 2 - R ^ 2))
              (at_right R) (Rbar_locally p_infty) / S).
(** jeans.py 80-158 [sigmalos]. *)
Definition sigmalos (p : Pot) (R : RR) (dens : option (RR -> RR)) (surfdens : Surf) (beta : NumOrFun) (sigma_r : option NumOrFun) : option RR :=
  match dens_sigmalos p dens with
  | None => None
  | Some d =>
      let S := called_surfdens p R (match dens with None => true | Some _ => false end) d surfdens in
      match sigma_r with
      | Some s => Some (sigmalos_of d (called s) (called beta) S R)
      | None => match radial_force p with                              (* 136-139: sigmar(Pot, r, dens=dens, beta=beta) *)
                | Some fr => Some (sigmalos_of d (sigmar_of d fr beta) (called beta) S R)
                | None => None
                end
      end
  end.
End Sigmalos.
