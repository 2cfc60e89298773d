(** df/kingdf.py and potential/KingPotential.py over exact reals.  The solution W(r), W'(r) of the scale-free model, which the code tabulates
    and interpolates, is a pair of functions.
    Not modelled: units, the integration of the differential equation, the accuracy of the interpolation, the samples. *)
From Coq Require Import Reals List.
From Coquelicot Require Import Coquelicot.
From Verif.Lib Require Import RealAux.
From Verif.Model Require Import PotSpecial.
Import ListNotations.
Open Scope R_scope.
Notation RR := RbaseSymbolsImpl.R (only parsing).

(** scipy.special.erf *)
Definition erf (x : RR) : RR := 2 / sqrt PI * RInt (fun t => exp (- t ^ 2)) 0 x.

(** ** _scalefreekingdf *)
Definition FOURPI : RR := 4 * PI.                                        (* kingdf.py 9 *)
Definition TWOOVERSQRTPI : RR := 2 / sqrt PI.                            (* 10 *)
(** 183-188 _dens_W *)
Definition dens_W (W : RR) : RR := let sqW := sqrt W in exp W * erf sqW - TWOOVERSQRTPI * sqW * (1 + 2 / 3 * W).
(** 123-124 *)
Definition sf_rho0 (W0 : RR) : RR := dens_W W0.
Definition sf_r0 (W0 : RR) : RR := sqrt (9 / 4 / PI / sf_rho0 W0).
(** 135-138: d(W, W')/dr; 152-155: d(r, W')/dW *)
Definition rhs1 (t : RR) (y : RR * RR) : RR * RR := (snd y, - FOURPI * dens_W (fst y) - (if Rlt_dec 0 t then 2 * snd y / t else 0)).
Definition rhs2 (t : RR) (y : RR * RR) : RR * RR := (1 / snd y, - 1 / snd y * (FOURPI * dens_W t + 2 * snd y / fst y)).
(** 174 *)
Definition sf_cumul (r V : RR) : RR := - V * r ^ 2.
(** 175-179: small decreases of the cumulative mass are removed; [eps2] is 2 finfo.eps *)
Fixpoint adjust (eps2 prev : RR) (l : list RR) : list RR := match l with
  | [] => []
  | m :: l' => let m' := if Rlt_dec m prev then prev + eps2 else m in m' :: adjust eps2 m' l' end.
Definition adjusted (eps2 : RR) (l : list RR) : list RR := match l with [] => [] | m :: l' => m :: adjust eps2 m l' end.

(** ** kingdf *)
Section King.
  (** M, rt, W0 and the scale-free solution: W, W' = V, its tidal radius and mass *)
  Variables (M rt W0 : RR) (W V : RR -> RR) (srt smass : RR).
  Definition radius_scale : RR := rt / srt.                              (* 57 *)
  Definition mass_scale : RR := M / smass.                               (* 58 *)
  Definition velocity_scale : RR := sqrt (mass_scale / radius_scale).    (* 59 *)
  Definition density_scale : RR := mass_scale / radius_scale ^ 3.        (* 60 *)
  Definition k_rho0 : RR := sf_rho0 W0 * density_scale.                  (* 62 *)
  Definition k_r0 : RR := sf_r0 W0 * radius_scale.                       (* 63 *)
  Definition k_sigma : RR := velocity_scale.                             (* 65 *)
  Definition k_sigma2 : RR := k_sigma ^ 2.                               (* 66 *)
  Definition k_rho1 : RR := density_scale.                               (* 67 *)
  (** 92-93; 190-191 *)
  Definition k_dens (r : RR) : RR := dens_W (W (r / radius_scale)) * density_scale.
  (** the same with the value numpy gives: the square root of a negative W is not a number *)
  Definition k_dens_np (r : RR) : option RR := if Rlt_dec (W (r / radius_scale)) 0 then None else Some (k_dens r).
  (** 81-85: the cumulative mass fraction behind the sampled radii, before it is inverted *)
  Definition k_cmf (r : RR) : RR := mass_scale * sf_cumul (r / radius_scale) (V (r / radius_scale)) / M.
  (** KingPotential.py 60-73: the force handed to interpSphericalPotential and the potential at the centre *)
  Definition KP_force (r : RR) : RR := mass_scale / radius_scale ^ 2 * V (r / radius_scale).
  Definition KP_Phi0 : RR := - W0 * mass_scale / radius_scale - M / rt.
  (** interpSphericalPotential of that force, [P] its antiderivative and [DF] its derivative *)
  Definition KP_ev (P : RR -> RR) : RR -> RR := IS_rev KP_force P 0 rt KP_Phi0.
  Definition KP_rforce : RR -> RR := IS_rforce KP_force rt.
  Definition KP_dens (DF : RR -> RR) : RR -> RR := IS_rdens KP_force DF rt.
End King.
(** kingdf.py 95-104 fE for one energy *)
Definition king_fE (potInf sigma2 rho1 E : RR) : RR := let varE := potInf - E in
  if Rlt_dec 0 varE then (exp (varE / sigma2) - 1) * rpow (2 * PI * sigma2) (- (3 / 2)) * rho1 else 0.
(** the values fE takes: an array, or a Python float, which has no shape to give the result (104) *)
Inductive Energy := EArray (es : list RR) | EFloat (e : RR).
Definition king_fE_call (potInf sigma2 rho1 : RR) (E : Energy) : option (list RR) := match E with
  | EArray es => Some (List.map (king_fE potInf sigma2 rho1) es)
  | EFloat _ => None end.
(** sphericaldf.py 612-622 _vmax_at_r *)
Definition king_vmax (Phi : RR -> RR) (rmax r : RR) : RR := sqrt (2 * (Phi (rmax + / 10 ^ 10) - Phi r)).
(** sphericaldf.py 853-870 with n = m = 0: the density of the distribution function *)
Definition king_vmoment0 (fE : RR -> RR) (Phi : RR -> RR) (rmax r : RR) : RR := 4 * PI * RInt (fun v => v ^ 2 * fE (Phi r + v ^ 2 / 2)) 0 (king_vmax Phi rmax r).
