(** Vocabulary for distribution functions of a razor-thin disk with the rotation curve v(R) = R^beta. *)
From Coq Require Import Reals.
From Coquelicot Require Import Coquelicot.
From Verif.Model Require Import DiskDF.
Open Scope R_scope.
Notation RR := RbaseSymbolsImpl.R (only parsing).

(** What is asked of a surface-density and dispersion profile: positive, and its logarithms and derivatives are what their names say. *)
Definition profile_ok (p : Ssp) : Prop := forall R, 0 < R ->
  0 < sm p R /\ smL p R = ln (sm p R) /\ is_derive (sm p) R (smD p R) /\ is_derive (smL p) R (smDL p R) /\
  0 < s2 p R /\ s2L p R = ln (s2 p R) /\ is_derive (s2 p) R (s2D p R) /\ is_derive (s2L p) R (s2DL p R).
(** The profiles multiplied by the corrections (given by their logarithms, 0 without corrections). *)
Definition log_corrections (corr : option (RR -> RR * RR)) (x : RR) : RR * RR := match corr with Some c => c x | None => (0, 0) end.
Definition Sig (p : Ssp) (corr : option (RR -> RR * RR)) (x : RR) : RR := sm p x * exp (fst (log_corrections corr x)).
Definition sg2 (p : Ssp) (corr : option (RR -> RR * RR)) (x : RR) : RR := s2 p x * exp (snd (log_corrections corr x)).

(** ** Circular orbits *)
Definition v_circ (beta R : RR) : RR := Rpower R beta.
Definition Omega_circ (beta R : RR) : RR := v_circ beta R / R.
Definition L_circ (beta R : RR) : RR := R * v_circ beta R.
(** The potential of the rotation curve: its derivative is v^2 / R ([C56_potential]). *)
Definition Phi_circ (beta R : RR) : RR := if Req_EM_T beta 0 then ln R else Rpower R (2 * beta) / (2 * beta).
Definition E_circ (beta R : RR) : RR := v_circ beta R ^ 2 / 2 + Phi_circ beta R.
(** Ratio 2 Omega / kappa. *)
Definition gamma_circ (beta : RR) : RR := sqrt (2 / (1 + beta)).

(** ** The distribution functions, for a surface density [Sigma] and a squared radial dispersion [sig2] *)
(** Dehnen (1999): at the radius [Rc] of the circular orbit with the same energy. *)
Definition dehnen_form (beta : RR) (Sigma sig2 : RR -> RR) (Rc L : RR) : RR :=
  gamma_circ beta * Sigma Rc / (2 * PI * sig2 Rc) * exp (Omega_circ beta Rc * (L - L_circ beta Rc) / sig2 Rc).
(** Shu (1969): at the radius of the circular orbit with the same angular momentum. *)
Definition shu_form (beta : RR) (Sigma sig2 : RR -> RR) (Rc E : RR) : RR :=
  gamma_circ beta * Sigma Rc / (2 * PI * sig2 Rc) * exp ((E_circ beta Rc - E) / sig2 Rc).
(** Schwarzschild's velocity ellipsoid. *)
Definition schwarzschild_form (beta : RR) (Sigma sig2 : RR -> RR) (Rc R vR vT : RR) : RR :=
  gamma_circ beta * Sigma Rc / (2 * PI * sig2 Rc) * exp (- (vR ^ 2 + gamma_circ beta ^ 2 * (vT - v_circ beta R) ^ 2) / (2 * sig2 Rc)).

(** An orbit in the plane. *)
Definition planar_orbit (beta : RR) (R vR vT : RR -> RR) : Prop :=
  forall t, 0 < R t /\ is_derive R t (vR t) /\ is_derive vR t (vT t ^ 2 / R t - v_circ beta (R t) ^ 2 / R t) /\ is_derive vT t (- vR t * vT t / R t).

(** [d] is the derivative of the logarithm of what [F] returns. *)
Definition log_derivative (F : RR -> option RR) (x d : RR) : Prop :=
  exists f : RR -> RR, locally x (fun y => F y = Some (f y) /\ 0 < f y) /\ is_derive (fun y => ln (f y)) x d.

(** ** Velocity moments *)
(** Integral over the velocities |vR| <= wR, |vT - cT| <= wT. *)
Definition box_integral (wR cT wT : RR) (g : RR -> RR -> RR) : RR := RInt (fun vT => RInt (fun vR => g vR vT) (- wR) wR) (cT - wT) (cT + wT).
(** A density that returns a number everywhere in the box and depends continuously on the velocities. *)
Definition regular_in_box (wR cT wT : RR) (F : RR -> RR -> option RR) (f : RR -> RR -> RR) : Prop :=
  forall vR vT, - wR <= vR <= wR -> cT - wT <= vT <= cT + wT -> F vR vT = Some (f vR vT) /\ continuity_2d_pt f vR vT.
(** Mean of a function of vT, and its central moments. *)
Definition mean_vT (wR cT wT : RR) (f : RR -> RR -> RR) (h : RR -> RR) : RR :=
  box_integral wR cT wT (fun vR vT => h vT * f vR vT) / box_integral wR cT wT f.
Definition central_vT (wR cT wT : RR) (f : RR -> RR -> RR) (k : nat) : RR :=
  mean_vT wR cT wT f (fun vT => (vT - mean_vT wR cT wT f (fun v => v)) ^ k).

(** ** Lines of sight *)
(** At galactocentric angle phi and longitude l, with alpha = phi + l: the radial and tangential velocity of a star with velocity [vlos] along
    the line of sight and [vperp] across it. *)
Definition vR_of (alpha vlos vperp : RR) : RR := - vlos * cos alpha + vperp * sin alpha.
Definition vT_of (alpha vlos vperp : RR) : RR := vlos * sin alpha + vperp * cos alpha.
(** [I] is the integral of [g] over the interval of those [s] for which [inside s]. *)
Definition integral_where (inside : RR -> Prop) (g : RR -> RR) (I : RR) : Prop :=
  exists lo hi, lo <= hi /\ (forall s, lo <= s <= hi <-> inside s) /\ is_RInt g lo hi I.
