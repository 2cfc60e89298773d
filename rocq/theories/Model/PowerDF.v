(** df/constantbetaPowerLawdf.py and df/osipkovmerrittPowerLawdf.py over exact reals. [Gam] is scipy.special.gamma.
    The two potentials are PowerSphericalPotentials, given by their amplitude and exponent; None is an assertion error.
    Not modelled: units, sampling of velocities, the choice of rmin. *)
From Coq Require Import Reals.
From Verif.Lib Require Import RealAux.
Open Scope R_scope.
Notation RR := RbaseSymbolsImpl.R (only parsing).

Section DF.
  Variable Gam : RR -> RR.
  (** constantbetaPowerLawdf.__init__, 63-114 *)
  Record cbpl := mkCB { cb_beta : RR; cb_gamma : RR; cb_nu0 : RR; cb_n : RR; cb_norm : RR }.
  (** the tracers follow the mass when no denspot is given, 69-76 (75-82 in osipkovmerrittPowerLawdf.py) *)
  Definition tracer (pamp alpha : RR) (denspot : option (RR * RR)) : RR * RR := match denspot with Some d => d | None => (pamp, alpha) end.
  Definition cbpl_init (pamp alpha : RR) (denspot : option (RR * RR)) (beta : RR) : option cbpl :=
    if Rle_dec alpha 2 then None else if Rle_dec 1 beta then None else
    let '(damp, gamma) := tracer pamp alpha denspot in
    if Rle_dec 3 gamma then None else
    let C := pamp / (alpha - 2) in
    let nu0 := damp * (3 - gamma) / (4 * PI) in
    let p := (gamma - 2 * beta) / (alpha - 2) in
    let n := p + beta - 3 / 2 in
    if Rle_dec n (- 1) then None else
    Some (mkCB beta gamma nu0 n (nu0 * rpow 2 beta * Gam (p + 1) / (rpow (2 * PI) (3 / 2) * Gam (1 - beta) * Gam (n + 1) * rpow C p))).
  (** fE, 116-141; _constantbetadf._call_internal, constantbetadf.py 50-72 *)
  Definition cbpl_fE (s : cbpl) (E : RR) : RR := let eps := - E in if Rlt_dec 0 eps then cb_norm s * rpow eps (cb_n s) else 0.
  Definition cbpl_call (s : cbpl) (E L : RR) : RR := rpow L (- 2 * cb_beta s) * cbpl_fE s E.

  (** osipkovmerrittPowerLawdf.__init__, 70-124 *)
  Record ompl := mkOM { om_ra : RR; om_gamma : RR; om_n1 : RR; om_n2 : RR; om_A1 : RR; om_A2 : RR }.
  Definition ompl_init (pamp alpha : RR) (denspot : option (RR * RR)) (ra : RR) : option ompl :=
    if Rle_dec alpha 2 then None else
    let '(damp, gamma) := tracer pamp alpha denspot in
    if Rle_dec gamma (alpha / 2) then None else if Rle_dec 3 gamma then None else
    let C := pamp / (alpha - 2) in
    let nu0 := damp * (3 - gamma) / (4 * PI) in
    let s1 := gamma / (alpha - 2) in
    let s2 := (gamma - 2) / (alpha - 2) in
    let edd_norm := 2 * sqrt 2 * rpow PI (3 / 2) in
    Some (mkOM ra gamma (s1 - 3 / 2) (s2 - 3 / 2)
      (nu0 / rpow C s1 * Gam (s1 + 1) / (edd_norm * Gam (s1 - 1 / 2)))
      (nu0 / (ra ^ 2 * rpow C s2) * Gam (s2 + 1) / (edd_norm * Gam (s2 - 1 / 2)))).
  (** fQ, 126-152; _osipkovmerrittdf._call_internal, osipkovmerrittdf.py 51-73 *)
  Definition ompl_fQ (s : ompl) (Q : RR) : RR := if Rlt_dec 0 Q then om_A1 s * rpow Q (om_n1 s) + om_A2 s * rpow Q (om_n2 s) else 0.
  Definition ompl_call (s : ompl) (E L : RR) : RR := ompl_fQ s (- E - 0.5 * L ^ 2 / om_ra s ^ 2).
End DF.
(** _vmax_at_r and _icmf, the same in both files: constantbetaPowerLawdf.py 143-152, osipkovmerrittPowerLawdf.py 154-163 *)
Definition pl_vmax (Phi_r : RR) : RR := sqrt (- 2 * Phi_r).
Definition pl_icmf (gamma rmin rmax ms : RR) : RR := rpow (ms * (rpow rmax (3 - gamma) - rpow rmin (3 - gamma)) + rpow rmin (3 - gamma)) (1 / (3 - gamma)).
