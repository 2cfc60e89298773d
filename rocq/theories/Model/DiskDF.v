(** Model of galpy/df/surfaceSigmaProfile.py and of galpy/df/diskdf.py: the two-dimensional disk distribution functions (Dehnen, Shu,
    Schwarzschild) in the rotation curve v = R^beta, their velocity moments, marginals, derivatives and the draws of their samplers.
    Exact reals; scipy's quad and dblquad are integrals; [None] is a result that is not a number.  Unit handling is property C21's. *)
From Coq Require Import Reals Bool.
From Coquelicot Require Import Coquelicot.
From Verif.Lib Require Import RealAux.
Open Scope R_scope.
Notation RR := RbaseSymbolsImpl.R (only parsing).

(** ** surfaceSigmaProfile.py *)
(** The methods of a profile: surfacemass, surfacemassDerivative, sigma2, sigma2Derivative, each with log=False and log=True. *)
Record Ssp := mkSsp {
  sm : RR -> RR; smL : RR -> RR; smD : RR -> RR; smDL : RR -> RR;
  s2 : RR -> RR; s2L : RR -> RR; s2D : RR -> RR; s2DL : RR -> RR }.
(** surfaceSigmaProfile.py 107-232 [expSurfaceSigmaProfile]: the parameters are the scale length, the dispersion scale length and the
    dispersion at R = 1. *)
Definition exp_ssp (p0 p1 p2 : RR) : Ssp := mkSsp
  (fun R => exp (- R / p0))                                            (* 150 *)
  (fun R => - R / p0)                                                  (* 148 *)
  (fun R => - exp (- R / p0) / p0)                                     (* 175 *)
  (fun _ => - 1 / p0)                                                  (* 173 *)
  (fun R => p2 ^ 2 * exp (- 2 * (R - 1) / p1))                         (* 200-202 *)
  (fun R => 2 * ln p2 - 2 * (R - 1) / p1)                              (* 198 *)
  (fun R => p2 ^ 2 * exp (- 2 * (R - 1) / p1) * (- 2 / p1))            (* 228-232 *)
  (fun _ => - 2 / p1).                                                 (* 226 *)

(** ** Energy and angular momentum *)
Inductive DFtype := Dehnen | Shu | Schwarzschild.
(** diskdf.py 116. *)
Definition gam (beta : RR) : RR := sqrt (2 / (1 + beta)).
(** 3064-3094 [axipotential], away from R = 0. *)
Definition axipotential (R beta : RR) : RR := if Req_EM_T beta 0 then ln R else rpow R (2 * beta) / 2 / beta.
(** The radius of the circular orbit of angular momentum L: 2314-2318, 3049-3052. *)
Definition radius_L (beta L : RR) : RR := if Req_EM_T beta 0 then L else rpow L (1 / (beta + 1)).
(** 3018-3061 [vRvTRToEL]. *)
Definition vRvTRToEL (vR vT R beta : RR) (ty : DFtype) : RR * RR :=
  match ty with
  | Schwarzschild =>
      let gamma := sqrt (2 / (1 + beta)) in
      let L := R * vT in
      let xL := radius_L beta L in
      (1 / 2 * vR ^ 2 + 1 / 2 * gamma ^ 2 * (vT - rpow R beta) ^ 2 + rpow xL (2 * beta) / 2 + axipotential xL beta, L)
  | _ => (axipotential R beta + 1 / 2 * vR ^ 2 + 1 / 2 * vT ^ 2, vT * R)
  end.
(** [exp (numpylog x - s)].  The logarithm of a negative number is complex, log|x| + i pi, so that the exponential is x exp (- s) for every x
    (27, and the real part taken at 184-231). *)
Definition explog (x s : RR) : RR := x * exp (- s).

Section DF.
  Variables (ty : DFtype) (beta : RR) (ssp : Ssp).
  (** DFcorrection.correct(x, log=True), both entries; [None] when correct=False (117-133, 1877-1880, 2324-2327). *)
  Variable corr : option (RR -> RR * RR).
  Definition lcorr (x : RR) : RR * RR := match corr with Some c => c x | None => (0, 0) end.

  (** 1868-1873: the radius of the circular orbit of energy E and Omega (L - L_c). *)
  Definition radius_E (E : RR) : option RR :=
    if Req_EM_T beta 0 then Some (exp (E - 1 / 2))
    else let base := 2 * E / (1 + 1 / beta) in if Rlt_dec 0 base then Some (rpow base (1 / 2 / beta)) else None.
  (** 1836-1924 [dehnendf.eval]. *)
  Definition dehnen_eval (E L logSigmaR logsigmaR2 : RR) : option RR :=
    match radius_E E with
    | None => None
    | Some xE =>
        let correction := lcorr xE in
        let SRE2 := s2L ssp xE + snd correction in
        let expOLLE := if Req_EM_T beta 0 then explog (L / xE - 1) SRE2
                       else rpow xE beta * explog (L / xE - rpow xE beta) SRE2 in
        Some (gam beta * exp (logsigmaR2 - SRE2 + smL ssp xE - logSigmaR + expOLLE + fst correction) / 2 / PI)
    end.
  (** 2287-2341 [shudf.eval].  For beta <> 0 a fractional power of a negative number is not a number (L = 0 is left out: it is treated as
      negative); for beta = 0 there is nothing at L <= 0. *)
  Definition shu_eval (E L logSigmaR logsigmaR2 : RR) : option RR :=
    if Rle_dec L 0 then (if Req_EM_T beta 0 then Some 0 else None)
    else
      let xL := radius_L beta L in
      let correction := lcorr xL in
      let SRE2 := s2L ssp xL + snd correction in
      let expECLE := if Req_EM_T beta 0 then explog (- ln xL - 1 / 2 + E) SRE2
                     else explog (- (1 / 2) * (1 / beta + 1) * rpow xL (2 * beta) + E) SRE2 in
      Some (gam beta * exp (logsigmaR2 - SRE2 + smL ssp xL - logSigmaR - expECLE + fst correction) / 2 / PI).
  (** The method [eval]; schwarzschilddf inherits that of shudf (2585). *)
  Definition eval (E L logSigmaR logsigmaR2 : RR) : option RR :=
    match ty with Dehnen => dehnen_eval E L logSigmaR logsigmaR2 | _ => shu_eval E L logSigmaR logsigmaR2 end.
  (** 141-231 [__call__] at a phase-space point. *)
  Definition df_at (R vR vT : RR) : option RR := let '(E, L) := vRvTRToEL vR vT R beta ty in eval E L 0 0.

  (** *** Derivatives of ln f *)
  (** 2190-2216 [_dlnfdRe] and 2218-2234 [_dlnfdl], given xE. *)
  Definition dlnfdRe (R vT xE : RR) : RR :=
    let OE := if Req_EM_T beta 0 then / xE else rpow xE (beta - 1) in
    let LCE := if Req_EM_T beta 0 then xE else rpow xE (beta + 1) in
    let L := R * vT in
    let sigma2xE := s2 ssp xE in
    smDL ssp xE - (1 + OE * (L - LCE) / sigma2xE) * s2DL ssp xE
    + (L - LCE) / sigma2xE * (beta - 1) * rpow xE (beta - 2) - OE * (beta + 1) / sigma2xE * rpow xE beta.
  Definition dlnfdl (xE : RR) : RR := (if Req_EM_T beta 0 then / xE else rpow xE (beta - 1)) / s2 ssp xE.
  Definition d_energy (R vR vT : RR) : RR :=                             (* 2127, 2133-2137 and repeats *)
    if Req_EM_T beta 0 then vR ^ 2 / 2 + vT ^ 2 / 2 + ln R else vR ^ 2 / 2 + vT ^ 2 / 2 + 1 / 2 / beta * rpow R (2 * beta).
  Definition d_xE (R vR vT : RR) : RR :=                                 (* 2128, 2138 *)
    let E := d_energy R vR vT in if Req_EM_T beta 0 then exp (E - 1 / 2) else rpow (2 * E / (1 + 1 / beta)) (1 / 2 / beta).
  Definition dehnen_dlnfdR (R vR vT : RR) : RR :=                        (* 2124-2145 *)
    let E := d_energy R vR vT in let xE := d_xE R vR vT in
    let dRedR := if Req_EM_T beta 0 then xE / R else xE / 2 / beta / E * rpow R (2 * beta - 1) in
    dlnfdRe R vT xE * dRedR + dlnfdl xE * vT.
  Definition dehnen_dlnfdvR (R vR vT : RR) : RR :=                       (* 2147-2165 *)
    let E := d_energy R vR vT in let xE := d_xE R vR vT in
    let dRedvR := if Req_EM_T beta 0 then xE * vR else xE / 2 / beta / E * vR in
    dlnfdRe R vT xE * dRedvR.
  Definition dehnen_dlnfdvT (R vR vT : RR) : RR :=                       (* 2167-2188 *)
    let E := d_energy R vR vT in let xE := d_xE R vR vT in
    let dRedvT := if Req_EM_T beta 0 then xE * vT else xE / 2 / beta / E * vT in
    dlnfdRe R vT xE * dRedvT + dlnfdl xE * R.
  Definition shu_ECL (xL : RR) : RR :=                                   (* 2536, 2541 *)
    if Req_EM_T beta 0 then ln xL + 1 / 2 else 1 / 2 * (1 / beta + 1) * rpow xL (2 * beta).
  Definition shu_dlnfdR (R vR vT : RR) : RR :=                           (* 2530-2550 *)
    let '(E, L) := vRvTRToEL vR vT R beta ty in
    let xL := radius_L beta L in
    let dRldR := if Req_EM_T beta 0 then vT else rpow L (1 / (beta + 1)) / R / (beta + 1) in
    let dECLEdR := if Req_EM_T beta 0 then 0 else (1 + beta) * rpow xL (2 * beta - 1) * dRldR - rpow R (2 * beta - 1) in
    let sigma2xL := s2 ssp xL in
    (smDL ssp xL - (1 + (shu_ECL xL - E) / sigma2xL) * s2DL ssp xL) * dRldR + dECLEdR / sigma2xL.
  Definition shu_dlnfdvR (R vR vT : RR) : RR :=                          (* 2552-2560 *)
    let '(E, L) := vRvTRToEL vR vT R beta ty in - vR / s2 ssp (radius_L beta L).
  Definition shu_dlnfdvT (R vR vT : RR) : RR :=                          (* 2562-2582 *)
    let '(E, L) := vRvTRToEL vR vT R beta ty in
    let xL := radius_L beta L in
    let dRldvT := if Req_EM_T beta 0 then R else rpow L (1 / (beta + 1)) / vT / (beta + 1) in
    let dECLEdvT := if Req_EM_T beta 0 then 1 / vT - vT else (1 + beta) * rpow xL (2 * beta - 1) * dRldvT - vT in
    let sigma2xL := s2 ssp xL in
    (smDL ssp xL - (1 + (shu_ECL xL - E) / sigma2xL) * s2DL ssp xL) * dRldvT + dECLEdvT / sigma2xL.
  Definition dlnfdR (R vR vT : RR) : RR := match ty with Dehnen => dehnen_dlnfdR R vR vT | _ => shu_dlnfdR R vR vT end.
  Definition dlnfdvR (R vR vT : RR) : RR := match ty with Dehnen => dehnen_dlnfdvR R vR vT | _ => shu_dlnfdvR R vR vT end.
  Definition dlnfdvT (R vR vT : RR) : RR := match ty with Dehnen => dehnen_dlnfdvT R vR vT | _ => shu_dlnfdvT R vR vT end.

  (** *** Velocity moments *)
  (** 741-752 [asymmetricdrift]; 791-803 and repeats: limited near the centre. *)
  Definition asymmetricdrift (R : RR) : RR :=
    s2 ssp R / 2 / rpow R beta * (1 / gam beta ^ 2 - 1 - R * smDL ssp R - R * s2DL ssp R).
  Definition va_limited (R : RR) : RR :=
    let va := asymmetricdrift R in if Rlt_dec (sqrt (s2 ssp R)) (Rabs va) then 0 else va.
  Definition num (o : option RR) : RR := match o with Some x => x | None => 0 end.
  (** 2690-2694 [_vRpvTpRToEL], 2654-2667 [_vmomentsurfaceIntegrand]; with n = m = 0 also 2639-2642 [_surfaceIntegrand] and with n = 2, m = 0
      2645-2651 [_sigma2surfaceIntegrand]. *)
  Definition moment_integrand (R : RR) (n m : nat) (logSigmaR logsigmaR2 sigmaR1 vR vT : RR) : RR :=
    let '(E, L) := vRvTRToEL (vR * sigmaR1) (vT * (sigmaR1 / gam beta)) R beta ty in
    vR ^ n * vT ^ m * num (eval E L logSigmaR logsigmaR2) * 2 * PI / gam beta.
  (** 2670-2687 [_vmomentderivsurfaceIntegrand] with deriv="R". *)
  Definition moment_deriv_integrand (R : RR) (n m : nat) (logSigmaR logsigmaR2 sigmaR1 vR vT : RR) : RR :=
    moment_integrand R n m logSigmaR logsigmaR2 sigmaR1 vR vT * dlnfdR R (vR * sigmaR1) (vT * sigmaR1 / gam beta).
  (** integrate.dblquad: the first argument of the integrand is the inner variable. *)
  Definition dblquad (f : RR -> RR -> RR) (a b c d : RR) : RR := RInt (fun x => RInt (fun y => f y x) c d) a b.
  Definition vT_centre (R : RR) : RR := gam beta * (rpow R beta - va_limited R) / sqrt (s2 ssp R).
  Definition norm_log (R : RR) : RR * RR := (smL ssp R, ln (s2 ssp R)).  (* 782-785 *)
  (** 756-831 [surfacemass]; romberg=True is another quadrature of the same integral. *)
  Definition surfacemass (R nsigma : RR) (relative : bool) : RR :=
    let '(logSigmaR, logsigmaR2) := norm_log R in
    let norm := if relative then 1 else exp logSigmaR in
    dblquad (moment_integrand R 0 0 logSigmaR logsigmaR2 (sqrt (s2 ssp R))) (vT_centre R - nsigma) (vT_centre R + nsigma) 0 nsigma / PI * norm.
  (** 835-911 [sigma2surfacemass]. *)
  Definition sigma2surfacemass (R nsigma : RR) (relative : bool) : RR :=
    let '(logSigmaR, logsigmaR2) := norm_log R in
    let norm := if relative then 1 else exp (logSigmaR + logsigmaR2) in
    dblquad (moment_integrand R 2 0 logSigmaR logsigmaR2 (sqrt (s2 ssp R))) (vT_centre R - nsigma) (vT_centre R + nsigma) 0 nsigma / PI * norm.
  (** 966-1078 [_vmomentsurfacemass]; [deriv]: deriv="R". *)
  Definition vmomentsurfacemass (R : RR) (n m : nat) (nsigma : RR) (relative deriv : bool) : RR :=
    if Nat.odd n then 0                                                  (* 971-972 *)
    else
      let '(logSigmaR, logsigmaR2) := norm_log R in
      let norm := if relative then 1 else exp (logSigmaR + logsigmaR2 * (INR n + INR m) / 2) / gam beta ^ m in
      dblquad ((if deriv then moment_deriv_integrand else moment_integrand) R n m logSigmaR logsigmaR2 (sqrt (s2 ssp R)))
        (vT_centre R - nsigma) (vT_centre R + nsigma) (- nsigma) nsigma / PI * norm / 2.
  Section Derived.
    Variables (R nsigma : RR).
    Let vm n m := vmomentsurfacemass R n m nsigma false false.
    Definition meanvT : RR := vm 0 1 / surfacemass R nsigma false.       (* 1354-1380 *)
    Definition meanvR : RR := vm 1 0 / surfacemass R nsigma false.       (* 1384-1411 *)
    Definition sigmaR2 : RR := sigma2surfacemass R nsigma false / surfacemass R nsigma false.   (* 1258-1285, 1325-1350 *)
    Definition sigmaT2 : RR :=                                           (* 1289-1321 *)
      let surfmass := surfacemass R nsigma false in (vm 0 2 - vm 0 1 ^ 2 / surfmass) / surfmass.
    Definition skewvT : RR :=                                            (* 1414-1451 *)
      let surfmass := surfacemass R nsigma false in
      let vt := vm 0 1 / surfmass in let vt2 := vm 0 2 / surfmass in let vt3 := vm 0 3 / surfmass in
      (vt3 - 3 * vt * vt2 + 2 * vt ^ 3) * rpow (vt2 - vt ^ 2) (- (3 / 2)).
    Definition kurtosisvT : RR :=                                        (* 1495-1538 *)
      let surfmass := surfacemass R nsigma false in
      let vt := vm 0 1 / surfmass in let vt2 := vm 0 2 / surfmass in let vt3 := vm 0 3 / surfmass in let vt4 := vm 0 4 / surfmass in
      (vt4 - 4 * vt * vt3 + 6 * vt ^ 2 * vt2 - 3 * vt ^ 4) * rpow (vt2 - vt ^ 2) (- 2) - 3.
    (** 1082-1122 [oortA], 1126-1166 [oortB]. *)
    Definition dmeanvphidR : RR :=
      let surfmass := vm 0 0 in
      vmomentsurfacemass R 0 1 nsigma false true / surfmass - vm 0 1 / surfmass ^ 2 * vmomentsurfacemass R 0 0 nsigma false true.
    Definition oortA : RR := 1 / 2 * (meanvT / R - 0 / R - dmeanvphidR).
    Definition oortB : RR := 1 / 2 * (- meanvT / R + 0 / R - dmeanvphidR).
  End Derived.

  (** *** Marginals along the line of sight (233-392): [alpha] is phi + l, or pi / 2 + phi + l for the other component; [v] the velocity
      component; [vc] the circular velocity's part of it. *)
  Definition marg_large (R alpha v nsigma sigmaR1 : RR) : RR :=          (* 289-310, 3208-3219 *)
    let vcirc := rpow R beta in
    RInt (fun vR => num (df_at R (vR * sigmaR1) (1 / tan alpha * vR * sigmaR1 + v / sin alpha + vcirc))) (- nsigma) nsigma
    / Rabs (sin alpha) * sigmaR1.
  Definition marg_small (R alpha v nsigma sigmaR1 va : RR) : RR :=       (* 266-288, 3222-3233 *)
    let vcirc := rpow R beta in
    RInt (fun vT => num (df_at R (tan alpha * vT * (sigmaR1 / gam beta) - v / cos alpha) (vT * (sigmaR1 / gam beta) + vcirc)))
      (- gam beta * va / sigmaR1 - nsigma) (- gam beta * va / sigmaR1 + nsigma)
    / Rabs (cos alpha) * sigmaR1 / gam beta.
  Definition marginal (R alpha v vc nsigma : RR) : RR :=
    let sigmaR1 := sqrt (s2 ssp R) in
    if Rlt_dec (Rabs (sin alpha)) (sqrt (1 / 2)) then marg_small R alpha (v - vc) nsigma sigmaR1 (va_limited R)
    else marg_large R alpha (v - vc) nsigma sigmaR1.
  Definition marginalizeVperp (R phi l vlos nsigma : RR) : RR :=         (* 233-310 *)
    marginal R (phi + l) vlos (rpow R beta * sin (phi + l)) nsigma.
  Definition marginalizeVlos (R phi l vperp nsigma : RR) : RR :=         (* 312-392 *)
    marginal R (PI / 2 + phi + l) vperp (rpow R beta * cos (phi + l)) nsigma.

  (** *** Sampling *)
  (** 3097-3125 [_ars_hx] and 3128-3157 [_ars_hpx]; [dcorr]: derivLogcorrect; correct(x) without log=True is the exponential of the logarithmic
      correction (2913-2916). *)
  Variable dcorr : RR -> RR.
  Definition ars_hx (x : RR) : RR :=
    match corr with None => ln x + smL ssp x | Some c => ln x + smL ssp x + exp (fst (c x)) end.
  Definition ars_hpx (x : RR) : RR :=
    match corr with None => 1 / x + smDL ssp x | Some _ => 1 / x + smDL ssp x + dcorr x end.
  (** 2023-2037 (Dehnen): energy and angular momentum for the drawn radius [x] and the uniform deviate [u]. *)
  Definition circ_E (x : RR) : RR := if Req_EM_T beta 0 then ln x + 1 / 2 else 1 / 2 * rpow x (2 * beta) * (1 + 1 / beta).
  Definition dehnen_draw (x u : RR) : RR * RR :=
    (circ_E x, s2 ssp x * ln u / rpow x (beta - 1) * exp (snd (lcorr x)) + rpow x (beta + 1)).
  (** 2439-2448 (Shu). *)
  Definition shu_draw (x u : RR) : RR * RR :=
    (- s2 ssp x * ln u * exp (snd (lcorr x)) + shu_ECL x, rpow x (beta + 1)).
  (** 3160-3162 [_kappa]. *)
  Definition kappa (R : RR) : RR := sqrt (2 * (1 + beta)) * rpow R (beta - 1).
End DF.

(** 2082-2103, 2490-2511: how often an orbit found at radius R with radial frequency wR is put into the sample: [mult] copies, and one more
    unless the uniform deviate exceeds [kappawR]. [ceil] as in numpy. *)
Definition ceil (x : RR) : Z := - Int_part (- x).
Definition copies (kappaR wR nphi u : RR) : Z :=
  let mult := (ceil (kappaR / wR * nphi) - 1)%Z in
  let kappawR := kappaR / wR * nphi - IZR mult in
  let base := (if Z.ltb 0 mult then mult else 0)%Z in
  if Rlt_dec kappawR u then base else (base + 1)%Z.
(** 3165-3175 [_dlToRphi]. *)
Definition dlToRphi (d l : RR) : RR * RR :=
  let R := sqrt (1 + d ^ 2 - 2 * d * cos l) in
  let R' := if Req_EM_T R 0 then R + 1 / 10000 else R in
  let d' := if Req_EM_T R 0 then d + 1 / 10000 else d in
  let theta := asin (d' / R' * sin l) in
  (R', if Rlt_dec (1 / cos l) d' then (if Rlt_dec 0 (cos l) then PI - theta else theta) else theta).
(** The longitude handed to [sampleLOS] by dehnendf.sample (1987-1996) and by shudf.sample (2404-2412), in radians (695-700): the second does
    not pass [losdeg] on. *)
Definition sampleLOS_l (deg : bool) (los : RR) : RR := if deg then los * (PI / 180) else los.
Definition sample_l (ty : DFtype) (losdeg : bool) (los : RR) : RR :=
  match ty with Dehnen => sampleLOS_l losdeg los | _ => sampleLOS_l true los end.
