(** Model of galpy/df/quasiisothermaldf.py: the quasi-isothermal distribution function of three actions, its velocity and action moments (Gauss-Legendre,
    Monte-Carlo and direct), its marginals and its velocity samplers.  Floats are reals; NaN of a frequency is [None]; -inf and the largest negative
    float of the logarithm are separate constructors whose exponential is 0 (exp(-1.8e308) underflows to 0). *)
From Coq Require Import Reals List Arith.
From Coquelicot Require Import Coquelicot.
Import ListNotations.
Open Scope R_scope.
Notation RR := RbaseSymbolsImpl.R (only parsing).

(** 38-163 what an instance stores.  [q_rl] is potential.rl, [q_epi] and [q_vert] epifreq and verticalfreq ([None] when they are NaN), [q_vc] vcirc of
    the potential; [q_grid] is the range of the table of guiding radii and the spline through it ([None] when _precomputerg is False);
    [q_aA] gives the three actions of a phase-space point, [None] when it raises UnboundError; [q_adia] says that it is one of the two adiabatic ones. *)
Record QDF : Type := { q_hr : RR; q_sr : RR; q_sz : RR; q_hsr : RR; q_hsz : RR; q_refr : RR; q_lo : RR; q_cut : bool;
  q_rl : RR -> RR; q_epi : RR -> option RR; q_vert : RR -> option RR; q_vc : RR -> RR;
  q_grid : option (RR * RR * (RR -> RR)); q_aA : RR -> RR -> RR -> RR -> RR -> option (RR * RR * RR); q_adia : bool }.

(** 114-127 the test that the action-angle object belongs to the potential: [same] is aA._pot == pot, [iso_aA] the parameters (b, amp) of an isochrone
    action-angle object, [iso_pot] those of an isochrone potential. *)
Definition aA_accepted (same : bool) (iso_aA iso_pot : option (RR * RR)) : bool :=
  if same then true else match iso_aA with
  | None => false
  | Some (b, amp) => match iso_pot with
    | None => true
    | Some (pb, pamp) => negb (andb (if Req_EM_T b pb then false else true) (if Req_EM_T amp pamp then false else true))
    end
  end.

(** 3036-3066 _rg for a number *)
Definition rg_scalar (q : QDF) (lz : RR) : RR := match q_grid q with
  | None => q_rl q lz
  | Some (lo, hi, spline) => if Rlt_dec hi lz then q_rl q lz else if Rlt_dec lz lo then q_rl q lz else spline lz
  end.
(** 3054-3063 _rg for an array, one element: the two comparisons are multiplied *)
Definition rg_array (q : QDF) (lz : RR) : RR := match q_grid q with
  | None => q_rl q lz
  | Some (lo, hi, spline) => if Rlt_dec hi lz then (if Rlt_dec lz lo then q_rl q lz else spline lz) else spline lz
  end.
Definition rg_of (arr : bool) (q : QDF) (lz : RR) : RR := if arr then rg_array q lz else rg_scalar q lz.

(** Values of a logarithm: a number, -inf, NaN, or -finfo.max. *)
Inductive lg : Type := LFin (x : RR) | LMinf | LNan | LSent.
Definition ladd (a b : lg) : lg := match a, b with
  | LNan, _ => LNan | _, LNan => LNan | LSent, _ => LSent | _, LSent => LSent | LMinf, _ => LMinf | _, LMinf => LMinf | LFin x, LFin y => LFin (x + y) end.
Definition lln (x : RR) : lg := if Rlt_dec x 0 then LNan else if Req_EM_T x 0 then LMinf else LFin (ln x).
Definition lexp (l : lg) : RR := match l with LFin x => exp x | _ => 0 end.
Definition nan_to_sent (l : lg) : lg := match l with LNan => LSent | _ => l end.

(** 244-250 the quantities of the circular orbit: guiding radius, kappa, nu, Omega *)
Definition circ_of (arr : bool) (q : QDF) (lz : RR) : RR * option RR * option RR * RR :=
  let rg := rg_of arr q lz in (rg, q_epi q rg, q_vert q rg, Rabs lz / rg / rg).
Definition lnsr_at (q : QDF) (rg : RR) : RR := ln (q_sr q) + (q_refr q - rg) / q_hsr q.
Definition lnsz_at (q : QDF) (rg : RR) : RR := ln (q_sz q) + (q_refr q - rg) / q_hsz q.
Definition lnsurf_at (q : QDF) (rg : RR) : RR := (q_refr q - rg) / q_hr q.

(** 238-317 __call__ with log=False for one set of actions; [arr] says that lz is an element of an array, [freqs] are the keywords rg, kappa, nu, Omega,
    [func] the keyword func.  NaN becomes 0. *)
Definition call_plain (arr : bool) (q : QDF) (freqs : option (RR * option RR * option RR * RR)) (func : option (RR -> RR -> RR -> RR)) (J : RR * RR * RR) : RR :=
  let '(jr, lz, jz) := J in
  if andb (negb arr) (andb (q_cut q) (if Rlt_dec lz 0 then true else false)) then 0 else
  let '(rg, kappa, nu, Omega) := match freqs with Some f => f | None => circ_of arr q lz end in
  let funcFactor := match func with Some f => f jr lz jz | None => 1 end in
  let out := match kappa, nu with
    | Some k, Some n =>
      let srm2 := exp (- 2 * lnsr_at q rg) in let szm2 := exp (- 2 * lnsz_at q rg) in
      let fsr := Omega * exp (lnsurf_at q rg) * srm2 / PI / k * (1 + tanh (lz / q_lo q)) * exp (- k * jr * srm2) in
      let fsz := n / 2 / PI * szm2 * exp (- n * jz * szm2) in fsr * fsz * funcFactor
    | _, _ => 0 end in
  if andb arr (andb (q_cut q) (if Rlt_dec lz 0 then true else false)) then 0 else out.

(** 262-287 __call__ with log=True *)
Definition call_log (arr : bool) (q : QDF) (freqs : option (RR * option RR * option RR * RR)) (func : option (RR -> RR -> RR -> RR)) (J : RR * RR * RR) : lg :=
  let '(jr, lz, jz) := J in
  if andb (negb arr) (andb (q_cut q) (if Rlt_dec lz 0 then true else false)) then LSent else
  let '(rg, kappa, nu, Omega) := match freqs with Some f => f | None => circ_of arr q lz end in
  let funcTerm := match func with Some f => lln (f jr lz jz) | None => LFin 0 end in
  let out := match kappa, nu with
    | Some k, Some n =>
      let lnfsr := ladd (lln Omega) (LFin (lnsurf_at q rg - 2 * lnsr_at q rg - ln PI - ln k + ln (1 + tanh (lz / q_lo q)) - k * jr * exp (- 2 * lnsr_at q rg))) in
      let lnfsz := LFin (ln n - ln (2 * PI) - 2 * lnsz_at q rg - n * jz * exp (- 2 * lnsz_at q rg)) in
      ladd (ladd lnfsr lnfsz) funcTerm
    | _, _ => LNan end in
  let out := nan_to_sent out in
  if andb arr (andb (q_cut q) (if Rlt_dec lz 0 then true else false)) then LSent else out.

(** 224-237 __call__ for one phase-space point: an unbound orbit has density 0 *)
Definition call_at (q : QDF) (R vR vT z vz : RR) : RR := match q_aA q R vR vT z vz with Some J => call_plain false q None None J | None => 0 end.
Definition call_log_at (q : QDF) (R vR vT z vz : RR) : lg := match q_aA q R vR vT z vz with Some J => call_log false q None None J | None => LSent end.

(** The same for an array of points: the exception of one point is the exception of the call, and the call returns the single number 0. *)
Inductive arr_out : Type := AList (l : list RR) | AScalar (x : RR).
Fixpoint all_some {A : Type} (l : list (option A)) : option (list A) := match l with
  | [] => Some []
  | None :: _ => None
  | Some a :: t => match all_some t with Some r => Some (a :: r) | None => None end
  end.
Definition Point : Type := (RR * RR * RR * RR * RR)%type.
Definition aA_at (q : QDF) (p : Point) : option (RR * RR * RR) := let '(R, vR, vT, z, vz) := p in q_aA q R vR vT z vz.
Definition call_array (q : QDF) (pts : list Point) : arr_out := match all_some (map (aA_at q) pts) with
  | Some js => AList (map (call_plain true q None None) js)
  | None => AScalar 0
  end.
(** numpy.exp of the call with log=True *)
Definition exp_call_array (q : QDF) (pts : list Point) : arr_out := match all_some (map (aA_at q) pts) with
  | Some js => AList (map (fun J => lexp (call_log true q None None J)) js)
  | None => AScalar 0
  end.

(** ** Gauss-Legendre moments *)
(** Nodes and weights; [gl] is numpy.polynomial.legendre.leggauss. *)
Definition rule : Type := list (RR * RR).
(** 687-735 nodes on [0, c], and those on both sides of 0 *)
Definition half_nodes (c : RR) (r : rule) : rule := map (fun xw => (c / 2 * (fst xw + 1), snd xw)) r.
Definition sym_nodes (c : RR) (r : rule) : rule := half_nodes c r ++ map (fun xw => (- c / 2 * (fst xw + 1), snd xw)) r.
Definition sum (l : list RR) : RR := fold_right Rplus 0 l.

(** 640-650 the dispersions and the asymmetric drift at R *)
Definition sigR1 (q : QDF) (R : RR) : RR := q_sr q * exp ((q_refr q - R) / q_hsr q).
Definition sigz1 (q : QDF) (R : RR) : RR := q_sz q * exp ((q_refr q - R) / q_hsz q).
Definition gam : RR := sqrt (1 / 2).
Definition va (q : QDF) (R : RR) : RR :=
  let v := sigR1 q R ^ 2 / 2 / q_vc q R * (gam ^ 2 - 1 + R * (1 / q_hr q + 2 / q_hsr q)) in if Rlt_dec (sigR1 q R) (Rabs v) then 0 else v.

Definition nodesR (q : QDF) (gl : nat -> rule) (ngl : nat) (c : RR) : rule := if q_adia q then half_nodes c (gl ngl) else sym_nodes c (gl (ngl / 2)%nat).
(** 736-748 the three-dimensional grid, flattened: vT varies along the first axis, vR along the second, vz along the third *)
Definition grid3 (T P Z : rule) : list ((RR * RR) * (RR * RR) * (RR * RR)) := flat_map (fun t => flat_map (fun r => map (fun z => (t, r, z)) Z) P) T.
Definition point3 (R z : RR) (g : (RR * RR) * (RR * RR) * (RR * RR)) : Point := let '(t, r, v) := g in (R, fst r, fst t, z, fst v).

(** 577-833 _vmomentdensity with gl=True; the result is an exception ([None]) for an odd number of nodes and when the orbit of a node is unbound, because
    the single number returned by the call is unpacked (750-760).  n, m, o are non-negative integers. *)
Definition vmoment_gl (q : QDF) (gl : nat -> rule) (ngl : nat) (nsigma vTmax R z : RR) (n m o : nat) : option RR :=
  if andb (q_adia q) (orb (Nat.odd n) (Nat.odd o)) then Some 0 else
  if Nat.odd ngl then None else
  let vR := nodesR q gl ngl (nsigma * sigR1 q R) in let vz := nodesR q gl ngl (nsigma * sigz1 q R) in let vT := half_nodes vTmax (gl ngl) in
  let g := grid3 vT vR vz in
  match exp_call_array q (map (point3 R z) g) with
  | AScalar _ => None
  | AList f => Some (sum (map (fun fg => let '(f, (t, r, v)) := fg in f * fst r ^ n * fst t ^ m * fst v ^ o * snd t * snd r * snd v * sigR1 q R * sigz1 q R * (125 / 1000) * vTmax * nsigma ^ 2)
      (combine f g)))
  end.

(** 1-35 the default number of standard deviations is 4 *)
Definition nsigma_default : RR := 4.
Definition obind {A B : Type} (a : option A) (f : A -> option B) : option B := match a with Some x => f x | None => None end.
(** 1070-1109 density, and 1111-1870 the gl branches of sigmaR2, sigmaRz, sigmaz2, meanvR, meanvT, meanvz, sigmaT2, tilt: the keyword nsigma is not passed on *)
Definition density_gl (q : QDF) gl ngl (nsigma vTmax R z : RR) : option RR := vmoment_gl q gl ngl nsigma vTmax R z 0 0 0.
Definition ratio_gl (q : QDF) gl ngl (nsigma vTmax R z : RR) (n m o : nat) : option RR :=
  obind (vmoment_gl q gl ngl nsigma_default vTmax R z 0 0 0) (fun s => obind (vmoment_gl q gl ngl nsigma_default vTmax R z n m o) (fun x => Some (x / s))).
Definition sigmaR2_gl (q : QDF) gl ngl (nsigma vTmax R z : RR) := ratio_gl q gl ngl nsigma vTmax R z 2 0 0.
Definition sigmaRz_gl (q : QDF) gl ngl (nsigma vTmax R z : RR) := ratio_gl q gl ngl nsigma vTmax R z 1 0 1.
Definition sigmaz2_gl (q : QDF) gl ngl (nsigma vTmax R z : RR) := ratio_gl q gl ngl nsigma vTmax R z 0 0 2.
Definition meanvR_gl (q : QDF) gl ngl (nsigma vTmax R z : RR) := ratio_gl q gl ngl nsigma vTmax R z 1 0 0.
Definition meanvT_gl (q : QDF) gl ngl (nsigma vTmax R z : RR) := ratio_gl q gl ngl nsigma vTmax R z 0 1 0.
Definition meanvz_gl (q : QDF) gl ngl (nsigma vTmax R z : RR) := ratio_gl q gl ngl nsigma vTmax R z 0 0 1.
Definition sigmaT2_gl (q : QDF) gl ngl (nsigma vTmax R z : RR) : option RR :=
  obind (ratio_gl q gl ngl nsigma vTmax R z 0 1 0) (fun mvt => obind (ratio_gl q gl ngl nsigma vTmax R z 0 2 0) (fun x => Some (x - mvt ^ 2))).
Definition tilt_gl (q : QDF) gl ngl (nsigma vTmax R z : RR) : option RR :=
  obind (sigmaR2_gl q gl ngl nsigma vTmax R z) (fun a => obind (sigmaz2_gl q gl ngl nsigma vTmax R z) (fun b => obind (sigmaRz_gl q gl ngl nsigma vTmax R z) (fun c =>
    Some (1 / 2 * atan (2 * c / (a - b)))))).

(** ** Marginals *)
(** 2367-2457 pvR; an unbound node makes reshape fail *)
Definition facR (q : QDF) (c : RR) : RR := if q_adia q then c else 1 / 2 * c.
Definition grid2 (A B : rule) : list ((RR * RR) * (RR * RR)) := flat_map (fun a => map (fun b => (a, b)) B) A.
Definition pvR (q : QDF) gl (ngl : nat) (nsigma vTmax vR R z : RR) : option RR :=
  if Nat.odd ngl then None else
  let c := nsigma * sigz1 q R in let g := grid2 (half_nodes vTmax (gl ngl)) (nodesR q gl ngl c) in
  match exp_call_array q (map (fun ab => (R, vR, fst (fst ab), z, fst (snd ab))) g) with
  | AScalar _ => None
  | AList f => Some (sum (map (fun fg => let '(f, (t, v)) := fg in f * snd t * snd v * facR q c) (combine f g)) * (1 / 2 * vTmax))
  end.
(** 2459-2561 pvT *)
Definition pvT (q : QDF) gl (ngl : nat) (nsigma vT R z : RR) : option RR :=
  if Nat.odd ngl then None else
  let cR := nsigma * sigR1 q R in let cz := nsigma * sigz1 q R in let g := grid2 (nodesR q gl ngl cR) (nodesR q gl ngl cz) in
  match exp_call_array q (map (fun ab => (R, fst (fst ab), vT, z, fst (snd ab))) g) with
  | AScalar _ => None
  | AList f => Some (sum (map (fun fg => let '(f, (r, v)) := fg in f * snd r * snd v * facR q cR * facR q cz) (combine f g)))
  end.
(** 2563-2754 pvz: the nodes of vR are those of [0, 2] and scaled by nsigma sigmaR1 / 2 *)
Definition pvz (q : QDF) gl (ngl : nat) (nsigma vTmax vz R z : RR) : option RR :=
  if Nat.odd ngl then None else
  let c := nsigma * sigR1 q R in
  let g := grid2 (half_nodes vTmax (gl ngl)) (map (fun xw => (fst xw * (nsigma * sigR1 q R / 2), snd xw)) (nodesR q gl ngl 2)) in
  match exp_call_array q (map (fun ab => (R, fst (snd ab), fst (fst ab), z, vz)) g) with
  | AScalar _ => None
  | AList f => Some (sum (map (fun fg => let '(f, (t, r)) := fg in f * snd t * snd r) (combine f g)) * facR q c * (1 / 2 * vTmax))
  end.
(** 2756-2836 pvRvT: here the number returned for an unbound node is multiplied with the weights *)
Definition pvRvT (q : QDF) gl (ngl : nat) (nsigma vR vT R z : RR) : option RR :=
  if Nat.odd ngl then None else
  let c := nsigma * sigz1 q R in let g := nodesR q gl ngl c in
  match exp_call_array q (map (fun v => (R, vR, vT, z, fst v)) g) with
  | AScalar x => Some (sum (map (fun v => x * snd v * facR q c) g))
  | AList f => Some (sum (map (fun fv => fst fv * snd (snd fv) * facR q c) (combine f g)))
  end.
(** 2838-2919 pvTvz *)
Definition pvTvz (q : QDF) gl (ngl : nat) (nsigma vT vz R z : RR) : option RR :=
  if Nat.odd ngl then None else
  let c := nsigma * sigR1 q R in let g := nodesR q gl ngl c in
  match exp_call_array q (map (fun r => (R, fst r, vT, z, vz)) g) with
  | AScalar x => Some (sum (map (fun v => x * snd v * facR q c) g))
  | AList f => Some (sum (map (fun fv => fst fv * snd (snd fv) * facR q c) (combine f g)))
  end.
(** 2921-2994 pvRvz *)
Definition pvRvz (q : QDF) gl (ngl : nat) (vTmax vR vz R z : RR) : option RR :=
  if Nat.odd ngl then None else
  let g := half_nodes vTmax (gl ngl) in
  match exp_call_array q (map (fun t => (R, vR, fst t, z, vz)) g) with
  | AScalar _ => None
  | AList f => Some (sum (map (fun ft => fst ft * snd (snd ft) * (1 / 2 * vTmax)) (combine f g)))
  end.

(** ** Monte-Carlo moments *)
(** 835-893 one term of the mean, with the Gaussian draws [vr], [vt] (shifted by mvT) and [vz]; 3081-3092 the integrand.  [fn] is the array evaluation. *)
Definition mvT (q : QDF) (R : RR) : RR := (q_vc q R - va q R) / gam / sigR1 q R.
Definition call_arr_at (q : QDF) (func : option (RR -> RR -> RR -> RR)) (R vR vT z vz : RR) : RR := match q_aA q R vR vT z vz with Some J => call_plain true q None func J | None => 0 end.
Definition mc_term (q : QDF) (R z : RR) (n m o : nat) (s : RR * RR * RR) : RR := let '(vr, vt, vz) := s in
  vr ^ n * vt ^ m * vz ^ o * call_arr_at q None R (vr * sigR1 q R) (vt * sigR1 q R * gam) z (vz * sigz1 q R) * exp (vr ^ 2 / 2 + (vt - mvT q R) ^ 2 / 2 + vz ^ 2 / 2).
Definition mean (l : list RR) : RR := sum l / INR (length l).
Definition vmoment_mc (q : QDF) (R z : RR) (n m o : nat) (smp : list (RR * RR * RR)) : RR :=
  mean (map (mc_term q R z n m o) smp) * sigR1 q R ^ (2 + n + m) * gam ^ (1 + m) * sigz1 q R ^ (1 + o).
(** 972-1046 _jmomentdensity, 3109-3121 its integrand *)
Definition jmc_term (q : QDF) (R z : RR) (n m o : nat) (s : RR * RR * RR) : RR := let '(vr, vt, vz) := s in
  call_arr_at q (Some (fun x y w => x ^ n * y ^ m * w ^ o)) R (vr * sigR1 q R) (vt * sigR1 q R * gam) z (vz * sigz1 q R) * exp (vr ^ 2 / 2 + (vt - mvT q R) ^ 2 / 2 + vz ^ 2 / 2).
Definition jmoment_mc (q : QDF) (R z : RR) (n m o : nat) (smp : list (RR * RR * RR)) : RR :=
  mean (map (jmc_term q R z n m o) smp) * sigR1 q R ^ 2 * gam * sigz1 q R.
(** 1140-1165 and the like: the ratio of two moments over the same draws; 1800-1835 sigmaT2 *)
Definition ratio_mc (q : QDF) (R z : RR) (n m o : nat) smp : RR := vmoment_mc q R z n m o smp / vmoment_mc q R z 0 0 0 smp.
Definition jratio_mc (q : QDF) (R z : RR) (n m o : nat) smp : RR := jmoment_mc q R z n m o smp / vmoment_mc q R z 0 0 0 smp.
Definition sigmaT2_mc (q : QDF) (R z : RR) smp : RR := ratio_mc q R z 0 2 0 smp - ratio_mc q R z 0 1 0 smp ^ 2.

(** ** Direct moments *)
(** 894-912 with gl=False and mc=False: tplquad over vT (outermost), vR and vz, the latter two from 0 to nsigma; 3069-3079 the integrand *)
Definition vmoment_direct (q : QDF) (nsigma R z : RR) (n m o : nat) : RR :=
  if andb (q_adia q) (orb (Nat.odd n) (Nat.odd o)) then 0 else
  RInt (fun vT => RInt (fun vR => RInt (fun vz => vR ^ n * vT ^ m * vz ^ o * call_at q R (vR * sigR1 q R) (vT * sigR1 q R * gam) z (vz * sigz1 q R)) 0 nsigma) 0 nsigma)
    (1 / gam * (q_vc q R - va q R) / sigR1 q R - nsigma) (1 / gam * (q_vc q R - va q R) / sigR1 q R + nsigma)
  * sigR1 q R ^ (2 + n + m) * gam ^ (1 + m) * sigz1 q R ^ (1 + o).
(** 1836-1870 sigmaT2 with gl=False and mc=False: both terms use the second moment *)
Definition sigmaT2_direct (q : QDF) (nsigma R z : RR) : RR :=
  let surfmass := vmoment_direct q nsigma R z 0 0 0 in
  vmoment_direct q nsigma R z 0 2 0 / surfmass - (vmoment_direct q nsigma R z 0 2 0 / surfmass) ^ 2.

(** ** Scale lengths and surface density *)
(** 319-457 *)
Definition estimate_hr (density : RR -> RR) (R dR : RR) : RR := - dR / (ln (density (R + dR / 2)) - ln (density (R - dR / 2))).
Definition estimate_hz (density : RR -> RR) (z dz : RR) : RR :=
  if Req_EM_T z 0 then - dz / (ln (density (z + dz)) - ln (density z)) else - dz / (ln (density (z + dz / 2)) - ln (density (z - dz / 2))).
Definition estimate_hs (sigma2 : RR -> RR) (R dR : RR) : RR := - dR / (ln (sigma2 (R + dR / 2)) / 2 - ln (sigma2 (R - dR / 2)) / 2).
(** 484-496 surfacemass_z with fixed_quad: the keyword zmax is not used; 497-507 without it, [interp] being the spline through the logarithm *)
Definition surfacemass_fixed (density : RR -> RR) (r : rule) (zmax : RR) : RR := 2 * sum (map (fun xw => 1 / 2 / 2 * snd xw * density (1 / 2 / 2 * (fst xw + 1))) r).
Definition surfacemass_spline (interp : RR -> RR) (zmax : RR) : RR := 2 * RInt (fun x => exp (interp x)) 0 1.

(** 509-575 and 914-970 physical units of the moments *)
Definition phys_vmoment (ro vo x : RR) (n m o : nat) : RR := x * (vo ^ (n + m + o) / ro ^ 3).
Definition phys_jmoment (ro vo x : RR) (n m o : nat) : RR := x * ((ro * vo) ^ (n + m + o) / ro ^ 3).

(** ** Velocity samples *)
(** 2110-2160 one proposal: three standard normal draws and a uniform one.  [f] is the logarithm of the distribution function at the position (an arbitrary
    function of the velocity), [maxVT] the velocity found by the optimiser. *)
Definition proposal (q : QDF) (maxVT : RR) (s : RR * RR * RR) : RR * RR * RR := let '(a, b, c) := s in (a * 2 * q_sr q, b * 2 * q_sr q + maxVT, c * 2 * q_sz q).
Definition VDatprop (q : QDF) (lnf : RR * RR * RR -> RR) (maxVT : RR) (v : RR * RR * RR) : RR := let '(vR, vT, vz) := v in
  lnf v - lnf (0, maxVT, 0) - - (1 / 2) * (vR ^ 2 / 4 / q_sr q ^ 2 + vz ^ 2 / 4 / q_sz q ^ 2 + (vT - maxVT) ^ 2 / 4 / q_sr q ^ 2).
Definition accepted (q : QDF) lnf maxVT (v : RR * RR * RR) (u : RR) : bool := if Rlt_dec (ln u) (VDatprop q lnf maxVT v) then true else false.
(** 2117-2150 the loop: [draws k] are the draws of the k-th pass, as many as are needed plus one *)
Fixpoint sample_loop (q : QDF) lnf (maxVT : RR) (n : nat) (draws : nat -> nat -> (RR * RR * RR) * RR) (fuel pass : nat) (got : list (RR * RR * RR)) : option (list (RR * RR * RR)) :=
  if Nat.ltb (length got) n then match fuel with
    | O => None
    | S fuel =>
      let nmore := (n - length got + 1)%nat in
      let props := map (fun i => let '(s, u) := draws pass i in (proposal q maxVT s, u)) (seq 0 nmore) in
      sample_loop q lnf maxVT n draws fuel (S pass) (got ++ map fst (filter (fun vu => accepted q lnf maxVT (fst vu) (snd vu)) props))
    end
  else Some (firstn n got).
Definition sampleV (q : QDF) lnf maxVT n draws fuel := sample_loop q lnf maxVT n draws fuel 0 [].

(** 2296-2364 _sampleV_preoptimized.  Boolean indexing: [take] is x[mask], [put] is x[mask] = v. *)
Fixpoint take {A : Type} (mask : list bool) (x : list A) : list A := match mask, x with
  | b :: mask, a :: x => if b then a :: take mask x else take mask x | _, _ => [] end.
Fixpoint put {A : Type} (mask : list bool) (v x : list A) : list A := match mask, x with
  | b :: mask, a :: x => if b then match v with w :: v => w :: put mask v x | [] => a :: put mask [] x end else a :: put mask v x
  | _, _ => x end.
(** A position is its log-density of the velocity and its maxVT.  [draws pass] are the draws of one pass. *)
Fixpoint pre_loop (q : QDF) (pos : list ((RR * RR * RR -> RR) * RR)) (draws : nat -> nat -> (RR * RR * RR) * RR) (fuel pass : nat) (out : list (RR * RR * RR)) (remain : list bool)
  : option (list (RR * RR * RR)) :=
  if existsb (fun b => b) remain then match fuel with
    | O => None
    | S fuel =>
      let here := take remain pos in
      let props := map (fun ip => let '(i, (lnf, mvt)) := ip in let '(s, u) := draws pass i in (proposal q mvt s, accepted q lnf mvt (proposal q mvt s) u)) (combine (seq 0 (length here)) here) in
      let accept := map snd props in
      let to_change := put remain accept remain in
      let out := put to_change (take accept (map fst props)) out in
      let remain := put remain (map negb accept) remain in
      pre_loop q pos draws fuel (S pass) out remain
    end
  else Some out.
Definition sample_pre (q : QDF) pos draws fuel (junk : list (RR * RR * RR)) := pre_loop q pos draws fuel 0 junk (map (fun _ => true) pos).
(** 2219-2294 sampleV_interpolate: positions outside the box are sampled one by one ([far]), the others together ([near]); the results are put back *)
Definition interp_merge (mask : list bool) (far near junk : list (RR * RR * RR)) : list (RR * RR * RR) := put (map negb mask) near (put mask far junk).
