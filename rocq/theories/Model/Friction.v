(** Dynamical friction: galpy/potential/ChandrasekharDynamicalFrictionForce.py 37-288 and FDMDynamicalFrictionForce.py 54-229; copies: copy.copy and pickle call __getstate__ and __setstate__
    (262-288), Force.py:__mul__ 110-135 copies and scales _amp.  Not modelled: units, NaN in the table of dispersions (128-147), the flags for C, whether a user's function can be pickled.
    _force_hash is None from the constructor on: no line stores a new hash, so _Rforce (237-243) and the others always recompute. *)
From Coq Require Import Reals List Bool.
From Coquelicot Require Import Coquelicot.
Import ListNotations.
Open Scope R_scope.
Notation RR := RbaseSymbolsImpl.R (only parsing).

Section Friction.
  (** potentials; their density evaluateDensities(pot, R, z, phi, t); jeans.sigmar(pot, r, beta=0); the halo LogarithmicHaloPotential(normalize=1, q=1) *)
  Variable pot : Type.
  Variable density : pot -> RR -> RR -> RR -> RR -> RR.
  Variable jeans_sigmar : pot -> RR -> RR.
  Variable log_halo : pot.
  (** InterpolatedUnivariateSpline, numpy.linspace, scipy.special.erf and the cosine integral *)
  Variable spline : list RR -> list RR -> RR -> RR.
  Variable linspace : RR -> RR -> nat -> list RR.
  Variable erf Ci : RR -> RR.
  Variable euler_gamma : RR.

  (** the instance dictionary; [fdm]: FDMDynamicalFrictionForce with _mhbar and _const_FDMfactor (0 for False) *)
  Record force := mkForce {
    amp : RR; ms : RR; gamma : RR; rhm : RR; minr : RR; maxr : RR; lnL : RR;                                      (* _lnLambda, 0 for False *)
    dens_kwarg : option pot; sigmar_kwarg : option (RR -> RR);
    dens_pot : pot; dens_host : RR -> RR -> RR -> RR -> RR; sigmar_orig : RR -> RR; rs4 : list RR; sigmars4 : list RR; sigmar : RR -> RR;
    fdm : option (RR * RR) }.
  Definition inv_sqrt2 : RR := 1 / sqrt 2.
  (** 93-158 (FDM 114-135, with mhbar already converted) *)
  Definition make (amp0 GMs gamma rhm : RR) (dens : option pot) (sig : option (RR -> RR)) (const_lnLambda minr maxr : RR) (nr : nat) (fdm : option (RR * RR)) : force :=
    let a := amp0 * GMs in
    let dp := match dens with Some d => d | None => log_halo end in
    let so := match sig with Some s => s | None => match dens with None => fun _ => inv_sqrt2 | Some _ => fun x => jeans_sigmar dp x end end in
    let rs := linspace minr maxr nr in
    mkForce (a * (4 * PI)) (a / amp0) gamma rhm minr maxr const_lnLambda dens sig dp (fun R z phi t => density dp R z phi t) so rs (map so rs) (spline rs (map so rs)) fdm.
  (** 170-184 *)
  Definition set_GMs (g : RR) (f : force) : force :=
    mkForce (amp f * (g / ms f)) g (gamma f) (rhm f) (minr f) (maxr f) (lnL f) (dens_kwarg f) (sigmar_kwarg f) (dens_pot f) (dens_host f) (sigmar_orig f) (rs4 f) (sigmars4 f) (sigmar f) (fdm f).
  Definition set_rhm (r : RR) (f : force) : force :=
    mkForce (amp f) (ms f) (gamma f) r (minr f) (maxr f) (lnL f) (dens_kwarg f) (sigmar_kwarg f) (dens_pot f) (dens_host f) (sigmar_orig f) (rs4 f) (sigmars4 f) (sigmar f) (fdm f).

  (** ** Evaluation *)
  Definition is0 (x : RR) : bool := if Req_EM_T x 0 then true else false.
  Definition ltb (x y : RR) : bool := if Rlt_dec x y then true else false.
  (** 209-218 *)
  Definition lnLambda (f : force) (r v : RR) : RR :=
    if negb (is0 (lnL f)) then lnL f
    else let GMvs := ms f / v ^ 2 in
         let Lambda := if ltb GMvs (rhm f) then r / gamma f / rhm f else r / gamma f / GMvs in
         0.5 * ln (1 + Lambda ^ 2).
  Definition sig_at (f : force) (r : RR) : RR := if ltb (maxr f) r then sigmar_orig f r else sigmar f r.
  Definition Xfactor (X : RR) : RR := erf X - 2 * X * (1 / sqrt PI) * exp (- X ^ 2).
  (** numpy.interp between two points, for x between them *)
  Definition interp2 (x x0 x1 y0 y1 : RR) : RR := y0 + (y1 - y0) / (x1 - x0) * (x - x0).
  (** FDM 158-212 *)
  Definition frictionFactor (mhbar : RR) (f : force) (r vs : RR) : RR :=
    let sr := sig_at f r in
    let Xf := Xfactor (vs / (sqrt 2 * sr)) in
    let kr := mhbar * vs * r in
    let M := vs / sig_at f r in
    let C_cdm := lnLambda f r vs * Xf in
    let C := if ltb (2 * M) kr then ln (2 * kr / M) * Xf
             else if ltb kr (M / 2) then (- Ci (2 * kr) + ln (2 * kr) + euler_gamma) + sin (2 * kr) / (2 * kr) - 1
             else let C_fdm := (- Ci M + ln M + euler_gamma) + sin M / M - 1 in interp2 kr (M / 2) (2 * M) C_fdm (ln 4 * Xf) in
    if ltb C C_cdm then C else C_cdm.
  (** 220-235; FDM 214-229 *)
  Definition calc_force (f : force) (R phi z : RR) (v : RR * RR * RR) (t : RR) : RR :=
    let r := sqrt (R ^ 2 + z ^ 2) in
    if ltb r (minr f) then 0
    else
      let '(vR, vT, vz) := v in
      let vs := sqrt (vR ^ 2 + vT ^ 2 + vz ^ 2) in
      match fdm f with
      | None => let X := vs * inv_sqrt2 / sig_at f r in - dens_host f R z phi t / vs ^ 3 * Xfactor X * lnLambda f r vs
      | Some (mhbar, const) => let C := if negb (is0 const) then const else frictionFactor mhbar f r vs in - dens_host f R z phi t / vs ^ 3 * C
      end.
  (** 237-259, times _amp (DissipativeForce.py:Rforce, zforce, phitorque) *)
  Definition Rforce (f : force) (R z phi t : RR) (v : RR * RR * RR) : RR := amp f * (calc_force f R phi z v t * fst (fst v)).
  Definition phitorque (f : force) (R z phi t : RR) (v : RR * RR * RR) : RR := amp f * (calc_force f R phi z v t * snd (fst v) * R).
  Definition zforce (f : force) (R z phi t : RR) (v : RR * RR * RR) : RR := amp f * (calc_force f R phi z v t * snd v).

  (** ** Copies *)
  (** __getstate__: the dictionary without _dens_host, and without sigmar_orig unless the user gave one *)
  Record pdict := mkDict { d_all : force; d_sigmar_orig : option (RR -> RR) }.
  Definition getstate (f : force) : pdict := mkDict f (match sigmar_kwarg f with None => None | Some _ => Some (sigmar_orig f) end).
  (** __setstate__ 273-288: sigmar_orig is set in either case, whatever the dictionary holds *)
  Definition setstate (d : pdict) : force :=
    let f := d_all d in
    let so := match dens_kwarg f, sigmar_kwarg f with None, None => fun _ => inv_sqrt2 | _, _ => fun x => jeans_sigmar (dens_pot f) x end in
    mkForce (amp f) (ms f) (gamma f) (rhm f) (minr f) (maxr f) (lnL f) (dens_kwarg f) (sigmar_kwarg f) (dens_pot f) (fun R z phi t => density (dens_pot f) R z phi t) so (rs4 f) (sigmars4 f) (sigmar f) (fdm f).
  Definition copy (f : force) : force := setstate (getstate f).
  (** Force.__mul__: copy, then _amp *= b *)
  Definition scale (b : RR) (f : force) : force :=
    let g := copy f in
    mkForce (amp g * b) (ms g) (gamma g) (rhm g) (minr g) (maxr g) (lnL g) (dens_kwarg g) (sigmar_kwarg g) (dens_pot g) (dens_host g) (sigmar_orig g) (rs4 g) (sigmars4 g) (sigmar g) (fdm g).

  (** What a user can do with a force *)
  Inductive op := Copy | Scale (b : RR) | SetGMs (g : RR) | SetRhm (r : RR).
  Definition apply (f : force) (o : op) : force := match o with Copy => copy f | Scale b => scale b f | SetGMs g => set_GMs g f | SetRhm r => set_rhm r f end.
  Definition applies (f : force) (os : list op) : force := fold_left apply os f.
End Friction.
