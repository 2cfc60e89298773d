(** Searches for radii: bracket-expansion loops followed by scipy.optimize.brentq.
    galpy/potential/Potential.py (rl, rE, LcE, lindbladR, zvc, zvc_range, rhalf), galpy/actionAngle/actionAngleSpherical.py (_calc_rperi_rap) and
    actionAngleStaeckel.py (calcUminUmax, calcVmin).

    brentq is an argument of every function: [Some r] when it returns r, [None] when it raises ValueError (no sign change).  Its own iteration and
    its tolerances are not modelled.  Loops take a number of iterations allowed; [Loop] means they were still running. *)
From Coq Require Import Reals List Bool.
From Verif.Model Require Import PotAPI Derived.
Import ListNotations.
Open Scope R_scope.
Notation RR := RbaseSymbolsImpl.R (only parsing).

Inductive out (A : Type) := Loop | ValueErr | UnboundErr | OtherErr | Ret (a : A).
Arguments Loop {A}. Arguments ValueErr {A}. Arguments UnboundErr {A}. Arguments OtherErr {A}. Arguments Ret {A} a.
Definition obind {A B} (m : out A) (k : A -> out B) : out B :=
  match m with Ret a => k a | Loop => Loop | ValueErr => ValueErr | UnboundErr => UnboundErr | OtherErr => OtherErr end.
Definition of_brentq (o : option RR) : out RR := match o with Some r => Ret r | None => ValueErr end.
Definition b2r (b : bool) : RR := if b then 1 else 0.

(** The loop of _rlFindStart, _rEFindStart and _rhalfFindStart, Potential.py 3223-3231, 3284-3292, 4540-4548.  A comparison with nan is false. *)
Fixpoint startLoop (fuel : nat) (lower : bool) (f : RR -> num) (rtry : RR) : out RR :=
  match fuel with
  | O => Loop
  | S n => match f rtry with
           | Raises => OtherErr
           | NaN => Ret rtry
           | Val v => if Rlt_dec 0 ((2 * b2r lower - 1) * v)
                      then startLoop n lower f (if lower then rtry / 2 else rtry * 2)
                      else Ret rtry
           end
  end.
Definition findStart (fuel : nat) (r : RR) (f : RR -> num) (lower : bool) : out RR := startLoop fuel lower f (2 * r).

Section Brentq.
  Variable brentq : (RR -> num) -> RR -> RR -> option RR.

  (** The common shape of rl and rE, 3202-3214 and 3268-3275 *)
  Definition search (fuel : nat) (f : RR -> num) (r0 : RR) : out RR :=
    obind (findStart fuel r0 f false) (fun rstart =>
      match brentq f (/ 10 ^ 5) rstart with
      | Some r => Ret r
      | None => obind (findStart fuel (/ 10 ^ 5) f true) (fun rlower => of_brentq (brentq f rlower rstart))
      end).
  (** _rlfunc 3217-3220, rl 3171-3214 *)
  Definition rlfunc (lz : RR) (p : Pot) (t rl : RR) : num := nbind (fun_vcirc p rl None t) (fun v => Val (rl * v - lz)).
  Definition rl (fuel : nat) (p : Pot) (lz t : RR) : out RR := search fuel (rlfunc (Rabs lz) p t) (Rabs lz).
  (** _rEfunc 3278-3281, rE 3237-3275 *)
  Definition rEfunc (E : RR) (p : Pot) (t rE : RR) : num :=
    nbind (fun_vcirc p rE None t) (fun v => noption (apiEv p) (fun Phi => Val (v ^ 2 / 2 + Phi rE 0 0 t - E))).
  Definition rE (fuel : nat) (p : Pot) (E t : RR) : out RR := search fuel (rEfunc E p t) 1.
  (** LcE 3298-3322: the circular velocity is taken at t = 0 *)
  Definition LcE (fuel : nat) (p : Pot) (E t : RR) : out RR :=
    obind (rE fuel p E t) (fun r => match fun_vcirc p r None 0 with Val v => Ret (r * v) | _ => OtherErr end).

  (** lindbladR 3328-3401; [m] is None for corotation.  The answer None is [Ret None]. *)
  Definition corotation_eq (p : Pot) (OmegaP t R : RR) : num := nbind (fun_omegac p R t) (fun o => Val (o - OmegaP)).
  Definition lindblad_eq (p : Pot) (OmegaP m t R : RR) : num :=
    nbind (fun_omegac p R t) (fun o => nbind (epifreq p R t) (fun k => Val (m * (o - OmegaP) - k))).
  Definition lindbladR (p : Pot) (OmegaP : RR) (m : option RR) (t : RR) : out (option RR) :=
    match m with
    | None => match brentq (corotation_eq p OmegaP t) (/ 10 ^ 7) 1000 with
              | Some r => Ret (Some r)
              | None => match brentq (corotation_eq p OmegaP t) (/ 100) 1000 with
                        | Some r => Ret (Some r)
                        | None => Ret None
                        end
              end
    | Some m => match brentq (lindblad_eq p OmegaP m t) (/ 10 ^ 7) 1000 with
                | Some r => Ret (Some r)
                | None => Ret None
                end
    end.

  (** zvc 4374-4433 *)
  Fixpoint zLoop (fuel : nat) (g : RR -> RR) (zmax zstart : RR) : out RR :=      (* g z = E - Phi(R, z) - Lz^2/2/R^2 *)
    match fuel with
    | O => Loop
    | S n => if Rlt_dec 0 (g zstart) then (if Rlt_dec zstart zmax then zLoop n g zmax (zstart * 2) else Ret zstart) else Ret zstart
    end.
  Definition zvc (fuel : nat) (p : Pot) (R E Lz phi t : RR) : out num :=
    match apiEv p with
    | None => OtherErr
    | Some Phi =>
      let Lz2over2R2 := Lz ^ 2 / 2 / R ^ 2 in
      if Rlt_dec (Rabs (Phi R 0 phi t + Lz2over2R2 - E)) (/ 10 ^ 8) then Ret (Val 0)
      else if Rlt_dec E (Phi R 0 phi t + Lz2over2R2) then Ret NaN
      else obind (zLoop fuel (fun z => E - Phi R z phi t - Lz2over2R2) 1000 1) (fun zstart =>
             obind (of_brentq (brentq (fun z => Val (Phi R z phi t + Lz2over2R2 - E)) 0 zstart)) (fun r => Ret (Val r)))
    end.
  (** zvc_range 4439-4498 *)
  Fixpoint downLoop (fuel : nat) (g : RR -> RR) (rmin r : RR) : out RR :=        (* 4475-4479; g R = Phi(R, 0) + Lz^2/2/R^2 - E *)
    match fuel with
    | O => Loop
    | S n => if Rlt_dec (g r) 0 then (if Rlt_dec rmin r then downLoop n g rmin (r / 2) else Ret r) else Ret r
    end.
  Fixpoint upLoop (fuel : nat) (g : RR -> RR) (rmax r : RR) : out RR :=          (* 4488-4492 *)
    match fuel with
    | O => Loop
    | S n => if Rlt_dec (g r) 0 then (if Rlt_dec r rmax then upLoop n g rmax (r * 2) else Ret r) else Ret r
    end.
  Definition zvc_range (fuel : nat) (p : Pot) (E Lz phi t : RR) : out (num * num) :=
    match apiEv p with
    | None => OtherErr
    | Some Phi =>
      let Lz2over2 := Lz ^ 2 / 2 in
      obind (rl fuel p Lz t) (fun RLz =>
        let g R := Phi R 0 phi t + Lz2over2 / R ^ 2 - E in
        if Rlt_dec 0 (g RLz) then Ret (NaN, NaN)
        else obind (downLoop fuel g (/ 10 ^ 8) RLz) (fun Rstart =>
               obind (of_brentq (brentq (fun R => Val (g R)) Rstart RLz)) (fun Rmin =>
                 obind (upLoop fuel g 1000 RLz) (fun Rstart =>
                   obind (of_brentq (brentq (fun R => Val (g R)) RLz Rstart)) (fun Rmax => Ret (Val Rmin, Val Rmax))))))
    end.
  (** rhalf 4504-4548; [mass] is the enclosed mass at that time, [tot] its value at INF *)
  Definition rhalffunc (mass : RR -> RR) (tot rh : RR) : num := nbind (ndiv (mass rh) tot) (fun x => Val (x - / 2)).
  Definition rhalf (fuel : nat) (mass : RR -> RR) (tot : RR) : out RR :=
    obind (findStart fuel 1 (rhalffunc mass tot) false) (fun rhi =>
      obind (findStart fuel 1 (rhalffunc mass tot) true) (fun rlo => of_brentq (brentq (rhalffunc mass tot) rlo rhi))).

  (** ** actionAngleSpherical *)
  (** _rapRperiAxiEq 845-847; [Phi] is the potential in the plane *)
  Definition rapRperiAxiEq (Phi : RR -> RR) (E L R : RR) : RR := E - Phi R - L ^ 2 / 2 / R ^ 2.
  (** _rapRperiAxiFindStart 850-891 *)
  Fixpoint rapLoop (fuel : nat) (f : RR -> RR) (rap : bool) (startsign rtry : RR) : out RR :=
    match fuel with
    | O => Loop
    | S n => if Rlt_dec 0 (startsign * f rtry)
             then if Rlt_dec (/ 10 ^ 9) rtry
                  then if rap then (if Rlt_dec 100 rtry then UnboundErr else rapLoop n f rap startsign (rtry * 2))
                       else rapLoop n f rap startsign (rtry / 2)
                  else Ret rtry
             else Ret rtry
    end.
  Definition rapFindStart (fuel : nat) (f : RR -> RR) (R : RR) (rap : bool) (startsign : RR) : out RR :=
    obind (rapLoop fuel f rap startsign (if rap then 2 * R else R / 2)) (fun rtry => Ret (if Rlt_dec rtry (/ 10 ^ 9) then 0 else rtry)).
  (** _calc_rperi_rap 478-535, with gamma = 0 (startsign = 1); [vc] is the circular velocity *)
  Definition calc_rperi_rap (fuel : nat) (Phi vc : RR -> RR) (r vr vt E L : RR) : out (RR * RR) :=
    let f := rapRperiAxiEq Phi E L in
    let fv R := Val (f R) in
    let circular := if Req_EM_T vr 0 then (if Rlt_dec (Rabs (vt - vc r)) (/ 10 ^ 15) then true else false) else false in
    let atperi := if Req_EM_T vr 0 then (if Rlt_dec (vc r) vt then true else false) else false in
    let atap := if Req_EM_T vr 0 then (if Rlt_dec vt (vc r) then true else false) else false in
    if circular then Ret (r, r)
    else if atperi then
      obind (rapFindStart fuel f r true 1) (fun rend =>
        obind (of_brentq (brentq fv (r + / 10 ^ 5) rend)) (fun rap => Ret (r, rap)))
    else if atap then
      obind (rapFindStart fuel f r false 1) (fun rstart =>
        if Req_EM_T rstart 0 then Ret (0, r)
        else obind (of_brentq (brentq fv rstart (r - / 10 ^ 6))) (fun rperi => Ret (rperi, r)))
    else
      obind (rapFindStart fuel f r false 1) (fun rstart =>
        obind (if Req_EM_T rstart 0 then Ret 0 else of_brentq (brentq fv rstart r)) (fun rperi =>
          obind (rapFindStart fuel f r true 1) (fun rend =>
            obind (of_brentq (brentq fv r rend)) (fun rap => Ret (rperi, rap))))).

  (** ** actionAngleStaeckel: [f] is the squared momentum as a function of u or v *)
  (** _uminUmaxFindStart 2035-2098: the pair (utry, prevu) *)
  Fixpoint uLoop (fuel : nat) (f : RR -> RR) (umax : bool) (prevu utry : RR) : out (RR * RR) :=
    match fuel with
    | O => Loop
    | S n => if Rle_dec 0 (f utry)
             then if Rlt_dec (/ 10 ^ 9) utry
                  then if umax then (if Rlt_dec 100 utry then UnboundErr else uLoop n f umax utry (utry * (11 / 10)))
                       else uLoop n f umax utry (utry * (9 / 10))
                  else Ret (utry, prevu)
             else Ret (utry, prevu)
    end.
  Definition uFindStart (fuel : nat) (f : RR -> RR) (u : RR) (umax : bool) : out (RR * RR) :=
    obind (uLoop fuel f umax u (u * (if umax then 11 / 10 else 9 / 10))) (fun '(utry, prevu) =>
      Ret (if Rlt_dec utry (/ 10 ^ 9) then (0, prevu) else (utry, prevu))).
  (** calcUminUmax 1050-1252; [pux] is the momentum at [ux] *)
  Definition calcUminUmax (fuel : nat) (f : RR -> RR) (ux pux : RR) : out (RR * RR) :=
    let fv u := Val (f u) in
    let eps := / 10 ^ 8 in
    let turning := if Rlt_dec (Rabs pux) (/ 10 ^ 7) then true else if Rlt_dec (Rabs (f ux)) (/ 10 ^ 10) then true else false in
    if turning then
      let peps := f (ux + eps) in
      let meps := f (ux - eps) in
      let at_umax := if Rlt_dec peps 0 then (if Rlt_dec 0 meps then true else false) else false in
      let at_umin := if Rlt_dec 0 peps then (if Rlt_dec meps 0 then true else false) else false in
      if at_umax then
        obind (uFindStart fuel f ux false) (fun '(rstart, _) =>
          obind (if Req_EM_T rstart 0 then Ret 0 else of_brentq (brentq fv rstart (ux - eps))) (fun umin => Ret (umin, ux)))
      else if at_umin then
        obind (uFindStart fuel f ux true) (fun '(rend, _) => obind (of_brentq (brentq fv (ux + eps) rend)) (fun umax => Ret (ux, umax)))
      else Ret (ux, ux)
    else
      obind (uFindStart fuel f ux false) (fun '(rstart, prevr) =>
        obind (if Req_EM_T rstart 0 then Ret 0
               else of_brentq (brentq fv rstart (if Rlt_dec (Rabs (prevr - ux)) (/ 100) then ux else prevr))) (fun umin =>
          obind (uFindStart fuel f ux true) (fun '(rend, prevr) =>
            obind (of_brentq (brentq fv prevr rend)) (fun umax => Ret (umin, umax))))).
  (** _vminFindStart 2101-2150, calcVmin 1254-1344 *)
  Fixpoint vLoop (fuel : nat) (f : RR -> RR) (vtry : RR) : out RR :=
    match fuel with
    | O => Loop
    | S n => if Rle_dec 0 (f vtry) then (if Rlt_dec (/ 10 ^ 9) vtry then vLoop n f (vtry * (9 / 10)) else Ret vtry) else Ret vtry
    end.
  Definition vFindStart (fuel : nat) (f : RR -> RR) (v : RR) : out RR :=
    obind (vLoop fuel f (9 / 10 * v)) (fun vtry => Ret (if Rlt_dec vtry (/ 10 ^ 9) then 0 else vtry)).
  Definition calcVmin (fuel : nat) (f : RR -> RR) (vx pvx : RR) : out RR :=
    let eps := / 10 ^ 8 in
    if Rlt_dec (Rabs pvx) (/ 10 ^ 7) then
      let at_vmax := if Rlt_dec (f (vx + eps)) 0 then (if Rlt_dec 0 (f (vx - eps)) then true else false) else false in
      if at_vmax then OtherErr else Ret vx
    else obind (vFindStart fuel f vx) (fun rstart =>
           if Req_EM_T rstart 0 then Ret 0 else of_brentq (brentq (fun v => Val (f v)) rstart (rstart / (9 / 10)))).
End Brentq.
