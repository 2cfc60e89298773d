(** Disk potentials by the technique of Kuijken & Dubinski: galpy/potential/KuijkenDubinskiDiskExpansionPotential.py (the base of DiskSCFPotential and DiskMultipoleExpansionPotential) and
    galpy/potential/potential_c_ext/DiskSCFPotential.c.  The expansion self._me of what is left of the density (SCFPotential or MultipoleExpansionPotential) is any potential.
    Numbers are exact reals; logsumexp is the logarithm of the sum of the exponentials; integrate.quad is the Riemann integral.
    Not modelled: lists that mix dictionaries with functions, functions given without their amplitude or derivatives, the flags hasC_dxdv. *)
From Coq Require Import Reals String List Bool.
From Coquelicot Require Import Coquelicot.
From Verif.Model Require Import PotAPI Mass CSerial.
Import ListNotations.
Open Scope R_scope.
Notation RR := RbaseSymbolsImpl.R (only parsing).

(** ** The profiles given as dictionaries *)
Record SDict := { sd_type : option string; sd_h : option RR; sd_amp : option RR; sd_Rhole : option RR }.
Record HDict := { hd_type : option string; hd_h : option RR }.
(** dict.get *)
Definition get {A : Type} (o : option A) (d : A) : A := match o with Some x => x | None => d end.
Definition has {A : Type} (o : option A) : bool := match o with Some _ => true | None => false end.
Definition sgn (z : RR) : RR := if Rlt_dec z 0 then -1 else if Rlt_dec 0 z then 1 else 0.
Definition logsumexp (l : list RR) : RR := ln (fold_right (fun x y => exp x + y) 0 l).

(** 145-165 the triple of functions Sigma, dSigmadR, d2SigmadR2 with the amplitude; None: the variables ta, ts, tds, td2s are not bound *)
Record SFun := { s_amp : RR; s_f : RR -> RR; s_d : RR -> RR; s_d2 : RR -> RR }.
Definition Sigma_dict_indiv (d : SDict) : option SFun :=
  let stype := get (sd_type d) "exp"%string in
  if String.eqb stype "exp" && negb (has (sd_Rhole d)) then
    let rd := get (sd_h d) (1 / 3) in
    Some {| s_amp := get (sd_amp d) 1; s_f := fun R => exp (- R / rd); s_d := fun R => - exp (- R / rd) / rd; s_d2 := fun R => exp (- R / rd) / rd ^ 2 |}
  else if String.eqb stype "expwhole" || (String.eqb stype "exp" && has (sd_Rhole d)) then
    let rd := get (sd_h d) (1 / 3) in let rm := get (sd_Rhole d) (1 / 2) in
    Some {| s_amp := get (sd_amp d) 1; s_f := fun R => exp (- rm / R - R / rd); s_d := fun R => (rm / R ^ 2 - 1 / rd) * exp (- rm / R - R / rd);
            s_d2 := fun R => ((rm / R ^ 2 - 1 / rd) ^ 2 - 2 * rm / R ^ 3) * exp (- rm / R - R / rd) |}
  else None.
(** 209-244 the functions hz, Hz, dHzdz *)
Record HFun := { h_f : RR -> RR; h_H : RR -> RR; h_d : RR -> RR }.
Definition hz_dict_indiv (d : HDict) : option HFun :=
  let htype := get (hd_type d) "exp"%string in
  if String.eqb htype "exp" then
    let zd := get (hd_h d) (375 / 10000) in
    Some {| h_f := fun z => 1 / 2 / zd * exp (- Rabs z / zd); h_H := fun z => (exp (- Rabs z / zd) - 1 + Rabs z / zd) * zd / 2; h_d := fun z => 1 / 2 * sgn z * (1 - exp (- Rabs z / zd)) |}
  else if String.eqb htype "sech2" then
    let zd := get (hd_h d) (375 / 10000) in
    Some {| h_f := fun z => exp (- logsumexp [z / zd; - z / zd; ln 2 * 1]) / zd; h_H := fun z => zd * (logsumexp [z / 2 / zd; - z / 2 / zd] - ln 2); h_d := fun z => tanh (z / 2 / zd) / 2 |}
  else None.

(** ** The constructor *)
(** what the arguments Sigma, Sigma_amp, dSigmadR and d2SigmadR2 can be: a dictionary, a list of them, a function with its amplitude and derivatives, lists of these *)
Inductive SArg := SDicts1 (d : SDict) | SDictsL (l : list SDict) | SFun1 (f : SFun) | SFunL (amp : list RR) (s ds d2s : list (RR -> RR)).
Inductive HArg := HDicts1 (d : HDict) | HDictsL (l : list HDict) | HFun1 (f : HFun) | HFunL (h H dH : list (RR -> RR)).
(** the attributes _Sigma_amp, _Sigma, _dSigmadR, _d2SigmadR2, _hz, _Hz, _dHzdz, _Sigma_dict and _hz_dict *)
Record Lists := { l_amp : list RR; l_s : list (RR -> RR); l_ds : list (RR -> RR); l_d2s : list (RR -> RR); l_h : list (RR -> RR); l_H : list (RR -> RR); l_dH : list (RR -> RR);
  l_Sdict : option (list SDict); l_hdict : option (list HDict) }.
Inductive Err := EUnbound | EValue | EIndex.
Inductive Res (A : Type) := Ok (a : A) | Raise (e : Err).
Arguments Ok {A} a. Arguments Raise {A} e.

(** 131-143, 197-207 the loops over the dictionaries *)
Fixpoint all_dicts {A B : Type} (f : A -> option B) (l : list A) : Res (list B) := match l with
  | [] => Ok []
  | d :: r => match f d with None => Raise EUnbound | Some x => match all_dicts f r with Ok xs => Ok (x :: xs) | Raise e => Raise e end end
  end.
(** 108-129 _parse_Sigma; Sigma[0] fails on an empty list *)
Definition parse_Sigma (a : SArg) : Res (list RR * list (RR -> RR) * list (RR -> RR) * list (RR -> RR) * option (list SDict) * nat) :=
  let dicts l := match l with
    | [] => Raise EIndex
    | _ => match all_dicts Sigma_dict_indiv l with Ok fs => Ok (List.map s_amp fs, List.map s_f fs, List.map s_d fs, List.map s_d2 fs, Some l, length l) | Raise e => Raise e end end in
  match a with
  | SDicts1 d => dicts [d]
  | SDictsL l => dicts l
  | SFun1 f => Ok ([s_amp f], [s_f f], [s_d f], [s_d2 f], None, 1%nat)
  | SFunL amp s ds d2s => match s with [] => Raise EIndex | _ => Ok (amp, s, ds, d2s, None, length s) end
  end.
(** 167-195 _parse_hz: as many as there are Sigma, or one for all *)
Definition parse_hz (nsigma : nat) (a : HArg) : Res (list (RR -> RR) * list (RR -> RR) * list (RR -> RR) * option (list HDict)) :=
  let many := (Nat.ltb 1 nsigma) in
  let dicts l := if negb (Nat.eqb (length l) nsigma) && negb (Nat.eqb (length l) 1) then Raise EValue else
    match (match l with x :: _ => if Nat.eqb (length l) 1 && many then repeat x nsigma else l | [] => l end) with
    | [] => Raise EIndex
    | l' => match all_dicts hz_dict_indiv l' with Ok fs => Ok (List.map h_f fs, List.map h_H fs, List.map h_d fs, Some l') | Raise e => Raise e end end in
  let funs h H dH := if negb (Nat.eqb (length h) nsigma) && negb (Nat.eqb (length h) 1) then Raise EValue else
    if Nat.eqb (length h) 1 && many then match h, H, dH with x :: _, y :: _, w :: _ => Ok (repeat x nsigma, repeat y nsigma, repeat w nsigma, None) | _, _, _ => Raise EIndex end
    else match h with [] => Raise EIndex | _ => Ok (h, H, dH, None) end in
  match a with
  | HDicts1 d => dicts [d]
  | HDictsL l => dicts l
  | HFun1 f => funs [h_f f] [h_H f] [h_d f]
  | HFunL h H dH => funs h H dH
  end.
(** 34-52 *)
Definition KD_parse (s : SArg) (h : HArg) : Res Lists := match parse_Sigma s with
  | Raise e => Raise e
  | Ok (amp, ss, ds, d2s, sd, n) => match parse_hz n h with
    | Raise e => Raise e
    | Ok (hh, HH, dH, hd) => Ok {| l_amp := amp; l_s := ss; l_ds := ds; l_d2s := d2s; l_h := hh; l_H := HH; l_dH := dH; l_Sdict := sd; l_hdict := hd |}
    end
  end.
(** 89-91 self.hasC *)
Definition KD_hasC (d : Lists) : bool := has (l_Sdict d) && has (l_hdict d).

(** ** The potential *)
Section KD.
  Variable d : Lists.
  Notation zip := combine.
  Definition rad (R z : RR) : RR := sqrt (R ^ 2 + z ^ 2).
  Section Me.
    Variable me : Pot.
    Definition on (o : option F4) (f : F4 -> F4) : option F4 := option_map f o.
    (** 246-251 *)
    Definition KD_ev (m : F4) : F4 := fun R z phi t => let r := rad R z in
      fold_left (fun out '(a, (s, H)) => out + 4 * PI * a * s r * H z) (zip (l_amp d) (zip (l_s d) (l_H d))) (m R z phi t).
    (** 253-258 *)
    Definition KD_Rf (m : F4) : F4 := fun R z phi t => let r := rad R z in
      fold_left (fun out '(a, (ds, H)) => out - 4 * PI * a * ds r * H z * R / r) (zip (l_amp d) (zip (l_ds d) (l_H d))) (m R z phi t).
    (** 260-267 *)
    Definition KD_zf (m : F4) : F4 := fun R z phi t => let r := rad R z in
      fold_left (fun out '(a, (s, (ds, (H, dH)))) => out - 4 * PI * a * (ds r * H z * z / r + s r * dH z)) (zip (l_amp d) (zip (l_s d) (zip (l_ds d) (zip (l_H d) (l_dH d))))) (m R z phi t).
    (** 272-286 *)
    Definition KD_R2 (m : F4) : F4 := fun R z phi t => let r := rad R z in
      fold_left (fun out '(a, (ds, (d2s, H))) => out + 4 * PI * a * H z / r ^ 2 * (d2s r * R ^ 2 + z ^ 2 / r * ds r)) (zip (l_amp d) (zip (l_ds d) (zip (l_d2s d) (l_H d)))) (m R z phi t).
    (** 288-310 *)
    Definition KD_z2 (m : F4) : F4 := fun R z phi t => let r := rad R z in
      fold_left (fun out '(a, (s, (ds, (d2s, (h, (H, dH)))))) => out + 4 * PI * a * (H z / r ^ 2 * (d2s r * z ^ 2 + ds r * R ^ 2 / r) + 2 * ds r * dH z * z / r + s r * h z))
        (zip (l_amp d) (zip (l_s d) (zip (l_ds d) (zip (l_d2s d) (zip (l_h d) (zip (l_H d) (l_dH d))))))) (m R z phi t).
    (** 312-324 *)
    Definition KD_Rz (m : F4) : F4 := fun R z phi t => let r := rad R z in
      fold_left (fun out '(a, (ds, (d2s, (H, dH)))) => out + 4 * PI * a * (H z * R * z / r ^ 2 * (d2s r - ds r / r) + ds r * dH z * R / r))
        (zip (l_amp d) (zip (l_ds d) (zip (l_d2s d) (zip (l_H d) (l_dH d))))) (m R z phi t).
    (** 329-344 *)
    Definition KD_dn (m : F4) : F4 := fun R z phi t => let r := rad R z in
      fold_left (fun out '(a, (s, (ds, (d2s, (h, (H, dH)))))) => out + a * (s r * h z + d2s r * H z + 2 / r * ds r * (H z + z * dH z)))
        (zip (l_amp d) (zip (l_s d) (zip (l_ds d) (zip (l_d2s d) (zip (l_h d) (zip (l_H d) (l_dH d))))))) (m R z phi t).
    (** the class; isNonAxi is set from the number of arguments of the density (50); there is no _Rphideriv and no _phizderiv.  self._me(R, z, phi=phi, t=t) and the others are the public methods of the expansion *)
    Definition KD_class (nonax : bool) : PotC :=
      mkPotC nonax (match apiEv me with Some m => KD_ev m | None => zero4 end) (KD_Rf (apiRf me (0, 0, 0))) (KD_zf (apizf me (0, 0, 0))) (apiPt me (0, 0, 0))
        (on (apiR2 me) KD_R2) (on (apiz2 me) KD_z2) (on (apiRz me) KD_Rz) (apip2 me) None None (on (apiDens me) KD_dn).
    (** 346-364 _mass with z=None, given the mass of the expansion *)
    Definition KD_mass (me_mass : RR) (r : RR) : RR :=
      me_mass + 2 * PI * RInt (fun theta =>
        let tz := r * cos theta in let tR := r * sin theta in
        fold_left (fun out '(a, (s, (ds, (H, dH)))) => out + a * ds r * H tz * tR ^ 2 + a * (ds r * H tz * tz / r + s r * dH tz) * tz * r)
          (zip (l_amp d) (zip (l_s d) (zip (l_ds d) (zip (l_H d) (l_dH d))))) 0 * sin theta) 0 PI.
  End Me.
  (** 367-375 phiME_dens: the density handed to the expansion *)
  Definition phiME_dens (dens : RR -> RR -> RR -> RR) (R z phi : RR) : RR := let r := rad R z in
    fold_left (fun out '(a, (s, (ds, (d2s, (h, (H, dH)))))) => out - a * (s r * h z + d2s r * H z + 2 / r * ds r * (H z + z * dH z)))
      (zip (l_amp d) (zip (l_s d) (zip (l_ds d) (zip (l_d2s d) (zip (l_h d) (zip (l_H d) (l_dH d))))))) (dens R z phi).
End KD.

(** ** What is passed to C, and what C computes from it *)
(** orbit/integratePlanarOrbit.py:_parse_disk_approx_pairs 778-812: the same two cases again; None: nothing is appended for this Sigma or this hz *)
Definition c_sigma (d : SDict) : option sigma_profile :=
  let stype := get (sd_type d) "exp"%string in
  if String.eqb stype "exp" && negb (has (sd_Rhole d)) then Some (SExp (get (sd_amp d) 1) (get (sd_h d) (1 / 3)))
  else if String.eqb stype "expwhole" || (String.eqb stype "exp" && has (sd_Rhole d)) then Some (SExpWHole (get (sd_amp d) 1) (get (sd_h d) (1 / 3)) (get (sd_Rhole d) (1 / 2)))
  else None.
Definition c_hz (d : HDict) : option hz_profile :=
  let htype := get (hd_type d) "exp"%string in
  if String.eqb htype "exp" then Some (HExp (get (hd_h d) (375 / 10000))) else if String.eqb htype "sech2" then Some (HSech2 (get (hd_h d) (375 / 10000))) else None.
(** DiskSCFPotential.c; [args] is what potentialArgs->args points to.  The functions return -1 for other types *)
Definition copysign (x y : RR) : RR := if Rlt_dec y 0 then - Rabs x else Rabs x.
Section C.
  Variable arg : nat -> RR.
  Definition cSigma (R : RR) : RR := match to_int (arg 1%nat) with                                                           (* 36-45 *)
    | 0%nat => arg 2%nat * exp (- R / arg 3%nat) | 1%nat => arg 2%nat * exp (- arg 4%nat / R - R / arg 3%nat) | _ => -1 end.
  Definition cdSigma (R : RR) : RR := match to_int (arg 1%nat) with                                                          (* 46-56 *)
    | 0%nat => - arg 2%nat * exp (- R / arg 3%nat) / arg 3%nat | 1%nat => arg 2%nat * (arg 4%nat / R / R - 1 / arg 3%nat) * exp (- arg 4%nat / R - R / arg 3%nat) | _ => -1 end.
  Definition cd2Sigma (R : RR) : RR := match to_int (arg 1%nat) with                                                         (* 57-70 *)
    | 0%nat => arg 2%nat * exp (- R / arg 3%nat) / arg 3%nat / arg 3%nat
    | 1%nat => arg 2%nat * ((arg 4%nat / R / R - 1 / arg 3%nat) ^ 2 - 2 * arg 4%nat / R / R / R) * exp (- arg 4%nat / R - R / arg 3%nat) | _ => -1 end.
  (** args + 1 + nsigma_args *)
  Definition harg (i : nat) : RR := arg (1 + to_int (arg 0%nat) + i)%nat.
  Definition chz (z : RR) : RR := match to_int (harg 0) with                                                                 (* 71-83 *)
    | 0%nat => 1 / 2 * exp (- Rabs z / harg 1) / harg 1 | 1%nat => 1 / 4 * / cosh (1 / 2 * z / harg 1) ^ 2 / harg 1 | _ => -1 end.
  Definition cHz (z : RR) : RR := let fz := Rabs z in match to_int (harg 0) with                                             (* 84-96 *)
    | 0%nat => 1 / 2 * (exp (- fz / harg 1) - 1 + fz / harg 1) * harg 1 | 1%nat => harg 1 * (ln (1 + exp (- fz / harg 1)) + 1 / 2 * fz / harg 1 - ln 2) | _ => -1 end.
  Definition cdHz (z : RR) : RR := match to_int (harg 0) with                                                                (* 97-108 *)
    | 0%nat => 1 / 2 * copysign (1 - exp (- Rabs z / harg 1)) z | 1%nat => 1 / 2 * tanh (1 / 2 * z / harg 1) | _ => -1 end.
  Definition cD_ev (R Z : RR) : RR := let r := sqrt (R * R + Z * Z) in cSigma r * cHz Z.                                     (* 109-120 *)
  Definition cD_Rforce (R Z : RR) : RR := let r := sqrt (R * R + Z * Z) in - cdSigma r * cHz Z * R / r.                      (* 121-132 *)
  Definition cD_PlanarRforce (R : RR) : RR := - cdSigma R * cHz 0.                                                           (* 133-144 *)
  Definition cD_PlanarR2deriv (R : RR) : RR := cd2Sigma R * cHz 0.                                                           (* 145-157 *)
  Definition cD_zforce (R Z : RR) : RR := let r := sqrt (R * R + Z * Z) in - cdSigma r * cHz Z * Z / r - cSigma r * cdHz Z.  (* 158-170 *)
  Definition cD_R2deriv (R Z : RR) : RR := let r := sqrt (R * R + Z * Z) in let r2 := r * r in let sp := cdSigma r in let spp := cd2Sigma r in
    cHz Z * (spp * R * R / r2 + sp * Z * Z / r2 / r).                                                                        (* 175-187 *)
  Definition cD_z2deriv (R Z : RR) : RR := let r := sqrt (R * R + Z * Z) in let r2 := r * r in let sp := cdSigma r in let spp := cd2Sigma r in
    cHz Z * (spp * Z * Z / r2 + sp * R * R / r2 / r) + 2 * sp * Z / r * cdHz Z + cSigma r * chz Z.                           (* 188-202 *)
  Definition cD_Rzderiv (R Z : RR) : RR := let r := sqrt (R * R + Z * Z) in let r2 := r * r in let sp := cdSigma r in let spp := cd2Sigma r in
    cHz Z * R * Z * (spp / r2 - sp / r2 / r) + sp * R / r * cdHz Z.                                                          (* 203-216 *)
  Definition cD_dens (R Z : RR) : RR := let r := sqrt (R * R + Z * Z) in
    / PI / 4 * (cSigma r * chz Z + cd2Sigma r * cHz Z + 2 / r * cdSigma r * (cHz Z + Z * cdHz Z)).                           (* 217-231 *)
End C.
