(** actionAngle/actionAngleAdiabatic.py and actionAngle/actionAngle_c_ext/actionAngleAdiabatic.c for one object, over exact reals; quadratures are integrals.
    The vertical motion is that of actionAngleVertical in the potential Phi(R, .) - Phi(R, 0) (verticalPotential.py 47-53), the motion in the plane that of actionAngleSpherical in Phi(., 0)
    with the angular momentum |Lz| + gamma Jz.  Turning points are arguments: their search is modelled in Model/Brackets.
    Not modelled: units; the use of the C functions is a choice of the caller. *)
From Coq Require Import Reals List.
From Coquelicot Require Import Coquelicot.
From Verif.Model Require ActionAngle.
From Verif.Model Require Import Spherical.
Import ListNotations.
Open Scope R_scope.
Notation RR := RbaseSymbolsImpl.R (only parsing).

(** ** actionAngleSpherical with _gamma and _Jz, called with z = vz = 0.
    297-315: r = R, vr = vR, vtheta = 0, L = |Lz| *)
Definition pl_L (gamma Jz R vT : RR) : RR := let L := sqrt ((R * vT) * (R * vT)) in if Req_EM_T gamma 0 then L else L + gamma * Jz.
Definition pl_E (pot : RR -> RR) (gamma Jz R vR vT : RR) : RR := let E := pot R + vR ^ 2 / 2 + vT ^ 2 / 2 in let vt := sqrt ((R * vT) * (R * vT)) / R in
  if Req_EM_T gamma 0 then E else E + pl_L gamma Jz R vT ^ 2 / 2 / R ^ 2 - vt ^ 2 / 2.
(** 650-662 and 744-754 at z = 0: z / R / tan(i) and z / r / sin(i) are 0 / 0 when i = arccos(Lz / L) is 0, and 0 otherwise: the float arccos(-1) is not a zero of the sine *)
Definition pl_flat (R vT L : RR) : bool := if Req_EM_T (R * vT / L) 1 then true else false.
Definition pl_asc (phi : RR) (flat : bool) : RR := if flat then phi - phi else phi - 0.
Definition pl_psi (phi : RR) (flat : bool) : RR := ActionAngle.modulo (if flat then phi else 0) (2 * PI).
(** 755-817 *)
Definition pl_wz (pot : RR -> RR) (E L rperi rap Rmean Or Op r vr : RR) : RR :=
  let dpsi := Op / Or * 2 * PI in
  if Rlt_dec r Rmean then
    let wz := if Req_EM_T (sqrt (r - rperi)) 0 then 0 else L * RInt (ISmall pot E L rperi) 0 (sqrt (r - rperi)) in
    if Rlt_dec vr 0 then dpsi - wz else wz
  else
    let wz := if Req_EM_T (sqrt (rap - r)) 0 then 0 else L * RInt (ILarge pot E L rap) 0 (sqrt (rap - r)) in
    if Rlt_dec vr 0 then dpsi / 2 + wz else dpsi / 2 - wz.
(** 297-402; the frequency and angle of the third coordinate are dropped by the caller *)
Record pl5 := mkPl { p_jr : RR; p_lz : RR; p_Or : RR; p_Op : RR; p_ar : RR; p_ap : RR }.
Definition planarAA (pot epi circ : RR -> RR) (gamma Jz rperi rap R vR vT phi : RR) : pl5 :=
  let L := pl_L gamma Jz R vT in let E := pl_E pot gamma Jz R vR vT in
  let flat := pl_flat R vT L in
  let jr := calc_jr pot E L rperi rap in
  let Rmean := Rmean_of rperi rap in
  let Or := if Rlt_dec jr (/ 10 ^ 9) then epi R else calc_or pot E L rperi rap Rmean in
  let Op := if Rlt_dec jr (/ 10 ^ 9) then circ R else calc_op pot E L rperi rap Rmean Or in
  let ar := calc_angler pot E L rperi rap Rmean Or R vR in
  let az := - pl_wz pot E L rperi rap Rmean Or Op R vR + pl_psi phi flat + Op / Or * ar in
  let ap := if Rlt_dec vT 0 then pl_asc phi flat - az else pl_asc phi flat + az in
  mkPl jr (R * vT) Or (if Rlt_dec vT 0 then - Op else Op) (ActionAngle.modulo ar (2 * PI)) (ActionAngle.modulo ap (2 * PI)).

(** ** actionAngleAdiabatic.py; the potential is one in three dimensions, or one in the plane, for which gamma is 0 (70-75) *)
Inductive APot := Pot3 (Phi : RR -> RR -> RR) (nu : RR -> RR) | Pot2 (Phi : RR -> RR).
Definition plane_of (p : APot) : RR -> RR := match p with Pot3 Phi _ => fun R => Phi R 0 | Pot2 Phi => Phi end.
Definition gamma_of (p : APot) (gamma : RR) : RR := match p with Pot3 _ _ => gamma | Pot2 _ => 0 end.
Definition vertical_of (Phi : RR -> RR -> RR) (R z : RR) : RR := Phi R z - Phi R 0.
Section AA.
  Variables (p : APot) (epi circ : RR -> RR) (gamma zmax rperi rap : RR).
  (** 164-186 *)
  Definition ad_Jz (R z vz : RR) : RR := match p with Pot3 Phi _ => v_J (vertical_of Phi R) zmax (v_E (vertical_of Phi R) z vz) | Pot2 _ => 0 end.
  Definition ad_actions (R vR vT z vz : RR) : RR * RR * RR :=
    let Jz := ad_Jz R z vz in let a := planarAA (plane_of p) epi circ (gamma_of p gamma) Jz rperi rap R vR vT 0 in (p_jr a, p_lz a, Jz).
  (** 155-163 _justjr *)
  Definition ad_justjr (R vR vT : RR) : RR := p_jr (planarAA (plane_of p) epi circ (gamma_of p gamma) 0 rperi rap R vR vT 0).
  (** 338-349; a potential in the plane has no method verticalfreq: AttributeError *)
  Definition ad_vertical (R z vz : RR) : option (RR * RR * RR) :=
    match p with
    | Pot3 Phi nu => if Req_EM_T z 0 then (if Req_EM_T vz 0 then Some (0, nu R, 0) else Some (verticalAA (vertical_of Phi R) zmax z vz)) else Some (verticalAA (vertical_of Phi R) zmax z vz)
    | Pot2 _ => None
    end.
  (** 337-363; _actionsFreqs (241-259) returns the first six *)
  Definition ad_all (R vR vT z vz phi : RR) : option aa9 :=
    match ad_vertical R z vz with
    | None => None
    | Some (Jz, Oz, az) => let a := planarAA (plane_of p) epi circ (gamma_of p gamma) Jz rperi rap R vR vT phi in
        Some (mkAA9 (p_jr a) (p_lz a) Jz (p_Or a) (p_Op a) Oz (p_ar a) (p_ap a) az)
    end.
  (** 443-466; [rperi], [rap] are those of the motion in the plane *)
  Definition ad_ecc : RR * RR * RR * RR := let zm := match p with Pot3 _ _ => zmax | Pot2 _ => 0 end in let r := sqrt (rap ^ 2 + zm ^ 2) in ((r - rperi) / (r + rperi), zm, rperi, r).
End AA.
(** The equations the turning points solve: actionAngleVertical.calcxmax finds the zmax with v_E = potential, _calc_rperi_rap the zeros of the squared radial velocity *)
Definition radial2 (pot : RR -> RR) (E L r : RR) : RR := 2 * (E - pot r) - L ^ 2 / r ^ 2.
(** 145-154, 311-336: several objects are treated one by one *)
Definition ad_many {A B : Type} (one : A -> B) (l : list A) : list B := fold_left (fun acc x => acc ++ [one x]) l [].

(** ** actionAngleAdiabatic.c *)
Section C.
  Variables (Phi : RR -> RR -> RR) (gamma : RR).
  (** 71-98 calcEREzL *)
  Definition c_ER (R vR vT : RR) : RR := Phi R 0 + 1 / 2 * vR * vR + 1 / 2 * vT * vT.
  Definition c_vert (R z : RR) : RR := Phi R z - Phi R 0.                                 (* 580-585 *)
  Definition c_Ez (R z vz : RR) : RR := c_vert R z + 1 / 2 * vz * vz.
  (** 241-274 calcJzAdiabatic *)
  Definition c_Fz (R Ez zmax th : RR) : RR := Ez - c_vert R (zmax * sin th).
  Definition cJz (R Ez zmax : RR) : RR :=
    if Req_EM_T zmax (-999999 / 100) then 999999 / 100 else if Rlt_dec zmax (/ 10 ^ 6) then 0
    else RInt (fun th => if Rle_dec (c_Fz R Ez zmax th) 0 then 0 else sqrt (c_Fz R Ez zmax th) * zmax * cos th) 0 (1 / 2 * PI) * 2 * sqrt 2 / PI.
  (** 128-134, 173-179: the planar effective potential adjusted for gamma *)
  Definition c_Leff (jz R vT : RR) : RR := Rabs (R * vT) + gamma * jz.
  Definition c_Eeff (jz R vR vT : RR) : RR := c_ER R vR vT + (1 / 2 * c_Leff jz R vT * c_Leff jz R vT / R / R - 1 / 2 * vT * vT).
  (** 196-234 calcJRAdiabatic *)
  Definition c_FR (ER Lz cc rr th : RR) : RR := let r := cc - rr * cos th in ER - Phi r 0 - 1 / 2 * Lz * Lz / (r * r).
  Definition cJR (rperi rap ER Lz : RR) : RR :=
    if Req_EM_T rperi (-999999 / 100) then 999999 / 100 else if Req_EM_T rap (-999999 / 100) then 999999 / 100 else if Rlt_dec ((rap - rperi) / rap) (/ 10 ^ 6) then 0
    else let cc := 1 / 2 * (rap + rperi) in let rr := 1 / 2 * (rap - rperi) in
      RInt (fun th => if Rle_dec (c_FR ER Lz cc rr th) 0 then 0 else sqrt (c_FR ER Lz cc rr th) * rr * sin th) 0 PI * sqrt 2 / PI.
  (** 143-190 actionAngleAdiabatic_actions *)
  Definition c_actions (zmax rperi rap R vR vT z vz : RR) : RR * RR :=
    let jz := cJz R (c_Ez R z vz) zmax in (cJR rperi rap (c_Eeff jz R vR vT) (c_Leff jz R vT), jz).
End C.
