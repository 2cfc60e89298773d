(** actionAngle/actionAngleSpherical.py: actions, frequencies and angles in a spherical potential, for one object and [_gamma] = 0, and
    actionAngle/actionAngleVertical.py: the same for motion in one dimension.  Numbers are exact reals, [integrate.quad],
    [quadpack.quadrature] and [integrate.fixed_quad] are the Riemann integral, and the turning points are arguments (their search is modelled
    in Model/Brackets).  NaN results of a division by zero are tested for where the code tests numpy.isfinite. *)
From Coq Require Import Reals.
From Coquelicot Require Import Coquelicot.
From Verif.Model Require ActionAngle.
Open Scope R_scope.
Notation RR := RbaseSymbolsImpl.R (only parsing).

(** 297-311: r, vr, vtheta, Lz, E and L *)
Record spherical := mkSph { s_r : RR; s_vr : RR; s_vth : RR; s_Lz : RR; s_E : RR; s_L : RR }.
Definition sph_init (pot : RR -> RR) (R vR vT z vz : RR) : spherical :=
  let r := sqrt (R ^ 2 + z ^ 2) in
  let Lz := R * vT in
  let Lx := - z * vT in
  let Ly := z * vR - R * vz in
  let L2 := Lx * Lx + Ly * Ly + Lz * Lz in
  mkSph r ((R * vR + z * vz) / r) ((z * vR - R * vz) / r) Lz (pot r + vR ^ 2 / 2 + vT ^ 2 / 2 + vz ^ 2 / 2) (sqrt L2).

Section Quadratures.
  Variables (pot : RR -> RR) (E L rperi rap : RR).
  (** 820-842 *)
  Definition JrIntegrand (r : RR) : RR := sqrt (2 * (E - pot r) - L ^ 2 / r ^ 2).
  Definition TrSmall (t : RR) : RR := 2 * t / JrIntegrand (rperi + t ^ 2).
  Definition TrLarge (t : RR) : RR := 2 * t / JrIntegrand (rap - t ^ 2).
  Definition ISmall (t : RR) : RR := 2 * t / JrIntegrand (rperi + t ^ 2) / (rperi + t ^ 2) ^ 2.
  Definition ILarge (t : RR) : RR := 2 * t / JrIntegrand (rap - t ^ 2) / (rap - t ^ 2) ^ 2.
  (** 537-561 *)
  Definition calc_jr : RR := RInt JrIntegrand rperi rap / PI.
  (** 330-334 *)
  Definition Rmean_of : RR := if Rlt_dec 0 rperi then exp ((ln rperi + ln rap) / 2) else rap / 2.
  Variable Rmean : RR.
  (** 563-604 *)
  Definition calc_or : RR :=
    let Tr := (if Rlt_dec rperi Rmean then RInt TrSmall 0 (sqrt (Rmean - rperi)) else 0)
              + (if Rlt_dec Rmean rap then RInt TrLarge 0 (sqrt (rap - Rmean)) else 0) in
    2 * PI / (2 * Tr).
  (** 606-648 *)
  Definition calc_op (Or : RR) : RR :=
    let I := (if Rlt_dec rperi Rmean then RInt ISmall 0 (sqrt (Rmean - rperi)) else 0)
             + (if Rlt_dec Rmean rap then RInt ILarge 0 (sqrt (rap - Rmean)) else 0) in
    I * (2 * L) * Or / 2 / PI.
  (** 664-723 *)
  Definition calc_angler (Or r vr : RR) : RR :=
    if Rlt_dec r Rmean then
      let wr := if Rlt_dec rperi r then Or * RInt TrSmall 0 (sqrt (r - rperi)) else 0 in
      if Rlt_dec vr 0 then 2 * PI - wr else wr
    else
      let wr := if Rlt_dec r rap then Or * RInt TrLarge 0 (sqrt (rap - r)) else 0 in
      if Rlt_dec vr 0 then PI + wr else PI - wr.
  (** 725-817; [z], [vtheta], [phi] of the object *)
  Definition clip11 (x : RR) : RR := if Rlt_dec 1 x then 1 else if Rlt_dec x (-1) then -1 else x.
  Definition calc_psi (z r Lz vtheta phi : RR) : RR :=
    let i := acos (Lz / L) in
    let psi := if Req_EM_T (sin i) 0 then phi
               else let psi := asin (clip11 (z / r / sin i)) in if Rlt_dec 0 vtheta then PI - psi else psi in
    ActionAngle.modulo psi (2 * PI).
  Definition calc_anglez (Or Op ar z r Lz vr vtheta phi : RR) : RR :=
    let psi := calc_psi z r Lz vtheta phi in
    let dpsi := Op / Or * 2 * PI in
    let wz :=
      if Rlt_dec r Rmean then
        let wz := if Req_EM_T (sqrt (r - rperi)) 0 then 0 else L * RInt ISmall 0 (sqrt (r - rperi)) in
        if Rlt_dec vr 0 then dpsi - wz else wz
      else
        let wz := if Req_EM_T (sqrt (rap - r)) 0 then 0 else L * RInt ILarge 0 (sqrt (rap - r)) in
        if Rlt_dec vr 0 then dpsi / 2 + wz else dpsi / 2 - wz in
    - wz + psi + Op / Or * ar.
End Quadratures.
(** 650-662 _calc_long_asc: values of sinu beyond 1, by at most 1e-7, and below -1 are moved to 1 and -1 *)
Definition clip_asc (x : RR) : RR :=
  if Rlt_dec 1 x then (if Rlt_dec x (1 + / 10 ^ 7) then 1 else x) else if Rlt_dec x (-1) then -1 else x.
Definition calc_long_asc (z R vtheta phi Lz L : RR) : RR :=
  let i := acos (Lz / L) in
  let u := if Req_EM_T (sin i) 0 then phi
           else let u := asin (clip_asc (z / R * (cos i / sin i))) in if Rlt_dec 0 vtheta then PI - u else u in
  phi - u.

(** 297-402 the results of _actionsFreqsAngles for one object; [epi] and [circ] are epifreq and omegac of the potential *)
Record aa9 := mkAA9 { a_jr : RR; a_lz : RR; a_jz : RR; a_Or : RR; a_Op : RR; a_Oz : RR; a_ar : RR; a_ap : RR; a_az : RR }.
Definition sphericalAA (pot epi circ : RR -> RR) (rperi rap R vR vT z vz phi : RR) : aa9 :=
  let s := sph_init pot R vR vT z vz in
  let E := s_E s in let L := s_L s in let r := s_r s in
  let asc := calc_long_asc z R (s_vth s) phi (s_Lz s) L in
  let jr := calc_jr pot E L rperi rap in
  let Rmean := Rmean_of rperi rap in
  let Or := if Rlt_dec jr (/ 10 ^ 9) then epi r else calc_or pot E L rperi rap Rmean in
  let Op := if Rlt_dec jr (/ 10 ^ 9) then circ r else calc_op pot E L rperi rap Rmean Or in
  let ar := calc_angler pot E L rperi rap Rmean Or r (s_vr s) in
  let az := calc_anglez pot E L rperi rap Rmean Or Op ar z r (s_Lz s) (s_vr s) (s_vth s) phi in
  let ap := if Rlt_dec vT 0 then asc - az else asc + az in
  mkAA9 jr (s_Lz s) (L - Rabs (s_Lz s)) Or (if Rlt_dec vT 0 then - Op else Op) Op
        (ActionAngle.modulo ar (2 * PI)) (ActionAngle.modulo ap (2 * PI)) (ActionAngle.modulo az (2 * PI)).
(** 471-476 _EccZmaxRperiRap *)
Definition sphericalEcc (pot : RR -> RR) (rperi rap R vR vT z vz : RR) : RR * RR * RR * RR :=
  let s := sph_init pot R vR vT z vz in
  ((rap - rperi) / (rap + rperi), rap * sqrt (1 - s_Lz s ^ 2 / (s_L s ^ 2)), rperi, rap).

(** ** actionAngleVertical.py *)
Section Vertical.
  Variables (pot : RR -> RR) (xmax : RR).
  Definition v_E (x vx : RR) : RR := vx ^ 2 / 2 + pot x.
  (** 85-101 *)
  Definition v_J (E : RR) : RR := 2 * RInt (fun xi => sqrt (2 * (E - pot xi))) 0 xmax / PI.
  (** 248-268 *)
  Definition v_Omega (E : RR) : RR := PI / 2 / RInt (fun t => 2 * t / sqrt (2 * (E - pot (xmax - t ^ 2)))) 0 (sqrt xmax).
  (** 213-291; QUADPACK does not evaluate the integrand at the ends, where it is infinite if |x| = xmax: the improper integral *)
  Definition verticalAA (x vx : RR) : RR * RR * RR :=
    let E := v_E x vx in
    let Omega := v_Omega E in
    let angle := RInt_gen (V := R_CompleteNormedModule) (fun xi => 1 / sqrt (2 * (E - pot xi))) (at_point 0) (at_left (Rabs x)) * Omega in
    let angle := if Rlt_dec x 0 then (if Rlt_dec 0 vx then 2 * PI - angle else PI + angle)
                 else if Rlt_dec vx 0 then PI - angle else angle in
    (v_J E, Omega, ActionAngle.modulo angle (2 * PI)).
End Vertical.
