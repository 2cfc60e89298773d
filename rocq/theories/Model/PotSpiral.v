(** Model of galpy/potential/SpiralArmsPotential.py.  Scalar arguments: the array branch of
    each method only repeats the constants so that the same expression is evaluated for each
    element (e.g. 120-155).  Decimal literals are written as exact fractions; [x ** y] with a
    real exponent and positive base is [rpow]. *)
From Coq Require Import Reals List.
From Verif.Lib Require Import RealAux.
From Verif.Model Require Import PotAPI.
Import ListNotations.
Open Scope R_scope.
Notation RR := RbaseSymbolsImpl.R (only parsing).

(** The constructor arguments, after unit parsing. SpiralArmsPotential.py 40-97. *)
Record Spiral := mkSpiral {
  a_N : RR; a_alpha : RR; a_rref : RR; a_phiref : RR; a_Rs : RR; a_H : RR;
  a_omega : RR; a_Cs : list RR }.

(** numpy.sum(..., axis=0) over the harmonics. *)
Definition hsum (l : list (RR * RR)) (f : RR -> RR -> RR) : RR :=
  fold_right (fun h acc => f (fst h) (snd h) + acc) 0 l.

Section SpiralArms.
  Variable s : Spiral.
  Definition sN : RR := - a_N s.                                    (* 98 *)
  Definition salpha : RR := - a_alpha s.                            (* 99 *)
  Definition sina : RR := sin (- a_alpha s).                        (* 100 *)
  Definition tana : RR := tan (- a_alpha s).                        (* 101 *)
  (* 106-107: pairs (n, C_n), n = 1 .. len(Cs) *)
  Definition harmonics : list (RR * RR) :=
    combine (map INR (seq 1 (length (a_Cs s)))) (a_Cs s).
  Definition srho0 : RR := 1 / (4 * PI).                            (* 109 *)
  Definition HNn (n : RR) : RR := a_H s * sN * n.                   (* 110 *)

  Definition sgamma (R phi : RR) : RR :=                            (* 1019-1023 *)
    sN * (phi - a_phiref s - ln (R / a_rref s) / tana).
  Definition dgamma_dR (R : RR) : RR := - sN / R / tana.            (* 1025-1027 *)
  Definition sK (n R : RR) : RR := n * sN / R / sina.               (* 1029-1031 *)
  Definition dK_dR (n R : RR) : RR := - n * sN / R ^ 2 / sina.      (* 1033-1035 *)
  Definition sB (n R : RR) : RR :=                                  (* 1037-1041 *)
    let HNn_R := HNn n / R in
    HNn_R / sina * (4 / 10 * HNn_R / sina + 1).
  Definition dB_dR (n R : RR) : RR :=                               (* 1043-1050 *)
    - HNn n / R ^ 3 / sina ^ 2 * (8 / 10 * HNn n + R * sina).
  Definition sD (n R : RR) : RR :=                                  (* 1052-1056 *)
    (3 / 10 * HNn n ^ 2 / sina / R + HNn n + R * sina) / (3 / 10 * HNn n + R * sina).
  Definition dD_dR (n R : RR) : RR :=                               (* 1058-1068 *)
    let h := HNn n / R / sina in
    h * (3 / 10 * (h + 3 / 10 * h ^ 2 + 1) / R / (3 / 10 * h + 1) ^ 2
         - (1 / R * (1 + 6 / 10 * h) / (3 / 10 * h + 1))).

  Definition sp_ev : F4 := fun R z phi t =>                         (* 157-172 *)
    - a_H s * exp (- (R - a_rref s) / a_Rs s)
    * hsum harmonics (fun n C =>
        C / sK n R / sD n R * cos (n * sgamma R (phi - a_omega s * t))
        / rpow (cosh (sK n R * z / sB n R)) (sB n R)).

  Definition sp_Rf : F4 := fun R z phi t =>                         (* 212-249 *)
    let He := a_H s * exp (- (R - a_rref s) / a_Rs s) in
    - He * hsum harmonics (fun n C =>
      let K := sK n R in let B := sB n R in let D := sD n R in
      let dK := dK_dR n R in let dB := dB_dR n R in let dD := dD_dR n R in
      let g := sgamma R (phi - a_omega s * t) in
      let dg := dgamma_dR R in
      let cos_ng := cos (n * g) in let sin_ng := sin (n * g) in
      let zKB := z * K / B in
      let sechzKB := 1 / cosh zKB in
      C * rpow sechzKB B / D
      * ((n * dg / K * sin_ng
          + cos_ng * (z * tanh zKB * (dK / K - dB / B) - dB / K * ln sechzKB
                      + dK / K ^ 2 + dD / D / K))
         + cos_ng / K / a_Rs s)).

  Definition sp_zf : F4 := fun R z phi t =>                         (* 289-305 *)
    - a_H s * exp (- (R - a_rref s) / a_Rs s)
    * hsum harmonics (fun n C =>
        let zK_B := z * sK n R / sB n R in
        C / sD n R * cos (n * sgamma R (phi - a_omega s * t)) * tanh zK_B
        / rpow (cosh zK_B) (sB n R)).

  Definition sp_pt : F4 := fun R z phi t =>                         (* 345-363 *)
    let g := sgamma R (phi - a_omega s * t) in
    - a_H s * exp (- (R - a_rref s) / a_Rs s)
    * hsum harmonics (fun n C =>
        sN * n * C / sD n R / sK n R / rpow (cosh (z * sK n R / sB n R)) (sB n R)
        * sin (n * g)).

  Definition sp_R2 : F4 := fun R z phi t =>                         (* 403-580 *)
    let Rs := a_Rs s in
    let He := a_H s * exp (- (R - a_rref s) / a_Rs s) in
    let g := sgamma R (phi - a_omega s * t) in
    let dg := dgamma_dR R in
    let d2g := sN / R ^ 2 / tana in
    let R_sina := R * sina in
    - He / Rs * hsum harmonics (fun n C =>
      let K := sK n R in let B := sB n R in let D := sD n R in
      let dK := dK_dR n R in let dB := dB_dR n R in let dD := dD_dR n R in
      let h := HNn n / R_sina in
      let h2 := h ^ 2 in
      let x := R * (3 / 10 * h + 1) * sina in
      let d2K := 2 * sN * n / R ^ 3 / sina in
      let d2B := h / R ^ 2 * (24 / 10 * h + 2) in
      let d2D := sina / R / x *
        (HNn n * (18 / 100 * HNn n * (h + 3 / 10 * h2 + 1) / x ^ 2 + 2 / R_sina
                  - 6 / 10 * h * (1 + 6 / 10 * h) / x
                  - 6 / 10 * (h + 3 / 10 * h2 + 1) / x
                  + 18 / 10 * HNn n / R_sina ^ 2)) in
      let sin_ng := sin (n * g) in let cos_ng := cos (n * g) in
      let zKB := z * K / B in
      let sechzKB := 1 / cosh zKB in
      let sechzKB_Bs := rpow sechzKB B in
      let log_sech := ln sechzKB in
      let tanhzKB := tanh zKB in
      let zt := z * tanhzKB in
      C * sechzKB_Bs / D
      * ((n * dg / K * sin_ng
          + cos_ng * (zt * (dK / K - dB / B) - dB / K * log_sech + dK / K ^ 2 + dD / D / K))
         - (Rs * (1 / K * ((zt * (dB / B * K - dK) + log_sech * dB) - dD / D)
                    * (n * dg * sin_ng
                       + cos_ng * (zt * K * (dK / K - dB / B) - dB * log_sech
                                   + dK / K + dD / D))
                  + (n * (sin_ng * (d2g / K - dg / K ^ 2 * dK) + dg ^ 2 / K * cos_ng * n)
                     + z * (- sin_ng * n * dg * tanhzKB * (dK / K - dB / B)
                            + cos_ng * (z * (dK / B - dB / B ^ 2 * K) * (1 - tanhzKB ^ 2)
                                          * (dK / K - dB / B)
                                        + tanhzKB * (d2K / K - (dK / K) ^ 2 - d2B / B
                                                     + (dB / B) ^ 2)))
                     + (cos_ng * (dB / K * zt * (dK / B - dB / B ^ 2 * K)
                                  - (d2B / K - dB * dK / K ^ 2) * log_sech)
                        + dB / K * log_sech * sin_ng * n * dg)
                     + ((cos_ng * (d2K / K ^ 2 - 2 * dK ^ 2 / K ^ 3)
                         - dK / K ^ 2 * sin_ng * n * dg)
                        + (cos_ng * (d2D / D / K - (dD / D) ^ 2 / K - dD / D / K ^ 2 * dK)
                           - sin_ng * n * dg * dD / D / K))))
            - 1 / K * (cos_ng / Rs
                       + (cos_ng * ((dD * K + D * dK) / (D * K)
                                    - (zt * (dB / B * K - dK) + log_sech * dB))
                          + sin_ng * n * dg))))).

  Definition sp_z2 : F4 := fun R z phi t =>                         (* 621-640 *)
    let g := sgamma R (phi - a_omega s * t) in
    - a_H s * exp (- (R - a_rref s) / a_Rs s)
    * hsum harmonics (fun n C =>
        let K := sK n R in let B := sB n R in let D := sD n R in
        let zKB := z * K / B in
        let tanh2_zKB := tanh zKB ^ 2 in
        C * K / D * ((tanh2_zKB - 1) / B + tanh2_zKB) * cos (n * g) / rpow (cosh zKB) B).

  Definition sp_p2 : F4 := fun R z phi t =>                         (* 680-698 *)
    let g := sgamma R (phi - a_omega s * t) in
    a_H s * exp (- (R - a_rref s) / a_Rs s)
    * hsum harmonics (fun n C =>
        C * sN ^ 2 * n ^ 2 / sD n R / sK n R
        / rpow (cosh (z * sK n R / sB n R)) (sB n R) * cos (n * g)).

  Definition sp_Rz : F4 := fun R z phi t =>                         (* 738-789 *)
    let Rs := a_Rs s in
    let He := a_H s * exp (- (R - a_rref s) / a_Rs s) in
    let g := sgamma R (phi - a_omega s * t) in
    let dg := dgamma_dR R in
    - He * hsum harmonics (fun n C =>
      let K := sK n R in let B := sB n R in let D := sD n R in
      let dK := dK_dR n R in let dB := dB_dR n R in let dD := dD_dR n R in
      let cos_ng := cos (n * g) in let sin_ng := sin (n * g) in
      let zKB := z * K / B in
      let sechzKB := 1 / cosh zKB in
      let sechzKB_Bs := rpow sechzKB B in
      let log_sech := ln sechzKB in
      let tanhzKB := tanh zKB in
      sechzKB_Bs * C / D
      * (K * tanhzKB
           * (n * dg / K * sin_ng
              + cos_ng * (z * tanhzKB * (dK / K - dB / B) - dB / K * log_sech
                          + dK / K ^ 2 + dD / D / K))
         - cos_ng * ((zKB * (dK / K - dB / B) * (1 - tanhzKB ^ 2)
                      + tanhzKB * (dK / K - dB / B) + dB / B * tanhzKB)
                     - tanhzKB / Rs))).

  Definition sp_Rp : F4 := fun R z phi t =>                         (* 829-870 *)
    let He := a_H s * exp (- (R - a_rref s) / a_Rs s) in
    let g := sgamma R (phi - a_omega s * t) in
    let dg := dgamma_dR R in
    - He * hsum harmonics (fun n C =>
      let K := sK n R in let B := sB n R in let D := sD n R in
      let dK := dK_dR n R in let dB := dB_dR n R in let dD := dD_dR n R in
      let cos_ng := cos (n * g) in let sin_ng := sin (n * g) in
      let zKB := z * K / B in
      let sechzKB := 1 / cosh zKB in
      let sechzKB_Bs := rpow sechzKB B in
      C * sechzKB_Bs / D * n * sN
      * (- n * dg / K * cos_ng
         + sin_ng * (z * tanh zKB * (dK / K - dB / B)
                     + 1 / K * (- dB * ln sechzKB + dK / K + dD / D + 1 / a_Rs s)))).

  Definition sp_pz : F4 := fun R z phi t =>                         (* 910-928 *)
    - a_H s * exp (- (R - a_rref s) / a_Rs s)
    * hsum harmonics (fun n C =>
        let zK_B := z * sK n R / sB n R in
        C / sD n R * n * sN * sin (n * sgamma R (phi - a_omega s * t)) * tanh zK_B
        / rpow (cosh zK_B) (sB n R)).

  (** 990-1000, with the bracket of line 995 raised to the power [k]: the code has [k = 1]. *)
  Definition sp_E (n R zKB : RR) : RR :=                            (* 981-987 *)
    let KH := sK n R * a_H s in
    let log_sech := ln (1 / cosh zKB) in
    1 + KH / sD n R * (1 - 3 / 10 / (1 + 3 / 10 * KH) ^ 2) - R / a_Rs s
    - KH * (1 + 8 / 10 * KH) * log_sech - 4 / 10 * KH ^ 2 * zKB * tanh zKB.
  Definition sp_rE (k : nat) (n R zKB : RR) : RR :=                 (* 990-1000 *)
    let KH := sK n R * a_H s in
    let sech := 1 / cosh zKB in
    let log_sech := ln sech in
    - KH / sD n R * (1 - 3 / 10 * (1 - 3 / 10 * KH) / (1 + 3 / 10 * KH) ^ 3)
    + (KH / sD n R * (1 - 3 / 10 / (1 + 3 / 10 * KH) ^ 2)) ^ k
    - R / a_Rs s
    + KH * (1 + 16 / 10 * KH) * log_sech
    - (4 / 10 * KH ^ 2 * zKB * sech) ^ 2 / sB n R
    + 12 / 10 * KH ^ 2 * zKB * tanh zKB.
  Definition sp_dens_with (k : nat) : F4 := fun R z phi t =>        (* 968-1014 *)
    let g := sgamma R (phi - a_omega s * t) in
    hsum harmonics (fun n C =>
      let K := sK n R in let B := sB n R in let D := sD n R in
      let ng := n * g in
      let zKB := z * K / B in
      let sech := 1 / cosh zKB in
      C * srho0 * (a_H s / (D * R)) * exp (- (R - a_rref s) / a_Rs s) * rpow sech B
      * (cos ng * (K * R * (B + 1) / B * sech ^ 2
                   - 1 / K / R * (sp_E n R zKB ^ 2 + sp_rE k n R zKB))
         - 2 * sin ng * sp_E n R zKB * cos salpha)).
  Definition sp_dens : F4 := sp_dens_with 1.

  Definition SpiralArms : PotC :=                                   (* 11-1068 *)
    mkPotC true sp_ev sp_Rf sp_zf (Some sp_pt) (Some sp_R2) (Some sp_z2) (Some sp_Rz)
      (Some sp_p2) (Some sp_Rp) (Some sp_pz) (Some sp_dens).
  (** The same object with line 995 squared; not in the code. *)
  Definition SpiralArms_squared : PotC :=
    mkPotC true sp_ev sp_Rf sp_zf (Some sp_pt) (Some sp_R2) (Some sp_z2) (Some sp_Rz)
      (Some sp_p2) (Some sp_Rp) (Some sp_pz) (Some (sp_dens_with 2)).
End SpiralArms.
