(** The density of the spiral-arm potential: the Laplacian of the potential is 4 pi times the
    formula of the code with line 995 squared. *)
From Coq Require Import Reals Lra Psatz List.
From Coquelicot Require Import Coquelicot.
From Verif.Lib Require Import RealAux.
From Verif.Model Require Import PotAPI PotSpiral.
From Verif.Spec Require Import PotSpec PotApiSpec SpiralBarSpec.
From Verif.Proofs Require Import PotLift NonAxiProofs EOMProofs StaeckelProofs SpiralProofs SpiralProofs2.
Open Scope R_scope.
Notation RR := RbaseSymbolsImpl.R (only parsing).
Ltac rr := match goal with |- ?a = ?b => change (@eq RR a b) end.

Lemma sech2 (x : RR) : (1 / cosh x) ^ 2 = 1 - tanh x ^ 2.
Proof. pose proof (coshp x). pose proof (ch2 x) as E. unfold tanh. field_simplify; [|lra|lra]. rewrite E. f_equal. ring. Qed.

(** The harmonic identity in plain numbers. *)
Lemma harmonic_poisson (h R H Rs x L T c si ca C P E n z K B D dK dB dD d2K d2B d2D dg d2g N2 se2 : RR) :
  0 < h -> 0 < R -> 0 < H -> Rs <> 0 -> 0 < n -> P <> 0 ->
  K = h / H -> B = h * (4 / 10 * h + 1) -> D = (3 / 10 * h ^ 2 + h + 1) / (3 / 10 * h + 1) ->
  dK = - h / H / R -> dB = - h / R * (8 / 10 * h + 1) ->
  dD = h / R * (3 / 10 * (h + 3 / 10 * h ^ 2 + 1) / (3 / 10 * h + 1) ^ 2 - (1 + 6 / 10 * h) / (3 / 10 * h + 1)) ->
  d2K = 2 * h / H / R ^ 2 -> d2B = h / R ^ 2 * (24 / 10 * h + 2) ->
  d2D = h / R ^ 2 / (3 / 10 * h + 1) * (18 / 100 * h * (h + 3 / 10 * h ^ 2 + 1) / (3 / 10 * h + 1) ^ 2 + 2
          - 6 / 10 * h * (1 + 6 / 10 * h) / (3 / 10 * h + 1) - 6 / 10 * (h + 3 / 10 * h ^ 2 + 1) / (3 / 10 * h + 1) + 18 / 10 * h) ->
  dg = - (h * ca) / (H * n) -> d2g = h * ca / (H * n) / R -> N2 = (h * R / H) ^ 2 * (1 - ca ^ 2) / n ^ 2 -> se2 = 1 - T ^ 2 ->
  z = x * B / K ->
  H * E * (C * / P / D * (n * dg / K * si + c * (z * T * (dK / K - dB / B) - dB / K * L + dK / K ^ 2 + dD / D / K) + c / K / Rs)) * (1 / R)
  + - (H * E) / Rs * (C * / P / D * (n * dg / K * si + c * (z * T * (dK / K - dB / B) - dB / K * L + dK / K ^ 2 + dD / D / K)
      - (Rs * (1 / K * (z * T * (dB / B * K - dK) + L * dB - dD / D) * (n * dg * si + c * (z * T * K * (dK / K - dB / B) - dB * L + dK / K + dD / D))
           + (n * (si * (d2g / K - dg / K ^ 2 * dK) + dg ^ 2 / K * c * n)
              + z * (- si * n * dg * T * (dK / K - dB / B) + c * (z * (dK / B - dB / B ^ 2 * K) * (1 - T ^ 2) * (dK / K - dB / B) + T * (d2K / K - (dK / K) ^ 2 - d2B / B + (dB / B) ^ 2)))
              + (c * (dB / K * (z * T) * (dK / B - dB / B ^ 2 * K) - (d2B / K - dB * dK / K ^ 2) * L) + dB / K * L * si * n * dg)
              + (c * (d2K / K ^ 2 - 2 * dK ^ 2 / K ^ 3) - dK / K ^ 2 * si * n * dg + (c * (d2D / D / K - (dD / D) ^ 2 / K - dD / D / K ^ 2 * dK) - si * n * dg * dD / D / K))))
         - 1 / K * (c / Rs + (c * ((dD * K + D * dK) / (D * K) - (z * T * (dB / B * K - dK) + L * dB)) + si * n * dg))))) * 1
  + H * E * (C * N2 * n ^ 2 / D / K / P * c) * (1 / R ^ 2)
  + - H * E * (C * K / D * ((T ^ 2 - 1) / B + T ^ 2) * c / P)
  = 4 * PI * (C * (1 / (4 * PI)) * (H / (D * R)) * E * / P *
      (c * (K * R * (B + 1) / B * se2 - 1 / K / R * ((1 + K * H / D * (1 - 3 / 10 / (1 + 3 / 10 * (K * H)) ^ 2) - R / Rs - K * H * (1 + 8 / 10 * (K * H)) * L - 4 / 10 * (K * H) ^ 2 * x * T) ^ 2
         + (- (K * H) / D * (1 - 3 / 10 * (1 - 3 / 10 * (K * H)) / (1 + 3 / 10 * (K * H)) ^ 3) + (K * H / D * (1 - 3 / 10 / (1 + 3 / 10 * (K * H)) ^ 2)) ^ 2 - R / Rs
            + K * H * (1 + 16 / 10 * (K * H)) * L - (4 / 10 * (K * H) ^ 2 * x) ^ 2 * se2 / B + 12 / 10 * (K * H) ^ 2 * x * T)))
       - 2 * si * (1 + K * H / D * (1 - 3 / 10 / (1 + 3 / 10 * (K * H)) ^ 2) - R / Rs - K * H * (1 + 8 / 10 * (K * H)) * L - 4 / 10 * (K * H) ^ 2 * x * T) * ca)).
Proof.
  intros Hh HR HH HRs Hn HP -> -> -> -> -> -> -> -> -> -> -> -> -> ->.
  pose proof PI_RGT_0.
  field. repeat split; try lra; try nra.
Qed.

Section Dens.
  Variable s : Spiral.
  Hypothesis Hs : spiral_ok s.

  Lemma spiral_poisson : poisson_alg off_axis (sp_Rf s) (sp_R2 s) (sp_p2 s) (sp_z2 s) (sp_dens_with s 2).
  Proof.
    intros R z phi t HR _. unfold off_axis in HR. unfold sp_Rf, sp_R2, sp_p2, sp_z2, sp_dens_with, srho0. cbv zeta.
    assert (HRs : a_Rs s <> 0) by apply Hs.
    assert (HH : 0 < a_H s) by apply Hs.
    match goal with |- - (- ?a * hsum ?l ?A) / R + - ?b / ?c * hsum ?l ?B + ?d * hsum ?l ?C / R ^ 2 + ?e * hsum ?l ?D = ?k * hsum ?l ?E =>
      transitivity (a * hsum l A * (1 / R) + - b / c * hsum l B * 1 + d * hsum l C * (1 / R ^ 2) + e * hsum l D);
      [rr; field; split; lra|] end.
    apply hsum_eq4. intros n C HI. pose proof (harmonics_pos s _ _ HI) as Hn.
    let e := eval cbv beta delta [d2D] zeta in (d2D s n R) in change e with (d2D s n R).
    let e := eval cbv beta delta [d2B] zeta in (d2B s n R) in change e with (d2B s n R).
    let e := eval cbv beta delta [d2K] zeta in (d2K s n R) in change e with (d2K s n R).
    pose proof (sa_pos s Hs) as Hsa. pose proof (ca_pos s Hs) as Hca. pose proof (q_pos s Hs n Hn) as Hq.
    pose proof (h_pos s Hs n Hn R HR) as Hh. cbv zeta in Hh.
    assert (EN : a_N s = (a_H s * (n * a_N s / sin (a_alpha s)) / R) * R * sin (a_alpha s) / a_H s / n) by (field; repeat split; lra).
    assert (S2 : sin (a_alpha s) ^ 2 = 1 - cos (a_alpha s) ^ 2).
    { pose proof (cv2 (a_alpha s)). lra. }
    rewrite !sech_rpow. unfold sp_E, sp_rE. cbv zeta. rewrite (calpha_eq s). cbv zeta.
    rewrite sech2.
    replace ((4 / 10 * (sK s n R * a_H s) ^ 2 * (z * sK s n R / sB s n R) * (1 / cosh (z * sK s n R / sB s n R))) ^ 2)
      with ((4 / 10 * (sK s n R * a_H s) ^ 2 * (z * sK s n R / sB s n R)) ^ 2 * (1 - tanh (z * sK s n R / sB s n R) ^ 2)) by (rewrite <- sech2; rr; ring).
    pose proof (K_pos s Hs n Hn R HR) as HK. pose proof (B_pos s Hs n Hn R HR) as HB.
    pose proof (rpow_pos (cosh (z * sK s n R / sB s n R)) (sB s n R)) as HP.
    set (hh := a_H s * (n * a_N s / sin (a_alpha s)) / R) in *.
    apply (harmonic_poisson hh R (a_H s) (a_Rs s)); auto; try lra.
    - rewrite (sK_eq s Hs n R HR). cbv zeta. unfold hh. field. repeat split; lra.
    - rewrite (sB_eq s Hs n R HR). reflexivity.
    - rewrite (sD_eq s Hs n Hn R HR). reflexivity.
    - rewrite (dK_eq s Hs n R HR). cbv zeta. unfold hh. field. repeat split; lra.
    - rewrite (dB_eq s Hs n R HR). reflexivity.
    - rewrite (dD_eq s Hs n Hn R HR). reflexivity.
    - unfold d2K. rewrite (sina_eq s). cbv zeta. unfold sN, hh. field. repeat split; lra.
    - unfold d2B, HNn. rewrite (sina_eq s). cbv zeta. unfold sN, hh. field. repeat split; lra.
    - unfold d2D, HNn. rewrite (sina_eq s). cbv zeta. unfold sN.
      replace (a_H s * - a_N s * n) with (- (hh * R * sin (a_alpha s))) by (unfold hh; field; lra).
      clearbody hh. generalize dependent (sin (a_alpha s)). intros sa Hsa. intros.
      replace (- (hh * R * sa) / (R * - sa)) with hh by (field; lra).
      field. repeat split; try lra; nra.
    - unfold dgamma_dR. rewrite (tana_eq s Hs). cbv zeta. unfold sN. rewrite EN. clearbody hh. field. repeat split; try lra.
    - rewrite (tana_eq s Hs). cbv zeta. unfold sN. rewrite EN. clearbody hh. field. repeat split; try lra.
    - unfold sN. rewrite EN, <- S2. clearbody hh. field. repeat split; try lra.
    - clearbody hh. rr. field. split; lra.
  Qed.
End Dens.
