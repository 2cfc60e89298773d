(** Derivatives and density of the softened needle bar. *)
From Coq Require Import Reals Lra Psatz List.
From Coquelicot Require Import Coquelicot.
From Verif.Lib Require Import RealAux.
From Verif.Model Require Import PotAPI PotBars Coords.
From Verif.Spec Require Import PotSpec PotApiSpec SpiralBarSpec.
From Verif.Proofs Require Import PotLift NonAxiProofs EOMProofs StaeckelProofs KuzminKutuzovProofs SpiralProofs.
Open Scope R_scope.
Notation RR := RbaseSymbolsImpl.R (only parsing).
Ltac rr := match goal with |- ?a = ?b => change (@eq RR a b) end.


Section Needle.
  Variable k : NBar.
  Hypothesis Hk : needle_ok k.
  Notation a := (n_a k).
  Notation b := (n_b k).
  Notation c2 := (n_c2 k).
  Definition zc (z : RR) : RR := sqrt (z ^ 2 + c2).
  Definition s2 (y z : RR) : RR := y ^ 2 + (b + zc z) ^ 2.
  Definition Tp (x y z : RR) : RR := sqrt ((a + x) ^ 2 + s2 y z).
  Definition Tm (x y z : RR) : RR := sqrt ((a - x) ^ 2 + s2 y z).
  Definition w (z : RR) : RR := z * (b + zc z) / zc z.
  Definition gG (x y z : RR) : RR := (a - x) / Tm x y z + (a + x) / Tp x y z.
  Definition gH (x y z : RR) : RR := (a - x) / Tm x y z ^ 3 + (a + x) / Tp x y z ^ 3.
  Definition gK (x y z : RR) : RR := 1 / Tm x y z ^ 3 - 1 / Tp x y z ^ 3.
  Definition Phi (x y z : RR) : RR := ln ((x - a + Tm x y z) / (x + a + Tp x y z)) / 2 / a.
  Definition px (x y z : RR) : RR := (1 / Tm x y z - 1 / Tp x y z) / 2 / a.
  Definition py (x y z : RR) : RR := y * gG x y z / 2 / a / s2 y z.
  Definition pz (x y z : RR) : RR := w z * gG x y z / 2 / a / s2 y z.
  Definition pxx (x y z : RR) : RR := gH x y z / 2 / a.
  Definition pxy (x y z : RR) : RR := - y * gK x y z / 2 / a.
  Definition pxz (x y z : RR) : RR := - w z * gK x y z / 2 / a.
  Definition pyy (x y z : RR) : RR := (gG x y z * (s2 y z - 2 * y ^ 2) / s2 y z ^ 2 - y ^ 2 * gH x y z / s2 y z) / 2 / a.
  Definition pyz (x y z : RR) : RR := - y * w z * (2 * gG x y z / s2 y z ^ 2 + gH x y z / s2 y z) / 2 / a.
  Definition pzz (x y z : RR) : RR := ((1 + b * c2 / zc z ^ 3) * gG x y z / s2 y z - w z ^ 2 * (gH x y z / s2 y z + 2 * gG x y z / s2 y z ^ 2)) / 2 / a.

  Lemma ap : 0 < a. Proof. apply Hk. Qed.
  Lemma zc_pos z : 0 < zc z. Proof. destruct Hk as (_ & _ & H). apply sqrt_lt_R0. pose proof (pow2_ge_0 z). lra. Qed.
  Lemma zc_sq z : zc z ^ 2 = z ^ 2 + c2. Proof. destruct Hk as (_ & _ & H). apply pow2_sqrt. pose proof (pow2_ge_0 z). lra. Qed.
  Lemma s2_pos y z : 0 < s2 y z. Proof. destruct Hk as (_ & H & _). pose proof (zc_pos z). assert (P : 0 < b + zc z) by lra. pose proof (pow_lt _ 2 P). pose proof (pow2_ge_0 y). unfold s2. lra. Qed.
  Lemma Tp_pos x y z : 0 < Tp x y z. Proof. pose proof (s2_pos y z). apply sqrt_lt_R0. pose proof (pow2_ge_0 (a + x)). pose proof (pow2_ge_0 (a - x)). lra. Qed.
  Lemma Tm_pos x y z : 0 < Tm x y z. Proof. pose proof (s2_pos y z). apply sqrt_lt_R0. pose proof (pow2_ge_0 (a + x)). pose proof (pow2_ge_0 (a - x)). lra. Qed.
  Lemma Tp_sq x y z : Tp x y z ^ 2 = (a + x) ^ 2 + s2 y z. Proof. pose proof (s2_pos y z). apply pow2_sqrt. pose proof (pow2_ge_0 (a + x)). pose proof (pow2_ge_0 (a - x)). lra. Qed.
  Lemma Tm_sq x y z : Tm x y z ^ 2 = (a - x) ^ 2 + s2 y z. Proof. pose proof (s2_pos y z). apply pow2_sqrt. pose proof (pow2_ge_0 (a + x)). pose proof (pow2_ge_0 (a - x)). lra. Qed.
  Lemma A_pos x y z : 0 < x - a + Tm x y z.
  Proof. pose proof (s2_pos y z). pose proof (Tm_sq x y z). pose proof (Tm_pos x y z). nra. Qed.
  Lemma B_posn x y z : 0 < x + a + Tp x y z.
  Proof. pose proof (s2_pos y z). pose proof (Tp_sq x y z). pose proof (Tp_pos x y z). nra. Qed.

  Section Curve.
    Variables (X Y Z : RR -> RR) (s x' y' z' : RR).
    Hypothesis DX : is_derive X s x'.
    Hypothesis DY : is_derive Y s y'.
    Hypothesis DZ : is_derive Z s z'.
    Let x := X s.
    Let y := Y s.
    Let z := Z s.
    Lemma d_zc : is_derive (fun t => zc (Z t)) s (z * z' / zc z).
    Proof.
      unfold zc. assert (P : 0 < Z s ^ 2 + c2) by (destruct Hk as (_ & _ & H); pose proof (pow2_ge_0 (Z s)); lra).
      refine (is_derive_eq _ _ _ _ (d_sqrt (fun t => Z t ^ 2 + c2) s _ P _) _); [dv|]. cbv beta. cbn [INR pred]. fold z. pose proof (zc_pos z) as H. unfold zc in H. rr. field. lra.
    Qed.
    Lemma d_s2 : is_derive (fun t => s2 (Y t) (Z t)) s (2 * (y * y' + w z * z')).
    Proof.
      unfold s2. pose proof d_zc. refine (is_derive_eq _ _ _ _ _ _); [dv|]. cbv beta. cbn [INR pred]. unfold w. fold y z. pose proof (zc_pos z). rr. field. lra.
    Qed.
    Lemma d_Tp : is_derive (fun t => Tp (X t) (Y t) (Z t)) s (((a + x) * x' + y * y' + w z * z') / Tp x y z).
    Proof.
      unfold Tp. assert (P : 0 < (a + X s) ^ 2 + s2 (Y s) (Z s)) by (pose proof (s2_pos (Y s) (Z s)); pose proof (pow2_ge_0 (a + X s)); pose proof (pow2_ge_0 (a - X s)); lra). pose proof d_s2.
      refine (is_derive_eq _ _ _ _ (d_sqrt (fun t => (a + X t) ^ 2 + s2 (Y t) (Z t)) s _ P _) _); [dv|]. cbv beta. cbn [INR pred]. fold x y z. pose proof (Tp_pos x y z) as H0. unfold Tp in H0. rr. field. lra.
    Qed.
    Lemma d_Tm : is_derive (fun t => Tm (X t) (Y t) (Z t)) s (((x - a) * x' + y * y' + w z * z') / Tm x y z).
    Proof.
      unfold Tm. assert (P : 0 < (a - X s) ^ 2 + s2 (Y s) (Z s)) by (pose proof (s2_pos (Y s) (Z s)); pose proof (pow2_ge_0 (a + X s)); pose proof (pow2_ge_0 (a - X s)); lra). pose proof d_s2.
      refine (is_derive_eq _ _ _ _ (d_sqrt (fun t => (a - X t) ^ 2 + s2 (Y t) (Z t)) s _ P _) _); [dv|]. cbv beta. cbn [INR pred]. fold x y z. pose proof (Tm_pos x y z) as H0. unfold Tm in H0. rr. field. lra.
    Qed.
    Lemma d_gG : is_derive (fun t => gG (X t) (Y t) (Z t)) s (- s2 y z * gK x y z * x' - gH x y z * (y * y' + w z * z')).
    Proof.
      unfold gG. pose proof d_Tp. pose proof d_Tm. pose proof (Tp_pos x y z). pose proof (Tm_pos x y z).
      refine (is_derive_eq _ _ _ _ _ _); [dv; fold x y z; lra|]. cbv beta. fold x y z. unfold gK, gH.
      transitivity (- x' * ((Tm x y z ^ 2 - (a - x) ^ 2) / Tm x y z ^ 3 - (Tp x y z ^ 2 - (a + x) ^ 2) / Tp x y z ^ 3) - ((a - x) / Tm x y z ^ 3 + (a + x) / Tp x y z ^ 3) * (y * y' + w z * z')).
      - rr. field. split; lra.
      - rewrite Tm_sq, Tp_sq. rr. field. split; lra.
    Qed.
    Lemma d_w : is_derive (fun t => w (Z t)) s ((1 + b * c2 / zc z ^ 3) * z').
    Proof.
      unfold w. pose proof d_zc. pose proof (zc_pos z) as P. pose proof (zc_sq z) as Q.
      refine (is_derive_eq _ _ _ _ _ _); [dv; fold z; lra|]. cbv beta. fold z.
      replace (n_c2 k) with (zc z ^ 2 - z ^ 2) by lra. rr. field. lra.
    Qed.
    Lemma d_px : is_derive (fun t => px (X t) (Y t) (Z t)) s (pxx x y z * x' + pxy x y z * y' + pxz x y z * z').
    Proof.
      unfold px. pose proof d_Tp. pose proof d_Tm. pose proof (Tp_pos x y z). pose proof (Tm_pos x y z). pose proof ap.
      refine (is_derive_eq _ _ _ _ _ _); [dv; fold x y z; lra|]. cbv beta. fold x y z. unfold pxx, pxy, pxz, gK, gH. rr. field. repeat split; lra.
    Qed.
    Lemma d_py : is_derive (fun t => py (X t) (Y t) (Z t)) s (pxy x y z * x' + pyy x y z * y' + pyz x y z * z').
    Proof.
      unfold py. pose proof d_gG. pose proof d_s2. pose proof ap. pose proof (s2_pos y z).
      refine (is_derive_eq _ _ _ _ _ _); [dv; fold x y z; lra|]. cbv beta. fold x y z. unfold pxy, pyy, pyz. rr. field. repeat split; lra.
    Qed.
    Lemma d_pz : is_derive (fun t => pz (X t) (Y t) (Z t)) s (pxz x y z * x' + pyz x y z * y' + pzz x y z * z').
    Proof.
      unfold pz. pose proof d_gG. pose proof d_s2. pose proof d_w. pose proof ap. pose proof (s2_pos y z). pose proof (zc_pos z).
      refine (is_derive_eq _ _ _ _ _ _); [dv; fold x y z; lra|]. cbv beta. fold x y z. unfold pxz, pyz, pzz. rr. field. repeat split; lra.
    Qed.
    Lemma d_Phi : is_derive (fun t => Phi (X t) (Y t) (Z t)) s (px x y z * x' + py x y z * y' + pz x y z * z').
    Proof.
      unfold Phi. pose proof d_Tp. pose proof d_Tm. pose proof (Tp_pos x y z) as P1. pose proof (Tm_pos x y z) as P2. pose proof ap as P0.
      pose proof (A_pos x y z) as PA. pose proof (B_posn x y z) as PB. pose proof (s2_pos y z) as PS.
      assert (L : is_derive (fun t => ln ((X t - a + Tm (X t) (Y t) (Z t)) / (X t + a + Tp (X t) (Y t) (Z t)))) s
                ((x' + ((x - a) * x' + y * y' + w z * z') / Tm x y z) / (x - a + Tm x y z) - (x' + ((a + x) * x' + y * y' + w z * z') / Tp x y z) / (x + a + Tp x y z))).
      { assert (Hq : 0 < (x - a + Tm x y z) / (x + a + Tp x y z)) by (apply Rdiv_lt_0_compat; assumption).
        assert (L : is_derive ln ((x - a + Tm x y z) / (x + a + Tp x y z)) (/ ((x - a + Tm x y z) / (x + a + Tp x y z)))).
        { apply is_derive_Reals. apply derivable_pt_lim_ln. exact Hq. }
        refine (is_derive_eq _ _ _ _ (is_derive_Rchain ln (fun t => (X t - a + Tm (X t) (Y t) (Z t)) / (X t + a + Tp (X t) (Y t) (Z t))) s _ _ L _) _).
        - dv. fold x y z. lra.
        - cbv beta. fold x y z. rr. field. repeat split; lra. }
      refine (is_derive_eq _ _ _ _ _ _); [dv; lra|]. cbv beta. unfold px, py, pz, gG.
      assert (EA : / (x - a + Tm x y z) = (Tm x y z - (x - a)) / s2 y z).
      { apply (Rmult_eq_reg_l (x - a + Tm x y z)); [|lra]. rewrite Rinv_r by lra.
        replace ((x - a + Tm x y z) * ((Tm x y z - (x - a)) / s2 y z)) with ((Tm x y z ^ 2 - (a - x) ^ 2) / s2 y z) by (rr; field; lra). rewrite Tm_sq. rr. field. lra. }
      assert (EB : / (x + a + Tp x y z) = (Tp x y z - (x + a)) / s2 y z).
      { apply (Rmult_eq_reg_l (x + a + Tp x y z)); [|lra]. rewrite Rinv_r by lra.
        replace ((x + a + Tp x y z) * ((Tp x y z - (x + a)) / s2 y z)) with ((Tp x y z ^ 2 - (a + x) ^ 2) / s2 y z) by (rr; field; lra). rewrite Tp_sq. rr. field. lra. }
      transitivity ((x' / Tm x y z + (y * y' + w z * z') / Tm x y z * / (x - a + Tm x y z) - (x' / Tp x y z + (y * y' + w z * z') / Tp x y z * / (x + a + Tp x y z))) / 2 / a).
      - rr. field. repeat split; lra.
      - rewrite EA, EB. rr. field. repeat split; lra.
    Qed.
  End Curve.

  (** the code's forces *)
  Lemma xforce_eq x y z : nb_xforce x y z (Tp x y z) (Tm x y z) = - px x y z.
  Proof.
    unfold nb_xforce, px. pose proof (Tp_pos x y z) as P1. pose proof (Tm_pos x y z) as P2. pose proof ap as P0.
    pose proof (Tp_sq x y z). pose proof (Tm_sq x y z).
    replace x with ((Tp x y z ^ 2 - Tm x y z ^ 2) / 4 / a) at 1 by (rewrite Tp_sq, Tm_sq; field; lra).
    field. repeat split; lra.
  Qed.
  Lemma yz_eq x y z : (Tp x y z + Tm x y z - 4 * x ^ 2 / (Tp x y z + Tm x y z)) / Tp x y z / Tm x y z = gG x y z / a.
  Proof.
    unfold gG. pose proof (Tp_pos x y z) as P1. pose proof (Tm_pos x y z) as P2. pose proof ap as P0.
    replace (4 * x ^ 2) with (x * ((Tp x y z ^ 2 - Tm x y z ^ 2) / a)) by (rewrite Tp_sq, Tm_sq; field; lra).
    field. repeat split; lra.
  Qed.
  Lemma yforce_eq x y z : nb_yforce k x y z (Tp x y z) (Tm x y z) = - py x y z.
  Proof.
    unfold nb_yforce, py. change (y ^ 2 + (b + sqrt (z ^ 2 + c2)) ^ 2) with (s2 y z).
    pose proof (Tp_pos x y z) as P1. pose proof (Tm_pos x y z) as P2. pose proof ap as P0. pose proof (s2_pos y z).
    transitivity (- (y / 2 / s2 y z * ((Tp x y z + Tm x y z - 4 * x ^ 2 / (Tp x y z + Tm x y z)) / Tp x y z / Tm x y z))).
    - field. repeat split; lra.
    - rewrite yz_eq. field. split; lra.
  Qed.
  Lemma zforce_eq x y z : nb_zforce k x y z (Tp x y z) (Tm x y z) = - pz x y z.
  Proof.
    unfold nb_zforce, pz. cbv zeta. change (y ^ 2 + (b + sqrt (z ^ 2 + c2)) ^ 2) with (s2 y z). change (sqrt (z ^ 2 + c2)) with (zc z).
    pose proof (Tp_pos x y z) as P1. pose proof (Tm_pos x y z) as P2. pose proof ap as P0. pose proof (s2_pos y z). pose proof (zc_pos z).
    transitivity (- (w z / 2 / s2 y z * ((Tp x y z + Tm x y z - 4 * x ^ 2 / (Tp x y z + Tm x y z)) / Tp x y z / Tm x y z))).
    - unfold w. field. repeat split; lra.
    - rewrite yz_eq. field. split; lra.
  Qed.
  Lemma T_eq x y z : nb_TpTm k x y z = (Tp x y z, Tm x y z).
  Proof. unfold nb_TpTm, Tp, Tm, s2, zc. cbv zeta. rewrite (Rplus_comm c2). reflexivity. Qed.
  Definition phid (phi t : RR) : RR := phi - n_pa k - n_omegab k * t.
  Definition cx (R phi t : RR) : RR := R * cos (phid phi t).
  Definition cy (R phi t : RR) : RR := R * sin (phid phi t).
  Lemma ev_eq R z phi t : nb_ev k R z phi t = Phi (cx R phi t) (cy R phi t) z.
  Proof. unfold nb_ev, nb_xyz, cyl_to_rect. rewrite T_eq. reflexivity. Qed.
  Lemma cd_rot (phi t : RR) : cos (phid phi t) = cos phi * cos (n_pa k + n_omegab k * t) + sin phi * sin (n_pa k + n_omegab k * t).
  Proof. unfold phid. replace (phi - n_pa k - n_omegab k * t) with (phi - (n_pa k + n_omegab k * t)) by ring. apply cos_minus. Qed.
  Lemma sd_rot (phi t : RR) : sin (phid phi t) = sin phi * cos (n_pa k + n_omegab k * t) - cos phi * sin (n_pa k + n_omegab k * t).
  Proof. unfold phid. replace (phi - n_pa k - n_omegab k * t) with (phi - (n_pa k + n_omegab k * t)) by ring. apply sin_minus. Qed.
  Lemma Rf_eq R z phi t : nb_Rf k R z phi t = - (cos (phid phi t) * px (cx R phi t) (cy R phi t) z + sin (phid phi t) * py (cx R phi t) (cy R phi t) z).
  Proof.
    unfold nb_Rf, nb_xyzforces, nb_xyz, cyl_to_rect. rewrite T_eq. cbv beta iota zeta. fold (phid phi t). fold (cx R phi t). fold (cy R phi t).
    rewrite xforce_eq, yforce_eq, cd_rot, sd_rot. ring.
  Qed.
  Lemma pt_eq R z phi t : nb_pt k R z phi t = - (R * (- sin (phid phi t) * px (cx R phi t) (cy R phi t) z + cos (phid phi t) * py (cx R phi t) (cy R phi t) z)).
  Proof.
    unfold nb_pt, nb_xyzforces, nb_xyz, cyl_to_rect. rewrite T_eq. cbv beta iota zeta. fold (phid phi t). fold (cx R phi t). fold (cy R phi t).
    rewrite xforce_eq, yforce_eq, cd_rot, sd_rot. ring.
  Qed.
  Lemma zf_eq R z phi t : nb_zf k R z phi t = - pz (cx R phi t) (cy R phi t) z.
  Proof.
    unfold nb_zf, nb_xyzforces, nb_xyz, cyl_to_rect. rewrite T_eq. cbv beta iota zeta. fold (phid phi t). fold (cx R phi t). fold (cy R phi t).
    apply zforce_eq.
  Qed.
  Lemma hess_eq R z phi t : nb_cylhess k R z phi t =
    let x := cx R phi t in let y := cy R phi t in let cd := cos (phid phi t) in let sd := sin (phid phi t) in
    (cd ^ 2 * pxx x y z + 2 * cd * sd * pxy x y z + sd ^ 2 * pyy x y z,
     R ^ 2 * (sd ^ 2 * pxx x y z - 2 * sd * cd * pxy x y z + cd ^ 2 * pyy x y z) - R * (cd * px x y z + sd * py x y z),
     R * (- sd * cd * pxx x y z + (cd ^ 2 - sd ^ 2) * pxy x y z + sd * cd * pyy x y z) + (- sd * px x y z + cd * py x y z),
     cd * pxz x y z + sd * pyz x y z, pzz x y z, R * (- sd * pxz x y z + cd * pyz x y z)).
  Proof. unfold nb_cylhess. rewrite T_eq. reflexivity. Qed.

  Lemma dRx R phi t : is_derive (fun r => cx r phi t) R (cos (phid phi t)).
  Proof. unfold cx. refine (is_derive_eq _ _ _ _ _ _); [dv|]. cbv beta. rr. ring. Qed.
  Lemma dRy R phi t : is_derive (fun r => cy r phi t) R (sin (phid phi t)).
  Proof. unfold cy. refine (is_derive_eq _ _ _ _ _ _); [dv|]. cbv beta. rr. ring. Qed.
  Lemma dpcos phi t : is_derive (fun p => cos (phid p t)) phi (- sin (phid phi t)).
  Proof. unfold phid. refine (is_derive_eq _ _ _ _ _ _); [dv|]. cbv beta. rr. ring. Qed.
  Lemma dpsin phi t : is_derive (fun p => sin (phid p t)) phi (cos (phid phi t)).
  Proof. unfold phid. refine (is_derive_eq _ _ _ _ _ _); [dv|]. cbv beta. rr. ring. Qed.
  Lemma dpx R phi t : is_derive (fun p => cx R p t) phi (- cy R phi t).
  Proof. unfold cx, cy. pose proof (dpcos phi t). refine (is_derive_eq _ _ _ _ _ _); [dv|]. cbv beta. rr. ring. Qed.
  Lemma dpy R phi t : is_derive (fun p => cy R p t) phi (cx R phi t).
  Proof. unfold cx, cy. pose proof (dpsin phi t). refine (is_derive_eq _ _ _ _ _ _); [dv|]. cbv beta. rr. ring. Qed.

  Lemma needle_force : is_force_field all_space (nb_ev k) (nb_Rf k) (nb_zf k) (nb_pt k).
  Proof.
    intros R z phi t _. rewrite Rf_eq, zf_eq, pt_eq. splits.
    - apply (is_derive_ext (fun r => Phi (cx r phi t) (cy r phi t) z)); [intros; symmetry; apply ev_eq|].
      refine (is_derive_eq _ _ _ _ (d_Phi (fun r => cx r phi t) (fun r => cy r phi t) (fun _ => z) R _ _ 0 (dRx R phi t) (dRy R phi t) (is_derive_cst z R)) _).
      rr. ring.
    - apply (is_derive_ext (fun y => Phi (cx R phi t) (cy R phi t) y)); [intros; symmetry; apply ev_eq|].
      refine (is_derive_eq _ _ _ _ (d_Phi (fun _ => cx R phi t) (fun _ => cy R phi t) (fun y => y) z 0 0 1 (is_derive_cst _ z) (is_derive_cst _ z) (d_id z)) _).
      rr. ring.
    - apply (is_derive_ext (fun p => Phi (cx R p t) (cy R p t) z)); [intros; symmetry; apply ev_eq|].
      refine (is_derive_eq _ _ _ _ (d_Phi (fun p => cx R p t) (fun p => cy R p t) (fun _ => z) phi _ _ 0 (dpx R phi t) (dpy R phi t) (is_derive_cst z phi)) _).
      cbv beta. generalize (px (cx R phi t) (cy R phi t) z) (py (cx R phi t) (cy R phi t) z) (pz (cx R phi t) (cy R phi t) z) (pxx (cx R phi t) (cy R phi t) z) (pxy (cx R phi t) (cy R phi t) z) (pyy (cx R phi t) (cy R phi t) z) (pxz (cx R phi t) (cy R phi t) z) (pyz (cx R phi t) (cy R phi t) z); intros; unfold cx, cy. rr. ring.
  Qed.
  Ltac along L D1 D2 D3 := pose proof (L _ _ _ _ _ _ _ D1 D2 D3).
  Lemma needle_mer : is_meridional_hessian all_space (nb_Rf k) (nb_zf k) (nb_R2 k) (nb_z2 k) (nb_Rz k).
  Proof.
    intros R z phi t _. unfold nb_R2, nb_z2, nb_Rz. rewrite hess_eq. cbv zeta.
    pose proof (dRx R phi t) as X1. pose proof (dRy R phi t) as X2. pose proof (is_derive_cst z R) as X3.
    pose proof (is_derive_cst (cx R phi t) z) as Y1. pose proof (is_derive_cst (cy R phi t) z) as Y2. pose proof (d_id z) as Y3.
    splits.
    - apply (is_derive_ext (fun r => cos (phid phi t) * px (cx r phi t) (cy r phi t) z + sin (phid phi t) * py (cx r phi t) (cy r phi t) z)); [intros; rewrite Rf_eq; rr; ring|].
      along d_px X1 X2 X3. along d_py X1 X2 X3. cbv beta in *. refine (is_derive_eq _ _ _ _ _ _); [dv|]. cbv beta. rr. ring.
    - apply (is_derive_ext (fun y => pz (cx R phi t) (cy R phi t) y)); [intros; rewrite zf_eq; rr; ring|].
      along d_pz Y1 Y2 Y3. cbv beta in *. refine (is_derive_eq _ _ _ _ _ _); [dv|]. cbv beta. rr. ring.
    - apply (is_derive_ext (fun y => cos (phid phi t) * px (cx R phi t) (cy R phi t) y + sin (phid phi t) * py (cx R phi t) (cy R phi t) y)); [intros; rewrite Rf_eq; rr; ring|].
      along d_px Y1 Y2 Y3. along d_py Y1 Y2 Y3. cbv beta in *. refine (is_derive_eq _ _ _ _ _ _); [dv|]. cbv beta. rr. ring.
    - apply (is_derive_ext (fun r => pz (cx r phi t) (cy r phi t) z)); [intros; rewrite zf_eq; rr; ring|].
      along d_pz X1 X2 X3. cbv beta in *. refine (is_derive_eq _ _ _ _ _ _); [dv|]. cbv beta. rr. ring.
  Qed.
  Lemma needle_azi : is_azimuthal_hessian all_space (nb_Rf k) (nb_zf k) (nb_pt k) (nb_p2 k) (nb_Rp k) (nb_pz k).
  Proof.
    intros R z phi t _. unfold nb_p2, nb_Rp, nb_pz. rewrite hess_eq. cbv zeta.
    pose proof (dRx R phi t) as X1. pose proof (dRy R phi t) as X2. pose proof (is_derive_cst z R) as X3.
    pose proof (is_derive_cst (cx R phi t) z) as Y1. pose proof (is_derive_cst (cy R phi t) z) as Y2. pose proof (d_id z) as Y3.
    pose proof (dpx R phi t) as P1. pose proof (dpy R phi t) as P2. pose proof (is_derive_cst z phi) as P3.
    pose proof (dpcos phi t). pose proof (dpsin phi t).
    splits.
    - apply (is_derive_ext (fun p => R * (- sin (phid p t) * px (cx R p t) (cy R p t) z + cos (phid p t) * py (cx R p t) (cy R p t) z))); [intros; rewrite pt_eq; rr; ring|].
      along d_px P1 P2 P3. along d_py P1 P2 P3. cbv beta in *. refine (is_derive_eq _ _ _ _ _ _); [dv|]. cbv beta.
      generalize (px (cx R phi t) (cy R phi t) z) (py (cx R phi t) (cy R phi t) z) (pz (cx R phi t) (cy R phi t) z) (pxx (cx R phi t) (cy R phi t) z) (pxy (cx R phi t) (cy R phi t) z) (pyy (cx R phi t) (cy R phi t) z) (pxz (cx R phi t) (cy R phi t) z) (pyz (cx R phi t) (cy R phi t) z); intros; unfold cx, cy. rr. ring.
    - apply (is_derive_ext (fun p => cos (phid p t) * px (cx R p t) (cy R p t) z + sin (phid p t) * py (cx R p t) (cy R p t) z)); [intros; rewrite Rf_eq; rr; ring|].
      along d_px P1 P2 P3. along d_py P1 P2 P3. cbv beta in *. refine (is_derive_eq _ _ _ _ _ _); [dv|]. cbv beta.
      generalize (px (cx R phi t) (cy R phi t) z) (py (cx R phi t) (cy R phi t) z) (pz (cx R phi t) (cy R phi t) z) (pxx (cx R phi t) (cy R phi t) z) (pxy (cx R phi t) (cy R phi t) z) (pyy (cx R phi t) (cy R phi t) z) (pxz (cx R phi t) (cy R phi t) z) (pyz (cx R phi t) (cy R phi t) z); intros; unfold cx, cy. rr. ring.
    - apply (is_derive_ext (fun r => r * (- sin (phid phi t) * px (cx r phi t) (cy r phi t) z + cos (phid phi t) * py (cx r phi t) (cy r phi t) z))); [intros; rewrite pt_eq; rr; ring|].
      along d_px X1 X2 X3. along d_py X1 X2 X3. cbv beta in *. refine (is_derive_eq _ _ _ _ _ _); [dv|]. cbv beta. rr. ring.
    - apply (is_derive_ext (fun p => pz (cx R p t) (cy R p t) z)); [intros; rewrite zf_eq; rr; ring|].
      along d_pz P1 P2 P3. cbv beta in *. refine (is_derive_eq _ _ _ _ _ _); [dv|]. cbv beta.
      generalize (px (cx R phi t) (cy R phi t) z) (py (cx R phi t) (cy R phi t) z) (pz (cx R phi t) (cy R phi t) z) (pxx (cx R phi t) (cy R phi t) z) (pxy (cx R phi t) (cy R phi t) z) (pyy (cx R phi t) (cy R phi t) z) (pxz (cx R phi t) (cy R phi t) z) (pyz (cx R phi t) (cy R phi t) z); intros; unfold cx, cy. rr. ring.
    - apply (is_derive_ext (fun y => R * (- sin (phid phi t) * px (cx R phi t) (cy R phi t) y + cos (phid phi t) * py (cx R phi t) (cy R phi t) y))); [intros; rewrite pt_eq; rr; ring|].
      along d_px Y1 Y2 Y3. along d_py Y1 Y2 Y3. cbv beta in *. refine (is_derive_eq _ _ _ _ _ _); [dv|]. cbv beta. rr. ring.
  Qed.
  Lemma needle_poisson : poisson_alg all_space (nb_Rf k) (nb_R2 k) (nb_p2 k) (nb_z2 k) (nb_dens k).
  Proof.
    intros R z phi t _ HR. rewrite Rf_eq. unfold nb_R2, nb_p2, nb_z2. rewrite hess_eq. cbv zeta.
    unfold nb_dens, nb_xyz, cyl_to_rect. fold (phid phi t). fold (cx R phi t). fold (cy R phi t).
    set (x := cx R phi t). set (y := cy R phi t). cbv zeta.
    change (y ^ 2 + (b + sqrt (z ^ 2 + c2)) ^ 2) with (s2 y z). change (sqrt (z ^ 2 + c2)) with (zc z).
    transitivity (pxx x y z + pyy x y z + pzz x y z).
    { pose proof (cv2 (phid phi t)) as E. transitivity ((cos (phid phi t) ^ 2 + sin (phid phi t) ^ 2) * (pxx x y z + pyy x y z) + pzz x y z).
      - rr. field. lra.
      - rewrite E. rr. ring. }
    pose proof (Tp_pos x y z) as P1. pose proof (Tm_pos x y z) as P2. pose proof ap as P0. pose proof (s2_pos y z) as P3. pose proof (zc_pos z) as P4.
    replace (rpow (s2 y z + (x + a) ^ 2) (3 / 2)) with (Tp x y z ^ 3).
    2:{ rewrite rpow_3_2 by (pose proof (pow2_ge_0 (x + a)); pose proof (pow2_ge_0 (x - a)); lra). unfold Tp. f_equal. f_equal. ring. }
    replace (rpow (s2 y z + (x - a) ^ 2) (3 / 2)) with (Tm x y z ^ 3).
    2:{ rewrite rpow_3_2 by (pose proof (pow2_ge_0 (x + a)); pose proof (pow2_ge_0 (x - a)); lra). unfold Tm. f_equal. f_equal. ring. }
    assert (EG : gG x y z = (a - x) * ((a - x) ^ 2 + s2 y z) / Tm x y z ^ 3 + (a + x) * ((a + x) ^ 2 + s2 y z) / Tp x y z ^ 3).
    { rewrite <- Tm_sq, <- Tp_sq. unfold gG. field. split; lra. }
    unfold pxx, pyy, pzz, gH, w. rewrite EG. pose proof PI_RGT_0.
    assert (Ey : y ^ 2 = s2 y z - (b + zc z) ^ 2) by (unfold s2; ring).
    rewrite Ey. replace (n_c2 k) with (zc z ^ 2 - z ^ 2) by (rewrite zc_sq; ring).
    generalize dependent (s2 y z). intros. rr. field. repeat split; lra.
  Qed.
End Needle.
