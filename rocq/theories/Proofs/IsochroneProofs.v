(** Geometry and angles of orbits in the isochrone potential. *)
From Coq Require Import Reals Lra Lia Psatz.
From Coquelicot Require Import Coquelicot.
From Verif.Lib Require Import RealAux Atan2.
From Verif.Model Require Import PotAxi ActionAngle.
From Verif.Spec Require Import ActionAngleSpec.
From Verif.Proofs Require Import AngleProofs.
Open Scope R_scope.
Notation RR := RbaseSymbolsImpl.R (only parsing).

Lemma sq_eq_nonneg x y : 0 <= x -> 0 <= y -> x ^ 2 = y ^ 2 -> x = y.
Proof. intros. apply Rsqr_inj; auto. rewrite !Rsqr_pow2. auto. Qed.
Lemma sqrt_sq x : 0 <= x -> sqrt x ^ 2 = x.
Proof. intros. rewrite <- Rsqr_pow2. apply Rsqr_sqrt. auto. Qed.
Lemma sqrt_of_sq x y : 0 <= y -> x = y ^ 2 -> sqrt x = y.
Proof. intros P ->. apply sqrt_pow2. exact P. Qed.
Lemma asin_trig x : -1 <= x <= 1 -> sin (asin x) = x /\ 0 <= cos (asin x) /\ cos (asin x) ^ 2 = 1 - x ^ 2.
Proof.
  intros H. assert (A : sin (asin x) = x) by (apply sin_asin; exact H). split; [exact A|]. rewrite cos_asin by exact H. split; [apply sqrt_pos|].
  rewrite sqrt_sq; unfold Rsqr; nra.
Qed.
Lemma clip_id x : -1 <= x <= 1 -> clip x = x.
Proof. intros H. unfold clip. destruct (Rlt_dec 1 x); [lra|]. destruct (Rlt_dec x (-1)); lra. Qed.
(** An angle built as the code builds psi and u *)
Lemma flipped x c (d : bool) : -1 <= x <= 1 -> c ^ 2 = 1 - x ^ 2 -> (d = true -> c <= 0) -> (d = false -> 0 <= c) ->
  let a := if d then PI - asin (clip x) else asin (clip x) in sin a = x /\ cos a = c.
Proof.
  intros H E D1 D2 a. unfold a. rewrite clip_id by exact H. destruct (asin_trig x H) as (A & B & C). destruct d.
  - split; [rewrite sin_PI_x; exact A|]. rewrite Rtrigo_facts.cos_pi_minus. assert (- c = cos (asin x)) by (apply sq_eq_nonneg; [specialize (D1 eq_refl); lra|exact B|]; rewrite C, <- E; ring). lra.
  - split; [exact A|]. apply sq_eq_nonneg; [exact B|apply D2; reflexivity|]. rewrite C, E. reflexivity.
Qed.

(** x - k sin x is increasing for 0 <= k < 1 *)
Lemma kepler_increasing k x y : 0 <= k < 1 -> x < y -> x - k * sin x < y - k * sin y.
Proof.
  intros H L. destruct (MVT_gen (fun x => x - k * sin x) x y (fun x => 1 - k * cos x)) as (c & _ & E).
  - intros t _. auto_derive; [exact I|ring].
  - intros t _. apply continuity_pt_filterlim, (ex_derive_continuous (K := R_AbsRing) (V := R_NormedModule) (fun x => x - k * sin x) t). auto_derive. exact I.
  - cbv beta in E. pose proof (COS_bound c) as B. assert (0 < (1 - k * cos c) * (y - x)) by (apply Rmult_lt_0_compat; nra). lra.
Qed.
Lemma kepler_unique k x y : 0 <= k < 1 -> x - k * sin x = y - k * sin y -> x = y.
Proof. intros H E. destruct (Rtotal_order x y) as [L|[L|L]]; [apply (kepler_increasing k) in L; auto; lra|exact L|apply (kepler_increasing k) in L; auto; lra]. Qed.
Lemma kepler_range k x : 0 <= k < 1 -> 0 <= x < 2 * PI -> 0 <= x - k * sin x < 2 * PI.
Proof.
  intros H [A B]. split.
  - destruct (Req_EM_T x 0) as [->|N]; [rewrite sin_0; lra|]. pose proof (kepler_increasing k 0 x H ltac:(lra)) as Q. rewrite sin_0 in Q. lra.
  - pose proof (kepler_increasing k x (2 * PI) H B) as Q. rewrite sin_2PI in Q. lra.
Qed.

Section Point.
  Variables amp b R vR vT z vz : RR.
  Hypothesis Pamp : 0 < amp.
  Hypothesis Pb : 0 <= b.
  Hypothesis PR : 0 < R.
  Notation E := (ia_E amp b R vR vT z vz).
  Notation L2 := (ia_L2 R vR vT z vz).
  Hypothesis Bound : E < 0.
  Definition io_w := sqrt (b ^ 2 + R ^ 2 + z ^ 2) - b.
  Definition io_k := - 2 * E.
  Definition io_c := amp / io_k - b.
  Definition io_p := R * vR + z * vz.
  Definition io_q := z * vR - R * vz.
  Definition io_r := sqrt (R ^ 2 + z ^ 2).
  Notation w := io_w. Notation k := io_k. Notation c := io_c. Notation p := io_p. Notation q := io_q. Notation r := io_r.

  Lemma sb_sq : sqrt (b ^ 2 + R ^ 2 + z ^ 2) ^ 2 = b ^ 2 + R ^ 2 + z ^ 2.
  Proof. apply sqrt_sq. nra. Qed.
  Lemma w_pos : 0 < w.
  Proof.
    unfold io_w. assert (b < sqrt (b ^ 2 + R ^ 2 + z ^ 2)); [|lra]. rewrite <- (sqrt_pow2 b) at 1 by exact Pb. apply sqrt_lt_1; nra.
  Qed.
  Lemma r2_w : R ^ 2 + z ^ 2 = w * (w + 2 * b).
  Proof. unfold io_w. pose proof sb_sq. set (s := sqrt (b ^ 2 + R ^ 2 + z ^ 2)) in *. nra. Qed.
  Lemma r_pos : 0 < r.
  Proof. apply sqrt_lt_R0. nra. Qed.
  Lemma r_sq : r ^ 2 = R ^ 2 + z ^ 2.
  Proof. apply sqrt_sq. nra. Qed.
  Lemma E_eq : E = - amp / (w + 2 * b) + (vR ^ 2 + vT ^ 2 + vz ^ 2) / 2.
  Proof.
    unfold ia_E, ia_Phi, Iso_ev, Iso_rb, io_w. replace (R ^ 2 + z ^ 2 + b ^ 2) with (b ^ 2 + R ^ 2 + z ^ 2) by ring.
    pose proof w_pos as W. unfold io_w in W. set (s := sqrt (b ^ 2 + R ^ 2 + z ^ 2)) in *. replace (s - b + 2 * b) with (b + s) by ring. field. lra.
  Qed.
  Lemma k_pos : 0 < k.
  Proof. unfold io_k. lra. Qed.
  Lemma k_eq : k = 2 * amp / (w + 2 * b) - (vR ^ 2 + vT ^ 2 + vz ^ 2).
  Proof. unfold io_k. rewrite E_eq. pose proof w_pos. field. lra. Qed.
  Lemma k_w : k * (w + 2 * b) = 2 * amp - (vR ^ 2 + vT ^ 2 + vz ^ 2) * (w + 2 * b).
  Proof. rewrite k_eq. pose proof w_pos. field. lra. Qed.
  Lemma c_eq : ia_c amp b E = c.
  Proof. unfold ia_c, io_c, io_k. field. lra. Qed.
  Lemma kcb : k * (c + b) = amp.
  Proof. unfold io_c. pose proof k_pos. field. lra. Qed.
  Lemma c_ge : w / 2 <= c.
  Proof.
    pose proof k_pos as K. pose proof w_pos as W. pose proof k_w as KW. pose proof kcb as KC.
    assert (H : k * (w + 2 * b) <= 2 * (k * (c + b))). { rewrite KW, KC. assert (0 <= (vR ^ 2 + vT ^ 2 + vz ^ 2) * (w + 2 * b)) by (apply Rmult_le_pos; nra). lra. }
    apply (Rmult_le_reg_l k); [exact K|]. nra.
  Qed.
  Lemma c_pos : 0 < c.
  Proof. pose proof c_ge. pose proof w_pos. lra. Qed.
  Lemma L2_q : L2 = (R ^ 2 + z ^ 2) * vT ^ 2 + q ^ 2.
  Proof. unfold ia_L2, io_q. ring. Qed.
  Lemma L2_p : L2 = (R ^ 2 + z ^ 2) * (vR ^ 2 + vT ^ 2 + vz ^ 2) - p ^ 2.
  Proof. unfold ia_L2, io_p. ring. Qed.
  Lemma L2_nonneg : 0 <= L2.
  Proof. rewrite L2_q. nra. Qed.
  Lemma p2_eq : p ^ 2 = k * (2 * c * w - w ^ 2) - L2.
  Proof.
    rewrite L2_p, r2_w. pose proof kcb as KC. pose proof k_w as KW. assert (A : k * c = amp - k * b) by lra.
    replace (k * (2 * c * w - w ^ 2)) with (2 * w * (k * c) - k * w ^ 2) by ring. rewrite A. nra.
  Qed.
  Lemma Lz_le : (R * vT) ^ 2 <= L2.
  Proof. rewrite L2_q. nra. Qed.

  Definition io_e2 := 1 - L2 / (k * c ^ 2).
  Definition io_e := sqrt io_e2.
  Notation e2 := io_e2. Notation e := io_e.
  Lemma e2_eq : ia_e2 amp b E L2 = e2.
  Proof.
    unfold ia_e2, io_e2. rewrite c_eq. pose proof kcb as KC. pose proof c_pos. pose proof k_pos. rewrite <- KC at 1. field. repeat split; try lra; nra.
  Qed.
  Lemma kc2e2 : k * c ^ 2 * e2 = k * c ^ 2 - L2.
  Proof. unfold io_e2. pose proof c_pos. pose proof k_pos. field. nra. Qed.
  Lemma p2_e : p ^ 2 = k * (c ^ 2 * e2 - (w - c) ^ 2).
  Proof. rewrite p2_eq. pose proof kc2e2. nra. Qed.
  Lemma e2_nonneg : 0 <= e2.
  Proof.
    pose proof p2_e as P. pose proof c_pos. pose proof k_pos as K. destruct (Rle_dec 0 e2) as [L|L]; [exact L|exfalso].
    assert (c ^ 2 * e2 < 0) by (apply Ropp_lt_cancel; rewrite Ropp_0; replace (- (c ^ 2 * e2)) with (c ^ 2 * (- e2)) by ring; apply Rmult_lt_0_compat; [nra|lra]).
    assert (k * (c ^ 2 * e2 - (w - c) ^ 2) < 0); [|nra]. assert (0 < k * ((w - c) ^ 2 - c ^ 2 * e2)) by (apply Rmult_lt_0_compat; [exact K|pose proof (pow2_ge_0 (w - c)); lra]). lra.
  Qed.
  Lemma e_sq : e ^ 2 = e2.
  Proof. apply sqrt_sq, e2_nonneg. Qed.
  Lemma e_nonneg : 0 <= e.
  Proof. apply sqrt_pos. Qed.
  (** the orbit is circular when e2 vanishes *)
  Lemma circular_e2 : circular amp b R vR vT z vz <-> e2 = 0.
  Proof.
    unfold circular, radial_product, isochrone_pull. fold p. pose proof w_pos as W. pose proof c_pos as C. pose proof k_pos as K. pose proof p2_e as P.
    assert (S1 : sqrt (b ^ 2 + R ^ 2 + z ^ 2) = w + b) by (unfold io_w; ring). rewrite S1, r2_w.
    assert (Q : amp / ((w + b) * (b + (w + b)) ^ 2) * (w * (w + 2 * b)) = amp * w / ((w + b) * (w + 2 * b))) by (field; split; lra). rewrite Q.
    assert (V : vR ^ 2 + vT ^ 2 + vz ^ 2 = 2 * amp / (w + 2 * b) - k) by (rewrite k_eq; ring). rewrite V.
    assert (WC : 2 * amp / (w + 2 * b) - k = amp * w / ((w + b) * (w + 2 * b)) <-> w = c).
    { pose proof kcb as KC. assert (D : 2 * amp / (w + 2 * b) - k - amp * w / ((w + b) * (w + 2 * b)) = k * (c - w) / (w + b)) by (rewrite <- KC; field; split; lra).
      assert (N : k / (w + b) <> 0) by (apply Rgt_not_eq, Rdiv_lt_0_compat; lra). split; intros X.
      - assert (Z : k / (w + b) * (c - w) = 0) by (replace (k / (w + b) * (c - w)) with (k * (c - w) / (w + b)) by (field; lra); rewrite <- D; lra).
        apply Rmult_integral in Z. lra.
      - assert (Z : k * (c - w) / (w + b) = 0) by (rewrite X; field; lra). lra. }
    rewrite WC. split.
    - intros [P0 W0]. rewrite P0, W0 in P. assert (Z : k * c ^ 2 * e2 = 0) by nra. apply Rmult_integral in Z. destruct Z as [Z|Z]; [|exact Z]. assert (0 < k * c ^ 2) by (apply Rmult_lt_0_compat; nra). lra.
    - intros Z. rewrite Z in P. assert (A : p ^ 2 + k * (w - c) ^ 2 = 0) by nra. assert (0 <= k * (w - c) ^ 2) by (apply Rmult_le_pos; nra). split; [nra|].
      assert (k * (w - c) ^ 2 = 0) by nra. apply Rmult_integral in H0. destruct H0; [lra|]. nra.
  Qed.

  (** ** Actions *)
  Notation L := (sqrt L2).
  Notation S := (sqrt (L2 + 4 * amp * b)).
  Lemma L_sq : L ^ 2 = L2.
  Proof. apply sqrt_sq, L2_nonneg. Qed.
  Lemma S_sq : S ^ 2 = L2 + 4 * amp * b.
  Proof. apply sqrt_sq. pose proof L2_nonneg. assert (0 <= amp * b) by (apply Rmult_le_pos; lra). lra. Qed.
  Lemma Lz_L : Rabs (R * vT) <= L.
  Proof. rewrite <- (Rabs_pos_eq L) by apply sqrt_pos. apply Rsqr_le_abs_0. rewrite !Rsqr_pow2, L_sq. apply Lz_le. Qed.
  Lemma actions_eq : ia_actions amp b R vR vT z vz = Some (mkActions (amp / sqrt k - / 2 * (L + S)) (R * vT) (L - Rabs (R * vT))).
  Proof. unfold ia_actions. cbv zeta. destruct (Rlt_dec E 0); [reflexivity|contradiction]. Qed.
  Lemma freqs_eq : ia_freqs amp b R vR vT z vz =
    let Or := sqrt k ^ 3 / amp in let Oz := / 2 * (1 + L / S) * Or in Some (mkFreqs Or (if Rlt_dec (R * vT) 0 then Oz * -1 else Oz) Oz).
  Proof. unfold ia_freqs. cbv zeta. destruct (Rlt_dec E 0); [|contradiction]. fold k. rewrite rpow_3_2 by apply k_pos. reflexivity. Qed.
  Definition io_J := mkActions (amp / sqrt k - / 2 * (L + S)) (R * vT) (L - Rabs (R * vT)).
  Lemma J_L : ii_L io_J = L.
  Proof. unfold ii_L, io_J. cbn [Jz Jphi]. ring. Qed.
  Lemma J_S : ii_sqrt amp b io_J = S.
  Proof. unfold ii_sqrt. rewrite J_L, L_sq. f_equal. ring. Qed.
  Lemma sk_sq : sqrt k ^ 2 = k.
  Proof. apply sqrt_sq. pose proof k_pos. lra. Qed.
  Lemma sk_pos : 0 < sqrt k.
  Proof. apply sqrt_lt_R0, k_pos. Qed.
  Lemma J_H : ii_H amp b io_J = E.
  Proof.
    unfold ii_H. rewrite J_L, J_S. cbn [Jr io_J]. pose proof sk_pos. replace (2 * (amp / sqrt k - / 2 * (L + S)) + L + S) with (2 * (amp / sqrt k)) by (field; lra).
    assert (H1 : -2 * amp ^ 2 / (2 * (amp / sqrt k)) ^ 2 = - (sqrt k ^ 2) / 2) by (field; split; lra). rewrite H1, sk_sq. unfold io_k. field.
  Qed.
  Lemma Jr_nonneg : 0 <= Jr io_J.
  Proof.
    cbn [Jr io_J]. pose proof sk_pos as K. pose proof sk_sq as K2. pose proof kcb as KC. pose proof kc2e2 as E2. pose proof e2_nonneg as En. pose proof c_pos as C.
    pose proof k_pos. pose proof L_sq as LL. pose proof S_sq as SS. pose proof (sqrt_pos L2) as L0. pose proof (sqrt_pos (L2 + 4 * amp * b)) as S0.
    assert (A1 : L <= sqrt k * c).
    { apply Rsqr_incr_0; [|exact L0|apply Rlt_le, Rmult_lt_0_compat; lra]. rewrite !Rsqr_pow2, LL. replace ((sqrt k * c) ^ 2) with (sqrt k ^ 2 * c ^ 2) by ring. rewrite K2.
      assert (0 <= k * c ^ 2 * e2) by (apply Rmult_le_pos; [apply Rmult_le_pos; [lra|apply pow2_ge_0]|exact En]). lra. }
    assert (A2 : S <= sqrt k * (c + 2 * b)).
    { apply Rsqr_incr_0; [|exact S0|apply Rlt_le, Rmult_lt_0_compat; lra]. rewrite !Rsqr_pow2, SS. replace ((sqrt k * (c + 2 * b)) ^ 2) with (sqrt k ^ 2 * (c + 2 * b) ^ 2) by ring. rewrite K2.
      assert (0 <= k * c ^ 2 * e2) by (apply Rmult_le_pos; [apply Rmult_le_pos; [lra|apply pow2_ge_0]|exact En]).
      assert (X : k * (c + 2 * b) ^ 2 = k * c ^ 2 + 4 * b * (k * (c + b))) by ring. rewrite X, KC. nra. }
    assert (A3 : amp / sqrt k = sqrt k * (c + b)) by (rewrite <- KC; rewrite <- K2 at 1; field; lra). rewrite A3. lra.
  Qed.
  (** ** Eccentric anomaly *)
  Hypothesis Pe : 0 < e2.
  Lemma e_pos : 0 < e.
  Proof. apply sqrt_lt_R0, Pe. Qed.
  Lemma cos_bound : -1 <= (1 - w / c) / e <= 1.
  Proof.
    pose proof e_pos as P1. pose proof c_pos as C. pose proof e_sq as ES. pose proof p2_e as P2. pose proof k_pos as K.
    assert (H : (w - c) ^ 2 <= c ^ 2 * e2). { assert (0 <= k * (c ^ 2 * e2 - (w - c) ^ 2)) by (rewrite <- P2; apply pow2_ge_0). assert (0 <= c ^ 2 * e2 - (w - c) ^ 2) by (apply (Rmult_le_reg_l k); [exact K|lra]). lra. }
    assert (Q : ((1 - w / c) / e) ^ 2 <= 1).
    { replace (((1 - w / c) / e) ^ 2) with ((w - c) ^ 2 / (c ^ 2 * e ^ 2)) by (field; split; lra). rewrite ES.
      assert (0 < c ^ 2 * e2) by (apply Rmult_lt_0_compat; [apply pow_lt; exact C|exact Pe]).
      apply (Rmult_le_reg_r (c ^ 2 * e2)); [assumption|]. unfold Rdiv. rewrite Rmult_assoc, Rinv_l by lra. lra. }
    split; nra.
  Qed.
  Lemma coseta_eq : ia_coseta amp b E L2 (R ^ 2 + z ^ 2) = (1 - w / c) / e.
  Proof.
    pose proof e_pos as P1. pose proof c_pos as C. pose proof w_pos as W. unfold ia_coseta. cbv zeta. rewrite c_eq, e2_eq. fold e. rewrite <- (clip_id _ cos_bound). f_equal.
    destruct (Req_EM_T b 0) as [Z|Z].
    - assert (X : sqrt (R ^ 2 + z ^ 2) = w) by (apply sqrt_of_sq; [lra|rewrite r2_w, Z; ring]). rewrite X. field. lra.
    - assert (X : sqrt (1 + (R ^ 2 + z ^ 2) / b ^ 2) = (w + b) / b). { apply sqrt_of_sq; [apply Rmult_le_pos; [lra|apply Rlt_le, Rinv_0_lt_compat; lra]|]. rewrite r2_w. field. exact Z. }
      rewrite X. field. split; [lra|split; [lra|exact Z]].
  Qed.
  Notation eta := (ia_eta amp b E L2 R vR z vz).
  Lemma eta_trig : 0 <= eta < 2 * PI /\ e * cos eta = 1 - w / c /\ sqrt k * c * e * sin eta = p.
  Proof.
    pose proof e_pos as P1. pose proof c_pos as C. pose proof cos_bound as B. pose proof PI_RGT_0 as PP. pose proof sk_pos as K. unfold ia_eta. cbv zeta. rewrite coseta_eq.
    set (x := (1 - w / c) / e) in *. assert (XE : e * x = 1 - w / c) by (unfold x; field; lra).
    assert (Sg : vR * (R / sqrt (R ^ 2 + z ^ 2)) + vz * (z / sqrt (R ^ 2 + z ^ 2)) = p / r) by (unfold io_p; fold r; field; pose proof r_pos; lra). rewrite Sg.
    pose proof r_pos as Pr.
    assert (S2 : (sqrt k * c * e) ^ 2 * (1 - x ^ 2) = p ^ 2).
    { rewrite p2_e. replace ((sqrt k * c * e) ^ 2 * (1 - x ^ 2)) with (sqrt k ^ 2 * (c ^ 2 * (e ^ 2 - (e * x) ^ 2))) by ring. rewrite sk_sq, XE, e_sq. field. lra. }
    pose proof (acos_bound x) as AB. assert (CA : cos (acos x) = x) by (apply cos_acos; exact B).
    assert (SA0 : 0 <= sin (acos x)) by (apply sin_ge_0; lra). assert (SA2 : sin (acos x) ^ 2 = 1 - x ^ 2) by (pose proof (sin2_cos2 (acos x)) as T; rewrite !Rsqr_pow2, CA in T; lra).
    assert (Pk : 0 < sqrt k * c * e) by (repeat apply Rmult_lt_0_compat; assumption).
    assert (AS : sqrt k * c * e * sin (acos x) = Rabs p).
    { apply sq_eq_nonneg; [apply Rmult_le_pos; lra|apply Rabs_pos|]. rewrite pow2_abs, Rpow_mult_distr, SA2. exact S2. }
    destruct (Rlt_dec (p / r) 0) as [D|D].
    - assert (Np : p < 0). { apply (Rmult_lt_reg_r (/ r)); [apply Rinv_0_lt_compat; exact Pr|]. rewrite Rmult_0_l. exact D. }
      rewrite Rabs_left in AS by exact Np. assert (A0 : 0 < acos x). { destruct (Req_EM_T (acos x) 0) as [Z|Z]; [|lra]. rewrite Z, sin_0, Rmult_0_r in AS. lra. }
      split; [lra|]. assert (C2 : cos (2 * PI - acos x) = x) by (rewrite cos_minus, cos_2PI, sin_2PI, CA; ring). assert (S3 : sin (2 * PI - acos x) = - sin (acos x)) by (rewrite sin_minus, cos_2PI, sin_2PI; ring).
      rewrite C2, S3. split; [exact XE|]. lra.
    - assert (Np : 0 <= p). { destruct (Rlt_dec p 0) as [Q|Q]; [|lra]. exfalso. apply D. apply (Rmult_lt_reg_r r); [exact Pr|]. unfold Rdiv. rewrite Rmult_assoc, Rinv_l by lra. lra. }
      rewrite Rabs_pos_eq in AS by exact Np. split; [lra|]. rewrite CA. split; [exact XE|exact AS].
  Qed.
  (** ** The plane of the orbit *)
  Notation D := (sqrt (L2 - (R * vT) ^ 2)).
  Lemma D_sq : D ^ 2 = L2 - (R * vT) ^ 2.
  Proof. apply sqrt_sq. pose proof Lz_le. lra. Qed.
  Lemma down_q : ia_down R vR z vz = true <-> 0 < q.
  Proof.
    unfold ia_down. cbv zeta. pose proof r_pos as Pr. assert (X : - vz * (R / sqrt (R ^ 2 + z ^ 2)) + vR * (z / sqrt (R ^ 2 + z ^ 2)) = q / r) by (unfold io_q; fold r; field; lra). rewrite X.
    destruct (Rlt_dec 0 (q / r)) as [Q|Q]; split; intros H; try reflexivity; try discriminate.
    - apply (Rmult_lt_reg_r (/ r)); [apply Rinv_0_lt_compat; exact Pr|]. rewrite Rmult_0_l. exact Q.
    - exfalso. apply Q. apply Rdiv_lt_0_compat; assumption.
  Qed.
  Lemma down_sign x : 0 < x -> (ia_down R vR z vz = true -> - q * x <= 0) /\ (ia_down R vR z vz = false -> 0 <= - q * x).
  Proof.
    intros P. split; intros H.
    - apply down_q in H. nra.
    - assert (~ 0 < q) by (intros Q; apply down_q in Q; rewrite Q in H; discriminate). nra.
  Qed.
  Lemma unit_of_sq x y : y ^ 2 = 1 - x ^ 2 -> -1 <= x <= 1.
  Proof. intros H. pose proof (pow2_ge_0 y). split; nra. Qed.
  Hypothesis PL : 0 < L2.
  Lemma L_pos : 0 < L.
  Proof. apply sqrt_lt_R0, PL. Qed.
  Lemma S_pos : 0 < S.
  Proof. apply sqrt_lt_R0. assert (0 <= amp * b) by (apply Rmult_le_pos; lra). lra. Qed.
  Lemma e_lt_1 : e < 1.
  Proof.
    pose proof kc2e2 as K2. pose proof e_sq as ES. pose proof e_pos. pose proof c_pos. pose proof k_pos.
    assert (e2 < 1) by (unfold io_e2; assert (0 < L2 / (k * c ^ 2)) by (apply Rdiv_lt_0_compat; [exact PL|apply Rmult_lt_0_compat; [assumption|apply pow_lt; assumption]]); lra). nra.
  Qed.
  Definition io_kap := e * c / (c + b).
  Notation kap := io_kap.
  Lemma kap_range : 0 < kap < 1.
  Proof.
    pose proof e_lt_1. pose proof e_pos. pose proof c_pos. unfold io_kap. split; [apply Rdiv_lt_0_compat; nra|]. apply (Rmult_lt_reg_r (c + b)); [lra|]. unfold Rdiv. rewrite Rmult_assoc, Rinv_l by lra. nra.
  Qed.
  Lemma LS_ratio : 1 / sqrt (1 + 4 * amp * b / L2) = L / S.
  Proof.
    pose proof L_pos. pose proof S_pos. assert (X : sqrt (1 + 4 * amp * b / L2) = S / L). { apply sqrt_of_sq; [apply Rlt_le, Rdiv_lt_0_compat; assumption|]. replace ((S / L) ^ 2) with (S ^ 2 / L ^ 2) by (field; lra). rewrite S_sq, L_sq. field. lra. }
    rewrite X. field. lra.
  Qed.
  Definition io_rho := / 2 * (1 + L / S).
  Notation rho := io_rho.
  Definition io_ar := eta - kap * sin eta.
  Definition io_az phi := ia_psi L2 (R * vT) R vR z vz phi + rho * io_ar - ia_tan11 e eta - L / S * ia_tan12 b c e eta.
  Definition io_ap phi := let Omega := phi - ia_u L2 (R * vT) R vR z vz phi in if Rlt_dec (R * vT) 0 then Omega - io_az phi else Omega + io_az phi.
  Lemma Or_pos : 0 < sqrt k ^ 3 / amp.
  Proof. apply Rdiv_lt_0_compat; [apply pow_lt, sk_pos|exact Pamp]. Qed.
  Lemma angles_eq phi : ia_angles amp b R vR vT z vz phi = Some (mkAngles (modulo io_ar (2 * PI)) (modulo (io_ap phi) (2 * PI)) (modulo (io_az phi) (2 * PI))).
  Proof.
    unfold ia_angles. rewrite freqs_eq. cbv zeta. cbn [Or Oz Op]. rewrite c_eq, e2_eq. fold e.
    destruct (Rle_dec e2 0) as [A|A]; [exfalso; pose proof Pe; lra|]. destruct (Req_EM_T L2 0) as [B|B]; [exfalso; pose proof PL; lra|].
    rewrite LS_ratio. change (ia_Lz R vT) with (R * vT). fold kap. fold io_ar.
    assert (Q : / 2 * (1 + L / S) * (sqrt k ^ 3 / amp) / (sqrt k ^ 3 / amp) = rho) by (unfold io_rho; pose proof Or_pos; field; repeat split; pose proof S_pos; try lra; pose proof sk_pos; lra).
    rewrite Q. reflexivity.
  Qed.
  (** Kepler's equation *)
  Lemma ar_range : 0 <= io_ar < 2 * PI.
  Proof. apply kepler_range; [pose proof kap_range; lra|apply eta_trig]. Qed.
  (** ** The inverse transformation at the angles of the point *)
  Variable K : RR -> RR -> RR.
  Hypothesis HK : kepler_solver K.
  Lemma K_eta : K kap io_ar = eta.
  Proof. pose proof kap_range. apply (kepler_unique kap); [lra|]. apply HK. lra. Qed.
  Lemma e_inv : sqrt (1 + L2 / (2 * E * c ^ 2)) = e.
  Proof. unfold io_e. f_equal. unfold io_e2, io_k. pose proof c_pos. pose proof k_pos as Q. unfold io_k in Q. field. lra. Qed.
  Lemma r_inv : c * sqrt ((1 - e * cos eta) * (1 - e * cos eta + 2 * b / c)) = r.
  Proof.
    destruct eta_trig as (_ & CE & _). rewrite CE. pose proof c_pos. pose proof w_pos. pose proof r_pos. apply (Rmult_eq_reg_l (/ c)); [|apply Rinv_neq_0_compat; lra].
    rewrite <- Rmult_assoc, Rinv_l, Rmult_1_l by lra. apply sqrt_of_sq; [apply Rmult_le_pos; [apply Rlt_le, Rinv_0_lt_compat; lra|lra]|].
    rewrite Rpow_mult_distr, r_sq, r2_w. field. lra.
  Qed.
  Lemma vr_inv : sqrt (amp / (c + b)) * c * e * sin eta / r = p / r.
  Proof. destruct eta_trig as (_ & _ & SE). pose proof c_pos. replace (amp / (c + b)) with k by (rewrite <- kcb; field; lra). rewrite SE. reflexivity. Qed.
  Lemma g2_inv : (c * (1 + e) + 2 * b) / (c * (1 - e) + 2 * b) = (1 + e + 2 * b / c) / (1 - e + 2 * b / c).
  Proof.
    pose proof c_pos. pose proof e_lt_1. assert (0 < c * (1 - e)) by (apply Rmult_lt_0_compat; lra). assert (0 <= 2 * b / c) by (apply Rmult_le_pos; [lra|apply Rlt_le, Rinv_0_lt_compat; lra]).
    field. repeat split; lra.
  Qed.
  Lemma lower_inv : sqrt (1 - (R * vT) ^ 2 / L2) = D / L.
  Proof.
    pose proof L_pos. apply sqrt_of_sq; [apply Rmult_le_pos; [apply sqrt_pos|apply Rlt_le, Rinv_0_lt_compat; lra]|]. replace ((D / L) ^ 2) with (D ^ 2 / L ^ 2) by (field; lra). rewrite D_sq, L_sq. field. lra.
  Qed.
  Lemma ratio_inv : Oz (ii_freqs amp b io_J) / Or (ii_freqs amp b io_J) = rho.
  Proof.
    unfold ii_freqs. cbv zeta. cbn [Oz Or]. rewrite J_L, J_S, J_H. fold k. rewrite rpow_3_2 by apply k_pos. pose proof Or_pos as O. set (o := sqrt k ^ 3 / amp) in *. unfold io_rho. pose proof S_pos. field. lra.
  Qed.
  Lemma inv_eq ap az : ii_xv amp b K io_J (mkAngles (modulo io_ar (2 * PI)) ap az) =
    let psi := az - rho * io_ar + (ia_tan11 e eta + L / S * ia_tan12 b c e eta) in
    let st := sin psi * (D / L) in
    let ct := sqrt (1 - st ^ 2) in
    let vt := L * (D / L) * cos psi / ct / r in
    let phi := if Req_EM_T (D / L) 0 then psi
               else let u := asin (st / ct * (R * vT) / L / (D / L)) in
                    ap - sign (R * vT) * az + (if Rlt_dec vt 0 then PI - u else u) in
    let phi := modulo phi (2 * PI) in
    mkPhase (r * ct) (p / r * ct - vt * st) (R * vT / (r * ct)) (r * st) (p / r * st + vt * ct) phi.
  Proof.
    unfold ii_xv. cbv zeta. cbn [Ar Ap Az]. rewrite J_L, J_S, J_H, L_sq. fold (ia_c amp b E). rewrite c_eq, e_inv, ratio_inv.
    pose proof PI_RGT_0. rewrite (modulo_id io_ar) by apply ar_range. rewrite modulo_neg_id by apply ar_range.
    replace (c * e / (c + b)) with kap by (unfold io_kap; f_equal; ring). rewrite K_eta, r_inv, vr_inv, g2_inv. change (Jphi io_J) with (R * vT). rewrite lower_inv.
    unfold ia_tan11, ia_tan12. replace (/ 2 * eta) with (eta / 2) by field. f_equal.
    match goal with |- (if Rlt_dec (modulo ?x ?m) 0 then _ else _) = _ => destruct (Rlt_dec (modulo x m) 0) as [Q|Q]; [exfalso; pose proof (modulo_range x m ltac:(lra)); lra|] end. reflexivity.
  Qed.
  Definition io_point phi := mkPhase R vR vT z vz (modulo phi (2 * PI)).
  (** planar orbits *)
  Lemma inv_planar phi : z = 0 -> vz = 0 -> ii_xv amp b K io_J (mkAngles (modulo io_ar (2 * PI)) (modulo (io_ap phi) (2 * PI)) (modulo (io_az phi) (2 * PI))) = io_point phi.
  Proof.
    intros Z Vz. rewrite inv_eq. assert (D0 : D = 0). { replace (L2 - (R * vT) ^ 2) with 0 by (rewrite L2_q; unfold io_q; rewrite Z, Vz; ring). apply sqrt_0. }
    assert (Rr : r = R) by (unfold io_r; rewrite Z; apply sqrt_of_sq; [lra|ring]). assert (Pp : p = R * vR) by (unfold io_p; rewrite Z; ring).
    assert (PS : ia_psi L2 (R * vT) R vR z vz phi = modulo phi (2 * PI)).
    { unfold ia_psi. cbv zeta. rewrite L_sq, D0. destruct (Req_EM_T (0 / L) 0) as [Q|Q]; [reflexivity|exfalso; apply Q; unfold Rdiv; ring]. }
    cbv zeta. rewrite D0, Rr, Pp. replace (0 / L) with 0 by (unfold Rdiv; ring). rewrite !Rmult_0_r. replace (1 - 0 ^ 2) with 1 by ring. rewrite sqrt_1.
    destruct (Req_EM_T 0 0) as [_|Q]; [|exfalso; apply Q; reflexivity]. unfold io_point. f_equal; try (rewrite ?Z, ?Vz; field; lra).
    apply modulo_same_eq. apply (same_trans _ (io_az phi - rho * io_ar + (ia_tan11 e eta + L / S * ia_tan12 b c e eta))); [apply same_plus; [apply same_minus; [apply modulo_same|]|]; apply same_refl|].
    unfold io_az. rewrite PS. match goal with |- same_angle ?x _ => replace x with (modulo phi (2 * PI)) by ring end. apply modulo_same.
  Qed.
  Hypothesis PD : 0 < D.
  Lemma psi_trig phi : sin (ia_psi L2 (R * vT) R vR z vz phi) * (r * D) = z * L /\ cos (ia_psi L2 (R * vT) R vR z vz phi) * (r * D) = - q * R.
  Proof.
    pose proof r_pos as Pr. pose proof L_pos as Lp. pose proof r_sq as RS. pose proof L_sq as LS. pose proof D_sq as DS. unfold ia_psi. cbv zeta. rewrite LS.
    destruct (Req_EM_T (D / L) 0) as [Z|Z]; [exfalso; assert (0 < D / L) by (apply Rdiv_lt_0_compat; assumption); lra|].
    assert (X : z / sqrt (R ^ 2 + z ^ 2) / (D / L) = z * L / (r * D)) by (fold r; field; lra). rewrite X.
    assert (SQ : (- q * (R / (r * D))) ^ 2 = 1 - (z * L / (r * D)) ^ 2).
    { assert (Hh : R ^ 2 * q ^ 2 + z ^ 2 * L2 = (R ^ 2 + z ^ 2) * (L2 - (R * vT) ^ 2)) by (rewrite L2_q; ring).
      replace ((- q * (R / (r * D))) ^ 2) with (R ^ 2 * q ^ 2 / (r ^ 2 * D ^ 2)) by (field; lra). replace ((z * L / (r * D)) ^ 2) with (z ^ 2 * L ^ 2 / (r ^ 2 * D ^ 2)) by (field; lra).
      rewrite RS, DS, LS. assert (N1 : R ^ 2 + z ^ 2 <> 0) by nra. assert (N2 : L2 - (R * vT) ^ 2 <> 0) by (rewrite <- DS; apply Rgt_not_eq, pow_lt, PD).
      apply (Rmult_eq_reg_r ((R ^ 2 + z ^ 2) * (L2 - (R * vT) ^ 2))); [|apply Rmult_integral_contrapositive_currified; assumption]. transitivity (R ^ 2 * q ^ 2); [field; split; assumption|].
      transitivity ((R ^ 2 + z ^ 2) * (L2 - (R * vT) ^ 2) - z ^ 2 * L2); [lra|field; split; assumption]. }
    assert (Px : 0 < R / (r * D)) by (apply Rdiv_lt_0_compat; [exact PR|apply Rmult_lt_0_compat; assumption]).
    destruct (down_sign _ Px) as [D1 D2]. destruct (flipped (z * L / (r * D)) (- q * (R / (r * D))) (ia_down R vR z vz) (unit_of_sq _ _ SQ) SQ D1 D2) as [S1 C1].
    rewrite (same_sin _ _ (modulo_same _)), (same_cos _ _ (modulo_same _)), S1, C1. split; field; lra.
  Qed.
  Lemma u_trig phi : R * vT <> 0 -> sin (ia_u L2 (R * vT) R vR z vz phi) * (R * D) = z * (R * vT) /\ cos (ia_u L2 (R * vT) R vR z vz phi) * D = - q.
  Proof.
    intros N. pose proof L_sq as LS. pose proof D_sq as DS. unfold ia_u. cbv zeta. rewrite LS.
    destruct (Req_EM_T (R * vT) 0) as [Z0|Z0]; [contradiction|].
    destruct (Req_EM_T (D / (R * vT)) 0) as [Z|Z]; [exfalso; apply Z0; assert (Y : D = D / (R * vT) * (R * vT)) by (field; split; [intros Q; apply N; rewrite Q; ring|lra]); rewrite Z in Y; lra|].
    assert (NT : vT <> 0) by (intros Q; apply N; rewrite Q; ring).
    assert (X : z / R / (D / (R * vT)) = z * (R * vT) / (R * D)) by (field; split; [lra|split; lra]). rewrite X.
    assert (SQ : (- q * (/ D)) ^ 2 = 1 - (z * (R * vT) / (R * D)) ^ 2).
    { assert (Hh : q ^ 2 + z ^ 2 * vT ^ 2 = L2 - (R * vT) ^ 2) by (rewrite L2_q; ring).
      replace ((- q * (/ D)) ^ 2) with (q ^ 2 / D ^ 2) by (field; lra). replace ((z * (R * vT) / (R * D)) ^ 2) with (z ^ 2 * vT ^ 2 / D ^ 2) by (field; lra).
      assert (N2 : D ^ 2 <> 0) by (apply Rgt_not_eq, pow_lt, PD). apply (Rmult_eq_reg_r (D ^ 2)); [|exact N2]. transitivity (q ^ 2); [field; lra|]. transitivity (D ^ 2 - z ^ 2 * vT ^ 2); [rewrite DS; lra|field; lra]. }
    assert (Px : 0 < / D) by (apply Rinv_0_lt_compat, PD).
    destruct (down_sign _ Px) as [D1 D2]. destruct (flipped (z * (R * vT) / (R * D)) (- q * / D) (ia_down R vR z vz) (unit_of_sq _ _ SQ) SQ D1 D2) as [S1 C1].
    rewrite S1, C1. split; field; lra.
  Qed.
  Lemma inv_inclined phi : R * vT <> 0 ->
    ii_xv amp b K io_J (mkAngles (modulo io_ar (2 * PI)) (modulo (io_ap phi) (2 * PI)) (modulo (io_az phi) (2 * PI))) = io_point phi.
  Proof.
    intros N. rewrite inv_eq. cbv zeta. pose proof r_pos as Pr. pose proof L_pos as Lp. pose proof r_sq as RS.
    set (psi' := modulo (io_az phi) (2 * PI) - rho * io_ar + (ia_tan11 e eta + L / S * ia_tan12 b c e eta)).
    assert (SP : same_angle psi' (ia_psi L2 (R * vT) R vR z vz phi)).
    { apply (same_trans _ (io_az phi - rho * io_ar + (ia_tan11 e eta + L / S * ia_tan12 b c e eta))); [apply same_plus; [apply same_minus; [apply modulo_same|]|]; apply same_refl|].
      unfold io_az. match goal with |- same_angle ?x ?y => replace x with y by ring end. apply same_refl. }
    destruct (psi_trig phi) as [S1 C1]. rewrite <- (same_sin _ _ SP) in S1. rewrite <- (same_cos _ _ SP) in C1.
    assert (S1' : sin psi' * (D / L) = z / r). { apply (Rmult_eq_reg_r (r * L)); [|apply Rgt_not_eq, Rmult_lt_0_compat; assumption]. transitivity (sin psi' * (r * D)); [field; lra|]. rewrite S1. field. lra. }
    assert (C1' : L * (D / L) * cos psi' = - q * R / r). { apply (Rmult_eq_reg_r r); [|lra]. transitivity (cos psi' * (r * D)); [field; lra|]. rewrite C1. field. lra. }
    rewrite S1', C1'. assert (CT : sqrt (1 - (z / r) ^ 2) = R / r). { apply sqrt_of_sq; [apply Rlt_le, Rdiv_lt_0_compat; assumption|]. replace ((R / r) ^ 2) with (R ^ 2 / r ^ 2) by (field; lra). replace ((z / r) ^ 2) with (z ^ 2 / r ^ 2) by (field; lra). rewrite RS. field. nra. }
    rewrite CT. assert (VT : - q * R / r / (R / r) / r = - q / r) by (field; lra). rewrite VT.
    assert (RSn : R ^ 2 + z ^ 2 <> 0) by nra.
    destruct (Req_EM_T (D / L) 0) as [Q|_]; [exfalso; assert (0 < D / L) by (apply Rdiv_lt_0_compat; assumption); lra|].
    assert (SU : z / r / (R / r) * (R * vT) / L / (D / L) = z * vT / D) by (field; lra). rewrite SU.
    assert (UU : (if Rlt_dec (- q / r) 0 then PI - asin (z * vT / D) else asin (z * vT / D)) = ia_u L2 (R * vT) R vR z vz phi).
    { assert (NT : vT <> 0) by (intros Q; apply N; rewrite Q; ring). unfold ia_u. cbv zeta. rewrite L_sq. destruct (Req_EM_T (R * vT) 0) as [Q|_]; [contradiction|].
      destruct (Req_EM_T (D / (R * vT)) 0) as [Q|_]; [exfalso; assert (Y : D = D / (R * vT) * (R * vT)) by (field; split; [exact NT|lra]); rewrite Q in Y; lra|].
      assert (X : z / R / (D / (R * vT)) = z * vT / D) by (field; lra). rewrite X.
      assert (SQ : (q / D) ^ 2 = 1 - (z * vT / D) ^ 2).
      { assert (Hh : q ^ 2 + z ^ 2 * vT ^ 2 = D ^ 2) by (rewrite D_sq, L2_q; ring). replace ((q / D) ^ 2) with (q ^ 2 / D ^ 2) by (field; lra). replace (q ^ 2) with (D ^ 2 - z ^ 2 * vT ^ 2) by lra. field. lra. }
      rewrite clip_id by (apply (unit_of_sq _ _ SQ)).
      destruct (Rlt_dec (- q / r) 0) as [A|A]; destruct (ia_down R vR z vz) eqn:Dn; try reflexivity; exfalso.
      - assert (~ 0 < q) by (intros B; apply down_q in B; congruence). apply H. apply (Rmult_lt_reg_r (/ r)); [apply Rinv_0_lt_compat; exact Pr|]. rewrite Rmult_0_l. unfold Rdiv in A. lra.
      - apply down_q in Dn. apply A. assert (0 < q / r) by (apply Rdiv_lt_0_compat; assumption). unfold Rdiv in *. lra. }
    rewrite UU. unfold io_point. f_equal.
    - field. lra.
    - transitivity ((p * R + q * z) / r ^ 2); [field; lra|]. rewrite RS. unfold io_p, io_q. field. exact RSn.
    - field. lra.
    - field. lra.
    - transitivity ((p * z - q * R) / r ^ 2); [field; lra|]. rewrite RS. unfold io_p, io_q. field. exact RSn.
    - apply modulo_same_eq. unfold io_ap, sign. cbv zeta. set (u := ia_u L2 (R * vT) R vR z vz phi). destruct (Rlt_dec (R * vT) 0) as [A|A].
      + apply (same_trans _ ((phi - u - io_az phi) + io_az phi + u)); [|match goal with |- same_angle ?x ?y => replace x with y by ring end; apply same_refl].
        apply same_plus; [|apply same_refl]. match goal with |- same_angle (?x - -1 * ?y) _ => replace (x - -1 * y) with (x + y) by ring end. apply same_plus; apply modulo_same.
      + destruct (Rlt_dec 0 (R * vT)) as [B|B]; [|exfalso; apply N; lra]. apply (same_trans _ ((phi - u + io_az phi) - io_az phi + u)); [|match goal with |- same_angle ?x ?y => replace x with y by ring end; apply same_refl].
        apply same_plus; [|apply same_refl]. match goal with |- same_angle (?x - 1 * ?y) _ => replace (x - 1 * y) with (x - y) by ring end. apply same_minus; apply modulo_same.
  Qed.
  (** On orbits through the axis the inverse leaves the vertical angle in the azimuth. *)
  Lemma inv_polar phi : R * vT = 0 ->
    same_angle (ph_phi (ii_xv amp b K io_J (mkAngles (modulo io_ar (2 * PI)) (modulo (io_ap phi) (2 * PI)) (modulo (io_az phi) (2 * PI))))) (phi + modulo (io_az phi) (2 * PI)).
  Proof.
    intros N. assert (NT : vT = 0) by (apply Rmult_integral in N; destruct N; [lra|assumption]). rewrite inv_eq. cbv zeta. pose proof r_pos as Pr. pose proof L_pos as Lp. pose proof r_sq as RS.
    set (psi' := modulo (io_az phi) (2 * PI) - rho * io_ar + (ia_tan11 e eta + L / S * ia_tan12 b c e eta)).
    assert (SP : same_angle psi' (ia_psi L2 (R * vT) R vR z vz phi)).
    { apply (same_trans _ (io_az phi - rho * io_ar + (ia_tan11 e eta + L / S * ia_tan12 b c e eta))); [apply same_plus; [apply same_minus; [apply modulo_same|]|]; apply same_refl|].
      unfold io_az. match goal with |- same_angle ?x ?y => replace x with y by ring end. apply same_refl. }
    destruct (psi_trig phi) as [S1 C1]. rewrite <- (same_sin _ _ SP) in S1. rewrite <- (same_cos _ _ SP) in C1.
    assert (S1' : sin psi' * (D / L) = z / r). { apply (Rmult_eq_reg_r (r * L)); [|apply Rgt_not_eq, Rmult_lt_0_compat; assumption]. transitivity (sin psi' * (r * D)); [field; lra|]. rewrite S1. field. lra. }
    assert (C1' : L * (D / L) * cos psi' = - q * R / r). { apply (Rmult_eq_reg_r r); [|lra]. transitivity (cos psi' * (r * D)); [field; lra|]. rewrite C1. field. lra. }
    rewrite S1', C1'. assert (CT : sqrt (1 - (z / r) ^ 2) = R / r). { apply sqrt_of_sq; [apply Rlt_le, Rdiv_lt_0_compat; assumption|]. replace ((R / r) ^ 2) with (R ^ 2 / r ^ 2) by (field; lra). replace ((z / r) ^ 2) with (z ^ 2 / r ^ 2) by (field; lra). rewrite RS. field. nra. }
    rewrite CT. assert (VT : - q * R / r / (R / r) / r = - q / r) by (field; lra). rewrite VT.
    destruct (Req_EM_T (D / L) 0) as [Q|_]; [exfalso; assert (0 < D / L) by (apply Rdiv_lt_0_compat; assumption); lra|].
    assert (SU : z / r / (R / r) * (R * vT) / L / (D / L) = 0) by (replace (z / r / (R / r) * (R * vT)) with 0 by (rewrite N; ring); unfold Rdiv; ring). rewrite SU.
    assert (UU : (if Rlt_dec (- q / r) 0 then PI - asin 0 else asin 0) = ia_u L2 (R * vT) R vR z vz phi).
    { unfold ia_u. cbv zeta. destruct (Req_EM_T (R * vT) 0) as [_|Q]; [|contradiction].
      destruct (Rlt_dec (- q / r) 0) as [A|A]; destruct (ia_down R vR z vz) eqn:Dn; try reflexivity; exfalso.
      - assert (~ 0 < q) by (intros B; apply down_q in B; congruence). apply H. apply (Rmult_lt_reg_r (/ r)); [apply Rinv_0_lt_compat; exact Pr|]. rewrite Rmult_0_l. unfold Rdiv in A. lra.
      - apply down_q in Dn. apply A. assert (0 < q / r) by (apply Rdiv_lt_0_compat; assumption). unfold Rdiv in *. lra. }
    rewrite UU. cbn [ph_phi]. set (u := ia_u L2 (R * vT) R vR z vz phi). unfold sign. destruct (Rlt_dec (R * vT) 0); [lra|]. destruct (Rlt_dec 0 (R * vT)); [lra|].
    match goal with |- same_angle (modulo ?x _) _ => apply (same_trans _ x); [apply modulo_same|] end.
    apply (same_trans _ ((phi - u + io_az phi) - 0 * modulo (io_az phi) (2 * PI) + u)).
    - apply same_plus; [|apply same_refl]. apply same_minus; [|apply same_refl]. apply (same_trans _ (io_ap phi)); [apply modulo_same|]. unfold io_ap. cbv zeta. destruct (Rlt_dec (R * vT) 0); [lra|]. apply same_refl.
    - replace (phi - u + io_az phi - 0 * modulo (io_az phi) (2 * PI) + u) with (phi + io_az phi) by ring. apply same_plus; [apply same_refl|apply same_sym, modulo_same].
  Qed.
End Point.
