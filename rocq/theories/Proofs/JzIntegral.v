(** The latitudinal action of a spherical potential in closed form. *)
From Coq Require Import Reals Lra.
From Coquelicot Require Import Coquelicot.
From Verif.Lib Require Import RealAux.
From Verif.Proofs Require Import EOMProofs StaeckelProofs KuzminKutuzovProofs ChiPrim.
Open Scope R_scope.
Notation RR := RbaseSymbolsImpl.R (only parsing).
Ltac rr := match goal with |- ?a = ?b => change (@eq RR a b) end.

Section Jz.
  Variables (L Lz : RR).
  Hypotheses (HL : 0 < Lz <= L).
  Let c := Lz / L.
  Let s := sqrt (1 - c ^ 2).
  Lemma c_in : 0 < c <= 1.
  Proof. unfold c. split; [apply Rdiv_lt_0_compat; lra|]. apply (Rmult_le_reg_r L); [lra|]. replace (Lz / L * L) with Lz by (field; lra). lra. Qed.
  Lemma s_in : 0 <= s < 1 /\ s ^ 2 = 1 - c ^ 2.
  Proof.
    pose proof c_in. assert (Q : s ^ 2 = 1 - c ^ 2) by (apply pow2_sqrt; nra). pose proof (sqrt_pos (1 - c ^ 2)) as P. fold s in P. split; [|exact Q]. split; [exact P|]. assert (0 < c ^ 2) by (apply pow_lt; lra). nra.
  Qed.
  Let D (p : RR) : RR := cos p ^ 2 + c * sin p ^ 2.
  Lemma D_pos p : 0 < D p.
  Proof. pose proof c_in. unfold D. pose proof (sin2_cos2 p) as E. unfold Rsqr in E. pose proof (pow2_ge_0 (cos p)). pose proof (pow2_ge_0 (sin p)). destruct (Rle_dec (sin p ^ 2) 0); nra. Qed.
  Let h (p : RR) : RR := (1 - c) * (sin p * cos p) / D p.
  (** The closed form of the integral of cos^2 over 1 - s^2 sin^2. *)
  Let G (p : RR) : RR := L * p - L * c * (p - atan (h p)).
  Lemma dG p : is_derive G p (L * s * cos p / sqrt (1 - (s * sin p) ^ 2) * (s * cos p / sqrt (1 - (s * sin p) ^ 2))).
  Proof.
    pose proof (D_pos p) as DP. pose proof s_in as [[S0 S1] S2]. pose proof c_in as C. pose proof (sin2_cos2 p) as E. unfold Rsqr in E.
    assert (K : 1 - (s * sin p) ^ 2 = cos p ^ 2 + c ^ 2 * sin p ^ 2) by (replace ((s * sin p) ^ 2) with (s ^ 2 * sin p ^ 2) by ring; rewrite S2; lra).
    assert (KP : 0 < cos p ^ 2 + c ^ 2 * sin p ^ 2) by (rewrite <- K; pose proof (pow2_ge_0 (cos p)); pose proof (pow2_ge_0 (sin p)); assert (s ^ 2 < 1) by nra; nra).
    assert (Dc : is_derive (fun p : RR => p) p 1) by apply d_id. pose proof (d_sin _ p 1 Dc) as Ds. pose proof (d_cos _ p 1 Dc) as Dco.
    assert (DD : is_derive D p (2 * cos p * (- sin p * 1) + c * (2 * sin p * (cos p * 1)))) by exact (is_derive_Rplus _ _ p _ _ (d_sq _ p _ Dco) (d_scale _ p c _ (d_sq _ p _ Ds))).
    pose proof (d_quot _ _ p _ _ ltac:(apply Rgt_not_eq; exact DP) (d_scale _ p (1 - c) _ (is_derive_Rmult _ _ p _ _ Ds Dco)) DD) as Dh. fold (h p) in Dh.
    assert (Da : is_derive atan (h p) (/ (1 + h p ^ 2))) by (apply is_derive_Reals; apply derivable_pt_lim_atan).
    refine (is_derive_eq _ _ _ _ (d_minus _ _ p _ _ (d_scale _ p L _ Dc) (d_scale _ p (L * c) _ (d_minus _ _ p _ _ Dc (is_derive_Rchain atan h p _ _ Da Dh)))) _).
    rr. assert (Q : sqrt (1 - (s * sin p) ^ 2) ^ 2 = 1 - (s * sin p) ^ 2) by (apply pow2_sqrt; lra).
    assert (QP : 0 < sqrt (1 - (s * sin p) ^ 2)) by (apply sqrt_lt_R0; lra).
    replace (L * s * cos p / sqrt (1 - (s * sin p) ^ 2) * (s * cos p / sqrt (1 - (s * sin p) ^ 2))) with (L * s ^ 2 * cos p ^ 2 / (sqrt (1 - (s * sin p) ^ 2) ^ 2)) by (field; lra).
    rewrite Q, K, S2. clear Q QP K Dh DD Ds Dco Dc Da. unfold h. unfold D in *. set (C0 := cos p) in *. set (S' := sin p) in *. clearbody C0 S' c s. cbv beta.
    assert (E' : S' ^ 2 = 1 - C0 ^ 2) by (simpl; lra). clear E.
    assert (HH : 1 + ((1 - c) * (S' * C0) / (C0 ^ 2 + c * S' ^ 2)) ^ 2 = (C0 ^ 2 + c ^ 2 * S' ^ 2) / (C0 ^ 2 + c * S' ^ 2) ^ 2).
    { transitivity ((C0 ^ 2 + c ^ 2 * S' ^ 2) * (S' ^ 2 + C0 ^ 2) / (C0 ^ 2 + c * S' ^ 2) ^ 2); [field; lra|]. rewrite E'. field. rewrite <- E'. lra. }
    rewrite HH. transitivity (L - L * c * (1 - ((1 - c) * (C0 ^ 2 - S' ^ 2) * (C0 ^ 2 + c * S' ^ 2) + 2 * (1 - c) ^ 2 * C0 ^ 2 * S' ^ 2) / (C0 ^ 2 + c ^ 2 * S' ^ 2))); [field; lra|].
    rewrite E' in *. field. lra.
  Qed.
  Let f (th : RR) : RR := sqrt (L ^ 2 - Lz ^ 2 / sin th ^ 2).
  Let th (p : RR) : RR := acos (s * sin p).
  Lemma ss_in p : -1 < s * sin p < 1.
  Proof. pose proof s_in as [[S0 S1] _]. pose proof (SIN_bound p). nra. Qed.
  Lemma f_th p : 0 <= cos p -> f (th p) = L * s * cos p / sqrt (1 - (s * sin p) ^ 2).
  Proof.
    intros C0. pose proof (ss_in p) as B. pose proof s_in as [[S0 S1] S2]. pose proof c_in as C. unfold f, th. rewrite sin_acos by lra.
    assert (KP : 0 < 1 - (s * sin p) ^ 2) by nra. replace (sqrt (1 - (s * sin p)²) ^ 2) with (1 - (s * sin p) ^ 2) by (rewrite pow2_sqrt; unfold Rsqr; [ring|nra]). pose proof (sqrt_lt_R0 _ KP) as QP.
    assert (Y : 0 <= L * s * cos p) by (apply Rmult_le_pos; [apply Rmult_le_pos; lra|exact C0]).
    rewrite <- (sqrt_pow2 (L * s * cos p / sqrt (1 - (s * sin p) ^ 2))) by (apply Rdiv_le_0_compat; assumption). f_equal. rr.
    replace ((L * s * cos p / sqrt (1 - (s * sin p) ^ 2)) ^ 2) with (L ^ 2 * s ^ 2 * cos p ^ 2 / sqrt (1 - (s * sin p) ^ 2) ^ 2) by (field; lra). rewrite pow2_sqrt by lra.
    assert (EL : Lz = c * L) by (unfold c; field; lra). rewrite EL. assert (E : cos p ^ 2 = 1 - sin p ^ 2) by (pose proof (sin2_cos2 p) as E; unfold Rsqr in E; simpl; lra).
    replace ((c * L) ^ 2) with (L ^ 2 * (1 - s ^ 2)) by (rewrite S2; ring). rewrite E. field. lra.
  Qed.
  Theorem jz_integral : is_RInt f (asin (Lz / L)) (PI / 2) (PI / 2 * (L - Lz)).
  Proof.
    pose proof s_in as [[S0 S1] S2]. pose proof c_in as C. pose proof PI_RGT_0 as PP.
    set (dth := fun p => - (s * cos p) / sqrt (1 - (s * sin p) ^ 2)).
    assert (Dth : forall p, is_derive th p (dth p)).
    { intros p. unfold th, dth. refine (is_derive_eq _ _ _ _ (d_acos (fun p => s * sin p) p _ (ss_in p) (d_scale sin p s (cos p) _)) _); [|reflexivity]. refine (is_derive_eq _ _ _ _ (d_sin (fun p => p) p 1 (d_id p)) _). rr. ring. }
    assert (Cd : forall p, continuous dth p).
    { intros p. assert (KP : 0 < 1 - (s * sin p) ^ 2) by (pose proof (ss_in p); nra). unfold dth. apply (@ex_derive_continuous R_AbsRing R_NormedModule). auto_derive. split; [lra|]. split; [|exact I]. apply Rgt_not_eq, sqrt_lt_R0. lra. }
    assert (Cf : forall p, continuous f (th p)).
    { intros p. assert (SP : 0 < sin (th p)) by (unfold th; rewrite sin_acos by (pose proof (ss_in p); lra); apply sqrt_lt_R0; unfold Rsqr; pose proof (ss_in p); nra).
      unfold f. apply (continuous_comp (fun x => L ^ 2 - Lz ^ 2 / sin x ^ 2) sqrt); [|apply continuous_sqrt]. apply (@ex_derive_continuous R_AbsRing R_NormedModule). auto_derive. apply Rgt_not_eq. nra. }
    assert (I1 : is_RInt (fun p => scal (dth p) (f (th p))) 0 (PI / 2) (RInt f (th 0) (th (PI / 2)))).
    { apply (is_RInt_comp (V := R_CompleteNormedModule) f th dth); intros p _; [apply Cf|split; [apply Dth|apply Cd]]. }
    assert (I2 : is_RInt (fun p => scal (dth p) (f (th p))) 0 (PI / 2) (- (PI / 2 * (L - Lz)))).
    { replace (- (PI / 2 * (L - Lz))) with (minus (- G (PI / 2)) (- G 0)).
      - apply (is_RInt_derive (V := R_CompleteNormedModule) (fun p => - G p)).
        + intros p Hp. rewrite Rmin_left, Rmax_right in Hp by lra. assert (Co : 0 <= cos p) by (apply cos_ge_0; lra).
          refine (is_derive_eq _ _ _ _ (is_derive_opp G p _ (dG p)) _). rewrite (f_th p Co). unfold dth, scal, opp; simpl; unfold mult; simpl. assert (KP : 0 < 1 - (s * sin p) ^ 2) by (pose proof (ss_in p); nra). pose proof (sqrt_lt_R0 _ KP). rr. field. simpl in *. lra.
        + intros p Hp. apply (continuous_mult dth (fun p => f (th p))); [apply Cd|]. apply (continuous_comp th f); [eapply cont_derive; apply Dth|apply Cf].
      - assert (H0 : h 0 = 0) by (unfold h; rewrite sin_0; unfold Rdiv; ring). assert (H1 : h (PI / 2) = 0) by (unfold h; rewrite cos_PI2; unfold Rdiv; ring).
        unfold minus, plus, opp; simpl. unfold G. rewrite H0, H1, atan_0. unfold c. rr. field. lra. }
    pose proof (is_RInt_unique (V := R_CompleteNormedModule) _ _ _ _ I1) as U1. rewrite (is_RInt_unique (V := R_CompleteNormedModule) _ _ _ _ I2) in U1.
    assert (T0 : th 0 = PI / 2) by (unfold th; rewrite sin_0, Rmult_0_r; apply acos_0).
    assert (Sc : sin (acos s) = c) by (rewrite sin_acos by lra; rewrite Rsqr_pow2, S2; replace (1 - (1 - c ^ 2)) with (c ^ 2) by ring; apply sqrt_pow2; lra).
    assert (Ba : 0 < acos s <= PI / 2).
    { pose proof (acos_bound s) as B. split.
      - destruct (proj1 B) as [P|P]; [exact P|]. rewrite <- P, sin_0 in Sc. lra.
      - apply Rnot_lt_le. intros X. pose proof (cos_lt_0 (acos s) X ltac:(lra)) as Y. rewrite cos_acos in Y by lra. lra. }
    assert (T1 : th (PI / 2) = asin (Lz / L)) by (unfold th; rewrite sin_PI2, Rmult_1_r; fold c; rewrite <- Sc; symmetry; apply asin_sin; lra).
    rewrite T0, T1 in U1. assert (Ea : acos s = asin (Lz / L)) by (rewrite <- T1; unfold th; rewrite sin_PI2, Rmult_1_r; reflexivity). rewrite <- Ea in *.
    assert (X : ex_RInt f (acos s) (PI / 2)).
    { apply (ex_RInt_continuous (V := R_CompleteNormedModule)). intros x Hx. rewrite Rmin_left, Rmax_right in Hx by lra. assert (SP : 0 < sin x) by (apply sin_gt_0; lra).
      unfold f. apply (continuous_comp (fun x => L ^ 2 - Lz ^ 2 / sin x ^ 2) sqrt); [|apply continuous_sqrt]. apply (@ex_derive_continuous R_AbsRing R_NormedModule). auto_derive. apply Rgt_not_eq. nra. }
    pose proof (RInt_correct (V := R_CompleteNormedModule) _ _ _ X) as I3. replace (PI / 2 * (L - Lz)) with (RInt f (acos s) (PI / 2)); [exact I3|].
    rewrite <- (opp_RInt_swap (V := R_CompleteNormedModule) f (PI / 2) (acos s)) by (apply ex_RInt_swap; exact X). rewrite <- U1. unfold opp; simpl. rr. ring.
  Qed.
End Jz.
