(** Marginals along lines of sight and the draws of the samplers of the disk distribution functions. *)
From Coq Require Import Reals Lra Lia ZArith.
From Coquelicot Require Import Coquelicot.
From Verif.Lib Require Import RealAux.
From Verif.Model Require Import DiskDF.
From Verif.Spec Require Import DiskDFSpec.
From Verif.Proofs Require Import JeansProofs DiskDFForm DiskDFDeriv DiskBox DiskDFMoments DiskDFMore.
Open Scope R_scope.
Notation RR := RbaseSymbolsImpl.R (only parsing).
Ltac rr := match goal with |- ?a = ?b => change (@eq RR a b) end.

(** *** Marginals *)
Lemma affine_where (H : RR -> RR) u c m n (inside : RR -> Prop) : u <> 0 -> 0 <= n -> (forall lo hi, ex_RInt H lo hi) ->
  (forall s, inside s <-> Rabs (s - (u * m + c)) <= n * Rabs u) -> integral_where inside H (RInt (fun y => H (u * y + c)) (m - n) (m + n) * Rabs u).
Proof.
  intros Hu Hn X HI. pose proof (Rabs_pos_lt u Hu) as Pu. assert (W : 0 <= n * Rabs u) by (apply Rmult_le_pos; lra).
  exists (u * m + c - n * Rabs u), (u * m + c + n * Rabs u). split; [lra|]. split.
  { intros s. rewrite HI. split; intros K; [apply Rabs_le; lra|apply Rabs_le_between in K; lra]. }
  assert (E : RInt (fun y => H (u * y + c)) (m - n) (m + n) * u = RInt H (u * (m - n) + c) (u * (m + n) + c)).
  { rewrite <- (RInt_comp_lin (V := R_CompleteNormedModule) H u c (m - n) (m + n) (X _ _)). rewrite Rmult_comm. symmetry. apply (RInt_k (fun y => H (u * y + c))).
    apply (ex_RInt_ext (fun y => scal (/ u) (scal u (H (u * y + c))))).
    - intros x _. unfold scal; cbn; unfold mult; cbn. rr. field. exact Hu.
    - apply (ex_RInt_scal (V := R_NormedModule) (fun y => scal u (H (u * y + c)))). apply (ex_RInt_comp_lin (V := R_NormedModule) H u c). apply X. }
  assert (F : RInt (fun y => H (u * y + c)) (m - n) (m + n) * Rabs u = RInt H (u * m + c - n * Rabs u) (u * m + c + n * Rabs u)).
  { unfold Rabs. destruct (Rcase_abs u) as [q|q].
    - rewrite Ropp_mult_distr_r_reverse, E. replace (u * m + c - n * - u) with (u * (m + n) + c) by ring. replace (u * m + c + n * - u) with (u * (m - n) + c) by ring.
      exact (opp_RInt_swap (V := R_CompleteNormedModule) H _ _ (X _ _)).
    - rewrite E. f_equal; ring. }
  rewrite F. apply (RInt_correct (V := R_CompleteNormedModule)). apply X.
Qed.
Lemma flip_where (inside : RR -> Prop) (G : RR -> RR) I : integral_where inside G I -> integral_where (fun s => inside (- s)) (fun s => G (- s)) I.
Proof.
  intros (lo & hi & L & HI & J). exists (- hi), (- lo). split; [lra|]. split; [intros s; rewrite <- HI; lra|].
  pose proof (is_RInt_comp_lin (V := R_NormedModule) G (-1) 0 (- hi) (- lo)) as K. replace (-1 * - hi + 0) with hi in K by ring. replace (-1 * - lo + 0) with lo in K by ring.
  specialize (K _ (is_RInt_swap (V := R_NormedModule) _ _ _ _ J)). apply (is_RInt_opp (V := R_NormedModule)) in K. rewrite opp_opp in K.
  apply (is_RInt_ext (V := R_NormedModule) (fun y => opp (scal (-1) (G (-1 * y + 0))))); [|exact K]. intros x _. replace (-1 * x + 0) with (- x) by ring. unfold scal, opp; cbn; unfold mult; cbn. rr. ring.
Qed.
Lemma where_ext (i i' : RR -> Prop) (G G' : RR -> RR) I : (forall s, i s <-> i' s) -> (forall s, G s = G' s) -> integral_where i G I -> integral_where i' G' I.
Proof.
  intros A B (lo & hi & L & HI & J). exists lo, hi. split; [exact L|]. split; [intros s; rewrite HI; apply A|]. apply (is_RInt_ext (V := R_NormedModule) G); [intros; apply B|exact J].
Qed.
Lemma inv_tan a : 1 / tan a = cos a / sin a.
Proof. unfold tan, Rdiv. rewrite Rinv_mult, Rinv_inv, Rmult_1_l. apply Rmult_comm. Qed.
Lemma abs_div_le u y k : u <> 0 -> (Rabs (u * y) <= k <-> Rabs y <= k / Rabs u).
Proof.
  intros Hu. pose proof (Rabs_pos_lt u Hu) as P. rewrite Rabs_mult. split; intros H.
  - apply Rmult_le_reg_l with (Rabs u); [exact P|]. replace (Rabs u * (k / Rabs u)) with k by (field; lra). exact H.
  - replace k with (Rabs u * (k / Rabs u)) by (field; lra). apply Rmult_le_compat_l; lra.
Qed.
Section Marg.
  Variables (ty : DFtype) (b : RR) (p : Ssp) (corr : option (RR -> RR * RR)) (R nsigma : RR).
  Hypothesis Hb : -1 < b.
  Hypothesis Hp : profile_ok p.
  Hypothesis HR : 0 < R.
  Hypothesis Hn : 0 <= nsigma.
  Definition on_line (alpha v s : RR) : RR := num (df_at ty b p corr R (vR_of alpha v s) (vT_of alpha v s)).
  Lemma marginal_ok alpha v : (forall lo hi, ex_RInt (on_line alpha v) lo hi) ->
    integral_where (fun s => if Rlt_dec (Rabs (sin alpha)) (sqrt (1 / 2))
                             then Rabs (vT_of alpha v s - (v_circ b R - va_limited b p R)) <= nsigma * sqrt (s2 p R) / gamma_circ b
                             else Rabs (vR_of alpha v s) <= nsigma * sqrt (s2 p R))
      (on_line alpha v) (marginal ty b p corr R alpha v (rpow R b * sin alpha) nsigma).
  Proof.
    intros X. pose proof (sig_pos p Hp R HR) as Ps. unfold sig in Ps. pose proof (g_pos b Hb) as Pg. unfold marginal. cbv zeta. set (sg := sqrt (s2 p R)) in *. change (gam b) with (gamma_circ b).
    pose proof (sin2_cos2 alpha) as SC. unfold Rsqr in SC.
    destruct (Rlt_dec (Rabs (sin alpha)) (sqrt (1 / 2))) as [q|q].
    - assert (Hc : cos alpha <> 0).
      { intros Z. rewrite Z in SC. assert (Rabs (sin alpha) * Rabs (sin alpha) < sqrt (1 / 2) * sqrt (1 / 2)) by (apply Rmult_le_0_lt_compat; try apply Rabs_pos; exact q).
        rewrite <- Rabs_mult, sqrt_sqrt in H by lra. rewrite Rabs_right in H by nra. lra. }
      pose proof (Rabs_pos_lt _ Hc) as Pc. set (u := sg / gamma_circ b / cos alpha). set (c := (rpow R b - v * sin alpha) / cos alpha). set (m := - gamma_circ b * va_limited b p R / sg).
      assert (Hu : u <> 0) by (unfold u; repeat apply Rmult_integral_contrapositive_currified; try apply Rinv_neq_0_compat; lra).
      assert (Au : Rabs u = sg / gamma_circ b / Rabs (cos alpha)) by (unfold u, Rdiv; rewrite Rabs_mult, Rabs_inv, (Rabs_right (sg * / gamma_circ b)); [reflexivity|left; apply Rmult_lt_0_compat; [exact Ps|apply Rinv_0_lt_compat; exact Pg]]).
      replace (marg_small ty b p corr R alpha (v - rpow R b * sin alpha) nsigma sg (va_limited b p R)) with (RInt (fun y => on_line alpha v (u * y + c)) (m - nsigma) (m + nsigma) * Rabs u).
      + apply affine_where; [exact Hu|exact Hn|exact X|]. intros s.
        replace (vT_of alpha v s - (v_circ b R - va_limited b p R)) with (cos alpha * (s - (u * m + c))).
        * rewrite abs_div_le by exact Hc. replace (nsigma * sg / gamma_circ b / Rabs (cos alpha)) with (nsigma * Rabs u) by (rewrite Au; unfold Rdiv; ring). reflexivity.
        * unfold vT_of, u, c, m, v_circ, rpow. field. repeat split; lra.
      + unfold marg_small. cbv zeta. change (gam b) with (gamma_circ b). rewrite Au. fold m. transitivity (RInt (fun y => on_line alpha v (u * y + c)) (m - nsigma) (m + nsigma) / Rabs (cos alpha) * sg / gamma_circ b); [unfold Rdiv; ring|].
        do 3 f_equal. apply RInt_ext. intros y _. unfold on_line. f_equal. f_equal; unfold vR_of, vT_of, u, c, tan.
        * replace (v * cos alpha) with (v * (1 - sin alpha * sin alpha) / cos alpha) by (replace (1 - sin alpha * sin alpha) with (cos alpha * cos alpha) by lra; field; exact Hc) || idtac.
          replace (- v * cos alpha) with (- v * (1 - sin alpha * sin alpha) / cos alpha) by (replace (1 - sin alpha * sin alpha) with (cos alpha * cos alpha) by lra; field; exact Hc). field. repeat split; lra.
        * field. repeat split; lra.
    - assert (Hs : sin alpha <> 0). { intros Z. apply q. rewrite Z, Rabs_R0. apply sqrt_lt_R0. lra. }
      pose proof (Rabs_pos_lt _ Hs) as Pc. set (u := sg / sin alpha). set (c := v * cos alpha / sin alpha).
      assert (Hu : u <> 0) by (unfold u; apply Rmult_integral_contrapositive_currified; try apply Rinv_neq_0_compat; lra).
      assert (Au : Rabs u = sg / Rabs (sin alpha)) by (unfold u, Rdiv; rewrite Rabs_mult, Rabs_inv, (Rabs_right sg); [reflexivity|left; exact Ps]).
      replace (marg_large ty b p corr R alpha (v - rpow R b * sin alpha) nsigma sg) with (RInt (fun y => on_line alpha v (u * y + c)) (0 - nsigma) (0 + nsigma) * Rabs u).
      + apply affine_where; [exact Hu|exact Hn|exact X|]. intros s.
        replace (vR_of alpha v s) with (sin alpha * (s - (u * 0 + c))) by (unfold vR_of, u, c; field; exact Hs).
        rewrite abs_div_le by exact Hs. replace (nsigma * sg / Rabs (sin alpha)) with (nsigma * Rabs u) by (rewrite Au; unfold Rdiv; ring). reflexivity.
      + unfold marg_large. cbv zeta. rewrite Au. rewrite Rminus_0_l, Rplus_0_l. transitivity (RInt (fun y => on_line alpha v (u * y + c)) (- nsigma) nsigma / Rabs (sin alpha) * sg); [unfold Rdiv; ring|].
        do 2 f_equal. apply RInt_ext. intros y _. unfold on_line. f_equal. rewrite inv_tan. f_equal; unfold vR_of, vT_of, u, c.
        * field. exact Hs.
        * replace (v * sin alpha) with (v * (1 - cos alpha * cos alpha) / sin alpha) by (replace (1 - cos alpha * cos alpha) with (sin alpha * sin alpha) by lra; field; exact Hs).
          replace (rpow R b) with (rpow R b * sin alpha / sin alpha) at 2 by (field; exact Hs). field. exact Hs.
  Qed.
End Marg.
Lemma vperp_turn alpha s v : vR_of (PI / 2 + alpha) v (- s) = vR_of alpha s v /\ vT_of (PI / 2 + alpha) v (- s) = vT_of alpha s v.
Proof. unfold vR_of, vT_of. rewrite cos_plus, sin_plus, cos_PI2, sin_PI2. split; ring. Qed.

(** *** Galactic longitude and distance *)
Lemma asin_cos x : -1 <= x <= 1 -> cos (asin x) = sqrt (1 - x ^ 2).
Proof. intros H. rewrite cos_asin by exact H. f_equal. unfold Rsqr. ring. Qed.
Lemma dl_ok d l : 0 <= d -> 1 + d ^ 2 - 2 * d * cos l <> 0 ->
  let '(R, th) := dlToRphi d l in 0 < R /\ R * cos th = 1 - d * cos l /\ R * sin th = d * sin l.
Proof.
  intros Hd N. pose proof (sin2_cos2 l) as SC. unfold Rsqr in SC.
  assert (Q : 1 + d ^ 2 - 2 * d * cos l = (1 - d * cos l) * (1 - d * cos l) + (d * sin l) * (d * sin l)).
  { replace ((1 - d * cos l) * (1 - d * cos l) + (d * sin l) * (d * sin l)) with (1 - 2 * d * cos l + d * d * (sin l * sin l + cos l * cos l)) by ring. rewrite SC. ring. }
  assert (P : 0 < 1 + d ^ 2 - 2 * d * cos l). { destruct (Rtotal_order 0 (1 + d ^ 2 - 2 * d * cos l)) as [H|[H|H]]; [exact H|destruct N; lra|]. rewrite Q in H. pose proof (Rle_0_sqr (1 - d * cos l)). pose proof (Rle_0_sqr (d * sin l)). unfold Rsqr in *. lra. }
  unfold dlToRphi. cbv zeta. pose proof (sqrt_lt_R0 _ P) as PR. set (R := sqrt (1 + d ^ 2 - 2 * d * cos l)) in *. destruct (Req_EM_T R 0) as [Z|_]; [lra|].
  assert (R2 : R * R = (1 - d * cos l) * (1 - d * cos l) + (d * sin l) * (d * sin l)) by (unfold R; rewrite sqrt_sqrt by lra; exact Q).
  set (x := d / R * sin l). assert (Rx : R * x = d * sin l) by (unfold x; field; lra).
  assert (X : -1 <= x <= 1). { assert (x * x <= 1). { apply Rmult_le_reg_l with (R * R); [apply Rmult_lt_0_compat; exact PR|]. replace (R * R * (x * x)) with ((R * x) * (R * x)) by ring. rewrite Rx. pose proof (Rle_0_sqr (1 - d * cos l)). unfold Rsqr in *. lra. } split; nra. }
  assert (CA : R * cos (asin x) = Rabs (1 - d * cos l)).
  { rewrite asin_cos by exact X. rewrite <- (sqrt_square R) at 1 by lra. rewrite <- sqrt_mult_alt by nra. replace (R * R * (1 - x ^ 2)) with (Rsqr (1 - d * cos l)); [apply sqrt_Rsqr_abs|]. unfold Rsqr. replace (R * R * (1 - x ^ 2)) with (R * R - (R * x) * (R * x)) by ring. rewrite Rx, R2. ring. }
  assert (SA : R * sin (asin x) = d * sin l) by (rewrite sin_asin by exact X; exact Rx).
  split; [exact PR|].
  assert (CASE : (exists A : 1 < d * cos l, (if Rlt_dec (1 / cos l) d then if Rlt_dec 0 (cos l) then PI - asin x else asin x else asin x) = PI - asin x)
                 \/ (exists A : d * cos l <= 1, (if Rlt_dec (1 / cos l) d then if Rlt_dec 0 (cos l) then PI - asin x else asin x else asin x) = asin x)).
  { destruct (Rlt_dec 0 (cos l)) as [c|c].
    - destruct (Rlt_dec (1 / cos l) d) as [q|q].
      + left. assert (A : 1 < d * cos l). { replace 1 with (1 / cos l * cos l) by (field; lra). apply Rmult_lt_compat_r; assumption. } exists A. reflexivity.
      + right. assert (A : d * cos l <= 1). { replace 1 with (1 / cos l * cos l) by (field; lra). apply Rmult_le_compat_r; lra. } exists A. reflexivity.
    - right. assert (A : d * cos l <= 1). { assert (0 <= d * - cos l) by (apply Rmult_le_pos; lra). lra. } exists A. destruct (Rlt_dec (1 / cos l) d); reflexivity. }
  destruct CASE as [[A ->]|[A ->]].
  - rewrite Rtrigo_facts.cos_pi_minus, Rtrigo_facts.sin_pi_minus. rewrite <- Ropp_mult_distr_r, CA, SA, Rabs_left by lra. split; [ring|reflexivity].
  - rewrite CA, SA, Rabs_right by lra. split; reflexivity.
Qed.

(** *** Number of copies *)
Lemma copies_mean kR w nphi : 0 < kR / w * nphi -> is_RInt (fun u => IZR (copies kR w nphi u)) 0 1 (kR / w * nphi).
Proof.
  intros Hk. unfold copies. cbv zeta. set (k := kR / w * nphi) in *. set (mu := (ceil k - 1)%Z). assert (B : k - 1 <= IZR mu < k).
  { unfold mu, ceil. rewrite minus_IZR, opp_IZR. destruct (base_Int_part (- k)) as [A1 A2]. lra. }
  assert (Z0 : (0 <= mu)%Z). { assert (-1 < mu)%Z; [|lia]. apply lt_IZR. lra. }
  assert (E : (if (0 <? mu)%Z then mu else 0%Z) = mu). { destruct (Z.ltb_spec 0 mu); [reflexivity|lia]. } rewrite E. set (kw := k - IZR mu) in *. assert (0 < kw <= 1) by (unfold kw; lra).
  replace k with (plus ((kw - 0) * (IZR mu + 1)) ((1 - kw) * IZR mu)) by (unfold plus; cbn; unfold kw; ring).
  apply (is_RInt_Chasles (V := R_NormedModule) _ 0 kw 1).
  - apply (is_RInt_ext (V := R_NormedModule) (fun _ => IZR mu + 1)); [|exact (is_RInt_const (V := R_NormedModule) 0 kw (IZR mu + 1))]. intros x Hx. rewrite Rmin_left, Rmax_right in Hx by lra.
    destruct (Rlt_dec kw x); [lra|]. rewrite plus_IZR. reflexivity.
  - apply (is_RInt_ext (V := R_NormedModule) (fun _ => IZR mu)); [|exact (is_RInt_const (V := R_NormedModule) kw 1 (IZR mu))]. intros x Hx. rewrite Rmin_left, Rmax_right in Hx by lra.
    destruct (Rlt_dec kw x); [reflexivity|lra].
Qed.

(** *** The conditional distributions *)
Lemma exp_tail_low K k c L : 0 < k -> is_RInt_gen (fun l => K * exp (k * (l - c))) (Rbar_locally m_infty) (at_point L) (K / k * exp (k * (L - c))).
Proof.
  intros Hk.
  assert (I : forall a, is_RInt (fun l => K * exp (k * (l - c))) a L (K / k * exp (k * (L - c)) - K / k * exp (k * (a - c)))).
  { intros a. apply (is_RInt_derive (V := R_CompleteNormedModule) (fun l => K / k * exp (k * (l - c)))).
    - intros x _. auto_derive; [exact Logic.I|]. rr. unfold Rminus. field. lra.
    - intros x _. apply (ex_derive_continuous (V := R_NormedModule)). auto_derive. exact Logic.I. }
  assert (F : filterlim (fun a => K / k * exp (k * (L - c)) - K / k * exp (k * (a - c))) (Rbar_locally m_infty) (locally (K / k * exp (k * (L - c))))).
  { replace (locally (K / k * exp (k * (L - c)))) with (locally (K / k * exp (k * (L - c)) - K / k * 0)) by (f_equal; ring).
    apply (filterlim_comp _ _ _ (fun a => k * (a - c)) (fun y => K / k * exp (k * (L - c)) - K / k * exp y) (Rbar_locally m_infty) (Rbar_locally m_infty)).
    - intros P [M HM]. exists (M / k + c). intros x Hx. apply HM. apply Rlt_le_trans with (k * (M / k + c - c)); [apply Rmult_lt_compat_l; lra|right; field; lra].
    - apply (filterlim_comp _ _ _ exp (fun z => K / k * exp (k * (L - c)) - K / k * z) (Rbar_locally m_infty) (locally 0)); [exact is_lim_exp_m|].
      apply (ex_derive_continuous (V := R_NormedModule) (fun z => K / k * exp (k * (L - c)) - K / k * z) 0). auto_derive. exact Logic.I. }
  intros P HP. destruct (F P HP) as [M HM]. apply Filter_prod with (Q := fun x => x < M) (R := fun x => x = L); [exists M; intros; assumption|reflexivity|].
  intros x y Hx ->. eexists. split; [cbn; apply I|]. apply HM. exact Hx.
Qed.
Lemma exp_tail_high K s c E : 0 < s -> is_RInt_gen (fun e => K * exp ((c - e) / s)) (at_point E) (Rbar_locally p_infty) (K * s * exp ((c - E) / s)).
Proof.
  intros Hs.
  assert (I : forall a, is_RInt (fun e => K * exp ((c - e) / s)) E a (- (K * s * exp ((c - a) / s)) - - (K * s * exp ((c - E) / s)))).
  { intros a. apply (is_RInt_derive (V := R_CompleteNormedModule) (fun e => - (K * s * exp ((c - e) / s)))).
    - intros x _. auto_derive; [lra|]. rr. unfold Rminus, Rdiv. field. lra.
    - intros x _. apply (ex_derive_continuous (V := R_NormedModule)). auto_derive. lra. }
  assert (F : filterlim (fun a => - (K * s * exp ((c - a) / s)) - - (K * s * exp ((c - E) / s))) (Rbar_locally p_infty) (locally (K * s * exp ((c - E) / s)))).
  { replace (locally (K * s * exp ((c - E) / s))) with (locally (- (K * s * 0) - - (K * s * exp ((c - E) / s)))) by (f_equal; ring).
    apply (filterlim_comp _ _ _ (fun a => (c - a) / s) (fun y => - (K * s * exp y) - - (K * s * exp ((c - E) / s))) (Rbar_locally p_infty) (Rbar_locally m_infty)).
    - intros P [M HM]. exists (c - M * s). intros x Hx. apply HM. apply Rmult_lt_reg_r with s; [exact Hs|]. replace ((c - x) / s * s) with (c - x) by (field; lra). lra.
    - apply (filterlim_comp _ _ _ exp (fun z => - (K * s * z) - - (K * s * exp ((c - E) / s))) (Rbar_locally m_infty) (locally 0)); [exact is_lim_exp_m|].
      apply (ex_derive_continuous (V := R_NormedModule) (fun z => - (K * s * z) - - (K * s * exp ((c - E) / s))) 0). auto_derive. exact Logic.I. }
  intros P HP. destruct (F P HP) as [M HM]. apply Filter_prod with (Q := fun x => x = E) (R := fun x => M < x); [reflexivity|exists M; intros; assumption|].
  intros x y -> Hy. eexists. split; [cbn; apply I|]. apply HM. exact Hy.
Qed.
Section Draw.
  Variables (b : RR) (p : Ssp) (corr : option (RR -> RR * RR)) (x u : RR).
  Hypothesis Hb : -1 < b.
  Hypothesis Hp : profile_ok p.
  Hypothesis Hx : 0 < x.
  Hypothesis Hu : 0 < u < 1.
  Lemma circ_E_eq : circ_E b x = E_circ b x.
  Proof. rewrite <- (ECL_eq b x Hx). unfold circ_E, shu_ECL. destruct (Req_EM_T b 0); [reflexivity|ring]. Qed.
  Lemma Lc_eq : rpow x (b + 1) = L_circ b x. Proof. unfold L_circ, v_circ. rewrite rpow_plus, rpow_1 by exact Hx. unfold rpow. ring. Qed.
  Lemma Om_eq : rpow x (b - 1) = Omega_circ b x. Proof. unfold Omega_circ, v_circ. rewrite rpow_minus, rpow_1 by exact Hx. reflexivity. Qed.
  Lemma Om_pos : 0 < Omega_circ b x. Proof. rewrite <- Om_eq. apply rpow_pos. Qed.
  Lemma ln_u : ln u < 0. Proof. rewrite <- ln_1. apply ln_increasing; lra. Qed.
  Lemma dehnen_draw_ok : exists I Ic, fst (dehnen_draw b p corr x u) = E_circ b x /\ snd (dehnen_draw b p corr x u) < L_circ b x /\ 0 < Ic /\
    is_RInt_gen (fun l => num (eval Dehnen b p corr (E_circ b x) l 0 0)) (Rbar_locally m_infty) (at_point (snd (dehnen_draw b p corr x u))) I /\
    is_RInt_gen (fun l => num (eval Dehnen b p corr (E_circ b x) l 0 0)) (Rbar_locally m_infty) (at_point (L_circ b x)) Ic /\ I / Ic = u.
  Proof.
    pose proof (sg2_pos p corr Hp x Hx) as Ps. pose proof (Sig_pos p corr Hp x Hx) as PS. pose proof Om_pos as PO. pose proof (g_pos b Hb) as Pg. pose proof PI_RGT_0.
    set (K := gamma_circ b * Sig p corr x / (2 * PI * sg2 p corr x)). set (k := Omega_circ b x / sg2 p corr x). assert (Pk : 0 < k) by (apply Rdiv_lt_0_compat; assumption).
    assert (PK : 0 < K) by (apply Rdiv_lt_0_compat; apply Rmult_lt_0_compat; lra).
    assert (Ef : forall l, num (eval Dehnen b p corr (E_circ b x) l 0 0) = K * exp (k * (l - L_circ b x))).
    { intros l. unfold eval. rewrite dehnen_is by assumption. cbn [num]. rewrite Rminus_eq_0, exp_0, Rmult_1_l. unfold dehnen_form. fold K. apply (f_equal (fun e => K * exp e)). unfold k. field. lra. }
    assert (Lv : snd (dehnen_draw b p corr x u) = ln u / k + L_circ b x).
    { unfold dehnen_draw. cbn [snd]. rewrite Om_eq, Lc_eq. f_equal. unfold k, sg2. change (log_corrections corr x) with (lcorr corr x). pose proof (exp_pos (snd (lcorr corr x))). destruct (Hp x Hx) as (_ & _ & _ & _ & P2 & _). field. repeat split; lra. }
    pose proof ln_u as Lu. exists (K / k * exp (k * (snd (dehnen_draw b p corr x u) - L_circ b x))), (K / k * exp (k * (L_circ b x - L_circ b x))).
    assert (PKk : 0 < K / k) by (apply Rdiv_lt_0_compat; assumption).
    split; [unfold dehnen_draw; cbn [fst]; apply circ_E_eq|]. split; [rewrite Lv; assert (0 < - ln u / k) by (apply Rdiv_lt_0_compat; lra); replace (ln u / k) with (- (- ln u / k)) by (field; lra); lra|].
    split; [apply Rmult_lt_0_compat; [exact PKk|apply exp_pos]|]. split; [|split].
    - apply (is_RInt_gen_ext (V := R_NormedModule) (fun l => K * exp (k * (l - L_circ b x)))); [apply filter_forall; intros; symmetry; apply Ef|apply exp_tail_low; exact Pk].
    - apply (is_RInt_gen_ext (V := R_NormedModule) (fun l => K * exp (k * (l - L_circ b x)))); [apply filter_forall; intros; symmetry; apply Ef|apply exp_tail_low; exact Pk].
    - rewrite Lv, Rminus_eq_0, Rmult_0_r, exp_0. replace (k * (ln u / k + L_circ b x - L_circ b x)) with (ln u) by (field; lra). rewrite exp_ln by lra. field. split; lra.
  Qed.
  Lemma shu_draw_ok : exists I Ic, snd (shu_draw b p corr x u) = L_circ b x /\ E_circ b x < fst (shu_draw b p corr x u) /\ 0 < Ic /\
    is_RInt_gen (fun e => num (eval Shu b p corr e (L_circ b x) 0 0)) (at_point (fst (shu_draw b p corr x u))) (Rbar_locally p_infty) I /\
    is_RInt_gen (fun e => num (eval Shu b p corr e (L_circ b x) 0 0)) (at_point (E_circ b x)) (Rbar_locally p_infty) Ic /\ I / Ic = u.
  Proof.
    pose proof (sg2_pos p corr Hp x Hx) as Ps. pose proof (Sig_pos p corr Hp x Hx) as PS. pose proof (g_pos b Hb) as Pg. pose proof PI_RGT_0.
    set (K := gamma_circ b * Sig p corr x / (2 * PI * sg2 p corr x)). set (s := sg2 p corr x) in *.
    assert (PK : 0 < K) by (apply Rdiv_lt_0_compat; apply Rmult_lt_0_compat; lra).
    assert (Ef : forall e, num (eval Shu b p corr e (L_circ b x) 0 0) = K * exp ((E_circ b x - e) / s)).
    { intros e. unfold eval. rewrite shu_is by assumption. cbn [num]. rewrite Rminus_eq_0, exp_0, Rmult_1_l. reflexivity. }
    assert (Ev : fst (shu_draw b p corr x u) = - s * ln u + E_circ b x).
    { unfold shu_draw. cbn [fst]. rewrite (ECL_eq b x Hx). unfold s, sg2. change (log_corrections corr x) with (lcorr corr x). ring. }
    pose proof ln_u as Lu. exists (K * s * exp ((E_circ b x - fst (shu_draw b p corr x u)) / s)), (K * s * exp ((E_circ b x - E_circ b x) / s)).
    assert (PKk : 0 < K * s) by (apply Rmult_lt_0_compat; assumption).
    split; [unfold shu_draw; cbn [snd]; apply Lc_eq|]. split; [rewrite Ev; assert (0 < s * - ln u) by (apply Rmult_lt_0_compat; lra); lra|].
    split; [apply Rmult_lt_0_compat; [exact PKk|apply exp_pos]|]. split; [|split].
    - apply (is_RInt_gen_ext (V := R_NormedModule) (fun e => K * exp ((E_circ b x - e) / s))); [apply filter_forall; intros; symmetry; apply Ef|apply exp_tail_high; exact Ps].
    - apply (is_RInt_gen_ext (V := R_NormedModule) (fun e => K * exp ((E_circ b x - e) / s))); [apply filter_forall; intros; symmetry; apply Ef|apply exp_tail_high; exact Ps].
    - rewrite Ev, Rminus_eq_0. unfold Rdiv at 3. rewrite Rmult_0_l, exp_0. replace ((E_circ b x - (- s * ln u + E_circ b x)) / s) with (ln u) by (field; lra). rewrite exp_ln by lra. field. split; lra.
  Qed.
End Draw.
