(** The velocity moments of the disk distribution functions are integrals of the distribution function over a box of velocities. *)
From Coq Require Import Reals Lra Lia.
From Coquelicot Require Import Coquelicot.
From Verif.Lib Require Import RealAux.
From Verif.Model Require Import DiskDF.
From Verif.Spec Require Import DiskDFSpec.
From Verif.Proofs Require Import SphericalDFDensity DiskDFForm DiskDFDeriv DiskBox.
Open Scope R_scope.
Notation RR := RbaseSymbolsImpl.R (only parsing).
Ltac rr := match goal with |- ?a = ?b => change (@eq RR a b) end.

Lemma cont2_pow1 n x y : continuity_2d_pt (fun x _ => x ^ n) x y.
Proof. induction n as [|n IH]; [exact (continuity_2d_pt_const x y 1)|]. cbn. apply (continuity_2d_pt_mult (fun x _ => x) (fun x _ => x ^ n)); [apply continuity_2d_pt_id1|exact IH]. Qed.
Lemma cont2_pow2 n x y : continuity_2d_pt (fun _ y => y ^ n) x y.
Proof. induction n as [|n IH]; [exact (continuity_2d_pt_const x y 1)|]. cbn. apply (continuity_2d_pt_mult (fun _ y => y) (fun _ y => y ^ n)); [apply continuity_2d_pt_id2|exact IH]. Qed.

Section M.
  Variables (ty : DFtype) (b : RR) (p : Ssp) (corr : option (RR -> RR * RR)).
  Hypothesis Hb : -1 < b.
  Hypothesis Hp : profile_ok p.
  Lemma eval_scale E L lS ls : num (eval ty b p corr E L lS ls) = exp (ls - lS) * num (eval ty b p corr E L 0 0).
  Proof.
    assert (A : forall x e x1 x2, gam b * exp (ls - x + x1 - lS + e + x2) / 2 / PI = exp (ls - lS) * (gam b * exp (0 - x + x1 - 0 + e + x2) / 2 / PI)).
    { intros. replace (ls - x + x1 - lS + e + x2) with ((ls - lS) + (0 - x + x1 - 0 + e + x2)) by ring. rewrite exp_plus. pose proof PI_RGT_0. field. lra. }
    assert (B : dehnen_eval b p corr E L lS ls = match dehnen_eval b p corr E L 0 0 with Some v => Some (exp (ls - lS) * v) | None => None end).
    { unfold dehnen_eval. destruct (radius_E b E); [|reflexivity]. cbv zeta. f_equal. apply A. }
    assert (C : num (shu_eval b p corr E L lS ls) = exp (ls - lS) * num (shu_eval b p corr E L 0 0)).
    { unfold shu_eval. destruct (Rle_dec L 0); [destruct (Req_EM_T b 0); cbn; ring|]. cbv zeta. cbn [num]. apply A. }
    unfold eval. destruct ty; [|exact C|exact C]. rewrite B. destruct (dehnen_eval b p corr E L 0 0); cbn; ring.
  Qed.
  Lemma df_even R vR vT : df_at ty b p corr R (- vR) vT = df_at ty b p corr R vR vT.
  Proof. unfold df_at, vRvTRToEL. replace ((- vR) ^ 2) with (vR ^ 2) by ring. reflexivity. Qed.

  Variables (R nsigma : RR) (f : RR -> RR -> RR).
  Hypothesis HR : 0 < R.
  Hypothesis Hn : 0 <= nsigma.
  Definition sig : RR := sqrt (s2 p R).
  Definition wR : RR := nsigma * sig.
  Definition cT : RR := v_circ b R - va_limited b p R.
  Definition wT : RR := nsigma * sig / gamma_circ b.
  Hypothesis Reg : regular_in_box wR cT wT (fun vR vT => df_at ty b p corr R vR vT) f.
  Lemma sig_pos : 0 < sig. Proof. apply sqrt_lt_R0. apply Hp. exact HR. Qed.
  Lemma g_pos : 0 < gamma_circ b. Proof. exact (gam_pos b Hb). Qed.
  Lemma sig_sq : sig * sig = s2 p R. Proof. apply sqrt_sqrt. left. apply Hp. exact HR. Qed.
  Lemma wR_pos : 0 <= wR. Proof. pose proof sig_pos. apply Rmult_le_pos; lra. Qed.
  Lemma wT_pos : 0 <= wT. Proof. pose proof sig_pos. pose proof (Rinv_0_lt_compat _ g_pos). apply Rmult_le_pos; [apply Rmult_le_pos; lra|lra]. Qed.
  Lemma centre : vT_centre b p R * (sig / gamma_circ b) = cT.
  Proof. pose proof sig_pos. pose proof g_pos as G. unfold vT_centre, cT. fold sig. change (gam b) with (gamma_circ b). unfold v_circ, rpow. field. split; lra. Qed.
  Lemma f_cont x y : - wR <= x <= wR -> cT - wT <= y <= cT + wT -> continuity_2d_pt f x y.
  Proof. intros Hx Hy. apply Reg; assumption. Qed.
  Lemma f_num x y : - wR <= x <= wR -> cT - wT <= y <= cT + wT -> num (df_at ty b p corr R x y) = f x y.
  Proof. intros Hx Hy. destruct (Reg x y Hx Hy) as [E _]. cbv beta in E. rewrite E. reflexivity. Qed.
  Lemma f_even x y : - wR <= x <= wR -> cT - wT <= y <= cT + wT -> f (- x) y = f x y.
  Proof. intros Hx Hy. rewrite <- !f_num by (assumption || lra). rewrite df_even. reflexivity. Qed.

  (** The rescaled integral of a function proportional to [G]. *)
  Lemma range_u u : - nsigma < u < nsigma -> - wR <= u * sig <= wR.
  Proof. intros [A B]. pose proof sig_pos. unfold wR. rewrite Ropp_mult_distr_l. split; apply Rmult_le_compat_r; lra. Qed.
  Lemma range_w w : vT_centre b p R - nsigma < w < vT_centre b p R + nsigma -> cT - wT <= w * (sig / gamma_circ b) <= cT + wT.
  Proof.
    intros [A B]. pose proof sig_pos. pose proof (Rinv_0_lt_compat _ g_pos). assert (0 < sig / gamma_circ b) by (apply Rmult_lt_0_compat; assumption).
    rewrite <- centre. unfold wT. replace (nsigma * sig / gamma_circ b) with (nsigma * (sig / gamma_circ b)) by (unfold Rdiv; ring).
    rewrite <- Rmult_minus_distr_r, <- Rmult_plus_distr_r. split; apply Rmult_le_compat_r; lra.
  Qed.
  Lemma tau_pos : 0 < sig / gamma_circ b.
  Proof. apply Rdiv_lt_0_compat; [apply sig_pos|apply g_pos]. Qed.
  Lemma quad_box (h G : RR -> RR -> RR) K :
    (forall x y, - wR <= x <= wR -> cT - wT <= y <= cT + wT -> continuity_2d_pt G x y) ->
    (forall u w, - nsigma < u < nsigma -> vT_centre b p R - nsigma < w < vT_centre b p R + nsigma -> h u w = K * G (u * sig) (w * (sig / gamma_circ b))) ->
    dblquad h (vT_centre b p R - nsigma) (vT_centre b p R + nsigma) (- nsigma) nsigma = K / (sig * (sig / gamma_circ b)) * box_integral wR cT wT G.
  Proof.
    intros C H. pose proof sig_pos as Ps. pose proof tau_pos as Pt. set (G' := clamp2 wR cT wT G).
    assert (C' : Cont2 G') by (apply clamp2_cont; [apply wR_pos|apply wT_pos|exact C]).
    unfold dblquad. transitivity (K * RInt (fun y => RInt (fun x => G' (x * sig) (y * (sig / gamma_circ b))) (- nsigma) nsigma) (vT_centre b p R - nsigma) (vT_centre b p R + nsigma)).
    - assert (C2 : Cont2 (fun x y => K * G' x y)) by (intros x y; apply (continuity_2d_pt_mult (fun _ _ => K) G'); [apply continuity_2d_pt_const|apply C']).
      rewrite (box_scaled G') by assumption. replace (nsigma * (sig / gamma_circ b)) with wT by (unfold wT, Rdiv; ring). fold wR. rewrite centre.
      rewrite <- Rmult_assoc, (Rmult_comm K), Rmult_assoc, <- box_k by (assumption || apply wR_pos). unfold wR at 1. fold wR.
      pose proof (box_scaled (fun x y => K * G' x y) sig (sig / gamma_circ b) (vT_centre b p R) nsigma Ps Pt Hn C2) as E. rewrite centre in E.
      replace (nsigma * (sig / gamma_circ b)) with wT in E by (unfold wT, Rdiv; ring). fold wR in E. rewrite <- E.
      apply RInt_ext. intros w Hw. rewrite Rmin_left, Rmax_right in Hw by lra. apply RInt_ext. intros u Hu. rewrite Rmin_left, Rmax_right in Hu by lra.
      rewrite (H u w Hu Hw). unfold G'. rewrite clamp2_in; [reflexivity|apply range_u; exact Hu|apply range_w; exact Hw].
    - rewrite (box_scaled G') by assumption. replace (nsigma * (sig / gamma_circ b)) with wT by (unfold wT, Rdiv; ring). fold wR. rewrite centre.
      rewrite (box_ext wR cT wT G' G); [|apply wR_pos|apply wT_pos|intros; apply clamp2_in; assumption]. unfold Rdiv. ring.
  Qed.
  Lemma norm_eq n m : exp (smL p R + ln (s2 p R) * (INR n + INR m) / 2) = sm p R * sig ^ n * sig ^ m.
  Proof.
    destruct (Hp R HR) as (P & E & _ & _ & P2 & _). rewrite exp_plus, E, exp_ln by exact P. rewrite Rmult_assoc. f_equal. rewrite <- pow_add.
    pose proof sig_pos as Ps. rewrite <- Rpower_pow by exact Ps. unfold Rpower. f_equal. rewrite <- sig_sq, ln_mult, plus_INR by exact Ps. field.
  Qed.
  Lemma ls_eq : exp (ln (s2 p R) - smL p R) = sig * sig / sm p R.
  Proof.
    destruct (Hp R HR) as (P & E & _ & _ & P2 & _). unfold Rminus. rewrite exp_plus, exp_Ropp, E, !exp_ln by assumption. rewrite sig_sq. reflexivity.
  Qed.
  Lemma integrand_eq n m u w : moment_integrand ty b p corr R n m (smL p R) (ln (s2 p R)) sig u w
    = 2 * PI / gamma_circ b * (sig * sig / sm p R) / sig ^ n / (sig / gamma_circ b) ^ m * ((u * sig) ^ n * (w * (sig / gamma_circ b)) ^ m * num (df_at ty b p corr R (u * sig) (w * (sig / gamma_circ b)))).
  Proof.
    unfold moment_integrand, df_at. change (gam b) with (gamma_circ b). destruct (vRvTRToEL (u * sig) (w * (sig / gamma_circ b)) R b ty) as [E L]. rewrite eval_scale, ls_eq. rewrite (Rpow_mult_distr u), (Rpow_mult_distr w).
    destruct (Hp R HR) as (P & _). pose proof sig_pos as Ps. pose proof tau_pos as Pt. pose proof g_pos. pose proof (pow_lt _ n Ps). pose proof (pow_lt _ m Pt).
    set (t := sig / gamma_circ b) in *. field. repeat split; lra.
  Qed.
  Lemma mono_cont G n m x y : continuity_2d_pt G x y -> continuity_2d_pt (fun x y => x ^ n * y ^ m * G x y) x y.
  Proof.
    intros C. apply (continuity_2d_pt_mult (fun x y => x ^ n * y ^ m) G); [|exact C]. apply (continuity_2d_pt_mult (fun x _ => x ^ n) (fun _ y => y ^ m)); [apply cont2_pow1|apply cont2_pow2].
  Qed.
  Lemma const_eq n m : 2 * PI / gamma_circ b * (sig * sig / sm p R) / sig ^ n / (sig / gamma_circ b) ^ m / (sig * (sig / gamma_circ b)) / PI * (sm p R * sig ^ n * sig ^ m / gamma_circ b ^ m) / 2 = 1.
  Proof.
    destruct (Hp R HR) as (P & _). pose proof sig_pos as Ps. pose proof tau_pos as Pt. pose proof g_pos as Pg. pose proof (pow_lt _ n Ps). pose proof (pow_lt _ m Pg). pose proof (pow_lt _ m Ps). pose proof PI_RGT_0.
    replace ((sig / gamma_circ b) ^ m) with (sig ^ m / gamma_circ b ^ m) by (unfold Rdiv; rewrite Rpow_mult_distr, pow_inv; reflexivity). field. repeat split; lra.
  Qed.
  Lemma moment_box n m : vmomentsurfacemass ty b p corr R n m nsigma false false = box_integral wR cT wT (fun vR vT => vR ^ n * vT ^ m * f vR vT).
  Proof.
    unfold vmomentsurfacemass. destruct (Nat.odd n) eqn:O.
    - symmetry. rewrite (box_ext wR cT wT _ (clamp2 wR cT wT (fun vR vT => vR ^ n * vT ^ m * f vR vT))); [|apply wR_pos|apply wT_pos|intros; symmetry; apply (clamp2_in wR cT wT (fun vR vT => vR ^ n * vT ^ m * f vR vT)); assumption].
      apply box_odd; [apply wR_pos|apply clamp2_cont; [apply wR_pos|apply wT_pos|intros; apply mono_cont, f_cont; assumption]|].
      intros x y. unfold clamp2. assert (E : clamp (- wR) wR (- x) = - clamp (- wR) wR x). { pose proof wR_pos. unfold clamp, Rmax, Rmin. repeat destruct Rle_dec; lra. }
      rewrite E, f_even by (apply clamp_in; pose proof wR_pos; pose proof wT_pos; lra).
      apply Nat.odd_spec in O. destruct O as [k ->]. replace (2 * k + 1)%nat with (S (2 * k)) by lia. rewrite <- !tech_pow_Rmult, !pow_mult. replace ((- clamp (- wR) wR x) ^ 2) with (clamp (- wR) wR x ^ 2) by ring. ring.
    - cbn [norm_log]. fold sig. rewrite (quad_box _ (fun vR vT => vR ^ n * vT ^ m * f vR vT) (2 * PI / gamma_circ b * (sig * sig / sm p R) / sig ^ n / (sig / gamma_circ b) ^ m)).
      + rewrite norm_eq. change (gam b) with (gamma_circ b). rewrite <- (Rmult_1_l (box_integral _ _ _ _)) at 2. rewrite <- (const_eq n m). unfold Rdiv. ring.
      + intros. apply mono_cont, f_cont; assumption.
      + intros u w Hu Hw. rewrite integrand_eq. rewrite f_num by (apply range_u || apply range_w; assumption). reflexivity.
  Qed.
  Lemma moment_relative n m : vmomentsurfacemass ty b p corr R n m nsigma true false = vmomentsurfacemass ty b p corr R n m nsigma false false / (sm p R * sig ^ n * (sig / gamma_circ b) ^ m).
  Proof.
    destruct (Hp R HR) as (P & _). pose proof sig_pos as Ps. pose proof g_pos as Pg. pose proof (pow_lt _ n Ps). pose proof (pow_lt _ m Pg). pose proof (pow_lt _ m Ps). pose proof PI_RGT_0.
    unfold vmomentsurfacemass. destruct (Nat.odd n); [unfold Rdiv; ring|]. cbn [norm_log]. rewrite norm_eq. change (gam b) with (gamma_circ b). replace ((sig / gamma_circ b) ^ m) with (sig ^ m / gamma_circ b ^ m) by (unfold Rdiv; rewrite Rpow_mult_distr, pow_inv; reflexivity). field. repeat split; lra.
  Qed.
  (** With the derivative of ln f. *)
  Lemma moment_deriv_box fR n m : (forall vR vT, - wR <= vR <= wR -> cT - wT <= vT <= cT + wT -> f vR vT * dlnfdR ty b p R vR vT = fR vR vT /\ continuity_2d_pt fR vR vT) -> Nat.odd n = false ->
    vmomentsurfacemass ty b p corr R n m nsigma false true = box_integral wR cT wT (fun vR vT => vR ^ n * vT ^ m * fR vR vT).
  Proof.
    intros CD O. unfold vmomentsurfacemass. rewrite O. cbn [norm_log]. fold sig.
    rewrite (quad_box _ (fun vR vT => vR ^ n * vT ^ m * fR vR vT) (2 * PI / gamma_circ b * (sig * sig / sm p R) / sig ^ n / (sig / gamma_circ b) ^ m)).
    - rewrite norm_eq. change (gam b) with (gamma_circ b). rewrite <- (Rmult_1_l (box_integral _ _ _ _)) at 2. rewrite <- (const_eq n m). unfold Rdiv. ring.
    - intros. apply (mono_cont fR), CD; assumption.
    - intros u w Hu Hw. unfold moment_deriv_integrand. rewrite integrand_eq. rewrite f_num by (apply range_u || apply range_w; assumption). change (gam b) with (gamma_circ b).
      replace (w * sig / gamma_circ b) with (w * (sig / gamma_circ b)) by (unfold Rdiv; ring). destruct (CD _ _ (range_u u Hu) (range_w w Hw)) as [E _]. rewrite <- E. ring.
  Qed.
  (** surfacemass and sigma2surfacemass integrate over half of the box. *)
  Lemma half_quad n : Nat.even n = true ->
    dblquad (moment_integrand ty b p corr R n 0 (smL p R) (ln (s2 p R)) sig) (vT_centre b p R - nsigma) (vT_centre b p R + nsigma) 0 nsigma
    = PI / (sm p R * sig ^ n) * box_integral wR cT wT (fun vR vT => vR ^ n * f vR vT).
  Proof.
    intros Ev. pose proof sig_pos as Ps. pose proof tau_pos as Pt. set (G' := clamp2 wR cT wT (fun vR vT => vR ^ n * vT ^ 0 * f vR vT)). set (K := 2 * PI / gamma_circ b * (sig * sig / sm p R) / sig ^ n / (sig / gamma_circ b) ^ 0).
    assert (C' : Cont2 (fun x y => K * G' x y)).
    { intros x y. apply (continuity_2d_pt_mult (fun _ _ => K) G'); [apply continuity_2d_pt_const|]. apply clamp2_cont; [apply wR_pos|apply wT_pos|]. intros. apply mono_cont, f_cont; assumption. }
    assert (E' : forall x y, K * G' (- x) y = K * G' x y).
    { intros x y. f_equal. unfold G', clamp2. assert (E : clamp (- wR) wR (- x) = - clamp (- wR) wR x). { pose proof wR_pos. unfold clamp, Rmax, Rmin. repeat destruct Rle_dec; lra. }
      rewrite E, f_even by (apply clamp_in; pose proof wR_pos; pose proof wT_pos; lra). apply Nat.even_spec in Ev. destruct Ev as [k ->]. rewrite !pow_mult. replace ((- clamp (- wR) wR x) ^ 2) with (clamp (- wR) wR x ^ 2) by ring. reflexivity. }
    pose proof (half_box (fun x y => K * G' x y) sig (sig / gamma_circ b) (vT_centre b p R) nsigma Hn Ps Pt C' E') as HB.
    assert (FULL : RInt (fun y => RInt (fun x => K * G' (x * sig) (y * (sig / gamma_circ b))) (- nsigma) nsigma) (vT_centre b p R - nsigma) (vT_centre b p R + nsigma)
                   = K / (sig * (sig / gamma_circ b)) * box_integral wR cT wT (fun vR vT => vR ^ n * vT ^ 0 * f vR vT)).
    { apply (quad_box (fun x y => K * G' (x * sig) (y * (sig / gamma_circ b)))); [intros; apply mono_cont, f_cont; assumption|]. intros u w Hu Hw. unfold G'. rewrite clamp2_in by (apply range_u || apply range_w; assumption). reflexivity. }
    assert (HALF : dblquad (moment_integrand ty b p corr R n 0 (smL p R) (ln (s2 p R)) sig) (vT_centre b p R - nsigma) (vT_centre b p R + nsigma) 0 nsigma
                   = RInt (fun y => RInt (fun x => K * G' (x * sig) (y * (sig / gamma_circ b))) 0 nsigma) (vT_centre b p R - nsigma) (vT_centre b p R + nsigma)).
    { unfold dblquad. apply RInt_ext. intros w Hw. rewrite Rmin_left, Rmax_right in Hw by lra. apply RInt_ext. intros u Hu. rewrite Rmin_left, Rmax_right in Hu by lra. assert (Hu' : - nsigma < u < nsigma) by lra.
      rewrite integrand_eq. unfold G'. rewrite clamp2_in by (apply range_u || apply range_w; assumption). rewrite f_num by (apply range_u || apply range_w; assumption). reflexivity. }
    rewrite HALF. cbv beta in HB. rewrite FULL in HB. rewrite (box_ext wR cT wT (fun vR vT => vR ^ n * vT ^ 0 * f vR vT) (fun vR vT => vR ^ n * f vR vT)) in HB; [|apply wR_pos|apply wT_pos|intros; cbn; ring].
    match type of HB with _ = 2 * ?I => set (II := I) in *; clearbody II end. set (BB := box_integral wR cT wT (fun vR vT : RR => vR ^ n * f vR vT)) in *. clearbody BB.
    replace II with (2 * II / 2) by field. rewrite <- HB. unfold K. destruct (Hp R HR) as (P & _). pose proof g_pos as Pg. pose proof (pow_lt _ n Ps). rewrite pow_O. field. repeat split; lra.
  Qed.
  Lemma surfacemass_box : surfacemass ty b p corr R nsigma false = box_integral wR cT wT f.
  Proof.
    unfold surfacemass. cbn [norm_log]. fold sig. rewrite half_quad by reflexivity. rewrite (box_ext wR cT wT (fun vR vT => vR ^ 0 * f vR vT) f); [|apply wR_pos|apply wT_pos|intros; cbn; ring].
    destruct (Hp R HR) as (P & E & _). rewrite E, exp_ln by exact P. rewrite pow_O. pose proof PI_RGT_0. field. split; lra.
  Qed.
  Lemma surfacemass_rel : surfacemass ty b p corr R nsigma true = surfacemass ty b p corr R nsigma false / sm p R.
  Proof. destruct (Hp R HR) as (P & E & _). unfold surfacemass. cbn [norm_log]. rewrite E, exp_ln by exact P. pose proof PI_RGT_0. field. split; lra. Qed.
  Lemma sigma2_box : sigma2surfacemass ty b p corr R nsigma false = box_integral wR cT wT (fun vR vT => vR ^ 2 * f vR vT).
  Proof.
    unfold sigma2surfacemass. cbn [norm_log]. fold sig. rewrite half_quad by reflexivity. destruct (Hp R HR) as (P & E & _ & _ & P2 & _). rewrite exp_plus, E, !exp_ln, <- sig_sq by assumption. pose proof PI_RGT_0. pose proof sig_pos. field. repeat split; lra.
  Qed.
  Lemma sigma2_rel : sigma2surfacemass ty b p corr R nsigma true = sigma2surfacemass ty b p corr R nsigma false / (sm p R * s2 p R).
  Proof. destruct (Hp R HR) as (P & E & _ & _ & P2 & _). unfold sigma2surfacemass. cbn [norm_log]. rewrite exp_plus, E, !exp_ln by assumption. pose proof PI_RGT_0. field. repeat split; lra. Qed.
End M.
