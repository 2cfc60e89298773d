(** Central moments, marginals along lines of sight, and the draws of the samplers. *)
From Coq Require Import Reals Lra Lia ZArith.
From Coquelicot Require Import Coquelicot.
From Verif.Lib Require Import RealAux.
From Verif.Model Require Import DiskDF.
From Verif.Spec Require Import DiskDFSpec.
From Verif.Proofs Require Import JeansProofs SphericalDFDensity DiskDFForm DiskDFDeriv DiskBox DiskDFMoments.
Open Scope R_scope.
Notation RR := RbaseSymbolsImpl.R (only parsing).
Ltac rr := match goal with |- ?a = ?b => change (@eq RR a b) end.

(** *** Central moments *)
Section C.
  Variables (wR cT wT : RR) (f : RR -> RR -> RR).
  Hypothesis HR : 0 <= wR.
  Hypothesis HT : 0 <= wT.
  Hypothesis Cf : forall x y, - wR <= x <= wR -> cT - wT <= y <= cT + wT -> continuity_2d_pt f x y.
  Definition Mk (k : nat) : RR := box_integral wR cT wT (fun x y => y ^ k * f x y).
  Lemma ck k : Cont2 (clamp2 wR cT wT (fun x y => y ^ k * f x y)).
  Proof. apply clamp2_cont; [assumption..|]. intros. apply (continuity_2d_pt_mult (fun _ y => y ^ k) f); [apply cont2_pow2|apply Cf; assumption]. Qed.
  Lemma ckk c k : Cont2 (fun x y => c * clamp2 wR cT wT (fun x y => y ^ k * f x y) x y).
  Proof. intros x y. apply (continuity_2d_pt_mult (fun _ _ => c)); [exact (continuity_2d_pt_const x y c)|apply ck]. Qed.
  Lemma Mk_clamp k : Mk k = box_integral wR cT wT (clamp2 wR cT wT (fun x y => y ^ k * f x y)).
  Proof. unfold Mk. apply (box_ext wR cT wT _ _ HR HT). intros. symmetry. apply (clamp2_in wR cT wT (fun x y => y ^ k * f x y)); assumption. Qed.
  (** A quartic in vT. *)
  Lemma box_poly a0 a1 a2 a3 a4 : box_integral wR cT wT (fun x y => (a0 + a1 * y + a2 * y ^ 2 + a3 * y ^ 3 + a4 * y ^ 4) * f x y) = a0 * Mk 0 + a1 * Mk 1 + a2 * Mk 2 + a3 * Mk 3 + a4 * Mk 4.
  Proof.
    rewrite !Mk_clamp. rewrite <- !box_k by (assumption || apply ck).
    assert (P : forall g h, Cont2 g -> Cont2 h -> Cont2 (fun x y => g x y + h x y)) by (intros g h A B x y; apply (continuity_2d_pt_plus g h); [apply A|apply B]).
    pose proof (ckk a0 0) as C0. pose proof (ckk a1 1) as C1. pose proof (ckk a2 2) as C2. pose proof (ckk a3 3) as C3. pose proof (ckk a4 4) as C4.
    pose proof (P _ _ C0 C1) as D1. pose proof (P _ _ D1 C2) as D2. pose proof (P _ _ D2 C3) as D3. cbv beta in D1, D2, D3.
    rewrite <- (box_p wR cT wT _ _ HR C0 C1), <- (box_p wR cT wT _ _ HR D1 C2), <- (box_p wR cT wT _ _ HR D2 C3), <- (box_p wR cT wT _ _ HR D3 C4).
    apply (box_ext wR cT wT _ _ HR HT). intros x y Hx Hy. rewrite !clamp2_in by assumption. ring.
  Qed.
  Hypothesis N : box_integral wR cT wT f <> 0.
  Lemma M0_eq : Mk 0 = box_integral wR cT wT f. Proof. unfold Mk. apply (box_ext wR cT wT _ _ HR HT). intros. cbn. ring. Qed.
  Lemma mean_eq : mean_vT wR cT wT f (fun v => v) = Mk 1 / Mk 0.
  Proof. unfold mean_vT. rewrite M0_eq. f_equal. apply (box_ext wR cT wT _ _ HR HT). intros. cbn. ring. Qed.
  Lemma mean_ext h h' : (forall y, h y = h' y) -> mean_vT wR cT wT f h = mean_vT wR cT wT f h'.
  Proof. intros E. unfold mean_vT. f_equal. apply (box_ext wR cT wT _ _ HR HT). intros. rewrite E. reflexivity. Qed.
  Lemma central2 : central_vT wR cT wT f 2 = Mk 2 / Mk 0 - (Mk 1 / Mk 0) ^ 2.
  Proof.
    unfold central_vT. rewrite mean_eq. set (u := Mk 1 / Mk 0). rewrite (mean_ext _ (fun y => u ^ 2 + (-2 * u) * y + 1 * y ^ 2 + 0 * y ^ 3 + 0 * y ^ 4)) by (intros; ring).
    unfold mean_vT. rewrite box_poly. rewrite <- M0_eq in N |- *. unfold u. field. exact N.
  Qed.
  Lemma central3 : central_vT wR cT wT f 3 = Mk 3 / Mk 0 - 3 * (Mk 1 / Mk 0) * (Mk 2 / Mk 0) + 2 * (Mk 1 / Mk 0) ^ 3.
  Proof.
    unfold central_vT. rewrite mean_eq. set (u := Mk 1 / Mk 0). rewrite (mean_ext _ (fun y => - u ^ 3 + (3 * u ^ 2) * y + (-3 * u) * y ^ 2 + 1 * y ^ 3 + 0 * y ^ 4)) by (intros; ring).
    unfold mean_vT. rewrite box_poly. rewrite <- M0_eq in N |- *. unfold u. field. exact N.
  Qed.
  Lemma central4 : central_vT wR cT wT f 4 = Mk 4 / Mk 0 - 4 * (Mk 1 / Mk 0) * (Mk 3 / Mk 0) + 6 * (Mk 1 / Mk 0) ^ 2 * (Mk 2 / Mk 0) - 3 * (Mk 1 / Mk 0) ^ 4.
  Proof.
    unfold central_vT. rewrite mean_eq. set (u := Mk 1 / Mk 0). rewrite (mean_ext _ (fun y => u ^ 4 + (-4 * u ^ 3) * y + (6 * u ^ 2) * y ^ 2 + (-4 * u) * y ^ 3 + 1 * y ^ 4)) by (intros; ring).
    unfold mean_vT. rewrite box_poly. rewrite <- M0_eq in N |- *. unfold u. field. exact N.
  Qed.
End C.

Section D.
  Variables (ty : DFtype) (b : RR) (p : Ssp) (corr : option (RR -> RR * RR)) (R nsigma : RR) (f : RR -> RR -> RR).
  Hypothesis Hb : -1 < b.
  Hypothesis Hp : profile_ok p.
  Hypothesis HR : 0 < R.
  Hypothesis Hn : 0 <= nsigma.
  Let wR := wR p R nsigma.
  Let cT := cT b p R.
  Let wT := wT b p R nsigma.
  Hypothesis Reg : regular_in_box wR cT wT (fun vR vT => df_at ty b p corr R vR vT) f.
  Hypothesis N : box_integral wR cT wT f <> 0.
  Let PR : 0 <= wR := wR_pos p Hp R nsigma HR Hn.
  Let PT : 0 <= wT := wT_pos b p Hb Hp R nsigma HR Hn.
  Let Cf : forall x y, - wR <= x <= wR -> cT - wT <= y <= cT + wT -> continuity_2d_pt f x y := fun x y Hx Hy => proj2 (Reg x y Hx Hy).
  Lemma vm_M k : vmomentsurfacemass ty b p corr R 0 k nsigma false false = Mk wR cT wT f k.
  Proof. rewrite (moment_box ty b p corr Hb Hp R nsigma f HR Hn Reg). unfold Mk. apply (box_ext wR cT wT _ _ PR PT). intros. cbn. ring. Qed.
  Lemma sm_M : surfacemass ty b p corr R nsigma false = Mk wR cT wT f 0.
  Proof. rewrite (surfacemass_box ty b p corr Hb Hp R nsigma f HR Hn Reg). symmetry. apply M0_eq; [exact PR|exact PT]. Qed.
  Lemma meanvT_ok : meanvT ty b p corr R nsigma = mean_vT wR cT wT f (fun v => v).
  Proof. unfold meanvT. rewrite vm_M, sm_M. symmetry. apply mean_eq; [exact PR|exact PT]. Qed.
  Let N0 : Mk wR cT wT f 0 <> 0. Proof. rewrite M0_eq; [exact N|exact PR|exact PT]. Qed.
  Lemma sigmaT2_ok : sigmaT2 ty b p corr R nsigma = central_vT wR cT wT f 2.
  Proof. unfold sigmaT2. cbv zeta. rewrite !vm_M, sm_M, central2 by assumption. field. exact N0. Qed.
  Lemma skewvT_ok : skewvT ty b p corr R nsigma = central_vT wR cT wT f 3 * Rpower (central_vT wR cT wT f 2) (- (3 / 2)).
  Proof. unfold skewvT. cbv zeta. rewrite !vm_M, sm_M, central2, central3 by assumption. reflexivity. Qed.
  Lemma kurtosisvT_ok : kurtosisvT ty b p corr R nsigma = central_vT wR cT wT f 4 * Rpower (central_vT wR cT wT f 2) (- (2)) - 3.
  Proof. unfold kurtosisvT. cbv zeta. rewrite !vm_M, sm_M, central2, central4 by assumption. reflexivity. Qed.
End D.

(** *** Moments of the radial derivative *)
Lemma log_to_derive (F : RR -> option RR) x d : log_derivative F x d -> is_derive (fun y => num (F y)) x (num (F x) * d).
Proof.
  intros (g & Lo & D). pose proof (locally_singleton _ _ Lo) as [E P]. rewrite E. cbn [num].
  apply (is_derive_ext_loc (fun y => exp (ln (g y)))).
  - revert Lo. apply filter_imp. intros y [Ey Py]. rewrite Ey, exp_ln by exact Py. reflexivity.
  - eapply is_derive_eq; [apply (is_derive_Rchain exp (fun y => ln (g y))); [apply is_derive_exp|exact D]|]. rewrite exp_ln by exact P. reflexivity.
Qed.
Section E.
  Variables (ty : DFtype) (b : RR) (p : Ssp).
  Hypothesis Hty : ty <> Schwarzschild.
  Hypothesis Hb : -1 < b.
  Hypothesis Hp : profile_ok p.
  Lemma df_dR R vR vT v : 0 < R -> df_at ty b p None R vR vT = Some v -> is_derive (fun R => num (df_at ty b p None R vR vT)) R (v * dlnfdR ty b p R vR vT).
  Proof.
    intros HR H. replace v with (num (df_at ty b p None R vR vT)) by (rewrite H; reflexivity). destruct ty; [| |destruct (Hty eq_refl)].
    - apply (log_to_derive (fun R => df_at Dehnen b p None R vR vT)). apply (dehnen_dR b p Hb Hp R vR vT v HR H).
    - destruct (Rlt_dec 0 (vT * R)) as [q|q].
      + apply (log_to_derive (fun R => df_at Shu b p None R vR vT)). apply (shu_dR b p Hb Hp R vR vT v HR H).
        revert H. unfold df_at, vRvTRToEL, eval. intros H. rewrite (radL_circ b Hb _ q) in H. rewrite shu_is in H by (try apply radL_pos; assumption). injection H as <-.
        apply Rmult_lt_0_compat; [apply exp_pos|]. apply form_pos; [assumption..|apply radL_pos; exact q].
      + assert (Z : forall R', 0 < R' -> num (df_at Shu b p None R' vR vT) = 0).
        { intros R' HR'. unfold df_at, vRvTRToEL, eval, shu_eval. destruct (Rle_dec (vT * R') 0) as [|q']; [destruct (Req_EM_T b 0); reflexivity|]. destruct q. assert (0 < vT). { apply Rnot_le_lt. intros K. apply q'. assert (0 <= - vT * R') by (apply Rmult_le_pos; lra). lra. } apply Rmult_lt_0_compat; assumption. }
        rewrite (Z R HR), Rmult_0_l. apply (is_derive_ext_loc (fun _ => 0)); [|apply is_derive_cst]. apply (filter_imp (fun y => 0 < y)); [intros y Hy; symmetry; apply Z; exact Hy|apply locally_pos; exact HR].
  Qed.
  Variables (R nsigma : RR) (f fR : RR -> RR -> RR).
  Hypothesis HR : 0 < R.
  Hypothesis Hn : 0 <= nsigma.
  Let wR := wR p R nsigma.
  Let cT := cT b p R.
  Let wT := wT b p R nsigma.
  Hypothesis Reg : regular_in_box wR cT wT (fun vR vT => df_at ty b p None R vR vT) f.
  Hypothesis HfR : forall vR vT, - wR <= vR <= wR -> cT - wT <= vT <= cT + wT -> is_derive (fun R => num (df_at ty b p None R vR vT)) R (fR vR vT) /\ continuity_2d_pt fR vR vT.
  Lemma moment_dR n m : vmomentsurfacemass ty b p None R n m nsigma false true = box_integral wR cT wT (fun vR vT => vR ^ n * vT ^ m * fR vR vT).
  Proof.
    assert (E : forall x y, - wR <= x <= wR -> cT - wT <= y <= cT + wT -> f x y * dlnfdR ty b p R x y = fR x y).
    { intros x y Hx Hy. destruct (Reg x y Hx Hy) as [A _]. pose proof (df_dR R x y _ HR A) as D. destruct (HfR x y Hx Hy) as [D2 _].
      rewrite <- (is_derive_unique _ _ _ D). apply is_derive_unique. exact D2. }
    pose proof (wR_pos p Hp R nsigma HR Hn) as PR. pose proof (wT_pos b p Hb Hp R nsigma HR Hn) as PT. fold wR in PR. fold wT in PT.
    destruct (Nat.odd n) eqn:O.
    - unfold vmomentsurfacemass. rewrite O. symmetry.
      rewrite (box_ext wR cT wT _ (clamp2 wR cT wT (fun x y => x ^ n * y ^ m * fR x y))); [|exact PR|exact PT|intros; symmetry; apply (clamp2_in wR cT wT (fun x y => x ^ n * y ^ m * fR x y)); assumption].
      apply box_odd; [exact PR|apply clamp2_cont; [exact PR|exact PT|intros; apply mono_cont, HfR; assumption]|].
      intros x y. unfold clamp2. assert (E2 : clamp (- wR) wR (- x) = - clamp (- wR) wR x). { unfold clamp, Rmax, Rmin. repeat destruct Rle_dec; lra. }
      rewrite E2. assert (Ix : - wR <= clamp (- wR) wR x <= wR) by (apply clamp_in; lra). assert (Iy : cT - wT <= clamp (cT - wT) (cT + wT) y <= cT + wT) by (apply clamp_in; lra).
      set (x' := clamp (- wR) wR x) in *. set (y' := clamp (cT - wT) (cT + wT) y) in *.
      assert (E3 : fR (- x') y' = fR x' y'). { destruct (HfR x' y' Ix Iy) as [D1 _]. destruct (HfR (- x') y' ltac:(lra) Iy) as [D2 _].
        rewrite <- (is_derive_unique _ _ _ D1). rewrite <- (is_derive_unique _ _ _ D2). apply Derive_ext. intros t. rewrite df_even. reflexivity. }
      rewrite E3. apply Nat.odd_spec in O. destruct O as [k ->]. replace (2 * k + 1)%nat with (S (2 * k)) by lia. rewrite <- !tech_pow_Rmult, !pow_mult. replace ((- x') ^ 2) with (x' ^ 2) by ring. ring.
    - apply (moment_deriv_box ty b p None Hb Hp R nsigma f HR Hn Reg); [|exact O]. intros x y Hx Hy. split; [apply E; assumption|apply HfR; assumption].
  Qed.
End E.
