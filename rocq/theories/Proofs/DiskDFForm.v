(** The disk distribution functions have their textbook forms and are constant along orbits. *)
From Coq Require Import Reals Lra.
From Coquelicot Require Import Coquelicot.
From Verif.Lib Require Import RealAux.
From Verif.Model Require Import DiskDF.
From Verif.Spec Require Import DiskDFSpec.
Open Scope R_scope.
Notation RR := RbaseSymbolsImpl.R (only parsing).
Ltac rr := match goal with |- ?a = ?b => change (@eq RR a b) end.

Lemma exp_ssp_ok p0 p1 p2 : p0 <> 0 -> p1 <> 0 -> 0 < p2 -> profile_ok (exp_ssp p0 p1 p2).
Proof.
  intros H0 H1 H2 R HR. cbn. assert (P : 0 < p2 ^ 2) by (apply pow_lt; exact H2). pose proof (exp_pos (- 2 * (R - 1) / p1)) as Pe.
  split; [apply exp_pos|]. split; [rewrite ln_exp; reflexivity|]. split; [auto_derive; [exact Logic.I || exact H0|rr; unfold Rdiv; field; exact H0]|]. split; [auto_derive; [exact Logic.I || exact H0|rr; unfold Rdiv; field; exact H0]|].
  split; [apply Rmult_lt_0_compat; assumption|]. split; [rewrite ln_mult, ln_exp by assumption; replace (p2 ^ 2) with (p2 * p2) by ring; rewrite ln_mult by exact H2; field; exact H1|].
  split; auto_derive; try exact H1; try exact Logic.I; rr; unfold Rdiv, Rminus; field; exact H1.
Qed.

Lemma gam_pos b : -1 < b -> 0 < gam b.
Proof. intros H. unfold gam. apply sqrt_lt_R0, Rdiv_lt_0_compat; lra. Qed.
Lemma axipot_eq b R : axipotential R b = Phi_circ b R.
Proof. unfold axipotential, Phi_circ. destruct (Req_EM_T b 0) as [|n]; [reflexivity|]. unfold rpow. field. exact n. Qed.
Lemma phi_derive b R : 0 < R -> is_derive (Phi_circ b) R (v_circ b R ^ 2 / R).
Proof.
  intros HR. unfold Phi_circ, v_circ. destruct (Req_EM_T b 0) as [->|n].
  - apply (is_derive_ext ln); [intros; reflexivity|]. rewrite Rpower_O by exact HR. evar_last; [apply is_derive_ln; exact HR|rr; field; lra].
  - evar_last.
    + apply (is_derive_ext (fun R => / (2 * b) * rpow R (2 * b))); [intros; rr; unfold rpow; field; exact n|]. apply (is_derive_scal (fun R => rpow R (2 * b))).
      apply (is_derive_rpow (fun x => x) (2 * b) R 1); [exact HR|apply (is_derive_id R)].
    + rr. replace (Rpower R b ^ 2) with (rpow R (2 * b)) by (replace (2 * b) with (b + b) by ring; rewrite rpow_plus; unfold rpow; ring).
      rewrite rpow_minus, rpow_1 by exact HR. unfold rpow. field. split; lra.
Qed.
Lemma v2 b R : v_circ b R ^ 2 = rpow R (2 * b). Proof. unfold v_circ. replace (2 * b) with (b + b) by ring. rewrite rpow_plus. unfold rpow. ring. Qed.

(** *** The radius of the circular orbit *)
Lemma one_inv b : b <> 0 -> -1 < b -> 1 + 1 / b <> 0.
Proof. intros n H E. assert (b + 1 = 0); [|lra]. replace (b + 1) with (b * (1 + 1 / b)) by (field; exact n). rewrite E. ring. Qed.
Lemma radius_of_circ b Rc : -1 < b -> 0 < Rc -> radius_E b (E_circ b Rc) = Some Rc.
Proof.
  intros Hb HR. unfold radius_E, E_circ, Phi_circ. destruct (Req_EM_T b 0) as [->|n].
  - unfold v_circ. rewrite Rpower_O by exact HR. replace (1 ^ 2 / 2 + ln Rc - 1 / 2) with (ln Rc) by field. rewrite exp_ln by exact HR. reflexivity.
  - cbv zeta. rewrite v2. pose proof (one_inv b n Hb) as N.
    replace (2 * (rpow Rc (2 * b) / 2 + Rpower Rc (2 * b) / (2 * b)) / (1 + 1 / b)) with (rpow Rc (2 * b)).
    + destruct (Rlt_dec 0 (rpow Rc (2 * b))) as [|q]; [|destruct q; apply rpow_pos]. rewrite rpow_mult. replace (2 * b * (1 / 2 / b)) with 1 by (field; exact n). rewrite rpow_1 by exact HR. reflexivity.
    + unfold rpow. field. split; [exact n|]. intros E. apply N. replace (1 + 1 / b) with ((b + 1) / b) by (field; exact n). rewrite E. unfold Rdiv. ring.
Qed.
Lemma radius_of_L b Rc : -1 < b -> 0 < Rc -> radius_L b (L_circ b Rc) = Rc.
Proof.
  intros Hb HR. unfold radius_L, L_circ, v_circ. destruct (Req_EM_T b 0) as [->|n].
  - rewrite Rpower_O by exact HR. ring.
  - replace (Rc * Rpower Rc b) with (rpow Rc (b + 1)) by (rewrite rpow_plus, rpow_1 by exact HR; unfold rpow; ring).
    rewrite rpow_mult. replace ((b + 1) * (1 / (b + 1))) with 1 by (field; lra). apply rpow_1. exact HR.
Qed.
Lemma L_circ_pos b R : 0 < R -> 0 < L_circ b R.
Proof. intros H. apply Rmult_lt_0_compat; [exact H|apply rpow_pos]. Qed.

Section Forms.
  Variables (b : RR) (p : Ssp) (corr : option (RR -> RR * RR)).
  Hypothesis Hb : -1 < b.
  Hypothesis Hp : profile_ok p.
  Notation Sig := (Sig p corr).
  Notation sg2 := (sg2 p corr).
  Lemma Sig_pos x : 0 < x -> 0 < Sig x. Proof. intros H. apply Rmult_lt_0_compat; [apply Hp; exact H|apply exp_pos]. Qed.
  Lemma sg2_pos x : 0 < x -> 0 < sg2 x. Proof. intros H. apply Rmult_lt_0_compat; [apply Hp; exact H|apply exp_pos]. Qed.
  Lemma exp_s2L x : 0 < x -> exp (s2L p x + snd (lcorr corr x)) = sg2 x.
  Proof. intros H. destruct (Hp x H) as (_ & _ & _ & _ & P & E & _). rewrite exp_plus, E, exp_ln by exact P. reflexivity. Qed.
  Lemma exp_smL x : 0 < x -> exp (smL p x + fst (lcorr corr x)) = Sig x.
  Proof. intros H. destruct (Hp x H) as (P & E & _). rewrite exp_plus, E, exp_ln by exact P. reflexivity. Qed.
  (** The common shape of the two formulas. *)
  Lemma assemble x e lS ls : 0 < x ->
    gam b * exp (ls - (s2L p x + snd (lcorr corr x)) + smL p x - lS + e + fst (lcorr corr x)) / 2 / PI
    = exp (ls - lS) * (gamma_circ b * Sig x / (2 * PI * sg2 x) * exp e).
  Proof.
    intros Hx. replace (ls - (s2L p x + snd (lcorr corr x)) + smL p x - lS + e + fst (lcorr corr x))
      with ((ls - lS) + (smL p x + fst (lcorr corr x)) + - (s2L p x + snd (lcorr corr x)) + e) by ring.
    rewrite !exp_plus with (y := e), exp_plus with (y := - _), exp_Ropp, exp_s2L, exp_plus, exp_smL by exact Hx.
    change (gamma_circ b) with (gam b). pose proof (sg2_pos x Hx). pose proof PI_RGT_0. field. split; lra.
  Qed.
  Lemma dehnen_is Rc L lS ls : 0 < Rc -> dehnen_eval b p corr (E_circ b Rc) L lS ls = Some (exp (ls - lS) * dehnen_form b Sig sg2 Rc L).
  Proof.
    intros HR. unfold dehnen_eval. rewrite radius_of_circ by assumption. cbv zeta. f_equal. unfold dehnen_form. rewrite <- assemble by exact HR. repeat f_equal.
    assert (E : exp (- (s2L p Rc + snd (lcorr corr Rc))) = / sg2 Rc) by (rewrite exp_Ropp, exp_s2L by exact HR; reflexivity).
    pose proof (sg2_pos Rc HR) as Ps. unfold explog. rewrite E. unfold Omega_circ, L_circ, v_circ. destruct (Req_EM_T b 0) as [->|n].
    - rewrite Rpower_O by exact HR. field. split; lra.
    - unfold rpow. field. split; lra.
  Qed.
  Lemma shu_is Rc E lS ls : 0 < Rc -> shu_eval b p corr E (L_circ b Rc) lS ls = Some (exp (ls - lS) * shu_form b Sig sg2 Rc E).
  Proof.
    intros HR. unfold shu_eval. destruct (Rle_dec (L_circ b Rc) 0) as [q|_]; [pose proof (L_circ_pos b Rc HR); lra|].
    rewrite radius_of_L by assumption. cbv zeta. f_equal. unfold shu_form. rewrite <- assemble by exact HR.
    assert (EE : exp (- (s2L p Rc + snd (lcorr corr Rc))) = / sg2 Rc) by (rewrite exp_Ropp, exp_s2L by exact HR; reflexivity).
    pose proof (sg2_pos Rc HR) as Ps. unfold explog. rewrite EE.
    replace ((E_circ b Rc - E) / sg2 Rc) with (- (if Req_EM_T b 0 then (- ln Rc - 1 / 2 + E) * / sg2 Rc else (- (1 / 2) * (1 / b + 1) * rpow Rc (2 * b) + E) * / sg2 Rc)); [repeat f_equal; ring|].
    unfold E_circ, Phi_circ. rewrite v2. destruct (Req_EM_T b 0) as [->|n].
    - rewrite Rmult_0_r. unfold rpow. rewrite Rpower_O by exact HR. field. lra.
    - unfold rpow. field. split; [exact n|lra].
  Qed.
  Lemma schw_is Rc R vR vT : 0 < Rc -> 0 < R -> R * vT = L_circ b Rc ->
    df_at Schwarzschild b p corr R vR vT = Some (schwarzschild_form b Sig sg2 Rc R vR vT).
  Proof.
    intros HRc HR HL. unfold df_at, vRvTRToEL. cbv zeta. rewrite HL, radius_of_L by assumption. unfold eval. rewrite shu_is by exact HRc. rewrite Rminus_eq_0, exp_0, Rmult_1_l.
    f_equal. unfold shu_form, schwarzschild_form. f_equal. apply (f_equal exp). rewrite axipot_eq. unfold E_circ. rewrite v2. pose proof (sg2_pos Rc HRc). unfold gamma_circ, v_circ, rpow. field. lra.
  Qed.
End Forms.

(** *** Constant along orbits *)
Lemma const_of_derive (f : RR -> RR) : (forall t, is_derive f t 0) -> forall t s, f t = f s.
Proof.
  intros D t s. destruct (Rtotal_order t s) as [H|[H|H]].
  - apply (eq_is_derive f t s); [intros; apply D|exact H].
  - rewrite H. reflexivity.
  - symmetry. apply (eq_is_derive f s t); [intros; apply D|exact H].
Qed.
Lemma energy_const b R vR vT : planar_orbit b R vR vT -> forall t s, axipotential (R t) b + 1 / 2 * vR t ^ 2 + 1 / 2 * vT t ^ 2 = axipotential (R s) b + 1 / 2 * vR s ^ 2 + 1 / 2 * vT s ^ 2.
Proof.
  intros O. apply (const_of_derive (fun t => axipotential (R t) b + 1 / 2 * vR t ^ 2 + 1 / 2 * vT t ^ 2)). intros t. destruct (O t) as (P & D1 & D2 & D3).
  apply (is_derive_ext (fun t => Phi_circ b (R t) + 1 / 2 * vR t ^ 2 + 1 / 2 * vT t ^ 2)); [intros; rewrite axipot_eq; reflexivity|].
  evar_last.
  - apply (is_derive_plus (fun t => Phi_circ b (R t) + 1 / 2 * vR t ^ 2) (fun t => 1 / 2 * vT t ^ 2)).
    + apply (is_derive_plus (fun t => Phi_circ b (R t)) (fun t => 1 / 2 * vR t ^ 2)).
      * apply (is_derive_comp (Phi_circ b) R); [apply phi_derive; exact P|exact D1].
      * apply (is_derive_scal (fun t => vR t ^ 2)). apply (is_derive_pow vR 2). exact D2.
    + apply (is_derive_scal (fun t => vT t ^ 2)). apply (is_derive_pow vT 2). exact D3.
  - unfold plus, scal; cbn; unfold mult; cbn. rr. field. lra.
Qed.
Lemma L_const b R vR vT : planar_orbit b R vR vT -> forall t s, vT t * R t = vT s * R s.
Proof.
  intros O. apply (const_of_derive (fun t => vT t * R t)). intros t. destruct (O t) as (P & D1 & D2 & D3). evar_last.
  - apply (is_derive_mult vT R); [exact D3|exact D1|intros; apply Rmult_comm].
  - unfold plus, mult; cbn. rr. field. lra.
Qed.
Lemma df_const ty b p corr R vR vT : ty <> Schwarzschild -> planar_orbit b R vR vT -> forall t s, df_at ty b p corr (R t) (vR t) (vT t) = df_at ty b p corr (R s) (vR s) (vT s).
Proof.
  intros N O t s. unfold df_at, vRvTRToEL. destruct ty; [| |destruct N; reflexivity]; rewrite (energy_const b R vR vT O t s), (L_const b R vR vT O t s); reflexivity.
Qed.
