(** The closed-form distribution functions give back the density of their potential. *)
From Coq Require Import Reals List ZArith Lra Lia.
From Coquelicot Require Import Coquelicot.
From Verif.Lib Require Import RealAux.
From Verif.Model Require Import PotAxi SphericalDF.
From Verif.Proofs Require Import EOMProofs StaeckelProofs KuzminKutuzovProofs SphericalDFIntegrals SphericalDFDensity.
Open Scope R_scope.
Notation RR := RbaseSymbolsImpl.R (only parsing).
Ltac rr := match goal with |- ?a = ?b => change (@eq RR a b) end.

Lemma gamma_half_3 : gamma_half 3 = sqrt PI / 2.
Proof. cbn. field. Qed.
Lemma sqrtPI_pos : 0 < sqrt PI.
Proof. apply sqrt_lt_R0, PI_RGT_0. Qed.
Lemma sqrtPI_sq : sqrt PI * sqrt PI = PI.
Proof. apply sqrt_sqrt. pose proof PI_RGT_0. lra. Qed.
Lemma iso_density fE Phi r : iso_vmoment fE Phi r 0 0 = 4 * PI * RInt (fun v => v ^ 2 * fE (Phi r 0 + 0.5 * v ^ 2)) 0 (vmax_at_r Phi r).
Proof.
  unfold iso_vmoment. change (odd_moment 0 0) with false. cbn [Nat.div Nat.mul Nat.add fst Nat.divmod Nat.sub].
  replace (gamma_half 2) with 1 by reflexivity. replace (gamma_half 1) with (sqrt PI) by reflexivity. rewrite gamma_half_3.
  pose proof sqrtPI_pos. change (Nat.div 0 2) with 0%nat. cbn [Nat.mul Nat.add].
  match goal with |- context [RInt ?f ?a ?b] => set (I := RInt f a b) end. rr. 
  replace (gamma_half 2) with 1 by reflexivity. replace (gamma_half 1) with (sqrt PI) by reflexivity. rewrite ?gamma_half_3. field. lra.
Qed.

(** The argument of the distribution function is positive below the escape speed. *)
Lemma below_vm (Psi v : RR) : 0 < Psi -> 0 < v < sqrt (2 * Psi) -> 0 < Psi - 0.5 * v ^ 2 < Psi.
Proof.
  intros H Hv. pose proof (sqrt_sq_eq (2 * Psi) ltac:(lra)) as S. assert (v ^ 2 < 2 * Psi) by (rewrite <- S; nra). assert (0 < v ^ 2) by nra. lra.
Qed.
Lemma RInt_scaled (f g : RR -> RR) (c a b : RR) (l : RR) : a <= b -> (forall x, a < x < b -> f x = c * g x) -> is_RInt g a b l -> is_RInt f a b (c * l).
Proof.
  intros Hab E H. apply (is_RInt_ext (V := R_CompleteNormedModule) (fun x => scal c (g x))).
  - intros x Hx. rewrite Rmin_left, Rmax_right in Hx by exact Hab. symmetry. apply E, Hx.
  - exact (is_RInt_scal (V := R_CompleteNormedModule) g a b c l H).
Qed.
Lemma is_speed_power (Psi : RR) (k : nat) : 0 < Psi ->
  is_RInt (fun v => v ^ 2 * sqrt (Psi - 0.5 * v ^ 2) ^ k) 0 (sqrt (2 * Psi)) (sqrt 2 * sqrt Psi ^ (k + 3) * KI (k + 1) 2).
Proof.
  intros H. rewrite <- speed_power by exact H. apply (RInt_correct (V := R_CompleteNormedModule)).
  apply (ex_RInt_continuous (V := R_CompleteNormedModule)). intros x _.
  apply (continuous_mult (fun v : RR => v ^ 2) (fun v => sqrt (Psi - 0.5 * v ^ 2) ^ k)).
  - apply (@ex_derive_continuous R_AbsRing R_NormedModule). auto_derive. exact I.
  - apply (continuous_comp (fun v : RR => sqrt (Psi - 0.5 * v ^ 2)) (fun s => s ^ k)).
    + apply (continuous_comp (fun v : RR => Psi - 0.5 * v ^ 2) sqrt); [|apply continuous_sqrt].
      apply (@ex_derive_continuous R_AbsRing R_NormedModule). auto_derive. exact I.
    + apply (@ex_derive_continuous R_AbsRing R_NormedModule). auto_derive. exact I.
Qed.

Lemma KI_82 : KI 8 2 = 7 * PI / 256.
Proof.
  change 2%nat with (2 * 1)%nat. rewrite KI_gamma. cbn [Nat.mul Nat.add gamma_half INR].
  replace PI with (sqrt PI * sqrt PI) at 3 by apply sqrtPI_sq. field.
Qed.

Theorem plummer_density amp b r : 0 < amp -> 0 < b ->
  iso_vmoment (plummer_fE amp b) (fun R z => amp * Pl_ev b R z) r 0 0 = amp * Pl_dens b r 0.
Proof.
  intros Ha Hb. rewrite iso_density. unfold vmax_at_r. set (D := r ^ 2 + 0 ^ 2 + Pl_b2 b).
  assert (HD : b ^ 2 <= D) by (unfold D, Pl_b2; pose proof (pow2_ge_0 r); lra). assert (Hb2 : 0 < b ^ 2) by nra.
  set (sD := sqrt D). assert (HsD : b <= sD) by (unfold sD; rewrite <- (sqrt_pow2 b) by lra; apply sqrt_le_1; lra).
  set (Psi := amp / sD). assert (HP : 0 < Psi) by (apply Rdiv_lt_0_compat; lra).
  assert (EP : amp * Pl_ev b r 0 = - Psi) by (unfold Pl_ev, Psi, sD, D; field; fold D sD; lra).
  rewrite EP. replace (0 - - Psi) with Psi by ring.
  assert (Cap : Psi <= amp / b) by (unfold Psi, Rdiv; apply Rmult_le_compat_l; [lra|]; apply Rinv_le_contravar; lra).
  set (norm := 24 * sqrt 2 / 7 / PI ^ 3 * b ^ 2 / amp ^ 4).
  rewrite (is_RInt_unique (V := R_CompleteNormedModule) _ 0 (sqrt (2 * Psi)) (norm * (sqrt 2 * sqrt Psi ^ (7 + 3) * KI (7 + 1) 2))).
  2:{ apply (RInt_scaled _ (fun v => v ^ 2 * sqrt (Psi - 0.5 * v ^ 2) ^ 7)); [apply sqrt_pos| |apply is_speed_power, HP].
    intros v Hv. pose proof (below_vm Psi v HP Hv) as Bd. unfold plummer_fE.
    replace (- (- Psi + 0.5 * v ^ 2)) with (Psi - 0.5 * v ^ 2) by ring. fold norm.
    destruct (Rlt_dec 0 (Psi - 0.5 * v ^ 2)) as [_|N]; [|lra]. destruct (Rle_dec (Psi - 0.5 * v ^ 2) (amp / b)) as [_|N]; [|lra].
    replace 3.5 with (7 / 2) by lra. rewrite rpow_7_2 by lra. ring. }
  change (7 + 1)%nat with 8%nat. change (7 + 3)%nat with 10%nat. rewrite KI_82. unfold Pl_dens. fold D. rewrite rpow_opp, rpow_5_2 by lra. fold sD.
  replace (sqrt Psi ^ 10) with ((sqrt Psi ^ 2) ^ 5) by ring. rewrite sqrt_sq_eq by lra. unfold Psi, norm, Pl_b2.
  pose proof (sqrt_sq_eq 2 ltac:(lra)) as S2. pose proof PI_RGT_0. rr.
  transitivity (4 * PI * (24 * (sqrt 2 ^ 2) / 7 / PI ^ 3 * b ^ 2 / amp ^ 4 * ((amp / sD) ^ 5 * (7 * PI / 256)))); [field; lra|]. rewrite S2. field. lra.
Qed.

(** Power laws *)
Theorem powerlaw_density (k : nat) nu0 C Psi : (3 <= k)%nat -> 0 < C -> 0 < Psi ->
  4 * PI * RInt (fun v => v ^ 2 * powerlaw_fE k nu0 C (- Psi + 0.5 * v ^ 2)) 0 (sqrt (2 * Psi)) = nu0 * rpow (Psi / C) (INR k / 2).
Proof.
  intros Hk HC HP. set (norm := nu0 * gamma_half (k + 2) / (2 * sqrt 2 * rpow PI 1.5 * gamma_half (k - 1) * rpow C (INR k / 2))).
  rewrite (is_RInt_unique (V := R_CompleteNormedModule) _ 0 (sqrt (2 * Psi)) (norm * (sqrt 2 * sqrt Psi ^ (k - 3 + 3) * KI (k - 3 + 1) 2))).
  2:{ apply (RInt_scaled _ (fun v => v ^ 2 * sqrt (Psi - 0.5 * v ^ 2) ^ (k - 3))); [apply sqrt_pos| |apply is_speed_power, HP].
    intros v Hv. pose proof (below_vm Psi v HP Hv) as Bd. unfold powerlaw_fE.
    replace (- (- Psi + 0.5 * v ^ 2)) with (Psi - 0.5 * v ^ 2) by ring. fold norm.
    destruct (Rlt_dec 0 (Psi - 0.5 * v ^ 2)) as [_|N]; [|lra].
    replace (INR k / 2 - 1.5) with (INR (k - 3) / 2) by (rewrite minus_INR by exact Hk; cbn [INR]; lra). rewrite rpow_half_nat by lra. ring. }
  replace (k - 3 + 3)%nat with k by lia. replace (k - 3 + 1)%nat with (k - 2)%nat by lia. change 2%nat with (2 * 1)%nat at 2. rewrite KI_gamma.
  replace (k - 2 + 1)%nat with (k - 1)%nat by lia. replace (k - 2 + 2 * 1 + 2)%nat with (k + 2)%nat by lia. change (2 * 1 + 1)%nat with 3%nat.
  rewrite gamma_half_3. unfold norm.
  assert (E : rpow (Psi / C) (INR k / 2) = sqrt Psi ^ k / rpow C (INR k / 2)).
  { rewrite !rpow_half_nat by (try apply Rdiv_lt_0_compat; lra). unfold Rdiv at 1. rewrite sqrt_mult_alt by lra. rewrite Rpow_mult_distr.
    rewrite sqrt_inv, pow_inv. reflexivity. }
  rewrite E. replace 1.5 with (3 / 2) by lra. rewrite (rpow_3_2 PI) by apply PI_RGT_0.
  replace (4 * PI) with (4 * (sqrt PI * sqrt PI)) by (rewrite sqrtPI_sq; reflexivity).
  pose proof sqrtPI_pos. pose proof (gamma_half_pos (k + 2) ltac:(lia)). pose proof (gamma_half_pos (k - 1) ltac:(lia)).
  pose proof (rpow_pos C (INR k / 2)). pose proof (sqrt_lt_R0 2 ltac:(lra)). rr. field. repeat split; lra.
Qed.

(** ** Hernquist *)
Section Hernquist.
  Variables (amp a r : RR).
  Hypotheses (Ha : 0 < amp) (Hs : 0 < a) (Hr : 0 < r).
  Let Phi (R z : RR) : RR := amp * He_ev a R z.
  Let psi0 : RR := - Phi 0 0.
  Let x : RR := a / (r + a).
  Lemma He_psi0 : psi0 = amp / (2 * a).
  Proof. unfold psi0, Phi, He_ev, He_r. replace (0 ^ 2 + 0 ^ 2) with 0 by ring. rewrite sqrt_0. field. lra. Qed.
  Lemma He_psi0_pos : 0 < psi0.
  Proof. rewrite He_psi0. apply Rdiv_lt_0_compat; lra. Qed.
  Lemma He_rr : He_r r 0 = r.
  Proof. unfold He_r. replace (r ^ 2 + 0 ^ 2) with (r ^ 2) by ring. apply sqrt_pow2. lra. Qed.
  Lemma He_x : 0 < x < 1.
  Proof.
    unfold x. split; [apply Rdiv_lt_0_compat; lra|]. apply Rmult_lt_reg_r with (r + a); [lra|]. replace (a / (r + a) * (r + a)) with a by (field; lra). lra.
  Qed.
  Lemma He_Phi : Phi r 0 = - (psi0 * x).
  Proof. rewrite He_psi0. unfold Phi, He_ev, x. rewrite He_rr. field. lra. Qed.
  Lemma He_density : amp * He_dens a r 0 = psi0 / (2 * PI * a ^ 2) * x ^ 4 / (1 - x).
  Proof.
    unfold He_dens, De_dens, De_r. replace (r ^ 2 + 0 ^ 2) with (r ^ 2) by ring. rewrite sqrt_pow2 by lra.
    assert (0 < a / r) by (apply Rdiv_lt_0_compat; lra). assert (0 < r / a) by (apply Rdiv_lt_0_compat; lra).
    replace (4 - 1) with 3 by ring. rewrite rpow_1, rpow_3 by lra. rewrite He_psi0. unfold x. pose proof PI_RGT_0.
    field. repeat split; lra.
  Qed.
  Lemma He_norm : hernquist_norm psi0 a = psi0 / (sqrt 2 * (2 * PI) ^ 3 * sqrt psi0 ^ 3 * a ^ 2).
  Proof.
    pose proof He_psi0_pos as P. unfold hernquist_norm. replace 1.5 with (3 / 2) by lra. assert (0 < a ^ 2) by nra.
    rewrite rpow_3_2 by (apply Rmult_lt_0_compat; lra). rewrite sqrt_mult by lra. rewrite sqrt_pow2 by lra.
    pose proof (sqrt_lt_R0 psi0 P). pose proof (sqrt_lt_R0 2 ltac:(lra)). pose proof PI_RGT_0. field. repeat split; lra.
  Qed.
  Lemma He_vm : vmax_at_r Phi r = sqrt (2 * (psi0 * x)).
  Proof. unfold vmax_at_r. rewrite He_Phi. f_equal. ring. Qed.
  Lemma He_e v : - ((- (psi0 * x) + 0.5 * v ^ 2) / psi0) = x - 0.5 * v ^ 2 / psi0.
  Proof. pose proof He_psi0_pos as P. replace 0.5 with (1 / 2) by lra. field. lra. Qed.
  Lemma He_in v : 0 < v < sqrt (2 * (psi0 * x)) -> 0 < x - 0.5 * v ^ 2 / psi0 < x.
  Proof.
    intros Hv. pose proof He_psi0_pos as P. pose proof He_x as Hx. assert (Q : 0 < psi0 * x) by nra.
    pose proof (below_vm (psi0 * x) v Q Hv) as Bd.
    assert (E : x - 0.5 * v ^ 2 / psi0 = (psi0 * x - 0.5 * v ^ 2) / psi0) by (replace 0.5 with (1 / 2) by lra; field; lra).
    assert (V : 0 < 0.5 * v ^ 2 / psi0) by (apply Rdiv_lt_0_compat; lra).
    split; [|lra]. rewrite E. apply Rdiv_lt_0_compat; lra.
  Qed.
  Lemma in_unit_true e : 0 < e < 1 -> in_unit e = true.
  Proof. intros H. unfold in_unit. destruct (Rlt_dec e 0); [lra|]. destruct (Rlt_dec 1 e); [lra|reflexivity]. Qed.
  Lemma He_unit v : 0 < v < sqrt (2 * (psi0 * x)) -> in_unit (x - 0.5 * v ^ 2 / psi0) = true.
  Proof. intros Hv. pose proof (He_in v Hv). pose proof He_x. apply in_unit_true. lra. Qed.

  (** A distribution function that is the Hernquist shape below the escape energy *)
  Lemma He_speed (f : RR -> RR) : (forall v, 0 < v < sqrt (2 * (psi0 * x)) -> f v = v ^ 2 * (hernquist_norm psi0 a * hernquist_shape (x - 0.5 * v ^ 2 / psi0))) ->
    is_RInt f 0 (sqrt (2 * (psi0 * x))) (amp * He_dens a r 0 / (4 * PI)).
  Proof.
    intros E. pose proof He_psi0_pos as P. pose proof (sqrt_lt_R0 psi0 P) as P2. pose proof (sqrt_lt_R0 2 ltac:(lra)) as P3. pose proof PI_RGT_0 as Pi. pose proof He_x as Hx.
    replace (amp * He_dens a r 0 / (4 * PI)) with (hernquist_norm psi0 a * (2 * sqrt 2 * sqrt psi0 ^ 3 * (PI / 2 * x ^ 4 / (1 - x)))).
    2:{ rewrite He_density, He_norm. field. repeat split; lra. }
    apply (RInt_scaled _ (fun v => v ^ 2 * hernquist_shape (x - 0.5 * v ^ 2 / psi0))); [apply sqrt_pos| |apply hernquist_speed; assumption].
    intros v Hv. rewrite E by exact Hv. ring.
  Qed.
  Theorem hernquist_density : iso_vmoment (hernquist_fE psi0 a) Phi r 0 0 = amp * He_dens a r 0.
  Proof.
    rewrite iso_density, He_vm, He_Phi. pose proof PI_RGT_0 as Pi.
    rewrite (is_RInt_unique (V := R_CompleteNormedModule) _ 0 _ (amp * He_dens a r 0 / (4 * PI))); [rr; field; lra|].
    apply He_speed. intros v Hv. unfold hernquist_fE. rewrite He_e, He_unit by exact Hv. reflexivity.
  Qed.
  Theorem cbh_density_0 : cb_vmoment 1 (cbh_fE 1 psi0 a) Phi r 0 0 = amp * He_dens a r 0.
  Proof.
    rewrite <- hernquist_density, iso_density. unfold cb_vmoment. change (odd_moment 0 0) with false. cbn [pow_pred pow Nat.add].
    rewrite gamma_half_3. replace (gamma_half 2) with 1 by reflexivity. replace (gamma_half 1) with (sqrt PI) by reflexivity.
    pose proof sqrtPI_pos.
    match goal with |- _ * _ * RInt ?f ?a ?b * _ * _ / _ = _ * RInt ?g _ _ => change (RInt g a b) with (RInt f a b); set (I := RInt f a b) end. rr. field. lra.
  Qed.
  (** beta = 1/2 *)
  Theorem cbh_density_half : cb_vmoment 0 (cbh_fE 0 psi0 a) Phi r 0 0 = amp * He_dens a r 0.
  Proof.
    unfold cb_vmoment. change (odd_moment 0 0) with false. cbn [pow_pred Nat.add]. rewrite He_vm, He_Phi.
    pose proof PI_RGT_0 as Pi. pose proof He_psi0_pos as P. pose proof He_x as Hx. set (vm := sqrt (2 * (psi0 * x))).
    assert (Vm : 0 < vm) by (apply sqrt_lt_R0; nra). assert (Vs : vm ^ 2 = 2 * (psi0 * x)) by (apply sqrt_sq_eq; nra).
    set (F := fun v : RR => - psi0 * (x - v ^ 2 / (2 * psi0)) ^ 3 / (4 * PI ^ 3 * a)).
    rewrite (is_RInt_unique (V := R_CompleteNormedModule) _ 0 vm (minus (F vm) (F 0))).
    2:{ apply (is_RInt_ext (V := R_CompleteNormedModule) (fun v => v * (3 * (x - v ^ 2 / (2 * psi0)) ^ 2 / (4 * PI ^ 3 * a)))).
      - intros v Hv. rewrite Rmin_left, Rmax_right in Hv by lra. rewrite pow_1. f_equal. unfold cbh_fE. rewrite He_e, He_unit by exact Hv.
        replace (0.5 * v ^ 2 / psi0) with (v ^ 2 / (2 * psi0)); [reflexivity|]. replace 0.5 with (1 / 2) by lra. field. lra.
      - apply (is_RInt_derive (V := R_CompleteNormedModule) F).
        + intros v _. unfold F. assert (PI ^ 3 <> 0) by (apply pow_nonzero; lra). auto_derive; [repeat split; nra|]. rr. field. repeat split; lra.
        + intros v _. apply (@ex_derive_continuous R_AbsRing R_NormedModule). auto_derive. assert (PI ^ 3 <> 0) by (apply pow_nonzero; lra). repeat split; nra. }
    change (minus (F vm) (F 0)) with (F vm - F 0). unfold F. rewrite Vs. replace (x - 2 * (psi0 * x) / (2 * psi0)) with 0 by (field; lra).
    rewrite He_density. replace (gamma_half 1) with (sqrt PI) by reflexivity. replace (gamma_half 2) with 1 by reflexivity.
    assert (Er : r = a * (1 - x) / x) by (unfold x; field; lra). rewrite Er.
    pose proof sqrtPI_pos as Sp. pose proof sqrtPI_sq as Sq. remember (sqrt PI) as s eqn:Es. clear Es. symmetry in Sq. rewrite Sq. rr.
    field. repeat split; lra.
  Qed.
  (** beta = -1/2 *)
  Theorem cbh_density_minus_half : cb_vmoment 2 (cbh_fE 2 psi0 a) Phi r 0 0 = amp * He_dens a r 0.
  Proof.
    unfold cb_vmoment. change (odd_moment 0 0) with false. cbn [pow_pred Nat.add]. rewrite He_vm, He_Phi.
    pose proof PI_RGT_0 as Pi. pose proof He_psi0_pos as P. pose proof He_x as Hx. set (vm := sqrt (2 * (psi0 * x))).
    assert (Vm : 0 < vm) by (apply sqrt_lt_R0; nra). assert (Vs : vm ^ 2 = 2 * (psi0 * x)) by (apply sqrt_sq_eq; nra).
    assert (P3 : PI ^ 3 <> 0) by (apply pow_nonzero; lra).
    set (e := fun v : RR => x - v ^ 2 / (2 * psi0)).
    assert (E1 : forall v, e v < 1) by (intros v; unfold e; assert (0 <= v ^ 2 / (2 * psi0)) by (apply Rdiv_le_0_compat; [apply pow2_ge_0|lra]); lra).
    set (J := fun e : RR => e ^ 5 / (1 - e) ^ 2). set (dJ := fun e : RR => (5 * e ^ 4 - 3 * e ^ 5) / (1 - e) ^ 3).
    set (F := fun v : RR => - (2 * psi0 ^ 2) * ((x - e v) * dJ (e v) + J (e v)) / (4 * PI ^ 3 * (psi0 * a ^ 2) * a)).
    rewrite (is_RInt_unique (V := R_CompleteNormedModule) _ 0 vm (minus (F vm) (F 0))).
    2:{ apply (is_RInt_ext (V := R_CompleteNormedModule) (fun v => v ^ 3 * ((20 * e v ^ 3 - 20 * e v ^ 4 + 6 * e v ^ 5) / (1 - e v) ^ 4 / (4 * PI ^ 3 * (psi0 * a ^ 2) * a)))).
      - intros v Hv. rewrite Rmin_left, Rmax_right in Hv by lra. f_equal. unfold cbh_fE. rewrite He_e, He_unit by exact Hv.
        replace (0.5 * v ^ 2 / psi0) with (v ^ 2 / (2 * psi0)); [reflexivity|]. replace 0.5 with (1 / 2) by lra. field. lra.
      - apply (is_RInt_derive (V := R_CompleteNormedModule) F).
        + intros v _. pose proof (E1 v) as Ev. unfold F, dJ, J. 
          assert (De : is_derive e v (- v / psi0)) by (unfold e; auto_derive; [repeat split; lra|rr; field; lra]).
          assert (Dg : forall u, u < 1 -> is_derive (fun u : RR => - (2 * psi0 ^ 2) * ((x - u) * ((5 * u ^ 4 - 3 * u ^ 5) / (1 - u) ^ 3) + u ^ 5 / (1 - u) ^ 2) / (4 * PI ^ 3 * (psi0 * a ^ 2) * a)) u
            (- (2 * psi0 ^ 2) * ((x - u) * (20 * u ^ 3 - 20 * u ^ 4 + 6 * u ^ 5) / (1 - u) ^ 4) / (4 * PI ^ 3 * (psi0 * a ^ 2) * a))).
          { intros u Hu. auto_derive; [repeat split; apply Rgt_not_eq; apply Rmult_lt_0_compat; try lra; apply Rmult_lt_0_compat; lra|]. rr. field. repeat split; lra. }
          refine (is_derive_eq _ _ _ _ (is_derive_Rchain _ e v _ _ (Dg (e v) Ev) De) _). rr.
          replace (x - e v) with (v ^ 2 / (2 * psi0)) by (unfold e; ring). field. repeat split; lra.
        + intros v _. pose proof (E1 v) as Ev. apply (@ex_derive_continuous R_AbsRing R_NormedModule).
          assert (Ee : ex_derive e v) by (unfold e; auto_derive; repeat split; lra).
          auto_derive. repeat split; try exact Ee. 
          apply Rgt_not_eq. repeat apply Rmult_lt_0_compat; lra. }
    change (minus (F vm) (F 0)) with (F vm - F 0). unfold F, J, dJ. replace (e vm) with 0 by (unfold e; rewrite Vs; field; lra).
    replace (e 0) with x by (unfold e; field; lra).
    rewrite He_density, gamma_half_3. replace (gamma_half 1) with (sqrt PI) by reflexivity. replace (gamma_half 4) with 1 by (cbn; field).
    assert (Er : r = a * (1 - x) / x) by (unfold x; field; lra). rewrite pow_1, Er.
    pose proof sqrtPI_pos as Sp. pose proof sqrtPI_sq as Sq. remember (sqrt PI) as s eqn:Es. clear Es. symmetry in Sq. rewrite Sq. rr.
    field. repeat split; lra.
  Qed.

  (** Osipkov-Merritt *)
  Variable ra : RR.
  Hypothesis Hra : 0 < ra.
  Theorem omh_density : om_vmoment ra (omh_fQ psi0 a ra) Phi r 0 0 = amp * He_dens a r 0.
  Proof.
    unfold om_vmoment. change (odd_moment 0 0) with false. change (0 / 2 + 1)%nat with 1%nat. cbn [Nat.add].
    rewrite gamma_half_3. replace (gamma_half 2) with 1 by reflexivity. replace (gamma_half 1) with (sqrt PI) by reflexivity.
    rewrite He_vm, He_Phi. pose proof PI_RGT_0 as Pi. pose proof He_psi0_pos as P. pose proof He_x as Hx.
    pose proof (sqrt_lt_R0 psi0 P) as P2. pose proof (sqrt_lt_R0 2 ltac:(lra)) as P3. assert (Q : 0 < psi0 * x) by nra.
    set (c1 := hernquist_norm psi0 a * (8 * (a ^ 2 / ra ^ 2)) / sqrt psi0).
    set (c2 := hernquist_norm psi0 a * (8 * (a ^ 2 / ra ^ 2)) * (-2) / (sqrt psi0 * psi0)).
    set (I1 := sqrt 2 * sqrt (psi0 * x) ^ (1 + 3) * KI (1 + 1) 2). set (I3 := sqrt 2 * sqrt (psi0 * x) ^ (3 + 3) * KI (3 + 1) 2).
    rewrite (is_RInt_unique (V := R_CompleteNormedModule) _ 0 _ (amp * He_dens a r 0 / (4 * PI) + (c1 * I1 + c2 * I3))).
    2:{ apply (is_RInt_ext (V := R_CompleteNormedModule) (fun v => plus (v ^ 2 * (hernquist_norm psi0 a * hernquist_shape (x - 0.5 * v ^ 2 / psi0)))
          (plus (scal c1 (v ^ 2 * sqrt (psi0 * x - 0.5 * v ^ 2) ^ 1)) (scal c2 (v ^ 2 * sqrt (psi0 * x - 0.5 * v ^ 2) ^ 3))))).
      - intros v Hv. rewrite Rmin_left, Rmax_right in Hv by apply sqrt_pos. unfold omh_fQ.
        replace ((- - (psi0 * x) - 0.5 * v ^ 2) / psi0) with (x - 0.5 * v ^ 2 / psi0) by (replace 0.5 with (1 / 2) by lra; field; lra).
        rewrite He_unit by exact Hv. pose proof (below_vm (psi0 * x) v Q Hv) as Bd.
        set (y := psi0 * x - 0.5 * v ^ 2) in *. set (h := hernquist_shape (x - 0.5 * v ^ 2 / psi0)).
        replace (x - 0.5 * v ^ 2 / psi0) with (y / psi0) by (unfold y; replace 0.5 with (1 / 2) by lra; field; lra).
        change (v ^ 2 * (hernquist_norm psi0 a * h) + (c1 * (v ^ 2 * sqrt y ^ 1) + c2 * (v ^ 2 * sqrt y ^ 3)) =
                v ^ 2 * (hernquist_norm psi0 a * (h + 8 * (a ^ 2 / ra ^ 2) * sqrt (y / psi0) * (1 - 2 * (y / psi0))))).
        replace (sqrt (y / psi0)) with (sqrt y / sqrt psi0) by (symmetry; apply sqrt_div; lra).
        replace (sqrt y ^ 3) with (sqrt y * y) by (transitivity (sqrt y * sqrt y ^ 2); [rewrite sqrt_sq_eq by lra; reflexivity|ring]).
        unfold c1, c2. field. repeat split; lra.
      - apply (is_RInt_plus (V := R_CompleteNormedModule)); [apply He_speed; reflexivity|].
        apply (is_RInt_plus (V := R_CompleteNormedModule)); apply (is_RInt_scal (V := R_CompleteNormedModule)); apply is_speed_power, Q. }
    assert (K22 : KI (1 + 1) 2 = PI / 8).
    { change 2%nat with (2 * 1)%nat. rewrite KI_gamma. cbn [Nat.mul Nat.add gamma_half INR]. replace PI with (sqrt PI * sqrt PI) at 3 by apply sqrtPI_sq. field. }
    assert (K42 : KI (3 + 1) 2 = PI / 16).
    { change 2%nat with (2 * 1)%nat. rewrite KI_gamma. cbn [Nat.mul Nat.add gamma_half INR]. replace PI with (sqrt PI * sqrt PI) at 3 by apply sqrtPI_sq. field. }
    unfold I1, I3. rewrite K22, K42. change (1 + 3)%nat with 4%nat. change (3 + 3)%nat with 6%nat.
    replace (sqrt (psi0 * x) ^ 4) with ((sqrt (psi0 * x) ^ 2) ^ 2) by ring. replace (sqrt (psi0 * x) ^ 6) with ((sqrt (psi0 * x) ^ 2) ^ 3) by ring.
    rewrite sqrt_sq_eq by lra. unfold c1, c2. rewrite He_density, He_norm.
    assert (Er : r = a * (1 - x) / x) by (unfold x; field; lra). rewrite Er.
    pose proof sqrtPI_pos as Sp. pose proof (sqrt_sq_eq psi0 ltac:(lra)) as Sp2. remember (sqrt psi0) as s eqn:Es. clear Es. rewrite <- Sp2. rr. 
    field. repeat split; try lra. 
    all: try (assert (0 < ra ^ 2) by nra; assert (0 <= (a * (1 - x)) ^ 2) by apply pow2_ge_0; nra).
  Qed.
End Hernquist.
