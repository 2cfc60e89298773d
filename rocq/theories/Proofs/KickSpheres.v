(** The kicks of a Plummer and of a Hernquist sphere in closed form. *)
From Coq Require Import Reals Lra.
From Coquelicot Require Import Coquelicot.
From Verif.Lib Require Import RealAux Vec3.
From Verif.Spec Require Import KickSpec.
From Verif.Model Require Import RotVec Impulse.
From Verif.Proofs Require Import KickBasics.
Open Scope R_scope.
Notation RR := RbaseSymbolsImpl.R (only parsing).
Ltac rr := match goal with |- ?a = ?b => change (@eq RR a b) end.

(** ** The distance sqrt(c + u^2) *)
Section Root.
  Variable c : RR.
  Hypothesis Hc : 0 < c.
  Definition rad (u : RR) : RR := sqrt (c + u ^ 2).
  Lemma arg_pos u : 0 < c + u ^ 2. Proof. pose proof (pow2_ge_0 u). lra. Qed.
  Lemma rad_pos u : 0 < rad u. Proof. apply sqrt_lt_R0, arg_pos. Qed.
  Lemma rad_sq u : rad u ^ 2 = c + u ^ 2. Proof. unfold rad. apply pow2_sqrt. pose proof (arg_pos u). lra. Qed.
  Lemma rad_gt u : u < rad u. Proof. pose proof (rad_pos u). pose proof (rad_sq u). nra. Qed.
  Lemma d_rad u : is_derive rad u (u / rad u).
  Proof. pose proof (rad_pos u). pose proof (arg_pos u). unfold rad in *. auto_derive; [simpl in *; lra|]. simpl in *. rr. field. lra. Qed.
  Lemma rad_even u : rad (- u) = rad u. Proof. unfold rad. f_equal. ring. Qed.
  Lemma inv_rad_lim k : 0 <= k -> filterlim (fun u => / (rad u + k)) (Rbar_locally p_infty) (locally 0).
  Proof.
    intros Hk. apply (lim_by _ 0 1); [lra|]. intros u Hu. pose proof (rad_pos u). pose proof (rad_gt u). rewrite Rminus_0_r, Rabs_pos_eq by (left; apply Rinv_0_lt_compat; lra).
    unfold Rdiv. rewrite Rmult_1_l. apply Rinv_le_contravar; lra.
  Qed.
  Lemma ratio_lim k : 0 <= k -> filterlim (fun u => u / (rad u + k)) (Rbar_locally p_infty) (locally 1).
  Proof.
    intros Hk. apply (lim_by _ 1 (c + k)); [lra|]. intros u Hu. pose proof (rad_pos u) as P. pose proof (rad_gt u) as G. pose proof (rad_sq u) as S.
    assert (E : u / (rad u + k) - 1 = - ((rad u - u + k) / (rad u + k))) by (field; lra).
    assert (D : rad u - u <= c). { assert ((rad u - u) * (rad u + u) = c) by (ring_simplify; lra). nra. }
    rewrite E, Rabs_Ropp, Rabs_pos_eq by (apply Rmult_le_pos; [lra|left; apply Rinv_0_lt_compat; lra]).
    unfold Rdiv. apply Rmult_le_compat; [lra|left; apply Rinv_0_lt_compat; lra|lra|apply Rinv_le_contravar; lra].
  Qed.
End Root.

(** ** Plummer *)
Definition gP (GM rs s : RR) : RR := - (GM / (sqrt (s + rs ^ 2) * (s + rs ^ 2))).
Lemma norm2_zero X : vnorm2 X = 0 -> X = vzero.
Proof. intros H. destruct X as [x y z]. vunfold. assert (x = 0) by nra. assert (y = 0) by nra. assert (z = 0) by nra. subst. reflexivity. Qed.
Lemma norm2_nonneg X : 0 <= vnorm2 X.
Proof. destruct X as [x y z]. vunfold. nra. Qed.
Lemma vnorm_sq X : vnorm X ^ 2 = vnorm2 X.
Proof. unfold vnorm. apply pow2_sqrt, norm2_nonneg. Qed.
Lemma central_plummer GM rs X : central (plummer_force GM rs) X = vscal (gP GM rs (vnorm2 X)) X.
Proof.
  destruct (Req_dec (vnorm2 X) 0) as [Z|Z].
  - rewrite (norm2_zero X Z). unfold central. clear. vring.
  - assert (P : 0 < vnorm X) by (apply sqrt_lt_R0; pose proof (norm2_nonneg X); lra).
    assert (Q : 0 < vnorm X ^ 2 + rs ^ 2) by (rewrite vnorm_sq; pose proof (norm2_nonneg X); pose proof (pow2_ge_0 rs); lra).
    pose proof (sqrt_lt_R0 _ Q) as SP.
    unfold central, plummer_force, gP. rewrite <- vnorm_sq. f_equal. field. repeat split; lra.
Qed.
Lemma plummer_kick GM rs B V : 0 < vnorm2 V -> let P := vsub B (vscal (vdot B V / vnorm2 V) V) in 0 < vnorm2 P + rs ^ 2 ->
  is_kick (central (plummer_force GM rs)) (line B V) (vscal (2 * (- (GM / (vnorm2 P + rs ^ 2))) / vnorm V) P).
Proof.
  intros HV P HP. apply (kick_ext (fun X => vscal (gP GM rs (vnorm2 X)) X) _ (line B V) _); [intros X; symmetry; apply central_plummer|reflexivity|].
  set (c := vnorm2 P + rs ^ 2) in *. set (p2 := vnorm2 P).
  assert (Eg : forall u, gP GM rs (p2 + u ^ 2) = - (GM / (rad c u * rad c u ^ 2))).
  { intros u. unfold gP. replace (p2 + u ^ 2 + rs ^ 2) with (c + u ^ 2) by (unfold c, p2; ring). rewrite rad_sq by exact HP. reflexivity. }
  apply (kick_reduce (gP GM rs) (fun u => - (GM / c) * (u / (rad c u + 0))) (fun u => GM * / (rad c u + 0)) p2 (- (GM / c)) (GM * 0)); try exact HV; try reflexivity.
  - intros u. rewrite Eg. pose proof (rad_pos c HP u) as Rp. pose proof (d_rad c HP u) as D. pose proof (rad_sq c HP u) as S.
    apply (is_derive_eq _ _ (- (GM / c) * ((rad c u - u * (u / rad c u)) / rad c u ^ 2))).
    + apply is_derive_Rscal. pose proof (is_derive_div (fun u : RR => u) (fun u => rad c u + 0) u 1 (u / rad c u)) as Q.
      eapply is_derive_eq; [apply Q|].
      * exact (is_derive_id (K := R_AbsRing) u).
      * replace (u / rad c u) with (u / rad c u + 0) by ring. exact (is_derive_Rplus _ _ _ _ _ D (is_derive_cst 0 u)).
      * lra.
      * rr. field. lra.
    + rr. replace (rad c u - u * (u / rad c u)) with ((rad c u ^ 2 - u ^ 2) / rad c u) by (field; lra). rewrite S. replace (c + u ^ 2 - u ^ 2) with c by ring. rewrite <- S. field. lra.
  - intros u. rewrite Eg. pose proof (rad_pos c HP u) as Rp. pose proof (d_rad c HP u) as D.
    apply (is_derive_eq _ _ (GM * (- (u / rad c u + 0) / (rad c u + 0) ^ 2))).
    + apply is_derive_Rscal. apply (is_derive_inv (fun u => rad c u + 0)); [|lra]. exact (is_derive_Rplus _ _ _ _ _ D (is_derive_cst 0 u)).
    + rr. field. lra.
  - intros u. apply (continuous_ext (fun u => - (GM / (rad c u * rad c u ^ 2)))). { intros x. symmetry. apply Eg. }
    apply (ex_derive_continuous (fun u => - (GM / (rad c u * rad c u ^ 2)))). pose proof (rad_pos c HP u) as Rp. pose proof (d_rad c HP u) as D.
    auto_derive. repeat split; try (exists (u / rad c u); exact D). apply Rgt_not_eq. apply Rmult_lt_0_compat; [exact Rp|apply pow_lt; exact Rp].
  - pose proof (scaled_lim (fun u => u / (rad c u + 0)) (- (GM / c)) 1 (Rbar_locally p_infty) (ratio_lim c HP 0 (Rle_refl 0))) as Q. rewrite Rmult_1_r in Q. exact Q.
  - pose proof (scaled_lim (fun u => u / (rad c u + 0)) (- (GM / c)) 1 (Rbar_locally p_infty) (ratio_lim c HP 0 (Rle_refl 0))) as Q. rewrite Rmult_1_r in Q.
    apply lim_odd; [|exact Q]. intros u. rewrite rad_even. unfold Rdiv. ring.
  - apply scaled_lim. apply inv_rad_lim; [exact HP|lra].
  - apply lim_even; [intros u; rewrite rad_even; reflexivity|]. apply scaled_lim. apply inv_rad_lim; [exact HP|lra].
Qed.

(** ** Hernquist *)
Definition gH (GM rs s : RR) : RR := - (GM / (sqrt s * (sqrt s + rs) ^ 2)).
Lemma central_hernquist GM rs X : central (hernquist_force GM rs) X = vscal (gH GM rs (vnorm2 X)) X.
Proof.
  destruct (Req_dec (vnorm2 X) 0) as [Z|Z].
  - rewrite (norm2_zero X Z). unfold central. clear. vring.
  - unfold central, hernquist_force, gH. fold (vnorm X). f_equal. unfold Rdiv. rewrite Rinv_mult. ring.
Qed.
(** With tau = u / (p + r) the integrand becomes rational. *)
Section Tau.
  Variables (p : RR).
  Hypothesis Hp : 0 < p.
  Let c := p ^ 2.
  Lemma c_pos : 0 < c. Proof. unfold c. nra. Qed.
  Let r := rad c.
  Definition tau (u : RR) : RR := u / (r u + p).
  Lemma d_tau u : is_derive tau u (p / (r u * (r u + p))).
  Proof.
    pose proof (rad_pos c c_pos u) as Rp. pose proof (d_rad c c_pos u) as D. pose proof (rad_sq c c_pos u) as S. fold r in Rp, D, S. unfold tau.
    pose proof (is_derive_div (fun u : RR => u) (fun u => r u + p) u 1 (u / r u + 0)) as Q.
    eapply is_derive_eq; [apply Q|].
    - exact (is_derive_id (K := R_AbsRing) u).
    - exact (is_derive_Rplus _ _ _ _ _ D (is_derive_cst p u)).
    - lra.
    - rr. transitivity ((r u ^ 2 - u ^ 2 + p * r u) / r u / (r u + p) ^ 2); [field; lra|]. rewrite S. unfold c. field. lra.
  Qed.
  Lemma tau_bound u : -1 <= tau u <= 1.
  Proof.
    pose proof (rad_pos c c_pos u) as Rp. pose proof (rad_gt c c_pos u) as G. pose proof (rad_gt c c_pos (- u)) as G'. rewrite rad_even in G'. fold r in Rp, G, G'. unfold tau.
    split; apply Rmult_le_reg_r with (r u + p); try lra; unfold Rdiv; rewrite Rmult_assoc, Rinv_l by lra; lra.
  Qed.
  Lemma tau_r u a : 0 < a -> 2 * (1 - tau u ^ 2) / ((p + a) + (p - a) * tau u ^ 2) ^ 2 * (p / (r u * (r u + p))) = / (r u * (r u + a) ^ 2).
  Proof.
    intros Ha. pose proof (rad_pos c c_pos u) as Rp. pose proof (rad_sq c c_pos u) as S. fold r in Rp, S.
    assert (T : tau u ^ 2 = (r u - p) / (r u + p)).
    { unfold tau, Rdiv. rewrite Rpow_mult_distr. replace (u ^ 2) with ((r u - p) * (r u + p)) by (unfold c in S; lra). field. lra. }
    rewrite T. assert (E : p + a + (p - a) * ((r u - p) / (r u + p)) = 2 * p * (r u + a) / (r u + p)) by (field; lra). rewrite E. field. repeat split; lra.
  Qed.
  (** From a primitive in tau to the kick. *)
  Lemma tau_kick GM a (G : RR -> RR) k : 0 < a -> (forall x, -1 <= x <= 1 -> is_derive G x (2 * (1 - x ^ 2) / ((p + a) + (p - a) * x ^ 2) ^ 2)) -> G 1 = k -> G (-1) = - k ->
    forall B V, 0 < vnorm2 V -> let P := vsub B (vscal (vdot B V / vnorm2 V) V) in vnorm2 P = c ->
    is_kick (central (hernquist_force GM a)) (line B V) (vscal (2 * (- GM * k) / vnorm V) P).
  Proof.
    intros Ha DG G1 G2 B V HV P EP. apply (kick_ext (fun X => vscal (gH GM a (vnorm2 X)) X) _ (line B V) _); [intros X; symmetry; apply central_hernquist|reflexivity|].
    assert (Eg : forall u, gH GM a (c + u ^ 2) = - GM * / (r u * (r u + a) ^ 2)). { intros u. unfold gH, r, rad, Rdiv. ring. }
    assert (LT : filterlim tau (Rbar_locally p_infty) (locally 1)) by (apply ratio_lim; [apply c_pos|lra]).
    assert (LTm : filterlim tau (Rbar_locally m_infty) (locally (- (1)))).
    { apply lim_odd; [|exact LT]. intros u. unfold tau, r. rewrite rad_even. unfold Rdiv. ring. }
    assert (C : forall x, -1 <= x <= 1 -> filterlim G (locally x) (locally (G x))).
    { intros x Hx. apply (ex_derive_continuous G). eexists. apply DG. exact Hx. }
    apply (kick_reduce (gH GM a) (fun u => - GM * G (tau u)) (fun u => GM * / (r u + a)) c (- GM * k) (GM * 0)); try exact HV; try exact EP.
    - intros u. rewrite Eg. eapply is_derive_eq; [apply is_derive_Rscal; exact (is_derive_Rchain G tau u _ _ (DG _ (tau_bound u)) (d_tau u))|]. rr. rewrite tau_r by exact Ha. reflexivity.
    - intros u. rewrite Eg. pose proof (rad_pos c c_pos u) as Rp. pose proof (d_rad c c_pos u) as D. fold r in Rp, D.
      eapply is_derive_eq; [apply is_derive_Rscal; apply (is_derive_inv (fun u => r u + a)); [exact (is_derive_Rplus _ _ _ _ _ D (is_derive_cst a u))|lra]|]. rr. field. lra.
    - intros u. apply (continuous_ext (fun u => - GM * / (r u * (r u + a) ^ 2))). { intros x. symmetry. apply Eg. }
      apply (ex_derive_continuous (fun u => - GM * / (r u * (r u + a) ^ 2))). pose proof (rad_pos c c_pos u) as Rp. pose proof (d_rad c c_pos u) as D. fold r in Rp, D.
      auto_derive. repeat split; try (exists (u / r u); exact D). apply Rgt_not_eq. apply Rmult_lt_0_compat; [exact Rp|apply pow_lt; lra].
    - apply scaled_lim. rewrite <- G1. exact (filterlim_comp _ _ _ tau G _ _ _ LT (C 1 ltac:(lra))).
    - replace (- (- GM * k)) with (- GM * - k) by ring. apply scaled_lim. rewrite <- G2. exact (filterlim_comp _ _ _ tau G _ _ _ LTm (C (-1) ltac:(lra))).
    - apply scaled_lim. apply inv_rad_lim; [apply c_pos|lra].
    - apply lim_even; [intros u; unfold r; rewrite rad_even; reflexivity|]. apply scaled_lim. apply inv_rad_lim; [apply c_pos|lra].
  Qed.
End Tau.

(** The three primitives. *)
Section Prim.
  Variables (B a : RR).
  Hypothesis (HB : 0 < B) (Ha : 0 < a).
  Let Q x := (B + a) + (B - a) * x ^ 2.
  Lemma Q_pos x : -1 <= x <= 1 -> 0 < Q x.
  Proof. intros Hx. unfold Q. assert (0 <= x ^ 2 <= 1) by (split; nra). nra. Qed.
  Lemma from_J (J : RR -> RR) x : B <> a -> 0 < Q x -> is_derive J x (2 / Q x) ->
    is_derive (fun x => / (B ^ 2 - a ^ 2) * (2 * B * x / Q x - a * J x)) x (2 * (1 - x ^ 2) / Q x ^ 2).
  Proof.
    intros Hne HQ D. assert (N : B ^ 2 - a ^ 2 <> 0). { intros E. apply Hne. assert ((B - a) * (B + a) = 0) by (ring_simplify; lra). nra. }
    assert (DQ : is_derive (fun x => 2 * B * x / Q x) x ((2 * B * Q x - 2 * B * x * (2 * (B - a) * x)) / Q x ^ 2)).
    { unfold Q in *. auto_derive; [simpl in *; lra|]. rr. simpl in *. field. lra. }
    pose proof (is_derive_Rplus _ _ _ _ _ DQ (is_derive_Rscal J x (- a) _ D)) as S. pose proof (is_derive_Rscal _ _ (/ (B ^ 2 - a ^ 2)) _ S) as S2.
    apply (is_derive_ext (fun x => / (B ^ 2 - a ^ 2) * (2 * B * x / Q x + - a * J x))). { intros t. rr. ring. }
    eapply is_derive_eq; [exact S2|]. rr. unfold Q in *. field. split; [lra|exact N].
  Qed.
End Prim.
Lemma prim_above B a : 0 < a -> a < B -> exists G X, HernquistX (sqrt (2 * B / (a + B))) = Some X /\
  (forall x, -1 <= x <= 1 -> is_derive G x (2 * (1 - x ^ 2) / ((B + a) + (B - a) * x ^ 2) ^ 2)) /\
  G 1 = (1 - 2 * a / (a + B) * X) / (B ^ 2 - a ^ 2) /\ G (-1) = - ((1 - 2 * a / (a + B) * X) / (B ^ 2 - a ^ 2)).
Proof.
  intros Ha HB. set (k := sqrt ((B - a) / (B + a))).
  assert (K2 : k ^ 2 = (B - a) / (B + a)) by (apply pow2_sqrt; left; apply Rdiv_lt_0_compat; lra).
  assert (Kp : 0 < k) by (apply sqrt_lt_R0, Rdiv_lt_0_compat; lra).
  exists (fun x => / (B ^ 2 - a ^ 2) * (2 * B * x / ((B + a) + (B - a) * x ^ 2) - a * (2 / ((B + a) * k) * atan (k * x)))), (atan k / k).
  assert (N : B ^ 2 - a ^ 2 <> 0) by nra. split; [|split; [|split]].
  - set (s := sqrt (2 * B / (a + B))). assert (S0 : 0 < 2 * B / (a + B)) by (apply Rdiv_lt_0_compat; lra). assert (S2 : s ^ 2 = 2 * B / (a + B)) by (apply pow2_sqrt; lra).
    assert (Sp : 0 < s) by (apply sqrt_lt_R0; exact S0).
    assert (S1 : s ^ 2 = 1 + k ^ 2) by (rewrite S2, K2; field; lra).
    assert (S3 : 1 < s) by nra. unfold HernquistX. destruct (Rlt_dec s 0) as [?|_]; [lra|]. destruct (Rlt_dec s 1) as [?|_]; [lra|]. destruct (Req_EM_T s 1) as [?|_]; [lra|].
    f_equal. replace (s * s - 1) with (k ^ 2) by lra. rewrite sqrt_pow2 by lra. f_equal.
    rewrite acos_atan by (apply Rdiv_lt_0_compat; lra). f_equal.
    assert (E : 1 - Rsqr (1 / s) = (k / s) ^ 2).
    { unfold Rsqr. replace ((k / s) ^ 2) with (k ^ 2 * / s ^ 2) by (field; lra). replace (k ^ 2) with (s ^ 2 - 1) by lra. field. lra. }
    rewrite E, sqrt_pow2 by (left; apply Rdiv_lt_0_compat; lra). field. lra.
  - intros x Hx. apply (from_J B a ltac:(lra) Ha (fun x => 2 / ((B + a) * k) * atan (k * x)) x); [lra|apply Q_pos; lra|].
    assert (Kx : 0 < 1 + (k * x) ^ 2) by (pose proof (pow2_ge_0 (k * x)); lra).
    assert (D : is_derive (fun x => atan (k * x)) x (k / (1 + (k * x) ^ 2))).
    { auto_derive; [exact I|]. rr. field. simpl in Kx. nra. }
    eapply is_derive_eq; [apply is_derive_Rscal; exact D|]. rr. rewrite Rpow_mult_distr in *. rewrite K2 in *.
    assert (E : B + a + (B - a) * x ^ 2 = (B + a) * (1 + (B - a) / (B + a) * x ^ 2)) by (field; lra). rewrite E. field. repeat split; try lra. apply Rgt_not_eq. apply (Q_pos B a ltac:(lra) Ha x Hx).
  - cbv beta. rr. assert (E : B + a + (B - a) * 1 ^ 2 = 2 * B) by ring. rewrite E, !Rmult_1_r. field. repeat split; lra.
  - cbv beta. rr. assert (E : B + a + (B - a) * (-1) ^ 2 = 2 * B) by ring. rewrite E. replace (k * -1) with (- k) by ring. rewrite atan_opp. field. repeat split; lra.
Qed.
Lemma prim_below B a : 0 < B -> B < a -> exists G X, HernquistX (sqrt (2 * B / (a + B))) = Some X /\
  (forall x, -1 <= x <= 1 -> is_derive G x (2 * (1 - x ^ 2) / ((B + a) + (B - a) * x ^ 2) ^ 2)) /\
  G 1 = (1 - 2 * a / (a + B) * X) / (B ^ 2 - a ^ 2) /\ G (-1) = - ((1 - 2 * a / (a + B) * X) / (B ^ 2 - a ^ 2)).
Proof.
  intros HB Ha. set (k := sqrt ((a - B) / (a + B))).
  assert (K2 : k ^ 2 = (a - B) / (a + B)) by (apply pow2_sqrt; left; apply Rdiv_lt_0_compat; lra).
  assert (Kp : 0 < k) by (apply sqrt_lt_R0, Rdiv_lt_0_compat; lra).
  assert (K1 : k < 1). { assert (k ^ 2 < 1); [|nra]. rewrite K2. apply Rmult_lt_reg_r with (a + B); [lra|]. unfold Rdiv. rewrite Rmult_assoc, Rinv_l by lra. lra. }
  exists (fun x => / (B ^ 2 - a ^ 2) * (2 * B * x / ((B + a) + (B - a) * x ^ 2) - a * (1 / ((a + B) * k) * (ln (1 + k * x) - ln (1 - k * x))))), ((ln (1 + k) - ln (1 - k)) / (2 * k)).
  assert (N : B ^ 2 - a ^ 2 <> 0) by nra. split; [|split; [|split]].
  - set (s := sqrt (2 * B / (a + B))). assert (S0 : 0 < 2 * B / (a + B)) by (apply Rdiv_lt_0_compat; lra). assert (S2 : s ^ 2 = 2 * B / (a + B)) by (apply pow2_sqrt; lra).
    assert (Sp : 0 < s) by (apply sqrt_lt_R0; exact S0).
    assert (S1 : s ^ 2 = 1 - k ^ 2) by (rewrite S2, K2; field; lra).
    assert (S3 : s < 1) by nra. unfold HernquistX. destruct (Rlt_dec s 0) as [?|_]; [lra|]. destruct (Rlt_dec s 1) as [_|?]; [|lra].
    f_equal. replace (1 - s * s) with (k ^ 2) by lra. rewrite sqrt_pow2 by lra.
    assert (L : 2 * ln s = ln (1 + k) + ln (1 - k)).
    { rewrite <- ln_mult by lra. replace ((1 + k) * (1 - k)) with (s * s) by lra. rewrite ln_mult by exact Sp. ring. }
    unfold Rdiv at 2. rewrite ln_mult, ln_Rinv; try lra; [|apply Rinv_0_lt_compat; exact Sp]. replace (ln s) with ((ln (1 + k) + ln (1 - k)) / 2) by lra. field. lra.
  - intros x Hx. assert (Kx : -1 < k * x < 1) by (split; nra).
    apply (from_J B a HB ltac:(lra) (fun x => 1 / ((a + B) * k) * (ln (1 + k * x) - ln (1 - k * x))) x); [lra|apply Q_pos; lra|].
    assert (D : is_derive (fun x => ln (1 + k * x) - ln (1 - k * x)) x (2 * k / (1 - (k * x) ^ 2))).
    { auto_derive; [split; [lra|split; [lra|exact I]]|]. rr. field. repeat split; try lra. apply Rgt_not_eq. nra. }
    eapply is_derive_eq; [apply is_derive_Rscal; exact D|]. rr. assert (KK : 0 < 1 - (k * x) ^ 2) by nra. rewrite Rpow_mult_distr in *. rewrite K2 in *.
    assert (E : B + a + (B - a) * x ^ 2 = (a + B) * (1 - (a - B) / (a + B) * x ^ 2)) by (field; lra). rewrite E. field. repeat split; try lra. apply Rgt_not_eq.
    replace (a + B - (a - B) * x ^ 2) with (B + a + (B - a) * x ^ 2) by ring. apply Q_pos; lra.
  - cbv beta. rr. assert (E : B + a + (B - a) * 1 ^ 2 = 2 * B) by ring. rewrite E, !Rmult_1_r. field. repeat split; lra.
  - cbv beta. rr. assert (E : B + a + (B - a) * (-1) ^ 2 = 2 * B) by ring. rewrite E. replace (1 + k * -1) with (1 - k) by ring. replace (1 - k * -1) with (1 + k) by ring. field. repeat split; lra.
Qed.
Lemma prim_equal a : 0 < a -> exists G, (forall x, -1 <= x <= 1 -> is_derive G x (2 * (1 - x ^ 2) / ((a + a) + (a - a) * x ^ 2) ^ 2)) /\ G 1 = / (3 * a ^ 2) /\ G (-1) = - / (3 * a ^ 2).
Proof.
  intros Ha. exists (fun x => (x - x ^ 3 / 3) / (2 * a ^ 2)). split; [|split].
  - intros x _. auto_derive; [exact I|]. rr. field. lra.
  - cbv beta. rr. field. lra.
  - cbv beta. rr. field. lra.
Qed.
