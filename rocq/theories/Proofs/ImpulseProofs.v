(** The kicks of the model are the integrals over all times. *)
From Coq Require Import Reals Lra.
From Coquelicot Require Import Coquelicot.
From Verif.Lib Require Import RealAux Vec3.
From Verif.Spec Require Import KickSpec.
From Verif.Model Require Import RotVec Impulse.
From Verif.Proofs Require Import RotVecProofs SkyProofs KickBasics KickSpheres.
Open Scope R_scope.
Notation RR := RbaseSymbolsImpl.R (only parsing).
Ltac rr := match goal with |- ?a = ?b => change (@eq RR a b) end.

(** ** Geometry *)
Definition perp (B V : V3) : V3 := vsub B (vscal (vdot B V / vnorm2 V) V).
Lemma flyby_line x v x0 v0 w b t : flyby x v x0 v0 w b t = line (offset x b w x0 v0) (vopp (vsub w v)) t.
Proof.
  unfold flyby, line, offset, side, vnorm. generalize (vcross w v0). intros n. generalize (sqrt (vnorm2 n)). intros q. unfold Rdiv. generalize (/ q). intros k. clear. vring.
Qed.
Lemma flyby_on_line n x v x0 w b t : flyby_on n x v x0 w b t = line (vsub (vadd (vscal b n) x) x0) (vopp (vsub w v)) t.
Proof. unfold flyby_on, line. clear. vring. Qed.
Lemma norm2_pos X : X <> vzero -> 0 < vnorm2 X.
Proof. intros H. destruct (Rle_lt_or_eq_dec 0 _ (norm2_nonneg X)) as [L|E]; [exact L|]. destruct H. apply norm2_zero. symmetry. exact E. Qed.
Lemma sub_nonzero w v : w <> v -> vsub w v <> vzero.
Proof. intros H E. apply H. destruct w as [a b c], v as [d e f]. unfold vsub, vzero in E. cbn in E. injection E. intros. f_equal; lra. Qed.
Lemma norm2_opp X : vnorm2 (vopp X) = vnorm2 X. Proof. clear. vring. Qed.
Lemma norm_opp X : vnorm (vopp X) = vnorm X. Proof. unfold vnorm. rewrite norm2_opp. reflexivity. Qed.
Lemma perp_opp B W : perp B (vopp W) = perp B W.
Proof. unfold perp. rewrite norm2_opp. replace (vdot B (vopp W)) with (- vdot B W) by (clear; vring). unfold Rdiv. generalize (vdot B W), (/ vnorm2 W). intros. clear. vring. Qed.
Lemma perp_norm2 B W : 0 < vnorm2 W -> vnorm2 (perp B W) = vnorm2 B - vdot B W ^ 2 / vnorm2 W.
Proof.
  intros H. unfold perp. set (k := vdot B W / vnorm2 W). transitivity (vnorm2 B - 2 * k * vdot B W + k ^ 2 * vnorm2 W); [clear; vring|]. unfold k. field. lra.
Qed.
Lemma line_norm2 B V t : 0 < vnorm2 V -> vnorm2 (line B V t) = vnorm2 (perp B V) + vnorm2 V * (t + vdot B V / vnorm2 V) ^ 2.
Proof.
  intros H. rewrite perp_norm2 by exact H. transitivity (vnorm2 B + 2 * t * vdot B V + t ^ 2 * vnorm2 V); [unfold line; clear; vring|]. field. lra.
Qed.
Lemma line_foot B V : 0 < vnorm2 V -> line B V (- (vdot B V / vnorm2 V)) = perp B V.
Proof. intros H. unfold line, perp. generalize (vdot B V / vnorm2 V). intros. clear. vring. Qed.
Lemma never_zero B V : 0 < vnorm2 V -> (forall t, line B V t <> vzero) -> 0 < vnorm2 (perp B V).
Proof. intros H N. apply norm2_pos. rewrite <- line_foot by exact H. apply N. Qed.
Lemma closest_perp B V d : 0 < vnorm2 V -> closest (line B V) d <-> d = vnorm (perp B V).
Proof.
  intros H.
  assert (M : forall t, vnorm (perp B V) <= vnorm (line B V t)).
  { intros t. apply sqrt_le_1; [apply norm2_nonneg|apply norm2_nonneg|]. rewrite line_norm2 by exact H. pose proof (pow2_ge_0 (t + vdot B V / vnorm2 V)). nra. }
  split.
  - intros [[t E] L]. apply Rle_antisym; [|rewrite <- E; apply M]. rewrite <- line_foot by exact H. apply L.
  - intros ->. split; [|exact M]. exists (- (vdot B V / vnorm2 V)). rewrite line_foot by exact H. reflexivity.
Qed.
Lemma closest_ext p q d : (forall t, p t = q t) -> closest p d -> closest q d.
Proof. intros E [[t H] L]. split; [exists t; rewrite <- E; exact H|]. intros s. rewrite <- E. apply L. Qed.

(** ** Closed forms *)
Lemma plummer_core_kick B W GM rs : 0 < vnorm2 W -> 0 < vnorm2 (perp B W) + rs ^ 2 ->
  is_kick (central (plummer_force GM rs)) (line B (vopp W)) (plummer_core B W GM rs).
Proof.
  intros HW HP. pose proof (plummer_kick GM rs B (vopp W)) as K. cbv zeta in K. fold (perp B (vopp W)) in K. rewrite perp_opp, norm2_opp, norm_opp in K. specialize (K HW HP).
  replace (plummer_core B W GM rs) with (vscal (2 * - (GM / (vnorm2 (perp B W) + rs ^ 2)) / vnorm W) (perp B W)); [exact K|].
  assert (S : sqrt (vnorm2 W) ^ 2 = vnorm2 W) by (apply pow2_sqrt; lra). assert (Sp : 0 < sqrt (vnorm2 W)) by (apply sqrt_lt_R0; exact HW).
  unfold plummer_core. cbv zeta. set (q := sqrt (vnorm2 W)) in *. unfold vnorm. fold q.
  assert (E : vdot B W / q / q = vdot B W / vnorm2 W) by (rewrite <- S; field; lra). rewrite E. fold (perp B W).
  assert (F : vnorm2 B + rs ^ 2 - (vdot B W / q) ^ 2 = vnorm2 (perp B W) + rs ^ 2). { rewrite perp_norm2 by exact HW. rewrite <- S. field. lra. }
  rewrite F. generalize (perp B W) as P, HP. clear - Sp. intros P HP. assert (G : forall k l, vscal k (vscal l P) = vscal (k * l) P) by (intros; clear; vring). rewrite G. f_equal. field. lra.
Qed.
Lemma factor_kick B W GM rs d : 0 < rs -> 0 < vnorm2 W -> d = vnorm (perp B W) -> 0 < d -> d <> rs ->
  exists k, hernquist_core B W GM rs = Some k /\ is_kick (central (hernquist_force GM rs)) (line B (vopp W)) k.
Proof.
  intros Hrs HW Ed Hd Hne.
  assert (Ed2 : vnorm2 (perp B W) = d ^ 2) by (rewrite Ed, vnorm_sq; reflexivity).
  assert (Sp : 0 < sqrt (vnorm2 W)) by (apply sqrt_lt_R0; exact HW). assert (S : sqrt (vnorm2 W) ^ 2 = vnorm2 W) by (apply pow2_sqrt; lra).
  assert (PR : exists G X, HernquistX (sqrt (2 * d / (rs + d))) = Some X /\
    (forall x, -1 <= x <= 1 -> is_derive G x (2 * (1 - x ^ 2) / ((d + rs) + (d - rs) * x ^ 2) ^ 2)) /\
    G 1 = (1 - 2 * rs / (rs + d) * X) / (d ^ 2 - rs ^ 2) /\ G (-1) = - ((1 - 2 * rs / (rs + d) * X) / (d ^ 2 - rs ^ 2))).
  { destruct (Rlt_le_dec rs d) as [L|L]; [apply prim_above; lra|apply prim_below; lra]. }
  destruct PR as (G & X & EX & DG & G1 & G2). assert (N : d ^ 2 - rs ^ 2 <> 0). { intros E. apply Hne. assert ((d - rs) * (d + rs) = 0) by (ring_simplify; lra). nra. }
  pose proof (tau_kick d Hd GM rs G _ Hrs DG G1 G2 B (vopp W)) as K. cbv zeta in K. fold (perp B (vopp W)) in K. rewrite perp_opp, norm2_opp, norm_opp in K. specialize (K HW Ed2).
  unfold hernquist_core. cbv zeta. set (q := sqrt (vnorm2 W)) in *.
  assert (EB : sqrt (vnorm2 B - (vdot B W / q) ^ 2) = d).
  { transitivity (sqrt (d ^ 2)); [|apply sqrt_pow2; lra]. f_equal. rewrite <- Ed2, perp_norm2 by exact HW. rewrite <- S. field. lra. }
  rewrite EB. unfold hernquist_factor. destruct (Req_EM_T (q * (d ^ 2 - rs ^ 2)) 0) as [Z|Z]; [exfalso; apply Rmult_integral in Z; destruct Z as [Z|Z]; [lra|exact (N Z)]|].
  rewrite EX. eexists. split; [reflexivity|].
  match type of K with is_kick _ _ ?k => match goal with |- is_kick _ _ ?k' => replace k' with k; [exact K|] end end.
  assert (E : vdot B W / q / q = vdot B W / vnorm2 W) by (rewrite <- S; field; lra). rewrite E. fold (perp B W). unfold vnorm at 1. fold q.
  generalize (perp B W) as P. clear - Sp N Hrs Hd. intros P. assert (GG : forall k l, vscal k (vscal l P) = vscal (k * l) P) by (intros; clear; vring). rewrite GG. f_equal. field. repeat split; lra.
Qed.
(** At d = rs the kick exists, the code divides by zero. *)
Lemma factor_equal B W GM rs : 0 < rs -> 0 < vnorm2 W -> vnorm (perp B W) = rs ->
  hernquist_core B W GM rs = None /\ is_kick (central (hernquist_force GM rs)) (line B (vopp W)) (vscal (- (2 * GM / (3 * rs ^ 2 * vnorm W))) (perp B W)).
Proof.
  intros Hrs HW Ed. assert (Ed2 : vnorm2 (perp B W) = rs ^ 2) by (rewrite <- Ed, vnorm_sq; reflexivity).
  assert (Sp : 0 < sqrt (vnorm2 W)) by (apply sqrt_lt_R0; exact HW). assert (S : sqrt (vnorm2 W) ^ 2 = vnorm2 W) by (apply pow2_sqrt; lra). split.
  - unfold hernquist_core. cbv zeta. set (q := sqrt (vnorm2 W)) in *.
    assert (EB : sqrt (vnorm2 B - (vdot B W / q) ^ 2) = rs).
    { transitivity (sqrt (rs ^ 2)); [|apply sqrt_pow2; lra]. f_equal. rewrite <- Ed2, perp_norm2 by exact HW. rewrite <- S. field. lra. }
    rewrite EB. unfold hernquist_factor. destruct (Req_EM_T (q * (rs ^ 2 - rs ^ 2)) 0) as [Z|Z]; [reflexivity|exfalso; apply Z; ring].
  - destruct (prim_equal rs Hrs) as (G & DG & G1 & G2). pose proof (tau_kick rs Hrs GM rs G _ Hrs DG G1 G2 B (vopp W)) as K. cbv zeta in K. fold (perp B (vopp W)) in K.
    rewrite perp_opp, norm2_opp, norm_opp in K. specialize (K HW Ed2). match type of K with is_kick _ _ ?k => match goal with |- is_kick _ _ ?k' => replace k' with k; [exact K|] end end.
    f_equal. unfold vnorm. field. lra.
Qed.

(** ** The integral over -1 < T < 1 *)
Definition phi (T : RR) : RR := T / (1 - T * T).
Definition dphi (T : RR) : RR := (1 + T * T) / (1 - T * T) ^ 2.
Lemma phi_right (P : RR -> Prop) : Rbar_locally m_infty P -> at_right (-1) (fun T => -1 < T < 1 /\ P (phi T)).
Proof.
  intros [M HM]. assert (A := Rabs_pos M). assert (D0 : 0 < Rmin (/ 2) (/ (4 * (Rabs M + 1)))) by (apply Rmin_pos; apply Rinv_0_lt_compat; lra).
  exists (mkposreal _ D0). intros T HT H1. assert (HT' : Rabs (T - -1) < Rmin (/ 2) (/ (4 * (Rabs M + 1)))) by exact HT.
  rewrite Rabs_pos_eq in HT' by lra. assert (L1 := Rmin_l (/ 2) (/ (4 * (Rabs M + 1)))). assert (L2 := Rmin_r (/ 2) (/ (4 * (Rabs M + 1)))).
  assert (TT : -1 < T < - / 2) by lra. split; [lra|]. apply HM. apply Rle_lt_trans with (- (Rabs M + 1)); [|pose proof (Rle_abs (- M)); rewrite Rabs_Ropp in *; lra].
  unfold phi. assert (Dp : 0 < 1 - T * T) by nra. apply Rmult_le_reg_r with (1 - T * T); [exact Dp|]. unfold Rdiv. rewrite Rmult_assoc, Rinv_l, Rmult_1_r by lra.
  assert (U : T + 1 <= / (4 * (Rabs M + 1))) by lra. apply Rmult_le_compat_l with (r := 4 * (Rabs M + 1)) in U; [|lra]. rewrite Rinv_r in U by lra.
  assert (V : 1 - T * T <= 2 * (T + 1)) by nra. nra.
Qed.
Lemma phi_left (P : RR -> Prop) : Rbar_locally p_infty P -> at_left 1 (fun T => -1 < T < 1 /\ P (phi T)).
Proof.
  intros [M HM]. assert (A := Rabs_pos M). assert (D0 : 0 < Rmin (/ 2) (/ (4 * (Rabs M + 1)))) by (apply Rmin_pos; apply Rinv_0_lt_compat; lra).
  exists (mkposreal _ D0). intros T HT H1. assert (HT' : Rabs (T - 1) < Rmin (/ 2) (/ (4 * (Rabs M + 1)))) by exact HT.
  rewrite Rabs_left in HT' by lra. assert (L1 := Rmin_l (/ 2) (/ (4 * (Rabs M + 1)))). assert (L2 := Rmin_r (/ 2) (/ (4 * (Rabs M + 1)))).
  assert (TT : / 2 < T < 1) by lra. split; [lra|]. apply HM. apply Rlt_le_trans with (Rabs M + 1); [pose proof (Rle_abs M); lra|].
  unfold phi. assert (Dp : 0 < 1 - T * T) by nra. apply Rmult_le_reg_r with (1 - T * T); [exact Dp|]. unfold Rdiv. rewrite (Rmult_assoc T), Rinv_l, Rmult_1_r by lra.
  assert (U : 1 - T <= / (4 * (Rabs M + 1))) by lra. apply Rmult_le_compat_l with (r := 4 * (Rabs M + 1)) in U; [|lra]. rewrite Rinv_r in U by lra.
  assert (V : 1 - T * T <= 2 * (1 - T)) by nra. nra.
Qed.
Lemma substitute (f : RR -> RR) l : (forall t, continuous f t) -> all_time f l -> is_RInt_gen (V := R_NormedModule) (fun T => dphi T * f (phi T)) (at_right (-1)) (at_left 1) l.
Proof.
  intros C A P HP. destruct (A P HP) as [Qa Qb Ha Hb H]. apply (Filter_prod _ _ _ _ _ (phi_right Qa Ha) (phi_left Qb Hb)).
  intros a b [Ia Pa] [Ib Pb]. destruct (H _ _ Pa Pb) as (y & Hy & Py). exists y. split; [|exact Py]. cbn [fst snd] in *.
  replace y with (RInt f (phi a) (phi b)) by (apply is_RInt_unique; exact Hy).
  apply (is_RInt_comp (V := R_CompleteNormedModule) f phi dphi a b); [intros x _; apply C|].
  intros x Hx. assert (X1 : -1 < x < 1) by (revert Hx; unfold Rmin, Rmax; destruct (Rle_dec a b); lra). assert (Dp : 0 < 1 - x * x) by nra. split.
  - unfold phi, dphi. auto_derive; [lra|]. rr. field. lra.
  - apply (ex_derive_continuous dphi). unfold dphi. auto_derive. apply Rgt_not_eq. nra.
Qed.
Lemma all_time_rev (f : RR -> RR) l : all_time f l -> all_time (fun t => f (- t)) l.
Proof.
  intros A P HP. destruct (A P HP) as [Qa Qb Ha Hb H]. destruct Ha as [Ma Ha], Hb as [Mb Hb].
  apply (Filter_prod _ _ _ (fun a => Qb (- a)) (fun b => Qa (- b))); [exists (- Mb); intros x Hx; apply Hb; lra|exists (- Ma); intros x Hx; apply Ha; lra|].
  intros a b Pa Pb. destruct (H _ _ Pb Pa) as (y & Hy & Py). exists y. split; [|exact Py]. cbn [fst snd] in *.
  pose proof (is_RInt_swap _ _ _ _ Hy) as S. pose proof (is_RInt_comp_opp _ _ _ _ S) as S2. pose proof (is_RInt_opp _ _ _ _ S2) as S3.
  apply (is_RInt_ext (fun y => opp (opp (f (- y))))); [intros t _; apply opp_opp|]. rewrite opp_opp in S3. exact S3.
Qed.
Lemma kick_rev acc B V k : is_kick acc (line B V) k -> is_kick acc (line B (vopp V)) k.
Proof.
  assert (E : forall t, line B V (- t) = line B (vopp V) t) by (intros t; unfold line; clear; vring).
  intros (K1 & K2 & K3). split; [|split]; (eapply all_time_ext; [|apply all_time_rev; eassumption]); intros t; cbv beta; rewrite E; reflexivity.
Qed.
(** The integrals over T give the kick of any central force that is continuous away from the centre. *)
Lemma line_cont (h : V3 -> RR) B V t : (h = vx \/ h = vy \/ h = vz) -> continuous (fun t => h (line B V t)) t.
Proof.
  intros H. destruct B as [a b c], V as [d e f]. destruct H as [-> | [-> | -> ] ]; unfold line, vadd, vscal; cbn [vx vy vz].
  - apply (ex_derive_continuous (fun t => a + t * d)). auto_derive. exact I.
  - apply (ex_derive_continuous (fun t => b + t * e)). auto_derive. exact I.
  - apply (ex_derive_continuous (fun t => c + t * f)). auto_derive. exact I.
Qed.
Lemma norm_cont B V t : 0 < vnorm2 (line B V t) -> continuous (fun t => vnorm (line B V t)) t.
Proof.
  intros H. apply (ex_derive_continuous (fun t => vnorm (line B V t))). unfold vnorm, line in *. destruct B as [a b c], V as [d e f]. vunfold. auto_derive. exact H.
Qed.
Lemma central_cont (F : RR -> RR) (h : V3 -> RR) B V : (h = vx \/ h = vy \/ h = vz) -> (forall r, 0 < r -> continuous F r) -> (forall t, line B V t <> vzero) ->
  forall t, continuous (fun t => h (central F (line B V t))) t.
Proof.
  intros Hh CF N t. pose proof (norm2_pos _ (N t)) as P. assert (Np : 0 < vnorm (line B V t)) by (apply sqrt_lt_R0; exact P).
  assert (Cn := norm_cont B V t P). assert (Ch := line_cont h B V t Hh).
  apply (continuous_ext (fun t => F (vnorm (line B V t)) * / vnorm (line B V t) * h (line B V t))).
  { intros s. destruct Hh as [-> | [-> | -> ] ]; reflexivity. }
  apply (continuous_mult (K := R_AbsRing) (fun t => F (vnorm (line B V t)) * / vnorm (line B V t)) (fun t => h (line B V t))); [|exact Ch].
  apply (continuous_mult (K := R_AbsRing) (fun t => F (vnorm (line B V t))) (fun t => / vnorm (line B V t))).
  - exact (continuous_comp (fun t => vnorm (line B V t)) F t Cn (CF _ Np)).
  - apply (continuous_comp (fun t => vnorm (line B V t)) Rinv t Cn). apply (continuous_Rinv (vnorm (line B V t))). lra.
Qed.
Lemma integrate_kick (F : RR -> RR) y b w k : (forall r, 0 < r -> continuous F r) -> (forall t, line (vadd b (vscal y (mkV 0 1 0))) w t <> vzero) ->
  is_kick (central F) (line (vadd b (vscal y (mkV 0 1 0))) w) k -> deltav_integrate F y b w = k.
Proof.
  intros CF N (K1 & K2 & K3). set (B := vadd b (vscal y (mkV 0 1 0))) in *.
  assert (X : forall t, vadd (vadd b (vscal t w)) (vscal y (mkV 0 1 0)) = line B w t) by (intros t; unfold B, line; clear; vring).
  assert (G : forall (h : V3 -> RR) l, (h = vx \/ h = vy \/ h = vz) -> all_time (fun t => h (central F (line B w t))) l -> open_integral (fun T => h (a_integrand F y b w T)) = l).
  { intros h l Hh A. unfold open_integral. refine (is_RInt_gen_unique (V := R_CompleteNormedModule) (Fa := at_right (-1)) (Fb := at_left 1) (fun T => h (a_integrand F y b w T)) l _).
    pose proof (substitute _ _ (central_cont F h B w Hh CF N) A) as S. refine (is_RInt_gen_ext (V := R_NormedModule) _ (fun T => h (a_integrand F y b w T)) l _ S). apply filter_forall. intros ab T _.
    unfold a_integrand, dphi, phi, central. cbv zeta. rewrite X. destruct Hh as [-> | [-> | -> ] ]; cbn [vx vy vz vscal]; unfold Rdiv, vnorm; rr; ring. }
  apply V3_ext; [apply (G vx)|apply (G vy)|apply (G vz)]; auto.
Qed.
