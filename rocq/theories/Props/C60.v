(** C60: the velocity kicks of a fly-by in the impulse approximation are the integrals of the acceleration along the straight paths. *)
From Coq Require Import Reals Lra.
From Coquelicot Require Import Coquelicot.
From Verif.Lib Require Import RealAux Vec3.
From Verif.Spec Require Import SkySpec KickSpec.
From Verif.Model Require Import RotVec Impulse.
From Verif.Proofs Require Import RotVecProofs SkyProofs KickBasics KickSpheres ImpulseProofs ImpulseStraight ImpulseStream.
From Verif.Props Require Import C40.
Open Scope R_scope.
Notation RR := RbaseSymbolsImpl.R (only parsing).
Ltac rr := match goal with |- ?a = ?b => change (@eq RR a b) end.

(** The direction of the stream is outside the two small caps around the y axis in which the code replaces the rotation, or exactly along +y. *)
Definition tilted (v : V3) : Prop := (v <> vzero /\ -1 + 1 / 10 ^ 10 <= cos_angle v (mkV 0 1 0) <= 1 - 1 / 10 ^ 10) \/ (exists s, 0 < s /\ v = mkV 0 s 0).

(** The impact parameter: the body passes the point x0 of the stream, which moves with v0, at distance |b|, and it does so at time 0. *)
Theorem C60_geometry : forall (x0 v0 w : V3) (b : RR), vcross w v0 <> vzero ->
  vnorm (flyby x0 v0 x0 v0 w b 0) = Rabs b /\ closest (flyby x0 v0 x0 v0 w b) (Rabs b).
Proof.
  intros x0 v0 w b H. assert (N := norm2_pos _ H). assert (Np : 0 < vnorm (vcross w v0)) by (apply sqrt_lt_R0; exact N).
  assert (HW : 0 < vnorm2 (vsub w v0)). { apply norm2_pos. apply sub_nonzero. intros E. apply H. rewrite E. clear. vring. }
  set (B := offset x0 b w x0 v0). assert (EB : B = vscal (b / vnorm (vcross w v0)) (vcross w v0)).
  { unfold B, offset, vnorm. cbv zeta. generalize (vscal (b / sqrt (vnorm2 (vcross w v0))) (vcross w v0)). intros. clear. vring. }
  assert (D : vdot B (vopp (vsub w v0)) = 0). { rewrite EB. generalize (b / vnorm (vcross w v0)). intros k. clear. vring. }
  assert (NB : vnorm B = Rabs b).
  { unfold vnorm at 1. replace (vnorm2 B) with (b ^ 2). { rewrite <- Rsqr_pow2. apply sqrt_Rsqr_abs. }
    rewrite EB. transitivity ((b / vnorm (vcross w v0)) ^ 2 * vnorm2 (vcross w v0)); [rewrite <- (vnorm_sq (vcross w v0)); field; lra|]. generalize (vcross w v0), (b / vnorm (vcross w v0)). intros. clear. vring. }
  assert (P : perp B (vopp (vsub w v0)) = B). { unfold perp. rewrite D. unfold Rdiv. rewrite Rmult_0_l. generalize B, (vsub w v0). intros. clear. vring. }
  split.
  - rewrite flyby_line. fold B. rewrite <- NB. f_equal. unfold line. generalize B, (vsub w v0). intros. clear. vring.
  - apply (closest_ext (line B (vopp (vsub w v0)))). { intros t. symmetry. apply flyby_line. }
    apply closest_perp; [rewrite norm2_opp; exact HW|]. rewrite P. symmetry. exact NB.
Qed.
Print Assumptions C60_geometry.

Lemma never_perp x v x0 v0 w b : w <> v -> (forall t, flyby x v x0 v0 w b t <> vzero) -> 0 < vnorm2 (perp (offset x b w x0 v0) (vsub w v)).
Proof.
  intros Hne N. rewrite <- perp_opp. apply never_zero; [rewrite norm2_opp; apply norm2_pos, sub_nonzero; exact Hne|]. intros t. rewrite <- flyby_line. apply N.
Qed.
(** impulse_deltav_plummer_curvedstream: the change of velocity of a star at x with velocity v, for any stream shape; a point mass (rs = 0) is allowed if
    the star is never at its centre. *)
Theorem C60_plummer_curved : forall (x v x0 v0 w : V3) (b GM rs : RR), w <> v -> vcross w v0 <> vzero ->
  (rs <> 0 \/ forall t, flyby x v x0 v0 w b t <> vzero) ->
  is_kick (central (plummer_force GM rs)) (flyby x v x0 v0 w b) (impulse_deltav_plummer_curvedstream v x b w x0 v0 GM rs).
Proof.
  intros x v x0 v0 w b GM rs Hne _ H. apply (kick_ext (central (plummer_force GM rs)) _ (line (offset x b w x0 v0) (vopp (vsub w v)))); [reflexivity|intros t; symmetry; apply flyby_line|].
  apply plummer_core_kick; [apply norm2_pos, sub_nonzero; exact Hne|]. pose proof (norm2_nonneg (perp (offset x b w x0 v0) (vsub w v))) as Q.
  destruct H as [H|H]; [pose proof (pow2_gt_0 rs H); lra|]. pose proof (never_perp x v x0 v0 w b Hne H). pose proof (pow2_ge_0 rs). lra.
Qed.
Print Assumptions C60_plummer_curved.
Example C60_plummer_curved_case : let v := mkV 0 1 0 in let w := mkV 2 0 0 in w <> v /\ vcross w v <> vzero /\ impulse_deltav_plummer_curvedstream v vzero 1 w vzero v 1 0 = mkV 0 0 (- (2 / sqrt 5)).
Proof.
  cbv zeta. split; [intros E; injection E; lra|]. split; [intros E; unfold vcross, vzero in E; cbn in E; injection E; lra|].
  unfold impulse_deltav_plummer_curvedstream, plummer_core, offset. cbv zeta. vunfold.
  match goal with |- context [sqrt ?e] => replace e with (2 ^ 2) by ring end. rewrite sqrt_pow2 by lra.
  repeat match goal with |- context [sqrt ?e] => lazymatch e with 5 => fail | _ => replace e with 5 by field end end.
  assert (S : sqrt 5 ^ 2 = 5) by (apply pow2_sqrt; lra). assert (Sp : 0 < sqrt 5) by (apply sqrt_lt_R0; lra). f_equal; field; lra.
Qed.

(** ** Straight streams *)
Lemma tilted_frame v : tilted v -> framed v 1 (rotation_vy false v) (rotation_vy true v) /\ 0 < vnorm v.
Proof.
  intros [[Hv Hc] | (s & Hs & ->)].
  - split; [|apply sqrt_lt_R0, norm2_pos; exact Hv]. destruct (C40_maps v (mkV 0 1 0) Hv ltac:(unfold vnorm2, vdot; cbn; ring) Hc) as (R & E & _ & I & _). apply framed_rotation; assumption.
  - assert (Hv : mkV 0 s 0 <> vzero) by (intros E; injection E; lra).
    assert (N2 : vnorm2 (mkV 0 s 0) = s ^ 2) by (unfold vnorm2, vdot; cbn; ring).
    assert (N : vnorm (mkV 0 s 0) = s) by (unfold vnorm; rewrite N2; apply sqrt_pow2; lra). split; [|rewrite N; exact Hs].
    assert (C : vdot (vscal (/ sqrt (vnorm2 (mkV 0 s 0))) (mkV 0 s 0)) (mkV 0 1 0) = 1). { fold (vnorm (mkV 0 s 0)). rewrite N. unfold vdot, vscal. cbn [vx vy vz]. field. lra. }
    assert (A : vnorm2 (mkV 0 1 0) = 1) by (unfold vnorm2, vdot; cbn; ring).
    assert (E : forall inv, rotation_vy inv (mkV 0 s 0) = eye).
    { intros inv. unfold rotation_vy. pose proof (cut_cases (mkV 0 s 0) (mkV 0 1 0) Hv A inv) as Q. cbv zeta in Q. rewrite C in Q. destruct Q as [[Q _]|[[_ Q]|[_ Q]]]; [exact Q|lra|lra]. }
    rewrite !E. constructor; [unfold orthogonal; clear; vring|clear; vring|rewrite N, mulMV_eye; unfold vscal, ey; cbn [vx vy vz]; f_equal; ring|ring|]. intros a b. rewrite !mulMV_eye. clear. vring.
Qed.
Lemma anti_frame s : 0 < s -> framed (mkV 0 (- s) 0) (-1) (rotation_vy false (mkV 0 (- s) 0)) (rotation_vy true (mkV 0 (- s) 0)) /\ vnorm (mkV 0 (- s) 0) = s.
Proof.
  intros Hs. assert (Hv : mkV 0 (- s) 0 <> vzero) by (intros E; injection E; lra).
  assert (N2 : vnorm2 (mkV 0 (- s) 0) = s ^ 2) by (unfold vnorm2, vdot; cbn; ring).
  assert (N : vnorm (mkV 0 (- s) 0) = s) by (unfold vnorm; rewrite N2; apply sqrt_pow2; lra). split; [|exact N].
  assert (C : vdot (vscal (/ sqrt (vnorm2 (mkV 0 (- s) 0))) (mkV 0 (- s) 0)) (mkV 0 1 0) = -1). { fold (vnorm (mkV 0 (- s) 0)). rewrite N. unfold vdot, vscal. cbn [vx vy vz]. field. lra. }
  assert (A : vnorm2 (mkV 0 1 0) = 1) by (unfold vnorm2, vdot; cbn; ring).
  assert (E : forall inv, rotation_vy inv (mkV 0 (- s) 0) = scalM (-1) eye).
  { intros inv. unfold rotation_vy. pose proof (cut_cases (mkV 0 (- s) 0) (mkV 0 1 0) Hv A inv) as Q. cbv zeta in Q. rewrite C in Q. destruct Q as [[_ Q]|[[Q _]|[_ Q]]]; [lra|exact Q|lra]. }
  rewrite !E. constructor; [unfold orthogonal; clear; vring|clear; vring|rewrite N; unfold ey; clear; vring|ring|]. intros a b. clear. vring.
Qed.
Lemma perp_speed v w d : framed v d (rotation_vy false v) (rotation_vy true v) -> vnorm (vcross w v) = vnorm v * f_perp (stream_frame v w).
Proof.
  intros Fr. assert (Pn : 0 <= f_perp (stream_frame v w)) by apply sqrt_pos.
  assert (Vn : 0 <= vnorm v) by apply sqrt_pos.
  assert (E : vnorm2 (vcross w v) = (vnorm v * f_perp (stream_frame v w)) ^ 2).
  { unfold vnorm2 at 1. rewrite <- (ortho_dot (rotation_vy false v)) by exact (fr_ortho _ _ _ _ Fr). rewrite (m_cross v w d _ _ Fr), Rpow_mult_distr.
    change (f_perp (stream_frame v w)) with (sqrt (vx (mulMV (rotation_vy false v) w) ^ 2 + vz (mulMV (rotation_vy false v) w) ^ 2)). rewrite (p_sq w (rotation_vy false v)).
    unfold vdot, vscal. cbn [vx vy vz]. pose proof (fr_d _ _ _ _ Fr) as D. replace (vnorm v ^ 2) with ((d * d) * vnorm v ^ 2) by (rewrite D; ring). ring. }
  unfold vnorm at 1. rewrite E. apply sqrt_pow2. apply Rmult_le_pos; assumption.
Qed.
Lemma big_perp v w d : framed v d (rotation_vy false v) (rotation_vy true v) -> 0 < vnorm v -> vnorm v / 10 ^ 10 <= vnorm (vcross w v) -> 1 / 10 ^ 10 <= f_perp (stream_frame v w).
Proof.
  intros Fr Hv H. rewrite (perp_speed v w d Fr) in H. apply Rmult_le_reg_l with (vnorm v); [exact Hv|]. apply Rle_trans with (2 := H). apply Req_le. field.
Qed.
Lemma cross_nonzero v w : 0 < vnorm v -> vnorm v / 10 ^ 10 <= vnorm (vcross w v) -> vcross w v <> vzero.
Proof.
  intros Hv H E. rewrite E in H. unfold vnorm at 2 in H. replace (vnorm2 vzero) with 0 in H by (clear; vring). rewrite sqrt_0 in H. assert (0 < vnorm v / 10 ^ 10) by (apply Rdiv_lt_0_compat; [exact Hv|apply pow_lt; lra]). lra.
Qed.
Lemma cross_ne v w : vcross w v <> vzero -> w <> v.
Proof. intros H E. apply H. rewrite E. clear. vring. Qed.
(** The closest approach to a star at position y of a straight stream. *)
Lemma straight_perp v w y b d x0 : framed v d (rotation_vy false v) (rotation_vy true v) -> 0 < vnorm v -> 1 / 10 ^ 10 <= f_perp (stream_frame v w) ->
  b ^ 2 <= vnorm2 (perp (offset (vadd x0 (along v y)) (d * b) w x0 v) (vsub w v)).
Proof.
  intros Fr Hv Hp. pose proof (p_pos v w Hp) as Pp. pose proof (W_pos v w Hp) as Wp. cbv zeta in Pp, Wp.
  rewrite perp_norm2 by (rewrite (rel_norm2 v w d _ _ Fr); exact Wp). rewrite (norm_offset v w y b d _ _ Fr Hv Pp), (dot_offset v w y b d _ _ Fr Hv Pp), (rel_norm2 v w d _ _ Fr).
  set (q := vnorm v - vy (mulMV (rotation_vy false v) w)) in *. set (p := sqrt (vx (mulMV (rotation_vy false v) w) ^ 2 + vz (mulMV (rotation_vy false v) w) ^ 2)) in *.
  replace (b ^ 2 + y ^ 2 - (- (y * q)) ^ 2 / (q ^ 2 + p ^ 2)) with (b ^ 2 + (y * p) ^ 2 / (q ^ 2 + p ^ 2)) by (field; lra).
  assert (0 <= (y * p) ^ 2 / (q ^ 2 + p ^ 2)) by (apply Rmult_le_pos; [apply pow2_ge_0|left; apply Rinv_0_lt_compat; exact Wp]). lra.
Qed.

(** impulse_deltav_plummer: the same kick for a star at position y along a straight stream. *)
Theorem C60_plummer : forall (v w x0 : V3) (y b GM rs : RR), tilted v -> vnorm v / 10 ^ 10 <= vnorm (vcross w v) -> (b <> 0 \/ rs <> 0) ->
  is_kick (central (plummer_force GM rs)) (flyby (vadd x0 (along v y)) v x0 v w b) (impulse_deltav_plummer v y b w GM rs).
Proof.
  intros v w x0 y b GM rs T Hc Hb. destruct (tilted_frame v T) as [Fr Hv]. pose proof (big_perp v w 1 Fr Hv Hc) as Hp.
  assert (HB : 0 < b ^ 2 + rs ^ 2). { pose proof (pow2_ge_0 b). pose proof (pow2_ge_0 rs). destruct Hb as [Hb|Hb]; [pose proof (pow2_gt_0 b Hb)|pose proof (pow2_gt_0 rs Hb)]; lra. }
  rewrite (straight_plummer v w y b 1 Fr Hv Hp x0 GM rs HB), Rmult_1_l.
  apply (kick_ext (central (plummer_force GM rs)) _ (line (offset (vadd x0 (along v y)) b w x0 v) (vopp (vsub w v)))); [reflexivity|intros t; symmetry; apply flyby_line|].
  apply plummer_core_kick; [apply norm2_pos, sub_nonzero, cross_ne, cross_nonzero; assumption|]. pose proof (straight_perp v w y b 1 x0 Fr Hv Hp) as Q. rewrite Rmult_1_l in Q. lra.
Qed.
Print Assumptions C60_plummer.
Example C60_plummer_case : tilted (mkV 3 4 0) /\ vnorm (mkV 3 4 0) / 10 ^ 10 <= vnorm (vcross (mkV 0 0 1) (mkV 3 4 0)).
Proof.
  assert (N : vnorm (mkV 3 4 0) = 5). { unfold vnorm. replace (vnorm2 (mkV 3 4 0)) with (5 ^ 2) by (unfold vnorm2, vdot; cbn; ring). apply sqrt_pow2. lra. }
  split.
  - left. split; [intros E; injection E; lra|]. unfold cos_angle. fold (vnorm (mkV 3 4 0)). rewrite N. unfold vdot, vscal. cbn [vx vy vz]. lra.
  - rewrite N. unfold vnorm. replace (vnorm2 (vcross (mkV 0 0 1) (mkV 3 4 0))) with (5 ^ 2) by (unfold vnorm2, vdot, vcross; cbn; ring). rewrite sqrt_pow2; lra.
Qed.

(** For a stream that moves along -y the code reflects instead of rotating: it returns the kick of a body that passes on the other side. *)
Theorem C60_antiparallel : forall (s : RR) (w x0 : V3) (y b GM rs : RR), 0 < s -> let v := mkV 0 (- s) 0 in vnorm v / 10 ^ 10 <= vnorm (vcross w v) -> (b <> 0 \/ rs <> 0) ->
  is_kick (central (plummer_force GM rs)) (flyby (vadd x0 (along v y)) v x0 v w (- b)) (impulse_deltav_plummer v y b w GM rs).
Proof.
  intros s w x0 y b GM rs Hs v Hc Hb. destruct (anti_frame s Hs) as [Fr N]. fold v in Fr, N. assert (Hv : 0 < vnorm v) by (rewrite N; exact Hs). pose proof (big_perp v w _ Fr Hv Hc) as Hp.
  assert (HB : 0 < b ^ 2 + rs ^ 2). { pose proof (pow2_ge_0 b). pose proof (pow2_ge_0 rs). destruct Hb as [Hb|Hb]; [pose proof (pow2_gt_0 b Hb)|pose proof (pow2_gt_0 rs Hb)]; lra. }
  rewrite (straight_plummer v w y b (-1) Fr Hv Hp x0 GM rs HB). replace (-1 * b) with (- b) by ring.
  apply (kick_ext (central (plummer_force GM rs)) _ (line (offset (vadd x0 (along v y)) (- b) w x0 v) (vopp (vsub w v)))); [reflexivity|intros t; symmetry; apply flyby_line|].
  apply plummer_core_kick; [apply norm2_pos, sub_nonzero, cross_ne, cross_nonzero; assumption|]. pose proof (straight_perp v w y b (-1) x0 Fr Hv Hp) as Q. replace (-1 * b) with (- b) in Q by ring. lra.
Qed.
Print Assumptions C60_antiparallel.
Theorem C60_antiparallel_refuted : ~ (forall (v w x0 : V3) (y b GM rs : RR), v <> vzero -> vnorm v / 10 ^ 10 <= vnorm (vcross w v) -> 0 < rs ->
  is_kick (central (plummer_force GM rs)) (flyby (vadd x0 (along v y)) v x0 v w b) (impulse_deltav_plummer v y b w GM rs)).
Proof.
  intros H. set (v := mkV 0 (-(1)) 0). set (w := mkV 1 0 0).
  assert (Hc : vnorm v / 10 ^ 10 <= vnorm (vcross w v)).
  { destruct (anti_frame 1 Rlt_0_1) as [_ N]. fold v in N. rewrite N. unfold vnorm. replace (vnorm2 (vcross w v)) with (1 ^ 2) by (unfold vnorm2, vdot, vcross, v, w; cbn; ring). rewrite sqrt_pow2; lra. }
  assert (Hv : v <> vzero) by (intros E; injection E; lra).
  pose proof (H v w vzero 0 1 1 1 Hv Hc Rlt_0_1) as K1. pose proof (C60_antiparallel 1 w vzero 0 1 1 1 Rlt_0_1 Hc (or_introl R1_neq_R0)) as K2. fold v in K2. cbv zeta in K2.
  assert (X : vcross w v <> vzero) by (intros E; unfold v, w, vcross, vzero in E; cbn in E; injection E; lra).
  pose proof (C60_plummer_curved (vadd vzero (along v 0)) v vzero v w 1 1 1 (cross_ne v w X) X (or_introl R1_neq_R0)) as K3.
  pose proof (C60_plummer_curved (vadd vzero (along v 0)) v vzero v w (-(1)) 1 1 (cross_ne v w X) X (or_introl R1_neq_R0)) as K4.
  pose proof (kick_unique _ _ _ _ K1 K3) as E1. pose proof (kick_unique _ _ _ _ K2 K4) as E2. rewrite E2 in E1. clear - E1. apply (f_equal vz) in E1. revert E1.
  unfold impulse_deltav_plummer_curvedstream, plummer_core, offset, along, v, w. cbv zeta. replace (0 / vnorm (mkV 0 (-(1)) 0)) with 0 by (unfold Rdiv; ring). vunfold.
  match goal with |- context [sqrt ?e] => replace e with (1 ^ 2) by ring end. rewrite sqrt_pow2 by lra.
  repeat match goal with |- context [sqrt ?e] => lazymatch e with 2 => fail | _ => replace e with 2 by ring end end.
  assert (S : sqrt 2 ^ 2 = 2) by (apply pow2_sqrt; lra). assert (Sp : 0 < sqrt 2) by (apply sqrt_lt_R0; lra). intros E.
  match type of E with ?l = ?r => replace l with (- / sqrt 2) in E by (field; lra); replace r with (/ sqrt 2) in E by (field; lra) end. assert (0 < / sqrt 2) by (apply Rinv_0_lt_compat; exact Sp). lra.
Qed.
Print Assumptions C60_antiparallel_refuted.

(** When the body moves along the stream the direction of the impact is not defined by w and v, so any side n across the stream would do; the code uses
    the unnormalised (1, 0, -1): the square of its kick is twice that of the kick on any side. *)
Theorem C60_parallel : forall (s c : RR) (n x0 k : V3) (y b GM rs : RR), 0 < s -> c <> s -> 0 < b ^ 2 + rs ^ 2 -> let v := mkV 0 s 0 in let w := mkV 0 c 0 in
  vnorm2 n = 1 -> vdot n v = 0 -> is_kick (central (plummer_force GM rs)) (flyby_on n (vadd x0 (along v y)) v x0 w b) k ->
  vnorm2 (impulse_deltav_plummer v y b w GM rs) = 2 * vnorm2 k.
Proof.
  intros s c n x0 k y b GM rs Hs Hcs Hb v w Hn Hd K. destruct (tilted_frame v) as [Fr Hv]; [right; exists s; auto|].
  assert (N : vnorm v = s). { unfold vnorm. replace (vnorm2 v) with (s ^ 2) by (unfold v, vnorm2, vdot; cbn; ring). apply sqrt_pow2. lra. }
  set (B := vsub (vadd (vscal b n) (vadd x0 (along v y))) x0).
  assert (EB : B = mkV (b * vx n) y (b * vz n)).
  { assert (Ny : vy n = 0). { unfold vdot, v in Hd. cbn [vx vy vz] in Hd. nra. } unfold B, along. rewrite N. unfold v, vsub, vadd, vscal. cbn [vx vy vz]. rewrite Ny. f_equal; field; lra. }
  assert (EW : vsub w v = mkV 0 (c - s) 0) by (unfold vsub, v, w; cbn [vx vy vz]; f_equal; ring).
  assert (W2 : vnorm2 (vsub w v) = (c - s) ^ 2) by (rewrite EW; unfold vnorm2, vdot; cbn [vx vy vz]; ring).
  assert (Wp : 0 < (c - s) ^ 2) by (apply pow2_gt_0; lra).
  assert (EP : perp B (vsub w v) = vscal b n).
  { assert (Ny : vy n = 0). { unfold vdot, v in Hd. cbn [vx vy vz] in Hd. nra. } unfold perp. rewrite W2, EW, EB. unfold vdot, vsub, vscal. cbn [vx vy vz]. rewrite Ny. f_equal; field; lra. }
  assert (NP : vnorm2 (perp B (vsub w v)) = b ^ 2). { rewrite EP. transitivity (b ^ 2 * vnorm2 n); [clear; vring|]. rewrite Hn. ring. }
  pose proof (plummer_kick GM rs B (vopp (vsub w v))) as Q. cbv zeta in Q. fold (perp B (vopp (vsub w v))) in Q. rewrite perp_opp, norm2_opp, norm_opp, W2, NP, EP in Q. specialize (Q Wp Hb).
  assert (K' : is_kick (central (plummer_force GM rs)) (flyby_on n (vadd x0 (along v y)) v x0 w b) (vscal (2 * - (GM / (b ^ 2 + rs ^ 2)) / vnorm (vsub w v)) (vscal b n))).
  { eapply kick_ext; [| |exact Q]; [reflexivity|]. intros t. rewrite flyby_on_line. reflexivity. }
  rewrite (kick_unique _ _ _ _ K K'). set (h := vnorm (vsub w v)). assert (h2 : h ^ 2 = (c - s) ^ 2) by (unfold h; rewrite vnorm_sq; exact W2). assert (hp : 0 < h) by (unfold h, vnorm; apply sqrt_lt_R0; rewrite W2; exact Wp).
  transitivity (2 * ((2 * - (GM / (b ^ 2 + rs ^ 2)) / h) ^ 2 * b ^ 2)). 2: { f_equal. transitivity ((2 * - (GM / (b ^ 2 + rs ^ 2)) / h) ^ 2 * b ^ 2 * vnorm2 n); [rewrite Hn; ring|]. generalize (2 * - (GM / (b ^ 2 + rs ^ 2)) / h). intros. clear. vring. }
  assert (Er : forall inv, rotation_vy inv v = eye).
  { assert (Hv0 : v <> vzero) by (intros E; injection E; lra). assert (C : vdot (vscal (/ sqrt (vnorm2 v)) v) (mkV 0 1 0) = 1). { fold (vnorm v). rewrite N. unfold v, vdot, vscal. cbn [vx vy vz]. field. lra. }
    assert (A : vnorm2 (mkV 0 1 0) = 1) by (unfold vnorm2, vdot; cbn; ring).
    intros inv. unfold rotation_vy. pose proof (cut_cases v (mkV 0 1 0) Hv0 A inv) as R. cbv zeta in R. rewrite C in R. destruct R as [[R _]|[[_ R]|[_ R]]]; [exact R|lra|lra]. }
  unfold impulse_deltav_plummer, stream_frame. cbv zeta. cbn [f_w f_perp f_par f_mag2 f_mag]. rewrite !Er, !mulMV_eye. fold (vnorm v). rewrite N. unfold w. cbn [vx vy vz].
  replace (0 ^ 2 + 0 ^ 2) with 0 by ring. rewrite sqrt_0, Rabs_R0. destruct (Rlt_dec 0 (1 / 10 ^ 10)) as [_|F]; [|exfalso; apply F; lra].
  replace (sqrt ((s - c) ^ 2 + 0 ^ 2)) with h. 2: { unfold h, vnorm. f_equal. rewrite W2. ring. }
  unfold vscal, vnorm2, vdot. cbn [vx vy vz]. assert (Q1 : s - c <> 0) by lra. field. repeat split; try lra.
Qed.
Print Assumptions C60_parallel.
(** So with a non-zero kick no side makes it right. *)
Theorem C60_parallel_refuted : ~ (forall (v w : V3) (y b GM rs : RR), tilted v -> w <> v -> 0 < rs ->
  exists n, vnorm2 n = 1 /\ vdot n v = 0 /\ is_kick (central (plummer_force GM rs)) (flyby_on n (along v y) v vzero w b) (impulse_deltav_plummer v y b w GM rs)).
Proof.
  intros H. set (v := mkV 0 1 0). set (w := mkV 0 3 0). destruct (H v w 0 1 1 1) as (n & Hn & Hd & K); [right; exists 1; split; [lra|reflexivity]|intros E; injection E; lra|lra|].
  assert (K' : is_kick (central (plummer_force 1 1)) (flyby_on n (vadd vzero (along v 0)) v vzero w 1) (impulse_deltav_plummer v 0 1 w 1 1)).
  { eapply kick_ext; [| |exact K]; [reflexivity|]. intros t. f_equal. generalize (along v 0). intros. clear. vring. }
  pose proof (C60_parallel 1 3 n vzero _ 0 1 1 1 ltac:(lra) ltac:(lra) ltac:(lra) Hn Hd K') as E. fold v w in E. cbv zeta in E.
  assert (Z : vnorm2 (impulse_deltav_plummer v 0 1 w 1 1) = 0) by lra. rewrite (norm2_zero _ Z) in K'.
  assert (Q := C60_parallel 1 3 n vzero _ 0 1 1 1 ltac:(lra) ltac:(lra) ltac:(lra) Hn Hd K'). clear Q E.
  set (B := vsub (vadd (vscal 1 n) (vadd vzero (along v 0))) vzero). assert (EW : vsub w v = mkV 0 2 0) by (unfold vsub, v, w; cbn [vx vy vz]; f_equal; ring).
  assert (W2 : vnorm2 (vsub w v) = 4) by (rewrite EW; unfold vnorm2, vdot; cbn [vx vy vz]; ring).
  assert (EB : B = n). { unfold B, along. replace (0 / vnorm v) with 0 by (unfold Rdiv; ring). generalize n v. intros. clear. vring. }
  assert (EP : perp B (vsub w v) = n). { rewrite EB. unfold perp. replace (vdot n (vsub w v)) with 0. { unfold Rdiv. rewrite Rmult_0_l. generalize n (vsub w v). intros. clear. vring. } rewrite EW. unfold vdot, v in *. cbn [vx vy vz] in *. lra. }
  pose proof (plummer_kick 1 1 B (vopp (vsub w v))) as Q. cbv zeta in Q. fold (perp B (vopp (vsub w v))) in Q. rewrite perp_opp, norm2_opp, norm_opp, W2, EP, Hn in Q. specialize (Q ltac:(lra) ltac:(lra)).
  assert (K2 : is_kick (central (plummer_force 1 1)) (flyby_on n (vadd vzero (along v 0)) v vzero w 1) (vscal (2 * - (1 / (1 + 1 ^ 2)) / vnorm (vsub w v)) n)).
  { eapply kick_ext; [| |exact Q]; [reflexivity|]. intros t. rewrite flyby_on_line. reflexivity. }
  pose proof (kick_unique _ _ _ _ K' K2) as E. apply (f_equal vnorm2) in E. replace (vnorm2 vzero) with 0 in E by (clear; vring).
  assert (hN : vnorm (vsub w v) = 2). { unfold vnorm. rewrite W2. replace 4 with (2 ^ 2) by ring. apply sqrt_pow2. lra. } rewrite hN in E.
  assert (E3 : vnorm2 (vscal (2 * - (1 / (1 + 1 ^ 2)) / 2) n) = (2 * - (1 / (1 + 1 ^ 2)) / 2) ^ 2 * vnorm2 n) by (generalize (2 * - (1 / (1 + 1 ^ 2)) / 2); intros; clear; vring). rewrite E3, Hn in E. lra.
Qed.
Print Assumptions C60_parallel_refuted.

(** ** Hernquist spheres *)
(** impulse_deltav_hernquist_curvedstream, at any distance d > 0 of closest approach other than the scale radius. *)
Theorem C60_hernquist_curved : forall (x v x0 v0 w : V3) (b GM rs d : RR), 0 < rs -> w <> v -> vcross w v0 <> vzero -> closest (flyby x v x0 v0 w b) d -> 0 < d -> d <> rs ->
  exists k, impulse_deltav_hernquist_curvedstream v x b w x0 v0 GM rs = Some k /\ is_kick (central (hernquist_force GM rs)) (flyby x v x0 v0 w b) k.
Proof.
  intros x v x0 v0 w b GM rs d Hrs Hne _ C Hd Hdr. assert (HW : 0 < vnorm2 (vsub w v)) by (apply norm2_pos, sub_nonzero; exact Hne).
  apply (closest_ext _ (line (offset x b w x0 v0) (vopp (vsub w v)))) in C; [|intros t; apply flyby_line]. apply closest_perp in C; [|rewrite norm2_opp; exact HW]. rewrite perp_opp in C.
  destruct (factor_kick _ _ GM rs d Hrs HW C Hd Hdr) as (k & E & K). exists k. split; [exact E|]. eapply kick_ext; [| |exact K]; [reflexivity|]. intros t. symmetry. apply flyby_line.
Qed.
Print Assumptions C60_hernquist_curved.
(** impulse_deltav_hernquist, for a straight stream. *)
Theorem C60_hernquist : forall (v w x0 : V3) (y b GM rs d : RR), 0 < rs -> tilted v -> vnorm v / 10 ^ 10 <= vnorm (vcross w v) -> closest (flyby (vadd x0 (along v y)) v x0 v w b) d -> 0 < d -> d <> rs ->
  exists k, impulse_deltav_hernquist v y b w GM rs = Some k /\ is_kick (central (hernquist_force GM rs)) (flyby (vadd x0 (along v y)) v x0 v w b) k.
Proof.
  intros v w x0 y b GM rs d Hrs T Hc C Hd Hdr. destruct (tilted_frame v T) as [Fr Hv]. pose proof (big_perp v w 1 Fr Hv Hc) as Hp. pose proof (cross_nonzero v w Hv Hc) as X.
  rewrite (straight_hernquist v w y b 1 Fr Hv Hp x0 GM rs), Rmult_1_l. apply (C60_hernquist_curved _ _ _ _ _ _ GM rs d Hrs (cross_ne v w X) X C Hd Hdr).
Qed.
Print Assumptions C60_hernquist.
(** A star that passes at exactly the scale radius gets nan (a division by zero), although its kick is finite. *)
Theorem C60_hernquist_at_scale : forall (x v x0 v0 w : V3) (b GM rs : RR), 0 < rs -> w <> v -> closest (flyby x v x0 v0 w b) rs ->
  impulse_deltav_hernquist_curvedstream v x b w x0 v0 GM rs = None /\ exists k, is_kick (central (hernquist_force GM rs)) (flyby x v x0 v0 w b) k.
Proof.
  intros x v x0 v0 w b GM rs Hrs Hne C. assert (HW : 0 < vnorm2 (vsub w v)) by (apply norm2_pos, sub_nonzero; exact Hne).
  apply (closest_ext _ (line (offset x b w x0 v0) (vopp (vsub w v)))) in C; [|intros t; apply flyby_line]. apply closest_perp in C; [|rewrite norm2_opp; exact HW]. rewrite perp_opp in C.
  destruct (factor_equal _ _ GM rs Hrs HW (eq_sym C)) as (E & K). split; [exact E|]. eexists. eapply kick_ext; [| |exact K]; [reflexivity|]. intros t. symmetry. apply flyby_line.
Qed.
Print Assumptions C60_hernquist_at_scale.
Theorem C60_hernquist_at_scale_refuted : ~ (forall (x v x0 v0 w : V3) (b GM rs d : RR), 0 < rs -> w <> v -> vcross w v0 <> vzero -> closest (flyby x v x0 v0 w b) d -> 0 < d ->
  exists k, impulse_deltav_hernquist_curvedstream v x b w x0 v0 GM rs = Some k).
Proof.
  intros H. set (v := mkV 0 1 0). set (w := mkV 1 0 0). assert (X : vcross w v <> vzero) by (intros E; unfold v, w, vcross, vzero in E; cbn in E; injection E; lra).
  destruct (C60_geometry vzero v w 1 X) as [_ C]. rewrite Rabs_R1 in C. destruct (H vzero v vzero v w 1 1 1 1 Rlt_0_1 (cross_ne v w X) X C Rlt_0_1) as [k E].
  destruct (C60_hernquist_at_scale vzero v vzero v w 1 1 1 Rlt_0_1 (cross_ne v w X) C) as [E' _]. rewrite E' in E. discriminate.
Qed.
Print Assumptions C60_hernquist_at_scale_refuted.
Example C60_hernquist_case : let v := mkV 0 1 0 in let w := mkV 1 0 0 in tilted v /\ vnorm v / 10 ^ 10 <= vnorm (vcross w v) /\ closest (flyby (vadd vzero (along v 0)) v vzero v w 2) 2.
Proof.
  cbv zeta. split; [right; exists 1; split; [lra|reflexivity]|]. assert (N : vnorm (mkV 0 1 0) = 1). { unfold vnorm. replace (vnorm2 (mkV 0 1 0)) with (1 ^ 2) by (unfold vnorm2, vdot; cbn; ring). apply sqrt_pow2. lra. } split.
  - rewrite N. unfold vnorm. replace (vnorm2 (vcross (mkV 1 0 0) (mkV 0 1 0))) with (1 ^ 2) by (unfold vnorm2, vdot, vcross; cbn; ring). rewrite sqrt_pow2; lra.
  - assert (X : vcross (mkV 1 0 0) (mkV 0 1 0) <> vzero) by (intros E; unfold vcross, vzero in E; cbn in E; injection E; lra). destruct (C60_geometry vzero (mkV 0 1 0) (mkV 1 0 0) 2 X) as [_ C]. rewrite Rabs_pos_eq in C by lra.
    eapply closest_ext; [|exact C]. intros t. f_equal. unfold along. replace (0 / vnorm (mkV 0 1 0)) with 0 by (unfold Rdiv; ring). clear. vring.
Qed.

(** ** Any spherical body *)
(** impulse_deltav_general_curvedstream: the integral over -1 < T < 1 is the kick, whenever the kick exists, for every radial force that is continuous
    outside the centre and every star that does not meet the centre. *)
Theorem C60_general_curved : forall (F : RR -> RR) (x v x0 v0 w k : V3) (b : RR), (forall r, 0 < r -> continuous F r) -> vcross w v0 <> vzero -> (forall t, flyby x v x0 v0 w b t <> vzero) ->
  is_kick (central F) (flyby x v x0 v0 w b) k -> impulse_deltav_general_curvedstream v x b w x0 v0 F = k.
Proof.
  intros F x v x0 v0 w k b CF _ N K. unfold impulse_deltav_general_curvedstream. set (B := offset x b w x0 v0).
  assert (E : vadd B (vscal 0 (mkV 0 1 0)) = B) by (generalize B; intros; clear; vring). apply integrate_kick; [exact CF| |]; rewrite E.
  - intros t Z. apply (N (- t)). rewrite flyby_line. fold B. rewrite <- Z. unfold line. generalize B (vsub w v). intros. clear. vring.
  - assert (K1 : is_kick (central F) (line B (vopp (vsub w v))) k). { eapply kick_ext; [| |exact K]; [reflexivity|]. intros t. apply flyby_line. }
    apply kick_rev in K1. replace (vopp (vopp (vsub w v))) with (vsub w v) in K1 by (clear; vring). exact K1.
Qed.
Print Assumptions C60_general_curved.
(** impulse_deltav_general, for a straight stream. *)
Theorem C60_general : forall (F : RR -> RR) (v w x0 k : V3) (y b : RR), (forall r, 0 < r -> continuous F r) -> tilted v -> vcross w v <> vzero ->
  let path := flyby (vadd x0 (along v y)) v x0 v w b in (forall t, path t <> vzero) -> is_kick (central F) path k -> impulse_deltav_general v y b w F = Some k.
Proof.
  intros F v w x0 k y b CF T X path N K. destruct (tilted_frame v T) as [Fr Hv].
  assert (Pp : 0 < f_perp (stream_frame v w)). { pose proof (perp_speed v w 1 Fr) as E. assert (0 < vnorm (vcross w v)) by (apply sqrt_lt_R0, norm2_pos; exact X). assert (0 <= f_perp (stream_frame v w)) by apply sqrt_pos. nra. }
  apply (straight_general v w y b 1 x0 F k Fr Hv Pp CF); rewrite Rmult_1_l.
  - intros t. rewrite <- flyby_line. apply N.
  - eapply kick_ext; [| |exact K]; [reflexivity|]. intros t. apply flyby_line.
Qed.
Print Assumptions C60_general.
(** For a Plummer sphere the closed formula and the integral agree, and a Hernquist sphere can be given as a general body at its own scale radius. *)
Lemma plummer_cont GM rs : forall r, 0 < r -> continuous (plummer_force GM rs) r.
Proof.
  intros r Hr. apply (ex_derive_continuous (plummer_force GM rs)). unfold plummer_force. pose proof (pow2_ge_0 rs) as Q. assert (P : 0 < r ^ 2 + rs ^ 2) by nra. pose proof (sqrt_lt_R0 _ P) as S.
  auto_derive. simpl in *. split; [exact P|split; [|exact I]]. apply Rgt_not_eq. apply Rmult_lt_0_compat; assumption.
Qed.
Lemma hernquist_cont GM rs : 0 < rs -> forall r, 0 < r -> continuous (hernquist_force GM rs) r.
Proof.
  intros Hs r Hr. apply (ex_derive_continuous (hernquist_force GM rs)). unfold hernquist_force. auto_derive. apply Rgt_not_eq. nra.
Qed.
Theorem C60_general_agrees : forall (x v x0 v0 w : V3) (b GM rs : RR), w <> v -> vcross w v0 <> vzero -> (forall t, flyby x v x0 v0 w b t <> vzero) ->
  impulse_deltav_general_curvedstream v x b w x0 v0 (plummer_force GM rs) = impulse_deltav_plummer_curvedstream v x b w x0 v0 GM rs /\
  (0 < rs -> is_kick (central (hernquist_force GM rs)) (flyby x v x0 v0 w b) (impulse_deltav_general_curvedstream v x b w x0 v0 (hernquist_force GM rs))).
Proof.
  intros x v x0 v0 w b GM rs Hne X N. split.
  - apply C60_general_curved; [apply plummer_cont|exact X|exact N|]. apply C60_plummer_curved; auto.
  - intros Hrs. assert (HW : 0 < vnorm2 (vsub w v)) by (apply norm2_pos, sub_nonzero; exact Hne). pose proof (never_perp x v x0 v0 w b Hne N) as P.
    set (B := offset x b w x0 v0) in *. assert (Dp : 0 < vnorm (perp B (vsub w v))) by (apply sqrt_lt_R0; exact P).
    assert (E : exists k, is_kick (central (hernquist_force GM rs)) (flyby x v x0 v0 w b) k).
    { destruct (Req_dec (vnorm (perp B (vsub w v))) rs) as [Eq|Ne].
      - destruct (factor_equal B (vsub w v) GM rs Hrs HW Eq) as (_ & K). eexists. eapply kick_ext; [| |exact K]; [reflexivity|]. intros t. symmetry. apply flyby_line.
      - destruct (factor_kick B (vsub w v) GM rs _ Hrs HW eq_refl Dp Ne) as (k & _ & K). exists k. eapply kick_ext; [| |exact K]; [reflexivity|]. intros t. symmetry. apply flyby_line. }
    destruct E as [k K]. rewrite (C60_general_curved _ x v x0 v0 w k b (hernquist_cont GM rs Hrs) X N K). exact K.
Qed.
Print Assumptions C60_general_agrees.
(** For a body that moves along the stream impulse_deltav_general has no value at all. *)
Theorem C60_general_parallel_refuted : ~ (forall (F : RR -> RR) (v w : V3) (y b : RR), (forall r, 0 < r -> continuous F r) -> tilted v -> w <> v -> exists k, impulse_deltav_general v y b w F = Some k).
Proof.
  intros H. set (v := mkV 0 1 0). set (w := mkV 0 3 0). assert (T : tilted v) by (right; exists 1; split; [lra|reflexivity]).
  destruct (H (plummer_force 1 1) v w 0 1 (plummer_cont 1 1) T ltac:(intros E; injection E; lra)) as [k E]. revert E. unfold impulse_deltav_general. cbv zeta. cbn [vx vy vz].
  destruct (tilted_frame v T) as [Fr Hv]. pose proof (perp_speed v w 1 Fr) as P. replace (vcross w v) with vzero in P by (unfold v, w; vunfold; f_equal; ring).
  unfold vnorm at 1 in P. replace (vnorm2 vzero) with 0 in P by (clear; vring). rewrite sqrt_0 in P.
  assert (Z : sqrt (vx (mulMV (rotation_vy false v) w) ^ 2 + vz (mulMV (rotation_vy false v) w) ^ 2) = 0). { change (f_perp (stream_frame v w) = 0). nra. }
  destruct (Req_EM_T _ 0) as [_|F]; [discriminate|]. exfalso. apply F. exact Z.
Qed.
Print Assumptions C60_general_parallel_refuted.

(** ** A perturbing stream *)
(** impulse_deltav_plummerstream: the kick is the integral over t of GSigma(t) times the kick of a Plummer sphere of unit mass on a star at y - |v| t. *)
Theorem C60_stream : forall (v w : V3) (y b rs lo hi : RR) (GSigma : RR -> RR), tilted v -> vnorm v / 10 ^ 10 <= vnorm (vcross w v) -> (b <> 0 \/ rs <> 0) -> (forall t, continuous GSigma t) ->
  exists k, impulse_deltav_plummerstream v y b w GSigma rs (Some lo) (Some hi) = Done k /\
  let part t := vscal (GSigma t) (impulse_deltav_plummer v (y - vnorm v * t) b w 1 rs) in
  is_RInt (fun t => vx (part t)) lo hi (vx k) /\ is_RInt (fun t => vy (part t)) lo hi (vy k) /\ is_RInt (fun t => vz (part t)) lo hi (vz k).
Proof.
  intros v w y b rs lo hi G T Hc Hb CG. destruct (tilted_frame v T) as [Fr Hv]. pose proof (big_perp v w 1 Fr Hv Hc) as Hp.
  assert (HB : 0 < b ^ 2 + rs ^ 2). { pose proof (pow2_ge_0 b). pose proof (pow2_ge_0 rs). destruct Hb as [Hb|Hb]; [pose proof (pow2_gt_0 b Hb)|pose proof (pow2_gt_0 rs Hb)]; lra. }
  eexists. split; [reflexivity|]. apply stream_kick; assumption.
Qed.
Print Assumptions C60_stream.
(** "tmin= and tmax= need to be set": only tmax is checked. *)
Theorem C60_stream_bounds_refuted : ~ (forall (v w : V3) (y b rs : RR) (GSigma : RR -> RR) (tmin tmax : option RR), tmin = None \/ tmax = None ->
  impulse_deltav_plummerstream v y b w GSigma rs tmin tmax = ValueError).
Proof. intros H. specialize (H vzero vzero 0 0 0 (fun _ => 0) None (Some 0) (or_introl eq_refl)). discriminate. Qed.
Print Assumptions C60_stream_bounds_refuted.
(** impulse_deltav_plummerstream_curvedstream: with the stream on the orbit (pos, vel), the star that is at pos(tx) gets the integral over t of GSigma(t) times the
    kick of a Plummer sphere on the point of the orbit at tx - t, as long as the earliest time min(t) + tmin is not after the impact. *)
Theorem C60_stream_curved : forall (pos vel : RR -> V3) (w x0 v0 : V3) (b rs lo hi tmin tmax tx : RR) (GSigma : RR -> RR), lo + tmin <= 0 ->
  let part t := vscal (GSigma t) (impulse_deltav_plummer_curvedstream (vel (tx - t)) (pos (tx - t)) b w x0 v0 1 rs) in
  curved_kick pos vel b w x0 v0 GSigma rs lo hi tmin tmax tx = mkV (RInt (fun t => vx (part t)) tmin tmax) (RInt (fun t => vy (part t)) tmin tmax) (RInt (fun t => vz (part t)) tmin tmax).
Proof.
  intros pos vel w x0 v0 b rs lo hi tmin tmax tx G H part. unfold curved_kick. cbv zeta. f_equal; apply RInt_ext; intros t _; rewrite (curved_part pos vel b w x0 v0 G rs lo tmin tx t H); reflexivity.
Qed.
Print Assumptions C60_stream_curved.
(** On a straight orbit the two functions agree. *)
Theorem C60_stream_straight : forall (w x0 v0 : V3) (b rs lo hi tmin tmax tx : RR) (GSigma : RR -> RR), tilted v0 -> vnorm v0 / 10 ^ 10 <= vnorm (vcross w v0) -> (b <> 0 \/ rs <> 0) -> (forall t, continuous GSigma t) -> lo + tmin <= 0 ->
  impulse_deltav_plummerstream v0 (vnorm v0 * tx) b w GSigma rs (Some tmin) (Some tmax) = Done (curved_kick (line x0 v0) (fun _ => v0) b w x0 v0 GSigma rs lo hi tmin tmax tx).
Proof.
  intros w x0 v0 b rs lo hi tmin tmax tx G T Hc Hb CG H. destruct (tilted_frame v0 T) as [Fr Hv]. pose proof (big_perp v0 w 1 Fr Hv Hc) as Hp.
  assert (HB : 0 < b ^ 2 + rs ^ 2). { pose proof (pow2_ge_0 b). pose proof (pow2_ge_0 rs). destruct Hb as [Hb|Hb]; [pose proof (pow2_gt_0 b Hb)|pose proof (pow2_gt_0 rs Hb)]; lra. }
  destruct (C60_stream v0 w (vnorm v0 * tx) b rs tmin tmax G T Hc Hb CG) as (k & E & K1 & K2 & K3). rewrite E. f_equal. rewrite (C60_stream_curved _ _ w x0 v0 b rs lo hi tmin tmax tx G H).
  assert (P : forall t, impulse_deltav_plummer v0 (vnorm v0 * tx - vnorm v0 * t) b w 1 rs = impulse_deltav_plummer_curvedstream v0 (line x0 v0 (tx - t)) b w x0 v0 1 rs).
  { intros t. rewrite (straight_plummer v0 w _ b 1 Fr Hv Hp x0 1 rs HB), Rmult_1_l. f_equal. unfold line, along. replace ((vnorm v0 * tx - vnorm v0 * t) / vnorm v0) with (tx - t) by (field; lra). reflexivity. }
  apply V3_ext; cbn [vx vy vz]; symmetry; apply is_RInt_unique; (eapply is_RInt_ext; [|eassumption]); intros t _; cbv beta; rewrite P; reflexivity.
Qed.
Print Assumptions C60_stream_straight.
(** Every point of the orbit that is asked for has been integrated only if the range of times is symmetric: tmax = -tmin. *)
Theorem C60_stream_curved_range : forall (lo hi tmin tmax : RR), lo <= hi -> tmin <= tmax ->
  (forall tx t, lo <= tx <= hi -> tmin <= t <= tmax -> 0 <= curved_asked lo tmin tx t <= curved_length lo hi tmin tmax) <-> tmax = - tmin.
Proof.
  intros lo hi tmin tmax H1 H2. unfold curved_asked, curved_length. split.
  - intros H. pose proof (H lo tmax ltac:(lra) ltac:(lra)). pose proof (H hi tmin ltac:(lra) ltac:(lra)). lra.
  - intros E tx t Hx Ht. lra.
Qed.
Print Assumptions C60_stream_curved_range.
Example C60_stream_case : tilted (mkV 3 4 0) /\ vnorm (mkV 3 4 0) / 10 ^ 10 <= vnorm (vcross (mkV 0 0 1) (mkV 3 4 0)) /\ (forall t, continuous (fun t : RR => t) t) /\ -1 + -1 <= 0 /\ 1 = - -1.
Proof. destruct C60_plummer_case as [A B]. split; [exact A|]. split; [exact B|]. split; [intros t; apply continuous_id|]. lra. Qed.
(** A fly-by that never meets the centre. *)
Example C60_general_case : let v := mkV 0 1 0 in let w := mkV 1 0 0 in tilted v /\ w <> v /\ vcross w v <> vzero /\ forall t, flyby vzero v vzero v w 1 t <> vzero.
Proof.
  cbv zeta. assert (X : vcross (mkV 1 0 0) (mkV 0 1 0) <> vzero) by (intros E; unfold vcross, vzero in E; cbn in E; injection E; lra).
  split; [right; exists 1; split; [lra|reflexivity]|]. split; [apply cross_ne; exact X|]. split; [exact X|]. intros t E. destruct (C60_geometry vzero (mkV 0 1 0) (mkV 1 0 0) 1 X) as [_ [_ C]]. specialize (C t). rewrite E, Rabs_R1 in C.
  unfold vnorm in C. replace (vnorm2 vzero) with 0 in C by (clear; vring). rewrite sqrt_0 in C. lra.
Qed.
