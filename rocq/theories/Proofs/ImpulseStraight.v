(** The formulas in the frame of a straight stream. *)
From Coq Require Import Reals Lra.
From Coquelicot Require Import Coquelicot.
From Verif.Lib Require Import RealAux Vec3.
From Verif.Spec Require Import SkySpec KickSpec.
From Verif.Model Require Import RotVec Impulse.
From Verif.Proofs Require Import RotVecProofs SkyProofs KickBasics KickSpheres ImpulseProofs.
Open Scope R_scope.
Notation RR := RbaseSymbolsImpl.R (only parsing).
Ltac rr := match goal with |- ?a = ?b => change (@eq RR a b) end.

Lemma mulMV_sub m a b : mulMV m (vsub a b) = vsub (mulMV m a) (mulMV m b). Proof. vring. Qed.
Lemma back_off (a x z : V3) : vsub (vadd a (vadd x z)) x = vadd a z. Proof. vring. Qed.
Definition ey : V3 := mkV 0 1 0.
(** The matrix carries the stream onto the y axis; d tells a rotation (1) from a point reflection (-1). *)
Record framed (v : V3) (d : RR) (m mi : M3) : Prop := {
  fr_ortho : orthogonal m; fr_inv : mi = transp m; fr_v : mulMV m v = vscal (vnorm v) ey; fr_d : d * d = 1;
  fr_cross : forall a b, mulMV m (vcross a b) = vscal d (vcross (mulMV m a) (mulMV m b)) }.
Lemma framed_back v d m mi x : framed v d m mi -> mulMV mi (mulMV m x) = x.
Proof. intros [O -> _ _ _]. rewrite <- mulMV_assoc, ortho_l by exact O. apply mulMV_eye. Qed.
Lemma framed_rotation v m mi : rotation m -> mulMM mi m = eye -> mulMV m v = vscal (vnorm v) ey -> framed v 1 m mi.
Proof.
  intros R I E. destruct R as [O D]. constructor; [exact O|apply inv_unique; assumption|exact E|ring|].
  intros a b. rewrite (rot_cross m a b (conj O D)). generalize (vcross (mulMV m a) (mulMV m b)). intros x. clear. vring.
Qed.

Section Straight.
  Variables (v w : V3) (y b d : RR) (m mi : M3).
  Hypothesis Fr : framed v d m mi.
  Hypothesis Hv : 0 < vnorm v.
  Let tw := mulMV m w.
  Let p := sqrt (vx tw ^ 2 + vz tw ^ 2).
  Let q := vnorm v - vy tw.
  Hypothesis Hp : 0 < p.
  Lemma p_sq : p ^ 2 = vx tw ^ 2 + vz tw ^ 2.
  Proof. unfold p. apply pow2_sqrt. pose proof (pow2_ge_0 (vx tw)). pose proof (pow2_ge_0 (vz tw)). lra. Qed.
  Lemma m_rel : mulMV m (vsub w v) = mkV (vx tw) (- q) (vz tw).
  Proof.
    rewrite mulMV_sub. fold tw. rewrite (fr_v _ _ _ _ Fr). unfold q, vsub, vscal, ey. cbn [vx vy vz]. f_equal; ring.
  Qed.
  Lemma rel_norm2 : vnorm2 (vsub w v) = q ^ 2 + p ^ 2.
  Proof.
    unfold vnorm2 at 1. rewrite <- (ortho_dot m) by exact (fr_ortho _ _ _ _ Fr). rewrite m_rel, p_sq. unfold vdot. cbn [vx vy vz]. ring.
  Qed.
  Lemma m_cross : mulMV m (vcross w v) = vscal (d * vnorm v) (mkV (- vz tw) 0 (vx tw)).
  Proof.
    rewrite (fr_cross _ _ _ _ Fr), (fr_v _ _ _ _ Fr). fold tw. generalize (vnorm v). intros n. unfold ey, vcross, vscal. cbn [vx vy vz]. f_equal; ring.
  Qed.
  Lemma cross_norm : sqrt (vnorm2 (vcross w v)) = vnorm v * p.
  Proof.
    assert (E : vnorm2 (vcross w v) = (vnorm v * p) ^ 2).
    { unfold vnorm2 at 1. rewrite <- (ortho_dot m) by exact (fr_ortho _ _ _ _ Fr). rewrite m_cross, Rpow_mult_distr, p_sq. unfold vdot, vscal. cbn [vx vy vz].
      pose proof (fr_d _ _ _ _ Fr) as D. replace (vnorm v ^ 2) with ((d * d) * vnorm v ^ 2) by (rewrite D; ring). ring. }
    rewrite E. apply sqrt_pow2. left. apply Rmult_lt_0_compat; assumption.
  Qed.
  Lemma m_offset x0 : mulMV m (offset (vadd x0 (along v y)) (d * b) w x0 v) = mkV (- (b * vz tw / p)) y (b * vx tw / p).
  Proof.
    unfold offset. cbv zeta. rewrite cross_norm.
    rewrite back_off.
    rewrite mulMV_add, mulMV_scal, m_cross. unfold along. rewrite mulMV_scal, (fr_v _ _ _ _ Fr). pose proof (fr_d _ _ _ _ Fr) as D.
    unfold vadd, vscal, ey. cbn [vx vy vz]. f_equal.
    - transitivity (- ((d * d) * b * vz tw / p)); [field; lra|]. rewrite D. field. lra.
    - field. lra.
    - transitivity ((d * d) * b * vx tw / p); [field; lra|]. rewrite D. field. lra.
  Qed.
  Lemma dot_offset x0 : vdot (offset (vadd x0 (along v y)) (d * b) w x0 v) (vsub w v) = - (y * q).
  Proof. rewrite <- (ortho_dot m) by exact (fr_ortho _ _ _ _ Fr). rewrite m_offset, m_rel. unfold vdot. cbn [vx vy vz]. field. lra. Qed.
  Lemma norm_offset x0 : vnorm2 (offset (vadd x0 (along v y)) (d * b) w x0 v) = b ^ 2 + y ^ 2.
  Proof.
    unfold vnorm2. rewrite <- (ortho_dot m) by exact (fr_ortho _ _ _ _ Fr). rewrite m_offset. unfold vdot. cbn [vx vy vz].
    transitivity (b ^ 2 * (vx tw ^ 2 + vz tw ^ 2) / p ^ 2 + y ^ 2); [field; lra|]. rewrite <- p_sq. field. lra.
  Qed.
  (** The part of the offset across the relative velocity, rotated. *)
  Lemma m_part x0 : 0 < q ^ 2 + p ^ 2 -> let B := offset (vadd x0 (along v y)) (d * b) w x0 v in
    vsub B (vscal (vdot B (vsub w v) / sqrt (vnorm2 (vsub w v)) / sqrt (vnorm2 (vsub w v))) (vsub w v)) =
    mulMV mi (mkV (- (b * vz tw / p - y * q * vx tw / (q ^ 2 + p ^ 2))) (p ^ 2 * y / (q ^ 2 + p ^ 2)) (b * vx tw / p + y * q * vz tw / (q ^ 2 + p ^ 2))).
  Proof.
    intros HW B. rewrite <- (framed_back v d m mi (vsub B _) Fr). f_equal. rewrite rel_norm2. pose proof (dot_offset x0) as Dt. fold B in Dt. rewrite Dt.
    assert (S : sqrt (q ^ 2 + p ^ 2) ^ 2 = q ^ 2 + p ^ 2) by (apply pow2_sqrt; lra). assert (Sp : 0 < sqrt (q ^ 2 + p ^ 2)) by (apply sqrt_lt_R0; exact HW).
    replace (- (y * q) / sqrt (q ^ 2 + p ^ 2) / sqrt (q ^ 2 + p ^ 2)) with (- (y * q) / (q ^ 2 + p ^ 2)) by (rewrite <- S at 1; field; lra).
    rewrite mulMV_sub, mulMV_scal.
    unfold B. rewrite m_offset, m_rel. unfold vsub, vscal. cbn [vx vy vz]. f_equal; field; lra.
  Qed.
End Straight.

Section Formulas.
  Variables (v w : V3) (y b d : RR).
  Hypothesis Fr : framed v d (rotation_vy false v) (rotation_vy true v).
  Hypothesis Hv : 0 < vnorm v.
  Hypothesis Hp : 1 / 10 ^ 10 <= f_perp (stream_frame v w).
  Let m := rotation_vy false v.
  Let tw := mulMV m w.
  Let p := sqrt (vx tw ^ 2 + vz tw ^ 2).
  Let q := vnorm v - vy tw.
  Lemma p_big : 1 / 10 ^ 10 <= p. Proof. exact Hp. Qed.
  Lemma p_pos : 0 < p. Proof. pose proof p_big. lra. Qed.
  Lemma W_pos : 0 < q ^ 2 + p ^ 2. Proof. pose proof p_pos. pose proof (pow2_ge_0 q). nra. Qed.
  Lemma w_ne_v : 0 < vnorm2 (vsub w v).
  Proof. rewrite (rel_norm2 v w d m _ Fr). apply W_pos. Qed.
  Lemma not_small : (if Rlt_dec (Rabs p) (1 / 10 ^ 10) then true else false) = false.
  Proof. destruct (Rlt_dec (Rabs p) (1 / 10 ^ 10)) as [L|_]; [|reflexivity]. exfalso. rewrite Rabs_pos_eq in L by (left; apply p_pos). pose proof p_big. lra. Qed.
  Lemma straight_plummer x0 GM rs : 0 < b ^ 2 + rs ^ 2 -> impulse_deltav_plummer v y b w GM rs = impulse_deltav_plummer_curvedstream v (vadd x0 (along v y)) (d * b) w x0 v GM rs.
  Proof.
    intros Hb. pose proof p_pos as Pp. pose proof W_pos as Wp.
    unfold impulse_deltav_plummer_curvedstream, plummer_core. cbv zeta.
    rewrite (norm_offset v w y b d m _ Fr Hv Pp), (m_part v w y b d m _ Fr Hv Pp x0 Wp), (dot_offset v w y b d m _ Fr Hv Pp), (rel_norm2 v w d m _ Fr).
    unfold impulse_deltav_plummer, stream_frame. cbn [f_w f_perp f_par f_mag2 f_mag]. fold m. fold tw. fold (vnorm v). change (f_perp (stream_frame v w)) with p in *. fold p. fold q.
    pose proof not_small as NS. destruct (Rlt_dec (Rabs p) (1 / 10 ^ 10)) as [L|_]; [discriminate|]. clear NS.
    assert (S : sqrt (q ^ 2 + p ^ 2) ^ 2 = q ^ 2 + p ^ 2) by (apply pow2_sqrt; lra). assert (Sp : 0 < sqrt (q ^ 2 + p ^ 2)) by (apply sqrt_lt_R0; exact Wp).
    set (s := sqrt (q ^ 2 + p ^ 2)) in *.
    assert (E : b ^ 2 + y ^ 2 + rs ^ 2 - (- (y * q) / s) ^ 2 = ((b ^ 2 + rs ^ 2) * (q ^ 2 + p ^ 2) + p ^ 2 * y ^ 2) / (q ^ 2 + p ^ 2)).
    { replace ((- (y * q) / s) ^ 2) with ((y * q) ^ 2 / s ^ 2) by (field; lra). rewrite S. field. lra. }
    rewrite E. set (Dn := (b ^ 2 + rs ^ 2) * (q ^ 2 + p ^ 2) + p ^ 2 * y ^ 2). assert (Dp : 0 < Dn).
    { unfold Dn. pose proof (pow2_ge_0 (p * y)). rewrite Rpow_mult_distr in *. assert (0 < (b ^ 2 + rs ^ 2) * (q ^ 2 + p ^ 2)) by (apply Rmult_lt_0_compat; assumption). lra. }
    rewrite <- !mulMV_scal. f_equal. unfold vscal. cbn [vx vy vz]. f_equal; field; repeat split; lra.
  Qed.
  Lemma straight_hernquist x0 GM rs : impulse_deltav_hernquist v y b w GM rs = impulse_deltav_hernquist_curvedstream v (vadd x0 (along v y)) (d * b) w x0 v GM rs.
  Proof.
    pose proof p_pos as Pp. pose proof W_pos as Wp.
    unfold impulse_deltav_hernquist_curvedstream, hernquist_core. cbv zeta.
    rewrite (norm_offset v w y b d m _ Fr Hv Pp), (m_part v w y b d m _ Fr Hv Pp x0 Wp), (dot_offset v w y b d m _ Fr Hv Pp), (rel_norm2 v w d m _ Fr).
    unfold impulse_deltav_hernquist, stream_frame. cbn [f_w f_perp f_par f_mag2 f_mag]. fold m. fold tw. fold (vnorm v). change (f_perp (stream_frame v w)) with p in *. fold p. fold q.
    pose proof not_small as NS. destruct (Rlt_dec (Rabs p) (1 / 10 ^ 10)) as [L|_]; [discriminate|]. clear NS.
    assert (S : sqrt (q ^ 2 + p ^ 2) ^ 2 = q ^ 2 + p ^ 2) by (apply pow2_sqrt; lra). assert (Sp : 0 < sqrt (q ^ 2 + p ^ 2)) by (apply sqrt_lt_R0; exact Wp).
    set (s := sqrt (q ^ 2 + p ^ 2)) in *.
    assert (E : b ^ 2 + y ^ 2 - (- (y * q) / s) ^ 2 = b ^ 2 + p ^ 2 * y ^ 2 / (q ^ 2 + p ^ 2)).
    { replace ((- (y * q) / s) ^ 2) with ((y * q) ^ 2 / s ^ 2) by (field; lra). rewrite S. field. lra. }
    rewrite E. destruct (hernquist_factor _ rs s) as [h|]; [|reflexivity]. f_equal.
    rewrite <- !mulMV_scal. f_equal. unfold vscal. cbn [vx vy vz]. f_equal; field; repeat split; lra.
  Qed.
End Formulas.

(** A kick turns with the frame. *)
Lemma kick_turn (F : RR -> RR) B V k m : orthogonal m -> is_kick (central F) (line B V) k -> is_kick (central F) (line (mulMV m B) (mulMV m V)) (mulMV m k).
Proof.
  intros O (K1 & K2 & K3).
  assert (E : forall t, central F (line (mulMV m B) (mulMV m V) t) = mulMV m (central F (line B V t))).
  { intros t. replace (line (mulMV m B) (mulMV m V) t) with (mulMV m (line B V t)) by (unfold line; clear; vring).
    unfold central. rewrite mulMV_scal. unfold vnorm, vnorm2. rewrite ortho_dot by exact O. reflexivity. }
  assert (G : forall r : V3, all_time (fun t => vdot r (central F (line B V t))) (vdot r k)).
  { intros r. pose proof (all_time_lin _ _ 1 (vz r) _ _ (all_time_lin _ _ (vx r) (vy r) _ _ K1 K2) K3) as Q.
    replace (1 * (vx r * vx k + vy r * vy k) + vz r * vz k) with (vdot r k) in Q by (unfold vdot; ring).
    eapply all_time_ext; [|exact Q]. intros t. cbv beta. unfold vdot. ring. }
  split; [|split]; (eapply all_time_ext; [intros t; cbv beta; rewrite E; reflexivity|]); apply G.
Qed.
Lemma straight_general v w y b d x0 (F : RR -> RR) k : framed v d (rotation_vy false v) (rotation_vy true v) -> 0 < vnorm v -> 0 < f_perp (stream_frame v w) ->
  (forall r, 0 < r -> continuous F r) -> (forall t, line (offset (vadd x0 (along v y)) (d * b) w x0 v) (vopp (vsub w v)) t <> vzero) ->
  is_kick (central F) (line (offset (vadd x0 (along v y)) (d * b) w x0 v) (vopp (vsub w v))) k -> impulse_deltav_general v y b w F = Some k.
Proof.
  intros Fr Hv Hp CF N K. set (m := rotation_vy false v) in *. set (tw := mulMV m w). set (B := offset (vadd x0 (along v y)) (d * b) w x0 v) in *.
  assert (O := fr_ortho _ _ _ _ Fr).
  unfold impulse_deltav_general. fold m. fold tw. cbv zeta. cbn [vx vy vz]. fold (vnorm v). set (p := sqrt (vx tw ^ 2 + vz tw ^ 2)). assert (Pp : 0 < p) by exact Hp.
  destruct (Req_EM_T p 0) as [Z|_]; [lra|]. f_equal. rewrite <- (framed_back v d m _ k Fr). f_equal.
  assert (EW : mulMV m (vsub w v) = mkV (vx tw) (vy tw - vnorm v) (vz tw)).
  { rewrite (m_rel v w d m _ Fr). fold tw. f_equal. ring. }
  assert (EB : vadd (vscal b (mkV (- vz tw / p) 0 (vx tw / p))) (vscal y (mkV 0 1 0)) = mulMV m B).
  { unfold B. rewrite (m_offset v w y b d m _ Fr Hv Pp x0). fold tw. fold p. unfold vadd, vscal. cbn [vx vy vz]. f_equal; field; lra. }
  apply integrate_kick; [exact CF| |].
  - intros t E. rewrite EB, <- EW in E. apply (N (- t)). assert (Q : mulMV m (line B (vopp (vsub w v)) (- t)) = vzero). { rewrite <- E. unfold line. generalize (vsub w v). intros. clear. vring. }
    rewrite <- (framed_back v d m _ (line B (vopp (vsub w v)) (- t)) Fr), Q. clear. vring.
  - rewrite EB, <- EW. pose proof (kick_rev _ _ _ _ K) as K'. replace (vopp (vopp (vsub w v))) with (vsub w v) in K' by (clear; vring). apply kick_turn; assumption.
Qed.
