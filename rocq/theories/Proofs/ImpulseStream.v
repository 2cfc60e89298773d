(** The kicks of a perturbing stream are integrals of the kicks of its parts. *)
From Coq Require Import Reals Lra.
From Coquelicot Require Import Coquelicot.
From Verif.Lib Require Import RealAux Vec3.
From Verif.Spec Require Import SkySpec KickSpec.
From Verif.Model Require Import RotVec Impulse.
From Verif.Proofs Require Import RotVecProofs SkyProofs KickBasics KickSpheres ImpulseProofs ImpulseStraight.
Open Scope R_scope.
Notation RR := RbaseSymbolsImpl.R (only parsing).
Ltac rr := match goal with |- ?a = ?b => change (@eq RR a b) end.

Lemma rational_cont (G : RR -> RR) a0 a1 k c y v t : continuous G t -> 0 < c -> continuous (fun t => G t * (a0 + a1 * (y - v * t)) / (c + k ^ 2 * (y - v * t) ^ 2)) t.
Proof.
  intros CG Hc. apply (continuous_ext (fun t => G t * ((a0 + a1 * (y - v * t)) / (c + k ^ 2 * (y - v * t) ^ 2)))). { intros x. unfold Rdiv. rr. ring. }
  apply (continuous_mult (K := R_AbsRing) G (fun t => (a0 + a1 * (y - v * t)) / (c + k ^ 2 * (y - v * t) ^ 2)) t CG).
  apply (ex_derive_continuous (fun t => (a0 + a1 * (y - v * t)) / (c + k ^ 2 * (y - v * t) ^ 2))). auto_derive. pose proof (pow2_ge_0 (k * (y - v * t))) as Q. simpl in *. apply Rgt_not_eq. nra.
Qed.
Lemma rational_int (G g : RR -> RR) a0 a1 k c y v lo hi : (forall t, continuous G t) -> 0 < c -> (forall t, g t = G t * (a0 + a1 * (y - v * t)) / (c + k ^ 2 * (y - v * t) ^ 2)) -> is_RInt g lo hi (RInt g lo hi).
Proof.
  intros CG Hc E. apply (RInt_correct (V := R_CompleteNormedModule)). apply (ex_RInt_continuous (V := R_CompleteNormedModule)). intros t _.
  apply (continuous_ext (fun t => G t * (a0 + a1 * (y - v * t)) / (c + k ^ 2 * (y - v * t) ^ 2))); [intros x; symmetry; apply E|]. apply rational_cont; [apply CG|exact Hc].
Qed.
Lemma combine (f1 f2 f3 g : RR -> RR) lo hi k1 k2 k3 : is_RInt f1 lo hi (RInt f1 lo hi) -> is_RInt f2 lo hi (RInt f2 lo hi) -> is_RInt f3 lo hi (RInt f3 lo hi) ->
  (forall t, k1 * f1 t + k2 * f2 t + k3 * f3 t = g t) -> is_RInt g lo hi (k1 * RInt f1 lo hi + k2 * RInt f2 lo hi + k3 * RInt f3 lo hi).
Proof.
  intros A B C E. eapply (is_RInt_ext (V := R_NormedModule)); [intros t _; exact (E t)|].
  exact (is_RInt_plus (V := R_NormedModule) _ _ _ _ _ _ (is_RInt_plus (V := R_NormedModule) _ _ _ _ _ _ (is_RInt_scal (V := R_NormedModule) _ _ _ k1 _ A) (is_RInt_scal (V := R_NormedModule) _ _ _ k2 _ B)) (is_RInt_scal (V := R_NormedModule) _ _ _ k3 _ C)).
Qed.
Lemma stream_kick v y b w (G : RR -> RR) rs lo hi : 1 / 10 ^ 10 <= f_perp (stream_frame v w) -> 0 < b ^ 2 + rs ^ 2 -> (forall t, continuous G t) ->
  let k := plummerstream_kick v y b w G rs lo hi in let part t := vscal (G t) (impulse_deltav_plummer v (y - vnorm v * t) b w 1 rs) in
  is_RInt (fun t => vx (part t)) lo hi (vx k) /\ is_RInt (fun t => vy (part t)) lo hi (vy k) /\ is_RInt (fun t => vz (part t)) lo hi (vz k).
Proof.
  intros Hp Hb CG k part. set (f := stream_frame v w) in *. set (n := vnorm v).
  assert (Pp : 0 < f_perp f) by lra. assert (M2 : 0 < f_mag2 f). { change (f_mag2 f) with (f_par f ^ 2 + f_perp f ^ 2). pose proof (pow2_ge_0 (f_par f)). nra. }
  assert (Mp : 0 < f_mag f) by (apply sqrt_lt_R0; exact M2).
  set (c := (b ^ 2 + rs ^ 2) * f_mag2 f). assert (Cp : 0 < c) by (apply Rmult_lt_0_compat; assumption).
  set (I := astream_integrand f G y n b rs).
  assert (I1 : is_RInt (fun t => vx (I t)) lo hi (RInt (fun t => vx (I t)) lo hi)).
  { apply (rational_int G _ (b * f_mag2 f * vz (f_w f) / f_perp f) (- (f_par f * vx (f_w f))) (f_perp f) c y n); [exact CG|exact Cp|]. intros t. unfold I, astream_integrand. cbv zeta. cbn [vx]. fold c. f_equal. ring. }
  assert (I2 : is_RInt (fun t => vy (I t)) lo hi (RInt (fun t => vy (I t)) lo hi)).
  { apply (rational_int G _ 0 1 (f_perp f) c y n); [exact CG|exact Cp|]. intros t. unfold I, astream_integrand. cbv zeta. cbn [vy]. fold c. f_equal. ring. }
  assert (I3 : is_RInt (fun t => vz (I t)) lo hi (RInt (fun t => vz (I t)) lo hi)).
  { apply (rational_int G _ (- (b * f_mag2 f * vx (f_w f) / f_perp f)) (- (f_par f * vz (f_w f))) (f_perp f) c y n); [exact CG|exact Cp|]. intros t. unfold I, astream_integrand. cbv zeta. cbn [vz]. fold c. f_equal. ring. }
  set (mi := rotation_vy true v).
  assert (Row : forall r : V3, let o t := mkV (1 / f_mag f * vx (I t)) (- (f_perp f ^ 2) / f_mag f * vy (I t)) (1 / f_mag f * vz (I t)) in
    is_RInt (fun t => 2 * vdot r (o t)) lo hi (2 * vdot r (mkV (1 / f_mag f * RInt (fun t => vx (I t)) lo hi) (- (f_perp f ^ 2) / f_mag f * RInt (fun t => vy (I t)) lo hi) (1 / f_mag f * RInt (fun t => vz (I t)) lo hi)))).
  { intros r o. unfold vdot. cbn [vx vy vz].
    replace (2 * (vx r * (1 / f_mag f * RInt (fun t => vx (I t)) lo hi) + vy r * (- f_perp f ^ 2 / f_mag f * RInt (fun t => vy (I t)) lo hi) + vz r * (1 / f_mag f * RInt (fun t => vz (I t)) lo hi)))
      with ((2 * vx r / f_mag f) * RInt (fun t => vx (I t)) lo hi + (2 * vy r * - f_perp f ^ 2 / f_mag f) * RInt (fun t => vy (I t)) lo hi + (2 * vz r / f_mag f) * RInt (fun t => vz (I t)) lo hi) by (rr; unfold Rdiv; ring).
    apply combine; [exact I1|exact I2|exact I3|]. intros t. cbv beta. unfold o. cbn [vx vy vz]. rr. unfold Rdiv. ring. }
  assert (Pt : forall t, part t = vscal 2 (mulMV mi (mkV (1 / f_mag f * vx (I t)) (- (f_perp f ^ 2) / f_mag f * vy (I t)) (1 / f_mag f * vz (I t))))).
  { intros t. unfold part, impulse_deltav_plummer. cbv zeta. fold f. destruct (Rlt_dec (Rabs (f_perp f)) (1 / 10 ^ 10)) as [L|_]; [exfalso; rewrite Rabs_pos_eq in L by lra; lra|]. fold mi.
    fold n. unfold I, astream_integrand. cbv zeta. cbn [vx vy vz]. fold c. set (Dn := c + f_perp f ^ 2 * (y - n * t) ^ 2).
    assert (Dp : 0 < Dn). { unfold Dn. pose proof (pow2_ge_0 (f_perp f * (y - n * t))) as Q. rewrite Rpow_mult_distr in Q. lra. }
    rewrite <- !mulMV_scal. f_equal. unfold vscal. cbn [vx vy vz]. f_equal; field; repeat split; lra. }
  assert (Ek : k = vscal 2 (mulMV mi (mkV (1 / f_mag f * RInt (fun t => vx (I t)) lo hi) (- (f_perp f ^ 2) / f_mag f * RInt (fun t => vy (I t)) lo hi) (1 / f_mag f * RInt (fun t => vz (I t)) lo hi)))) by reflexivity.
  rewrite Ek. split; [|split]; (eapply (is_RInt_ext (V := R_NormedModule)); [intros t _; rewrite Pt; reflexivity|]).
  - exact (Row (r0 mi)).
  - exact (Row (r1 mi)).
  - exact (Row (r2 mi)).
Qed.
(** The time of the orbit that is asked for. *)
Lemma asked_time lo tmin tx t : lo + tmin <= 0 -> curved_start lo tmin + (tx - (lo + tmin) - t) = tx - t.
Proof. intros H. unfold curved_start. rewrite Rabs_left1 by exact H. ring. Qed.
Lemma curved_part (pos vel : RR -> V3) b w x0 v0 (G : RR -> RR) rs lo tmin tx t : lo + tmin <= 0 ->
  astream_curved (vsub (vscal (b / sqrt (vnorm2 (vcross w v0))) (vcross w v0)) x0) (fun s => pos (curved_start lo tmin + s)) (fun s => vel (curved_start lo tmin + s)) tx w G rs (lo + tmin) t =
  vscal (G t) (impulse_deltav_plummer_curvedstream (vel (tx - t)) (pos (tx - t)) b w x0 v0 1 rs).
Proof.
  intros H. unfold astream_curved. cbv zeta. rewrite asked_time by exact H. unfold impulse_deltav_plummer_curvedstream, offset. cbv zeta. f_equal. f_equal.
  generalize (vscal (b / sqrt (vnorm2 (vcross w v0))) (vcross w v0)), (pos (tx - t)). intros. clear. vring.
Qed.
