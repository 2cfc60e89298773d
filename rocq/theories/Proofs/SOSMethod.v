(** The SOS method: the points it returns are on the surface and, for forces that do not depend on time, on one orbit. *)
From Coq Require Import Reals List ZArith Lia Lra Psatz.
From Coquelicot Require Import Coquelicot.
From Verif.Lib Require Import RealAux Atan2.
From Verif.Model Require Import PotAPI RectForce SOS.
From Verif.Spec Require Import SOSSpec.
From Verif.Proofs Require Import RectProofs DehnenProofs SOSProofs.
Import ListNotations.
Open Scope R_scope.
Notation RR := RbaseSymbolsImpl.R (only parsing).
#[local] Arguments pow : simpl never.

(** ** Conversions *)
Lemma rot_back c s a b : c * c + s * s = 1 -> (a * c + b * s) * c - (b * c - a * s) * s = a /\ (a * c + b * s) * s + (b * c - a * s) * c = b.
Proof.
  intros H. split.
  - replace ((a * c + b * s) * c - (b * c - a * s) * s) with (a * (c * c + s * s)) by ring. rewrite H. ring.
  - replace ((a * c + b * s) * s + (b * c - a * s) * c) with (b * (c * c + s * s)) by ring. rewrite H. ring.
Qed.
Lemma cs1 a : cos a * cos a + sin a * sin a = 1.
Proof. pose proof (sin2_cos2 a) as P. unfold Rsqr in P. lra. Qed.
Lemma init_point w t0 : point (py_init w t0) (py_init_psi w) = cart_of w.
Proof.
  unfold point, py_init, py_init_psi, cart_of. cbn [s_x s_vx s_y s_vy s_A s_t].
  replace (y_z w ^ 2 + y_vz w ^ 2) with (y_vz w ^ 2 + y_z w ^ 2) by ring. rewrite atan2_sin, atan2_cos. f_equal. ring.
Qed.
Lemma out_point s psi : cart_of (py_out s psi) = point s psi.
Proof.
  unfold cart_of, py_out, point. cbn [y_R y_vR y_vT y_z y_vz y_phi]. rewrite atan2_cos, atan2_sin.
  destruct (rot_back (cos (atan2 (s_y s) (s_x s))) (sin (atan2 (s_y s) (s_x s))) (s_vx s) (s_vy s) (cs1 _)) as [E1 E2].
  rewrite E1, E2. reflexivity.
Qed.
Lemma out_init w t0 : 0 < y_R w -> - PI < y_phi w <= PI -> py_out (py_init w t0) (py_init_psi w) = w.
Proof.
  intros HR Hp. destruct w as [R vR vT z vz phi]. unfold py_out, py_init, py_init_psi in *.
  cbn [s_x s_vx s_y s_vy s_A s_t y_R y_vR y_vT y_z y_vz y_phi] in *. rewrite atan2_polar by assumption. rewrite polar_norm, Rabs_pos_eq by lra.
  replace (z ^ 2 + vz ^ 2) with (vz ^ 2 + z ^ 2) by ring. rewrite atan2_sin, atan2_cos.
  pose proof (cs1 phi) as P. f_equal.
  - replace ((vR * cos phi - vT * sin phi) * cos phi + (vT * cos phi + vR * sin phi) * sin phi) with (vR * (cos phi * cos phi + sin phi * sin phi)) by ring. rewrite P. ring.
  - replace ((vT * cos phi + vR * sin phi) * cos phi - (vR * cos phi - vT * sin phi) * sin phi) with (vT * (cos phi * cos phi + sin phi * sin phi)) by ring. rewrite P. ring.
Qed.
Lemma c_conversions (w : cyl) (t : R) (q : csos) : py_of (cyl_to_sos w t) = py_init w t /\ c_psi (cyl_to_sos w t) = py_init_psi w /\
  sos_to_cyl q = (py_out (py_of q) (c_psi q), c_t q).
Proof.
  split; [|split].
  - unfold py_of, cyl_to_sos, py_init. cbn [c_x c_y c_vx c_vy c_A c_t c_psi]. f_equal; [ring|f_equal; ring].
  - reflexivity.
  - unfold sos_to_cyl, py_out, py_of. cbn [s_x s_vx s_y s_vy s_A s_t]. f_equal. f_equal; [f_equal; ring|ring].
Qed.
Lemma pinit_point (b : bool) w t0 : (if b then pointy else pointx) (pinit b w t0) (pinit_psi b w) = cart2_of w.
Proof.
  destruct b; unfold pointy, pointx, pinit, pinit_psi, cart2_of; cbn [p_u p_vu p_A p_t].
  - replace (pol_y w ^ 2 + pol_vy w ^ 2) with (pol_vy w ^ 2 + pol_y w ^ 2) by ring. rewrite atan2_sin, atan2_cos. unfold pol_x, pol_y, pol_vx, pol_vy. f_equal; ring.
  - replace (pol_x w ^ 2 + pol_vx w ^ 2) with (pol_vx w ^ 2 + pol_x w ^ 2) by ring. rewrite atan2_sin, atan2_cos. unfold pol_x, pol_y, pol_vx, pol_vy. f_equal; ring.
Qed.
Lemma pout_point (b : bool) s psi : cart2_of (pout b s psi) = (if b then pointy else pointx) s psi.
Proof.
  destruct b; unfold cart2_of, pout, pointy, pointx; cbn [o_R o_vR o_vT o_phi]; rewrite atan2_cos, atan2_sin;
    (match goal with |- context [atan2 ?y ?x] => match goal with |- context [?a * cos (atan2 y x) + ?b * sin (atan2 y x)] =>
       destruct (rot_back (cos (atan2 y x)) (sin (atan2 y x)) a b (cs1 _)) as [E1 E2]; rewrite E1, E2 end end); reflexivity.
Qed.
Lemma sin_turn x : sin (x + 2 * PI) = sin x.
Proof. replace (x + 2 * PI) with (x + 2 * INR 1 * PI) by (cbn; ring). apply sin_period. Qed.
Lemma cos_turn x : cos (x + 2 * PI) = cos x.
Proof. replace (x + 2 * PI) with (x + 2 * INR 1 * PI) by (cbn; ring). apply cos_period. Qed.
Lemma sin_turns x k : sin (x + 2 * PI * IZR k) = sin x.
Proof. apply (step_all sin sin_turn). Qed.
Lemma cos_turns x k : cos (x + 2 * PI * IZR k) = cos x.
Proof. apply (step_all cos cos_turn). Qed.
Lemma crossing A psi : 0 < A -> (A * sin psi = 0 /\ 0 < A * cos psi) <-> exists k : Z, psi = 2 * PI * IZR k.
Proof.
  intros HA. split.
  - intros [S C]. assert (S0 : sin psi = sin 0) by (rewrite sin_0; nra). assert (C0 : cos psi = cos 0).
    { rewrite cos_0. pose proof (cs1 psi). rewrite sin_0 in S0. rewrite S0 in *. assert (0 < cos psi) by nra. nra. }
    destruct (same_angle psi 0 C0 S0) as [k K]. exists k. lra.
  - intros [k ->]. rewrite <- (Rplus_0_l (2 * PI * IZR k)), sin_turns, cos_turns, sin_0, cos_0. split; lra.
Qed.

(** ** Lists of angles *)
Lemma stride_skip {A} k (l1 l2 : list A) : stride_aux k (length l1) (l1 ++ l2) = stride_aux k 0 l2.
Proof. induction l1 as [|x l1 IH]; [reflexivity|]. cbn. exact IH. Qed.
Lemma stride_map {A B} (f : A -> B) k l m : stride_aux k m (map f l) = map f (stride_aux k m l).
Proof. revert m. induction l as [|x l IH]; intros m; [reflexivity|]. destruct m; cbn; rewrite IH; reflexivity. Qed.
Lemma stride_seq k : (1 <= k)%nat -> forall n a, stride_aux k 0 (seq a (n * k)) = map (fun j => a + j * k)%nat (seq 0 n).
Proof.
  intros Hk. induction n as [|n IH]; intros a; [reflexivity|].
  replace (Datatypes.S n * k)%nat with (Datatypes.S ((k - 1) + n * k)) by (cbn; lia).
  cbn [seq stride_aux]. rewrite seq_app. pose proof (stride_skip k (seq (Datatypes.S a) (k - 1)) (seq (Datatypes.S a + (k - 1)) (n * k))) as E. rewrite seq_length in E. rewrite E, IH.
  cbn [map]. f_equal; [lia|]. rewrite <- seq_shift, map_map. apply map_ext. intros j. lia.
Qed.
Lemma stride_angles {B} (f : R -> B) n k : (1 <= k)%nat -> stride k (map f (sos_angles n k)) = map (fun j => f (2 * PI * INR j)) (seq 0 n).
Proof.
  intros Hk. unfold stride, sos_angles. rewrite !stride_map, stride_seq by exact Hk. rewrite !map_map. apply map_ext. intros j. f_equal.
  rewrite Nat.add_0_l. rewrite mult_INR. field. apply not_0_INR. lia.
Qed.
Lemma last_map {A B} (f : A -> B) l d : last (map f l) (f d) = f (last l d).
Proof. induction l as [|x l IH]; [reflexivity|]. destruct l; [reflexivity|]. exact IH. Qed.
Lemma last_map_ne {A B} (f : A -> B) l d e : l <> [] -> last (map f l) e = f (last l d).
Proof. induction l as [|x l IH]; [tauto|]. intros _. destruct l; [reflexivity|]. apply IH. discriminate. Qed.
Lemma last_seq n a : last (seq a (Datatypes.S n)) 0%nat = (a + n)%nat.
Proof. rewrite seq_S, last_last. reflexivity. Qed.
Lemma last_linspace b n : (2 <= n)%nat -> last (linspace0 b n) 0 = b.
Proof.
  intros Hn. unfold linspace0. rewrite (last_map_ne _ _ 0%nat) by (destruct n; [lia|discriminate]).
  replace n with (Datatypes.S (n - 1)) at 1 by lia. rewrite last_seq, Nat.add_0_l.
  assert (0 < INR (n - 1)) by (apply lt_0_INR; lia). field. lra.
Qed.
Lemma last_angles n k : (1 <= k)%nat -> (1 <= n)%nat -> last (sos_angles n k) 0 = INR (n * k - 1) * 2 * PI / INR k.
Proof.
  intros Hk Hn. unfold sos_angles. rewrite (last_map_ne _ _ 0%nat).
  - replace (n * k)%nat with (Datatypes.S (n * k - 1)) at 1 by nia. rewrite last_seq. reflexivity.
  - destruct (n * k)%nat eqn:E; [nia|discriminate].
Qed.
Lemma angle_in n k j : (1 <= k)%nat -> (j < n)%nat -> 0 <= 2 * PI * INR j <= last (sos_angles n k) 0.
Proof.
  intros Hk Hj. rewrite last_angles by lia. pose proof PI_RGT_0 as P. pose proof (pos_INR j).
  split; [nra|]. assert (K : 0 < INR k) by (apply lt_0_INR; lia).
  apply (Rmult_le_reg_r (INR k)); [exact K|]. replace (INR (n * k - 1) * 2 * PI / INR k * INR k) with (2 * PI * INR (n * k - 1)) by (field; lra).
  replace (2 * PI * INR j * INR k) with (2 * PI * INR (j * k)) by (rewrite mult_INR; ring).
  apply Rmult_le_compat_l; [lra|]. apply le_INR. nia.
Qed.
Lemma angles_nonneg n k : (1 <= k)%nat -> 0 <= last (sos_angles n k) 0.
Proof.
  intros Hk. destruct n; [cbn; lra|]. pose proof (angle_in (Datatypes.S n) k 0 Hk ltac:(lia)) as H. cbn [INR] in H. lra.
Qed.

(** ** The amplitude stays positive *)
Lemma stays_positive (f : R -> R) a b : a <= b -> (forall p, a <= p <= b -> ex_derive f p /\ f p <> 0) -> 0 < f a -> 0 < f b.
Proof.
  intros L H P. destruct (Rlt_dec 0 (f b)) as [|N]; [assumption|]. exfalso.
  assert (Hb : f b < 0) by (destruct (H b ltac:(lra)) as [_ Z]; lra). assert (Lt : a < b) by (destruct L as [|E]; [assumption|subst; lra]).
  destruct (Ranalysis5.IVT_interv (fun p => - f p) a b) as (z & Hz & E).
  - intros p Hp. apply continuity_pt_filterlim. apply (continuous_opp f). apply ex_derive_continuous, H, Hp.
  - exact Lt.
  - lra.
  - lra.
  - apply (proj2 (H z Hz)). lra.
Qed.
Lemma exact_positive l t0 w len Y p : exact_from l t0 w len Y -> py_init_psi w <= p <= py_init_psi w + len -> 0 < s_A (Y p).
Proof.
  intros [E H] Hp. apply (stays_positive (fun u => s_A (Y u)) (py_init_psi w) p); [lra| |].
  - intros u Hu. destruct (H u ltac:(lra)) as [(_ & _ & _ & _ & D & _) [N _]]. split; [eexists; exact D|exact N].
  - cbn beta. destruct (H (py_init_psi w) ltac:(lra)) as [_ [N _]]. rewrite E in *. cbn in *. pose proof (sqrt_pos (y_z w ^ 2 + y_vz w ^ 2)). lra.
Qed.

(** ** The first leg *)
Lemma leg_end w : exists k : Z, py_init_psi w + first_leg w = 2 * PI * IZR k.
Proof.
  unfold first_leg, wrap_psi. destruct (Rlt_dec (py_init_psi w) 0); [exists 0%Z|exists 1%Z]; cbn; lra.
Qed.
Lemma leg_pos w : 0 < first_leg w <= 2 * PI.
Proof.
  unfold first_leg, wrap_psi. pose proof (atan2_range (y_vz w) (y_z w)) as Hr. fold (py_init_psi w) in Hr.
  pose proof PI_RGT_0. destruct (Rlt_dec (py_init_psi w) 0); lra.
Qed.
Lemma atan2_0 A : 0 < A -> atan2 0 A = 0.
Proof. intros H. pose proof (atan2_polar A 0 H) as E. rewrite sin_0, cos_0, Rmult_0_r, Rmult_1_r in E. apply E. pose proof PI_RGT_0. lra. Qed.
Definition with_time (s : sos) (t : R) : sos := mkSos (s_x s) (s_vx s) (s_y s) (s_vy s) (s_A s) t.
Lemma init_out s psi t0 : 0 < s_A s -> py_init (py_out s psi) t0 = with_time s t0.
Proof.
  intros HA. pose proof (out_point s psi) as E. unfold cart_of, point in E. injection E as E1 E2 E4 E5.
  unfold py_init, with_time, py_out. cbn [y_R y_vR y_vT y_z y_vz y_phi]. rewrite E1, E2, E4. match goal with |- mkSos _ _ _ ?a _ _ = _ => replace a with (s_vy s) by (symmetry; etransitivity; [|exact E5]; ring) end.
  replace ((s_A s * sin psi) ^ 2 + (s_A s * cos psi) ^ 2) with (s_A s ^ 2 * (cos psi * cos psi + sin psi * sin psi)) by ring.
  rewrite cs1, Rmult_1_r, <- Rsqr_pow2, sqrt_Rsqr by lra. reflexivity.
Qed.
Lemma start_state l integrate t0 w : needs_leg w -> exact_solver l integrate t0 w (linspace0 (first_leg w) 101) ->
  exists Y, exact_from l t0 w (first_leg w) Y /\ sos_start integrate t0 w = py_out (Y (py_init_psi w + first_leg w)) (py_init_psi w + first_leg w).
Proof.
  intros Hl (Y & HY & E). rewrite last_linspace in HY by lia. exists Y. split; [exact HY|].
  unfold sos_start. fold (first_leg w). destruct (Rlt_dec _ _) as [_|N]; [|destruct (N Hl)].
  rewrite E. unfold rows. rewrite (last_map_ne _ _ 0) by (unfold linspace0; discriminate). rewrite last_linspace by lia. cbn [fst].
  rewrite (Rplus_comm (first_leg w)). reflexivity.
Qed.
Lemma start_on_surface l integrate t0 w : needs_leg w -> exact_solver l integrate t0 w (linspace0 (first_leg w) 101) ->
  y_z (sos_start integrate t0 w) = 0 /\ 0 < y_vz (sos_start integrate t0 w) /\ py_init_psi (sos_start integrate t0 w) = 0.
Proof.
  intros Hl HE. destruct (start_state l integrate t0 w Hl HE) as (Y & HY & ->). set (p := py_init_psi w + first_leg w).
  assert (HA : 0 < s_A (Y p)) by (apply (exact_positive l t0 w (first_leg w)); [exact HY|unfold p; pose proof (leg_pos w); lra]).
  destruct (leg_end w) as [k K]. fold p in K.
  destruct (proj2 (crossing (s_A (Y p)) p HA) (ex_intro _ k K)) as [Z0 V0].
  unfold py_init_psi, py_out. cbn [y_z y_vz]. rewrite Z0. split; [reflexivity|]. split; [exact V0|]. apply atan2_0, V0.
Qed.
Lemma start_same integrate t0 w : ~ needs_leg w -> sos_start integrate t0 w = w.
Proof. intros H. unfold sos_start. destruct (Rlt_dec _ _) as [L|_]; [destruct (H L)|reflexivity]. Qed.

(** ** Rows of the method *)
Lemma method_rows l integrate t0 w n k : (1 <= k)%nat -> exact_solver l integrate t0 (sos_start integrate t0 w) (sos_angles n k) ->
  exists Y, exact_from l t0 (sos_start integrate t0 w) (last (sos_angles n k) 0) Y /\
    sos_method integrate t0 w n k = rows (sos_start integrate t0 w) Y (map (fun j => 2 * PI * INR j) (seq 0 n)).
Proof.
  intros Hk (Y & HY & E). exists Y. split; [exact HY|]. unfold sos_method. rewrite E. unfold rows.
  rewrite (stride_angles _ n k Hk), map_map. reflexivity.
Qed.
Lemma sin_small x : Rabs (sin x) <= Rabs x.
Proof.
  assert (P : forall u, 0 <= u -> sin u <= u /\ - u <= sin u).
  { intros u Hu. destruct (Rle_lt_or_eq_dec 0 u Hu) as [L|<-]; [|rewrite sin_0; lra].
    split; [pose proof (sin_lt_x u L); lra|]. destruct (Rle_dec u PI).
    - pose proof (sin_ge_0 u Hu r). lra.
    - pose proof (SIN_bound u). pose proof PI2_3_2. lra. }
  destruct (Rle_dec 0 x) as [H|H].
  - rewrite (Rabs_pos_eq x H). destruct (P x H). apply Rabs_le. lra.
  - rewrite (Rabs_left x) by lra. destruct (P (- x)) as [P1 P2]; [lra|]. rewrite sin_neg in P1, P2. apply Rabs_le. lra.
Qed.
Lemma amp_norm s psi : 0 < s_A s -> sqrt (y_z (py_out s psi) ^ 2 + y_vz (py_out s psi) ^ 2) = s_A s.
Proof.
  intros H. cbn [py_out y_z y_vz]. replace ((s_A s * sin psi) ^ 2 + (s_A s * cos psi) ^ 2) with (s_A s ^ 2 * (cos psi * cos psi + sin psi * sin psi)) by ring.
  rewrite cs1, Rmult_1_r, <- Rsqr_pow2, sqrt_Rsqr by lra. reflexivity.
Qed.
Lemma method_on_surface l integrate t0 w n k : (1 <= k)%nat ->
  (needs_leg w -> exact_solver l integrate t0 w (linspace0 (first_leg w) 101)) ->
  exact_solver l integrate t0 (sos_start integrate t0 w) (sos_angles n k) ->
  length (sos_method integrate t0 w n k) = n /\ List.Forall on_surface (sos_method integrate t0 w n k) /\
  (needs_leg w -> List.Forall (fun r => y_z (fst r) = 0) (sos_method integrate t0 w n k)).
Proof.
  intros Hk H1 H2. destruct (method_rows l integrate t0 w n k Hk H2) as (Y & HY & ->). unfold rows. rewrite !map_length, seq_length.
  split; [reflexivity|].
  assert (Ps : Rabs (py_init_psi (sos_start integrate t0 w)) <= 1 / 10 ^ 10).
  { destruct (Rlt_dec (1 / 10 ^ 10) (Rabs (py_init_psi w))) as [L|N].
    - destruct (start_on_surface l integrate t0 w L (H1 L)) as (_ & _ & ->). rewrite Rabs_R0. lra.
    - rewrite start_same by exact N. lra. }
  assert (In_ : forall j, (j < n)%nat -> let p := 2 * PI * INR j + py_init_psi (sos_start integrate t0 w) in
      0 < s_A (Y p) /\ sin p = sin (py_init_psi (sos_start integrate t0 w)) /\ cos p = cos (py_init_psi (sos_start integrate t0 w))).
  { intros j Hj p. split; [|split].
    - apply (exact_positive _ _ _ _ _ _ HY). pose proof (angle_in n k j Hk Hj). unfold p. lra.
    - unfold p. rewrite Rplus_comm, INR_IZR_INZ. apply sin_turns.
    - unfold p. rewrite Rplus_comm, INR_IZR_INZ. apply cos_turns. }
  split.
  - apply Forall_forall. intros r Hr. rewrite map_map in Hr. apply in_map_iff in Hr. destruct Hr as (j & <- & Hj). apply in_seq in Hj.
    destruct (In_ j ltac:(lia)) as (HA & S & C). cbv zeta in HA, S, C. set (p := 2 * PI * INR j + _) in *. split; cbn [fst].
    + cbn [py_out y_vz]. rewrite C. apply Rmult_lt_0_compat; [exact HA|]. apply cos_gt_0.
      * assert (Rabs (py_init_psi (sos_start integrate t0 w)) < 1) by (eapply Rle_lt_trans; [exact Ps|lra]). apply Rabs_def2 in H. pose proof PI2_3_2. lra.
      * assert (Rabs (py_init_psi (sos_start integrate t0 w)) < 1) by (eapply Rle_lt_trans; [exact Ps|lra]). apply Rabs_def2 in H. pose proof PI2_3_2. lra.
    + rewrite amp_norm by exact HA. cbn [py_out y_z]. rewrite Rabs_mult, (Rabs_pos_eq (s_A _)) by lra. rewrite Rmult_comm.
      apply Rmult_le_compat_r; [lra|]. rewrite S. eapply Rle_trans; [apply sin_small|exact Ps].
  - intros Hl. destruct (start_on_surface l integrate t0 w Hl (H1 Hl)) as (_ & _ & E0).
    apply Forall_forall. intros r Hr. rewrite map_map in Hr. apply in_map_iff in Hr. destruct Hr as (j & <- & Hj). apply in_seq in Hj.
    destruct (In_ j ltac:(lia)) as (HA & S & C). cbv zeta in S. cbn [fst py_out y_z]. rewrite S, E0, sin_0. ring.
Qed.

(** ** One orbit, for steady forces *)
Lemma steady_force s l vR vT vz R z phi t t' : List.Forall steady l -> py_force s l vR vT vz R z phi t = py_force s l vR vT vz R z phi t'.
Proof.
  intros H. rewrite !py_force_sum. apply add_up_ext. revert H. apply Forall_impl. intros c Hc. destruct c as [fR fz fp|fR fz fp]; cbn in Hc.
  - destruct (Hc R z phi t t') as (H1 & H2 & H3). destruct s; assumption.
  - destruct (Hc vR vT vz R z phi t t') as (H1 & H2 & H3). destruct s; assumption.
Qed.
Lemma steady_rect l x y z t t' vx vy vz : List.Forall steady l -> py_rect_force l x y z t vx vy vz = py_rect_force l x y z t' vx vy vz.
Proof. intros H. unfold py_rect_force. rewrite !(fun s a b c R z phi => steady_force s l a b c R z phi t t' H). reflexivity. Qed.
Lemma eom_shift l s p k t' : List.Forall steady l -> py_sos_eom l (with_time s t') (p + 2 * PI * IZR k) = py_sos_eom l s p.
Proof.
  intros H. unfold py_sos_eom, with_time. cbn [s_x s_vx s_y s_vy s_A s_t]. rewrite sin_turns, cos_turns, (steady_rect l _ _ _ t' (s_t s)) by exact H. reflexivity.
Qed.
Definition shifted (Y : R -> sos) (c d : R) : R -> sos := fun u => with_time (Y (u - c)) (s_t (Y (u - c)) + d).
Lemma shift_derive (f : R -> R) c p v : is_derive f (p - c) v -> is_derive (fun u => f (u - c)) p v.
Proof.
  intros D. eapply is_derive_eq; [apply (is_derive_Rchain f (fun u => u - c)); [exact D|]|].
  - instantiate (1 := 1). auto_derive; [exact I|ring].
  - rr. ring.
Qed.
Lemma shifted_solves l Y k d p : List.Forall steady l -> solves (py_sos_eom l) Y (p - 2 * PI * IZR k) -> rate_ok l Y (p - 2 * PI * IZR k) ->
  solves (py_sos_eom l) (shifted Y (2 * PI * IZR k) d) p /\ rate_ok l (shifted Y (2 * PI * IZR k) d) p.
Proof.
  intros H. set (c := 2 * PI * IZR k) in *. unfold rate_ok, solves. intros (D1 & D2 & D3 & D4 & D5 & D6) [N1 N2].
  assert (E : py_sos_eom l (shifted Y c d p) p = py_sos_eom l (Y (p - c)) (p - c)).
  { unfold shifted. replace p with ((p - c) + 2 * PI * IZR k) at 3 by (unfold c; ring). apply eom_shift, H. }
  rewrite E. split; [|split; [exact N1|exact N2]].
  unfold shifted, with_time. cbn [s_x s_vx s_y s_vy s_A s_t].
  split; [exact (shift_derive (fun u => s_x (Y u)) c p _ D1)|]. split; [exact (shift_derive (fun u => s_vx (Y u)) c p _ D2)|].
  split; [exact (shift_derive (fun u => s_y (Y u)) c p _ D3)|]. split; [exact (shift_derive (fun u => s_vy (Y u)) c p _ D4)|].
  split; [exact (shift_derive (fun u => s_A (Y u)) c p _ D5)|].
  eapply is_derive_eq; [apply is_derive_Rplus; [exact (shift_derive (fun u => s_t (Y u)) c p _ D6)|apply is_derive_cst]|]. rr. ring.
Qed.
Definition glued (Y1 Y2 : R -> sos) (c : R) : R -> sos := fun u => if Rlt_dec u c then Y1 u else Y2 u.
Lemma glued_field (g : sos -> R) Y1 Y2 c p v1 v2 : Y1 c = Y2 c ->
  (p <= c -> is_derive (fun u => g (Y1 u)) p v1) -> (c <= p -> is_derive (fun u => g (Y2 u)) p v2) ->
  (p = c -> v1 = v2) -> is_derive (fun u => g (glued Y1 Y2 c u)) p (if Rlt_dec p c then v1 else v2).
Proof.
  intros E D1 D2 Ev. unfold glued. destruct (Rlt_dec p c) as [L|L].
  - apply (is_derive_loc (fun u => g (Y1 u)) _ p v1 (fun u => u < c)); [apply locally_lt, L| |apply D1; lra].
    intros u Hu. destruct (Rlt_dec u c); [reflexivity|lra].
  - destruct (Rle_lt_or_eq_dec c p ltac:(lra)) as [L2|E2].
    + apply (is_derive_loc (fun u => g (Y2 u)) _ p v2 (fun u => c < u)); [apply locally_gt, L2| |apply D2; lra].
      intros u Hu. destruct (Rlt_dec u c); [lra|reflexivity].
    + subst c. rewrite <- (Ev eq_refl).
      apply (is_derive_ext (fun u => if Rlt_dec u p then g (Y1 u) else g (Y2 u))); [intros u; destruct (Rlt_dec u p); reflexivity|].
      apply glue_derive; [rewrite E; reflexivity|apply D1; lra|rewrite (Ev eq_refl); apply D2; lra].
Qed.
Lemma glued_solves l Y1 Y2 c p : Y1 c = Y2 c ->
  (p <= c -> solves (py_sos_eom l) Y1 p /\ rate_ok l Y1 p) -> (c <= p -> solves (py_sos_eom l) Y2 p /\ rate_ok l Y2 p) ->
  solves (py_sos_eom l) (glued Y1 Y2 c) p /\ rate_ok l (glued Y1 Y2 c) p.
Proof.
  intros E H1 H2.
  assert (Ev : p = c -> py_sos_eom l (Y1 p) p = py_sos_eom l (Y2 p) p) by (intros ->; rewrite E; reflexivity).
  assert (K : forall g : sos -> R, (p <= c -> is_derive (fun u => g (Y1 u)) p (g (py_sos_eom l (Y1 p) p))) ->
     (c <= p -> is_derive (fun u => g (Y2 u)) p (g (py_sos_eom l (Y2 p) p))) ->
     is_derive (fun u => g (glued Y1 Y2 c u)) p (g (py_sos_eom l (glued Y1 Y2 c p) p))).
  { intros g D1 D2. eapply is_derive_eq; [apply (glued_field g Y1 Y2 c p _ _ E D1 D2)|].
    - intros Ep. rewrite (Ev Ep). reflexivity.
    - unfold glued. destruct (Rlt_dec p c); reflexivity. }
  split.
  - unfold solves. split; [apply K; intros L; [apply (proj1 (H1 L))|apply (proj1 (H2 L))]|].
    split; [apply K; intros L; [apply (proj1 (H1 L))|apply (proj1 (H2 L))]|].
    split; [apply K; intros L; [apply (proj1 (H1 L))|apply (proj1 (H2 L))]|].
    split; [apply K; intros L; [apply (proj1 (H1 L))|apply (proj1 (H2 L))]|].
    split; apply K; intros L; first [apply (proj1 (H1 L))|apply (proj1 (H2 L))].
  - unfold rate_ok, glued. destruct (Rlt_dec p c) as [L|L]; [apply H1; lra|apply H2; lra].
Qed.
Lemma method_one_orbit l integrate t0 w n k : List.Forall steady l -> (1 <= k)%nat ->
  (needs_leg w -> exact_solver l integrate t0 w (linspace0 (first_leg w) 101)) ->
  exact_solver l integrate t0 (sos_start integrate t0 w) (sos_angles n k) ->
  crossings_of_one_orbit l t0 w (map fst (sos_method integrate t0 w n k)).
Proof.
  intros St Hk H1 H2. destruct (method_rows l integrate t0 w n k Hk H2) as (Y2 & HY2 & E2). rewrite E2.
  unfold crossings_of_one_orbit, rows. rewrite !map_length, seq_length, !map_map. cbn [fst]. pose proof PI_RGT_0 as HP.
  destruct (Rlt_dec (1 / 10 ^ 10) (Rabs (py_init_psi w))) as [L|N].
  - destruct (start_on_surface l integrate t0 w L (H1 L)) as (_ & _ & E0).
    destruct (start_state l integrate t0 w L (H1 L)) as (Y1 & HY1 & ES). destruct (leg_end w) as [m Hm]. pose proof (leg_pos w) as HL.
    rewrite E0 in *. set (c := py_init_psi w + first_leg w) in *. destruct HY2 as [I2 S2]. rewrite E0 in I2, S2.
    assert (HA : 0 < s_A (Y1 c)) by (apply (exact_positive l t0 w (first_leg w)); [exact HY1|unfold c; lra]).
    rewrite ES, init_out in I2 by exact HA. destruct HY1 as [I1 S1].
    set (Ys := shifted Y2 c (s_t (Y1 c) - t0)).
    assert (EJ : Y1 c = Ys c). { unfold Ys, shifted. replace (c - c) with 0 by ring. rewrite I2. unfold with_time. cbn [s_x s_vx s_y s_vy s_A s_t].
      destruct (Y1 c) as [a1 a2 a3 a4 a5 a6]. cbn. f_equal. ring. }
    exists (glued Y1 Ys c), c, (first_leg w + last (sos_angles n k) 0). split; [split|split; [|split]].
    + unfold glued. destruct (Rlt_dec _ _) as [_|Nn]; [exact I1|unfold c in Nn; lra].
    + intros p Hp. apply glued_solves; [exact EJ| |].
      * intros Lp. apply S1. unfold c in Lp. lra.
      * intros Lp. unfold Ys. rewrite Hm. apply shifted_solves; [exact St| |]; rewrite <- Hm; apply S2; unfold c in *; lra.
    + unfold c. lra.
    + intros j Hj. pose proof (angle_in n k j Hk Hj). unfold c. lra.
    + apply map_ext. intros j. rewrite Rplus_0_r.
      assert (Eq : glued Y1 Ys c (c + 2 * PI * INR j) = Ys (c + 2 * PI * INR j)).
      { unfold glued. destruct (Rlt_dec _ _) as [B|_]; [|reflexivity]. pose proof (pos_INR j). nra. }
      rewrite Eq. unfold Ys, shifted, py_out, with_time. cbn [s_x s_vx s_y s_vy s_A s_t].
      replace (c + 2 * PI * INR j - c) with (2 * PI * INR j) by ring. rewrite Hm, (Rplus_comm (2 * PI * IZR m)), sin_turns, cos_turns. reflexivity.
  - rewrite start_same in * by exact N.
    exists Y2, (py_init_psi w), (last (sos_angles n k) 0). split; [exact HY2|]. split; [lra|]. split.
    + intros j Hj. pose proof (angle_in n k j Hk Hj). lra.
    + apply map_ext. intros j. rewrite (Rplus_comm (py_init_psi w)). reflexivity.
Qed.

(** ** A force that grows with time: the second leg restarts the clock *)
(** a uniform field t along x and a harmonic vertical force *)
Definition growing_field : comp3 :=
  Static3 (fun R z phi t => t * cos phi) (fun R z phi t => - z) (fun R z phi t => - (R * t * sin phi)).
Lemma growing_azimuthal : azimuthal growing_field.
Proof. cbn. unfold turns. repeat split; intros; rewrite ?cos_turn, ?sin_turn; reflexivity. Qed.
Lemma growing_vertical x y z t vx vy vz : snd (py_rect_force [growing_field] x y z t vx vy vz) = - z.
Proof. cbn. ring. Qed.
Lemma growing_rect x y z t vx vy vz : 0 < x ^ 2 + y ^ 2 -> py_rect_force [growing_field] x y z t vx vy vz = (t, 0, - z).
Proof.
  intros H. destruct (rect_polar x y H) as (P & C & S). unfold py_rect_force. rewrite rect_phi_py. unfold py_force. cbn [fold_left growing_field pick].
  rewrite <- C, <- S. pose proof (cs1 (rect_phi x y)) as E. set (R := sqrt (x ^ 2 + y ^ 2)) in *. f_equal; [f_equal|].
  - replace (cos (rect_phi x y) * (0 + t * cos (rect_phi x y)) - 1 / R * sin (rect_phi x y) * (0 + - (R * t * sin (rect_phi x y))))
      with (t * (cos (rect_phi x y) * cos (rect_phi x y) + sin (rect_phi x y) * sin (rect_phi x y))) by (field; lra). rewrite E. ring.
  - field. lra.
  - ring.
Qed.
Lemma growing_side x y z t vx vy vz : snd (fst (py_rect_force [growing_field] x y z t vx vy vz)) = 0.
Proof.
  destruct (Rlt_dec 0 (x ^ 2 + y ^ 2)) as [H|H]; [rewrite growing_rect by exact H; reflexivity|].
  assert (x = 0) by nra. assert (y = 0) by nra. subst. unfold py_rect_force. cbn [fst snd]. unfold Rdiv at 1 5. rewrite !Rmult_0_l.
  replace (0 ^ 2 + 0 ^ 2) with 0 by ring. rewrite sqrt_0. unfold Rdiv. rewrite Rinv_0. ring.
Qed.
Lemma growing_rate s p : s_A s <> 0 -> cos p ^ 2 - sin p / s_A s * (- (s_A s * sin p)) = 1.
Proof. intros H. rewrite <- (cs1 p). field. exact H. Qed.
Lemma growing_eom s p : s_A s <> 0 ->
  let d := py_sos_eom [growing_field] s p in
  s_x d = s_vx s /\ s_y d = s_vy s /\ s_vy d = 0 /\ s_A d = 0 /\ s_t d = 1 /\ (s_y s <> 0 -> s_vx d = s_t s).
Proof.
  intros H d. unfold d, py_sos_eom. rewrite growing_vertical. cbn [s_x s_vx s_y s_vy s_A s_t]. rewrite growing_rate by exact H.
  rewrite growing_side. split; [field|]. split; [field|]. split; [field|]. split; [field|]. split; [field|].
  intros Hy. rewrite growing_rect; [cbn [fst]; field|]. pose proof (pow2_ge_0 (s_x s)). assert (0 < s_y s ^ 2) by (apply pow2_gt_0; exact Hy). lra.
Qed.
Definition closed (t0 : R) (w : cyl) (p : R) : sos :=
  let i := py_init w t0 in let q := p - py_init_psi w in
  mkSos (s_x i + s_vx i * q + t0 * q ^ 2 / 2 + q ^ 3 / 6) (s_vx i + t0 * q + q ^ 2 / 2) (s_y i + s_vy i * q) (s_vy i) (s_A i) (t0 + q).
Lemma closed_exact t0 w len : s_y (py_init w t0) <> 0 -> s_vy (py_init w t0) = 0 -> s_A (py_init w t0) <> 0 -> exact_from [growing_field] t0 w len (closed t0 w).
Proof.
  intros Hy Hv HA. split.
  - unfold closed. replace (py_init_psi w - py_init_psi w) with 0 by ring. destruct (py_init w t0) as [a b c d e f] eqn:E. cbn [s_x s_vx s_y s_vy s_A s_t].
    assert (f = t0) by (unfold py_init in E; injection E; intros; subst; reflexivity). subst f. f_equal; field.
  - intros p _. assert (HA' : s_A (closed t0 w p) <> 0) by exact HA. assert (Hy' : s_y (closed t0 w p) <> 0) by (cbn [closed s_y]; rewrite Hv; lra).
    destruct (growing_eom (closed t0 w p) p HA') as (E1 & E2 & E3 & E4 & E5 & E6). specialize (E6 Hy').
    unfold solves, rate_ok. rewrite E1, E2, E3, E4, E5, E6. split; [|split; [exact HA|lra]].
    unfold closed. cbn [s_x s_vx s_y s_vy s_A s_t]. rewrite Hv.
    generalize (s_x (py_init w t0)) (s_vx (py_init w t0)) (s_y (py_init w t0)). intros a0 a1 a2.
    split; [auto_derive; [exact I|field]|]. split; [auto_derive; [exact I|field]|]. split; [auto_derive; [exact I|ring]|].
    split; [apply is_derive_cst|]. split; [apply is_derive_cst|]. auto_derive; [exact I|ring].
Qed.
Lemma flat (f : R -> R) a b : a <= b -> (forall p, a <= p <= b -> is_derive f p 0) -> f b = f a.
Proof.
  intros L D. destruct (MVT_gen f a b (fun _ => 0)) as (c & _ & E).
  - intros x Hx. apply D. rewrite Rmin_left, Rmax_right in Hx by exact L. lra.
  - intros x Hx. rewrite Rmin_left, Rmax_right in Hx by exact L. apply continuity_pt_filterlim. apply (@ex_derive_continuous R_AbsRing R_NormedModule f x). exists 0. apply D, Hx.
  - lra.
Qed.
Lemma growing_unique t0 w len Y p : exact_from [growing_field] t0 w len Y -> s_y (py_init w t0) <> 0 -> s_vy (py_init w t0) = 0 ->
  py_init_psi w <= p <= py_init_psi w + len -> Y p = closed t0 w p.
Proof.
  intros [I0 H] Hy0 Hv0. set (a := py_init_psi w) in *. set (i := py_init w t0) in *.
  assert (G : forall u, a <= u <= a + len -> let d := py_sos_eom [growing_field] (Y u) u in
      s_x d = s_vx (Y u) /\ s_y d = s_vy (Y u) /\ s_vy d = 0 /\ s_A d = 0 /\ s_t d = 1 /\ (s_y (Y u) <> 0 -> s_vx d = s_t (Y u))).
  { intros u Hu. apply growing_eom. apply (H u Hu). }
  assert (F : forall f : R -> R, (forall u, a <= u <= a + len -> is_derive f u 0) -> forall u, a <= u <= a + len -> f u = f a).
  { intros f D u Hu. apply flat; [lra|]. intros q Hq. apply D. lra. }
  assert (ET : forall u, a <= u <= a + len -> s_t (Y u) = t0 + (u - a)).
  { intros u Hu. enough (E : s_t (Y u) - u = s_t (Y a) - a) by (rewrite I0 in E; cbn [i py_init s_t] in E; lra).
    apply (F (fun u => s_t (Y u) - u)); [|exact Hu]. intros q Hq. destruct (H q Hq) as [(_ & _ & _ & _ & _ & D) _]. destruct (G q Hq) as (_ & _ & _ & _ & E & _).
    cbv zeta in D. rewrite E in D. eapply is_derive_eq; [apply (is_derive_Rplus _ (fun q => - q)); [exact D|]|].
    - instantiate (1 := - (1)). auto_derive; [exact I|ring]. - rr. ring. }
  assert (EV : forall u, a <= u <= a + len -> s_vy (Y u) = 0).
  { intros u Hu. rewrite <- Hv0. fold i. rewrite <- I0. apply (F (fun u => s_vy (Y u))); [|exact Hu]. intros q Hq.
    destruct (H q Hq) as [(_ & _ & _ & D & _) _]. destruct (G q Hq) as (_ & _ & E & _). cbv zeta in D. rewrite E in D. exact D. }
  assert (EY : forall u, a <= u <= a + len -> s_y (Y u) = s_y i).
  { intros u Hu. rewrite <- I0. apply (F (fun u => s_y (Y u))); [|exact Hu]. intros q Hq.
    destruct (H q Hq) as [(_ & _ & D & _) _]. destruct (G q Hq) as (_ & E & _). cbv zeta in D. rewrite E, (EV q Hq) in D. exact D. }
  assert (EA : forall u, a <= u <= a + len -> s_A (Y u) = s_A i).
  { intros u Hu. rewrite <- I0. apply (F (fun u => s_A (Y u))); [|exact Hu]. intros q Hq.
    destruct (H q Hq) as [(_ & _ & _ & _ & D & _) _]. destruct (G q Hq) as (_ & _ & _ & E & _). cbv zeta in D. rewrite E in D. exact D. }
  assert (EVX : forall u, a <= u <= a + len -> s_vx (Y u) = s_vx i + t0 * (u - a) + (u - a) ^ 2 / 2).
  { intros u Hu. enough (E : s_vx (Y u) - (t0 * (u - a) + (u - a) ^ 2 / 2) = s_vx (Y a) - (t0 * (a - a) + (a - a) ^ 2 / 2)).
    { rewrite I0 in E. replace (t0 * (a - a) + (a - a) ^ 2 / 2) with 0 in E by field. lra. }
    apply (F (fun u => s_vx (Y u) - (t0 * (u - a) + (u - a) ^ 2 / 2))); [|exact Hu]. intros q Hq.
    destruct (H q Hq) as [(_ & D & _) _]. destruct (G q Hq) as (_ & _ & _ & _ & _ & E). cbv zeta in D. rewrite E, (ET q Hq) in D by (rewrite (EY q Hq); exact Hy0).
    eapply is_derive_eq; [apply (is_derive_Rplus _ (fun q => - (t0 * (q - a) + (q - a) ^ 2 / 2))); [exact D|]|].
    - instantiate (1 := - (t0 + (q - a))). auto_derive; [exact I|field]. - rr. ring. }
  assert (EX : forall u, a <= u <= a + len -> s_x (Y u) = s_x i + s_vx i * (u - a) + t0 * (u - a) ^ 2 / 2 + (u - a) ^ 3 / 6).
  { intros u Hu. enough (E : s_x (Y u) - (s_vx i * (u - a) + t0 * (u - a) ^ 2 / 2 + (u - a) ^ 3 / 6) = s_x (Y a) - (s_vx i * (a - a) + t0 * (a - a) ^ 2 / 2 + (a - a) ^ 3 / 6)).
    { rewrite I0 in E. replace (s_vx i * (a - a) + t0 * (a - a) ^ 2 / 2 + (a - a) ^ 3 / 6) with 0 in E by field. lra. }
    apply (F (fun u => s_x (Y u) - (s_vx i * (u - a) + t0 * (u - a) ^ 2 / 2 + (u - a) ^ 3 / 6))); [|exact Hu]. intros q Hq.
    destruct (H q Hq) as [(D & _) _]. destruct (G q Hq) as (E & _). cbv zeta in D. rewrite E, (EVX q Hq) in D.
    eapply is_derive_eq; [apply (is_derive_Rplus _ (fun q => - (s_vx i * (q - a) + t0 * (q - a) ^ 2 / 2 + (q - a) ^ 3 / 6))); [exact D|]|].
    - instantiate (1 := - (s_vx i + t0 * (q - a) + (q - a) ^ 2 / 2)). generalize (s_vx i). intros vi. auto_derive; [exact I|field]. - rr. ring. }
  intros Hp. destruct (Y p) as [x vx y vy A t] eqn:E. unfold closed. fold i a. rewrite Hv0.
  pose proof (ET p Hp) as K1. pose proof (EV p Hp) as K2. pose proof (EY p Hp) as K3. pose proof (EA p Hp) as K4. pose proof (EVX p Hp) as K5. pose proof (EX p Hp) as K6.
  rewrite E in *. cbn [s_x s_vx s_y s_vy s_A s_t] in *. subst. f_equal. ring.
Qed.

Definition w0 : cyl := mkCyl 1 0 0 (-1) 0 (PI / 2).
Definition closed_solver (t0 : R) (w : cyl) (psis : list R) : list (cyl * R) := rows w (closed t0 w) psis.
Lemma w0_psi : py_init_psi w0 = - (PI / 2).
Proof.
  unfold py_init_psi, w0. cbn [y_z y_vz]. pose proof (atan2_polar 1 (- (PI / 2)) ltac:(lra)) as E. rewrite sin_neg, cos_neg, sin_PI2, cos_PI2 in E.
  rewrite <- E by (pose proof PI_RGT_0; lra). f_equal; ring.
Qed.
Lemma w0_init t0 : py_init w0 t0 = mkSos 0 0 1 0 1 t0.
Proof.
  unfold py_init, w0. cbn [y_R y_vR y_vT y_z y_vz y_phi]. rewrite sin_PI2, cos_PI2. f_equal; try ring.
  replace ((-1) ^ 2 + 0 ^ 2) with 1 by ring. apply sqrt_1.
Qed.
Lemma w0_leg : needs_leg w0 /\ first_leg w0 = PI / 2.
Proof.
  unfold needs_leg, first_leg, wrap_psi. rewrite w0_psi. pose proof PI2_3_2. split.
  - rewrite Rabs_Ropp, Rabs_pos_eq by lra. lra.
  - destruct (Rlt_dec _ _); lra.
Qed.
Lemma w0_exact1 psis : exact_solver [growing_field] closed_solver 0 w0 psis.
Proof.
  exists (closed 0 w0). split; [|reflexivity]. apply closed_exact; rewrite w0_init; cbn; lra.
Qed.
Definition w1 := sos_start closed_solver 0 w0.
Lemma w1_is : w1 = py_out (closed 0 w0 0) 0.
Proof.
  unfold w1. destruct w0_leg as [Hl Hf]. destruct (start_state [growing_field] closed_solver 0 w0 Hl (w0_exact1 _)) as (Y & HY & E). rewrite E.
  rewrite Hf, w0_psi in *. replace (- (PI / 2) + PI / 2) with 0 by ring.
  rewrite (growing_unique 0 w0 (PI / 2) Y 0 HY); [reflexivity|rewrite w0_init; cbn; lra|rewrite w0_init; reflexivity|rewrite w0_psi; pose proof PI_RGT_0; lra].
Qed.
Lemma w1_init : py_init w1 0 = mkSos ((PI / 2) ^ 3 / 6) ((PI / 2) ^ 2 / 2) 1 0 1 0.
Proof.
  rewrite w1_is, init_out.
  - unfold with_time, closed. rewrite w0_init, w0_psi. cbn [s_x s_vx s_y s_vy s_A s_t]. f_equal; field.
  - unfold closed. rewrite w0_init. cbn. lra.
Qed.
Lemma w1_psi : py_init_psi w1 = 0.
Proof. destruct w0_leg as [Hl _]. apply (start_on_surface [growing_field] closed_solver 0 w0 Hl (w0_exact1 _)). Qed.
Lemma w0_exact2 psis : exact_solver [growing_field] closed_solver 0 w1 psis.
Proof. exists (closed 0 w1). split; [|reflexivity]. apply closed_exact; rewrite w1_init; cbn; lra. Qed.
Lemma cube_inj x y : 0 <= x -> 0 <= y -> x ^ 3 = y ^ 3 -> x = y.
Proof.
  intros Hx Hy E. assert (F : (x - y) * (x ^ 2 + x * y + y ^ 2) = 0) by (replace ((x - y) * (x ^ 2 + x * y + y ^ 2)) with (x ^ 3 - y ^ 3) by ring; lra).
  apply Rmult_integral in F. destruct F as [F|F]; [lra|]. assert (0 <= x * y) by nra. pose proof (pow2_ge_0 x). pose proof (pow2_ge_0 y).
  assert (X : x ^ 2 = 0) by lra. assert (Y : y ^ 2 = 0) by lra. assert (x = 0) by nra. assert (y = 0) by nra. lra.
Qed.
Lemma growing_not_one_orbit : ~ crossings_of_one_orbit [growing_field] 0 w0 (map fst (sos_method closed_solver 0 w0 2 1)).
Proof.
  intros (Y & f & len & HY & Hf & Hlen & E).
  assert (EM : map fst (sos_method closed_solver 0 w0 2 1) = [py_out (closed 0 w1 0) 0; py_out (closed 0 w1 (2 * PI)) (2 * PI)]).
  { unfold sos_method. fold w1. unfold closed_solver, rows. rewrite stride_angles by lia. rewrite w1_psi. cbn [seq map fst INR].
    replace (2 * PI * 0 + 0) with 0 by ring. replace (2 * PI * 1 + 0) with (2 * PI) by ring. reflexivity. }
  rewrite EM in *. cbn [length seq map INR] in E.
  pose proof (Hlen 0%nat ltac:(cbn; lia)) as L0. pose proof (Hlen 1%nat ltac:(cbn; lia)) as L1. cbn [INR] in L0, L1. clear Hlen EM.
  replace (f + 2 * PI * 0) with f in * by ring. replace (f + 2 * PI * 1) with (f + 2 * PI) in * by ring.
  rewrite (growing_unique 0 w0 len Y f HY), (growing_unique 0 w0 len Y (f + 2 * PI) HY) in E;
    try (rewrite w0_init; cbn; lra); try (pose proof PI_RGT_0; lra).
  assert (E0 : point (closed 0 w1 0) 0 = point (closed 0 w0 f) f) by (rewrite <- !out_point; f_equal; congruence).
  assert (E1 : point (closed 0 w1 (2 * PI)) (2 * PI) = point (closed 0 w0 (f + 2 * PI)) (f + 2 * PI)) by (rewrite <- !out_point; f_equal; congruence).
  apply (f_equal k_x) in E0. apply (f_equal k_x) in E1. unfold point, closed in E0, E1. rewrite w1_init, w0_init, w1_psi, w0_psi in E0, E1.
  cbn [k_x s_x s_vx s_y s_vy s_A s_t] in E0, E1. rewrite w0_psi in Hf. pose proof PI_RGT_0 as HP.
  assert (Ef : PI / 2 = f - - (PI / 2)).
  { apply cube_inj; [lra|lra|]. replace ((PI / 2) ^ 3) with (6 * ((PI / 2) ^ 3 / 6 + (PI / 2) ^ 2 / 2 * (0 - 0) + 0 * (0 - 0) ^ 2 / 2 + (0 - 0) ^ 3 / 6)) by field.
    rewrite E0. field. }
  assert (Z : f = 0) by lra. subst f.
  assert (K : PI ^ 3 = 0).
  { replace (PI ^ 3) with ((0 + 0 * (0 + 2 * PI - - (PI / 2)) + 0 * (0 + 2 * PI - - (PI / 2)) ^ 2 / 2 + (0 + 2 * PI - - (PI / 2)) ^ 3 / 6)
      - ((PI / 2) ^ 3 / 6 + (PI / 2) ^ 2 / 2 * (2 * PI - 0) + 0 * (2 * PI - 0) ^ 2 / 2 + (2 * PI - 0) ^ 3 / 6)) by field. lra. }
  pose proof (pow_lt PI 3 HP). lra.
Qed.

(** ** Velocity-dependent forces in C *)
Lemma c_int_small x : Rabs x < 1 -> c_int x = 0%Z.
Proof.
  intros H. apply Rabs_def2 in H. unfold c_int. destruct (Rle_dec 0 x) as [P|P].
  - rewrite <- (tech_up x 1) by lra. reflexivity.
  - rewrite <- (tech_up (- x) 1) by lra. reflexivity.
Qed.
Lemma c_force_dropped s l vR vT vz R z phi t :
  c_force s l 0 vR vT vz R z phi t = c_force s (filter (fun c => match c with Static3 _ _ _ => true | Veloc3 _ _ _ => false end) l) 0 vR vT vz R z phi t.
Proof.
  unfold c_force. generalize 0%R. induction l as [|c l IH]; intros a; [reflexivity|]. destruct c; cbn; apply IH.
Qed.
Lemma c_drops l q : Rabs ((c_x q * c_vx q + c_y q * c_vy q) / sqrt (c_x q ^ 2 + c_y q ^ 2)) < 1 ->
  c_sos_deriv l q = c_sos_deriv (filter (fun c => match c with Static3 _ _ _ => true | Veloc3 _ _ _ => false end) l) q.
Proof.
  intros H. unfold c_sos_deriv, c_force_macro3. cbv zeta. replace (c_x q * c_x q + c_y q * c_y q) with (c_x q ^ 2 + c_y q ^ 2) by ring.
  replace (c_vx q * (c_x q / sqrt (c_x q ^ 2 + c_y q ^ 2)) + c_vy q * (c_y q / sqrt (c_x q ^ 2 + c_y q ^ 2)))
    with ((c_x q * c_vx q + c_y q * c_vy q) / sqrt (c_x q ^ 2 + c_y q ^ 2)) by (unfold Rdiv; ring).
  rewrite (c_int_small _ H), !(fun s => c_force_dropped s l). reflexivity.
Qed.
(** linear drag *)
Definition drag : comp3 := Veloc3 (fun vR vT vz R z phi t => - vR) (fun vR vT vz R z phi t => - vz) (fun vR vT vz R z phi t => - (R * vT)).
Definition q_slow : csos := mkC 1 0 (1 / 2) 0 1 0 0.
Definition q_fast : csos := mkC 1 0 2 0 1 0 0.
Lemma drag_azimuthal : azimuthal drag.
Proof. cbn. unfold turns. repeat split. Qed.
Lemma py_drag vx : s_vx (py_sos_eom [drag] (mkSos 1 vx 0 0 1 0) 0) = - vx.
Proof.
  unfold py_sos_eom, py_rect_force, py_force. cbn [s_x s_vx s_y s_vy s_A s_t fold_left drag pick fst snd]. rewrite sin_0, cos_0.
  replace (1 ^ 2 + 0 ^ 2) with 1 by ring. rewrite sqrt_1. field.
Qed.
Lemma c_drag_slow : c_vx (c_sos_deriv [drag] q_slow) = 0.
Proof.
  rewrite c_drops.
  - unfold c_sos_deriv, c_force_macro3, c_force. cbn [filter drag q_slow fold_left c_x c_y c_vx c_vy c_A c_t c_psi]. unfold Rdiv. rewrite !Rmult_0_r. ring.
  - cbn [q_slow c_x c_y c_vx c_vy c_A c_t c_psi]. replace (1 ^ 2 + 0 ^ 2) with 1 by ring. rewrite sqrt_1. rewrite Rabs_pos_eq; lra.
Qed.
Lemma c_int_2 : c_int 2 = 2%Z.
Proof. unfold c_int. destruct (Rle_dec 0 2); [|lra]. rewrite <- (tech_up 2 3) by lra. reflexivity. Qed.
Lemma c_drag_fast : c_vx (c_sos_deriv [drag] q_fast) = 0.
Proof.
  unfold c_sos_deriv, c_force_macro3. cbn [q_fast c_x c_y c_vx c_vy c_A c_t c_psi]. replace (1 * 1 + 0 * 0) with 1 by ring. rewrite sqrt_1.
  replace (2 * (1 / 1) + 0 * (0 / 1)) with 2 by field. rewrite c_int_2. unfold c_force. cbn [fold_left drag pick Z.eqb].
  rewrite sin_0, cos_0. field.
Qed.

(** ** Free motion along the plane over a harmonic vertical force: a steady example *)
Definition spring : comp3 := Static3 (fun _ _ _ _ => 0) (fun _ z _ _ => - z) (fun _ _ _ _ => 0).
Lemma spring_ok : azimuthal spring /\ steady spring /\ conservative spring.
Proof. cbn. unfold turns. repeat split. Qed.
Lemma spring_rect x y z t vx vy vz : py_rect_force [spring] x y z t vx vy vz = (0, 0, - z).
Proof. unfold py_rect_force, py_force. cbn [fold_left spring pick]. f_equal; [f_equal; ring|ring]. Qed.
Definition straight (t0 : R) (w : cyl) (p : R) : sos :=
  let i := py_init w t0 in let q := p - py_init_psi w in
  mkSos (s_x i + s_vx i * q) (s_vx i) (s_y i + s_vy i * q) (s_vy i) (s_A i) (t0 + q).
Lemma straight_exact t0 w len : s_A (py_init w t0) <> 0 -> exact_from [spring] t0 w len (straight t0 w).
Proof.
  intros HA. split.
  - unfold straight. replace (py_init_psi w - py_init_psi w) with 0 by ring. destruct (py_init w t0) as [a b c d e f] eqn:E. cbn [s_x s_vx s_y s_vy s_A s_t].
    assert (f = t0) by (unfold py_init in E; injection E; intros; subst; reflexivity). subst f. f_equal; field.
  - intros p _. unfold solves, rate_ok, py_sos_eom. rewrite spring_rect. cbn [fst snd s_x s_vx s_y s_vy s_A s_t].
    rewrite growing_rate by exact HA. unfold straight. cbn [s_x s_vx s_y s_vy s_A s_t].
    generalize dependent (s_A (py_init w t0)). intros A HA. generalize (s_x (py_init w t0)) (s_vx (py_init w t0)) (s_y (py_init w t0)) (s_vy (py_init w t0)). intros a0 a1 a2 a3.
    split; [|split; [exact HA|lra]].
    split; [auto_derive; [exact I|field]|]. split; [eapply is_derive_eq; [apply is_derive_cst|rr; field]|]. split; [auto_derive; [exact I|field]|].
    split; [eapply is_derive_eq; [apply is_derive_cst|rr; field]|]. split; [eapply is_derive_eq; [apply is_derive_cst|rr; field]|]. auto_derive; [exact I|field].
Qed.
Definition straight_solver (t0 : R) (w : cyl) (psis : list R) : list (cyl * R) := rows w (straight t0 w) psis.
Lemma straight_solves t0 w psis : s_A (py_init w t0) <> 0 -> exact_solver [spring] straight_solver t0 w psis.
Proof. intros HA. exists (straight t0 w). split; [apply straight_exact, HA|reflexivity]. Qed.
Lemma straight_start : exact_solver [spring] straight_solver 0 (sos_start straight_solver 0 w0) (sos_angles 2 1).
Proof.
  apply straight_solves. destruct w0_leg as [Hl _].
  assert (H0 : s_A (py_init w0 0) <> 0) by (rewrite w0_init; cbn; lra).
  destruct (start_on_surface [spring] straight_solver 0 w0 Hl (straight_solves _ _ _ H0)) as (Z & V & _).
  cbn [py_init s_A]. rewrite Z. assert (0 < sqrt (0 ^ 2 + y_vz (sos_start straight_solver 0 w0) ^ 2)); [|lra].
  apply sqrt_lt_R0. pose proof (pow_lt _ 2 V). lra.
Qed.
