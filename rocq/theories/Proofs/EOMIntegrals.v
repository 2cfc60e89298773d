(** Integrals of the motion. *)
From Coq Require Import Reals List ZArith Lra Psatz.
From Coquelicot Require Import Coquelicot.
From Verif.Lib Require Import RealAux Atan2.
From Verif.Model Require Import PotAPI RectForce SOS EOM.
From Verif.Spec Require Import PotSpec PotApiSpec SmoothSpec SOSSpec EOMSpec.
From Verif.Proofs Require Import WrapProofs3 RectProofs SOSProofs EOMProofs.
Import ListNotations.
Open Scope R_scope.
Notation RR := RbaseSymbolsImpl.R (only parsing).
#[local] Arguments pow : simpl never.

(** The polar coordinates of a Cartesian point. *)
Definition kR (k : cart) : RR := sqrt (k_x k ^ 2 + k_y k ^ 2).
Definition kp (k : cart) : RR := atan2 (k_y k) (k_x k).
Lemma k_polar k : 0 < k_x k ^ 2 + k_y k ^ 2 -> 0 < kR k /\ k_x k = kR k * cos (kp k) /\ k_y k = kR k * sin (kp k).
Proof. intros H. split; [apply sqrt_lt_R0; exact H|]. unfold kR, kp. rewrite atan2_cos, atan2_sin. tauto. Qed.
Lemma d_pot (D : Dom) l Phi (Om : R) (w : R -> cart) (t : R) : potential_of D l Phi -> turns Phi -> rotates Om Phi -> 0 < k_x (w t) ^ 2 + k_y (w t) ^ 2 ->
  D (kR (w t)) (k_z (w t)) (kp (w t)) t ->
  is_derive (fun s => k_x (w s)) t (k_vx (w t)) -> is_derive (fun s => k_y (w s)) t (k_vy (w t)) -> is_derive (fun s => k_z (w s)) t (k_vz (w t)) ->
  is_derive (fun s => Phi (kR (w s)) (k_z (w s)) (kp (w s)) s) t
    (- (total comp_R l (kR (w t)) (k_z (w t)) (kp (w t)) t * ((k_x (w t) * k_vx (w t) + k_y (w t) * k_vy (w t)) / kR (w t))
        + total comp_z l (kR (w t)) (k_z (w t)) (kp (w t)) t * k_vz (w t)
        + total comp_p l (kR (w t)) (k_z (w t)) (kp (w t)) t * ((k_x (w t) * k_vy (w t) - k_y (w t) * k_vx (w t)) / kR (w t) ^ 2 - Om))).
Proof.
  intros [_ Df] Tu Ro H HD Dx Dy Dz.
  set (th := fun s : R => Om * (s - t)).
  set (X := fun s => k_x (w s) * cos (th s) - (- k_y (w s)) * sin (th s)).
  set (Y := fun s => - k_x (w s) * sin (th s) + k_y (w s) * cos (th s)).
  assert (Dth : is_derive th t Om). { unfold th. auto_derive; [exact I|ring]. }
  assert (Th : th t = 0) by (unfold th; ring).
  assert (Dox : is_derive (fun s => - k_x (w s)) t (- k_vx (w t))) by (apply (is_derive_opp (fun s => k_x (w s)) t _ Dx)).
  assert (Doy : is_derive (fun s => - k_y (w s)) t (- k_vy (w t))) by (apply (is_derive_opp (fun s => k_y (w s)) t _ Dy)).
  pose proof (d_rot_x _ _ _ t _ _ _ Dx Doy Dth) as DX. pose proof (d_rot_y _ _ _ t _ _ _ Dox Dy Dth) as DY. cbn beta in DX, DY.
  rewrite Th, cos_0, sin_0 in DX, DY.
  assert (EX : X t = k_x (w t)) by (unfold X; rewrite Th, cos_0, sin_0; ring).
  assert (EY : Y t = k_y (w t)) by (unfold Y; rewrite Th, cos_0, sin_0; ring).
  assert (Sq : forall s, X s ^ 2 + Y s ^ 2 = k_x (w s) ^ 2 + k_y (w s) ^ 2).
  { intros s. unfold X, Y. pose proof (cs1 (th s)) as P. transitivity ((k_x (w s) ^ 2 + k_y (w s) ^ 2) * (cos (th s) * cos (th s) + sin (th s) * sin (th s))); [ring|rewrite P; ring]. }
  pose proof (fun dx dy => is_derive_cyl D Phi _ _ _ t X Y (fun s => k_z (w s)) t dx dy (k_vz (w t)) Df Tu) as G. cbn beta in G.
  specialize (G _ _ ltac:(rewrite (Sq t); exact H) ltac:(rewrite (Sq t), EX, EY; exact HD) DX DY Dz). rewrite (Sq t), EX, EY in G. change (sqrt (k_x (w t) ^ 2 + k_y (w t) ^ 2)) with (kR (w t)) in G. change (atan2 (k_y (w t)) (k_x (w t))) with (kp (w t)) in G.
  apply (is_derive_ext_loc (fun u => Phi (sqrt (X u ^ 2 + Y u ^ 2)) (k_z (w u)) (atan2 (Y u) (X u)) t)).
  - assert (L : locally t (fun s => 0 < k_x (w s) ^ 2 + k_y (w s) ^ 2)).
    { apply (d_locally_pos (fun s => k_x (w s) ^ 2 + k_y (w s) ^ 2) t (k_vx (w t) * (2 * k_x (w t)) + k_vy (w t) * (2 * k_y (w t)))); [|exact H].
      apply is_derive_Rplus; [eapply is_derive_eq; [exact (is_derive_pow _ 2 t _ Dx)|]|eapply is_derive_eq; [exact (is_derive_pow _ 2 t _ Dy)|]]; rr; cbn; ring. }
    revert L. apply filter_imp. intros s Hs. rewrite Sq. change (sqrt (k_x (w s) ^ 2 + k_y (w s) ^ 2)) with (kR (w s)).
    rewrite (Ro (kR (w s)) (k_z (w s)) (kp (w s)) s t). destruct (k_polar (w s) Hs) as (P & Cx & Cy).
    change (Om * (s - t)) with (th s).
    apply turns_angle; [exact Tu| |]; apply (Rmult_eq_reg_l (kR (w s))); try lra.
    + unfold kR at 1. rewrite <- (Sq s), atan2_cos, cos_minus. unfold X. rewrite Cx, Cy at 1. ring.
    + unfold kR at 1. rewrite <- (Sq s), atan2_sin, sin_minus. unfold Y. rewrite Cx, Cy at 1. ring.
  - destruct (k_polar (w t) H) as (P & Cx & Cy). eapply is_derive_eq; [exact G|]. rr. unfold neg.
    assert (E2 : k_x (w t) ^ 2 + k_y (w t) ^ 2 = kR (w t) ^ 2) by (unfold kR; rewrite pow2_sqrt; lra). rewrite E2.
    set (R0 := kR (w t)) in *. set (x := k_x (w t)) in *. set (y := k_y (w t)) in *. set (vx := k_vx (w t)). set (vy := k_vy (w t)).
    transitivity (- (total comp_R l R0 (k_z (w t)) (kp (w t)) t * ((x * vx + y * vy) / R0) + total comp_z l R0 (k_z (w t)) (kp (w t)) t * k_vz (w t)
      + total comp_p l R0 (k_z (w t)) (kp (w t)) t * ((x * vy - y * vx) / R0 ^ 2 - Om * ((x ^ 2 + y ^ 2) / R0 ^ 2)))); [field; lra|rewrite E2; field; lra].
Qed.
(** The forces at a Cartesian phase-space point. *)
Definition kF (f : comp3 -> RR -> RR -> RR -> F4) (l : list comp3) (k : cart) (t : RR) : RR :=
  add_up (fun c => f c (k_vx k * cos (kp k) + k_vy k * sin (kp k)) (- k_vx k * sin (kp k) + k_vy k * cos (kp k)) (k_vz k) (kR k) (k_z k) (kp k) t) l.
Lemma newton_k l (w : R -> cart) t : 0 < k_x (w t) ^ 2 + k_y (w t) ^ 2 -> newton l w t ->
  is_derive (fun s => k_vx (w s)) t (cos (kp (w t)) * kF comp_R l (w t) t - sin (kp (w t)) * (kF comp_p l (w t) t / kR (w t))) /\
  is_derive (fun s => k_vy (w s)) t (sin (kp (w t)) * kF comp_R l (w t) t + cos (kp (w t)) * (kF comp_p l (w t) t / kR (w t))) /\
  is_derive (fun s => k_vz (w s)) t (kF comp_z l (w t) t).
Proof.
  intros H (_ & _ & _ & a & Ha & A & B & C). destruct (k_polar (w t) H) as (P & Ex & Ey).
  specialize (Ha _ _ P Ex Ey). cbv zeta in Ha. subst a. cbn [fst snd] in A, B, C. split; [exact A|]. split; [exact B|exact C].
Qed.
Lemma kF_total f l k t : List.Forall conservative l -> (f = comp_R \/ f = comp_z \/ f = comp_p) -> kF f l k t = total f l (kR k) (k_z k) (kp k) t.
Proof.
  intros H E. unfold kF, total. apply add_up_ext. revert H. apply Forall_impl. intros [fR fz fp|]; [|intros []].
  intros _. destruct E as [-> | [-> | ->]]; reflexivity.
Qed.
Lemma d_half_sq (f : R -> R) (t d : R) : is_derive f t d -> is_derive (fun s => f s ^ 2 / 2) t (f t * d).
Proof.
  intros H. apply (is_derive_ext (fun s => / 2 * (f s * f s))). { intros s. rr. field. }
  eapply is_derive_eq; [exact (is_derive_Rscal (fun s => f s * f s) t (/ 2) _ (is_derive_Rmult f f t _ _ H H))|]. rr. field.
Qed.
Definition k_E (Phi : F4) (k : cart) (t : RR) : RR := Phi (kR k) (k_z k) (kp k) t + k_vx k ^ 2 / 2 + k_vy k ^ 2 / 2 + k_vz k ^ 2 / 2.
Lemma d_energy (D : Dom) l Phi (Om : R) (w : R -> cart) (t : R) : potential_of D l Phi -> turns Phi -> rotates Om Phi -> 0 < k_x (w t) ^ 2 + k_y (w t) ^ 2 ->
  D (kR (w t)) (k_z (w t)) (kp (w t)) t -> newton l w t -> is_derive (fun s => k_E Phi (w s) s) t (Om * kF comp_p l (w t) t).
Proof.
  intros Po Tu Ro H HD N. destruct (newton_k l w t H N) as (A & B & C). destruct N as (Dx & Dy & Dz & _).
  pose proof (d_pot D l Phi Om w t Po Tu Ro H HD Dx Dy Dz) as Dp. destruct (k_polar (w t) H) as (P & Ex & Ey). destruct Po as [Co _].
  unfold k_E. eapply is_derive_eq.
  - apply is_derive_Rplus; [apply is_derive_Rplus; [apply is_derive_Rplus; [exact Dp|apply d_half_sq; exact A]|apply d_half_sq; exact B]|apply d_half_sq; exact C].
  - rr. rewrite !kF_total by tauto. set (FR := total comp_R _ _ _ _ _). set (Fp := total comp_p _ _ _ _ _). set (Fz := total comp_z _ _ _ _ _).
    clearbody FR Fp Fz. rewrite Ex, Ey. set (c := cos (kp (w t))). set (s := sin (kp (w t))). field. lra.
Qed.
Definition k_Lz (k : cart) : RR := k_x k * k_vy k - k_y k * k_vx k.
Lemma d_k_Lz l (w : R -> cart) (t : R) : 0 < k_x (w t) ^ 2 + k_y (w t) ^ 2 -> newton l w t -> is_derive (fun s => k_Lz (w s)) t (kF comp_p l (w t) t).
Proof.
  intros H N. destruct (newton_k l w t H N) as (A & B & C). destruct N as (Dx & Dy & Dz & _). destruct (k_polar (w t) H) as (P & Ex & Ey).
  unfold k_Lz. eapply is_derive_eq; [apply d_minus; apply is_derive_Rmult; eassumption|]. rr. cbn beta.
  pose proof (cs1 (kp (w t))) as Q. set (F := kF comp_p l (w t) t). set (G := kF comp_R l (w t) t). rewrite Ex, Ey. set (c := cos (kp (w t))) in *. set (s := sin (kp (w t))) in *.
  transitivity (F * (c * c + s * s)); [field; lra|rewrite Q; ring].
Qed.
Lemma constant_of (f : R -> R) a b : (forall t, a <= t <= b -> is_derive f t 0) -> constant_on f a b.
Proof.
  intros H. assert (G : forall t t', a <= t <= b -> a <= t' <= b -> t < t' -> f t = f t').
  { intros t t' Ht Ht' Hl. apply (eq_is_derive f t t'); [|exact Hl]. intros s Hs. apply H. lra. }
  intros t t' Ht Ht'. destruct (Rtotal_order t t') as [L|[E|L]]; [apply G; auto|congruence|symmetry; apply G; auto].
Qed.
Lemma constant_ext (f g : R -> R) a b : (forall t, a <= t <= b -> f t = g t) -> constant_on f a b -> constant_on g a b.
Proof. intros E H t t' Ht Ht'. rewrite <- !E by auto. apply H; auto. Qed.
(** Rows and their Cartesian points. *)
Lemma row_polar w : 0 < y_R w -> 0 < k_x (cart_of w) ^ 2 + k_y (cart_of w) ^ 2 /\ kR (cart_of w) = y_R w /\ cos (kp (cart_of w)) = cos (y_phi w) /\ sin (kp (cart_of w)) = sin (y_phi w).
Proof.
  intros H. pose proof (polar_pos (y_R w) (y_phi w) H) as P. split; [exact P|].
  destruct (polar_unique _ _ (y_R w) (y_phi w) P H eq_refl eq_refl) as (ER & C & S).
  destruct (k_polar (cart_of w) P) as (Q & Ex & Ey). assert (E : kR (cart_of w) = y_R w) by (unfold kR; exact ER).
  split; [exact E|]. rewrite E in *. cbn [k_x k_y cart_of] in Ex, Ey. split; apply (Rmult_eq_reg_l (y_R w)); lra.
Qed.
Lemma row_E Phi w t : turns Phi -> 0 < y_R w -> k_E Phi (cart_of w) t = orb_E Phi w t.
Proof.
  intros Tu H. destruct (row_polar w H) as (P & ER & C & S). unfold k_E, orb_E, orb_E_z. rewrite ER, (turns_angle Phi _ _ Tu C S). cbn [k_z k_vx k_vy k_vz cart_of].
  rewrite !Rmult_1_l. pose proof (cs1 (y_phi w)) as Q. set (c := cos (y_phi w)) in *. set (s := sin (y_phi w)) in *.
  set (A := Phi _ _ _ _).
  transitivity (A + (y_vR w ^ 2 + y_vT w ^ 2) / 2 * (c * c + s * s) + y_vz w ^ 2 / 2); [field|rewrite Q; field].
Qed.
Lemma row_Lz w : k_Lz (cart_of w) = orb_Lz w.
Proof.
  unfold k_Lz, orb_Lz. cbn. pose proof (cs1 (y_phi w)) as Q. set (c := cos (y_phi w)) in *. set (s := sin (y_phi w)) in *.
  transitivity (y_R w * y_vT w * (c * c + s * s)); [ring|rewrite Q; ring].
Qed.
Lemma row_D D y a b t : stays_in D y a b -> a <= t <= b -> 0 < y_R (y t) ->
  D (kR (cart_of (y t))) (k_z (cart_of (y t))) (kp (cart_of (y t))) t.
Proof. intros H Ht HR. destruct (row_polar (y t) HR) as (P & ER & C & S). rewrite ER. exact (H t Ht _ C S). Qed.
Lemma E_Lz_law D l Phi Om y a b : potential_of D l Phi -> turns Phi -> rotates Om Phi -> stays_in D y a b -> orbit_rows l y a b ->
  constant_on (fun t => orb_Jacobi Phi Om (y t) t) a b.
Proof.
  intros Po Tu Ro St Or. apply (constant_ext (fun t => k_E Phi (cart_of (y t)) t - Om * k_Lz (cart_of (y t)))).
  { intros t Ht. destruct (Or t Ht) as [HR _]. unfold orb_Jacobi. rewrite row_E, row_Lz by auto. reflexivity. }
  apply constant_of. intros t Ht. destruct (Or t Ht) as [HR N]. destruct (row_polar (y t) HR) as (P & _).
  pose proof (d_energy D l Phi Om (fun s => cart_of (y s)) t Po Tu Ro P (row_D D y a b t St Ht HR) N) as DE.
  pose proof (d_k_Lz l (fun s => cart_of (y s)) t P N) as DL.
  eapply is_derive_eq; [exact (d_minus _ _ t _ _ DE (is_derive_Rscal _ t Om _ DL))|]. rr. ring.
Qed.
Lemma time_free_rotates Phi : time_free Phi -> rotates 0 Phi.
Proof. intros H R z phi t t'. rewrite (H R z phi t t'). f_equal. ring. Qed.
Lemma E_law D l Phi y a b : potential_of D l Phi -> turns Phi -> time_free Phi -> stays_in D y a b -> orbit_rows l y a b ->
  constant_on (fun t => orb_E Phi (y t) t) a b.
Proof.
  intros Po Tu Tf St Or. apply (constant_ext (fun t => orb_Jacobi Phi 0 (y t) t)); [intros t _; unfold orb_Jacobi; ring|].
  apply (E_Lz_law D l); auto using time_free_rotates.
Qed.
Lemma torque_zero l k t : List.Forall torque_free l -> kF comp_p l k t = 0.
Proof.
  intros H. unfold kF, add_up. induction H as [|c l Hc _ IH]; [reflexivity|]. cbn [map fold_right]. rewrite IH. destruct c; cbn in *; rewrite Hc; ring.
Qed.
Lemma Lz_law l y a b : List.Forall torque_free l -> orbit_rows l y a b -> constant_on (fun t => orb_Lz (y t)) a b.
Proof.
  intros Tf Or. apply (constant_ext (fun t => k_Lz (cart_of (y t)))); [intros t _; apply row_Lz|]. apply constant_of. intros t Ht. destruct (Or t Ht) as [HR N].
  destruct (row_polar (y t) HR) as (P & _). rewrite <- (torque_zero l (cart_of (y t)) t Tf). exact (d_k_Lz l (fun s => cart_of (y s)) t P N).
Qed.
Lemma central_torque_free l : List.Forall central l -> List.Forall torque_free l.
Proof. apply Forall_impl. intros [|] H; cbn in *; intros; apply H. Qed.
Lemma central_sum l k t : List.Forall central l -> k_z k * kF comp_R l k t = kR k * kF comp_z l k t.
Proof.
  intros H. unfold kF, add_up. induction H as [|c l Hc _ IH]; [cbn; ring|]. cbn [map fold_right]. rewrite !Rmult_plus_distr_l, IH. f_equal.
  destruct c; cbn in *; apply Hc.
Qed.
Lemma L_law l y a b : List.Forall central l -> orbit_rows l y a b ->
  constant_on (fun t => fst (fst (orb_L (y t)))) a b /\ constant_on (fun t => snd (fst (orb_L (y t)))) a b /\ constant_on (fun t => snd (orb_L (y t))) a b.
Proof.
  intros Ce Or. split; [|split].
  - apply (constant_ext (fun t => k_y (cart_of (y t)) * k_vz (cart_of (y t)) - k_z (cart_of (y t)) * k_vy (cart_of (y t)))); [intros t _; unfold orb_L; cbn; ring|].
    apply constant_of. intros t Ht. destruct (Or t Ht) as [HR N]. destruct (row_polar (y t) HR) as (P & _).
    destruct (newton_k l (fun s => cart_of (y s)) t P N) as (A & B & C). destruct N as (Dx & Dy & Dz & _). destruct (k_polar (cart_of (y t)) P) as (Q & Ex & Ey).
    eapply is_derive_eq; [apply d_minus; apply is_derive_Rmult; eassumption|]. rr. cbn beta.
    rewrite (torque_zero l (cart_of (y t)) t (central_torque_free l Ce)). pose proof (central_sum l (cart_of (y t)) t Ce) as S.
    rewrite Ey. transitivity (sin (kp (cart_of (y t))) * (kR (cart_of (y t)) * kF comp_z l (cart_of (y t)) t - k_z (cart_of (y t)) * kF comp_R l (cart_of (y t)) t)); [field; lra|rewrite S; ring].
  - apply (constant_ext (fun t => k_z (cart_of (y t)) * k_vx (cart_of (y t)) - k_x (cart_of (y t)) * k_vz (cart_of (y t)))); [intros t _; unfold orb_L; cbn; ring|].
    apply constant_of. intros t Ht. destruct (Or t Ht) as [HR N]. destruct (row_polar (y t) HR) as (P & _).
    destruct (newton_k l (fun s => cart_of (y s)) t P N) as (A & B & C). destruct N as (Dx & Dy & Dz & _). destruct (k_polar (cart_of (y t)) P) as (Q & Ex & Ey).
    eapply is_derive_eq; [apply d_minus; apply is_derive_Rmult; eassumption|]. rr. cbn beta.
    rewrite (torque_zero l (cart_of (y t)) t (central_torque_free l Ce)). pose proof (central_sum l (cart_of (y t)) t Ce) as S.
    rewrite Ex. transitivity (- cos (kp (cart_of (y t))) * (kR (cart_of (y t)) * kF comp_z l (cart_of (y t)) t - k_z (cart_of (y t)) * kF comp_R l (cart_of (y t)) t)); [field; lra|rewrite S; ring].
  - apply (constant_ext (fun t => orb_Lz (y t))); [|apply (Lz_law l); auto using central_torque_free].
    intros t _. rewrite <- row_Lz. unfold k_Lz, orb_L. cbn. ring.
Qed.
Lemma L_z w : snd (orb_L w) = orb_Lz w.
Proof. rewrite <- row_Lz. unfold k_Lz, orb_L. cbn. ring. Qed.
(** Separable potentials. *)
Lemma ER_law D l Phi y a b : potential_of D l Phi -> separable Phi -> stays_in D y a b -> orbit_rows l y a b ->
  constant_on (fun t => orb_ER Phi (y t) t) a b /\ constant_on (fun t => orb_Ez Phi (y t) t) a b.
Proof.
  intros Po (f & g & Se) St Or.
  assert (Tu : turns Phi) by (intros R z phi t; rewrite !Se; reflexivity).
  assert (Tf : time_free Phi) by (intros R z phi t t'; rewrite !Se; reflexivity).
  pose proof (E_law D l Phi y a b Po Tu Tf St Or) as CE.
  assert (CZ : constant_on (fun t => g (k_z (cart_of (y t))) + k_vz (cart_of (y t)) ^ 2 / 2) a b).
  { apply constant_of. intros t Ht. destruct (Or t Ht) as [HR N]. destruct (row_polar (y t) HR) as (P & _).
    destruct (newton_k l (fun s => cart_of (y s)) t P N) as (_ & _ & C). destruct N as (_ & _ & Dz & _).
    pose proof (row_D D y a b t St Ht HR) as HD. destruct Po as [Co Df]. set (w := cart_of (y t)) in *.
    pose proof (Df t (fun _ => kR w) (fun s => k_z (cart_of (y s))) (fun _ => kp w) t _ _ _ HD (is_derive_cst (kR w) t) Dz (is_derive_cst (kp w) t)) as G. cbn beta in G.
    eapply is_derive_eq. apply is_derive_Rplus; [|apply d_half_sq; exact C].
    - apply (is_derive_ext (fun s => Phi (kR w) (k_z (cart_of (y s))) (kp w) t - f (kR w))). { intros s. rewrite Se. rr. ring. }
      exact (d_minus _ _ t _ _ G (is_derive_cst (f (kR w)) t)).
    - rr. fold w. rewrite kF_total by tauto. unfold neg, zero. cbn. ring. }
  assert (H : forall t, orb_Ez Phi (y t) t = g (k_z (cart_of (y t))) + k_vz (cart_of (y t)) ^ 2 / 2 - g 0).
  { intros t. unfold orb_Ez, orb_E, orb_E_z. rewrite !Se. cbn [k_z k_vz cart_of]. rewrite !Rmult_0_l, !Rmult_1_l. field. }
  split.
  - intros t t' Ht Ht'. assert (X : forall t, orb_ER Phi (y t) t = orb_E Phi (y t) t - orb_Ez Phi (y t) t) by (intros u; unfold orb_ER, orb_Ez; ring).
    rewrite !X, !H, (CE t t' Ht Ht'), (CZ t t' Ht Ht'). reflexivity.
  - intros t t' Ht Ht'. rewrite !H, (CZ t t' Ht Ht'). reflexivity.
Qed.
(** ** The plane and the line *)
Lemma up_orbit l y a b : orbit_rows2 l y a b -> orbit_rows (map lift2 l) (fun s => up_cyl (y s)) a b.
Proof. intros H t Ht. destruct (H t Ht) as [HR N]. split; [exact HR|]. exact (newton_up l _ t N). Qed.
Lemma up_potential D l Phi : potential_of2 D l Phi -> potential_of (fun R _ phi t => D R phi t) (map lift2 l) (fun R _ phi t => Phi R phi t).
Proof.
  intros [Co H]. split.
  - clear H. induction Co as [|c l Hc _ IH]; cbn; constructor; auto. destruct c; [exact I|destruct Hc].
  - intros t Rf zf pf s dR dz dp HD DR Dz Dp. eapply is_derive_eq; [exact (H t Rf pf s dR dp HD DR Dp)|]. rr.
    unfold neg, total. rewrite lift2_R, lift2_p, lift2_z. unfold total2. ring.
Qed.
Lemma E2_law D l Phi y a b : potential_of2 D l Phi -> turns2 Phi -> (forall R phi t t', Phi R phi t = Phi R phi t') -> stays_in2 D y a b -> orbit_rows2 l y a b ->
  constant_on (fun t => orb_E2 Phi (y t) t) a b.
Proof.
  intros Po Tu Tf St Or. apply (constant_ext (fun t => orb_E (fun R _ phi t => Phi R phi t) (up_cyl (y t)) t)).
  { intros t _. unfold orb_E, orb_E_z, orb_E2. cbn. field. }
  apply (E_law (fun R _ phi t => D R phi t) (map lift2 l) (fun R _ phi t => Phi R phi t) (fun s => up_cyl (y s)));
    [exact (up_potential D l Phi Po)|intros R z phi t; apply Tu|intros R z phi t t'; apply Tf|exact St|exact (up_orbit l y a b Or)].
Qed.
Lemma Lz2_law l y a b : List.Forall torque_free2 l -> orbit_rows2 l y a b -> constant_on (fun t => o_R (y t) * o_vT (y t)) a b.
Proof.
  intros Tf Or. apply (Lz_law (map lift2 l) (fun s => up_cyl (y s))); [|exact (up_orbit l y a b Or)].
  clear Or. induction Tf as [|c l Hc _ IH]; cbn; constructor; auto. destruct c; cbn in *; intros; apply Hc.
Qed.
Lemma lin_sum l x t : lin_force1 l x t = add_up (fun f => f x t) l.
Proof. unfold lin_force1. rewrite (fold_shift (fun f : R -> R -> R => f x t)). ring. Qed.
Lemma E1_law (l : list (R -> R -> R)) (Phi : R -> R) Y a b : (forall x t, is_derive Phi x (- add_up (fun f => f x t) l)) ->
  (forall t, a <= t <= b -> solves_lin (py_linear l) Y t) -> constant_on (fun t => orb_E1 (fun x _ => Phi x) (Y t) t) a b.
Proof.
  intros Dp S. apply constant_of. intros t Ht. destruct (S t Ht) as [Dx Dv]. unfold py_linear in *. cbn [n_x n_v] in *.
  unfold orb_E1. eapply is_derive_eq. apply is_derive_Rplus; [|apply d_half_sq; exact Dv].
  - exact (is_derive_Rchain Phi (fun s => n_x (Y s)) t _ _ (Dp (n_x (Y t)) t) Dx).
  - rr. rewrite lin_sum. cbn beta. enough (X : forall u v : R, - u * v + v * u = 0) by apply X. intros; ring.
Qed.
