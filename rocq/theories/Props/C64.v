(** C64: the circular ring and the razor-thin disk of any surface density. *)
From Coq Require Import Reals Lra Psatz.
From Coquelicot Require Import Coquelicot.
From Verif.Lib Require Import RealAux.
From Verif.Model Require Import PotAPI RingDisk.
From Verif.Spec Require Import PotSpec PotApiSpec RingSpec.
From Verif.Proofs Require Import AxiProofs PotLift Elliptic RazorDisk RazorSurface.
Open Scope R_scope.
Notation RR := RbaseSymbolsImpl.R (only parsing).
Ltac rr := match goal with |- ?a = ?b => change (@eq RR a b) end.

(** ** The ring *)
Lemma off_rd a R z : off_ring a R z -> 0 < rd a R z.
Proof. intros (HR & [H|H]); [|apply rd_pos; exact H]. unfold rd. pose proof (pow2_ge_0 z). assert (0 < (R - a) ^ 2) by (apply pow2_gt_0; lra). lra. Qed.
Lemma rd_off a R z : 0 < R -> 0 < rd a R z -> off_ring a R z.
Proof. intros HR H. split; [exact HR|]. destruct (Req_EM_T R a) as [E|E]; [|left; exact E]. right. intros Z. unfold rd in H. subst. replace ((a - a) ^ 2 + 0 ^ 2) with 0 in H by ring. lra. Qed.
Lemma c_pos_id (f : RR -> RR) (x : RR) : ex_derive f x -> 0 < f x -> locally x (fun y => 0 < f y).
Proof. intros E H. pose proof (ex_derive_continuous (V := R_NormedModule) f x E) as C. apply (C (fun y => 0 < y)). apply locally_pos. exact H. Qed.
Lemma off_open a R z : off_ring a R z -> locally R (fun x => off_ring a x z) /\ locally z (fun x => off_ring a R x).
Proof.
  intros H. pose proof (off_rd a R z H) as P. destruct H as [HR _]. split.
  - apply (filter_imp (fun x => 0 < x /\ 0 < rd a x z)); [intros x [A B]; apply rd_off; assumption|]. apply filter_and; [apply locally_pos; exact HR|]. apply (c_pos_id (fun x => rd a x z)); [unfold rd; auto_derive; exact I|exact P].
  - apply (filter_imp (fun x => 0 < rd a R x)); [intros x B; apply rd_off; assumption|]. apply (c_pos_id (fun x => rd a R x)); [unfold rd; auto_derive; exact I|exact P].
Qed.
Section Ring.
  Variable a : RR.
  Hypothesis Ha : 0 < a.
  Lemma offD R z : off_ring a R z -> 0 < rD a R z. Proof using Ha. intros H. apply rD_p; [exact Ha|exact (proj1 H)]. Qed.
  Lemma via_R (f g : RR -> RR -> RR) (l l' : RR) R z : off_ring a R z -> (forall x y, off_ring a x y -> f x y = g x y) -> is_derive (fun x => g x z) R l -> l = l' -> is_derive (fun x => f x z) R l'.
  Proof using. intros H E D <-. apply (is_derive_ext_loc (fun x => g x z)); [|exact D]. apply (filter_imp (fun x => off_ring a x z)); [intros x Hx; symmetry; apply E; exact Hx|apply (off_open a R z H)]. Qed.
  Lemma via_z (f g : RR -> RR -> RR) (l l' : RR) R z : off_ring a R z -> (forall x y, off_ring a x y -> f x y = g x y) -> is_derive (fun x => g R x) z l -> l = l' -> is_derive (fun x => f R x) z l'.
  Proof using. intros H E D <-. apply (is_derive_ext_loc (fun x => g R x)); [|exact D]. apply (filter_imp (fun x => off_ring a R x)); [intros x Hx; symmetry; apply E; exact Hx|apply (off_open a R z H)]. Qed.
  Lemma ring_force : AxiForce (off_ring a) (ring_ev a) (ring_Rf a) (ring_zf a).
  Proof using Ha.
    assert (E : forall x y, off_ring a x y -> ring_ev a x y = - 4 * a * kk a x y) by (intros x y H; apply ring_ev_eq; [exact Ha|exact (proj1 H)]).
    split; intros R z H; pose proof (off_rd a R z H) as P; pose proof (offD R z H) as Q; pose proof (proj1 H) as HR.
    - apply (via_R (ring_ev a) (fun x y => - 4 * a * kk a x y) _ _ R z H E (is_derive_Rscal _ _ _ _ (d_kR a R z HR P Q ltac:(lra)))). rewrite (ring_Rf_eq a R z Ha HR P). unfold kR. rr. ring.
    - apply (via_z (ring_ev a) (fun x y => - 4 * a * kk a x y) _ _ R z H E (is_derive_Rscal _ _ _ _ (d_kz a R z HR P Q ltac:(lra)))). rewrite (ring_zf_eq a R z Ha HR P). unfold kz. rr. ring.
  Qed.
  Lemma ring_hess : AxiHess (off_ring a) (ring_Rf a) (ring_zf a) (ring_R2 a) (ring_z2 a) (ring_Rz a).
  Proof using Ha.
    assert (E1 : forall x y, off_ring a x y -> - ring_Rf a x y = - 4 * a * kR a x y) by (intros x y H; rewrite ring_Rf_eq; [rr; ring|exact Ha|exact (proj1 H)|exact (off_rd a x y H)]).
    assert (E2 : forall x y, off_ring a x y -> - ring_zf a x y = - 4 * a * kz a x y) by (intros x y H; rewrite ring_zf_eq; [rr; ring|exact Ha|exact (proj1 H)|exact (off_rd a x y H)]).
    split; intros R z H; pose proof (off_rd a R z H) as P; pose proof (offD R z H) as Q; pose proof (proj1 H) as HR; assert (N : a <> 0) by lra.
    - apply (via_R (fun x y => - ring_Rf a x y) (fun x y => - 4 * a * kR a x y) _ _ R z H E1 (is_derive_Rscal _ _ _ _ (d_kRR a R z HR P Q N))). symmetry. apply ring_R2_eq; assumption.
    - apply (via_z (fun x y => - ring_zf a x y) (fun x y => - 4 * a * kz a x y) _ _ R z H E2 (is_derive_Rscal _ _ _ _ (d_kzz a R z HR P Q N))). symmetry. apply ring_z2_eq; assumption.
    - apply (via_z (fun x y => - ring_Rf a x y) (fun x y => - 4 * a * kR a x y) _ _ R z H E1 (is_derive_Rscal _ _ _ _ (d_kRz' a R z HR P Q N))). symmetry. apply ring_Rz_eq; assumption.
    - apply (via_R (fun x y => - ring_zf a x y) (fun x y => - 4 * a * kz a x y) _ _ R z H E2 (is_derive_Rscal _ _ _ _ (d_kzR a R z HR P Q N))). symmetry. apply ring_Rz_eq; assumption.
  Qed.
  Lemma ring_poisson : AxiPoisson (off_ring a) (ring_Rf a) (ring_R2 a) (ring_z2 a) (fun _ _ => 0).
  Proof using Ha. intros R z H HR. pose proof (off_rd a R z H) as P. rewrite (ring_Rf_eq a R z Ha HR P), (ring_R2_eq a R z Ha HR P), (ring_z2_eq a R z Ha HR P). unfold kR2. field. lra. Qed.
End Ring.

(** The potential handed out for a ring of mass amp is the Newtonian potential of that ring. *)
Theorem C64_ring_potential : forall a amp, 0 < a -> exists Phi, apiEv (ring_pot a amp) = Some Phi /\ forall R z phi t, off_ring a R z -> Phi R z phi t = newton_ring amp a R z.
Proof.
  intros a amp Ha. eexists. split; [reflexivity|]. intros R z phi t H. cbn. unfold scale4. pose proof (off_rd a R z H) as P. pose proof (offD a Ha R z H) as Q. rewrite (ring_ev_eq a R z Ha (proj1 H)). unfold newton_ring, ring_amp. rewrite (around_kk a R z P Q). pose proof PI_RGT_0. field. split; lra.
Qed.
(** Forces and second derivatives are those of the potential; there is no mass off the ring. *)
Theorem C64_ring_forces : forall a amp, 0 < a -> forces_are_gradient (lift2 (off_ring a)) (ring_pot a amp) /\ hessian_is_correct (lift2 (off_ring a)) (ring_pot a amp).
Proof. intros a amp Ha. split; [apply axi_forces, ring_force, Ha|apply axi_hessian, ring_hess, Ha]. Qed.
Lemma laplace_from (D : RR -> RR -> Prop) amp ev Rf zf R2 z2 Rz : (forall R z, D R z -> locally R (fun x => D x z) /\ locally z (fun x => D R x)) -> AxiForce D ev Rf zf -> AxiHess D Rf zf R2 z2 Rz -> AxiPoisson D Rf R2 z2 (fun _ _ => 0) ->
  let p := Single amp (mkAxi ev Rf zf (Some R2) (Some z2) (Some Rz) None) in
  exists Phi dens, apiEv p = Some Phi /\ apiDens p = Some dens /\ satisfies_poisson (lift2 D) Phi (fun _ _ _ _ => 0) /\ forall R z phi t, D R z -> 0 < R -> dens R z phi t = 0.
Proof.
  intros O F H P p. destruct (axi_density D amp ev Rf zf R2 z2 Rz (fun _ _ => 0) (slice_open_lift D O) F H P) as (Phi & dens & E1 & E2 & S).
  exists Phi. eexists. split; [exact E1|]. split; [reflexivity|]. split.
  - intros R z phi t HD HR. pose proof (S R z phi t HD HR) as L. injection E2 as <-. unfold scale4 in L. rewrite Rmult_0_r in L. exact L.
  - intros R z phi t HD HR. cbn. unfold scale4, zero4. pose proof (P R z HD HR) as Q. cbv beta in Q. pose proof PI_RGT_0 as P0.
    assert (X : - (amp * Rf R z) / R + amp * R2 R z + 0 / R ^ 2 + amp * z2 R z = 0) by (replace (- (amp * Rf R z) / R + amp * R2 R z + 0 / R ^ 2 + amp * z2 R z) with (amp * (- Rf R z / R + R2 R z + z2 R z)) by (field; lra); rewrite Q; ring).
    etransitivity; [apply (f_equal (fun x => x / 4 / PI)); exact X|]. field. lra.
Qed.
Theorem C64_ring_vacuum : forall a amp, 0 < a -> exists Phi dens, apiEv (ring_pot a amp) = Some Phi /\ apiDens (ring_pot a amp) = Some dens /\
  satisfies_poisson (lift2 (off_ring a)) Phi (fun _ _ _ _ => 0) /\ forall R z phi t, off_ring a R z -> dens R z phi t = 0.
Proof.
  intros a amp Ha. destruct (laplace_from (off_ring a) (ring_amp a amp) _ _ _ _ _ _ (off_open a) (ring_force a Ha) (ring_hess a Ha) (ring_poisson a Ha)) as (Phi & dens & E1 & E2 & S & Z).
  exists Phi, dens. split; [exact E1|]. split; [exact E2|]. split; [exact S|]. intros R z phi t H. apply Z; [exact H|exact (proj1 H)].
Qed.
(** normalize gives the unit radial force of a rotation curve inside the ring's reach, and refuses the rings outside the normalisation radius: there no mass pulls inwards. *)
Lemma ring_inside a : 0 < a -> a < 1 -> ring_Rf a 1 0 < 0.
Proof.
  intros Ha H1. assert (O : off_ring a 1 0) by (split; [lra|left; lra]). pose proof (off_rd a 1 0 O) as P. pose proof (offD a Ha 1 0 O) as Q. rewrite (ring_Rf_eq a 1 0 Ha ltac:(lra) P).
  pose proof (sqrt_lt_R0 _ Q) as S. pose proof (mm_lt1 a 1 0 P Q) as M. assert (K : 0 < kk a 1 0) by (unfold kk; apply Rdiv_lt_0_compat; [apply K_pos; exact M|exact S]). assert (E : 0 < hh a 1 0) by (unfold hh; apply Rdiv_lt_0_compat; [apply E_pos; exact M|exact S]).
  unfold kR. assert (F : 0 < (1 ^ 2 - a ^ 2 - 0 ^ 2) / rd a 1 0) by (apply Rdiv_lt_0_compat; [nra|exact P]). set (u := (1 ^ 2 - a ^ 2 - 0 ^ 2) / rd a 1 0) in *. clearbody u. assert (0 < u * hh a 1 0) by (apply Rmult_lt_0_compat; assumption). assert (0 < a * (u * hh a 1 0 + kk a 1 0)) by (apply Rmult_lt_0_compat; lra). lra.
Qed.
Lemma ring_outside a : 1 < a -> 0 < ring_Rf a 1 0.
Proof.
  intros H1. assert (Ha : 0 < a) by lra. assert (O : off_ring a 1 0) by (split; [lra|left; lra]). pose proof (off_rd a 1 0 O) as P. pose proof (offD a Ha 1 0 O) as Q. rewrite (ring_Rf_eq a 1 0 Ha ltac:(lra) P).
  pose proof (sqrt_lt_R0 _ Q) as S. pose proof (mm_lt1 a 1 0 P Q) as M. assert (M0 : 0 < mm a 1 0) by (unfold mm; apply Rdiv_lt_0_compat; [lra|exact Q]). pose proof (KE_lt _ (conj M0 M)) as KE. rewrite (one_mm a 1 0 Q) in KE.
  assert (SQ : sqrt (rd a 1 0 / rD a 1 0) = (a - 1) / (a + 1)). { replace (rd a 1 0 / rD a 1 0) with (((a - 1) / (a + 1)) ^ 2) by (unfold rd, rD; field; repeat split; first [lra | apply Rgt_not_eq; nra]). apply sqrt_pow2. apply Rlt_le, Rdiv_lt_0_compat; lra. }
  rewrite SQ in KE. unfold kR, hh, kk. set (Ee := ellipe _) in *. set (Kk := ellipk _) in *. set (s := sqrt (rD a 1 0)) in *. clearbody Ee Kk s.
  assert (W : Kk < (a + 1) / (a - 1) * Ee). { apply (Rmult_lt_reg_l ((a - 1) / (a + 1))); [apply Rdiv_lt_0_compat; lra|]. replace ((a - 1) / (a + 1) * ((a + 1) / (a - 1) * Ee)) with Ee by (field; split; lra). exact KE. }
  replace (4 * a * (- ((1 ^ 2 - a ^ 2 - 0 ^ 2) / rd a 1 0 * (Ee / s) + Kk / s) / (2 * 1))) with (2 * a * (((a + 1) / (a - 1) * Ee - Kk) / s)).
  - apply Rmult_lt_0_compat; [lra|]. apply Rdiv_lt_0_compat; lra.
  - unfold rd. field. repeat split; first [lra | apply Rgt_not_eq; nra].
Qed.
Theorem C64_ring_normalize : forall a amp norm, 0 < a -> 0 < amp ->
  (a < 1 -> exists q, ring_normalize a amp norm = Some q /\ apiRf q v0 1 0 0 0 = - norm) /\
  (1 < a -> ring_normalize a amp norm = None /\ 0 < apiRf (ring_pot a amp) v0 1 0 0 0).
Proof.
  intros a amp norm Ha Hm. pose proof PI_RGT_0 as P0. assert (A : 0 < ring_amp a amp) by (unfold ring_amp; apply Rdiv_lt_0_compat; [exact Hm|apply Rmult_lt_0_compat; lra]). split; intros H1.
  - unfold ring_normalize. destruct (Rlt_dec 1 a); [lra|]. eexists. split; [reflexivity|]. pose proof (ring_inside a Ha H1) as F. unfold normalize. cbn. unfold scale4. set (x := ring_Rf a 1 0) in *. set (b := ring_amp a amp) in *. clearbody x b.
    assert (N : b * x < 0) by nra. rewrite Rabs_left by exact N. field. split; nra.
  - unfold ring_normalize. destruct (Rlt_dec 1 a); [|lra]. split; [reflexivity|]. cbn. unfold scale4. apply Rmult_lt_0_compat; [exact A|apply ring_outside; exact H1].
Qed.
Example C64_ring : off_ring (1 / 2) 1 0 /\ off_ring 1 1 (1 / 10) /\ (1 / 2 < 1 /\ 0 < 1 / 2).
Proof. unfold off_ring. repeat split; lra. Qed.

(** ** The razor-thin disk *)
Definition off_plane (R z : RR) : Prop := 0 < R /\ z <> 0.
Definition high (R z : RR) : Prop := 0 < R /\ zfloor < Rabs z.
Lemma zfloor_pos : 0 < zfloor. Proof. unfold zfloor. apply Rinv_0_lt_compat, pow_lt. lra. Qed.
Lemma high_off R z : high R z -> off_plane R z.
Proof. intros (A & B). split; [exact A|]. intros ->. rewrite Rabs_R0 in B. pose proof zfloor_pos. lra. Qed.
Lemma plane_open R z : off_plane R z -> locally R (fun x => off_plane x z) /\ locally z (fun x => off_plane R x).
Proof. intros (A & B). split; [apply (filter_imp (fun x => 0 < x)); [intros x H; split; assumption|apply locally_pos; exact A]|apply (filter_imp (fun x => x <> 0)); [intros x H; split; assumption|apply (open_neq 0); exact B]]. Qed.
Lemma high_open R z : high R z -> locally R (fun x => high x z) /\ locally z (fun x => high R x).
Proof.
  intros (A & B). split; [apply (filter_imp (fun x => 0 < x)); [intros x H; split; assumption|apply locally_pos; exact A]|]. apply (filter_imp (fun x => zfloor < Rabs x)); [intros x H; split; assumption|].
  apply (continuous_Rabs z (fun y => zfloor < y)). apply locally_gt. exact B.
Qed.
Section Disk.
  Variables (sdens : RR -> RR) (top : RR).
  Hypothesis H : razor sdens top.
  Let Ht := proj1 H. Let cS := proj1 (proj2 H). Let S0 := proj2 (proj2 H).
  Lemma dvia_R (f g : RR -> RR -> RR) (l l' : RR) R z : off_plane R z -> (forall x y, off_plane x y -> f x y = g x y) -> is_derive (fun x => g x z) R l -> l = l' -> is_derive (fun x => f x z) R l'.
  Proof using. intros O E D <-. apply (is_derive_ext_loc (fun x => g x z)); [|exact D]. apply (filter_imp (fun x => off_plane x z)); [intros x Hx; symmetry; apply E; exact Hx|apply (plane_open R z O)]. Qed.
  Lemma dvia_z (f g : RR -> RR -> RR) (l l' : RR) R z : off_plane R z -> (forall x y, off_plane x y -> f x y = g x y) -> is_derive (fun x => g R x) z l -> l = l' -> is_derive (fun x => f R x) z l'.
  Proof using. intros O E D <-. apply (is_derive_ext_loc (fun x => g R x)); [|exact D]. apply (filter_imp (fun x => off_plane R x)); [intros x Hx; symmetry; apply E; exact Hx|apply (plane_open R z O)]. Qed.
  Lemma disk_force : AxiForce off_plane (disk_ev sdens top) (disk_Rf sdens top) (disk_zf sdens top).
  Proof using H Ht cS S0.
    assert (E : forall x y, off_plane x y -> disk_ev sdens top x y = - 4 * dI sdens top kk x y) by (intros x y [A B]; apply disk_ev_eq; try assumption; lra).
    split; intros R z O; destruct (O) as [HR Hz].
    - apply (dvia_R _ (fun x y => - 4 * dI sdens top kk x y) _ _ R z O E (is_derive_Rscal _ _ _ _ (dI_kR sdens top cS R z HR Hz))). rewrite (disk_Rf_eq sdens top Ht cS S0 R z ltac:(lra) Hz HR). rr. ring.
    - apply (dvia_z _ (fun x y => - 4 * dI sdens top kk x y) _ _ R z O E (is_derive_Rscal _ _ _ _ (dI_kz sdens top cS R z HR Hz))). rewrite (disk_zf_eq sdens top Ht cS S0 R z ltac:(lra) Hz). rr. ring.
  Qed.
  Lemma disk_hess : AxiHess high (disk_Rf sdens top) (disk_zf sdens top) (disk_R2 sdens top) (disk_z2 sdens top) (disk_Rz sdens top).
  Proof using H Ht cS S0.
    assert (E1 : forall x y, off_plane x y -> - disk_Rf sdens top x y = - 4 * dI sdens top kR x y) by (intros x y [A B]; rewrite (disk_Rf_eq sdens top Ht cS S0 x y) by (assumption || lra); rr; ring).
    assert (E2 : forall x y, off_plane x y -> - disk_zf sdens top x y = - 4 * dI sdens top kz x y) by (intros x y [A B]; rewrite (disk_zf_eq sdens top Ht cS S0 x y) by (assumption || lra); rr; ring).
    split; intros R z Hh; pose proof (high_off R z Hh) as O; destruct (O) as [HR Hz]; destruct Hh as [_ Hf].
    - apply (dvia_R (fun x y => - disk_Rf sdens top x y) (fun x y => - 4 * dI sdens top kR x y) _ _ R z O E1 (is_derive_Rscal _ _ _ _ (dI_kRR sdens top cS R z HR Hz))). symmetry. apply disk_R2_eq; try assumption; lra.
    - apply (dvia_z (fun x y => - disk_zf sdens top x y) (fun x y => - 4 * dI sdens top kz x y) _ _ R z O E2 (is_derive_Rscal _ _ _ _ (dI_kzz sdens top cS R z HR Hz))). symmetry. apply disk_z2_eq; try assumption; lra.
    - apply (dvia_z (fun x y => - disk_Rf sdens top x y) (fun x y => - 4 * dI sdens top kR x y) _ _ R z O E1 (is_derive_Rscal _ _ _ _ (dI_kRz sdens top cS R z HR Hz))). symmetry. apply disk_Rz_eq; try assumption; lra.
    - apply (dvia_R (fun x y => - disk_zf sdens top x y) (fun x y => - 4 * dI sdens top kz x y) _ _ R z O E2 (is_derive_Rscal _ _ _ _ (dI_kzR sdens top cS R z HR Hz))). symmetry. apply disk_Rz_eq; try assumption; lra.
  Qed.
  Lemma disk_poisson : AxiPoisson high (disk_Rf sdens top) (disk_R2 sdens top) (disk_z2 sdens top) (fun _ _ => 0).
  Proof using H Ht cS S0.
    intros R z Hh HR. pose proof (high_off R z Hh) as [_ Hz]. destruct Hh as [_ Hf]. rewrite (disk_Rf_eq sdens top Ht cS S0 R z), (disk_R2_eq sdens top Ht cS S0 R z), (disk_z2_eq sdens top Ht cS S0 R z) by (assumption || lra).
    pose proof (dI_laplace sdens top cS R z HR Hz) as L. replace (- (4 * dI sdens top kR R z) / R + - 4 * dI sdens top kR2 R z + - 4 * dI sdens top kz2 R z) with (- 4 * (dI sdens top kR2 R z + dI sdens top kz2 R z + dI sdens top kR R z / R)) by (field; lra). rewrite L. rr. ring.
  Qed.
  Lemma disk_newton R z : 0 <= R -> z <> 0 -> disk_ev sdens top R z = newton_disk sdens top R z.
  Proof using H Ht cS S0.
    intros HR Hz. rewrite (disk_ev_eq sdens top Ht cS S0 R z HR Hz). unfold newton_disk, dI.
    pose proof (RInt_scal (V := R_CompleteNormedModule) (dk sdens kk R z) 0 top 4) as L. unfold scal in L; simpl in L. unfold mult in L; simpl in L. rewrite (RInt_ext (fun a => sdens a * a * around a R z) (fun a => 4 * dk sdens kk R z a)).
    - rewrite L by (apply exi, c_dk; [exact cS|apply k_cont; exact Hz]). rr. ring.
    - intros x _. rewrite (around_kk x R z (rd_pos x R z Hz) (rDz_pos x R z Hz)). unfold dk. rr. ring.
  Qed.
  Lemma disk_centre : disk_ev sdens top 0 0 = newton_disk sdens top 0 0.
  Proof using H Ht cS S0.
    unfold disk_ev, pot_zero. destruct (Req_EM_T 0 0) as [_|]; [|contradiction]. cbv zeta. unfold newton_disk.
    pose proof (RInt_scal (V := R_CompleteNormedModule) sdens 0 top (2 * PI)) as L. unfold scal in L; simpl in L. unfold mult in L; simpl in L. rewrite (RInt_ext (fun a => sdens a * a * around a 0 0) (fun a => 2 * PI * sdens a)).
    - rewrite L by (apply exi, cS). rr. ring.
    - intros x Hx. rewrite Rmin_left in Hx by exact Ht. unfold around. rewrite (RInt_ext _ (fun _ => / x)).
      + rewrite RInt_const. unfold scal; simpl. unfold mult; simpl. rr. field. lra.
      + intros phi _. unfold ring_distance. replace (0 ^ 2 + x ^ 2 - 2 * x * 0 * cos phi + 0 ^ 2) with (x ^ 2) by ring. rewrite sqrt_pow2 by lra. reflexivity.
  Qed.
End Disk.

(** The potential is the Newtonian potential of the surface density: off the plane and at the centre. *)
Theorem C64_disk_potential : forall amp sdens top, razor sdens top -> exists Phi, apiEv (Single amp (disk_class sdens top)) = Some Phi /\
  forall R z phi t, 0 <= R -> (z <> 0 \/ R = 0) -> Phi R z phi t = amp * newton_disk sdens top R z.
Proof.
  intros amp sdens top H. eexists. split; [reflexivity|]. intros R z phi t HR O. cbn. unfold scale4. f_equal. destruct (Req_EM_T z 0) as [->|Hz]; [destruct O as [O|O]; [contradiction|]; subst R; apply disk_centre; exact H|apply disk_newton; assumption].
Qed.
(** The forces are its gradient at every height; the second derivatives are right above the height where they are set to their values in the plane; there is no mass off the plane. *)
Theorem C64_disk_forces : forall amp sdens top, razor sdens top -> forces_are_gradient (lift2 off_plane) (Single amp (disk_class sdens top)) /\ hessian_is_correct (lift2 high) (Single amp (disk_class sdens top)).
Proof. intros amp sdens top H. split; [apply axi_forces, disk_force, H|apply axi_hessian, disk_hess, H]. Qed.
Theorem C64_disk_vacuum : forall amp sdens top, razor sdens top -> let p := Single amp (disk_class sdens top) in exists Phi dens, apiEv p = Some Phi /\ apiDens p = Some dens /\
  satisfies_poisson (lift2 high) Phi (fun _ _ _ _ => 0) /\ forall R z phi t, high R z -> dens R z phi t = 0.
Proof.
  intros amp sdens top H p. assert (F : AxiForce high (disk_ev sdens top) (disk_Rf sdens top) (disk_zf sdens top)) by (destruct (disk_force sdens top H) as [F1 F2]; split; intros R z Hh; [apply F1|apply F2]; apply high_off; exact Hh).
  destruct (laplace_from high amp _ _ _ _ _ _ high_open F (disk_hess sdens top H) (disk_poisson sdens top H)) as (Phi & dens & E1 & E2 & S & Z).
  exists Phi, dens. split; [exact E1|]. split; [exact E2|]. split; [exact S|]. intros R z phi t Hh. apply Z; [exact Hh|exact (proj1 Hh)].
Qed.
(** Just above the disk the vertical force tends to - 2 pi times the surface density that surfdens returns: Gauss's law for the disk. *)
Theorem C64_disk_surface : forall amp sdens top, razor sdens top -> forall R phi t, 0 < R ->
  disk_sigma sdens R = sdens R /\ filterlim (fun z => apizf (Single amp (disk_class sdens top)) v0 R z phi t) (at_right 0) (locally (- 2 * PI * (amp * disk_sigma sdens R))).
Proof.
  intros amp sdens top H R phi t HR. split; [reflexivity|]. cbn. unfold scale4, disk_sigma. replace (- 2 * PI * (amp * sdens R)) with (amp * (- 2 * PI * sdens R)) by ring.
  apply (filterlim_comp _ _ _ (fun z => disk_zf sdens top R z) (fun x => amp * x) _ (locally (- 2 * PI * sdens R)) _); [apply near_surface; assumption|]. apply (c2_mult (fun _ => amp) (fun x : R_UniformSpace => x)); [apply c2_const|apply continuous_id].
Qed.
(** The disk looks the same from above and from below, and pulls nothing out of its plane. *)
Theorem C64_disk_mirror : forall sdens top R z,
  disk_ev sdens top R (- z) = disk_ev sdens top R z /\ disk_Rf sdens top R (- z) = disk_Rf sdens top R z /\ disk_zf sdens top R (- z) = - disk_zf sdens top R z /\ disk_zf sdens top R 0 = 0 /\
  disk_R2 sdens top R (- z) = disk_R2 sdens top R z /\ disk_z2 sdens top R (- z) = disk_z2 sdens top R z /\ disk_Rz sdens top R (- z) = - disk_Rz sdens top R z.
Proof.
  intros sdens top R z. assert (S : (- z) ^ 2 = z ^ 2) by ring. assert (A : forall f, quad_apeak top f R (- z) = quad_apeak top f R z) by (intros f; unfold quad_apeak; cbv zeta; rewrite S, Rabs_Ropp; reflexivity).
  assert (F : floored (- z) = floored z) by (unfold floored; rewrite Rabs_Ropp; reflexivity).
  repeat split.
  - unfold disk_ev. cbv zeta. rewrite S, !A. destruct (Req_EM_T R 0); [|reflexivity]. destruct (Req_EM_T (- z) 0), (Req_EM_T z 0); try reflexivity; exfalso; lra.
  - unfold disk_Rf. cbv zeta. rewrite S. reflexivity.
  - unfold disk_zf. cbv zeta. rewrite S, !A. destruct (Req_EM_T (- z) 0), (Req_EM_T z 0); try (exfalso; lra); rr; ring.
  - unfold disk_zf. destruct (Req_EM_T 0 0); [reflexivity|contradiction].
  - unfold disk_R2. rewrite F. reflexivity.
  - unfold disk_z2. rewrite F. reflexivity.
  - unfold disk_Rz. cbv zeta. rewrite S, !A. rr. ring.
Qed.
Example C64_disk : razor (fun a => Rmax 0 (1 - Rabs a)) 1 /\ high 1 (1 / 2) /\ off_plane 1 (1 / 2).
Proof.
  assert (Z : zfloor < 1 / 2). { unfold zfloor. replace (1 / 2) with (/ 2) by field. apply Rinv_lt_contravar; [apply Rmult_lt_0_compat; [lra|apply pow_lt; lra]|]. apply Rlt_le_trans with (10 ^ 1); [lra|apply Rle_pow; [lra|]]. repeat constructor. }
  split; [|split; [split; [lra|rewrite Rabs_right; lra]|split; lra]]. split; [lra|]. split.
  - intros a. apply (continuous_ext (fun a => ((1 - Rabs a) + Rabs (1 - Rabs a)) / 2)); [intros x; unfold Rmax; destruct (Rle_dec 0 (1 - Rabs x)); [rewrite (Rabs_right (1 - Rabs x)) by lra|rewrite (Rabs_left (1 - Rabs x)) by lra]; rr; field|].
    assert (B : continuous (fun a => 1 - Rabs a) a) by (apply c2_minus; [apply c2_const|apply continuous_Rabs]). apply c2_div; [apply c2_plus; [exact B|apply (c2_comp Rabs); [exact B|apply continuous_Rabs]]|apply c2_const|lra].
  - intros a Ha. rewrite Rabs_right by lra. unfold Rmax. destruct (Rle_dec 0 (1 - a)); lra.
Qed.

Print Assumptions C64_ring_potential.
Print Assumptions C64_ring_forces.
Print Assumptions C64_ring_vacuum.
Print Assumptions C64_ring_normalize.
Print Assumptions C64_disk_potential.
Print Assumptions C64_disk_forces.
Print Assumptions C64_disk_vacuum.
Print Assumptions C64_disk_surface.
Print Assumptions C64_disk_mirror.
