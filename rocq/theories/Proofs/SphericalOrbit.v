(** Orbits in spherical potentials: radial motion, conserved quantities, and the angle in the orbital plane. *)
From Coq Require Import Reals Lra ZArith.
From Coquelicot Require Import Coquelicot.
From Verif.Lib Require Import RealAux.
From Verif.Spec Require Import StaeckelSpec SphericalSpec.
From Verif.Proofs Require Import EOMProofs StaeckelProofs KuzminKutuzovProofs Libration ChiPrim.
Open Scope R_scope.
Notation RR := RbaseSymbolsImpl.R (only parsing).
Ltac rr := match goal with |- ?a = ?b => change (@eq RR a b) end.

(** ** A rotating vector plus a libration *)
Theorem rotor_linear (psi K c s w : RR -> RR) om a b :
  (forall t, a < t < b -> cos (psi t) = c t /\ sin (psi t) = s t) ->
  (forall t, a < t < b -> is_derive c t (- w t * s t) /\ is_derive s t (w t * c t)) ->
  (forall t, a < t < b -> (exists B : RR -> RR, continuous B t /\ forall x, mod2pi (K x) (B x)) /\
     exists eps, 0 < eps /\ forall x, Rabs (x - t) < eps -> x <> t -> is_derive K x (om - w x)) ->
  forall t t', a < t < b -> a < t' < b -> mod2pi (psi t' + K t') (psi t + K t + om * (t' - t)).
Proof.
  intros H0 H1 H2.
  set (k := fun x => K x - om * x).
  assert (Cc : forall t, a < t < b -> continuous (fun x => cos (k x)) t /\ continuous (fun x => sin (k x)) t).
  { intros t Ht. destruct (H2 t Ht) as ((B & C & E) & _).
    assert (Cb : continuous (fun x => B x - om * x) t) by (apply (continuous_minus B (fun x => om * x)); [exact C|apply (@ex_derive_continuous R_AbsRing R_NormedModule); auto_derive; exact I]).
    assert (M : forall x, mod2pi (k x) (B x - om * x)). { intros x. destruct (E x) as [n En]. exists n. unfold k. rewrite En. ring. }
    split.
    - apply (continuous_ext (fun x => cos (B x - om * x))); [intros x; symmetry; apply (mod2pi_cos _ _ (M x))|].
      apply (continuous_comp (fun x => B x - om * x) cos); [exact Cb|apply (@ex_derive_continuous R_AbsRing R_NormedModule); auto_derive; exact I].
    - apply (continuous_ext (fun x => sin (B x - om * x))); [intros x; symmetry; apply (mod2pi_cos _ _ (M x))|].
      apply (continuous_comp (fun x => B x - om * x) sin); [exact Cb|apply (@ex_derive_continuous R_AbsRing R_NormedModule); auto_derive; exact I]. }
  assert (Dk : forall t, a < t < b -> exists eps, 0 < eps /\ forall x, Rabs (x - t) < eps -> x <> t -> a < x < b /\ is_derive k x (- w x)).
  { intros t Ht. destruct (H2 t Ht) as (_ & eps & He & B). exists (Rmin eps (Rmin (t - a) (b - t))). split; [repeat apply Rmin_glb_lt; lra|]. intros x Hx N.
    assert (X1 : Rabs (x - t) < eps) by (eapply Rlt_le_trans; [exact Hx|apply Rmin_l]).
    assert (X2 : Rabs (x - t) < t - a) by (eapply Rlt_le_trans; [exact Hx|eapply Rle_trans; [apply Rmin_r|apply Rmin_l]]).
    assert (X3 : Rabs (x - t) < b - t) by (eapply Rlt_le_trans; [exact Hx|eapply Rle_trans; [apply Rmin_r|apply Rmin_r]]).
    apply Rabs_def2 in X2. apply Rabs_def2 in X3. split; [lra|].
    refine (is_derive_eq _ _ _ _ (d_minus K (fun x => om * x) x _ _ (B x X1 N) (d_scale (fun x => x) x om 1 (d_id x))) _). rr. ring. }
  assert (C1 : forall t t', a < t < b -> a < t' < b -> c t * cos (k t) - s t * sin (k t) = c t' * cos (k t') - s t' * sin (k t')).
  { apply (isolated_constant (fun t => c t * cos (k t) - s t * sin (k t))).
    - intros t Ht. destruct (Cc t Ht), (H1 t Ht) as [Dc Ds]. apply (continuous_minus (fun t => c t * cos (k t)) (fun t => s t * sin (k t)));
        [apply (continuous_mult c (fun t => cos (k t)))|apply (continuous_mult s (fun t => sin (k t)))]; try assumption; eapply cont_derive; eassumption.
    - intros t Ht. destruct (Dk t Ht) as (eps & He & B). exists eps. split; [exact He|]. intros x Hx N. destruct (B x Hx N) as [In D]. destruct (H1 x In) as [Dc Ds].
      refine (is_derive_eq _ _ _ _ (d_minus _ _ x _ _ (is_derive_Rmult c (fun t => cos (k t)) x _ _ Dc (d_cos k x _ D)) (is_derive_Rmult s (fun t => sin (k t)) x _ _ Ds (d_sin k x _ D))) _). cbn beta. rr. ring. }
  assert (C2 : forall t t', a < t < b -> a < t' < b -> s t * cos (k t) + c t * sin (k t) = s t' * cos (k t') + c t' * sin (k t')).
  { apply (isolated_constant (fun t => s t * cos (k t) + c t * sin (k t))).
    - intros t Ht. destruct (Cc t Ht), (H1 t Ht) as [Dc Ds]. apply (continuous_plus (fun t => s t * cos (k t)) (fun t => c t * sin (k t)));
        [apply (continuous_mult s (fun t => cos (k t)))|apply (continuous_mult c (fun t => sin (k t)))]; try assumption; eapply cont_derive; eassumption.
    - intros t Ht. destruct (Dk t Ht) as (eps & He & B). exists eps. split; [exact He|]. intros x Hx N. destruct (B x Hx N) as [In D]. destruct (H1 x In) as [Dc Ds].
      refine (is_derive_eq _ _ _ _ (is_derive_Rplus _ _ x _ _ (is_derive_Rmult s (fun t => cos (k t)) x _ _ Ds (d_cos k x _ D)) (is_derive_Rmult c (fun t => sin (k t)) x _ _ Dc (d_sin k x _ D))) _). cbn beta. rr. ring. }
  intros t t' Ht Ht'. specialize (C1 t' t Ht' Ht). specialize (C2 t' t Ht' Ht). destruct (H0 t Ht) as [P Q]. destruct (H0 t' Ht') as [P' Q'].
  rewrite <- P, <- P', <- Q, <- Q', <- !cos_plus in C1. rewrite <- P, <- P', <- Q, <- Q', <- !sin_plus in C2.
  destruct (cos_sin_mod2pi _ _ C1 C2) as [n E]. exists n. unfold k in E. lra.
Qed.

(** ** Kinematics *)
Section Orbit.
  Variables (Phi F : RR -> RR) (R vR vT z vz phi : RR -> RR) (a b : RR).
  Hypotheses (HF : radial_force Phi F) (M : forall t, a < t < b -> moves (central_R F) (central_z F) R vR vT z vz phi t).
  Let r (t : RR) : RR := sph_radius (R t) (z t).
  Let vr (t : RR) : RR := sph_speed (R t) (vR t) (z t) (vz t).
  Let A (t : RR) : RR := z t * vR t - R t * vz t.
  Let E (t : RR) : RR := sph_energy Phi (R t) (vR t) (vT t) (z t) (vz t).
  Let L2 (t : RR) : RR := (R t * vT t) ^ 2 + (z t * vT t) ^ 2 + A t ^ 2.
  Let L (t : RR) : RR := sph_momentum (R t) (vR t) (vT t) (z t) (vz t).
  Lemma r_facts t : a < t < b -> 0 < r t /\ r t ^ 2 = R t ^ 2 + z t ^ 2.
  Proof.
    intros Ht. destruct (M t Ht) as (HR & _). assert (P : 0 < R t ^ 2 + z t ^ 2) by (pose proof (pow_lt _ 2 HR); pose proof (pow2_ge_0 (z t)); lra).
    split; [apply sqrt_lt_R0; exact P|apply pow2_sqrt; lra].
  Qed.
  Lemma r_rate t : a < t < b -> is_derive r t (vr t).
  Proof.
    intros Ht. destruct (r_facts t Ht) as [P Q]. destruct (M t Ht) as (HR & DR & Dz & _). assert (P2 : 0 < R t ^ 2 + z t ^ 2) by (rewrite <- Q; apply pow_lt; exact P).
    refine (is_derive_eq _ _ _ _ (d_sqrt (fun t => R t ^ 2 + z t ^ 2) t _ P2 (is_derive_Rplus _ _ t _ _ (d_sq R t _ DR) (d_sq z t _ Dz))) _).
    unfold vr, sph_speed. fold (sph_radius (R t) (z t)). fold (r t). rr. field. lra.
  Qed.
  Lemma speeds t : a < t < b -> r t ^ 2 * (vR t ^ 2 + vT t ^ 2 + vz t ^ 2 - vr t ^ 2) = L2 t.
  Proof.
    intros Ht. destruct (r_facts t Ht) as [P Q]. unfold vr, sph_speed, L2, A. fold (sph_radius (R t) (z t)). fold (r t).
    replace (((R t * vR t + z t * vz t) / r t) ^ 2) with ((R t * vR t + z t * vz t) ^ 2 / r t ^ 2) by (field; lra).
    replace (r t ^ 2 * (vR t ^ 2 + vT t ^ 2 + vz t ^ 2 - (R t * vR t + z t * vz t) ^ 2 / r t ^ 2)) with (r t ^ 2 * (vR t ^ 2 + vT t ^ 2 + vz t ^ 2) - (R t * vR t + z t * vz t) ^ 2) by (field; lra).
    rewrite Q. ring.
  Qed.
  Lemma vr_rate t : a < t < b -> is_derive vr t (L2 t / r t ^ 3 + F (r t)).
  Proof.
    intros Ht. destruct (r_facts t Ht) as [P Q]. pose proof (speeds t Ht) as V. destruct (M t Ht) as (HR & DR & Dz & _ & DvR & DvT & Dvz).
    pose proof (is_derive_Rplus _ _ t _ _ (is_derive_Rmult R vR t _ _ DR DvR) (is_derive_Rmult z vz t _ _ Dz Dvz)) as N.
    refine (is_derive_eq _ _ _ _ (d_quot (fun t => R t * vR t + z t * vz t) r t _ _ ltac:(lra) N (r_rate t Ht)) _).
    rewrite <- V. unfold central_R, central_z. fold (sph_radius (R t) (z t)). fold (r t). set (f := F (r t)). clearbody f.
    assert (X : R t * vR t + z t * vz t = r t * vr t) by (unfold vr, sph_speed; fold (sph_radius (R t) (z t)); fold (r t); field; lra).
    assert (Y : R t * (R t / r t) + z t * (z t / r t) = r t) by (replace (R t * (R t / r t) + z t * (z t / r t)) with ((R t ^ 2 + z t ^ 2) / r t) by (field; lra); rewrite <- Q; field; lra).
    cbn beta. rr. rewrite X.
    replace (vR t * vR t + R t * (vT t ^ 2 / R t + f * (R t / r t)) + (vz t * vz t + z t * (f * (z t / r t)))) with (vR t ^ 2 + vT t ^ 2 + vz t ^ 2 + f * (R t * (R t / r t) + z t * (z t / r t))) by (field; lra).
    rewrite Y. field. lra.
  Qed.
  Lemma const_on (g : RR -> RR) : (forall t, a < t < b -> is_derive g t 0) -> forall t t', a < t < b -> a < t' < b -> g t = g t'.
  Proof.
    intros D. assert (W : forall t t', a < t < b -> a < t' < b -> t < t' -> g t = g t') by (intros t t' Ht Ht' Lt; apply flat_between; [exact Lt|]; intros s Hs; apply D; lra).
    intros t t' Ht Ht'. destruct (Rtotal_order t t') as [X|[X|X]]; [apply W; assumption|rewrite X; reflexivity|symmetry; apply W; assumption].
  Qed.
  Lemma Lz_rate t : a < t < b -> is_derive (fun t => R t * vT t) t 0.
  Proof.
    intros Ht. destruct (M t Ht) as (HR & DR & Dz & _ & DvR & DvT & Dvz). refine (is_derive_eq _ _ _ _ (is_derive_Rmult R vT t _ _ DR DvT) _). rr. field. lra.
  Qed.
  Lemma A_rate t : a < t < b -> is_derive A t (z t * vT t ^ 2 / R t).
  Proof.
    intros Ht. destruct (r_facts t Ht) as [P Q]. destruct (M t Ht) as (HR & DR & Dz & _ & DvR & DvT & Dvz).
    refine (is_derive_eq _ _ _ _ (d_minus _ _ t _ _ (is_derive_Rmult z vR t _ _ Dz DvR) (is_derive_Rmult R vz t _ _ DR Dvz)) _).
    unfold central_R, central_z. fold (sph_radius (R t) (z t)). fold (r t). rr. field. lra.
  Qed.
  Lemma B_rate t : a < t < b -> is_derive (fun t => z t * vT t) t (- vT t / R t * A t).
  Proof.
    intros Ht. destruct (M t Ht) as (HR & DR & Dz & _ & DvR & DvT & Dvz). refine (is_derive_eq _ _ _ _ (is_derive_Rmult z vT t _ _ Dz DvT) _). unfold A. rr. field. lra.
  Qed.
  Lemma L2_rate t : a < t < b -> is_derive L2 t 0.
  Proof.
    intros Ht. destruct (M t Ht) as (HR & _). pose proof (is_derive_Rplus _ _ t _ _ (is_derive_Rplus _ _ t _ _ (d_sq _ t _ (Lz_rate t Ht)) (d_sq _ t _ (B_rate t Ht))) (d_sq A t _ (A_rate t Ht))) as D.
    refine (is_derive_eq _ _ _ _ D _). cbn beta. rr. field. lra.
  Qed.
  Lemma L_const t t' : a < t < b -> a < t' < b -> L t = L t'.
  Proof. intros Ht Ht'. unfold L, sph_momentum. f_equal. exact (const_on L2 L2_rate t t' Ht Ht'). Qed.
  Lemma Lz_const t t' : a < t < b -> a < t' < b -> R t * vT t = R t' * vT t'.
  Proof. exact (const_on (fun t => R t * vT t) Lz_rate t t'). Qed.
  Lemma L_sq t : L t ^ 2 = L2 t /\ 0 <= L t.
  Proof. unfold L, sph_momentum. split; [|apply sqrt_pos]. apply pow2_sqrt. unfold L2, A. pose proof (pow2_ge_0 (R t * vT t)). pose proof (pow2_ge_0 (z t * vT t)). pose proof (pow2_ge_0 (z t * vR t - R t * vz t)). lra. Qed.
  Lemma E_rate t : a < t < b -> is_derive E t 0.
  Proof.
    intros Ht. destruct (r_facts t Ht) as [P Q]. destruct (M t Ht) as (HR & DR & Dz & _ & DvR & DvT & Dvz).
    pose proof (is_derive_Rchain Phi r t _ _ (HF (r t) P) (r_rate t Ht)) as DP.
    pose proof (is_derive_Rplus _ _ t _ _ (is_derive_Rplus _ _ t _ _ (d_sq vR t _ DvR) (d_sq vT t _ DvT)) (d_sq vz t _ Dvz)) as DK.
    apply (is_derive_ext (fun t => Phi (r t) + / 2 * (vR t ^ 2 + vT t ^ 2 + vz t ^ 2))); [intros x; unfold E, sph_energy, r, sph_radius; rr; field|].
    refine (is_derive_eq _ _ _ _ (is_derive_Rplus _ _ t _ _ DP (d_scale _ t (/ 2) _ DK)) _).
    unfold central_R, central_z, vr, sph_speed. fold (sph_radius (R t) (z t)). fold (r t). set (f := F (r t)). clearbody f. cbn beta. rr. field. lra.
  Qed.
  Lemma E_const t t' : a < t < b -> a < t' < b -> E t = E t'.
  Proof. exact (const_on E E_rate t t'). Qed.
  Lemma radial_eq t : a < t < b -> vr t ^ 2 = sph_radial2 Phi (E t) (L t) (r t).
  Proof.
    intros Ht. destruct (r_facts t Ht) as [P Q]. pose proof (speeds t Ht) as V. unfold sph_radial2. rewrite (proj1 (L_sq t)), <- V. unfold E, sph_energy. fold (sph_radius (R t) (z t)). fold (r t). field. lra.
  Qed.

  (** The orbital plane. *)
  Variable t0 : RR.
  Hypothesis (Ht0 : a < t0 < b).
  Let N := sqrt (L t0 ^ 2 - (R t0 * vT t0) ^ 2).
  Lemma N_sq t : a < t < b -> N ^ 2 = (z t * vT t) ^ 2 + A t ^ 2.
  Proof.
    intros Ht. assert (X : L t0 ^ 2 - (R t0 * vT t0) ^ 2 = (z t * vT t) ^ 2 + A t ^ 2) by (rewrite (L_const t0 t Ht0 Ht), (Lz_const t0 t Ht0 Ht), (proj1 (L_sq t)); unfold L2; ring).
    unfold N. rewrite X. apply pow2_sqrt. pose proof (pow2_ge_0 (z t * vT t)). pose proof (pow2_ge_0 (A t)). lra.
  Qed.
  Let cpsi (t : RR) : RR := - (R t / r t) * A t / N.
  Let spsi (t : RR) : RR := z t / r t * L t0 / N.
  Hypothesis (HN : 0 < N).
  Lemma psi_unit t : a < t < b -> cpsi t ^ 2 + spsi t ^ 2 = 1.
  Proof.
    intros Ht. destruct (r_facts t Ht) as [P Q]. pose proof (N_sq t Ht) as NN. pose proof (proj1 (L_sq t)) as LL. rewrite (L_const t t0 Ht Ht0) in LL. unfold L2 in LL.
    unfold cpsi, spsi. replace ((- (R t / r t) * A t / N) ^ 2 + (z t / r t * L t0 / N) ^ 2) with ((R t ^ 2 * A t ^ 2 + z t ^ 2 * L t0 ^ 2) / (r t ^ 2 * N ^ 2)) by (field; lra).
    rewrite LL, NN, Q. field. split; [|rewrite <- Q; apply pow_nonzero; lra]. rewrite <- NN. apply pow_nonzero. lra.
  Qed.
  Lemma psi_rate t : a < t < b -> is_derive cpsi t (- (L t0 / r t ^ 2) * spsi t) /\ is_derive spsi t (L t0 / r t ^ 2 * cpsi t).
  Proof.
    intros Ht. destruct (r_facts t Ht) as [P Q]. pose proof (proj1 (L_sq t)) as LL. rewrite (L_const t t0 Ht Ht0) in LL. unfold L2 in LL.
    destruct (M t Ht) as (HR & DR & Dz & _ & DvR & DvT & Dvz).
    assert (VR : vr t = (R t * vR t + z t * vz t) / r t) by reflexivity.
    assert (D1 : is_derive (fun t => R t / r t) t (z t * A t / r t ^ 3)).
    { refine (is_derive_eq _ _ _ _ (d_quot R r t _ _ ltac:(lra) DR (r_rate t Ht)) _). rewrite VR. unfold A. rr.
      replace ((vR t * r t - (R t * vR t + z t * vz t) / r t * R t) / r t ^ 2) with ((vR t * r t ^ 2 - R t * (R t * vR t + z t * vz t)) / r t ^ 3) by (field; lra). rewrite Q. f_equal. ring. }
    assert (D2 : is_derive (fun t => z t / r t) t (- R t * A t / r t ^ 3)).
    { refine (is_derive_eq _ _ _ _ (d_quot z r t _ _ ltac:(lra) Dz (r_rate t Ht)) _). rewrite VR. unfold A. rr.
      replace ((vz t * r t - (R t * vR t + z t * vz t) / r t * z t) / r t ^ 2) with ((vz t * r t ^ 2 - z t * (R t * vR t + z t * vz t)) / r t ^ 3) by (field; lra). rewrite Q. f_equal. ring. }
    split.
    - apply (is_derive_ext (fun t => - / N * (R t / r t * A t))); [intros x; unfold cpsi, Rdiv; rr; ring|].
      refine (is_derive_eq _ _ _ _ (d_scale _ t (- / N) _ (is_derive_Rmult _ A t _ _ D1 (A_rate t Ht))) _). unfold spsi. cbn beta. rr.
      replace (- (L t0 / r t ^ 2) * (z t / r t * L t0 / N)) with (- / N * (z t * L t0 ^ 2 / r t ^ 3)) by (field; lra). f_equal. rewrite LL.
      replace ((R t * vT t) ^ 2 + (z t * vT t) ^ 2 + A t ^ 2) with (r t ^ 2 * vT t ^ 2 + A t ^ 2) by (rewrite Q; ring). field. lra.
    - apply (is_derive_ext (fun t => L t0 / N * (z t / r t))); [intros x; unfold spsi, Rdiv; rr; ring|].
      refine (is_derive_eq _ _ _ _ (d_scale _ t (L t0 / N) _ D2) _). unfold cpsi. rr. field. lra.
  Qed.
  (** The node: its direction does not change. *)
  Let cnode (t : RR) : RR := (- A t * cos (phi t) + z t * vT t * sin (phi t)) / N.
  Let snode (t : RR) : RR := (- A t * sin (phi t) - z t * vT t * cos (phi t)) / N.
  Lemma node_const : forall t t', a < t < b -> a < t' < b -> cnode t = cnode t' /\ snode t = snode t'.
  Proof.
    assert (Dc : forall t, a < t < b -> is_derive cnode t 0).
    { intros t Ht. destruct (M t Ht) as (HR & _ & _ & Dp & _).
      apply (is_derive_ext (fun t => / N * (z t * vT t * sin (phi t) - A t * cos (phi t)))); [intros x; unfold cnode, Rdiv; rr; ring|].
      refine (is_derive_eq _ _ _ _ (d_scale _ t (/ N) _ (d_minus _ _ t _ _ (is_derive_Rmult _ _ t _ _ (B_rate t Ht) (d_sin phi t _ Dp)) (is_derive_Rmult A _ t _ _ (A_rate t Ht) (d_cos phi t _ Dp)))) _).
      cbn beta. rr. field. lra. }
    assert (Ds : forall t, a < t < b -> is_derive snode t 0).
    { intros t Ht. destruct (M t Ht) as (HR & _ & _ & Dp & _).
      apply (is_derive_ext (fun t => - / N * (A t * sin (phi t) + z t * vT t * cos (phi t)))); [intros x; unfold snode, Rdiv; rr; ring|].
      refine (is_derive_eq _ _ _ _ (d_scale _ t (- / N) _ (is_derive_Rplus _ _ t _ _ (is_derive_Rmult A _ t _ _ (A_rate t Ht) (d_sin phi t _ Dp)) (is_derive_Rmult _ _ t _ _ (B_rate t Ht) (d_cos phi t _ Dp)))) _).
      cbn beta. rr. field. lra. }
    intros t t' Ht Ht'. split; [exact (const_on cnode Dc t t' Ht Ht')|exact (const_on snode Ds t t' Ht Ht')].
  Qed.
End Orbit.
