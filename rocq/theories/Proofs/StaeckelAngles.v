(** The Staeckel frequencies and angles along an orbit. *)
From Coq Require Import Reals Lra Lia ZArith FunctionalExtensionality.
From Coquelicot Require Import Coquelicot.
From Verif.Lib Require Import RealAux.
From Verif.Model Require Import CoordsSpheroid Staeckel.
From Verif.Spec Require Import EOMSpec StaeckelSpec.
From Verif.Proofs Require Import SpheroidProofs EOMProofs EOMIntegrals StaeckelProofs StaeckelOrbit StaeckelProofs2 ChiProofs Libration ChiPrim StaeckelParts.
Open Scope R_scope.
Notation RR := RbaseSymbolsImpl.R (only parsing).
Ltac rr := match goal with |- ?a = ?b => change (@eq RR a b) end.

(** ** Along an orbit *)
Section Main.
  Variables (delta : RR) (Phi FR Fz : RR -> RR -> RR) (U V : RR -> RR) (R vR vT z vz phi : RR -> RR) (a b t0 : RR) (o : RR -> option RR) (v0u : RR -> RR)
    (umin umax vmin : RR).
  Hypotheses (Hd : 0 < delta) (G : force_of Phi FR Fz) (St : staeckel delta Phi U V) (Mi : mirror Phi)
    (M : forall t, a < t < b -> moves FR Fz R vR vT z vz phi t) (Ho : forall t, a < t < b -> starts (o t)) (Hv0 : forall t, a < t < b -> 0 < v0u t < PI) (Ht0 : a < t0 < b).
  Let s (t : RR) : single := single_init Phi delta (R t) (vR t) (vT t) (z t) (vz t) (o t) (v0u t).
  Let u (t : RR) := g_ux (s t).
  Let v (t : RR) := g_vx (s t).
  Let pu (t : RR) := g_pux (s t).
  Let pv (t : RR) := g_pvx (s t).
  Let I3 := third_integral delta U (g_E (s t0)) (g_Lz (s t0)) (u t0) (pu t0).
  Hypotheses (Hum : 0 < umin) (WU : simple_well (pu2 delta U (g_E (s t0)) (g_Lz (s t0)) I3) umin umax)
    (Hvm : 0 < vmin < PI / 2) (WV : simple_well (pv2 delta V (g_E (s t0)) (g_Lz (s t0)) I3) vmin (PI - vmin))
    (Hu0 : umin <= u t0 <= umax) (Hv0' : vmin <= v t0 <= PI - vmin).
  Let Su := SU Phi delta (s t0).
  Let Sv := SV Phi delta (s t0).
  Let dSu := dSU Phi FR Fz delta (s t0).
  Let dSv := dSV Phi FR Fz delta (s t0).
  Lemma umax_pos : umin < umax.
  Proof. exact (proj1 WU). Qed.

  Lemma sub_moves t t' : a < t < b -> a < t' < b -> forall x, Rmin t t' <= x <= Rmax t t' -> a < x < b.
  Proof. intros A B x Hx. unfold Rmin, Rmax in Hx. destruct (Rle_dec t t'); lra. Qed.
  Lemma in_left t t' : Rmin t t' <= t <= Rmax t t' /\ Rmin t t' <= t' <= Rmax t t'.
  Proof. split; split; auto using Rmin_l, Rmin_r, Rmax_l, Rmax_r. Qed.
  Lemma SU_same t x : a < t < b -> 0 < x -> SU Phi delta (s t) x = Su x.
  Proof.
    intros Ht Hx. destruct (in_left t t0) as [A B]. pose proof (sub_moves t t0 Ht Ht0) as Sub.
    exact (along_SU delta Phi FR Fz U V R vR vT z vz phi _ _ o v0u Hd G St (fun y Hy => M y (Sub y Hy)) (fun y Hy => Ho y (Sub y Hy)) (fun y Hy => Hv0 y (Sub y Hy)) t t0 x A B Hx).
  Qed.
  Lemma SV_same t x : a < t < b -> 0 < x < PI -> SV Phi delta (s t) x = Sv x.
  Proof.
    intros Ht Hx. destruct (in_left t t0) as [A B]. pose proof (sub_moves t t0 Ht Ht0) as Sub.
    exact (along_SV delta Phi FR Fz U V R vR vT z vz phi _ _ o v0u Hd G St (fun y Hy => M y (Sub y Hy)) (fun y Hy => Ho y (Sub y Hy)) (fun y Hy => Hv0 y (Sub y Hy)) t t0 x A B Hx).
  Qed.
  Lemma Lz_same t : a < t < b -> g_Lz (s t) = g_Lz (s t0).
  Proof.
    intros Ht. destruct (in_left t t0) as [A B]. pose proof (sub_moves t t0 Ht Ht0) as Sub.
    exact (along_Lz delta Phi FR Fz R vR vT z vz phi _ _ o v0u (fun y Hy => M y (Sub y Hy)) t t0 A B).
  Qed.
  Lemma E_same t : a < t < b -> g_E (s t) = g_E (s t0).
  Proof.
    intros Ht. destruct (in_left t t0) as [A B]. pose proof (sub_moves t t0 Ht Ht0) as Sub.
    exact (along_E delta Phi FR Fz R vR vT z vz phi _ _ o v0u G (fun y Hy => M y (Sub y Hy)) t t0 A B).
  Qed.
  Lemma s_v0u t : g_v0u (s t) = v0u t.
  Proof. unfold s, single_init. destruct (Rz_to_uv false delta (R t) (z t)). reflexivity. Qed.
  Lemma s_u0 t : a < t < b -> 0 < g_u0 (s t).
  Proof.
    intros Ht. pose proof (uv_spheroidal delta (R t) (z t) Hd (proj1 (M t Ht))) as Sp. unfold s, single_init. destruct (Rz_to_uv false delta (R t) (z t)) as [x y].
    cbn in *. pose proof (Ho t Ht) as H. destruct (o t); [exact H|exact (proj1 Sp)].
  Qed.
  Lemma dSU_der t x : a < t < b -> 0 < x -> is_derive (SU Phi delta (s t)) x (dSU Phi FR Fz delta (s t) x).
  Proof. intros Ht Hx. apply dSU_ok; auto. rewrite s_v0u. apply Hv0. exact Ht. Qed.
  Lemma dSV_der t x : a < t < b -> 0 < x < PI -> is_derive (SV Phi delta (s t)) x (dSV Phi FR Fz delta (s t) x).
  Proof. intros Ht Hx. apply dSV_ok; auto. apply s_u0. exact Ht. Qed.
  Lemma dSU_same t x : a < t < b -> 0 < x -> dSU Phi FR Fz delta (s t) x = dSu x.
  Proof.
    intros Ht Hx. apply (d_unique Su x); [|apply dSU_der; assumption].
    apply (is_derive_loc (SU Phi delta (s t)) Su x _ (fun y => 0 < y) (locally_pos x Hx)); [intros y Hy; apply SU_same; assumption|apply dSU_der; assumption].
  Qed.
  Lemma dSV_same t x : a < t < b -> 0 < x < PI -> dSV Phi FR Fz delta (s t) x = dSv x.
  Proof.
    intros Ht Hx. apply (d_unique Sv x); [|apply dSV_der; assumption].
    apply (is_derive_loc (SV Phi delta (s t)) Sv x _ (fun y => 0 < y < PI)); [apply filter_and; [apply locally_gt|apply locally_lt]; lra|intros y Hy; apply SV_same; assumption|apply dSV_der; assumption].
  Qed.
  (** The wells of the integrands. *)
  Lemma k2_pos : 0 < 2 * delta ^ 2.
  Proof. pose proof (pow_lt _ 2 Hd). lra. Qed.
  Lemma well_U : simple_well Su umin umax.
  Proof.
    apply (well_scale (pu2 delta U (g_E (s t0)) (g_Lz (s t0)) I3) Su (2 * delta ^ 2) umin umax 0 (umax + 1) k2_pos Hum ltac:(lra)); [|exact WU].
    intros q Hq. symmetry. apply (proj1 (integrands delta Phi U V (R t0) (vR t0) (vT t0) (z t0) (vz t0) (o t0) (v0u t0) Hd (proj1 (M t0 Ht0)) St (Ho t0 Ht0) (Hv0 t0 Ht0))). lra.
  Qed.
  Lemma well_V : simple_well Sv vmin (PI - vmin).
  Proof.
    apply (well_scale (pv2 delta V (g_E (s t0)) (g_Lz (s t0)) I3) Sv (2 * delta ^ 2) vmin (PI - vmin) 0 PI k2_pos); [lra|lra| |exact WV].
    intros q Hq. symmetry. apply (proj2 (integrands delta Phi U V (R t0) (vR t0) (vT t0) (z t0) (vz t0) (o t0) (v0u t0) Hd (proj1 (M t0 Ht0)) St (Ho t0 Ht0) (Hv0 t0 Ht0))). lra.
  Qed.
  Lemma uv_ok t : a < t < b -> spheroidal delta (R t) (z t) (u t) (v t).
  Proof. intros Ht. unfold u, v, s. rewrite single_ux, single_vx. apply uv_spheroidal; [exact Hd|exact (proj1 (M t Ht))]. Qed.
  Lemma u_pos t : a < t < b -> 0 < u t.
  Proof. intros Ht. exact (proj1 (uv_ok t Ht)). Qed.
  Lemma v_pos t : a < t < b -> 0 < v t < PI.
  Proof. intros Ht. exact (proj1 (proj2 (uv_ok t Ht))). Qed.
  Let ww (t : RR) := delta ^ 2 * (sinh (u t) ^ 2 + sin (v t) ^ 2).
  Lemma ww_pos t : a < t < b -> 0 < ww t.
  Proof. intros Ht. pose proof (w_pos delta FR Fz R vR vT z vz phi t Hd (M t Ht)) as W. unfold ww, u, v, s. rewrite single_ux, single_vx. exact W. Qed.
  Lemma Du t : a < t < b -> is_derive u t (pu t / ww t).
  Proof.
    intros Ht. pose proof (u_rate delta FR Fz R vR vT z vz phi t Hd (M t Ht)) as D.
    apply (is_derive_ext (fun t => fst (Rz_to_uv false delta (R t) (z t)))); [intros x; unfold u, s; rewrite single_ux; reflexivity|].
    refine (is_derive_eq _ _ _ _ D _). unfold ww, pu, u, v, s. rewrite single_ux, single_vx, single_pux. reflexivity.
  Qed.
  Lemma Dv t : a < t < b -> is_derive v t (pv t / ww t).
  Proof.
    intros Ht. pose proof (v_rate delta FR Fz R vR vT z vz phi t Hd (M t Ht)) as D.
    apply (is_derive_ext (fun t => snd (Rz_to_uv false delta (R t) (z t)))); [intros x; unfold v, s; rewrite single_vx; reflexivity|].
    refine (is_derive_eq _ _ _ _ D _). unfold ww, pv, u, v, s. rewrite single_ux, single_vx, single_pvx. reflexivity.
  Qed.
  Let kap := sqrt 2 * delta.
  Lemma kap_pos : 0 < kap.
  Proof. apply Rmult_lt_0_compat; [apply sqrt_lt_R0; lra|exact Hd]. Qed.
  Lemma kap_sq : kap ^ 2 = 2 * delta ^ 2.
  Proof. unfold kap. rewrite Rpow_mult_distr, pow2_sqrt by lra. reflexivity. Qed.
  Lemma pu_sq t : a < t < b -> pu t ^ 2 = kap ^ 2 * Su (u t).
  Proof.
    intros Ht. rewrite <- (SU_same t (u t) Ht (u_pos t Ht)). pose proof (SU_any Phi delta (R t) (vR t) (vT t) (z t) (vz t) (o t) (v0u t) Hd (proj1 (M t Ht))) as E. cbn zeta in E. fold (s t) in E.
    unfold u. rewrite E. rewrite kap_sq. fold (pu t). field. lra.
  Qed.
  Lemma pv_sq t : a < t < b -> pv t ^ 2 = kap ^ 2 * Sv (v t).
  Proof.
    intros Ht. rewrite <- (SV_same t (v t) Ht (v_pos t Ht)). pose proof (SV_any Phi delta (R t) (vR t) (vT t) (z t) (vz t) (o t) (v0u t) Hd (proj1 (M t Ht))) as E. cbn zeta in E. fold (s t) in E.
    unfold v. rewrite E. rewrite kap_sq. fold (pv t). field. lra.
  Qed.
  (** The orbit stays between the turning points. *)
  Lemma u_in t : a < t < b -> umin <= u t <= umax.
  Proof.
    apply (stays_in Su u a b umin umax t0 well_U); [intros x Hx; eapply cont_derive; apply Du; exact Hx| |exact Ht0|exact Hu0].
    intros x Hx. pose proof (pu_sq x Hx) as E. pose proof (pow2_ge_0 (pu x)). pose proof (pow_lt _ 2 kap_pos). destruct (Rle_dec 0 (Su (u x))) as [Y|Y]; [exact Y|nra].
  Qed.
  Lemma v_in t : a < t < b -> vmin <= v t <= PI - vmin.
  Proof.
    apply (stays_in Sv v a b vmin (PI - vmin) t0 well_V); [intros x Hx; eapply cont_derive; apply Dv; exact Hx| |exact Ht0|exact Hv0'].
    intros x Hx. pose proof (pv_sq x Hx) as E. pose proof (pow2_ge_0 (pv x)). pose proof (pow_lt _ 2 kap_pos). destruct (Rle_dec 0 (Sv (v x))) as [Y|Y]; [exact Y|nra].
  Qed.
  Lemma dSu_0 : 0 < dSu umin.
  Proof. destruct well_U as (_ & _ & _ & _ & (d & P & D) & _). unfold dSu. rewrite (d_unique _ _ _ _ (dSU_der t0 umin Ht0 Hum) D). exact P. Qed.
  Lemma dSu_1 : dSu umax < 0.
  Proof. destruct well_U as (L & _ & _ & _ & _ & (d & P & D)). unfold dSu. rewrite (d_unique _ _ _ _ (dSU_der t0 umax Ht0 ltac:(lra)) D). exact P. Qed.
  Lemma dSv_0 : 0 < dSv vmin.
  Proof. destruct well_V as (_ & _ & _ & _ & (d & P & D) & _). unfold dSv. rewrite (d_unique _ _ _ _ (dSV_der t0 vmin Ht0 ltac:(lra)) D). exact P. Qed.
  Lemma dSv_1 : dSv (PI - vmin) < 0.
  Proof. destruct well_V as (L & _ & _ & _ & _ & (d & P & D)). unfold dSv. rewrite (d_unique _ _ _ _ (dSV_der t0 (PI - vmin) Ht0 ltac:(lra)) D). exact P. Qed.
  (** Hamilton's equations in terms of the integrands. *)
  Lemma Dpu t : a < t < b -> is_derive pu t (dSu (u t) / (sinh (u t) ^ 2 + sin (v t) ^ 2)).
  Proof.
    intros Ht. pose proof (pu_rate delta Phi FR Fz R vR vT z vz phi t Hd (M t Ht)) as D.
    apply (is_derive_ext (fun t => delta * (vR t * cosh (fst (Rz_to_uv false delta (R t) (z t))) * sin (snd (Rz_to_uv false delta (R t) (z t))) + vz t * sinh (fst (Rz_to_uv false delta (R t) (z t))) * cos (snd (Rz_to_uv false delta (R t) (z t)))))).
    { intros x. unfold pu, s. rewrite single_pux. reflexivity. }
    refine (is_derive_eq _ _ _ _ D _). cbn beta. replace (fst (Rz_to_uv false delta (R t) (z t))) with (u t) by (unfold u, s; apply single_ux). replace (snd (Rz_to_uv false delta (R t) (z t))) with (v t) by (unfold v, s; apply single_vx).
    rr. f_equal. rewrite <- (dSU_same t (u t) Ht (u_pos t Ht)).
    pose proof (U_rate delta Phi FR Fz U V (u t) (v t) Hd G St (u_pos t Ht) (v_pos t Ht)) as D1.
    pose proof (U_rate delta Phi FR Fz U V (u t) (v0u t) Hd G St (u_pos t Ht) (Hv0 t Ht)) as D2.
    rewrite (d_unique _ _ _ _ D1 D2). pose proof (single_E Phi delta (R t) (vR t) (vT t) (z t) (vz t) (o t) (v0u t)) as E1. pose proof (single_Lz Phi delta (R t) (vR t) (vT t) (z t) (vz t) (o t) (v0u t)) as E2.
    fold (s t) in E1, E2. rewrite <- E1, <- E2. unfold dSU, dJRSquareddu, dU, potentialStaeckel, uv_to_Rz. rewrite s_v0u. cbn zeta beta.
    replace (sinh (2 * u t)) with (2 * sinh (u t) * cosh (u t)) by (unfold sinh, cosh; replace (2 * u t) with (u t + u t) by ring; replace (- (u t + u t)) with (- u t + - u t) by ring; rewrite !exp_plus; field).
    pose proof (sinh_pos_iff _ (u_pos t Ht)). field. split; lra.
  Qed.
  Lemma Dpv t : a < t < b -> is_derive pv t (dSv (v t) / (sinh (u t) ^ 2 + sin (v t) ^ 2)).
  Proof.
    intros Ht. pose proof (pv_rate delta Phi FR Fz R vR vT z vz phi t Hd (M t Ht)) as D.
    apply (is_derive_ext (fun t => delta * (vR t * sinh (fst (Rz_to_uv false delta (R t) (z t))) * cos (snd (Rz_to_uv false delta (R t) (z t))) - vz t * cosh (fst (Rz_to_uv false delta (R t) (z t))) * sin (snd (Rz_to_uv false delta (R t) (z t)))))).
    { intros x. unfold pv, s. rewrite single_pvx. reflexivity. }
    refine (is_derive_eq _ _ _ _ D _). cbn beta. replace (fst (Rz_to_uv false delta (R t) (z t))) with (u t) by (unfold u, s; apply single_ux). replace (snd (Rz_to_uv false delta (R t) (z t))) with (v t) by (unfold v, s; apply single_vx).
    rr. f_equal. rewrite <- (dSV_same t (v t) Ht (v_pos t Ht)).
    pose proof (V_rate delta Phi FR Fz U V (u t) (v t) Hd G St (u_pos t Ht) (v_pos t Ht)) as D1.
    pose proof (V_rate delta Phi FR Fz U V (g_u0 (s t)) (v t) Hd G St (s_u0 t Ht) (v_pos t Ht)) as D2.
    rewrite (d_unique _ _ _ _ D1 D2). pose proof (single_E Phi delta (R t) (vR t) (vT t) (z t) (vz t) (o t) (v0u t)) as E1. pose proof (single_Lz Phi delta (R t) (vR t) (vT t) (z t) (vz t) (o t) (v0u t)) as E2.
    fold (s t) in E1, E2. rewrite <- E1, <- E2. unfold dSV, dJzSquareddv, dV, potentialStaeckel, uv_to_Rz. cbn zeta beta. rewrite (sin_2a (v t)).
    pose proof (sv_pos _ (v_pos t Ht)). field. split; lra.
  Qed.
  (** ** The quadratures *)
  Lemma well_end : umin + (umax - umin) = umax.
  Proof. ring. Qed.
  Lemma well_endV : vmin + (PI - 2 * vmin) = PI - vmin.
  Proof. ring. Qed.
  Lemma wU_cont k q : umin <= q <= umax -> continuous (wU k) q.
  Proof.
    intros Hq. assert (P : 0 < sinh q) by (apply sinh_pos_iff; lra). assert (C : continuous (fun q => sinh q ^ 2) q) by (eapply cont_derive; apply (d_sq _ q _ (d_sinh _ q _ (d_id q)))).
    destruct k as [|[|k]]; cbn [wU].
    - exact C.
    - apply continuous_const.
    - apply (continuous_mult (fun _ => 1) (fun q => / sinh q ^ 2)); [apply continuous_const|]. apply (continuous_comp (fun q => sinh q ^ 2) Rinv); [exact C|]. apply continuous_Rinv. pose proof (pow_lt _ 2 P). lra.
  Qed.
  Lemma wV_cont k q : vmin <= q <= PI - vmin -> continuous (wV k) q.
  Proof.
    intros Hq. assert (P : 0 < sin q) by (apply sv_pos; lra). assert (C : continuous (fun q => sin q ^ 2) q) by (eapply cont_derive; apply (d_sq _ q _ (d_sin _ q _ (d_id q)))).
    destruct k as [|[|k]]; cbn [wV].
    - exact C.
    - apply continuous_const.
    - apply (continuous_mult (fun _ => 1) (fun q => / sin q ^ 2)); [apply continuous_const|]. apply (continuous_comp (fun q => sin q ^ 2) Rinv); [exact C|]. apply continuous_Rinv. pose proof (pow_lt _ 2 P). lra.
  Qed.
  Let qU (up : option RR) (k : nat) := quadsU 0 Phi FR Fz delta umin umax (s t0) up k.
  Let qV (up : option RR) (k : nat) := quadsV 0 Phi FR Fz delta vmin (s t0) up k.
  Lemma prim_U k : prim Su (wU k) (fun q => qU (Some q) k) umin umax (qU None k).
  Proof.
    destruct well_U as (L & Z0 & Z1 & Pos & _).
    pose proof (chi_prim_ok Su dSu (wU k) umin (umax - umin) ltac:(lra)) as H. rewrite well_end in H.
    apply H; clear H.
    - intros q Hq. apply dSU_der; [exact Ht0|lra].
    - exact Z0.
    - exact Z1.
    - exact Pos.
    - exact dSu_0.
    - exact dSu_1.
    - intros q Hq. apply wU_cont. exact Hq.
  Qed.
  Lemma prim_V' k : prim Sv (wV k) (fun q => qV (Some q) k) vmin (PI - vmin) (chi_weight 0 Sv dSv (wV k) vmin (PI - 2 * vmin) PI).
  Proof.
    destruct well_V as (L & Z0 & Z1 & Pos & _).
    pose proof (chi_prim_ok Sv dSv (wV k) vmin (PI - 2 * vmin) ltac:(lra)) as H. rewrite well_endV in H.
    apply H; clear H.
    - intros q Hq. apply dSV_der; [exact Ht0|lra].
    - exact Z0.
    - exact Z1.
    - exact Pos.
    - exact dSv_0.
    - exact dSv_1.
    - intros q Hq. apply wV_cont. exact Hq.
  Qed.
  Lemma Sv_mirror q : Sv (PI - q) = Sv q.
  Proof.
    unfold Sv, SV, JzSquared, potentialStaeckel, uv_to_Rz. cbn zeta. rewrite !sin_PI_x. replace (cos (PI - q)) with (- cos q) by (rewrite cos_minus, cos_PI, sin_PI; ring).
    replace (delta * cosh (g_u0 (s t0)) * - cos q) with (- (delta * cosh (g_u0 (s t0)) * cos q)) by ring. rewrite Mi. reflexivity.
  Qed.
  Lemma wV_mirror k q : wV k (PI - q) = wV k q.
  Proof. destruct k as [|[|k]]; cbn [wV]; rewrite ?sin_PI_x; reflexivity. Qed.
  Lemma reflV' k q : vmin <= q <= PI - vmin -> qV (Some q) k + qV (Some (PI - q)) k = chi_weight 0 Sv dSv (wV k) vmin (PI - 2 * vmin) PI.
  Proof.
    intros Hq. assert (L : vmin < PI - vmin) by lra. pose proof (prim_reflect _ _ _ _ _ _ L (prim_V' k)) as H. replace (PI - q) with (vmin + (PI - vmin) - q) by ring.
    refine (H _ q Hq). intros x _. replace (vmin + (PI - vmin) - x) with (PI - x) by ring. split; [apply Sv_mirror|apply wV_mirror].
  Qed.
  Lemma halfV k : chi_weight 0 Sv dSv (wV k) vmin (PI - 2 * vmin) PI = 2 * qV None k.
  Proof.
    rewrite <- (reflV' k (PI / 2)) by lra. replace (PI - PI / 2) with (PI / 2) by field.
    assert (E : qV (Some (PI / 2)) k = qV None k).
    { unfold qV, quadsV, chimaxV. fold (chi_of vmin (PI - 2 * vmin) (PI / 2)). f_equal. replace (PI / 2) with (vmin + (PI - 2 * vmin) / 2) at 1 by field. apply chi_of_half. lra. }
    rewrite E. ring.
  Qed.
  Lemma prim_V k : prim Sv (wV k) (fun q => qV (Some q) k) vmin (PI - vmin) (2 * qV None k).
  Proof. rewrite <- halfV. apply prim_V'. Qed.
  Lemma reflV k q : vmin <= q <= PI - vmin -> qV (Some q) k + qV (Some (PI - q)) k = 2 * qV None k.
  Proof. intros Hq. rewrite <- halfV. apply reflV'. exact Hq. Qed.
  (** They do not change along the orbit. *)
  Lemma chi_Q_ext S S' dS dS' q0 D x : 0 <= D -> (forall q, q0 <= q <= q0 + D -> S q = S' q /\ dS q = dS' q) -> chi_Q 0 S dS q0 D x = chi_Q 0 S' dS' q0 D x.
  Proof.
    intros HD H. pose proof (chi_y_range x) as B. unfold chi_Q. set (y := sin (x / 2) ^ 2) in *.
    destruct (H (q0 + D * y) ltac:(nra)) as [E1 E2]. rewrite E1, E2. rewrite (proj2 (H q0 ltac:(lra))), (proj2 (H (q0 + D) ltac:(lra))). reflexivity.
  Qed.
  Lemma qU_same t up k : a < t < b -> quadsU 0 Phi FR Fz delta umin umax (s t) up k = qU up k.
  Proof.
    intros Ht. pose proof umax_pos. unfold qU, quadsU, chi_weight. apply RInt_ext. intros x _. rewrite (chi_Q_ext (SU Phi delta (s t)) Su (dSU Phi FR Fz delta (s t)) dSu umin (umax - umin) x); [reflexivity|lra|].
    intros q Hq. split; [apply SU_same|apply dSU_same]; auto; lra.
  Qed.
  Lemma qV_same t up k : a < t < b -> quadsV 0 Phi FR Fz delta vmin (s t) up k = qV up k.
  Proof.
    intros Ht. unfold qV, quadsV, chi_weight. apply RInt_ext. intros x _. rewrite (chi_Q_ext (SV Phi delta (s t)) Sv (dSV Phi FR Fz delta (s t)) dSv vmin (PI - 2 * vmin) x); [reflexivity|lra|].
    intros q Hq. split; [apply SV_same|apply dSV_same]; auto; lra.
  Qed.
  Lemma qU_pos k : 0 < qU None k.
  Proof.
    destruct well_U as (L & Z0 & Z1 & Pos & _). unfold qU, quadsU, chimaxU.
    pose proof (weight_pos Su dSu (wU k) umin (umax - umin) ltac:(lra)) as H. rewrite well_end in H. apply H; clear H; auto using dSu_0, dSu_1, wU_cont.
    - intros q Hq. apply dSU_der; [exact Ht0|lra].
    - intros q Hq. assert (P : 0 < sinh q) by (apply sinh_pos_iff; lra). pose proof (pow_lt _ 2 P). destruct k as [|[|k]]; cbn [wU]; [assumption|lra|]. apply Rdiv_lt_0_compat; lra.
  Qed.
  Lemma qV_pos k : 0 < qV None k.
  Proof.
    enough (0 < 2 * qV None k) by lra. rewrite <- halfV.
    destruct well_V as (L & Z0 & Z1 & Pos & _).
    pose proof (weight_pos Sv dSv (wV k) vmin (PI - 2 * vmin) ltac:(lra)) as H. rewrite well_endV in H. apply H; clear H; auto using dSv_0, dSv_1, wV_cont.
    - intros q Hq. apply dSV_der; [exact Ht0|lra].
    - intros q Hq. assert (P : 0 < sin q) by (apply sv_pos; lra). pose proof (pow_lt _ 2 P). destruct k as [|[|k]]; cbn [wV]; [assumption|lra|]. apply Rdiv_lt_0_compat; lra.
  Qed.
  (** ** The angles *)
  Hypotheses (Hcu : / 10 ^ 6 <= (umax - umin) / umax) (Hcv : / 10 ^ 6 <= (PI / 2 - vmin) / PI * 2).
  Let Lz := g_Lz (s t0).
  Let c := delta / sqrt 2.
  Let cL := - Lz / delta / sqrt 2.
  Let dr := (qU None 0%nat * (delta / PI / sqrt 2), qU None 2%nat * (- Lz / PI / sqrt 2 / delta), qU None 1%nat * (- delta / PI / sqrt 2)).
  Let dz := (qV None 0%nat * (sqrt 2 * delta / PI), qV None 2%nat * (- Lz * sqrt 2 / PI / delta), qV None 1%nat * (sqrt 2 * delta / PI)).
  Lemma dr_ok t : a < t < b -> calcdJR 0 Phi FR Fz delta umin umax (s t) = dr.
  Proof. intros Ht. unfold calcdJR. destruct (Rlt_dec _ _); [lra|]. rewrite !qU_same, Lz_same by exact Ht. reflexivity. Qed.
  Lemma dz_ok t : a < t < b -> calcdJz 0 Phi FR Fz delta vmin (s t) = dz.
  Proof. intros Ht. unfold calcdJz. destruct (Rlt_dec _ _); [lra|]. rewrite !qV_same, Lz_same by exact Ht. reflexivity. Qed.
  Lemma s2 : 0 < sqrt 2.
  Proof. apply sqrt_lt_R0. lra. Qed.
  Lemma s22 : sqrt 2 * sqrt 2 = 2.
  Proof. apply sqrt_sqrt. lra. Qed.
  Let brU k t := branch (fun q => qU (Some q) k) (qU None k) (pu t) (u t).
  Let brV k t := branch (fun q => qV (Some q) k) (2 * qV None k) (pv t) (v t).
  Lemma parts_ok t : a < t < b ->
    u_part delta umin umax (s t) (quadsU 0 Phi FR Fz delta umin umax (s t)) dr = (c * brU 0 t, - c * brU 1 t, cL * brU 2 t) /\
    v_part delta vmin (s t) (quadsV 0 Phi FR Fz delta vmin (s t)) dz = (c * brV 0 t, c * brV 1 t, cL * brV 2 t).
  Proof.
    intros Ht.
    assert (EqU : quadsU 0 Phi FR Fz delta umin umax (s t) = qU) by (apply functional_extensionality; intros up; apply functional_extensionality; intros k; apply qU_same; exact Ht).
    assert (EqV : quadsV 0 Phi FR Fz delta vmin (s t) = qV) by (apply functional_extensionality; intros up; apply functional_extensionality; intros k; apply qV_same; exact Ht).
    rewrite EqU, EqV.
    pose proof (u_part_branch delta umin umax (s t) qU Hd (u_in t Ht)) as A.
    pose proof (v_part_branch delta vmin (s t) qV Hd (v_in t Ht) (proj2 Hvm) reflV) as B.
    rewrite (Lz_same t Ht) in A, B. split; [exact A|exact B].
  Qed.
  (** Any combination of the U primitives and V primitives whose weights add up to a constant rate is an angle. *)
  Lemma turn_U t : a < t < b -> exists e, 0 < e /\ forall x, Rabs (x - t) < e -> x <> t -> a < x < b /\ pu x <> 0.
  Proof.
    intros Ht. destruct (stops_isolated pu (dSu (u t) / (sinh (u t) ^ 2 + sin (v t) ^ 2)) t (Dpu t Ht)) as (e & He & B).
    - intros Z. pose proof (ww_pos t Ht) as W. unfold ww in W. assert (W' : 0 < sinh (u t) ^ 2 + sin (v t) ^ 2) by (pose proof (pow_lt _ 2 Hd); nra).
      assert (N : dSu (u t) <> 0).
      { destruct well_U as (L & Z0 & Z1 & Pos & _). pose proof (pu_sq t Ht) as E. rewrite Z in E. pose proof (pow_lt _ 2 kap_pos) as K. pose proof (u_in t Ht) as In.
        destruct (Req_dec (u t) umin) as [Y|Y]; [rewrite Y; pose proof dSu_0; lra|]. destruct (Req_dec (u t) umax) as [Y'|Y']; [rewrite Y'; pose proof dSu_1; lra|].
        pose proof (Pos (u t) ltac:(lra)). exfalso. nra. }
      intros Q. apply N. apply (Rmult_eq_reg_r (/ (sinh (u t) ^ 2 + sin (v t) ^ 2))); [|apply Rinv_neq_0_compat; lra]. rewrite Rmult_0_l. exact Q.
    - exists (Rmin e (Rmin (t - a) (b - t))). split; [apply Rmin_glb_lt; [exact He|apply Rmin_glb_lt; lra]|]. intros x Hx N.
      pose proof (Rmin_l e (Rmin (t - a) (b - t))). pose proof (Rmin_r e (Rmin (t - a) (b - t))). pose proof (Rmin_l (t - a) (b - t)). pose proof (Rmin_r (t - a) (b - t)).
      split; [|apply B; [lra|exact N]]. apply Rabs_def2 in Hx. lra.
  Qed.
  Lemma turn_V t : a < t < b -> exists e, 0 < e /\ forall x, Rabs (x - t) < e -> x <> t -> a < x < b /\ pv x <> 0.
  Proof.
    intros Ht. destruct (stops_isolated pv (dSv (v t) / (sinh (u t) ^ 2 + sin (v t) ^ 2)) t (Dpv t Ht)) as (e & He & B).
    - intros Z. pose proof (ww_pos t Ht) as W. unfold ww in W. assert (W' : 0 < sinh (u t) ^ 2 + sin (v t) ^ 2) by (pose proof (pow_lt _ 2 Hd); nra).
      assert (N : dSv (v t) <> 0).
      { destruct well_V as (L & Z0 & Z1 & Pos & _). pose proof (pv_sq t Ht) as E. rewrite Z in E. pose proof (pow_lt _ 2 kap_pos) as K. pose proof (v_in t Ht) as In.
        destruct (Req_dec (v t) vmin) as [Y|Y]; [rewrite Y; pose proof dSv_0; lra|]. destruct (Req_dec (v t) (PI - vmin)) as [Y'|Y']; [rewrite Y'; pose proof dSv_1; lra|].
        pose proof (Pos (v t) ltac:(lra)). exfalso. nra. }
      intros Q. apply N. apply (Rmult_eq_reg_r (/ (sinh (u t) ^ 2 + sin (v t) ^ 2))); [|apply Rinv_neq_0_compat; lra]. rewrite Rmult_0_l. exact Q.
    - exists (Rmin e (Rmin (t - a) (b - t))). split; [apply Rmin_glb_lt; [exact He|apply Rmin_glb_lt; lra]|]. intros x Hx N.
      pose proof (Rmin_l e (Rmin (t - a) (b - t))). pose proof (Rmin_r e (Rmin (t - a) (b - t))). pose proof (Rmin_l (t - a) (b - t)). pose proof (Rmin_r (t - a) (b - t)).
      split; [|apply B; [lra|exact N]]. apply Rabs_def2 in Hx. lra.
  Qed.
  Lemma near t : a < t < b -> locally t (fun x => a < x < b).
  Proof. intros Ht. apply filter_and; [apply locally_gt|apply locally_lt]; lra. Qed.
  Lemma locU t : a < t < b -> locally t (fun x => umin <= u x <= umax /\ pu x ^ 2 = kap ^ 2 * Su (u x)).
  Proof. intros Ht. eapply filter_imp; [|exact (near t Ht)]. intros x Hx. split; [apply u_in|apply pu_sq]; exact Hx. Qed.
  Lemma locV t : a < t < b -> locally t (fun x => vmin <= v x <= PI - vmin /\ pv x ^ 2 = kap ^ 2 * Sv (v x)).
  Proof. intros Ht. eapply filter_imp; [|exact (near t Ht)]. intros x Hx. split; [apply v_in|apply pv_sq]; exact Hx. Qed.
  Lemma angle_rule fU PU TU nU fV PV TV nV (ps : RR -> RR) dps om : prim Su fU PU umin umax TU -> TU = PI * IZR nU -> prim Sv fV PV vmin (PI - vmin) TV -> TV = PI * IZR nV ->
    (forall t, a < t < b -> is_derive ps t (dps t)) ->
    (forall t, a < t < b -> kap * fU (u t) / ww t + kap * fV (v t) / ww t + dps t = om) ->
    forall t, a < t < b -> angular (fun t => branch PU TU (pu t) (u t) + branch PV TV (pv t) (v t) + ps t) om t.
  Proof.
    intros HU EU HV EV Dps Rate t Ht.
    destruct well_U as (LU & ZU0 & ZU1 & PosU & _). destruct well_V as (LV & ZV0 & ZV1 & PosV & _). split.
    - destruct (branch_cont Su fU PU umin umax TU kap u pu (ww t) (dSu (u t) / (sinh (u t) ^ 2 + sin (v t) ^ 2)) t HU kap_pos (ww_pos t Ht) PosU ZU0 ZU1 (Du t Ht) (Dpu t Ht) (locU t Ht) nU EU) as (BU & CU & EqU).
      destruct (branch_cont Sv fV PV vmin (PI - vmin) TV kap v pv (ww t) (dSv (v t) / (sinh (u t) ^ 2 + sin (v t) ^ 2)) t HV kap_pos (ww_pos t Ht) PosV ZV0 ZV1 (Dv t Ht) (Dpv t Ht) (locV t Ht) nV EV) as (BV & CV & EqV).
      exists (fun x => BU x + BV x + ps x). split.
      + apply (continuous_plus (fun x => BU x + BV x) ps); [apply (continuous_plus BU BV); assumption|]. eapply cont_derive. apply Dps. exact Ht.
      + intros x. apply mod2pi_add; [apply mod2pi_add; auto|apply mod2pi_refl].
    - destruct (turn_U t Ht) as (e1 & He1 & B1). destruct (turn_V t Ht) as (e2 & He2 & B2). exists (Rmin e1 e2). split; [apply Rmin_glb_lt; assumption|]. intros x Hx N.
      destruct (B1 x ltac:(pose proof (Rmin_l e1 e2); lra) N) as [Hx1 N1]. destruct (B2 x ltac:(pose proof (Rmin_r e1 e2); lra) N) as [_ N2].
      pose proof (branch_rate Su fU PU umin umax TU kap u pu (ww x) (dSu (u x) / (sinh (u x) ^ 2 + sin (v x) ^ 2)) x HU kap_pos (ww_pos x Hx1) ZU0 ZU1 (Du x Hx1) (Dpu x Hx1) (locU x Hx1) N1) as DU.
      pose proof (branch_rate Sv fV PV vmin (PI - vmin) TV kap v pv (ww x) (dSv (v x) / (sinh (u x) ^ 2 + sin (v x) ^ 2)) x HV kap_pos (ww_pos x Hx1) ZV0 ZV1 (Dv x Hx1) (Dpv x Hx1) (locV x Hx1) N2) as DV.
      rewrite <- (Rate x Hx1). exact (is_derive_Rplus _ _ x _ _ (is_derive_Rplus _ _ x _ _ DU DV) (Dps x Hx1)).
  Qed.
  Let jE := qU None 0%nat * (delta / PI / sqrt 2).
  Let jL := qU None 2%nat * (- Lz / PI / sqrt 2 / delta).
  Let jI := qU None 1%nat * (- delta / PI / sqrt 2).
  Let kE := qV None 0%nat * (sqrt 2 * delta / PI).
  Let kL := qV None 2%nat * (- Lz * sqrt 2 / PI / delta).
  Let kI := qV None 1%nat * (sqrt 2 * delta / PI).
  Let WE t := c * brU 0 t + c * brV 0 t.
  Let WI t := - c * brU 1 t + c * brV 1 t.
  Let WL t := cL * brU 2 t + cL * brV 2 t.
  Lemma kc : kap * c = delta ^ 2.
  Proof. unfold kap, c. pose proof s2. field. lra. Qed.
  Lemma phi_rate t : a < t < b -> is_derive phi t (Lz / (delta ^ 2 * sinh (u t) ^ 2 * sin (v t) ^ 2)).
  Proof.
    intros Ht. destruct (M t Ht) as (HR & _ & _ & Dphi & _). refine (is_derive_eq _ _ _ _ Dphi _). unfold Lz. rewrite <- (Lz_same t Ht). unfold s at 1. rewrite single_Lz.
    destruct (uv_ok t Ht) as (Pu & Pv & ER & _). pose proof (sinh_pos_iff _ Pu). pose proof (sv_pos _ Pv). rr.
    replace (delta ^ 2 * sinh (u t) ^ 2 * sin (v t) ^ 2) with (R t ^ 2) by (rewrite ER; ring). field. lra.
  Qed.
  Lemma combo x y l nU nV (ps : RR -> RR) dps om : x * jE + y * jI + l * jL = IZR nU -> x * kE + y * kI + l * kL = IZR nV ->
    (forall t, a < t < b -> is_derive ps t (dps t)) -> (forall t, a < t < b -> x - l * (Lz / (delta ^ 2 * sinh (u t) ^ 2 * sin (v t) ^ 2)) + dps t = om) ->
    forall t, a < t < b -> angular (fun t => x * WE t + y * WI t + l * WL t + ps t) om t.
  Proof.
    intros EU EV Dps Rate t Ht. pose proof s2 as S2. pose proof s22 as S22. pose proof PI_RGT_0 as PP.
    assert (W : sqrt 2 = 2 / sqrt 2) by (apply (Rmult_eq_reg_r (sqrt 2)); [rewrite S22; field; lra|lra]).
    pose proof (prim_lin _ _ _ _ _ _ _ _ _ 1 (l * cL) (prim_lin _ _ _ _ _ _ _ _ _ (x * c) (- (y * c)) (prim_U 0) (prim_U 1)) (prim_U 2)) as HU.
    pose proof (prim_lin _ _ _ _ _ _ _ _ _ 1 (l * cL) (prim_lin _ _ _ _ _ _ _ _ _ (x * c) (y * c) (prim_V 0) (prim_V 1)) (prim_V 2)) as HV.
    pose proof (fun X => angle_rule _ _ _ nU _ _ _ nV ps dps om HU X HV) as H.
    assert (Q : forall t, (fun t => x * WE t + y * WI t + l * WL t + ps t) t = branch (fun q => 1 * (x * c * qU (Some q) 0%nat + - (y * c) * qU (Some q) 1%nat) + l * cL * qU (Some q) 2%nat)
        (1 * (x * c * qU None 0%nat + - (y * c) * qU None 1%nat) + l * cL * qU None 2%nat) (pu t) (u t) +
      branch (fun q => 1 * (x * c * qV (Some q) 0%nat + y * c * qV (Some q) 1%nat) + l * cL * qV (Some q) 2%nat)
        (1 * (x * c * (2 * qV None 0%nat) + y * c * (2 * qV None 1%nat)) + l * cL * (2 * qV None 2%nat)) (pv t) (v t) + ps t).
    { intros x'. cbv beta. rewrite !branch_lin. unfold WE, WI, WL, brU, brV. unfold branch. destruct (Rlt_dec 0 (pu x')), (Rlt_dec 0 (pv x')); ring. }
    assert (A : angular (fun t => branch (fun q => 1 * (x * c * qU (Some q) 0%nat + - (y * c) * qU (Some q) 1%nat) + l * cL * qU (Some q) 2%nat)
        (1 * (x * c * qU None 0%nat + - (y * c) * qU None 1%nat) + l * cL * qU None 2%nat) (pu t) (u t) +
      branch (fun q => 1 * (x * c * qV (Some q) 0%nat + y * c * qV (Some q) 1%nat) + l * cL * qV (Some q) 2%nat)
        (1 * (x * c * (2 * qV None 0%nat) + y * c * (2 * qV None 1%nat)) + l * cL * (2 * qV None 2%nat)) (pv t) (v t) + ps t) om t).
    { apply H; auto; clear H.
      - rewrite <- EU. unfold jE, jI, jL, c, cL. field. repeat split; lra.
      - rewrite <- EV. unfold kE, kI, kL, c, cL.
        assert (W1 : sqrt 2 * delta / PI = 2 / sqrt 2 * delta / PI) by (rewrite W at 1; reflexivity).
        assert (W2 : - Lz * sqrt 2 / PI / delta = - Lz * (2 / sqrt 2) / PI / delta) by (rewrite W at 1; reflexivity).
        rewrite W1, W2. field. repeat split; lra.
      - intros t' Ht'. rewrite <- (Rate t' Ht'). pose proof (ww_pos t' Ht') as Wp. destruct (uv_ok t' Ht') as (Pu & Pv & _). pose proof (sinh_pos_iff _ Pu) as S1. pose proof (sv_pos _ Pv) as S3.
        unfold ww in *. cbn [wU wV]. assert (Wq : 0 < sinh (u t') ^ 2 + sin (v t') ^ 2) by nra.
        unfold kap, c, cL. field. repeat split; lra. }
    destruct A as [(B & CB & EB) (e & He & D)]. split.
    - exists B. split; [exact CB|]. intros t'. rewrite Q. apply EB.
    - exists e. split; [exact He|]. intros t' Ht' N. eapply is_derive_ext; [intros y'; symmetry; apply Q|]. apply D; assumption.
  Qed.
  Lemma det_pos : 0 < jE /\ jI < 0 /\ 0 < kE /\ 0 < kI /\ 0 < jE * kI - kE * jI.
  Proof.
    pose proof s2. pose proof PI_RGT_0.
    assert (A : 0 < jE). { unfold jE. apply Rmult_lt_0_compat; [apply qU_pos|]. apply Rdiv_lt_0_compat; [apply Rdiv_lt_0_compat; lra|lra]. }
    assert (B : jI < 0). { unfold jI. pose proof (qU_pos 1). assert (0 < delta / PI / sqrt 2) by (apply Rdiv_lt_0_compat; [apply Rdiv_lt_0_compat; lra|lra]). replace (- delta / PI / sqrt 2) with (- (delta / PI / sqrt 2)) by (field; lra). nra. }
    assert (K : forall k, 0 < qV None k * (sqrt 2 * delta / PI)). { intros k. apply Rmult_lt_0_compat; [apply qV_pos|]. apply Rdiv_lt_0_compat; [apply Rmult_lt_0_compat; lra|lra]. }
    assert (C : 0 < kE) by apply K. assert (D : 0 < kI) by apply K. repeat (split; [assumption|]). nra.
  Qed.
  Let F := mkFreqs (kI / (jE * kI - kE * jI)) ((jI * kL - kI * jL) / (jE * kI - kE * jI)) (- jI / (jE * kI - kE * jI))
                   (- kE / (jE * kI - kE * jI)) (jE / (jE * kI - kE * jI)) (- (jE * kL - kE * jL) / (jE * kI - kE * jI)).
  Lemma freqs_ok t : a < t < b -> calcFreqs (calcdJR 0 Phi FR Fz delta umin umax (s t)) (calcdJz 0 Phi FR Fz delta vmin (s t)) = Some F.
  Proof.
    intros Ht. rewrite (dr_ok t Ht), (dz_ok t Ht). unfold calcFreqs, dr, dz. fold jE jL jI kE kL kI. destruct det_pos as (_ & _ & _ & _ & D).
    destruct (Req_EM_T (jE * kI - kE * jI) 0); [lra|]. reflexivity.
  Qed.
  Lemma freqs_pos : 0 < Or_ F /\ 0 < Oz_ F.
  Proof. destruct det_pos as (A & B & C & D & E). cbn. split; apply Rdiv_lt_0_compat; lra. Qed.
  Lemma jacobian : Or_ F * jE + I3r_ F * jI = 1 /\ Or_ F * kE + I3r_ F * kI = 0 /\ Oz_ F * jE + I3z_ F * jI = 0 /\ Oz_ F * kE + I3z_ F * kI = 1 /\
    jL + Op_ F * jE + I3p_ F * jI = 0 /\ kL + Op_ F * kE + I3p_ F * kI = 0.
  Proof. destruct det_pos as (_ & _ & _ & _ & D). cbn. repeat (split; [field; lra|]). field. lra. Qed.
  Lemma angles_ok t : a < t < b ->
    angles delta umin umax vmin (s t) (quadsU 0 Phi FR Fz delta umin umax (s t)) (quadsV 0 Phi FR Fz delta vmin (s t))
      (calcdJR 0 Phi FR Fz delta umin umax (s t)) (calcdJz 0 Phi FR Fz delta vmin (s t)) F =
    (Or_ F * WE t + I3r_ F * WI t, WL t + (Op_ F * WE t + I3p_ F * WI t), Oz_ F * WE t + I3z_ F * WI t + 1 / 2 * PI).
  Proof.
    intros Ht. rewrite (dr_ok t Ht), (dz_ok t Ht). unfold angles. destruct (parts_ok t Ht) as [A B]. rewrite A, B. reflexivity.
  Qed.
  Theorem angles_advance : forall t t', a < t < b -> a < t' < b ->
    mod2pi (Or_ F * WE t' + I3r_ F * WI t') (Or_ F * WE t + I3r_ F * WI t + Or_ F * (t' - t)) /\
    mod2pi (WL t' + (Op_ F * WE t' + I3p_ F * WI t') + phi t') (WL t + (Op_ F * WE t + I3p_ F * WI t) + phi t + Op_ F * (t' - t)) /\
    mod2pi (Oz_ F * WE t' + I3z_ F * WI t' + 1 / 2 * PI) (Oz_ F * WE t + I3z_ F * WI t + 1 / 2 * PI + Oz_ F * (t' - t)).
  Proof.
    destruct jacobian as (A1 & A2 & A3 & A4 & A5 & A6). intros t t' Ht Ht'.
    pose proof (angular_linear _ _ a b (combo (Or_ F) (I3r_ F) 0 1 0 (fun _ => 0) (fun _ => 0) (Or_ F) ltac:(lra) ltac:(lra) ltac:(intros; exact (is_derive_cst _ _)) ltac:(intros; cbv beta; ring)) t t' Ht Ht') as R1.
    pose proof (angular_linear _ _ a b (combo (Oz_ F) (I3z_ F) 0 0 1 (fun _ => 1 / 2 * PI) (fun _ => 0) (Oz_ F) ltac:(lra) ltac:(lra) ltac:(intros; exact (is_derive_cst _ _)) ltac:(intros; cbv beta; ring)) t t' Ht Ht') as R3.
    pose proof (angular_linear _ _ a b (combo (Op_ F) (I3p_ F) 1 0 0 phi _ (Op_ F) ltac:(lra) ltac:(lra) phi_rate ltac:(intros; cbv beta; ring)) t t' Ht Ht') as R2.
    cbv beta in R1, R2, R3. split; [|split].
    - destruct R1 as [k E]. exists k. lra.
    - destruct R2 as [k E]. exists k. lra.
    - destruct R3 as [k E]. exists k. lra.
  Qed.
  (** At a pericentre crossing of the plane upwards the angles are 0, phi, 0. *)
  Lemma zero_point t : a < t < b -> u t = umin -> z t = 0 -> 0 < vz t ->
    mod2pi (Or_ F * WE t + I3r_ F * WI t) 0 /\ mod2pi (WL t + (Op_ F * WE t + I3p_ F * WI t)) 0 /\ mod2pi (Oz_ F * WE t + I3z_ F * WI t + 1 / 2 * PI) 0.
  Proof.
    intros Ht Eu Ez Pvz. destruct jacobian as (A1 & A2 & A3 & A4 & A5 & A6). pose proof s2 as S2. pose proof s22 as S22. pose proof PI_RGT_0 as PP.
    assert (W : sqrt 2 = 2 / sqrt 2) by (apply (Rmult_eq_reg_r (sqrt 2)); [rewrite S22; field; lra|lra]).
    destruct (uv_ok t Ht) as (Pu & Pv & _ & Zv). rewrite Ez in Zv. pose proof (cosh_pos (u t)).
    assert (Cv : cos (v t) = 0). { apply (Rmult_eq_reg_l (delta * cosh (u t))); [rewrite <- Zv; ring|apply Rgt_not_eq; apply Rmult_lt_0_compat; lra]. }
    assert (Ev : v t = PI / 2). { destruct (Rtotal_order (v t) (PI / 2)) as [L|[L|L]]; [pose proof (cos_gt_0 (v t) ltac:(lra) L); lra|exact L|pose proof (cos_lt_0 (v t) L ltac:(lra)); lra]. }
    assert (Zu : pu t = 0). { pose proof (pu_sq t Ht) as E. rewrite Eu in E. destruct well_U as (_ & Z0 & _). rewrite Z0, Rmult_0_r in E. replace (pu t ^ 2) with (pu t * pu t) in E by ring. apply Rmult_integral in E. tauto. }
    assert (Nv : pv t < 0). { unfold pv, s. rewrite single_pvx. fold (u t) (v t). rewrite <- (single_ux Phi delta (R t) (vR t) (vT t) (z t) (vz t) (o t) (v0u t)), <- (single_vx Phi delta (R t) (vR t) (vT t) (z t) (vz t) (o t) (v0u t)).
      fold (s t). fold (u t) (v t). rewrite Cv, Ev, sin_PI2. assert (0 < delta * (vz t * cosh (u t))) by (apply Rmult_lt_0_compat; [exact Hd|apply Rmult_lt_0_compat; assumption]). lra. }
    assert (BU : forall k, brU k t = 2 * qU None k).
    { intros k. unfold brU, branch. rewrite Zu. destruct (Rlt_dec 0 0); [lra|]. rewrite Eu. rewrite (prim_0 _ _ _ _ _ _ (prim_U k)). ring. }
    assert (BV : forall k, brV k t = 3 * qV None k).
    { intros k. unfold brV, branch. destruct (Rlt_dec 0 (pv t)); [lra|]. rewrite Ev. pose proof (reflV k (PI / 2) ltac:(lra)) as Rf. replace (PI - PI / 2) with (PI / 2) in Rf by field. lra. }
    assert (EE : WE t = 2 * PI * jE + 3 / 2 * PI * kE). { unfold WE. rewrite BU, BV. unfold jE, kE, c. replace (sqrt 2 * delta / PI) with (2 / sqrt 2 * delta / PI) by (rewrite W at 2; reflexivity). field. lra. }
    assert (EI : WI t = 2 * PI * jI + 3 / 2 * PI * kI). { unfold WI. rewrite BU, BV. unfold jI, kI, c. replace (sqrt 2 * delta / PI) with (2 / sqrt 2 * delta / PI) by (rewrite W at 2; reflexivity). field. lra. }
    assert (EL : WL t = 2 * PI * jL + 3 / 2 * PI * kL). { unfold WL. rewrite BU, BV. unfold jL, kL, cL. replace (- Lz * sqrt 2 / PI / delta) with (- Lz * (2 / sqrt 2) / PI / delta) by (rewrite W at 2; reflexivity). field. lra. }
    rewrite EE, EI, EL. split; [|split].
    - exists 1%Z. transitivity (2 * PI * (Or_ F * jE + I3r_ F * jI) + 3 / 2 * PI * (Or_ F * kE + I3r_ F * kI)); [ring|]. rewrite A1, A2. ring.
    - exists 0%Z. transitivity (2 * PI * (jL + Op_ F * jE + I3p_ F * jI) + 3 / 2 * PI * (kL + Op_ F * kE + I3p_ F * kI)); [ring|]. rewrite A5, A6. ring.
    - exists 1%Z. transitivity (2 * PI * (Oz_ F * jE + I3z_ F * jI) + 3 / 2 * PI * (Oz_ F * kE + I3z_ F * kI) + 1 / 2 * PI); [ring|]. rewrite A3, A4. field.
  Qed.
  Theorem angle_facts : exists (f : freqs) (ra rp rz : RR -> RR), 0 < Or_ f /\ 0 < Oz_ f /\
    (forall t, a < t < b -> calcFreqs (calcdJR 0 Phi FR Fz delta umin umax (s t)) (calcdJz 0 Phi FR Fz delta vmin (s t)) = Some f /\
       angles delta umin umax vmin (s t) (quadsU 0 Phi FR Fz delta umin umax (s t)) (quadsV 0 Phi FR Fz delta vmin (s t))
         (calcdJR 0 Phi FR Fz delta umin umax (s t)) (calcdJz 0 Phi FR Fz delta vmin (s t)) f = (ra t, rp t, rz t)) /\
    (forall t t', a < t < b -> a < t' < b -> mod2pi (ra t') (ra t + Or_ f * (t' - t)) /\ mod2pi (rp t' + phi t') (rp t + phi t + Op_ f * (t' - t)) /\ mod2pi (rz t') (rz t + Oz_ f * (t' - t))) /\
    (forall t, a < t < b -> u t = umin -> z t = 0 -> 0 < vz t -> mod2pi (ra t) 0 /\ mod2pi (rp t) 0 /\ mod2pi (rz t) 0) /\
    (forall t, a < t < b -> umin <= u t <= umax /\ vmin <= v t <= PI - vmin).
  Proof.
    exists F, (fun t => Or_ F * WE t + I3r_ F * WI t), (fun t => WL t + (Op_ F * WE t + I3p_ F * WI t)), (fun t => Oz_ F * WE t + I3z_ F * WI t + 1 / 2 * PI).
    split; [exact (proj1 freqs_pos)|]. split; [exact (proj2 freqs_pos)|]. split; [intros t Ht; split; [apply freqs_ok|apply angles_ok]; exact Ht|].
    split; [exact angles_advance|]. split; [exact zero_point|]. intros t Ht. split; [apply u_in|apply v_in]; exact Ht.
  Qed.
End Main.
