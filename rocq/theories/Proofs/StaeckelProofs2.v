(** Integrals along orbits, derivatives of the integrands, the C code, the focal distance. *)
From Coq Require Import Reals Lra Lia List.
From Coquelicot Require Import Coquelicot.
From Verif.Lib Require Import RealAux.
From Verif.Model Require Import CoordsSpheroid Staeckel.
From Verif.Spec Require Import EOMSpec StaeckelSpec.
From Verif.Proofs Require Import SpheroidProofs EOMProofs EOMIntegrals StaeckelProofs StaeckelOrbit.
Import ListNotations.
Open Scope R_scope.
Notation RR := RbaseSymbolsImpl.R (only parsing).
Ltac rr := match goal with |- ?a = ?b => change (@eq RR a b) end.

Lemma single_E (pot : RR -> RR -> RR) (delta R vR vT z vz : RR) o v0u : g_E (single_init pot delta R vR vT z vz o v0u) = pot R z + vR ^ 2 / 2 + vT ^ 2 / 2 + vz ^ 2 / 2.
Proof. unfold single_init. destruct (Rz_to_uv false delta R z). reflexivity. Qed.
Lemma single_Lz (pot : RR -> RR -> RR) (delta R vR vT z vz : RR) o v0u : g_Lz (single_init pot delta R vR vT z vz o v0u) = R * vT.
Proof. unfold single_init. destruct (Rz_to_uv false delta R z). reflexivity. Qed.
Lemma single_ux (pot : RR -> RR -> RR) (delta R vR vT z vz : RR) o v0u : g_ux (single_init pot delta R vR vT z vz o v0u) = fst (Rz_to_uv false delta R z).
Proof. unfold single_init. destruct (Rz_to_uv false delta R z). reflexivity. Qed.
Lemma single_vx (pot : RR -> RR -> RR) (delta R vR vT z vz : RR) o v0u : g_vx (single_init pot delta R vR vT z vz o v0u) = snd (Rz_to_uv false delta R z).
Proof. unfold single_init. destruct (Rz_to_uv false delta R z). reflexivity. Qed.
Lemma single_pux (pot : RR -> RR -> RR) (delta R vR vT z vz : RR) o v0u : let u := fst (Rz_to_uv false delta R z) in let v := snd (Rz_to_uv false delta R z) in
  g_pux (single_init pot delta R vR vT z vz o v0u) = delta * (vR * cosh u * sin v + vz * sinh u * cos v).
Proof. unfold single_init. destruct (Rz_to_uv false delta R z). reflexivity. Qed.
Lemma single_pvx (pot : RR -> RR -> RR) (delta R vR vT z vz : RR) o v0u : let u := fst (Rz_to_uv false delta R z) in let v := snd (Rz_to_uv false delta R z) in
  g_pvx (single_init pot delta R vR vT z vz o v0u) = delta * (vR * sinh u * cos v - vz * cosh u * sin v).
Proof. unfold single_init. destruct (Rz_to_uv false delta R z). reflexivity. Qed.

(** Along an orbit nothing that enters the actions changes. *)
Section Along.
  Variables (delta : RR) (Phi FR Fz : RR -> RR -> RR) (U V : RR -> RR) (R vR vT z vz phi : RR -> RR) (a b : RR) (o : RR -> option RR) (v0u : RR -> RR).
  Hypotheses (Hd : 0 < delta) (G : force_of Phi FR Fz) (St : staeckel delta Phi U V) (M : forall t, a <= t <= b -> moves FR Fz R vR vT z vz phi t).
  Let s (t : RR) : single := single_init Phi delta (R t) (vR t) (vT t) (z t) (vz t) (o t) (v0u t).
  Let I3 (t : RR) : RR := third_integral delta U (g_E (s t)) (g_Lz (s t)) (g_ux (s t)) (g_pux (s t)).
  Lemma along_E : constant_on (fun t => g_E (s t)) a b.
  Proof.
    apply (constant_ext (fun t => Phi (R t) (z t) + vR t ^ 2 / 2 + vT t ^ 2 / 2 + vz t ^ 2 / 2)); [intros t _; symmetry; apply single_E|].
    apply constant_of. intros t Ht. exact (E_rate Phi FR Fz R vR vT z vz phi t G (M t Ht)).
  Qed.
  Lemma along_Lz : constant_on (fun t => g_Lz (s t)) a b.
  Proof.
    apply (constant_ext (fun t => R t * vT t)); [intros t _; symmetry; apply single_Lz|].
    apply constant_of. intros t Ht. exact (Lz_rate FR Fz R vR vT z vz phi t (M t Ht)).
  Qed.
  Lemma along_I3 : constant_on I3 a b.
  Proof.
    unfold I3, s. eapply constant_ext; [|apply constant_of; intros t Ht; exact (I3_rate delta Phi FR Fz U V R vR vT z vz phi t Hd G St (M t Ht))].
    intros t _. cbn beta. rewrite single_E, single_Lz, single_ux, single_pux. reflexivity.
  Qed.
  Hypotheses (Ho : forall t, a <= t <= b -> starts (o t)) (Hv0 : forall t, a <= t <= b -> 0 < v0u t < PI).
  Lemma along_SU t t' u : a <= t <= b -> a <= t' <= b -> 0 < u -> SU Phi delta (s t) u = SU Phi delta (s t') u.
  Proof.
    intros Ht Ht' Hu. apply (Rmult_eq_reg_l (2 * delta ^ 2)); [|pose proof (pow_lt _ 2 Hd); lra]. unfold s.
    rewrite (proj1 (integrands delta Phi U V _ _ _ _ _ (o t) (v0u t) Hd (proj1 (M t Ht)) St (Ho t Ht) (Hv0 t Ht)) u Hu).
    rewrite (proj1 (integrands delta Phi U V _ _ _ _ _ (o t') (v0u t') Hd (proj1 (M t' Ht')) St (Ho t' Ht') (Hv0 t' Ht')) u Hu).
    fold (s t) (s t') (I3 t) (I3 t'). rewrite (along_I3 t t' Ht Ht'). rewrite (along_E t t' Ht Ht'), (along_Lz t t' Ht Ht'). reflexivity.
  Qed.
  Lemma along_SV t t' v : a <= t <= b -> a <= t' <= b -> 0 < v < PI -> SV Phi delta (s t) v = SV Phi delta (s t') v.
  Proof.
    intros Ht Ht' Hv. apply (Rmult_eq_reg_l (2 * delta ^ 2)); [|pose proof (pow_lt _ 2 Hd); lra]. unfold s.
    rewrite (proj2 (integrands delta Phi U V _ _ _ _ _ (o t) (v0u t) Hd (proj1 (M t Ht)) St (Ho t Ht) (Hv0 t Ht)) v Hv).
    rewrite (proj2 (integrands delta Phi U V _ _ _ _ _ (o t') (v0u t') Hd (proj1 (M t' Ht')) St (Ho t' Ht') (Hv0 t' Ht')) v Hv).
    fold (s t) (s t') (I3 t) (I3 t'). rewrite (along_I3 t t' Ht Ht'). rewrite (along_E t t' Ht Ht'), (along_Lz t t' Ht Ht'). reflexivity.
  Qed.
End Along.

(** ** The analytic derivatives of the integrands, in every potential *)
Lemma dSU_ok (delta : RR) (Phi FR Fz : RR -> RR -> RR) (s : single) (u : RR) : 0 < delta -> force_of Phi FR Fz -> 0 < g_v0u s < PI -> 0 < u ->
  is_derive (SU Phi delta s) u (dSU Phi FR Fz delta s u).
Proof.
  intros Hd G Hv Hu. pose proof (sinh_pos_iff _ Hu) as S1. pose proof (d_GU delta Phi FR Fz u (g_v0u s) Hd G Hu Hv) as D.
  pose proof (d_sq _ u _ (d_sinh _ u _ (d_id u))) as Ds. cbn beta in Ds.
  assert (N : sinh u ^ 2 <> 0) by (pose proof (pow_lt _ 2 S1); lra).
  pose proof (d_quot (fun _ => g_Lz s ^ 2 / 2 / delta ^ 2) (fun x => sinh x ^ 2) u _ _ N (is_derive_cst _ u) Ds) as Dq.
  pose proof (d_minus _ _ u _ _ (d_minus _ _ u _ _ (d_minus _ _ u _ _ (d_scale _ u (g_E s) _ Ds) (is_derive_cst (g_I3U s) u))
    (d_minus _ _ u _ _ D (is_derive_cst ((sinh (g_u0 s) ^ 2 + sin (g_v0u s) ^ 2) * g_potu0v0 s) u))) Dq) as T.
  refine (is_derive_eq _ _ _ _ T _). unfold dSU, dJRSquareddu, dU, potentialStaeckel, uv_to_Rz. cbn zeta beta.
  replace (sinh (2 * u)) with (2 * sinh u * cosh u) by (unfold sinh, cosh; replace (2 * u) with (u + u) by ring; replace (- (u + u)) with (- u + - u) by ring; rewrite !exp_plus; field).
  rr. field. split; [lra|]. pose proof (pow_lt _ 2 S1). lra.
Qed.
Lemma dSV_ok (delta : RR) (Phi FR Fz : RR -> RR -> RR) (s : single) (v : RR) : 0 < delta -> force_of Phi FR Fz -> 0 < g_u0 s -> 0 < v < PI ->
  is_derive (SV Phi delta s) v (dSV Phi FR Fz delta s v).
Proof.
  intros Hd G Hu Hv. pose proof (sv_pos _ Hv) as S1. pose proof (d_GV delta Phi FR Fz (g_u0 s) v Hd G Hu Hv) as D.
  pose proof (d_sq _ v _ (d_sin _ v _ (d_id v))) as Ds. cbn beta in Ds.
  assert (N : sin v ^ 2 <> 0) by (pose proof (pow_lt _ 2 S1); lra).
  pose proof (d_quot (fun _ => g_Lz s ^ 2 / 2 / delta ^ 2) (fun x => sin x ^ 2) v _ _ N (is_derive_cst _ v) Ds) as Dq.
  pose proof (d_minus _ _ v _ _ (is_derive_Rplus _ _ v _ _ (is_derive_Rplus _ _ v _ _ (d_scale _ v (g_E s) _ Ds) (is_derive_cst (g_I3V s) v))
    (d_minus _ _ v _ _ (is_derive_cst (cosh (g_u0 s) ^ 2 * g_potupi2 s) v) D)) Dq) as T.
  refine (is_derive_eq _ _ _ _ T _). unfold dSV, dJzSquareddv, dV, potentialStaeckel, uv_to_Rz. cbn zeta beta. rewrite (sin_2a v).
  rr. field. split; [lra|]. pose proof (pow_lt _ 2 S1). lra.
Qed.

(** ** The C code *)
Lemma half_c : 0.5 = 1 / 2.
Proof. lra. Qed.
Lemma c_single_ok (pot : RR -> RR -> RR) (delta R vR vT z vz u0 : RR) : 0 < delta -> 0 < R ->
  c_single pot delta R vR vT z vz u0 = single_init pot delta R vR vT z vz (Some u0) (PI / 2).
Proof.
  intros Hd HR. pose proof (uv_spheroidal delta R z Hd HR) as Sp. unfold c_single, single_init. rewrite half_c.
  unfold Rz_to_uv, Rz_to_coshucosv in *. cbn [fst snd] in Sp.
  replace ((z + delta) * (z + delta) + R * R) with ((z + delta) ^ 2 + R ^ 2) by ring.
  replace ((z - delta) * (z - delta) + R * R) with ((z - delta) ^ 2 + R ^ 2) by ring.
  set (u := acosh (1 / 2 / delta * (sqrt ((z + delta) ^ 2 + R ^ 2) + sqrt ((z - delta) ^ 2 + R ^ 2)))) in *.
  set (v := acos (1 / 2 / delta * (sqrt ((z + delta) ^ 2 + R ^ 2) - sqrt ((z - delta) ^ 2 + R ^ 2)))) in *. clearbody u v.
  destruct Sp as (Hu & Hv & _). pose proof (sinh_pos_iff _ Hu). pose proof (sv_pos _ Hv).
  replace (1 / 2 * PI) with (PI / 2) by field. unfold potentialStaeckel, uv_to_Rz.
  f_equal; try field; repeat split; lra.
Qed.
Lemma c_SU_ok (pot : RR -> RR -> RR) (delta : RR) (s : single) (u : RR) : 0 < delta -> 0 < u -> c_SU pot delta s u = SU pot delta s u.
Proof.
  intros Hd Hu. unfold c_SU, SU, JRSquared, potentialStaeckel, uv_to_Rz. rewrite half_c. pose proof (sinh_pos_iff _ Hu). field. split; lra.
Qed.
Lemma c_SV_ok (pot : RR -> RR -> RR) (delta : RR) (s : single) (v : RR) : 0 < delta -> 0 < v < PI -> c_SV pot delta s v = SV pot delta s v.
Proof.
  intros Hd Hv. unfold c_SV, SV, JzSquared, potentialStaeckel, uv_to_Rz. rewrite half_c. pose proof (sv_pos _ Hv). field. split; lra.
Qed.

(** ** The focal distance *)
Lemma delta2_exact (delta : RR) (Phi FR Fz P2R P2z PRz : RR -> RR -> RR) (U V : RR -> RR) (R z : RR) : 0 < delta -> force_of Phi FR Fz ->
  hessian_of FR Fz P2R P2z PRz -> staeckel delta Phi U V -> 0 < R -> PRz R z <> 0 -> delta2_of FR Fz P2R P2z PRz R z = delta ^ 2.
Proof.
  intros Hd G [HR_ Hz_] St HR N. destruct (uv_spheroidal delta R z Hd HR) as (Hu & Hv & E1 & E2).
  set (u := fst (Rz_to_uv false delta R z)) in *. set (v := snd (Rz_to_uv false delta R z)) in *. clearbody u v.
  pose proof (sinh_pos_iff _ Hu) as S1. pose proof (sv_pos _ Hv) as S2. pose proof (ch2 u) as Q1. pose proof (cv2 v) as Q2.
  (* the u-derivative does not depend on v *)
  assert (D0 : is_derive (fun x => dU delta Phi FR Fz u x) v 0).
  { apply (is_derive_loc (fun _ => dU delta Phi FR Fz u v) (fun x => dU delta Phi FR Fz u x) v 0 (fun x => 0 < x < PI)).
    - apply filter_and; [exact (locally_gt 0 v (proj1 Hv))|exact (locally_lt PI v (proj2 Hv))].
    - intros x Hx. exact (d_unique U u _ _ (U_rate delta Phi FR Fz U V u v Hd G St Hu Hv) (U_rate delta Phi FR Fz U V u x Hd G St Hu Hx)).
    - apply is_derive_cst. }
  pose proof (d_pot_uv delta Phi FR Fz (fun _ => u) (fun s => s) v 0 1 Hd G Hu Hv (is_derive_cst u v) (d_id v)) as DP.
  assert (PR_ : 0 < delta * sinh u * sin v) by (apply Rmult_lt_0_compat; [apply Rmult_lt_0_compat|]; assumption).
  pose proof (d_scale _ v (delta * sinh u) _ (d_sin _ v _ (d_id v))) as DRv. pose proof (d_scale _ v (delta * cosh u) _ (d_cos _ v _ (d_id v))) as Dzv. cbn beta in DRv, Dzv.
  pose proof (HR_ (fun x => delta * sinh u * sin x) (fun x => delta * cosh u * cos x) v _ _ PR_ DRv Dzv) as DFR.
  pose proof (Hz_ (fun x => delta * sinh u * sin x) (fun x => delta * cosh u * cos x) v _ _ PR_ DRv Dzv) as DFz.
  cbn zeta beta in DP, DFR, DFz.
  pose proof (is_derive_Rplus _ _ v _ _ (d_scale _ v (2 * sinh u * cosh u) _ DP)
    (is_derive_Rmult _ _ v _ _ (is_derive_Rplus _ _ v _ _ (is_derive_cst (sinh u ^ 2) v) (d_sq _ v _ (d_sin _ v _ (d_id v))))
      (d_scale _ v delta _ (is_derive_Rplus _ _ v _ _ (is_derive_Rmult _ _ v _ _ DFR (d_scale _ v (cosh u) _ (d_sin _ v _ (d_id v))))
                                                 (is_derive_Rmult _ _ v _ _ DFz (d_scale _ v (sinh u) _ (d_cos _ v _ (d_id v)))))))) as D1.
  pose proof (d_unique _ v _ _ D0 D1) as EQ. cbn beta in EQ. rewrite <- E1, <- E2 in EQ.
  set (a := FR R z) in *. set (c := Fz R z) in *. set (r2 := P2R R z) in *. set (z2 := P2z R z) in *. set (rz := PRz R z) in *.
  unfold delta2_of. fold a c r2 z2 rz. clearbody a c r2 z2 rz.
  apply (Rmult_eq_reg_r rz); [|exact N].
  assert (W : 0 < sinh u ^ 2 + sin v ^ 2) by nra.
  enough (Y : (z ^ 2 - R ^ 2 - delta ^ 2) * rz + (3 * R * c - 3 * z * a + R * z * (r2 - z2)) = 0).
  { apply Rminus_diag_uniq. field_simplify_eq; [|exact N]. rr. lra. }
  apply (Rmult_eq_reg_l (sinh u ^ 2 + sin v ^ 2)); [|lra]. rewrite Rmult_0_r. rewrite EQ at 1. rewrite E1, E2.
  set (x := sinh u) in *. set (y := cosh u) in *. set (k := sin v) in *. set (d := cos v) in *. clearbody x y k d.
  assert (Q4 : y ^ 3 = y * (1 + x ^ 2)) by (rewrite <- Q1; ring). assert (Q5 : d ^ 3 = d * (1 - k ^ 2)) by (rewrite <- Q2; ring).
  ring [Q1 Q2 Q4 Q5].
Qed.
