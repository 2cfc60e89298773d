(** Momenta, third integral and turning points in Staeckel potentials. *)
From Coq Require Import Reals Lra Lia List.
From Coquelicot Require Import Coquelicot.
From Verif.Lib Require Import RealAux.
From Verif.Model Require Import CoordsSpheroid Staeckel.
From Verif.Spec Require Import StaeckelSpec.
From Verif.Proofs Require Import SpheroidProofs EOMProofs.
Import ListNotations.
Open Scope R_scope.
Notation RR := RbaseSymbolsImpl.R (only parsing).
Ltac rr := match goal with |- ?a = ?b => change (@eq RR a b) end.

Lemma sinh_pos_iff (u : RR) : 0 < u -> 0 < sinh u.
Proof. intros H. unfold sinh. pose proof (exp_increasing (- u) u ltac:(lra)). lra. Qed.
Lemma cosh_pos (u : RR) : 0 < cosh u.
Proof. pose proof (cosh_ge_1 u). lra. Qed.
Lemma ch2 (u : RR) : cosh u ^ 2 = 1 + sinh u ^ 2.
Proof. pose proof (cosh_sinh u). lra. Qed.
Lemma cv2 (v : RR) : cos v ^ 2 = 1 - sin v ^ 2.
Proof. pose proof (sin2_cos2 v) as H. unfold Rsqr in H. cbn [pow]. lra. Qed.
Lemma sv_pos (v : RR) : 0 < v < PI -> 0 < sin v.
Proof. intros H. apply sin_gt_0; lra. Qed.

Lemma uv_spheroidal (delta R z : RR) : 0 < delta -> 0 < R ->
  spheroidal delta R z (fst (Rz_to_uv false delta R z)) (snd (Rz_to_uv false delta R z)).
Proof.
  intros Hd HR. pose proof (pro_roundtrip delta R z Hd ltac:(lra)) as P. pose proof (pro_cosh delta R z Hd) as Q.
  unfold Rz_to_uv in *. destruct (Rz_to_coshucosv false delta R z) as [cu cv]. destruct Q as (Q1 & Q2 & Q3 & Q4).
  cbn [fst snd]. unfold uv_to_Rz in P. injection P as PR Pz.
  assert (N1 : 1 < cu). { destruct Q1 as [?|E]; [assumption|]. exfalso. rewrite <- E in Q4. nra. }
  assert (N2 : cv <> 1 /\ cv <> -1). { split; intros E; rewrite E in Q4; nra. }
  split; [|split; [|split; [symmetry; exact PR|symmetry; exact Pz]]].
  - unfold acosh. rewrite <- ln_1. apply ln_increasing; [lra|]. pose proof (sqrt_pos (cu ^ 2 - 1)). lra.
  - split.
    + destruct (acos_bound cv) as [[H|H] _]; [exact H|]. exfalso. apply (proj1 N2). rewrite <- (cos_acos cv) by exact Q2. rewrite <- H. apply cos_0.
    + destruct (acos_bound cv) as [_ [H|H]]; [exact H|]. exfalso. apply (proj2 N2). rewrite <- (cos_acos cv) by exact Q2. rewrite H. apply cos_PI.
Qed.
Lemma spheroidal_uv (delta R z u v : RR) : 0 < delta -> spheroidal delta R z u v -> Rz_to_uv false delta R z = (u, v).
Proof.
  intros Hd (Hu & Hv & HR & Hz). pose proof (pro_roundtrip2 delta u v Hd ltac:(lra) ltac:(lra)) as P. unfold uv_to_Rz in P.
  rewrite <- HR, <- Hz in P. exact P.
Qed.
Lemma d_acosh (f : RR -> RR) (t d : RR) : 1 < f t -> is_derive f t d -> is_derive (fun s => acosh (f s)) t (d / sqrt (f t ^ 2 - 1)).
Proof.
  intros H D. assert (P : 0 < f t ^ 2 - 1) by nra. pose proof (sqrt_lt_R0 _ P) as SP.
  assert (E : ex_derive f t) by (exists d; exact D). unfold acosh. auto_derive.
  - split; [exact E|]. split; [exact E|]. split; [lra|]. split; [|exact I]. change (f t ^ 2 + - (1)) with (f t ^ 2 - 1). lra.
  - change (fun x : R => f x) with f. rewrite (is_derive_unique _ _ _ D).
    change (f t ^ 2 + - (1)) with (f t ^ 2 - 1). set (q := sqrt (f t ^ 2 - 1)) in *.
    rr. field. split; lra.
Qed.
Lemma d_acos (f : RR -> RR) (t d : RR) : -1 < f t < 1 -> is_derive f t d -> is_derive (fun s => acos (f s)) t (- d / sqrt (1 - f t ^ 2)).
Proof.
  intros H D. refine (is_derive_eq _ _ _ _ (is_derive_Rchain acos f t _ d _ D) _).
  - apply is_derive_Reals. apply derive_pt_eq_1 with (derivable_pt_acos (f t) H). apply derive_pt_acos.
  - rewrite Rsqr_pow2. assert (P : 0 < 1 - f t ^ 2) by nra. pose proof (sqrt_lt_R0 _ P). rr. field. lra.
Qed.

(** u and v move with the velocities of the kinetic energy in spheroidal coordinates. *)
Section Coordinates.
  Variables (delta : RR) (R z : RR -> RR) (t vR vz : RR).
  Hypotheses (Hd : 0 < delta) (HR : 0 < R t) (DR : is_derive R t vR) (Dz : is_derive z t vz).
  Let u (s : RR) : RR := fst (Rz_to_uv false delta (R s) (z s)).
  Let v (s : RR) : RR := snd (Rz_to_uv false delta (R s) (z s)).
  Lemma d_foc (c : RR) : is_derive (fun s => sqrt ((z s + c) ^ 2 + R s ^ 2)) t (((z t + c) * vz + R t * vR) / sqrt ((z t + c) ^ 2 + R t ^ 2)).
  Proof.
    assert (P : 0 < (z t + c) ^ 2 + R t ^ 2) by (pose proof (pow2_ge_0 (z t + c)); pose proof (pow_lt (R t) 2 HR); lra). pose proof (sqrt_lt_R0 _ P).
    assert (ex_derive R t) by (exists vR; exact DR). assert (ex_derive z t) by (exists vz; exact Dz). auto_derive.
    - split; [assumption|]. split; [assumption|]. split; [exact P|exact I].
    - change (fun x : RR => R x) with R. change (fun x : RR => z x) with z. rewrite (is_derive_unique _ _ _ DR), (is_derive_unique _ _ _ Dz).
      rr. field. lra.
  Qed.
  Lemma foci_uv : let c := cosh (u t) in let w := cos (v t) in
    sqrt ((z t + delta) ^ 2 + R t ^ 2) = delta * (c + w) /\ sqrt ((z t - delta) ^ 2 + R t ^ 2) = delta * (c - w).
  Proof.
    cbn zeta. destruct (uv_spheroidal delta (R t) (z t) Hd HR) as (Hu & Hv & E1 & E2). fold (u t) (v t) in *.
    pose proof (cosh_ge_1 (u t)) as C. pose proof (COS_bound (v t)) as W. pose proof (ch2 (u t)) as Q1. pose proof (cv2 (v t)) as Q2.
    assert (X : R t ^ 2 = delta ^ 2 * (cosh (u t) ^ 2 - 1) * (1 - cos (v t) ^ 2)) by (rewrite E1, Q1, Q2; ring).
    rewrite X, E2. split; apply sqrt_of; try (apply Rmult_le_pos; lra); ring.
  Qed.
  Lemma uv_motion : is_derive u t ((vR * cosh (u t) * sin (v t) + vz * sinh (u t) * cos (v t)) / (delta * (sinh (u t) ^ 2 + sin (v t) ^ 2))) /\
                    is_derive v t ((vR * sinh (u t) * cos (v t) - vz * cosh (u t) * sin (v t)) / (delta * (sinh (u t) ^ 2 + sin (v t) ^ 2))).
  Proof.
    pose proof foci_uv as F. cbn zeta in F. destruct F as [FA FB].
    destruct (uv_spheroidal delta (R t) (z t) Hd HR) as (Hu & Hv & E1 & E2). fold (u t) (v t) in *.
    pose proof (sinh_pos_iff _ Hu) as S1. pose proof (sv_pos _ Hv) as S2. pose proof (cosh_ge_1 (u t)) as C.
    pose proof (ch2 (u t)) as Q1. pose proof (cv2 (v t)) as Q2.
    pose proof (d_foc delta) as DA. pose proof (d_foc (- delta)) as DB.
    assert (DB' : is_derive (fun s => sqrt ((z s - delta) ^ 2 + R s ^ 2)) t (((z t - delta) * vz + R t * vR) / sqrt ((z t - delta) ^ 2 + R t ^ 2))) by exact DB.
    rewrite FA in DA. rewrite FB in DB'. clear DB.
    assert (P1 : 1 < cosh (u t)) by nra.
    assert (P2 : -1 < cos (v t) < 1) by nra.
    assert (DC : is_derive (fun s => 1 / 2 / delta * (sqrt ((z s + delta) ^ 2 + R s ^ 2) + sqrt ((z s - delta) ^ 2 + R s ^ 2))) t
                 (sinh (u t) * ((vR * cosh (u t) * sin (v t) + vz * sinh (u t) * cos (v t)) / (delta * (sinh (u t) ^ 2 + sin (v t) ^ 2))))).
    { refine (is_derive_eq _ _ _ _ (is_derive_Rscal _ t (1 / 2 / delta) _ (is_derive_Rplus _ _ t _ _ DA DB')) _).
      rewrite E1, E2. rr. field_simplify_eq [Q1 Q2]; [|repeat split; nra]. ring_simplify [Q1 Q2].
      replace (cosh (u t) ^ 4) with ((cosh (u t) ^ 2) ^ 2) by ring. replace (cosh (u t) ^ 3) with (cosh (u t) * cosh (u t) ^ 2) by ring.
      replace (cos (v t) ^ 3) with (cos (v t) * cos (v t) ^ 2) by ring. rewrite ?Q1, ?Q2. ring [Q1 Q2]. }
    assert (DW : is_derive (fun s => 1 / 2 / delta * (sqrt ((z s + delta) ^ 2 + R s ^ 2) - sqrt ((z s - delta) ^ 2 + R s ^ 2))) t
                 (- (sin (v t) * ((vR * sinh (u t) * cos (v t) - vz * cosh (u t) * sin (v t)) / (delta * (sinh (u t) ^ 2 + sin (v t) ^ 2)))))).
    { refine (is_derive_eq _ _ _ _ (is_derive_Rscal _ t (1 / 2 / delta) _ (d_minus _ _ t _ _ DA DB')) _).
      rewrite E1, E2. rr. field_simplify_eq [Q1 Q2]; [|repeat split; nra]. ring_simplify [Q1 Q2].
      replace (cosh (u t) ^ 4) with ((cosh (u t) ^ 2) ^ 2) by ring. replace (cosh (u t) ^ 3) with (cosh (u t) * cosh (u t) ^ 2) by ring.
      replace (cos (v t) ^ 3) with (cos (v t) * cos (v t) ^ 2) by ring. rewrite ?Q1, ?Q2. ring [Q1 Q2]. }
    assert (VC : 1 / 2 / delta * (sqrt ((z t + delta) ^ 2 + R t ^ 2) + sqrt ((z t - delta) ^ 2 + R t ^ 2)) = cosh (u t)) by (rewrite FA, FB; field; lra).
    assert (VW : 1 / 2 / delta * (sqrt ((z t + delta) ^ 2 + R t ^ 2) - sqrt ((z t - delta) ^ 2 + R t ^ 2)) = cos (v t)) by (rewrite FA, FB; field; lra).
    split.
    - refine (is_derive_eq _ _ _ _ (d_acosh _ t _ _ DC) _); rewrite VC; [exact P1|].
      replace (cosh (u t) ^ 2 - 1) with (sinh (u t) ^ 2) by lra. rewrite (sqrt_of _ (sinh (u t))) by (auto; lra). rr. field. split; nra.
    - refine (is_derive_eq _ _ _ _ (d_acos _ t _ _ DW) _); rewrite VW; [exact P2|].
      replace (1 - cos (v t) ^ 2) with (sin (v t) ^ 2) by lra. rewrite (sqrt_of _ (sin (v t))) by (auto; lra). rr. field. split; nra.
  Qed.
End Coordinates.

(** ** Derivatives of the two functions of a Staeckel potential *)
Lemma d_sinh (f : RR -> RR) (t d : RR) : is_derive f t d -> is_derive (fun s => sinh (f s)) t (cosh (f t) * d).
Proof. intros D. refine (is_derive_eq _ _ _ _ (is_derive_Rchain sinh f t _ d (is_derive_sinh (f t)) D) _). rr. ring. Qed.
Lemma d_cosh (f : RR -> RR) (t d : RR) : is_derive f t d -> is_derive (fun s => cosh (f s)) t (sinh (f t) * d).
Proof. intros D. refine (is_derive_eq _ _ _ _ (is_derive_Rchain cosh f t _ d (is_derive_cosh (f t)) D) _). rr. ring. Qed.
Lemma d_sq (f : RR -> RR) (t d : RR) : is_derive f t d -> is_derive (fun s => f s ^ 2) t (2 * f t * d).
Proof. intros D. apply (is_derive_ext (fun s => f s * f s)); [intros s; rr; ring|]. refine (is_derive_eq _ _ _ _ (is_derive_Rmult f f t d d D D) _). rr. ring. Qed.
Lemma d_id (t : RR) : is_derive (fun s : RR => s) t 1.
Proof. apply (is_derive_id (K := R_AbsRing)). Qed.
Lemma d_scale (f : RR -> RR) (t k d : RR) : is_derive f t d -> is_derive (fun s => k * f s) t (k * d).
Proof. exact (is_derive_Rscal f t k d). Qed.

Lemma d_pot_uv (delta : RR) (Phi FR Fz : RR -> RR -> RR) (u v : RR -> RR) (t du dv : RR) : 0 < delta -> force_of Phi FR Fz ->
  0 < u t -> 0 < v t < PI -> is_derive u t du -> is_derive v t dv ->
  let R := delta * sinh (u t) * sin (v t) in let z := delta * cosh (u t) * cos (v t) in
  is_derive (fun s => Phi (delta * sinh (u s) * sin (v s)) (delta * cosh (u s) * cos (v s))) t
    (- FR R z * (delta * (cosh (u t) * sin (v t) * du + sinh (u t) * cos (v t) * dv)) +
     - Fz R z * (delta * (sinh (u t) * cos (v t) * du - cosh (u t) * sin (v t) * dv))).
Proof.
  intros Hd G Hu Hv Du Dv R z. apply (G (fun s => delta * sinh (u s) * sin (v s)) (fun s => delta * cosh (u s) * cos (v s)) t).
  - pose proof (sinh_pos_iff _ Hu). pose proof (sv_pos _ Hv). apply Rmult_lt_0_compat; [apply Rmult_lt_0_compat|]; assumption.
  - refine (is_derive_eq _ _ _ _ (is_derive_Rmult (fun s => delta * sinh (u s)) (fun s => sin (v s)) t _ _ (d_scale _ t delta _ (d_sinh u t du Du)) (d_sin v t dv Dv)) _).
    cbn beta. rr. ring.
  - refine (is_derive_eq _ _ _ _ (is_derive_Rmult (fun s => delta * cosh (u s)) (fun s => cos (v s)) t _ _ (d_scale _ t delta _ (d_cosh u t du Du)) (d_cos v t dv Dv)) _).
    cbn beta. rr. ring.
Qed.
Definition dU (delta : RR) (Phi FR Fz : RR -> RR -> RR) (u v : RR) : RR :=
  let R := delta * sinh u * sin v in let z := delta * cosh u * cos v in
  2 * sinh u * cosh u * Phi R z + (sinh u ^ 2 + sin v ^ 2) * (delta * (- FR R z * (cosh u * sin v) + - Fz R z * (sinh u * cos v))).
Definition dV (delta : RR) (Phi FR Fz : RR -> RR -> RR) (u v : RR) : RR :=
  let R := delta * sinh u * sin v in let z := delta * cosh u * cos v in
  - (2 * sin v * cos v * Phi R z + (sinh u ^ 2 + sin v ^ 2) * (delta * (- FR R z * (sinh u * cos v) - - Fz R z * (cosh u * sin v)))).
Lemma d_GU (delta : RR) (Phi FR Fz : RR -> RR -> RR) (u v : RR) : 0 < delta -> force_of Phi FR Fz -> 0 < u -> 0 < v < PI ->
  is_derive (fun x => (sinh x ^ 2 + sin v ^ 2) * Phi (delta * sinh x * sin v) (delta * cosh x * cos v)) u (dU delta Phi FR Fz u v).
Proof.
  intros Hd G Hu Hv. pose proof (d_pot_uv delta Phi FR Fz (fun s => s) (fun _ => v) u 1 0 Hd G Hu Hv (d_id u) (is_derive_cst v u)) as P. cbn zeta in P. cbn beta in P.
  refine (is_derive_eq _ _ _ _ (is_derive_Rmult (fun x => sinh x ^ 2 + sin v ^ 2) _ u _ _ (is_derive_Rplus _ _ u _ _ (d_sq _ u _ (d_sinh _ u _ (d_id u))) (is_derive_cst (sin v ^ 2) u)) P) _).
  unfold dU. cbn zeta beta. rr. ring.
Qed.
Lemma d_GV (delta : RR) (Phi FR Fz : RR -> RR -> RR) (u v : RR) : 0 < delta -> force_of Phi FR Fz -> 0 < u -> 0 < v < PI ->
  is_derive (fun x => (sinh u ^ 2 + sin x ^ 2) * Phi (delta * sinh u * sin x) (delta * cosh u * cos x)) v (- dV delta Phi FR Fz u v).
Proof.
  intros Hd G Hu Hv. pose proof (d_pot_uv delta Phi FR Fz (fun _ => u) (fun s => s) v 0 1 Hd G Hu Hv (is_derive_cst u v) (d_id v)) as P. cbn zeta in P. cbn beta in P.
  refine (is_derive_eq _ _ _ _ (is_derive_Rmult (fun x => sinh u ^ 2 + sin x ^ 2) _ v _ _ (is_derive_Rplus _ _ v _ _ (is_derive_cst (sinh u ^ 2) v) (d_sq _ v _ (d_sin _ v _ (d_id v)))) P) _).
  unfold dV. cbn zeta beta. rr. ring.
Qed.
Lemma U_rate (delta : RR) (Phi FR Fz : RR -> RR -> RR) (U V : RR -> RR) (u v : RR) : 0 < delta -> force_of Phi FR Fz -> staeckel delta Phi U V ->
  0 < u -> 0 < v < PI -> is_derive U u (dU delta Phi FR Fz u v).
Proof.
  intros Hd G St Hu Hv.
  apply (is_derive_loc (fun x => (sinh x ^ 2 + sin v ^ 2) * Phi (delta * sinh x * sin v) (delta * cosh x * cos v) + V v) U u _ (fun x => 0 < x) (locally_pos u Hu)).
  - intros x Hx. rewrite (St x v Hx Hv). ring.
  - refine (is_derive_eq _ _ _ _ (is_derive_Rplus _ _ u _ _ (d_GU delta Phi FR Fz u v Hd G Hu Hv) (is_derive_cst (V v) u)) _). rr. ring.
Qed.
Lemma V_rate (delta : RR) (Phi FR Fz : RR -> RR -> RR) (U V : RR -> RR) (u v : RR) : 0 < delta -> force_of Phi FR Fz -> staeckel delta Phi U V ->
  0 < u -> 0 < v < PI -> is_derive V v (dV delta Phi FR Fz u v).
Proof.
  intros Hd G St Hu Hv.
  apply (is_derive_loc (fun x => U u - (sinh u ^ 2 + sin x ^ 2) * Phi (delta * sinh u * sin x) (delta * cosh u * cos x)) V v _ (fun x => 0 < x < PI)).
  - apply filter_and; [exact (locally_gt 0 v (proj1 Hv))|exact (locally_lt PI v (proj2 Hv))].
  - intros x Hx. rewrite (St u x Hu Hx). ring.
  - refine (is_derive_eq _ _ _ _ (d_minus _ _ v _ _ (is_derive_cst (U u) v) (d_GV delta Phi FR Fz u v Hd G Hu Hv)) _). rr. ring.
Qed.

(** ** The integrands are the squared momenta *)
Lemma single_unfold (pot : RR -> RR -> RR) (delta R vR vT z vz : RR) (o : option RR) (v0u u v : RR) : 0 < delta -> spheroidal delta R z u v ->
  single_init pot delta R vR vT z vz o v0u =
  (let pux := delta * (vR * cosh u * sin v + vz * sinh u * cos v) in
   let pvx := delta * (vR * sinh u * cos v - vz * cosh u * sin v) in
   let E := pot R z + vR ^ 2 / 2 + vT ^ 2 / 2 + vz ^ 2 / 2 in
   let u0 := match o with Some x => x | None => u end in
   mkSingle u v pux pvx E (R * vT) u0 v0u (potentialStaeckel u0 v0u pot delta)
    (E * sinh u ^ 2 - pux ^ 2 / 2 / delta ^ 2 - (R * vT) ^ 2 / 2 / delta ^ 2 / sinh u ^ 2
             - (sinh u ^ 2 + sin v0u ^ 2) * potentialStaeckel u v0u pot delta + (sinh u0 ^ 2 + sin v0u ^ 2) * potentialStaeckel u0 v0u pot delta)
    (potentialStaeckel u0 (PI / 2) pot delta)
    (- E * sin v ^ 2 + pvx ^ 2 / 2 / delta ^ 2 + (R * vT) ^ 2 / 2 / delta ^ 2 / sin v ^ 2
     - (cosh u0 ^ 2 * potentialStaeckel u0 (PI / 2) pot delta - (sinh u0 ^ 2 + sin v ^ 2) * potentialStaeckel u0 v pot delta))).
Proof. intros Hd Sp. unfold single_init. rewrite (spheroidal_uv delta R z u v Hd Sp). reflexivity. Qed.

Definition starts (o : option RR) : Prop := match o with Some u0 => 0 < u0 | None => True end.
Lemma SU_any (pot : RR -> RR -> RR) (delta R vR vT z vz : RR) (o : option RR) (v0u : RR) : 0 < delta -> 0 < R ->
  let s := single_init pot delta R vR vT z vz o v0u in SU pot delta s (g_ux s) = g_pux s ^ 2 / (2 * delta ^ 2).
Proof.
  intros Hd HR. pose proof (uv_spheroidal delta R z Hd HR) as Sp. rewrite (single_unfold pot delta R vR vT z vz o v0u _ _ Hd Sp). cbn zeta.
  destruct Sp as (Hu & Hv & _). unfold SU, JRSquared. cbn [g_ux g_pux g_E g_Lz g_I3U g_u0 g_v0u g_potu0v0].
  pose proof (sinh_pos_iff _ Hu). field. split; lra.
Qed.
Lemma SV_any (pot : RR -> RR -> RR) (delta R vR vT z vz : RR) (o : option RR) (v0u : RR) : 0 < delta -> 0 < R ->
  let s := single_init pot delta R vR vT z vz o v0u in SV pot delta s (g_vx s) = g_pvx s ^ 2 / (2 * delta ^ 2).
Proof.
  intros Hd HR. pose proof (uv_spheroidal delta R z Hd HR) as Sp. rewrite (single_unfold pot delta R vR vT z vz o v0u _ _ Hd Sp). cbn zeta.
  destruct Sp as (Hu & Hv & _). unfold SV, JzSquared. cbn [g_vx g_pvx g_E g_Lz g_I3V g_u0 g_potupi2].
  pose proof (sv_pos _ Hv). field. split; lra.
Qed.
Lemma pi2_in : 0 < PI / 2 < PI.
Proof. pose proof PI_RGT_0. lra. Qed.
Lemma pot_at (delta : RR) (Phi : RR -> RR -> RR) (U V : RR -> RR) (u v : RR) : staeckel delta Phi U V -> 0 < u -> 0 < v < PI ->
  potentialStaeckel u v Phi delta = (U u - V v) / (sinh u ^ 2 + sin v ^ 2).
Proof.
  intros St Hu Hv. unfold potentialStaeckel, uv_to_Rz. rewrite <- (St u v Hu Hv). pose proof (sinh_pos_iff _ Hu). pose proof (sv_pos _ Hv). field. nra.
Qed.
Lemma kinetic (delta R z u v vR vz : RR) : 0 < delta -> spheroidal delta R z u v ->
  (delta * (vR * cosh u * sin v + vz * sinh u * cos v)) ^ 2 + (delta * (vR * sinh u * cos v - vz * cosh u * sin v)) ^ 2 =
  delta ^ 2 * (sinh u ^ 2 + sin v ^ 2) * (vR ^ 2 + vz ^ 2).
Proof. intros Hd _. pose proof (ch2 u) as Q1. pose proof (cv2 v) as Q2. ring_simplify. rewrite !Q1, !Q2. ring. Qed.
Lemma integrands (delta : RR) (Phi : RR -> RR -> RR) (U V : RR -> RR) (R vR vT z vz : RR) (o : option RR) (v0u : RR) : 0 < delta -> 0 < R ->
  staeckel delta Phi U V -> starts o -> 0 < v0u < PI ->
  let s := single_init Phi delta R vR vT z vz o v0u in
  let I3 := third_integral delta U (g_E s) (g_Lz s) (g_ux s) (g_pux s) in
  (forall u, 0 < u -> 2 * delta ^ 2 * SU Phi delta s u = pu2 delta U (g_E s) (g_Lz s) I3 u) /\
  (forall v, 0 < v < PI -> 2 * delta ^ 2 * SV Phi delta s v = pv2 delta V (g_E s) (g_Lz s) I3 v).
Proof.
  intros Hd HR St So Hv0. pose proof (uv_spheroidal delta R z Hd HR) as Sp. set (u := fst (Rz_to_uv false delta R z)) in *. set (v := snd (Rz_to_uv false delta R z)) in *.
  clearbody u v. rewrite (single_unfold Phi delta R vR vT z vz o v0u _ _ Hd Sp). pose proof (kinetic delta R z u v vR vz Hd Sp) as K.
  destruct Sp as (Hu & Hv & HRe & Hz). pose proof (sinh_pos_iff _ Hu) as S1. pose proof (sv_pos _ Hv) as S2.
  assert (Hu0 : 0 < match o with Some x => x | None => u end) by (destruct o; [exact So|exact Hu]). set (u0 := match o with Some x => x | None => u end) in *. clearbody u0.
  pose proof (sinh_pos_iff _ Hu0) as S0. pose proof (sv_pos _ Hv0) as S3. cbn zeta.
  assert (EP : Phi R z = (U u - V v) / (sinh u ^ 2 + sin v ^ 2)).
  { rewrite HRe, Hz. rewrite <- (St u v Hu Hv). field. nra. }
  set (pu := delta * (vR * cosh u * sin v + vz * sinh u * cos v)) in *. set (pv := delta * (vR * sinh u * cos v - vz * cosh u * sin v)) in *.
  assert (K2 : vR ^ 2 + vz ^ 2 = (pu ^ 2 + pv ^ 2) / (delta ^ 2 * (sinh u ^ 2 + sin v ^ 2))) by (rewrite K; field; split; nra). clear K. clearbody pu pv.
  split.
  - intros u' Hu'. pose proof (sinh_pos_iff _ Hu') as S'. unfold SU, JRSquared, pu2, third_integral.
    cbn [g_ux g_pux g_E g_Lz g_I3U g_u0 g_v0u g_potu0v0].
    rewrite (pot_at delta Phi U V u v0u St Hu Hv0), (pot_at delta Phi U V u0 v0u St Hu0 Hv0), (pot_at delta Phi U V u' v0u St Hu' Hv0).
    set (E := Phi R z + vR ^ 2 / 2 + vT ^ 2 / 2 + vz ^ 2 / 2). clearbody E. field. repeat split; nra.
  - intros v' Hv'. pose proof (sv_pos _ Hv') as S'. unfold SV, JzSquared, pv2, third_integral.
    cbn [g_ux g_pux g_E g_Lz g_I3V g_u0 g_potupi2].
    rewrite (pot_at delta Phi U V u0 v St Hu0 Hv), (pot_at delta Phi U V u0 (PI / 2) St Hu0 pi2_in), (pot_at delta Phi U V u0 v' St Hu0 Hv').
    rewrite sin_PI2. replace (sinh u0 ^ 2 + 1 ^ 2) with (cosh u0 ^ 2) by (rewrite ch2; ring). pose proof (cosh_pos u0) as C0.
    replace (Phi R z + vR ^ 2 / 2 + vT ^ 2 / 2 + vz ^ 2 / 2) with (Phi R z + (vR ^ 2 + vz ^ 2) / 2 + (R * vT) ^ 2 / R ^ 2 / 2) by (field; lra).
    rewrite EP, K2. set (Lz := R * vT). clearbody Lz. rewrite HRe. field. repeat split; nra.
Qed.
