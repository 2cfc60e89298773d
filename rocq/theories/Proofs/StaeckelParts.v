(** Hamilton's equation for v, trapping between turning points, and the angle formulas as branches of primitives. *)
From Coq Require Import Reals Lra Lia ZArith.
From Coquelicot Require Import Coquelicot.
From Verif.Lib Require Import RealAux.
From Verif.Model Require Import CoordsSpheroid Staeckel.
From Verif.Spec Require Import EOMSpec StaeckelSpec.
From Verif.Proofs Require Import SpheroidProofs EOMProofs EOMIntegrals StaeckelProofs StaeckelOrbit StaeckelProofs2 ChiProofs Libration ChiPrim.
Open Scope R_scope.
Notation RR := RbaseSymbolsImpl.R (only parsing).
Ltac rr := match goal with |- ?a = ?b => change (@eq RR a b) end.

Section PvRate.
  Variables (delta : RR) (Phi FR Fz : RR -> RR -> RR) (U V : RR -> RR) (R vR vT z vz phi : RR -> RR) (t : RR).
  Hypotheses (Hd : 0 < delta) (G : force_of Phi FR Fz) (St : staeckel delta Phi U V) (M : moves FR Fz R vR vT z vz phi t).
  Let u (s : RR) : RR := fst (Rz_to_uv false delta (R s) (z s)).
  Let v (s : RR) : RR := snd (Rz_to_uv false delta (R s) (z s)).
  Let pv (s : RR) : RR := delta * (vR s * sinh (u s) * cos (v s) - vz s * cosh (u s) * sin (v s)).
  Let E (s : RR) : RR := Phi (R s) (z s) + vR s ^ 2 / 2 + vT s ^ 2 / 2 + vz s ^ 2 / 2.
  Let Lz (s : RR) : RR := R s * vT s.
  Let w : RR := delta ^ 2 * (sinh (u t) ^ 2 + sin (v t) ^ 2).
  Lemma pv_rate : is_derive pv t
    ((2 * E t * sin (v t) * cos (v t) + Lz t ^ 2 * cos (v t) / (delta ^ 2 * sin (v t) ^ 3) + dV delta Phi FR Fz (u t) (v t)) / (sinh (u t) ^ 2 + sin (v t) ^ 2)).
  Proof.
    pose proof (u_rate delta FR Fz R vR vT z vz phi t Hd M) as Du. pose proof (v_rate delta FR Fz R vR vT z vz phi t Hd M) as Dv.
    pose proof (w_pos delta FR Fz R vR vT z vz phi t Hd M) as W. fold u v in Du, Dv, W. destruct M as (HR & DR & Dz & _ & DvR & DvT & Dvz).
    destruct (uv_spheroidal delta (R t) (z t) Hd HR) as (Hu & Hv & E1 & E2). fold (u t) (v t) in *.
    pose proof (sinh_pos_iff _ Hu) as S1. pose proof (sv_pos _ Hv) as S2. pose proof (ch2 (u t)) as Q1. pose proof (cv2 (v t)) as Q2.
    pose proof (is_derive_Rmult _ _ t _ _ (is_derive_Rmult _ _ t _ _ DvR (d_sinh u t _ Du)) (d_cos v t _ Dv)) as A.
    pose proof (is_derive_Rmult _ _ t _ _ (is_derive_Rmult _ _ t _ _ Dvz (d_cosh u t _ Du)) (d_sin v t _ Dv)) as B.
    refine (is_derive_eq _ _ _ _ (d_scale _ t delta _ (d_minus _ _ t _ _ A B)) _).
    unfold dV, E, Lz, pv, w in *. rewrite <- E1, <- E2. cbn beta zeta.
    set (a := FR (R t) (z t)). set (b := Fz (R t) (z t)). set (p := Phi (R t) (z t)). clearbody a b p. rewrite E1.
    set (x := sinh (u t)) in *. set (y := cosh (u t)) in *. set (k := sin (v t)) in *. set (c := cos (v t)) in *. clearbody x y k c.
    rr. field_simplify_eq; [|repeat split; nra].
    assert (Q4 : y ^ 3 = y * (1 + x ^ 2)) by (rewrite <- Q1; ring). assert (Q5 : c ^ 3 = c * (1 - k ^ 2)) by (rewrite <- Q2; ring).
    assert (Q6 : y ^ 4 = (1 + x ^ 2) ^ 2) by (rewrite <- Q1; ring). assert (Q7 : c ^ 4 = (1 - k ^ 2) ^ 2) by (rewrite <- Q2; ring).
    ring [Q1 Q2 Q4 Q5 Q6 Q7].
  Qed.
End PvRate.

(** ** A coordinate that starts between two simple zeros stays there *)
Lemma below_after (S : RR -> RR) q d : S q = 0 -> is_derive S q d -> d < 0 -> exists e, 0 < e /\ forall x, q < x < q + e -> S x < 0.
Proof.
  intros Z D N. apply is_derive_Reals in D. destruct (D (- d) ltac:(lra)) as [e B]. exists e. split; [apply cond_pos|]. intros x Hx.
  specialize (B (x - q) ltac:(lra)). replace (q + (x - q)) with x in B by ring. rewrite Z, Rminus_0_r in B.
  specialize (B ltac:(rewrite Rabs_pos_eq; lra)). apply Rabs_def2 in B. assert (P : 0 < x - q) by lra.
  assert (Q : S x / (x - q) < 0) by lra. destruct (Rlt_dec (S x) 0) as [L|L]; [exact L|]. assert (0 <= S x / (x - q)) by (apply Rdiv_le_0_compat; lra). lra.
Qed.
Lemma below_before (S : RR -> RR) q d : S q = 0 -> is_derive S q d -> 0 < d -> exists e, 0 < e /\ forall x, q - e < x < q -> S x < 0.
Proof.
  intros Z D N. destruct (below_after (fun x => S (- x)) (- q) (- d)) as (e & He & B).
  - rewrite Ropp_involutive. exact Z.
  - refine (is_derive_eq _ _ _ _ (is_derive_Rchain S (fun x => - x) (- q) d (-1) ltac:(rewrite Ropp_involutive; exact D) _) _); [auto_derive; [exact I|rr; ring]|rr; ring].
  - lra.
  - exists e. split; [exact He|]. intros x Hx. specialize (B (- x) ltac:(lra)). rewrite Ropp_involutive in B. exact B.
Qed.
(** A continuous function takes all values between two of its values. *)
Lemma between_values (f : RR -> RR) a b t t' y : (forall s, a < s < b -> continuous f s) -> a < t < b -> a < t' < b -> f t <= y <= f t' -> exists s, a < s < b /\ f s = y.
Proof.
  intros C Ht Ht' Hy. destruct (Req_dec (f t) y) as [E|N]; [exists t; auto|]. destruct (Req_dec (f t') y) as [E'|N']; [exists t'; auto|].
  assert (CC : forall s k, a < s < b -> continuity_pt (fun s => k * (f s - y)) s).
  { intros s k Hs. apply continuity_pt_filterlim. apply (continuous_scal_r k (fun s => f s - y)). apply (continuous_minus f (fun _ => y)); [apply C; exact Hs|apply continuous_const]. }
  destruct (Rtotal_order t t') as [L|[L|L]].
  - destruct (Ranalysis5.IVT_interv (fun s => 1 * (f s - y)) t t') as (s & Hs & E); [intros x Hx; apply CC; lra|exact L|lra|lra|]. exists s. split; lra.
  - rewrite L in *. lra.
  - destruct (Ranalysis5.IVT_interv (fun s => -1 * (f s - y)) t' t) as (s & Hs & E); [intros x Hx; apply CC; lra|exact L|lra|lra|]. exists s. split; lra.
Qed.
Lemma stays_in (S q : RR -> RR) a b q0 q1 t0 : simple_well S q0 q1 -> (forall t, a < t < b -> continuous q t) -> (forall t, a < t < b -> 0 <= S (q t)) ->
  a < t0 < b -> q0 <= q t0 <= q1 -> forall t, a < t < b -> q0 <= q t <= q1.
Proof.
  intros (L & Z0 & Z1 & Pos & (d0 & P0 & D0) & (d1 & P1 & D1)) C N Ht0 H0 t Ht. split.
  - destruct (Rle_dec q0 (q t)) as [Y|Y]; [exact Y|exfalso]. destruct (below_before S q0 d0 Z0 D0 P0) as (e & He & B).
    set (y := Rmax (q t) (q0 - e / 2)). assert (Hy : q t <= y < q0 /\ q0 - e < y) by (unfold y; split; [split; [apply Rmax_l|apply Rmax_lub_lt; lra]|apply (Rlt_le_trans _ (q0 - e / 2)); [lra|apply Rmax_r]]).
    destruct (between_values q a b t t0 y C Ht Ht0 ltac:(lra)) as (x & Hx & E). pose proof (N x Hx) as NN. rewrite E in NN. specialize (B y ltac:(lra)). lra.
  - destruct (Rle_dec (q t) q1) as [Y|Y]; [exact Y|exfalso]. destruct (below_after S q1 d1 Z1 D1 P1) as (e & He & B).
    set (y := Rmin (q t) (q1 + e / 2)). assert (Hy : q1 < y <= q t /\ y < q1 + e) by (unfold y; split; [split; [apply Rmin_glb_lt; lra|apply Rmin_l]|apply (Rle_lt_trans _ (q1 + e / 2)); [apply Rmin_r|lra]]).
    destruct (between_values q a b t0 t y C Ht0 Ht ltac:(lra)) as (x & Hx & E). pose proof (N x Hx) as NN. rewrite E in NN. specialize (B y ltac:(lra)). lra.
Qed.
Lemma well_scale (S S' : RR -> RR) k q0 q1 lo hi : 0 < k -> lo < q0 -> q1 < hi -> (forall q, lo < q < hi -> S q = k * S' q) -> simple_well S q0 q1 -> simple_well S' q0 q1.
Proof.
  intros Hk Hlo Hhi E (L & Z0 & Z1 & Pos & (d0 & P0 & D0) & (d1 & P1 & D1)).
  assert (E' : forall q, lo < q < hi -> S' q = / k * S q) by (intros q Hq; rewrite E by exact Hq; field; lra).
  assert (DD : forall q d, lo < q < hi -> is_derive S q d -> is_derive S' q (/ k * d)).
  { intros q d Hq D. apply (is_derive_loc (fun x => / k * S x) S' q _ (fun x => lo < x < hi)).
    - apply filter_and; [apply locally_gt|apply locally_lt]; lra.
    - intros x Hx. symmetry. apply E'. exact Hx.
    - apply d_scale. exact D. }
  assert (Ik : 0 < / k) by (apply Rinv_0_lt_compat; exact Hk).
  split; [exact L|]. split; [rewrite E' by lra; rewrite Z0; ring|]. split; [rewrite E' by lra; rewrite Z1; ring|].
  split; [intros q Hq; rewrite E' by lra; apply Rmult_lt_0_compat; [exact Ik|apply Pos; exact Hq]|]. split.
  - exists (/ k * d0). split; [apply Rmult_lt_0_compat; assumption|]. apply DD; [lra|exact D0].
  - exists (/ k * d1). split; [apply Rmult_lt_reg_l with k; [exact Hk|]; rewrite <- Rmult_assoc, Rinv_r by lra; lra|]. apply DD; [lra|exact D1].
Qed.

(** ** The angle formulas are branches of the primitives *)
Lemma half_sqrt x y : x <= y -> (sqrt (y - x)) ^ 2 = y - x.
Proof. intros H. apply pow2_sqrt. lra. Qed.
Section Parts.
  Variables (delta umin umax vmin : RR) (s : single) (qU qV : option RR -> nat -> RR).
  Hypotheses (Hd : 0 < delta) (Hu : umin <= g_ux s <= umax) (Hv : vmin <= g_vx s <= PI - vmin) (Hvm : vmin < PI / 2).
  Let PU k q := qU (Some q) k.
  Let PV k q := qV (Some q) k.
  Let dr := (qU None 0%nat * (delta / PI / sqrt 2), qU None 2%nat * (- g_Lz s / PI / sqrt 2 / delta), qU None 1%nat * (- delta / PI / sqrt 2)).
  Let dz := (qV None 0%nat * (sqrt 2 * delta / PI), qV None 2%nat * (- g_Lz s * sqrt 2 / PI / delta), qV None 1%nat * (sqrt 2 * delta / PI)).
  Let c := delta / sqrt 2.
  Let cL := - g_Lz s / delta / sqrt 2.
  Lemma u_part_branch : u_part delta umin umax s qU dr =
    (c * branch (PU 0) (qU None 0%nat) (g_pux s) (g_ux s), - c * branch (PU 1) (qU None 1%nat) (g_pux s) (g_ux s), cL * branch (PU 2) (qU None 2%nat) (g_pux s) (g_ux s)).
  Proof.
    assert (S2 : 0 < sqrt 2) by (apply sqrt_lt_R0; lra). pose proof PI_RGT_0 as PP.
    unfold u_part, dr, branch, c, cL, PU, uquad. rewrite (half_sqrt (g_ux s) umax), (half_sqrt umin (g_ux s)) by lra.
    replace (umax - (umax - g_ux s)) with (g_ux s) by ring. replace (umin + (g_ux s - umin)) with (g_ux s) by ring.
    destruct (Rlt_dec 0 (g_pux s)), (Rlt_dec (umin + 1 / 2 * (umax - umin)) (g_ux s)); (f_equal; [f_equal|]); rr; field; repeat split; lra.
  Qed.
  Hypothesis (Refl : forall k q, vmin <= q <= PI - vmin -> PV k q + PV k (PI - q) = 2 * qV None k).
  Lemma v_part_branch : v_part delta vmin s qV dz =
    (c * branch (PV 0) (2 * qV None 0%nat) (g_pvx s) (g_vx s), c * branch (PV 1) (2 * qV None 1%nat) (g_pvx s) (g_vx s), cL * branch (PV 2) (2 * qV None 2%nat) (g_pvx s) (g_vx s)).
  Proof.
    assert (S2 : 0 < sqrt 2) by (apply sqrt_lt_R0; lra). pose proof PI_RGT_0 as PP. assert (Q2 : sqrt 2 * sqrt 2 = 2) by (apply sqrt_sqrt; lra).
    assert (W : sqrt 2 = 2 / sqrt 2) by (apply (Rmult_eq_reg_r (sqrt 2)); [rewrite Q2; field; lra|lra]).
    assert (RP : forall k, qV (Some (PI - g_vx s)) k = 2 * qV None k - PV k (g_vx s)) by (intros k; pose proof (Refl k (g_vx s) Hv) as Q; unfold PV in *; lra).
    assert (W1 : sqrt 2 * delta / PI = 2 / sqrt 2 * delta / PI) by (rewrite W at 1; reflexivity).
    assert (W2 : - g_Lz s * sqrt 2 / PI / delta = - g_Lz s * (2 / sqrt 2) / PI / delta) by (rewrite W at 1; reflexivity).
    unfold v_part, dz, branch, c, cL, vquad. fold PV. rewrite W1, W2.
    assert (L1 : forall k, qV (Some (vmin + (if Rlt_dec (1 / 2 * PI) (g_vx s) then sqrt (PI - g_vx s - vmin) else sqrt (g_vx s - vmin)) ^ 2)) k =
       if Rlt_dec (1 / 2 * PI) (g_vx s) then 2 * qV None k - PV k (g_vx s) else PV k (g_vx s)).
    { intros k. destruct (Rlt_dec (1 / 2 * PI) (g_vx s)).
      - rewrite (half_sqrt vmin (PI - g_vx s)) by lra. replace (vmin + (PI - g_vx s - vmin)) with (PI - g_vx s) by ring. apply RP.
      - rewrite (half_sqrt vmin (g_vx s)) by lra. replace (vmin + (g_vx s - vmin)) with (g_vx s) by ring. reflexivity. }
    assert (L2 : forall k, qV (Some (PI / 2 - sqrt (Rabs (1 / 2 * PI - g_vx s)) ^ 2)) k = if Rlt_dec (1 / 2 * PI) (g_vx s) then 2 * qV None k - PV k (g_vx s) else PV k (g_vx s)).
    { intros k. rewrite pow2_sqrt by apply Rabs_pos. destruct (Rlt_dec (1 / 2 * PI) (g_vx s)).
      - rewrite Rabs_left by lra. replace (PI / 2 - - (1 / 2 * PI - g_vx s)) with (PI - g_vx s) by field. apply RP.
      - rewrite Rabs_pos_eq by lra. replace (PI / 2 - (1 / 2 * PI - g_vx s)) with (g_vx s) by field. reflexivity. }
    rewrite !L1, !L2. set (m := vmin + 1 / 2 * (1 / 2 * PI - vmin)). assert (Hm : vmin < m < 1 / 2 * PI) by (unfold m; lra).
    destruct (Req_dec (g_vx s) (PI / 2)) as [Emid|Nmid].
    - assert (RM : forall k, PV k (g_vx s) = qV None k) by (intros k; pose proof (Refl k (g_vx s) Hv) as Q; unfold PV in *; rewrite Emid in *; replace (PI - PI / 2) with (PI / 2) in Q by field; lra).
      rewrite !RM. destruct (Rlt_dec 0 (g_pvx s)), (Rlt_dec (g_vx s) m), (Rlt_dec (PI - m) (g_vx s)), (Rlt_dec (1 / 2 * PI) (g_vx s)), (Rlt_dec (g_vx s) (1 / 2 * PI)); try lra;
        (f_equal; [f_equal|]); rr; field; repeat split; lra.
    - destruct (Rlt_dec 0 (g_pvx s)), (Rlt_dec (g_vx s) m), (Rlt_dec (PI - m) (g_vx s)), (Rlt_dec (1 / 2 * PI) (g_vx s)), (Rlt_dec (g_vx s) (1 / 2 * PI)); try lra;
        (f_equal; [f_equal|]); rr; field; repeat split; lra.
  Qed.
End Parts.
