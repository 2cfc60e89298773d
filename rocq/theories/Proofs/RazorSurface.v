(** The vertical force just above a razor-thin disk. *)
From Coq Require Import Reals Lra.
From Coquelicot Require Import Coquelicot.
From Verif.Lib Require Import RealAux.
From Verif.Model Require Import RingDisk.
From Verif.Spec Require Import RingSpec.
From Verif.Proofs Require Import Elliptic RazorDisk.
Open Scope R_scope.
Notation RR := RbaseSymbolsImpl.R (only parsing).
Ltac rr := match goal with |- ?a = ?b => change (@eq RR a b) end.

(** ** E at the parameter 1 *)
Lemma E_1 : ellipe 1 = 1.
Proof.
  unfold ellipe. assert (D : is_RInt cos 0 (PI / 2) (sin (PI / 2) - sin 0)).
  { apply (is_RInt_derive (V := R_CompleteNormedModule) sin cos); intros x _; [apply is_derive_Reals, derivable_pt_lim_sin|]. apply (ex_derive_continuous (V := R_NormedModule)). auto_derive. exact I. }
  rewrite sin_PI2, sin_0, Rminus_0_r in D. apply (is_RInt_unique (V := R_CompleteNormedModule)). refine (is_RInt_ext _ _ _ _ _ _ D). intros x Hx. pose proof PI_RGT_0. rewrite Rmin_left, Rmax_right in Hx by lra.
  assert (0 < cos x) by (apply cos_gt_0; lra). pose proof (sin2_cos2 x) as S. unfold Rsqr in S. replace (1 - 1 * sin x ^ 2) with (cos x ^ 2) by (simpl; lra). rewrite sqrt_pow2 by lra. reflexivity.
Qed.
Lemma sin_sq th : 0 <= sin th ^ 2 <= 1.
Proof. split; [apply pow2_ge_0|]. pose proof (sin2_cos2 th) as S. unfold Rsqr in S. pose proof (pow2_ge_0 (cos th)). simpl in *. lra. Qed.
Lemma E_le m : 0 <= m -> ellipe m <= PI / 2.
Proof.
  intros Hm. pose proof PI_RGT_0. pose proof (is_RInt_const (V := R_NormedModule) 0 (PI / 2) (1 : R_NormedModule)) as C. unfold scal in C; simpl in C. unfold mult in C; simpl in C. replace ((PI / 2 - 0) * 1) with (PI / 2) in C by ring.
  apply (is_RInt_le (fun th => sqrt (Dl m th)) (fun _ => 1) 0 (PI / 2)); [lra|apply iE|exact C|]. intros x _. apply Rle_trans with (sqrt 1); [|rewrite sqrt_1; lra]. apply sqrt_le_1_alt. unfold Dl. pose proof (sin_sq x). nra.
Qed.
Lemma E_nn m : 0 <= ellipe m.
Proof. pose proof PI_RGT_0. unfold ellipe. apply RInt_ge_0; [lra|exists (ellipe m); apply iE|]. intros x _. apply sqrt_pos. Qed.
Lemma E_near m : m <= 1 -> Rabs (ellipe m - ellipe 1) <= PI / 2 * sqrt (1 - m).
Proof.
  intros Hm. pose proof PI_RGT_0 as P0. pose proof (iE m) as I1. pose proof (iE 1) as I2. pose proof (is_RInt_minus (V := R_NormedModule) _ _ _ _ _ _ I1 I2) as J. unfold minus, plus, opp in J; simpl in J.
  pose proof (is_RInt_const (V := R_NormedModule) 0 (PI / 2) (sqrt (1 - m) : R_NormedModule)) as C. unfold scal in C; simpl in C. unfold mult in C; simpl in C. rewrite Rminus_0_r in C.
  pose proof (is_RInt_const (V := R_NormedModule) 0 (PI / 2) (0 : R_NormedModule)) as Z. unfold scal in Z; simpl in Z. unfold mult in Z; simpl in Z. rewrite Rmult_0_r in Z.
  assert (B : forall x, 0 <= sqrt (Dl m x) + - sqrt (Dl 1 x) <= sqrt (1 - m)).
  { intros x. pose proof (sin_sq x) as S. assert (D1 : 0 <= Dl 1 x) by (unfold Dl; lra). assert (D2 : Dl 1 x <= Dl m x) by (unfold Dl; nra). split; [pose proof (sqrt_le_1_alt _ _ D2); lra|].
    assert (T : sqrt (Dl m x) <= sqrt (Dl 1 x + (1 - m))) by (apply sqrt_le_1_alt; unfold Dl; nra). pose proof (sqrt_pos (Dl 1 x)) as q1. pose proof (sqrt_pos (1 - m)) as q2.
    assert (U : sqrt (Dl 1 x + (1 - m)) <= sqrt (Dl 1 x) + sqrt (1 - m)). { rewrite <- (sqrt_pow2 (sqrt (Dl 1 x) + sqrt (1 - m))) by lra. apply sqrt_le_1_alt. assert (Q1 : sqrt (Dl 1 x) ^ 2 = Dl 1 x) by (apply pow2_sqrt; exact D1). assert (Q2 : sqrt (1 - m) ^ 2 = 1 - m) by (apply pow2_sqrt; lra). nra. }
    lra. }
  apply Rabs_le. pose proof (is_RInt_le _ _ 0 (PI / 2) _ _ ltac:(lra) J C (fun x _ => proj2 (B x))) as U. pose proof (is_RInt_le _ _ 0 (PI / 2) _ _ ltac:(lra) Z J (fun x _ => proj1 (B x))) as L. simpl in U, L. pose proof (sqrt_pos (1 - m)). split; [|lra]. assert (0 <= PI / 2 * sqrt (1 - m)) by (apply Rmult_le_pos; lra). lra.
Qed.
Definition Et (m : RR) : RR := ellipe (Rmin m 1).
Lemma c_Et1 : continuous Et 1.
Proof.
  assert (C : continuous (fun m => PI / 2 * sqrt (((1 - m) + Rabs (1 - m)) / 2)) 1).
  { apply c2_mult; [apply c2_const|]. apply c2_sqrt. assert (D : continuous (fun m : RR => 1 - m) 1) by (apply c2_minus; [apply c2_const|apply continuous_id]). apply c2_div; [apply c2_plus; [exact D|apply (c2_comp Rabs); [exact D|apply continuous_Rabs]]|apply c2_const|lra]. }
  intros P [e HP]. specialize (C (fun y => y < e)). cbv beta in C.
  assert (Z : PI / 2 * sqrt ((1 - 1 + Rabs (1 - 1)) / 2) = 0) by (replace (1 - 1) with 0 by ring; rewrite Rabs_R0; replace ((0 + 0) / 2) with 0 by field; rewrite sqrt_0; ring). rewrite Z in C.
  assert (L : locally 0 (fun y : RR => y < e)) by (apply locally_lt; apply cond_pos). specialize (C L). unfold filtermap in *. revert C. apply filter_imp. intros m Hm. apply HP. unfold ball; simpl. unfold AbsRing_ball, abs, minus, plus, opp; simpl. unfold Et. rewrite (Rmin_left 1 1) by lra. change (Rabs (ellipe (Rmin m 1) - ellipe 1) < e).
  apply Rle_lt_trans with (2 := Hm). apply Rle_trans with (1 := E_near _ (Rmin_r m 1)). apply Req_le. f_equal. f_equal. unfold Rmin. destruct (Rle_dec m 1); [rewrite Rabs_right by lra|rewrite Rabs_left by lra]; field.
Qed.

(** ** The Poisson kernel of the half-plane *)
Section Kernel.
  Variables (T R M phi0 : RR) (phi : RR -> RR -> RR).
  Hypotheses (HR : 0 < R < T) (cP : forall z a, 0 < z -> continuous (fun a => phi a z) a) (bP : forall z a, 0 < z -> 0 <= a <= T -> Rabs (phi a z) <= M) (b0 : Rabs phi0 <= M)
    (nP : forall e, 0 < e -> exists d, 0 < d /\ forall a z, Rabs (a - R) < d -> 0 < z < d -> Rabs (phi a z - phi0) < e).
  Definition pk (z a : RR) : RR := z / ((R - a) ^ 2 + z ^ 2).
  Lemma pk_den z a : 0 < z -> 0 < (R - a) ^ 2 + z ^ 2. Proof using. intros H. pose proof (pow2_ge_0 (R - a)). assert (0 < z ^ 2) by (apply pow_lt; exact H). lra. Qed.
  Lemma pk_pos z a : 0 < z -> 0 < pk z a. Proof using. intros H. unfold pk. apply Rdiv_lt_0_compat; [exact H|apply pk_den; exact H]. Qed.
  Lemma c_pk z a : 0 < z -> continuous (pk z) a.
  Proof using. intros H. unfold pk. apply (ex_derive_continuous (V := R_NormedModule)). auto_derive. pose proof (pk_den z a H). simpl in *. lra. Qed.
  Lemma i_pk z : 0 < z -> is_RInt (pk z) 0 T (atan ((T - R) / z) + atan (R / z)).
  Proof using.
    intros H. replace (atan ((T - R) / z) + atan (R / z)) with (atan ((T - R) / z) - atan ((0 - R) / z)) by (replace ((0 - R) / z) with (- (R / z)) by (field; lra); rewrite atan_opp; ring).
    apply (is_RInt_derive (V := R_CompleteNormedModule) (fun a => atan ((a - R) / z))); intros x _; [|apply c_pk; exact H].
    refine (is_derive_eq _ _ _ _ (is_derive_comp (V := R_NormedModule) atan (fun a => (a - R) / z) x (/ (1 + ((x - R) / z) ^ 2)) (/ z) _ _) _).
    - apply is_derive_Reals. apply derivable_pt_lim_atan.
    - auto_derive; [lra|rr; field; lra].
    - unfold scal; simpl. unfold mult; simpl. unfold pk. pose proof (pk_den z x H) as D. rr. field. repeat split; first [lra | apply Rgt_not_eq; nra].
  Qed.
  Lemma atan_le x : atan x <= PI / 2. Proof using. pose proof (atan_bound x). lra. Qed.
  Lemma kernel_bound e d z : 0 < e -> 0 < d -> (forall a z, Rabs (a - R) < d -> 0 < z < d -> Rabs (phi a z - phi0) < e) -> 0 < z < d ->
    Rabs (RInt (fun a => pk z a * phi a z) 0 T - phi0 * (atan ((T - R) / z) + atan (R / z))) <= e * PI + 2 * M * T / d ^ 2 * z.
  Proof using HR cP bP b0.
    intros He Hd N Hz. assert (z0 : 0 < z) by lra. pose proof (i_pk z z0) as I1.
    assert (X : ex_RInt (fun a => pk z a * phi a z) 0 T) by (apply exi; intros a; apply c2_mult; [apply c_pk; exact z0|apply cP; exact z0]).
    assert (J : is_RInt (fun a => pk z a * (phi a z - phi0)) 0 T (RInt (fun a => pk z a * phi a z) 0 T - phi0 * (atan ((T - R) / z) + atan (R / z)))).
    { pose proof (is_RInt_minus (V := R_NormedModule) _ _ _ _ _ _ (icor _ _ _ X) (is_RInt_scal (V := R_NormedModule) _ _ _ phi0 _ I1)) as J. unfold minus, plus, opp, scal in J; simpl in J. unfold mult in J; simpl in J. refine (is_RInt_ext _ _ _ _ _ _ J). intros x _. rr. ring. }
    assert (M0 : 0 <= M) by (pose proof (Rabs_pos phi0); lra). set (k := 2 * M / d ^ 2). assert (d2 : 0 < d ^ 2) by (apply pow_lt; exact Hd). assert (k0 : 0 <= k) by (unfold k; apply Rmult_le_pos; [lra|apply Rlt_le, Rinv_0_lt_compat; exact d2]).
    assert (B : forall a, 0 <= a <= T -> Rabs (pk z a * (phi a z - phi0)) <= e * pk z a + k * z).
    { intros a Ha. rewrite Rabs_mult, (Rabs_right (pk z a)) by (apply Rle_ge, Rlt_le, pk_pos; exact z0). pose proof (pk_pos z a z0) as P. pose proof (pk_den z a z0) as D.
      destruct (Rlt_dec (Rabs (a - R)) d) as [L|L].
      - specialize (N a z L Hz). assert (0 <= k * z) by (apply Rmult_le_pos; lra). rewrite Rmult_comm. assert (Rabs (phi a z - phi0) * pk z a <= e * pk z a) by (apply Rmult_le_compat_r; lra). lra.
      - assert (Q : Rabs (phi a z - phi0) <= 2 * M) by (unfold Rminus; apply Rle_trans with (1 := Rabs_triang _ _); rewrite Rabs_Ropp; specialize (bP z a z0 Ha); lra).
        assert (S : d ^ 2 <= (R - a) ^ 2). { rewrite <- (pow2_abs (R - a)), Rabs_minus_sym. apply pow_incr. lra. }
        assert (V : pk z a <= z / d ^ 2). { unfold pk, Rdiv. apply Rmult_le_compat_l; [lra|]. apply Rinv_le_contravar; [exact d2|]. pose proof (pow2_ge_0 z). lra. }
        assert (W : pk z a * Rabs (phi a z - phi0) <= z / d ^ 2 * (2 * M)) by (apply Rmult_le_compat; [lra|apply Rabs_pos|exact V|exact Q]). assert (z / d ^ 2 * (2 * M) = k * z) by (unfold k; field; lra). assert (0 <= e * pk z a) by (apply Rmult_le_pos; lra). lra. }
    pose proof (is_RInt_plus (V := R_NormedModule) _ _ _ _ _ _ (is_RInt_scal (V := R_NormedModule) _ _ _ e _ I1) (is_RInt_const (V := R_NormedModule) 0 T (k * z : R_NormedModule))) as U. unfold plus, scal in U; simpl in U. unfold mult in U; simpl in U.
    pose proof (norm_RInt_le (V := R_NormedModule) _ _ 0 T _ _ ltac:(lra) B J U) as F. unfold norm in F; simpl in F. unfold abs in F; simpl in F. apply Rle_trans with (1 := F).
    pose proof (atan_le ((T - R) / z)). pose proof (atan_le (R / z)). assert (e * (atan ((T - R) / z) + atan (R / z)) <= e * PI) by (apply Rmult_le_compat_l; lra). replace (2 * M * T / d ^ 2 * z) with ((T - 0) * (k * z)) by (unfold k; field; lra). lra.
  Qed.
  Lemma atan_near y e : 0 < y -> 0 < e -> exists d, 0 < d /\ forall z, 0 < z < d -> PI / 2 - e < atan (y / z).
  Proof using.
    intros Hy He. destruct (Rlt_dec (PI / 2 - e) 0) as [L|L].
    - exists 1. split; [lra|]. intros z Hz. assert (0 < atan (y / z)) by (rewrite <- atan_0; apply atan_increasing, Rdiv_lt_0_compat; lra). lra.
    - assert (Rg : 0 <= PI / 2 - e < PI / 2) by lra. pose proof PI_RGT_0. set (w := tan (PI / 2 - e)). assert (A : atan w = PI / 2 - e) by (unfold w; apply atan_tan; lra).
      exists (y / (Rabs w + 1)). pose proof (Rabs_pos w). split; [apply Rdiv_lt_0_compat; lra|]. intros z [Z1 Z2]. rewrite <- A. apply atan_increasing. apply Rle_lt_trans with (1 := Rle_abs w). apply (Rmult_lt_reg_r z); [exact Z1|]. replace (y / z * z) with y by (field; lra).
      assert (z * (Rabs w + 1) < y) by (apply (Rmult_lt_compat_r (Rabs w + 1)) in Z2; [|lra]; replace (y / (Rabs w + 1) * (Rabs w + 1)) with y in Z2 by (field; lra); exact Z2). lra.
  Qed.
  Lemma kernel_limit : filterlim (fun z => RInt (fun a => pk z a * phi a z) 0 T) (at_right 0) (locally (PI * phi0)).
  Proof using HR cP bP b0 nP.
    pose proof PI_RGT_0 as P0. assert (M0 : 0 <= M) by (pose proof (Rabs_pos phi0); lra). apply filterlim_locally. intros eps. pose proof (cond_pos eps) as e0. set (e := eps / (8 * PI)). assert (He : 0 < e) by (unfold e; apply Rdiv_lt_0_compat; lra).
    destruct (nP e He) as (d1 & D1 & N). set (e2 := eps / (8 * (M + 1))). assert (He2 : 0 < e2) by (unfold e2; apply Rdiv_lt_0_compat; lra).
    destruct (atan_near (T - R) e2 ltac:(lra) He2) as (d2 & D2 & A2). destruct (atan_near R e2 ltac:(lra) He2) as (d3 & D3 & A3).
    set (q := 2 * M * T / d1 ^ 2 + 1). assert (q0 : 0 < q) by (unfold q; assert (0 <= 2 * M * T / d1 ^ 2) by (apply Rmult_le_pos; [apply Rmult_le_pos; lra|apply Rlt_le, Rinv_0_lt_compat, pow_lt; exact D1]); lra).
    set (d4 := eps / (8 * q)). assert (D4 : 0 < d4) by (unfold d4; apply Rdiv_lt_0_compat; lra).
    assert (dm : 0 < Rmin (Rmin d1 d2) (Rmin d3 d4)) by (repeat apply Rmin_glb_lt; assumption). exists (mkposreal _ dm). intros z Bz Hz. change (0 < z) in Hz. unfold ball in Bz; simpl in Bz. unfold AbsRing_ball, abs, minus, plus, opp in Bz; simpl in Bz. change (Rabs (z - 0) < Rmin (Rmin d1 d2) (Rmin d3 d4)) in Bz. rewrite Rminus_0_r, Rabs_right in Bz by (apply Rle_ge, Rlt_le; exact Hz).
    pose proof (Rmin_l (Rmin d1 d2) (Rmin d3 d4)). pose proof (Rmin_r (Rmin d1 d2) (Rmin d3 d4)). pose proof (Rmin_l d1 d2). pose proof (Rmin_r d1 d2). pose proof (Rmin_l d3 d4). pose proof (Rmin_r d3 d4).
    pose proof (kernel_bound e d1 z He D1 N ltac:(lra)) as B. specialize (A2 z ltac:(lra)). specialize (A3 z ltac:(lra)). pose proof (atan_le ((T - R) / z)) as U2. pose proof (atan_le (R / z)) as U3.
    unfold ball; simpl. unfold AbsRing_ball, abs, minus, plus, opp; simpl. set (I := RInt _ 0 T) in *. clearbody I. set (s := atan ((T - R) / z) + atan (R / z)) in *. change (Rabs (I - PI * phi0) < eps).
    replace (I - PI * phi0) with ((I - phi0 * s) + phi0 * (s - PI)) by ring. apply Rle_lt_trans with (1 := Rabs_triang _ _). rewrite Rabs_mult.
    assert (S : Rabs (s - PI) <= 2 * e2) by (apply Rabs_le; unfold s; lra).
    assert (S1 : Rabs phi0 * Rabs (s - PI) <= (M + 1) * (2 * e2)) by (apply Rmult_le_compat; [apply Rabs_pos|apply Rabs_pos|lra|exact S]). replace ((M + 1) * (2 * e2)) with (eps / 4) in S1 by (unfold e2; field; lra).
    assert (S2 : 2 * M * T / d1 ^ 2 * z <= eps / 8). { apply Rle_trans with (q * z); [apply Rmult_le_compat_r; unfold q; lra|]. replace (eps / 8) with (q * d4) by (unfold d4; field; lra). apply Rmult_le_compat_l; lra. }
    replace (e * PI) with (eps / 8) in B by (unfold e; field; lra). lra.
  Qed.
End Kernel.

(** ** The force just above the disk *)
Lemma near_surface sdens top R : razor sdens top -> 0 < R -> filterlim (fun z => disk_zf sdens top R z) (at_right 0) (locally (- 2 * PI * sdens R)).
Proof.
  intros (Ht & cS & S0) HR. set (T := Rmax top (2 * R)). assert (HT : 0 < R < T) by (unfold T; pose proof (Rmax_r top (2 * R)); lra). pose proof (Rmax_l top (2 * R)) as Htop. fold T in Htop.
  set (phi := fun a z : RR => a * sdens a * hh a R z). set (phi0 := sdens R / 2).
  assert (bS : exists m, forall a, 0 <= a <= T -> Rabs (a * sdens a) <= m).
  { destruct (continuity_ab_maj (fun a => Rabs (a * sdens a)) 0 T ltac:(lra)) as (x & Hx & _).
    - intros c _. apply continuity_pt_filterlim. apply (c2_comp Rabs (fun a => a * sdens a)); [apply c2_mult; [apply continuous_id|apply cS]|apply continuous_Rabs].
    - exists (Rabs (x * sdens x)). exact Hx. }
  destruct bS as [m Hm]. set (M := m * (PI / 2 / R) + Rabs phi0). pose proof PI_RGT_0 as P0.
  assert (m0 : 0 <= m) by (apply Rle_trans with (2 := Hm 0 ltac:(lra)); apply Rabs_pos).
  assert (zz : forall z, 0 < z -> z <> 0) by (intros; lra).
  assert (bP : forall z a, 0 < z -> 0 <= a <= T -> Rabs (phi a z) <= M).
  { intros z a Hz Ha. unfold phi, M. rewrite Rabs_mult. apply Rle_trans with (m * (PI / 2 / R)); [|pose proof (Rabs_pos phi0); lra]. apply Rmult_le_compat; [apply Rabs_pos|apply Rabs_pos|apply Hm; exact Ha|].
    pose proof (rDz_pos a R z (zz z Hz)) as Q. pose proof (sqrt_lt_R0 _ Q) as S. assert (L : R <= sqrt (rD a R z)). { rewrite <- (sqrt_pow2 R) at 1 by lra. apply sqrt_le_1_alt. unfold rD. pose proof (pow2_ge_0 z). nra. }
    assert (mp : 0 <= mm a R z) by (unfold mm; apply Rmult_le_pos; [apply Rmult_le_pos; lra|apply Rlt_le, Rinv_0_lt_compat; exact Q]).
    unfold hh. rewrite Rabs_right by (apply Rle_ge, Rmult_le_pos; [apply E_nn|apply Rlt_le, Rinv_0_lt_compat; exact S]). unfold Rdiv. apply Rmult_le_compat; [apply E_nn|apply Rlt_le, Rinv_0_lt_compat; exact S|apply E_le; exact mp|apply Rinv_le_contravar; lra]. }
  assert (cP : forall z a, 0 < z -> continuous (fun a => phi a z) a).
  { intros z a Hz. unfold phi. apply c2_mult; [apply c2_mult; [apply continuous_id|apply cS]|]. apply (c_hh (fun a : R_UniformSpace => a) (fun _ => R) (fun _ => z)); [apply continuous_id|apply c2_const|apply c2_const|apply rd_pos, zz, Hz|apply rDz_pos, zz, Hz]. }
  assert (nP : forall e, 0 < e -> exists d, 0 < d /\ forall a z, Rabs (a - R) < d -> 0 < z < d -> Rabs (phi a z - phi0) < e).
  { assert (Q0 : 0 < rD R R 0) by (unfold rD; assert (0 < (R + R) ^ 2) by (apply pow_lt; lra); lra). assert (M1 : mm R R 0 = 1) by (unfold mm, rD; field; lra).
    assert (C : continuous (fun p : P2 => fst p * sdens (fst p) * (Et (mm (fst p) R (snd p)) / sqrt (rD (fst p) R (snd p)))) (R, 0)).
    { apply (c2_mult (U := P2)); [apply (c2_mult (U := P2)); [apply c2_fst|apply (c2_comp (U := P2) sdens (fun p => fst p)); [apply c2_fst|apply cS]]|]. apply (c2_div (U := P2)).
      - apply (c2_comp (U := P2) Et (fun p => mm (fst p) R (snd p))); [apply (c_mm (U := P2) (fun p => fst p) (fun _ => R) (fun p => snd p)); [apply c2_fst|apply c2_const|apply c2_snd|exact Q0]|]. cbn [fst snd]. rewrite M1. exact c_Et1.
      - apply (c2_sqrt (U := P2)). apply (c_rD (U := P2) (fun p => fst p) (fun _ => R) (fun p => snd p)); [apply c2_fst|apply c2_const|apply c2_snd].
      - cbn [fst snd]. pose proof (sqrt_lt_R0 _ Q0). lra. }
    intros e He. specialize (C (fun y => Rabs (y - phi0) < e)). cbn [fst snd] in C.
    assert (V : R * sdens R * (Et (mm R R 0) / sqrt (rD R R 0)) = phi0). { rewrite M1. unfold Et. rewrite Rmin_left by lra. rewrite E_1. replace (rD R R 0) with ((2 * R) ^ 2) by (unfold rD; ring). rewrite sqrt_pow2 by lra. unfold phi0. field. lra. }
    rewrite V in C. assert (L : locally phi0 (fun y : RR => Rabs (y - phi0) < e)) by (exists (mkposreal e He); intros y Hy; exact Hy). destruct (C L) as [d Hd]. exists d. split; [apply cond_pos|]. intros a z Ha Hz.
    assert (B : ball ((R, 0) : P2) d (a, z)) by (split; unfold ball; simpl; unfold AbsRing_ball, abs, minus, plus, opp; simpl; [exact Ha|change (Rabs (z - 0) < d); rewrite Rminus_0_r, Rabs_right by lra; lra]). specialize (Hd (a, z) B). cbn [fst snd] in Hd.
    unfold phi, hh. unfold Et in Hd. rewrite Rmin_left in Hd; [exact Hd|]. apply Rlt_le, mm_lt1; [apply rd_pos|apply rDz_pos]; apply zz; lra. }
  pose proof (kernel_limit T R M phi0 phi HT cP bP ltac:(unfold M; assert (0 <= m * (PI / 2 / R)) by (apply Rmult_le_pos; [exact m0|apply Rlt_le, Rdiv_lt_0_compat; lra]); lra) nP) as K.
  replace (- 2 * PI * sdens R) with (- 4 * (PI * phi0)) by (unfold phi0; field).
  apply (filterlim_ext_loc (fun z => - 4 * RInt (fun a => pk R z a * phi a z) 0 T)).
  - exists (mkposreal 1 Rlt_0_1). intros z _ Hz. rewrite (disk_zf_eq sdens top Ht cS S0 R z ltac:(lra) (zz z Hz)). unfold dI.
    assert (Ex : RInt (dk sdens kz R z) 0 top = RInt (dk sdens kz R z) 0 T). { unfold T. rewrite Rmax_comm. symmetry. apply beyond; [apply c_dk; [exact cS|apply kz_cont, zz, Hz]|intros a Ha; unfold dk; rewrite (S0 a Ha); ring|lra]. }
    rewrite Ex. pose proof (RInt_scal (V := R_CompleteNormedModule) (fun a => pk R z a * phi a z) 0 T (- 1)) as L. unfold scal in L; simpl in L. unfold mult in L; simpl in L.
    rewrite (RInt_ext (dk sdens kz R z) (fun a => - 1 * (pk R z a * phi a z))).
    + rewrite L by (apply exi; intros a; apply c2_mult; [apply c_pk; exact Hz|apply cP; exact Hz]). rr. ring.
    + intros x _. unfold dk, kz, pk, phi, rd. rr. unfold Rdiv. ring.
  - apply (filterlim_comp _ _ _ (fun z => RInt (fun a => pk R z a * phi a z) 0 T) (fun x => - 4 * x) _ (locally (PI * phi0)) _); [exact K|]. apply (c2_mult (fun _ => - 4) (fun x : R_UniformSpace => x)); [apply c2_const|apply continuous_id].
Qed.
