(** Explicit formulae, symmetry and mass of the expansion. *)
From Coq Require Import Reals Lra Lia Arith List.
From Coquelicot Require Import Coquelicot.
From Verif.Lib Require Import RealAux Atan2.
From Verif.Model Require Import Coords PotAPI SphHarm.
From Verif.Spec Require Import ExpansionSpec.
From Verif.Proofs Require Import Gegenbauer SphRadial SphAngular SphCyl.
Open Scope R_scope.
Notation RR := RbaseSymbolsImpl.R (only parsing).
Ltac rr := match goal with |- ?a = ?b => change (@eq RR a b) end.

Ltac fixv D w := match type of D with is_RInt _ _ _ ?v => let Ev := fresh in assert (Ev : v = w) by (unfold minus, plus, opp, scal; simpl; unfold mult; simpl; rr; ring); rewrite Ev in D; clear Ev end.
Lemma geg_unique lam x C : gegenbauer lam x C -> forall n, C n = geg lam x n.
Proof.
  intros (H0 & H1 & HS). assert (P : forall n, C n = geg lam x n /\ C (S n) = geg lam x (S n)).
  { induction n as [|n [I1 I2]]; [split; [exact H0|rewrite H1; reflexivity]|]. split; [exact I2|]. specialize (HS n). replace (n + 2)%nat with (S (S n)) in HS by lia. replace (n + 1)%nat with (S n) in HS by lia. pose proof (pos_INR n).
    assert (E : geg lam x (S (S n)) = (2 * (INR (S n) + lam) * x * geg lam x (S n) - (INR (S n) + 2 * lam - 1) * geg lam x n) / (INR (S n) + 1)) by reflexivity. rewrite E, S_INR, <- I1, <- I2.
    replace (C (S (S n))) with ((INR n + 2) * C (S (S n)) / (INR n + 2)) by (field; lra). rewrite HS. rr. field. lra. }
  intros n. apply P.
Qed.
Lemma leg_unique x P : legendre x P -> forall l, P l = geg (1 / 2) x l.
Proof.
  intros (H0 & H1 & HS). apply geg_unique. split; [exact H0|]. split; [rewrite H1; field|]. intros n. specialize (HS n). rr. rewrite HS. field.
Qed.
(** derivatives of the Legendre polynomials *)
Lemma dn_leg l m x : (m <= l)%nat -> Derive_n (fun y => geg (1 / 2) y l) m x = odd_fact m * geg (INR m + 1 / 2) x (l - m).
Proof.
  revert x. induction m as [|m IH]; intros x H.
  - cbn [Derive_n odd_fact]. rewrite Nat.sub_0_r. change (INR 0) with 0. replace (0 + 1 / 2) with (1 / 2) by ring. rr. ring.
  - cbn [Derive_n]. rewrite (Derive_ext _ (fun y => odd_fact m * geg (INR m + 1 / 2) y (l - m))); [|intros y; apply IH; lia]. apply is_derive_unique. pose proof (d_geg (INR m + 1 / 2) x (l - m) ltac:(pose proof (pos_INR m); lra)) as D. refine (is_derive_eq _ _ _ _ (is_derive_Rscal _ _ (odd_fact m) _ D) _).
    replace (l - m)%nat with (S (l - S m)) by lia. cbn [g1 odd_fact]. rewrite S_INR. replace (INR m + 1 / 2 + 1) with (INR m + 1 + 1 / 2) by ring. rr. field.
Qed.
Lemma dn_leg0 l m x : (l < m)%nat -> Derive_n (fun y => geg (1 / 2) y l) m x = 0.
Proof.
  revert x. induction m as [|m IH]; intros x H; [lia|]. cbn [Derive_n]. destruct (Nat.eq_dec m l) as [->|E].
  - rewrite (Derive_ext _ (fun y => odd_fact l * 1)); [apply Derive_const|]. intros y. rewrite dn_leg by lia. rewrite Nat.sub_diag. reflexivity.
  - rewrite (Derive_ext _ (fun y => 0)); [apply Derive_const|]. intros y. apply IH. lia.
Qed.
Lemma lpm_assoc P l m x : (forall y, legendre y (P y)) -> assoc_legendre P l m x = lpm l m x.
Proof.
  intros HP. unfold assoc_legendre, lpm. rewrite (Derive_n_ext _ (fun y => geg (1 / 2) y l)); [|intros y; apply leg_unique, HP]. destruct (Nat.leb_spec m l) as [K|K].
  - rewrite dn_leg by exact K. rr. ring.
  - rewrite dn_leg0 by exact K. rr. ring.
Qed.
(** the radial functions *)
Lemma xi_RToxi a r : 0 < a -> 0 < r -> RToxi a r = xi a r.
Proof. intros. unfold RToxi, xi. field. split; lra. Qed.
Lemma phi_spec a C r n l : 0 < a -> 0 < r -> (forall lam x, gegenbauer lam x (C lam x)) -> phiTilde a r n l = phi_nl a C r n l.
Proof.
  intros Ha Hr HC. unfold phiTilde, phi_nl. destruct (Req_EM_T r 0) as [Z|_]; [exfalso; lra|]. rewrite (geg_unique _ _ _ (HC (2 * INR l + 3 / 2) (xi a r)) n), <- xi_RToxi by assumption. unfold CC, alpha. set (g := geg _ _ _). set (s := sqrt (4 * PI)). clearbody g s.
  replace (1 + a / r) with ((a + r) * / r) by (field; lra). rewrite !Rpow_mult_distr. replace (r ^ (l + 1)) with (r ^ l * r) by (rewrite pow_add; ring). rewrite (pow_add (/ r) (2 * l) 1), pow_1. replace ((/ r) ^ (2 * l)) with (/ (r ^ l) * / (r ^ l)) by (rewrite <- pow_inv, <- pow_add; f_equal; lia).
  assert (P1 : r ^ l <> 0) by (apply pow_nonzero; lra). assert (P2 : (a + r) ^ (2 * l + 1) <> 0) by (apply pow_nonzero; lra). set (u := r ^ l) in *. set (v := (a + r) ^ (2 * l + 1)) in *. set (w := a ^ l). clearbody u v w. rr. field. repeat split; lra.
Qed.
Lemma rho_spec a C r n l : 0 < a -> 0 < r -> (forall lam x, gegenbauer lam x (C lam x)) -> rhoTilde a r n l = rho_nl a C r n l.
Proof.
  intros Ha Hr HC. unfold rhoTilde, rho_nl, K_nl. cbv zeta. rewrite (geg_unique _ _ _ (HC (2 * INR l + 3 / 2) (xi a r)) n), <- xi_RToxi by assumption. unfold CC, alpha. set (g := geg _ _ _). clearbody g. pose proof PI_RGT_0 as P0. pose proof (sqrt_lt_R0 _ P0) as SP.
  assert (S4 : sqrt (4 * PI) = 2 * sqrt PI). { rewrite sqrt_mult by lra. f_equal. replace 4 with (2 ^ 2) by ring. apply sqrt_pow2. lra. } rewrite S4. assert (SS : PI = sqrt PI ^ 2) by (symmetry; apply pow2_sqrt; lra). set (s := sqrt PI) in *. clearbody s. rewrite SS.
  assert (P2 : (a + r) ^ (2 * l + 3) <> 0) by (apply pow_nonzero; lra). set (v := (a + r) ^ (2 * l + 3)) in *. set (w := (a * r) ^ l). set (i := INR l). set (j := INR n). clearbody v w i j. rr. field. repeat split; lra.
Qed.
(** sums *)
Lemma sum1_total N f : sum1 N f = total N f.
Proof. unfold total. induction N as [|k IH]; [reflexivity|]. cbn [sum1]. rewrite IH, seq_S, map_app, fold_right_app. cbn [List.map fold_right Nat.add]. set (x := f k). clearbody x. generalize (List.map f (seq 0 k)). intros q. induction q as [|y q IQ]; cbn [fold_right]; [rr; ring|]. rewrite <- IQ. rr. ring. Qed.
Lemma sum1_bext N f g : (forall n, (n < N)%nat -> f n = g n) -> sum1 N f = sum1 N g.
Proof. induction N as [|k IH]; intros H; [reflexivity|]. cbn [sum1]. rewrite IH by (intros; apply H; lia). rewrite H by lia. reflexivity. Qed.
Lemma s3_bext N L M f g : (forall n l m, (n < N)%nat -> (l < L)%nat -> (m < M)%nat -> f n l m = g n l m) -> sum3 N L M f = sum3 N L M g.
Proof. intros H. apply sum1_bext. intros n Hn. apply sum1_bext. intros l Hl. apply sum1_bext. intros m Hm. apply H; assumption. Qed.
Lemma all1_in N f n : all1 N f = true -> (n < N)%nat -> f n = true.
Proof. induction N as [|k IH]; intros H Hn; [lia|]. cbn [all1] in H. apply andb_prop in H as [H1 H2]. destruct (Nat.eq_dec n k) as [->|E]; [exact H2|apply IH; [exact H1|lia]]. Qed.
Lemma all3_in N L M f n l m : all3 N L M f = true -> (n < N)%nat -> (l < L)%nat -> (m < M)%nat -> f n l m = true.
Proof. intros H A B C. pose proof (all1_in N _ n H A) as H1. pose proof (all1_in L _ l H1 B) as H2. exact (all1_in M _ m H2 C). Qed.
Lemma isz_0 x : isz x = true -> x = 0. Proof. unfold isz. destruct (Req_EM_T x 0); [auto|discriminate]. Qed.
Lemma sum1_first N f : (1 <= N)%nat -> (forall n, (0 < n)%nat -> f n = 0) -> sum1 N f = f 0%nat.
Proof. intros H HZ. induction N as [|k IH]; [lia|]. cbn [sum1]. destruct k as [|k]; [cbn [sum1]; rr; ring|]. rewrite IH by lia. rewrite (HZ (S k)) by lia. rr. ring. Qed.
Lemma int_sum1 N (f : nat -> RR -> RR) (v : nat -> RR) p q : (forall n, is_RInt (f n) p q (v n)) -> is_RInt (fun x => sum1 N (fun n => f n x)) p q (sum1 N v).
Proof.
  intros H. induction N as [|k IH]; cbn [sum1].
  - pose proof (is_RInt_const (V := R_NormedModule) p q 0) as D. fixv D 0. exact D.
  - exact (is_RInt_plus (V := R_NormedModule) _ _ p q _ _ IH (H k)).
Qed.
Lemma int_s3 N L M (f : nat -> nat -> nat -> RR -> RR) v p q : (forall n l m, is_RInt (f n l m) p q (v n l m)) -> is_RInt (fun x => sum3 N L M (fun n l m => f n l m x)) p q (sum3 N L M v).
Proof. intros H. apply (int_sum1 N (fun n x => sum1 L (fun l => sum1 M (fun m => f n l m x)))). intros n. apply (int_sum1 L (fun l x => sum1 M (fun m => f n l m x))). intros l. apply (int_sum1 M (fun m x => f n l m x)). intros m. apply H. Qed.
(** the azimuthal and polar integrals *)
Lemma int_azi (A B : RR) m : is_RInt (fun phi => A * cos (INR m * phi) + B * sin (INR m * phi)) 0 (2 * PI) (if Nat.eqb m 0 then 2 * PI * A else 0).
Proof.
  destruct m as [|k].
  - cbn [Nat.eqb]. apply (is_RInt_ext (fun _ => A)). { intros x _. change (INR 0) with 0. rewrite Rmult_0_l, cos_0, sin_0. rr. ring. }
    pose proof (is_RInt_const (V := R_NormedModule) 0 (2 * PI) A) as D. fixv D (2 * PI * A). exact D.
  - cbn [Nat.eqb]. assert (K : INR (S k) <> 0) by (apply not_0_INR; lia). set (q := INR (S k)) in *.
    assert (D : is_RInt (fun phi => A * cos (q * phi) + B * sin (q * phi)) 0 (2 * PI) (minus (A / q * sin (q * (2 * PI)) - B / q * cos (q * (2 * PI))) (A / q * sin (q * 0) - B / q * cos (q * 0)))).
    { apply (is_RInt_derive (V := R_CompleteNormedModule) (fun x => A / q * sin (q * x) - B / q * cos (q * x))).
      - intros x _. auto_derive; [exact I|]. rr. field. exact K.
      - intros x _. apply (ex_derive_continuous (V := R_NormedModule)). auto_derive. exact I. }
    assert (E1 : sin (q * (2 * PI)) = 0). { replace (q * (2 * PI)) with (0 + 2 * q * PI) by ring. unfold q. rewrite sin_period. apply sin_0. }
    assert (E2 : cos (q * (2 * PI)) = 1). { replace (q * (2 * PI)) with (0 + 2 * q * PI) by ring. unfold q. rewrite cos_period. apply cos_0. }
    rewrite E1, E2 in D. replace (q * 0) with 0 in D by ring. rewrite sin_0, cos_0 in D. fixv D 0. exact D.
Qed.
Lemma lpm0 l x : lpm l 0 x = geg (1 / 2) x l.
Proof. unfold lpm. rewrite Nat.sub_0_r. cbn [Nat.leb odd_fact pow]. change (INR 0) with 0. replace (0 + 1 / 2) with (1 / 2) by ring. rr. ring. Qed.
Lemma int_pol l : is_RInt (fun th => lpm l 0 (cos th) * sin th) 0 PI (if Nat.eqb l 0 then 2 else 0).
Proof.
  apply (is_RInt_ext (fun th => geg (1 / 2) (cos th) l * sin th)). { intros x _. rewrite lpm0. reflexivity. }
  assert (CT : forall x, continuous (fun th => geg (1 / 2) (cos th) l * sin th) x).
  { intros x. apply (ex_derive_continuous (V := R_NormedModule)). eexists. apply is_derive_Rmult; [|apply is_derive_Reals, derivable_pt_lim_sin]. apply (is_derive_comp (V := R_NormedModule) (fun y => geg (1 / 2) y l) cos); [apply d_geg; lra|apply is_derive_Reals, derivable_pt_lim_cos]. }
  destruct l as [|l].
  - cbn [Nat.eqb]. assert (D : is_RInt (fun th => geg (1 / 2) (cos th) 0 * sin th) 0 PI (minus (- cos PI) (- cos 0))). { apply (is_RInt_derive (V := R_CompleteNormedModule) (fun x => - cos x)); [|intros; apply CT]. intros x _. cbn [geg]. auto_derive; [exact I|]. rr. ring. }
    rewrite cos_PI, cos_0 in D. fixv D 2. exact D.
  - cbn [Nat.eqb]. set (k := (INR (S l) * (INR (S l) + 1))). assert (Hk : k <> 0). { unfold k. pose proof (lt_0_INR (S l) ltac:(lia)). apply Rgt_not_eq. apply Rmult_lt_0_compat; lra. }
    set (F := fun th => / k * (sin th ^ 2 * geg (1 / 2 + 1) (cos th) l)).
    assert (D : is_RInt (fun th => geg (1 / 2) (cos th) (S l) * sin th) 0 PI (minus (F PI) (F 0))).
    { apply (is_RInt_derive (V := R_CompleteNormedModule) F); [|intros; apply CT]. intros x _. unfold F.
      assert (Ds : is_derive (fun th => sin th ^ 2) x (2 * sin x * cos x)) by (auto_derive; [exact I|rr; ring]).
      assert (Dc : is_derive cos x (- sin x)) by (apply is_derive_Reals, derivable_pt_lim_cos).
      pose proof (d_geg (1 / 2 + 1) (cos x) l ltac:(lra)) as Dg. pose proof (is_derive_comp (V := R_NormedModule) _ cos x _ _ Dg Dc) as Dgc.
      refine (is_derive_eq _ _ _ _ (is_derive_Rscal _ x (/ k) _ (is_derive_Rmult _ _ x _ _ Ds Dgc)) _).
      pose proof (geg_ode (1 / 2) (cos x) (S l) ltac:(lra)) as E. cbn [g1] in E. replace (g2 (1 / 2 + 2) (cos x) (S l)) with (g1 (1 / 2 + 1 + 1) (cos x) l) in E by (replace (1 / 2 + 1 + 1) with (1 / 2 + 2) by ring; destruct l; reflexivity).
      change (scal ?u ?v) with (u * v). set (G := geg (1 / 2 + 1) (cos x) l) in *. set (G1 := g1 (1 / 2 + 1 + 1) (cos x) l) in *. set (P := geg (1 / 2) (cos x) (S l)) in *. clearbody G G1 P.
      pose proof (sin2_cos2 x) as SC. unfold Rsqr in SC. assert (E' : k * P = 2 * cos x * G - 3 * sin x ^ 2 * G1). { unfold k. replace (INR (S l) * (INR (S l) + 2 * (1 / 2)) * P) with (INR (S l) * (INR (S l) + 1) * P) in E by (rr; field). replace (1 - cos x ^ 2) with (sin x ^ 2) in E by (simpl; lra). lra. }
      replace (P * sin x) with (/ k * (k * P) * sin x) by (field; exact Hk). rewrite E'. set (ik := / k). clearbody ik. rr. field. }
    assert (Ev : minus (F PI) (F 0) = 0). { unfold F. rewrite sin_PI, sin_0. unfold minus, plus, opp; simpl. rr. ring. } rewrite Ev in D. exact D.
Qed.
Section Mass.
  Variables (N L M : nat) (a : RR).
  Variables Ac As : RR -> nat -> nat -> nat -> RR.
  Hypothesis Ha : 0 < a.
  Hypothesis HL : (1 <= L)%nat.
  Hypothesis HM : (1 <= M)%nat.
  Lemma rad_sph r th : 0 < r -> rad (r * sin th) (r * cos th) = r.
  Proof using. intros H. unfold rad. replace ((r * sin th) ^ 2 + (r * cos th) ^ 2) with (r ^ 2). { apply sqrt_pow2. lra. } pose proof (sin2_cos2 th) as E. unfold Rsqr in E. replace ((r * sin th) ^ 2 + (r * cos th) ^ 2) with (r ^ 2 * (sin th * sin th + cos th * cos th)) by ring. rewrite E. rr. ring. Qed.
  Lemma shell r t : 0 < r -> shell_mass (fun R z phi => scf_dens N L M a Ac As R z phi t) r (r ^ 2 * sum1 N (fun n => Acos Ac t n 0 0 * (4 * PI * rhoTilde a r n 0))).
  Proof using HL HM.
    intros Hr. exists (fun th => sum3 N L M (fun n l m => rhoTilde a r n l * lpm l m (cos th) * (if Nat.eqb m 0 then 2 * PI * Acos Ac t n l m else 0))). split.
    - intros th [T0 T1]. assert (SP : 0 < sin th) by (apply sin_gt_0; assumption). assert (RP : 0 < r * sin th) by (apply Rmult_lt_0_compat; assumption).
      apply (is_RInt_ext (fun phi => sum3 N L M (fun n l m => rhoTilde a r n l * lpm l m (cos th) * cos_sin Ac As phi t n l m))).
      { intros phi _. unfold scf_dens, at_point, cyl_to_spher. fold (rad (r * sin th) (r * cos th)). fold (tht (r * sin th) (r * cos th)). rewrite cos_tht by exact RP. rewrite (rad_sph r th Hr). replace (r * cos th / r) with (cos th) by (field; lra). apply s3_ext. intros. rr. ring. }
      apply (int_s3 N L M (fun n l m phi => rhoTilde a r n l * lpm l m (cos th) * cos_sin Ac As phi t n l m)). intros n l m. apply (is_RInt_scal (V := R_NormedModule) (fun phi => cos_sin Ac As phi t n l m)). apply int_azi.
    - apply (is_RInt_ext (fun th => sum3 N L M (fun n l m => r ^ 2 * rhoTilde a r n l * (if Nat.eqb m 0 then 2 * PI * Acos Ac t n l m else 0) * (lpm l m (cos th) * sin th)))).
      { intros th _. rewrite (Rmult_comm _ (r ^ 2 * sin th)), <- s3_scal. apply s3_ext. intros. rr. ring. }
      replace (r ^ 2 * sum1 N (fun n => Acos Ac t n 0 0 * (4 * PI * rhoTilde a r n 0))) with (sum3 N L M (fun n l m => r ^ 2 * rhoTilde a r n l * (if Nat.eqb m 0 then 2 * PI * Acos Ac t n l m else 0) * (if Nat.eqb l 0 then 2 else 0))).
      + apply (int_s3 N L M (fun n l m th => r ^ 2 * rhoTilde a r n l * (if Nat.eqb m 0 then 2 * PI * Acos Ac t n l m else 0) * (lpm l m (cos th) * sin th))). intros n l m. destruct m as [|m].
        * apply (is_RInt_scal (V := R_NormedModule) (fun th => lpm l 0 (cos th) * sin th)). apply int_pol.
        * cbn [Nat.eqb]. apply (is_RInt_ext (fun _ => 0)); [intros; rr; ring|]. pose proof (is_RInt_const (V := R_NormedModule) 0 PI 0) as D. fixv D 0. replace (r ^ 2 * rhoTilde a r n l * 0 * (if Nat.eqb l 0 then 2 else 0)) with 0 by (rr; ring). exact D.
      + unfold sum3. rewrite <- sum1_scal. apply sum1_ext. intros n. rewrite sum1_first; [|exact HL|].
        * rewrite sum1_first; [cbn [Nat.eqb]; rr; ring|exact HM|]. intros m Hm. destruct m; [lia|]. cbn [Nat.eqb]. rr. ring.
        * intros l Hl. destruct l; [lia|]. cbn [Nat.eqb]. rewrite (sum1_ext M _ (fun m => 0 * 0)) by (intros; rr; ring). rewrite sum1_scal. rr. ring.
  Qed.
  Lemma mass_d r t : 0 < r -> is_derive (fun x => scf_mass N a Ac x t) r (r ^ 2 * sum1 N (fun n => Acos Ac t n 0 0 * (4 * PI * rhoTilde a r n 0))).
  Proof using Ha.
    intros Hr. unfold scf_mass. assert (D1 : is_derive (fun x => x ^ 2) r (2 * r)) by (auto_derive; [exact I|rr; ring]).
    assert (D2 : is_derive (fun x => sum1 N (fun n => Acos Ac t n 0 0 * dphiTilde a x n 0)) r (sum1 N (fun n => Acos Ac t n 0 0 * d2phiTilde a r n 0))). { apply (d_sum1 N (fun n x => Acos Ac t n 0 0 * dphiTilde a x n 0)). intros n. apply is_derive_Rscal. apply (d_dphi a n 0 Ha). exact Hr. }
    refine (is_derive_eq _ _ _ _ (is_derive_Rmult _ _ r _ _ D1 D2) _). rewrite <- !sum1_scal, <- sum1_plus. apply sum1_ext. intros n. rewrite <- (radial_poisson a n 0 Ha r Hr). change (INR 0) with 0. rr. field. lra.
  Qed.
  Lemma mass_0 t : filterlim (fun x => scf_mass N a Ac x t) (at_right 0) (locally 0).
  Proof using Ha.
    set (g := fun x => x ^ 2 * sum1 N (fun n => Acos Ac t n 0 0 * (- sqrt (4 * PI) * (- 1 / (a + x) ^ 2 * CC (RToxi a x) n 0 + / a * (1 - RToxi a x) ^ 2 / (a + x) * dCC (RToxi a x) n 0 / 2)))).
    assert (E : forall x, scf_mass N a Ac x t = g x).
    { intros x. unfold scf_mass, g. f_equal. apply sum1_ext. intros n. f_equal. unfold dphiTilde. cbn [Nat.mul Nat.add]. rewrite (pow_1 (a + x)), (pow_O (a * x)). change (INR 0) with 0. unfold Rdiv. set (i2 := / (a + x) ^ 2). set (i1 := / (a + x)). set (c := CC _ _ _). set (d := dCC _ _ _). set (q := RToxi a x). set (w := / x). set (ia := / a). clearbody i1 i2 c d q w ia. rr. ring. }
    assert (X : ex_derive (RToxi a) 0). { unfold RToxi. auto_derive. unfold Rdiv. rewrite Rmult_0_l. lra. }
    assert (DC : forall n lam, 0 < lam -> ex_derive (fun x => geg lam (RToxi a x) n) 0). { intros n lam Hl. destruct X as [dx X]. eexists. apply (is_derive_comp (V := R_NormedModule) (fun y => geg lam y n) (RToxi a)); [apply d_geg; exact Hl|exact X]. }
    assert (C : continuous g 0).
    { apply (ex_derive_continuous (V := R_NormedModule)). unfold g.
      assert (S1 : forall n, ex_derive (fun x => Acos Ac t n 0 0 * (- sqrt (4 * PI) * (- 1 / (a + x) ^ 2 * CC (RToxi a x) n 0 + / a * (1 - RToxi a x) ^ 2 / (a + x) * dCC (RToxi a x) n 0 / 2))) 0).
      { intros n. apply ex_derive_scal, ex_derive_scal. apply (ex_derive_plus (V := R_NormedModule)).
        - apply (ex_derive_mult (fun x => - 1 / (a + x) ^ 2) (fun x => CC (RToxi a x) n 0)); [auto_derive; apply Rgt_not_eq; repeat apply Rmult_lt_0_compat; lra|]. unfold CC, alpha. apply DC. change (INR 0) with 0. lra.
        - unfold Rdiv. apply (ex_derive_mult (fun x => / a * (1 - RToxi a x) ^ 2 * / (a + x) * dCC (RToxi a x) n 0) (fun _ => / 2)); [|apply ex_derive_const]. apply (ex_derive_mult (fun x => / a * (1 - RToxi a x) ^ 2 * / (a + x)) (fun x => dCC (RToxi a x) n 0)).
          + apply (ex_derive_mult (fun x => / a * (1 - RToxi a x) ^ 2) (fun x => / (a + x))); [|auto_derive; lra]. apply ex_derive_scal. apply (ex_derive_pow (fun x => 1 - RToxi a x)). apply (ex_derive_minus (V := R_NormedModule) (fun _ => 1) (RToxi a)); [apply ex_derive_const|exact X].
          + unfold dCC. apply (ex_derive_mult (fun x => match n with 0%nat => 0 | S k => geg (2 * INR 0 + 5 / 2) (RToxi a x) k end) (fun _ => 2 * (2 * INR 0 + 3 / 2))); [|apply ex_derive_const]. destruct n as [|k]; [apply ex_derive_const|]. apply DC. change (INR 0) with 0. lra. }
      apply (ex_derive_mult (fun x => x ^ 2)); [auto_derive; exact I|]. clear E; clear g; generalize N; intros K; induction K as [|k IH]; cbn [sum1]; [apply ex_derive_const|]. apply (ex_derive_plus (V := R_NormedModule)); [exact IH|apply S1]. }
    assert (G0 : g 0 = 0) by (unfold g; rr; ring).
    apply (filterlim_ext g); [intros x; symmetry; apply E|]. rewrite <- G0 at 2. apply (filterlim_filter_le_1 (F := locally 0)); [|exact C]. intros P [e He]. exists e. intros y Hy _. apply He. exact Hy.
  Qed.
End Mass.
