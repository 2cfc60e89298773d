(** The radial functions of the expansion: derivatives and Poisson's equation. *)
From Coq Require Import Reals Lra Lia Arith.
From Coquelicot Require Import Coquelicot.
From Verif.Lib Require Import RealAux.
From Verif.Model Require Import SphHarm.
From Verif.Proofs Require Import Gegenbauer.
Open Scope R_scope.
Notation RR := RbaseSymbolsImpl.R (only parsing).
Ltac rr := match goal with |- ?a = ?b => change (@eq RR a b) end.

Lemma alpha_pos l : 0 < alpha l. Proof. unfold alpha. pose proof (pos_INR l). lra. Qed.
Lemma dCC_eq xi n l : dCC xi n l = 2 * alpha l * g1 (alpha l + 1) xi n.
Proof. unfold dCC, g1, alpha. replace (2 * INR l + 3 / 2 + 1) with (2 * INR l + 5 / 2) by lra. destruct n; rr; ring. Qed.
Lemma d2CC_eq xi n l : d2CC xi n l = 2 * alpha l * (2 * (alpha l + 1) * g2 (alpha l + 2) xi n).
Proof. unfold d2CC, g2, alpha. replace (2 * INR l + 3 / 2 + 2) with (2 * INR l + 7 / 2) by lra. destruct n as [|[|n]]; rr; ring. Qed.
Lemma d_CC xi n l : is_derive (fun y => CC y n l) xi (dCC xi n l).
Proof. rewrite dCC_eq. apply d_geg, alpha_pos. Qed.
Lemma d_dCC xi n l : is_derive (fun y => dCC y n l) xi (d2CC xi n l).
Proof.
  rewrite d2CC_eq. apply (is_derive_ext (fun y => 2 * alpha l * g1 (alpha l + 1) y n)); [intros y; symmetry; apply dCC_eq|]. apply is_derive_Rscal.
  destruct n as [|n]; [cbn [g1 g2]; refine (is_derive_eq _ _ _ _ (is_derive_const (V := R_NormedModule) _ _) _); change (0 = 2 * (alpha l + 1) * 0); ring|].
  cbn [g1]. refine (is_derive_eq _ _ _ _ (d_geg (alpha l + 1) xi n _) _); [pose proof (alpha_pos l); lra|]. replace (alpha l + 1 + 1) with (alpha l + 2) by ring. reflexivity.
Qed.
Lemma CC_ode xi n l : (1 - xi ^ 2) * d2CC xi n l = (2 * alpha l + 1) * xi * dCC xi n l - INR n * (INR n + 2 * alpha l) * CC xi n l.
Proof. pose proof (geg_ode (alpha l) xi n (alpha_pos l)) as E. rewrite dCC_eq, d2CC_eq. unfold CC. lra. Qed.
Lemma frac_pow (x y : RR) l : (x / (y * y)) ^ l = x ^ l / y ^ (2 * l).
Proof. unfold Rdiv. rewrite Rpow_mult_distr, pow_inv. f_equal. f_equal. rewrite pow_mult. f_equal. ring. Qed.
Section Rad.
  Variables (a : RR) (n l : nat).
  Hypothesis Ha : 0 < a.
  Definition qf (r : RR) : RR := (a * r) ^ l / (a + r) ^ (2 * l + 1).
  Lemma qf_pos r : 0 < r -> 0 < qf r.
  Proof using Ha. intros H. unfold qf. apply Rdiv_lt_0_compat; apply pow_lt; [apply Rmult_lt_0_compat; assumption|lra]. Qed.
  Lemma d_pow (f : RR -> RR) r df k : f r <> 0 -> is_derive f r df -> is_derive (fun x => f x ^ k) r (INR k * df / f r * f r ^ k).
  Proof using.
    intros H D. refine (is_derive_eq _ _ _ _ (is_derive_comp (V := R_NormedModule) (fun y => y ^ k) f r (INR k * f r ^ pred k) df _ D) _).
    - apply is_derive_Reals. apply derivable_pt_lim_pow.
    - change (df * (INR k * f r ^ pred k) = INR k * df / f r * f r ^ k). destruct k as [|k]; [simpl; unfold Rdiv; ring|]. simpl pred. change (f r ^ S k) with (f r * f r ^ k). field. exact H.
  Qed.
  Lemma d_qf r : 0 < r -> is_derive qf r (qf r * (INR l / r - (2 * INR l + 1) / (a + r))).
  Proof using Ha.
    intros H. unfold qf. assert (P1 : 0 < a * r) by (apply Rmult_lt_0_compat; assumption). assert (P2 : 0 < a + r) by lra. assert (Q : 0 < (a + r) ^ (2 * l + 1)) by (apply pow_lt; exact P2).
    assert (D1 : is_derive (fun x => a * x) r a) by (auto_derive; [exact I|rr; ring]). assert (D2 : is_derive (fun x => a + x) r 1) by (auto_derive; [exact I|rr; ring]).
    refine (is_derive_eq _ _ _ _ (is_derive_div (fun x => (a * x) ^ l) (fun x => (a + x) ^ (2 * l + 1)) r _ _ (d_pow _ r a l (Rgt_not_eq _ _ P1) D1) (d_pow _ r 1 (2 * l + 1) (Rgt_not_eq _ _ P2) D2) (Rgt_not_eq _ _ Q)) _).
    rewrite plus_INR, mult_INR. change (INR 2) with (1 + 1). change (INR 1) with 1. set (u := (a * r) ^ l) in *. set (v := (a + r) ^ (2 * l + 1)) in *. clearbody u v. rr. field. repeat split; lra.
  Qed.
  Notation X := (RToxi a).
  Lemma xi_eq r : 0 < r -> X r = (r - a) / (r + a).
  Proof using Ha. intros H. unfold RToxi. assert (0 < r / a) by (apply Rdiv_lt_0_compat; assumption). field. split; lra. Qed.
  Lemma d_xi r : 0 < r -> is_derive X r (2 * a / (a + r) ^ 2).
  Proof using Ha.
    intros H. unfold RToxi. assert (0 < r / a) by (apply Rdiv_lt_0_compat; assumption). auto_derive; [unfold Rdiv in *; lra|]. rr. field. repeat split; lra.
  Qed.
  Lemma d_CX (f df : RR -> RR) r : 0 < r -> (forall y, is_derive f y (df y)) -> is_derive (fun x => f (X x)) r (2 * a / (a + r) ^ 2 * df (X r)).
  Proof using Ha. intros H D. exact (is_derive_comp (V := R_NormedModule) f X r _ _ (D (X r)) (d_xi r H)). Qed.
  Notation s := (sqrt (4 * PI)).
  Notation C r := (CC (X r) n l).
  Notation dC r := (dCC (X r) n l).
  Notation ddC r := (d2CC (X r) n l).
  Notation k1 r := (INR l / r - (2 * INR l + 1) / (a + r)).
  Lemma phi_eq r : 0 < r -> phiTilde a r n l = - s * (qf r * C r).
  Proof using Ha.
    intros H. unfold phiTilde. destruct (Req_EM_T r 0) as [E|_]; [exfalso; lra|]. unfold qf. set (c := CC _ _ _). clearbody c.
    assert (P2 : 0 < a + r) by lra. replace (1 + a / r) with ((a + r) / r) by (field; lra). unfold Rdiv at 2. rewrite !Rpow_mult_distr, pow_inv. rewrite !pow_add. replace (r ^ (2 * l)) with (r ^ l * r ^ l) by (rewrite <- pow_add; f_equal; lia). pose proof (pow_lt r l H). pose proof (pow_lt (a + r) (2 * l) P2). set (u := r ^ l) in *. set (v := (a + r) ^ (2 * l)) in *. set (w := a ^ l) in *. clearbody u v w. simpl. rr. field. repeat split; lra.
  Qed.
  Lemma dphi_eq r : 0 < r -> dphiTilde a r n l = - s * (qf r * k1 r * C r + qf r * (2 * a / (a + r) ^ 2) * dC r).
  Proof using Ha.
    intros H. unfold dphiTilde. rewrite (xi_eq r H). unfold qf. set (c := CC _ _ _). set (d := dCC _ _ _). clearbody c d. assert (P2 : 0 < a + r) by lra. replace (2 * l + 2)%nat with (S (2 * l + 1)) by lia. change ((a + r) ^ S (2 * l + 1)) with ((a + r) * (a + r) ^ (2 * l + 1)). pose proof (pow_lt (a + r) (2 * l + 1) P2). set (v := (a + r) ^ (2 * l + 1)) in *. set (w := (a * r) ^ l) in *. clearbody v w. rr. field. repeat split; lra.
  Qed.
  Lemma d2phi_eq r : 0 < r -> d2phiTilde a r n l = - s * (qf r * (k1 r ^ 2 - INR l / r ^ 2 + (2 * INR l + 1) / (a + r) ^ 2) * C r + 2 * (qf r * k1 r * (2 * a / (a + r) ^ 2) * dC r) - qf r * (4 * a / (a + r) ^ 3) * dC r + qf r * (2 * a / (a + r) ^ 2) ^ 2 * ddC r).
  Proof using Ha.
    intros H. unfold d2phiTilde. destruct (Req_EM_T r 0) as [E|_]; [exfalso; lra|]. cbv zeta. unfold qf. set (c := CC _ _ _). set (d := dCC _ _ _). set (e := d2CC _ _ _). clearbody c d e. assert (P2 : 0 < a + r) by lra.
    replace ((a * r / ((a + r) * (a + r))) ^ l) with ((a * r) ^ l / (a + r) ^ (2 * l)). 2:{ symmetry. apply frac_pow. }
    rewrite pow_add. pose proof (pow_lt (a + r) (2 * l) P2). set (v := (a + r) ^ (2 * l)) in *. set (w := (a * r) ^ l) in *. clearbody v w. set (q := INR l). clearbody q. set (s := sqrt (4 * PI)). clearbody s. rr. field. repeat split; lra.
  Qed.
  Lemma rho_eq r : 0 < r -> rhoTilde a r n l = (1 / 2 * INR n * (INR n + 4 * INR l + 3) + (INR l + 1) * (2 * INR l + 1)) * (a / (r * (a + r) ^ 2)) * qf r * C r * / sqrt PI.
  Proof using Ha.
    intros H. unfold rhoTilde. cbv zeta. unfold qf. set (c := CC _ _ _). clearbody c. assert (P2 : 0 < a + r) by lra. replace (2 * l + 3)%nat with ((2 * l + 1) + 2)%nat by lia. rewrite (pow_add _ (2 * l + 1) 2). pose proof (pow_lt (a + r) (2 * l + 1) P2). set (v := (a + r) ^ (2 * l + 1)) in *. set (w := (a * r) ^ l) in *. clearbody v w. set (q := / sqrt PI). clearbody q. rr. field. repeat split; lra.
  Qed.
  Lemma d_k1 r : 0 < r -> is_derive (fun r => k1 r) r (- INR l / r ^ 2 + (2 * INR l + 1) / (a + r) ^ 2).
  Proof using Ha. intros H. auto_derive; [repeat split; lra|]. rr. field. split; lra. Qed.
  Lemma d_phi r : 0 < r -> is_derive (fun x => phiTilde a x n l) r (dphiTilde a r n l).
  Proof using Ha.
    intros H. rewrite dphi_eq by exact H. apply (is_derive_ext_loc (fun x => - s * (qf x * C x))).
    - apply (filter_imp (fun x => 0 < x)); [|apply locally_pos; exact H]. intros x Hx. symmetry. apply phi_eq. exact Hx.
    - apply is_derive_Rscal. refine (is_derive_eq _ _ _ _ (is_derive_Rmult qf (fun x => C x) r _ _ (d_qf r H) (d_CX (fun y => CC y n l) (fun y => dCC y n l) r H (fun y => d_CC y n l))) _). rr. ring.
  Qed.
  Lemma d_dphi r : 0 < r -> is_derive (fun x => dphiTilde a x n l) r (d2phiTilde a r n l).
  Proof using Ha.
    intros H. rewrite d2phi_eq by exact H. apply (is_derive_ext_loc (fun x => - s * (qf x * k1 x * C x + qf x * (2 * a / (a + x) ^ 2) * dC x))).
    - apply (filter_imp (fun x => 0 < x)); [|apply locally_pos; exact H]. intros x Hx. symmetry. apply dphi_eq. exact Hx.
    - apply is_derive_Rscal.
      assert (D2 : is_derive (fun x => 2 * a / (a + x) ^ 2) r (- 4 * a / (a + r) ^ 3)) by (auto_derive; [apply Rgt_not_eq; apply Rmult_lt_0_compat; lra|rr; field; lra]).
      refine (is_derive_eq _ _ _ _ (is_derive_Rplus _ _ r _ _ (is_derive_Rmult _ _ r _ _ (is_derive_Rmult _ _ r _ _ (d_qf r H) (d_k1 r H)) (d_CX (fun y => CC y n l) (fun y => dCC y n l) r H (fun y => d_CC y n l))) (is_derive_Rmult _ _ r _ _ (is_derive_Rmult _ _ r _ _ (d_qf r H) D2) (d_CX (fun y => dCC y n l) (fun y => d2CC y n l) r H (fun y => d_dCC y n l)))) _).
      set (c := CC _ _ _). set (d := dCC _ _ _). set (e := d2CC _ _ _). set (q := qf r). clearbody c d e q. rr. field. repeat split; lra.
  Qed.
  Lemma radial_poisson r : 0 < r -> d2phiTilde a r n l + 2 / r * dphiTilde a r n l - INR l * (INR l + 1) / r ^ 2 * phiTilde a r n l = 4 * PI * rhoTilde a r n l.
  Proof using Ha.
    intros H. rewrite d2phi_eq, dphi_eq, phi_eq, rho_eq by exact H. pose proof (CC_ode (X r) n l) as E. pose proof (xi_eq r H) as EX. assert (P2 : 0 < a + r) by lra. pose proof PI_RGT_0 as P0. pose proof (sqrt_lt_R0 _ P0) as SP.
    assert (S4 : s = 2 * sqrt PI). { rewrite sqrt_mult by lra. f_equal. replace 4 with (2 ^ 2) by ring. apply sqrt_pow2. lra. } rewrite S4.
    assert (SPI : 4 * PI = 4 * (sqrt PI * sqrt PI)) by (rewrite sqrt_sqrt by lra; reflexivity). rewrite SPI. clear SPI S4.
    set (c := CC _ _ _) in *. set (d := dCC _ _ _) in *. set (e := d2CC _ _ _) in *. rewrite EX in E. clearbody c d e. clear EX. set (q := qf r). clearbody q. set (p := sqrt PI) in *. clearbody p. unfold alpha in E. set (L := INR l) in *. set (N := INR n) in *. clearbody L N.
    assert (E' : e = (a + r) ^ 2 / (4 * a * r) * ((2 * (2 * L + 3 / 2) + 1) * ((r - a) / (r + a)) * d - N * (N + 2 * (2 * L + 3 / 2)) * c)). { rewrite <- E. field. repeat split; lra. } rewrite E'. rr. field. repeat split; lra.
  Qed.
End Rad.
