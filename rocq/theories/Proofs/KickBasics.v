(** Integrals over all times and the kick of a central force along a straight line. *)
From Coq Require Import Reals Lra.
From Coquelicot Require Import Coquelicot.
From Verif.Lib Require Import RealAux Vec3.
From Verif.Spec Require Import KickSpec.
Open Scope R_scope.
Notation RR := RbaseSymbolsImpl.R (only parsing).
Ltac rr := match goal with |- ?a = ?b => change (@eq RR a b) end.

Lemma all_time_ftc (f F : RR -> RR) lm lp : (forall t, is_derive F t (f t)) -> (forall t, continuous f t) ->
  filterlim F (Rbar_locally m_infty) (locally lm) -> filterlim F (Rbar_locally p_infty) (locally lp) -> all_time f (lp - lm).
Proof.
  intros D C Lm Lp P HP.
  assert (Q : filterlim (fun ab : RR * RR => F (snd ab) - F (fst ab)) (filter_prod (Rbar_locally m_infty) (Rbar_locally p_infty)) (locally (lp - lm))).
  { apply (filterlim_comp_2 (F := filter_prod (Rbar_locally m_infty) (Rbar_locally p_infty)) (G := locally lp) (H := locally (- lm)) (I := locally (lp - lm)) (fun ab : RR * RR => F (snd ab)) (fun ab : RR * RR => - F (fst ab)) Rplus).
    - exact (filterlim_comp _ _ _ snd F _ _ _ filterlim_snd Lp).
    - apply (filterlim_comp _ _ _ (fun ab : RR * RR => F (fst ab)) Ropp _ (locally lm)); [exact (filterlim_comp _ _ _ fst F _ _ _ filterlim_fst Lm)|].
      exact (filterlim_opp (V := R_NormedModule) lm).
    - exact (filterlim_plus (V := R_NormedModule) lp (- lm)). }
  specialize (Q P HP). destruct Q as [Qa Qb Ha Hb H]. apply (Filter_prod _ _ _ Qa Qb Ha Hb).
  intros a b A B. exists (F b - F a). split; [|exact (H a b A B)].
  apply (is_RInt_derive (V := R_CompleteNormedModule) F f); intros x _; [apply D|apply C].
Qed.
Lemma all_time_ext (f g : RR -> RR) l : (forall t, f t = g t) -> all_time f l -> all_time g l.
Proof.
  intros E. unfold all_time. apply is_RInt_gen_ext. apply filter_forall. intros ab x _. apply E.
Qed.
Lemma all_time_lin (f g : RR -> RR) p q a b : all_time f a -> all_time g b -> all_time (fun t => p * f t + q * g t) (p * a + q * b).
Proof.
  intros A B. unfold all_time in *.
  exact (is_RInt_gen_plus (V := R_NormedModule) _ _ _ _ (is_RInt_gen_scal (V := R_NormedModule) _ p _ A) (is_RInt_gen_scal (V := R_NormedModule) _ q _ B)).
Qed.
Lemma all_time_unique f a b : all_time f a -> all_time f b -> a = b.
Proof.
  intros A B. transitivity (RInt_gen (V := R_CompleteNormedModule) f (Rbar_locally m_infty) (Rbar_locally p_infty)).
  - symmetry. exact (is_RInt_gen_unique (V := R_CompleteNormedModule) (Fa := Rbar_locally m_infty) (Fb := Rbar_locally p_infty) f a A).
  - exact (is_RInt_gen_unique (V := R_CompleteNormedModule) (Fa := Rbar_locally m_infty) (Fb := Rbar_locally p_infty) f b B).
Qed.
Lemma kick_unique acc path a b : is_kick acc path a -> is_kick acc path b -> a = b.
Proof. intros (A1 & A2 & A3) (B1 & B2 & B3). apply V3_ext; eapply all_time_unique; eassumption. Qed.
Lemma kick_ext acc acc' path path' k : (forall X, acc X = acc' X) -> (forall t, path t = path' t) -> is_kick acc path k -> is_kick acc' path' k.
Proof.
  intros E F (A & B & C). repeat split; (eapply all_time_ext; [|eassumption]); intros t; cbv beta; rewrite <- F, E; reflexivity.
Qed.

(** Limits *)
Lemma aff_p w c : 0 < w -> filterlim (fun t => w * (t + c)) (Rbar_locally p_infty) (Rbar_locally p_infty).
Proof.
  intros H P [M HM]. exists (M / w - c). intros t Ht. apply HM. apply Rmult_lt_compat_l with (r := w) in Ht; [|exact H].
  replace (w * (M / w - c)) with (M - w * c) in Ht by (field; lra). lra.
Qed.
Lemma aff_m w c : 0 < w -> filterlim (fun t => w * (t + c)) (Rbar_locally m_infty) (Rbar_locally m_infty).
Proof.
  intros H P [M HM]. exists (M / w - c). intros t Ht. apply HM. apply Rmult_lt_compat_l with (r := w) in Ht; [|exact H].
  replace (w * (M / w - c)) with (M - w * c) in Ht by (field; lra). lra.
Qed.
Lemma opp_m : filterlim Ropp (Rbar_locally m_infty) (Rbar_locally p_infty).
Proof. intros P [M HM]. exists (- M). intros t Ht. apply HM. lra. Qed.
Lemma lim_by (F : RR -> RR) l K : 0 <= K -> (forall u, 1 <= u -> Rabs (F u - l) <= K / u) -> filterlim F (Rbar_locally p_infty) (locally l).
Proof.
  intros HK H P [e He]. exists (Rmax 1 ((K + 1) / e)). intros u Hu. apply He.
  assert (P1 := Rmax_l 1 ((K + 1) / e)). assert (P2 := Rmax_r 1 ((K + 1) / e)). assert (Ee := cond_pos e).
  assert (U : 1 <= u) by lra. specialize (H u U). change (Rabs (F u - l) < e). apply Rle_lt_trans with (1 := H).
  apply Rmult_lt_reg_r with u; [lra|]. replace (K / u * u) with K by (field; lra).
  assert (Q : (K + 1) / e < u) by lra. apply Rmult_lt_compat_r with (r := pos e) in Q; [|exact Ee]. replace ((K + 1) / e * e) with (K + 1) in Q by (field; lra). lra.
Qed.
Lemma lim_odd (F : RR -> RR) l : (forall u, F (- u) = - F u) -> filterlim F (Rbar_locally p_infty) (locally l) -> filterlim F (Rbar_locally m_infty) (locally (- l)).
Proof.
  intros O L. apply (filterlim_ext (fun u => - F (- u))). { intros u. rewrite O. ring. }
  apply (filterlim_comp _ _ _ (fun u => F (- u)) Ropp _ (locally l)); [|exact (filterlim_opp (V := R_NormedModule) l)].
  exact (filterlim_comp _ _ _ Ropp F _ _ _ opp_m L).
Qed.
Lemma lim_even (F : RR -> RR) l : (forall u, F (- u) = F u) -> filterlim F (Rbar_locally p_infty) (locally l) -> filterlim F (Rbar_locally m_infty) (locally l).
Proof.
  intros O L. apply (filterlim_ext (fun u => F (- u))). { intros u. apply O. }
  exact (filterlim_comp _ _ _ Ropp F _ _ _ opp_m L).
Qed.

(** Two numbers give the kick of any central force along a straight line at distance sqrt p2. *)
Section Reduce.
  Variables (g H0 H1 : RR -> RR) (p2 L0 L1 : RR).
  Hypothesis D0 : forall u, is_derive H0 u (g (p2 + u ^ 2)).
  Hypothesis D1 : forall u, is_derive H1 u (u * g (p2 + u ^ 2)).
  Hypothesis Cg : forall u, continuous (fun u => g (p2 + u ^ 2)) u.
  Hypothesis Lp : filterlim H0 (Rbar_locally p_infty) (locally L0).
  Hypothesis Lm : filterlim H0 (Rbar_locally m_infty) (locally (- L0)).
  Hypothesis Mp : filterlim H1 (Rbar_locally p_infty) (locally L1).
  Hypothesis Mm : filterlim H1 (Rbar_locally m_infty) (locally L1).
  Variables (w c : RR).
  Hypothesis Hw : 0 < w.
  Let aff t := w * (t + c).
  Lemma d_aff t : is_derive aff t w.
  Proof. unfold aff. auto_derive; [exact I|ring]. Qed.
  Lemma scaled_lim (F : RR -> RR) k l fl : filterlim F fl (locally l) -> filterlim (fun t => k * F t) fl (locally (k * l)).
  Proof. intros L. apply (filterlim_comp _ _ _ F (fun x => k * x) _ (locally l)); [exact L|]. exact (filterlim_scal_r (V := R_NormedModule) k l). Qed.
  Lemma even_part : all_time (fun t => g (p2 + (w * (t + c)) ^ 2)) (2 * L0 / w).
  Proof.
    replace (2 * L0 / w) with (/ w * L0 - / w * - L0) by (field; lra). apply (all_time_ftc _ (fun t => / w * H0 (aff t))).
    - intros t. pose proof (is_derive_Rscal _ _ (/ w) _ (is_derive_Rchain H0 aff t _ _ (D0 (aff t)) (d_aff t))) as Q.
      eapply is_derive_eq; [exact Q|]. unfold aff. rr. field. lra.
    - intros t. apply (continuous_comp aff (fun u => g (p2 + u ^ 2))); [|apply Cg]. apply (ex_derive_continuous aff). exists w. apply d_aff.
    - apply scaled_lim. exact (filterlim_comp _ _ _ aff H0 _ _ _ (aff_m w c Hw) Lm).
    - apply scaled_lim. exact (filterlim_comp _ _ _ aff H0 _ _ _ (aff_p w c Hw) Lp).
  Qed.
  Lemma odd_part : all_time (fun t => (t + c) * g (p2 + (w * (t + c)) ^ 2)) 0.
  Proof.
    replace 0 with (/ w ^ 2 * L1 - / w ^ 2 * L1) by ring. apply (all_time_ftc _ (fun t => / w ^ 2 * H1 (aff t))).
    - intros t. pose proof (is_derive_Rscal _ _ (/ w ^ 2) _ (is_derive_Rchain H1 aff t _ _ (D1 (aff t)) (d_aff t))) as Q.
      eapply is_derive_eq; [exact Q|]. unfold aff. rr. field. lra.
    - intros t. apply (continuous_mult (K := R_AbsRing) (fun t => t + c) (fun t => g (p2 + (w * (t + c)) ^ 2))).
      + apply (ex_derive_continuous (fun t => t + c)). auto_derive. exact I.
      + apply (continuous_comp aff (fun u => g (p2 + u ^ 2))); [|apply Cg]. apply (ex_derive_continuous aff). exists w. apply d_aff.
    - apply scaled_lim. exact (filterlim_comp _ _ _ aff H1 _ _ _ (aff_m w c Hw) Mm).
    - apply scaled_lim. exact (filterlim_comp _ _ _ aff H1 _ _ _ (aff_p w c Hw) Mp).
  Qed.
End Reduce.
Lemma kick_reduce (g H0 H1 : RR -> RR) p2 L0 L1 :
  (forall u, is_derive H0 u (g (p2 + u ^ 2))) -> (forall u, is_derive H1 u (u * g (p2 + u ^ 2))) -> (forall u, continuous (fun u => g (p2 + u ^ 2)) u) ->
  filterlim H0 (Rbar_locally p_infty) (locally L0) -> filterlim H0 (Rbar_locally m_infty) (locally (- L0)) ->
  filterlim H1 (Rbar_locally p_infty) (locally L1) -> filterlim H1 (Rbar_locally m_infty) (locally L1) ->
  forall B V, 0 < vnorm2 V -> let P := vsub B (vscal (vdot B V / vnorm2 V) V) in vnorm2 P = p2 ->
  is_kick (fun X => vscal (g (vnorm2 X)) X) (line B V) (vscal (2 * L0 / vnorm V) P).
Proof.
  intros D0 D1 C A1 A2 A3 A4 B V HV P EP. set (c := vdot B V / vnorm2 V). set (w := vnorm V).
  assert (Hw : 0 < w) by (apply sqrt_lt_R0; exact HV). assert (W2 : w ^ 2 = vnorm2 V) by (unfold w, vnorm; apply pow2_sqrt; lra).
  pose proof (even_part g H0 p2 L0 D0 C A1 A2 w c Hw) as E. pose proof (odd_part g H1 p2 L1 D1 C A3 A4 w c Hw) as O.
  assert (N : forall t, vnorm2 (line B V t) = p2 + (w * (t + c)) ^ 2).
  { intros t. rewrite Rpow_mult_distr, W2, <- EP. unfold P, line. fold c. assert (Q : vdot B V = c * vnorm2 V) by (unfold c; field; lra).
    transitivity (vnorm2 B + 2 * t * vdot B V + t ^ 2 * vnorm2 V); [clear; vring|].
    transitivity (vnorm2 B - 2 * c * vdot B V + c ^ 2 * vnorm2 V + vnorm2 V * (t + c) ^ 2); [rewrite Q; ring|clear; vring]. }
  assert (K : forall p q x : RR, (forall t, x + t * q = p + (t + c) * q) -> all_time (fun t => g (vnorm2 (line B V t)) * (x + t * q)) (2 * L0 / w * p)).
  { intros p q x Hx. pose proof (all_time_lin _ _ p q _ _ E O) as Q. replace (p * (2 * L0 / w) + q * 0) with (2 * L0 / w * p) in Q by ring.
    eapply all_time_ext; [|exact Q]. intros t. cbv beta. rewrite N, Hx. ring. }
  assert (S : P = vsub B (vscal c V)) by reflexivity. rewrite S.
  clear - K. destruct B as [bx by_ bz], V as [v1 v2 v3]. unfold is_kick, line, vadd, vsub, vscal in *. cbn [vx vy vz] in *. split; [|split]; apply K; intros t; ring.
Qed.
