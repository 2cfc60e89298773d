(** The Kuzmin-Kutuzov potential: its forces and second derivatives are its derivatives, and it is a Staeckel potential. *)
From Coq Require Import Reals Lra Lia.
From Coquelicot Require Import Coquelicot.
From Verif.Lib Require Import RealAux.
From Verif.Model Require Import CoordsSpheroid KuzminKutuzov.
From Verif.Spec Require Import JacSpec StaeckelSpec.
From Verif.Proofs Require Import SpheroidProofs JacProofs4 EOMProofs StaeckelProofs.
Open Scope R_scope.
Notation RR := RbaseSymbolsImpl.R (only parsing).
Ltac rr := match goal with |- ?a = ?b => change (@eq RR a b) end.

Section KK.
  Variables (ac Delta : RR).
  Hypotheses (HD : 0 < Delta) (Hac : 1 < ac).
  Lemma kk_g : lam_g ac Delta < 0.
  Proof. unfold lam_g. pose proof (pow_lt Delta 2 HD). assert (1 - ac ^ 2 < 0) by nra. pose proof (Rinv_lt_0_compat _ H0). unfold Rdiv. nra. Qed.
  Lemma kk_pos (R z : RR) : 0 < KK_n ac Delta R z /\ 0 < KK_l ac Delta R z.
  Proof.
    pose proof (lam_sums ac Delta R z) as S. unfold KK_n, KK_l. destruct (Rz_to_lambdanu ac Delta R z) as [l n]. cbv zeta in S. cbn [fst snd].
    pose proof kk_g as G. assert (A : lam_a ac Delta < 0) by (unfold lam_a; pose proof (pow_lt Delta 2 HD); lra). lra.
  Qed.
  Lemma d_sqrt (f : RR -> RR) (s d : RR) : 0 < f s -> is_derive f s d -> is_derive (fun t => sqrt (f t)) s (d / (2 * sqrt (f s))).
  Proof.
    intros P D. assert (E : ex_derive f s) by (exists d; exact D). pose proof (sqrt_lt_R0 _ P). auto_derive; [split; [exact E|split; [exact P|exact I]]|].
    change (fun x : RR => f x) with f. rewrite (is_derive_unique _ _ _ D). rr. field. lra.
  Qed.
  Section Curve.
    Variables (R z : RR -> RR) (s dR dz : RR).
    Hypotheses (HR : 0 < R s) (DR : is_derive R s dR) (Dz : is_derive z s dz).
    Let J := Rz_to_lambdanu_jac Delta (R s) (z s).
    Lemma foci_off : Delta <> 0 /\ (R s <> 0 \/ z s ^ 2 <> Delta ^ 2).
    Proof. split; [|left]; lra. Qed.
    Lemma d_l : is_derive (fun t => KK_l ac Delta (R t) (z t)) s (fst (fst J) * dR + snd (fst J) * dz).
    Proof. exact (proj1 (lambdanu_jac ac Delta (R s) (z s) (proj1 foci_off) (proj2 foci_off) (fun t => (R t, z t)) s (dR, dz) eq_refl (conj DR Dz))). Qed.
    Lemma d_n : is_derive (fun t => KK_n ac Delta (R t) (z t)) s (fst (snd J) * dR + snd (snd J) * dz).
    Proof. exact (proj2 (lambdanu_jac ac Delta (R s) (z s) (proj1 foci_off) (proj2 foci_off) (fun t => (R t, z t)) s (dR, dz) eq_refl (conj DR Dz))). Qed.
    Let dl := fst (fst J) * dR + snd (fst J) * dz.
    Let dn := fst (snd J) * dR + snd (snd J) * dz.
    Let l := KK_l ac Delta (R s) (z s).
    Let n := KK_n ac Delta (R s) (z s).
    Lemma d_lderiv : is_derive (fun t => lderiv (KK_l ac Delta (R t) (z t)) (KK_n ac Delta (R t) (z t))) s (l2deriv l n * dl + lnderiv l n * dn).
    Proof.
      destruct (kk_pos (R s) (z s)) as [Pn Pl]. pose proof (sqrt_lt_R0 _ Pn) as Sn. pose proof (sqrt_lt_R0 _ Pl) as Sl.
      pose proof (d_sqrt _ s _ Pl d_l) as A. pose proof (d_sqrt _ s _ Pn d_n) as B. fold dl dn in A, B. fold l n in A, B, Sn, Sl, Pn, Pl.
      set (a := fun t => sqrt (KK_l ac Delta (R t) (z t))) in *. set (b := fun t => sqrt (KK_n ac Delta (R t) (z t))) in *.
      assert (A' : is_derive a s (dl / (2 * sqrt l))) by exact A. assert (B' : is_derive b s (dn / (2 * sqrt n))) by exact B. assert (Ea : a s = sqrt l) by reflexivity. assert (Eb : b s = sqrt n) by reflexivity.
      apply (is_derive_ext (fun t => 0.5 / a t / (a t + b t) ^ 2)); [reflexivity|].
      assert (XA : ex_derive a s) by (eexists; exact A'). assert (XB : ex_derive b s) by (eexists; exact B').
      auto_derive. { rewrite Ea, Eb. repeat split; try assumption; try exact I; nra. }
      change (fun x : RR => a x) with a. change (fun x : RR => b x) with b. rewrite (is_derive_unique _ _ _ A'), (is_derive_unique _ _ _ B'), Ea, Eb.
      unfold l2deriv, lnderiv. replace (-0.5) with (- (1 / 2)) by lra. replace 0.5 with (1 / 2) by lra. rr. field. repeat split; lra.
    Qed.
    Lemma d_nderiv : is_derive (fun t => nderiv (KK_l ac Delta (R t) (z t)) (KK_n ac Delta (R t) (z t))) s (lnderiv l n * dl + n2deriv l n * dn).
    Proof.
      destruct (kk_pos (R s) (z s)) as [Pn Pl]. pose proof (sqrt_lt_R0 _ Pn) as Sn. pose proof (sqrt_lt_R0 _ Pl) as Sl.
      pose proof (d_sqrt _ s _ Pl d_l) as A. pose proof (d_sqrt _ s _ Pn d_n) as B. fold dl dn in A, B. fold l n in A, B, Sn, Sl, Pn, Pl.
      set (a := fun t => sqrt (KK_l ac Delta (R t) (z t))) in *. set (b := fun t => sqrt (KK_n ac Delta (R t) (z t))) in *.
      assert (A' : is_derive a s (dl / (2 * sqrt l))) by exact A. assert (B' : is_derive b s (dn / (2 * sqrt n))) by exact B. assert (Ea : a s = sqrt l) by reflexivity. assert (Eb : b s = sqrt n) by reflexivity.
      apply (is_derive_ext (fun t => 0.5 / b t / (a t + b t) ^ 2)); [reflexivity|].
      assert (XA : ex_derive a s) by (eexists; exact A'). assert (XB : ex_derive b s) by (eexists; exact B').
      auto_derive. { rewrite Ea, Eb. repeat split; try assumption; try exact I; nra. }
      change (fun x : RR => a x) with a. change (fun x : RR => b x) with b. rewrite (is_derive_unique _ _ _ A'), (is_derive_unique _ _ _ B'), Ea, Eb.
      unfold n2deriv, lnderiv. replace (-0.5) with (- (1 / 2)) by lra. replace 0.5 with (1 / 2) by lra. rr. field. repeat split; lra.
    Qed.
    Lemma d_ev : is_derive (fun t => KK_ev ac Delta (R t) (z t)) s (- KK_Rf ac Delta (R s) (z s) * dR + - KK_zf ac Delta (R s) (z s) * dz).
    Proof.
      destruct (kk_pos (R s) (z s)) as [Pn Pl]. pose proof (sqrt_lt_R0 _ Pn) as Sn. pose proof (sqrt_lt_R0 _ Pl) as Sl.
      pose proof (d_sqrt _ s _ Pl d_l) as A. pose proof (d_sqrt _ s _ Pn d_n) as B. fold dl dn in A, B. fold l n in A, B, Sn, Sl, Pn, Pl.
      set (a := fun t => sqrt (KK_l ac Delta (R t) (z t))) in *. set (b := fun t => sqrt (KK_n ac Delta (R t) (z t))) in *.
      assert (A' : is_derive a s (dl / (2 * sqrt l))) by exact A. assert (B' : is_derive b s (dn / (2 * sqrt n))) by exact B. assert (Ea : a s = sqrt l) by reflexivity. assert (Eb : b s = sqrt n) by reflexivity.
      apply (is_derive_ext (fun t => -1 / (a t + b t))); [reflexivity|].
      assert (XA : ex_derive a s) by (eexists; exact A'). assert (XB : ex_derive b s) by (eexists; exact B').
      auto_derive. { rewrite Ea, Eb. repeat split; try assumption; try exact I; nra. }
      change (fun x : RR => a x) with a. change (fun x : RR => b x) with b. rewrite (is_derive_unique _ _ _ A'), (is_derive_unique _ _ _ B'), Ea, Eb.
      unfold KK_Rf, KK_zf, dl, dn. fold J l n. destruct J as [[j1 j2] [j3 j4]]. cbn [fst snd]. unfold lderiv, nderiv. replace 0.5 with (1 / 2) by lra. rr. field. repeat split; lra.
    Qed.
    Lemma d_mRf : is_derive (fun t => - KK_Rf ac Delta (R t) (z t)) s (KK_R2 ac Delta (R s) (z s) * dR + KK_Rz ac Delta (R s) (z s) * dz).
    Proof.
      pose proof (lambdanu_hess Delta (R s) (z s) (proj1 foci_off) (proj2 foci_off)) as H. unfold KK_R2, KK_Rz. fold l n J.
      destruct (Rz_to_lambdanu_hess Delta (R s) (z s)) as [[[l1 l2] l3] [[n1 n2] n3]]. destruct H as [HL HN].
      specialize (HL (fun t => (R t, z t)) s (dR, dz) eq_refl (conj DR Dz)). specialize (HN (fun t => (R t, z t)) s (dR, dz) eq_refl (conj DR Dz)). cbn [fst snd] in HL, HN.
      apply (is_derive_ext (fun t => fst (fst (Rz_to_lambdanu_jac Delta (R t) (z t))) * lderiv (KK_l ac Delta (R t) (z t)) (KK_n ac Delta (R t) (z t)) + fst (snd (Rz_to_lambdanu_jac Delta (R t) (z t))) * nderiv (KK_l ac Delta (R t) (z t)) (KK_n ac Delta (R t) (z t)))).
      { intros t. unfold KK_Rf. destruct (Rz_to_lambdanu_jac Delta (R t) (z t)) as [[? ?] [? ?]]. cbn [fst snd]. rr. ring. }
      refine (is_derive_eq _ _ _ _ (is_derive_Rplus _ _ s _ _ (is_derive_Rmult _ _ s _ _ (proj1 HL) d_lderiv) (is_derive_Rmult _ _ s _ _ (proj1 HN) d_nderiv)) _).
      unfold dl, dn. fold J l n. destruct J as [[j1 j2] [j3 j4]]. cbn [fst snd]. rr. ring.
    Qed.
    Lemma d_mzf : is_derive (fun t => - KK_zf ac Delta (R t) (z t)) s (KK_Rz ac Delta (R s) (z s) * dR + KK_z2 ac Delta (R s) (z s) * dz).
    Proof.
      pose proof (lambdanu_hess Delta (R s) (z s) (proj1 foci_off) (proj2 foci_off)) as H. unfold KK_z2, KK_Rz. fold l n J.
      destruct (Rz_to_lambdanu_hess Delta (R s) (z s)) as [[[l1 l2] l3] [[n1 n2] n3]]. destruct H as [HL HN].
      specialize (HL (fun t => (R t, z t)) s (dR, dz) eq_refl (conj DR Dz)). specialize (HN (fun t => (R t, z t)) s (dR, dz) eq_refl (conj DR Dz)). cbn [fst snd] in HL, HN.
      apply (is_derive_ext (fun t => snd (fst (Rz_to_lambdanu_jac Delta (R t) (z t))) * lderiv (KK_l ac Delta (R t) (z t)) (KK_n ac Delta (R t) (z t)) + snd (snd (Rz_to_lambdanu_jac Delta (R t) (z t))) * nderiv (KK_l ac Delta (R t) (z t)) (KK_n ac Delta (R t) (z t)))).
      { intros t. unfold KK_zf. destruct (Rz_to_lambdanu_jac Delta (R t) (z t)) as [[? ?] [? ?]]. cbn [fst snd]. rr. ring. }
      refine (is_derive_eq _ _ _ _ (is_derive_Rplus _ _ s _ _ (is_derive_Rmult _ _ s _ _ (proj2 HL) d_lderiv) (is_derive_Rmult _ _ s _ _ (proj2 HN) d_nderiv)) _).
      unfold dl, dn. fold J l n. destruct J as [[j1 j2] [j3 j4]]. cbn [fst snd]. rr. ring.
    Qed.
  End Curve.
  Lemma kk_force : force_of (KK_ev ac Delta) (KK_Rf ac Delta) (KK_zf ac Delta).
  Proof. intros R z s dR dz HR DR Dz. exact (d_ev R z s dR dz HR DR Dz). Qed.
  Lemma kk_hessian : hessian_of (KK_Rf ac Delta) (KK_zf ac Delta) (KK_R2 ac Delta) (KK_z2 ac Delta) (KK_Rz ac Delta).
  Proof. split; intros R z s dR dz HR DR Dz; [exact (d_mRf R z s dR dz HR DR Dz)|exact (d_mzf R z s dR dz HR DR Dz)]. Qed.
  Lemma kk_mirror : mirror (KK_ev ac Delta).
  Proof. intros R z. unfold KK_ev, KK_l, KK_n. rewrite !lam_formula. cbv zeta. replace ((- z) ^ 2) with (z ^ 2) by ring. reflexivity. Qed.
  Lemma kk_ln (u v : RR) : 0 < u -> 0 < v < PI -> let R := Delta * sinh u * sin v in let z := Delta * cosh u * cos v in
    KK_l ac Delta R z = Delta ^ 2 * sinh u ^ 2 - lam_a ac Delta /\ KK_n ac Delta R z = - lam_a ac Delta - Delta ^ 2 * sin v ^ 2.
  Proof.
    intros Hu Hv R z. unfold KK_l, KK_n. rewrite lam_formula. cbv zeta. cbn [fst snd].
    assert (E : R ^ 2 + z ^ 2 - Delta ^ 2 = Delta ^ 2 * (sinh u ^ 2 - sin v ^ 2)).
    { unfold R, z. replace ((Delta * sinh u * sin v) ^ 2 + (Delta * cosh u * cos v) ^ 2) with (Delta ^ 2 * (sinh u ^ 2 * sin v ^ 2 + cosh u ^ 2 * cos v ^ 2)) by ring. rewrite ch2, cv2. ring. }
    assert (F : sqrt ((R ^ 2 + z ^ 2 - Delta ^ 2) ^ 2 + 4 * Delta ^ 2 * R ^ 2) = Delta ^ 2 * (sinh u ^ 2 + sin v ^ 2)).
    { rewrite E. replace ((Delta ^ 2 * (sinh u ^ 2 - sin v ^ 2)) ^ 2 + 4 * Delta ^ 2 * R ^ 2) with ((Delta ^ 2 * (sinh u ^ 2 + sin v ^ 2)) ^ 2) by (unfold R; ring).
      apply sqrt_pow2. apply Rmult_le_pos; [apply pow2_ge_0|]. pose proof (pow2_ge_0 (sinh u)). pose proof (pow2_ge_0 (sin v)). lra. }
    rewrite F. pose proof (lam_ga ac Delta). split; lra.
  Qed.
  Definition KK_U (u : RR) : RR := - sqrt (Delta ^ 2 * sinh u ^ 2 - lam_a ac Delta) / Delta ^ 2.
  Definition KK_V (v : RR) : RR := - sqrt (- lam_a ac Delta - Delta ^ 2 * sin v ^ 2) / Delta ^ 2.
  Lemma kk_staeckel : staeckel Delta (KK_ev ac Delta) KK_U KK_V.
  Proof.
    intros u v Hu Hv. unfold KK_ev. destruct (kk_ln u v Hu Hv) as [El En]. destruct (kk_pos (Delta * sinh u * sin v) (Delta * cosh u * cos v)) as [Pn Pl].
    rewrite El in Pl |- *. rewrite En in Pn |- *. unfold KK_U, KK_V. set (l := Delta ^ 2 * sinh u ^ 2 - lam_a ac Delta) in *. set (n := - lam_a ac Delta - Delta ^ 2 * sin v ^ 2) in *.
    pose proof (sqrt_lt_R0 _ Pn) as Sn. pose proof (sqrt_lt_R0 _ Pl) as Sl.
    assert (Ql : sqrt l ^ 2 = l) by (rewrite <- Rsqr_pow2; apply Rsqr_sqrt; lra). assert (Qn : sqrt n ^ 2 = n) by (rewrite <- Rsqr_pow2; apply Rsqr_sqrt; lra).
    assert (W : Delta ^ 2 * (sinh u ^ 2 + sin v ^ 2) = sqrt l ^ 2 - sqrt n ^ 2) by (rewrite Ql, Qn; unfold l, n; ring).
    apply (Rmult_eq_reg_l (Delta ^ 2)); [|pose proof (pow_lt Delta 2 HD); lra]. rewrite <- Rmult_assoc, W. field. repeat split; lra.
  Qed.
End KK.
