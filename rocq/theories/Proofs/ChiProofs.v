(** The substitution q = qmin + D sin^2(chi/2) of the Staeckel quadratures. *)
From Coq Require Import Reals Lra Lia.
From Coquelicot Require Import Coquelicot.
From Verif.Lib Require Import RealAux.
From Verif.Model Require Import Staeckel.
From Verif.Proofs Require Import EOMProofs StaeckelProofs.
Open Scope R_scope.
Notation RR := RbaseSymbolsImpl.R (only parsing).
Ltac rr := match goal with |- ?a = ?b => change (@eq RR a b) end.

Lemma y1my (chi : RR) : sin (chi / 2) ^ 2 * (1 - sin (chi / 2) ^ 2) = sin chi ^ 2 / 4.
Proof.
  pose proof (cv2 (chi / 2)) as C. rewrite <- C. replace (sin chi) with (sin (2 * (chi / 2))) by (f_equal; field). rewrite sin_2a. field.
Qed.
Lemma d_half (chi : RR) : is_derive (fun x : RR => x / 2) chi (/ 2).
Proof. auto_derive; [exact I|]. rr. field. Qed.
Lemma d_chi_q (qmin D chi : RR) : is_derive (chi_q qmin D) chi (D / 2 * sin chi).
Proof.
  unfold chi_q. refine (is_derive_eq _ _ _ _ (is_derive_Rplus _ _ chi _ _ (is_derive_cst qmin chi) (d_scale _ chi D _ (d_sq _ chi _ (d_sin _ chi _ (d_half chi))))) _).
  replace (sin chi) with (sin (2 * (chi / 2))) by (f_equal; field). rewrite sin_2a. rr. field.
Qed.
Lemma chi_y_range (chi : RR) : 0 <= sin (chi / 2) ^ 2 <= 1.
Proof. pose proof (SIN_bound (chi / 2)). nra. Qed.
Lemma chi_q_range (qmin D chi : RR) : 0 <= D -> qmin <= chi_q qmin D chi <= qmin + D.
Proof. intros H. pose proof (chi_y_range chi). unfold chi_q. nra. Qed.
Lemma chi_q_inner (qmin D chi : RR) : 0 < D -> 0 < chi < PI -> qmin < chi_q qmin D chi < qmin + D.
Proof.
  intros H Hc. assert (S : 0 < sin chi) by (apply sin_gt_0; lra). pose proof (y1my chi) as Y. pose proof (pow_lt _ 2 S).
  pose proof (chi_y_range chi). unfold chi_q. set (y := sin (chi / 2) ^ 2) in *. assert (0 < y < 1) by nra. nra.
Qed.

Section Action.
  Variables (S dS : RR -> RR) (qmin D : RR).
  Hypotheses (HD : 0 < D) (CS : forall q, qmin <= q <= qmin + D -> continuous S q).
  Lemma chi_Q_in (chi : RR) : 0 < chi < PI -> chi_Q 0 S dS qmin D chi = S (chi_q qmin D chi) / (sin chi ^ 2 / 4).
  Proof.
    intros Hc. assert (P : 0 < sin chi) by (apply sin_gt_0; lra). unfold chi_Q. rewrite y1my.
    destruct (Rle_dec (sin chi ^ 2 / 4) 0) as [L|L]; [pose proof (pow_lt _ 2 P); lra|]. reflexivity.
  Qed.
  (** Integrating the action in chi is integrating sqrt(S) in q. *)
  Lemma chi_action_ok (c : RR) : 0 < c <= PI -> (forall q, qmin <= q <= qmin + D -> 0 <= S q) ->
    chi_action 0 S dS qmin D c = RInt (fun q => sqrt (S q)) qmin (chi_q qmin D c).
  Proof.
    intros Hc Pos. unfold chi_action.
    rewrite (RInt_ext (V := R_CompleteNormedModule) _ (fun chi => scal (D / 2 * sin chi) (sqrt (S (chi_q qmin D chi))))).
    - assert (E0 : qmin = chi_q qmin D 0) by (unfold chi_q; replace (0 / 2) with 0 by field; rewrite sin_0; ring).
      transitivity (RInt (fun q => sqrt (S q)) (chi_q qmin D 0) (chi_q qmin D c)); [|rewrite <- E0; reflexivity]. apply (RInt_comp (fun q => sqrt (S q)) (chi_q qmin D) (fun chi => D / 2 * sin chi)).
      + intros x Hx. apply (continuous_comp S sqrt); [apply CS; apply chi_q_range; lra|apply continuous_sqrt].
      + intros x Hx. split; [apply d_chi_q|]. apply (@ex_derive_continuous R_AbsRing R_NormedModule). auto_derive. exact I.
    - intros x Hx. rewrite Rmin_left, Rmax_right in Hx by lra. assert (Hx' : 0 < x < PI) by lra.
      assert (P : 0 < sin x) by (apply sin_gt_0; lra). rewrite (chi_Q_in x Hx'). unfold scal; cbn; unfold mult; cbn.
      replace (S (chi_q qmin D x) / (sin x ^ 2 / 4)) with (S (chi_q qmin D x) * (/ (sin x / 2)) ^ 2) by (field; lra).
      rewrite sqrt_mult; [|apply Pos; apply chi_q_range; lra|apply pow2_ge_0].
      rewrite sqrt_pow2 by (left; apply Rinv_0_lt_compat; lra). rr. field. lra.
  Qed.
End Action.
