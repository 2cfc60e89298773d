(** The substitution q = q0 + t^2 turns the integral of f / sqrt(S) from a simple turning point into a regular one. *)
From Coq Require Import Reals Lra ZArith.
From Coquelicot Require Import Coquelicot.
From Verif.Lib Require Import RealAux.
From Verif.Spec Require Import StaeckelSpec.
From Verif.Proofs Require Import EOMProofs StaeckelProofs KuzminKutuzovProofs Libration ChiPrim.
Open Scope R_scope.
Notation RR := RbaseSymbolsImpl.R (only parsing).
Ltac rr := match goal with |- ?a = ?b => change (@eq RR a b) end.

Section Small.
  Variables (S f : RR -> RR) (q0 q1 d : RR).
  Hypotheses (L01 : q0 < q1) (Z0 : S q0 = 0) (Pos : forall q, q0 < q < q1 -> 0 < S q) (Hd : 0 < d) (D0 : is_derive S q0 d)
    (Cs : forall q, q0 < q < q1 -> continuous S q) (Cf : forall q, q0 <= q < q1 -> continuous f q).
  Let tau := sqrt (q1 - q0).
  Definition sub_small (t : RR) : RR := 2 * t / sqrt (S (q0 + t ^ 2)) * f (q0 + t ^ 2).
  Let Q (t : RR) : RR := if Req_EM_T t 0 then d else S (q0 + t ^ 2) / t ^ 2.
  Let G (t : RR) : RR := 2 * f (q0 + t ^ 2) / sqrt (Q t).
  Lemma tau_sq : 0 < tau /\ tau ^ 2 = q1 - q0.
  Proof. split; [apply sqrt_lt_R0; lra|apply pow2_sqrt; lra]. Qed.
  Lemma sub_in t : - tau < t < tau -> t <> 0 -> q0 < q0 + t ^ 2 < q1.
  Proof. intros H N. destruct tau_sq as [A B]. assert (0 < t ^ 2) by (apply pow2_gt_0; exact N). split; [lra|]. assert (t ^ 2 < tau ^ 2) by nra. lra. Qed.
  Lemma Q_pos t : - tau < t < tau -> 0 < Q t.
  Proof.
    intros H. unfold Q. destruct (Req_EM_T t 0) as [E|N]; [exact Hd|]. apply Rdiv_lt_0_compat; [apply Pos, sub_in; assumption|apply pow2_gt_0; exact N].
  Qed.
  Lemma Q_cont t : - tau < t < tau -> continuous Q t.
  Proof.
    intros H. destruct (Req_dec t 0) as [E|N].
    - subst t. apply eps_cont. intros e He. pose proof D0 as DD. apply is_derive_Reals in DD. destruct (DD e He) as [h B].
      exists (Rmin 1 h). split; [apply Rmin_glb_lt; [lra|apply cond_pos]|]. intros s Hs. rewrite Rminus_0_r in Hs. unfold Q. destruct (Req_EM_T 0 0) as [_|X]; [|contradiction].
      destruct (Req_EM_T s 0) as [E|N]; [rewrite Rminus_eq_0, Rabs_R0; exact He|].
      assert (P : 0 < s ^ 2) by (apply pow2_gt_0; exact N). assert (B1 : Rabs s < 1) by (eapply Rlt_le_trans; [exact Hs|apply Rmin_l]). assert (B2 : Rabs s < h) by (eapply Rlt_le_trans; [exact Hs|apply Rmin_r]).
      assert (P2 : s ^ 2 < h). { rewrite <- pow2_abs. pose proof (Rabs_pos s). nra. }
      specialize (B (s ^ 2) ltac:(lra) ltac:(rewrite Rabs_pos_eq; lra)). rewrite Z0, Rminus_0_r in B. exact B.
    - apply (continuous_ext_loc _ (fun t => S (q0 + t ^ 2) / t ^ 2)).
      + assert (A : 0 < Rabs t) by (apply Rabs_pos_lt; exact N). exists (mkposreal _ A). intros s Hs. unfold Q. destruct (Req_EM_T s 0) as [Es|_]; [|reflexivity]. exfalso.
        change (Rabs (s - t) < Rabs t) in Hs. rewrite Es, Rminus_0_l, Rabs_Ropp in Hs. lra.
      + apply (continuous_mult (fun t => S (q0 + t ^ 2)) (fun t => / t ^ 2)).
        * apply (continuous_comp (fun t => q0 + t ^ 2) S); [apply (@ex_derive_continuous R_AbsRing R_NormedModule); auto_derive; exact I|]. apply Cs, sub_in; assumption.
        * apply (continuous_comp (fun t => t ^ 2) Rinv); [apply (@ex_derive_continuous R_AbsRing R_NormedModule); auto_derive; exact I|]. apply continuous_Rinv. pose proof (pow2_gt_0 t N). lra.
  Qed.
  Lemma G_cont t : - tau < t < tau -> continuous G t.
  Proof.
    intros H. apply (continuous_mult (fun t => 2 * f (q0 + t ^ 2)) (fun t => / sqrt (Q t))).
    - apply (continuous_scal_r 2 (fun t => f (q0 + t ^ 2))). apply (continuous_comp (fun t => q0 + t ^ 2) f); [apply (@ex_derive_continuous R_AbsRing R_NormedModule); auto_derive; exact I|].
      apply Cf. destruct (Req_dec t 0) as [E|N]; [rewrite E; lra|]. pose proof (sub_in t H N). lra.
    - apply (continuous_comp Q (fun x => / sqrt x)); [apply Q_cont; exact H|]. pose proof (Q_pos t H) as P. apply (continuous_comp sqrt Rinv); [apply continuous_sqrt|]. apply continuous_Rinv. pose proof (sqrt_lt_R0 _ P). lra.
  Qed.
  Lemma G_sub t : 0 < t < tau -> G t = sub_small t.
  Proof.
    intros H. unfold G, sub_small, Q. destruct (Req_EM_T t 0) as [E|N]; [lra|]. pose proof (sub_in t ltac:(lra) N) as In. pose proof (Pos _ In) as P.
    rewrite sqrt_div by nra. rewrite (sqrt_pow2 t) by lra. pose proof (sqrt_lt_R0 _ P). field. lra.
  Qed.
  Lemma G_int t : - tau < t < tau -> is_RInt G 0 t (RInt G 0 t).
  Proof.
    intros H. apply (RInt_correct (V := R_CompleteNormedModule)). apply (ex_RInt_continuous (V := R_CompleteNormedModule)). intros x Hx. apply G_cont.
    unfold Rmin, Rmax in Hx. destruct (Rle_dec 0 t); lra.
  Qed.
  Lemma G_prim t : - tau < t < tau -> is_derive (fun t => RInt G 0 t) t (G t).
  Proof.
    intros H. apply (is_derive_RInt (V := R_NormedModule) G (fun t => RInt G 0 t) 0 t); [|apply G_cont; exact H].
    assert (Lo : locally t (fun s => - tau < s < tau)) by (apply filter_and; [apply locally_gt|apply locally_lt]; lra).
    eapply filter_imp; [|exact Lo]. intros s Hs. apply G_int. exact Hs.
  Qed.
  Definition Psmall (q : RR) : RR := RInt sub_small 0 (sqrt (q - q0)).
  Lemma root_in q : q < q1 -> 0 <= sqrt (q - q0) < tau.
  Proof.
    intros H. split; [apply sqrt_pos|]. destruct (Rle_dec 0 (q - q0)) as [Y|Y]; [apply sqrt_lt_1; lra|]. rewrite sqrt_neg_0 by lra. apply tau_sq.
  Qed.
  Lemma Psmall_G q : q < q1 -> Psmall q = RInt G 0 (sqrt (q - q0)).
  Proof.
    intros H. destruct (root_in q H) as [A B]. unfold Psmall. apply RInt_ext. intros x Hx. rewrite Rmin_left, Rmax_right in Hx by lra. symmetry. apply G_sub. lra.
  Qed.
  Lemma Psmall_0 : Psmall q0 = 0.
  Proof. unfold Psmall. rewrite Rminus_eq_0, sqrt_0. apply (RInt_point (V := R_CompleteNormedModule)). Qed.
  Lemma Psmall_c q : q < q1 -> continuous Psmall q.
  Proof.
    intros H. apply (continuous_ext_loc _ (fun q => RInt G 0 (sqrt (q - q0)))).
    - eapply filter_imp; [|apply (locally_lt q1 q H)]. intros x Hx. symmetry. apply Psmall_G. exact Hx.
    - apply (continuous_comp (fun q => sqrt (q - q0)) (fun t => RInt G 0 t)).
      + apply (continuous_comp (fun q => q - q0) sqrt); [apply (@ex_derive_continuous R_AbsRing R_NormedModule); auto_derive; exact I|apply continuous_sqrt].
      + apply (cont_derive _ _ (G (sqrt (q - q0)))). apply G_prim. pose proof (root_in q H). lra.
  Qed.
  Lemma Psmall_d q : q0 < q < q1 -> is_derive Psmall q (f q / sqrt (S q)).
  Proof.
    intros H. pose proof (root_in q (proj2 H)) as R. assert (P : 0 < sqrt (q - q0)) by (apply sqrt_lt_R0; lra). assert (Q2 : sqrt (q - q0) ^ 2 = q - q0) by (apply pow2_sqrt; lra).
    apply (is_derive_loc (fun q => RInt G 0 (sqrt (q - q0))) _ q _ (fun x => x < q1)); [apply locally_lt; lra|intros x Hx; symmetry; apply Psmall_G; exact Hx|].
    assert (Dr : is_derive (fun q => sqrt (q - q0)) q (1 / (2 * sqrt (q - q0)))) by (refine (is_derive_eq _ _ _ _ (d_sqrt (fun q => q - q0) q 1 ltac:(lra) ltac:(auto_derive; [exact I|rr; ring])) _); reflexivity).
    refine (is_derive_eq _ _ _ _ (is_derive_Rchain (fun t => RInt G 0 t) (fun q => sqrt (q - q0)) q _ _ (G_prim (sqrt (q - q0)) ltac:(lra)) Dr) _).
    rewrite G_sub by lra. unfold sub_small. rewrite Q2. replace (q0 + (q - q0)) with q by ring. rr. pose proof (sqrt_lt_R0 _ (Pos q H)). field. lra.
  Qed.
  Lemma Psmall_pos q : (forall q, q0 <= q < q1 -> 0 < f q) -> q0 < q < q1 -> 0 < Psmall q.
  Proof.
    intros Pf H. rewrite Psmall_G by lra. pose proof (root_in q (proj2 H)) as R. assert (P : 0 < sqrt (q - q0)) by (apply sqrt_lt_R0; lra).
    apply RInt_gt_0; [exact P| |intros x Hx; apply G_cont; lra]. intros x Hx. unfold G. pose proof (sub_in x ltac:(lra) ltac:(lra)) as In.
    apply Rdiv_lt_0_compat; [apply Rmult_lt_0_compat; [lra|apply Pf; lra]|apply sqrt_lt_R0, Q_pos; lra].
  Qed.
End Small.

Section Both.
  Variables (S f : RR -> RR) (q0 q1 qm : RR).
  Hypotheses (W : simple_well S q0 q1) (Cs : forall q, q0 <= q <= q1 -> continuous S q) (Cf : forall q, q0 <= q <= q1 -> continuous f q) (Hm : q0 < qm < q1).
  Definition sub_large (t : RR) : RR := 2 * t / sqrt (S (q1 - t ^ 2)) * f (q1 - t ^ 2).
  Definition Plarge (q : RR) : RR := RInt sub_large 0 (sqrt (q1 - q)).
  Let Ps := Psmall S f q0.
  Let T := Ps qm + Plarge qm.
  Definition Pboth (q : RR) : RR := if Rlt_dec q qm then Ps q else T - Plarge q.
  Lemma Ps_c q : q < q1 -> continuous Ps q.
  Proof. destruct W as (L & Z0 & Z1 & Pos & (d0 & P0 & D0) & _). apply (Psmall_c S f q0 q1 d0 L Z0 Pos P0 D0); intros x Hx; [apply Cs|apply Cf]; lra. Qed.
  Lemma Ps_d q : q0 < q < q1 -> is_derive Ps q (f q / sqrt (S q)).
  Proof. destruct W as (L & Z0 & Z1 & Pos & (d0 & P0 & D0) & _). apply (Psmall_d S f q0 q1 d0 L Z0 Pos P0 D0); intros x Hx; [apply Cs|apply Cf]; lra. Qed.
  Lemma opp_d x : is_derive (fun x : RR => - x) x (-1).
  Proof. auto_derive; [exact I|rr; ring]. Qed.
  Lemma opp_c (g : RR -> RR) x : continuous g (- x) -> continuous (fun x => g (- x)) x.
  Proof. intros C. apply (continuous_comp (fun x => - x) g); [apply (cont_derive _ _ _ (opp_d x))|exact C]. Qed.
  Lemma Plarge_refl q : Plarge q = Psmall (fun x => S (- x)) (fun x => f (- x)) (- q1) (- q).
  Proof.
    unfold Plarge, Psmall. replace (- q - - q1) with (q1 - q) by ring. apply RInt_ext. intros x _. unfold sub_large, sub_small.
    replace (- (- q1 + x ^ 2)) with (q1 - x ^ 2) by ring. reflexivity.
  Qed.
  Lemma Pl_facts : (forall q, q0 < q -> continuous Plarge q) /\ (forall q, q0 < q < q1 -> is_derive Plarge q (- (f q / sqrt (S q)))).
  Proof.
    destruct W as (L & Z0 & Z1 & Pos & _ & (d1 & P1 & D1)).
    assert (Z : S (- - q1) = 0) by (rewrite Ropp_involutive; exact Z1).
    assert (PP : forall q, - q1 < q < - q0 -> 0 < S (- q)) by (intros q Hq; apply Pos; lra).
    assert (DD : is_derive (fun x => S (- x)) (- q1) (- d1)).
    { refine (is_derive_eq _ _ _ _ (is_derive_Rchain S (fun x => - x) (- q1) d1 (-1) ltac:(rewrite Ropp_involutive; exact D1) (opp_d _)) _). rr. ring. }
    assert (C1 : forall q, - q1 < q < - q0 -> continuous (fun x => S (- x)) q) by (intros q Hq; apply opp_c, Cs; lra).
    assert (C2 : forall q, - q1 <= q < - q0 -> continuous (fun x => f (- x)) q) by (intros q Hq; apply opp_c, Cf; lra).
    pose proof (Psmall_c (fun x => S (- x)) (fun x => f (- x)) (- q1) (- q0) (- d1) ltac:(lra) Z PP ltac:(lra) DD C1 C2) as A.
    pose proof (Psmall_d (fun x => S (- x)) (fun x => f (- x)) (- q1) (- q0) (- d1) ltac:(lra) Z PP ltac:(lra) DD C1 C2) as B.
    split; intros q Hq.
    - apply (continuous_ext (fun q => Psmall (fun x => S (- x)) (fun x => f (- x)) (- q1) (- q))); [intros x; symmetry; apply Plarge_refl|]. apply opp_c. apply A. lra.
    - apply (is_derive_ext (fun q => Psmall (fun x => S (- x)) (fun x => f (- x)) (- q1) (- q))); [intros x; symmetry; apply Plarge_refl|].
      refine (is_derive_eq _ _ _ _ (is_derive_Rchain (Psmall (fun x => S (- x)) (fun x => f (- x)) (- q1)) (fun x => - x) q _ _ (B (- q) ltac:(lra)) (opp_d q)) _).
      rr. rewrite Ropp_involutive. ring.
  Qed.
  Lemma Plarge_1 : Plarge q1 = 0.
  Proof. unfold Plarge. rewrite Rminus_eq_0, sqrt_0. apply (RInt_point (V := R_CompleteNormedModule)). Qed.
  Lemma P_sum q : q0 < q < q1 -> Ps q + Plarge q = T.
  Proof.
    intros Hq. assert (D : forall x, q0 < x < q1 -> is_derive (fun q => Ps q + Plarge q) x 0).
    { intros x Hx. refine (is_derive_eq _ _ _ _ (is_derive_Rplus _ _ x _ _ (Ps_d x Hx) (proj2 Pl_facts x Hx)) _). rr. ring. }
    unfold T. destruct (Rtotal_order q qm) as [A|[A|A]].
    - apply (flat_between (fun q => Ps q + Plarge q) q qm A). intros s Hs. apply D. lra.
    - rewrite A. reflexivity.
    - symmetry. apply (flat_between (fun q => Ps q + Plarge q) qm q A). intros s Hs. apply D. lra.
  Qed.
  Lemma Pboth_small q : q < q1 -> Pboth q = Ps q.
  Proof. intros H. unfold Pboth. destruct (Rlt_dec q qm); [reflexivity|]. rewrite <- (P_sum q) by lra. ring. Qed.
  Lemma Pboth_large q : q0 < q -> q <= q1 -> Pboth q = T - Plarge q.
  Proof. intros H H'. unfold Pboth. destruct (Rlt_dec q qm); [|reflexivity]. rewrite <- (P_sum q) by lra. ring. Qed.
  Theorem both_prim : prim S f Pboth q0 q1 T.
  Proof.
    pose proof W as (L & _). constructor.
    - rewrite Pboth_small by exact L. apply Psmall_0.
    - rewrite Pboth_large by lra. rewrite Plarge_1. ring.
    - intros q Hq. destruct (Rlt_dec q q1) as [A|A].
      + apply (continuous_ext_loc _ Ps); [|apply Ps_c; exact A]. eapply filter_imp; [|apply (locally_lt q1 q A)]. intros x Hx. symmetry. apply Pboth_small. exact Hx.
      + apply (continuous_ext_loc _ (fun q => T - Plarge q)).
        * eapply filter_imp; [|apply (locally_gt qm q ltac:(lra))]. intros x Hx. unfold Pboth. destruct (Rlt_dec x qm); [lra|reflexivity].
        * apply (continuous_minus (fun _ => T) Plarge); [apply continuous_const|]. apply Pl_facts. lra.
    - intros q Hq. apply (is_derive_loc Ps _ q _ (fun x => x < q1)); [apply locally_lt; lra|intros x Hx; symmetry; apply Pboth_small; exact Hx|]. apply Ps_d. exact Hq.
  Qed.
  Lemma both_T_pos : (forall q, q0 <= q <= q1 -> 0 < f q) -> 0 < T.
  Proof.
    intros Pf. destruct W as (L & Z0 & Z1 & Pos & (d0 & P0 & D0) & (d1 & P1 & D1)). unfold T. apply Rplus_lt_0_compat.
    - apply (Psmall_pos S f q0 q1 d0 L Z0 Pos P0 D0); [intros x Hx; apply Cs; lra|intros x Hx; apply Cf; lra|intros x Hx; apply Pf; lra|exact Hm].
    - rewrite Plarge_refl. apply (Psmall_pos (fun x => S (- x)) (fun x => f (- x)) (- q1) (- q0) (- d1)); try lra.
      + rewrite Ropp_involutive. exact Z1.
      + intros q Hq. apply Pos. lra.
      + refine (is_derive_eq _ _ _ _ (is_derive_Rchain S (fun x => - x) (- q1) d1 (-1) ltac:(rewrite Ropp_involutive; exact D1) (opp_d _)) _). rr. ring.
      + intros q Hq. apply opp_c, Cs. lra.
      + intros q Hq. apply opp_c, Cf. lra.
      + intros q Hq. apply Pf. lra.
  Qed.
End Both.
