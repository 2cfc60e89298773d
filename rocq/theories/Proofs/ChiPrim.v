(** The weighted integrals in chi of the Staeckel quadratures are primitives of f / sqrt(S) between the turning points. *)
From Coq Require Import Reals Lra Lia.
From Coquelicot Require Import Coquelicot.
From Verif.Lib Require Import RealAux.
From Verif.Model Require Import Staeckel.
From Verif.Proofs Require Import EOMProofs StaeckelProofs ChiProofs KuzminKutuzovProofs SphericalDFDensity Libration.
Open Scope R_scope.
Notation RR := RbaseSymbolsImpl.R (only parsing).
Ltac rr := match goal with |- ?a = ?b => change (@eq RR a b) end.

(** ** The upper limit of chi *)
Lemma cont_derive (f : RR -> RR) x d : is_derive f x d -> continuous f x.
Proof. intros D. apply (@ex_derive_continuous R_AbsRing R_NormedModule). exists d. exact D. Qed.
Lemma clip_range x : 0 <= clip01 x <= 1.
Proof. unfold clip01. split; [apply Rmin_glb; [apply Rmax_r|lra]|apply Rmin_r]. Qed.
Lemma clip_id x : 0 <= x <= 1 -> clip01 x = x.
Proof. intros H. unfold clip01. rewrite Rmax_left by lra. apply Rmin_left. lra. Qed.
Lemma clip_cont x : continuous clip01 x.
Proof.
  assert (L : forall a b, Rabs (clip01 a - clip01 b) <= Rabs (a - b)).
  { intros a b. unfold clip01, Rmin, Rmax. destruct (Rle_dec a 0), (Rle_dec b 0); try (rewrite Rminus_eq_0, Rabs_R0; apply Rabs_pos);
      repeat (match goal with |- context [Rle_dec ?x ?y] => destruct (Rle_dec x y) end); unfold Rabs; repeat (match goal with |- context [Rcase_abs ?x] => destruct (Rcase_abs x) end); lra. }
  apply eps_cont. intros e He. exists e. split; [exact He|]. intros s Hs. eapply Rle_lt_trans; [apply L|exact Hs].
Qed.
Lemma asin_half x : 0 <= x <= 1 -> asin x = 2 * atan (x / (1 + sqrt (1 - x ^ 2))).
Proof.
  intros H. pose proof (asin_bound x) as B. set (th := asin x) in *. assert (S : sin th = x) by (apply sin_asin; lra).
  assert (C : cos th = sqrt (1 - x ^ 2)).
  { assert (0 <= cos th) by (apply cos_ge_0; lra). rewrite <- S. replace (1 - sin th ^ 2) with (cos th ^ 2) by apply cv2. symmetry. apply sqrt_pow2. assumption. }
  pose proof PI_RGT_0. assert (Hc : 0 < cos (th / 2)) by (apply cos_gt_0; lra).
  assert (T : tan (th / 2) = x / (1 + sqrt (1 - x ^ 2))).
  { rewrite <- C, <- S. unfold tan. replace (sin th) with (sin (2 * (th / 2))) by (f_equal; field). replace (cos th) with (cos (2 * (th / 2))) by (f_equal; field).
    rewrite sin_2a, cos_2a_cos. field. split; [nra|lra]. }
  rewrite <- T. rewrite atan_tan by lra. field.
Qed.
Lemma asin_cont_comp (g : RR -> RR) t : (forall s, 0 <= g s <= 1) -> continuous g t -> continuous (fun s => asin (g s)) t.
Proof.
  intros R C. apply (continuous_ext (fun s => 2 * atan (g s / (1 + sqrt (1 - g s ^ 2))))). { intros s. symmetry. apply asin_half. apply R. }
  apply (continuous_comp g (fun x => 2 * atan (x / (1 + sqrt (1 - x ^ 2))))); [exact C|].
  apply (continuous_scal_r 2 (fun x => atan (x / (1 + sqrt (1 - x ^ 2))))). apply (continuous_comp (fun x => x / (1 + sqrt (1 - x ^ 2))) atan).
  - apply (continuous_mult (fun x => x) (fun x => / (1 + sqrt (1 - x ^ 2)))); [apply continuous_id|].
    apply (continuous_comp (fun x => 1 + sqrt (1 - x ^ 2)) Rinv).
    + apply (continuous_plus (fun _ => 1) (fun x => sqrt (1 - x ^ 2))); [apply continuous_const|]. apply (continuous_comp (fun x => 1 - x ^ 2) sqrt); [|apply continuous_sqrt].
      apply (@ex_derive_continuous R_AbsRing R_NormedModule). auto_derive. exact I.
    + apply continuous_Rinv. pose proof (sqrt_pos (1 - g t ^ 2)). lra.
  - apply (@ex_derive_continuous R_AbsRing R_NormedModule). auto_derive. exact I.
Qed.

Definition chi_of (qmin D q : RR) : RR := 2 * asin (sqrt (clip01 ((q - qmin) / D))).
Lemma chi_of_cont qmin D q : continuous (chi_of qmin D) q.
Proof.
  apply (continuous_scal_r 2 (fun q => asin (sqrt (clip01 ((q - qmin) / D))))). apply asin_cont_comp.
  - intros s. pose proof (clip_range ((s - qmin) / D)) as [A B]. split; [apply sqrt_pos|]. rewrite <- sqrt_1. apply sqrt_le_1_alt. exact B.
  - apply (continuous_comp (fun s => clip01 ((s - qmin) / D)) sqrt); [|apply continuous_sqrt]. apply (continuous_comp (fun s => (s - qmin) / D) clip01); [|apply clip_cont].
    apply (@ex_derive_continuous R_AbsRing R_NormedModule). auto_derive. exact I.
Qed.
Lemma chi_of_0 qmin D : chi_of qmin D qmin = 0.
Proof. unfold chi_of. replace ((qmin - qmin) / D) with 0 by (unfold Rdiv; ring). rewrite clip_id by lra. rewrite sqrt_0, asin_0. ring. Qed.
Lemma chi_of_1 qmin D : D <> 0 -> chi_of qmin D (qmin + D) = PI.
Proof. intros H. unfold chi_of. replace ((qmin + D - qmin) / D) with 1 by (field; exact H). rewrite clip_id by lra. rewrite sqrt_1, asin_1. field. Qed.
Lemma chi_of_half qmin D : D <> 0 -> chi_of qmin D (qmin + D / 2) = PI / 2.
Proof.
  intros H. unfold chi_of. replace ((qmin + D / 2 - qmin) / D) with (1 / 2) by (field; exact H). rewrite clip_id by lra.
  replace (sqrt (1 / 2)) with (sin (PI / 4)). - rewrite asin_sin; [field|]. pose proof PI_RGT_0. lra.
  - rewrite sin_PI4. rewrite sqrt_div_alt by lra. rewrite sqrt_1. reflexivity.
Qed.
Lemma sin_chi_of qmin D q : 0 < D -> qmin <= q <= qmin + D -> sin (chi_of qmin D q / 2) ^ 2 = (q - qmin) / D.
Proof.
  intros HD Hq. assert (B : 0 <= (q - qmin) / D <= 1). { split; [apply Rdiv_le_0_compat; lra|]. apply Rle_div_l; lra. }
  unfold chi_of. rewrite clip_id by exact B. replace (2 * asin (sqrt ((q - qmin) / D)) / 2) with (asin (sqrt ((q - qmin) / D))) by field.
  rewrite sin_asin. - apply pow2_sqrt. lra. - pose proof (sqrt_pos ((q - qmin) / D)). assert (sqrt ((q - qmin) / D) <= 1) by (rewrite <- sqrt_1; apply sqrt_le_1_alt; lra). lra.
Qed.
Lemma chi_of_back qmin D q : 0 < D -> qmin <= q <= qmin + D -> chi_q qmin D (chi_of qmin D q) = q.
Proof. intros HD Hq. unfold chi_q. rewrite sin_chi_of by assumption. field. lra. Qed.
Lemma d_chi_of qmin D q : 0 < D -> qmin < q < qmin + D -> let y := (q - qmin) / D in is_derive (chi_of qmin D) q (/ (D * sqrt (y * (1 - y)))).
Proof.
  intros HD Hq y. assert (B : 0 < y < 1). { unfold y. split; [apply Rdiv_lt_0_compat; lra|]. apply Rlt_div_l; lra. }
  apply (is_derive_ext_loc (fun q => 2 * asin (sqrt ((q - qmin) / D)))).
  - assert (L : locally q (fun s => qmin < s < qmin + D)) by (apply filter_and; [apply locally_gt|apply locally_lt]; lra).
    eapply filter_imp; [|exact L]. intros s Hs. cbv beta in Hs. unfold chi_of. rewrite clip_id; [reflexivity|]. split; [apply Rdiv_le_0_compat; lra|]. apply Rle_div_l; lra.
  - assert (Dy : is_derive (fun q => (q - qmin) / D) q (/ D)) by (auto_derive; [exact I|rr; field; lra]).
    assert (Sq : 0 < sqrt y < 1). { split; [apply sqrt_lt_R0; lra|]. rewrite <- sqrt_1. apply sqrt_lt_1; lra. }
    pose proof (d_scale _ q 2 _ (is_derive_Rchain asin (fun q => sqrt ((q - qmin) / D)) q _ _ (d_asin (sqrt y) ltac:(lra)) (d_sqrt (fun q => (q - qmin) / D) q _ (proj1 B) Dy))) as DD.
    refine (is_derive_eq _ _ _ _ DD _). cbn beta. fold y. rewrite sqrt_mult by lra. rewrite pow2_sqrt by lra. assert (0 < sqrt (1 - y)) by (apply sqrt_lt_R0; lra). rr. field. lra.
Qed.

(** ** The integrand in chi is regular at the turning points *)
Section Primitive.
  Variables (Sq dS f : RR -> RR) (qmin D : RR).
  Let qmax := qmin + D.
  Hypotheses (HD : 0 < D) (DS : forall q, qmin <= q <= qmax -> is_derive Sq q (dS q)) (S0 : Sq qmin = 0) (S1 : Sq qmax = 0)
    (Pos : forall q, qmin < q < qmax -> 0 < Sq q) (P0 : 0 < dS qmin) (P1 : dS qmax < 0) (Cf : forall q, qmin <= q <= qmax -> continuous f q).
  Let sl0 (q : RR) : RR := if Req_EM_T q qmin then dS qmin else Sq q / (q - qmin).
  Let sl1 (q : RR) : RR := if Req_EM_T q qmax then - dS qmax else Sq q / (qmax - q).
  Lemma slope_cont (q0 l : RR) (g : RR -> RR) : is_derive g q0 l -> g q0 = 0 -> continuous (fun q => if Req_EM_T q q0 then l else g q / (q - q0)) q0.
  Proof.
    intros Dg Z. apply is_derive_Reals in Dg. apply eps_cont. intros e He. destruct (Dg e He) as [d B]. exists d. split; [apply cond_pos|]. intros s Hs.
    destruct (Req_EM_T q0 q0) as [_|N]; [|contradiction]. destruct (Req_EM_T s q0) as [E|N].
    - rewrite Rminus_eq_0, Rabs_R0. exact He.
    - specialize (B (s - q0) ltac:(lra) Hs). replace (q0 + (s - q0)) with s in B by ring. rewrite Z, Rminus_0_r in B. exact B.
  Qed.
  Lemma slope_cont' (q0 q : RR) (l : RR) (g : RR -> RR) : q <> q0 -> continuous g q -> continuous (fun q => if Req_EM_T q q0 then l else g q / (q - q0)) q.
  Proof.
    intros N C. apply (continuous_ext_loc _ (fun q => g q / (q - q0))).
    - assert (P : 0 < Rabs (q - q0)) by (apply Rabs_pos_lt; lra). exists (mkposreal _ P). intros s Hs. destruct (Req_EM_T s q0) as [E|_]; [exfalso|reflexivity].
      change (Rabs (s - q) < Rabs (q - q0)) in Hs. rewrite E, Rabs_minus_sym in Hs. lra.
    - apply (continuous_mult g (fun q => / (q - q0))); [exact C|]. apply (continuous_comp (fun q => q - q0) Rinv).
      + apply (@ex_derive_continuous R_AbsRing R_NormedModule). auto_derive. exact I.
      + apply continuous_Rinv. lra.
  Qed.
  Lemma sl0_cont q : qmin <= q <= qmax -> continuous sl0 q.
  Proof.
    intros Hq. destruct (Req_dec q qmin) as [E|N].
    - rewrite E. apply slope_cont; [apply DS; unfold qmax in *; lra|exact S0].
    - apply slope_cont'; [exact N|]. eapply cont_derive. apply DS. exact Hq.
  Qed.
  Lemma sl1_cont q : qmin <= q <= qmax -> continuous sl1 q.
  Proof.
    intros Hq. apply (continuous_ext (fun q => - (if Req_EM_T q qmax then dS qmax else Sq q / (q - qmax)))).
    { intros x. unfold sl1. destruct (Req_EM_T x qmax) as [_|N]; [reflexivity|]. rr. field. split; lra. }
    apply (continuous_opp (fun q => if Req_EM_T q qmax then dS qmax else Sq q / (q - qmax))). destruct (Req_dec q qmax) as [E|N].
    - rewrite E. apply slope_cont; [apply DS; unfold qmax in *; lra|exact S1].
    - apply slope_cont'; [exact N|]. eapply cont_derive. apply DS. exact Hq.
  Qed.
  Let y (chi : RR) : RR := sin (chi / 2) ^ 2.
  Let Q (chi : RR) : RR := chi_Q 0 Sq dS qmin D chi.
  Lemma Q_low chi : y chi < 1 -> Q chi = D * sl0 (chi_q qmin D chi) / (1 - y chi).
  Proof.
    intros L. pose proof (chi_y_range chi) as B. fold (y chi) in B. unfold Q, chi_Q, sl0, chi_q. fold (y chi).
    destruct (Rle_dec (y chi * (1 - y chi)) 0) as [Z|Z].
    - assert (E : y chi = 0) by nra. rewrite E. rewrite Rmult_0_r, Rplus_0_r. destruct (Rlt_dec 0 (1 / 2)); [|lra]. destruct (Req_EM_T qmin qmin); [|contradiction]. rr. field.
    - assert (Hy : 0 < y chi) by nra. destruct (Req_EM_T (qmin + D * y chi) qmin) as [E|N]; [nra|]. rr. field. split; [lra|]. split; [lra|]. nra.
  Qed.
  Lemma Q_high chi : 0 < y chi -> Q chi = D * sl1 (chi_q qmin D chi) / y chi.
  Proof.
    intros L. pose proof (chi_y_range chi) as B. fold (y chi) in B. unfold Q, chi_Q, sl1, chi_q. fold (y chi).
    destruct (Rle_dec (y chi * (1 - y chi)) 0) as [Z|Z].
    - assert (E : y chi = 1) by nra. rewrite E. rewrite Rmult_1_r. destruct (Rlt_dec 1 (1 / 2)); [lra|]. fold qmax. destruct (Req_EM_T qmax qmax); [|contradiction]. rr. field.
    - assert (Hy : y chi < 1) by nra. destruct (Req_EM_T (qmin + D * y chi) qmax) as [E|N]; [unfold qmax in E; nra|]. unfold qmax. rr. field. split; [|lra]. nra.
  Qed.
  Lemma y_cont chi : continuous y chi.
  Proof. apply (@ex_derive_continuous R_AbsRing R_NormedModule). unfold y. auto_derive. exact I. Qed.
  Lemma q_in chi : qmin <= chi_q qmin D chi <= qmax.
  Proof. apply chi_q_range. lra. Qed.
  Lemma chi_q_cont chi : continuous (chi_q qmin D) chi.
  Proof. eapply cont_derive. apply d_chi_q. Qed.
  Lemma Q_cont chi : continuous Q chi.
  Proof.
    pose proof (chi_y_range chi) as B. fold (y chi) in B. destruct (Rlt_dec (y chi) 1) as [L|L].
    - apply (continuous_ext_loc _ (fun chi => D * sl0 (chi_q qmin D chi) / (1 - y chi))).
      + assert (Lo : locally chi (fun c => y c < 1)) by (apply (y_cont chi (fun x => x < 1)); apply (open_lt 1); exact L).
        eapply filter_imp; [|exact Lo]. intros c Hc. symmetry. apply Q_low. exact Hc.
      + apply (continuous_mult (fun chi => D * sl0 (chi_q qmin D chi)) (fun chi => / (1 - y chi))).
        * apply (continuous_scal_r D (fun chi => sl0 (chi_q qmin D chi))). apply (continuous_comp (chi_q qmin D) sl0); [apply chi_q_cont|]. apply sl0_cont, q_in.
        * apply (continuous_comp (fun chi => 1 - y chi) Rinv); [apply (continuous_minus (fun _ => 1) y); [apply continuous_const|apply y_cont]|]. apply continuous_Rinv. lra.
    - apply (continuous_ext_loc _ (fun chi => D * sl1 (chi_q qmin D chi) / y chi)).
      + assert (Lo : locally chi (fun c => 0 < y c)) by (apply (y_cont chi (fun x => 0 < x)); apply (open_gt 0); lra).
        eapply filter_imp; [|exact Lo]. intros c Hc. symmetry. apply Q_high. exact Hc.
      + apply (continuous_mult (fun chi => D * sl1 (chi_q qmin D chi)) (fun chi => / y chi)).
        * apply (continuous_scal_r D (fun chi => sl1 (chi_q qmin D chi))). apply (continuous_comp (chi_q qmin D) sl1); [apply chi_q_cont|]. apply sl1_cont, q_in.
        * apply (continuous_comp y Rinv); [apply y_cont|]. apply continuous_Rinv. lra.
  Qed.
  Lemma Q_pos chi : 0 < Q chi.
  Proof.
    pose proof (chi_y_range chi) as B. fold (y chi) in B. destruct (Rlt_dec (y chi) 1) as [L|L].
    - rewrite Q_low by exact L. apply Rdiv_lt_0_compat; [|lra]. apply Rmult_lt_0_compat; [exact HD|]. unfold sl0, chi_q. fold (y chi).
      destruct (Req_EM_T _ _) as [_|N]; [exact P0|]. assert (0 < y chi). { destruct (proj1 B) as [G|G]; [exact G|]. exfalso. apply N. rewrite <- G. ring. }
      apply Rdiv_lt_0_compat; [apply Pos; unfold qmax; nra|nra].
    - rewrite Q_high by lra. apply Rdiv_lt_0_compat; [|lra]. apply Rmult_lt_0_compat; [exact HD|]. unfold sl1, chi_q. fold (y chi).
      destruct (Req_EM_T _ _) as [_|N]; [lra|]. exfalso. apply N. unfold qmax. replace (y chi) with 1 by lra. ring.
  Qed.
  Let integrand (chi : RR) : RR := D * (f (chi_q qmin D chi) / sqrt (Q chi)).
  Lemma integrand_cont chi : continuous integrand chi.
  Proof.
    apply (continuous_scal_r D (fun chi => f (chi_q qmin D chi) / sqrt (Q chi))).
    apply (continuous_mult (fun chi => f (chi_q qmin D chi)) (fun chi => / sqrt (Q chi))).
    - apply (continuous_comp (chi_q qmin D) f); [apply chi_q_cont|apply Cf, q_in].
    - apply (continuous_comp (fun chi => sqrt (Q chi)) Rinv); [apply (continuous_comp Q sqrt); [apply Q_cont|apply continuous_sqrt]|].
      apply continuous_Rinv. pose proof (sqrt_lt_R0 _ (Q_pos chi)). lra.
  Qed.
  Lemma weight_rate c : is_derive (chi_weight 0 Sq dS f qmin D) c (integrand c).
  Proof.
    apply (is_derive_RInt integrand (chi_weight 0 Sq dS f qmin D) 0 c).
    - exists (mkposreal 1 Rlt_0_1). intros x _. unfold chi_weight. apply (RInt_correct (V := R_CompleteNormedModule)).
      apply (ex_RInt_continuous (V := R_CompleteNormedModule)). intros z _. apply integrand_cont.
    - apply integrand_cont.
  Qed.
  Definition chi_prim (q : RR) : RR := chi_weight 0 Sq dS f qmin D (chi_of qmin D q).
  Theorem chi_prim_ok : prim Sq f chi_prim qmin qmax (chi_weight 0 Sq dS f qmin D PI).
  Proof.
    constructor.
    - unfold chi_prim. rewrite chi_of_0. unfold chi_weight. apply (RInt_point (V := R_CompleteNormedModule)).
    - unfold chi_prim, qmax. rewrite chi_of_1 by lra. reflexivity.
    - intros q Hq. apply (continuous_comp (chi_of qmin D) (chi_weight 0 Sq dS f qmin D)); [apply chi_of_cont|]. eapply cont_derive. apply weight_rate.
    - intros q Hq. refine (is_derive_eq _ _ _ _ (is_derive_Rchain (chi_weight 0 Sq dS f qmin D) (chi_of qmin D) q _ _ (weight_rate _) (d_chi_of qmin D q HD Hq)) _).
      unfold integrand. rewrite chi_of_back by (unfold qmax in *; lra).
      set (yy := (q - qmin) / D). assert (B : 0 < yy < 1). { unfold yy, qmax in *. split; [apply Rdiv_lt_0_compat; lra|]. apply Rlt_div_l; lra. }
      assert (E : Q (chi_of qmin D q) = Sq q / (yy * (1 - yy))).
      { unfold Q, chi_Q. rewrite sin_chi_of by (unfold qmax in *; lra). fold yy. destruct (Rle_dec (yy * (1 - yy)) 0) as [Z|_]; [nra|]. f_equal. f_equal. unfold yy. field. lra. }
      rewrite E. assert (YY : 0 < yy * (1 - yy)) by nra. rewrite sqrt_div_alt by exact YY. pose proof (sqrt_lt_R0 _ YY). pose proof (sqrt_lt_R0 _ (Pos q Hq)). rr. field. lra.
  Qed.
  Lemma weight_pos : (forall q, qmin <= q <= qmax -> 0 < f q) -> 0 < chi_weight 0 Sq dS f qmin D PI.
  Proof.
    intros Hf. unfold chi_weight. apply RInt_gt_0; [exact PI_RGT_0| |intros x _; apply integrand_cont].
    intros x _. pose proof (sqrt_lt_R0 _ (Q_pos x)). pose proof (Hf _ (q_in x)). apply Rmult_lt_0_compat; [exact HD|]. apply Rdiv_lt_0_compat; assumption.
  Qed.
End Primitive.

(** A primitive of a symmetric function is symmetric. *)
Lemma prim_reflect Sq f P q0 q1 T : q0 < q1 -> prim Sq f P q0 q1 T -> (forall q, q0 < q < q1 -> Sq (q0 + q1 - q) = Sq q /\ f (q0 + q1 - q) = f q) ->
  forall q, q0 <= q <= q1 -> P q + P (q0 + q1 - q) = T.
Proof.
  intros L [A0 A1 A2 A3] Sy q Hq.
  assert (Dr : forall x, is_derive (fun q : RR => q0 + q1 - q) x (-1)) by (intros x; auto_derive; [exact I|rr; ring]).
  assert (Z : forall x, q0 < x < q1 -> is_derive (fun q => P q + P (q0 + q1 - q)) x 0).
  { intros x Hx. refine (is_derive_eq _ _ _ _ (is_derive_Rplus P (fun q => P (q0 + q1 - q)) x _ _ (A3 x Hx) (is_derive_Rchain P (fun q => q0 + q1 - q) x _ _ (A3 (q0 + q1 - x) ltac:(lra)) (Dr x))) _).
    destruct (Sy x Hx) as [E1 E2]. rewrite E1, E2. rr. ring. }
  assert (C : forall x, q0 <= x <= q1 -> continuous (fun q => P q + P (q0 + q1 - q)) x).
  { intros x Hx. apply (continuous_plus P (fun q => P (q0 + q1 - q))); [apply A2; exact Hx|]. apply (continuous_comp (fun q => q0 + q1 - q) P); [eapply cont_derive; apply Dr|apply A2; lra]. }
  destruct (Req_dec q q0) as [E|N].
  - rewrite E. replace (q0 + q1 - q0) with q1 by ring. rewrite A0, A1. ring.
  - destruct (MVT_gen (fun q => P q + P (q0 + q1 - q)) q0 q (fun _ => 0)) as (c & _ & E).
    + rewrite Rmin_left, Rmax_right by lra. intros x Hx. apply Z. lra.
    + rewrite Rmin_left, Rmax_right by lra. intros x Hx. apply continuity_pt_filterlim. apply C. lra.
    + rewrite A0 in E. replace (q0 + q1 - q0) with q1 in E by ring. rewrite A1 in E. lra.
Qed.
