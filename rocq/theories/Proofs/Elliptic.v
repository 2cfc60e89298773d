(** Complete elliptic integrals and the potential of a ring. *)
From Coq Require Import Reals Lra.
From Coquelicot Require Import Coquelicot.
From Verif.Lib Require Import RealAux.
From Verif.Model Require Import RingDisk.
Open Scope R_scope.
Notation RR := RbaseSymbolsImpl.R (only parsing).
Ltac rr := match goal with |- ?a = ?b => change (@eq RR a b) end.

(** ** Differentiation under the integral sign *)
Lemma param_ab (F G : RR -> RR -> RR) (a b u : RR) :
  locally u (fun v => forall s, is_derive (fun w => F w s) v (G v s)) ->
  locally u (fun v => forall s, continuous (F v) s) ->
  (forall s, continuous (fun p : RR * RR => G (fst p) (snd p)) (u, s)) ->
  is_derive (fun v => RInt (F v) a b) u (RInt (G u) a b).
Proof.
  intros HD HC HG.
  assert (E : RInt (G u) a b = RInt (fun s => Derive (fun w => F w s) u) a b).
  { apply RInt_ext. intros s _. symmetry. apply is_derive_unique. apply (locally_singleton _ _ HD). }
  rewrite E. apply is_derive_RInt_param.
  - revert HD. apply filter_imp. intros v Hv s _. exists (G v s). apply Hv.
  - intros s _. apply continuity_2d_pt_filterlim. specialize (HG s).
    assert (E1 : Derive (fun z => F z s) u = G u s) by (apply is_derive_unique; apply (locally_singleton _ _ HD)). rewrite E1.
    apply (filterlim_ext_loc (fun p : RR * RR => G (fst p) (snd p))); [|exact HG].
    destruct HD as (eps & HD). exists eps. intros (v, s') (Hv & _). symmetry. apply is_derive_unique. apply HD. exact Hv.
  - revert HC. apply filter_imp. intros v Hv. apply (ex_RInt_continuous (V := R_CompleteNormedModule)). intros s _. apply Hv.
Qed.
(** ** Continuity in two variables *)
Notation P2 := (prod_UniformSpace R_UniformSpace R_UniformSpace).
Lemma c2_fst (p : P2) : continuous (fun p : P2 => fst p) p. Proof. apply continuous_fst. Qed.
Lemma c2_snd (p : P2) : continuous (fun p : P2 => snd p) p. Proof. apply continuous_snd. Qed.
Section Cont.
Context {U : UniformSpace}.
Lemma c2_const (c : RR) (p : U) : continuous (fun _ : U => c) p. Proof. apply continuous_const. Qed.
Lemma c2_plus (f g : U -> RR) p : continuous f p -> continuous g p -> continuous (fun p => f p + g p) p.
Proof. intros. apply (continuous_plus (V := R_NormedModule) f g p); assumption. Qed.
Lemma c2_opp (f : U -> RR) p : continuous f p -> continuous (fun p => - f p) p.
Proof. intros. apply (continuous_opp (V := R_NormedModule) f p); assumption. Qed.
Lemma c2_minus (f g : U -> RR) p : continuous f p -> continuous g p -> continuous (fun p => f p - g p) p.
Proof. intros. apply (continuous_minus (V := R_NormedModule) f g p); assumption. Qed.
Lemma c2_mult (f g : U -> RR) p : continuous f p -> continuous g p -> continuous (fun p => f p * g p) p.
Proof. intros. apply (continuous_mult (K := R_AbsRing) f g p); assumption. Qed.
Lemma c2_comp (h : RR -> RR) (f : U -> RR) p : continuous f p -> continuous h (f p) -> continuous (fun p => h (f p)) p.
Proof. intros. apply (continuous_comp f h p); assumption. Qed.
Lemma c2_inv (f : U -> RR) p : continuous f p -> f p <> 0 -> continuous (fun p => / f p) p.
Proof. intros H N. apply (c2_comp Rinv f p H). apply continuous_Rinv. exact N. Qed.
Lemma c2_div (f g : U -> RR) p : continuous f p -> continuous g p -> g p <> 0 -> continuous (fun p => f p / g p) p.
Proof. intros H K N. unfold Rdiv. apply c2_mult; [exact H|]. apply c2_inv; assumption. Qed.
Lemma c2_pow (f : U -> RR) n p : continuous f p -> continuous (fun p => f p ^ n) p.
Proof. intros H. apply (c2_comp (fun x => x ^ n) f p H). apply (ex_derive_continuous (V := R_NormedModule)). auto_derive. exact I. Qed.
Lemma c2_sqrt (f : U -> RR) p : continuous f p -> continuous (fun p => sqrt (f p)) p.
Proof. intros H. apply (c2_comp sqrt f p H). apply continuous_sqrt. Qed.
Lemma c_pos (f : U -> RR) p : continuous f p -> 0 < f p -> locally p (fun q => 0 < f q).
Proof. intros C H. exact (C _ (locally_pos (f p) H)). Qed.
End Cont.

(** ** The integrand *)
Definition Dl (m th : RR) : RR := 1 - m * sin th ^ 2.
Lemma sin2_01 th : 0 <= sin th ^ 2 <= 1. Proof. pose proof (SIN_bound th). nra. Qed.
Lemma Dl_pos m th : m < 1 -> 0 < Dl m th. Proof. intros H. unfold Dl. pose proof (sin2_01 th) as S. set (q := sin th ^ 2) in *. clearbody q. destruct (Rle_dec m 0); nra. Qed.
Lemma Dl_s m th : m < 1 -> 0 < sqrt (Dl m th). Proof. intros H. apply sqrt_lt_R0. apply Dl_pos. exact H. Qed.
Lemma Dl_sq m th : m < 1 -> sqrt (Dl m th) ^ 2 = Dl m th. Proof. intros H. apply pow2_sqrt. apply Rlt_le, Dl_pos. exact H. Qed.
Lemma d_Dl_m m th : is_derive (fun m => Dl m th) m (- sin th ^ 2). Proof. unfold Dl. auto_derive; [exact I|]. rr. ring. Qed.
Lemma d_Dl_th m th : is_derive (Dl m) th (- 2 * m * sin th * cos th). Proof. unfold Dl. auto_derive; [exact I|]. rr. ring. Qed.
Lemma d_sD_m m th : m < 1 -> is_derive (fun m => sqrt (Dl m th)) m (- sin th ^ 2 / (2 * sqrt (Dl m th))).
Proof. intros H. exact (is_derive_sqrt _ m _ (d_Dl_m m th) (Dl_pos m th H)). Qed.
Lemma d_sD_th m th : m < 1 -> is_derive (fun th => sqrt (Dl m th)) th (- m * sin th * cos th / sqrt (Dl m th)).
Proof. intros H. pose proof (Dl_s m th H). refine (is_derive_eq _ _ _ _ (is_derive_sqrt _ th _ (d_Dl_th m th) (Dl_pos m th H)) _). rr. field. lra. Qed.
Lemma d_iD_m m th : m < 1 -> is_derive (fun m => / sqrt (Dl m th)) m (sin th ^ 2 / (2 * sqrt (Dl m th) ^ 3)).
Proof. intros H. pose proof (Dl_s m th H). refine (is_derive_eq _ _ _ _ (is_derive_inv _ m _ (d_sD_m m th H) ltac:(lra)) _). rr. field. lra. Qed.
Lemma lt1_loc m : m < 1 -> locally m (fun v => v < 1). Proof. apply locally_lt. Qed.
Lemma c_Dl_th m th : continuous (Dl m) th.
Proof. apply (ex_derive_continuous (V := R_NormedModule)). eexists. apply d_Dl_th. Qed.
Lemma c_sD_th m th : continuous (fun th => sqrt (Dl m th)) th.
Proof. apply (continuous_comp (Dl m) sqrt); [apply c_Dl_th|apply continuous_sqrt]. Qed.
Lemma c_iD_th m th : m < 1 -> continuous (fun th => / sqrt (Dl m th)) th.
Proof. intros H. apply (continuous_comp (fun th => sqrt (Dl m th)) Rinv); [apply c_sD_th|]. apply continuous_Rinv. pose proof (Dl_s m th H). lra. Qed.
Lemma c_sin (x : RR) : continuous sin x. Proof. apply (ex_derive_continuous (V := R_NormedModule)). auto_derive. exact I. Qed.
Lemma c2_Dl (p : P2) : continuous (fun p : P2 => Dl (fst p) (snd p)) p.
Proof. unfold Dl. apply c2_minus; [apply c2_const|]. apply c2_mult; [apply c2_fst|]. apply c2_pow. apply c2_comp; [apply c2_snd|apply c_sin]. Qed.
Lemma exi (f : RR -> RR) a b : (forall x, continuous f x) -> ex_RInt f a b.
Proof. intros H. apply (ex_RInt_continuous (V := R_CompleteNormedModule)). intros x _. apply H. Qed.
Lemma icor (f : RR -> RR) a b : ex_RInt f a b -> is_RInt f a b (RInt f a b).
Proof. intros H. apply (RInt_correct (V := R_CompleteNormedModule)). exact H. Qed.

Lemma iE m : is_RInt (fun th => sqrt (Dl m th)) 0 (PI / 2) (ellipe m).
Proof. apply icor. apply exi. intros x. apply c_sD_th. Qed.
Lemma iK m : m < 1 -> is_RInt (fun th => / sqrt (Dl m th)) 0 (PI / 2) (ellipk m).
Proof. intros H. apply icor. apply exi. intros x. apply c_iD_th. exact H. Qed.
(** the third integral *)
Lemma i3 m : m < 1 -> is_RInt (fun th => / sqrt (Dl m th) ^ 3) 0 (PI / 2) (ellipe m / (1 - m)).
Proof.
  intros H.
  assert (D : forall th, is_derive (fun th => m * sin th * cos th / sqrt (Dl m th)) th (sqrt (Dl m th) - (1 - m) * / sqrt (Dl m th) ^ 3)).
  { intros th. pose proof (Dl_s m th H) as P. pose proof (Dl_sq m th H) as Q.
    assert (N : is_derive (fun th => m * sin th * cos th) th (m * (cos th * cos th - sin th * sin th))) by (auto_derive; [exact I|ring]).
    refine (is_derive_eq _ _ _ _ (is_derive_div _ (fun th => sqrt (Dl m th)) th _ _ N (d_sD_th m th H) ltac:(lra)) _). rr.
    unfold Dl in Q at 2. assert (C : cos th ^ 2 = 1 - sin th ^ 2) by (pose proof (sin2_cos2 th) as T; unfold Rsqr in T; lra).
    set (s := sqrt (Dl m th)) in *. clearbody s. apply (Rmult_eq_reg_r (s ^ 3)); [|apply pow_nonzero; lra].
    transitivity (m * (cos th ^ 2 - sin th ^ 2) * s ^ 2 + m ^ 2 * sin th ^ 2 * cos th ^ 2); [field; lra|]. transitivity ((s ^ 2) ^ 2 - (1 - m)); [|field; lra]. rewrite C, Q. ring. }
  assert (C3 : forall th, continuous (fun th => / sqrt (Dl m th) ^ 3) th).
  { intros th. apply (continuous_comp (fun th => sqrt (Dl m th) ^ 3) Rinv); [|apply continuous_Rinv; apply pow_nonzero; pose proof (Dl_s m th H); lra].
    apply (continuous_comp (fun th => sqrt (Dl m th)) (fun x => x ^ 3)); [apply c_sD_th|]. apply (ex_derive_continuous (V := R_NormedModule)). auto_derive. exact I. }
  assert (Z : is_RInt (fun th => sqrt (Dl m th) - (1 - m) * / sqrt (Dl m th) ^ 3) 0 (PI / 2) 0).
  { replace 0 with (minus (m * sin (PI / 2) * cos (PI / 2) / sqrt (Dl m (PI / 2))) (m * sin 0 * cos 0 / sqrt (Dl m 0))) at 2.
    - apply (is_RInt_derive (V := R_CompleteNormedModule) (fun th => m * sin th * cos th / sqrt (Dl m th))).
      + intros x _. apply D.
      + intros x _. apply (continuous_minus (V := R_NormedModule) (fun th => sqrt (Dl m th)) (fun th => (1 - m) * / sqrt (Dl m th) ^ 3)); [apply c_sD_th|]. apply (continuous_mult (K := R_AbsRing) (fun _ => 1 - m)); [apply continuous_const|apply C3].
    - unfold minus, plus, opp; simpl. rewrite cos_PI2, sin_0. unfold Rdiv. ring. }
  pose proof (is_RInt_minus (V := R_NormedModule) _ _ _ _ _ _ (iE m) Z) as J.
  pose proof (is_RInt_scal (V := R_NormedModule) _ _ _ (/ (1 - m)) _ J) as L. unfold minus, plus, opp, scal in L; simpl in L. unfold mult in L; simpl in L.
  replace (/ (1 - m) * (ellipe m + - 0)) with (ellipe m / (1 - m)) in L by (field; lra). refine (is_RInt_ext _ _ _ _ _ _ L). intros th _. cbv beta. rr.
  pose proof (Dl_s m th H). field. split; lra.
Qed.
(** ** Their derivatives *)
Lemma d_E m : m < 1 -> m <> 0 -> is_derive ellipe m ((ellipe m - ellipk m) / (2 * m)).
Proof.
  intros H N. assert (X : is_derive (fun m => RInt (fun th => sqrt (Dl m th)) 0 (PI / 2)) m (RInt (fun th => - sin th ^ 2 / (2 * sqrt (Dl m th))) 0 (PI / 2))).
  { apply (param_ab (fun m th => sqrt (Dl m th)) (fun m th => - sin th ^ 2 / (2 * sqrt (Dl m th)))).
    - generalize (lt1_loc m H). apply filter_imp. intros v Hv s. apply d_sD_m. exact Hv.
    - apply filter_forall. intros v s. apply c_sD_th.
    - intros s. apply c2_div; [apply c2_opp, c2_pow, c2_comp; [apply c2_snd|apply c_sin]|apply c2_mult; [apply c2_const|apply c2_sqrt, c2_Dl]|]. simpl. pose proof (Dl_s m s H). lra. }
  refine (is_derive_eq _ _ _ _ X _). apply (is_RInt_unique (V := R_CompleteNormedModule)).
  pose proof (is_RInt_scal (V := R_NormedModule) _ _ _ (/ (2 * m)) _ (is_RInt_minus (V := R_NormedModule) _ _ _ _ _ _ (iE m) (iK m H))) as L. unfold minus, plus, opp, scal in L; simpl in L. unfold mult in L; simpl in L.
  replace (/ (2 * m) * (ellipe m + - ellipk m)) with ((ellipe m - ellipk m) / (2 * m)) in L by (field; lra). refine (is_RInt_ext _ _ _ _ _ _ L). intros th _. cbv beta. rr.
  pose proof (Dl_s m th H). pose proof (Dl_sq m th H) as Q. unfold Dl in Q at 2. set (s := sqrt (Dl m th)) in *. clearbody s. replace (sin th ^ 2) with ((1 - s ^ 2) / m) by (rewrite Q; field; exact N). field. split; lra.
Qed.
Lemma d_K m : m < 1 -> m <> 0 -> is_derive ellipk m ((ellipe m / (1 - m) - ellipk m) / (2 * m)).
Proof.
  intros H N. assert (X : is_derive (fun m => RInt (fun th => / sqrt (Dl m th)) 0 (PI / 2)) m (RInt (fun th => sin th ^ 2 / (2 * sqrt (Dl m th) ^ 3)) 0 (PI / 2))).
  { apply (param_ab (fun m th => / sqrt (Dl m th)) (fun m th => sin th ^ 2 / (2 * sqrt (Dl m th) ^ 3))).
    - generalize (lt1_loc m H). apply filter_imp. intros v Hv s. apply d_iD_m. exact Hv.
    - generalize (lt1_loc m H). apply filter_imp. intros v Hv s. apply c_iD_th. exact Hv.
    - intros s. apply c2_div; [apply c2_pow, c2_comp; [apply c2_snd|apply c_sin]|apply c2_mult; [apply c2_const|apply c2_pow, c2_sqrt, c2_Dl]|]. simpl. pose proof (Dl_s m s H) as P. assert (0 < sqrt (Dl m s) ^ 3) by (apply pow_lt; exact P). simpl in *. lra. }
  refine (is_derive_eq _ _ _ _ X _). apply (is_RInt_unique (V := R_CompleteNormedModule)).
  pose proof (is_RInt_scal (V := R_NormedModule) _ _ _ (/ (2 * m)) _ (is_RInt_minus (V := R_NormedModule) _ _ _ _ _ _ (i3 m H) (iK m H))) as L. unfold minus, plus, opp, scal in L; simpl in L. unfold mult in L; simpl in L.
  replace (/ (2 * m) * (ellipe m / (1 - m) + - ellipk m)) with ((ellipe m / (1 - m) - ellipk m) / (2 * m)) in L by (field; split; lra). refine (is_RInt_ext _ _ _ _ _ _ L). intros th _. cbv beta. rr.
  pose proof (Dl_s m th H). pose proof (Dl_sq m th H) as Q. unfold Dl in Q at 2. set (s := sqrt (Dl m th)) in *. clearbody s. replace (sin th ^ 2) with ((1 - s ^ 2) / m) by (rewrite Q; field; exact N). simpl. field. split; lra.
Qed.
Lemma c_E m : m < 1 -> continuous ellipe m.
Proof.
  intros H. apply (ex_derive_continuous (V := R_NormedModule)). eexists.
  apply (param_ab (fun m th => sqrt (Dl m th)) (fun m th => - sin th ^ 2 / (2 * sqrt (Dl m th)))).
  - generalize (lt1_loc m H). apply filter_imp. intros v Hv s. apply d_sD_m. exact Hv.
  - apply filter_forall. intros v s. apply c_sD_th.
  - intros s. apply c2_div; [apply c2_opp, c2_pow, c2_comp; [apply c2_snd|apply c_sin]|apply c2_mult; [apply c2_const|apply c2_sqrt, c2_Dl]|]. simpl. pose proof (Dl_s m s H). lra.
Qed.
Lemma c_K m : m < 1 -> continuous ellipk m.
Proof.
  intros H. apply (ex_derive_continuous (V := R_NormedModule)). eexists.
  apply (param_ab (fun m th => / sqrt (Dl m th)) (fun m th => sin th ^ 2 / (2 * sqrt (Dl m th) ^ 3))).
  - generalize (lt1_loc m H). apply filter_imp. intros v Hv s. apply d_iD_m. exact Hv.
  - generalize (lt1_loc m H). apply filter_imp. intros v Hv s. apply c_iD_th. exact Hv.
  - intros s. apply c2_div; [apply c2_pow, c2_comp; [apply c2_snd|apply c_sin]|apply c2_mult; [apply c2_const|apply c2_pow, c2_sqrt, c2_Dl]|]. simpl. pose proof (Dl_s m s H) as P. assert (0 < sqrt (Dl m s) ^ 3) by (apply pow_lt; exact P). simpl in *. lra.
Qed.
Lemma E_pos m : m < 1 -> 0 < ellipe m.
Proof. intros H. pose proof PI_RGT_0. unfold ellipe. apply RInt_gt_0; [lra| |]; intros x Hx; [apply (Dl_s m x H)|apply (c_sD_th m x)]. Qed.
Lemma K_pos m : m < 1 -> 0 < ellipk m.
Proof. intros H. pose proof PI_RGT_0. unfold ellipk. apply RInt_gt_0; [lra| |]; intros x Hx; [apply Rinv_0_lt_compat, (Dl_s m x H)|apply (c_iD_th m x H)]. Qed.
(** sqrt (1 - m) K < E *)
Lemma KE_lt m : 0 < m < 1 -> sqrt (1 - m) * ellipk m < ellipe m.
Proof.
  intros [H0 H]. pose proof PI_RGT_0 as P0. set (l := sqrt (1 - m)). assert (L2 : l ^ 2 = 1 - m) by (apply pow2_sqrt; lra). assert (L0 : 0 < l) by (apply sqrt_lt_R0; lra).
  pose proof (is_RInt_plus (V := R_NormedModule) _ _ _ _ _ _ (is_RInt_minus (V := R_NormedModule) _ _ _ _ _ _ (iE m) (is_RInt_scal (V := R_NormedModule) _ _ _ (2 * l) _ (iK m H))) (is_RInt_scal (V := R_NormedModule) _ _ _ (1 - m) _ (i3 m H))) as J.
  unfold minus, plus, opp, scal in J; simpl in J. unfold mult in J; simpl in J.
  replace (ellipe m + - (2 * l * ellipk m) + (1 - m) * (ellipe m / (1 - m))) with (2 * (ellipe m - l * ellipk m)) in J by (field; lra).
  set (g := fun th => sqrt (Dl m th) * (1 - l / Dl m th) ^ 2).
  assert (Jg : is_RInt g 0 (PI / 2) (2 * (ellipe m - l * ellipk m))).
  { refine (is_RInt_ext _ _ _ _ _ _ J). intros th _. cbv beta. rr. unfold g. pose proof (Dl_s m th H) as S. pose proof (Dl_sq m th H) as Q. clear J. rewrite <- L2. set (q := Dl m th) in *. set (s := sqrt q) in *. clearbody s. clearbody q. rewrite <- Q. clearbody l. clear - S. simpl. field. lra. }
  assert (Cg : forall x, continuous g x).
  { intros x. unfold g. apply (continuous_mult (K := R_AbsRing) (fun th => sqrt (Dl m th)) (fun th => (1 - l / Dl m th) ^ 2)); [apply c_sD_th|].
    apply (continuous_comp (Dl m) (fun w => (1 - l / w) ^ 2)); [apply c_Dl_th|]. apply (ex_derive_continuous (V := R_NormedModule)). auto_derive. pose proof (Dl_pos m x H). lra. }
  assert (Ng : forall x, 0 <= g x) by (intros x; unfold g; apply Rmult_le_pos; [apply sqrt_pos|apply pow2_ge_0]).
  (* where Dl > l the integrand is positive: from 0 on, Dl 0 = 1 > l *)
  assert (l1 : l < 1) by (apply Rlt_le_trans with (sqrt 1); [apply sqrt_lt_1; lra|rewrite sqrt_1; lra]).
  assert (G0 : 0 < g 0). { unfold g, Dl. rewrite sin_0. replace (1 - m * 0 ^ 2) with 1 by ring. rewrite sqrt_1. replace (1 * (1 - l / 1) ^ 2) with ((1 - l) ^ 2) by field. apply pow_lt. lra. }
  assert (Q : 0 < 2 * (ellipe m - l * ellipk m)); [|lra].
  destruct (proj1 (filterlim_locally g (g 0)) (Cg 0) (mkposreal _ (Rdiv_lt_0_compat _ _ G0 (Rlt_0_2)))) as (eps & He).
  set (d := Rmin (eps / 2) (PI / 4)). assert (Pd : 0 < d) by (apply Rmin_pos; [pose proof (cond_pos eps); lra|lra]). assert (Dd : d <= PI / 4) by apply Rmin_r. assert (De : d < eps) by (apply Rle_lt_trans with (eps / 2); [apply Rmin_l|pose proof (cond_pos eps); lra]).
  rewrite <- (is_RInt_unique (V := R_CompleteNormedModule) _ _ _ _ Jg). rewrite <- (RInt_Chasles (V := R_CompleteNormedModule) g 0 d (PI / 2)) by (apply exi; apply Cg). unfold plus; simpl.
  apply Rplus_lt_le_0_compat.
  - apply RInt_gt_0; [exact Pd| |intros; apply Cg]. intros x Hx. specialize (He x). assert (B : ball (0 : R_UniformSpace) eps x) by (change (Rabs (x - 0) < eps); rewrite Rabs_right; lra). specialize (He B). change (Rabs (g x - g 0) < g 0 / 2) in He. apply Rabs_def2 in He. lra.
  - apply RInt_ge_0; [lra|apply exi; apply Cg|intros; apply Ng].
Qed.

(** ** The two kernels K / sqrt D and E / sqrt D of a ring of radius a, for any real a *)
Definition rD (a R z : RR) : RR := (R + a) ^ 2 + z ^ 2.
Definition rd (a R z : RR) : RR := (R - a) ^ 2 + z ^ 2.
Definition mm (a R z : RR) : RR := 4 * R * a / rD a R z.
Definition kk (a R z : RR) : RR := ellipk (mm a R z) / sqrt (rD a R z).
Definition hh (a R z : RR) : RR := ellipe (mm a R z) / sqrt (rD a R z).
Section Kernel.
  Variables a R z : RR.
  Hypotheses (HR : 0 < R) (Hd : 0 < rd a R z) (HD : 0 < rD a R z).
  Lemma one_mm : 1 - mm a R z = rd a R z / rD a R z.
  Proof using HD. unfold mm. apply (Rmult_eq_reg_r (rD a R z)); [|lra]. replace ((1 - 4 * R * a / rD a R z) * rD a R z) with (rD a R z - 4 * R * a) by (field; lra). replace (rd a R z / rD a R z * rD a R z) with (rd a R z) by (field; lra). unfold rD, rd. ring. Qed.
  Lemma mm_lt1 : mm a R z < 1.
  Proof using Hd HD. pose proof one_mm. assert (0 < rd a R z / rD a R z) by (apply Rdiv_lt_0_compat; assumption). lra. Qed.
  Lemma mm_ne : a <> 0 -> mm a R z <> 0.
  Proof using HR HD. intros N. unfold mm. apply Rmult_integral_contrapositive_currified; [|apply Rinv_neq_0_compat; lra]. apply Rmult_integral_contrapositive_currified; [lra|exact N]. Qed.
  Lemma d_mR : is_derive (fun R => mm a R z) R (4 * a * (a ^ 2 + z ^ 2 - R ^ 2) / rD a R z ^ 2).
  Proof using HD. unfold mm, rD in *. auto_derive; [simpl in *; lra|]. rr. field. simpl in *. lra. Qed.
  Lemma d_mz : is_derive (fun z => mm a R z) z (- 8 * a * R * z / rD a R z ^ 2).
  Proof using HD. unfold mm, rD in *. auto_derive; [simpl in *; lra|]. rr. field. simpl in *. lra. Qed.
  Lemma d_sR : is_derive (fun R => sqrt (rD a R z)) R ((R + a) / sqrt (rD a R z)).
  Proof using HD. assert (D : is_derive (fun R => rD a R z) R (2 * (R + a))) by (unfold rD; auto_derive; [exact I|rr; ring]). pose proof (sqrt_lt_R0 _ HD). refine (is_derive_eq _ _ _ _ (is_derive_sqrt _ R _ D HD) _). rr. field. lra. Qed.
  Lemma d_sz : is_derive (fun z => sqrt (rD a R z)) z (z / sqrt (rD a R z)).
  Proof using HD. assert (D : is_derive (fun z => rD a R z) z (2 * z)) by (unfold rD; auto_derive; [exact I|rr; ring]). pose proof (sqrt_lt_R0 _ HD). refine (is_derive_eq _ _ _ _ (is_derive_sqrt _ z _ D HD) _). rr. field. lra. Qed.
  Lemma d_kR : a <> 0 -> is_derive (fun R => kk a R z) R (- ((R ^ 2 - a ^ 2 - z ^ 2) / rd a R z * hh a R z + kk a R z) / (2 * R)).
  Proof using HR Hd HD.
    assert (S0 : 0 < sqrt (rD a R z)) by (apply sqrt_lt_R0; exact HD). assert (SS : sqrt (rD a R z) ^ 2 = rD a R z) by (apply pow2_sqrt; lra). intros N. pose proof mm_lt1 as M1. pose proof (mm_ne N) as M0. pose proof (is_derive_Rchain ellipk (fun R => mm a R z) R _ _ (d_K _ M1 M0) d_mR) as C.
    refine (is_derive_eq _ _ _ _ (is_derive_div _ _ R _ _ C d_sR ltac:(lra)) _). rr. unfold kk, hh. rewrite one_mm. set (Ee := ellipe _). set (Kk := ellipk _). clearbody Ee Kk. unfold mm. set (s := sqrt (rD a R z)) in *. clearbody s.
    rewrite <- SS. rewrite <- SS in HD. clear C M1 M0. assert (Q : s ^ 2 = (R + a) ^ 2 + z ^ 2) by exact SS. assert (Q2 : rd a R z = s ^ 2 - 4 * R * a) by (rewrite Q; unfold rd; ring). rewrite Q2 in *.
    assert (Z : z ^ 2 = s ^ 2 - (R + a) ^ 2) by lra. rewrite Z. field. repeat split; try lra; try exact N.
  Qed.
  Lemma d_kz : a <> 0 -> is_derive (fun z => kk a R z) z (- z / rd a R z * hh a R z).
  Proof using HR Hd HD.
    assert (S0 : 0 < sqrt (rD a R z)) by (apply sqrt_lt_R0; exact HD). assert (SS : sqrt (rD a R z) ^ 2 = rD a R z) by (apply pow2_sqrt; lra). intros N. pose proof mm_lt1 as M1. pose proof (mm_ne N) as M0. pose proof (is_derive_Rchain ellipk (fun z => mm a R z) z _ _ (d_K _ M1 M0) d_mz) as C.
    refine (is_derive_eq _ _ _ _ (is_derive_div _ _ z _ _ C d_sz ltac:(lra)) _). rr. unfold kk, hh. rewrite one_mm. set (Ee := ellipe _). set (Kk := ellipk _). clearbody Ee Kk. unfold mm. set (s := sqrt (rD a R z)) in *. clearbody s.
    rewrite <- SS. rewrite <- SS in HD. field. repeat split; try lra; try exact N.
  Qed.
  Lemma d_hR : a <> 0 -> is_derive (fun R => hh a R z) R ((hh a R z - kk a R z) * (a ^ 2 + z ^ 2 - R ^ 2) / (2 * R * rD a R z) - hh a R z * (R + a) / rD a R z).
  Proof using HR Hd HD.
    assert (S0 : 0 < sqrt (rD a R z)) by (apply sqrt_lt_R0; exact HD). assert (SS : sqrt (rD a R z) ^ 2 = rD a R z) by (apply pow2_sqrt; lra). intros N. pose proof mm_lt1 as M1. pose proof (mm_ne N) as M0. pose proof (is_derive_Rchain ellipe (fun R => mm a R z) R _ _ (d_E _ M1 M0) d_mR) as C.
    refine (is_derive_eq _ _ _ _ (is_derive_div _ _ R _ _ C d_sR ltac:(lra)) _). rr. unfold kk, hh. set (Ee := ellipe _). set (Kk := ellipk _). clearbody Ee Kk. unfold mm. set (s := sqrt (rD a R z)) in *. clearbody s.
    rewrite <- SS. rewrite <- SS in HD. field. repeat split; try lra; try exact N.
  Qed.
  Lemma d_hz : a <> 0 -> is_derive (fun z => hh a R z) z (- z * (2 * hh a R z - kk a R z) / rD a R z).
  Proof using HR Hd HD.
    assert (S0 : 0 < sqrt (rD a R z)) by (apply sqrt_lt_R0; exact HD). assert (SS : sqrt (rD a R z) ^ 2 = rD a R z) by (apply pow2_sqrt; lra). intros N. pose proof mm_lt1 as M1. pose proof (mm_ne N) as M0. pose proof (is_derive_Rchain ellipe (fun z => mm a R z) z _ _ (d_E _ M1 M0) d_mz) as C.
    refine (is_derive_eq _ _ _ _ (is_derive_div _ _ z _ _ C d_sz ltac:(lra)) _). rr. unfold kk, hh. set (Ee := ellipe _). set (Kk := ellipk _). clearbody Ee Kk. unfold mm. set (s := sqrt (rD a R z)) in *. clearbody s.
    rewrite <- SS. rewrite <- SS in HD. field. repeat split; try lra; try exact N.
  Qed.
End Kernel.
(** First and second derivatives of K / sqrt D, as combinations of the two kernels *)
Definition kR (a R z : RR) : RR := - ((R ^ 2 - a ^ 2 - z ^ 2) / rd a R z * hh a R z + kk a R z) / (2 * R).
Definition kz (a R z : RR) : RR := - z / rd a R z * hh a R z.
Definition kz2 (a R z : RR) : RR := - hh a R z / rd a R z + 2 * z ^ 2 * hh a R z / rd a R z ^ 2 + z ^ 2 * (2 * hh a R z - kk a R z) / (rd a R z * rD a R z).
Definition kR2 (a R z : RR) : RR := - kR a R z / R - kz2 a R z.
Definition kRz (a R z : RR) : RR := - z * (((hh a R z - kk a R z) * (a ^ 2 + z ^ 2 - R ^ 2) / (2 * R * rD a R z) - hh a R z * (R + a) / rD a R z) / rd a R z - 2 * (R - a) * hh a R z / rd a R z ^ 2).
Section Second.
  Variables a R z : RR.
  Hypotheses (HR : 0 < R) (Hd : 0 < rd a R z) (HD : 0 < rD a R z) (N : a <> 0).
  Lemma d_rdR : is_derive (fun R => rd a R z) R (2 * (R - a)). Proof. unfold rd. auto_derive; [exact I|rr; ring]. Qed.
  Lemma d_rdz : is_derive (fun z => rd a R z) z (2 * z). Proof. unfold rd. auto_derive; [exact I|rr; ring]. Qed.
  Lemma d_kzz : is_derive (fun z => kz a R z) z (kz2 a R z).
  Proof using HR Hd HD N.
    pose proof (d_hz a R z HR Hd HD N) as H. pose proof d_rdz as D.
    assert (Q : is_derive (fun z => - z / rd a R z) z (- / rd a R z + z * (2 * z) / rd a R z ^ 2)).
    { assert (I0 : is_derive (fun z : RR => - z) z (- 1)) by (auto_derive; [exact I|rr; ring]). refine (is_derive_eq _ _ _ _ (is_derive_div _ _ z _ _ I0 D ltac:(lra)) _). rr. field. lra. }
    refine (is_derive_eq _ _ _ _ (is_derive_Rmult _ _ z _ _ Q H) _). rr. unfold kz2. field. split; lra.
  Qed.
  Lemma d_kzR : is_derive (fun R => kz a R z) R (kRz a R z).
  Proof using HR Hd HD N.
    pose proof (d_hR a R z HR Hd HD N) as H. pose proof d_rdR as D.
    assert (Q : is_derive (fun R => - z / rd a R z) R (z * (2 * (R - a)) / rd a R z ^ 2)).
    { refine (is_derive_eq _ _ _ _ (is_derive_div _ _ R _ _ (is_derive_cst (- z) R) D ltac:(lra)) _). rr. field. lra. }
    refine (is_derive_eq _ _ _ _ (is_derive_Rmult _ _ R _ _ Q H) _). rr. unfold kRz. field. repeat split; lra.
  Qed.
  Lemma d_kRz' : is_derive (fun z => kR a R z) z (kRz a R z).
  Proof using HR Hd HD N.
    pose proof (d_hz a R z HR Hd HD N) as H. pose proof (d_kz a R z HR Hd HD N) as K. pose proof d_rdz as D.
    assert (Q : is_derive (fun z => (R ^ 2 - a ^ 2 - z ^ 2) / rd a R z) z ((- 2 * z) / rd a R z - (R ^ 2 - a ^ 2 - z ^ 2) * (2 * z) / rd a R z ^ 2)).
    { assert (I0 : is_derive (fun z : RR => R ^ 2 - a ^ 2 - z ^ 2) z (- 2 * z)) by (auto_derive; [exact I|rr; ring]). refine (is_derive_eq _ _ _ _ (is_derive_div _ _ z _ _ I0 D ltac:(lra)) _). rr. field. lra. }
    pose proof (is_derive_Rplus _ _ z _ _ (is_derive_Rmult _ _ z _ _ Q H) K) as T. pose proof (is_derive_Rscal _ z (- / (2 * R)) _ T) as U.
    apply (is_derive_ext (fun z => - / (2 * R) * ((R ^ 2 - a ^ 2 - z ^ 2) / rd a R z * hh a R z + kk a R z))); [intros t; unfold kR; rr; unfold Rdiv; ring|].
    refine (is_derive_eq _ _ _ _ U _). rr. unfold kRz. set (h := hh a R z). set (k := kk a R z). clearbody h k. unfold rd, rD in *. field. repeat split; lra.
  Qed.
  Lemma d_kRR : is_derive (fun R => kR a R z) R (kR2 a R z).
  Proof using HR Hd HD N.
    pose proof (d_hR a R z HR Hd HD N) as H. pose proof (d_kR a R z HR Hd HD N) as K. pose proof d_rdR as D.
    assert (Q : is_derive (fun R => (R ^ 2 - a ^ 2 - z ^ 2) / rd a R z) R ((2 * R) / rd a R z - (R ^ 2 - a ^ 2 - z ^ 2) * (2 * (R - a)) / rd a R z ^ 2)).
    { assert (I0 : is_derive (fun R : RR => R ^ 2 - a ^ 2 - z ^ 2) R (2 * R)) by (auto_derive; [exact I|rr; ring]). refine (is_derive_eq _ _ _ _ (is_derive_div _ _ R _ _ I0 D ltac:(lra)) _). rr. field. lra. }
    pose proof (is_derive_Rplus _ _ R _ _ (is_derive_Rmult _ _ R _ _ Q H) K) as T.
    assert (I1 : is_derive (fun R : RR => - / (2 * R)) R (/ (2 * R ^ 2))) by (auto_derive; [lra|rr; field; lra]). pose proof (is_derive_Rmult _ _ R _ _ I1 T) as U.
    apply (is_derive_ext (fun R => - / (2 * R) * ((R ^ 2 - a ^ 2 - z ^ 2) / rd a R z * hh a R z + kk a R z))); [intros t; unfold kR; rr; unfold Rdiv; ring|].
    refine (is_derive_eq _ _ _ _ U _). rr. unfold kR2, kz2, kR. set (h := hh a R z). set (k := kk a R z). clearbody h k. unfold rd, rD in *. field. repeat split; lra.
  Qed.
End Second.

(** ** The ring's formulas *)
Section RingEq.
  Variables a R z : RR.
  Hypotheses (Ha : 0 < a) (HR : 0 < R) (Hd : 0 < rd a R z).
  Lemma rD_p : 0 < rD a R z. Proof using Ha HR. unfold rD. pose proof (pow2_ge_0 z). assert (0 < (R + a) ^ 2) by (apply pow_lt; lra). lra. Qed.
  Lemma ring_m_eq : 4 * a / ((sqrt R + a / sqrt R) ^ 2 + z ^ 2 / R) = mm a R z.
  Proof using Ha HR.
    pose proof rD_p as P. pose proof (sqrt_lt_R0 _ HR) as S. assert (Q : sqrt R ^ 2 = R) by (apply pow2_sqrt; lra).
    assert (X : (sqrt R + a / sqrt R) ^ 2 + z ^ 2 / R = rD a R z / R). { unfold rD. set (s := sqrt R) in *. clearbody s. rewrite <- Q. field. lra. }
    rewrite X. unfold mm. field. split; lra.
  Qed.
  Lemma ring_ev_eq : ring_ev a R z = - 4 * a * kk a R z.
  Proof using Ha HR. unfold ring_ev. cbv zeta. rewrite ring_m_eq. unfold kk. change (raz2 a R z) with (rD a R z). unfold Rdiv. ring. Qed.
  Lemma ring_Rf_eq : ring_Rf a R z = 4 * a * kR a R z.
  Proof using Ha HR Hd.
    pose proof rD_p as P. pose proof (sqrt_lt_R0 _ P) as S. unfold ring_Rf. cbv zeta. change (raz2 a R z) with (rD a R z). change (rm a R z) with (mm a R z). rewrite (one_mm a R z P). unfold kR, hh, kk, a2. set (Ee := ellipe _). set (Kk := ellipk _). clearbody Ee Kk. unfold mm.
    set (s := sqrt _) in *. clearbody s. field. repeat split; lra.
  Qed.
  Lemma r15 : rpow (rD a R z) (- (3 / 2)) = / (rD a R z * sqrt (rD a R z)).
  Proof using Ha HR. pose proof rD_p as P. rewrite rpow_opp, rpow_3_2 by exact P. f_equal. replace (sqrt (rD a R z) ^ 3) with (sqrt (rD a R z) ^ 2 * sqrt (rD a R z)) by ring. rewrite pow2_sqrt by lra. reflexivity. Qed.
  Lemma ring_zf_eq : ring_zf a R z = 4 * a * kz a R z.
  Proof using Ha HR Hd.
    pose proof rD_p as P. pose proof (sqrt_lt_R0 _ P) as S. unfold ring_zf. cbv zeta. change (raz2 a R z) with (rD a R z). change (rm a R z) with (mm a R z). rewrite (one_mm a R z P), r15. unfold kz, hh. set (Ee := ellipe _). clearbody Ee.
    set (s := sqrt _) in *. clearbody s. field. repeat split; lra.
  Qed.
  Lemma ring_z2_eq : ring_z2 a R z = - 4 * a * kz2 a R z.
  Proof using Ha HR Hd.
    pose proof rD_p as P. pose proof (sqrt_lt_R0 _ P) as S. pose proof (E_pos _ (mm_lt1 a R z Hd P)) as E0. unfold ring_z2. cbv zeta. change (raz2 a R z) with (rD a R z). change (rm a R z) with (mm a R z). rewrite (one_mm a R z P), r15. unfold kz2, hh, kk. set (Ee := ellipe _) in *. set (Kk := ellipk _). clearbody Ee Kk. unfold mm.
    set (s := sqrt _) in *. clearbody s. assert (Q : rd a R z = rD a R z - 4 * R * a) by (unfold rd, rD; ring). rewrite Q in *. set (DD := rD a R z) in *. clearbody DD. field. repeat split; lra.
  Qed.
  Lemma ring_Rz_eq : ring_Rz a R z = - 4 * a * kRz a R z.
  Proof using Ha HR Hd.
    pose proof rD_p as P. pose proof (sqrt_lt_R0 _ P) as S. pose proof (E_pos _ (mm_lt1 a R z Hd P)) as E0. unfold ring_Rz. cbv zeta. rewrite ring_zf_eq. change (raz2 a R z) with (rD a R z). change (rm a R z) with (mm a R z). rewrite (one_mm a R z P). unfold kRz, kz, hh, kk, a2. set (Ee := ellipe _) in *. set (Kk := ellipk _). clearbody Ee Kk. unfold mm.
    set (s := sqrt _) in *. clearbody s. unfold rd, rD in *. field. repeat split; lra.
  Qed.
  Lemma ring_R2_eq : ring_R2 a R z = - 4 * a * kR2 a R z.
  Proof using Ha HR Hd.
    pose proof rD_p as P. pose proof (sqrt_lt_R0 _ P) as S. unfold ring_R2. cbv zeta. rewrite ring_Rf_eq. change (raz2 a R z) with (rD a R z). change (rm a R z) with (mm a R z). rewrite (one_mm a R z P). unfold kR2, kR, kz2, hh, kk, a2. set (Ee := ellipe _) in *. set (Kk := ellipk _). clearbody Ee Kk. unfold mm.
    set (s := sqrt _) in *. clearbody s. unfold rd, rD in *. field. repeat split; lra.
  Qed.
End RingEq.
