(** The profiles the dictionaries stand for: their derivatives, second antiderivatives and columns. *)
From Coq Require Import Reals Lra Psatz List Bool String.
From Coquelicot Require Import Coquelicot.
From Verif.Lib Require Import RealAux.
From Verif.Model Require Import PotAPI DiskExpansion.
From Verif.Spec Require Import DiskExpSpec.
From Verif.Proofs Require Import ArsMass.
Import ListNotations.
Open Scope R_scope.
Notation RR := RbaseSymbolsImpl.R (only parsing).
Ltac rr := match goal with |- ?a = ?b => change (@eq RR a b) end.

Lemma glue (f g1 g2 : RR -> RR) l : is_derive g1 0 l -> is_derive g2 0 l -> (forall x, 0 <= x -> f x = g1 x) -> (forall x, x <= 0 -> f x = g2 x) -> is_derive f 0 l.
Proof.
  intros D1 D2 E1 E2. apply is_derive_Reals in D1. apply is_derive_Reals in D2. apply is_derive_Reals. intros e He. destruct (D1 e He) as [d1 H1]. destruct (D2 e He) as [d2 H2].
  assert (P : 0 < Rmin d1 d2) by (apply Rmin_glb_lt; apply cond_pos). exists (mkposreal _ P). intros h Hh Hd. simpl in Hd. pose proof (Rmin_l d1 d2). pose proof (Rmin_r d1 d2).
  destruct (Rle_dec 0 h) as [L|L].
  - rewrite (E1 0), (E1 (0 + h)) by lra. apply H1; [exact Hh|lra].
  - rewrite (E2 0), (E2 (0 + h)) by lra. apply H2; [exact Hh|lra].
Qed.
Lemma sgn_pos x : 0 < x -> sgn x = 1. Proof. intros H. unfold sgn. destruct (Rlt_dec x 0); [lra|]. destruct (Rlt_dec 0 x); [reflexivity|lra]. Qed.
Lemma sgn_neg x : x < 0 -> sgn x = -1. Proof. intros H. unfold sgn. destruct (Rlt_dec x 0); [reflexivity|lra]. Qed.
Lemma sgn_0 : sgn 0 = 0. Proof. unfold sgn. destruct (Rlt_dec 0 0); [lra|reflexivity]. Qed.
Lemma halves (f g1 g2 d : RR -> RR) : (forall x, 0 <= x -> f x = g1 x /\ is_derive g1 x (d x)) -> (forall x, x <= 0 -> f x = g2 x /\ is_derive g2 x (d x)) -> forall x, is_derive f x (d x).
Proof.
  intros P N x. destruct (Rtotal_order x 0) as [H | [-> | H] ].
  - apply is_derive_ext_loc with g2; [|apply N; lra]. apply filter_imp with (2 := locally_lt 0 x H). intros y Hy. symmetry. apply N. lra.
  - apply (glue f g1 g2); [apply P; lra|apply N; lra|intros y Hy; apply P; exact Hy|intros y Hy; apply N; exact Hy].
  - apply is_derive_ext_loc with g1; [|apply P; lra]. apply filter_imp with (2 := locally_gt 0 x H). intros y Hy. symmetry. apply P. lra.
Qed.
(** ** Surface densities *)
Lemma exp_surface l : l <> 0 -> surface_ok (fun R => exp (- R / l)) (fun R => - exp (- R / l) / l) (fun R => exp (- R / l) / l ^ 2).
Proof. intros H r _. split; (auto_derive; [auto|]; rr; unfold Rdiv; field; exact H). Qed.
Lemma hole_surface m l : l <> 0 -> surface_ok (fun R => exp (- m / R - R / l)) (fun R => (m / R ^ 2 - 1 / l) * exp (- m / R - R / l)) (fun R => ((m / R ^ 2 - 1 / l) ^ 2 - 2 * m / R ^ 3) * exp (- m / R - R / l)).
Proof.
  intros H r Hr. split.
  - auto_derive; [lra|]. rr. unfold Rdiv, Rminus. field. split; lra.
  - auto_derive; [repeat split; try lra; apply Rmult_integral_contrapositive_currified; lra|].
    rr. unfold Rdiv, Rminus. field. split; lra.
Qed.
(** ** Vertical profiles *)
Lemma exp_vertical l : 0 < l -> vertical_ok (fun z => 1 / 2 / l * exp (- Rabs z / l)) (fun z => (exp (- Rabs z / l) - 1 + Rabs z / l) * l / 2) (fun z => 1 / 2 * sgn z * (1 - exp (- Rabs z / l))).
Proof.
  intros Hl. split; [rewrite Rabs_R0; replace (- 0 / l) with 0 by (field; lra); rewrite exp_0; field; lra|]. split; [rewrite sgn_0; ring|]. intros z. split; revert z.
  - apply (halves _ (fun z => (exp (- z / l) - 1 + z / l) * l / 2) (fun z => (exp (z / l) - 1 - z / l) * l / 2)).
    + intros x Hx. rewrite Rabs_pos_eq by exact Hx. split; [reflexivity|]. eapply is_derive_eq; [auto_derive; [exact I|reflexivity]|]. rr. destruct Hx as [Hx | <- ]; [rewrite sgn_pos by exact Hx|rewrite sgn_0; replace (- 0 / l) with 0 by (field; lra); rewrite ?Ropp_0, ?Rmult_0_l, exp_0]; unfold Rdiv; field; lra.
    + intros x Hx. assert (A : Rabs x = - x) by (rewrite <- Rabs_Ropp; apply Rabs_pos_eq; lra). rewrite A, Ropp_involutive. split; [field; lra|]. eapply is_derive_eq; [auto_derive; [exact I|reflexivity]|]. rr. destruct Hx as [Hx | -> ]; [rewrite sgn_neg by exact Hx|rewrite sgn_0; replace (0 / l) with 0 by (field; lra); rewrite ?Rmult_0_l, exp_0]; unfold Rdiv; field; lra.
  - apply (halves _ (fun z => 1 / 2 * (1 - exp (- z / l))) (fun z => 1 / 2 * (exp (z / l) - 1))).
    + intros x Hx. rewrite Rabs_pos_eq by exact Hx. split; [destruct Hx as [Hx | <- ]; [rewrite sgn_pos by exact Hx|rewrite sgn_0; replace (- 0 / l) with 0 by (field; lra); rewrite exp_0]; ring|]. eapply is_derive_eq; [auto_derive; [exact I|reflexivity]|]. rr. unfold Rdiv. field. lra.
    + intros x Hx. assert (A : Rabs x = - x) by (rewrite <- Rabs_Ropp; apply Rabs_pos_eq; lra). rewrite A, Ropp_involutive. split; [destruct Hx as [Hx | -> ]; [rewrite sgn_neg by exact Hx|rewrite sgn_0; replace (0 / l) with 0 by (field; lra); rewrite exp_0]; ring|]. eapply is_derive_eq; [auto_derive; [exact I|reflexivity]|]. rr. unfold Rdiv. field. lra.
Qed.
Lemma lse2 x y : logsumexp [x; y] = ln (exp x + exp y). Proof. unfold logsumexp. simpl. f_equal. ring. Qed.
Lemma cosh_pos x : 0 < cosh x. Proof. unfold cosh. pose proof (exp_pos x). pose proof (exp_pos (- x)). lra. Qed.
Lemma lse_cosh x y : y = - x -> logsumexp [x; y] = ln (2 * cosh x). Proof. intros ->. rewrite lse2. f_equal. unfold cosh. field. Qed.
Lemma sech2_h l z : 0 < l -> exp (- logsumexp [z / l; - z / l; ln 2 * 1]) / l = (1 / cosh (z / (2 * l))) ^ 2 / (4 * l).
Proof.
  intros Hl. unfold logsumexp. simpl. rewrite Rmult_1_r, exp_ln by lra.
  assert (E : exp (z / l) + (exp (- z / l) + (2 + 0)) = 4 * cosh (z / (2 * l)) ^ 2).
  { unfold cosh. set (u := z / (2 * l)). replace (z / l) with (u + u) by (unfold u; field; lra). replace (- z / l) with (- u + - u) by (unfold u; field; lra). rewrite !exp_plus. assert (X : exp u * exp (- u) = 1) by (rewrite <- exp_plus, Rplus_opp_r; apply exp_0). nra. }
  rewrite E, exp_Ropp. pose proof (cosh_pos (z / (2 * l))) as P. rewrite exp_ln; [field; lra|]. apply Rmult_lt_0_compat; [lra|]. apply pow_lt. exact P.
Qed.
Lemma sech2_H l z : l <> 0 -> l * (logsumexp [z / 2 / l; - z / 2 / l] - ln 2) = l * ln (cosh (z / (2 * l))).
Proof. intros Hl. rewrite (lse_cosh (z / 2 / l)) by (field; exact Hl). rewrite ln_mult; [|lra|apply cosh_pos]. replace (z / 2 / l) with (z / (2 * l)) by (field; exact Hl). ring. Qed.
Lemma d_cosh x : is_derive cosh x (sinh x). Proof. apply is_derive_Reals. exact (derivable_pt_lim_cosh x). Qed.
Lemma d_sinh x : is_derive sinh x (cosh x). Proof. apply is_derive_Reals. exact (derivable_pt_lim_sinh x). Qed.
Lemma d_half l z : l <> 0 -> is_derive (fun x => x / (2 * l)) z (/ (2 * l)).
Proof. intros H. auto_derive; [exact I|]. field. exact H. Qed.
Lemma cosh2 x : cosh x ^ 2 = 1 + sinh x ^ 2.
Proof. unfold cosh, sinh. assert (X : exp x * exp (- x) = 1) by (rewrite <- exp_plus, Rplus_opp_r; apply exp_0). nra. Qed.
Lemma sech2_vertical l : 0 < l -> vertical_ok (fun z => exp (- logsumexp [z / l; - z / l; ln 2 * 1]) / l) (fun z => l * (logsumexp [z / 2 / l; - z / 2 / l] - ln 2)) (fun z => tanh (z / 2 / l) / 2).
Proof.
  intros Hl. assert (N : l <> 0) by lra. split; [rewrite sech2_H by exact N; replace (0 / (2 * l)) with 0 by (field; lra); rewrite cosh_0, ln_1; ring|]. split; [replace (0 / 2 / l) with 0 by (field; lra); unfold tanh; rewrite sinh_0; field; rewrite cosh_0; lra|].
  intros z. pose proof (cosh_pos (z / (2 * l))) as P. split.
  - apply is_derive_ext with (f := fun z => l * ln (cosh (z / (2 * l)))); [intros x; symmetry; apply sech2_H; exact N|].
    eapply is_derive_eq; [apply is_derive_Rscal; exact (is_derive_Rchain ln (fun x => cosh (x / (2 * l))) z (/ cosh (z / (2 * l))) _ (is_derive_ln _ P) (is_derive_Rchain cosh (fun x => x / (2 * l)) z _ _ (d_cosh _) (d_half l z N)))|].
    rr. unfold tanh. replace (z / 2 / l) with (z / (2 * l)) by (field; exact N). field. split; lra.
  - rewrite sech2_h by exact Hl. apply is_derive_ext with (f := fun z => / 2 * (sinh (z / (2 * l)) / cosh (z / (2 * l)))); [intros x; unfold tanh; replace (x / 2 / l) with (x / (2 * l)) by (field; exact N); rr; field; apply Rgt_not_eq, cosh_pos|].
    eapply is_derive_eq; [apply is_derive_Rscal; apply (is_derive_div (fun x => sinh (x / (2 * l))) (fun x => cosh (x / (2 * l))) z); [exact (is_derive_Rchain sinh (fun x => x / (2 * l)) z _ _ (d_sinh _) (d_half l z N))|exact (is_derive_Rchain cosh (fun x => x / (2 * l)) z _ _ (d_cosh _) (d_half l z N))|lra]|].
    cbv beta. rr. set (c := cosh (z / (2 * l))) in *. set (s := sinh (z / (2 * l))). assert (Q : c ^ 2 = 1 + s ^ 2) by apply cosh2. clearbody c s. apply Rmult_eq_reg_r with (c ^ 2 * (4 * l)); [|apply Rgt_not_eq; apply Rmult_lt_0_compat; [apply pow_lt; exact P|lra]]. field_simplify; [|lra|lra]. nra.
Qed.
(** ** Columns *)
Lemma column (h F : RR -> RR) : (forall z, is_derive F z (h z)) -> (forall z, continuous h z) -> filterlim F (Rbar_locally m_infty) (locally (- / 2)) -> filterlim F (Rbar_locally p_infty) (locally (/ 2)) -> unit_column h.
Proof.
  intros D C L1 L2 P HP.
  assert (Q : filterlim (fun ab => minus (F (snd ab)) (F (fst ab))) (filter_prod (Rbar_locally m_infty) (Rbar_locally p_infty)) (locally (1 : RR))).
  { replace (1 : RR) with (minus (/ 2) (- / 2)) by (unfold minus, plus, opp; cbn; rr; field).
    apply (filterlim_comp_2 (G := locally (/ 2)) (H := locally (opp (- / 2))) (fun ab : RR * RR => F (snd ab)) (fun ab : RR * RR => opp (F (fst ab))) plus).
    - apply (filterlim_comp _ _ _ snd F _ (Rbar_locally p_infty)); [apply filterlim_snd|exact L2].
    - apply (filterlim_comp _ _ _ (fun ab : RR * RR => F (fst ab)) opp _ (locally (- / 2))); [apply (filterlim_comp _ _ _ fst F _ (Rbar_locally m_infty)); [apply filterlim_fst|exact L1]|apply (filterlim_opp (V := R_NormedModule))].
    - apply (filterlim_plus (V := R_NormedModule)). }
  specialize (Q P HP). unfold filtermapi. unfold filtermap in Q. apply filter_imp with (2 := Q). intros [a b] HQ. exists (F b - F a). split; [|exact HQ]. apply (is_RInt_derive (V := R_CompleteNormedModule) F h); intros x _; [apply D|apply C].
Qed.
Lemma through (w F G : RR -> RR) (Fl : (RR -> Prop) -> Prop) l : Filter Fl -> filterlim w Fl (locally 0) -> continuous G 0 -> G 0 = l -> Fl (fun x => F x = G (w x)) -> filterlim F Fl (locally l).
Proof.
  intros HF L C <- E. apply filterlim_ext_loc with (f := fun x => G (w x)); [apply filter_imp with (2 := E); intros x Hx; symmetry; exact Hx|]. apply (filterlim_comp _ _ _ w G _ (locally 0)); [exact L|exact C].
Qed.
Lemma inf_gt0 : Rbar_locally p_infty (fun x => 0 < x). Proof. exists 0. auto. Qed.
Lemma minf_lt0 : Rbar_locally m_infty (fun x => x < 0). Proof. exists 0. auto. Qed.
Lemma w_right l : 0 < l -> filterlim (fun x => exp (- x / l)) (Rbar_locally p_infty) (locally 0).
Proof. intros H. apply (filterlim_ext (fun x => exp (- / l * x + 0))); [intros x; f_equal; rr; field; lra|]. apply lim_exp_right. pose proof (Rinv_0_lt_compat l H). lra. Qed.
Lemma w_left l : 0 < l -> filterlim (fun x => exp (x / l)) (Rbar_locally m_infty) (locally 0).
Proof. intros H. apply (filterlim_ext (fun x => exp (/ l * x + 0))); [intros x; f_equal; rr; field; lra|]. apply lim_exp_left. apply Rinv_0_lt_compat. exact H. Qed.
Lemma exp_column l : 0 < l -> unit_column (fun z => 1 / 2 / l * exp (- Rabs z / l)).
Proof.
  intros H. destruct (exp_vertical l H) as (_ & _ & V). apply (column _ (fun z => 1 / 2 * sgn z * (1 - exp (- Rabs z / l)))).
  - intros z. apply V.
  - intros z. apply (continuous_comp Rabs (fun y => 1 / 2 / l * exp (- y / l))); [apply continuous_Rabs|]. apply (ex_derive_continuous (V := R_NormedModule)). auto_derive. exact I.
  - apply (through (fun x => exp (x / l)) _ (fun w => 1 / 2 * (w - 1))); [apply Rbar_locally_filter|apply w_left; exact H|apply (ex_derive_continuous (V := R_NormedModule)); auto_derive; exact I|field|].
    apply filter_imp with (2 := minf_lt0). intros x Hx. rewrite sgn_neg, Rabs_left by exact Hx. rewrite Ropp_involutive. ring.
  - apply (through (fun x => exp (- x / l)) _ (fun w => 1 / 2 * (1 - w))); [apply Rbar_locally_filter|apply w_right; exact H|apply (ex_derive_continuous (V := R_NormedModule)); auto_derive; exact I|field|].
    apply filter_imp with (2 := inf_gt0). intros x Hx. rewrite sgn_pos, Rabs_pos_eq by lra. ring.
Qed.
Lemma tanh_exp u w : w = exp (- (2 * u)) -> tanh u = (1 - w) / (1 + w).
Proof.
  intros ->. unfold tanh, sinh, cosh. pose proof (exp_pos u). replace (- (2 * u)) with (- u + - u) by ring. rewrite exp_plus, exp_Ropp. field. repeat split; nra.
Qed.
Lemma tanh_odd u : tanh (- u) = - tanh u. Proof. unfold tanh, sinh, cosh. rewrite Ropp_involutive. pose proof (exp_pos u). pose proof (exp_pos (- u)). field. lra. Qed.
Lemma sech2_column l : 0 < l -> unit_column (fun z => exp (- logsumexp [z / l; - z / l; ln 2 * 1]) / l).
Proof.
  intros H. destruct (sech2_vertical l H) as (_ & _ & V). apply (column _ (fun z => tanh (z / 2 / l) / 2)).
  - intros z. apply V.
  - intros z. apply (continuous_ext (fun z => (1 / cosh (z / (2 * l))) ^ 2 / (4 * l))); [intros x; symmetry; apply sech2_h; exact H|]. apply (ex_derive_continuous (V := R_NormedModule)).
    pose proof (cosh_pos (z / (2 * l))). assert (E : ex_derive cosh (z / (2 * l))) by (eexists; apply d_cosh). auto_derive. repeat split; try exact E; unfold Rdiv in *; lra.
  - apply (through (fun x => exp (x / l)) _ (fun w => - ((1 - w) / (1 + w)) / 2)); [apply Rbar_locally_filter|apply w_left; exact H|apply (ex_derive_continuous (V := R_NormedModule)); auto_derive; lra|field|].
    apply filter_forall. intros x. replace (x / 2 / l) with (- - (x / 2 / l)) by ring. rewrite tanh_odd. rewrite (tanh_exp (- (x / 2 / l)) (exp (x / l))); [field; pose proof (exp_pos (x / l)); lra|]. f_equal. field. lra.
  - apply (through (fun x => exp (- x / l)) _ (fun w => (1 - w) / (1 + w) / 2)); [apply Rbar_locally_filter|apply w_right; exact H|apply (ex_derive_continuous (V := R_NormedModule)); auto_derive; lra|field|].
    apply filter_forall. intros x. rewrite (tanh_exp (x / 2 / l) (exp (- x / l))); [reflexivity|]. f_equal. field. lra.
Qed.
