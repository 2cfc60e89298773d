(** Poisson's equation for the exact ellipsoidal potentials. *)
From Coq Require Import Reals Lra Psatz List.
From Coquelicot Require Import Coquelicot.
From Verif.Lib Require Import RealAux Vec3.
From Verif.Model Require Import PotAPI Coords PotEllipsoidal.
From Verif.Spec Require Import PotSpec PotApiSpec EllipsoidalSpec.
From Verif.Proofs Require Import PotLift NonAxiProofs EOMProofs StaeckelProofs KuzminKutuzovProofs SpiralProofs EllProofs EllLaws EllExact EllExactLaws EllCyl EllClass.
Import ListNotations.
Open Scope R_scope.
Notation RR := RbaseSymbolsImpl.R (only parsing).
Ltac rr := match goal with |- ?a = ?b => change (@eq RR a b) end.

(** The fundamental theorem with the derivative known inside the interval only. *)
Lemma int_from_inside (f G : RR -> RR) : (forall s, continuous f s) -> (forall s, continuous G s) -> (forall s, 0 < s < 1 -> is_derive G s (f s)) ->
  RInt f 0 1 = G 1 - G 0.
Proof.
  intros Cf CG D.
  assert (Df : forall t, is_derive (fun t => RInt f 0 t) t (f t)).
  { intros t. apply (is_derive_RInt (V := R_NormedModule) f (fun t => RInt f 0 t) 0 t); [|apply Cf]. apply filter_forall. intros x. apply (RInt_correct (V := R_CompleteNormedModule)).
    apply (ex_RInt_continuous (V := R_CompleteNormedModule)). intros; apply Cf. }
  destruct (MVT_gen (fun t => RInt f 0 t - G t) 0 1 (fun _ => 0)) as (k & _ & E0).
  - intros x Hx. rewrite Rmin_left, Rmax_right in Hx by lra. pose proof (Df x) as A. pose proof (D x Hx) as B.
    apply (is_derive_eq _ _ (f x - f x)); [|rr; ring]. apply (is_derive_minus (V := R_NormedModule) (fun t => RInt f 0 t) G); assumption.
  - intros x _. apply continuity_pt_filterlim. apply (@continuous_minus R_UniformSpace R_AbsRing R_NormedModule (fun t => RInt f 0 t) G); [|apply CG].
    apply (ex_derive_continuous (V := R_NormedModule)). eexists. apply Df.
  - pose proof (RInt_point 0 f : RInt f 0 0 = 0) as Z0. rewrite Z0 in E0. set (I1 := RInt f 0 1) in *. change (I1 - G 1 - (0 - G 0) = 0 * (1 - 0)) in E0.
    change (@eq RR I1 (G 1 - G 0)). revert E0. generalize (I1 : RR) (G 1 : RR) (G 0 : RR). clear. intros a b c E0. lra.
Qed.

Section Poisson.
  Variable e : Ell.
  Notation b := (e_b e).
  Notation c := (e_c e).
  Notation psi := (e_psi e).
  Notation dens := (e_mdens e).
  Notation deriv := (e_mderiv e).
  Hypothesis Hb : 0 < b.
  Hypothesis Hc : 0 < c.
  Hypothesis Hp : is_profile psi dens deriv.
  Hypothesis Hq : mild_cusp psi dens deriv.
  Hypothesis Hgl : e_gl e = None.
  Let Hd := proj1 Hq.
  Let H2 := proj1 (proj2 (proj2 Hq)).
  Let H3 := proj2 (proj2 (proj2 Hq)).
  Variables x y z : RR.
  Hypothesis Ho : off3 x y z.
  Definition tr (s : RR) : RR := x * x * Be e 1 1 x y z s + y * y * Be e b b x y z s + z * z * Be e c c x y z s + (Ae e 1 x y z s + Ae e b x y z s + Ae e c x y z s).
  Definition Gs (s : RR) : RR := clamp s * Ae e 1 x y z s.
  Notation wk k s := (1 + (k ^ 2 - 1) * s ^ 2).
  Lemma d_wk k s : is_derive (fun r => wk k r) s ((k ^ 2 - 1) * (2 * s)).
  Proof. auto_derive; [exact I|ring]. Qed.
  Lemma d_q k s : 0 < wk k s -> is_derive (fun r => r ^ 2 / wk k r) s (2 * s / wk k s ^ 2).
  Proof. intros W. auto_derive; [lra|]. field. lra. Qed.
  Lemma m_form s : 0 < s <= 1 -> ell_m e x y z s = sqrt (x ^ 2 * s ^ 2 + y ^ 2 * (s ^ 2 / wk b s) + z ^ 2 * (s ^ 2 / wk c s)).
  Proof. intros Hs. unfold ell_m. rewrite i1_eq, ib_eq, ic_eq by (assumption || lra). reflexivity. Qed.
  Lemma in_open s (P : RR -> Prop) : 0 < s < 1 -> (forall r, 0 < r < 1 -> P r) -> locally s P.
  Proof.
    intros Hs H. apply (filter_imp (fun r => 0 < r /\ r < 1)); [intros r Hr; apply H; lra|]. apply filter_and; [apply (open_gt 0); lra|apply (open_lt 1); lra].
  Qed.
  Lemma d_ms s : 0 < s < 1 -> is_derive (fun r => ell_m e x y z r) s (s * (x ^ 2 + y ^ 2 / wk b s ^ 2 + z ^ 2 / wk c s ^ 2) / ell_m e x y z s).
  Proof.
    intros Hs. apply (is_derive_ext_loc (fun s => sqrt (x ^ 2 * s ^ 2 + y ^ 2 * (s ^ 2 / wk b s) + z ^ 2 * (s ^ 2 / wk c s)))).
    { apply in_open; [exact Hs|]. intros r Hr. symmetry. apply m_form. lra. }
    rewrite m_form by lra. pose proof (one_pos b s Hb ltac:(lra)) as Wb. pose proof (one_pos c s Hc ltac:(lra)) as Wc.
    assert (P : 0 < x ^ 2 * s ^ 2 + y ^ 2 * (s ^ 2 / wk b s) + z ^ 2 * (s ^ 2 / wk c s)).
    { apply form_pos; [exact Ho|nra|apply Rdiv_lt_0_compat; [nra|exact Wb]|apply Rdiv_lt_0_compat; [nra|exact Wc]]. }
    pose proof (d_q b s Wb) as Qb. pose proof (d_q c s Wc) as Qc. assert (Q1 : is_derive (fun r : RR => r ^ 2) s (2 * s)) by (auto_derive; [exact I|ring]).
    assert (D0 : is_derive (fun s => x ^ 2 * s ^ 2 + y ^ 2 * (s ^ 2 / wk b s) + z ^ 2 * (s ^ 2 / wk c s)) s (2 * (s * (x ^ 2 + y ^ 2 / wk b s ^ 2 + z ^ 2 / wk c s ^ 2)))).
    { apply (is_derive_eq _ _ (x ^ 2 * (2 * s) + y ^ 2 * (2 * s / wk b s ^ 2) + z ^ 2 * (2 * s / wk c s ^ 2))); [|rr; unfold Rdiv; ring].
      apply (is_derive_plus (V := R_NormedModule)); [apply (is_derive_plus (V := R_NormedModule))|]; apply is_derive_scal; assumption. }
    refine (is_derive_eq _ _ _ _ _ _); [apply (d_sqrt _ _ _ P D0)|]. rr. pose proof (sqrt_lt_R0 _ P). cbv beta. field. repeat split; lra.
  Qed.
  Lemma d_den s : 0 < s < 1 -> is_derive (fun r => ell_denom e r) s (s * ((b ^ 2 - 1) * wk c s + (c ^ 2 - 1) * wk b s) / ell_denom e s).
  Proof.
    intros Hs. pose proof (one_pos b s Hb ltac:(lra)) as Wb. pose proof (one_pos c s Hc ltac:(lra)) as Wc. unfold ell_denom.
    assert (P : 0 < wk b s * wk c s) by (apply Rmult_lt_0_compat; assumption).
    assert (D0 : is_derive (fun s => wk b s * wk c s) s (2 * (s * ((b ^ 2 - 1) * wk c s + (c ^ 2 - 1) * wk b s)))) by (auto_derive; [exact I|rr; ring]).
    refine (is_derive_eq _ _ _ _ _ _); [apply (d_sqrt _ _ _ P D0)|]. rr. pose proof (sqrt_lt_R0 _ P). cbv beta. field. lra.
  Qed.
  Lemma Gs_d s : 0 < s < 1 -> is_derive Gs s (tr s).
  Proof.
    intros Hs. assert (Hs' : 0 < s <= 1) by lra. pose proof Rlt_0_1 as P1.
    apply (is_derive_ext_loc (fun s => s * (dens (ell_m e x y z s) * s ^ 2 / ell_denom e s))).
    { apply in_open; [exact Hs|]. intros r Hr. unfold Gs. rewrite clamp_id by lra. f_equal. rewrite <- (Rmult_1_l (Ae e 1 x y z r)), <- (Ae_eq e Hb Hc 1 1 x y z r P1 Ho ltac:(lra)).
      rewrite <- ik_1, i1_eq by lra. rr. unfold Rdiv. ring. }
    pose proof (m_pos e Hb Hc x y z s Ho Hs') as M. pose proof (den_pos e Hb Hc s ltac:(lra)) as W.
    pose proof (is_derive_Rchain dens (fun r => ell_m e x y z r) s _ _ (proj2 (Hp _ M)) (d_ms s Hs)) as A. pose proof (d_den s Hs) as B.
    assert (I0 : is_derive (fun r : RR => r) s 1) by apply d_id.
    refine (is_derive_eq _ _ _ _ _ _); [dv; lra|]. cbv beta. cbn [INR pred]. unfold tr.
    pose proof (Be_eq e Hb Hc 1 1 x x x y z s P1 P1 Ho Hs') as E1. pose proof (Be_eq e Hb Hc b b y y x y z s Hb Hb Ho Hs') as E2. pose proof (Be_eq e Hb Hc c c z z x y z s Hc Hc Ho Hs') as E3.
    pose proof (Ae_eq e Hb Hc 1 1 x y z s P1 Ho Hs') as E4. pose proof (Ae_eq e Hb Hc b 1 x y z s Hb Ho Hs') as E5. pose proof (Ae_eq e Hb Hc c 1 x y z s Hc Ho Hs') as E6.
    rewrite Rmult_1_l in E4, E5, E6. rewrite Rmult_1_l in E4, E5, E6. rewrite <- E1, <- E2, <- E3, <- E4, <- E5, <- E6. rewrite <- ik_1, i1_eq by lra. unfold ik. rewrite !ik_eq by assumption.
    assert (W2 : ell_denom e s ^ 2 = wk b s * wk c s).
    { unfold ell_denom. apply pow2_sqrt. apply Rlt_le, Rmult_lt_0_compat; apply one_pos; (assumption || lra). }
    pose proof (one_pos b s Hb ltac:(lra)) as Wb. pose proof (one_pos c s Hc ltac:(lra)) as Wc.
    set (m := ell_m e x y z s) in *. set (D := ell_denom e s) in *. clearbody m D. clear A B E1 E2 E3 E4 E5 E6.
    set (wb := wk b s) in *. set (wc := wk c s) in *.
    assert (F : s * ((b ^ 2 - 1) * wc + (c ^ 2 - 1) * wb) / D = D / s * (2 - 1 / wb - 1 / wc)).
    { apply Rmult_eq_reg_r with (D * s); [|apply Rgt_not_eq, Rmult_lt_0_compat; lra].
      transitivity (D ^ 2 * (2 - 1 / wb - 1 / wc)); [|field; lra]. rewrite W2.
      transitivity (((b ^ 2 - 1) * s ^ 2) * wc + ((c ^ 2 - 1) * s ^ 2) * wb); [field; lra|].
      replace ((b ^ 2 - 1) * s ^ 2) with (wb - 1) by (unfold wb; ring). replace ((c ^ 2 - 1) * s ^ 2) with (wc - 1) by (unfold wc; ring). field. lra. }
    rewrite F. rr. field. repeat split; lra.
  Qed.
  Lemma Gs_c s : continuous Gs s.
  Proof. apply cmult; [apply clamp_cont|apply (Ae_s e Hb Hc Hp H2 1 x y z s Rlt_0_1 Ho)]. Qed.
  Lemma tr_c s : continuous tr s.
  Proof.
    pose proof Rlt_0_1 as P1. unfold tr.
    repeat apply cplus; try (apply cmult; [apply ccst|]; apply (Be_s e Hb Hc Hd H3); assumption); apply (Ae_s e Hb Hc Hp H2); assumption.
  Qed.
  Lemma tr_int : RInt tr 0 1 = dens (sqrt (x ^ 2 + y ^ 2 / b ^ 2 + z ^ 2 / c ^ 2)) / (b * c).
  Proof.
    rewrite (int_from_inside tr Gs tr_c Gs_c Gs_d). unfold Gs. rewrite z_Ae, !clamp_id by lra.
    assert (E : 1 * Ae e 1 x y z 1 = dens (sqrt (x ^ 2 + y ^ 2 / b ^ 2 + z ^ 2 / c ^ 2)) / (b * c)).
    { rewrite <- (Ae_eq e Hb Hc 1 1 x y z 1 Rlt_0_1 Ho ltac:(lra)). rewrite <- ik_1, i1_eq by lra. rewrite m_form by lra.
      replace (ell_denom e 1) with (b * c). 2: { unfold ell_denom. replace ((1 + (b ^ 2 - 1) * 1 ^ 2) * (1 + (c ^ 2 - 1) * 1 ^ 2)) with ((b * c) ^ 2) by ring. rewrite sqrt_pow2; [reflexivity|]. apply Rlt_le, Rmult_lt_0_compat; assumption. }
      replace (x ^ 2 * 1 ^ 2 + y ^ 2 * (1 ^ 2 / wk b 1) + z ^ 2 * (1 ^ 2 / wk c 1)) with (x ^ 2 + y ^ 2 / b ^ 2 + z ^ 2 / c ^ 2).
      2: { replace (wk b 1) with (b ^ 2) by ring. replace (wk c 1) with (c ^ 2) by ring. rr. field. lra. }
      rr. field. lra. }
    rewrite E. rr. ring.
  Qed.
  Lemma tr_split : RInt tr 0 1 = x * x * IB e 1 1 x y z + y * y * IB e b b x y z + z * z * IB e c c x y z + (IA e 1 x y z + IA e b x y z + IA e c x y z).
  Proof.
    pose proof Rlt_0_1 as P1.
    transitivity (RInt (fun s => 1 * (x * x * Be e 1 1 x y z s + y * y * Be e b b x y z s + z * z * Be e c c x y z s + 0 * Ae e 1 x y z s) + 1 * Ae e 1 x y z s + 1 * Ae e b x y z s + 1 * Ae e c x y z s) 0 1).
    { apply RInt_ext. intros s _. unfold tr. rr. ring. }
    assert (CB : forall k, 0 < k -> forall s, continuous (Be e k k x y z) s) by (intros k Hk s; apply (Be_s e Hb Hc Hd H3); assumption).
    assert (CA : forall k, 0 < k -> forall s, continuous (Ae e k x y z) s) by (intros k Hk s; apply (Ae_s e Hb Hc Hp H2); assumption).
    rewrite RInt_lin4; [rewrite RInt_lin4; [unfold IA, IB; rr; ring|..]|..]; auto.
    intros s. repeat apply cplus; (apply cmult; [apply ccst|auto]).
  Qed.
  Lemma trace_dens :
    ell_2ndInt e x y z x ell_i1 x ell_i1 true + ell_2ndInt e x y z y (ell_ib e) y (ell_ib e) true + ell_2ndInt e x y z z (ell_ic e) z (ell_ic e) true
    = dens (sqrt (x ^ 2 + y ^ 2 / b ^ 2 + z ^ 2 / c ^ 2)) / (b * c).
  Proof.
    pose proof Rlt_0_1 as P1. rewrite <- tr_int, tr_split.
    rewrite (second_val e Hb Hc Hp Hq Hgl 1 1), (second_val e Hb Hc Hp Hq Hgl b b), (second_val e Hb Hc Hp Hq Hgl c c); try assumption; try (intros; apply ik_1); try reflexivity.
    rr. ring.
  Qed.
End Poisson.

Lemma hI_trace e M q phi : orthogonal M ->
  hI e q (er M phi) (er M phi) + hI e q (ep M phi) (ep M phi) + hI e q (ez M) (ez M)
  = ell_2ndInt e (vx q) (vy q) (vz q) (vx q) ell_i1 (vx q) ell_i1 true + ell_2ndInt e (vx q) (vy q) (vz q) (vy q) (ell_ib e) (vy q) (ell_ib e) true
    + ell_2ndInt e (vx q) (vy q) (vz q) (vz q) (ell_ic e) (vz q) (ell_ic e) true.
Proof.
  intros O. unfold orthogonal in O. destruct M as [[a b c] [d f g] [h i j]]. unfold mulMM, transp, col0, col1, col2, eye, mulMV, vdot in O. cbn [r0 r1 r2 vx vy vz] in O.
  injection O as O1 O2 O3 O4 O5 O6 O7 O8 O9.
  unfold hI, er, ep, ez, mulMV, vdot. cbn [r0 r1 r2 vx vy vz]. cbv zeta.
  set (XX := ell_2ndInt e _ _ _ (vx q) ell_i1 (vx q) ell_i1 true). set (YY := ell_2ndInt e _ _ _ (vy q) (ell_ib e) (vy q) (ell_ib e) true). set (ZZ := ell_2ndInt e _ _ _ (vz q) (ell_ic e) (vz q) (ell_ic e) true).
  set (XY := ell_2ndInt e _ _ _ (vx q) ell_i1 (vy q) (ell_ib e) false). set (XZ := ell_2ndInt e _ _ _ (vx q) ell_i1 (vz q) (ell_ic e) false). set (YZ := ell_2ndInt e _ _ _ (vy q) (ell_ib e) (vz q) (ell_ic e) false).
  clearbody XX YY ZZ XY XZ YZ. pose proof (sin2_cos2 phi) as T. unfold Rsqr in T. set (S := sin phi) in *. set (C := cos phi) in *. clearbody S C.
  assert (T2 : C * C = 1 - S * S) by lra.
  assert (G : forall u1 u2 u3 v1 v2 v3, (u1 * C + u2 * S + u3 * 0) * (v1 * C + v2 * S + v3 * 0) + (u1 * - S + u2 * C + u3 * 0) * (v1 * - S + v2 * C + v3 * 0) + (u1 * 0 + u2 * 0 + u3 * 1) * (v1 * 0 + v2 * 0 + v3 * 1)
    = u1 * v1 + u2 * v2 + u3 * v3).
  { intros. transitivity (u1 * v1 * (C * C + S * S) + u2 * v2 * (C * C + S * S) + u3 * v3); [ring|]. rewrite T2. ring. }
  pose proof (G a b c a b c) as G1. pose proof (G d f g d f g) as G2. pose proof (G h i j h i j) as G3. pose proof (G a b c d f g) as G4. pose proof (G a b c h i j) as G5. pose proof (G d f g h i j) as G6.
  clear G T T2.
  set (e1 := a * C + b * S + c * 0) in *. set (e2 := d * C + f * S + g * 0) in *. set (e3 := h * C + i * S + j * 0) in *.
  set (p1 := a * - S + b * C + c * 0) in *. set (p2 := d * - S + f * C + g * 0) in *. set (p3 := h * - S + i * C + j * 0) in *.
  set (z1 := a * 0 + b * 0 + c * 1) in *. set (z2 := d * 0 + f * 0 + g * 1) in *. set (z3 := h * 0 + i * 0 + j * 1) in *.
  clearbody e1 e2 e3 p1 p2 p3 z1 z2 z3.
  rewrite O1 in G1. rewrite O5 in G2. rewrite O9 in G3.
  assert (K4 : a * d + b * f + c * g = 0) by lra. assert (K5 : a * h + b * i + c * j = 0) by lra. assert (K6 : d * h + f * i + g * j = 0) by lra.
  rewrite K4 in G4. rewrite K5 in G5. rewrite K6 in G6.
  transitivity (XX * (e1 * e1 + p1 * p1 + z1 * z1) + YY * (e2 * e2 + p2 * p2 + z2 * z2) + ZZ * (e3 * e3 + p3 * p3 + z3 * z3)
    + 2 * XY * (e1 * e2 + p1 * p2 + z1 * z2) + 2 * XZ * (e1 * e3 + p1 * p3 + z1 * z3) + 2 * YZ * (e2 * e3 + p2 * p3 + z2 * z3)); [ring|].
  rewrite G1, G2, G3, G4, G5, G6. ring.
Qed.
Lemma frame_orth' e : frame_ok e -> orthogonal (frame e).
Proof. intros H. rewrite <- transp_transp. apply ortho_transp, frame_orth, H. Qed.
Lemma dens_frame e R z phi t : frame_ok e -> ell_dens e R z phi t =
  let q := pt (frame e) R z (ell_phi e phi) in e_mdens e (sqrt (vx q ^ 2 + vy q ^ 2 / e_b e ^ 2 + vz q ^ 2 / e_c e ^ 2)).
Proof.
  intros Hf. unfold ell_dens. cbv zeta. rewrite body_pt. destruct (frame_cases e Hf) as [P|(Al & B1 & P)]; rewrite P; [reflexivity|].
  rewrite !(pt_eye e Al), !xyz_eq. cbn [vx vy vz]. rewrite B1, cos_0, sin_0. f_equal. f_equal.
  pose proof (sin2_cos2 phi) as T. unfold Rsqr in T.
  transitivity (R ^ 2 * (sin phi * sin phi + cos phi * cos phi) + z ^ 2 / e_c e ^ 2); [unfold Rdiv; replace (/ 1 ^ 2) with 1 by field; ring|]. rewrite T. unfold Rdiv. replace (/ 1 ^ 2) with 1 by field. ring.
Qed.
Lemma satisfies_poisson_scale D Phi dens k : satisfies_poisson D Phi dens -> satisfies_poisson D (scale4 k Phi) (scale4 k dens).
Proof.
  intros S R z phi t HD HR. destruct (S R z phi t HD HR) as (a & b & c & d & A & B & C & E & F). unfold scale4.
  exists (k * a), (k * b), (k * c), (k * d). splits.
  - apply is_derive_scal. exact A.
  - apply (is_derive_ext (fun x => k * Derive (fun y => Phi y z phi t) x)); [intros x; symmetry; apply Derive_scal|]. apply is_derive_scal. exact B.
  - apply (is_derive_ext (fun x => k * Derive (fun y => Phi R z y t) x)); [intros x; symmetry; apply Derive_scal|]. apply is_derive_scal. exact C.
  - apply (is_derive_ext (fun x => k * Derive (fun y => Phi R y phi t) x)); [intros x; symmetry; apply Derive_scal|]. apply is_derive_scal. exact E.
  - transitivity (k * (4 * PI * dens R z phi t)); [rr; ring|]. rewrite F. rr. unfold Rdiv. ring.
Qed.
Section ClassDensity.
  Variable e : Ell.
  Hypothesis Hb : 0 < e_b e.
  Hypothesis Hc : 0 < e_c e.
  Hypothesis Hp : is_profile (e_psi e) (e_mdens e) (e_mderiv e).
  Hypothesis Hq : mild_cusp (e_psi e) (e_mdens e) (e_mderiv e).
  Hypothesis Hgl : e_gl e = None.
  Hypothesis Hf : frame_ok e.
  Let L := exact_laws e Hb Hc Hp Hq Hgl.
  Lemma ell_poisson_alg : poisson_alg off_centre (ell_Rf e) (vR2 e) (vp2 e) (vz2 e) (ell_dens e).
  Proof.
    intros R z phi t H HR. rewrite Rf_g. rewrite (dens_frame e) by exact Hf. unfold vR2, vp2, vz2, gR2, gp2, gz2. cbv zeta.
    pose proof (frame_orth' e Hf) as O. set (M := frame e) in *. set (f := ell_phi e phi). set (q := pt M R z f).
    assert (Hq0 : off3 (vx q) (vy q) (vz q)) by (apply (off_pt M (ortho_transp _ O) R z f H)).
    pose proof (hI_trace e M q f O) as T. rewrite (trace_dens e Hb Hc Hp Hq Hgl _ _ _ Hq0) in T.
    set (A := hI e q (er M f) (er M f)) in *. set (B := hI e q (ep M f) (ep M f)) in *. set (C := hI e q (ez M) (ez M)) in *.
    set (F := gRf e M R z f). set (rho := e_mdens e _) in *. clearbody A B C F rho.
    transitivity (4 * PI * e_b e * e_c e * (A + B + C)); [rr; field; lra|]. rewrite T. rr. field. lra.
  Qed.
  Lemma ell_class_density amp : density_is_source off_centre (Single amp (EllipsoidalC e)).
  Proof.
    exists (scale4 amp (ell_ev e)), (scale4 amp (ell_dens e)). splits; [reflexivity|reflexivity|].
    assert (S : satisfies_poisson off_centre (ell_ev e) (ell_dens e)).
    { apply (laplacian_from_parts off_centre (ell_ev e) (ell_Rf e) (ell_zf e) (ell_pt e) (vR2 e) (vz2 e) (vRz e) (vp2 e) (vRp e) (vpz e));
        [exact off_open_c|apply class_force; assumption|apply virt_mer; assumption|apply virt_azi; assumption|exact ell_poisson_alg]. }
    apply satisfies_poisson_scale. exact S.
  Qed.
End ClassDensity.
