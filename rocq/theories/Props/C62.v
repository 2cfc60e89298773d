(** * C62: wrapping a potential as an oblate Staeckel potential *)
From Coq Require Import Reals Lra Lia List.
From Coquelicot Require Import Coquelicot.
From Verif.Lib Require Import RealAux.
From Verif.Model Require Import PotAPI PotAxi Wrappers CoordsSpheroid OblateStaeckel Staeckel KuzminKutuzov.
From Verif.Spec Require Import EOMSpec StaeckelSpec OblateSpec.
From Verif.Proofs Require Import SpheroidProofs EOMProofs StaeckelProofs OblateStaeckelProofs.
From Verif.Props Require Import C47.
Import ListNotations.
Open Scope R_scope.
Notation RR := RbaseSymbolsImpl.R (only parsing).
Ltac rr := match goal with |- ?a = ?b => change (@eq RR a b) end.

(** ** The potential *)
(** It is a Staeckel potential, and its function of u is cosh^2 u times the potential in the plane. *)
Theorem C62_staeckel : forall delta u0 Phi, 0 < delta -> exists U V, (forall u, U u = cosh u ^ 2 * Phi (delta * sinh u) 0) /\ V (PI / 2) = 0 /\ staeckel delta (OS_ev delta u0 Phi) U V.
Proof.
  intros delta u0 Phi Hd. exists (OS_U delta Phi), (OS_V delta u0 Phi). split; [apply U_form|]. split.
  - unfold OS_V, refpot, prefactor. change (at_uv delta Phi u0 v0) with (at_uv delta Phi u0 (PI / 2)). rewrite sin_PI2, (ch2 u0). ring.
  - intros u v Hu Hv. rewrite (m_ev delta u0 Phi (delta * sinh u * sin v) (delta * cosh u * cos v) u v Hd); [|repeat split; auto; lra]. pose proof (W_pos u v Hu). field. lra.
Qed.
Lemma plane_uv delta R : 0 < delta -> 0 < R -> exists u, spheroidal delta R 0 u (PI / 2) /\ delta * sinh u = R.
Proof.
  intros Hd HR. destruct (uv_spheroidal delta R 0 Hd HR) as (Hu & Hv & E1 & E2). set (u := fst (Rz_to_uv false delta R 0)) in *. set (v := snd (Rz_to_uv false delta R 0)) in *.
  assert (C0 : cos v = 0). { pose proof (cosh_pos u). symmetry in E2. apply Rmult_integral in E2. destruct E2 as [E2|E2]; [|exact E2]. apply Rmult_integral in E2. lra. }
  assert (Ev : v = PI / 2). { apply cos_inj; [lra|lra|]. rewrite cos_PI2. exact C0. }
  exists u. rewrite Ev in E1. rewrite sin_PI2, Rmult_1_r in E1. split; [|symmetry; exact E1]. split; [exact Hu|]. split; [exact pi2_in|]. split; [rewrite sin_PI2; lra|rewrite cos_PI2; ring].
Qed.
(** In the plane and on the reference spheroid it is the wrapped potential. *)
Theorem C62_same : forall delta u0 Phi, 0 < delta ->
  (forall R, 0 < R -> OS_ev delta u0 Phi R 0 = Phi R 0) /\
  (forall R z v, spheroidal delta R z u0 v -> OS_ev delta u0 Phi R z = Phi R z) /\
  (forall R z, 0 < R -> OS_ev delta (get_u0 delta (AtRz R z)) Phi R z = Phi R z).
Proof.
  intros delta u0 Phi Hd.
  assert (A : forall u1 R z v, spheroidal delta R z u1 v -> OS_ev delta u1 Phi R z = Phi R z).
  { intros u1 R z v H. rewrite (m_ev delta u1 Phi R z u1 v Hd H). destruct H as (Hu & Hv & ER & Ez). unfold OS_U, OS_V, refpot, at_uv, uv_to_Rz, prefactor. rewrite <- ER, <- Ez. pose proof (W_pos u1 v Hu). field. lra. }
  split; [|split; [exact (A u0)|]].
  - intros R HR. destruct (plane_uv delta R Hd HR) as (u & HS & E). rewrite (m_ev delta u0 Phi R 0 u (PI / 2) Hd HS).
    rewrite U_form, E. unfold OS_V, refpot, prefactor. change (at_uv delta Phi u0 v0) with (at_uv delta Phi u0 (PI / 2)). rewrite sin_PI2. pose proof (ch2 u0) as Q0. pose proof (ch2 u) as Q. pose proof (cosh_pos u).
    replace (at_uv delta Phi u0 (PI / 2) * cosh u0 ^ 2 - (sinh u0 ^ 2 + 1 ^ 2) * at_uv delta Phi u0 (PI / 2)) with 0 by (rewrite Q0; ring). replace (sinh u ^ 2 + 1 ^ 2) with (cosh u ^ 2) by (rewrite Q; ring). field. lra.
  - intros R z HR. apply (A _ R z (snd (Rz_to_uv false delta R z))). unfold get_u0. apply uv_spheroidal; assumption.
Qed.
(** A potential that is a Staeckel potential with this focal distance is not changed. *)
Theorem C62_exact : forall delta u0 Phi U V, 0 < delta -> 0 < u0 -> staeckel delta Phi U V -> forall R z, 0 < R -> OS_ev delta u0 Phi R z = Phi R z.
Proof.
  intros delta u0 Phi U V Hd H0 St R z HR. pose proof (uv_spheroidal delta R z Hd HR) as HS. set (u := fst (Rz_to_uv false delta R z)) in *. set (v := snd (Rz_to_uv false delta R z)) in *.
  rewrite (m_ev delta u0 Phi R z u v Hd HS). destruct HS as (Hu & Hv & ER & Ez). pose proof (W_pos u v Hu) as HW.
  pose proof (St u v Hu Hv) as E1. rewrite <- ER, <- Ez in E1. pose proof (St u (PI / 2) Hu pi2_in) as E2. pose proof (St u0 (PI / 2) H0 pi2_in) as E3. pose proof (St u0 v H0 Hv) as E4.
  rewrite sin_PI2 in E2, E3. pose proof (ch2 u) as Q. pose proof (ch2 u0) as Q0. replace (sinh u ^ 2 + 1 ^ 2) with (cosh u ^ 2) in E2 by (rewrite Q; ring). replace (sinh u0 ^ 2 + 1 ^ 2) with (cosh u0 ^ 2) in E3 by (rewrite Q0; ring).
  unfold OS_U, OS_V, refpot, at_uv, uv_to_Rz, prefactor, v0. rewrite sin_PI2.
  replace (cosh u ^ 2 * Phi (delta * sinh u * 1) (delta * cosh u * cos (PI / 2)) - (Phi (delta * sinh u0 * 1) (delta * cosh u0 * cos (PI / 2)) * cosh u0 ^ 2 - (sinh u0 ^ 2 + sin v ^ 2) * Phi (delta * sinh u0 * sin v) (delta * cosh u0 * cos v))) with ((sinh u ^ 2 + sin v ^ 2) * Phi R z) by lra. field. lra.
Qed.
Corollary C62_idempotent : forall delta u0 u1 Phi, 0 < delta -> 0 < u1 -> forall R z, 0 < R -> OS_ev delta u1 (OS_ev delta u0 Phi) R z = OS_ev delta u0 Phi R z.
Proof. intros delta u0 u1 Phi Hd H1. destruct (C62_staeckel delta u0 Phi Hd) as (U & V & _ & _ & St). exact (C62_exact delta u1 _ U V Hd H1 St). Qed.
(** It is symmetric about the plane when the wrapped potential is. *)
Theorem C62_mirror : forall delta u0 Phi, 0 < delta -> mirror Phi -> forall R z, 0 < R -> OS_ev delta u0 Phi R (- z) = OS_ev delta u0 Phi R z.
Proof.
  intros delta u0 Phi Hd M R z HR. pose proof (uv_spheroidal delta R z Hd HR) as HS. set (u := fst (Rz_to_uv false delta R z)) in *. set (v := snd (Rz_to_uv false delta R z)) in *.
  assert (Es : sin (PI - v) = sin v) by (rewrite sin_minus, sin_PI, cos_PI; ring). assert (Ec : cos (PI - v) = - cos v) by (rewrite cos_minus, sin_PI, cos_PI; ring).
  assert (HS' : spheroidal delta R (- z) u (PI - v)). { destruct HS as (Hu & Hv & ER & Ez). split; [exact Hu|]. split; [lra|]. rewrite Es, Ec. split; [exact ER|]. rewrite Ez. ring. }
  rewrite (m_ev delta u0 Phi R z u v Hd HS), (m_ev delta u0 Phi R (- z) u (PI - v) Hd HS'). unfold OS_V, at_uv, uv_to_Rz, prefactor. rewrite Es, Ec. replace (delta * cosh u0 * - cos v) with (- (delta * cosh u0 * cos v)) by ring. rewrite (M _ (delta * cosh u0 * cos v)). reflexivity.
Qed.

(** ** Forces and second derivatives *)
Section Main.
  Variables (delta u0 : RR) (Phi FR Fz P2R P2z PRz : RR -> RR -> RR).
  Hypotheses (Hd : 0 < delta).
  Notation U := (OS_U delta Phi). Notation dU := (OS_dU delta 0 Phi FR Fz). Notation V := (OS_V delta u0 Phi). Notation dV := (OS_dV delta u0 Phi FR Fz).
  Notation d2U := (OS_d2U delta 0 Phi FR Fz P2R P2z PRz). Notation d2V := (OS_d2V delta u0 Phi FR Fz P2R P2z PRz).
  Lemma grad_ext (G H GR Gz HR Hz : RR -> RR -> RR) : (forall R z, 0 < R -> H R z = G R z) -> (forall R z, 0 < R -> HR R z = GR R z) -> (forall R z, 0 < R -> Hz R z = Gz R z) -> gradient G GR Gz -> gradient H HR Hz.
  Proof using.
    intros E E1 E2 F R z t vR vz Ht DR Dz. rewrite E1, E2 by exact Ht. apply (is_derive_loc (fun s => G (R s) (z s)) _ t _ (fun s => 0 < R s)); [|intros s Hs; symmetry; apply E; exact Hs|apply F; assumption].
    apply (ex_derive_continuous (V := R_NormedModule) R t (ex_intro _ _ DR) (fun y => 0 < y)). apply (locally_pos (R t)); exact Ht. Qed.
  Lemma ev_of R z : 0 < R -> OS_ev delta u0 Phi R z = sep_ev delta U V R z.
  Proof using Hd. intros HR. rewrite (m_ev delta u0 Phi R z _ _ Hd (uv_spheroidal delta R z Hd HR)). reflexivity. Qed.
  Lemma R_of R z : 0 < R -> OS_Rf delta u0 0 Phi FR Fz R z = sep_R delta U dU V dV R z.
  Proof using Hd. intros HR. rewrite (m_R delta u0 0 Phi FR Fz R z _ _ Hd (uv_spheroidal delta R z Hd HR)). reflexivity. Qed.
  Lemma z_of R z : 0 < R -> OS_zf delta u0 0 Phi FR Fz R z = sep_z delta U dU V dV R z.
  Proof using Hd. intros HR. rewrite (m_z delta u0 0 Phi FR Fz R z _ _ Hd (uv_spheroidal delta R z Hd HR)). reflexivity. Qed.
  Lemma exact_force : force_of Phi FR Fz -> reference_force delta u0 Phi Fz -> force_of (OS_ev delta u0 Phi) (OS_Rf delta u0 0 Phi FR Fz) (OS_zf delta u0 0 Phi FR Fz).
  Proof using Hd.
    intros HF H0. assert (K : force_of (sep_ev delta U V) (sep_R delta U dU V dV) (sep_z delta U dU V dV)).
    { apply sep_force; [exact Hd|intros u Hu; apply U_ok; assumption|intros v Hv; apply V_ok; assumption]. }
    refine (grad_ext _ _ _ _ _ _ ev_of _ _ K); intros R z HR; [rewrite R_of by exact HR; reflexivity|rewrite z_of by exact HR; reflexivity].
  Qed.
  Lemma exact_hess : force_of Phi FR Fz -> hessian_of FR Fz P2R P2z PRz -> reference_force delta u0 Phi Fz -> reference_hess delta u0 Fz P2z ->
    hessian_of (OS_Rf delta u0 0 Phi FR Fz) (OS_zf delta u0 0 Phi FR Fz) (OS_R2 delta u0 0 Phi FR Fz P2R P2z PRz) (OS_z2 delta u0 0 Phi FR Fz P2R P2z PRz) (OS_Rz delta u0 0 Phi FR Fz P2R P2z PRz).
  Proof using Hd.
    intros HF HH H0 H1.
    assert (K : hessian_of (sep_R delta U dU V dV) (sep_z delta U dU V dV) (sep_R2 delta U dU d2U V dV d2V) (sep_z2 delta U dU d2U V dV d2V) (sep_Rz delta U dU d2U V dV d2V)).
    { apply sep_hess; [exact Hd|intros u Hu; apply U_ok; assumption|intros v Hv; apply V_ok; assumption|intros u Hu; apply dU_ok; assumption|intros v Hv; apply dV_ok; assumption]. }
    assert (A1 : forall R z, 0 < R -> OS_R2 delta u0 0 Phi FR Fz P2R P2z PRz R z = sep_R2 delta U dU d2U V dV d2V R z) by (intros R z HR; rewrite (m_RR delta u0 0 Phi FR Fz P2R P2z PRz R z _ _ Hd (uv_spheroidal delta R z Hd HR)); reflexivity).
    assert (A2 : forall R z, 0 < R -> OS_z2 delta u0 0 Phi FR Fz P2R P2z PRz R z = sep_z2 delta U dU d2U V dV d2V R z) by (intros R z HR; rewrite (m_zz delta u0 0 Phi FR Fz P2R P2z PRz R z _ _ Hd (uv_spheroidal delta R z Hd HR)); reflexivity).
    assert (A3 : forall R z, 0 < R -> OS_Rz delta u0 0 Phi FR Fz P2R P2z PRz R z = sep_Rz delta U dU d2U V dV d2V R z) by (intros R z HR; rewrite (m_Rz delta u0 0 Phi FR Fz P2R P2z PRz R z _ _ Hd (uv_spheroidal delta R z Hd HR)); reflexivity).
    destruct K as [K1 K2]. split; [refine (grad_ext _ _ _ _ _ _ _ A1 A3 K1)|refine (grad_ext _ _ _ _ _ _ _ A3 A2 K2)]; intros R z HR; [rewrite R_of by exact HR; reflexivity|rewrite z_of by exact HR; reflexivity].
  Qed.
  Section Eps.
    Variables (R z u v e : RR).
    Hypotheses (HS : spheroidal delta R z u v) (He : 0 <= e).
    Let Hu : 0 < u := proj1 HS. Let Hv : 0 < v < PI := proj1 (proj2 HS). Let HW : 0 < sinh u ^ 2 + sin v ^ 2 := W_pos u v Hu.
    Let HC : 0 < cosh u := cosh_pos u. Let HSu : 0 < sinh u := sinh_pos_iff u Hu. Let Hs : 0 < sin v := sv_pos v Hv.
    Lemma R_err : Rabs (OS_Rf delta u0 e Phi FR Fz R z - OS_Rf delta u0 0 Phi FR Fz R z) <= e * (cosh u ^ 5 * sin v * Rabs (FR (delta * sinh u) 0) / (sinh u * (sinh u ^ 2 + sin v ^ 2) ^ 2)).
    Proof using Hd HS He HW HC HSu Hs Hu.
      rewrite !(m_R delta u0 _ Phi FR Fz R z u v Hd HS). rewrite aR_lin by assumption. rewrite Rabs_mult. pose proof (dU_err delta Phi FR Fz u e Hd Hu He) as K.
      replace (e * (cosh u ^ 5 * sin v * Rabs (FR (delta * sinh u) 0) / (sinh u * (sinh u ^ 2 + sin v ^ 2) ^ 2))) with (e * err1 delta FR u * (cosh u * sin v / (delta * (sinh u ^ 2 + sin v ^ 2) ^ 2))) by (unfold err1, tanh; field; repeat split; lra).
      assert (P : 0 < cosh u * sin v / (delta * (sinh u ^ 2 + sin v ^ 2) ^ 2)) by (apply Rdiv_lt_0_compat; [nra|apply Rmult_lt_0_compat; [exact Hd|apply pow_lt; exact HW]]).
      replace (- (cosh u * sin v) / (delta * (sinh u ^ 2 + sin v ^ 2) ^ 2)) with (- (cosh u * sin v / (delta * (sinh u ^ 2 + sin v ^ 2) ^ 2))) by (unfold Rdiv; ring). rewrite Rabs_Ropp, (Rabs_right (cosh u * sin v / _)) by lra.
      apply Rmult_le_compat_r; [lra|exact K].
    Qed.
    Lemma z_err : Rabs (OS_zf delta u0 e Phi FR Fz R z - OS_zf delta u0 0 Phi FR Fz R z) <= e * (cosh u ^ 4 * Rabs (cos v) * Rabs (FR (delta * sinh u) 0) / (sinh u ^ 2 + sin v ^ 2) ^ 2).
    Proof using Hd HS He HW HC HSu Hs Hu.
      rewrite !(m_z delta u0 _ Phi FR Fz R z u v Hd HS). rewrite az_lin by assumption. rewrite Rabs_mult. pose proof (dU_err delta Phi FR Fz u e Hd Hu He) as K.
      replace (e * (cosh u ^ 4 * Rabs (cos v) * Rabs (FR (delta * sinh u) 0) / (sinh u ^ 2 + sin v ^ 2) ^ 2)) with (e * err1 delta FR u * (sinh u / (delta * (sinh u ^ 2 + sin v ^ 2) ^ 2) * Rabs (cos v))) by (unfold err1, tanh; field; repeat split; lra).
      assert (P : 0 < sinh u / (delta * (sinh u ^ 2 + sin v ^ 2) ^ 2)) by (apply Rdiv_lt_0_compat; [nra|apply Rmult_lt_0_compat; [exact Hd|apply pow_lt; exact HW]]).
      replace (- (sinh u * cos v) / (delta * (sinh u ^ 2 + sin v ^ 2) ^ 2)) with (- (sinh u / (delta * (sinh u ^ 2 + sin v ^ 2) ^ 2) * cos v)) by (unfold Rdiv; ring). rewrite Rabs_Ropp, Rabs_mult, (Rabs_right (sinh u / _)) by lra.
      apply Rmult_le_compat_r; [|exact K]. apply Rmult_le_pos; [lra|apply Rabs_pos].
    Qed.
    Lemma two_err (k1 k2 d1 d2 : RR) : Rabs d1 <= e * err1 delta FR u -> Rabs d2 <= e * err2 delta FR P2R u -> Rabs (d1 * k1 + d2 * k2) <= (err1 delta FR u * Rabs k1 + err2 delta FR P2R u * Rabs k2) * e.
    Proof using. clear. intros A B. eapply Rle_trans; [apply Rabs_triang|]. rewrite !Rabs_mult. pose proof (Rabs_pos k1). pose proof (Rabs_pos k2). nra. Qed.
  End Eps.
End Main.

(** The forces are those of the wrapped potential's Staeckel approximation, up to the number 1e-12 added to tanh u: this changes them by the stated relative amounts of the force in the plane.
    In the plane the radial force is that of the wrapped potential. *)
Theorem C62_forces : forall delta u0 Phi FR Fz, 0 < delta -> force_of Phi FR Fz -> reference_force delta u0 Phi Fz -> exists GR Gz, force_of (OS_ev delta u0 Phi) GR Gz /\
  (forall eps R z u v, 0 <= eps -> spheroidal delta R z u v -> let W := sinh u ^ 2 + sin v ^ 2 in
    Rabs (OS_Rf delta u0 eps Phi FR Fz R z - GR R z) <= eps * (cosh u ^ 5 * sin v * Rabs (FR (delta * sinh u) 0) / (sinh u * W ^ 2)) /\
    Rabs (OS_zf delta u0 eps Phi FR Fz R z - Gz R z) <= eps * (cosh u ^ 4 * Rabs (cos v) * Rabs (FR (delta * sinh u) 0) / W ^ 2)) /\
  (forall R, 0 < R -> GR R 0 = FR R 0) /\
  (forall eps R, 0 <= eps -> 0 < R -> Rabs (OS_Rf delta u0 eps Phi FR Fz R 0 - FR R 0) <= eps * (sqrt (1 + (delta / R) ^ 2) * Rabs (FR R 0))).
Proof.
  intros delta u0 Phi FR Fz Hd HF H0. exists (OS_Rf delta u0 0 Phi FR Fz), (OS_zf delta u0 0 Phi FR Fz).
  assert (P : forall R, 0 < R -> OS_Rf delta u0 0 Phi FR Fz R 0 = FR R 0).
  { intros R HR. pose proof (exact_force delta u0 Phi FR Fz Hd HF H0 (fun x => x) (fun _ => 0) R 1 0 HR (d_id R) (is_derive_cst 0 R)) as A. pose proof (HF (fun x => x) (fun _ => 0) R 1 0 HR (d_id R) (is_derive_cst 0 R)) as B.
    assert (A' : is_derive (fun x => Phi x 0) R (- OS_Rf delta u0 0 Phi FR Fz R 0 * 1 + - OS_zf delta u0 0 Phi FR Fz R 0 * 0)).
    { apply (is_derive_loc (fun x => OS_ev delta u0 Phi x 0) _ R _ (fun x => 0 < x) (locally_pos R HR)); [|exact A]. intros x Hx. apply (proj1 (C62_same delta u0 Phi Hd)). exact Hx. }
    apply is_derive_unique in A'. apply is_derive_unique in B. rewrite B in A'. lra. }
  split; [apply exact_force; assumption|]. split; [|split; [exact P|]].
  - intros eps R z u v He HS W. split; [apply R_err|apply z_err]; assumption.
  - intros eps R He HR. destruct (plane_uv delta R Hd HR) as (u & HS & E). pose proof (R_err delta u0 Phi FR Fz Hd R 0 u (PI / 2) eps HS He) as K. rewrite (P R HR), E, sin_PI2 in K.
    refine (Rle_trans _ _ _ K _). apply Req_le. f_equal. pose proof (cosh_pos u) as HC. assert (HSu : 0 < sinh u) by (apply sinh_pos_iff; apply HS). pose proof (ch2 u) as Q.
    replace (sinh u ^ 2 + 1 ^ 2) with (cosh u ^ 2) by (rewrite Q; ring). replace (sqrt (1 + (delta / R) ^ 2)) with (cosh u / sinh u); [field; repeat split; lra|].
    symmetry. rewrite <- (sqrt_pow2 (cosh u / sinh u)) by (apply Rlt_le, Rdiv_lt_0_compat; assumption). f_equal. rewrite <- E. replace ((cosh u / sinh u) ^ 2) with (cosh u ^ 2 / sinh u ^ 2) by (field; lra). rewrite Q. field. split; lra.
Qed.
(** Without the small number the forces and second derivatives are exact; with it the second derivatives differ off the axis by at most a multiple of it. *)
Theorem C62_hessian : forall delta u0 Phi FR Fz P2R P2z PRz, 0 < delta -> force_of Phi FR Fz -> hessian_of FR Fz P2R P2z PRz -> reference_force delta u0 Phi Fz -> reference_hess delta u0 Fz P2z ->
  exists GR Gz G2R G2z GRz, force_of (OS_ev delta u0 Phi) GR Gz /\ hessian_of GR Gz G2R G2z GRz /\
    regularises (fun e => OS_Rf delta u0 e Phi FR Fz) GR /\ regularises (fun e => OS_zf delta u0 e Phi FR Fz) Gz /\
    regularises (fun e => OS_R2 delta u0 e Phi FR Fz P2R P2z PRz) G2R /\ regularises (fun e => OS_z2 delta u0 e Phi FR Fz P2R P2z PRz) G2z /\ regularises (fun e => OS_Rz delta u0 e Phi FR Fz P2R P2z PRz) GRz.
Proof.
  intros delta u0 Phi FR Fz P2R P2z PRz Hd HF HH H0 H1. do 5 eexists. split; [apply exact_force; eassumption|]. split; [apply (exact_hess delta u0 Phi FR Fz P2R P2z PRz); assumption|].
  assert (NN : forall u k1 k2, 0 < u -> 0 <= err1 delta FR u * Rabs k1 + err2 delta FR P2R u * Rabs k2) by (intros u k1 k2 Hu; apply Rplus_le_le_0_compat; apply Rmult_le_pos; try apply Rabs_pos; [apply err1_pos|apply err2_pos]; assumption).
  repeat split; intros R z HR; pose proof (uv_spheroidal delta R z Hd HR) as HS; set (u := fst (Rz_to_uv false delta R z)) in *; set (v := snd (Rz_to_uv false delta R z)) in *; pose proof (proj1 HS) as Hu; pose proof (W_pos u v Hu) as HW.
  - exists (cosh u ^ 5 * sin v * Rabs (FR (delta * sinh u) 0) / (sinh u * (sinh u ^ 2 + sin v ^ 2) ^ 2)). split; [|intros e He; rewrite (Rmult_comm _ e); apply R_err; assumption].
    pose proof (R_err delta u0 Phi FR Fz Hd R z u v 1 HS Rle_0_1) as K. pose proof (Rabs_pos (OS_Rf delta u0 1 Phi FR Fz R z - OS_Rf delta u0 0 Phi FR Fz R z)). lra.
  - exists (cosh u ^ 4 * Rabs (cos v) * Rabs (FR (delta * sinh u) 0) / (sinh u ^ 2 + sin v ^ 2) ^ 2). split; [|intros e He; rewrite (Rmult_comm _ e); apply z_err; assumption].
    pose proof (z_err delta u0 Phi FR Fz Hd R z u v 1 HS Rle_0_1) as K. pose proof (Rabs_pos (OS_zf delta u0 1 Phi FR Fz R z - OS_zf delta u0 0 Phi FR Fz R z)). lra.
  - exists (err1 delta FR u * Rabs (aRR delta 0 1 0 0 0 0 (sinh u) (cosh u) (sin v) (cos v)) + err2 delta FR P2R u * Rabs (aRR delta 0 0 1 0 0 0 (sinh u) (cosh u) (sin v) (cos v))). split; [apply (NN u _ _ Hu)|]. intros e He. rewrite !(m_RR delta u0 _ Phi FR Fz P2R P2z PRz R z u v Hd HS). rewrite aRR_lin by assumption. apply two_err; [apply dU_err|apply d2U_err]; assumption.
  - exists (err1 delta FR u * Rabs (azz delta 0 1 0 0 0 0 (sinh u) (cosh u) (sin v) (cos v)) + err2 delta FR P2R u * Rabs (azz delta 0 0 1 0 0 0 (sinh u) (cosh u) (sin v) (cos v))). split; [apply (NN u _ _ Hu)|]. intros e He. rewrite !(m_zz delta u0 _ Phi FR Fz P2R P2z PRz R z u v Hd HS). rewrite azz_lin by assumption. apply two_err; [apply dU_err|apply d2U_err]; assumption.
  - exists (err1 delta FR u * Rabs (aRz delta 0 1 0 0 0 0 (sinh u) (cosh u) (sin v) (cos v)) + err2 delta FR P2R u * Rabs (aRz delta 0 0 1 0 0 0 (sinh u) (cosh u) (sin v) (cos v))). split; [apply (NN u _ _ Hu)|]. intros e He. rewrite !(m_Rz delta u0 _ Phi FR Fz P2R P2z PRz R z u v Hd HS). rewrite aRz_lin by assumption. apply two_err; [apply dU_err|apply d2U_err]; assumption.
Qed.
(** The small number is why the force returned is not exactly the derivative of the potential returned: in the plane of the potential R^2/2 it is always too weak. *)
Theorem C62_gradient_refuted : forall delta u0 R, 0 < delta -> 0 < R ->
  let Phi := fun R _ : RR => R ^ 2 / 2 in let FR := fun R _ : RR => - R in let Fz := fun _ _ : RR => 0 in
  force_of Phi FR Fz /\ is_derive (fun x => OS_ev delta u0 Phi x 0) R R /\ - R < OS_Rf delta u0 tiny Phi FR Fz R 0.
Proof.
  intros delta u0 R Hd HR Phi FR Fz.
  assert (HF : force_of Phi FR Fz).
  { intros x z t vR vz Hx Dx Dz. unfold Phi. apply (is_derive_ext (fun s => / 2 * x s ^ 2)); [intros s; rr; field|]. refine (is_derive_eq _ _ _ _ (d_scale _ t (/ 2) _ (d_sq _ t _ Dx)) _). unfold FR, Fz. rr. field. }
  split; [exact HF|]. split.
  - apply (is_derive_loc (fun x => Phi x 0) _ R _ (fun x => 0 < x) (locally_pos R HR)); [intros x Hx; symmetry; apply (proj1 (C62_same delta u0 Phi Hd)); exact Hx|].
    refine (is_derive_eq _ _ _ _ (HF (fun x => x) (fun _ => 0) R 1 0 HR (d_id R) (is_derive_cst 0 R)) _). unfold FR, Fz. rr. ring.
  - destruct (plane_uv delta R Hd HR) as (u & HS & E). pose proof (cosh_pos u) as HC. assert (Hu : 0 < u) by apply HS. assert (HSu : 0 < sinh u) by (apply sinh_pos_iff; exact Hu). pose proof (ch2 u) as Q.
    rewrite (m_R delta u0 tiny Phi FR Fz R 0 u (PI / 2) Hd HS). unfold aR. rewrite (dU_form delta Phi FR Fz tiny u Hu), U_form. rewrite sin_PI2, cos_PI2.
    assert (EV : OS_V delta u0 Phi (PI / 2) = 0) by (unfold OS_V, refpot, prefactor; change (at_uv delta Phi u0 v0) with (at_uv delta Phi u0 (PI / 2)); rewrite sin_PI2, (ch2 u0); ring). rewrite EV.
    unfold Phi, FR. rewrite E. replace (sinh u ^ 2 + 1 ^ 2) with (cosh u ^ 2) by (rewrite Q; ring).
    assert (HT : 0 < tiny) by (unfold tiny; apply Rinv_0_lt_compat, pow_lt; lra). assert (HT' : 0 < tanh u) by (unfold tanh; apply Rdiv_lt_0_compat; assumption).
    match goal with |- _ < ?r => replace r with (- R * (tanh u / (tanh u + tiny))) end.
    + assert (L : tanh u / (tanh u + tiny) < 1) by (apply Rmult_lt_reg_r with (tanh u + tiny); [lra|]; unfold Rdiv; rewrite Rmult_assoc, Rinv_l by lra; lra). nra.
    + rewrite <- E. unfold tanh in *. field. repeat split; try lra. apply Rgt_not_eq. apply Rlt_gt. pose proof (Rmult_lt_0_compat _ _ HT HC). lra.
Qed.

(** ** The class *)
(** The class returns these values, times its amplitude, for every azimuth and time; [u0] may be a number or a point. *)
Theorem C62_class : forall delta a p amp R z phi t v, let c := Single amp (OS_class delta a p) in let u0 := get_u0 delta a in
  let Phi := sec (apiEv p) in let FR := fun R z => apiRf p (0, 0, 0) R z 0 0 in let Fz := fun R z => apizf p (0, 0, 0) R z 0 0 in let P2R := sec (apiR2 p) in let P2z := sec (apiz2 p) in let PRz := sec (apiRz p) in
  (exists f, apiEv c = Some f /\ f R z phi t = amp * OS_ev delta u0 Phi R z) /\
  apiRf c v R z phi t = amp * OS_Rf delta u0 tiny Phi FR Fz R z /\ apizf c v R z phi t = amp * OS_zf delta u0 tiny Phi FR Fz R z /\
  (exists f, apiR2 c = Some f /\ f R z phi t = amp * OS_R2 delta u0 tiny Phi FR Fz P2R P2z PRz R z) /\
  (exists f, apiz2 c = Some f /\ f R z phi t = amp * OS_z2 delta u0 tiny Phi FR Fz P2R P2z PRz R z) /\
  (exists f, apiRz c = Some f /\ f R z phi t = amp * OS_Rz delta u0 tiny Phi FR Fz P2R P2z PRz R z).
Proof. intros. repeat split; try reflexivity; eexists; split; reflexivity. Qed.
(** In the plane the class with amplitude [amp] returns the wrapped potential times [amp], wherever u0 was put, and its radial force up to the small number. *)
Theorem C62_class_plane : forall delta a p amp g, 0 < delta -> apiEv p = Some g -> exists f, apiEv (Single amp (OS_class delta a p)) = Some f /\
  (forall R phi t, 0 < R -> f R 0 phi t = amp * g R 0 0 0) /\
  (force_of (fun R z => g R z 0 0) (fun R z => apiRf p (0, 0, 0) R z 0 0) (fun R z => apizf p (0, 0, 0) R z 0 0) -> reference_force delta (get_u0 delta a) (fun R z => g R z 0 0) (fun R z => apizf p (0, 0, 0) R z 0 0) ->
   forall v R phi t, 0 < R -> Rabs (apiRf (Single amp (OS_class delta a p)) v R 0 phi t - amp * apiRf p (0, 0, 0) R 0 0 0) <= Rabs amp * (/ 10 ^ 12 * (sqrt (1 + (delta / R) ^ 2) * Rabs (apiRf p (0, 0, 0) R 0 0 0)))).
Proof.
  intros delta a p amp g Hd Eg. assert (Es : sec (apiEv p) = fun R z => g R z 0 0) by (unfold sec; rewrite Eg; reflexivity).
  destruct (C62_class delta a p amp 1 0 0 0 (0, 0, 0)) as [(f & Ef & _) _]. exists f. split; [exact Ef|]. split.
  - intros R phi t HR. destruct (C62_class delta a p amp R 0 phi t (0, 0, 0)) as [(f' & Ef' & K) _]. rewrite Ef in Ef'. injection Ef' as <-. rewrite K. rewrite (proj1 (C62_same delta _ _ Hd) R HR), Es. reflexivity.
  - intros HF H0 v R phi t HR. destruct (C62_class delta a p amp R 0 phi t v) as (_ & K & _). rewrite K, Es, <- Rmult_minus_distr_l, Rabs_mult. apply Rmult_le_compat_l; [apply Rabs_pos|].
    destruct (C62_forces delta (get_u0 delta a) _ _ _ Hd HF H0) as (GR & Gz & _ & _ & _ & B). apply (B tiny R); [|exact HR]. unfold tiny. apply Rlt_le, Rinv_0_lt_compat, pow_lt. lra.
Qed.
(** The time is not passed on: when the wrapped potential depends on time the wrapper keeps its value at t = 0, so that the two differ even in the plane. *)
Theorem C62_time_refuted : forall delta a, 0 < delta -> exists c f g, TimeDependentAmplitude (fun t => 1 + t) (Single 1 (mkAxi (fun R _ => R ^ 2 / 2) (fun R _ => - R) (fun _ _ => 0) None None None None)) = Some c /\
  apiEv (Single 1 (OS_class delta a (Single 1 c))) = Some f /\ apiEv (Single 1 c) = Some g /\ forall R t, 0 < R -> f R 0 0 t = R ^ 2 / 2 /\ g R 0 0 t = (1 + t) * (R ^ 2 / 2).
Proof.
  intros delta a Hd. eexists. eexists. eexists. split; [reflexivity|]. split; [reflexivity|]. split; [reflexivity|].
  intros R t HR. split; [|unfold scale4, amplitude; simpl; unfold scale4; rr; field].
  match goal with |- ?l R 0 0 t = _ => set (f := l) end. destruct (C62_class_plane delta a (Single 1 (mkPotC false (amplitude (fun t => 1 + t) (scale4 1 (fun R z _ _ => R ^ 2 / 2))) (amplitude (fun t => 1 + t) (scale4 1 (fun R z _ _ => - R))) (amplitude (fun t => 1 + t) (scale4 1 (fun R z _ _ => 0)))
    (Some (amplitude (fun t => 1 + t) zero4)) None None None (Some (amplitude (fun t => 1 + t) zero4)) (Some (amplitude (fun t => 1 + t) zero4)) (Some (amplitude (fun t => 1 + t) zero4)) None)) 1 _ Hd eq_refl) as (f' & Ef & K & _).
  assert (E : Some f = Some f') by (rewrite <- Ef; reflexivity). injection E as E. change (f R 0 0 t = R ^ 2 / 2). rewrite E, (K R 0 t HR). unfold c_ev, scale4, amplitude. cbv beta iota. rr. field.
Qed.

(** ** The C functions *)
(** With the arguments the serialisation passes (amp, delta, u0, pi/2 and the reference value) the C functions return the values of the Python methods times amp. *)
Theorem C62_C : forall eps amp delta u0 Phi FR Fz P2R P2z PRz R z, 0 < delta -> 0 < R -> let rp := refpot delta u0 Phi in
  cOS_ev amp delta u0 (PI / 2) rp Phi R z = amp * OS_ev delta u0 Phi R z /\
  cOS_Rf eps amp delta u0 (PI / 2) rp Phi FR Fz R z = amp * OS_Rf delta u0 eps Phi FR Fz R z /\
  cOS_zf eps amp delta u0 (PI / 2) rp Phi FR Fz R z = amp * OS_zf delta u0 eps Phi FR Fz R z /\
  cOS_R2 eps amp delta u0 (PI / 2) rp Phi FR Fz P2R P2z PRz R z = amp * OS_R2 delta u0 eps Phi FR Fz P2R P2z PRz R z /\
  cOS_z2 eps amp delta u0 (PI / 2) rp Phi FR Fz P2R P2z PRz R z = amp * OS_z2 delta u0 eps Phi FR Fz P2R P2z PRz R z /\
  cOS_Rz eps amp delta u0 (PI / 2) rp Phi FR Fz P2R P2z PRz R z = amp * OS_Rz delta u0 eps Phi FR Fz P2R P2z PRz R z.
Proof.
  intros eps amp delta u0 Phi FR Fz P2R P2z PRz R z Hd HR rp. pose proof (uv_spheroidal delta R z Hd HR) as HS. pose proof (W_pos _ (snd (Rz_to_uv false delta R z)) (proj1 HS)) as HW.
  assert (EU : forall u, cU delta (PI / 2) Phi u = OS_U delta Phi u) by reflexivity.
  assert (EdU : forall u, cdU eps delta (PI / 2) Phi FR Fz u = OS_dU delta eps Phi FR Fz u) by reflexivity.
  assert (Ed2U : forall u, cd2U eps delta (PI / 2) Phi FR Fz P2R P2z PRz u = OS_d2U delta eps Phi FR Fz P2R P2z PRz u) by (intros u; unfold cd2U, OS_d2U; cbn [uv_to_Rz]; change v0 with (PI / 2); unfold Rdiv; ring).
  assert (EV : forall v, cV delta u0 rp Phi v = OS_V delta u0 Phi v) by reflexivity.
  assert (EdV : forall v, cdV delta u0 Phi FR Fz v = OS_dV delta u0 Phi FR Fz v) by reflexivity.
  assert (Ed2V : forall v, cd2V delta u0 Phi FR Fz P2R P2z PRz v = OS_d2V delta u0 Phi FR Fz P2R P2z PRz v) by (intros v; unfold cd2V, OS_d2V; cbn [uv_to_Rz]; ring).
  assert (A1 : cOS_Rf eps amp delta u0 (PI / 2) rp Phi FR Fz R z = amp * OS_Rf delta u0 eps Phi FR Fz R z).
  { unfold cOS_Rf, OS_Rf. destruct (Rz_to_uv false delta R z) as [u v]. cbn [dprefactor fst snd] in *. rewrite EU, EdU, EV, EdV. unfold prefactor. field. split; lra. }
  assert (A2 : cOS_zf eps amp delta u0 (PI / 2) rp Phi FR Fz R z = amp * OS_zf delta u0 eps Phi FR Fz R z).
  { unfold cOS_zf, OS_zf. destruct (Rz_to_uv false delta R z) as [u v]. cbn [dprefactor fst snd] in *. rewrite EU, EdU, EV, EdV. unfold prefactor. generalize (cot v). intros k. field. split; lra. }
  split; [|split; [exact A1|split; [exact A2|split; [|split]]]].
  - unfold cOS_ev, OS_ev. destruct (Rz_to_uv false delta R z) as [u v]. rewrite EU, EV. unfold Rdiv. ring.
  - unfold cOS_R2, OS_R2. rewrite A1. destruct (Rz_to_uv false delta R z) as [u v]. cbn [dprefactor d2prefactor fst snd] in *. rewrite EU, EdU, Ed2U, EV, EdV, Ed2V. unfold Rdiv. ring.
  - unfold cOS_z2, OS_z2. rewrite A2. destruct (Rz_to_uv false delta R z) as [u v]. cbn [dprefactor d2prefactor fst snd] in *. rewrite EU, EdU, Ed2U, EV, EdV, Ed2V. unfold Rdiv. ring.
  - unfold cOS_Rz, OS_Rz. rewrite A2. destruct (Rz_to_uv false delta R z) as [u v]. cbn [dprefactor d2prefactor fst snd] in *. rewrite EU, EdU, Ed2U, EV, EdV, Ed2V. unfold Rdiv. ring.
Qed.
(** The planar C functions are the three-dimensional ones in the plane. *)
Theorem C62_C_plane : forall eps amp delta u0 Phi FR Fz P2R P2z PRz pFR pP2R R, 0 < delta -> 0 < R -> (forall R, 0 < R -> pFR R = FR R 0) -> (forall R, 0 < R -> pP2R R = P2R R 0) ->
  cOS_pRf eps amp delta (PI / 2) Phi pFR R = amp * OS_Rf delta u0 eps Phi FR Fz R 0 /\
  cOS_pR2 eps amp delta (PI / 2) Phi pFR pP2R R = amp * OS_R2 delta u0 eps Phi FR Fz P2R P2z PRz R 0.
Proof.
  intros eps amp delta u0 Phi FR Fz P2R P2z PRz pFR pP2R R Hd HR H1 H2. destruct (plane_uv delta R Hd HR) as (u & HS & E). pose proof (proj1 HS) as Hu. pose proof (cosh_pos u) as HC. pose proof (ch2 u) as Q. pose proof (W_pos u (PI / 2) Hu) as HW.
  assert (EdU : cpdU eps delta (PI / 2) Phi pFR u = OS_dU delta eps Phi FR Fz u).
  { rewrite dU_form by exact Hu. unfold cpdU. cbn [uv_to_Rz]. rewrite sin_PI2, cos_PI2, Rmult_1_r, Rmult_0_r, E, (H1 R HR). unfold Rdiv. ring. }
  assert (Ed2U : cpd2U eps delta (PI / 2) Phi pFR pP2R u = OS_d2U delta eps Phi FR Fz P2R P2z PRz u).
  { rewrite d2U_form. unfold cpd2U. cbn [uv_to_Rz]. rewrite sin_PI2, cos_PI2, Rmult_1_r, Rmult_0_r, E, (H1 R HR), (H2 R HR). unfold Rdiv. ring. }
  assert (EV : OS_V delta u0 Phi (PI / 2) = 0) by (unfold OS_V, refpot, prefactor; change (at_uv delta Phi u0 v0) with (at_uv delta Phi u0 (PI / 2)); rewrite sin_PI2, (ch2 u0); ring).
  assert (A : cOS_pRf eps amp delta (PI / 2) Phi pFR R = amp * OS_Rf delta u0 eps Phi FR Fz R 0).
  { unfold cOS_pRf, OS_Rf. rewrite (spheroidal_uv delta R 0 u (PI / 2) Hd HS). cbn [dprefactor]. rewrite EdU, EV. change (cU delta (PI / 2) Phi u) with (OS_U delta Phi u). unfold prefactor. rewrite sin_PI2, cos_PI2 in *. field. split; lra. }
  split; [exact A|]. unfold cOS_pR2, OS_R2. rewrite (spheroidal_uv delta R 0 u (PI / 2) Hd HS), A. cbn [dprefactor d2prefactor]. rewrite EdU, Ed2U, EV. change (cU delta (PI / 2) Phi u) with (OS_U delta Phi u). rewrite cos_PI2, sin_PI2. unfold Rdiv. ring.
Qed.

(** ** Orbits *)
(** Orbits in the wrapped potential's approximation have the third integral of C47, for the U of the potential in the plane. *)
Theorem C62_third_integral : forall (delta : RR) u0 Phi FR Fz, 0 < delta -> force_of Phi FR Fz -> reference_force delta u0 Phi Fz -> exists U GR Gz, (forall u, U u = cosh u ^ 2 * Phi (delta * sinh u) 0) /\ force_of (OS_ev delta u0 Phi) GR Gz /\
  forall (R vR vT z vz phi : RR -> RR) (a b : RR) o v0u, (forall t, a <= t <= b -> moves GR Gz R vR vT z vz phi t) -> (forall t, a <= t <= b -> starts (o t)) -> (forall t, a <= t <= b -> 0 < v0u t < PI) ->
  let s := fun t => single_init (OS_ev delta u0 Phi) delta (R t) (vR t) (vT t) (z t) (vz t) (o t) (v0u t) in
  constant_on (fun t => third_integral delta U (g_E (s t)) (g_Lz (s t)) (g_ux (s t)) (g_pux (s t))) a b.
Proof.
  intros delta u0 Phi FR Fz Hd HF H0. destruct (C62_forces delta u0 Phi FR Fz Hd HF H0) as (GR & Gz & HG & _). destruct (C62_staeckel delta u0 Phi Hd) as (U & V & EU & _ & St). exists U, GR, Gz. split; [exact EU|]. split; [exact HG|].
  intros R vR vT z vz phi a b o v0u HM Ho Hv s. destruct (C47_conserved delta _ GR Gz U V R vR vT z vz phi a b o v0u Hd HG St HM Ho Hv) as (_ & _ & K & _). exact K.
Qed.

(** ** Non-vacuity *)
(** The Kuzmin-Kutuzov potential is not changed by the wrapper. *)
Example C62_kuzminkutuzov R z : 0 < R -> OS_ev 1 (1 / 2) (KK_ev 5 1) R z = KK_ev 5 1 R z.
Proof. destruct (C47_kuzminkutuzov 5 1) as (_ & _ & _ & U & V & St); [lra|lra|]. apply (C62_exact 1 (1 / 2) _ U V); [lra|lra|exact St]. Qed.
Example C62_kuzminkutuzov_forces : force_of (KK_ev 5 1) (KK_Rf 5 1) (KK_zf 5 1) /\ hessian_of (KK_Rf 5 1) (KK_zf 5 1) (KK_R2 5 1) (KK_z2 5 1) (KK_Rz 5 1) /\ reference_force 1 (1 / 2) (KK_ev 5 1) (KK_zf 5 1) /\ reference_hess 1 (1 / 2) (KK_zf 5 1) (KK_z2 5 1).
Proof. destruct (C47_kuzminkutuzov 5 1) as (A & B & _); [lra|lra|]. split; [exact A|]. split; [exact B|]. split; left; lra. Qed.
(** The default u0 = 0: the harmonic potential R^2/2 + z^2, which is not a Staeckel potential. *)
Example C62_default : let Phi := fun R z : RR => R ^ 2 / 2 + z ^ 2 in let FR := fun R _ : RR => - R in let Fz := fun _ z : RR => - (2 * z) in
  force_of Phi FR Fz /\ hessian_of FR Fz (fun _ _ => 1) (fun _ _ => 2) (fun _ _ => 0) /\ reference_force (1 / 2) 0 Phi Fz /\ reference_hess (1 / 2) 0 Fz (fun _ _ => 2) /\ exists R z, 0 < R /\ OS_ev (1 / 2) 0 Phi R z <> Phi R z.
Proof.
  intros Phi FR Fz. split; [|split; [split|split; [right; split; [reflexivity|]|split; [right; split; [reflexivity|]|]]]].
  - intros x z t vR vz Hx Dx Dz. unfold Phi. apply (is_derive_ext (fun s => / 2 * x s ^ 2 + z s ^ 2)); [intros s; rr; field|]. refine (is_derive_eq _ _ _ _ (is_derive_Rplus _ _ t _ _ (d_scale _ t (/ 2) _ (d_sq _ t _ Dx)) (d_sq _ t _ Dz)) _). unfold FR, Fz. rr. field.
  - intros x z t vR vz Hx Dx Dz. unfold FR. apply (is_derive_ext x); [intros s; rr; ring|]. refine (is_derive_eq _ _ _ _ Dx _). rr. ring.
  - intros x z t vR vz Hx Dx Dz. unfold Fz. apply (is_derive_ext (fun s => 2 * z s)); [intros s; rr; ring|]. refine (is_derive_eq _ _ _ _ (d_scale _ t 2 _ Dz) _). rr. ring.
  - intros z _. unfold Phi, Fz. auto_derive; [exact I|]. rr. field.
  - intros z _. unfold Fz. auto_derive; [exact I|]. rr. field.
  - assert (HS : spheroidal (1 / 2) (1 / 2 * sinh 1 * sin (PI / 4)) (1 / 2 * cosh 1 * cos (PI / 4)) 1 (PI / 4)) by (pose proof PI_RGT_0; repeat split; lra).
    assert (S1 : 0 < sinh 1) by (apply sinh_pos_iff; lra). assert (S4 : 0 < sin (PI / 4)) by (apply sin_gt_0; pose proof PI_RGT_0; lra).
    eexists. eexists. split; [|rewrite (m_ev (1 / 2) 0 Phi _ _ 1 (PI / 4) ltac:(lra) HS)]; [apply Rmult_lt_0_compat; [lra|exact S4]|].
    rewrite U_form. unfold OS_V, refpot, at_uv, uv_to_Rz, prefactor, v0, Phi. rewrite sin_PI2, cos_PI2, sinh_zero, cosh_zero.
    assert (Q4 : sin (PI / 4) ^ 2 = / 2). { rewrite sin_PI4. replace ((1 / sqrt 2) ^ 2) with (/ (sqrt 2 ^ 2)) by (field; apply Rgt_not_eq, sqrt_lt_R0; lra). rewrite pow2_sqrt by lra. reflexivity. }
    assert (C4 : cos (PI / 4) ^ 2 = / 2) by (rewrite (cv2 (PI / 4)), Q4; lra). pose proof (ch2 1) as Q.
    replace ((1 / 2 * sinh 1 * sin (PI / 4)) ^ 2) with (sinh 1 ^ 2 / 4 * sin (PI / 4) ^ 2) by field. replace ((1 / 2 * cosh 1 * cos (PI / 4)) ^ 2) with (cosh 1 ^ 2 / 4 * cos (PI / 4) ^ 2) by field.
    replace ((1 / 2 * 0 * sin (PI / 4)) ^ 2) with 0 by ring. replace ((1 / 2 * 1 * cos (PI / 4)) ^ 2) with (/ 4 * cos (PI / 4) ^ 2) by field. rewrite Q4, C4, Q. set (k := sinh 1 ^ 2). assert (Hk : 0 < k) by (apply pow_lt; exact S1).
    intros K. apply (Rmult_eq_compat_r (k + / 2)) in K. unfold Rdiv in K. rewrite Rmult_assoc, Rinv_l, Rmult_1_r in K by lra. replace ((1 * / 2 * sinh 1) ^ 2) with (k * / 4) in K by (unfold k; field). nra.
Qed.

Print Assumptions C62_staeckel.
Print Assumptions C62_same.
Print Assumptions C62_exact.
Print Assumptions C62_idempotent.
Print Assumptions C62_mirror.
Print Assumptions C62_forces.
Print Assumptions C62_hessian.
Print Assumptions C62_gradient_refuted.
Print Assumptions C62_class.
Print Assumptions C62_class_plane.
Print Assumptions C62_time_refuted.
Print Assumptions C62_C.
Print Assumptions C62_C_plane.
Print Assumptions C62_third_integral.
