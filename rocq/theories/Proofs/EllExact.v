(** The integrals of an ellipsoidal potential along smooth curves: the integral over [0, 1] itself. *)
From Coq Require Import Reals Lra Psatz List.
From Coquelicot Require Import Coquelicot.
From Verif.Lib Require Import RealAux Vec3.
From Verif.Model Require Import PotAPI Coords PotEllipsoidal.
From Verif.Spec Require Import PotSpec PotApiSpec EllipsoidalSpec.
From Verif.Proofs Require Import PotLift NonAxiProofs EOMProofs StaeckelProofs KuzminKutuzovProofs SpiralProofs EllProofs EllLaws.
Import ListNotations.
Open Scope R_scope.
Notation RR := RbaseSymbolsImpl.R (only parsing).
Ltac rr := match goal with |- ?a = ?b => change (@eq RR a b) end.

(** ** Continuity *)
Section Ct.
  Context {U : UniformSpace}.
  Implicit Types f g : U -> RR.
  Lemma cplus f g p : continuous f p -> continuous g p -> continuous (fun p => f p + g p) p.
  Proof. intros. apply (@continuous_plus U R_AbsRing R_NormedModule f g); assumption. Qed.
  Lemma cmult f g p : continuous f p -> continuous g p -> continuous (fun p => f p * g p) p.
  Proof. intros. apply (@continuous_mult U R_AbsRing f g); assumption. Qed.
  Lemma ccomp (h : RR -> RR) f p : continuous f p -> continuous h (f p) -> continuous (fun p => h (f p)) p.
  Proof. intros. apply (@continuous_comp U R_UniformSpace R_UniformSpace f h); assumption. Qed.
  Lemma cdiv f g p : continuous f p -> continuous g p -> g p <> 0 -> continuous (fun p => f p / g p) p.
  Proof.
    intros Hf Hg N. apply cmult; [exact Hf|]. apply (ccomp (fun y => / y) g); [exact Hg|]. apply (ex_derive_continuous (V := R_NormedModule)). auto_derive. exact N.
  Qed.
  Lemma cpow f n p : continuous f p -> continuous (fun p => f p ^ n) p.
  Proof. intros Hf. apply (ccomp (fun y => y ^ n) f); [exact Hf|]. apply (ex_derive_continuous (V := R_NormedModule)). auto_derive. exact I. Qed.
  Lemma csqrt f p : continuous f p -> continuous (fun p => sqrt (f p)) p.
  Proof. intros Hf. apply (ccomp sqrt f); [exact Hf|]. apply continuous_sqrt. Qed.
End Ct.

Definition clamp (s : RR) : RR := Rmax 0 (Rmin 1 s).
Lemma clamp_in s : 0 <= clamp s <= 1.
Proof. unfold clamp, Rmax, Rmin. destruct (Rle_dec 1 s), (Rle_dec 0 _); lra. Qed.
Lemma clamp_id s : 0 <= s <= 1 -> clamp s = s.
Proof. intros H. unfold clamp, Rmax, Rmin. destruct (Rle_dec 1 s), (Rle_dec 0 _); lra. Qed.
Lemma clamp_lip x y : Rabs (clamp x - clamp y) <= Rabs (x - y).
Proof.
  unfold clamp, Rmax, Rmin. destruct (Rle_dec 1 x), (Rle_dec 1 y); repeat match goal with |- context [if ?c then _ else _] => destruct c end;
    unfold Rabs; repeat destruct (Rcase_abs _); lra.
Qed.
Lemma clamp_cont s : continuous clamp s.
Proof.
  intros P (eps & H). exists eps. intros y Hy. apply H. change (Rabs (clamp y - clamp s) < eps). eapply Rle_lt_trans; [apply clamp_lip|]. exact Hy.
Qed.

(** A function on m > 0 continued by its limit. *)
Definition ext0 (f : RR -> RR) (l m : RR) : RR := if Rlt_dec 0 m then f m else l.
Lemma ext0_pos f l m : 0 < m -> ext0 f l m = f m.
Proof. intros H. unfold ext0. destruct (Rlt_dec 0 m); [reflexivity|lra]. Qed.
Lemma ext0_0 f l : ext0 f l 0 = l.
Proof. unfold ext0. destruct (Rlt_dec 0 0); [lra|reflexivity]. Qed.
Lemma ext0_cont f l m : (forall m, 0 < m -> continuous f m) -> filterlim f (at_right 0) (locally l) -> continuous (ext0 f l) m.
Proof.
  intros C H. destruct (Rlt_dec 0 m) as [P|P].
  - apply (continuous_ext_loc (ext0 f l) f m); [|apply C; exact P]. apply (filter_imp (fun x => 0 < x)); [|apply locally_pos; exact P].
    intros x Hx. symmetry. apply ext0_pos. exact Hx.
  - intros Q HQ. unfold ext0 in HQ. destruct (Rlt_dec 0 m) as [W|_]; [contradiction|]. destruct (H Q HQ) as (eps & He). unfold ext0.
    destruct (Req_dec m 0) as [->|N].
    + exists eps. intros y Hy. destruct (Rlt_dec 0 y) as [Y|Y]; [apply He; assumption|]. apply (locally_singleton l Q HQ).
    + assert (P' : 0 < - m) by lra. exists (mkposreal _ P'). intros y Hy. change (Rabs (y - m) < - m) in Hy. apply Rabs_def2 in Hy.
      destruct (Rlt_dec 0 y) as [Y|Y]; [lra|]. apply (locally_singleton l Q HQ).
Qed.

(** ** Differentiation under the integral sign *)
Lemma param_int (F : RR -> RR -> RR) (Ft Gt : RR -> RR -> RR) (u : RR) :
  locally u (fun v => forall s, 0 < s < 1 -> F v s = Ft v s) ->
  locally u (fun v => forall s, is_derive (fun w => Ft w s) v (Gt v s)) ->
  locally u (fun v => forall s, continuous (Ft v) s) ->
  (forall s, continuous (fun p : RR * RR => Gt (fst p) (snd p)) (u, s)) ->
  is_derive (fun v => RInt (F v) 0 1) u (RInt (Gt u) 0 1).
Proof.
  intros HF HD HC HG.
  apply (is_derive_ext_loc (fun v => RInt (Ft v) 0 1)).
  { revert HF. apply filter_imp. intros v Hv. symmetry. apply RInt_ext. intros s Hs. rewrite Rmin_left, Rmax_right in Hs by lra. apply Hv. exact Hs. }
  assert (E : RInt (Gt u) 0 1 = RInt (fun s => Derive (fun w => Ft w s) u) 0 1).
  { apply RInt_ext. intros s _. symmetry. apply is_derive_unique. apply (locally_singleton _ _ HD). }
  rewrite E. apply is_derive_RInt_param.
  - revert HD. apply filter_imp. intros v Hv s _. exists (Gt v s). apply Hv.
  - intros s _. apply continuity_2d_pt_filterlim. specialize (HG s).
    assert (E1 : Derive (fun z => Ft z s) u = Gt u s) by (apply is_derive_unique; apply (locally_singleton _ _ HD)). rewrite E1.
    apply (filterlim_ext_loc (fun p : RR * RR => Gt (fst p) (snd p))); [|exact HG].
    destruct HD as (eps & HD). exists eps. intros (v, s') (Hv & _). symmetry. apply is_derive_unique. apply HD. exact Hv.
  - revert HC. apply filter_imp. intros v Hv. apply (ex_RInt_continuous (V := R_CompleteNormedModule)). intros s _. apply Hv.
Qed.

Section Exact.
  Variable e : Ell.
  Notation b := (e_b e).
  Notation c := (e_c e).
  Notation psi := (e_psi e).
  Notation dens := (e_mdens e).
  Notation deriv := (e_mderiv e).
  Hypothesis Hb : 0 < b.
  Hypothesis Hc : 0 < c.
  Hypothesis Hp : is_profile psi dens deriv.
  Variable l : RR.
  Hypothesis Hd : forall m, 0 < m -> continuous deriv m.
  Hypothesis Hl : filterlim psi (at_right 0) (locally l).
  Hypothesis H2 : filterlim (fun m => m ^ 2 * dens m) (at_right 0) (locally 0).
  Hypothesis H3 : filterlim (fun m => m ^ 3 * deriv m) (at_right 0) (locally 0).

  Definition psi_e := ext0 psi l.
  Definition phi2 := ext0 (fun m => m ^ 2 * dens m) 0.
  Definition phi3 := ext0 (fun m => m ^ 3 * deriv m) 0.
  Lemma psi_c m : continuous psi_e m.
  Proof. apply ext0_cont; [|exact Hl]. intros k Hk. apply (ex_derive_continuous (V := R_NormedModule)). eexists. apply (proj1 (Hp k Hk)). Qed.
  Lemma dens_c m : 0 < m -> continuous dens m.
  Proof. intros Hm. apply (ex_derive_continuous (V := R_NormedModule)). eexists. apply (proj2 (Hp m Hm)). Qed.
  Lemma cid (x : RR) : continuous (fun m : RR => m) x.
  Proof. apply continuous_id. Qed.
  Lemma phi2_c m : continuous phi2 m.
  Proof. apply ext0_cont; [|exact H2]. intros k Hk. apply cmult; [apply cpow, cid|apply dens_c; exact Hk]. Qed.
  Lemma phi3_c m : continuous phi3 m.
  Proof. apply ext0_cont; [|exact H3]. intros k Hk. apply cmult; [apply cpow, cid|apply Hd; exact Hk]. Qed.

  Definition qk (k s : RR) : RR := 1 / (1 + (k ^ 2 - 1) * clamp s ^ 2).
  Definition DD (s : RR) : RR := ell_denom e (clamp s).
  Lemma one_c k s : 0 < k -> 0 < 1 + (k ^ 2 - 1) * clamp s ^ 2.
  Proof. intros Hk. apply one_pos; [exact Hk|apply clamp_in]. Qed.
  Lemma qk_pos k s : 0 < k -> 0 < qk k s.
  Proof. intros Hk. apply Rdiv_lt_0_compat; [lra|apply one_c; exact Hk]. Qed.
  Lemma DD_pos s : 0 < DD s.
  Proof. apply den_pos; [exact Hb|exact Hc|apply clamp_in]. Qed.
  Lemma ccst {U : UniformSpace} (k : RR) (p : U) : continuous (fun _ : U => k) p.
  Proof. apply continuous_const. Qed.
  Lemma qk_c k s : 0 < k -> continuous (qk k) s.
  Proof.
    intros Hk. unfold qk. apply cdiv; [apply ccst| |pose proof (one_c k s Hk); lra].
    apply cplus; [apply ccst|]. apply cmult; [apply ccst|]. apply cpow. apply clamp_cont.
  Qed.
  Lemma DD_c s : continuous DD s.
  Proof.
    unfold DD, ell_denom. apply csqrt. apply cmult; (apply cplus; [apply ccst|]; apply cmult; [apply ccst|]; apply cpow; apply clamp_cont).
  Qed.

  (** At a point, for one value of the integration variable. *)
  Definition mu2 (x y z s : RR) : RR := x ^ 2 * 1 + y ^ 2 * qk b s + z ^ 2 * qk c s.
  Definition me (x y z s : RR) : RR := clamp s * sqrt (mu2 x y z s).
  Lemma mu2_pos x y z s : off3 x y z -> 0 < mu2 x y z s.
  Proof. intros H. apply form_pos; [exact H|lra|apply qk_pos; exact Hb|apply qk_pos; exact Hc]. Qed.
  Definition Pe x y z s : RR := psi_e (me x y z s) / DD s.
  Definition Ae k x y z s : RR := phi2 (me x y z s) / mu2 x y z s * qk k s / DD s.
  Definition Be j k x y z s : RR := phi3 (me x y z s) / mu2 x y z s ^ 2 * qk j s * qk k s / DD s.

  (** The factor of the code for the semi-axis k. *)
  Definition ik (k s : RR) : RR := 1 / (k ^ 2 + ell_t s).
  Lemma ik_1 s : ell_i1 s = ik 1 s.
  Proof. unfold ell_i1, ik. f_equal. ring. Qed.
  Lemma ik_q k s : 0 < k -> 0 < s <= 1 -> ik k s = s ^ 2 * qk k s.
  Proof. intros Hk Hs. unfold ik, qk. rewrite (ik_eq k s Hk Hs), clamp_id by lra. rr. unfold Rdiv. ring. Qed.
  Lemma q1 s : qk 1 s = 1.
  Proof. unfold qk. replace (1 + (1 ^ 2 - 1) * clamp s ^ 2) with 1 by ring. lra. Qed.
  Lemma me_eq x y z s : 0 < s <= 1 -> ell_m e x y z s = me x y z s.
  Proof.
    intros Hs. unfold ell_m, me, mu2. rewrite ik_1. change (ell_ib e s) with (ik b s). change (ell_ic e s) with (ik c s).
    rewrite !ik_q by (assumption || lra). rewrite clamp_id by lra. rewrite q1.
    transitivity (sqrt (s ^ 2 * (x ^ 2 * 1 + y ^ 2 * qk b s + z ^ 2 * qk c s))); [f_equal; ring|].
    rewrite sqrt_mult_alt by nra. rewrite sqrt_pow2 by lra. reflexivity.
  Qed.
  Lemma me_pos x y z s : off3 x y z -> 0 < s <= 1 -> 0 < me x y z s.
  Proof. intros H Hs. unfold me. rewrite clamp_id by lra. apply Rmult_lt_0_compat; [lra|]. apply sqrt_lt_R0, mu2_pos, H. Qed.
  Lemma me_0 x y z : me x y z 0 = 0.
  Proof. unfold me. rewrite clamp_id by lra. ring. Qed.
  Lemma me_clamp x y z s : me x y z (clamp s) = me x y z s.
  Proof. unfold me, mu2, qk. rewrite (clamp_id (clamp s)) by apply clamp_in. reflexivity. Qed.
  Lemma Pe_eq x y z s : off3 x y z -> 0 < s <= 1 -> psi (ell_m e x y z s) / ell_denom e s = Pe x y z s.
  Proof. intros H Hs. unfold Pe, DD, psi_e. rewrite me_eq, clamp_id by (assumption || lra). rewrite ext0_pos by (apply me_pos; assumption). reflexivity. Qed.
  Lemma me_sq x y z s : off3 x y z -> 0 < s <= 1 -> me x y z s ^ 2 = s ^ 2 * mu2 x y z s.
  Proof. intros H Hs. unfold me. rewrite clamp_id by lra. pose proof (mu2_pos x y z s H). rewrite <- (pow2_sqrt (mu2 x y z s)) at 2 by lra. ring. Qed.
  Lemma Ae_eq k v x y z s : 0 < k -> off3 x y z -> 0 < s <= 1 -> dens (ell_m e x y z s) * (v * ik k s) / ell_denom e s = v * Ae k x y z s.
  Proof.
    intros Hk H Hs. unfold Ae, DD, phi2. rewrite me_eq, clamp_id by (assumption || lra). rewrite ext0_pos by (apply me_pos; assumption).
    rewrite me_sq, ik_q by assumption. pose proof (mu2_pos x y z s H). pose proof (den_pos e Hb Hc s ltac:(lra)). rr. field. lra.
  Qed.
  Lemma Be_eq j k v w x y z s : 0 < j -> 0 < k -> off3 x y z -> 0 < s <= 1 ->
    deriv (ell_m e x y z s) * (v * ik j s) * (w * ik k s) / ell_m e x y z s / ell_denom e s = v * w * Be j k x y z s.
  Proof.
    intros Hj Hk H Hs. unfold Be, DD, phi3. rewrite me_eq, clamp_id by (assumption || lra). pose proof (me_pos x y z s H Hs) as M. rewrite ext0_pos by exact M.
    pose proof (me_sq x y z s H Hs) as Q. rewrite !ik_q by assumption. pose proof (mu2_pos x y z s H) as P. pose proof (den_pos e Hb Hc s ltac:(lra)) as D.
    set (m := me x y z s) in *. set (u2 := mu2 x y z s) in *. clearbody m u2.
    assert (E : m ^ 3 / u2 ^ 2 = s ^ 4 / m). { apply Rmult_eq_reg_r with (m * u2 ^ 2); [|apply Rgt_not_eq, Rmult_lt_0_compat; nra]. field_simplify; [|lra|lra]. replace (m ^ 4) with ((m ^ 2) ^ 2) by ring. rewrite Q. ring. }
    transitivity (v * w * (deriv m * (m ^ 3 / u2 ^ 2) * qk j s * qk k s / ell_denom e s)); [rewrite E; field; lra|]. unfold Rdiv. ring.
  Qed.

  (** Continuity in the curve parameter and the integration variable together. *)
  Section Joint.
    Variables X Y Z : RR -> RR.
    Notation pr f := (fun p : RR * RR => f (X (fst p)) (Y (fst p)) (Z (fst p)) (snd p)).
    Variables u s : RR.
    Hypothesis CX : continuous X u.
    Hypothesis CY : continuous Y u.
    Hypothesis CZ : continuous Z u.
    Hypothesis Ho : off3 (X u) (Y u) (Z u).
    Notation p0 := ((u, s) : RR * RR).
    Lemma cv (f : RR -> RR) : continuous f u -> continuous (fun p : RR * RR => f (fst p)) p0.
    Proof. intros H. apply (ccomp f (fun p : RR * RR => fst p) p0); [apply continuous_fst|exact H]. Qed.
    Lemma cs (f : RR -> RR) : continuous f s -> continuous (fun p : RR * RR => f (snd p)) p0.
    Proof. intros H. apply (ccomp f (fun p : RR * RR => snd p) p0); [apply continuous_snd|exact H]. Qed.
    Lemma mu2_j : continuous (pr mu2) p0.
    Proof.
      unfold mu2. apply cplus; [apply cplus|]; apply cmult; try apply cpow; try (apply cv; assumption); [apply ccst| |].
      - apply (cs (qk b)). apply qk_c; exact Hb.
      - apply (cs (qk c)). apply qk_c; exact Hc.
    Qed.
    Lemma me_j : continuous (pr me) p0.
    Proof. unfold me. apply cmult; [apply (cs clamp), clamp_cont|]. apply csqrt. apply mu2_j. Qed.
    Lemma DD_ne : DD s <> 0.
    Proof. pose proof (DD_pos s). lra. Qed.
    Lemma mu2_ne : mu2 (X u) (Y u) (Z u) s <> 0.
    Proof. pose proof (mu2_pos _ _ _ s Ho). lra. Qed.
    Lemma Pe_j : continuous (pr Pe) p0.
    Proof. unfold Pe. apply cdiv; [|apply (cs DD), DD_c|apply DD_ne]. apply (ccomp psi_e (pr me)); [apply me_j|apply psi_c]. Qed.
    Lemma Ae_j k : 0 < k -> continuous (pr (Ae k)) p0.
    Proof.
      intros Hk. unfold Ae. apply cdiv; [|apply (cs DD), DD_c|apply DD_ne]. apply cmult; [|apply (cs (qk k)), qk_c; exact Hk].
      apply cdiv; [|apply mu2_j|apply mu2_ne]. apply (ccomp phi2 (pr me)); [apply me_j|apply phi2_c].
    Qed.
    Lemma Be_j j k : 0 < j -> 0 < k -> continuous (pr (Be j k)) p0.
    Proof.
      intros Hj Hk. unfold Be. apply cdiv; [|apply (cs DD), DD_c|apply DD_ne].
      apply cmult; [apply cmult; [|apply (cs (qk j)), qk_c; exact Hj]|apply (cs (qk k)), qk_c; exact Hk].
      apply cdiv; [|apply cpow, mu2_j|apply pow_nonzero, mu2_ne]. apply (ccomp phi3 (pr me)); [apply me_j|apply phi3_c].
    Qed.
  End Joint.
  Lemma slice_s (f : RR -> RR -> RR -> RR -> RR) x y z s :
    continuous (fun p : RR * RR => f x y z (snd p)) ((0, s) : RR * RR) -> continuous (f x y z) s.
  Proof.
    intros H. apply (@continuous_comp R_UniformSpace (prod_UniformSpace R_UniformSpace R_UniformSpace) R_UniformSpace (fun s => (0, s)) (fun p => f x y z (snd p)) s).
    - apply continuous_comp_2 with (f := fun _ : RR => 0) (g := fun s : RR => s) (h := fun a b : RR => (a, b)); [apply ccst|apply cid|]. 
      apply (continuous_ext (fun p : RR * RR => p)); [intros (? & ?); reflexivity|apply continuous_id].
    - exact H.
  Qed.
  Lemma Pe_s x y z s : off3 x y z -> continuous (Pe x y z) s.
  Proof. intros H. apply slice_s. apply (Pe_j (fun _ => x) (fun _ => y) (fun _ => z) 0 s (ccst _ _) (ccst _ _) (ccst _ _)). Qed.
  Lemma Ae_s k x y z s : 0 < k -> off3 x y z -> continuous (Ae k x y z) s.
  Proof. intros Hk H. apply slice_s. apply (Ae_j (fun _ => x) (fun _ => y) (fun _ => z) 0 s (ccst _ _) (ccst _ _) (ccst _ _) H k Hk). Qed.
  Lemma Be_s j k x y z s : 0 < j -> 0 < k -> off3 x y z -> continuous (Be j k x y z) s.
  Proof. intros Hj Hk H. apply slice_s. apply (Be_j (fun _ => x) (fun _ => y) (fun _ => z) 0 s (ccst _ _) (ccst _ _) (ccst _ _) H j k Hj Hk). Qed.

  Lemma cl_Pe x y z s : Pe x y z (clamp s) = Pe x y z s.
  Proof. unfold Pe, DD. rewrite me_clamp, (clamp_id (clamp s)) by apply clamp_in. reflexivity. Qed.
  Lemma cl_Ae k x y z s : Ae k x y z (clamp s) = Ae k x y z s.
  Proof. unfold Ae, DD, mu2, qk. rewrite me_clamp, (clamp_id (clamp s)) by apply clamp_in. reflexivity. Qed.
  Lemma cl_Be j k x y z s : Be j k x y z (clamp s) = Be j k x y z s.
  Proof. unfold Be, DD, mu2, qk. rewrite me_clamp, (clamp_id (clamp s)) by apply clamp_in. reflexivity. Qed.
  Lemma z_Ae k x y z : Ae k x y z 0 = 0.
  Proof. unfold Ae, phi2. rewrite me_0, ext0_0. rr. unfold Rdiv. ring. Qed.
  Lemma z_Be j k x y z : Be j k x y z 0 = 0.
  Proof. unfold Be, phi3. rewrite me_0, ext0_0. rr. unfold Rdiv. ring. Qed.
  Lemma Be_sym j k x y z s : Be j k x y z s = Be k j x y z s.
  Proof. unfold Be. rr. unfold Rdiv. ring. Qed.

  Section Along.
    Variables X Y Z dX dY dZ : RR -> RR.
    Hypothesis SX : smooth X dX.
    Hypothesis SY : smooth Y dY.
    Hypothesis SZ : smooth Z dZ.
    Lemma sm_c f df v : smooth f df -> continuous f v.
    Proof. intros (H & _). apply (ex_derive_continuous (V := R_NormedModule)). eexists. apply H. Qed.
    Lemma off3_open u : off3 (X u) (Y u) (Z u) -> locally u (fun v => off3 (X v) (Y v) (Z v)).
    Proof.
      assert (G : forall f, continuous f u -> f u <> 0 -> locally u (fun x : RR => f x <> 0)) by (intros f C N; exact (C _ (open_neq 0 _ N))).
      intros [H|[H|H]]; [pose proof (G X (sm_c _ _ u SX) H) as A|pose proof (G Y (sm_c _ _ u SY) H) as A|pose proof (G Z (sm_c _ _ u SZ) H) as A];
        revert A; apply filter_imp; intros v Hv; unfold off3; tauto.
    Qed.
    Notation at_ f v s := (f (X v) (Y v) (Z v) s).
    Lemma Pe_d v s : off3 (X v) (Y v) (Z v) -> is_derive (fun w => at_ Pe w s) v
      (2 * (at_ (Ae 1) v s * (X v * dX v) + at_ (Ae b) v s * (Y v * dY v) + at_ (Ae c) v s * (Z v * dZ v))).
    Proof.
      intros H. apply (is_derive_ext (fun w => at_ Pe w (clamp s))); [intros; apply cl_Pe|].
      rewrite <- (cl_Ae 1), <- (cl_Ae b), <- (cl_Ae c). pose proof (clamp_in s) as I. set (r := clamp s) in *. clearbody r.
      destruct (Req_dec r 0) as [->|N].
      - rewrite !z_Ae. apply (is_derive_eq _ _ 0); [|rr; ring].
        apply (is_derive_ext (fun _ => l / DD 0)); [|apply is_derive_cst]. intros w. unfold Pe, psi_e. rewrite me_0, ext0_0. reflexivity.
      - assert (Hr : 0 < r <= 1) by lra. apply (is_derive_ext_loc (fun w => psi (at_ (ell_m e) w r) / ell_denom e r)).
        { generalize (off3_open v H). apply filter_imp. intros w Hw. apply Pe_eq; assumption. }
        refine (is_derive_eq _ _ _ _ _ _); [apply (pot_term e Hb Hc Hp X Y Z v _ _ _ (proj1 SX v) (proj1 SY v) (proj1 SZ v) H r Hr)|].
        unfold along. rewrite ik_1. change (ell_ib e r) with (ik b r). change (ell_ic e r) with (ik c r).
        pose proof (Ae_eq 1 (X v) _ _ _ r Rlt_0_1 H Hr) as E1. pose proof (Ae_eq b (Y v) _ _ _ r Hb H Hr) as E2. pose proof (Ae_eq c (Z v) _ _ _ r Hc H Hr) as E3.
        transitivity (2 * ((X v * at_ (Ae 1) v r) * dX v + (Y v * at_ (Ae b) v r) * dY v + (Z v * at_ (Ae c) v r) * dZ v)); [|rr; ring].
        rewrite <- E1, <- E2, <- E3. rr. unfold Rdiv. ring.
    Qed.
    Variables V dV : RR -> RR.
    Hypothesis SV : smooth V dV.
    Variable k : RR.
    Hypothesis Hk : 0 < k.
    Lemma Ae_d v s : off3 (X v) (Y v) (Z v) -> is_derive (fun w => V w * at_ (Ae k) w s) v
      (V v * (at_ (Be k 1) v s * (X v * dX v) + at_ (Be k b) v s * (Y v * dY v) + at_ (Be k c) v s * (Z v * dZ v)) + dV v * at_ (Ae k) v s).
    Proof.
      intros H. apply (is_derive_ext (fun w => V w * at_ (Ae k) w (clamp s))); [intros; rewrite cl_Ae; reflexivity|].
      rewrite <- (cl_Be k 1), <- (cl_Be k b), <- (cl_Be k c), <- (cl_Ae k). pose proof (clamp_in s) as I. set (r := clamp s) in *. clearbody r.
      destruct (Req_dec r 0) as [->|N].
      - rewrite !z_Ae, !z_Be. apply (is_derive_eq _ _ 0); [|rr; ring].
        apply (is_derive_ext (fun _ => 0)); [|apply is_derive_cst]. intros w. rewrite z_Ae. rr. ring.
      - assert (Hr : 0 < r <= 1) by lra. apply (is_derive_ext_loc (fun w => dens (at_ (ell_m e) w r) * (V w * ik k r) / ell_denom e r)).
        { generalize (off3_open v H). apply filter_imp. intros w Hw. apply Ae_eq; assumption. }
        refine (is_derive_eq _ _ _ _ _ _); [apply (force_term e Hb Hc Hp X Y Z v _ _ _ (proj1 SX v) (proj1 SY v) (proj1 SZ v) H V _ (proj1 SV v) (ik k) r Hr)|].
        unfold along. rewrite ik_1. change (ell_ib e r) with (ik b r). change (ell_ic e r) with (ik c r).
        pose proof (Be_eq k 1 (V v) (X v) _ _ _ r Hk Rlt_0_1 H Hr) as E1. pose proof (Be_eq k b (V v) (Y v) _ _ _ r Hk Hb H Hr) as E2. pose proof (Be_eq k c (V v) (Z v) _ _ _ r Hk Hc H Hr) as E3.
        pose proof (Ae_eq k (dV v) _ _ _ r Hk H Hr) as E4.
        transitivity ((V v * X v * at_ (Be k 1) v r) * dX v + (V v * Y v * at_ (Be k b) v r) * dY v + (V v * Z v * at_ (Be k c) v r) * dZ v + dV v * at_ (Ae k) v r); [|rr; ring].
        rewrite <- E1, <- E2, <- E3, <- E4. rr. unfold Rdiv. ring.
    Qed.
  End Along.
End Exact.
