(** The three Miyamoto-Nagai disks, and the keywords of the mixin. *)
From Coq Require Import Reals Lra Lia List String FunctionalExtensionality.
From Coquelicot Require Import Coquelicot.
From Verif.Lib Require Import RealAux.
From Verif.Model Require Import PotAPI PotAxi NumDeriv.
From Verif.Spec Require Import PotSpec PotApiSpec NumSpec.
From Verif.Proofs Require Import AxiProofs PotLift.
Import ListNotations.
Open Scope R_scope.
Notation RR := RbaseSymbolsImpl.R (only parsing).
Ltac rr := match goal with |- ?a = ?b => change (@eq RR a b) end.

(** A quartic with positive Bernstein coefficients is positive. *)
Lemma bernstein L x c4 c3 c2 c1 c0 : 0 < L -> 0 <= x <= L -> 0 < c0 -> 0 < c0 + c1 * L / 4 -> 0 < c0 + c1 * L / 2 + c2 * L ^ 2 / 6 -> 0 < c0 + 3 / 4 * c1 * L + c2 * L ^ 2 / 2 + c3 * L ^ 3 / 4 ->
  0 < c0 + c1 * L + c2 * L ^ 2 + c3 * L ^ 3 + c4 * L ^ 4 -> 0 < quartic c4 c3 c2 c1 c0 x.
Proof.
  intros HL Hx H0 H1 H2 H3 H4. unfold quartic. set (v := L - x). assert (Hv : 0 <= v) by (unfold v; lra).
  assert (E : L ^ 4 * (c4 * x ^ 4 + c3 * x ^ 3 + c2 * x ^ 2 + c1 * x + c0) =
    c0 * v ^ 4 + 4 * (c0 + c1 * L / 4) * (x * v ^ 3) + 6 * (c0 + c1 * L / 2 + c2 * L ^ 2 / 6) * (x ^ 2 * v ^ 2) + 4 * (c0 + 3 / 4 * c1 * L + c2 * L ^ 2 / 2 + c3 * L ^ 3 / 4) * (x ^ 3 * v)
    + (c0 + c1 * L + c2 * L ^ 2 + c3 * L ^ 3 + c4 * L ^ 4) * x ^ 4) by (unfold v; field).
  assert (P : forall n, 0 <= v ^ n) by (intros; apply pow_le; lra). assert (Q : forall n, 0 <= x ^ n) by (intros; apply pow_le; lra).
  apply (Rmult_lt_reg_l (L ^ 4)); [apply pow_lt; lra|]. rewrite Rmult_0_r, E. clear E.
  assert (0 <= 4 * (c0 + c1 * L / 4) * (x * v ^ 3)) by (apply Rmult_le_pos; [lra|apply Rmult_le_pos; [lra|apply P]]).
  assert (0 <= 6 * (c0 + c1 * L / 2 + c2 * L ^ 2 / 6) * (x ^ 2 * v ^ 2)) by (apply Rmult_le_pos; [lra|apply Rmult_le_pos; [apply Q|apply P]]).
  assert (0 <= 4 * (c0 + 3 / 4 * c1 * L + c2 * L ^ 2 / 2 + c3 * L ^ 3 / 4) * (x ^ 3 * v)) by (apply Rmult_le_pos; [lra|apply Rmult_le_pos; [apply Q|lra]]).
  destruct (Req_dec v 0) as [Z|Z].
  - assert (0 < x) by (unfold v in Z; lra). assert (0 < (c0 + c1 * L + c2 * L ^ 2 + c3 * L ^ 3 + c4 * L ^ 4) * x ^ 4) by (apply Rmult_lt_0_compat; [exact H4|apply pow_lt; lra]).
    assert (0 <= c0 * v ^ 4) by (apply Rmult_le_pos; [lra|apply P]). lra.
  - assert (0 < c0 * v ^ 4) by (apply Rmult_lt_0_compat; [exact H0|apply pow_lt; lra]). assert (0 <= (c0 + c1 * L + c2 * L ^ 2 + c3 * L ^ 3 + c4 * L ^ 4) * x ^ 4) by (apply Rmult_le_pos; [lra|apply Q]). lra.
Qed.
Lemma quartic_shift c4 c3 c2 c1 c0 x : quartic c4 c3 c2 c1 c0 x + x = quartic c4 c3 c2 (c1 + 1) c0 x.
Proof. unfold quartic. ring. Qed.

Lemma disks_ok (hr : RR) (posdens : bool) (brd m a b : RR) : 0 < hr -> 0 < brd -> (brd <= if posdens then 135 / 100 else 3) -> In (m, a, b) (MN3_disks hr posdens brd) -> b = brd * hr /\ 0 < a + b.
Proof.
  intros Hh H0 H1 HI. assert (G : forall c4 c3 c2 c1 c0, 0 < quartic c4 c3 c2 (c1 + 1) c0 brd -> 0 < quartic c4 c3 c2 c1 c0 brd * hr + brd * hr).
  { intros. rewrite <- Rmult_plus_distr_r, quartic_shift. apply Rmult_lt_0_compat; assumption. }
  unfold MN3_disks in HI. destruct posdens; cbn [In] in HI; destruct HI as [HI|[HI|[HI|[]]]]; injection HI as <- <- <-; split; try reflexivity; apply G;
    [apply (bernstein (135 / 100))|apply (bernstein (135 / 100))|apply (bernstein (135 / 100))|apply (bernstein 3)|apply (bernstein 3)|apply (bernstein 3)]; lra.
Qed.

Definition D2T (_ _ : RR) : Prop := True.
Lemma open_T : slice_open (lift2 D2T).
Proof. intros R z phi t _. repeat split; apply filter_forall; intros; exact I. Qed.

Section Three.
  Variables (fl : bool) (m1 a1 b1 m2 a2 b2 m3 a3 b3 : RR).
  Hypotheses (B1 : b1 <> 0) (B2 : b2 <> 0) (B3 : b3 <> 0).
  Hypotheses (P1 : forall R z, DMN a1 b1 R z) (P2 : forall R z, DMN a2 b2 R z) (P3 : forall R z, DMN a3 b3 R z).
  Let l := [(m1, a1, b1); (m2, a2, b2); (m3, a3, b3)].
  Lemma three_force : AxiForce D2T (MN3_sum fl (fun a b _ => MN_ev a b) l) (MN3_sum fl (fun a b _ => MN_Rf a b) l) (MN3_sum fl MN_zf l).
  Proof.
    destruct (MN_force a1 b1 fl B1) as [X1 Y1]. destruct (MN_force a2 b2 fl B2) as [X2 Y2]. destruct (MN_force a3 b3 fl B3) as [X3 Y3].
    split; intros R z _; cbv beta iota zeta delta [MN3_sum l].
    - eapply is_derive_eq; [exact (is_derive_Rplus _ _ _ _ _ (is_derive_Rplus _ _ _ _ _ (is_derive_Rscal _ _ m1 _ (X1 R z (P1 R z))) (is_derive_Rscal _ _ m2 _ (X2 R z (P2 R z)))) (is_derive_Rscal _ _ m3 _ (X3 R z (P3 R z))))|rr; ring].
    - eapply is_derive_eq; [exact (is_derive_Rplus _ _ _ _ _ (is_derive_Rplus _ _ _ _ _ (is_derive_Rscal _ _ m1 _ (Y1 R z (P1 R z))) (is_derive_Rscal _ _ m2 _ (Y2 R z (P2 R z)))) (is_derive_Rscal _ _ m3 _ (Y3 R z (P3 R z))))|rr; ring].
  Qed.
  Lemma dopp3 (f g h : RR -> RR) x df dg dh : is_derive (fun y => - f y) x df -> is_derive (fun y => - g y) x dg -> is_derive (fun y => - h y) x dh -> is_derive (fun y => - (m1 * f y + m2 * g y + m3 * h y)) x (m1 * df + m2 * dg + m3 * dh).
  Proof.
    intros F G H. apply (is_derive_ext (fun y => m1 * - f y + m2 * - g y + m3 * - h y)); [intros; rr; ring|]. apply is_derive_Rplus; [apply is_derive_Rplus|]; apply is_derive_Rscal; assumption.
  Qed.
  Lemma three_hess : AxiHess D2T (MN3_sum fl (fun a b _ => MN_Rf a b) l) (MN3_sum fl MN_zf l) (MN3_sum fl (fun a b _ => MN_R2 a b) l) (MN3_sum fl MN_z2 l) (MN3_sum fl MN_Rz l).
  Proof.
    destruct (MN_hess a1 b1 fl B1) as [X1 Y1 Z1 W1]. destruct (MN_hess a2 b2 fl B2) as [X2 Y2 Z2 W2]. destruct (MN_hess a3 b3 fl B3) as [X3 Y3 Z3 W3].
    split; intros R z _; cbv beta iota zeta delta [MN3_sum l].
    - exact (dopp3 _ _ _ _ _ _ _ (X1 R z (P1 R z)) (X2 R z (P2 R z)) (X3 R z (P3 R z))).
    - exact (dopp3 _ _ _ _ _ _ _ (Y1 R z (P1 R z)) (Y2 R z (P2 R z)) (Y3 R z (P3 R z))).
    - exact (dopp3 _ _ _ _ _ _ _ (Z1 R z (P1 R z)) (Z2 R z (P2 R z)) (Z3 R z (P3 R z))).
    - exact (dopp3 _ _ _ _ _ _ _ (W1 R z (P1 R z)) (W2 R z (P2 R z)) (W3 R z (P3 R z))).
  Qed.
  Lemma three_poisson : AxiPoisson D2T (MN3_sum fl (fun a b _ => MN_Rf a b) l) (MN3_sum fl (fun a b _ => MN_R2 a b) l) (MN3_sum fl MN_z2 l) (MN3_sum fl MN_dens l).
  Proof.
    intros R z _ HR. unfold MN3_sum, l. pose proof (MN_poisson a1 b1 fl B1 R z (P1 R z) HR) as Q1. pose proof (MN_poisson a2 b2 fl B2 R z (P2 R z) HR) as Q2. pose proof (MN_poisson a3 b3 fl B3 R z (P3 R z) HR) as Q3.
    replace (4 * PI * (m1 * MN_dens a1 b1 fl R z + m2 * MN_dens a2 b2 fl R z + m3 * MN_dens a3 b3 fl R z)) with (m1 * (4 * PI * MN_dens a1 b1 fl R z) + m2 * (4 * PI * MN_dens a2 b2 fl R z) + m3 * (4 * PI * MN_dens a3 b3 fl R z)) by ring.
    rewrite <- Q1, <- Q2, <- Q3. rr. field. lra.
  Qed.
End Three.

Lemma MN_far a b : 0 < a + Rabs b -> is_lim (fun R => R * MN_ev a b R 0) p_infty (- 1).
Proof.
  intros H. set (c := a + Rabs b) in *.
  assert (E : forall R, 0 < R -> R * MN_ev a b R 0 = - / sqrt (1 + (c / R) * (c / R))).
  { intros R HR. unfold MN_ev, MN_b2. replace (0 ^ 2 + b ^ 2) with (Rsqr b) by (unfold Rsqr; ring). rewrite sqrt_Rsqr_abs. fold c.
    replace (R ^ 2 + c ^ 2) with (R * R * (1 + c / R * (c / R))) by (field; lra). assert (0 <= c / R * (c / R)) by (apply Rle_0_sqr). rewrite sqrt_mult by (try nra). rewrite sqrt_square by lra. pose proof (sqrt_lt_R0 (1 + c / R * (c / R)) ltac:(lra)). field. split; lra. }
  apply (is_lim_ext_loc (fun R => - / sqrt (1 + (c / R) * (c / R)))). { exists 0. intros R HR. symmetry. apply E, HR. }
  assert (L : is_lim (fun R => c / R) p_infty 0). { unfold Rdiv. replace (Finite 0) with (Rbar_mult c 0) by (cbn; f_equal; ring). apply is_lim_scal_l. apply is_lim_inv with (l := p_infty); [apply is_lim_id|discriminate]. }
  assert (C : continuous (fun x => - / sqrt (1 + x * x)) 0). { apply (ex_derive_continuous (V := R_NormedModule) (fun x => - / sqrt (1 + x * x))). auto_derive. rewrite Rmult_0_l, Rplus_0_r, sqrt_1. repeat split; lra. }
  replace (-1) with (- / sqrt (1 + 0 * 0)) by (rewrite Rmult_0_l, Rplus_0_r, sqrt_1; field).
  exact (filterlim_comp _ _ _ (fun R => c / R) (fun x => - / sqrt (1 + x * x)) _ (locally 0) _ L C).
Qed.

(** ** Keywords *)
Definition keyeq (k : string) (kv : string * RR) : bool := String.eqb (fst kv) k.
Lemma pop_val k d (kw : list (string * RR)) : fst (pop k d kw) = match find (keyeq k) kw with Some (_, v) => v | None => d end.
Proof. induction kw as [|[n v] r IH]; [reflexivity|]. cbn. unfold keyeq at 1. cbn. destruct (String.eqb n k); [reflexivity|]. destruct (pop k d r). exact IH. Qed.
Lemma filter_id {A} (p : A -> bool) l : (forall x, In x l -> p x = true) -> filter p l = l.
Proof. induction l as [|x l IH]; intros H; [reflexivity|]. cbn. rewrite (H x (or_introl eq_refl)), IH; [reflexivity|]. intros; apply H; right; assumption. Qed.
Lemma pop_rest k d (kw : list (string * RR)) : NoDup (List.map fst kw) -> snd (pop k d kw) = filter (fun kv => negb (keyeq k kv)) kw.
Proof.
  induction kw as [|[n v] r IH]; [reflexivity|]. intros N. inversion N as [|? ? N1 N2]; subst. cbn. unfold keyeq at 1. cbn [fst]. destruct (String.eqb_spec n k) as [->|H]; cbn [negb snd].
  - symmetry. apply filter_id. intros [n' v'] Hx. unfold keyeq. cbn. destruct (String.eqb_spec n' k) as [->|]; [|reflexivity]. exfalso. apply N1. apply (in_map fst) in Hx. exact Hx.
  - specialize (IH N2). destruct (pop k d r). cbn in *. now rewrite IH.
Qed.
Lemma nodup_filter (p : string * RR -> bool) kw : NoDup (List.map fst kw) -> NoDup (List.map fst (filter p kw)).
Proof.
  induction kw as [|[n v] r IH]; [auto|]. intros N. inversion N as [|? ? N1 N2]; subst. cbn. destruct (p (n, v)); [|auto]. cbn. constructor; [|auto]. intros H. apply N1. apply in_map_iff in H as ([n' v'] & E & Hx). cbn in E. subst. apply filter_In in Hx as [Hx _]. apply (in_map fst) in Hx. exact Hx.
Qed.
Lemma find_filter k (p : string * RR -> bool) kw : (forall v, p (k, v) = true) -> find (keyeq k) (filter p kw) = find (keyeq k) kw.
Proof.
  intros H. induction kw as [|[n v] r IH]; [reflexivity|]. cbn. unfold keyeq at 2. cbn. destruct (String.eqb_spec n k) as [->|N].
  - rewrite H. cbn. unfold keyeq. cbn. rewrite String.eqb_refl. reflexivity.
  - destruct (p (n, v)); [|exact IH]. cbn. unfold keyeq at 1. cbn. destruct (String.eqb_spec n k); [contradiction|exact IH].
Qed.
Lemma filter_filter {A} (p q : A -> bool) l : filter p (filter q l) = filter (fun x => andb (q x) (p x)) l.
Proof. induction l as [|x l IH]; [reflexivity|]. cbn. destruct (q x) eqn:Q; cbn; [destruct (p x); now rewrite IH|exact IH]. Qed.
