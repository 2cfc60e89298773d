(** Derivatives of the closed-form axisymmetric potentials, on plain functions of (R, z). *)
From Coq Require Import Reals Lra Psatz.
From Coquelicot Require Import Coquelicot.
From Verif.Lib Require Import RealAux.
From Verif.Model Require Import PotAPI PotAxi.
Open Scope R_scope.
Notation RR := RbaseSymbolsImpl.R (only parsing).

(** Everything that has to be shown about one axisymmetric class. *)
Record AxiForce (D : RR -> RR -> Prop) (ev Rf zf : RR -> RR -> RR) : Prop := {
  af_R : forall R z, D R z -> is_derive (fun x => ev x z) R (- Rf R z);
  af_z : forall R z, D R z -> is_derive (fun x => ev R x) z (- zf R z) }.
Record AxiHess (D : RR -> RR -> Prop) (Rf zf R2 z2 Rz : RR -> RR -> RR) : Prop := {
  ah_R2 : forall R z, D R z -> is_derive (fun x => - Rf x z) R (R2 R z);
  ah_z2 : forall R z, D R z -> is_derive (fun x => - zf R x) z (z2 R z);
  ah_Rz : forall R z, D R z -> is_derive (fun x => - Rf R x) z (Rz R z);
  ah_zR : forall R z, D R z -> is_derive (fun x => - zf x z) R (Rz R z) }.
Definition AxiPoisson (D : RR -> RR -> Prop) (Rf R2 z2 dn : RR -> RR -> RR) : Prop :=
  forall R z, D R z -> 0 < R -> - Rf R z / R + R2 R z + z2 R z = 4 * PI * dn R z.

Ltac fold_rpow := repeat match goal with
  | |- context [exp (?y * ln ?x)] => change (exp (y * ln x)) with (rpow x y) end.

(** equations produced by unification may be typed in an AbsRing; bring them back to R *)
Ltac toR := match goal with |- ?a = ?b => change (@eq RbaseSymbolsImpl.R a b) end.

(** replace half-integer powers by powers of the square root *)
Ltac halfpow := repeat first
  [ rewrite rpow_opp | rewrite rpow_3_2 by (auto; nra) | rewrite rpow_5_2 by (auto; nra)
  | rewrite rpow_7_2 by (auto; nra) | rewrite rpow_1_2 by (auto; nra) ].

Lemma origin_pos R z : (R <> 0 \/ z <> 0) -> 0 < R ^ 2 + z ^ 2.
Proof.
  intros [H|H].
  - pose proof (Rlt_0_sqr R H). pose proof (Rle_0_sqr z). unfold Rsqr in *. nra.
  - pose proof (Rlt_0_sqr z H). pose proof (Rle_0_sqr R). unfold Rsqr in *. nra.
Qed.
Lemma sq_pos x : x <> 0 -> 0 < x ^ 2.
Proof. intros H. pose proof (Rlt_0_sqr x H). unfold Rsqr in *. nra. Qed.

Section MNp.
  Variables (a b : RR) (fl : bool).
  Hypothesis Hb : b <> 0.
  (** a + sqrt(z^2+b^2) does not vanish together with R *)
  Definition DMN (R z : RR) : Prop := R <> 0 \/ a + sqrt (z ^ 2 + b ^ 2) <> 0.
  Lemma MN_u z : 0 < z ^ 2 + b ^ 2.
  Proof. pose proof (sq_pos b Hb). nra. Qed.
  Lemma MN_v R z : DMN R z -> 0 < R ^ 2 + (a + sqrt (z ^ 2 + b ^ 2)) ^ 2.
  Proof. intros H. apply origin_pos. exact H. Qed.
  Lemma MN_force : AxiForce DMN (MN_ev a b) (MN_Rf a b) (MN_zf a b fl).
  Proof.
    split; intros R z HD; pose proof (MN_u z) as Hu; pose proof (MN_v R z HD) as Hv; clear HD.
    - unfold MN_ev, MN_Rf, MN_b2. auto_derive.
      + repeat split; auto. apply Rgt_not_eq, sqrt_lt_R0, Hv.
      + halfpow. set (v := sqrt (_ + _ ^ 2)). pose proof (sqrt_lt_R0 _ Hv) as Hs. fold v in Hs.
        field. lra.
    - unfold MN_ev, MN_zf, MN_special, MN_b2, MN_asq, MN_sq, MN_b2.
      replace (b ^ 2 + z ^ 2) with (z ^ 2 + b ^ 2) by ring.
      auto_derive.
      + repeat split; auto. apply Rgt_not_eq, sqrt_lt_R0, Hv.
      + rewrite !rpow_3_2 by auto.
        set (u := sqrt (z ^ 2 + b ^ 2)) in *. pose proof (sqrt_lt_R0 _ Hu) as Hs. fold u in Hs.
        pose proof (sqrt_lt_R0 _ Hv) as Ht. set (v := sqrt (_ + _ ^ 2)) in *.
        destruct fl; [destruct (Req_EM_T u (a + u)) as [E|E]|].
        * assert (a = 0) by lra. subst a. field. lra.
        * field. lra.
        * field. lra.
  Qed.

  Ltac mnsetup u v Hu Hv Hs Ht Eu Ev :=
    match type of Hu with 0 < ?x =>
      pose proof (sqrt_lt_R0 _ Hu) as Hs; pose proof (sqrt_sqrt x (Rlt_le _ _ Hu)) as Eu;
      set (u := sqrt x) in * end;
    match type of Hv with 0 < ?x =>
      pose proof (sqrt_lt_R0 _ Hv) as Ht; pose proof (sqrt_sqrt x (Rlt_le _ _ Hv)) as Ev;
      set (v := sqrt x) in * end; clearbody v; clearbody u.

  Lemma MN_hess : AxiHess DMN (MN_Rf a b) (MN_zf a b fl) (MN_R2 a b) (MN_z2 a b fl) (MN_Rz a b fl).
  Proof.
    assert (Hzf : forall R z, DMN R z -> - MN_zf a b fl R z
       = z * (a + sqrt (z ^ 2 + b ^ 2)) / sqrt (z ^ 2 + b ^ 2)
         / rpow (R ^ 2 + (a + sqrt (z ^ 2 + b ^ 2)) ^ 2) (3/2)).
    { intros R z HD. pose proof (MN_u z) as Hu; pose proof (MN_v R z HD) as Hv; clear HD.
      unfold MN_zf, MN_special, MN_asq, MN_sq, MN_b2.
      replace (b ^ 2 + z ^ 2) with (z ^ 2 + b ^ 2) by ring.
      rewrite !rpow_3_2 by auto. mnsetup u v Hu Hv Hs Ht Eu Ev.
      destruct fl; [destruct (Req_EM_T u (a + u)) as [E|E]|].
      * assert (a = 0) by lra. subst a. field. lra.
      * field. lra.
      * field. lra. }
    assert (HDz : forall R z, DMN R z -> locally z (fun y => DMN R y)).
    { intros R z [H|H].
      - exists (mkposreal 1 Rlt_0_1). intros y _. left; auto.
      - assert (Hc : continuous (fun y => a + sqrt (y ^ 2 + b ^ 2)) z).
        { apply (ex_derive_continuous (fun y => a + sqrt (y ^ 2 + b ^ 2))). auto_derive. pose proof (MN_u z); auto. }
        pose proof (Hc (fun v => v <> 0)) as Hl.
        eapply filter_imp; [|apply Hl; apply (open_neq 0); exact H].
        intros y Hy; right; exact Hy. }
    assert (HDR : forall R z, DMN R z -> locally R (fun y => DMN y z)).
    { intros R z [H|H].
      - eapply filter_imp; [|apply (open_neq 0 R H)]. intros y Hy. left; auto.
      - exists (mkposreal 1 Rlt_0_1). intros y _. right; auto. }
    split; intros R z HD; pose proof (MN_u z) as Hu; pose proof (MN_v R z HD) as Hv.
    - clear HD. unfold MN_Rf, MN_R2, MN_b2, rpow, Rpower. auto_derive.
      + repeat split; auto. apply Rgt_not_eq, exp_pos.
      + fold_rpow. halfpow. mnsetup u v Hu Hv Hs Ht Eu Ev. rewrite <- Ev. field. lra.
    - eapply is_derive_loc with (P := fun y => DMN R y); [apply HDz; auto| intros y Hy; symmetry; apply Hzf; auto|].
      clear HD Hzf HDz HDR.
      unfold MN_z2, MN_special, MN_asq, MN_sq, MN_b2.
      replace (b ^ 2 + z ^ 2) with (z ^ 2 + b ^ 2) by ring.
      unfold rpow, Rpower. auto_derive.
      + repeat split; auto. apply Rgt_not_eq, sqrt_lt_R0; auto.  apply Rgt_not_eq, exp_pos.
      + fold_rpow.
        replace (b ^ 2 + R ^ 2 + z ^ 2) with (R ^ 2 + (z ^ 2 + b ^ 2)) by ring.
        assert (0 < R ^ 2 + (z ^ 2 + b ^ 2)) by nra.
        halfpow.
        destruct fl; [destruct (Req_EM_T _ _) as [E|E]|].
        * assert (a = 0) by lra. subst a. rewrite Rplus_0_l in *.
          rewrite sqrt_sq_eq in * by lra.
          mnsetup u v Hu Hv Hs Ht Eu Ev.
          assert (Eb : b ^ 2 = u * u - z ^ 2) by lra.
          assert (ER : R ^ 2 = v * v - u * u) by lra.
          rewrite <- ?Ev. rewrite ?Eb, ?ER. field. lra.
        * mnsetup u v Hu Hv Hs Ht Eu Ev.
          assert (Eb : b ^ 2 = u * u - z ^ 2) by lra.
          assert (ER : R ^ 2 = v * v - (a + u) ^ 2) by lra.
          rewrite <- ?Ev. rewrite ?Eb, ?ER. field. lra.
        * mnsetup u v Hu Hv Hs Ht Eu Ev.
          assert (Eb : b ^ 2 = u * u - z ^ 2) by lra.
          assert (ER : R ^ 2 = v * v - (a + u) ^ 2) by lra.
          rewrite <- ?Ev. rewrite ?Eb, ?ER. field. lra.
    - clear HD Hzf HDz HDR. unfold MN_Rf, MN_Rz, MN_special, MN_asq, MN_sq, MN_b2.
      replace (b ^ 2 + z ^ 2) with (z ^ 2 + b ^ 2) by ring.
      unfold rpow, Rpower. auto_derive.
      + repeat split; auto. apply Rgt_not_eq, exp_pos.
      + fold_rpow. halfpow. mnsetup u v Hu Hv Hs Ht Eu Ev.
        destruct fl; [destruct (Req_EM_T _ _) as [E|E]|].
        * assert (a = 0) by lra. subst a. rewrite <- Ev. field. lra.
        * rewrite <- Ev. field. lra.
        * rewrite <- Ev. field. lra.
    - eapply is_derive_loc with (P := fun y => DMN y z); [apply HDR; auto| intros y Hy; symmetry; apply Hzf; auto|].
      clear HD Hzf HDz HDR. unfold MN_Rz, MN_special, MN_asq, MN_sq, MN_b2.
      replace (b ^ 2 + z ^ 2) with (z ^ 2 + b ^ 2) by ring.
      unfold rpow, Rpower. auto_derive.
      + repeat split; auto. apply Rgt_not_eq, exp_pos.
      + fold_rpow. halfpow. mnsetup u v Hu Hv Hs Ht Eu Ev.
        destruct fl; [destruct (Req_EM_T _ _) as [E|E]|].
        * assert (a = 0) by lra. subst a. rewrite <- Ev. field. lra.
        * rewrite <- Ev. field. lra.
        * rewrite <- Ev. field. lra.
  Qed.

  Lemma MN_poisson : AxiPoisson DMN (MN_Rf a b) (MN_R2 a b) (MN_z2 a b fl) (MN_dens a b fl).
  Proof.
    intros R z HD HR. pose proof (MN_u z) as Hu; pose proof (MN_v R z HD) as Hv; clear HD.
    unfold MN_Rf, MN_R2, MN_z2, MN_dens, MN_special, MN_asq, MN_sq, MN_b2.
    replace (b ^ 2 + z ^ 2) with (z ^ 2 + b ^ 2) by ring.
    replace (b ^ 2 + R ^ 2 + z ^ 2) with (R ^ 2 + (z ^ 2 + b ^ 2)) by ring.
    assert (0 < R ^ 2 + (z ^ 2 + b ^ 2)) by nra.
    rewrite (sqrt_sq_eq (z ^ 2 + b ^ 2)) by lra.
    halfpow. pose proof PI_RGT_0.
    destruct fl; [destruct (Req_EM_T _ _) as [E|E]|].
    * assert (a = 0) by lra. subst a. rewrite Rplus_0_l in *.
      rewrite sqrt_sq_eq in * by lra.
      mnsetup u v Hu Hv Hs Ht Eu Ev.
      assert (Eb : z ^ 2 = u * u - b ^ 2) by lra. rewrite Eb.
      assert (ER : u ^ 2 = v * v - R ^ 2) by lra.
      field_simplify_eq; [|lra]. rewrite ?ER. ring.
    * mnsetup u v Hu Hv Hs Ht Eu Ev.
      assert (Eb : b ^ 2 = u * u - z ^ 2) by lra. rewrite Eb.
      assert (ER : R ^ 2 = v * v - (a + u) ^ 2) by lra.
      field_simplify_eq; [|repeat split; lra]. 
      replace (R ^ 3) with (R * R ^ 2) by ring. rewrite ?ER. ring.
    * mnsetup u v Hu Hv Hs Ht Eu Ev.
      assert (Eb : b ^ 2 = u * u - z ^ 2) by lra. rewrite Eb.
      assert (ER : R ^ 2 = v * v - (a + u) ^ 2) by lra.
      field_simplify_eq; [|repeat split; lra]. 
      replace (R ^ 3) with (R * R ^ 2) by ring. rewrite ?ER. ring.
  Qed.
End MNp.
