(** The radial functions of the multipole expansion. *)
From Coq Require Import Reals Lra Lia Arith ZArith.
From Coquelicot Require Import Coquelicot.
From Verif.Lib Require Import RealAux.
From Verif.Model Require Import PotAPI SphHarm Multipole.
Open Scope R_scope.
Notation RR := RbaseSymbolsImpl.R (only parsing).
Ltac rr := match goal with |- ?a = ?b => change (@eq RR a b) end.

Section Zp.
  Variables (r : RR) (l : nat).
  Hypothesis Hr : 0 < r.
  Notation w := (r ^ l).
  Lemma w0 : 0 < w. Proof using Hr. apply pow_lt; exact Hr. Qed.
  Lemma zp_l : powerRZ r (Z.of_nat l) = w. Proof using. symmetry. apply pow_powerRZ. Qed.
  Lemma zp_nl : powerRZ r (- Z.of_nat l) = / w. Proof using Hr. rewrite powerRZ_neg'. rewrite zp_l. reflexivity. Qed.
  Lemma zk k : powerRZ r (Z.of_nat k) = r ^ k. Proof using. symmetry. apply pow_powerRZ. Qed.
  Lemma znk k : powerRZ r (- Z.of_nat k) = / r ^ k. Proof using. rewrite powerRZ_neg', zk. reflexivity. Qed.
  Lemma z1 : powerRZ r (- (Z.of_nat l + 1)) = / (w * r).
  Proof using Hr. replace (- (Z.of_nat l + 1))%Z with (- Z.of_nat l + - Z.of_nat 1)%Z by lia. rewrite powerRZ_add by lra. rewrite ?zp_l, ?zp_nl, ?zk, ?znk. pose proof w0. rr. field. repeat split; lra. Qed.
  Lemma z2 : powerRZ r (- (Z.of_nat l + 2)) = / (w * r ^ 2).
  Proof using Hr. replace (- (Z.of_nat l + 2))%Z with (- Z.of_nat l + - Z.of_nat 2)%Z by lia. rewrite powerRZ_add by lra. rewrite ?zp_l, ?zp_nl, ?zk, ?znk. pose proof w0. rr. field. repeat split; lra. Qed.
  Lemma z3 : powerRZ r (- (Z.of_nat l + 3)) = / (w * r ^ 3).
  Proof using Hr. replace (- (Z.of_nat l + 3))%Z with (- Z.of_nat l + - Z.of_nat 3)%Z by lia. rewrite powerRZ_add by lra. rewrite ?zp_l, ?zp_nl, ?zk, ?znk. pose proof w0. rr. field. repeat split; lra. Qed.
  Lemma z4 : powerRZ r (Z.of_nat l - 1) = w / r.
  Proof using Hr. replace (Z.of_nat l - 1)%Z with (Z.of_nat l + - Z.of_nat 1)%Z by lia. rewrite powerRZ_add by lra. rewrite ?zp_l, ?zp_nl, ?zk, ?znk. pose proof w0. rr. field. repeat split; lra. Qed.
  Lemma z5 : powerRZ r (Z.of_nat l - 2) = w / r ^ 2.
  Proof using Hr. replace (Z.of_nat l - 2)%Z with (Z.of_nat l + - Z.of_nat 2)%Z by lia. rewrite powerRZ_add by lra. rewrite ?zp_l, ?zp_nl, ?zk, ?znk. pose proof w0. rr. field. repeat split; lra. Qed.
  Lemma z6 : powerRZ r (2 - Z.of_nat l) = r ^ 2 / w.
  Proof using Hr. replace (2 - Z.of_nat l)%Z with (Z.of_nat 2 + - Z.of_nat l)%Z by lia. rewrite powerRZ_add by lra. rewrite ?zp_l, ?zp_nl, ?zk, ?znk. pose proof w0. rr. field. repeat split; lra. Qed.
  Lemma z7 : powerRZ r (1 - Z.of_nat l) = r / w.
  Proof using Hr. replace (1 - Z.of_nat l)%Z with (Z.of_nat 1 + - Z.of_nat l)%Z by lia. rewrite powerRZ_add by lra. rewrite ?zp_l, ?zp_nl, ?zk, ?znk. pose proof w0. rr. field. repeat split; lra. Qed.
  Lemma p1 : r ^ (l + 1) = w * r. Proof using. rewrite pow_add. ring. Qed.
  Lemma p2 : r ^ (l + 2) = w * r ^ 2. Proof using. rewrite pow_add. ring. Qed.
  Lemma p3 : r ^ (l + 3) = w * r ^ 3. Proof using. rewrite pow_add. ring. Qed.
  Lemma d_w : is_derive (fun x => x ^ l) r (INR l * w / r).
  Proof using Hr.
    auto_derive; [exact I|]. destruct l as [|k]; [simpl; rr; field; lra|]. cbn [Nat.pred]. rewrite <- tech_pow_Rmult. set (q := INR (S k)). clearbody q. rr. field. lra.
  Qed.
End Zp.
Ltac powers r l Hr := rewrite ?(z1 r l Hr), ?(z2 r l Hr), ?(z3 r l Hr), ?(z4 r l Hr), ?(z5 r l Hr), ?(z6 r l Hr), ?(z7 r l Hr), ?(zp_nl r l Hr), ?(p1 r l), ?(p2 r l), ?(p3 r l).
Section Rad.
  Variables rmin rmax : RR.
  Hypothesis Hm : 0 < rmin.
  Hypothesis Hmm : rmin < rmax.
  Variable l : nat.
  Variables Ii Io : spline.
  Notation P := (P_rho0 rmin l Ii).
  Notation O := (I_outer_ext rmin l Ii Io).
  Notation eR := (eval_R rmin rmax l Ii Io).
  Notation eD := (eval_dR rmin rmax l Ii Io).
  Notation eD2 := (eval_d2R rmin rmax l Ii Io).
  Lemma d_O r : 0 < r -> is_derive O r (- P * r / r ^ l).
  Proof using Hm.
    intros Hr. unfold I_outer_ext. set (p := P). clearbody p. pose proof (w0 r l Hr) as W. destruct (Nat.eqb_spec l 2) as [E|E].
    - subst l. auto_derive; [split; [|split; [|exact I]]|]; [lra|apply Rdiv_lt_0_compat; assumption|]. rr. field. lra.
    - assert (E' : 2 - INR l <> 0). { intros Z. apply E. apply INR_eq. simpl. lra. }
      apply (is_derive_ext_loc (fun x => Io 0%nat rmin + p / (2 - INR l) * (powerRZ rmin (2 - Z.of_nat l) - x ^ 2 / x ^ l))).
      + apply (filter_imp (fun x => 0 < x)); [|apply locally_pos; exact Hr]. intros x Hx. rewrite (z6 x l Hx). reflexivity.
      + set (c := powerRZ rmin _). clearbody c. assert (D1 : is_derive (fun x => x ^ 2 / x ^ l) r ((2 * r * r ^ l - r ^ 2 * (INR l * r ^ l / r)) / (r ^ l) ^ 2)). { apply (is_derive_div (fun x => x ^ 2) (fun x => x ^ l)); [auto_derive; [exact I|rr; ring]|apply d_w; exact Hr|lra]. }
        refine (is_derive_eq _ _ _ _ (is_derive_Rplus _ _ r _ _ (is_derive_const (V := R_NormedModule) (Io 0%nat rmin) r) (is_derive_Rscal _ r (p / (2 - INR l)) _ (is_derive_Rplus (fun _ => c) (fun x => - (x ^ 2 / x ^ l)) r 0 _ (is_derive_const (V := R_NormedModule) _ _) (is_derive_opp (V := R_NormedModule) _ _ _ D1)))) _).
        change (@zero _) with 0. change (opp ?u) with (- u). set (w := r ^ l) in *. clearbody w. rr. field. repeat split; lra.
  Qed.
  (** below the grid *)
  Lemma lo_R x : 0 < x < rmin -> eR x = P / (INR l + 3) * x ^ 2 + x ^ l * O x.
  Proof using. intros [H1 H2]. unfold eval_R, I_inner_ext. destruct (Rlt_dec x rmin); [|contradiction]. powers x l H1. pose proof (w0 x l H1). pose proof (pos_INR l). set (p := P). set (o := O x). set (w := x ^ l) in *. clearbody p o w. rr. field. repeat split; lra. Qed.
  Lemma lo_D x : 0 < x < rmin -> eD x = - (INR l + 1) * (P / (INR l + 3)) * x + INR l / x * (x ^ l * O x).
  Proof using. intros [H1 H2]. unfold eval_dR, I_inner_ext. destruct (Rlt_dec x rmin); [|contradiction]. powers x l H1. pose proof (w0 x l H1). pose proof (pos_INR l). set (p := P). set (o := O x). set (w := x ^ l) in *. clearbody p o w. rr. field. repeat split; lra. Qed.
  Lemma lo_D2 x : 0 < x < rmin -> eD2 x = (INR l + 1) * (INR l + 2) * (P / (INR l + 3)) + INR l * (INR l - 1) / x ^ 2 * (x ^ l * O x) - (2 * INR l + 1) * P.
  Proof using. intros [H1 H2]. unfold eval_d2R, I_inner_ext. destruct (Rlt_dec x rmin); [|contradiction]. powers x l H1. pose proof (w0 x l H1). pose proof (pos_INR l). set (p := P). set (o := O x). set (w := x ^ l) in *. clearbody p o w. rr. field. repeat split; lra. Qed.
  Lemma loc_lo r : 0 < r < rmin -> locally r (fun x => 0 < x < rmin).
  Proof using. intros [H1 H2]. apply filter_and; [apply locally_pos; exact H1|apply locally_lt; exact H2]. Qed.
  Lemma d_wO r : 0 < r -> is_derive (fun x => x ^ l * O x) r (INR l / r * (r ^ l * O r) - P * r).
  Proof using Hm. intros H. refine (is_derive_eq _ _ _ _ (is_derive_Rmult _ _ r _ _ (d_w r l H) (d_O r H)) _). pose proof (w0 r l H). set (p := P). set (o := O r). set (w := r ^ l) in *. clearbody p o w. rr. field. repeat split; lra. Qed.
  Lemma lo_d r : 0 < r < rmin -> is_derive eR r (eD r) /\ is_derive eD r (eD2 r).
  Proof using Hm.
    intros H. pose proof (loc_lo r H) as LL. rewrite lo_D2, lo_D by exact H. pose proof (d_wO r (proj1 H)) as D. pose proof (pos_INR l). set (q := INR l) in *. set (g := fun x => x ^ l * O x) in *. change (r ^ l * O r) with (g r). split.
    - apply (is_derive_ext_loc (fun x => P / (q + 3) * x ^ 2 + g x)); [apply (filter_imp _ _ (fun x Hx => eq_sym (lo_R x Hx)) LL)|]. refine (is_derive_eq _ _ _ _ (is_derive_Rplus (fun x => P / (q + 3) * x ^ 2) g r (P / (q + 3) * (2 * r)) _ _ D) _); [auto_derive; [exact I|rr; ring]|]. change (r ^ l * O r) with (g r). set (p := P). clearbody p g q. rr. field. repeat split; lra.
    - apply (is_derive_ext_loc (fun x => - (q + 1) * (P / (q + 3)) * x + q / x * g x)); [apply (filter_imp _ _ (fun x Hx => eq_sym (lo_D x Hx)) LL)|]. refine (is_derive_eq _ _ _ _ (is_derive_Rplus (fun x => - (q + 1) * (P / (q + 3)) * x) (fun x => q / x * g x) r (- (q + 1) * (P / (q + 3))) _ _ (is_derive_Rmult (fun x => q / x) g r (- q / r ^ 2) _ _ D)) _); [auto_derive; [exact I|rr; ring]|auto_derive; [lra|rr; field; lra]|]. change (r ^ l * O r) with (g r). set (p := P). clearbody p g q. rr. field. repeat split; lra.
  Qed.
  Lemma lo_poisson r : 0 < r < rmin -> eD2 r + 2 / r * eD r - INR l * (INR l + 1) / r ^ 2 * eR r = - (2 * INR l + 1) * P.
  Proof using. intros H. rewrite lo_D2, lo_D, lo_R by exact H. pose proof (pos_INR l). set (p := P). set (g := r ^ l * O r). set (q := INR l) in *. clearbody p g q. rr. field. repeat split; lra. Qed.
  (** in the grid *)
  Lemma mi_R x : rmin < x < rmax -> eR x = / (x ^ l * x) * Ii 0%nat x + x ^ l * Io 0%nat x.
  Proof using Hm. intros [H1 H2]. assert (H0 : 0 < x) by lra. unfold eval_R. destruct (Rlt_dec x rmin); [exfalso; lra|]. destruct (Rle_dec x rmax); [|exfalso; lra]. powers x l H0. reflexivity. Qed.
  Lemma mi_D x : rmin < x < rmax -> eD x = - (INR l + 1) * / (x ^ l * x ^ 2) * Ii 0%nat x + / (x ^ l * x) * Ii 1%nat x + INR l * (x ^ l / x) * Io 0%nat x + x ^ l * Io 1%nat x.
  Proof using Hm. intros [H1 H2]. assert (H0 : 0 < x) by lra. unfold eval_dR. destruct (Rlt_dec x rmin); [exfalso; lra|]. destruct (Rle_dec x rmax); [|exfalso; lra]. powers x l H0. reflexivity. Qed.
  Lemma mi_D2 x : rmin < x < rmax -> eD2 x = (INR l + 1) * (INR l + 2) * / (x ^ l * x ^ 3) * Ii 0%nat x - 2 * (INR l + 1) * / (x ^ l * x ^ 2) * Ii 1%nat x + / (x ^ l * x) * Ii 2%nat x + INR l * (INR l - 1) * (x ^ l / x ^ 2) * Io 0%nat x + 2 * INR l * (x ^ l / x) * Io 1%nat x + x ^ l * Io 2%nat x.
  Proof using Hm. intros [H1 H2]. assert (H0 : 0 < x) by lra. unfold eval_d2R. destruct (Rlt_dec x rmin); [exfalso; lra|]. destruct (Rle_dec x rmax); [|exfalso; lra]. powers x l H0. reflexivity. Qed.
  Lemma loc_mi r : rmin < r < rmax -> locally r (fun x => rmin < x < rmax).
  Proof using. intros [H1 H2]. apply filter_and; [apply locally_gt; exact H1|apply locally_lt; exact H2]. Qed.
  Lemma mi_d r : rmin < r < rmax -> (forall nu, (nu < 2)%nat -> is_derive (Ii nu) r (Ii (S nu) r) /\ is_derive (Io nu) r (Io (S nu) r)) -> is_derive eR r (eD r) /\ is_derive eD r (eD2 r).
  Proof using Hm.
    intros H S. assert (Hr : 0 < r) by lra. pose proof (loc_mi r H) as LL. rewrite mi_D2 by exact H. rewrite mi_D by exact H. destruct (S 0%nat ltac:(lia)) as [I0 O0]. destruct (S 1%nat ltac:(lia)) as [I1 O1]. pose proof (d_w r l Hr) as DW. pose proof (w0 r l Hr) as W.
    assert (Di : forall k, is_derive (fun x => / (x ^ l * x ^ k)) r (- (INR l + INR k) * / (r ^ l * r ^ k * r))).
    { intros k. pose proof (w0 r k Hr) as Wk. assert (DD : is_derive (fun x => x ^ l * x ^ k) r ((INR l + INR k) * (r ^ l * r ^ k) / r)) by (refine (is_derive_eq _ _ _ _ (is_derive_Rmult _ _ r _ _ DW (d_w r k Hr)) _); rr; field; lra).
      refine (is_derive_eq _ _ _ _ (is_derive_inv _ r _ DD _) _); [apply Rgt_not_eq, Rmult_lt_0_compat; assumption|]. rr. field. repeat split; lra. }
    split.
    - apply (is_derive_ext_loc (fun x => / (x ^ l * x ^ 1) * Ii 0%nat x + x ^ l * Io 0%nat x)); [apply (filter_imp (fun x => rmin < x < rmax)); [intros x Hx; rewrite mi_R by exact Hx; rewrite pow_1; reflexivity|exact LL]|].
      refine (is_derive_eq _ _ _ _ (is_derive_Rplus _ _ r _ _ (is_derive_Rmult _ _ r _ _ (Di 1%nat) I0) (is_derive_Rmult _ _ r _ _ DW O0)) _). change (INR 1) with 1. set (w := r ^ l) in *. clearbody w. rr. field. lra.
    - apply (is_derive_ext_loc (fun x => (- (INR l + 1) * (/ (x ^ l * x ^ 2) * Ii 0%nat x) + / (x ^ l * x ^ 1) * Ii 1%nat x) + (INR l * ((x ^ l / x) * Io 0%nat x) + x ^ l * Io 1%nat x))); [apply (filter_imp (fun x => rmin < x < rmax)); [intros x Hx; rewrite mi_D by exact Hx; rewrite pow_1; rr; ring|exact LL]|].
      assert (DX : is_derive (fun x => x ^ l / x) r ((INR l * r ^ l / r * r - r ^ l * 1) / r ^ 2)) by (apply (is_derive_div (fun x => x ^ l) (fun x => x)); [exact DW|apply (is_derive_id (K := R_AbsRing))|lra]).
      refine (is_derive_eq _ _ _ _ (is_derive_Rplus _ _ r _ _ (is_derive_Rplus _ _ r _ _ (is_derive_Rscal _ r (- (INR l + 1)) _ (is_derive_Rmult _ _ r _ _ (Di 2%nat) I0)) (is_derive_Rmult _ _ r _ _ (Di 1%nat) I1)) (is_derive_Rplus _ _ r _ _ (is_derive_Rscal _ r (INR l) _ (is_derive_Rmult _ _ r _ _ DX O0)) (is_derive_Rmult _ _ r _ _ DW O1))) _).
      change (INR 1) with 1. change (INR 2) with 2. set (w := r ^ l) in *. clearbody w. rr. field. lra.
  Qed.
  Lemma mi_poisson (rho : spline) ii io r : rmin < r < rmax -> (forall nu, (nu <= 2)%nat -> (0 < nu)%nat -> Ii nu r = node_inner l rho ii rmin nu r /\ Io nu r = node_outer l rho io rmin rmax nu r) ->
    eD2 r + 2 / r * eD r - INR l * (INR l + 1) / r ^ 2 * eR r = 4 * PI * rho 0%nat r.
  Proof using Hm.
    intros H S. assert (Hr : 0 < r) by lra. rewrite mi_D2, mi_D, mi_R by exact H. destruct (S 1%nat ltac:(lia) ltac:(lia)) as [-> ->]. destruct (S 2%nat ltac:(lia) ltac:(lia)) as [-> ->]. cbn [node_inner node_outer]. unfold f_inner, f_outer, d2I_inner, d2I_outer, pref. powers r l Hr. pose proof (w0 r l Hr) as W. pose proof (pos_INR l).
    set (w := r ^ l) in *. set (q := INR l) in *. clearbody w q. rr. field. repeat split; lra.
  Qed.
  (** above the grid *)
  Lemma hi_d r : rmax < r -> is_derive eR r (eD r) /\ is_derive eD r (eD2 r).
  Proof using Hm Hmm.
    intros H. assert (Hr : 0 < r) by lra. assert (ER : forall x, rmax < x -> eR x = Ii 0%nat rmax * / (x ^ l * x)). { intros x Hx. unfold eval_R. destruct (Rlt_dec x rmin); [exfalso; lra|]. destruct (Rle_dec x rmax); [exfalso; lra|]. powers x l (ltac:(lra) : 0 < x). reflexivity. }
    assert (ED : forall x, rmax < x -> eD x = - (INR l + 1) * Ii 0%nat rmax * / (x ^ l * x ^ 2)). { intros x Hx. unfold eval_dR. destruct (Rlt_dec x rmin); [exfalso; lra|]. destruct (Rle_dec x rmax); [exfalso; lra|]. powers x l (ltac:(lra) : 0 < x). reflexivity. }
    assert (ED2 : forall x, rmax < x -> eD2 x = (INR l + 1) * (INR l + 2) * Ii 0%nat rmax * / (x ^ l * x ^ 3)). { intros x Hx. unfold eval_d2R. destruct (Rlt_dec x rmin); [exfalso; lra|]. destruct (Rle_dec x rmax); [exfalso; lra|]. powers x l (ltac:(lra) : 0 < x). reflexivity. }
    pose proof (d_w r l Hr) as DW. pose proof (w0 r l Hr) as W. assert (LL : locally r (fun x => rmax < x)) by (apply locally_gt; exact H).
    assert (Di : forall k, is_derive (fun x => / (x ^ l * x ^ k)) r (- (INR l + INR k) * / (r ^ l * r ^ k * r))).
    { intros k. pose proof (w0 r k Hr) as Wk. assert (DD : is_derive (fun x => x ^ l * x ^ k) r ((INR l + INR k) * (r ^ l * r ^ k) / r)) by (refine (is_derive_eq _ _ _ _ (is_derive_Rmult _ _ r _ _ DW (d_w r k Hr)) _); rr; field; lra).
      refine (is_derive_eq _ _ _ _ (is_derive_inv _ r _ DD _) _); [apply Rgt_not_eq, Rmult_lt_0_compat; assumption|]. rr. field. repeat split; lra. }
    rewrite ED2 by exact H. rewrite ED by exact H. split.
    - apply (is_derive_ext_loc (fun x => Ii 0%nat rmax * / (x ^ l * x ^ 1))); [apply (filter_imp (fun x => rmax < x)); [intros x Hx; rewrite ER by exact Hx; rewrite pow_1; reflexivity|exact LL]|].
      refine (is_derive_eq _ _ _ _ (is_derive_Rscal _ r _ _ (Di 1%nat)) _). change (INR 1) with 1. set (w := r ^ l) in *. clearbody w. rr. field. lra.
    - apply (is_derive_ext_loc (fun x => - (INR l + 1) * Ii 0%nat rmax * / (x ^ l * x ^ 2))); [apply (filter_imp (fun x => rmax < x)); [intros x Hx; rewrite ED by exact Hx; reflexivity|exact LL]|].
      refine (is_derive_eq _ _ _ _ (is_derive_Rscal _ r _ _ (Di 2%nat)) _). change (INR 2) with 2. set (w := r ^ l) in *. clearbody w. rr. field. lra.
  Qed.
  Lemma hi_poisson r : rmax < r -> eD2 r + 2 / r * eD r - INR l * (INR l + 1) / r ^ 2 * eR r = 0.
  Proof using Hm Hmm.
    intros H. assert (Hr : 0 < r) by lra. unfold eval_d2R, eval_dR, eval_R. destruct (Rlt_dec r rmin); [exfalso; lra|]. destruct (Rle_dec r rmax); [exfalso; lra|]. powers r l Hr. pose proof (w0 r l Hr). set (w := r ^ l) in *. clearbody w. rr. field. lra.
  Qed.
End Rad.
