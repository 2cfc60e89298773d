(** Small real-analysis toolbox: powers with half-integer exponents, derivative
    helpers and tactics.  Nothing in this file models galpy. *)
From Coq Require Import Reals Lra Psatz List.
From Coquelicot Require Import Coquelicot.
Open Scope R_scope.
Global Arguments pow : simpl never.

(** numpy's [x ** y] for a positive base. *)
Definition rpow (x y : R) : R := Rpower x y.

Lemma rpow_pos x y : 0 < rpow x y.
Proof. apply exp_pos. Qed.

Lemma rpow_half_nat x n : 0 < x -> rpow x (INR n / 2) = sqrt x ^ n.
Proof.
  intros Hx. unfold rpow. rewrite <- Rpower_sqrt by auto.
  rewrite <- Rpower_pow by apply exp_pos. rewrite Rpower_mult. f_equal. field.
Qed.
Lemma rpow_1_2 x : 0 < x -> rpow x (1/2) = sqrt x.
Proof. intros. replace (1/2) with (INR 1/2) by (simpl; lra). rewrite rpow_half_nat by auto. ring. Qed.
Lemma rpow_3_2 x : 0 < x -> rpow x (3/2) = sqrt x ^ 3.
Proof. intros. replace (3/2) with (INR 3/2) by (simpl; lra). apply rpow_half_nat; auto. Qed.
Lemma rpow_5_2 x : 0 < x -> rpow x (5/2) = sqrt x ^ 5.
Proof. intros. replace (5/2) with (INR 5/2) by (simpl; lra). apply rpow_half_nat; auto. Qed.
Lemma rpow_7_2 x : 0 < x -> rpow x (7/2) = sqrt x ^ 7.
Proof. intros. replace (7/2) with (INR 7/2) by (simpl; lra). apply rpow_half_nat; auto. Qed.
Lemma rpow_opp x y : rpow x (-y) = / rpow x y.
Proof. unfold rpow. apply Rpower_Ropp. Qed.
Lemma rpow_plus x y z : rpow x (y + z) = rpow x y * rpow x z.
Proof. unfold rpow. apply Rpower_plus. Qed.
Lemma rpow_1 x : 0 < x -> rpow x 1 = x.
Proof. unfold rpow. apply Rpower_1. Qed.
Lemma rpow_2 x : 0 < x -> rpow x 2 = x ^ 2.
Proof. intros. unfold rpow. replace 2 with (INR 2) by (simpl; lra). apply Rpower_pow; auto. Qed.
Lemma rpow_3 x : 0 < x -> rpow x 3 = x ^ 3.
Proof. intros. unfold rpow. replace 3 with (INR 3) by (simpl; lra). apply Rpower_pow; auto. Qed.
Lemma rpow_mult x y z : rpow (rpow x y) z = rpow x (y * z).
Proof. unfold rpow. apply Rpower_mult. Qed.
Lemma rpow_minus x y z : rpow x (y - z) = rpow x y / rpow x z.
Proof. unfold Rminus. rewrite rpow_plus, rpow_opp. reflexivity. Qed.

Lemma is_derive_rpow (f : R -> R) (a x df : R) :
  0 < f x -> is_derive f x df ->
  is_derive (fun y => rpow (f y) a) x (a * rpow (f x) (a - 1) * df).
Proof.
  intros Hp Hd. unfold rpow, Rpower.
  evar_last.
  { apply is_derive_comp with (f := exp).
    - apply is_derive_exp.
    - apply is_derive_scal. apply is_derive_comp with (f := ln).
      + apply is_derive_Reals. apply derivable_pt_lim_ln. auto.
      + exact Hd. }
  unfold scal; simpl; unfold mult; simpl.
  replace ((a - 1) * ln (f x)) with (a * ln (f x) + - ln (f x)) by ring.
  rewrite exp_plus, exp_Ropp, exp_ln by auto. field. lra.
Qed.

Lemma sqrt_pos_lt x : 0 < x -> 0 < sqrt x.
Proof. apply sqrt_lt_R0. Qed.

Lemma sqrt_sq_eq x : 0 <= x -> sqrt x ^ 2 = x.
Proof. intros. replace (sqrt x ^ 2) with (sqrt x * sqrt x) by ring. apply sqrt_sqrt; auto. Qed.

Lemma is_derive_eq (f : R -> R) x a b : is_derive f x a -> a = b -> is_derive f x b.
Proof. intros H <-; exact H. Qed.

(** The derivative of a constant function, stated with [0]. *)
Lemma is_derive_cst (c x : R) : is_derive (fun _ : R => c) x 0.
Proof. apply (is_derive_const c x). Qed.

Lemma is_derive_Rscal (f : R -> R) (x k l : R) :
  is_derive f x l -> is_derive (fun y => k * f y) x (k * l).
Proof. intros H. apply (is_derive_scal f x k l H). Qed.

Lemma is_derive_Rplus (f g : R -> R) x a b :
  is_derive f x a -> is_derive g x b -> is_derive (fun y => f y + g y) x (a + b).
Proof. intros. apply (is_derive_plus f g x a b); auto. Qed.

Lemma is_derive_Rchain (f g : R -> R) x df dg :
  is_derive f (g x) df -> is_derive g x dg -> is_derive (fun y => f (g y)) x (df * dg).
Proof.
  intros Hf Hg. eapply is_derive_eq. apply (is_derive_comp f g x df dg Hf Hg).
  unfold scal; simpl; unfold mult; simpl. ring.
Qed.

Lemma is_derive_Rmult (f g : R -> R) x a b :
  is_derive f x a -> is_derive g x b ->
  is_derive (fun y => f y * g y) x (a * g x + f x * b).
Proof.
  intros Hf Hg. eapply is_derive_eq. apply (is_derive_mult f g x a b Hf Hg).
  - intros; unfold mult; simpl; ring.
  - unfold plus, mult; simpl. ring.
Qed.

(** Derivative of a function that only agrees locally. *)
Lemma is_derive_loc (f g : R -> R) x l (P : R -> Prop) :
  locally x P -> (forall y, P y -> f y = g y) ->
  is_derive f x l -> is_derive g x l.
Proof.
  intros HP E H. apply is_derive_ext_loc with f; auto.
  apply filter_imp with P; auto.
Qed.

Lemma locally_pos (x : R) : 0 < x -> locally x (fun y => 0 < y).
Proof.
  intros Hx. exists (mkposreal x Hx). intros y Hy.
  unfold ball in Hy; simpl in Hy; unfold AbsRing_ball, abs, minus, plus, opp in Hy; simpl in Hy.
  apply Rabs_def2 in Hy. lra.
Qed.

Lemma locally_gt (a x : R) : a < x -> locally x (fun y => a < y).
Proof.
  intros Hx. assert (H: 0 < x - a) by lra. exists (mkposreal (x-a) H). intros y Hy.
  unfold ball in Hy; simpl in Hy; unfold AbsRing_ball, abs, minus, plus, opp in Hy; simpl in Hy.
  apply Rabs_def2 in Hy. lra.
Qed.

Lemma locally_lt (a x : R) : x < a -> locally x (fun y => y < a).
Proof.
  intros Hx. assert (H: 0 < a - x) by lra. exists (mkposreal (a-x) H). intros y Hy.
  unfold ball in Hy; simpl in Hy; unfold AbsRing_ball, abs, minus, plus, opp in Hy; simpl in Hy.
  apply Rabs_def2 in Hy. lra.
Qed.

Ltac nz := repeat match goal with
  | |- _ /\ _ => split
  | |- True => exact I
  | |- _ <> 0 => apply Rgt_not_eq, Rlt_gt
  end; auto; try lra; try nra.
