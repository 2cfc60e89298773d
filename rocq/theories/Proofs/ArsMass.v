(** The masses under the upper hull, and its quantiles *)
From Coq Require Import Reals List Arith Bool Lia Lra Sorted.
From Coquelicot Require Import Coquelicot.
From Verif.Model Require Import Ars.
From Verif.Spec Require Import ArsSpec.
From Verif.Proofs Require Import ArsProofs.
Import ListNotations.
Open Scope R_scope.

Section Mass.
Context (h hp : RR -> RR).
Local Notation tan := (tan h hp).
Definition pm (a lo hi : RR) : RR := if eq0 (hp a) then (hi - lo) * exp (h a) else 1 / hp a * (exp (tan a hi) - exp (tan a lo)).
Lemma pm_RInt a lo hi : is_RInt (fun x => exp (tan a x)) lo hi (pm a lo hi).
Proof.
  unfold pm. destruct (eq0 (hp a)) eqn:E.
  - apply eq0_spec in E. apply is_RInt_ext with (f := fun _ => exp (h a)). { intros x _. unfold tan. rewrite E. f_equal. lra. }
    apply (is_RInt_const lo hi (exp (h a))).
  - apply eq0_false in E. replace (1 / hp a * (exp (tan a hi) - exp (tan a lo))) with (minus (1 / hp a * exp (tan a hi)) (1 / hp a * exp (tan a lo))).
    2:{ unfold minus, plus, opp; cbn. lra. }
    apply (is_RInt_derive (fun x => 1 / hp a * exp (tan a x))).
    + intros x _. unfold ArsSpec.tan. auto_derive; [easy|]. match goal with |- context [exp ?e] => replace e with (hp a * (x - a) + h a) by ring end. field. easy.
    + intros x _. apply (ex_derive_continuous (fun x => exp (tan a x))). unfold ArsSpec.tan. auto_derive. easy.
Qed.
Lemma pm_add a x y z : pm a x y + pm a y z = pm a x z.
Proof. unfold pm. destruct (eq0 (hp a)) eqn:E; [lra|]. apply eq0_false in E. field. easy. Qed.
Lemma pm_pos a x y : x < y -> 0 < pm a x y.
Proof.
  intros L. unfold pm. destruct (eq0 (hp a)) eqn:E; [pose proof (exp_pos (h a)); nra|]. apply eq0_false in E. unfold ArsSpec.tan.
  destruct (Rlt_dec 0 (hp a)) as [P|P].
  - assert (0 < 1 / hp a) by (apply Rdiv_lt_0_compat; lra). assert (exp (hp a * (x - a) + h a) < exp (hp a * (y - a) + h a)) by (apply exp_increasing; nra). nra.
  - assert (1 / hp a < 0). { assert (0 < 1 / - hp a) by (apply Rdiv_lt_0_compat; lra). assert (1 / hp a = - (1 / - hp a)) by (field; lra). lra. }
    assert (exp (hp a * (y - a) + h a) < exp (hp a * (x - a) + h a)) by (apply exp_increasing; nra). nra.
Qed.
Lemma pm_refl a x : pm a x x = 0.
Proof. unfold pm. destruct (eq0 (hp a)); lra. Qed.
Lemma pm_opp a x y : pm a y x = - pm a x y.
Proof. pose proof (pm_add a x y x). rewrite pm_refl in H. lra. Qed.
Lemma pm_le_reg a x y z : pm a x y <= pm a x z -> y <= z.
Proof. intros H. apply Rnot_lt_le. intros L. pose proof (pm_pos a z y L). pose proof (pm_add a x z y). lra. Qed.
Lemma pm_lt_reg a x y z : pm a x y < pm a x z -> y < z.
Proof. intros H. apply Rnot_le_lt. intros [L|E]; [|subst; lra]. pose proof (pm_pos a z y L). pose proof (pm_add a x z y). lra. Qed.
Lemma pm_quantile a lo M : hp a <> 0 -> 0 < exp (tan a lo) + hp a * M -> pm a lo (lo + 1 / hp a * ln (1 + hp a * M / exp (tan a lo))) = M.
Proof.
  intros N P. unfold pm. pose proof N as N0. apply eq0_false in N0 as ->. pose proof (exp_pos (tan a lo)) as E.
  set (L := ln _). assert (T : tan a (lo + 1 / hp a * L) = tan a lo + L) by (unfold ArsSpec.tan; field; easy). rewrite T, exp_plus. unfold L. rewrite exp_ln.
  - field. split; [lra|easy].
  - replace (1 + hp a * M / exp (tan a lo)) with ((exp (tan a lo) + hp a * M) / exp (tan a lo)) by (field; lra). now apply Rdiv_lt_0_compat.
Qed.
End Mass.

(** Improper integrals of exponentials *)
Lemma lim_exp_right (p c : RR) : p < 0 -> filterlim (fun x => exp (p * x + c)) (Rbar_locally p_infty) (locally 0).
Proof.
  intros P. apply filterlim_comp with (G := Rbar_locally m_infty); [|apply (is_lim_exp_m)].
  intros Q [M HM]. exists ((M - c) / p). intros x Hx. apply HM. apply Rmult_lt_gt_compat_neg_l with (r := p) in Hx; [|easy]. replace (p * ((M - c) / p)) with (M - c) in Hx by (field; lra). lra.
Qed.
Lemma lim_exp_left (p c : RR) : 0 < p -> filterlim (fun x => exp (p * x + c)) (Rbar_locally m_infty) (locally 0).
Proof.
  intros P. apply filterlim_comp with (G := Rbar_locally m_infty); [|apply (is_lim_exp_m)].
  intros Q [M HM]. exists ((M - c) / p). intros x Hx. apply HM. apply Rmult_lt_compat_l with (r := p) in Hx; [|easy]. replace (p * ((M - c) / p)) with (M - c) in Hx by (field; lra). lra.
Qed.
Lemma RInt_gen_left (f F : RR -> RR) b L : (forall a, a < b -> is_RInt f a b (F b - F a)) -> filterlim F (Rbar_locally m_infty) (locally 0) -> L = F b ->
  is_RInt_gen f (Rbar_locally m_infty) (at_point b) L.
Proof.
  intros HI HF -> P HP. assert (Lim : filterlim (fun a => F b - F a) (Rbar_locally m_infty) (locally (F b))).
  { assert (Q : is_lim (fun a => F b - F a) m_infty (F b - 0)) by (apply is_lim_minus'; [apply is_lim_const|exact HF]). rewrite Rminus_0_r in Q. exact Q. }
  specialize (Lim P HP). apply Filter_prod with (Q := fun a => a < b /\ P (F b - F a)) (R := fun x => x = b).
  - apply filter_and; [exists b; tauto|exact Lim].
  - reflexivity.
  - intros x y [Hx HPx] ->. exists (F b - F x). split; [now apply HI|easy].
Qed.
Lemma RInt_gen_right (f F : RR -> RR) a L : (forall b, a < b -> is_RInt f a b (F b - F a)) -> filterlim F (Rbar_locally p_infty) (locally 0) -> L = - F a ->
  is_RInt_gen f (at_point a) (Rbar_locally p_infty) L.
Proof.
  intros HI HF -> P HP. assert (Lim : filterlim (fun b => F b - F a) (Rbar_locally p_infty) (locally (- F a))).
  { assert (Q : is_lim (fun b => F b - F a) p_infty (0 - F a)) by (apply is_lim_minus'; [exact HF|apply is_lim_const]). rewrite Rminus_0_l in Q. exact Q. }
  specialize (Lim P HP). apply Filter_prod with (Q := fun x => x = a) (R := fun b => a < b /\ P (F b - F a)).
  - reflexivity.
  - apply filter_and; [exists a; tauto|exact Lim].
  - intros x y -> [Hy HPy]. exists (F y - F a). split; [now apply HI|easy].
Qed.
Lemma Chasles f Fa b Fc (l1 l2 l : RR) : Filter Fa -> Filter Fc -> is_RInt_gen f Fa (at_point b) l1 -> is_RInt_gen f (at_point b) Fc l2 -> l = l1 + l2 ->
  is_RInt_gen (V := R_NormedModule) f Fa Fc l.
Proof. intros FA FC H1 H2 ->. apply (is_RInt_gen_Chasles (Fa := Fa) (Fc := Fc) f b l1 l2 H1 H2). Qed.

Lemma cumsum_length acc s : length (cumsum acc s) = length s.
Proof. revert acc. induction s; intros; cbn; auto. Qed.
Lemma cumsum_0 acc s : s <> [] -> get (cumsum acc s) 0 = acc + get s 0.
Proof. destruct s; [easy|reflexivity]. Qed.
Lemma cumsum_S acc s i : (S i < length s)%nat -> get (cumsum acc s) (S i) = get (cumsum acc s) i + get s (S i).
Proof. revert acc i. induction s as [|x s IH]; intros acc i H; [cbn in H; lia|]. cbn [cumsum]. destruct i; cbn [nth length] in *; [rewrite cumsum_0; [easy|destruct s; [cbn in H; lia|easy]]|]. rewrite IH by lia. easy. Qed.
Lemma cumsum_last acc s : s <> [] -> get (cumsum acc s) (length s - 1) = acc + sum s.
Proof.
  revert acc. induction s as [|x s IH]; intros acc H; [easy|]. cbn [cumsum length]. destruct s as [|y s]; [cbn; unfold sum; cbn; lra|].
  replace (S (length (y :: s)) - 1)%nat with (S (length (y :: s) - 1)) by (cbn; lia). cbn [nth]. rewrite IH by easy. unfold sum. cbn. lra.
Qed.
Lemma run_spec cond s : let k := run cond s in (k <= length s)%nat /\ (forall i, (i < k)%nat -> cond (get s i) = true) /\ ((k < length s)%nat -> cond (get s k) = false).
Proof.
  induction s as [|x s IH]; cbn; [repeat split; lia|]. destruct (cond x) eqn:E; cbn.
  - destruct IH as (A & B & D). repeat split; [lia| |intros; apply D; lia]. intros [|i] Hi; [easy|]. apply B. lia.
  - repeat split; [lia|lia|easy].
Qed.

Section Hull.
Context (h hp : RR -> RR) (d : domain) (C : concave h hp d) (l : list RR) (G : good d l).
Local Notation n := (length l).
Local Notation X := (fun j => get l j).
Local Notation Z := (fun j => zof h hp (get l j) (get l (j + 1))).
Local Notation tan := (tan h hp).
Local Notation pm := (pm h hp).
Local Notation inside := (inside d).
Let G2 : (2 <= n)%nat. Proof. apply G. Qed.
Let Xins := X_inside d l G.
Let Zb := Z_between h hp d C l G.
Let Zinc := Z_inc h hp d C l G.
Let Zle := Z_le h hp d C l G.

Lemma envelope_is x a : In a l -> (forall b, In b l -> tan a x <= tan b x) -> envelope h hp l x = tan a x.
Proof.
  intros Ha Hb. unfold envelope. destruct l as [|a0 t]; [easy|].
  assert (K : forall t m, In a (a0 :: t) \/ m = tan a x -> tan a x <= m -> (forall b, In b t -> tan a x <= tan b x) -> In a t \/ m = tan a x -> fold_right (fun b m => Rmin (tan b x) m) m t = tan a x).
  { clear. intros t m _. induction t as [|b t IH]; intros Hm Hb Hi; [now destruct Hi|]. cbn.
    assert (L : tan a x <= fold_right (fun b m => Rmin (tan b x) m) m t).
    { clear IH Hi. induction t as [|e t IHt]; [easy|]. cbn. apply Rmin_glb; [apply Hb; right; now left|apply IHt; intros; apply Hb; destruct H; [now left|right; now right]]. }
    destruct Hi as [[->|Hi]|E].
    - apply Rmin_left. easy.
    - rewrite IH; [|easy|intros; apply Hb; now right|now left]. apply Rmin_right. apply Hb. now left.
    - rewrite IH; [|easy|intros; apply Hb; now right|now right]. apply Rmin_right. apply Hb. now left. }
  apply K; [now left|apply Hb; now left|intros; apply Hb; now right|]. destruct Ha as [->|Ha]; [now right|now left].
Qed.
Lemma envelope_piece j x : (j < n)%nat -> in_piece h hp l j x -> envelope h hp l x = tan (X j) x.
Proof.
  intros Hj P. apply envelope_is; [now apply nth_In|]. intros b Hb. apply (In_nth _ _ 0) in Hb as (i & Hi & <-). now apply (piece_least h hp d C l G).
Qed.
Lemma piece_first x : x <= Z 0%nat -> in_piece h hp l 0 x.
Proof. intros H. split; [lia|]. intros i _ Hi. pose proof (Zle 0%nat i ltac:(lia) Hi). cbv beta in *. lra. Qed.
Lemma piece_next i x : (i + 1 < n)%nat -> Z i <= x -> ((i + 2 < n)%nat -> x <= Z (i + 1)%nat) -> in_piece h hp l (i + 1) x.
Proof.
  intros Hi A B. split.
  - intros k Hk. pose proof (Zle k i ltac:(lia) Hi). cbv beta in *. lra.
  - intros k Hk Hn. specialize (B ltac:(lia)). pose proof (Zle (i + 1)%nat k Hk Hn). cbv beta in *. lra.
Qed.

(** The masses the program computes *)
Local Notation H := (hull_of h hp d l).
Definition first_mass : RR := if lower_finite d then pm (X 0%nat) (lower d) (Z 0%nat) else 1 / hp (X 0%nat) * exp (tan (X 0%nat) (Z 0%nat)).
Definition last_mass : RR := if upper_finite d then pm (X (n - 1)%nat) (Z (n - 2)%nat) (upper d) else - 1 / hp (X (n - 1)%nat) * exp (tan (X (n - 1)%nat) (Z (n - 2)%nat)).
Definition segs : list RR := first_mass :: map (fun j => pm (X (j + 1)%nat) (Z j) (Z (j + 1)%nat)) (seq 0 (n - 2)).
Definition Cm (i : nat) : RR := get (cumsum 0 segs) i.
Definition total : RR := last_mass + Cm (n - 2).
Context (E0 : hp (X 0%nat) <> 0) (En : hp (X (n - 1)%nat) <> 0)
        (P0 : lower_finite d = false -> 0 < hp (X 0%nat)) (Pn : upper_finite d = false -> hp (X (n - 1)%nat) < 0).
Lemma meet j : (j + 1 < n)%nat -> tan (get l j) (zof h hp (get l j) (get l (j + 1))) = tan (get l (j + 1)) (zof h hp (get l j) (get l (j + 1))).
Proof. intros Hj. apply tan_meet. pose proof (slopes h hp d C (X j) (X (j + 1)%nat) (Xins j ltac:(lia)) (Xins (j + 1)%nat ltac:(lia)) (X_inc d l G j (j + 1) ltac:(lia) Hj)). cbv beta in *. lra. Qed.
Lemma segs_length : length segs = (n - 1)%nat.
Proof. unfold segs. cbn [length]. rewrite map_length, seq_length. lia. Qed.
Lemma masses_eq : cu H = total /\ scum H = map (fun s => s / total) (cumsum 0 segs).
Proof.
  assert (Zn : forall j, (j + 1 < n)%nat -> get (plist (zof h hp) l) j = Z j) by (intros j Hj; now apply plist_nth).
  assert (Un : forall j, (j + 1 < n)%nat -> get (plist (fun a b => tan a (zof h hp a b)) l) j = tan (X j) (Z j)).
  { intros j Hj. now rewrite (plist_nth (fun a b => tan a (zof h hp a b)) l j Hj). }
  cbn [hull_of cu scum masses fst snd].
  set (fm := if lower_finite d then _ else _). set (mm := map _ (seq 0 (n - 2))). set (lm := if upper_finite d then _ else _).
  assert (Ef : fm = first_mass).
  { unfold fm, first_mass. rewrite !get_map, Un by lia. unfold ArsMass.pm. apply eq0_false in E0 as ->. destruct (lower_finite d); reflexivity. }
  assert (El : lm = last_mass).
  { unfold lm, last_mass. rewrite !get_map, Un by lia. rewrite (meet (n - 2)) by lia. replace (n - 2 + 1)%nat with (n - 1)%nat by lia. unfold ArsMass.pm. apply eq0_false in En as ->. destruct (upper_finite d); reflexivity. }
  assert (Em : fm :: mm = segs).
  { rewrite Ef. unfold segs. f_equal. unfold mm. apply map_ext_in. intros j Hj. apply in_seq in Hj. rewrite !get_map, !Zn, !Un by lia. unfold ArsMass.pm.
    destruct (eq0 (hp (get l (j + 1)))); [reflexivity|]. now rewrite (meet j) by lia. }
  rewrite Em, El. assert (sum segs = Cm (n - 2)) as ->.
  { unfold Cm. pose proof (cumsum_last 0 segs ltac:(unfold segs; easy)) as Q. rewrite segs_length in Q. replace (n - 1 - 1)%nat with (n - 2)%nat in Q by lia. lra. }
  split; reflexivity.
Qed.
Lemma Cm_0 : Cm 0 = first_mass.
Proof. unfold Cm. rewrite cumsum_0 by (unfold segs; easy). cbn. lra. Qed.
Lemma Cm_S i : (i + 2 < n)%nat -> Cm (i + 1) = Cm i + pm (X (i + 1)%nat) (Z i) (Z (i + 1)%nat).
Proof.
  intros Hi. unfold Cm. replace (i + 1)%nat with (S i) by lia. rewrite cumsum_S by (rewrite segs_length; lia). f_equal. unfold segs. cbn [nth].
  rewrite (nth_indep _ 0 (pm (X (i + 1)%nat) (Z i) (Z (i + 1)%nat))) by (rewrite map_length, seq_length; lia).
  rewrite (map_nth (fun j => pm (X (j + 1)%nat) (Z j) (Z (j + 1)%nat))) with (d := i). rewrite seq_nth by lia. replace (S i) with (i + 1)%nat by lia. reflexivity.
Qed.
Lemma lower_lt : lower_finite d = true -> lower d < Z 0%nat.
Proof. intros F. pose proof (proj1 (Xins 0%nat ltac:(lia)) F). pose proof (Zb 0%nat ltac:(lia)). cbv beta in *. lra. Qed.
Lemma upper_gt : upper_finite d = true -> Z (n - 2)%nat < upper d.
Proof. intros F. pose proof (proj2 (Xins (n - 1)%nat ltac:(lia)) F). pose proof (Zb (n - 2)%nat ltac:(lia)). replace (n - 2 + 1)%nat with (n - 1)%nat in * by lia. cbv beta in *. lra. Qed.
Lemma first_pos : 0 < first_mass.
Proof.
  unfold first_mass. destruct (lower_finite d) eqn:F; [apply pm_pos; now apply lower_lt|]. specialize (P0 eq_refl).
  apply Rmult_lt_0_compat; [apply Rdiv_lt_0_compat; lra|apply exp_pos].
Qed.
Lemma last_pos : 0 < last_mass.
Proof.
  unfold last_mass. destruct (upper_finite d) eqn:F; [apply pm_pos; now apply upper_gt|]. specialize (Pn eq_refl).
  apply Rmult_lt_0_compat; [|apply exp_pos]. replace (- 1 / hp (X (n - 1)%nat)) with (1 / - hp (X (n - 1)%nat)) by (field; lra). apply Rdiv_lt_0_compat; lra.
Qed.
Lemma Cm_pos i : (i + 1 < n)%nat -> 0 < Cm i.
Proof.
  induction i as [|i IH]; intros Hi; [rewrite Cm_0; apply first_pos|]. replace (S i) with (i + 1)%nat by lia. rewrite Cm_S by lia.
  pose proof (pm_pos h hp (X (i + 1)%nat) (Z i) (Z (i + 1)%nat) (Zinc i (i + 1) ltac:(lia) ltac:(lia))). specialize (IH ltac:(lia)). cbv beta in *. lra.
Qed.
Lemma total_pos : 0 < total.
Proof. unfold total. pose proof last_pos. pose proof (Cm_pos (n - 2) ltac:(lia)). lra. Qed.

(** The integrals they are *)
Local Notation f := (fun x => exp (envelope h hp l x)).
Lemma inner_mass i x : (i + 1 < n)%nat -> Z i <= x -> ((i + 2 < n)%nat -> x <= Z (i + 1)%nat) -> is_RInt f (Z i) x (pm (X (i + 1)%nat) (Z i) x).
Proof.
  intros Hi A B. apply is_RInt_ext with (2 := pm_RInt h hp (X (i + 1)%nat) (Z i) x). intros y Hy. rewrite Rmin_left, Rmax_right in Hy by easy. cbv beta. f_equal. symmetry.
  apply envelope_piece; [lia|]. apply piece_next; [easy|lra|]. intros Q. specialize (B Q). lra.
Qed.
Lemma outer_mass x : x <= Z 0%nat -> (lower_finite d = true -> lower d <= x) -> is_RInt_gen f (left_end d) (at_point x) (first_mass + pm (X 0%nat) (Z 0%nat) x).
Proof.
  intros A B. unfold left_end, first_mass. destruct (lower_finite d) eqn:F.
  - rewrite pm_add. specialize (B eq_refl). apply is_RInt_gen_at_point. apply is_RInt_ext with (2 := pm_RInt h hp (X 0%nat) (lower d) x).
    intros y Hy. rewrite Rmin_left, Rmax_right in Hy by easy. cbv beta. f_equal. symmetry. apply envelope_piece; [lia|]. apply piece_first. lra.
  - specialize (P0 eq_refl). unfold ArsMass.pm. pose proof E0 as E. apply eq0_false in E as ->.
    apply RInt_gen_left with (F := fun y => 1 / hp (X 0%nat) * exp (tan (X 0%nat) y)).
    + intros a Ha. cbv beta. replace (1 / hp (get l 0) * exp (tan (get l 0) x) - 1 / hp (get l 0) * exp (tan (get l 0) a)) with (pm (X 0%nat) a x).
      2:{ unfold ArsMass.pm. pose proof E0 as E. apply eq0_false in E as ->. lra. }
      apply is_RInt_ext with (2 := pm_RInt h hp (X 0%nat) a x). intros y Hy. rewrite Rmin_left, Rmax_right in Hy by lra. f_equal. symmetry. apply envelope_piece; [lia|]. apply piece_first. cbv beta. lra.
    + replace (locally 0) with (locally (scal (1 / hp (X 0%nat)) 0)) by (f_equal; unfold scal; cbn; unfold mult; cbn; lra).
      eapply filterlim_comp; [|apply (filterlim_scal_r (V := R_NormedModule))]. unfold ArsSpec.tan.
      apply filterlim_ext with (f := fun y => exp (hp (X 0%nat) * y + (h (X 0%nat) - hp (X 0%nat) * X 0%nat))); [intros y; f_equal; lra|]. now apply lim_exp_left.
    + cbv beta. lra.
Qed.
Instance left_filter : Filter (left_end d).
Proof. unfold left_end. destruct (lower_finite d); typeclasses eauto. Qed.
Instance right_filter : Filter (right_end d).
Proof. unfold right_end. destruct (upper_finite d); typeclasses eauto. Qed.
Lemma cum_mass i : (i + 1 < n)%nat -> is_RInt_gen f (left_end d) (at_point (Z i)) (Cm i).
Proof.
  induction i as [|i IH]; intros Hi.
  - pose proof (outer_mass (Z 0%nat) (Rle_refl _) (fun F => Rlt_le _ _ (lower_lt F))) as Q. rewrite pm_refl, Rplus_0_r in Q. rewrite Cm_0. exact Q.
  - replace (S i) with (i + 1)%nat by lia. rewrite Cm_S by lia. apply Chasles with (b := Z i) (l1 := Cm i) (l2 := pm (X (i + 1)%nat) (Z i) (Z (i + 1)%nat)); [typeclasses eauto|typeclasses eauto|apply IH; lia| |easy].
    apply is_RInt_gen_at_point. apply inner_mass; [lia|apply Rlt_le, Zinc; lia|intros _; lra].
Qed.
Lemma last_is_mass : is_RInt_gen f (at_point (Z (n - 2)%nat)) (right_end d) last_mass.
Proof.
  assert (En1 : (n - 2 + 1 = n - 1)%nat) by lia. unfold right_end, last_mass. destruct (upper_finite d) eqn:F.
  - apply is_RInt_gen_at_point. pose proof (inner_mass (n - 2)%nat (upper d) ltac:(lia) (Rlt_le _ _ (upper_gt F)) ltac:(lia)) as Q. cbv beta in *. rewrite En1 in Q |- *. exact Q.
  - specialize (Pn eq_refl). apply RInt_gen_right with (F := fun y => 1 / hp (X (n - 1)%nat) * exp (tan (X (n - 1)%nat) y)).
    + intros b Hb. cbv beta. replace (1 / hp (get l (n - 1)) * exp (tan (get l (n - 1)) b) - 1 / hp (get l (n - 1)) * exp (tan (get l (n - 1)) (Z (n - 2)%nat))) with (pm (X (n - 1)%nat) (Z (n - 2)%nat) b).
      2:{ unfold ArsMass.pm. pose proof En as E. apply eq0_false in E as ->. lra. }
      pose proof (inner_mass (n - 2)%nat b ltac:(lia) (Rlt_le _ _ Hb) ltac:(lia)) as Q. cbv beta in *. rewrite En1 in Q |- *. exact Q.
    + replace (locally 0) with (locally (scal (1 / hp (X (n - 1)%nat)) 0)) by (f_equal; unfold scal; cbn; unfold mult; cbn; lra).
      eapply filterlim_comp; [|apply (filterlim_scal_r (V := R_NormedModule))]. unfold ArsSpec.tan.
      apply filterlim_ext with (f := fun y => exp (hp (X (n - 1)%nat) * y + (h (X (n - 1)%nat) - hp (X (n - 1)%nat) * X (n - 1)%nat))); [intros y; f_equal; lra|]. now apply lim_exp_right.
    + cbv beta. field. lra.
Qed.
Lemma total_mass : is_RInt_gen f (left_end d) (right_end d) (cu H).
Proof.
  rewrite (proj1 masses_eq). unfold total. apply Chasles with (b := Z (n - 2)%nat) (l1 := Cm (n - 2)) (l2 := last_mass); [typeclasses eauto|typeclasses eauto|apply cum_mass; lia|apply last_is_mass|lra].
Qed.

(** sample_hull gives quantiles *)
Lemma scum_nth i : (i + 1 < n)%nat -> get (scum H) i = Cm i / total.
Proof.
  intros Hi. rewrite (proj2 masses_eq). unfold Cm. rewrite (nth_indep _ 0 (0 / total)) by (rewrite map_length, cumsum_length, segs_length; lia). apply (map_nth (fun s => s / total)).
Qed.
Lemma scum_length : length (scum H) = (n - 1)%nat.
Proof. rewrite (proj2 masses_eq), map_length, cumsum_length. apply segs_length. Qed.
Lemma zs_nth i : (i + 1 < n)%nat -> get (zs H) i = Z i.
Proof. intros Hi. cbn [hull_of zs]. now apply plist_nth. Qed.
Lemma hus_nth i : (i + 1 < n)%nat -> get (hus H) i = tan (X i) (Z i).
Proof. intros Hi. cbn [hull_of hus]. now rewrite (plist_nth (fun a b => tan a (zof h hp a b)) l i Hi). Qed.
Lemma hpxs_nth i : (i < n)%nat -> get (hpxs H) i = hp (X i).
Proof. intros Hi. cbn [hull_of hpxs]. now apply get_map. Qed.
Lemma div_lt a b c : 0 < c -> (a / c < b <-> a < b * c).
Proof. intros Hc. split; intros Q; [apply (Rmult_lt_compat_r c) in Q; [|easy]; replace (a / c * c) with a in Q by (field; lra); lra|]. apply (Rmult_lt_reg_r c); [easy|]. replace (a / c * c) with a by (field; lra). lra. Qed.
Lemma quantile u : 0 < u < 1 -> exists c, sample_hull H d u = Some c /\ inside c /\ is_RInt_gen f (left_end d) (at_point c) (u * cu H).
Proof.
  intros Hu. pose proof total_pos as TP. unfold sample_hull. rewrite (scum_nth 0%nat), (hpxs_nth 0%nat), (zs_nth 0%nat), (hus_nth 0%nat) by lia. rewrite (proj1 masses_eq).
  assert (UT : 0 < u * total < total) by (split; nra).
  destruct (ltb (Cm 0 / total) u) eqn:E1; cbn [negb].
  - apply ltb_spec in E1. apply div_lt in E1; [|easy].
    set (indx := if (length (scum H) =? 1)%nat then 0%nat else (1 + run (fun s => ltb s u) (tl (scum H)) - 1)%nat).
    assert (IX : (indx + 1 < n)%nat /\ Cm indx < u * total /\ ((indx + 2 < n)%nat -> u * total <= Cm (indx + 1))).
    { unfold indx. rewrite scum_length. destruct (n - 1 =? 1)%nat eqn:EL.
      - apply Nat.eqb_eq in EL. repeat split; [lia|easy|lia].
      - apply Nat.eqb_neq in EL. destruct (run_spec (fun s => ltb s u) (tl (scum H))) as (R1 & R2 & R3). set (k := run _ _) in *.
        assert (TL : length (tl (scum H)) = (n - 2)%nat). { pose proof scum_length as Q. destruct (scum H); cbn in *; lia. }
        assert (TN : forall i, get (tl (scum H)) i = get (scum H) (i + 1)). { intros i. replace (i + 1)%nat with (S i) by lia. destruct (scum H); [now destruct i|reflexivity]. }
        rewrite TL in *. replace (1 + k - 1)%nat with k by lia. split; [lia|]. split.
        + destruct k as [|k']; [easy|]. specialize (R2 k' ltac:(lia)). rewrite TN, scum_nth in R2 by lia. apply ltb_spec in R2. apply div_lt in R2; [|easy]. now replace (S k') with (k' + 1)%nat by lia.
        + intros Q. specialize (R3 ltac:(lia)). rewrite TN, scum_nth in R3 by lia. apply ltb_false in R3. apply Rnot_lt_le. intros Q2. apply div_lt in Q2; [|easy]. lra. }
    destruct IX as (I1 & I2 & I3). clearbody indx. rewrite (hpxs_nth (indx + 1)%nat), (zs_nth indx), (scum_nth indx), (hus_nth indx) by lia. rewrite scum_length.
    set (M := u * total - Cm indx). assert (MP : 0 < M) by (unfold M; lra).
    (* the mass still needed is available in the piece *)
    assert (Goal1 : forall c, pm (X (indx + 1)%nat) (Z indx) c = M -> inside c /\ is_RInt_gen f (left_end d) (at_point c) (u * total)).
    { intros c Ec. assert (Zc : Z indx < c). { apply (pm_lt_reg h hp (X (indx + 1)%nat) (Z indx)). rewrite pm_refl, Ec. easy. }
      assert (cZ : (indx + 2 < n)%nat -> c <= Z (indx + 1)%nat). { intros Q. apply (pm_le_reg h hp (X (indx + 1)%nat) (Z indx)). rewrite Ec. specialize (I3 Q). rewrite Cm_S in I3 by easy. unfold M. lra. }
      split.
      - split; intros F.
        + pose proof (lower_lt F). pose proof (Zle 0%nat indx ltac:(lia) ltac:(lia)). cbv beta in *. lra.
        + destruct (le_lt_dec n (indx + 2)) as [L|L].
          * assert (Ei : indx = (n - 2)%nat) by lia. apply (pm_lt_reg h hp (X (indx + 1)%nat) (Z indx)). rewrite Ec. unfold M.
            assert (LM : pm (X (indx + 1)%nat) (Z indx) (upper d) = last_mass) by (unfold last_mass; rewrite F, Ei; now replace (n - 2 + 1)%nat with (n - 1)%nat by lia).
            rewrite LM, Ei. assert (TE : total = last_mass + Cm (n - 2)) by reflexivity. lra.
          * pose proof (upper_gt F). pose proof (cZ L). pose proof (Zle (indx + 1)%nat (n - 2)%nat ltac:(lia) ltac:(lia)). cbv beta in *. lra.
      - apply Chasles with (b := Z indx) (l1 := Cm indx) (l2 := M); [typeclasses eauto|typeclasses eauto|now apply cum_mass| |unfold M; lra].
        apply is_RInt_gen_at_point. rewrite <- Ec. apply inner_mass; [lia|lra|easy]. }
    destruct (eq0 (Rabs (hp (X (indx + 1)%nat)))) eqn:EZ.
    + apply eq0_spec in EZ. assert (EZ' : hp (X (indx + 1)%nat) = 0). { destruct (Req_dec (hp (X (indx + 1)%nat)) 0) as [Q|Q]; [easy|]. apply Rabs_no_R0 in Q. easy. }
      destruct (Nat.eq_dec indx (n - 2)) as [Q|Q]; [exfalso; rewrite Q in EZ'; replace (n - 2 + 1)%nat with (n - 1)%nat in EZ' by lia; easy|].
      assert ((indx =? n - 1 - 1)%nat = false) as -> by (apply Nat.eqb_neq; lia). cbn [negb]. rewrite (zs_nth (indx + 1)%nat), (scum_nth (indx + 1)%nat) by lia.
      eexists. split; [reflexivity|]. apply Goal1. rewrite Cm_S by lia. unfold ArsMass.pm. apply eq0_spec in EZ' as ->. unfold M.
      pose proof (exp_pos (h (X (indx + 1)%nat))). pose proof (Zinc indx (indx + 1)%nat ltac:(lia) ltac:(lia)). cbv beta in *.
      field. repeat split; try lra.
      match goal with |- ?e <> 0 => replace e with ((zof h hp (get l (indx + 1)) (get l (indx + 1 + 1)) - zof h hp (get l indx) (get l (indx + 1))) * exp (h (get l (indx + 1)))) by ring end.
      apply Rmult_integral_contrapositive_currified; lra.
    + apply eq0_false in EZ. assert (EZ' : hp (X (indx + 1)%nat) <> 0) by (intros Q; apply EZ; cbv beta in Q; rewrite Q; apply Rabs_R0).
      eexists. split; [reflexivity|]. apply Goal1. rewrite (meet indx) by lia.
      replace (hp (get l (indx + 1)) * total * (u - Cm indx / total) / exp (tan (get l (indx + 1)) (zof h hp (get l indx) (get l (indx + 1)))))
        with (hp (X (indx + 1)%nat) * M / exp (tan (X (indx + 1)%nat) (Z indx))).
      2:{ unfold M. field. split; first [lra|apply Rgt_not_eq, exp_pos]. }
      apply pm_quantile; [easy|]. pose proof (exp_pos (tan (X (indx + 1)%nat) (Z indx))) as EP.
      destruct (Rlt_dec 0 (hp (X (indx + 1)%nat))) as [Pos|Neg]; [cbv beta in *; nra|]. assert (Neg' : hp (X (indx + 1)%nat) < 0) by (cbv beta in *; lra).
      assert (K : exists y, 0 <= y /\ hp (X (indx + 1)%nat) * M > y - exp (tan (X (indx + 1)%nat) (Z indx)) \/ 0 < y /\ hp (X (indx + 1)%nat) * M >= y - exp (tan (X (indx + 1)%nat) (Z indx))).
      { assert (PM : forall b, pm (X (indx + 1)%nat) (Z indx) b * hp (X (indx + 1)%nat) = exp (tan (X (indx + 1)%nat) b) - exp (tan (X (indx + 1)%nat) (Z indx))).
        { intros b. unfold ArsMass.pm. pose proof EZ' as Q. apply eq0_false in Q as ->. field. easy. }
        destruct (le_lt_dec n (indx + 2)) as [L|L].
        - assert (Ei : indx = (n - 2)%nat) by lia. assert (ML : M < last_mass). { unfold M. rewrite Ei. assert (TE : total = last_mass + Cm (n - 2)) by reflexivity. lra. }
          unfold last_mass in ML. replace (n - 1)%nat with (indx + 1)%nat in ML by lia. replace (n - 2)%nat with indx in ML by lia. destruct (upper_finite d) eqn:F.
          + exists (exp (tan (X (indx + 1)%nat) (upper d))). right. split; [apply exp_pos|]. specialize (PM (upper d)). cbv beta in *. nra.
          + exists 0. left. split; [lra|]. apply (Rmult_lt_compat_r (- hp (X (indx + 1)%nat))) in ML; [|lra].
            replace (- 1 / hp (get l (indx + 1)) * exp (tan (get l (indx + 1)) (zof h hp (get l indx) (get l (indx + 1)))) * - hp (X (indx + 1)%nat))
              with (exp (tan (X (indx + 1)%nat) (Z indx))) in ML by (field; easy). cbv beta in *. lra.
        - exists (exp (tan (X (indx + 1)%nat) (Z (indx + 1)%nat))). right. split; [apply exp_pos|]. specialize (PM (Z (indx + 1)%nat)). specialize (I3 L). rewrite Cm_S in I3 by easy. unfold M. cbv beta in *. nra. }
      destruct K as (y & [[K1 K2]|[K1 K2]]); cbv beta in *; lra.
  - apply ltb_false in E1. pose proof E0 as Q. apply eq0_false in Q as ->. eexists. split; [reflexivity|].
    set (M := u * total - Cm 0).
    replace (1 - hp (get l 0) * total * (Cm 0 / total - u) / exp (tan (get l 0) (zof h hp (get l 0) (get l (0 + 1))))) with (1 + hp (X 0%nat) * M / exp (tan (X 0%nat) (Z 0%nat))).
    2:{ unfold M. field. split; first [lra|apply Rgt_not_eq, exp_pos]. }
    assert (MN : M <= 0). { unfold M. apply (Rmult_le_compat_r total) in E1; [|lra]. replace (Cm 0 / total * total) with (Cm 0) in E1 by (field; lra). lra. }
    assert (Pq : pm (X 0%nat) (Z 0%nat) (Z 0%nat + 1 / hp (X 0%nat) * ln (1 + hp (X 0%nat) * M / exp (tan (X 0%nat) (Z 0%nat)))) = M).
    { apply pm_quantile; [easy|]. pose proof (exp_pos (tan (X 0%nat) (Z 0%nat))) as EP.
      destruct (Rlt_dec 0 (hp (X 0%nat))) as [Pos|Neg]; [|cbv beta in *; nra].
      assert (ML : - Cm 0 < M) by (unfold M; lra). rewrite Cm_0 in ML. unfold first_mass, ArsMass.pm in ML. pose proof E0 as Q. apply eq0_false in Q. rewrite Q in ML.
      apply (Rmult_lt_compat_r (hp (X 0%nat))) in ML; [|easy]. destruct (lower_finite d).
      - pose proof (exp_pos (tan (X 0%nat) (lower d))). replace (- (1 / hp (get l 0) * (exp (tan (get l 0) (zof h hp (get l 0) (get l (0 + 1)))) - exp (tan (get l 0) (lower d)))) * hp (X 0%nat))
          with (- (exp (tan (X 0%nat) (Z 0%nat)) - exp (tan (X 0%nat) (lower d)))) in ML by (field; easy). cbv beta in *. lra.
      - replace (- (1 / hp (get l 0) * exp (tan (get l 0) (zof h hp (get l 0) (get l (0 + 1))))) * hp (X 0%nat)) with (- exp (tan (X 0%nat) (Z 0%nat))) in ML by (field; easy). cbv beta in *. lra. }
    change (zof h hp (get l 0) (get l (0 + 1))) with (Z 0%nat) in *. set (c := Z 0%nat + _) in *.
    assert (cZ : c <= Z 0%nat). { apply (pm_le_reg h hp (X 0%nat) (Z 0%nat)). rewrite Pq, pm_refl. easy. }
    assert (cL : lower_finite d = true -> lower d < c).
    { intros F. apply (pm_lt_reg h hp (X 0%nat) (Z 0%nat)). rewrite Pq, pm_opp. assert (FM : first_mass = pm (X 0%nat) (lower d) (Z 0%nat)) by (unfold first_mass; now rewrite F).
      rewrite <- FM, <- Cm_0. unfold M. lra. }
    split.
    + split; [easy|]. intros F. pose proof (upper_gt F). pose proof (Zle 0%nat (n - 2)%nat ltac:(lia) ltac:(lia)). cbv beta in *. lra.
    + replace (u * total) with (first_mass + pm (X 0%nat) (Z 0%nat) c) by (rewrite Pq; unfold M; rewrite Cm_0; lra). apply outer_mass; [easy|]. intros F. apply Rlt_le. auto.
Qed.
End Hull.
