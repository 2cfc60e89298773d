(** Lemmas on the hulls of adaptive-rejection sampling *)
From Coq Require Import Reals List Arith Bool Lia Lra Sorted.
From Coquelicot Require Import Coquelicot.
From Verif.Model Require Import Ars.
From Verif.Spec Require Import ArsSpec.
Import ListNotations.
Open Scope R_scope.
Notation RR := RbaseSymbolsImpl.R (only parsing).

Lemma ltb_spec a b : ltb a b = true <-> a < b.
Proof. unfold ltb. destruct (Rlt_dec a b); split; auto; discriminate. Qed.
Lemma ltb_false a b : ltb a b = false <-> b <= a.
Proof. unfold ltb. destruct (Rlt_dec a b); split; intros; auto; try discriminate; lra. Qed.
Lemma eq0_spec a : eq0 a = true <-> a = 0.
Proof. unfold eq0. destruct (Req_EM_T a 0); split; intros; try easy. Qed.
Lemma eq0_false a : eq0 a = false <-> a <> 0.
Proof. unfold eq0. destruct (Req_EM_T a 0); split; intros; try easy. Qed.

(** ** Pairs of neighbours *)
Definition plist (g : RR -> RR -> RR) (l : list RR) : list RR := map (fun j => g (get l j) (get l (j + 1))) (seq 0 (length l - 1)).
Lemma plist_cons g a b t : plist g (a :: b :: t) = g a b :: plist g (b :: t).
Proof.
  unfold plist. replace (length (a :: b :: t) - 1)%nat with (S (length (b :: t) - 1)) by (cbn; lia). cbn [seq map]. f_equal.
  rewrite <- seq_shift, map_map. apply map_ext. intros j. reflexivity.
Qed.
Lemma plist_one g a : plist g [a] = [].
Proof. reflexivity. Qed.
Lemma plist_app g l a t : plist g (l ++ a :: t) = plist g (l ++ [a]) ++ plist g (a :: t).
Proof.
  induction l as [|x l IH]; [cbn [app]; now rewrite plist_one|]. destruct l as [|y l].
  - cbn [app] in *. rewrite plist_cons. rewrite (plist_cons g x a []), plist_one. reflexivity.
  - cbn [app] in *. now rewrite !plist_cons, IH.
Qed.
Lemma plist_length g l : length (plist g l) = (length l - 1)%nat.
Proof. unfold plist. now rewrite map_length, seq_length. Qed.
Lemma plist_nth g l j : (j + 1 < length l)%nat -> get (plist g l) j = g (get l j) (get l (j + 1)).
Proof.
  intros H. unfold plist. rewrite (nth_indep _ 0 (g (get l j) (get l (j + 1)))) by (rewrite map_length, seq_length; lia).
  rewrite (map_nth (fun j => g (get l j) (get l (j + 1)))) with (d := j). rewrite seq_nth by lia. reflexivity.
Qed.
Lemma get_map f l j : (j < length l)%nat -> get (map f l) j = f (get l j).
Proof. intros H. rewrite (nth_indep _ 0 (f 0)) by now rewrite map_length. apply (map_nth f). Qed.

Section Concave.
Context (h hp : RR -> RR) (d : domain).

Local Notation inside := (inside d).
Local Notation concave := (concave h hp d).
Local Notation tan := (tan h hp).
Definition zof (a b : RR) : RR := (h b - h a - b * hp b + a * hp a) / (hp a - hp b).
Lemma inside_between x y z : inside x -> inside z -> x <= y <= z -> inside y.
Proof. intros [A B] [C D] H. split; intros E; [specialize (A E)|specialize (D E)]; lra. Qed.
Lemma supergradient x y : concave -> inside x -> inside y -> x <> y -> h y < tan x y.
Proof.
  intros [HD HM] Hx Hy N. unfold tan. destruct (Rtotal_order x y) as [L|[E|L]]; [|easy|].
  - destruct (MVT_cor2 h hp x y L) as (c & E & Hc). { intros c Hc. apply is_derive_Reals, HD. apply (inside_between x c y); auto. }
    assert (hp c < hp x) by (apply HM; try easy; apply (inside_between x c y); auto; lra). nra.
  - destruct (MVT_cor2 h hp y x L) as (c & E & Hc). { intros c Hc. apply is_derive_Reals, HD. apply (inside_between y c x); auto. }
    assert (hp x < hp c) by (apply HM; try easy; apply (inside_between y c x); auto; lra). nra.
Qed.
Context (C : concave).
Lemma tangent_above x y : inside x -> inside y -> h y <= tan x y.
Proof. intros Hx Hy. destruct (Req_dec x y) as [->|N]; [unfold tan; lra|]. apply Rlt_le. now apply supergradient. Qed.
Lemma slopes a b : inside a -> inside b -> a < b -> hp b < hp a.
Proof. apply C. Qed.
Lemma zof_between a b : inside a -> inside b -> a < b -> a < zof a b < b.
Proof.
  intros Ha Hb L. pose proof (slopes a b Ha Hb L) as S. pose proof (supergradient a b C Ha Hb ltac:(lra)) as G1. pose proof (supergradient b a C Hb Ha ltac:(lra)) as G2.
  unfold tan in *. unfold zof. split.
  - apply (Rmult_lt_reg_r (hp a - hp b)); [lra|]. field_simplify; [|lra]. nra.
  - apply (Rmult_lt_reg_r (hp a - hp b)); [lra|]. field_simplify; [|lra]. nra.
Qed.
Lemma tan_meet a b : hp a <> hp b -> tan a (zof a b) = tan b (zof a b).
Proof. intros S. unfold tan, zof. field. lra. Qed.
Lemma tan_diff a b x : hp a <> hp b -> tan b x - tan a x = (hp a - hp b) * (zof a b - x).
Proof. intros S. unfold tan, zof. field. lra. Qed.
Lemma tan_left a b x : inside a -> inside b -> a < b -> x <= zof a b -> tan a x <= tan b x.
Proof. intros Ha Hb L H. pose proof (slopes a b Ha Hb L). pose proof (tan_diff a b x ltac:(lra)). nra. Qed.
Lemma tan_right a b x : inside a -> inside b -> a < b -> zof a b <= x -> tan b x <= tan a x.
Proof. intros Ha Hb L H. pose proof (slopes a b Ha Hb L). pose proof (tan_diff a b x ltac:(lra)). nra. Qed.

(** ** Sorted abscissae *)
Definition increasing (l : list RR) : Prop := forall i j, (i < j)%nat -> (j < length l)%nat -> get l i < get l j.
Definition good (l : list RR) : Prop := increasing l /\ (forall x, In x l -> inside x) /\ (2 <= length l)%nat.
Context (l : list RR) (G : good l).
Local Notation n := (length l).
Local Notation X := (fun j => get l j).
Local Notation Z := (fun j => zof (get l j) (get l (j + 1))).
Lemma X_inside j : (j < n)%nat -> inside (X j).
Proof. intros H. apply G. now apply nth_In. Qed.
Lemma X_inc i j : (i < j)%nat -> (j < n)%nat -> X i < X j.
Proof. apply G. Qed.
Lemma Z_between j : (j + 1 < n)%nat -> X j < Z j < X (j + 1)%nat.
Proof. intros H. cbv beta. apply zof_between; [apply X_inside; lia|apply X_inside; lia|apply X_inc; lia]. Qed.
Lemma Z_inc i j : (i < j)%nat -> (j + 1 < n)%nat -> Z i < Z j.
Proof.
  intros H Hj. assert (B : Z i < X (i + 1)%nat) by (apply Z_between; lia). assert (B2 : X j < Z j) by (apply Z_between; lia).
  destruct (Nat.eq_dec (i + 1) j) as [E|E]; [rewrite E in B; cbv beta in *; lra|]. pose proof (X_inc (i + 1) j ltac:(lia) ltac:(lia)). cbv beta in *. lra.
Qed.
Lemma Z_le i j : (i <= j)%nat -> (j + 1 < n)%nat -> Z i <= Z j.
Proof. intros H Hj. destruct (Nat.eq_dec i j) as [->|N]; [cbv beta; lra|]. apply Rlt_le, Z_inc; lia. Qed.

(** The least tangent *)
Definition in_piece (j : nat) (x : RR) : Prop := (forall i, (i < j)%nat -> Z i <= x) /\ (forall i, (j <= i)%nat -> (i + 1 < n)%nat -> x <= Z i).
Lemma piece_least j x i : (j < n)%nat -> (i < n)%nat -> in_piece j x -> tan (X j) x <= tan (X i) x.
Proof.
  intros Hj Hi [A B]. destruct (le_lt_dec j i) as [L|L].
  - induction i as [|i IH]; [replace j with 0%nat by lia; lra|]. destruct (Nat.eq_dec j (S i)) as [->|N]; [lra|]. specialize (IH ltac:(lia) ltac:(lia)).
    apply Rle_trans with (1 := IH). replace (S i) with (i + 1)%nat in * by lia. apply tan_left; [apply X_inside; lia|apply X_inside; lia|apply X_inc; lia|]. apply B; lia.
  - remember (j - i)%nat as k eqn:Ek. revert i Hi L Ek. induction k as [|k IH]; intros i Hi L Ek; [lia|]. destruct (Nat.eq_dec k 0) as [->|N].
    + replace j with (i + 1)%nat in * by lia. apply tan_right; [apply X_inside; lia|apply X_inside; lia|apply X_inc; lia|]. apply A; lia.
    + apply Rle_trans with (tan (X (i + 1)%nat) x); [apply IH; lia|]. apply tan_right; [apply X_inside; lia|apply X_inside; lia|apply X_inc; lia|]. apply A; lia.
Qed.
End Concave.

(** ** The hull is a function of the sorted abscissae *)
Definition hull_of (h hp : RR -> RR) (d : domain) (l : list RR) : hull :=
  let zs := plist (zof h hp) l in
  let hus := plist (fun a b => tan h hp a (zof h hp a b)) l in
  let m := masses d l (map h l) (map hp l) zs hus in
  mkHull (fst m) l (map h l) (map hp l) zs (snd m) hus.
Lemma setup_is_hull_of h hp d l : setup_hull d l h hp = hull_of h hp d (sort l).
Proof.
  assert (L : length (sort l) = length l).
  { unfold sort. induction l as [|x l IH]; [easy|]. cbn [fold_right length]. rewrite <- IH. generalize (fold_right insert_sorted [] l). intros m.
    induction m as [|y m IHm]; [easy|]. cbn. destruct (ltb x y); cbn; [easy|now rewrite IHm]. }
  unfold setup_hull, hull_of. rewrite <- L. set (s := sort l).
  assert (E1 : map (fun j => (get (map h s) (j + 1) - get (map h s) j - get s (j + 1) * get (map hp s) (j + 1) + get s j * get (map hp s) j) / (get (map hp s) j - get (map hp s) (j + 1))) (seq 0 (length s - 1))
             = plist (zof h hp) s).
  { unfold plist. apply map_ext_in. intros j Hj. apply in_seq in Hj. rewrite !get_map by lia. reflexivity. }
  cbv zeta. rewrite E1.
  assert (E2 : map (fun j => get (map hp s) j * (get (plist (zof h hp) s) j - get s j) + get (map h s) j) (seq 0 (length s - 1)) = plist (fun a b => tan h hp a (zof h hp a b)) s).
  { unfold plist at 2. apply map_ext_in. intros j Hj. apply in_seq in Hj. rewrite !get_map, plist_nth by lia. reflexivity. }
  now rewrite E2.
Qed.

(** ** Sorting and inserting *)
Lemma insert_sorted_in x l y : In y (insert_sorted x l) <-> y = x \/ In y l.
Proof. induction l as [|z l IH]; cbn; [intuition|]. destruct (ltb x z); cbn; [intuition|]. rewrite IH. intuition. Qed.
Lemma sort_in l y : In y (sort l) <-> In y l.
Proof. induction l as [|x l IH]; [easy|]. cbn. fold (sort l). rewrite insert_sorted_in, IH. intuition. Qed.
Lemma insert_sorted_sorted x l : StronglySorted Rlt l -> ~ In x l -> StronglySorted Rlt (insert_sorted x l).
Proof.
  induction 1 as [|y l S IH F]; intros N; cbn; [repeat constructor|]. destruct (ltb x y) eqn:E.
  - apply ltb_spec in E. constructor; [now constructor|]. constructor; [easy|]. rewrite List.Forall_forall in *. intros z Hz. specialize (F z Hz). lra.
  - apply ltb_false in E. constructor; [apply IH; intros I; apply N; now right|]. rewrite List.Forall_forall in *. intros z Hz. apply insert_sorted_in in Hz as [->|Hz]; [|now apply F].
    destruct E as [E|E]; [easy|]. exfalso. apply N. left. lra.
Qed.
Lemma sort_sorted l : NoDup l -> StronglySorted Rlt (sort l).
Proof. induction 1 as [|x l N D IH]; [constructor|]. cbn. apply insert_sorted_sorted; [exact IH|]. fold (sort l). now rewrite sort_in. Qed.
Lemma sorted_increasing l : StronglySorted Rlt l -> increasing l.
Proof.
  induction 1 as [|x l S IH F]; intros i j Hi Hj; [cbn in Hj; lia|]. destruct j as [|j]; [lia|]. destruct i as [|i]; cbn [nth].
  - rewrite List.Forall_forall in F. apply F. apply nth_In. cbn in Hj. lia.
  - apply IH; cbn in Hj; lia.
Qed.
Lemma sort_length l : length (sort l) = length l.
Proof.
  unfold sort. induction l as [|x l IH]; [easy|]. cbn [fold_right length]. rewrite <- IH. generalize (fold_right insert_sorted [] l). intros m.
  induction m as [|y m IHm]; [easy|]. cbn. destruct (ltb x y); cbn; [easy|now rewrite IHm].
Qed.
(** Where a new abscissa goes *)
Lemma insert_split x l : StronglySorted Rlt l -> ~ In x l -> exists l1 l2, l = l1 ++ l2 /\ (forall y, In y l1 -> y < x) /\ (forall y, In y l2 -> x < y) /\
  insert_sorted x l = l1 ++ x :: l2 /\ run (fun y => ltb y x) l = length l1.
Proof.
  induction 1 as [|y l S IH F]; intros N; [exists [], []; repeat split; try easy|]. cbn. destruct (ltb x y) eqn:E.
  - apply ltb_spec in E. exists [], (y :: l). assert (ltb y x = false) as -> by (apply ltb_false; lra). repeat split; try easy.
    intros z [<-|Hz]; [easy|]. rewrite List.Forall_forall in F. specialize (F z Hz). lra.
  - apply ltb_false in E. assert (y < x) by (destruct E as [E|E]; [easy|exfalso; apply N; left; lra]). assert (ltb y x = true) as -> by now apply ltb_spec.
    destruct IH as (l1 & l2 & -> & A & B & -> & ->); [intros I; apply N; now right|]. exists (y :: l1), l2. repeat split; try easy. intros z [<-|Hz]; auto.
Qed.
Lemma get_app1 l t j : (j < length l)%nat -> get (l ++ t) j = get l j.
Proof. intros. now apply app_nth1. Qed.
Lemma get_app_mid l a t : get (l ++ a :: t) (length l) = a.
Proof. rewrite app_nth2 by lia. now rewrite Nat.sub_diag. Qed.
Lemma insert_at_app i x l t : length l = i -> insert_at i x (l ++ t) = l ++ x :: t.
Proof. intros <-. unfold insert_at. rewrite firstn_app, skipn_app, Nat.sub_diag, firstn_all, skipn_all. cbn. now rewrite app_nil_r. Qed.
Lemma set_at_app i x l a t : length l = i -> set_at i x (l ++ a :: t) = l ++ x :: t.
Proof.
  intros <-. unfold set_at. rewrite firstn_app, Nat.sub_diag, firstn_all, skipn_app. rewrite (skipn_all2 l) by lia.
  replace (S (length l) - length l)%nat with 1%nat by lia. cbn. now rewrite app_nil_r.
Qed.
Lemma last_app l (a : RR) : get (l ++ [a]) (length (l ++ [a]) - 1) = a.
Proof. rewrite app_length. cbn [length]. replace (length l + 1 - 1)%nat with (length l) by lia. apply get_app_mid. Qed.

(** update_hull adds an abscissa *)
Lemma update_is_insert h hp d l x : StronglySorted Rlt l -> l <> [] -> ~ In x l ->
  update_hull (hull_of h hp d l) d x (h x) (hp x) = hull_of h hp d (insert_sorted x l).
Proof.
  intros SS NE N. destruct (insert_split x l SS N) as (l1 & l2 & El & A & B & Ei & Er). rewrite Ei.
  unfold update_hull. cbn [xs hxs hpxs zs hus hull_of].
  assert (K : forall q1 q2 q3 q4 q5, q1 = l1 ++ x :: l2 -> q2 = map h (l1 ++ x :: l2) -> q3 = map hp (l1 ++ x :: l2) -> q4 = plist (zof h hp) (l1 ++ x :: l2) ->
     q5 = plist (fun a b => tan h hp a (zof h hp a b)) (l1 ++ x :: l2) ->
     (let m := masses d q1 q2 q3 q4 q5 in mkHull (fst m) q1 q2 q3 q4 (snd m) q5) = hull_of h hp d (l1 ++ x :: l2)).
  { intros q1 q2 q3 q4 q5 -> -> -> -> ->. reflexivity. }
  destruct (ltb (last_of l) x) eqn:Elast.
  - (* beyond the last *)
    apply ltb_spec in Elast. assert (l2 = []) as ->.
    { destruct l2 as [|y l2]; [easy|]. exfalso. destruct (exists_last (l := y :: l2) ltac:(easy)) as (l3 & z & E3). rewrite E3 in *. rewrite El in Elast. rewrite app_assoc in Elast.
      rewrite last_app in Elast. specialize (B z ltac:(apply in_or_app; right; now left)). lra. }
    rewrite app_nil_r in El. subst l1. destruct (exists_last NE) as (t & a & Et). rewrite Et in *.
    rewrite !map_length. rewrite !get_map by (rewrite app_length; cbn; lia). rewrite !last_app.
    apply K; [easy|now rewrite (map_app h (t ++ [a]) [x])|now rewrite (map_app hp (t ++ [a]) [x])| |].
    + rewrite <- app_assoc. cbn [app]. now rewrite (plist_app _ t a [x]), plist_cons, plist_one.
    + rewrite <- app_assoc. cbn [app]. now rewrite (plist_app _ t a [x]), plist_cons, plist_one.
  - apply ltb_false in Elast. destruct l2 as [|b l2].
    { exfalso. rewrite app_nil_r in El. subst l1. destruct (exists_last NE) as (t & a & Et). rewrite Et in *. rewrite last_app in Elast.
      specialize (A a ltac:(apply in_or_app; right; now left)). lra. }
    rewrite Er. destruct l1 as [|a0 l1'].
    + (* before the first *)
      cbn [app] in El. subst l. assert (ltb x (get (b :: l2) 0) = true) as -> by (apply ltb_spec, B; now left).
      cbn [length]. unfold insert_at. cbn [firstn skipn app map nth].
      apply K; [easy|easy|easy| |]; cbn [app]; now rewrite plist_cons.
    + assert (ltb x (get l 0) = false) as ->. { apply ltb_false. rewrite El. cbn. apply Rlt_le, A. now left. }
      destruct (exists_last (l := a0 :: l1') ltac:(easy)) as (t & a & Et). rewrite Et in *. clear a0 l1' Et.
      assert (Lt : length (t ++ [a]) = S (length t)) by (rewrite app_length; cbn; lia). rewrite Lt. cbn [Nat.eqb]. replace (S (length t) - 1)%nat with (length t) by lia.
      assert (Ll : (S (length t) < length l)%nat) by (rewrite El, app_length, Lt; cbn; lia).
      rewrite !get_map by lia.
      assert (Ga : get l (length t) = a). { rewrite El, <- app_assoc. cbn [app]. apply get_app_mid. }
      assert (Gb : get l (S (length t)) = b). { rewrite El, <- Lt. apply get_app_mid. }
      rewrite Ga, Gb.
      assert (P : forall g z1 z2, z1 = g a x -> z2 = g x b -> set_at (S (length t)) z2 (insert_at (length t) z1 (plist g l)) = plist g ((t ++ [a]) ++ x :: b :: l2)).
      { intros g z1 z2 -> ->. rewrite El, <- !app_assoc. cbn [app]. rewrite (plist_app g t a (b :: l2)), (plist_app g t a (x :: b :: l2)), !plist_cons.
        assert (Lp : length (plist g (t ++ [a])) = length t) by (rewrite plist_length, Lt; lia).
        rewrite insert_at_app by easy. change (g a x :: g a b :: plist g (b :: l2)) with ([g a x] ++ g a b :: plist g (b :: l2)). rewrite app_assoc.
        rewrite set_at_app by (rewrite app_length, Lp; cbn; lia). now rewrite <- app_assoc. }
      apply K.
      * rewrite El. now apply insert_at_app.
      * rewrite El, (map_app h (t ++ [a]) (b :: l2)), (map_app h (t ++ [a]) (x :: b :: l2)). cbn [map]. apply insert_at_app. now rewrite map_length.
      * rewrite El, (map_app hp (t ++ [a]) (b :: l2)), (map_app hp (t ++ [a]) (x :: b :: l2)). cbn [map]. apply insert_at_app. now rewrite map_length.
      * apply P; reflexivity.
      * apply P; reflexivity.
Qed.
