(** C39: adaptive-rejection sampling. *)
From Coq Require Import Reals List Arith Bool Lia Lra Sorted.
From Coquelicot Require Import Coquelicot.
From Verif.Model Require Import Ars.
From Verif.Spec Require Import ArsSpec.
From Verif.Proofs Require Import ArsProofs ArsMass.
Import ListNotations.
Open Scope R_scope.

Lemma ok_good h hp d l : abscissae_ok h hp d l -> good d (sort l).
Proof.
  intros (A & B & D & _). split; [apply sorted_increasing, sort_sorted; easy|]. split; [|now rewrite sort_length].
  intros x Hx. apply D. now apply sort_in.
Qed.
Lemma ok_first h hp d l : abscissae_ok h hp d l -> hp (get (sort l) 0) <> 0 /\ (lower_finite d = false -> 0 < hp (get (sort l) 0)).
Proof.
  intros O. pose proof (ok_good _ _ _ _ O) as G. destruct O as (A & B & D & F & _). rewrite <- sort_length in A. apply F; [apply sort_in, nth_In; lia|].
  intros y Hy. apply sort_in in Hy. apply (In_nth _ _ 0) in Hy as (i & Hi & <-). destruct i as [|i]; [lra|]. apply Rlt_le, G; lia.
Qed.
Lemma ok_last h hp d l : abscissae_ok h hp d l -> hp (get (sort l) (length (sort l) - 1)) <> 0 /\ (upper_finite d = false -> hp (get (sort l) (length (sort l) - 1)) < 0).
Proof.
  intros O. pose proof (ok_good _ _ _ _ O) as G. destruct O as (A & B & D & _ & F). rewrite <- sort_length in A. apply F; [apply sort_in, nth_In; lia|].
  intros y Hy. apply sort_in in Hy. apply (In_nth _ _ 0) in Hy as (i & Hi & <-). destruct (Nat.eq_dec i (length (sort l) - 1)) as [->|N]; [lra|]. apply Rlt_le, G; lia.
Qed.
Lemma fold_min_in (f : RR -> RR) b : forall t e, (forall v, v <= f b -> fold_right (fun b m => Rmin (f b) m) v (b :: t) <= f b) /\ (In b t -> fold_right (fun b m => Rmin (f b) m) e t <= f b).
Proof.
  induction t as [|y t IH]; intros e; split; cbn; try easy.
  - intros v Hv. apply Rmin_l.
  - intros v Hv. apply Rmin_l.
  - intros [->|Hb]; [apply Rmin_l|]. apply Rle_trans with (2 := proj2 (IH e) Hb). apply Rmin_r.
Qed.
Lemma fold_min_init (f : RR -> RR) : forall t e, fold_right (fun b m => Rmin (f b) m) e t <= e.
Proof. induction t as [|y t IH]; intros e; cbn; [lra|]. apply Rle_trans with (2 := IH e). apply Rmin_r. Qed.
Lemma envelope_le h hp l a x : In a l -> envelope h hp l x <= tan h hp a x.
Proof. destruct l as [|b t]; [easy|]. cbn [envelope]. intros [->|Ha]; [apply (fold_min_init (fun b => tan h hp b x))|]. now apply (proj2 (fold_min_in (fun b => tan h hp b x) a t _)). Qed.
Lemma envelope_in h hp l x : l <> [] -> exists a, In a l /\ envelope h hp l x = tan h hp a x.
Proof.
  destruct l as [|b t]; [easy|]. intros _. cbn [envelope]. induction t as [|y t IH]; [exists b; split; [now left|easy]|]. cbn [fold_right].
  destruct IH as (a & Ha & E). unfold Rmin at 1. destruct (Rle_dec _ _); [exists y; split; [right; now left|easy]|]. exists a. split; [|easy]. destruct Ha as [->|Ha]; [now left|right; now right].
Qed.
Lemma envelope_least h hp l x a : In a l -> (forall b, In b l -> tan h hp a x <= tan h hp b x) -> envelope h hp l x = tan h hp a x.
Proof.
  intros Ha Hb. destruct (envelope_in h hp l x) as (b & Ib & E); [now destruct l|]. apply Rle_antisym; [now apply envelope_le|]. rewrite E. now apply Hb.
Qed.
Lemma envelope_sort h hp l x : l <> [] -> envelope h hp (sort l) x = envelope h hp l x.
Proof.
  intros N. destruct (envelope_in h hp l x N) as (a & Ha & E). rewrite E. apply envelope_least; [now apply sort_in|].
  intros b Hb. rewrite <- E. apply envelope_le. now apply sort_in.
Qed.
Lemma ok_nonempty h hp d l : abscissae_ok h hp d l -> l <> [].
Proof. intros (A & _) ->. cbn in A. lia. Qed.

(** ** Candidates: the variate u gives the u-quantile of the density proportional to the exponential of the envelope of the tangents, strictly inside the domain;
    the normalisation is its mass *)
Theorem C39_candidate h hp d l u : concave h hp d -> abscissae_ok h hp d l -> 0 < u < 1 ->
  exists c, sample_hull (setup_hull d l h hp) d u = Some c /\ inside d c /\
  is_RInt_gen (fun x => exp (envelope h hp l x)) (left_end d) (at_point c) (u * cu (setup_hull d l h hp)) /\
  is_RInt_gen (fun x => exp (envelope h hp l x)) (left_end d) (right_end d) (cu (setup_hull d l h hp)).
Proof.
  intros C O Hu. rewrite setup_is_hull_of. pose proof (ok_good _ _ _ _ O) as G. destruct (ok_first _ _ _ _ O) as [E0 P0]. destruct (ok_last _ _ _ _ O) as [En Pn].
  pose proof (ok_nonempty _ _ _ _ O) as NE.
  assert (X : forall Fb v, is_RInt_gen (fun x => exp (envelope h hp (sort l) x)) (left_end d) Fb v -> is_RInt_gen (fun x => exp (envelope h hp l x)) (left_end d) Fb v).
  { intros Fb v. unfold is_RInt_gen. intros Q P HP. specialize (Q P HP). destruct Q as [Q R HQ HR HH]. apply Filter_prod with (1 := HQ) (2 := HR).
    intros a b Ha Hb. destruct (HH a b Ha Hb) as (y & Hy & Py). exists y. split; [|easy]. apply is_RInt_ext with (2 := Hy). intros z _. cbv beta. now rewrite envelope_sort. }
  destruct (quantile h hp d C (sort l) G E0 En P0 Pn u Hu) as (c & A & B & D). exists c. split; [easy|]. split; [easy|]. split; [now apply X|].
  apply X. now apply total_mass.
Qed.
Print Assumptions C39_candidate.

(** ** Updates: after any number of updates the hull is the one that would be set up from all the abscissae *)
Theorem C39_update h hp d l x : NoDup l -> l <> [] -> ~ In x l ->
  update_hull (setup_hull d l h hp) d x (h x) (hp x) = setup_hull d (x :: l) h hp.
Proof.
  intros ND NE N. rewrite !setup_is_hull_of. rewrite update_is_insert; [reflexivity|now apply sort_sorted| |now rewrite sort_in].
  intros Q. pose proof (sort_length l). rewrite Q in H. destruct l; [easy|discriminate].
Qed.
Print Assumptions C39_update.

(** A history of attempts, each with its two uniform variates *)
Fixpoint attempts (hx hpx : RR -> RR) (d : domain) (maxn : nat) (st : hull * nat) (us : list (RR * RR)) : option (list RR * (hull * nat)) :=
  match us with
  | [] => Some ([], st)
  | (u1, u2) :: us =>
    match attempt hx hpx d maxn st u1 u2 with
    | None => None
    | Some (r, st') => match attempts hx hpx d maxn st' us with
                       | None => None
                       | Some (samples, st'') => Some (match r with Some c => c :: samples | None => samples end, st'')
                       end
    end
  end.
(** The variates are uniform on (0, 1) and no candidate falls exactly on an abscissa or on the peak *)
Fixpoint generic (hx hpx : RR -> RR) (d : domain) (maxn : nat) (st : hull * nat) (us : list (RR * RR)) : Prop :=
  match us with
  | [] => True
  | (u1, u2) :: us =>
    0 < u1 < 1 /\ 0 < u2 < 1 /\ (forall c, sample_hull (fst st) d u1 = Some c -> ~ In c (xs (fst st)) /\ hpx c <> 0) /\
    forall r st', attempt hx hpx d maxn st u1 u2 = Some (r, st') -> generic hx hpx d maxn st' us
  end.
Section Evaluate.
Context (h hp : RR -> RR) (d : domain) (C : concave h hp d) (l : list RR) (G : good d l).
Lemma index_bound x : (hull_index x (hull_of h hp d l) < length l)%nat.
Proof.
  pose proof (proj2 (proj2 G)) as L. unfold hull_index. destruct (ltb _ _); [lia|]. destruct (_ =? _)%nat; [lia|].
  destruct (run_spec (fun z => ltb z x) (tl (zs (hull_of h hp d l)))) as (R1 & _). cbn [hull_of zs] in *. set (k := run _ _) in *.
  assert (length (tl (plist (zof h hp) l)) = (length l - 2)%nat). { pose proof (plist_length (zof h hp) l). destruct (plist (zof h hp) l); cbn in *; lia. } lia.
Qed.
Lemma hull_index_cases x : let i := hull_index x (hull_of h hp d l) in let Z j := zof h hp (get l j) (get l (j + 1)) in
  (i = 0%nat /\ x < Z 0%nat) \/ (length l = 2%nat /\ i = 1%nat /\ Z 0%nat <= x) \/
  ((3 <= length l)%nat /\ Z 0%nat <= x /\ (i + 1 < length l)%nat /\ ((0 < i)%nat -> Z i < x) /\ ((i + 2 < length l)%nat -> x <= Z (i + 1)%nat)).
Proof.
  intros i Z. pose proof (proj2 (proj2 G)) as L. unfold i, hull_index. clear i.
  assert (SL : length (scum (hull_of h hp d l)) = (length l - 1)%nat). { cbn [hull_of scum masses snd]. rewrite map_length, cumsum_length. cbn [length]. rewrite map_length, seq_length. lia. }
  rewrite SL. cbn [hull_of zs]. rewrite (plist_nth (zof h hp) l 0) by lia. change (zof h hp (get l 0) (get l (0 + 1))) with (Z 0%nat). destruct (ltb x (Z 0%nat)) eqn:E1.
  { apply ltb_spec in E1. left. auto. }
  apply ltb_false in E1. destruct (length l - 1 =? 1)%nat eqn:E2; [apply Nat.eqb_eq in E2|apply Nat.eqb_neq in E2].
  { right. left. split; [lia|auto]. }
  right. right. destruct (run_spec (fun z => ltb z x) (tl (plist (zof h hp) l))) as (R1 & R2 & R3). set (k := run _ _) in *.
  assert (LT : length (tl (plist (zof h hp) l)) = (length l - 2)%nat). { pose proof (plist_length (zof h hp) l). destruct (plist (zof h hp) l); cbn in *; lia. }
  assert (NT : forall q, get (tl (plist (zof h hp) l)) q = get (plist (zof h hp) l) (q + 1)). { intros q. replace (q + 1)%nat with (S q) by lia. destruct (plist (zof h hp) l); [now destruct q|reflexivity]. }
  replace (1 + k - 1)%nat with k by lia. split; [lia|]. split; [easy|]. split; [lia|]. split.
  - intros Hk. specialize (R2 (k - 1)%nat ltac:(lia)). rewrite NT in R2. replace (k - 1 + 1)%nat with k in R2 by lia. rewrite (plist_nth (zof h hp) l k) in R2 by lia. now apply ltb_spec in R2.
  - intros Q. specialize (R3 ltac:(lia)). rewrite NT, (plist_nth (zof h hp) l (k + 1)) in R3 by lia. now apply ltb_false in R3.
Qed.
Lemma upper_value x hu hl : evaluate_hull x (hull_of h hp d l) = Some (hu, hl) -> hu = tan h hp (get l (hull_index x (hull_of h hp d l))) x.
Proof.
  intros E. unfold evaluate_hull in E. pose proof (index_bound x) as B. set (i := hull_index x (hull_of h hp d l)) in *. cbn [hull_of hpxs hxs xs] in E.
  rewrite !(get_map _ l i) in E by easy. unfold tan. cbv zeta in E.
  destruct (_ || _); [now injection E|]. destruct (i =? 0)%nat; [now injection E|]. destruct (i =? _)%nat; [now injection E|].
  destruct (ltb _ _); [now injection E|]. destruct (_ <? _)%nat; [now injection E|discriminate].
Qed.
Lemma chord_below i j x : (i < j)%nat -> (j < length l)%nat -> get l i <= x <= get l j -> chord (hull_of h hp d l) i j x <= h x.
Proof.
  intros Hi Hj Hx. unfold chord. cbn [hull_of xs hxs]. rewrite !get_map by lia. assert (Lij : get l i < get l j) by (now apply G).
  assert (Ii : inside d (get l i)) by (apply G, nth_In; lia). assert (Ij : inside d (get l j)) by (apply G, nth_In; lia).
  assert (Ix : inside d x) by (apply (inside_between d (get l i) x (get l j)); auto).
  pose proof (tangent_above h hp d C x (get l i) Ix Ii) as T1. pose proof (tangent_above h hp d C x (get l j) Ix Ij) as T2. unfold tan in *.
  apply (Rmult_le_reg_r (get l j - get l i)); [lra|]. unfold Rdiv. rewrite Rmult_assoc, Rinv_l, Rmult_1_r by lra. nra.
Qed.
End Evaluate.
Lemma new_ok h hp d l c : abscissae_ok h hp d l -> concave h hp d -> inside d c -> ~ In c l -> hp c <> 0 -> abscissae_ok h hp d (c :: l).
Proof.
  intros (A & B & D & E & F) C Ic N Hc. split; [cbn; lia|]. split; [now constructor|]. split; [intros x [<-|Hx]; auto|]. split.
  - intros x [<-|Hx] Hm.
    + split; [easy|]. intros LF. (* the slope at the former least abscissa is positive *)
      assert (NE : sort l <> []) by (intros Q; pose proof (sort_length l) as SL; rewrite Q in SL; cbn in SL; lia).
      assert (O : abscissae_ok h hp d l) by (split; [|split; [|split; [|split]]]; auto). pose proof (proj2 (ok_first _ _ _ _ O) LF) as P.
      assert (I0 : In (get (sort l) 0) l) by (apply sort_in, nth_In; destruct (sort l); [easy|cbn; lia]).
      assert (L : c < get (sort l) 0). { destruct (Hm _ (or_intror I0)) as [L|L]; [easy|]. exfalso. apply N. now rewrite L. }
      pose proof (proj2 C c _ Ic (D _ I0) L). lra.
    + apply E; [easy|]. intros y Hy. apply Hm. now right.
  - intros x [<-|Hx] Hm.
    + split; [easy|]. intros LF.
      assert (O : abscissae_ok h hp d l) by (split; [|split; [|split; [|split]]]; auto). pose proof (proj2 (ok_last _ _ _ _ O) LF) as P.
      assert (I0 : In (get (sort l) (length (sort l) - 1)) l) by (apply sort_in, nth_In; rewrite sort_length; lia).
      assert (L : get (sort l) (length (sort l) - 1) < c). { destruct (Hm _ (or_intror I0)) as [L|L]; [easy|]. exfalso. apply N. now rewrite <- L. }
      pose proof (proj2 C _ c (D _ I0) Ic L). lra.
    + apply F; [easy|]. intros y Hy. apply Hm. now right.
Qed.
Lemma evaluate_defined h hp d l x : abscissae_ok h hp d l -> ~ In x l -> exists r, evaluate_hull x (setup_hull d l h hp) = Some r.
Proof.
  intros O N. rewrite setup_is_hull_of. pose proof (ok_good _ _ _ _ O) as G. unfold evaluate_hull. pose proof (index_bound h hp d (sort l) G x) as B. set (i := hull_index _ _) in *. cbn [hull_of xs zs].
  destruct (_ || _) eqn:EB; [eauto|]. destruct (i =? 0)%nat; [eauto|]. rewrite plist_length. destruct (i =? length (sort l) - 1)%nat eqn:E1; [eauto|]. apply Nat.eqb_neq in E1.
  destruct (ltb x (get (sort l) (i + 1))) eqn:E2; [eauto|]. destruct (i + 2 <? length (sort l))%nat eqn:E3; [eauto|]. exfalso. apply Nat.ltb_ge in E3. apply ltb_false in E2.
  apply orb_false_elim in EB as [_ EB]. apply ltb_false in EB. apply N. apply sort_in. replace x with (get (sort l) (i + 1)); [apply nth_In; lia|].
  replace (length (sort l) - 1)%nat with (i + 1)%nat in EB by lia. lra.
Qed.
Theorem C39_history h hp d maxn us : concave h hp d -> forall l k, abscissae_ok h hp d l -> generic h hp d maxn (setup_hull d l h hp, k) us ->
  exists new samples, attempts h hp d maxn (setup_hull d l h hp, k) us = Some (samples, (setup_hull d (new ++ l) h hp, (length new + k)%nat)) /\
  abscissae_ok h hp d (new ++ l) /\ ((k <= maxn)%nat -> (length new + k <= maxn)%nat) /\ forall c, In c samples -> inside d c.
Proof.
  intros C. induction us as [|[u1 u2] us IH]; intros l k O Hg; [exists [], []; split; [reflexivity|]; split; [exact O|]; split; [easy|intros ? []]|].
  cbn [generic] in Hg. destruct Hg as (U1 & U2 & Hc & Hn). cbn [attempts]. destruct (C39_candidate h hp d l u1 C O U1) as (c & Ec & Ic & _). cbn [fst] in Hc. destruct (Hc c Ec) as [Nc Pc].
  rewrite setup_is_hull_of in Nc. cbn [hull_of xs] in Nc. rewrite sort_in in Nc.
  destruct (evaluate_defined h hp d l c O Nc) as ([hu hl] & Ee). unfold attempt in *. rewrite Ec, Ee in Hn |- *.
  set (b := match hl with Some _ => _ | None => _ end) in *. clearbody b. destruct b.
  - specialize (Hn _ _ eq_refl). destruct (IH l k O Hn) as (new & samples & -> & A & B & D). exists new, (c :: samples). split; [easy|]. split; [easy|]. split; [easy|]. intros x [<-|Hx]; auto.
  - destruct (k <? maxn)%nat eqn:EK.
    + pose proof (C39_update h hp d l c (proj1 (proj2 O)) (ok_nonempty _ _ _ _ O) Nc) as EU. rewrite EU in Hn |- *. specialize (Hn _ _ eq_refl). pose proof (new_ok h hp d l c O C Ic Nc Pc) as O'.
      destruct (IH (c :: l) (S k) O' Hn) as (new & samples & -> & A & B & D). apply Nat.ltb_lt in EK. exists (new ++ [c]), (match (if ltb u2 (exp (h c - hu)) then Some c else None) with Some c => c :: samples | None => samples end).
      rewrite <- app_assoc. cbn [app]. rewrite app_length. cbn [length]. replace (length new + 1 + k)%nat with (length new + S k)%nat by lia. split; [easy|]. split; [easy|]. split; [intros; apply B; lia|].
      intros x Hx. destruct (ltb u2 (exp (h c - hu))); [destruct Hx as [<-|Hx]; auto|auto].
    + specialize (Hn _ _ eq_refl). destruct (IH l k O Hn) as (new & samples & -> & A & B & D). exists new, (match (if ltb u2 (exp (h c - hu)) then Some c else None) with Some c => c :: samples | None => samples end).
      split; [easy|]. split; [easy|]. split; [easy|]. intros x Hx. destruct (ltb u2 (exp (h c - hu))); [destruct Hx as [<-|Hx]; auto|auto].
Qed.
Print Assumptions C39_history.

(** ** Bounds: the upper hull lies above the log-density *)
Theorem C39_upper_hull h hp d l x hu hl : concave h hp d -> abscissae_ok h hp d l -> inside d x ->
  evaluate_hull x (setup_hull d l h hp) = Some (hu, hl) -> h x <= envelope h hp l x <= hu.
Proof.
  intros C O Hx E. rewrite setup_is_hull_of in E. pose proof (ok_good _ _ _ _ O) as G. pose proof (ok_nonempty _ _ _ _ O) as NE. apply (upper_value h hp d (sort l) G) in E.
  pose proof (index_bound h hp d (sort l) G x) as B. split.
  - destruct (envelope_in h hp l x NE) as (a & Ha & ->). apply (tangent_above h hp d C); [|easy]. now apply O.
  - rewrite E. apply envelope_le. apply sort_in, nth_In. exact B.
Qed.
Print Assumptions C39_upper_hull.
(** With two abscissae, and to the left of the first intersection, the upper hull is the envelope from which the candidates are drawn *)
Theorem C39_upper_hull_exact h hp d l x hu hl : concave h hp d -> abscissae_ok h hp d l ->
  (length l = 2%nat \/ x < get (zs (setup_hull d l h hp)) 0) ->
  evaluate_hull x (setup_hull d l h hp) = Some (hu, hl) -> hu = envelope h hp l x.
Proof.
  intros C O Hx E. rewrite setup_is_hull_of in *. pose proof (ok_good _ _ _ _ O) as G. pose proof (ok_nonempty _ _ _ _ O) as NE. apply (upper_value h hp d (sort l) G) in E.
  rewrite <- envelope_sort by easy. rewrite E. symmetry. unfold hull_index in *. cbn [hull_of zs] in Hx.
  assert (L : (2 <= length (sort l))%nat) by apply G. rewrite (plist_nth (zof h hp) (sort l) 0) in Hx by lia.
  cbn [hull_of zs]. rewrite (plist_nth (zof h hp) (sort l) 0) by lia.
  destruct (ltb x (zof h hp (get (sort l) 0) (get (sort l) (0 + 1)))) eqn:E1.
  - apply ltb_spec in E1. apply (envelope_piece h hp d C (sort l) G); [lia|]. apply (piece_first h hp d C (sort l) G). lra.
  - apply ltb_false in E1. destruct Hx as [Hx|Hx]; [|lra]. destruct (ok_first _ _ _ _ O) as [E0 P0]. destruct (ok_last _ _ _ _ O) as [En Pn].
    rewrite (scum_length h hp d C (sort l) G E0 En P0 Pn), sort_length, Hx. cbn [Nat.sub Nat.eqb]. apply (envelope_piece h hp d C (sort l) G); [lia|].
    apply (piece_next h hp d C (sort l) G 0 x); [lia|easy|]. rewrite sort_length. lia.
Qed.
Print Assumptions C39_upper_hull_exact.
(** The lower hull lies below the log-density, except between the second and the third abscissa.  (The full claim, for all x, is refuted below.) *)
Theorem C39_lower_hull_partial h hp d l x hu hl : concave h hp d -> abscissae_ok h hp d l ->
  (x <= get (sort l) 1 \/ ((3 <= length l)%nat /\ get (sort l) 2 <= x)) ->
  evaluate_hull x (setup_hull d l h hp) = Some (hu, Some hl) -> hl <= h x.
Proof.
  intros C O Hx E. rewrite setup_is_hull_of in E. pose proof (ok_good _ _ _ _ O) as G. rewrite <- sort_length in Hx. set (s := sort l) in *. assert (L : (2 <= length s)%nat) by apply G.
  pose proof (index_bound h hp d s G x) as B. unfold evaluate_hull in E. set (i := hull_index x (hull_of h hp d s)) in *. cbn [hull_of xs zs] in E. rewrite plist_length in E. cbv zeta in E.
  destruct (ltb x (get s 0) || ltb (get s (length s - 1)) x) eqn:EB; [discriminate|]. apply orb_false_elim in EB as [X0 Xn]. apply ltb_false in X0, Xn.
  assert (ZB : forall j, (j + 1 < length s)%nat -> get s j < zof h hp (get s j) (get s (j + 1)) < get s (j + 1)) by (apply (Z_between h hp d C s G)).
  (* where x lies *)
  pose proof (hull_index_cases h hp d s G x) as HC. cbv zeta in HC. fold i in HC.
  assert (I0 : i = 0%nat -> x <= get s 1).
  { intros Ei. pose proof (ZB 0%nat ltac:(lia)) as Z0. cbn [Nat.add] in Z0. destruct HC as [[_ Q]|[(_ & Q & _)|(L3 & _ & _ & _ & Q)]]; [cbn [Nat.add] in Q; lra|lia|].
    destruct Hx as [Hx|[_ Hx]]; [easy|]. rewrite Ei in Q. specialize (Q ltac:(lia)). pose proof (ZB 1%nat ltac:(lia)) as Z1. cbn [Nat.add] in *. lra. }
  assert (IN : i = (length s - 1)%nat -> i <> 0%nat -> get s (length s - 2) <= x).
  { intros Ei Ni. destruct HC as [[Q _]|[(Q1 & Q2 & Q3)|(L3 & _ & Q & _)]]; [easy| |lia]. replace (length s - 2)%nat with 0%nat by lia. pose proof (ZB 0%nat ltac:(lia)) as Z0. lra. }
  assert (IM : i <> 0%nat -> i <> (length s - 1)%nat -> zof h hp (get s i) (get s (i + 1)) <= x /\ ((i + 2 < length s)%nat -> x <= zof h hp (get s (i + 1)) (get s (i + 1 + 1)))).
  { intros Ni Nn. destruct HC as [[Q _]|[(Q1 & Q2 & Q3)|(L3 & _ & Q & Q4 & Q5)]]; [easy|lia|]. split; [apply Rlt_le, Q4; lia|easy]. }
  destruct (i =? 0)%nat eqn:E0; [apply Nat.eqb_eq in E0|apply Nat.eqb_neq in E0].
  { injection E as _ <-. apply (chord_below h hp d C s G); [lia|lia|]. split; [easy|auto]. }
  destruct (i =? length s - 1)%nat eqn:E1; [apply Nat.eqb_eq in E1|apply Nat.eqb_neq in E1].
  { injection E as _ <-. apply (chord_below h hp d C s G); [lia|lia|]. split; auto. }
  destruct (IM E0 E1) as [M1 M2]. pose proof (ZB i ltac:(lia)) as Zi. destruct (ltb x (get s (i + 1))) eqn:E2.
  { apply ltb_spec in E2. injection E as _ <-. apply (chord_below h hp d C s G); [lia|lia|]. lra. }
  apply ltb_false in E2. destruct (i + 2 <? length s)%nat eqn:E3; [|discriminate]. apply Nat.ltb_lt in E3. injection E as _ <-.
  specialize (M2 E3). pose proof (ZB (i + 1)%nat ltac:(lia)) as Zj. replace (i + 1 + 1)%nat with (i + 2)%nat in * by lia. apply (chord_below h hp d C s G); [lia|lia|]. lra.
Qed.
Print Assumptions C39_lower_hull_partial.

(** ** A normal density on the whole line *)
Definition hn (x : RR) : RR := - (x * x) / 2.
Definition hpn (x : RR) : RR := - x.
Definition line := mkDomain 0 0 false false.
Lemma normal_concave : concave hn hpn line.
Proof.
  split; [|unfold hpn; intros; lra]. intros x _. unfold hn, hpn. auto_derive; [easy|]. field.
Qed.
Lemma normal_ok l : (2 <= length l)%nat -> NoDup l -> (exists a b, In a l /\ In b l /\ a < 0 /\ 0 < b) -> abscissae_ok hn hpn line l.
Proof.
  intros L D (a & b & Ha & Hb & A & B). split; [easy|]. split; [easy|]. split; [intros; split; discriminate|]. unfold hpn. split.
  - intros x Hx Hm. specialize (Hm a Ha). split; [lra|intros; lra].
  - intros x Hx Hm. specialize (Hm b Hb). split; [lra|intros; lra].
Qed.
Example C39_nonvacuous : concave hn hpn line /\ abscissae_ok hn hpn line [-1; 1] /\
  exists c, sample_hull (setup_hull line [-1; 1] hn hpn) line (1 / 2) = Some c /\ inside line c.
Proof.
  assert (O : abscissae_ok hn hpn line [-1; 1]).
  { apply normal_ok; [cbn; lia| |exists (-1), 1; cbn; repeat split; auto; lra]. constructor; [intros [Q|[]]; lra|]. constructor; [easy|constructor]. }
  split; [apply normal_concave|]. split; [easy|]. destruct (C39_candidate hn hpn line [-1; 1] (1 / 2) normal_concave O ltac:(lra)) as (c & A & B & _). now exists c.
Qed.
(** ** Findings *)
Lemma sort3 : sort [-1; 1; 2] = [-1; 1; 2].
Proof.
  unfold sort. cbn [fold_right insert_sorted]. assert (ltb 1 2 = true) as -> by (apply ltb_spec; lra). cbn [insert_sorted]. assert (ltb (-1) 1 = true) as -> by (apply ltb_spec; lra). reflexivity.
Qed.
Lemma zof_normal a b : a <> b -> zof hn hpn a b = (a + b) / 2.
Proof. intros N. unfold zof, hn, hpn. field. lra. Qed.
Lemma ok3 : abscissae_ok hn hpn line [-1; 1; 2].
Proof. apply normal_ok; [cbn; lia| |exists (-1), 1; cbn; repeat split; auto; lra]. constructor; [intros [Q|[Q|[]]]; lra|]. constructor; [intros [Q|[]]; lra|]. constructor; [easy|constructor]. Qed.
Lemma good3 : good line [-1; 1; 2].
Proof. rewrite <- sort3. apply (ok_good _ _ _ _ ok3). Qed.
(** With three abscissae the piece is found one too low: the upper hull used to accept candidates is not the envelope they are drawn from, so the samples do not
    follow the density; and the lower hull is above the log-density: candidates are accepted by it that should not be *)
Theorem C39_hulls_refuted : exists h hp d l x hu hl,
  concave h hp d /\ abscissae_ok h hp d l /\ inside d x /\ evaluate_hull x (setup_hull d l h hp) = Some (hu, Some hl) /\ envelope h hp l x < hu /\ h x < hl.
Proof.
  exists hn, hpn, line, [-1; 1; 2], (5 / 4), (7 / 4), (- (1 / 2)). split; [apply normal_concave|]. split; [apply ok3|].
  split; [split; discriminate|]. split.
  - rewrite setup_is_hull_of, sort3. unfold evaluate_hull.
    assert (hull_index (5 / 4) (hull_of hn hpn line [-1; 1; 2]) = 0%nat) as ->.
    { pose proof (hull_index_cases hn hpn line [-1; 1; 2] good3 (5 / 4)) as HC. cbv zeta in HC. set (i := hull_index _ _) in *. clearbody i.
      destruct HC as [[Q _]|[(Q & _)|(_ & _ & Q1 & Q2 & _)]]; [easy|discriminate|]. cbn in Q1. destruct i as [|[|i]]; [easy| |lia]. specialize (Q2 ltac:(lia)). cbn in Q2. rewrite zof_normal in Q2 by lra. lra. }
    cbn [hull_of xs hxs hpxs zs nth length Nat.sub map]. unfold hn, hpn at 1.
    destruct (ltb (5 / 4) (-1)) eqn:E1; [apply ltb_spec in E1; lra|]. destruct (ltb 2 (5 / 4)) eqn:E2; [apply ltb_spec in E2; lra|]. cbn [orb Nat.eqb]. unfold chord. cbn [hull_of xs hxs nth map]. unfold hn, hpn.
    f_equal. f_equal; [lra|]. f_equal. lra.
  - assert (envelope hn hpn [-1; 1; 2] (5 / 4) = tan hn hpn 1 (5 / 4)) as ->.
    { apply envelope_least; [right; now left|]. unfold tan, hn, hpn. intros b [<-|[<-|[<-|[]]]]; lra. }
    unfold tan, hn, hpn. split; lra.
Qed.
Print Assumptions C39_hulls_refuted.
(** A candidate equal to the largest of three or more abscissae raises IndexError *)
Theorem C39_largest_refuted : exists h hp d l x, concave h hp d /\ abscissae_ok h hp d l /\ inside d x /\ evaluate_hull x (setup_hull d l h hp) = None.
Proof.
  exists hn, hpn, line, [-1; 1; 2], 2. split; [apply normal_concave|]. split; [apply ok3|].
  split; [split; discriminate|]. rewrite setup_is_hull_of, sort3. unfold evaluate_hull.
  assert (hull_index 2 (hull_of hn hpn line [-1; 1; 2]) = 1%nat) as ->.
  { pose proof (hull_index_cases hn hpn line [-1; 1; 2] good3 2) as HC. cbv zeta in HC. set (i := hull_index _ _) in *. clearbody i.
    destruct HC as [[_ Q]|[(Q & _)|(_ & _ & Q1 & _ & Q2)]]; [cbn in Q; rewrite zof_normal in Q by lra; lra|discriminate|]. cbn in Q1. destruct i as [|[|i]]; [|easy|lia]. specialize (Q2 ltac:(cbn; lia)). cbn in Q2. rewrite zof_normal in Q2 by lra. lra. }
  cbn [hull_of xs hxs hpxs zs nth length Nat.sub map Nat.add]. rewrite plist_length. cbn [length Nat.sub Nat.eqb Nat.ltb Nat.leb]. destruct (ltb 2 (-1)) eqn:E1; [apply ltb_spec in E1; lra|]. destruct (ltb 2 2) eqn:E2; [apply ltb_spec in E2; lra|]. cbn [orb]. reflexivity.
Qed.
Print Assumptions C39_largest_refuted.
