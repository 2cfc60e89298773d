From Coq Require Import Reals Lra List ZArith Arith Bool Lia.
Import ListNotations.
From Verif.Model Require Import IsoApprox.
Open Scope R_scope.
Notation RR := RbaseSymbolsImpl.R (only parsing).

Lemma PI_bounds : 3.05 < PI < 3.24.
Proof.
  pose proof (PI_ineq 6) as [A B].
  unfold tg_alt, PI_tg in A, B. cbn [sum_f_R0 Nat.mul Nat.add pow] in A, B.
  repeat rewrite INR_IZR_INZ in A. repeat rewrite INR_IZR_INZ in B. simpl Z.of_nat in A, B. simpl Pos.of_succ_nat in A, B.
  split; lra.
Qed.
Lemma twopi_pos : 0 < twopi.
Proof. unfold twopi. pose proof PI_RGT_0. lra. Qed.
Lemma fmod_spec x : 0 <= fmod x < twopi /\ exists k : Z, fmod x = x + twopi * IZR k.
Proof.
  pose proof twopi_pos as P. unfold fmod. destruct (base_Int_part (x / twopi)) as [A B]. set (k := Int_part (x / twopi)) in *.
  assert (E : x = twopi * (x / twopi)) by (field; lra). split.
  - set (q := x / twopi) in *. rewrite E. split; nra.
  - exists (- k)%Z. rewrite opp_IZR. ring.
Qed.
Lemma fmod_unique x y k : 0 <= y < twopi -> y = x + twopi * IZR k -> fmod x = y.
Proof.
  intros H E. pose proof twopi_pos as P. destruct (fmod_spec x) as [B [j J]].
  assert (K : (j = k)%Z).
  { assert (D : -1 < IZR (j - k) < 1). { rewrite minus_IZR. assert (twopi * (IZR j - IZR k) = fmod x - y) by lra. split; nra. }
    destruct D as [D1 D2]. apply (lt_IZR (-1)) in D1. apply (lt_IZR _ 1) in D2. lia. }
  rewrite J, E, K. reflexivity.
Qed.
Lemma fmod_period x k : fmod (x + twopi * IZR k) = fmod x.
Proof.
  destruct (fmod_spec x) as [B [j J]]. apply (fmod_unique _ _ (j - k)); [exact B|]. rewrite J, minus_IZR. ring.
Qed.

(** dePeriod element by element *)
Definition jump (a b : RR) : nat := if (if Rlt_dec (b - a) (-6) then true else false) then 1%nat else 0%nat.
Fixpoint unw (acc : nat) (prev : RR) (l : list RR) : list RR :=
  match l with [] => [] | b :: l' => let acc' := (acc + jump prev b)%nat in (b + twopi * INR acc') :: unw acc' b l' end.
Lemma unw_is l : forall a acc,
  zipw (fun a n => a + twopi * INR n) l (cumsum acc (List.map (fun d => if Rlt_dec d (-6) then true else false) (zipw Rminus l (removelast (a :: l))))) = unw acc a l.
Proof.
  induction l as [|b l IH]; intros a acc; [reflexivity|].
  change (removelast (a :: b :: l)) with (a :: removelast (b :: l)). cbn [zipw List.map cumsum unw]. cbv zeta. f_equal. apply IH.
Qed.
Lemma dePeriod_is a l : dePeriod (a :: l) = let w := jump (last (a :: l) 0) a in (a + twopi * INR w) :: unw w a l.
Proof.
  unfold dePeriod, roll1. cbv zeta. cbn [zipw List.map cumsum]. cbv zeta. f_equal. apply unw_is.
Qed.
Lemma unw_length l : forall acc a, length (unw acc a l) = length l.
Proof. induction l; simpl; intros; auto. Qed.
Lemma dePeriod_length arr : length (dePeriod arr) = length arr.
Proof. destruct arr as [|a l]; [reflexivity|]. rewrite dePeriod_is. simpl. rewrite unw_length. reflexivity. Qed.
Lemma unw_shift l : forall acc a i, (i < length l)%nat -> exists n : nat, nth i (unw acc a l) 0 = nth i l 0 + twopi * INR n.
Proof.
  induction l as [|b l IH]; simpl; intros acc a i H; [lia|]. destruct i; [eexists; reflexivity|]. apply IH. lia.
Qed.
Lemma unw_true l : forall acc prev (th : nat -> RR) (m : nat -> Z) k,
  prev + twopi * INR acc = th 0%nat + twopi * IZR k -> prev = th 0%nat + twopi * IZR (m 0%nat) ->
  (forall i, (i < length l)%nat -> nth i l 0 = th (S i) + twopi * IZR (m (S i))) ->
  (forall i, (i < length l)%nat -> Rabs (nth i l 0 - nth i (prev :: l) 0) < twopi) ->
  (forall i, (i < length l)%nat -> 0 <= th (S i) - th i < twopi - 6) ->
  forall i, (i < length l)%nat -> nth i (unw acc prev l) 0 = th (S i) + twopi * IZR k.
Proof.
  induction l as [|b l IH]; intros acc prev th m k K M0 M D S i L; [simpl in L; lia|].
  pose proof twopi_pos as P.
  assert (B : b + twopi * INR (acc + jump prev b) = th 1%nat + twopi * IZR k).
  { pose proof (M 0%nat ltac:(simpl; lia)) as E. simpl in E. pose proof (D 0%nat ltac:(simpl; lia)) as D0. simpl in D0. pose proof (S 0%nat ltac:(simpl; lia)) as S0.
    apply Rabs_def2 in D0. destruct D0 as [D1 D2].
    assert (A : IZR k = IZR (m 0%nat) + INR acc) by (apply Rmult_eq_reg_l with twopi; lra).
    set (j := (m 1%nat - m 0%nat)%Z). assert (J : IZR j = IZR (m 1%nat) - IZR (m 0%nat)) by (unfold j; apply minus_IZR).
    assert (BP : b - prev = (th 1%nat - th 0%nat) + twopi * IZR j) by (rewrite J; lra).
    assert (J1 : -2 < IZR j < 1) by (split; nra). destruct J1 as [J1 J2]. apply (lt_IZR (-2)) in J1. apply (lt_IZR _ 1) in J2.
    assert (Z : (j = 0 \/ j = -1)%Z) by lia. rewrite plus_INR. unfold jump. destruct Z as [Z|Z]; rewrite Z in BP, J.
    - destruct (Rlt_dec (b - prev) (-6)) as [C|C]; [exfalso; lra|]. simpl INR. rewrite A, E. assert (IZR (m 1%nat) = IZR (m 0%nat)) by lra. rewrite H. ring.
    - destruct (Rlt_dec (b - prev) (-6)) as [C|C]; [|exfalso; lra]. simpl INR. rewrite A, E. assert (IZR (m 1%nat) = IZR (m 0%nat) - 1) by lra. rewrite H. ring. }
  destruct i as [|i]; [exact B|]. simpl. simpl in L.
  apply (IH _ b (fun i => th (Datatypes.S i)) (fun i => m (Datatypes.S i)) k); [exact B| | | | |lia].
  - apply (M 0%nat). simpl; lia.
  - intros n Hn. apply (M (Datatypes.S n)). simpl; lia.
  - intros n Hn. apply (D (Datatypes.S n)). simpl; lia.
  - intros n Hn. apply (S (Datatypes.S n)). simpl; lia.
Qed.
Lemma dePeriod_true arr (th : nat -> RR) (m : nat -> Z) :
  (forall i, (i < length arr)%nat -> nth i arr 0 = th i + twopi * IZR (m i)) ->
  (forall i, (S i < length arr)%nat -> Rabs (nth (S i) arr 0 - nth i arr 0) < twopi) ->
  (forall i, (S i < length arr)%nat -> 0 <= th (S i) - th i < twopi - 6) ->
  exists k : Z, forall i, (i < length arr)%nat -> nth i (dePeriod arr) 0 = th i + twopi * IZR k.
Proof.
  destruct arr as [|a l]; intros M D S; [exists 0%Z; simpl; intros; lia|]. rewrite dePeriod_is. cbv zeta. set (w := jump _ _).
  pose proof (M 0%nat ltac:(simpl; lia)) as M0. simpl in M0. exists (m 0%nat + Z.of_nat w)%Z. intros i L.
  assert (K : a + twopi * INR w = th 0%nat + twopi * IZR (m 0%nat + Z.of_nat w)) by (rewrite plus_IZR, <- INR_IZR_INZ, M0; ring).
  destruct i as [|i]; [exact K|]. simpl. simpl in L. apply (unw_true l w a th m); auto; try lia.
  - intros n Hn. apply (M (Datatypes.S n)). simpl; lia.
  - intros n Hn. apply (D n). simpl; lia.
  - intros n Hn. apply (S n). simpl; lia.
Qed.

(** sums *)
Lemma sumn_ext n f g : (forall i, (i < n)%nat -> f i = g i) -> sumn n f = sumn n g.
Proof. induction n; simpl; intros H; auto. rewrite IHn, H by auto. reflexivity. Qed.
Lemma sumn_plus n f g : sumn n (fun i => f i + g i) = sumn n f + sumn n g.
Proof. induction n; simpl; [ring|rewrite IHn; ring]. Qed.
Lemma sumn_scal n k f : sumn n (fun i => k * f i) = k * sumn n f.
Proof. induction n; simpl; [ring|rewrite IHn; ring]. Qed.
Lemma sumn_0 n : sumn n (fun _ => 0) = 0.
Proof. induction n; simpl; [reflexivity|rewrite IHn; ring]. Qed.
Lemma sumn_swap n k (f : nat -> nat -> RR) : sumn n (fun i => sumn k (f i)) = sumn k (fun j => sumn n (fun i => f i j)).
Proof.
  induction n; simpl; [symmetry; apply sumn_0|]. rewrite IHn, <- sumn_plus. reflexivity.
Qed.
Lemma sumn_delta n r (X : nat -> RR) : (r < n)%nat -> sumn n (fun c => (if Nat.eqb r c then 1 else 0) * X c) = X r.
Proof.
  induction n; simpl; intros H; [lia|]. destruct (Nat.eqb_spec r n) as [->|N].
  - rewrite (sumn_ext n _ (fun _ => 0)); [rewrite sumn_0; ring|]. intros i Hi. destruct (Nat.eqb_spec n i); [lia|ring].
  - rewrite IHn by lia. ring.
Qed.
(** the normal equations recover exact coefficients *)
Lemma coef_exact nt nc A atainv X Y r : (r < nc)%nat ->
  (forall c, (c < nc)%nat -> sumn nc (fun b => atainv r b * ATA nt A b c) = if Nat.eqb r c then 1 else 0) ->
  (forall t, (t < nt)%nat -> Y t = sumn nc (fun c => A t c * X c)) -> coef nt nc A atainv Y r = X r.
Proof.
  intros Hr I E. unfold coef.
  transitivity (sumn nc (fun b => sumn nc (fun c => atainv r b * ATA nt A b c * X c))).
  - apply sumn_ext. intros b _. unfold ATA. transitivity (atainv r b * sumn nc (fun c => sumn nt (fun t => A t b * A t c) * X c)).
    + f_equal. transitivity (sumn nt (fun t => sumn nc (fun c => A t b * A t c * X c))).
      * apply sumn_ext. intros t Ht. rewrite (E t Ht), <- sumn_scal. apply sumn_ext. intros; ring.
      * rewrite sumn_swap. apply sumn_ext. intros c _. rewrite (Rmult_comm _ (X c)), <- sumn_scal. apply sumn_ext. intros; ring.
    + rewrite <- sumn_scal. apply sumn_ext. intros; ring.
  - rewrite sumn_swap. rewrite <- (sumn_delta nc r X Hr). apply sumn_ext. intros c Hc. rewrite <- (I c Hc).
    rewrite (Rmult_comm _ (X c)), <- sumn_scal. apply sumn_ext. intros; ring.
Qed.

(** averages *)
Lemma suml_bounds lo hi : forall js d, length js = length d -> (forall j, In j js -> lo <= j <= hi) -> (forall x, In x d -> 0 <= x) ->
  lo * suml d <= suml (zipw Rmult js d) <= hi * suml d.
Proof.
  induction js as [|j js IH]; destruct d as [|x d]; simpl; intros L B P; try discriminate; [lra|].
  injection L as L. specialize (IH d L (fun j H => B j (or_intror H)) (fun x H => P x (or_intror H))).
  pose proof (B j (or_introl eq_refl)). pose proof (P x (or_introl eq_refl)). split; nra.
Qed.
Lemma zipw_in {A B C} (f : A -> B -> C) l : forall k x, In x (zipw f l k) -> exists a b, x = f a b.
Proof. induction l; destruct k; simpl; intros x H; try tauto. destruct H as [<-|H]; eauto. Qed.
Lemma zipw_length {A B C} (f : A -> B -> C) l : forall k, length l = length k -> length (zipw f l k) = length l.
Proof. induction l; destruct k; simpl; intros H; try discriminate; auto. Qed.
Lemma removelast_len {A} (l : list A) : length (removelast l) = (length l - 1)%nat.
Proof. induction l as [|a l IH]; [reflexivity|]. destruct l; [reflexivity|]. change (removelast (a :: a0 :: l)) with (a :: removelast (a0 :: l)). simpl length in *. lia. Qed.
Lemma removelast_in {A} (l : list A) x : In x (removelast l) -> In x l.
Proof. induction l as [|a l IH]; [auto|]. destruct l; [simpl; tauto|]. change (removelast (a :: a0 :: l)) with (a :: removelast (a0 :: l)). intros [<-|H]; [left; auto|right; auto]. Qed.
Lemma dangle_nonneg angles x : In x (dangle angles) -> 0 <= x.
Proof. unfold dangle. intros H. apply zipw_in in H as (a & b & ->). apply fmod_spec. Qed.
Lemma dangle_length angles : length (dangle angles) = (length angles - 1)%nat.
Proof. unfold dangle. assert (T : length (tl angles) = (length angles - 1)%nat) by (destruct angles; simpl; lia). rewrite zipw_length; rewrite ?removelast_len; auto. Qed.

(** the half plane *)
Lemma drop_rest stop l : forall i, (stop <= Z.of_nat i)%Z -> drop_mask stop i l = l.
Proof.
  induction l as [|a l IH]; intros i H; [reflexivity|]. simpl. replace (Z.of_nat i <? stop)%Z with false by (symmetry; apply Z.ltb_ge; auto). simpl. rewrite IH; auto. lia.
Qed.
Lemma drop_pairs stop rest ks : forall i, Nat.even i = true -> (Z.of_nat i + 2 * Z.of_nat (length ks) - 1 = stop)%Z ->
  drop_mask stop i (flat_map (fun k => [(0%nat, (- Z.of_nat k)%Z); (0%nat, Z.of_nat k)]) ks ++ rest) = List.map (fun k => (0%nat, Z.of_nat k)) ks ++ rest.
Proof.
  induction ks as [|k ks IH]; intros i E S.
  - simpl. apply drop_rest. simpl in S. lia.
  - simpl flat_map. simpl app. simpl length in S. cbn [drop_mask].
    replace (Z.of_nat i <? stop)%Z with true by (symmetry; apply Z.ltb_lt; lia). rewrite E. cbv iota beta delta [andb].
    assert (O : Nat.even (Datatypes.S i) = false) by (rewrite Nat.even_succ, <- Nat.negb_even, E; reflexivity). rewrite O.
    replace (if (Z.of_nat (Datatypes.S i) <? stop)%Z then false else false) with false by (destruct (_ <? _)%Z; reflexivity).
    simpl List.map. simpl app. f_equal. apply IH; [simpl; exact E|lia].
Qed.
Lemma nvectors_is maxn : (1 <= maxn)%nat ->
  nvectors maxn = List.map (fun k => (0%nat, Z.of_nat k)) (seq 1 (maxn - 1)) ++ list_prod (seq 1 (maxn - 1)) (phig maxn).
Proof.
  intros H. unfold nvectors, grid0. destruct maxn as [|n]; [lia|]. replace (Datatypes.S n - 1)%nat with n by lia.
  set (rest := list_prod (seq 1 n) (phig (Datatypes.S n))).
  assert (E : tl (list_prod (seq 0 (Datatypes.S n)) (phig (Datatypes.S n))) = flat_map (fun k => [(0%nat, (- Z.of_nat k)%Z); (0%nat, Z.of_nat k)]) (seq 1 n) ++ rest).
  { change (seq 0 (Datatypes.S n)) with (0%nat :: seq 1 n). cbn [list_prod]. fold rest. unfold phig at 1. replace (Datatypes.S n - 1)%nat with n by lia. simpl List.map. simpl app. simpl tl.
    f_equal. clear rest. induction (seq 1 n) as [|k ks IH]; simpl; [reflexivity|]. f_equal. f_equal. exact IH. }
  rewrite E. apply drop_pairs; [reflexivity|]. rewrite seq_length. lia.
Qed.
Lemma phig_in maxn z : (1 <= maxn)%nat -> In z (phig maxn) <-> (Z.abs z < Z.of_nat maxn)%Z.
Proof.
  intros H. unfold phig. simpl. rewrite in_flat_map. split.
  - intros [<-|(k & K & Z)]; [simpl; lia|]. apply in_seq in K. simpl in Z. lia.
  - intros A. destruct (Z.eq_dec z 0) as [->|N]; [auto|right]. exists (Z.to_nat (Z.abs z)). split; [apply in_seq; lia|]. simpl. lia.
Qed.
Lemma phig_length maxn : (1 <= maxn)%nat -> length (phig maxn) = (2 * maxn - 1)%nat.
Proof.
  intros H. unfold phig. simpl length. assert (L : forall l : list nat, length (flat_map (fun k => [(- Z.of_nat k)%Z; Z.of_nat k]) l) = (2 * length l)%nat) by (induction l; simpl in *; lia).
  rewrite L, seq_length. lia.
Qed.
