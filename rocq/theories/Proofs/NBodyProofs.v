(** Lemmas for C29. *)
From Coq Require Import Reals Lra List Lia Arith Bool FunctionalExtensionality Permutation.
From Coquelicot Require Import Coquelicot.
From Verif.Lib Require Import RealAux.
From Verif.Model Require Import Symplectic NBody.
From Verif.Spec Require Import SymplecticSpec NBodySpec.
From Verif.Proofs Require Import SymplecticProofs.
Import ListNotations.
Open Scope R_scope.
Notation RR := RbaseSymbolsImpl.R (only parsing).

(** ** Sums *)
Lemma so_ext {A} (l : list A) (f g : A -> RR) : (forall j, In j l -> f j = g j) -> sum_over l f = sum_over l g.
Proof. intros H. unfold sum_over. f_equal. apply map_ext_in. auto. Qed.
Lemma so_plus {A} (l : list A) (f g : A -> RR) : sum_over l (fun j => f j + g j) = sum_over l f + sum_over l g.
Proof. unfold sum_over. induction l; cbn; [ring|]. rewrite IHl. ring. Qed.
Lemma so_scal {A} (l : list A) k (f : A -> RR) : sum_over l (fun j => k * f j) = k * sum_over l f.
Proof. unfold sum_over. induction l; cbn; [ring|]. rewrite IHl. ring. Qed.
Lemma so_app {A} (l l' : list A) (f : A -> RR) : sum_over (l ++ l') f = sum_over l f + sum_over l' f.
Proof. unfold sum_over. rewrite map_app. induction l; cbn; [ring|]. rewrite IHl. ring. Qed.
Lemma so_S n (f : nat -> RR) : sum_over (seq 0 (S n)) f = sum_over (seq 0 n) f + f n.
Proof. rewrite seq_S, so_app. unfold sum_over at 2. cbn. ring. Qed.
Lemma so_0 {A} (l : list A) (f : A -> RR) : (forall j, In j l -> f j = 0) -> sum_over l f = 0.
Proof. intros H. rewrite (so_ext l f (fun _ => 0)) by auto. unfold sum_over. induction l; cbn; [ring|]. rewrite IHl by (intros; apply H; right; auto). ring. Qed.
Lemma so_perm {A} (l l' : list A) (f : A -> RR) : Permutation l l' -> sum_over l f = sum_over l' f.
Proof. unfold sum_over. intros H. induction H; cbn; lra. Qed.
Lemma so_map {A B} (g : A -> B) (l : list A) (f : B -> RR) : sum_over (map g l) f = sum_over l (fun x => f (g x)).
Proof. unfold sum_over. rewrite map_map. reflexivity. Qed.
(** Ordered pairs in two halves *)
Lemma so_pairs n (A : nat -> nat -> RR) :
  sum_over (seq 0 n) (fun i => sum_over (seq 0 n) (fun j => if i =? j then 0 else A i j)) =
  sum_over (seq 0 n) (fun i => sum_over (seq 0 i) (fun j => A i j + A j i)).
Proof.
  induction n; auto. rewrite !so_S, <- IHn. rewrite Nat.eqb_refl, Rplus_0_r.
  rewrite (so_ext (seq 0 n) _ (fun i => sum_over (seq 0 n) (fun j => if i =? j then 0 else A i j) + A i n)).
  - rewrite (so_plus (seq 0 n) (fun i => sum_over (seq 0 n) (fun j => if i =? j then 0 else A i j)) (fun i => A i n)).
    rewrite (so_plus (seq 0 n) (fun j => A n j) (fun j => A j n)). rewrite (so_ext (seq 0 n) (fun j => if n =? j then 0 else A n j) (fun j => A n j)); [ring|].
    intros j Hj. apply in_seq in Hj. rewrite (proj2 (Nat.eqb_neq n j)) by lia. auto.
  - intros i Hi. apply in_seq in Hi. rewrite so_S. rewrite (proj2 (Nat.eqb_neq i n)) by lia. auto.
Qed.
Lemma so_antisym n (A : nat -> nat -> RR) : (forall i j, A j i = - A i j) ->
  sum_over (seq 0 n) (fun i => sum_over (seq 0 n) (fun j => if i =? j then 0 else A i j)) = 0.
Proof. intros H. rewrite so_pairs. apply so_0. intros i _. apply so_0. intros j _. rewrite H. ring. Qed.
Lemma so_derive {A} (l : list A) (f : A -> RR -> RR) (d : A -> RR) s : (forall j, In j l -> is_derive (f j) s (d j)) ->
  is_derive (fun x => sum_over l (fun j => f j x)) s (sum_over l d).
Proof.
  intros H. induction l as [|a l IH].
  - unfold sum_over; cbn. apply is_derive_cst.
  - apply (is_derive_ext (fun x => f a x + sum_over l (fun j => f j x))); [reflexivity|].
    change (sum_over (a :: l) d) with (d a + sum_over l d). apply is_derive_Rplus; [apply H; left; auto|apply IH; intros; apply H; right; auto].
Qed.

Section NB.
  Context {J : Type} (js : list J) (nq : nat) (m : nat -> RR).
  Variable soft : RR -> RR.
  Lemma dv_eq (q : vec (nat * J)) i j c : dist_vec q i j c = q (j, c) - q (i, c) :> RR.
  Proof.
    unfold dist_vec. destruct (Nat.ltb_spec i j); [reflexivity|]. destruct (Nat.ltb_spec j i); [ring|]. assert (i = j) by lia. subst. ring.
  Qed.
  Lemma fl_sum (f : J -> RR) l a : fold_left (fun s j => s + f j) l a = a + sum_over l f.
  Proof. revert a. induction l as [|x l IH]; intros a; unfold sum_over; cbn; [ring|]. rewrite IH. unfold sum_over. ring. Qed.
  Lemma norm_eq (v : vec J) : norm js v = sqrt (sum_over js (fun c => v c ^ 2)).
  Proof. unfold norm. rewrite (fl_sum (fun j => v j ^ 2)). f_equal. ring. Qed.
  Lemma sq_sym (q : vec (nat * J)) i j : sq_dist js q i j = sq_dist js q j i.
  Proof. unfold sq_dist. apply so_ext. intros. ring. Qed.
  Lemma sq_nn (q : vec (nat * J)) i j : 0 <= sq_dist js q i j.
  Proof. unfold sq_dist, sum_over. induction js; cbn; [lra|]. pose proof (pow2_ge_0 (q (j, a) - q (i, a))). lra. Qed.
  Lemma dist_eq (q : vec (nat * J)) i j : dist js q i j = sqrt (sq_dist js q i j).
  Proof.
    unfold dist. destruct (Nat.ltb_spec i j).
    - rewrite norm_eq. f_equal. apply so_ext. intros c _. rewrite dv_eq. auto.
    - destruct (Nat.ltb_spec j i).
      + rewrite norm_eq, sq_sym. f_equal. apply so_ext. intros c _. rewrite dv_eq. auto.
      + assert (i = j) by lia. subst. rewrite <- sqrt_0 at 1. f_equal. unfold sq_dist. symmetry. apply so_0. intros. ring.
  Qed.
  Definition pair_w (q : vec (nat * J)) (i j : nat) : RR := soft (sqrt (sq_dist js q i j)) / sqrt (sq_dist js q i j).
  Lemma pair_w_sym q i j : pair_w q i j = pair_w q j i.
  Proof. unfold pair_w. rewrite sq_sym. auto. Qed.
  Lemma self_force_sum q i c : self_force js nq m soft q i c =
    sum_over (seq 0 nq) (fun j => if i =? j then 0 else m j * pair_w q i j * (q (j, c) - q (i, c))).
  Proof.
    unfold self_force.
    assert (G : forall l (f : vec J), fold_left (fun f j => if i =? j then f else fun c => f c + m j * soft (dist js q i j) / dist js q i j * dist_vec q i j c) l f c
              = f c + sum_over l (fun j => if i =? j then 0 else m j * pair_w q i j * (q (j, c) - q (i, c)))).
    { induction l as [|a l IH]; intros f. { unfold sum_over. cbn. ring. }
      cbn [fold_left]. rewrite IH. unfold sum_over at 2. cbn [map fold_right]. fold (sum_over l (fun j => if i =? j then 0 else m j * pair_w q i j * (q (j, c) - q (i, c)))).
      destruct (i =? a); [ring|]. rewrite dist_eq, dv_eq. unfold pair_w, Rdiv. ring. }
    rewrite G. ring.
  Qed.
  Lemma self_zero q c : sum_over (seq 0 nq) (fun i => m i * self_force js nq m soft q i c) = 0.
  Proof.
    rewrite (so_ext _ _ (fun i => sum_over (seq 0 nq) (fun j => if i =? j then 0 else m i * (m j * pair_w q i j * (q (j, c) - q (i, c)))))).
    - apply so_antisym. intros i j. rewrite (pair_w_sym q j i). ring.
    - intros i _. rewrite self_force_sum, <- so_scal. apply so_ext. intros j _. destruct (i =? j); ring.
  Qed.
  Lemma self_torque q a b : sum_over (seq 0 nq) (fun i => m i * (q (i, a) * self_force js nq m soft q i b - q (i, b) * self_force js nq m soft q i a)) = 0.
  Proof.
    rewrite (so_ext _ _ (fun i => sum_over (seq 0 nq) (fun j => if i =? j then 0 else m i * m j * pair_w q i j * (q (i, a) * q (j, b) - q (i, b) * q (j, a))))).
    - apply so_antisym. intros i j. rewrite (pair_w_sym q j i). ring.
    - intros i _. rewrite !self_force_sum.
      replace (m i * (q (i, a) * sum_over (seq 0 nq) (fun j => if i =? j then 0 else m j * pair_w q i j * (q (j, b) - q (i, b)))
                      - q (i, b) * sum_over (seq 0 nq) (fun j => if i =? j then 0 else m j * pair_w q i j * (q (j, a) - q (i, a)))))
        with (m i * q (i, a) * sum_over (seq 0 nq) (fun j => if i =? j then 0 else m j * pair_w q i j * (q (j, b) - q (i, b)))
                      + (- m i * q (i, b)) * sum_over (seq 0 nq) (fun j => if i =? j then 0 else m j * pair_w q i j * (q (j, a) - q (i, a)))) by ring.
      rewrite <- !so_scal, <- so_plus. apply so_ext. intros j _. destruct (i =? j); ring.
  Qed.
  Variable ext : option (RR -> vec J -> vec J).
  Notation force := (nbody_force js nq m soft ext).
  Lemma separate_apart q : separate js nq q = true <-> apart nq js q.
  Proof.
    unfold separate, apart. rewrite forallb_forall. split.
    - intros H. assert (L : forall i j, (i < nq)%nat -> (j < i)%nat -> 0 < sq_dist js q i j).
      { intros i j Hi Hj. specialize (H i (proj2 (in_seq nq 0 i) ltac:(lia))). rewrite forallb_forall in H.
        specialize (H j (proj2 (in_seq i 0 j) ltac:(lia))). rewrite dist_eq in H. destruct (Req_EM_T (sqrt (sq_dist js q i j)) 0) as [|N]; [discriminate|].
        destruct (sq_nn q i j) as [X|X]; auto. exfalso. apply N. rewrite <- X. apply sqrt_0. }
      intros i j Hi Hj N. destruct (lt_dec j i); [apply L; lia|]. rewrite sq_sym. apply L; lia.
    - intros H i Hi. apply in_seq in Hi. rewrite forallb_forall. intros j Hj. apply in_seq in Hj. rewrite dist_eq.
      destruct (Req_EM_T (sqrt (sq_dist js q i j)) 0) as [E|]; auto. exfalso. assert (P : 0 < sq_dist js q i j) by (apply H; lia).
      pose proof (sqrt_lt_R0 _ P). lra.
  Qed.
  (** A step is a drift-kick-drift step *)
  Lemma nb_step_dk dt t q p q' p' : nbody_step js nq m soft ext dt t q p = Some (q', p') ->
    (q', p', t + dt) = dk_step force leapfrog_scheme dt (q, p, t) /\ apart nq js (fun ic => q ic + dt / 2 * p ic).
  Proof.
    unfold nbody_step. destruct (separate js nq (leapq q p (dt / 2))) eqn:E; [|discriminate]. intros H. split; [|apply separate_apart; exact E].
    injection H as <- <-. unfold dk_step, leapfrog_scheme. cbn [fold_left dk_op]. unfold leapq, leapp.
    assert (E12 : (fun j : nat * J => q j + dt / 2 * p j) = (fun j => q j + 1 / 2 * dt * p j)) by (extensionality j; field).
    rewrite E12. replace (t + dt / 2) with (t + 1 / 2 * dt) by field. f_equal; [f_equal|field]; extensionality j; unfold Rdiv; ring.
  Qed.
  Lemma nb_rows_dk dt : forall n t q p l, nbody_rows js nq m soft ext n dt t q p = Some l ->
    l = map (fun i => fst (dk_run force leapfrog_scheme dt (S i) (q, p, t))) (seq 0 n).
  Proof.
    induction n; intros t q p l H; cbn [nbody_rows] in H; [injection H as <-; auto|].
    destruct (nbody_step js nq m soft ext dt t q p) as [[q' p']|] eqn:E; [|discriminate]. destruct (nb_step_dk _ _ _ _ _ _ E) as [D _].
    destruct (nbody_rows js nq m soft ext n dt (t + dt) q' p') as [l'|] eqn:F; cbn [option_map] in H; [|discriminate]. injection H as <-.
    apply IHn in F. rewrite F. change (seq 0 (S n)) with (0%nat :: seq 1 n). rewrite map_cons. f_equal.
    - unfold dk_run. rewrite iter_S. unfold Nat.iter. cbn [nat_rect]. rewrite <- D. auto.
    - rewrite <- seq_shift, map_map. apply map_ext. intros i. f_equal. rewrite D. unfold dk_run. rewrite (iter_S (S i)). symmetry.
      rewrite (iter_S i). rewrite <- iter_swap. rewrite iter_S. reflexivity.
  Qed.
  (** Conservation step by step *)
  Lemma rows_invariant (Q : RR -> vec (nat * J) -> vec (nat * J) -> Prop) dt :
    (forall t q p q' p', nbody_step js nq m soft ext dt t q p = Some (q', p') -> Q t q p -> Q (t + dt) q' p') ->
    forall n t q p l, nbody_rows js nq m soft ext n dt t q p = Some l -> Q t q p ->
    forall k r, nth_error l k = Some r -> Q (t + INR (S k) * dt) (fst r) (snd r).
  Proof.
    intros HS. induction n; intros t q p l H HQ k r Hk; cbn [nbody_rows] in H. { injection H as <-. destruct k; discriminate. }
    destruct (nbody_step js nq m soft ext dt t q p) as [[q' p']|] eqn:E; [|discriminate].
    destruct (nbody_rows js nq m soft ext n dt (t + dt) q' p') as [l'|] eqn:F; cbn [option_map] in H; [|discriminate]. injection H as <-.
    pose proof (HS _ _ _ _ _ E HQ) as H1. destruct k as [|k].
    - cbn in Hk. injection Hk as <-. cbn [fst snd]. replace (t + INR 1 * dt) with (t + dt) by (cbn [INR]; ring). auto.
    - cbn in Hk. replace (t + INR (S (S k)) * dt) with (t + dt + INR (S k) * dt) by (rewrite (S_INR (S k)); ring). apply (IHn _ _ _ _ F H1 _ _ Hk).
  Qed.
  Lemma step_eqs dt t q p q' p' : nbody_step js nq m soft ext dt t q p = Some (q', p') ->
    let q12 := fun ic => q ic + dt / 2 * p ic in
    p' = (fun ic => p ic + dt * force (t + dt / 2) q12 ic) /\ q' = (fun ic => q12 ic + dt / 2 * p' ic).
  Proof.
    unfold nbody_step. destruct (separate js nq (leapq q p (dt / 2))); [|discriminate]. intros H. injection H as <- <-. cbv zeta. split; reflexivity.
  Qed.
  (** Total external force and torque *)
  Definition ext_force (t : RR) (q : vec (nat * J)) (c : J) : RR :=
    sum_over (seq 0 nq) (fun i => m i * match ext with None => 0 | Some f => f t (block i q) c end).
  Lemma total_force t q c : sum_over (seq 0 nq) (fun i => m i * force t q (i, c)) = ext_force t q c.
  Proof.
    unfold ext_force. rewrite (so_ext _ (fun i => m i * force t q (i, c)) (fun i => m i * self_force js nq m soft q i c + m i * match ext with None => 0 | Some f => f t (block i q) c end)).
    - rewrite so_plus, self_zero. ring.
    - intros i _. unfold nbody_force. destruct ext; ring.
  Qed.
  Definition torque_free (a b : J) : Prop := forall t (x : vec J), match ext with None => True | Some f => x a * f t x b - x b * f t x a = 0 end.
  Lemma total_torque t q a b : torque_free a b ->
    sum_over (seq 0 nq) (fun i => m i * (q (i, a) * force t q (i, b) - q (i, b) * force t q (i, a))) = 0.
  Proof.
    intros H. rewrite <- (self_torque q a b). apply so_ext. intros i _. unfold nbody_force. specialize (H t (block i q)). unfold block in *.
    destruct ext as [f|]; [|ring]. match type of H with ?e = 0 => transitivity (m i * (q (i, a) * self_force js nq m soft q i b - q (i, b) * self_force js nq m soft q i a) + m i * e); [ring|rewrite H; ring] end.
  Qed.
  Lemma momentum_step dt t q p q' p' c : nbody_step js nq m soft ext dt t q p = Some (q', p') ->
    momentum nq m p' c = momentum nq m p c + dt * ext_force (t + dt / 2) (fun ic => q ic + dt / 2 * p ic) c.
  Proof.
    intros H. destruct (step_eqs _ _ _ _ _ _ H) as [-> _]. unfold momentum, particles. rewrite <- total_force, <- so_scal, <- so_plus. apply so_ext. intros; ring.
  Qed.
  Lemma moment_step dt t q p q' p' c : nbody_step js nq m soft ext dt t q p = Some (q', p') ->
    mass_moment nq m q' c = mass_moment nq m q c + dt / 2 * momentum nq m p c + dt / 2 * momentum nq m p' c.
  Proof.
    intros H. destruct (step_eqs _ _ _ _ _ _ H) as [E ->]. unfold momentum, mass_moment, particles. rewrite <- !so_scal, <- !so_plus. apply so_ext. intros; ring.
  Qed.
  Lemma angular_step dt t q p q' p' a b : torque_free a b -> nbody_step js nq m soft ext dt t q p = Some (q', p') ->
    angular_momentum nq m q' p' a b = angular_momentum nq m q p a b.
  Proof.
    intros HT H. destruct (step_eqs _ _ _ _ _ _ H) as [E1 E2]. unfold angular_momentum, particles.
    pose proof (total_torque (t + dt / 2) (fun ic => q ic + dt / 2 * p ic) a b HT) as Z.
    rewrite <- (Rplus_0_r (sum_over (seq 0 nq) (fun i => m i * (q (i, a) * p (i, b) - q (i, b) * p (i, a))))).
    replace 0 with (dt * 0) at 1 by ring. rewrite <- Z at 1. rewrite <- so_scal, <- so_plus. apply so_ext. intros i _. rewrite E2.
    assert (A : p' (i, a) = p (i, a) + dt * force (t + dt / 2) (fun ic => q ic + dt / 2 * p ic) (i, a)) by (rewrite E1; auto).
    assert (B : p' (i, b) = p (i, b) + dt * force (t + dt / 2) (fun ic => q ic + dt / 2 * p ic) (i, b)) by (rewrite E1; auto).
    rewrite A, B. ring.
  Qed.
  (** Zero-mass particles *)
  Definition agree (q q' : vec (nat * J)) : Prop := forall i c, (i < nq)%nat -> m i <> 0 -> q (i, c) = q' (i, c).
  Lemma agree_force t q q' i c : agree q q' -> (i < nq)%nat -> m i <> 0 -> force t q (i, c) = force t q' (i, c).
  Proof.
    intros H Hi Hm. unfold nbody_force.
    assert (E : self_force js nq m soft q i c = self_force js nq m soft q' i c).
    { rewrite !self_force_sum. apply so_ext. intros j Hj. apply in_seq in Hj. destruct (i =? j); auto. destruct (Req_EM_T (m j) 0) as [Z|Z].
      - rewrite Z. ring.
      - unfold pair_w, sq_dist. rewrite (so_ext js (fun c => (q (j, c) - q (i, c)) ^ 2) (fun c => (q' (j, c) - q' (i, c)) ^ 2)).
        + rewrite (H i c), (H j c) by (auto; lia). auto.
        + intros c' _. rewrite (H i c'), (H j c') by (auto; lia). auto. }
    rewrite E. destruct ext as [f|]; auto. replace (block i q') with (block i q); auto. extensionality c'. apply H; auto.
  Qed.
  Lemma agree_step dt t q p qa pa q' p' qa' pa' : agree q qa -> agree p pa -> nbody_step js nq m soft ext dt t q p = Some (q', p') ->
    nbody_step js nq m soft ext dt t qa pa = Some (qa', pa') -> agree q' qa' /\ agree p' pa'.
  Proof.
    intros Hq Hp H H'. destruct (step_eqs _ _ _ _ _ _ H) as [E1 E2]. destruct (step_eqs _ _ _ _ _ _ H') as [F1 F2].
    assert (Hq12 : agree (fun ic => q ic + dt / 2 * p ic) (fun ic => qa ic + dt / 2 * pa ic)). { intros i c Hi Hm. rewrite Hq, Hp by auto. auto. }
    assert (P : agree p' pa'). { intros i c Hi Hm. rewrite E1, F1. rewrite (agree_force _ _ _ i c Hq12 Hi Hm), Hp by auto. auto. }
    split; auto. intros i c Hi Hm. rewrite E2, F2. rewrite (P i c Hi Hm). rewrite Hq, Hp by auto. auto.
  Qed.
  Lemma agree_rows dt : forall n t q p qa pa l la, agree q qa -> agree p pa -> nbody_rows js nq m soft ext n dt t q p = Some l ->
    nbody_rows js nq m soft ext n dt t qa pa = Some la -> List.Forall2 (fun r ra => agree (fst r) (fst ra) /\ agree (snd r) (snd ra)) l la.
  Proof.
    induction n; intros t q p qa pa l la Hq Hp H H'; cbn [nbody_rows] in H, H'. { injection H as <-. injection H' as <-. constructor. }
    destruct (nbody_step js nq m soft ext dt t q p) as [[q' p']|] eqn:E; [|discriminate].
    destruct (nbody_step js nq m soft ext dt t qa pa) as [[qa' pa']|] eqn:E'; [|discriminate].
    destruct (nbody_rows js nq m soft ext n dt (t + dt) q' p') as [l'|] eqn:F; cbn [option_map] in H; [|discriminate]. injection H as <-.
    destruct (nbody_rows js nq m soft ext n dt (t + dt) qa' pa') as [la'|] eqn:F'; cbn [option_map] in H'; [|discriminate]. injection H' as <-.
    destruct (agree_step _ _ _ _ _ _ _ _ _ _ Hq Hp E E') as [A B]. constructor; [split; auto|]. apply (IHn _ _ _ _ _ _ _ A B F F').
  Qed.
  (** Reversal *)
  Definition flip2 (r : vec (nat * J) * vec (nat * J)) : vec (nat * J) * vec (nat * J) := (fst r, fun ic => - snd r ic).
  Definition steady : Prop := match ext with None => True | Some f => forall t t' x, f t x = f t' x end.
  Lemma steady_force t t' q : steady -> force t q = force t' q.
  Proof. intros H. unfold nbody_force, steady in *. extensionality ic. destruct ic as [i c]. destruct ext as [f|]; auto. rewrite (H t t'). auto. Qed.
  Lemma steady_step dt t t' q p : steady -> nbody_step js nq m soft ext dt t q p = nbody_step js nq m soft ext dt t' q p.
  Proof. intros H. unfold nbody_step. rewrite (steady_force (t + dt / 2) (t' + dt / 2)) by auto. auto. Qed.
  Definition pstep dt t (r : vec (nat * J) * vec (nat * J)) := nbody_step js nq m soft ext dt t (fst r) (snd r).
  Lemma step_back dt t r r' : steady -> pstep dt t r = Some r' -> pstep dt t (flip2 r') = Some (flip2 r).
  Proof.
    destruct r as [q p], r' as [q' p']. unfold pstep, flip2. cbn [fst snd]. intros HS H. destruct (step_eqs _ _ _ _ _ _ H) as [E1 E2].
    unfold nbody_step in *. destruct (separate js nq (leapq q p (dt / 2))) eqn:S; [|discriminate].
    assert (Q : leapq q' (fun ic => - p' ic) (dt / 2) = leapq q p (dt / 2)).
    { unfold leapq. extensionality ic. rewrite E2. ring. }
    rewrite Q, S. f_equal. assert (P : leapp (fun ic => - p' ic) dt (force (t + dt / 2) (leapq q p (dt / 2))) = (fun ic => - p ic)).
    { unfold leapp. extensionality ic. rewrite E1. unfold leapq. ring. }
    rewrite P. f_equal. unfold leapq. extensionality ic. ring.
  Qed.
  Fixpoint chain dt t (l : list (vec (nat * J) * vec (nat * J))) : Prop :=
    match l with [] => True | a :: l' => (match l' with [] => True | b :: _ => pstep dt t a = Some b end) /\ chain dt t l' end.
  Lemma chain_snoc dt t l a b : chain dt t (l ++ [a]) -> pstep dt t a = Some b -> chain dt t ((l ++ [a]) ++ [b]).
  Proof.
    induction l as [|x l IH]; cbn; [auto|]. intros [H1 H2] H3. split; [|apply IH; auto]. destruct l; cbn in *; auto.
  Qed.
  Lemma chain_rev dt t l : steady -> chain dt t l -> chain dt t (rev (map flip2 l)).
  Proof.
    intros HS. induction l as [|a l IH]; [cbn; auto|]. intros [H1 H2]. cbn [map rev]. destruct l as [|b l]; [cbn; auto|].
    cbn [map rev] in *. apply chain_snoc; [auto|]. apply step_back; auto.
  Qed.
  Lemma rows_chain dt t0 : steady -> forall n t q p l, nbody_rows js nq m soft ext n dt t q p = Some l <-> length l = n /\ chain dt t0 ((q, p) :: l).
  Proof.
    intros HS. induction n; intros t q p l; cbn [nbody_rows].
    - split. { intros H; injection H as <-. cbn; auto. } intros [H _]. destruct l; [auto|discriminate].
    - split.
      + intros H. destruct (nbody_step js nq m soft ext dt t q p) as [[q' p']|] eqn:E; [|discriminate].
        destruct (nbody_rows js nq m soft ext n dt (t + dt) q' p') as [l'|] eqn:F; cbn [option_map] in H; [|discriminate]. injection H as <-.
        apply IHn in F. destruct F as [L C]. split; [cbn; lia|]. cbn [chain]. split; [|exact C]. unfold pstep. cbn [fst snd]. rewrite (steady_step dt t0 t) by auto. exact E.
      + intros [L C]. destruct l as [|[q' p'] l]; [discriminate|]. cbn [chain] in C. destruct C as [C1 C2]. unfold pstep in C1. cbn [fst snd] in C1.
        rewrite (steady_step dt t0 t) in C1 by auto. rewrite C1. rewrite (proj2 (IHn (t + dt) q' p' l)); auto.
  Qed.
  Lemma rows_back dt n t q p l : steady -> nbody_rows js nq m soft ext n dt t q p = Some l ->
    forall q' p' l', rev (map flip2 ((q, p) :: l)) = (q', p') :: l' -> nbody_rows js nq m soft ext n dt t q' p' = Some l'.
  Proof.
    intros HS H q' p' l' E. apply (rows_chain dt t HS) in H. destruct H as [L C]. apply (rows_chain dt t HS). split.
    - apply (f_equal (@length _)) in E. rewrite rev_length, map_length in E. cbn in E. lia.
    - rewrite <- E. apply chain_rev; auto.
  Qed.
End NB.
(** Relabelling *)
Section Relabel.
  Context {J : Type} (js : list J) (nq : nat) (m : nat -> RR) (soft : RR -> RR) (ext : option (RR -> vec J -> vec J)).
  Variable sg : nat -> nat.
  Hypothesis HP : Permutation (map sg (seq 0 nq)) (seq 0 nq).
  Definition relabelled (q qa : vec (nat * J)) : Prop := forall i c, (i < nq)%nat -> qa (i, c) = q (sg i, c).
  Lemma sg_lt i : (i < nq)%nat -> (sg i < nq)%nat.
  Proof. intros H. assert (In (sg i) (seq 0 nq)). { eapply Permutation_in; [exact HP|]. apply in_map. apply in_seq. lia. } apply in_seq in H0. lia. Qed.
  Lemma nodup_inj (l : list nat) : NoDup (map sg l) -> forall i j, In i l -> In j l -> sg i = sg j -> i = j.
  Proof.
    induction l as [|a l IH]; intros N i j Hi Hj E; [destruct Hi|]. cbn in N. apply NoDup_cons_iff in N. destruct N as [N1 N2].
    destruct Hi as [->|Hi], Hj as [->|Hj]; auto.
    - exfalso. apply N1. rewrite E. apply in_map. auto.
    - exfalso. apply N1. rewrite <- E. apply in_map. auto.
  Qed.
  Lemma sg_inj i j : (i < nq)%nat -> (j < nq)%nat -> sg i = sg j -> i = j.
  Proof.
    intros Hi Hj. apply (nodup_inj (seq 0 nq)); try (apply in_seq; lia). eapply Permutation_NoDup; [apply Permutation_sym; exact HP|apply seq_NoDup].
  Qed.
  Lemma sg_onto i : (i < nq)%nat -> exists i', (i' < nq)%nat /\ sg i' = i.
  Proof.
    intros H. assert (I : In i (map sg (seq 0 nq))). { eapply Permutation_in; [apply Permutation_sym; exact HP|]. apply in_seq. lia. }
    apply in_map_iff in I. destruct I as (i' & E & I). apply in_seq in I. exists i'. split; [lia|auto].
  Qed.
  Lemma rl_sq q qa i j : relabelled q qa -> (i < nq)%nat -> (j < nq)%nat -> sq_dist js qa i j = sq_dist js q (sg i) (sg j).
  Proof. intros H Hi Hj. unfold sq_dist. apply so_ext. intros c _. rewrite !H by auto. auto. Qed.
  Lemma rl_force t q qa i c : relabelled q qa -> (i < nq)%nat ->
    nbody_force js nq (fun i => m (sg i)) soft ext t qa (i, c) = nbody_force js nq m soft ext t q (sg i, c).
  Proof.
    intros H Hi. unfold nbody_force.
    assert (E : self_force js nq (fun i => m (sg i)) soft qa i c = self_force js nq m soft q (sg i) c).
    { rewrite !self_force_sum. symmetry. rewrite <- (so_perm _ _ _ HP), so_map. apply so_ext. intros j Hj. apply in_seq in Hj.
      destruct (Nat.eqb_spec i j) as [->|N]; [rewrite !Nat.eqb_refl; auto|]. rewrite (proj2 (Nat.eqb_neq (sg i) (sg j))) by (intros X; apply N; apply sg_inj; auto; lia).
      unfold pair_w. rewrite (rl_sq q qa i j) by (auto; lia). rewrite (H i), (H j) by lia. auto. }
    rewrite E. destruct ext as [f|]; auto. replace (block i qa) with (block (sg i) q); auto. extensionality c'. unfold block. rewrite H; auto.
  Qed.
  Lemma rl_step dt t q p qa pa q' p' : relabelled q qa -> relabelled p pa -> nbody_step js nq m soft ext dt t q p = Some (q', p') ->
    exists qa' pa', nbody_step js nq (fun i => m (sg i)) soft ext dt t qa pa = Some (qa', pa') /\ relabelled q' qa' /\ relabelled p' pa'.
  Proof.
    intros Hq Hp H. destruct (step_eqs _ _ _ _ _ _ _ _ _ _ _ H) as [E1 E2].
    destruct (nb_step_dk _ _ _ _ _ _ _ _ _ _ _ H) as [_ A].
    assert (H12 : relabelled (fun ic => q ic + dt / 2 * p ic) (fun ic => qa ic + dt / 2 * pa ic)). { intros i c Hi. rewrite Hq, Hp by auto. auto. }
    assert (S : separate js nq (leapq qa pa (dt / 2)) = true).
    { apply separate_apart. unfold leapq. intros i j Hi Hj N. rewrite (rl_sq _ _ i j H12) by auto. apply A; try (apply sg_lt; auto). intros X. apply N. apply sg_inj; auto. }
    unfold nbody_step. rewrite S. eexists _, _. split; [reflexivity|].
    assert (P : relabelled p' (leapp pa dt (nbody_force js nq (fun i => m (sg i)) soft ext (t + dt / 2) (leapq qa pa (dt / 2))))).
    { intros i c Hi. unfold leapp. rewrite (rl_force _ _ _ i c H12 Hi) by auto. rewrite E1, Hp by auto. auto. }
    split; [|exact P]. intros i c Hi. unfold leapq at 1. rewrite (P i c Hi). rewrite E2. rewrite (H12 i c Hi : leapq qa pa (dt / 2) (i, c) = _). auto.
  Qed.
  Lemma rl_rows dt : forall n t q p qa pa l, relabelled q qa -> relabelled p pa -> nbody_rows js nq m soft ext n dt t q p = Some l ->
    exists la, nbody_rows js nq (fun i => m (sg i)) soft ext n dt t qa pa = Some la /\
      List.Forall2 (fun r ra => relabelled (fst r) (fst ra) /\ relabelled (snd r) (snd ra)) l la.
  Proof.
    induction n; intros t q p qa pa l Hq Hp H; cbn [nbody_rows] in *. { injection H as <-. exists []. split; [auto|constructor]. }
    destruct (nbody_step js nq m soft ext dt t q p) as [[q' p']|] eqn:E; [|discriminate].
    destruct (nbody_rows js nq m soft ext n dt (t + dt) q' p') as [l'|] eqn:F; cbn [option_map] in H; [|discriminate]. injection H as <-.
    destruct (rl_step _ _ _ _ _ _ _ _ Hq Hp E) as (qa' & pa' & Ea & A & B). rewrite Ea. destruct (IHn _ _ _ _ _ _ A B F) as (la & Fa & G). rewrite Fa.
    cbn [option_map]. eexists. split; [reflexivity|]. constructor; auto.
  Qed.
End Relabel.

(** ** The Plummer-softened force is the gradient of the energy *)
Lemma soft_weight eps d2 : 0 < d2 -> plummer_soft (sqrt d2) eps / sqrt d2 = / sqrt (d2 + eps ^ 2) ^ 3.
Proof.
  intros H. unfold plummer_soft. rewrite pow2_sqrt by lra. pose proof (sqrt_lt_R0 _ H) as P.
  assert (Q : 0 < d2 + eps ^ 2) by (pose proof (pow2_ge_0 eps); lra). rewrite rpow_3_2 by auto. pose proof (sqrt_lt_R0 _ Q) as S.
  field. split; lra.
Qed.
Lemma sq_derive (f g : RR -> RR) s a b : is_derive f s a -> is_derive g s b -> is_derive (fun x => (f x - g x) ^ 2) s (2 * (f s - g s) * (a - b)).
Proof.
  intros A B. auto_derive. { split; [eexists; eauto|split; [eexists; eauto|auto]]. }
  replace (Derive (fun x => f x) s) with a by (symmetry; apply is_derive_unique; exact A).
  replace (Derive (fun x => g x) s) with b by (symmetry; apply is_derive_unique; exact B). ring.
Qed.
Lemma energy_gradient {J} (js : list J) nq m eps t (c : RR -> vec (nat * J)) s d : apart nq js (c s) -> vderive c s d ->
  is_derive (fun x => energy nq m js eps (c x)) s
    (- sum_over (particles nq) (fun i => sum_over js (fun k => m i * nbody_force js nq m (fun d => plummer_soft d eps) None t (c s) (i, k) * d (i, k)))).
Proof.
  intros HA Hd. set (w := fun i j => / sqrt (sq_dist js (c s) i j + eps ^ 2) ^ 3).
  set (B := fun i j => sum_over js (fun k => m i * m j * w i j * (c s (j, k) - c s (i, k)) * d (i, k))).
  apply (is_derive_eq _ _ (sum_over (seq 0 nq) (fun i => sum_over (seq 0 i) (fun j => - (B i j + B j i))))); cycle 1.
  - symmetry. rewrite (so_ext (particles nq) _ (fun i => sum_over (seq 0 nq) (fun j => if i =? j then 0 else B i j))).
    + unfold particles. rewrite so_pairs. replace (-  sum_over (seq 0 nq) (fun i => sum_over (seq 0 i) (fun j => B i j + B j i)))
        with (-1 * sum_over (seq 0 nq) (fun i => sum_over (seq 0 i) (fun j => B i j + B j i))) by ring.
      rewrite <- so_scal. apply so_ext. intros i _. rewrite <- (so_scal (seq 0 i) (-1)). apply so_ext. intros j _. ring.
    + intros i Hi. unfold particles in Hi. apply in_seq in Hi. unfold nbody_force.
      transitivity (sum_over js (fun k => sum_over (seq 0 nq) (fun j => if i =? j then 0 else m i * m j * w i j * (c s (j, k) - c s (i, k)) * d (i, k)))).
      * apply so_ext. intros k _. rewrite self_force_sum. match goal with |- m i * ?x * d (i, k) = _ => replace (m i * x * d (i, k)) with (m i * d (i, k) * x) by ring end. rewrite <- so_scal.
        apply so_ext. intros j Hj. apply in_seq in Hj. destruct (Nat.eqb_spec i j) as [|N]; [ring|].
        unfold pair_w, w. rewrite soft_weight by (apply HA; lia). ring.
      * unfold B. clear B HA Hd. clearbody w. induction js as [|k l IH].
        { unfold sum_over at 1. cbn. symmetry. apply so_0. intros j _. destruct (i =? j); auto. }
        unfold sum_over at 1. cbn [map fold_right]. match goal with |- _ + fold_right Rplus 0 (map ?f l) = _ => fold (sum_over l f) end. rewrite IH, <- so_plus. apply so_ext. intros j _.
        destruct (i =? j); [ring|]. unfold sum_over at 2. cbn [map fold_right]. reflexivity.
  - unfold energy, particles. apply so_derive. intros i Hi. apply so_derive. intros j Hj. apply in_seq in Hi, Hj.
    assert (P : 0 < sq_dist js (c s) i j) by (apply HA; lia). assert (Q : 0 < sq_dist js (c s) i j + eps ^ 2) by (pose proof (pow2_ge_0 eps); lra).
    pose proof (sqrt_lt_R0 _ Q) as SQ.
    assert (D2 : is_derive (fun x => sq_dist js (c x) i j) s (sum_over js (fun k => 2 * (c s (j, k) - c s (i, k)) * (d (j, k) - d (i, k))))).
    { unfold sq_dist. apply so_derive. intros k _. pose proof (Hd (j, k)) as A. pose proof (Hd (i, k)) as A'.
      exact (sq_derive (fun x => c x (j, k)) (fun x => c x (i, k)) s _ _ A A'). }
    set (S2 := sum_over js (fun k => 2 * (c s (j, k) - c s (i, k)) * (d (j, k) - d (i, k)))) in *.
    apply (is_derive_eq _ _ (m i * m j * (/ 2 * S2 / sqrt (sq_dist js (c s) i j + eps ^ 2) ^ 3))); cycle 1.
    + assert (BS : B i j + B j i = - (m i * m j * w i j) * (/ 2 * S2)).
      { unfold B, S2. rewrite <- !so_scal, <- so_plus. apply so_ext. intros k _. unfold w. rewrite (sq_sym js (c s) j i). field.
        lra. }
      rewrite BS. unfold w. match goal with |- ?a = ?b => change (@eq RR a b) end. field. lra.
    + assert (E : forall x, - (m i * m j / sqrt (sq_dist js (c x) i j + eps ^ 2)) = (fun u => - (m i * m j / sqrt (u + eps ^ 2))) (sq_dist js (c x) i j)) by reflexivity.
      eapply is_derive_ext; [intros x; symmetry; apply E|]. eapply is_derive_eq; [apply (is_derive_Rchain (fun u => - (m i * m j / sqrt (u + eps ^ 2))) (fun x => sq_dist js (c x) i j) s); [|exact D2]|].
      1:{ auto_derive; [split; [exact Q|split; [lra|auto]]|]. reflexivity. }
      match goal with |- ?a = ?b => change (@eq RR a b) end. field. lra.
Qed.
