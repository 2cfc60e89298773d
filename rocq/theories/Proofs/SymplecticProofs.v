From Coq Require Import Reals List ZArith Lia Lra FunctionalExtensionality.
From Coquelicot Require Import Coquelicot.
From Verif.Lib Require Import RealAux.
From Verif.Model Require Import Symplectic.
From Verif.Spec Require Import SymplecticSpec.
Import ListNotations.
Open Scope R_scope.
Notation RR := RbaseSymbolsImpl.R (only parsing).

Ltac rr := match goal with |- @eq _ ?a ?b => change (@eq R a b) end; ring.
Lemma iter_S {A} n (f : A -> A) x : Nat.iter (S n) f x = f (Nat.iter n f x).
Proof. reflexivity. Qed.

Section P.
  Context {J : Type} (F : RR -> vec J -> vec J).

  Lemma st_eq (q q' p p' : vec J) (t t' : RR) : (forall j, q j = q' j) -> (forall j, p j = p' j) -> t = t' -> (q, p, t) = (q', p', t') :> sstate J.
  Proof. intros A B ->. f_equal. f_equal; apply functional_extensionality; auto. Qed.

  (** ** Reversal *)
  Lemma op_inv dt o s : dk_op F (- dt) o (dk_op F dt o s) = s.
  Proof. destruct s as [[q p] t], o; cbn; apply st_eq; intros; try ring. Qed.
  Lemma op_inv' dt o s : dk_op F dt o (dk_op F (- dt) o s) = s.
  Proof. replace dt with (- - dt) at 1 by ring. apply op_inv. Qed.
  Lemma step_app l1 l2 dt s : dk_step F (l1 ++ l2) dt s = dk_step F l2 dt (dk_step F l1 dt s).
  Proof. apply fold_left_app. Qed.
  Lemma step_rev l dt s : dk_step F (rev l) (- dt) (dk_step F l dt s) = s.
  Proof.
    revert s. induction l as [|o l IH]; intros s; auto. cbn [rev]. rewrite step_app. cbn [dk_step fold_left]. fold (dk_step F l dt (dk_op F dt o s)).
    rewrite IH. apply op_inv.
  Qed.
  Lemma step_inv l dt s : palindrome l -> dk_step F l (- dt) (dk_step F l dt s) = s.
  Proof. intros P. pose proof (step_rev l dt s) as H. rewrite P in H. exact H. Qed.
  Lemma iter_swap {A} (f : A -> A) n x : Nat.iter n f (f x) = f (Nat.iter n f x).
  Proof. induction n; auto. rewrite !iter_S, IHn. auto. Qed.
  Lemma run_inv l dt n s : palindrome l -> dk_run F l (- dt) n (dk_run F l dt n s) = s.
  Proof.
    intros P. unfold dk_run. induction n; auto. rewrite (iter_S n (dk_step F l dt)), (iter_S n (dk_step F l (- dt))), <- iter_swap. rewrite step_inv by auto. auto.
  Qed.
  Lemma run_add l dt n m s : dk_run F l dt (n + m) s = dk_run F l dt n (dk_run F l dt m s).
  Proof. unfold dk_run. induction n; auto. cbn [Nat.add]. rewrite !iter_S, IHn. auto. Qed.

  (** Reversed velocities, for a force that does not depend on time *)
  Hypothesis autonomous : forall t t' q, F t q = F t' q.
  Definition same_qp (s s' : sstate J) : Prop := pos s = pos s' /\ mom s = mom s'.
  Lemma op_flip dt o s s' : same_qp s (flipv s') -> same_qp (dk_op F dt o s) (flipv (dk_op F (- dt) o s')).
  Proof.
    destruct s as [[q p] t], s' as [[q' p'] t']. intros [A B]. cbn in A, B. unfold pos, mom in *. cbn in *. subst q p. destruct o; split; cbn; auto.
    - apply functional_extensionality. intros j. ring.
    - apply functional_extensionality. intros j. rewrite (autonomous t t'). ring.
  Qed.
  Lemma step_flip l dt s s' : same_qp s (flipv s') -> same_qp (dk_step F l dt s) (flipv (dk_step F l (- dt) s')).
  Proof. revert s s'. induction l; cbn; auto. intros. apply IHl. apply op_flip. auto. Qed.
  Lemma run_flip l dt n s s' : same_qp s (flipv s') -> same_qp (dk_run F l dt n s) (flipv (dk_run F l (- dt) n s')).
  Proof. intros H. unfold dk_run. induction n; auto. rewrite !iter_S. apply step_flip. auto. Qed.
  Lemma run_reversible l dt n s : palindrome l -> same_qp (dk_run F l dt n (flipv (dk_run F l dt n s))) (flipv s).
  Proof. intros P. rewrite <- (run_inv l dt n s P) at 2. apply run_flip. split; auto. Qed.
End P.

Section Refine.
  Context {J : Type} (F : RR -> vec J -> vec J).
  Lemma step_cons o l dt s : dk_step F (o :: l) dt s = dk_step F l dt (dk_op F dt o s).
  Proof. reflexivity. Qed.
  (** ** The loops of the code are the composition *)
  (** A scheme [Drift a :: body ++ [Drift b]] with the drifts between steps merged *)
  Lemma merged (body : list dk) (a b dt : RR) n (s : sstate J) :
    dk_op F dt (Drift b) (dk_step F body dt (Nat.iter n (fun s => dk_op F dt (Drift (b + a)) (dk_step F body dt s)) (dk_op F dt (Drift a) s))) =
    dk_run F (Drift a :: body ++ [Drift b]) dt (S n) s.
  Proof.
    assert (M : forall s, dk_op F dt (Drift (b + a)) s = dk_op F dt (Drift a) (dk_op F dt (Drift b) s)).
    { intros [[q p] t]. cbn. apply st_eq; intros; ring. }
    assert (K : forall n, Nat.iter n (fun s => dk_op F dt (Drift (b + a)) (dk_step F body dt s)) (dk_op F dt (Drift a) s) =
                dk_op F dt (Drift a) (dk_run F (Drift a :: body ++ [Drift b]) dt n s)).
    { clear n. induction n; [reflexivity|]. rewrite iter_S, IHn.
      rewrite M. unfold dk_run. rewrite iter_S. rewrite step_cons, step_app. reflexivity. }
    rewrite K. unfold dk_run. rewrite iter_S, step_cons, step_app. reflexivity.
  Qed.
  Lemma iter_ext {A} (f g : A -> A) n x : (forall x, f x = g x) -> Nat.iter n f x = Nat.iter n g x.
  Proof. intros H. induction n; auto. rewrite !iter_S, IHn. auto. Qed.

  (** leapfrog keeps the time at the start of a sub-interval; the composition has moved it on by half a drift *)
  Lemma lf_interval_run dt ndt s : (0 < ndt)%nat -> lf_interval F dt ndt s = dk_run F leapfrog_scheme dt ndt s.
  Proof.
    intros H. destruct ndt as [|n]; [lia|]. clear H. change leapfrog_scheme with (Drift (1 / 2) :: [Kick 1] ++ [Drift (1 / 2)]).
    rewrite <- merged. unfold lf_interval. destruct s as [[q p] t]. replace (S n - 1)%nat with n by lia.
    assert (K : forall n, Nat.iter n (fun s => dk_op F dt (Drift (1 / 2 + 1 / 2)) (dk_step F [Kick 1] dt s)) (dk_op F dt (Drift (1 / 2)) (q, p, t)) =
      let '(q12, po, to) := Nat.iter n (lf_sub F dt) (leapq q p (dt / 2), p, t) in (q12, po, to + dt / 2)).
    { clear n. induction n.
      - cbn. unfold leapq. apply st_eq; intros; try reflexivity; field.
      - rewrite !iter_S, IHn. destruct (Nat.iter n (lf_sub F dt) _) as [[q1 p1] t1]. cbn. unfold leapq, leapp.
        apply st_eq; intros; try field. }
    rewrite K. destruct (Nat.iter n (lf_sub F dt) (leapq q p (dt / 2), p, t)) as [[q1 p1] t1]. cbn. unfold leapq, leapp. apply st_eq; intros; field.
  Qed.
  Ltac coef := unfold fourth_order, sixth_order, fr_c1, fr_c2, fr_d1, fr_d2, yo_c1, yo_c2, yo_c3, yo_c4, yo_d1, yo_d2, yo_d3, yo_d4,
    s4_c1, s4_c2, s4_c3, s4_c4, s4_d1, s4_d2, s4_d3, s6_c1, s6_c2, s6_c3, s6_c4, s6_c5, s6_c6, s6_c7, s6_c8, s6_d1, s6_d2, s6_d3, s6_d4, s6_d5, s6_d6, s6_d7 in *.
  Lemma opposite x : - x / 10 ^ 16 = - (x / 10 ^ 16). Proof. field. Qed.
  Definition s4_scheme := [Drift s4_c1; Kick s4_d1; Drift s4_c2; Kick s4_d2; Drift s4_c3; Kick s4_d3; Drift s4_c4].
  Definition s6_scheme := [Drift s6_c1; Kick s6_d1; Drift s6_c2; Kick s6_d2; Drift s6_c3; Kick s6_d3; Drift s6_c4; Kick s6_d4; Drift s6_c5; Kick s6_d5;
    Drift s6_c6; Kick s6_d6; Drift s6_c7; Kick s6_d7; Drift s6_c8].
  Lemma s4_scheme_eq : s4_scheme = fourth_order.
  Proof. unfold s4_scheme. coef. repeat (f_equal; try field). Qed.
  Lemma s6_scheme_eq : s6_scheme = sixth_order.
  Proof. unfold s6_scheme. coef. repeat (f_equal; try field). Qed.
  Lemma s4_interval_run dt ndt s : (0 < ndt)%nat -> s4_interval F dt ndt s = dk_run F fourth_order dt ndt s.
  Proof.
    intros H. destruct ndt as [|n]; [lia|]. clear H. rewrite <- s4_scheme_eq.
    change s4_scheme with (Drift s4_c1 :: [Kick s4_d1; Drift s4_c2; Kick s4_d2; Drift s4_c3; Kick s4_d3] ++ [Drift s4_c4]).
    rewrite <- merged. unfold s4_interval. destruct s as [[q p] t]. replace (S n - 1)%nat with n by lia.
    rewrite (iter_ext (s4_sub F dt) (fun s => dk_op F dt (Drift (s4_c4 + s4_c1)) (dk_step F [Kick s4_d1; Drift s4_c2; Kick s4_d2; Drift s4_c3; Kick s4_d3] dt s))).
    2: { intros [[q1 p1] t1]. reflexivity. }
    change (dk_op F dt (Drift s4_c1) (q, p, t)) with (leapq q p (s4_c1 * dt), p, t + s4_c1 * dt).
    destruct (Nat.iter n _ _) as [[q1 p1] t1]. reflexivity.
  Qed.
  Lemma s6_interval_run dt ndt s : (0 < ndt)%nat -> s6_interval F dt ndt s = dk_run F sixth_order dt ndt s.
  Proof.
    intros H. destruct ndt as [|n]; [lia|]. clear H. rewrite <- s6_scheme_eq.
    set (body := [Kick s6_d1; Drift s6_c2; Kick s6_d2; Drift s6_c3; Kick s6_d3; Drift s6_c4; Kick s6_d4; Drift s6_c5; Kick s6_d5; Drift s6_c6; Kick s6_d6; Drift s6_c7; Kick s6_d7]).
    change s6_scheme with (Drift s6_c1 :: body ++ [Drift s6_c8]).
    rewrite <- merged. unfold s6_interval. destruct s as [[q p] t]. replace (S n - 1)%nat with n by lia.
    rewrite (iter_ext (s6_sub F dt) (fun s => dk_op F dt (Drift (s6_c8 + s6_c1)) (dk_step F body dt s))).
    2: { intros [[q1 p1] t1]. reflexivity. }
    change (dk_op F dt (Drift s6_c1) (q, p, t)) with (leapq q p (s6_c1 * dt), p, t + s6_c1 * dt).
    destruct (Nat.iter n _ _) as [[q1 p1] t1]. reflexivity.
  Qed.
  Lemma rows_run interval l dt ndt : (forall s : sstate J, interval s = dk_run F l dt ndt s) ->
    forall n s, rows interval n s = map (fun i => dk_run F l dt (S i * ndt) s) (seq 0 n).
  Proof.
    intros H n. induction n; intros s; auto. cbn [rows seq map]. rewrite H. f_equal. { f_equal. lia. }
    rewrite IHn. rewrite <- seq_shift, map_map. apply map_ext. intros i. rewrite <- run_add. f_equal. lia.
  Qed.
  (** time *)
  Lemma step_time l dt s : time (dk_step F l dt s) = time s + drift_sum l * dt.
  Proof.
    revert s. induction l as [|o l IH]; intros [[q p] t]. { unfold time, dk_step, drift_sum. cbn [fold_left fold_right snd]. match goal with |- @eq _ ?a ?b => change (@eq R a b) end. ring. }
    rewrite step_cons, IH. destruct o as [k|k]; unfold time, drift_sum; cbn [dk_op snd fold_right]; match goal with |- @eq _ ?a ?b => change (@eq R a b) end; ring.
  Qed.
  Lemma run_time l dt n s : time (dk_run F l dt n s) = time s + INR n * (drift_sum l * dt).
  Proof. induction n. { change (dk_run F l dt 0 s) with s. rewrite Rmult_0_l. ring. } unfold dk_run in *. rewrite iter_S, step_time, IHn, S_INR. ring. Qed.
End Refine.

Lemma leapfrog_palindrome : palindrome leapfrog_scheme. Proof. reflexivity. Qed.
Lemma fourth_palindrome : palindrome fourth_order. Proof. reflexivity. Qed.
Lemma sixth_palindrome : palindrome sixth_order. Proof. reflexivity. Qed.

(** ** Tangent maps *)
Section Tangent.
  Context {J : Type} (js : list J) (F : RR -> vec J -> vec J) (K : RR -> vec J -> J -> J -> RR).
  Definition okj (s : sstate J) : Prop := force_jacobian js F (time s) (pos s) (K (time s) (pos s)).
  Definition oks (s : sstate J) : Prop := symmetric js (K (time s) (pos s)).
  Fixpoint kicks (Q : sstate J -> Prop) (dt : RR) (l : list dk) (s : sstate J) : Prop :=
    match l with [] => True | Drift c :: l => kicks Q dt l (dk_op F dt (Drift c) s) | Kick d :: l => Q s /\ kicks Q dt l (dk_op F dt (Kick d) s) end.
  Lemma kicks_intro (Q : sstate J -> Prop) dt : forall l s,
    (forall before d after, l = before ++ Kick d :: after -> Q (dk_step F before dt s)) -> kicks Q dt l s.
  Proof.
    induction l as [|o l IH]; intros s H; cbn; auto. destruct o as [c|d].
    - apply IH. intros b d a ->. apply (H (Drift c :: b) d a). auto.
    - split. { apply (H [] d l). auto. } apply IH. intros b e a ->. apply (H (Kick d :: b) e a). auto.
  Qed.
  (** derivative of one operation at a state, applied to a deviation *)
  Definition dop (dt : RR) (o : dk) (s : sstate J) (u : vec J * vec J) : vec J * vec J :=
    let '(q, p, t) := s in
    match o with
    | Drift c => (fun j => fst u j + c * dt * snd u j, snd u)
    | Kick d => (fst u, fun j => snd u j + d * dt * sum_over js (fun k => K t q j k * fst u k))
    end.
  Fixpoint dops (dt : RR) (l : list dk) (s : sstate J) (u : vec J * vec J) : vec J * vec J :=
    match l with [] => u | o :: l => dops dt l (dk_op F dt o s) (dop dt o s u) end.
  Fixpoint druns (dt : RR) (l : list dk) (n : nat) (s : sstate J) (u : vec J * vec J) : vec J * vec J :=
    match n with O => u | S n => dops dt l (dk_run F l dt n s) (druns dt l n s u) end.
  Definition along (c : RR -> sstate J) (s : RR) (u : vec J * vec J) : Prop :=
    vderive (fun x => pos (c x)) s (fst u) /\ vderive (fun x => mom (c x)) s (snd u) /\ forall x, time (c x) = time (c s).
  Lemma axpy (f g : RR -> RR) s a b k : is_derive f s a -> is_derive g s b -> is_derive (fun x => f x + k * g x) s (a + k * b).
  Proof.
    intros A B. apply (is_derive_plus (K:=R_AbsRing) (V:=R_NormedModule)); auto.
    apply (is_derive_ext (fun x => scal k (g x))); [reflexivity|]. apply (is_derive_scal g s k b B).
  Qed.
  Lemma along_op dt o c s u : (match o with Kick _ => okj (c s) | _ => True end) -> along c s u -> along (fun x => dk_op F dt o (c x)) s (dop dt o (c s) u).
  Proof.
    intros HK (A & B & T). destruct o as [k|k].
    - split; [|split].
      + intros j. eapply is_derive_ext. { intros x. destruct (c x) as [[q p] t] eqn:E. cbn. instantiate (1 := fun x => pos (c x) j + k * dt * mom (c x) j). cbn. rewrite E. reflexivity. }
        replace (fst (dop dt (Drift k) (c s) u) j) with (fst u j + k * dt * snd u j) by (destruct (c s) as [[? ?] ?]; reflexivity).
        apply axpy; auto.
      + intros j. eapply is_derive_ext. { intros x. instantiate (1 := fun x => mom (c x) j). cbn. destruct (c x) as [[q p] t]. reflexivity. }
        replace (snd (dop dt (Drift k) (c s) u) j) with (snd u j) by (destruct (c s) as [[? ?] ?]; reflexivity). auto.
      + intros x. specialize (T x). destruct (c x) as [[? ?] ?], (c s) as [[? ?] ?]. unfold time in *. cbn in *. rewrite T. auto.
    - split; [|split].
      + intros j. eapply is_derive_ext. { intros x. instantiate (1 := fun x => pos (c x) j). cbn. destruct (c x) as [[q p] t]. reflexivity. }
        replace (fst (dop dt (Kick k) (c s) u) j) with (fst u j) by (destruct (c s) as [[? ?] ?]; reflexivity). auto.
      + intros j. eapply is_derive_ext.
        { intros x. instantiate (1 := fun x => mom (c x) j + k * dt * F (time (c s)) (pos (c x)) j). cbn. rewrite <- (T x).
          destruct (c x) as [[q p] t]. reflexivity. }
        replace (snd (dop dt (Kick k) (c s) u) j) with (snd u j + k * dt * sum_over js (fun i => K (time (c s)) (pos (c s)) j i * fst u i))
          by (destruct (c s) as [[? ?] ?]; reflexivity).
        apply axpy; auto. apply (HK (fun x => pos (c x)) s (fst u) eq_refl A j).
      + intros x. specialize (T x). destruct (c x) as [[? ?] ?], (c s) as [[? ?] ?]. auto.
  Qed.
  Lemma along_step dt l : forall c s u, kicks okj dt l (c s) -> along c s u -> along (fun x => dk_step F l dt (c x)) s (dops dt l (c s) u).
  Proof.
    induction l as [|o l IH]; intros c s u HK H; auto. apply (IH (fun x => dk_op F dt o (c x))).
    - destruct o; cbn in HK; tauto.
    - apply along_op; auto. destruct o; cbn in HK; tauto.
  Qed.
  Lemma along_run dt l n c s u : (forall i, (i < n)%nat -> kicks okj dt l (dk_run F l dt i (c s))) -> along c s u ->
    along (fun x => dk_run F l dt n (c x)) s (druns dt l n (c s) u).
  Proof. intros HK H. induction n; auto. apply (along_step dt l (fun x => dk_run F l dt n (c x))); auto. Qed.

  Lemma sum_ext (f g : J -> RR) : (forall j, In j js -> f j = g j) -> sum_over js f = sum_over js g.
  Proof. intros H. unfold sum_over. f_equal. apply map_ext_in. auto. Qed.
  Lemma sum_plus l (f g : J -> RR) : sum_over l (fun j => f j + g j) = sum_over l f + sum_over l g.
  Proof. unfold sum_over. induction l; cbn; [ring|]. rewrite IHl. ring. Qed.
  Lemma sum_scal l k (f : J -> RR) : sum_over l (fun j => k * f j) = k * sum_over l f.
  Proof. unfold sum_over. induction l; cbn; [ring|]. rewrite IHl. ring. Qed.
  Lemma sum_swap l1 l2 (f : J -> J -> RR) : sum_over l1 (fun j => sum_over l2 (fun k => f j k)) = sum_over l2 (fun k => sum_over l1 (fun j => f j k)).
  Proof.
    induction l1 as [|a l1 IH]. { unfold sum_over at 1. cbn. symmetry. induction l2; cbn; auto. unfold sum_over in *. cbn. rewrite IHl2. ring. }
    unfold sum_over at 1. cbn [map fold_right]. fold (sum_over l1 (fun j => sum_over l2 (fun k => f j k))). rewrite IH, <- sum_plus. reflexivity.
  Qed.
  Definition bil (t : RR) (q : vec J) (u v : vec J) : RR := sum_over js (fun j => sum_over js (fun k => u j * (K t q j k * v k))).
  Lemma bil_sym t q u v : symmetric js (K t q) -> bil t q u v = bil t q v u.
  Proof.
    intros HS. unfold bil. rewrite sum_swap. apply sum_ext. intros j Hj. apply sum_ext. intros k Hk. rewrite (HS k j Hk Hj). rr.
  Qed.
  Lemma form_op dt o s u v : (match o with Kick _ => oks s | _ => True end) ->
    symplectic_form js (dop dt o s u) (dop dt o s v) = symplectic_form js u v.
  Proof.
    intros HS. destruct s as [[q p] t], o as [c|d]; unfold symplectic_form; cbn [dop fst snd].
    - apply sum_ext. intros; rr.
    - transitivity (symplectic_form js u v + d * dt * (bil t q (fst u) (fst v) + -1 * bil t q (fst v) (fst u))).
      2: { rewrite (bil_sym t q) by exact HS. unfold symplectic_form. rr. }
      unfold symplectic_form, bil. rewrite <- (sum_scal js (-1)), <- sum_plus, <- sum_scal, <- sum_plus. apply sum_ext. intros j _.
      rewrite !sum_scal. rr.
  Qed.
  Lemma form_ops dt l : forall s u v, kicks oks dt l s -> symplectic_form js (dops dt l s u) (dops dt l s v) = symplectic_form js u v.
  Proof. induction l as [|o l IH]; intros s u v H; cbn; auto. rewrite IH by (destruct o; cbn in H; tauto). apply form_op. destruct o; cbn in H; tauto. Qed.
  Lemma form_runs dt l n s u v : (forall i, (i < n)%nat -> kicks oks dt l (dk_run F l dt i s)) ->
    symplectic_form js (druns dt l n s u) (druns dt l n s v) = symplectic_form js u v.
  Proof. intros H. induction n; cbn; auto. rewrite form_ops; auto. Qed.
  Lemma kicked_kicks (Q : sstate J -> Prop) (Q' : RR -> vec J -> Prop) l dt n s : (forall s, Q' (time s) (pos s) -> Q s) ->
    (forall t q, kicked_at F l dt n s t q -> Q' t q) -> forall i, (i < n)%nat -> kicks Q dt l (dk_run F l dt i s).
  Proof. intros HQ H i Hi. apply kicks_intro. intros b d a E. apply HQ, H. exists i, b, d, a. auto. Qed.
  Lemma run_tangent l dt n t x u : (forall t' q, kicked_at F l dt n (x, t) t' q -> force_jacobian js F t' q (K t' q)) ->
    maps_tangent (fun x => fst (dk_run F l dt n (x, t))) x u (druns dt l n (x, t) u).
  Proof.
    intros HK c s E A B. assert (L : along (fun x => (c x, t)) s u) by (split; [exact A|split; [exact B|reflexivity]]).
    apply (along_run dt l n) in L.
    - destruct L as (P & Q & _). cbn beta in P, Q. rewrite E in P, Q. split; [exact P|exact Q].
    - cbn beta. rewrite E. apply kicked_kicks with (Q' := fun t q => force_jacobian js F t q (K t q)); auto.
  Qed.
  Lemma run_symplectic l dt n t x :
    (forall t' q, kicked_at F l dt n (x, t) t' q -> force_jacobian js F t' q (K t' q) /\ symmetric js (K t' q)) ->
    symplectic_at js (fun x => fst (dk_run F l dt n (x, t))) x.
  Proof.
    intros H. exists (druns dt l n (x, t)). split.
    - intros u. apply run_tangent. intros t' q Hq. apply (H t' q Hq).
    - intros u v. apply form_runs. apply kicked_kicks with (Q' := fun t q => symmetric js (K t q)); auto. intros t' q Hq. apply (H t' q Hq).
  Qed.
End Tangent.

(** ** Variational versions *)
Section Var.
  Context {J : Type} (js : list J) (F : RR -> vec J -> vec J) (K : RR -> vec J -> J -> J -> RR).
  Notation G := (force_aug js F K).
  Lemma aug_base_op dt o s : base (dk_op G dt o s) = dk_op F dt o (base s).
  Proof. destruct s as [[q p] t], o; reflexivity. Qed.
  Lemma aug_col_op dt o s b : column b (dk_op G dt o s) = dop js K dt o (base s) (column b s).
  Proof. destruct s as [[q p] t], o; reflexivity. Qed.
  Lemma aug_base_step dt l s : base (dk_step G l dt s) = dk_step F l dt (base s).
  Proof. revert s. induction l; intros; cbn; auto. fold (dk_step G l dt (dk_op G dt a s)). rewrite IHl, aug_base_op. auto. Qed.
  Lemma aug_col_step dt l s b : column b (dk_step G l dt s) = dops js F K dt l (base s) (column b s).
  Proof. revert s. induction l; intros; cbn; auto. fold (dk_step G l dt (dk_op G dt a s)). rewrite IHl, aug_base_op, aug_col_op. auto. Qed.
  Lemma aug_base_run dt l n s : base (dk_run G l dt n s) = dk_run F l dt n (base s).
  Proof. unfold dk_run. induction n; auto. rewrite !iter_S, aug_base_step, IHn. auto. Qed.
  Lemma aug_col_run dt l n s b : column b (dk_run G l dt n s) = druns js F K dt l n (base s) (column b s).
  Proof.
    induction n; auto. cbn [druns]. rewrite <- IHn, <- aug_base_run. unfold dk_run at 1. rewrite iter_S. apply aug_col_step.
  Qed.
End Var.

(** ** Step-size estimation *)
Lemma est_py_spec error : forall fuel k init err dt, (k <= 15)%nat -> (16 <= k + fuel)%nat -> init <> 0 -> (0 < k)%nat \/ 1 < err ->
  2 ^ k * dt = 2 * init ->
  exists k', (1 <= k' <= 15)%nat /\ exists dt', est_py fuel error init dt err = Some dt' /\ 2 ^ k' * dt' = 2 * init.
Proof.
  intros fuel. induction fuel as [|fuel IH]; intros k init err dt Hk Hf Hi He Hdt; [lia|].
  cbn [est_py]. assert (P : 0 < 2 ^ k) by (apply pow_lt; lra).
  assert (Hd : dt <> 0). { intros ->. rewrite Rmult_0_r in Hdt. apply Hi. lra. }
  assert (Q : init / dt = 2 ^ k / 2). { apply Rmult_eq_reg_r with dt; auto. field_simplify; [|auto]. lra. }
  destruct (andb _ _) eqn:E.
  - destruct (Nat.eq_dec k 15) as [->|N].
    + apply andb_prop in E. destruct E as [_ E]. unfold Rlt_b, max_dt_reduce in E. destruct (Rlt_dec _ _) as [L|]; [|discriminate].
      rewrite Q in L. cbv [pow] in L. lra.
    + apply (IH (S k)); auto; [lia|lia|left; lia|]. change (2 ^ S k) with (2 * 2 ^ k). lra.
  - destruct k as [|k].
    + exfalso. destruct He as [He|He]; [lia|]. unfold Rgt_b, Rlt_b, max_dt_reduce in E. rewrite Q in E. destruct (Rlt_dec 1 err); [|lra].
      destruct (Rlt_dec (2 ^ 0 / 2) 10000); [discriminate|]. change (2 ^ 0) with 1 in *. lra.
    + exists (S k). split; [lia|]. exists dt. auto.
Qed.
Lemma est_c_spec error : forall fuel k init err dt, (k <= 15)%nat -> (16 <= k + fuel)%nat -> init <> 0 -> (0 < k)%nat \/ 1 < err ->
  2 ^ k * dt = 2 * init ->
  exists k', (1 <= k' <= 15)%nat /\ exists dt', est_c fuel error init dt err = Some dt' /\ 2 ^ k' * dt' = 2 * init.
Proof.
  intros fuel. induction fuel as [|fuel IH]; intros k init err dt Hk Hf Hi He Hdt; [lia|].
  cbn [est_c]. assert (P : 0 < 2 ^ k) by (apply pow_lt; lra).
  assert (Hd : dt <> 0). { intros ->. rewrite Rmult_0_r in Hdt. apply Hi. lra. }
  assert (Q : init / dt = 2 ^ k / 2). { apply Rmult_eq_reg_r with dt; auto. field_simplify; [|auto]. lra. }
  destruct (andb _ _) eqn:E.
  - destruct (Nat.eq_dec k 15) as [->|N].
    + apply andb_prop in E. destruct E as [_ E]. unfold Rlt_b, max_dt_reduce in E. destruct (Rlt_dec _ _) as [L|]; [|discriminate].
      rewrite Q in L. cbv [pow] in L. lra.
    + apply (IH (S k)); auto; [lia|lia|left; lia|]. change (2 ^ S k) with (2 * 2 ^ k). lra.
  - destruct k as [|k].
    + exfalso. destruct He as [He|He]; [lia|]. unfold Rgt_b, Rlt_b, max_dt_reduce in E. rewrite Q in E. destruct (Rlt_dec 1 err); [|lra].
      destruct (Rlt_dec (2 ^ 0 / 2) 10000); [discriminate|]. change (2 ^ 0) with 1 in *. lra.
    + exists (S k). split; [lia|]. exists dt. auto.
Qed.
Lemma trunc_INR n : trunc (INR n) = Z.of_nat n.
Proof.
  unfold trunc. destruct (Rle_dec 0 (INR n)) as [H|H]; [|exfalso; apply H, pos_INR].
  apply Int_part_INR.
Qed.
Lemma est_py_ok error init : init <> 0 ->
  exists k, (k <= 14)%nat /\ est_py 16 error init (init * 2) 2 = Some (init / 2 ^ k).
Proof.
  intros Hi. destruct (est_py_spec error 16 0 init 2 (init * 2)) as (k & Hk & dt & E & D); [lia|lia|exact Hi|right; lra| |].
  { change (2 ^ 0) with 1. ring. }
  destruct k as [|k]; [lia|]. exists k. split; [lia|]. rewrite E. f_equal. change (2 ^ S k) with (2 * 2 ^ k) in D.
  assert (P : 0 < 2 ^ k) by (apply pow_lt; lra). apply Rmult_eq_reg_l with (2 * 2 ^ k); [|lra]. rewrite D. field. lra.
Qed.
Lemma est_c_ok error init : init <> 0 ->
  exists k, (k <= 14)%nat /\ est_c 16 error init (init * 2) 2 = Some (init / 2 ^ k).
Proof.
  intros Hi. destruct (est_c_spec error 16 0 init 2 (init * 2)) as (k & Hk & dt & E & D); [lia|lia|exact Hi|right; lra| |].
  { change (2 ^ 0) with 1. ring. }
  destruct k as [|k]; [lia|]. exists k. split; [lia|]. rewrite E. f_equal. change (2 ^ S k) with (2 * 2 ^ k) in D.
  assert (P : 0 < 2 ^ k) by (apply pow_lt; lra). apply Rmult_eq_reg_l with (2 * 2 ^ k); [|lra]. rewrite D. field. lra.
Qed.
Lemma pow2_INR k : 2 ^ k = INR (2 ^ k).
Proof. rewrite pow_INR. reflexivity. Qed.
Lemma ndt_pow init k : init <> 0 -> Z.to_nat (trunc (init / (init / 2 ^ k))) = (2 ^ k)%nat.
Proof.
  intros Hi. assert (P : 0 < 2 ^ k) by (apply pow_lt; lra). replace (init / (init / 2 ^ k)) with (2 ^ k) by (field; split; lra || auto).
  rewrite pow2_INR, trunc_INR. apply Nat2Z.id.
Qed.
Lemma leapfrog_run {J} (F : RR -> vec J -> vec J) js rtol atol qo po t0 t1 ts : t1 <> t0 ->
  exists k, (k <= 14)%nat /\ leapfrog F js 16 rtol atol qo po (t0 :: t1 :: ts) =
    Some (map (fun i => dk_run F leapfrog_scheme ((t1 - t0) / 2 ^ k) (i * 2 ^ k) (qo, po, t0)) (seq 0 (length (t0 :: t1 :: ts)))).
Proof.
  intros H. unfold leapfrog. destruct (Req_EM_T (t1 - t0) 0) as [E|N]; [exfalso; apply H; lra|].
  destruct (est_py_ok (lf_error F js qo po t0 rtol atol) (t1 - t0) N) as (k & Hk & E). rewrite E. exists k. split; auto. f_equal.
  rewrite (ndt_pow (t1 - t0) k N).
  rewrite (rows_run F (lf_interval F ((t1 - t0) / 2 ^ k) (2 ^ k)) leapfrog_scheme ((t1 - t0) / 2 ^ k) (2 ^ k)).
  2: { intros s. apply lf_interval_run. clear. induction k; cbn; lia. }
  cbn [length]. replace (S (S (length ts)) - 1)%nat with (S (length ts)) by lia. change (seq 0 (S (S (length ts)))) with (0%nat :: seq 1 (S (length ts))).
  cbn [map]. f_equal. rewrite <- (seq_shift (S (length ts)) 0), map_map. reflexivity.
Qed.
Lemma run_back {J} (F : RR -> vec J -> vec J) l dt a b s : palindrome l -> dk_run F l (- dt) a (dk_run F l dt (a + b) s) = dk_run F l dt b s.
Proof. intros P. rewrite run_add. apply run_inv. auto. Qed.
Lemma rev_map_seq {A} (f : nat -> A) n : rev (map f (seq 0 n)) = map (fun i => f (n - 1 - i)%nat) (seq 0 n).
Proof.
  apply nth_ext with (f O) (f O). { rewrite rev_length, !map_length. auto. }
  intros i Hi. rewrite rev_length, map_length, seq_length in Hi. rewrite rev_nth by (rewrite map_length, seq_length; lia).
  rewrite map_length, seq_length, (map_nth f), seq_nth by lia.
  rewrite (nth_indep (map (fun i => f (n - 1 - i)%nat) (seq 0 n)) (f O) ((fun i => f (n - 1 - i)%nat) O)) by (rewrite map_length, seq_length; lia).
  rewrite (map_nth (fun i => f (n - 1 - i)%nat)), seq_nth by lia. f_equal. lia.
Qed.
Lemma leapfrog_dt {J} (F : RR -> vec J -> vec J) js rtol atol qo po t0 t1 ts dt k : t1 <> t0 ->
  est_py 16 (lf_error F js qo po t0 rtol atol) (t1 - t0) ((t1 - t0) * 2) 2 = Some dt -> dt = (t1 - t0) / 2 ^ k ->
  leapfrog F js 16 rtol atol qo po (t0 :: t1 :: ts) =
    Some (map (fun i => dk_run F leapfrog_scheme dt (i * 2 ^ k) (qo, po, t0)) (seq 0 (length (t0 :: t1 :: ts)))).
Proof.
  intros H E Hk. unfold leapfrog. destruct (Req_EM_T (t1 - t0) 0) as [E0|N]; [exfalso; apply H; lra|]. rewrite E, Hk. f_equal.
  rewrite (ndt_pow (t1 - t0) k N).
  rewrite (rows_run F (lf_interval F ((t1 - t0) / 2 ^ k) (2 ^ k)) leapfrog_scheme ((t1 - t0) / 2 ^ k) (2 ^ k)).
  2: { intros s. apply lf_interval_run. clear. induction k; cbn; lia. }
  cbn [length]. replace (S (S (length ts)) - 1)%nat with (S (length ts)) by lia. change (seq 0 (S (S (length ts)))) with (0%nat :: seq 1 (S (length ts))).
  cbn [map]. f_equal. rewrite <- (seq_shift (S (length ts)) 0), map_map. reflexivity.
Qed.
Lemma leapfrog_drift1 : drift_sum leapfrog_scheme = 1.
Proof. unfold drift_sum, leapfrog_scheme. cbn [fold_right]. field. Qed.
(** The whole function, forwards and then backwards *)
Lemma leapfrog_there_and_back {J} (F : RR -> vec J -> vec J) js rtol atol qo po t0 h n qN pN out dt :
  h <> 0 -> (0 < n)%nat -> let grid := map (fun i => t0 + INR i * h) (seq 0 (S n)) in
  est_py 16 (lf_error F js qo po t0 rtol atol) h (h * 2) 2 = Some dt ->
  est_py 16 (lf_error F js qN pN (t0 + INR n * h) rtol atol) (- h) (- h * 2) 2 = Some (- dt) ->
  leapfrog F js 16 rtol atol qo po grid = Some out -> last out (qo, po, t0) = (qN, pN, t0 + INR n * h) ->
  leapfrog F js 16 rtol atol qN pN (rev grid) = Some (rev out).
Proof.
  intros Hh Hn grid E1 E2 L HL. destruct n as [|n]; [lia|].
  destruct (est_py_ok (lf_error F js qo po t0 rtol atol) h Hh) as (k & _ & Ek). rewrite E1 in Ek. injection Ek as Ek.
  assert (G : grid = t0 :: (t0 + h) :: map (fun i => t0 + INR i * h) (seq 2 n)).
  { unfold grid. cbn [seq map]. f_equal; [cbn [INR]; rr|]. f_equal. cbn [INR]. rr. }
  assert (E1' : est_py 16 (lf_error F js qo po t0 rtol atol) (t0 + h - t0) ((t0 + h - t0) * 2) 2 = Some dt).
  { replace (t0 + h - t0) with h by ring. auto. }
  assert (OUT : out = map (fun i => dk_run F leapfrog_scheme dt (i * 2 ^ k) (qo, po, t0)) (seq 0 (S (S n)))).
  { rewrite G in L. rewrite (leapfrog_dt F js rtol atol qo po t0 (t0 + h) _ dt k) in L; [|intros X; apply Hh; lra|exact E1'|].
    2: { rewrite Ek. f_equal. ring. }
    injection L as <-. cbn [length]. rewrite map_length, seq_length. auto. }
  assert (LAST : (qN, pN, t0 + INR (S n) * h) = dk_run F leapfrog_scheme dt (S n * 2 ^ k) (qo, po, t0)).
  { rewrite <- HL, OUT. rewrite (seq_S (S n)), map_app. cbn [map]. rewrite last_last. auto. }
  assert (RG : rev grid = (t0 + INR (S n) * h) :: (t0 + INR n * h) :: rev (map (fun i => t0 + INR i * h) (seq 0 n))).
  { unfold grid. rewrite (seq_S (S n)), (seq_S n), !map_app, !rev_app_distr. reflexivity. }
  rewrite RG. set (tN := t0 + INR (S n) * h) in *. set (tM := t0 + INR n * h) in *.
  assert (DM : tM - tN = - h) by (unfold tM, tN; rewrite S_INR; ring).
  rewrite (leapfrog_dt F js rtol atol qN pN tN tM _ (- dt) k).
  - f_equal. rewrite OUT. cbn [length]. rewrite rev_length, map_length, seq_length. rewrite rev_map_seq. apply map_ext_in. intros i Hi.
    apply in_seq in Hi. rewrite LAST. replace (S n * 2 ^ k)%nat with (i * 2 ^ k + (S (S n) - 1 - i) * 2 ^ k)%nat.
    + apply run_back. exact leapfrog_palindrome.
    + rewrite <- Nat.mul_add_distr_r. f_equal. lia.
  - intros X. apply Hh. lra.
  - rewrite DM. exact E2.
  - rewrite DM, Ek. unfold Rdiv. ring.
Qed.
Lemma free_run {J} l dt n q p t : dk_run (fun _ _ (_ : J) => 0) l dt n (q, p, t) =
  (fun j => q j + INR n * (drift_sum l * dt) * p j, p, t + INR n * (drift_sum l * dt)).
Proof.
  set (F := fun (_ : RR) (_ : vec J) (_ : J) => 0 : RR).
  assert (S1 : forall q p t, dk_step F l dt (q, p, t) = (fun j => q j + drift_sum l * dt * p j, p, t + drift_sum l * dt)).
  { induction l as [|o l IH]; intros q1 p1 t1. { unfold drift_sum. cbn [dk_step fold_left fold_right]. apply st_eq; intros; rr. }
    rewrite step_cons. destruct o; cbn [dk_op]; rewrite IH; unfold drift_sum; cbn [fold_right]; fold (drift_sum l); apply st_eq; intros; unfold F; rr. }
  induction n. { unfold dk_run. cbn [Nat.iter nat_rect INR]. apply st_eq; intros; rr. }
  unfold dk_run in *. rewrite iter_S, IHn, S1, S_INR. apply st_eq; intros; rr.
Qed.

(** ** The C entry points *)
Lemma c_run {J} (F : RR -> vec J -> vec J) interval scheme error given qo po t0 t1 ts :
  (forall dt ndt (s : sstate J), (0 < ndt)%nat -> interval dt ndt s = dk_run F scheme dt ndt s) ->
  t1 <> t0 -> (forall dt, given = Some dt -> exists n, (0 < n)%nat /\ t1 - t0 = INR n * dt) ->
  exists n, (0 < n)%nat /\ (given = None -> exists k, (k <= 14)%nat /\ n = 2 ^ k)%nat /\
    (forall dt, given = Some dt -> dt = (t1 - t0) / INR n) /\
    c_integrate interval error 16 given qo po (t0 :: t1 :: ts) =
    Some (map (fun i => dk_run F scheme ((t1 - t0) / INR n) (i * n) (qo, po, t0)) (seq 0 (length (t0 :: t1 :: ts)))).
Proof.
  intros HI Ht HG. unfold c_integrate. destruct (Req_EM_T (t1 - t0) 0) as [E0|N]; [exfalso; apply Ht; lra|].
  assert (FIN : forall n dt, (0 < n)%nat -> dt = (t1 - t0) / INR n ->
    (qo, po, t0) :: rows (interval dt (Z.to_nat (trunc ((t1 - t0) / dt)))) (length (t0 :: t1 :: ts) - 1) (qo, po, t0) =
    map (fun i => dk_run F scheme ((t1 - t0) / INR n) (i * n) (qo, po, t0)) (seq 0 (length (t0 :: t1 :: ts)))).
  { intros n dt Hn ->. assert (P : 0 < INR n) by (apply lt_0_INR; auto).
    replace ((t1 - t0) / ((t1 - t0) / INR n)) with (INR n) by (field; split; lra || auto). rewrite trunc_INR, Nat2Z.id.
    rewrite (rows_run F (interval ((t1 - t0) / INR n) n) scheme ((t1 - t0) / INR n) n) by (intros; apply HI; auto).
    cbn [length]. replace (S (S (length ts)) - 1)%nat with (S (length ts)) by lia. change (seq 0 (S (S (length ts)))) with (0%nat :: seq 1 (S (length ts))).
    cbn [map]. f_equal. rewrite <- (seq_shift (S (length ts)) 0), map_map. reflexivity. }
  destruct given as [dt|].
  - destruct (HG dt eq_refl) as (n & Hn & E). exists n. assert (P : 0 < INR n) by (apply lt_0_INR; auto).
    assert (D : dt = (t1 - t0) / INR n) by (rewrite E; field; lra).
    split; auto. split; [discriminate|]. split. { intros dt' X. injection X as <-. auto. } f_equal. apply FIN; auto.
  - destruct (est_c_ok error (t1 - t0) N) as (k & Hk & E). exists (2 ^ k)%nat. rewrite E.
    assert (Hp : (0 < 2 ^ k)%nat) by (clear; induction k; cbn; lia). split; auto. split; [eauto|]. split; [discriminate|].
    f_equal. apply FIN; auto. rewrite pow2_INR. auto.
Qed.

(** ** Coefficient sums *)
Lemma fourth_drift : drift_sum fourth_order = 1 + 2 / 10 ^ 16.
Proof. unfold drift_sum, fourth_order, fr_c1, fr_c2. cbn [fold_right]. field. Qed.
Lemma fourth_kick : kick_sum fourth_order = 1 + 3 / 10 ^ 16.
Proof. unfold kick_sum, fourth_order, fr_d1, fr_d2. cbn [fold_right]. field. Qed.
Lemma sixth_drift : drift_sum sixth_order = 1 - 4 / 10 ^ 16.
Proof. unfold drift_sum, sixth_order, yo_c1, yo_c2, yo_c3, yo_c4. cbn [fold_right]. field. Qed.
Lemma sixth_kick : kick_sum sixth_order = 1 + 4 / 10 ^ 15.
Proof. unfold kick_sum, sixth_order, yo_d1, yo_d2, yo_d3, yo_d4. cbn [fold_right]. field. Qed.
Lemma p16 : 10 ^ 16 = 10000000000000000. Proof. unfold pow. lra. Qed.

(** ** A uniform field and a coupled oscillator, used as examples *)
Definition uniform : RR -> vec bool -> vec bool := fun _ _ b => if b then -1 else 0.
Definition coupled : RR -> vec bool -> vec bool := fun _ q b => - (2 * q b) + q (negb b).
Definition coupled_hess : RR -> vec bool -> bool -> bool -> RR := fun _ _ a b => if Bool.eqb a b then - (2) else 1.
Definition both : list bool := [true; false].
Lemma coupled_jac t q : force_jacobian both coupled t q (coupled_hess t q).
Proof.
  intros c s d _ H j. unfold coupled, both, sum_over, coupled_hess. pose proof (H true) as A. pose proof (H false) as B.
  apply (is_derive_ext (fun x => 1 * (- (2) * c x j) + 1 * c x (negb j))). { intros x. rr. }
  destruct j; cbn [negb Bool.eqb map fold_right].
  - replace (- (2) * d true + (1 * d false + 0)) with ((- (2) * d true) + 1 * d false) by rr.
    apply (axpy (fun x => 1 * (- (2) * c x true)) (fun x => c x false)); auto.
    replace (- (2) * d true) with (0 + (- (2)) * d true) by rr.
    apply (is_derive_ext (fun x => 0 + (- (2)) * c x true)). { intros x. rr. } apply axpy; auto. apply is_derive_cst.
  - replace (1 * d true + (- (2) * d false + 0)) with ((- (2) * d false) + 1 * d true) by rr.
    apply (axpy (fun x => 1 * (- (2) * c x false)) (fun x => c x true)); auto.
    replace (- (2) * d false) with (0 + (- (2)) * d false) by rr.
    apply (is_derive_ext (fun x => 0 + (- (2)) * c x false)). { intros x. rr. } apply axpy; auto. apply is_derive_cst.
Qed.
Lemma coupled_sym t q : symmetric both (coupled_hess t q).
Proof. intros j k _ _. unfold coupled_hess. destruct j, k; reflexivity. Qed.
Lemma uniform_error qo po t rtol atol dt : lf_error uniform both qo po t rtol atol dt = 0.
Proof.
  unfold lf_error. rewrite <- sqrt_0. f_equal. unfold sumj, both. cbn [map fold_right].
  assert (Z : forall a s : RR, a = 0 -> (Rabs a / s) ^ 2 = 0). { intros a s ->. rewrite Rabs_R0. unfold Rdiv. rewrite Rmult_0_l. change (0 ^ 2) with (0 * (0 * 1)). ring. }
  rewrite !Z; [unfold Rdiv; ring|..]; unfold leapq, leapp, uniform; field.
Qed.
Lemma est_zero (error : RR -> RR) h : h <> 0 -> (forall dt, error dt = 0) -> est_py 16 error h (h * 2) 2 = Some h.
Proof.
  intros Hh HE. cbn [est_py]. unfold Rgt_b, Rlt_b, max_dt_reduce. rewrite !HE.
  replace (h / (h * 2)) with (/ 2) by (field; auto).
  destruct (Rlt_dec 1 2); [|lra]. destruct (Rlt_dec (/ 2) 10000); [|lra]. cbn [andb]. destruct (Rlt_dec 1 0); [lra|]. cbn [andb]. f_equal. field.
Qed.
