(** Local errors of the Runge-Kutta steps: an O-calculus for families of vectors in the time and the step, and the expansions of the stages. *)
From Coq Require Import Reals Lra Lia List FunctionalExtensionality.
From Coquelicot Require Import Coquelicot.
From Verif.Lib Require Import RealAux.
From Verif.Model Require Import Symplectic RungeKutta.
From Verif.Spec Require Import OrderSpec.
Open Scope R_scope.
Notation RR := RbaseSymbolsImpl.R (only parsing).

(** ** Taylor's formula with bounds *)
Lemma grow_bound (f f' : RR -> RR) a b C n : a <= b -> (forall s, a <= s <= b -> is_derive f s (f' s)) -> (forall s, a <= s <= b -> Rabs (f' s) <= C * (s - a) ^ n) ->
  f a = 0 -> 0 <= C -> Rabs (f b) <= C * (b - a) ^ S n.
Proof.
  intros Hab Hd Hb H0 HC. destruct (Req_dec a b) as [E|N].
  { subst b. rewrite H0, Rabs_R0. apply Rmult_le_pos; [exact HC|]. apply pow_le. lra. }
  assert (Hlt : a < b) by lra.
  destruct (MVT_gen f a b f') as (c & Hc & E).
  { intros x Hx. rewrite Rmin_left, Rmax_right in Hx by lra. apply Hd. lra. }
  { intros x Hx. rewrite Rmin_left, Rmax_right in Hx by lra. apply derivable_continuous_pt. exists (f' x). apply is_derive_Reals. apply Hd. lra. }
  rewrite Rmin_left, Rmax_right in Hc by lra. rewrite H0, Rminus_0_r in E. rewrite E, Rabs_mult, (Rabs_right (b - a)) by lra.
  rewrite <- tech_pow_Rmult. replace (C * ((b - a) * (b - a) ^ n)) with (C * (b - a) ^ n * (b - a)) by ring. apply Rmult_le_compat_r; [lra|].
  apply Rle_trans with (C * (c - a) ^ n); [apply Hb; lra|]. apply Rmult_le_compat_l; [lra|]. apply pow_incr. lra.
Qed.
(** The Taylor polynomial of g 0 with m terms. *)
Definition tpoly (g : nat -> RR) (m : nat) (x : RR) : RR := sum_f_R0 (fun l => match l with O => 0 | S l => x ^ l / INR (fact l) * g l end) m.
Lemma tpoly_S g m x : tpoly g (S m) x = tpoly g m x + x ^ m / INR (fact m) * g m.
Proof. unfold tpoly. rewrite tech5. reflexivity. Qed.
Lemma tpoly_derive g m x : is_derive (fun x => tpoly g (S m) x) x (tpoly (fun i => g (S i)) m x).
Proof.
  induction m as [|m IH].
  - apply (is_derive_ext (fun _ => g 0%nat)). { intros u. rewrite tpoly_S. unfold tpoly. cbn. field. } unfold tpoly. cbn. apply is_derive_cst.
  - apply (is_derive_ext (fun x => tpoly g (S m) x + x ^ (S m) / INR (fact (S m)) * g (S m))). { intros u. symmetry. apply (tpoly_S g (S m)). }
    rewrite tpoly_S. apply (is_derive_plus (K := R_AbsRing) (V := R_NormedModule)); [exact IH|].
    assert (P : INR (fact (S m)) = INR (S m) * INR (fact m)) by (rewrite <- mult_INR; reflexivity).
    pose proof (INR_fact_neq_0 m) as N1. assert (N2 : INR (S m) <> 0) by (apply not_0_INR; lia).
    apply (is_derive_ext (fun x => x ^ S m * (g (S m) / INR (fact (S m))))). { intros u. match goal with |- ?a = ?b => change (@eq RR a b) end. unfold Rdiv. ring. }
    rewrite P. set (K := g (S m) / (INR (S m) * INR (fact m))).
    refine (is_derive_eq (fun x => x ^ S m * K) x (INR (S m) * x ^ m * K) _ _ _).
    + clearbody K. auto_derive; [exact I|]. cbn [pred]. destruct m; cbn [INR]; match goal with |- ?a = ?b => change (@eq RR a b) end; ring.
    + unfold K. match goal with |- ?a = ?b => change (@eq RR a b) end. field. split; assumption.
Qed.
Lemma tpoly_0 g m : tpoly g (S m) 0 = g 0%nat.
Proof.
  induction m as [|m IH].
  - rewrite tpoly_S. unfold tpoly. cbn. field.
  - rewrite tpoly_S, IH. assert (Z : 0 ^ S m = 0) by (rewrite <- tech_pow_Rmult; apply Rmult_0_l). rewrite Z. unfold Rdiv. rewrite !Rmult_0_l. apply Rplus_0_r.
Qed.
Lemma taylor_bound m : forall (g : nat -> RR -> RR) a b L, a <= b -> 0 <= L -> (forall i s, (i < m)%nat -> a <= s <= b -> is_derive (g i) s (g (S i) s)) ->
  (forall s, a <= s <= b -> Rabs (g m s) <= L) -> Rabs (g 0%nat b - tpoly (fun i => g i a) m (b - a)) <= L * (b - a) ^ m.
Proof.
  induction m as [|m IH]; intros g a b L Hab HL Hd Hb.
  - unfold tpoly. cbn. rewrite Rminus_0_r, Rmult_1_r. apply Hb. lra.
  - set (F := fun s => g 0%nat s - tpoly (fun i => g i a) (S m) (s - a)).
    assert (D : forall s, a <= s <= b -> is_derive F s (g 1%nat s - tpoly (fun i => g (S i) a) m (s - a))).
    { intros s Hs. unfold F. apply (is_derive_minus (K := R_AbsRing) (V := R_NormedModule)); [apply Hd; [lia|exact Hs]|].
      refine (is_derive_eq _ _ _ _ (is_derive_Rchain (fun x => tpoly (fun i => g i a) (S m) x) (fun s => s - a) s _ 1 (tpoly_derive _ m _) _) _).
      - auto_derive; [exact I|ring].
      - match goal with |- ?a = ?b => change (@eq RR a b) end. ring. }
    apply (grow_bound F _ a b L m Hab D); [| |exact HL].
    + intros s Hs. apply (IH (fun i => g (S i)) a s L); [lra|exact HL| |].
      * intros i u Hi Hu. apply Hd; [lia|lra].
      * intros u Hu. apply Hb. lra.
    + unfold F. replace (a - a) with 0 by ring. rewrite (tpoly_0 (fun i => g i a)). ring.
Qed.

Section Along.
  Context {J : Type}.
  Variables (f : RR -> vec J -> vec J) (y : RR -> vec J) (T delta L : RR) (n : nat) (d : nat -> RR -> vec J) (A : nat -> RR -> vec J -> vec J).
  Hypothesis (HT : 0 < T) (Hdelta : 0 < delta) (HL : 0 <= L) (Hs : smooth_with f y T delta L n d A).

  Definition fam := RR -> RR -> vec J.
  Definition O (k : nat) (X : fam) : Prop :=
    exists C h1, 0 <= C /\ 0 < h1 <= 1 /\ forall t h, 0 <= t -> 0 <= h <= h1 -> t + h <= T -> below (C * h ^ k) (X t h).
  Definition oplus (X Y : fam) : fam := fun t h j => X t h j + Y t h j.
  Definition oscal (c : RR) (X : fam) : fam := fun t h j => c * X t h j.
  Definition oh (X : fam) : fam := fun t h j => h * X t h j.

  Lemma O_ext k X Y : (forall t h j, 0 <= t -> 0 <= h -> t + h <= T -> X t h j = Y t h j) -> O k X -> O k Y.
  Proof. intros E (C & h1 & HC & H1 & H). exists C, h1. split; [exact HC|]. split; [exact H1|]. intros t h Ht Hh Hth j. rewrite <- E by lra. apply H; assumption. Qed.
  Lemma O_plus k X Y : O k X -> O k Y -> O k (oplus X Y).
  Proof.
    intros (C & h1 & HC & H1 & H) (C' & h1' & HC' & H1' & H'). exists (C + C'), (Rmin h1 h1'). pose proof (Rmin_l h1 h1') as M1. pose proof (Rmin_r h1 h1') as M2.
    split; [lra|]. split; [split; [apply Rmin_glb_lt; lra|lra]|]. intros t h Ht Hh Hth j. unfold oplus. rewrite Rmult_plus_distr_r.
    eapply Rle_trans; [apply Rabs_triang|]. apply Rplus_le_compat; [apply H|apply H']; lra.
  Qed.
  Lemma O_scal k c X : O k X -> O k (oscal c X).
  Proof.
    intros (C & h1 & HC & H1 & H). exists (Rabs c * C), h1. split; [apply Rmult_le_pos; [apply Rabs_pos|exact HC]|]. split; [exact H1|].
    intros t h Ht Hh Hth j. unfold oscal. rewrite Rabs_mult, Rmult_assoc. apply Rmult_le_compat_l; [apply Rabs_pos|]. apply H; assumption.
  Qed.
  Lemma O_h k X : O k X -> O (S k) (oh X).
  Proof.
    intros (C & h1 & HC & H1 & H). exists C, h1. split; [exact HC|]. split; [exact H1|]. intros t h Ht Hh Hth j. unfold oh. rewrite <- tech_pow_Rmult.
    rewrite Rabs_mult, (Rabs_right h) by lra. replace (C * (h * h ^ k)) with (h * (C * h ^ k)) by ring. apply Rmult_le_compat_l; [lra|]. apply H; assumption.
  Qed.
  Lemma O_le k k' X : (k' <= k)%nat -> O k X -> O k' X.
  Proof.
    intros Hk (C & h1 & HC & H1 & H). exists C, h1. split; [exact HC|]. split; [exact H1|]. intros t h Ht Hh Hth j. eapply Rle_trans; [apply H; assumption|].
    apply Rmult_le_compat_l; [exact HC|]. replace k with (k' + (k - k'))%nat by lia. rewrite pow_add. rewrite <- (Rmult_1_r (h ^ k')) at 2.
    apply Rmult_le_compat_l; [apply pow_le; lra|]. rewrite <- (pow1 (k - k')). apply pow_incr. lra.
  Qed.
  Lemma O_zero k : O k (fun _ _ _ => 0).
  Proof. exists 0, 1. split; [lra|]. split; [lra|]. intros t h _ _ _ j. rewrite Rabs_R0. lra. Qed.
  (** Bounded: the derivatives at t. *)
  Lemma O_d i : (i <= n)%nat -> O 0 (fun t _ => d i t).
  Proof. intros Hi. exists L, 1. split; [exact HL|]. split; [lra|]. intros t h Ht Hh Hth j. cbn [pow]. rewrite Rmult_1_r. apply (s_bound _ _ _ _ _ _ _ _ Hs i t Hi). lra. Qed.
  Lemma O_A i k c X : (i <= n - 4)%nat -> 0 <= c <= 1 -> O k X -> O k (fun t h => A i (t + c * h) (X t h)).
  Proof.
    intros Hi Hc (C & h1 & HC & H1 & H). exists (L * C), h1. split; [apply Rmult_le_pos; assumption|]. split; [exact H1|]. intros t h Ht Hh Hth.
    rewrite Rmult_assoc. apply (s_Abound _ _ _ _ _ _ _ _ Hs); [exact Hi| |apply H; assumption]. split; [nra|]. assert (c * h <= h) by nra. lra.
  Qed.
  (** Remainders of Taylor's formula. *)
  Definition drem (i m : nat) (c : RR) : fam := fun t h j => d i (t + c * h) j - tpoly (fun l => d (i + l)%nat t j) m (c * h).
  Lemma O_drem i m c : (i + m <= n)%nat -> 0 <= c <= 1 -> O m (drem i m c).
  Proof.
    intros Hi Hc. exists L, 1. split; [exact HL|]. split; [lra|]. intros t h Ht Hh Hth j. unfold drem.
    assert (B : 0 <= c * h <= h) by (split; nra).
    pose proof (taylor_bound m (fun l s => d (i + l)%nat s j) t (t + c * h) L ltac:(lra) HL) as Q.
    replace (t + c * h - t) with (c * h) in Q by ring. replace (i + 0)%nat with i in Q by lia. eapply Rle_trans; [apply Q|].
    - intros l s Hl Hsl. replace (i + S l)%nat with (S (i + l)) by lia. apply (s_der _ _ _ _ _ _ _ _ Hs); [lia|lra].
    - intros s Hsl. apply (s_bound _ _ _ _ _ _ _ _ Hs); [lia|lra].
    - apply Rmult_le_compat_l; [exact HL|]. apply pow_incr. lra.
  Qed.
  Definition Arem (m : nat) (c : RR) (X : fam) : fam := fun t h j => A 0 (t + c * h) (X t h) j - tpoly (fun l => A l t (X t h) j) m (c * h).
  Lemma O_Arem m c k X : (m <= n - 4)%nat -> 0 <= c <= 1 -> O k X -> O (m + k) (Arem m c X).
  Proof.
    intros Hm Hc (C & h1 & HC & H1 & H). exists (L * C), h1. split; [apply Rmult_le_pos; assumption|]. split; [exact H1|]. intros t h Ht Hh Hth j. unfold Arem.
    assert (B : 0 <= c * h <= h) by (split; nra). assert (HP : 0 <= C * h ^ k) by (apply Rmult_le_pos; [exact HC|apply pow_le; lra]).
    pose proof (taylor_bound m (fun l s => A l s (X t h) j) t (t + c * h) (L * (C * h ^ k)) ltac:(lra) ltac:(apply Rmult_le_pos; assumption)) as Q.
    replace (t + c * h - t) with (c * h) in Q by ring. eapply Rle_trans; [apply Q|].
    - intros l s Hl Hsl. apply (s_Ader _ _ _ _ _ _ _ _ Hs); [lia|lra].
    - intros s Hsl. apply (s_Abound _ _ _ _ _ _ _ _ Hs); [lia|lra|]. apply H; assumption.
    - rewrite pow_add. replace (L * C * (h ^ m * h ^ k)) with (L * (C * h ^ k) * h ^ m) by ring. apply Rmult_le_compat_l; [apply Rmult_le_pos; assumption|]. apply pow_incr. lra.
  Qed.
  (** The field at a point near the solution. *)
  Definition frem (c : RR) (X : fam) : fam := fun t h j =>
    f (t + c * h) (fun i => y (t + c * h) i + X t h i) j - d 1%nat (t + c * h) j - A 0%nat (t + c * h) (X t h) j.
  Lemma O_frem c k X : (0 < k)%nat -> 0 <= c <= 1 -> O k X -> O (k + k) (frem c X).
  Proof.
    intros Hk Hc (C & h1 & HC & H1 & H).
    assert (Hq : 0 < delta / (C + 1)) by (apply Rdiv_lt_0_compat; lra).
    exists (L * C ^ 2), (Rmin h1 (delta / (C + 1))). pose proof (Rmin_l h1 (delta / (C + 1))) as M1. pose proof (Rmin_r h1 (delta / (C + 1))) as M2.
    split; [apply Rmult_le_pos; [exact HL|apply pow2_ge_0]|]. split; [split; [apply Rmin_glb_lt; lra|lra]|]. intros t h Ht Hh Hth j. unfold frem.
    assert (B : 0 <= c * h <= h) by (split; nra).
    rewrite (s_d1 _ _ _ _ _ _ _ _ Hs) by lra.
    replace (L * C ^ 2 * h ^ (k + k)) with (L * (C * h ^ k) ^ 2) by (rewrite pow_add; ring).
    apply (s_quad _ _ _ _ _ _ _ _ Hs); [lra| |apply H; lra].
    assert (h ^ k <= h). { destruct k as [|k]; [lia|]. rewrite <- tech_pow_Rmult. apply Rle_trans with (h * 1); [|lra]. apply Rmult_le_compat_l; [lra|]. rewrite <- (pow1 k). apply pow_incr. lra. }
    apply Rle_trans with (C * (delta / (C + 1))). { apply Rmult_le_compat_l; [exact HC|lra]. }
    assert (C * (delta / (C + 1)) = delta - delta / (C + 1)) by (field; lra). lra.
  Qed.
End Along.
