From Coq Require Import Reals Lra List Arith Bool Lia.
Import ListNotations.
From Verif.Model Require Import InterpRZ.
From Verif.Spec Require Import InterpSpec.
Open Scope R_scope.
Notation RR := RbaseSymbolsImpl.R (only parsing).

Fixpoint pick {A} (m : list bool) (l k : list A) : list A :=
  match m, l, k with b :: m', a :: l', c :: k' => (if b then a else c) :: pick m' l' k' | _, _, _ => [] end.
Lemma zip_length {A B C} (f : A -> B -> C) l : forall k, length l = length k -> length (zip f l k) = length l.
Proof. induction l; destruct k; simpl; intros H; try discriminate; auto. Qed.
Lemma zip_nth {A B C} (f : A -> B -> C) l : forall k i a b c, length l = length k -> (i < length l)%nat -> nth i (zip f l k) c = f (nth i l a) (nth i k b).
Proof.
  induction l; destruct k; simpl; intros i a' b' c' H L; try discriminate; [lia|]. destruct i; simpl; auto. apply IHl; [injection H; auto|lia].
Qed.
Lemma zip_gather {A B C} (f : A -> B -> C) m : forall l k, length m = length l -> length l = length k -> zip f (gather m l) (gather m k) = gather m (zip f l k).
Proof.
  induction m as [|b m IH]; destruct l, k; simpl; intros H K; try discriminate; auto. injection H; injection K; intros. destruct b; simpl; rewrite IH; auto.
Qed.
Lemma scatter_pick {A} (m : list bool) : forall junk (l k : list A), length m = length junk -> length m = length l -> length m = length k ->
  scatter (List.map negb m) (scatter m junk (gather m l)) (gather (List.map negb m) k) = pick m l k.
Proof.
  induction m as [|b m IH]; destruct junk, l, k; simpl; intros H K L; try discriminate; auto.
  injection H; injection K; injection L; intros. destruct b; simpl; rewrite IH; auto.
Qed.
Lemma scatter_none {A} m : forall out vals : list A, any m = false -> scatter m out vals = out.
Proof.
  induction m as [|b m IH]; destruct out; simpl; auto. intros vals H. apply orb_false_iff in H as [Hb H]. subst b. rewrite IH; auto.
Qed.
Lemma scatter_any {A} m (out vals : list A) : (if any m then scatter m out vals else out) = scatter m out vals.
Proof. destruct (any m) eqn:E; auto. symmetry. apply scatter_none; auto. Qed.
Lemma pick_zip {A B C} (t : A -> B -> bool) (f g : A -> B -> C) l : forall k, length l = length k ->
  pick (zip t l k) (zip f l k) (zip g l k) = zip (fun a b => if t a b then f a b else g a b) l k.
Proof. induction l; destruct k; simpl; intros H; try discriminate; auto. injection H; intros. rewrite IHl; auto. Qed.

Section Eval.
  Variable G : grid.
  Lemma core_is interp inner orig junk Rs zs t : length Rs = length zs -> length junk = length Rs ->
    core G interp inner orig junk Rs zs t = zip (fun R z => if interp && in_grid G R z then inner (sarg G R) z else orig R z 0) Rs zs.
  Proof.
    intros H J. unfold core. destruct interp; simpl.
    2:{ reflexivity. }
    assert (L : length (zip (in_grid G) Rs zs) = length Rs) by (apply zip_length; auto).
    assert (Ln : length (List.map negb (zip (in_grid G) Rs zs)) = length Rs) by (rewrite map_length; auto).
    rewrite !scatter_any, !zip_gather by (auto; congruence).
    rewrite scatter_pick by (rewrite ?zip_length; congruence). apply pick_zip; auto.
  Qed.
  Lemma map_zip_l {A B C} (f : A -> B -> C) a (l : list B) : forall k : list A, length k = length l -> zip f (List.map (fun _ => a) k) l = List.map (f a) l.
  Proof. induction l; destruct k; simpl; intros H; try discriminate; auto. injection H; intros; rewrite IHl; auto. Qed.
  Definition val (odd interp : bool) inner (orig : RR -> RR -> RR -> RR) (R z : RR) : RR :=
    let h := if zsym G then Rabs z else z in
    (if odd && zsym G then sign1 z else 1) * (if interp && in_grid G R h then inner (sarg G R) h else orig R h 0).
  Lemma zip_map_r {A B B' C} (f : A -> B -> C) (h : B' -> B) l : forall k, zip f l (List.map h k) = zip (fun a b => f a (h b)) l k.
  Proof. induction l; destruct k; simpl; auto. rewrite IHl; auto. Qed.
  Lemma zip_sign (f : RR -> RR -> RR) Rs : forall zs, zip Rmult (List.map sign1 zs) (zip f Rs zs) = zip (fun R z => sign1 z * f R z) Rs zs.
  Proof.
    induction Rs; destruct zs; simpl; auto. f_equal; auto.
  Qed.
  Lemma zip_ext {A B C} (f g : A -> B -> C) l : forall k, (forall a b, f a b = g a b) -> zip f l k = zip g l k.
  Proof. induction l; destruct k; simpl; intros H; auto. rewrite H, (IHl k); auto. Qed.
  Lemma wrap_is odd interp inner orig junk Rs zs t : length Rs = length zs -> length junk = length Rs ->
    zsym_wrap G odd (core G interp inner orig junk) Rs zs t = zip (val odd interp inner orig) Rs zs.
  Proof.
    intros H J. unfold zsym_wrap, val. destruct (zsym G).
    - rewrite core_is by (rewrite ?map_length; auto). rewrite zip_map_r, andb_true_r. destruct odd.
      + apply zip_sign.
      + apply zip_ext. intros; symmetry; apply Rmult_1_l.
    - rewrite core_is by auto. rewrite andb_false_r. apply zip_ext. intros; symmetry; apply Rmult_1_l.
  Qed.
  Lemma leb_iff a b : leb a b = true <-> a <= b.
  Proof. unfold leb. destruct (Rle_dec a b); split; auto; discriminate. Qed.
  Lemma in_grid_iff R z : in_grid G R z = true <-> inside G R z.
  Proof. unfold in_grid, inside. rewrite !andb_true_iff, !leb_iff. tauto. Qed.
  Lemma val_is odd interp inner orig R z : is_value G odd interp inner (fun R z => orig R z 0) R z (val odd interp inner orig R z).
  Proof.
    unfold is_value, val, sign1. cbv zeta. split.
    - intros -> I. apply in_grid_iff in I. rewrite I. reflexivity.
    - intros I. assert (E : interp && in_grid G R (if zsym G then Rabs z else z) = false).
      { apply andb_false_iff. destruct I as [I|I]; [auto|right]. apply not_true_is_false. rewrite in_grid_iff. exact I. }
      rewrite E. reflexivity.
  Qed.
  Lemma sv_is f func R z t n : shape R z = Some n ->
    (forall Rs zs, length Rs = n -> length zs = n -> func Rs zs t = zip f Rs zs) -> returns R z n (fun i v => v = f (at_ R i) (at_ z i)) (sv_wrap func R z t).
  Proof.
    intros S F. destruct R as [R|Rs], z as [z|zs]; unfold returns; simpl in *.
    - injection S as <-. rewrite F by auto. simpl. eexists; split; reflexivity.
    - injection S as <-. rewrite F by (rewrite ?map_length; auto). eexists; split; [reflexivity|]. rewrite zip_length by (rewrite map_length; auto). rewrite map_length. split; auto.
      intros i L. rewrite zip_nth with (a := R * 1) (b := 0) by (rewrite ?map_length; auto). rewrite (map_nth (fun _ => R * 1) zs 0). f_equal. apply Rmult_1_r.
    - injection S as <-. rewrite F by (rewrite ?map_length; auto). eexists; split; [reflexivity|]. rewrite zip_length by (rewrite map_length; auto). split; auto.
      intros i L. rewrite zip_nth with (a := 0) (b := z * 1) by (rewrite ?map_length; auto). rewrite (map_nth (fun _ => z * 1) Rs 0). f_equal. apply Rmult_1_r.
    - destruct (Nat.eqb_spec (length Rs) (length zs)) as [E|]; [|discriminate]. injection S as <-. rewrite F by auto. eexists; split; [reflexivity|].
      rewrite zip_length by auto. split; auto. intros i L. apply zip_nth; auto.
  Qed.
  Lemma pass_is orig R z n : shape R z = Some n -> returns R z n (fun i v => v = orig (at_ R i) (at_ z i) 0) (pass orig R z).
  Proof.
    intros S. destruct R as [R|Rs], z as [z|zs]; unfold returns; simpl in *.
    - eexists; split; reflexivity.
    - injection S as <-. eexists; split; [reflexivity|]. rewrite map_length. split; auto. intros i L.
      rewrite nth_indep with (d' := (fun z => orig R z 0) 0) by (rewrite map_length; auto). rewrite (map_nth (fun z => orig R z 0)). auto.
    - injection S as <-. eexists; split; [reflexivity|]. rewrite map_length. split; auto. intros i L.
      rewrite nth_indep with (d' := (fun R => orig R z 0) 0) by (rewrite map_length; auto). rewrite (map_nth (fun R => orig R z 0)). auto.
    - destruct (Nat.eqb_spec (length Rs) (length zs)) as [E|]; [|discriminate]. injection S as <-. eexists; split; [reflexivity|].
      rewrite zip_length by auto. split; auto. intros i L. rewrite zip_nth with (a := 0) (b := 0); auto.
  Qed.
  Lemma core1_is interp spl orig junk Rs : length junk = length Rs ->
    core1 G interp spl orig junk Rs = List.map (fun R => if interp && (leb (rlo G) R && leb R (rhi G)) then spl (sarg G R) else orig R) Rs.
  Proof.
    intros J. unfold core1. destruct interp; simpl; auto. rewrite !scatter_any.
    revert junk J. induction Rs as [|R Rs IH]; destruct junk; simpl; intros J; try discriminate; auto. injection J; intros J'.
    destruct (leb (rlo G) R && leb R (rhi G)); simpl; rewrite IH; auto.
  Qed.
End Eval.
Lemma returns_impl R z n (P Q : nat -> RR -> Prop) out : (forall i v, P i v -> Q i v) -> returns R z n P out -> returns R z n Q out.
Proof.
  intros H. unfold returns. destruct (is_scalar R z).
  - intros (v & E & K). exists v; auto.
  - intros (l & E & L & K). exists l; auto.
Qed.
