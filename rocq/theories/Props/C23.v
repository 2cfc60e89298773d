(** C23: indexing and reshaping an Orbit. *)
From Coq Require Import Reals List Arith Bool ZArith Lia Lra Sorted.
From Verif.Model Require Import OrbitState OrbitIndex.
From Verif.Proofs Require Import OrbitProofs EvalProofs.
Import ListNotations.
Open Scope nat_scope.

(** ** Specification *)
(** Where the entry with multi-index m lies in C order *)
Fixpoint ravel (sh m : list nat) : nat := match sh, m with _ :: sh, i :: m => i * prod sh + ravel sh m | _, _ => 0 end.
Definition valid_index (sh m : list nat) : Prop := List.Forall2 (fun n i => i < n) sh m.
(** A Python index of an axis of length n *)
Definition python_index (n : nat) (z : Z) (i : nat) : Prop := i < n /\ (z = Z.of_nat i \/ (z < 0 /\ z + Z.of_nat n = Z.of_nat i)%Z).
(** [source sh ks m' m]: the entry m' of a[ks] is the entry m of a *)
Inductive source : list nat -> list sel -> list nat -> list nat -> Prop :=
| source_end sh m : source sh [] m m
| source_at n sh z ks m' m i : python_index n z i -> source sh ks m' m -> source (n :: sh) (At z :: ks) m' (i :: m)
| source_slice n sh a b s ks m' m k i first step count : slice_range n a b s = Some (first, step, count) -> k < count -> Z.of_nat i = (first + Z.of_nat k * step)%Z ->
    source sh ks m' m -> source (n :: sh) (Slice a b s :: ks) (k :: m') (i :: m).
Inductive source_key : list nat -> key -> list nat -> list nat -> Prop :=
| source_basic sh ks m' m : source sh ks m' m -> source_key sh (Basic ks) m' m
| source_fancy n sh zs k i m : k < length zs -> python_index n (nth k zs 0%Z) i -> source_key (n :: sh) (Fancy zs) (k :: m) (i :: m)
| source_mask n sh bs k i m : nth i bs false = true -> length (filter (fun b => b) (firstn i bs)) = k -> source_key (n :: sh) (Mask bs) (k :: m) (i :: m).
(** What belongs to one member *)
Record member_data (name : Type) := mkMember { m_point : point; m_times : option (list R); m_path : option (list point); m_name : option name }.
Arguments mkMember {name}.
Definition member {pot cache name} (d : name) (o : orbits pot cache name) (m : list nat) : member_data name :=
  let i := ravel (shape o) m in
  mkMember (nth i (vxvv (core o)) []) (option_map (fun T => times_of T i) (t_ (core o))) (option_map (fun rows => nth i rows []) (orbit_ (core o)))
           (option_map (fun ns => nth i ns d) (names o)).
(** As many members as the shape says; integrated or not *)
Definition consistent {pot cache name} (o : orbits pot cache name) : Prop :=
  length (vxvv (core o)) = prod (shape o) /\
  (orbit_ (core o) = None -> t_ (core o) = None).

(** ** Proofs *)
Open Scope nat_scope.
Lemma block_nth {A} size i j (l : list A) d : j < size -> nth j (block size i l) d = nth (i * size + j) l d.
Proof.
  intros H. unfold block.
  assert (F : forall n (l : list A) j, j < n -> nth j (firstn n l) d = nth j l d).
  { induction n as [|n IH]; intros m k Hk; [lia|]. destruct m as [|x m]; [easy|]. destruct k; [easy|]. cbn. apply IH. lia. }
  assert (S : forall n (l : list A) j, nth j (skipn n l) d = nth (n + j) l d).
  { induction n as [|n IH]; intros m k; [easy|]. destruct m as [|x m]; [now destruct k|]. cbn. apply IH. }
  rewrite F by easy. apply S.
Qed.
Lemma block_length {A} size n i (l : list A) : length l = n * size -> i < n -> length (block size i l) = size.
Proof. intros L H. unfold block. rewrite firstn_length, skipn_length, L. assert ((i + 1) * size <= n * size) by (apply Nat.mul_le_mono_r; lia). lia. Qed.
Lemma concat_length_const {A} size (ls : list (list A)) : (forall x, In x ls -> length x = size) -> length (concat ls) = length ls * size.
Proof. induction ls as [|x ls IH]; intros H; [easy|]. cbn [concat]. rewrite app_length, IH by (intros; apply H; now right). rewrite (H x) by now left. cbn. lia. Qed.
Lemma concat_nth_const {A} size (ls : list (list A)) k j d : (forall x, In x ls -> length x = size) -> k < length ls -> j < size ->
  nth (k * size + j) (concat ls) d = nth j (nth k ls []) d.
Proof.
  revert k. induction ls as [|x ls IH]; intros k H Hk Hj; [cbn in Hk; lia|]. cbn [concat]. assert (Lx := H x (or_introl eq_refl)). destruct k as [|k].
  - cbn [Nat.mul Nat.add nth]. apply app_nth1. lia.
  - rewrite app_nth2 by lia. replace (S k * size + j - length x) with (k * size + j) by lia. cbn [nth]. apply IH; [intros; apply H; now right|cbn in Hk; lia|easy].
Qed.
Lemma ravel_bound sh m : valid_index sh m -> ravel sh m < prod sh.
Proof.
  induction 1 as [|n i sh m Hi Hm IH]; cbn; [lia|]. change (fold_right Nat.mul 1 sh) with (prod sh).
  assert ((i + 1) * prod sh <= n * prod sh) by (apply Nat.mul_le_mono_r; lia). lia.
Qed.
Lemma norm_index_spec n z i : norm_index n z = Some i -> python_index n z i.
Proof.
  unfold norm_index. destruct (z <? 0)%Z eqn:E; (destruct (_ && _) eqn:B; [|discriminate]); intros [= <-]; apply andb_prop in B as [B1 B2];
    apply Z.leb_le in B1; apply Z.ltb_lt in B2; [apply Z.ltb_lt in E|apply Z.ltb_ge in E]; unfold python_index; rewrite ?Z2Nat.id by lia; split; lia.
Qed.
Lemma slice_range_bound n a b s first step count k : slice_range n a b s = Some (first, step, count) -> k < count -> (0 <= first + Z.of_nat k * step < Z.of_nat n)%Z.
Proof.
  unfold slice_range. set (st := match s with Some s => s | None => 1%Z end). destruct (st =? 0)%Z eqn:E0; [discriminate|]. apply Z.eqb_neq in E0.
  cbv zeta. set (N := Z.of_nat n). assert (HN : (0 <= N)%Z) by (unfold N; lia).
  set (fa := match a with Some _ => _ | None => _ end). set (fb := match b with Some _ => _ | None => _ end).
  intros H Hk. assert (first = fa /\ step = st /\ count = Z.to_nat (if (0 <? st)%Z then (fb - fa + st - 1) / st else (fa - fb - st - 1) / - st)%Z) as (-> & -> & ->).
  { injection H. auto. } clear H.
  destruct (0 <? st)%Z eqn:E.
  - apply Z.ltb_lt in E. assert (Ba : (0 <= fa <= N)%Z) by (unfold fa, clamp; destruct a; lia). assert (Bb : (0 <= fb <= N)%Z) by (unfold fb, clamp; destruct b; lia).
    clearbody fa fb st N. set (q := ((fb - fa + st - 1) / st)%Z) in *. assert (Hq : (q * st <= fb - fa + st - 1)%Z) by (unfold q; rewrite Z.mul_comm; now apply Z.mul_div_le).
    assert (Kq : (Z.of_nat k + 1 <= q)%Z) by lia. assert (((Z.of_nat k + 1) * st <= q * st)%Z) by (apply Z.mul_le_mono_nonneg_r; lia). nia.
  - apply Z.ltb_ge in E. assert (Ba : (-1 <= fa <= N - 1)%Z) by (unfold fa, clamp; destruct a; lia). assert (Bb : (-1 <= fb <= N - 1)%Z) by (unfold fb, clamp; destruct b; lia).
    clearbody fa fb st N. set (q := ((fa - fb - st - 1) / - st)%Z) in *. assert (Hq : (q * - st <= fa - fb - st - 1)%Z) by (unfold q; rewrite Z.mul_comm; apply Z.mul_div_le; lia).
    assert (Kq : (Z.of_nat k + 1 <= q)%Z) by lia. assert (((Z.of_nat k + 1) * - st <= q * - st)%Z) by (apply Z.mul_le_mono_nonneg_r; lia). nia.
Qed.
Lemma slice_positions_spec n a b s pos : slice_positions n a b s = Some pos ->
  exists first step count, slice_range n a b s = Some (first, step, count) /\ length pos = count /\
  forall k, k < count -> nth k pos 0 < n /\ Z.of_nat (nth k pos 0) = (first + Z.of_nat k * step)%Z.
Proof.
  unfold slice_positions. destruct (slice_range n a b s) as [[[first step] count]|] eqn:E; [|discriminate]. intros [= <-]. exists first, step, count.
  split; [easy|]. split; [now rewrite map_length, seq_length|]. intros k Hk. rewrite nth_map_seq by easy. pose proof (slice_range_bound n a b s first step count k E Hk). lia.
Qed.

(** Selecting along the first axis *)
Lemma select_first {A} n sh (l : list A) pos (f : list A -> list A) sh' d :
  length l = n * prod sh -> (forall i, In i pos -> i < n) ->
  (forall b, length b = prod sh -> length (f b) = prod sh') ->
  length (concat (map (fun i => f (block (prod sh) i l)) pos)) = length pos * prod sh' /\
  forall k m', k < length pos -> valid_index sh' m' ->
    nth (ravel (length pos :: sh') (k :: m')) (concat (map (fun i => f (block (prod sh) i l)) pos)) d = nth (ravel sh' m') (f (block (prod sh) (nth k pos 0) l)) d.
Proof.
  intros L HP Hf.
  assert (Hc : forall x, In x (map (fun i => f (block (prod sh) i l)) pos) -> length x = prod sh').
  { intros x Hx. apply in_map_iff in Hx as (i & <- & Hi). apply Hf. apply (block_length _ n); [easy|now apply HP]. }
  split; [rewrite (concat_length_const (prod sh')) by easy; now rewrite map_length|].
  intros k m' Hk Hm. cbn [ravel]. rewrite (concat_nth_const (prod sh')); [|easy|now rewrite map_length|now apply ravel_bound].
  now rewrite (nth_map_d _ pos k 0).
Qed.
Lemma index_flat_spec {A} (d : A) ks : forall sh sh' (l : list A), length l = prod sh -> index_shape sh ks = Ok sh' ->
  length (index_flat sh ks l) = prod sh' /\
  forall m', valid_index sh' m' -> exists m, source sh ks m' m /\ valid_index sh m /\ nth (ravel sh' m') (index_flat sh ks l) d = nth (ravel sh m) l d.
Proof.
  induction ks as [|k ks IH]; intros sh sh' l L E.
  { assert (sh' = sh) as -> by (destruct sh; cbn in E; now injection E). assert (index_flat sh [] l = l) as -> by now destruct sh.
    split; [easy|]. intros m Hm. exists m. split; [constructor|easy]. }
  destruct sh as [|n sh]; [discriminate|]. destruct k as [z|a b s]; cbn [index_shape index_flat] in *.
  - destruct (norm_index n z) as [i|] eqn:En; [|discriminate]. apply norm_index_spec in En. pose proof (proj1 En) as Hi.
    assert (Lb : length (block (prod sh) i l) = prod sh) by (apply (block_length _ n); easy).
    destruct (IH sh sh' (block (prod sh) i l) Lb E) as [I1 I2]. split; [easy|]. intros m' Hm. destruct (I2 m' Hm) as (m & S & V & Eq).
    exists (i :: m). split; [now constructor|]. split; [now constructor|]. rewrite Eq. apply block_nth. now apply ravel_bound.
  - destruct (slice_positions n a b s) as [pos|] eqn:Ep; [|discriminate]. destruct (slice_positions_spec n a b s pos Ep) as (first & step & count & Er & Lc & Hp).
    destruct (index_shape sh ks) as [sh2| | | | | |] eqn:E2; try discriminate. injection E as <-.
    assert (HP : forall i, In i pos -> i < n).
    { intros i Hi. destruct (In_nth _ _ 0 Hi) as (k & Hk & <-). apply Hp. lia. }
    destruct (select_first n sh l pos (index_flat sh ks) sh2 d L HP (fun b Hb => proj1 (IH sh sh2 b Hb E2))) as [S1 S2]. split; [exact S1|].
    intros m' Hm. inversion Hm as [|? k ? m2 Hk Hm2]; subst. rewrite S2 by easy.
    assert (Hi : nth k pos 0 < n) by (apply HP; now apply nth_In).
    assert (Lb : length (block (prod sh) (nth k pos 0) l) = prod sh) by (apply (block_length _ n); easy).
    destruct (IH sh sh2 _ Lb E2) as [_ I2]. destruct (I2 m2 Hm2) as (m & S & V & Eq). exists (nth k pos 0 :: m).
    split; [apply (source_slice n sh a b s ks m2 m k (nth k pos 0) first step (length pos)); auto; now apply Hp|]. split; [now constructor|].
    rewrite Eq. apply block_nth. now apply ravel_bound.
Qed.
Lemma where_true_spec bs : forall i k, k < length (where_true i bs) ->
  exists j, nth k (where_true i bs) 0 = i + j /\ j < length bs /\ nth j bs false = true /\ length (filter (fun b => b) (firstn j bs)) = k.
Proof.
  induction bs as [|b bs IH]; intros i k Hk; [cbn in Hk; lia|]. cbn [where_true] in *. destruct b; cbn [app] in *.
  - destruct k as [|k]; [exists 0; cbn; repeat split; lia|]. cbn [length] in Hk. destruct (IH (S i) k ltac:(lia)) as (j & E & L & T & C). exists (S j). cbn. rewrite E, C. repeat split; auto; lia.
  - destruct (IH (S i) k Hk) as (j & E & L & T & C). exists (S j). cbn. rewrite E. repeat split; auto; lia.
Qed.
Lemma index_spec {A} (d : A) sh k sh' (l l' : list A) : length l = prod sh -> index sh k l = Ok (sh', l') ->
  length l' = prod sh' /\
  forall m', valid_index sh' m' -> exists m, source_key sh k m' m /\ valid_index sh m /\ nth (ravel sh' m') l' d = nth (ravel sh m) l d.
Proof.
  intros L E. destruct k as [ks|zs|bs]; cbn [index] in E.
  - destruct (index_shape sh ks) as [s2| | | | | |] eqn:E2; try discriminate. injection E as <- <-. destruct (index_flat_spec d ks sh s2 l L E2) as [I1 I2].
    split; [easy|]. intros m' Hm. destruct (I2 m' Hm) as (m & S & V & Eq). exists m. split; [now constructor|easy].
  - destruct sh as [|n sh]; [discriminate|]. destruct (all_some (map (norm_index n) zs)) as [pos|] eqn:Ea; [|discriminate]. injection E as <- <-.
    destruct (all_some_map _ _ _ Ea) as [Lp Np].
    assert (HP : forall i, In i pos -> i < n).
    { intros i Hi. destruct (In_nth _ _ 0 Hi) as (k & Hk & <-). rewrite Lp in Hk. pose proof (Np k (nth k zs 0%Z) 0 (nth_error_nth' zs 0%Z Hk)) as Ek.
      now apply norm_index_spec in Ek as [? _]. }
    destruct (select_first n sh l pos (fun x => x) sh d L HP ltac:(easy)) as [S1 S2]. split; [exact S1|].
    intros m' Hm. inversion Hm as [|? k ? m Hk Hm2]; subst. rewrite S2 by easy. exists (nth k pos 0 :: m). assert (Hi : nth k pos 0 < n) by (apply HP; now apply nth_In).
    split; [|split; [now constructor|apply block_nth; now apply ravel_bound]]. rewrite Lp in Hk. constructor; [easy|]. apply norm_index_spec, Np. now apply nth_error_nth'.
  - destruct sh as [|n sh]; [discriminate|]. destruct (length bs =? n) eqn:En; [|discriminate]. apply Nat.eqb_eq in En. cbv zeta in E.
    set (pos := where_true 0 bs) in *. injection E as <- <-.
    assert (HP : forall i, In i pos -> i < n).
    { intros i Hi. destruct (In_nth _ _ 0 Hi) as (k & Hk & <-). destruct (where_true_spec bs 0 k Hk) as (j & Ej & Lj & _). fold pos in Ej. lia. }
    destruct (select_first n sh l pos (fun x => x) sh d L HP ltac:(easy)) as [S1 S2]. split; [exact S1|].
    intros m' Hm. inversion Hm as [|? k ? m Hk Hm2]; subst. rewrite S2 by easy. exists (nth k pos 0 :: m). assert (Hi : nth k pos 0 < length bs) by (apply HP; now apply nth_In).
    split; [|split; [now constructor|apply block_nth; now apply ravel_bound]]. destruct (where_true_spec bs 0 k Hk) as (j & Ej & Lj & T & C). fold pos in Ej. rewrite Ej. now constructor.
Qed.
Lemma nth_take {A} (l : list A) d d' idx k : k < length idx -> nth k (take l d idx) d' = nth (nth k idx 0) l d.
Proof. intros H. unfold take. now rewrite (nth_map_d _ idx k 0). Qed.

(** Every member of o[key] is the member of o that the key designates: its point, its times, its trajectory and its name; and o[key] has as many members as
    its shape says *)
Theorem C23_getitem {pot cache name : Type} (d : name) (o o' : orbits pot cache name) k :
  consistent o -> getitem d o k = Ok o' ->
  length (vxvv (core o')) = prod (shape o') /\
  forall m', valid_index (shape o') m' -> exists m, source_key (shape o) k m' m /\ valid_index (shape o) m /\ member d o' m' = member d o m.
Proof.
  intros [L HT] E. unfold getitem in E. destruct (index _ _ _) as [[sh' idx]| | | | | |] eqn:Ei; try discriminate. injection E as <-. cbn [core shape].
  assert (Ls : length (seq 0 (length (vxvv (core o)))) = prod (shape o)) by (now rewrite seq_length).
  destruct (index_spec 0 (shape o) k sh' _ idx Ls Ei) as [I1 I2].
  split. { unfold select. destruct (orbit_ (core o)); cbn; unfold take; now rewrite map_length. }
  intros m' Hm. destruct (I2 m' Hm) as (m & S & V & Eq). exists m. split; [easy|]. split; [easy|].
  pose proof (ravel_bound _ _ Hm) as B'. pose proof (ravel_bound _ _ V) as B.
  rewrite seq_nth in Eq by lia. cbn [Nat.add] in Eq. unfold member. cbn [shape core names]. rewrite <- I1 in B'.
  set (r' := ravel sh' m') in *. set (r := ravel (shape o) m) in *.
  f_equal.
  - unfold select. destruct (orbit_ (core o)); cbn [vxvv fresh]; rewrite nth_take by easy; now rewrite Eq.
  - unfold select. destruct (orbit_ (core o)) as [rows|] eqn:Eo; cbn [t_ fresh].
    + destruct (t_ (core o)) as [[ts|tss]|]; cbn [option_map times_of]; try easy. rewrite nth_take by easy. now rewrite Eq.
    + now rewrite (HT eq_refl).
  - unfold select. destruct (orbit_ (core o)) as [rows|] eqn:Eo; cbn [orbit_ fresh option_map]; [|easy]. rewrite nth_take by easy. now rewrite Eq.
  - destruct (names o); cbn [option_map]; [|easy]. rewrite nth_take by easy. now rewrite Eq.
Qed.
Print Assumptions C23_getitem.

(** Integers out of range and too many indices are refused; everything else succeeds *)
Definition well_formed_key (sh : list nat) (k : key) : Prop :=
  match k with
  | Basic ks => length ks <= length sh /\ (forall i z, nth_error ks i = Some (At z) -> exists j, python_index (nth i sh 0) z j) /\
                forall i a b s, nth_error ks i = Some (Slice a b s) -> s <> Some 0%Z
  | Fancy zs => sh <> [] /\ forall z, In z zs -> exists j, python_index (nth 0 sh 0) z j
  | Mask bs => sh <> [] /\ length bs = nth 0 sh 0
  end.
Lemma norm_index_some n z j : python_index n z j -> norm_index n z = Some j.
Proof.
  intros [H1 H2]. unfold norm_index. destruct H2 as [->|[H2 H3]].
  - destruct (Z.of_nat j <? 0)%Z eqn:E; [apply Z.ltb_lt in E; lia|]. assert ((0 <=? Z.of_nat j)%Z && (Z.of_nat j <? Z.of_nat n)%Z = true) as ->.
    { apply andb_true_intro. split; [apply Z.leb_le|apply Z.ltb_lt]; lia. } f_equal. lia.
  - apply Z.ltb_lt in H2. rewrite H2, H3. assert ((0 <=? Z.of_nat j)%Z && (Z.of_nat j <? Z.of_nat n)%Z = true) as ->.
    { apply andb_true_intro. split; [apply Z.leb_le|apply Z.ltb_lt]; lia. } f_equal. lia.
Qed.
Lemma slice_positions_some n a b s : s <> Some 0%Z <-> exists pos, slice_positions n a b s = Some pos.
Proof.
  unfold slice_positions, slice_range. destruct s as [s|].
  - destruct (s =? 0)%Z eqn:E; [apply Z.eqb_eq in E; subst; split; [congruence|intros [? ?]; discriminate]|]. cbv zeta. split; [eauto|]. intros _ [= ->]. discriminate.
  - cbv zeta. cbn. split; [eauto|easy].
Qed.
Lemma index_shape_ok ks : forall sh, well_formed_key sh (Basic ks) <-> exists sh', index_shape sh ks = Ok sh'.
Proof.
  induction ks as [|k ks IH]; intros sh.
  { split; [intros _; exists sh; now destruct sh|]. intros _. split; [cbn; lia|]. split; intros i; destruct i; discriminate. }
  destruct sh as [|n sh]; [split; [intros [H _]; cbn in H; lia|intros [? ?]; discriminate]|].
  assert (W : well_formed_key (n :: sh) (Basic (k :: ks)) <->
    match k with At z => exists j, python_index n z j | Slice _ _ s => s <> Some 0%Z end /\ well_formed_key sh (Basic ks)).
  { split.
    - intros (A & B & C). split; [destruct k; [now apply (B 0)|now apply (C 0 start stop)]|]. split; [cbn in A; lia|]. split; [intros i; apply (B (S i))|intros i; apply (C (S i))].
    - intros (H & A & B & C). split; [cbn; lia|]. split.
      + intros [|i] z E; [injection E as ->; exact H|now apply B].
      + intros [|i] a b s E; [injection E as ->; exact H|now apply (C i a b)]. }
  rewrite W, IH. destruct k as [z|a b s]; cbn [index_shape].
  - split.
    + intros [[j Hj] H]. now rewrite (norm_index_some n z j Hj).
    + destruct (norm_index n z) as [i|] eqn:E; [|intros [? ?]; discriminate]. intros H. split; [|easy]. exists i. now apply norm_index_spec.
  - rewrite (slice_positions_some n a b s). split.
    + intros [[pos ->] [sh' ->]]. eauto.
    + destruct (slice_positions n a b s) as [pos|]; [|intros [? ?]; discriminate]. destruct (index_shape sh ks); intros [? H]; try discriminate. eauto.
Qed.
Theorem C23_getitem_succeeds {pot cache name : Type} (d : name) (o : orbits pot cache name) k :
  well_formed_key (shape o) k <-> exists o', getitem d o k = Ok o'.
Proof.
  unfold getitem. assert (H : well_formed_key (shape o) k <-> exists x, index (shape o) k (seq 0 (length (vxvv (core o)))) = Ok x).
  { destruct k as [ks|zs|bs]; cbn [index].
    - rewrite (index_shape_ok ks (shape o)). split; [intros [sh' ->]; eauto|]. destruct (index_shape (shape o) ks); intros [? H]; try discriminate. eauto.
    - destruct (shape o) as [|n sh]; [split; [intros [H _]; easy|intros [? ?]; discriminate]|]. cbn [well_formed_key nth]. split.
      + intros [_ H]. destruct (all_some (map (norm_index n) zs)) eqn:E; [eauto|]. exfalso. revert E H. induction zs as [|z zs IH]; [easy|]. cbn [map all_some]. intros E H.
        destruct (H z (or_introl eq_refl)) as [j Hj]. rewrite (norm_index_some n z j Hj) in E. apply IH; [|intros; apply H; now right]. destruct (all_some _); [discriminate|easy].
      + destruct (all_some (map (norm_index n) zs)) as [pos|] eqn:E; [|intros [? ?]; discriminate]. intros _. split; [easy|]. intros z Hz.
        destruct (all_some_map _ _ _ E) as [_ Np]. apply (In_nth _ _ 0%Z) in Hz as (i & Hi & <-). exists (nth i pos 0). apply norm_index_spec, Np. now apply nth_error_nth'.
    - destruct (shape o) as [|n sh]; [split; [intros [H _]; easy|intros [? ?]; discriminate]|]. cbn [well_formed_key nth]. destruct (length bs =? n) eqn:E.
      + apply Nat.eqb_eq in E. cbv zeta. split; [eauto|]. now intros _.
      + apply Nat.eqb_neq in E. split; [intros [_ H]; easy|intros [? ?]; discriminate]. }
  rewrite H. split.
  - intros [[sh' idx] ->]. eauto.
  - destruct (index _ _ _) as [x| | | | | |]; intros [o' E]; try discriminate. eauto.
Qed.
Print Assumptions C23_getitem_succeeds.

(** reshape keeps the members in C order and everything else, or refuses and changes nothing *)
Theorem C23_reshape {pot cache name : Type} (d : name) (o : orbits pot cache name) sh : consistent o ->
  let o' := fst (reshape o sh) in
  core o' = core o /\ names o' = names o /\ ro o' = ro o /\ vo o' = vo o /\ zo o' = zo o /\ consistent o' /\
  (prod sh = prod (shape o) -> snd (reshape o sh) = Ok tt /\ shape o' = sh /\
     forall m m', ravel sh m' = ravel (shape o) m -> member d o' m' = member d o m) /\
  (prod sh <> prod (shape o) -> snd (reshape o sh) = ValueError /\ o' = o).
Proof.
  intros C o'. unfold o', reshape. destruct (prod sh =? prod (shape o)) eqn:E.
  - apply Nat.eqb_eq in E. cbn. repeat split; try easy.
    + change (length (vxvv (core o)) = prod sh). rewrite E. apply C.
    + apply C.
    + intros m m' Em. unfold member. cbn. now rewrite Em.
  - apply Nat.eqb_neq in E. cbn. repeat split; try easy; apply C.
Qed.
Print Assumptions C23_reshape.

(** Evaluating at stored times commutes with selecting members *)
Theorem C23_evaluation_commutes {pot : Type} spline (o : orb pot OrbitState.cache) ts rows idx r out :
  t_ o = Some (Shared ts) -> orbit_ o = Some rows -> (forall i, In i idx -> i < length rows) ->
  (r = Array ts \/ exists t, r = Scalar t /\ In t ts) ->
  snd (call_internal spline o r) = Ok out -> snd (call_internal spline (select o idx) r) = Ok (take out [] idx).
Proof.
  intros Et Eo Hi Hr E. unfold call_internal, select in *. rewrite Et, Eo in *. cbn [t_ orbit_].
  destruct Hr as [->|(t & -> & Ht)].
  - assert (list_eqb ts ts = true) as X by now apply list_eqb_spec. rewrite X in *. cbn [snd] in *. now injection E as <-.
  - destruct (index_of_in t ts Ht) as [k Ek]. rewrite Ek in *. cbn [option_map snd] in *. injection E as <-. f_equal. unfold take. rewrite map_map.
    apply map_ext_in. intros i Hin. rewrite (nth_map_d _ rows i []); [easy|now apply Hi].
Qed.
Print Assumptions C23_evaluation_commutes.

(** A 2 x 3 array of planar orbits, not integrated: o[1, ::-1] *)
Definition demo : orbits unit OrbitState.cache unit :=
  mkOrbits [2; 3] (fresh (map (fun k => [INR k; 0; 1; 0]%R) (seq 0 6))) None (One 8%R) (One 220%R) (One 0%R).
Example C23_nonvacuous : consistent demo /\ well_formed_key (shape demo) (Basic [At 1%Z; Slice None None (Some (-1)%Z)]) /\
  exists o', getitem tt demo (Basic [At 1%Z; Slice None None (Some (-1)%Z)]) = Ok o' /\ shape o' = [3] /\
  map (fun p => nth 0 p 0%R) (vxvv (core o')) = [INR 5; INR 4; INR 3].
Proof.
  split; [now split|]. split; [apply (C23_getitem_succeeds tt demo); eexists; vm_compute; reflexivity|].
  eexists. split; [reflexivity|]. split; reflexivity.
Qed.

(** ** Findings *)
(** Scales given per orbit are copied whole: the members of o[key] get the scale of other members *)
Theorem C23_scales_refuted : exists (o o' : orbits unit OrbitState.cache unit) k m' m,
  consistent o /\ getitem tt o k = Ok o' /\ source_key (shape o) k m' m /\ valid_index (shape o') m' /\
  scale_of (ro o') (ravel (shape o') m') <> scale_of (ro o) (ravel (shape o) m).
Proof.
  exists (mkOrbits [2] (fresh [[1; 0; 1]; [1; 0; 1]]%R) None (Each [8; 9]%R) (One 220%R) (One 0%R)). eexists. exists (Basic [Slice (Some 1%Z) None None]), [0], [1].
  split; [now split|]. split; [reflexivity|]. split.
  - constructor. apply (source_slice 2 [] (Some 1%Z) None None [] [] [] 0 1 1%Z 1%Z 1); [reflexivity|lia|reflexivity|constructor].
  - split; [repeat constructor|]. cbn. lra.
Qed.
Print Assumptions C23_scales_refuted.
(** A selection of an integrated Orbit lacks an attribute that integrate needs: integrating it further raises AttributeError *)
Theorem C23_continuation_refuted {pot : Type} integ (o : orb pot OrbitState.cache) old rows idx ts (p0 p : pot) :
  t_ o = Some (Shared old) -> orbit_ o = Some rows -> pot_ o = Some p0 ->
  snd (integrate integ (select o idx) (mkCall (Shared ts) p true)) = AttributeError.
Proof. intros Et Eo Ep. unfold integrate, select. rewrite Eo. cbn. now rewrite Et, Ep. Qed.
Print Assumptions C23_continuation_refuted.
