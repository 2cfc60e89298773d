(** Superposition, scaling and flattening. *)
From Coq Require Import Reals Lra List Bool Permutation.
From Verif.Model Require Import PotAPI PotAxi.
From Verif.Spec Require Import SuperSpec.
Import ListNotations.
Open Scope R_scope.

Definition isComp (p : Pot) : bool := match p with Comp _ _ => true | _ => false end.
Definition flatP (p : Pot) : Prop :=
  match p with Comp a ps => a = 1 /\ Forall (fun q => isComp q = false) ps | _ => True end.

Lemma leaves_noncomp p : Forall (fun q => isComp q = false) (leaves p).
Proof.
  revert p. fix IH 1. intros [a c|a d|a ps]; simpl; try (constructor; auto).
  induction ps as [|q ps IHl]; simpl; [constructor|]. apply Forall_app. split; auto.
Qed.
Lemma flattenItem_noncomp i : Forall (fun q => isComp q = false) (flattenItem i).
Proof.
  revert i. fix IH 1. intros [p|l]; simpl. { apply leaves_noncomp. }
  induction l as [|q l IHl]; simpl; [constructor|]. apply Forall_app. split; auto.
Qed.
Lemma flatten_noncomp l : Forall (fun q => isComp q = false) (flatten l).
Proof.
  unfold flatten. induction l as [|q l IHl]; simpl; [constructor|]. apply Forall_app. split; auto.
  apply flattenItem_noncomp.
Qed.
Lemma mkComp_flat l : flatP (mkComp l).
Proof. split; auto. apply flatten_noncomp. Qed.

Lemma built_flat p : Built p -> flatP p.
Proof.
  intros H. destruct H; try exact I.
  - apply mkComp_flat.
  - destruct p, q; apply mkComp_flat.
  - destruct p; try exact I. apply mkComp_flat.
  - destruct p; try exact I. apply mkComp_flat.
Qed.

(** leaves of a list without composites *)
Lemma leaves_self p : isComp p = false -> leaves p = [p].
Proof. destruct p; simpl; auto; discriminate. Qed.
Lemma flat_map_leaves ps : Forall (fun q => isComp q = false) ps -> flat_map leaves ps = ps.
Proof.
  induction 1 as [|p ps H _ IH]; simpl; auto. rewrite leaves_self by auto. simpl. f_equal. auto.
Qed.
Lemma flatten_leaf_map ps : flatten (map Leaf ps) = flat_map leaves ps.
Proof. unfold flatten. induction ps; simpl; auto. f_equal; auto. Qed.

(** Basic facts about [same]. *)
Lemma same_refl o : same o o.
Proof. destruct o; simpl; auto. Qed.
Lemma same_sym o1 o2 : same o1 o2 -> same o2 o1.
Proof. destruct o1, o2; simpl; auto. Qed.
Lemma same_trans o1 o2 o3 : same o1 o2 -> same o2 o3 -> same o1 o3.
Proof. destruct o1, o2, o3; simpl; try tauto. intros; etransitivity; eauto. Qed.
Lemma same_plus a b c d : same a c -> same b d -> same (plus a b) (plus c d).
Proof. destruct a, b, c, d; simpl; try tauto. intros H1 H2 R z phi t. rewrite H1, H2; auto. Qed.
Lemma plus_assoc a b c : same (plus a (plus b c)) (plus (plus a b) c).
Proof. destruct a, b, c; simpl; auto. intros. ring. Qed.
Lemma plus_0_r a : same (plus a (Some (fun _ _ _ _ => 0))) a.
Proof. destruct a; simpl; auto. intros; ring. Qed.
Lemma plus_0_l a : same (plus (Some (fun _ _ _ _ => 0)) a) a.
Proof. destruct a; simpl; auto. intros; ring. Qed.
Lemma times_plus b x y : same (times b (plus x y)) (plus (times b x) (times b y)).
Proof. destruct x, y; simpl; auto. intros; ring. Qed.
Lemma same_times b x y : same x y -> same (times b x) (times b y).
Proof. destruct x, y; simpl; auto. intros H R z phi t; rewrite H; auto. Qed.
Lemma times_times a b x : same (times a (times b x)) (times (a * b) x).
Proof. destruct x; simpl; auto. intros; ring. Qed.
Lemma times_1 x : same (times 1 x) x.
Proof. destruct x; simpl; auto. intros; ring. Qed.
Lemma total_app l1 l2 : same (total (l1 ++ l2)) (plus (total l1) (total l2)).
Proof.
  induction l1 as [|x l IH]; simpl.
  - apply same_sym, plus_0_l.
  - eapply same_trans; [apply same_plus; [apply same_refl|exact IH]|apply plus_assoc].
Qed.
Lemma times_total b l : same (times b (total l)) (total (map (times b) l)).
Proof.
  induction l as [|x l IH]; simpl.
  - intros; ring.
  - eapply same_trans; [apply times_plus|]. apply same_plus; [apply same_refl|exact IH].
Qed.
Lemma total_ext {A} (f g : A -> option F4) l :
  (forall x, In x l -> same (f x) (g x)) -> same (total (map f l)) (total (map g l)).
Proof.
  induction l as [|x l IH]; simpl; intros H; auto. apply same_plus; auto.
Qed.

(** Python sums as [total]. *)
Lemma sum4_acc' l : forall acc R z phi t, fold_left add4 l acc R z phi t = acc R z phi t + sum4 l R z phi t.
Proof.
  unfold sum4. induction l as [|f l IH]; intros acc R z phi t; simpl.
  - unfold zero4. ring.
  - rewrite IH, (IH (add4 zero4 f)). unfold add4, zero4. ring.
Qed.
Lemma osum4_total l : same (osum4 l) (total l).
Proof.
  induction l as [|[f|] l IH]; simpl; auto.
  - unfold osum4 in *. simpl. destruct (sequence l) as [fs|]; simpl in *.
    + destruct (total l) as [g|]; simpl in *; try contradiction.
      intros R z phi t. unfold sum4; simpl. rewrite sum4_acc'. rewrite IH. unfold add4, zero4. ring.
    + destruct (total l) as [g|]; simpl in *; tauto.
Qed.
Lemma scale4_1 o : same (option_map (scale4 1) o) o.
Proof. destruct o; simpl; auto. intros. unfold scale4. ring. Qed.
Lemma scale4_times b o : same (option_map (scale4 b) o) (times b o).
Proof. destruct o; simpl; auto. Qed.
Lemma Some_sum4 {A} (f : A -> F4) l : same (Some (sum4 (map f l))) (total (map (fun x => Some (f x)) l)).
Proof.
  eapply same_trans; [|apply osum4_total]. unfold osum4.
  assert (E : sequence (map (fun x => Some (f x)) l) = Some (map f l)).
  { induction l as [|x l IH]; simpl; auto. rewrite IH. auto. }
  rewrite E. simpl. intros; auto.
Qed.

(** A flat composite is the sum of the contributions of its members. *)
Lemma isDiss_noncomp p : isComp p = false -> isDiss p = match p with Diss _ _ => true | _ => false end.
Proof. destruct p; simpl; auto; discriminate. Qed.

Lemma flat_comp_value q v ps : Forall (fun p => isComp p = false) ps ->
  same (value q (Comp 1 ps) v) (total (map (fun p => contribution q p v) ps)).
Proof.
  intros H. rewrite Forall_forall in H.
  assert (K2 : forall s, (forall p, In p ps -> match p with Diss _ _ => True | _ => same (api2 s p) (contribution q p v) end) ->
     is_force_qty q = false ->
     same (api2 s (Comp 1 ps)) (total (map (fun p => contribution q p v) ps))).
  { intros s Hs Hq. cbn [api2]. eapply same_trans; [apply scale4_1|]. eapply same_trans; [apply osum4_total|].
    apply total_ext. intros p Hp. rewrite isDiss_noncomp by auto. specialize (Hs p Hp).
    destruct p; try exact Hs. simpl. rewrite Hq. simpl. auto. }
  destruct q; unfold value.
  - cbn [apiEv]. eapply same_trans; [apply scale4_1|]. eapply same_trans; [apply osum4_total|].
    apply total_ext. intros p Hp. rewrite isDiss_noncomp by auto. destruct p; simpl; auto.
    specialize (H _ Hp). discriminate.
  - eapply same_trans with (o2 := Some (sum4 (map (fun q => apiRf q v) ps))). { simpl. intros; unfold scale4; ring. }
    eapply same_trans; [apply Some_sum4|]. apply total_ext. intros [| |] _; simpl; auto.
  - eapply same_trans with (o2 := Some (sum4 (map (fun q => apizf q v) ps))). { simpl. intros; unfold scale4; ring. }
    eapply same_trans; [apply Some_sum4|]. apply total_ext. intros [| |] _; simpl; auto.
  - cbn [apiPt]. eapply same_trans; [apply scale4_1|]. eapply same_trans; [apply osum4_total|].
    apply total_ext. intros [| |] _; apply same_refl.
  - apply K2; auto. intros [| |] _; auto; apply same_refl.
  - apply K2; auto. intros [| |] _; auto; apply same_refl.
  - apply K2; auto. intros [| |] _; auto; apply same_refl.
  - apply K2; auto. intros [| |] _; auto; apply same_refl.
  - apply K2; auto. intros [| |] _; auto; apply same_refl.
  - apply K2; auto. intros [| |] _; auto; apply same_refl.
  - apply K2; auto. intros [| |] _; auto; apply same_refl.
Qed.

Lemma contribution_leaves q v p : flatP p ->
  same (contribution q p v) (total (map (fun p => contribution q p v) (leaves p))).
Proof.
  destruct p as [a c|a d|a ps]; intros Hf.
  - simpl. apply same_sym. eapply same_trans; [apply plus_0_r|]. apply same_refl.
  - simpl. apply same_sym. eapply same_trans; [apply plus_0_r|]. apply same_refl.
  - destruct Hf as (-> & Hf). simpl leaves. rewrite flat_map_leaves by auto. apply flat_comp_value; auto.
Qed.

Lemma items_value q v l : Forall BuiltItem l ->
  same (value q (mkComp l) v) (total (map (item_value q v) l)).
Proof.
  intros H. eapply same_trans; [apply flat_comp_value, flatten_noncomp|].
  assert (K : forall i, BuiltItem i ->
     same (total (map (fun p => contribution q p v) (flattenItem i))) (item_value q v i)).
  { clear l H. fix IH 1. intros [p|l] H.
    - simpl. apply same_sym, contribution_leaves, built_flat. inversion H; auto.
    - inversion H as [|l' Hl]; subst. clear H. simpl.
      induction l as [|i l IHl]; simpl; auto.
      rewrite map_app. eapply same_trans; [apply total_app|]. inversion Hl; subst. apply same_plus; auto. }
  unfold flatten. induction l as [|i l IHl]; simpl; auto.
  rewrite map_app. inversion H; subst. eapply same_trans; [apply total_app|]. apply same_plus; auto.
Qed.

Lemma add_value q v p1 p2 : Built p1 -> Built p2 ->
  same (value q (addPot p1 p2) v) (plus (contribution q p1 v) (contribution q p2 v)).
Proof.
  intros H1 H2. pose proof (built_flat _ H1) as F1. pose proof (built_flat _ H2) as F2.
  assert (E : addPot p1 p2 = Comp 1 (leaves p1 ++ leaves p2)).
  { destruct p1 as [| |a1 l1], p2 as [| |a2 l2]; unfold addPot, mkComp; try rewrite flatten_leaf_map;
    unfold flatten; simpl; rewrite ?flat_map_app, ?app_nil_r; reflexivity. }
  rewrite E. eapply same_trans.
  - apply flat_comp_value. apply Forall_app. split; apply leaves_noncomp.
  - rewrite map_app. eapply same_trans; [apply total_app|]. apply same_plus; apply same_sym, contribution_leaves; auto.
Qed.

(** scaling of a single *)
Lemma mul_single q v b p : (match p with Comp _ _ => False | _ => True end) -> 
  same (value q (mulPot p b) v) (times b (value q p v)).
Proof.
  destruct p as [a' c|a' d|]; try tauto; intros _.
  - destruct q; simpl; unfold apiR2, apiz2, apiRz, apip2, apiRp, apipz, apiDens; simpl; unfold scale4; try (intros; ring).
    + unfold dflt. destruct (c_pt c); simpl. { intros; unfold scale4; ring. } destruct (nonaxi c); simpl; auto. intros; unfold zero4; ring.
    + destruct (c_R2 c); simpl; auto. intros; ring.
    + destruct (c_z2 c); simpl; auto. intros; ring.
    + destruct (c_Rz c); simpl; auto. intros; ring.
    + unfold dflt. destruct (c_p2 c); simpl. { intros; unfold scale4; ring. } destruct (nonaxi c); simpl; auto. intros; unfold zero4; ring.
    + unfold dflt. destruct (c_Rp c); simpl. { intros; unfold scale4; ring. } destruct (nonaxi c); simpl; auto. intros; unfold zero4; ring.
    + unfold dflt. destruct (c_pz c); simpl. { intros; unfold scale4; ring. } destruct (nonaxi c); simpl; auto. intros; unfold zero4; ring.
    + unfold dens_single. destruct (c_dn c); simpl. { intros; unfold scale4; ring. }
      unfold poisson, dflt. destruct (c_R2 c), (c_p2 c), (c_z2 c), (nonaxi c); simpl; auto; intros; unfold scale4, zero4, Rdiv; ring.
  - destruct q; simpl; unfold apiR2, apiz2, apiRz, apip2, apiRp, apipz, apiDens; simpl; auto; unfold scale4; try (intros; ring).
    unfold dflt. destruct (d_pt d); simpl. { intros; unfold scale4; ring. } destruct (d_nonaxi d); simpl; auto. intros; unfold zero4; ring.
Qed.
Lemma mul_contribution q v b p : isComp p = false ->
  same (contribution q (mulPot p b) v) (times b (contribution q p v)).
Proof.
  intros H. destruct p as [a c|a d|]; try discriminate.
  - apply (mul_single q v b (Single a c) I).
  - simpl. destruct (is_force_qty q) eqn:E; simpl. 2: intros; ring.
    apply (mul_single q v b (Diss a d) I).
Qed.
Lemma mul_value q v b p : flatP p -> same (value q (mulPot p b) v) (times b (value q p v)).
Proof.
  intros H. destruct p as [a c|a d|a ps].
  - apply mul_single; auto.
  - apply mul_single; auto.
  - destruct H as (-> & H). simpl mulPot. unfold mkComp. rewrite flatten_leaf_map.
    assert (N : Forall (fun q => isComp q = false) (map (fun q => mulPot q b) ps)).
    { apply Forall_map. eapply Forall_impl; [|exact H]. intros [| |]; simpl; auto; discriminate. }
    rewrite flat_map_leaves by auto.
    eapply same_trans; [apply flat_comp_value; auto|]. rewrite map_map.
    eapply same_trans; [|apply same_times, same_sym, flat_comp_value; auto].
    eapply same_trans; [|apply same_sym, times_total]. rewrite map_map.
    apply total_ext. intros p Hp. apply mul_contribution. rewrite Forall_forall in H. auto.
Qed.
Lemma mul_flat b p : flatP (mulPot p b).
Proof. destruct p; simpl; auto. apply mkComp_flat. Qed.
Lemma mul_div_value q v b p : b <> 0 -> flatP p -> same (value q (divPot (mulPot p b) b) v) (value q p v).
Proof.
  intros Hb H. unfold divPot. eapply same_trans; [apply mul_value, mul_flat|].
  eapply same_trans; [apply same_times, mul_value; auto|]. eapply same_trans; [apply times_times|].
  replace (1 / b * b) with 1 by (field; auto). apply times_1.
Qed.
