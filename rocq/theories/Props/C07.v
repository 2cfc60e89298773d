(** C07: incompatible unit scales. *)
From Coq Require Import Reals List Bool Lra Psatz.
From Verif.Model Require Import UnitCompat.
Ltac splits := repeat match goal with |- _ /\ _ => split end.
Import ListNotations.
Open Scope R_scope.

(** Two scales agree: equal up to one part in 10^8 of the first (the library's tolerance). *)
Definition agree (a b : R) : Prop := Rabs (a - b) < / 10 ^ 8 * Rabs a.
(** Two objects' scales agree wherever both have set them. *)
Definition scales_agree (u w : US) : Prop :=
  (u_roSet u = true -> u_roSet w = true -> agree (u_ro u) (u_ro w)) /\
  (u_voSet u = true -> u_voSet w = true -> agree (u_vo u) (u_vo w)).
Definition legal (u : US) : Prop := u_ro u <> 0 /\ u_vo u <> 0.

Lemma close_agree a b : a <> 0 -> close a b = true <-> agree a b.
Proof.
  intros Ha. pose proof (Rabs_pos_lt a Ha) as Hp. unfold close, agree.
  assert (E : Rabs ((a - b) / a) = Rabs (a - b) / Rabs a) by (unfold Rdiv; rewrite Rabs_mult, Rabs_Rinv; auto).
  rewrite E. destruct (Rlt_dec (Rabs (a - b) / Rabs a) (/ 10 ^ 8)) as [h|h]; split; auto; try discriminate; intros H.
  - apply Rmult_lt_compat_r with (r := Rabs a) in h; auto. unfold Rdiv in h.
    rewrite Rmult_assoc, Rinv_l, Rmult_1_r in h by lra. auto.
  - exfalso. apply h. apply Rmult_lt_reg_r with (r := Rabs a); auto. unfold Rdiv.
    rewrite Rmult_assoc, Rinv_l, Rmult_1_r by lra. auto.
Qed.
Lemma compatible_agree u w : legal u -> compatible u w = true <-> scales_agree u w.
Proof.
  intros (H1 & H2). unfold compatible, scales_agree. rewrite andb_true_iff.
  destruct (u_roSet u), (u_roSet w), (u_voSet u), (u_voSet w); simpl; rewrite ?close_agree by auto; intuition discriminate.
Qed.

(** Adding raises exactly when it should at the level of the two operands: if it does not
    raise, the two operands' scales agree. *)
Theorem C07_add_checked : forall cro cvo a b c, legal (phys a) ->
  addU cro cvo a b = Some c -> scales_agree (phys a) (phys b).
Proof.
  intros cro cvo a b c Hl H. unfold addU in H. destruct (compatible (phys a) (phys b)) eqn:E; [|discriminate].
  apply compatible_agree; auto.
Qed.
Print Assumptions C07_add_checked.

(** Disagreeing operands are refused. *)
Theorem C07_add_refused : forall cro cvo a b, legal (phys a) -> ~ scales_agree (phys a) (phys b) ->
  addU cro cvo a b = None.
Proof.
  intros cro cvo a b Hl H. unfold addU. destruct (compatible (phys a) (phys b)) eqn:E; auto.
  exfalso. apply H, compatible_agree; auto.
Qed.
Print Assumptions C07_add_refused.

(** Every object built with the list constructor and +: each member agrees with the first. *)
Definition consistent_with_first (o : UObj) : Prop :=
  match members o with [] => True | f :: rest => forall w, In w rest -> compatible f w = true end.

Inductive UBuilt (cro cvo : R) : UObj -> Prop :=
| ub_force u : legal u -> UBuilt cro cvo (UForce u)
| ub_list ro vo ms o : (forall u, In u ms -> legal u) -> mkUComp cro cvo ro vo ms = Some o -> UBuilt cro cvo o
| ub_add a b o : UBuilt cro cvo a -> UBuilt cro cvo b -> addU cro cvo a b = Some o -> UBuilt cro cvo o
| ub_mul a o : UBuilt cro cvo a -> mulU cro cvo a = Some o -> UBuilt cro cvo o.

Lemma mkUComp_inv cro cvo ro vo ms o : mkUComp cro cvo ro vo ms = Some o ->
  members o = ms /\ consistent_with_first o.
Proof.
  unfold mkUComp. intros H. 
  destruct (match ms with [] => true | f :: rest => forallb (compatible f) rest end) eqn:E; [|discriminate].
  match type of H with (let '(r, rs) := ?x in _) = _ => destruct x as [r rs] end.
  match type of H with (let '(r, rs) := ?x in _) = _ => destruct x as [v vs] end.
  injection H as <-. split; auto. unfold consistent_with_first; simpl. destruct ms; auto.
  apply forallb_forall; auto.
Qed.
Lemma built_consistent cro cvo o : UBuilt cro cvo o -> consistent_with_first o /\ forall u, In u (members o) -> legal u.
Proof.
  induction 1 as [u Hu|ro vo ms o Hl H|a b o Ha [IHa La] Hb [IHb Lb] H|a o Ha [IHa La] H].
  - split; simpl; [intros w []|]. intros w [<-|[]]; auto.
  - destruct (mkUComp_inv _ _ _ _ _ _ H) as (E & C). split; auto. rewrite E; auto.
  - unfold addU in H. destruct (compatible (phys a) (phys b)); [|discriminate].
    destruct (mkUComp_inv _ _ _ _ _ _ H) as (E & C). split; auto. rewrite E. intros u Hu.
    apply in_app_or in Hu as [Hu|Hu]; auto.
  - destruct a as [u|u ms]; simpl in H.
    + injection H as <-. auto.
    + destruct (mkUComp_inv _ _ _ _ _ _ H) as (E & C). split; auto. rewrite E. auto.
Qed.

(** Two members of anything built with constructors, + and * agree (within twice the
    tolerance) provided the first member has both scales set.
    Missing for the full property: the case where the first member has a scale unset; that
    case is false, see C07_members_agree_refuted. *)
Definition agree2 (f a b : R) : Prop := Rabs (a - b) < 2 * / 10 ^ 8 * Rabs f.
Theorem C07_members_agree_partial : forall cro cvo o f rest u w, UBuilt cro cvo o ->
  members o = f :: rest -> u_roSet f = true -> u_voSet f = true ->
  In u rest -> In w rest ->
  scales_agree f u /\
  (u_roSet u = true -> u_roSet w = true -> agree2 (u_ro f) (u_ro u) (u_ro w)) /\
  (u_voSet u = true -> u_voSet w = true -> agree2 (u_vo f) (u_vo u) (u_vo w)).
Proof.
  intros cro cvo o f rest u w H E Rf Vf Hu Hw. destruct (built_consistent _ _ _ H) as (C & L).
  unfold consistent_with_first in C. rewrite E in C, L.
  assert (Lf : legal f) by (apply L; left; auto).
  pose proof (proj1 (compatible_agree f u Lf) (C u Hu)) as Au.
  pose proof (proj1 (compatible_agree f w Lf) (C w Hw)) as Aw. split; auto.
  destruct Au as (A1 & A2), Aw as (B1 & B2). unfold agree, agree2 in *.
  assert (T : forall x y z, Rabs (y - z) <= Rabs (x - y) + Rabs (x - z)).
  { intros x y z. replace (y - z) with (- (x - y) + (x - z)) by ring.
    eapply Rle_trans; [apply Rabs_triang|]. rewrite Rabs_Ropp. lra. }
  split; intros Su Sw.
  - specialize (A1 Rf Su). specialize (B1 Rf Sw). pose proof (T (u_ro f) (u_ro u) (u_ro w)). lra.
  - specialize (A2 Vf Su). specialize (B2 Vf Sw). pose proof (T (u_vo f) (u_vo u) (u_vo w)). lra.
Qed.
Print Assumptions C07_members_agree_partial.

(** The library builds, without any exception, a combination whose members were given
    different distance scales: pot_without_units + pot_with_ro_8 + pot_with_ro_9. *)
Theorem C07_members_agree_refuted : forall cro cvo, cro <> 0 -> cvo <> 0 -> exists o u w,
  UBuilt cro cvo o /\ In u (members o) /\ In w (members o) /\
  u_roSet u = true /\ u_roSet w = true /\ u_ro u = 8 /\ u_ro w = 9.
Proof.
  intros cro cvo H1 H2.
  set (p0 := mkUS cro cvo false false). set (p8 := mkUS 8 220 true false). set (p9 := mkUS 9 220 true false).
  exists (UComp p0 [p0; p8; p9]), p8, p9. splits.
  - apply ub_add with (a := UComp p0 [p0; p8]) (b := UForce p9).
    + apply ub_add with (a := UForce p0) (b := UForce p8).
      * apply ub_force. split; auto.
      * apply ub_force. split; simpl; lra.
      * reflexivity.
    + apply ub_force. split; simpl; lra.
    + reflexivity.
  - simpl; auto.
  - simpl; auto.
  - auto.
  - auto.
  - auto.
  - auto.
Qed.
Print Assumptions C07_members_agree_refuted.

(** Replacing the first member by item assignment is never checked. *)
Theorem C07_setitem_refuted : exists o o' u w, UBuilt 8 220 o /\ setitemU o 0 u = Some o' /\
  In u (members o') /\ In w (members o') /\ u_roSet u = true /\ u_roSet w = true /\
  ~ agree (u_ro u) (u_ro w).
Proof.
  set (p8 := mkUS 8 220 true true). set (p9 := mkUS 9 220 true true).
  exists (UComp p8 [p8; p8]), (UComp p8 [p9; p8]), p9, p8.
  assert (A : agree 8 8). { unfold agree. replace (8 - 8) with 0 by ring. rewrite Rabs_R0, Rabs_pos_eq by lra. lra. }
  assert (B : agree 220 220). { unfold agree. replace (220 - 220) with 0 by ring. rewrite Rabs_R0, Rabs_pos_eq by lra. lra. }
  assert (C : compatible p8 p8 = true). { apply compatible_agree; [split; simpl; lra|]. split; auto. }
  splits; try reflexivity; simpl; auto.
  - apply ub_add with (a := UForce p8) (b := UForce p8); try (apply ub_force; split; simpl; lra).
    unfold addU. simpl phys. rewrite C. unfold mkUComp. simpl. rewrite C. reflexivity.
  - unfold agree. rewrite !Rabs_pos_eq by lra. lra.
Qed.
Print Assumptions C07_setitem_refuted.

(** Non-vacuity of the partial theorem: three members with scales set, one slightly off. *)
Example C07_nonvacuous : exists o, UBuilt 8 220 o /\
  members o = [mkUS 8 220 true true; mkUS 8 220 true false; mkUS 3 220 false true].
Proof.
  assert (A : agree 8 8). { unfold agree. replace (8 - 8) with 0 by ring. rewrite Rabs_R0, Rabs_pos_eq by lra. lra. }
  assert (B : agree 220 220). { unfold agree. replace (220 - 220) with 0 by ring. rewrite Rabs_R0, Rabs_pos_eq by lra. lra. }
  exists (UComp (mkUS 8 220 true true) [mkUS 8 220 true true; mkUS 8 220 true false; mkUS 3 220 false true]). split; auto.
  apply ub_list with (ro := None) (vo := None) (ms := [mkUS 8 220 true true; mkUS 8 220 true false; mkUS 3 220 false true]).
  - intros u [<-|[<-|[<-|[]]]]; split; simpl; lra.
  - unfold mkUComp. assert (E : forallb (compatible (mkUS 8 220 true true)) [mkUS 8 220 true false; mkUS 3 220 false true] = true).
    { simpl. rewrite !(proj2 (compatible_agree (mkUS 8 220 true true) _ ltac:(split; simpl; lra))); auto;
      split; simpl; intros; auto; discriminate. }
    rewrite E. reflexivity.
Qed.
