(** C09: the Dehnen smoothing amplitude is a monotone switch. *)
From Coq Require Import Reals Lra.
From Coquelicot Require Import Coquelicot.
From Verif.Model Require Import Wrappers.
From Verif.Proofs Require Import DehnenProofs.
Open Scope R_scope.

(** The amplitude at time [t] of a DehnenSmoothWrapperPotential(tform=tform, tsteady=ts). *)
Definition growing (tform ts t : R) : R := dehnen_smooth tform (dehnen_tsteady tform (Some ts)) true t.
Definition decaying (tform ts t : R) : R := dehnen_smooth tform (dehnen_tsteady tform (Some ts)) false t.

Theorem C09_off_before_on_after : forall tform ts t, 0 < ts ->
  (t <= tform -> growing tform ts t = 0) /\ (tform + ts <= t -> growing tform ts t = 1).
Proof. intros. split; intros; [apply s_before|apply s_after]; auto. Qed.
Print Assumptions C09_off_before_on_after.

Theorem C09_between_0_and_1 : forall tform ts t, 0 < ts -> 0 <= growing tform ts t <= 1.
Proof. intros. apply s_range; auto. Qed.
Print Assumptions C09_between_0_and_1.

Theorem C09_monotone : forall tform ts t u, 0 < ts -> t <= u -> growing tform ts t <= growing tform ts u.
Proof. intros. apply s_mono; auto. Qed.
Print Assumptions C09_monotone.

(** Continuously differentiable at every time, the two joins included. *)
Theorem C09_continuously_differentiable : forall tform ts, 0 < ts ->
  exists rate : R -> R, forall t, is_derive (growing tform ts) t (rate t) /\ continuous rate t.
Proof. intros. exists (growth_rate tform ts). intros t. split; [apply s_derive|apply growth_rate_continuous]; auto. Qed.
Print Assumptions C09_continuously_differentiable.

Theorem C09_decay_is_complement : forall tform ts t, decaying tform ts t = 1 - growing tform ts t.
Proof. reflexivity. Qed.
Print Assumptions C09_decay_is_complement.

(** Halfway, the switch is half on: the amplitude is not a constant. *)
Example C09_midpoint : growing (-4) 2 (-3) = 1 / 2 /\ growing (-4) 2 (-5) = 0 /\ growing (-4) 2 0 = 1.
Proof.
  split; [|split]; [|apply s_before; lra|apply s_after; lra].
  unfold growing, dehnen_smooth, dehnen_tsteady. destruct (Rlt_dec (-3) (-4)); [lra|].
  destruct (Rlt_dec (-3) (-4 + 2)); [|lra]. field.
Qed.

(** Without a tsteady the end of the growth is tform/2.  For a positive tform that lies
    before its beginning, and the switch is a jump: it is not even continuous. *)
Theorem C09_default_tsteady_refuted : exists tform,
  ~ continuous (dehnen_smooth tform (dehnen_tsteady tform None) true) tform.
Proof.
  exists 1. intros C. destruct (default_jump 1 Rlt_0_1) as [B A].
  assert (E : dehnen_smooth 1 (dehnen_tsteady 1 None) true 1 = 1) by (apply A; lra).
  specialize (C (fun y => 1 / 2 < y)). rewrite E in C.
  assert (L : locally 1 (fun y => 1 / 2 < y)) by (apply RealAux.locally_gt; lra).
  destruct (C L) as [d Hd].
  assert (Hb : ball 1 d (1 - d / 2)).
  { change (Rabs (minus (1 - d / 2) 1) < d). unfold minus, plus, opp; simpl.
    apply Rabs_def1; destruct d; simpl; lra. }
  specialize (Hd _ Hb). cbv beta in Hd. rewrite B in Hd; destruct d; simpl in *; lra.
Qed.
Print Assumptions C09_default_tsteady_refuted.
