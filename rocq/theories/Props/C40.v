(** C40: the rotation that carries one direction onto another. *)
From Coq Require Import Reals Lra Psatz.
From Verif.Lib Require Import RealAux Vec3.
From Verif.Model Require Import RotVec.
From Verif.Spec Require Import SkySpec.
From Verif.Proofs Require Import SkyProofs SpheroidProofs RotVecProofs.
Open Scope R_scope.
Notation RR := RbaseSymbolsImpl.R (only parsing).

(** The cosine of the angle between [v] and the unit vector [a]. *)
Definition cos_angle (v a : V3) : RR := vdot (vscal (/ sqrt (vnorm2 v)) v) a.

(** Outside two caps of half-angle about 1.4e-5 rad around +a and -a, the matrix is a proper rotation that carries v onto
    the direction a without changing its length, and inv=True gives its inverse. *)
Theorem C40_maps : forall (v a : V3), v <> vzero -> vnorm2 a = 1 ->
  -1 + 1 / 10 ^ 10 <= cos_angle v a <= 1 - 1 / 10 ^ 10 ->
  let m := rotate_to_arbitrary_vector false false v a in
  let mi := rotate_to_arbitrary_vector true false v a in
  rotation m /\ mulMV m v = vscal (sqrt (vnorm2 v)) a /\
  rotation mi /\ mulMM mi m = eye /\ mulMM m mi = eye.
Proof.
  intros v a Hv Ha Hc m mi. unfold cos_angle in Hc.
  assert (T : 0 < 1 / 10 ^ 10 < 1) by lra.
  destruct (rot_generic v a Hv Ha) as (R1 & R2 & R3). { nra. }
  assert (Em : m = rotate_to_arbitrary_vector false true v a).
  { destruct (cut_cases v a Hv Ha false) as [[_ ?]|[[_ ?]|[E _]]]; [lra|lra|exact E]. }
  assert (Emi : mi = transp m).
  { destruct (cut_cases v a Hv Ha true) as [[_ ?]|[[_ ?]|[E _]]]; [lra|lra|]. rewrite Em, <- R3. exact E. }
  rewrite <- Em in R1, R2. split; [auto|]. split; [auto|]. rewrite Emi. split; [apply rot_transp; auto|].
  destruct R1 as [O _]. split; [apply ortho_l; auto|exact O].
Qed.
Print Assumptions C40_maps.

(** For every non-zero v, including the two caps: the matrix preserves all lengths and angles, and carries v to within
    a distance 1.5e-5 |v| of the direction a; inv=True gives its inverse. *)
Theorem C40_everywhere_partial : forall (v a : V3), v <> vzero -> vnorm2 a = 1 ->
  let m := rotate_to_arbitrary_vector false false v a in
  let mi := rotate_to_arbitrary_vector true false v a in
  (forall x y, vdot (mulMV m x) (mulMV m y) = vdot x y) /\
  vnorm2 (vsub (mulMV m v) (vscal (sqrt (vnorm2 v)) a)) <= 2 / 10 ^ 10 * vnorm2 v /\
  (forall x, mulMV mi (mulMV m x) = x).
Proof.
  intros v a Hv Ha m mi.
  assert (T : 0 < 1 / 10 ^ 10 < 1) by lra. pose proof (norm_pos v) as N.
  pose proof (c_bound v a Hv Ha) as B. pose proof (cap_error1 v a Hv Ha) as E1. pose proof (cap_error2 v a Hv Ha) as E2.
  assert (cases : (m = eye /\ mi = eye /\ 1 - 1 / 10 ^ 10 < cos_angle v a) \/
                  (m = scalM (-1) eye /\ mi = scalM (-1) eye /\ cos_angle v a < -1 + 1 / 10 ^ 10) \/
                  -1 + 1 / 10 ^ 10 <= cos_angle v a <= 1 - 1 / 10 ^ 10).
  { unfold cos_angle. destruct (cut_cases v a Hv Ha false) as [[? ?]|[[? ?]|[? ?]]];
      destruct (cut_cases v a Hv Ha true) as [[? ?]|[[? ?]|[? ?]]]; try (exfalso; lra); auto. }
  unfold cos_angle in *.
  destruct cases as [(-> & -> & C)|[(-> & -> & C)|C]].
  - split; [intros; vring|]. split; [|intros; vring].
    replace (mulMV eye v) with v by (clear; vring). rewrite E1. nra.
  - split; [intros; vring|]. split; [|intros; vring].
    replace (mulMV (scalM (-1) eye) v) with (vopp v) by (clear; vring). rewrite E2. nra.
  - destruct (C40_maps v a Hv Ha C) as ([O _] & M & [_ _] & I & _). fold m in O, M, I. fold mi in I.
    split; [intros; apply ortho_dot; auto|]. split.
    + rewrite M. replace (vsub (vscal (sqrt (vnorm2 v)) a) (vscal (sqrt (vnorm2 v)) a)) with vzero.
      * replace (vnorm2 vzero) with 0 by (clear; vring). nra.
      * clear. generalize (sqrt (vnorm2 v)). intros. vring.
    + intros x. rewrite <- mulMV_assoc, I. apply mulMV_eye.
Qed.
Print Assumptions C40_everywhere_partial.

(** With _dontcutsmall=True there are no caps: every v that is not exactly parallel or antiparallel is carried onto a. *)
Theorem C40_no_caps : forall (v a : V3), v <> vzero -> vnorm2 a = 1 -> cos_angle v a <> 1 -> cos_angle v a <> -1 ->
  let m := rotate_to_arbitrary_vector false true v a in
  rotation m /\ mulMV m v = vscal (sqrt (vnorm2 v)) a /\ mulMM (rotate_to_arbitrary_vector true true v a) m = eye.
Proof.
  intros v a Hv Ha H1 H2 m. unfold cos_angle in *.
  destruct (rot_generic v a Hv Ha) as (R1 & R2 & R3).
  { intros E. assert ((vdot (vscal (/ sqrt (vnorm2 v)) v) a - 1) * (vdot (vscal (/ sqrt (vnorm2 v)) v) a + 1) = 0) by lra.
    apply Rmult_integral in H. destruct H; [apply H1|apply H2]; lra. }
  split; [auto|]. split; [auto|]. rewrite R3. apply ortho_l. apply R1.
Qed.
Print Assumptions C40_no_caps.

(** A case inside the range of the theorems: from (3,0,4) to the z-axis, cosine 4/5. *)
Example C40_case : mkV 3 0 4 <> vzero /\ vnorm2 (mkV 0 0 1) = 1 /\ cos_angle (mkV 3 0 4) (mkV 0 0 1) = 4 / 5.
Proof.
  split; [intros H; injection H; lra|]. split; [vunfold; ring|].
  unfold cos_angle. replace (sqrt (vnorm2 (mkV 3 0 4))) with 5. { vunfold. field. }
  symmetry. replace (vnorm2 (mkV 3 0 4)) with (5 * 5) by (vunfold; ring). apply sqrt_square. lra.
Qed.

(** Orientation is not preserved for the antiparallel direction: the matrix is then the point reflection. *)
Theorem C40_orientation_refuted : exists v a : V3, vnorm2 v = 1 /\ vnorm2 a = 1 /\
  det3 (rotate_to_arbitrary_vector false false v a) = -1.
Proof.
  exists (mkV 0 0 (-1)), (mkV 0 0 1). split; [vunfold; ring|]. split; [vunfold; ring|].
  assert (Hv : mkV 0 0 (-1) <> vzero) by (intros H; injection H; lra).
  assert (Ha : vnorm2 (mkV 0 0 1) = 1) by (vunfold; ring).
  assert (C : cos_angle (mkV 0 0 (-1)) (mkV 0 0 1) = -1).
  { unfold cos_angle. replace (vnorm2 (mkV 0 0 (-1))) with 1 by (vunfold; ring). rewrite sqrt_1. vunfold. field. }
  unfold cos_angle in C. assert (T : 0 < 1 / 10 ^ 10 < 1) by lra.
  destruct (cut_cases _ _ Hv Ha false) as [[_ ?]|[[-> _]|[_ ?]]]; [lra| |lra]. clear. vunfold. ring.
Qed.
Print Assumptions C40_orientation_refuted.

(** In the caps the direction is not reached exactly. *)
Theorem C40_exact_refuted : exists v a : V3, v <> vzero /\ vnorm2 a = 1 /\
  mulMV (rotate_to_arbitrary_vector false false v a) v <> vscal (sqrt (vnorm2 v)) a.
Proof.
  exists (mkV 1 (1 / 10 ^ 6) 0), (mkV 1 0 0).
  assert (Hv : mkV 1 (1 / 10 ^ 6) 0 <> vzero) by (intros H; injection H; lra).
  assert (Ha : vnorm2 (mkV 1 0 0) = 1) by (vunfold; ring).
  split; [auto|]. split; [auto|].
  assert (C : 1 - 1 / 10 ^ 10 < cos_angle (mkV 1 (1 / 10 ^ 6) 0) (mkV 1 0 0)).
  { unfold cos_angle. set (q := sqrt _).
    assert (Q : q ^ 2 = 1 + 1 / 10 ^ 12). { unfold q. rewrite sq_sqrt by apply norm_pos. vunfold. lra. }
    assert (P : 0 < q). { apply sqrt_lt_R0. vunfold. lra. }
    clearbody q. assert (L : q < 1 + 1 / 10 ^ 10) by nra.
    replace (vdot (vscal (/ q) (mkV 1 (1 / 10 ^ 6) 0)) (mkV 1 0 0)) with (/ q) by (vunfold; ring).
    apply Rmult_lt_reg_r with q; auto. rewrite Rinv_l by lra. nra. }
  unfold cos_angle in C.
  destruct (cut_cases _ _ Hv Ha false) as [[-> _]|[[_ ?]|[_ ?]]]; [|lra|lra].
  rewrite mulMV_eye. intros H. apply (f_equal vy) in H. cbn [vy vscal] in H. lra.
Qed.
Print Assumptions C40_exact_refuted.
