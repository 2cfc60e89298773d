From Coq Require Import Reals Lra Psatz.
From Verif.Lib Require Import RealAux Vec3.
From Verif.Model Require Import RotVec.
From Verif.Spec Require Import SkySpec.
From Verif.Proofs Require Import SkyProofs SpheroidProofs.
Open Scope R_scope.
Notation RR := RbaseSymbolsImpl.R (only parsing).

(** The Rodrigues matrix about a unit axis [r] with cosine [c] and sine [s]. *)
Definition rodr (c s : RR) (r : V3) : M3 :=
  addM (addM (scalM c eye) (scalM (- s) (crossmatrix r))) (scalM (1 - c) (outer r r)).
Lemma rodr_apply c s r v : mulMV (rodr c s r) v =
  vadd (vadd (vscal c v) (vscal s (vcross r v))) (vscal ((1 - c) * vdot r v) r).
Proof. unfold rodr, crossmatrix. vring. Qed.
Lemma rodr_transp c s r : transp (rodr c s r) = rodr c (- s) r.
Proof. unfold rodr, crossmatrix. vring. Qed.
Lemma rodr_ortho c s r : vnorm2 r = 1 -> c ^ 2 + s ^ 2 = 1 -> orthogonal (rodr c s r).
Proof.
  intros H1 H2. unfold orthogonal. rewrite rodr_transp.
  transitivity (addM (scalM (c ^ 2 + s ^ 2 * vnorm2 r) eye)
    (scalM (- s ^ 2 + 2 * c * (1 - c) + (1 - c) ^ 2 * vnorm2 r) (outer r r))).
  { unfold rodr, crossmatrix. vring. }
  rewrite H1. replace (c ^ 2 + s ^ 2 * 1) with 1 by lra.
  replace (- s ^ 2 + 2 * c * (1 - c) + (1 - c) ^ 2 * 1) with 0 by (transitivity (1 - (c ^ 2 + s ^ 2)); [rewrite H2|]; ring).
  clear. vring.
Qed.
Lemma rodr_det c s r : vnorm2 r = 1 -> c ^ 2 + s ^ 2 = 1 -> det3 (rodr c s r) = 1.
Proof.
  intros H1 H2. transitivity ((c + (1 - c) * vnorm2 r) * (c ^ 2 + s ^ 2 * vnorm2 r)).
  { unfold rodr, crossmatrix. vring. }
  rewrite H1. transitivity (1 * (c ^ 2 + s ^ 2)); [ring|rewrite H2; ring].
Qed.
Lemma rodr_rotation c s r : vnorm2 r = 1 -> c ^ 2 + s ^ 2 = 1 -> rotation (rodr c s r).
Proof. intros. split; [apply rodr_ortho|apply rodr_det]; auto. Qed.

Lemma norm_scal k u : vnorm2 (vscal k u) = k ^ 2 * vnorm2 u.
Proof. vring. Qed.
Lemma scal_scal k l u : vscal k (vscal l u) = vscal (k * l) u.
Proof. vring. Qed.
Lemma scal_1 u : vscal 1 u = u.
Proof. vring. Qed.
Lemma lagrange_id n a : vnorm2 (vcross n a) = vnorm2 n * vnorm2 a - vdot n a ^ 2.
Proof. vring. Qed.
Lemma bac_cab n a : vcross (vcross n a) n = vsub (vscal (vnorm2 n) a) (vscal (vdot n a) n).
Proof. vring. Qed.
Lemma cross_scal k r n : vcross (vscal k r) n = vscal k (vcross r n).
Proof. vring. Qed.
Lemma dot_scal k r n : vdot (vscal k r) n = k * vdot r n.
Proof. vring. Qed.
Lemma cross_dot n a : vdot (vcross n a) n = 0.
Proof. vring. Qed.
Lemma norm_pos u : 0 <= vnorm2 u.
Proof. destruct u as [x y z]. vunfold. nra. Qed.
Lemma norm_pos_lt u : u <> vzero -> 0 < vnorm2 u.
Proof.
  destruct u as [x y z]. intros H. vunfold. destruct (Req_dec x 0) as [->|]; [|nra]. destruct (Req_dec y 0) as [->|]; [|nra].
  destruct (Req_dec z 0) as [->|]; [|nra]. tauto.
Qed.
Lemma normalised u : 0 < vnorm2 u -> let q := sqrt (vnorm2 u) in
  vnorm2 (vscal (/ q) u) = 1 /\ u = vscal q (vscal (/ q) u) /\ 0 < q.
Proof.
  intros H q. assert (S : q ^ 2 = vnorm2 u) by (apply sq_sqrt; lra). assert (0 < q) by (apply sqrt_lt_R0; auto).
  split; [|split; auto].
  - rewrite norm_scal, <- S. field. lra.
  - rewrite scal_scal. replace (q * / q) with 1 by (field; lra). rewrite scal_1. auto.
Qed.
Lemma sum_id a n r c k : vdot r n = 0 -> vadd (vadd (vscal c n) (vsub (vscal 1 a) (vscal c n))) (vscal (k * vdot r n) r) = a.
Proof. intros ->. vring. Qed.
Lemma dist_id n a : vnorm2 (vsub n a) = vnorm2 n + vnorm2 a - 2 * vdot n a.
Proof. vring. Qed.
Lemma dist_id2 n a : vnorm2 (vsub (vopp n) a) = vnorm2 n + vnorm2 a + 2 * vdot n a.
Proof. vring. Qed.

Lemma sub_scal q n a : vsub (vscal q n) (vscal q a) = vscal q (vsub n a).
Proof. vring. Qed.
Lemma opp_sub_scal q n a : vsub (vopp (vscal q n)) (vscal q a) = vscal q (vsub (vopp n) a).
Proof. vring. Qed.

Section rot.
  Variables v a : V3.
  Hypothesis Hv : v <> vzero.
  Hypothesis Ha : vnorm2 a = 1.
  Let n := vscal (/ sqrt (vnorm2 v)) v.
  Let c := vdot n a.
  Let w := vcross n a.
  Let r := vscal (/ sqrt (vnorm2 w)) w.
  Let s := sqrt (1 - c ^ 2).

  Lemma n_unit : vnorm2 n = 1.
  Proof. apply normalised, norm_pos_lt; auto. Qed.
  Lemma v_is : v = vscal (sqrt (vnorm2 v)) n.
  Proof. apply normalised, norm_pos_lt; auto. Qed.
  Lemma lagrange : vnorm2 w = 1 - c ^ 2.
  Proof. unfold w. rewrite lagrange_id, n_unit, Ha. fold c. ring. Qed.
  Lemma c_bound : -1 <= c <= 1.
  Proof. pose proof (norm_pos w) as H. rewrite lagrange in H. clearbody c. split; nra. Qed.
  Lemma cs_unit : c ^ 2 + s ^ 2 = 1.
  Proof. pose proof c_bound. unfold s. rewrite sq_sqrt; clearbody c; nra. Qed.
  Lemma r_is : c ^ 2 <> 1 -> w = vscal s r /\ vnorm2 r = 1 /\ 0 < s.
  Proof.
    intros H. pose proof c_bound as B. assert (P : 0 < vnorm2 w) by (rewrite lagrange; clearbody c; nra).
    destruct (normalised w P) as (A1 & A2 & A3).
    assert (Es : sqrt (vnorm2 w) = s) by (unfold s; rewrite lagrange; auto).
    split; [|split]; [|exact A1|].
    - rewrite <- Es. exact A2.
    - rewrite <- Es. exact A3.
  Qed.
  Lemma out_is inv : rotate_to_arbitrary_vector inv true v a = rodr c (if inv then - s else s) r.
  Proof.
    unfold rotate_to_arbitrary_vector. fold n. fold w. fold r. fold c. fold s. unfold rodr. destruct inv; do 3 f_equal; ring.
  Qed.
  Lemma rodr_maps : c ^ 2 <> 1 -> mulMV (rodr c s r) n = a.
  Proof.
    intros H. destruct (r_is H) as (Hw & Hr & Hs).
    rewrite rodr_apply.
    rewrite <- (cross_scal s r n), <- Hw. unfold w. rewrite bac_cab, n_unit. fold c. apply sum_id.
    apply Rmult_eq_reg_l with s; [|lra]. rewrite <- dot_scal, <- Hw. unfold w. rewrite cross_dot. ring.
  Qed.
  (** Away from parallel and antiparallel. *)
  Lemma rot_generic : c ^ 2 <> 1 ->
    rotation (rotate_to_arbitrary_vector false true v a) /\
    mulMV (rotate_to_arbitrary_vector false true v a) v = vscal (sqrt (vnorm2 v)) a /\
    rotate_to_arbitrary_vector true true v a = transp (rotate_to_arbitrary_vector false true v a).
  Proof.
    intros H. rewrite !out_is. cbv iota. destruct (r_is H) as (Hw & Hr & Hs). split; [|split].
    - apply rodr_rotation; auto. apply cs_unit.
    - etransitivity. { apply f_equal. apply v_is. } rewrite mulMV_scal, rodr_maps by auto. auto.
    - rewrite rodr_transp. auto.
  Qed.
  (** The size of the caps in which the code gives up. *)
  Lemma cap_dist1 : vnorm2 (vsub n a) = 2 - 2 * c.
  Proof. rewrite dist_id, n_unit, Ha. fold c. ring. Qed.
  Lemma cap_dist2 : vnorm2 (vsub (vopp n) a) = 2 + 2 * c.
  Proof. rewrite dist_id2, n_unit, Ha. fold c. ring. Qed.
  Lemma cut_cases inv : let m := rotate_to_arbitrary_vector inv false v a in
    (m = eye /\ 1 - 1 / 10 ^ 10 < c) \/ (m = scalM (-1) eye /\ c < -1 + 1 / 10 ^ 10) \/
    (m = rotate_to_arbitrary_vector inv true v a /\ -1 + 1 / 10 ^ 10 <= c <= 1 - 1 / 10 ^ 10).
  Proof.
    unfold rotate_to_arbitrary_vector. fold n. fold w. fold r. fold c. fold s. cbv zeta iota.
    pose proof c_bound as B. clearbody c s. assert (T : 0 < 1 / 10 ^ 10 < 1) by lra.
    destruct (Rlt_dec (Rabs (c + 1)) (1 / 10 ^ 10)) as [L|L].
    - right; left. split; auto. apply Rabs_def2 in L. lra.
    - destruct (Rlt_dec (Rabs (c - 1)) (1 / 10 ^ 10)) as [M|M].
      + left. split; auto. apply Rabs_def2 in M. lra.
      + right; right. split; auto. rewrite Rabs_pos_eq in L by lra. rewrite Rabs_left1 in M by lra. lra.
  Qed.
  Lemma cap_error1 : vnorm2 (vsub v (vscal (sqrt (vnorm2 v)) a)) = (2 - 2 * c) * vnorm2 v.
  Proof.
    transitivity (vnorm2 (vscal (sqrt (vnorm2 v)) (vsub n a))).
    - f_equal. etransitivity; [apply (f_equal (fun u => vsub u (vscal (sqrt (vnorm2 v)) a)) v_is)|].
      apply sub_scal.
    - rewrite norm_scal, cap_dist1, sq_sqrt by apply norm_pos. ring.
  Qed.
  Lemma cap_error2 : vnorm2 (vsub (vopp v) (vscal (sqrt (vnorm2 v)) a)) = (2 + 2 * c) * vnorm2 v.
  Proof.
    transitivity (vnorm2 (vscal (sqrt (vnorm2 v)) (vsub (vopp n) a))).
    - f_equal. etransitivity; [apply (f_equal (fun u => vsub (vopp u) (vscal (sqrt (vnorm2 v)) a)) v_is)|].
      apply opp_sub_scal.
    - rewrite norm_scal, cap_dist2, sq_sqrt by apply norm_pos. ring.
  Qed.
End rot.

Lemma eye_rotation : rotation eye.
Proof. split; [unfold orthogonal; vring|vring]. Qed.
