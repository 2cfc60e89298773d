(** Vectors and matrices in three dimensions (numpy arrays of shape (3,) and (3,3)). *)
From Coq Require Import Reals Lra.
Open Scope R_scope.

Record V3 := mkV { vx : R; vy : R; vz : R }.
Record M3 := mkM { r0 : V3; r1 : V3; r2 : V3 }.     (* rows *)

Definition vadd (a b : V3) : V3 := mkV (vx a + vx b) (vy a + vy b) (vz a + vz b).
Definition vsub (a b : V3) : V3 := mkV (vx a - vx b) (vy a - vy b) (vz a - vz b).
Definition vopp (a : V3) : V3 := mkV (- vx a) (- vy a) (- vz a).
Definition vscal (k : R) (a : V3) : V3 := mkV (k * vx a) (k * vy a) (k * vz a).
Definition vzero : V3 := mkV 0 0 0.
Definition vdot (a b : V3) : R := vx a * vx b + vy a * vy b + vz a * vz b.
Definition vcross (a b : V3) : V3 :=
  mkV (vy a * vz b - vz a * vy b) (vz a * vx b - vx a * vz b) (vx a * vy b - vy a * vx b).
Definition vnorm2 (a : V3) : R := vdot a a.
Definition vnorm (a : V3) : R := sqrt (vnorm2 a).

Definition mulMV (m : M3) (v : V3) : V3 := mkV (vdot (r0 m) v) (vdot (r1 m) v) (vdot (r2 m) v).
Definition col0 (m : M3) : V3 := mkV (vx (r0 m)) (vx (r1 m)) (vx (r2 m)).
Definition col1 (m : M3) : V3 := mkV (vy (r0 m)) (vy (r1 m)) (vy (r2 m)).
Definition col2 (m : M3) : V3 := mkV (vz (r0 m)) (vz (r1 m)) (vz (r2 m)).
Definition transp (m : M3) : M3 := mkM (col0 m) (col1 m) (col2 m).
Definition mulMM (m n : M3) : M3 :=
  let t := transp n in mkM (mulMV t (r0 m)) (mulMV t (r1 m)) (mulMV t (r2 m)).
Definition addM (m n : M3) : M3 := mkM (vadd (r0 m) (r0 n)) (vadd (r1 m) (r1 n)) (vadd (r2 m) (r2 n)).
Definition scalM (k : R) (m : M3) : M3 := mkM (vscal k (r0 m)) (vscal k (r1 m)) (vscal k (r2 m)).
Definition eye : M3 := mkM (mkV 1 0 0) (mkV 0 1 0) (mkV 0 0 1).
Definition det3 (m : M3) : R := vdot (r0 m) (vcross (r1 m) (r2 m)).
Definition outer (a b : V3) : M3 := mkM (vscal (vx a) b) (vscal (vy a) b) (vscal (vz a) b).
Definition trace3 (m : M3) : R := vx (r0 m) + vy (r1 m) + vz (r2 m).

(** Rows are orthonormal. *)
Definition orthogonal (m : M3) : Prop := mulMM m (transp m) = eye.

Lemma V3_ext a b : vx a = vx b -> vy a = vy b -> vz a = vz b -> a = b.
Proof. destruct a, b; simpl; intros; subst; auto. Qed.
Lemma M3_ext a b : r0 a = r0 b -> r1 a = r1 b -> r2 a = r2 b -> a = b.
Proof. destruct a, b; simpl; intros; subst; auto. Qed.

Ltac vunfold := cbv [vadd vsub vopp vscal vzero vdot vcross vnorm2 mulMV col0 col1 col2 transp mulMM addM scalM
  eye det3 outer trace3 vx vy vz r0 r1 r2] in *.
Ltac vring := repeat match goal with v : V3 |- _ => destruct v | m : M3 |- _ => destruct m end; vunfold;
  repeat (match goal with |- mkV _ _ _ = mkV _ _ _ => f_equal | |- mkM _ _ _ = mkM _ _ _ => f_equal end); try ring.

Lemma mulMV_eye v : mulMV eye v = v. Proof. vring. Qed.
Lemma mulMV_assoc m n v : mulMV (mulMM m n) v = mulMV m (mulMV n v). Proof. vring. Qed.
Lemma mulMM_assoc a b c : mulMM (mulMM a b) c = mulMM a (mulMM b c). Proof. vring. Qed.
Lemma mulMM_eye_l m : mulMM eye m = m. Proof. vring. Qed.
Lemma mulMM_eye_r m : mulMM m eye = m. Proof. vring. Qed.
Lemma transp_transp m : transp (transp m) = m. Proof. vring. Qed.
Lemma transp_mul m n : transp (mulMM m n) = mulMM (transp n) (transp m). Proof. vring. Qed.
Lemma det_mul m n : det3 (mulMM m n) = det3 m * det3 n. Proof. vring. Qed.
Lemma det_transp m : det3 (transp m) = det3 m. Proof. vring. Qed.
Lemma det_eye : det3 eye = 1. Proof. vring. Qed.
Lemma vdot_transp m a b : vdot (mulMV m a) b = vdot a (mulMV (transp m) b). Proof. vring. Qed.
Lemma mulMV_add m a b : mulMV m (vadd a b) = vadd (mulMV m a) (mulMV m b). Proof. vring. Qed.
Lemma mulMV_scal m k a : mulMV m (vscal k a) = vscal k (mulMV m a). Proof. vring. Qed.
Lemma trace_mul m n : trace3 (mulMM m n) = trace3 (mulMM n m). Proof. vring. Qed.
Lemma vdot_comm a b : vdot a b = vdot b a. Proof. vring. Qed.

(** The adjugate. *)
Definition adj (m : M3) : M3 :=
  transp (mkM (vcross (r1 m) (r2 m)) (vcross (r2 m) (r0 m)) (vcross (r0 m) (r1 m))).
Lemma adj_l m : mulMM (adj m) m = scalM (det3 m) eye. Proof. unfold adj. vring. Qed.
Lemma adj_r m : mulMM m (adj m) = scalM (det3 m) eye. Proof. unfold adj. vring. Qed.
Lemma mulMM_scal_l k m n : mulMM (scalM k m) n = scalM k (mulMM m n). Proof. vring. Qed.
Lemma mulMM_scal_r k m n : mulMM m (scalM k n) = scalM k (mulMM m n). Proof. vring. Qed.
Lemma scalM_scalM j k m : scalM j (scalM k m) = scalM (j * k) m. Proof. vring. Qed.
Lemma scalM_1 m : scalM 1 m = m. Proof. vring. Qed.

Lemma ortho_det m : orthogonal m -> det3 m * det3 m = 1.
Proof. intros H. rewrite <- (det_transp m) at 2. rewrite <- det_mul, H. apply det_eye. Qed.
(** Columns are orthonormal too. *)
Lemma ortho_l m : orthogonal m -> mulMM (transp m) m = eye.
Proof.
  intros H. pose proof (ortho_det m H) as D.
  assert (E : transp m = scalM (det3 m) (adj m)).
  { assert (F : mulMM (adj m) (mulMM m (transp m)) = adj m) by (rewrite H; apply mulMM_eye_r).
    rewrite <- mulMM_assoc, adj_l, mulMM_scal_l, mulMM_eye_l in F. rewrite <- F, scalM_scalM, D, scalM_1. reflexivity. }
  rewrite E, mulMM_scal_l, adj_l, scalM_scalM, D, scalM_1. reflexivity.
Qed.
Lemma ortho_transp m : orthogonal m -> orthogonal (transp m).
Proof. intros H. unfold orthogonal. rewrite transp_transp. apply ortho_l; auto. Qed.
Lemma ortho_mul m n : orthogonal m -> orthogonal n -> orthogonal (mulMM m n).
Proof.
  unfold orthogonal. intros Hm Hn. rewrite transp_mul, mulMM_assoc, <- (mulMM_assoc n), Hn, mulMM_eye_l. auto.
Qed.
Lemma ortho_dot m a b : orthogonal m -> vdot (mulMV m a) (mulMV m b) = vdot a b.
Proof. intros H. rewrite vdot_transp, <- mulMV_assoc, ortho_l, mulMV_eye; auto. Qed.
Lemma inv_unique m n : orthogonal m -> mulMM n m = eye -> n = transp m.
Proof.
  intros H E. rewrite <- (mulMM_eye_r n), <- H, <- mulMM_assoc, E, mulMM_eye_l. reflexivity.
Qed.
Lemma ortho_nonsing m : det3 m <> 0 -> mulMM (scalM (/ det3 m) (adj m)) m = eye.
Proof. intros D. rewrite mulMM_scal_l, adj_l, scalM_scalM, Rinv_l, scalM_1; auto. Qed.
