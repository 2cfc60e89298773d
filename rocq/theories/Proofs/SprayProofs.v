From Coq Require Import Reals Lra List Lia.
From Verif.Lib Require Import RealAux Vec3 Atan2.
From Verif.Model Require Import Coords CoordsVec RotVec SprayDF.
From Verif.Spec Require Import SkySpec SpraySpec.
From Verif.Proofs Require Import SkyProofs RotVecProofs.
From Verif.Props Require Import C40.
Open Scope R_scope.
Notation RR := RbaseSymbolsImpl.R (only parsing).

Lemma vnorm2_pos a : a <> vzero -> 0 < vnorm2 a.
Proof.
  intros H. destruct a as [p q r]. unfold vnorm2, vdot. simpl.
  destruct (Rle_lt_or_eq_dec 0 (p * p + q * q + r * r)) as [L|E]; [nra|exact L|].
  exfalso. apply H. unfold vzero. f_equal; nra.
Qed.
Lemma vnorm_pos a : a <> vzero -> 0 < vnorm a.
Proof. intros H. apply sqrt_lt_R0, vnorm2_pos; auto. Qed.
Lemma vnorm_sq a : vnorm a * vnorm a = vnorm2 a.
Proof. apply sqrt_sqrt. unfold vnorm2, vdot. nra. Qed.
Lemma unit_1 a : a <> vzero -> vnorm2 (unit a) = 1.
Proof.
  intros H. pose proof (vnorm_pos a H). unfold unit. transitivity (/ vnorm a * / vnorm a * vnorm2 a).
  { destruct a. vunfold. ring. } rewrite <- vnorm_sq. field. lra.
Qed.
Lemma cross_x x v : vcross x v <> vzero -> x <> vzero.
Proof. intros H E. apply H. subst. destruct v. unfold vzero. vunfold. f_equal; ring. Qed.

Section Frame.
  Variables x v : V3.
  Hypothesis Hreg : regular x v.
  Let n := e_L x v.
  Lemma Ln : Lnorm x v = n.
  Proof. reflexivity. Qed.
  Lemma n1 : vnorm2 n = 1.
  Proof. apply unit_1, Hreg. Qed.
  Lemma n0 : n <> vzero.
  Proof. intros E. pose proof n1 as H. rewrite E in H. unfold vzero in H. revert H. vunfold. lra. Qed.
  Lemma ca : cos_angle n zhat = vz n.
  Proof. unfold cos_angle. rewrite n1, sqrt_1, Rinv_1. destruct n as [a b c]. unfold zhat. vunfold. ring. Qed.
  Lemma zrot_ok : rotation (z_rot x v) /\ mulMV (z_rot x v) n = zhat /\ z_rot_inv x v = transp (z_rot x v).
  Proof.
    unfold z_rot, z_rot_inv. rewrite Ln.
    assert (Hz : vnorm2 zhat = 1) by (unfold zhat; vunfold; ring).
    destruct Hreg as [_ [C|C]].
    - destruct (C40_maps n zhat n0 Hz) as (A & B & _ & D & _). { rewrite ca. exact C. }
      assert (E : rotate_to_arbitrary_vector true false n zhat = transp (rotate_to_arbitrary_vector false false n zhat))
        by (apply inv_unique; [apply A|exact D]).
      rewrite E, transp_transp. split; [exact A|split; [|reflexivity]].
      rewrite B, n1, sqrt_1. unfold zhat. vunfold. f_equal; ring.
    - assert (E : forall i, rotate_to_arbitrary_vector i false n zhat = eye).
      { intros i. pose proof (cut_cases n zhat n0 Hz i) as K. cbv zeta in K.
        change (vdot (vscal (/ sqrt (vnorm2 n)) n) zhat) with (cos_angle n zhat) in K. rewrite ca in K.
        assert (vz n = 1) by (unfold n; rewrite C; reflexivity).
        destruct K as [[K _]|[[_ K]|[_ K]]]; [exact K|exfalso; lra|exfalso; lra]. }
      rewrite !E. assert (T : transp eye = eye) by reflexivity. rewrite !T. split; [|split; [|reflexivity]].
      + split; [unfold orthogonal; rewrite T; apply mulMM_eye_l|apply det_eye].
      + rewrite mulMV_eye. exact C.
  Qed.
  Let y := mulMV (z_rot x v) x.
  Lemma y_z : vz y = 0.
  Proof.
    destruct zrot_ok as ([O _] & Z & _). pose proof (ortho_dot _ x n O) as D. fold y in D. rewrite Z in D.
    transitivity (vdot y zhat). { unfold zhat. destruct y. vunfold. ring. }
    rewrite D. unfold n, e_L, unit. destruct x, v. vunfold. ring.
  Qed.
  Lemma y_norm : sqrt (vx y ^ 2 + vy y ^ 2) = vnorm x.
  Proof.
    destruct zrot_ok as ([O _] & _). pose proof (ortho_dot _ x x O) as D. fold y in D. pose proof y_z as Hz.
    unfold vnorm, vnorm2. rewrite <- D. f_equal. destruct y as [p q r]. simpl in Hz. subst r. vunfold. ring.
  Qed.
  Lemma rx : 0 < vnorm x.
  Proof. apply vnorm_pos, (cross_x x v), Hreg. Qed.
  Lemma rot_frame : rotation (rot x v) /\ rot_inv x v = transp (rot x v) /\
    mulMV (rot x v) (e_r x) = mkV 1 0 0 /\ mulMV (rot x v) (e_t x v) = mkV 0 1 0 /\ mulMV (rot x v) n = mkV 0 0 1.
  Proof.
    destruct zrot_ok as (R & Z & I). pose proof rx as Hx. pose proof y_norm as N. pose proof y_z as Y.
    unfold rot, rot_inv, cos_sin. fold y. rewrite N. set (c := vx y / vnorm x). set (s := vy y / vnorm x).
    assert (CS : c * c + s * s = 1).
    { assert (S : vx y * vx y + vy y * vy y = vnorm x * vnorm x).
      { rewrite <- N, sqrt_sqrt; nra. }
      unfold c, s. replace (vx y / vnorm x * (vx y / vnorm x) + vy y / vnorm x * (vy y / vnorm x)) with ((vx y * vx y + vy y * vy y) / (vnorm x * vnorm x)) by (field; lra).
      rewrite S. field. lra. }
    assert (PR : rotation (pa_rot c s)).
    { split; unfold orthogonal, pa_rot, eye; vunfold; [|clearbody c s; simpl; lra].
      clearbody c s. f_equal; f_equal; simpl; lra. }
    assert (RR' : rotation (mulMM (pa_rot c s) (z_rot x v))).
    { split; [apply ortho_mul; [apply PR|apply R]|]. rewrite det_mul. destruct PR as [_ ->], R as [_ ->]. ring. }
    assert (E1 : mulMV (mulMM (pa_rot c s) (z_rot x v)) (e_r x) = mkV 1 0 0).
    { rewrite mulMV_assoc. unfold e_r, unit. rewrite mulMV_scal. fold y.
      assert (Ex : vx y = c * vnorm x) by (unfold c; field; lra). assert (Ey : vy y = s * vnorm x) by (unfold s; field; lra).
      assert (Hy : y = mkV (c * vnorm x) (s * vnorm x) 0) by (apply V3_ext; simpl; assumption).
      rewrite Hy. clear Hy Ex Ey Y. set (k := vnorm x) in *. clearbody c s k. unfold pa_rot. vunfold. simpl.
      f_equal.
      - transitivity (c * c + s * s); [field; lra|exact CS].
      - field. lra.
      - ring. }
    assert (E3 : mulMV (mulMM (pa_rot c s) (z_rot x v)) n = mkV 0 0 1).
    { rewrite mulMV_assoc, Z. unfold zhat, pa_rot. vunfold. f_equal; ring. }
    split; [exact RR'|split; [|split; [exact E1|split; [|exact E3]]]].
    - rewrite transp_mul, I. f_equal.
    - unfold e_t. fold n. rewrite rot_cross by exact RR'. rewrite E1, E3. vunfold. f_equal; ring.
  Qed.
  Lemma rot_comp a : mulMV (rot x v) a = mkV (vdot a (e_r x)) (vdot a (e_t x v)) (vdot a n).
  Proof.
    destruct rot_frame as ([O _] & _ & A & B & C).
    pose proof (ortho_dot _ a (e_r x) O) as A'. pose proof (ortho_dot _ a (e_t x v) O) as B'. pose proof (ortho_dot _ a n O) as C'.
    rewrite A in A'. rewrite B in B'. rewrite C in C'. rewrite <- A', <- B', <- C'. destruct (mulMV (rot x v) a). vunfold. f_equal; ring.
  Qed.
  Lemma rot_inv_comb a b c : mulMV (rot_inv x v) (mkV a b c) = comb x v a b c.
  Proof.
    destruct rot_frame as (R & I & A & B & C). rewrite I.
    transitivity (mulMV (transp (rot x v)) (mulMV (rot x v) (comb x v a b c))); [|apply rot_inv1; exact R].
    f_equal. unfold comb. fold n. rewrite !mulMV_add, !mulMV_scal, A, B, C. vunfold. f_equal; ring.
  Qed.
  Lemma vdot_er : vdot x (e_r x) = vnorm x.
  Proof.
    pose proof rx. transitivity (/ vnorm x * vnorm2 x); [unfold e_r, unit; destruct x; vunfold; ring|]. rewrite <- vnorm_sq. field. lra.
  Qed.
  Lemma rot_x : mulMV (rot x v) x = mkV (vnorm x) 0 0.
  Proof.
    rewrite rot_comp. f_equal; [apply vdot_er| |].
    - unfold e_t, e_r, unit. destruct (e_L x v) as [a b c]. set (k := / vnorm x). clearbody k. destruct x. vunfold. ring.
    - unfold n, e_L, unit. destruct x, v. vunfold. ring.
  Qed.
  Lemma rot_v : mulMV (rot x v) v = mkV (vdot x v / vnorm x) (vnorm (vcross x v) / vnorm x) 0.
  Proof.
    pose proof rx as Hx. assert (HL : 0 < vnorm (vcross x v)) by apply vnorm_pos, Hreg.
    rewrite rot_comp. f_equal.
    - unfold e_r, unit, Rdiv. set (k := / vnorm x). clearbody k. destruct x, v. vunfold. ring.
    - transitivity (/ vnorm (vcross x v) * / vnorm x * vnorm2 (vcross x v)).
      + unfold e_t, e_L, e_r, unit. set (k := / vnorm x). set (l := / vnorm (vcross x v)). clearbody k l. destruct x, v. vunfold. ring.
      + rewrite <- vnorm_sq. field. lra.
    - unfold n, e_L, unit. set (l := / vnorm (vcross x v)). clearbody l. destruct x, v. vunfold. ring.
  Qed.
  Lemma comb_x : comb x v (vnorm x) 0 0 = x.
  Proof. rewrite <- rot_inv_comb, <- rot_x. destruct rot_frame as (R & I & _). rewrite I. apply rot_inv1; exact R. Qed.
  Lemma comb_v : comb x v (vdot x v / vnorm x) (vnorm (vcross x v) / vnorm x) 0 = v.
  Proof. rewrite <- rot_inv_comb, <- rot_v. destruct rot_frame as (R & I & _). rewrite I. apply rot_inv1; exact R. Qed.
  Lemma comb_norm a b c : vnorm2 (comb x v a b c) = a * a + b * b + c * c.
  Proof.
    rewrite <- rot_inv_comb. destruct rot_frame as ([O _] & I & _). rewrite I.
    unfold vnorm2. rewrite ortho_dot by (apply ortho_transp; exact O). vunfold. ring.
  Qed.
End Frame.
Lemma comb_add x v a b c a' b' c' : comb x v (a + a') (b + b') (c + c') = vadd (comb x v a b c) (comb x v a' b' c').
Proof. unfold comb. destruct (e_r x), (e_t x v), (e_L x v). vunfold. f_equal; ring. Qed.
Lemma comb_scal x v k a b c : comb x v (k * a) (k * b) (k * c) = vscal k (comb x v a b c).
Proof. unfold comb. destruct (e_r x), (e_t x v), (e_L x v). vunfold. f_equal; ring. Qed.
