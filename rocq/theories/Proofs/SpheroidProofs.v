From Coq Require Import Reals Lra Psatz.
From Coquelicot Require Import Coquelicot.
From Verif.Lib Require Import RealAux Atan2.
From Verif.Model Require Import CoordsSpheroid.
From Verif.Proofs Require Import SkyProofs.
Open Scope R_scope.
Notation RR := RbaseSymbolsImpl.R (only parsing).

Lemma sq_sqrt x : 0 <= x -> sqrt x ^ 2 = x.
Proof. intros. replace (sqrt x ^ 2) with (sqrt x * sqrt x) by ring. apply sqrt_sqrt; auto. Qed.
Lemma sqrt_sq x : 0 <= x -> sqrt (x ^ 2) = x.
Proof. intros. rewrite <- Rsqr_pow2. apply sqrt_Rsqr; auto. Qed.
Lemma sqrt_of x y : 0 <= y -> y ^ 2 = x -> sqrt x = y.
Proof. intros H <-. apply sqrt_sq; auto. Qed.

Lemma exp_acosh x : 1 <= x -> exp (acosh x) = x + sqrt (x ^ 2 - 1).
Proof. intros. unfold acosh. apply exp_ln. pose proof (sqrt_pos (x ^ 2 - 1)). lra. Qed.
Lemma exp_acosh_neg x : 1 <= x -> exp (- acosh x) = x - sqrt (x ^ 2 - 1).
Proof.
  intros H. rewrite exp_Ropp, exp_acosh by auto. pose proof (sqrt_pos (x ^ 2 - 1)).
  assert (E : sqrt (x ^ 2 - 1) ^ 2 = x ^ 2 - 1) by (apply sq_sqrt; nra).
  apply Rmult_eq_reg_l with (x + sqrt (x ^ 2 - 1)); [|lra]. rewrite Rinv_r by lra. nra.
Qed.
Lemma cosh_acosh x : 1 <= x -> cosh (acosh x) = x.
Proof. intros. unfold cosh. rewrite exp_acosh, exp_acosh_neg by auto. lra. Qed.
Lemma sinh_acosh x : 1 <= x -> sinh (acosh x) = sqrt (x ^ 2 - 1).
Proof. intros. unfold sinh. rewrite exp_acosh, exp_acosh_neg by auto. lra. Qed.
Lemma cosh_sinh u : cosh u ^ 2 - sinh u ^ 2 = 1.
Proof. unfold cosh, sinh. assert (exp u * exp (- u) = 1) by (rewrite <- exp_plus, Rplus_opp_r; apply exp_0). nra. Qed.
Lemma cosh_ge_1 u : 1 <= cosh u.
Proof. unfold cosh. assert (exp u * exp (- u) = 1) by (rewrite <- exp_plus, Rplus_opp_r; apply exp_0). pose proof (exp_pos u). pose proof (exp_pos (- u)).
  pose proof (pow2_ge_0 (exp u - exp (- u))). assert (4 <= (exp u + exp (- u)) ^ 2) by nra. nra. Qed.
Lemma sinh_ge_0 u : 0 <= u -> 0 <= sinh u.
Proof.
  intros. unfold sinh. destruct (Req_dec u 0) as [->|]. { rewrite Ropp_0. lra. }
  assert (exp (- u) < exp u) by (apply exp_increasing; lra). lra.
Qed.
Lemma acosh_cosh u : 0 <= u -> acosh (cosh u) = u.
Proof.
  intros H. unfold acosh. replace (cosh u ^ 2 - 1) with (sinh u ^ 2) by (pose proof (cosh_sinh u); lra).
  rewrite sqrt_sq by (apply sinh_ge_0; auto). replace (cosh u + sinh u) with (exp u) by (unfold cosh, sinh; lra). apply ln_exp.
Qed.
Lemma sin_acos_nonneg x : -1 <= x <= 1 -> sin (acos x) = sqrt (1 - x ^ 2).
Proof. intros. rewrite sin_acos by auto. unfold Rsqr. f_equal. ring. Qed.

(** ** Bounds on the elliptic coordinates of a point (a along the focal axis, p across). *)
Section foci.
  Variables delta a p : RR.
  Hypothesis Hd : 0 < delta.
  Let A := sqrt ((a + delta) ^ 2 + p ^ 2).
  Let B := sqrt ((a - delta) ^ 2 + p ^ 2).
  Lemma foci_facts : 0 <= A /\ 0 <= B /\ A ^ 2 = (a + delta) ^ 2 + p ^ 2 /\ B ^ 2 = (a - delta) ^ 2 + p ^ 2 /\
    2 * delta <= A + B /\ - (2 * delta) <= A - B <= 2 * delta.
  Proof.
    assert (HA : A ^ 2 = (a + delta) ^ 2 + p ^ 2) by (apply sq_sqrt; apply Rplus_le_le_0_compat; apply pow2_ge_0).
    assert (HB : B ^ 2 = (a - delta) ^ 2 + p ^ 2) by (apply sq_sqrt; apply Rplus_le_le_0_compat; apply pow2_ge_0).
    assert (PA : 0 <= A) by apply sqrt_pos. assert (PB : 0 <= B) by apply sqrt_pos.
    assert (LA : a + delta <= A /\ - (a + delta) <= A) by (split; nra).
    assert (LB : a - delta <= B /\ - (a - delta) <= B) by (split; nra).
    clearbody A B.
    assert (AB : A ^ 2 - B ^ 2 = 4 * a * delta) by nra.
    split; [auto|split; [auto|split; [auto|split; [auto|split; [lra|]]]]].
    assert (S : 2 * delta <= A + B) by lra.
    assert (SP : A ^ 2 + B ^ 2 = 2 * a ^ 2 + 2 * delta ^ 2 + 2 * p ^ 2) by nra.
    (* (A B)^2 >= (a^2 + p^2 - delta^2)^2 *)
    assert (Q : A * B >= a ^ 2 + p ^ 2 - delta ^ 2).
    { assert (H : (A * B) ^ 2 = (a ^ 2 + p ^ 2 - delta ^ 2) ^ 2 + 4 * p ^ 2 * delta ^ 2).
      { replace ((A * B) ^ 2) with (A ^ 2 * B ^ 2) by ring. rewrite HA, HB. ring. }
      assert (0 <= A * B) by nra. nra. }
    assert ((A - B) ^ 2 <= (2 * delta) ^ 2) by nra. split; nra.
  Qed.
End foci.

(** ** Prolate *)
Lemma pro_cosh delta R z : 0 < delta -> let '(cu, cv) := Rz_to_coshucosv false delta R z in 1 <= cu /\ -1 <= cv <= 1 /\
  delta * cu * cv = z /\ delta ^ 2 * (cu ^ 2 - 1) * (1 - cv ^ 2) = R ^ 2.
Proof.
  intros Hd. unfold Rz_to_coshucosv. destruct (foci_facts delta z R Hd) as (PA & PB & HA & HB & S & D).
  set (A := sqrt ((z + delta) ^ 2 + R ^ 2)) in *. set (B := sqrt ((z - delta) ^ 2 + R ^ 2)) in *. clearbody A B.
  assert (I : 0 < / (2 * delta)) by (apply Rinv_0_lt_compat; lra).
  assert (E : 1 / 2 / delta = / (2 * delta)) by (field; lra). rewrite E.
  split; [|split; [split|split]].
  - apply Rmult_le_reg_l with (2 * delta); [lra|]. rewrite <- Rmult_assoc, Rinv_r by lra. lra.
  - apply Rmult_le_reg_l with (2 * delta); [lra|]. rewrite <- Rmult_assoc, Rinv_r by lra. lra.
  - apply Rmult_le_reg_l with (2 * delta); [lra|]. rewrite <- Rmult_assoc, Rinv_r by lra. lra.
  - transitivity ((A ^ 2 - B ^ 2) / (4 * delta)); [field; lra|]. rewrite HA, HB. field. lra.
  - transitivity ((2 * delta ^ 2 * (A ^ 2 + B ^ 2) - 4 * delta ^ 4 - (A ^ 2 - B ^ 2) ^ 2 / 4) / (4 * delta ^ 2)); [field; lra|].
    rewrite HA, HB. field. lra.
Qed.
Lemma pro_roundtrip delta R z : 0 < delta -> 0 <= R ->
  (let '(u, v) := Rz_to_uv false delta R z in uv_to_Rz false delta u v) = (R, z).
Proof.
  intros Hd HR. unfold Rz_to_uv. pose proof (pro_cosh delta R z Hd) as P.
  destruct (Rz_to_coshucosv false delta R z) as [cu cv]. destruct P as (P1 & P2 & P3 & P4).
  unfold uv_to_Rz. rewrite cosh_acosh, sinh_acosh, cos_acos, sin_acos_nonneg by auto. f_equal; auto.
  apply Rsqr_inj; auto. { apply Rmult_le_pos; [apply Rmult_le_pos; [lra|apply sqrt_pos]|apply sqrt_pos]. }
  rewrite !Rsqr_pow2. rewrite <- P4.
  assert (E1 : sqrt (cu ^ 2 - 1) ^ 2 = cu ^ 2 - 1) by (apply sq_sqrt; nra).
  assert (E2 : sqrt (1 - cv ^ 2) ^ 2 = 1 - cv ^ 2) by (apply sq_sqrt; nra).
  rewrite <- E1, <- E2 at 2. ring.
Qed.
Lemma pro_roundtrip2 delta u v : 0 < delta -> 0 <= u -> 0 <= v <= PI ->
  (let '(R, z) := uv_to_Rz false delta u v in Rz_to_uv false delta R z) = (u, v).
Proof.
  intros Hd Hu Hv. unfold uv_to_Rz, Rz_to_uv, Rz_to_coshucosv.
  pose proof (cosh_sinh u) as CS. pose proof (sc2 v) as SC. pose proof (cosh_ge_1 u) as C1.
  pose proof (COS_bound v) as Cv.
  assert (SS : sinh u ^ 2 = cosh u ^ 2 - 1) by lra. assert (SV : sin v ^ 2 = 1 - cos v ^ 2) by lra.
  assert (Q : (delta * sinh u * sin v) ^ 2 = delta ^ 2 * (cosh u ^ 2 - 1) * (1 - cos v ^ 2)) by (rewrite <- SS, <- SV; ring).
  rewrite (sqrt_of _ (delta * (cosh u + cos v))), (sqrt_of _ (delta * (cosh u - cos v))).
  - replace (1 / 2 / delta * (delta * (cosh u + cos v) + delta * (cosh u - cos v))) with (cosh u) by (field; lra).
    replace (1 / 2 / delta * (delta * (cosh u + cos v) - delta * (cosh u - cos v))) with (cos v) by (field; lra).
    rewrite acosh_cosh, acos_cos by auto. auto.
  - apply Rmult_le_pos; lra.
  - rewrite Q. ring.
  - apply Rmult_le_pos; lra.
  - rewrite Q. ring.
Qed.
(** ** Oblate *)
Lemma obl_cosh delta R z : 0 < delta -> 0 <= R -> let '(cu, cv) := Rz_to_coshucosv true delta R z in 1 <= cu /\ 0 <= cv <= 1 /\
  delta * cu * sqrt (1 - cv ^ 2) = R /\ delta ^ 2 * (cu ^ 2 - 1) * cv ^ 2 = z ^ 2.
Proof.
  intros Hd HR. unfold Rz_to_coshucosv. destruct (foci_facts delta R z Hd) as (PA & PB & HA & HB & S & D).
  set (A := sqrt ((R + delta) ^ 2 + z ^ 2)) in *. set (B := sqrt ((R - delta) ^ 2 + z ^ 2)) in *. clearbody A B.
  assert (E : 1 / 2 / delta = / (2 * delta)) by (field; lra). rewrite E.
  set (sv := / (2 * delta) * (A - B)).
  assert (Hsv : -1 <= sv <= 1).
  { unfold sv. split; apply Rmult_le_reg_l with (2 * delta); try lra; rewrite <- Rmult_assoc, Rinv_r by lra; lra. }
  assert (BA : B <= A) by nra.
  assert (Hsv0 : 0 <= sv).
  { unfold sv. apply Rmult_le_pos; [left; apply Rinv_0_lt_compat; lra|lra]. }
  assert (Ecv : sqrt (1 - sv ^ 2) ^ 2 = 1 - sv ^ 2) by (apply sq_sqrt; nra).
  split; [|split; [split|split]].
  - apply Rmult_le_reg_l with (2 * delta); [lra|]. rewrite <- Rmult_assoc, Rinv_r by lra. lra.
  - apply sqrt_pos.
  - rewrite <- sqrt_1 at 2. apply sqrt_le_1_alt. nra.
  - rewrite Ecv. replace (1 - (1 - sv ^ 2)) with (sv ^ 2) by ring. rewrite sqrt_sq by auto. unfold sv.
    transitivity ((A ^ 2 - B ^ 2) / (4 * delta)); [field; lra|]. rewrite HA, HB. field. lra.
  - rewrite Ecv. unfold sv.
    transitivity ((2 * delta ^ 2 * (A ^ 2 + B ^ 2) - 4 * delta ^ 4 - (A ^ 2 - B ^ 2) ^ 2 / 4) / (4 * delta ^ 2)); [field; lra|].
    rewrite HA, HB. field. lra.
Qed.
Lemma obl_roundtrip delta R z : 0 < delta -> 0 <= R ->
  (let '(u, v) := Rz_to_uv true delta R z in uv_to_Rz true delta u v) = (R, Rabs z).
Proof.
  intros Hd HR. unfold Rz_to_uv. pose proof (obl_cosh delta R z Hd HR) as P.
  destruct (Rz_to_coshucosv true delta R z) as [cu cv]. destruct P as (P1 & P2 & P3 & P4).
  unfold uv_to_Rz. rewrite cosh_acosh, sinh_acosh, cos_acos, sin_acos_nonneg by (auto; lra). f_equal; auto.
  rewrite <- sqrt_Rsqr_abs, Rsqr_pow2. symmetry. apply sqrt_of.
  { apply Rmult_le_pos; [apply Rmult_le_pos; [lra|apply sqrt_pos]|lra]. }
  assert (E1 : sqrt (cu ^ 2 - 1) ^ 2 = cu ^ 2 - 1) by (apply sq_sqrt; nra).
  rewrite <- P4. rewrite <- E1 at 2. ring.
Qed.
Lemma obl_roundtrip2 delta u v : 0 < delta -> 0 <= u -> 0 <= v <= PI / 2 ->
  (let '(R, z) := uv_to_Rz true delta u v in Rz_to_uv true delta R z) = (u, v).
Proof.
  intros Hd Hu Hv. unfold uv_to_Rz, Rz_to_uv, Rz_to_coshucosv.
  pose proof (cosh_sinh u) as CS. pose proof (sc2 v) as SC. pose proof (cosh_ge_1 u) as C1.
  pose proof (SIN_bound v) as Cv. pose proof PI_RGT_0.
  assert (SS : sinh u ^ 2 = cosh u ^ 2 - 1) by lra.
  assert (Q : (delta * sinh u * cos v) ^ 2 = delta ^ 2 * (cosh u ^ 2 - 1) * (1 - sin v ^ 2)) by (rewrite <- SS, <- SC; ring).
  rewrite (sqrt_of ((delta * cosh u * sin v + delta) ^ 2 + (delta * sinh u * cos v) ^ 2) (delta * (cosh u + sin v))),
    (sqrt_of ((delta * cosh u * sin v - delta) ^ 2 + (delta * sinh u * cos v) ^ 2) (delta * (cosh u - sin v))).
  - replace (1 / 2 / delta * (delta * (cosh u + sin v) + delta * (cosh u - sin v))) with (cosh u) by (field; lra).
    replace (1 / 2 / delta * (delta * (cosh u + sin v) - delta * (cosh u - sin v))) with (sin v) by (field; lra).
    rewrite <- SC. assert (0 <= cos v) by (apply cos_ge_0; lra). rewrite sqrt_sq by auto.
    rewrite acosh_cosh, acos_cos by (auto; lra). auto.
  - apply Rmult_le_pos; lra.
  - rewrite Q. ring.
  - apply Rmult_le_pos; lra.
  - rewrite Q. ring.
Qed.

(** ** Momenta *)
Lemma pupv_roundtrip (oblate : bool) delta vR vz u v : delta <> 0 -> (sinh u <> 0 \/ (if oblate then cos v else sin v) <> 0) ->
  (let '(pu, pv) := vRvz_to_pupv oblate true delta vR vz u v in pupv_to_vRvz oblate delta pu pv u v) = (vR, vz).
Proof.
  intros Hd H. pose proof (cosh_sinh u) as CS. pose proof (sc2 v) as SC.
  assert (CU : cosh u ^ 2 = sinh u ^ 2 + 1) by lra.
  unfold vRvz_to_pupv, pupv_to_vRvz. destruct oblate.
  - assert (P : 0 < sinh u ^ 2 + cos v ^ 2) by (destruct H; nra).
    assert (SV : sin v ^ 2 = 1 - cos v ^ 2) by lra.
    assert (I : sinh u ^ 2 * sin v ^ 2 + cosh u ^ 2 * cos v ^ 2 = sinh u ^ 2 + cos v ^ 2) by (rewrite CU, SV; ring).
    f_equal.
    + transitivity (vR * (sinh u ^ 2 * sin v ^ 2 + cosh u ^ 2 * cos v ^ 2) / (sinh u ^ 2 + cos v ^ 2)); [field; split; auto; lra|].
      rewrite I. field. lra.
    + transitivity (vz * (sinh u ^ 2 * sin v ^ 2 + cosh u ^ 2 * cos v ^ 2) / (sinh u ^ 2 + cos v ^ 2)); [field; split; auto; lra|].
      rewrite I. field. lra.
  - assert (P : 0 < sinh u ^ 2 + sin v ^ 2) by (destruct H; nra).
    assert (I : cosh u ^ 2 * sin v ^ 2 + sinh u ^ 2 * cos v ^ 2 = sinh u ^ 2 + sin v ^ 2) by (rewrite CU, SC; ring).
    f_equal.
    + transitivity (vR * (cosh u ^ 2 * sin v ^ 2 + sinh u ^ 2 * cos v ^ 2) / (sinh u ^ 2 + sin v ^ 2)); [field; split; auto; lra|].
      rewrite I. field. lra.
    + transitivity (vz * (cosh u ^ 2 * sin v ^ 2 + sinh u ^ 2 * cos v ^ 2) / (sinh u ^ 2 + sin v ^ 2)); [field; split; auto; lra|].
      rewrite I. field. lra.
Qed.
Lemma pupv_roundtrip2 (oblate : bool) delta pu pv u v : delta <> 0 -> (sinh u <> 0 \/ (if oblate then cos v else sin v) <> 0) ->
  (let '(vR, vz) := pupv_to_vRvz oblate delta pu pv u v in vRvz_to_pupv oblate true delta vR vz u v) = (pu, pv).
Proof.
  intros Hd H. pose proof (cosh_sinh u) as CS. pose proof (sc2 v) as SC.
  assert (CU : cosh u ^ 2 = sinh u ^ 2 + 1) by lra.
  unfold vRvz_to_pupv, pupv_to_vRvz. destruct oblate.
  - assert (P : 0 < sinh u ^ 2 + cos v ^ 2) by (destruct H; nra).
    assert (SV : sin v ^ 2 = 1 - cos v ^ 2) by lra.
    assert (I : sinh u ^ 2 * sin v ^ 2 + cosh u ^ 2 * cos v ^ 2 = sinh u ^ 2 + cos v ^ 2) by (rewrite CU, SV; ring).
    f_equal.
    + transitivity (pu * (sinh u ^ 2 * sin v ^ 2 + cosh u ^ 2 * cos v ^ 2) / (sinh u ^ 2 + cos v ^ 2)); [field; split; auto; lra|].
      rewrite I. field. lra.
    + transitivity (pv * (sinh u ^ 2 * sin v ^ 2 + cosh u ^ 2 * cos v ^ 2) / (sinh u ^ 2 + cos v ^ 2)); [field; split; auto; lra|].
      rewrite I. field. lra.
  - assert (P : 0 < sinh u ^ 2 + sin v ^ 2) by (destruct H; nra).
    assert (I : cosh u ^ 2 * sin v ^ 2 + sinh u ^ 2 * cos v ^ 2 = sinh u ^ 2 + sin v ^ 2) by (rewrite CU, SC; ring).
    f_equal.
    + transitivity (pu * (cosh u ^ 2 * sin v ^ 2 + sinh u ^ 2 * cos v ^ 2) / (sinh u ^ 2 + sin v ^ 2)); [field; split; auto; lra|].
      rewrite I. field. lra.
    + transitivity (pv * (cosh u ^ 2 * sin v ^ 2 + sinh u ^ 2 * cos v ^ 2) / (sinh u ^ 2 + sin v ^ 2)); [field; split; auto; lra|].
      rewrite I. field. lra.
Qed.
Lemma is_derive_cosh u : is_derive cosh u (sinh u).
Proof. unfold cosh. auto_derive; auto. unfold sinh. lra. Qed.
Lemma is_derive_sinh u : is_derive sinh u (cosh u).
Proof. unfold sinh. auto_derive; auto. unfold cosh. lra. Qed.
(** Momenta are conjugate: (pu, pv) = (vR, vz) contracted with the derivatives of the position. *)
Lemma pupv_conjugate oblate delta vR vz u v :
  exists Ru zu Rv zv : RR,
  is_derive (fun x => fst (uv_to_Rz oblate delta x v)) u Ru /\ is_derive (fun x => snd (uv_to_Rz oblate delta x v)) u zu /\
  is_derive (fun x => fst (uv_to_Rz oblate delta u x)) v Rv /\ is_derive (fun x => snd (uv_to_Rz oblate delta u x)) v zv /\
  vRvz_to_pupv oblate true delta vR vz u v = (vR * Ru + vz * zu, vR * Rv + vz * zv).
Proof.
  unfold uv_to_Rz, vRvz_to_pupv. destruct oblate; simpl.
  - exists (delta * sinh u * sin v), (delta * cosh u * cos v), (delta * cosh u * cos v), (- (delta * sinh u * sin v)).
    split; [|split; [|split; [|split]]].
    + unfold cosh, sinh. auto_derive; auto. field.
    + unfold cosh, sinh. auto_derive; auto. field.
    + auto_derive; auto. ring.
    + auto_derive; auto. ring.
    + f_equal; ring.
  - exists (delta * cosh u * sin v), (delta * sinh u * cos v), (delta * sinh u * cos v), (- (delta * cosh u * sin v)).
    split; [|split; [|split; [|split]]].
    + unfold cosh, sinh. auto_derive; auto. field.
    + unfold cosh, sinh. auto_derive; auto. field.
    + auto_derive; auto. ring.
    + auto_derive; auto. ring.
    + f_equal; ring.
Qed.

(** ** lambda, nu *)
Lemma lam_disc Delta R z : let discr := (R ^ 2 + z ^ 2 - Delta ^ 2) ^ 2 + 4 * Delta ^ 2 * R ^ 2 in
  0 <= discr /\ discr = (R ^ 2 + z ^ 2 + Delta ^ 2) ^ 2 - 4 * Delta ^ 2 * z ^ 2.
Proof.
  intros. unfold discr. split; [|ring]. pose proof (pow2_ge_0 (R ^ 2 + z ^ 2 - Delta ^ 2)).
  pose proof (pow2_ge_0 (Delta * R)). replace (4 * Delta ^ 2 * R ^ 2) with (4 * (Delta * R) ^ 2) by ring. lra.
Qed.
(** The special case for z = 0 agrees with the general formula. *)
Lemma lam_formula ac Delta R z : let g := lam_g ac Delta in let a := lam_a ac Delta in
  let s := sqrt ((R ^ 2 + z ^ 2 - Delta ^ 2) ^ 2 + 4 * Delta ^ 2 * R ^ 2) in
  Rz_to_lambdanu ac Delta R z = (1 / 2 * (R ^ 2 + z ^ 2 - a - g + s), 1 / 2 * (R ^ 2 + z ^ 2 - a - g - s)).
Proof.
  intros g a s. unfold Rz_to_lambdanu. fold g a s. destruct (Req_EM_T z 0) as [->|]; auto.
  assert (E : s = R ^ 2 + Delta ^ 2).
  { unfold s. apply sqrt_of. nra. ring. }
  rewrite E. unfold a, lam_a. fold g. f_equal; field.
Qed.
Lemma lam_sums ac Delta R z : let g := lam_g ac Delta in let a := lam_a ac Delta in
  let '(l, n) := Rz_to_lambdanu ac Delta R z in
  (l + a) * (n + a) = - (Delta ^ 2 * R ^ 2) /\ (l + g) * (n + g) = Delta ^ 2 * z ^ 2 /\
  l + n = R ^ 2 + z ^ 2 - a - g /\ n <= l /\ 0 <= l + a /\ n + a <= 0 /\ 0 <= n + g.
Proof.
  intros g a. rewrite lam_formula. fold g a.
  destruct (lam_disc Delta R z) as [P E].
  set (s := sqrt ((R ^ 2 + z ^ 2 - Delta ^ 2) ^ 2 + 4 * Delta ^ 2 * R ^ 2)) in *.
  assert (S2 : s ^ 2 = (R ^ 2 + z ^ 2 - Delta ^ 2) ^ 2 + 4 * Delta ^ 2 * R ^ 2) by (apply sq_sqrt; auto).
  assert (S0 : 0 <= s) by apply sqrt_pos. clearbody s.
  assert (Ga : a = g - Delta ^ 2) by reflexivity. clearbody a. subst a. clearbody g.
  assert (DR : 0 <= Delta ^ 2 * R ^ 2) by (apply Rmult_le_pos; apply pow2_ge_0).
  assert (DZ : 0 <= Delta ^ 2 * z ^ 2) by (apply Rmult_le_pos; apply pow2_ge_0).
  set (q := R ^ 2 + z ^ 2) in *. assert (Q0 : 0 <= q) by (unfold q; nra).
  assert (L1 : Rabs (q - Delta ^ 2) <= s). { apply Rsqr_incr_0_var; auto. rewrite <- Rsqr_abs, !Rsqr_pow2. lra. }
  assert (L2 : s <= q + Delta ^ 2). { apply Rsqr_incr_0_var; [rewrite !Rsqr_pow2; lra|pose proof (pow2_ge_0 Delta); lra]. }
  apply Rabs_le_between in L1.
  split; [|split; [|split; [|split; [|split; [|split]]]]]; try lra.
  all: transitivity (1 / 4 * ((q + Delta ^ 2) ^ 2 - s ^ 2)); [field|]; rewrite S2; unfold q; field.
Qed.
Lemma lam_ga ac Delta : lam_g ac Delta - lam_a ac Delta = Delta ^ 2.
Proof. unfold lam_a. ring. Qed.
Lemma lam_roundtrip ac Delta R z : Delta <> 0 ->
  (let '(l, n) := Rz_to_lambdanu ac Delta R z in lambdanu_to_Rz ac Delta l n) = (Rabs R, Rabs z).
Proof.
  intros HD. pose proof (lam_sums ac Delta R z) as S. destruct (Rz_to_lambdanu ac Delta R z) as [l n]. cbv zeta in S.
  destruct S as (S1 & S2 & _). unfold lambdanu_to_Rz. pose proof (lam_ga ac Delta) as GA.
  assert (D2 : Delta ^ 2 <> 0) by (apply pow_nonzero; auto).
  assert (E1 : (l + lam_a ac Delta) * (n + lam_a ac Delta) / (lam_a ac Delta - lam_g ac Delta) = R ^ 2).
  { rewrite S1. replace (lam_a ac Delta - lam_g ac Delta) with (- Delta ^ 2) by lra. field. auto. }
  assert (E2 : (l + lam_g ac Delta) * (n + lam_g ac Delta) / (lam_g ac Delta - lam_a ac Delta) = z ^ 2).
  { rewrite S2, GA. field. auto. }
  rewrite E1, E2. pose proof (pow2_ge_0 R). pose proof (pow2_ge_0 z).
  destruct (Rlt_dec (R ^ 2) 0); [lra|]. destruct (Rlt_dec (z ^ 2) 0); [lra|].
  rewrite <- !Rsqr_pow2, !sqrt_Rsqr_abs. auto.
Qed.
Lemma lam_roundtrip2 ac Delta l n : Delta <> 0 ->
  0 <= l + lam_a ac Delta -> n + lam_a ac Delta <= 0 -> 0 <= n + lam_g ac Delta ->
  (let '(R, z) := lambdanu_to_Rz ac Delta l n in Rz_to_lambdanu ac Delta R z) = (l, n).
Proof.
  intros HD H1 H2 H3. unfold lambdanu_to_Rz. pose proof (lam_ga ac Delta) as GA.
  assert (D2 : 0 < Delta ^ 2) by nra.
  set (a := lam_a ac Delta) in *. set (g := lam_g ac Delta) in *. assert (Hg : g = a + Delta ^ 2) by lra.
  replace (a - g) with (- Delta ^ 2) by lra. replace (g - a) with (Delta ^ 2) by lra.
  set (r2 := (l + a) * (n + a) / - Delta ^ 2). set (z2 := (l + g) * (n + g) / Delta ^ 2).
  assert (R0 : 0 <= r2).
  { unfold r2. replace ((l + a) * (n + a) / - Delta ^ 2) with ((l + a) * - (n + a) * / Delta ^ 2) by (field; auto).
    apply Rmult_le_pos; [apply Rmult_le_pos; lra|left; apply Rinv_0_lt_compat; lra]. }
  assert (Z0 : 0 <= z2).
  { unfold z2. apply Rmult_le_pos; [apply Rmult_le_pos; lra|left; apply Rinv_0_lt_compat; lra]. }
  destruct (Rlt_dec r2 0); [lra|]. destruct (Rlt_dec z2 0); [lra|].
  rewrite lam_formula. fold a g. rewrite !sq_sqrt by auto.
  assert (T : r2 + z2 = l + n + a + g). { unfold r2, z2. rewrite Hg. field. auto. }
  assert (S : sqrt ((r2 + z2 - Delta ^ 2) ^ 2 + 4 * Delta ^ 2 * r2) = l - n).
  { apply sqrt_of; [lra|]. rewrite T. unfold r2. rewrite Hg. field. auto. }
  rewrite S, T. f_equal; field.
Qed.

(** Jacobian and Hessian, as partial derivatives.  Off the foci (R = 0, |z| = |Delta|) the root is positive. *)
Lemma lam_disc_pos Delta R z : R <> 0 \/ z ^ 2 <> Delta ^ 2 -> Delta <> 0 -> 0 < (R ^ 2 + z ^ 2 - Delta ^ 2) ^ 2 + 4 * Delta ^ 2 * R ^ 2.
Proof.
  intros H HD. assert (0 < Delta ^ 2) by nra. pose proof (pow2_ge_0 (R ^ 2 + z ^ 2 - Delta ^ 2)).
  destruct (Req_dec R 0) as [->|HR].
  - destruct H as [H|H]; [lra|]. replace (4 * Delta ^ 2 * 0 ^ 2) with 0 by ring.
    assert (0 ^ 2 + z ^ 2 - Delta ^ 2 <> 0) by nra. assert (0 < (0 ^ 2 + z ^ 2 - Delta ^ 2) ^ 2) by nra. lra.
  - assert (0 < R ^ 2) by nra. assert (0 < Delta ^ 2 * R ^ 2) by (apply Rmult_lt_0_compat; auto). lra.
Qed.
