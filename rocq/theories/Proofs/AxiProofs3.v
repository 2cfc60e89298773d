(** Dehnen-core, Hernquist, Jaffe, NFW, pseudo-isothermal, Dehnen, power law, flattened power law,
    homogeneous sphere. *)
From Coq Require Import Reals Lra Psatz.
From Coquelicot Require Import Coquelicot.
From Verif.Lib Require Import RealAux.
From Verif.Model Require Import PotAPI PotAxi.
From Verif.Proofs Require Import AxiProofs AxiProofs2.
Open Scope R_scope.
Notation RR := RbaseSymbolsImpl.R (only parsing).

Lemma DO_pos R z : DOrigin R z -> 0 < R ^ 2 + z ^ 2.
Proof. apply origin_pos. Qed.
Lemma DO_loc_R R z : DOrigin R z -> locally R (fun y => DOrigin y z).
Proof.
  intros [H|H].
  - eapply filter_imp; [|apply (open_neq 0 R H)]. intros y Hy. left; auto.
  - exists (mkposreal 1 Rlt_0_1). intros y _. right; auto.
Qed.
Lemma DO_loc_z R z : DOrigin R z -> locally z (fun y => DOrigin R y).
Proof.
  intros [H|H].
  - exists (mkposreal 1 Rlt_0_1). intros y _. left; auto.
  - eapply filter_imp; [|apply (open_neq 0 z H)]. intros y Hy. right; auto.
Qed.
Lemma DO_sqrt R z : DOrigin R z -> sqrt (R ^ 2 + z ^ 2) <> 0.
Proof. intros H. apply Rgt_not_eq, sqrt_lt_R0, DO_pos, H. Qed.

(** common start of the derivative proofs: [r = sqrt (R^2+z^2)] is positive *)
Ltac sph_side := repeat split; auto; 
  try (apply Rgt_not_eq, sqrt_lt_R0; auto);
  try (apply Rgt_not_eq; apply pow_lt); try (apply Rgt_not_eq, exp_pos); try lra; try nra.

Section DCp.
  Variable a : RR.
  Hypothesis Ha : 0 < a.
  Ltac go R z HD s Es :=
    pose proof (DO_pos R z HD) as Hp; clear HD;
    cbv [DC_ev DC_Rf DC_zf DC_R2 DC_z2 DC_Rz DC_r];
    rewrite ?(Rplus_comm (z ^ 2) (R ^ 2));
    pose proof (sqrt_lt_R0 _ Hp) as Hs0;
    assert (0 < a / sqrt (R ^ 2 + z ^ 2)) by (apply Rdiv_lt_0_compat; auto);
    auto_derive; [ sph_side | setsqrt s Es (R ^ 2 + z ^ 2) Hp ].
  Lemma DC_force : AxiForce DOrigin (DC_ev a) (DC_Rf a) (DC_zf a).
  Proof. split; intros R z HD; go R z HD s Es; field; lra. Qed.
  Lemma DC_hess : AxiHess DOrigin (DC_Rf a) (DC_zf a) (DC_R2 a) (DC_z2 a) (DC_Rz a).
  Proof.
    split; intros R z HD; go R z HD s Es.
    - assert (E : z ^ 2 = s * s - R ^ 2) by lra; rewrite ?E; field; lra.
    - assert (E : R ^ 2 = s * s - z ^ 2) by lra; rewrite ?E; field; lra.
    - field; lra.
    - field; lra.
  Qed.
  Lemma DC_poisson : AxiPoisson DOrigin (DC_Rf a) (DC_R2 a) (DC_z2 a) (DC_dens a).
  Proof.
    intros R z HD HR. pose proof (DO_pos R z HD) as Hp. pose proof PI_RGT_0.
    unfold DC_Rf, DC_z2, DC_R2, DC_dens, DC_r. rewrite ?(Rplus_comm (z ^ 2) (R ^ 2)).
    setsqrt s Es (R ^ 2 + z ^ 2) Hp.
    assert (E : z ^ 2 = s * s - R ^ 2) by lra; rewrite ?E. field. repeat split; try lra.
  Qed.
End DCp.

Section Hep.
  Variable a : RR.
  Hypothesis Ha : 0 < a.
  Ltac go R z HD s Es :=
    pose proof (DO_pos R z HD) as Hp; clear HD;
    cbv [He_ev He_Rf He_zf He_R2 He_z2 He_Rz He_r];
    rewrite ?(Rplus_comm (z ^ 2) (R ^ 2));
    pose proof (sqrt_lt_R0 _ Hp) as Hs0;
    assert (0 < sqrt (R ^ 2 + z ^ 2) / a) by (apply Rdiv_lt_0_compat; auto);
    auto_derive; [ sph_side | setsqrt s Es (R ^ 2 + z ^ 2) Hp ].
  Lemma He_force : AxiForce DOrigin (He_ev a) (He_Rf a) (He_zf a).
  Proof. split; intros R z HD; go R z HD s Es; field; lra. Qed.
  Lemma He_hess : AxiHess DOrigin (He_Rf a) (He_zf a) (He_R2 a) (He_z2 a) (He_Rz a).
  Proof.
    split; intros R z HD; go R z HD s Es.
    - assert (E : z ^ 2 = s * s - R ^ 2) by lra; rewrite ?E; field; lra.
    - assert (E : R ^ 2 = s * s - z ^ 2) by lra; rewrite ?E; field; lra.
    - field; lra.
    - field; lra.
  Qed.
  Lemma He_poisson : AxiPoisson DOrigin (He_Rf a) (He_R2 a) (He_z2 a) (He_dens a).
  Proof.
    intros R z HD HR. pose proof (DO_pos R z HD) as Hp. pose proof PI_RGT_0.
    unfold He_Rf, He_z2, He_R2, He_dens, De_dens, He_r, De_r. rewrite ?(Rplus_comm (z ^ 2) (R ^ 2)).
    pose proof (sqrt_lt_R0 _ Hp) as Hs0.
    assert (0 < sqrt (R ^ 2 + z ^ 2) / a) by (apply Rdiv_lt_0_compat; auto).
    assert (0 < a / sqrt (R ^ 2 + z ^ 2)) by (apply Rdiv_lt_0_compat; auto).
    replace (4 - 1) with 3 by lra. rewrite rpow_1, rpow_3 by lra.
    setsqrt s Es (R ^ 2 + z ^ 2) Hp.
    assert (E : z ^ 2 = s * s - R ^ 2) by lra; rewrite ?E. field. repeat split; try lra.
  Qed.
End Hep.

Section Jap.
  Variable a : RR.
  Hypothesis Ha : 0 < a.
  Ltac go R z HD s Es :=
    pose proof (DO_pos R z HD) as Hp; clear HD;
    cbv [Ja_ev Ja_Rf Ja_zf Ja_R2 Ja_z2 Ja_Rz Ja_r];
    rewrite ?(Rplus_comm (z ^ 2) (R ^ 2));
    pose proof (sqrt_lt_R0 _ Hp) as Hs0;
    assert (0 < a / sqrt (R ^ 2 + z ^ 2)) by (apply Rdiv_lt_0_compat; auto);
    auto_derive; [ sph_side | setsqrt s Es (R ^ 2 + z ^ 2) Hp ].
  Lemma Ja_force : AxiForce DOrigin (Ja_ev a) (Ja_Rf a) (Ja_zf a).
  Proof. split; intros R z HD; go R z HD s Es; field; lra. Qed.
  Lemma Ja_hess : AxiHess DOrigin (Ja_Rf a) (Ja_zf a) (Ja_R2 a) (Ja_z2 a) (Ja_Rz a).
  Proof.
    split; intros R z HD; go R z HD s Es.
    - assert (E : z ^ 2 = s * s - R ^ 2) by lra; rewrite ?E; field; lra.
    - assert (E : R ^ 2 = s * s - z ^ 2) by lra; rewrite ?E; field; lra.
    - field; lra.
    - field; lra.
  Qed.
  Lemma Ja_poisson : AxiPoisson DOrigin (Ja_Rf a) (Ja_R2 a) (Ja_z2 a) (Ja_dens a).
  Proof.
    intros R z HD HR. pose proof (DO_pos R z HD) as Hp. pose proof PI_RGT_0.
    unfold Ja_Rf, Ja_z2, Ja_R2, Ja_dens, De_dens, Ja_r, De_r. rewrite ?(Rplus_comm (z ^ 2) (R ^ 2)).
    pose proof (sqrt_lt_R0 _ Hp) as Hs0.
    assert (0 < sqrt (R ^ 2 + z ^ 2) / a) by (apply Rdiv_lt_0_compat; auto).
    assert (0 < a / sqrt (R ^ 2 + z ^ 2)) by (apply Rdiv_lt_0_compat; auto).
    replace (4 - 2) with 2 by lra. rewrite !rpow_2 by lra.
    setsqrt s Es (R ^ 2 + z ^ 2) Hp.
    assert (E : z ^ 2 = s * s - R ^ 2) by lra; rewrite ?E. field. repeat split; try lra.
  Qed.
End Jap.

Section NFWp.
  Variable a : RR.
  Hypothesis Ha : 0 < a.
  Lemma NFW_ev_eq R z : DOrigin R z ->
    NFW_ev a R z = - (1 / sqrt (R ^ 2 + z ^ 2) * ln (1 + sqrt (R ^ 2 + z ^ 2) / a)).
  Proof.
    intros HD. unfold NFW_ev, NFW_r. destruct (Req_EM_T _ _) as [E|E]; auto.
    exfalso. apply (DO_sqrt R z HD E).
  Qed.
  Ltac go R z Hp s Es L :=
    cbv [NFW_Rf NFW_zf NFW_R2 NFW_Rz NFW_r rpow Rpower];
    rewrite ?(Rplus_comm (z ^ 2) (R ^ 2));
    pose proof (sqrt_lt_R0 _ Hp) as Hs0;
    assert (0 < sqrt (R ^ 2 + z ^ 2) / a) by (apply Rdiv_lt_0_compat; auto);
    auto_derive; [ sph_side | fold_rpow; halfpow; set (L := ln (1 + _)) in *; clearbody L;
      setsqrt s Es (R ^ 2 + z ^ 2) Hp ].
  Lemma NFW_force : AxiForce DOrigin (NFW_ev a) (NFW_Rf a) (NFW_zf a).
  Proof.
    split; intros R z HD.
    - eapply is_derive_loc with (P := fun y => DOrigin y z).
      + apply DO_loc_R; auto.
      + intros y Hy. symmetry. apply NFW_ev_eq; auto.
      + pose proof (DO_pos R z HD) as Hp; clear HD. go R z Hp s Es L. rewrite <- ?Es. field. lra.
    - eapply is_derive_loc with (P := fun y => DOrigin R y).
      + apply DO_loc_z; auto.
      + intros y Hy. symmetry. apply NFW_ev_eq; auto.
      + pose proof (DO_pos R z HD) as Hp; clear HD. go R z Hp s Es L. rewrite <- ?Es. field. lra.
  Qed.
  Lemma NFW_R2_even R z : NFW_R2 a (Rabs R) z = NFW_R2 a R z.
  Proof.
    unfold NFW_R2, NFW_r.
    assert (E2 : Rabs R ^ 2 = R ^ 2).
    { rewrite RPow_abs. apply Rabs_right, Rle_ge. nra. }
    assert (E4 : Rabs R ^ 4 = R ^ 4).
    { replace (Rabs R ^ 4) with ((Rabs R ^ 2) ^ 2) by ring. rewrite E2. ring. }
    rewrite E2, E4. reflexivity.
  Qed.
  Lemma NFW_hess : AxiHess DOrigin (NFW_Rf a) (NFW_zf a) (NFW_R2 a) (NFW_z2 a) (NFW_Rz a).
  Proof.
    split; intros R z HD; pose proof (DO_pos R z HD) as Hp; clear HD;
    unfold NFW_z2; rewrite ?NFW_R2_even; go R z Hp s Es L; rewrite <- ?Es.
    - assert (E : z ^ 2 = s * s - R ^ 2) by lra; rewrite ?E; field; lra.
    - replace (z ^ 4) with (z ^ 2 * z ^ 2) by ring.
      assert (E : R ^ 2 = s * s - z ^ 2) by lra; rewrite ?E; field; lra.
    - field; lra.
    - field; lra.
  Qed.
  Lemma NFW_poisson : AxiPoisson DOrigin (NFW_Rf a) (NFW_R2 a) (NFW_z2 a) (NFW_dens a).
  Proof.
    intros R z HD HR. pose proof (DO_pos R z HD) as Hp. pose proof PI_RGT_0.
    unfold NFW_z2; rewrite NFW_R2_even.
    unfold NFW_Rf, NFW_R2, NFW_dens, TP_dens, NFW_r. rewrite ?(Rplus_comm (z ^ 2) (R ^ 2)).
    pose proof (sqrt_lt_R0 _ Hp) as Hs0.
    assert (0 < sqrt (R ^ 2 + z ^ 2) / a) by (apply Rdiv_lt_0_compat; auto).
    assert (0 < a / sqrt (R ^ 2 + z ^ 2)) by (apply Rdiv_lt_0_compat; auto).
    replace (3 - 1) with 2 by lra. rewrite rpow_1, rpow_2 by lra. halfpow.
    set (L := ln _). clearbody L.
    setsqrt s Es (R ^ 2 + z ^ 2) Hp. rewrite <- ?Es.
    replace (z ^ 4) with (z ^ 2 * z ^ 2) by ring.
    assert (E : z ^ 2 = s * s - R ^ 2) by lra; rewrite ?E. field. repeat split; try lra.
  Qed.
End NFWp.

Section PIp.
  Variable a : RR.
  Hypothesis Ha : 0 < a.
  Lemma PI_ev_eq R z : DOrigin R z ->
    PI_ev a R z = (/ 2 * ln (1 + (R ^ 2 + z ^ 2) / a ^ 2)
          + a / sqrt (R ^ 2 + z ^ 2) * atan (sqrt (R ^ 2 + z ^ 2) / a)) / a.
  Proof.
    intros HD. unfold PI_ev, PI_r. destruct (Req_EM_T _ _) as [E|E]; auto.
    exfalso. apply (DO_sqrt R z HD E).
  Qed.
  Ltac go R z Hp s Es L :=
    cbv [PI_Rf PI_zf PI_R2 PI_z2 PI_Rz PI_r Rsqr];
    rewrite ?(Rplus_comm (z ^ 2) (R ^ 2));
    pose proof (sqrt_lt_R0 _ Hp) as Hs0;
    assert (0 < (R ^ 2 + z ^ 2) / a ^ 2) by (apply Rdiv_lt_0_compat; [auto|nra]);
    auto_derive; [ sph_side | set (L := atan _) in *; clearbody L;
      setsqrt s Es (R ^ 2 + z ^ 2) Hp ].
  Lemma PI_force : AxiForce DOrigin (PI_ev a) (PI_Rf a) (PI_zf a).
  Proof.
    split; intros R z HD.
    - eapply is_derive_loc with (P := fun y => DOrigin y z).
      + apply DO_loc_R; auto.
      + intros y Hy. symmetry. apply PI_ev_eq; auto.
      + pose proof (DO_pos R z HD) as Hp; clear HD. go R z Hp s Es L. unfold Rsqr. rewrite <- ?Es. field. nz.
    - eapply is_derive_loc with (P := fun y => DOrigin R y).
      + apply DO_loc_z; auto.
      + intros y Hy. symmetry. apply PI_ev_eq; auto.
      + pose proof (DO_pos R z HD) as Hp; clear HD. go R z Hp s Es L. unfold Rsqr. rewrite <- ?Es. field. nz.
  Qed.
  Lemma PI_hess : AxiHess DOrigin (PI_Rf a) (PI_zf a) (PI_R2 a) (PI_z2 a) (PI_Rz a).
  Proof.
    split; intros R z HD; pose proof (DO_pos R z HD) as Hp; clear HD;
    go R z Hp s Es L; unfold Rsqr; rewrite <- ?Es; field; nz.
  Qed.
  Lemma PI_poisson : AxiPoisson DOrigin (PI_Rf a) (PI_R2 a) (PI_z2 a) (PI_dens a).
  Proof.
    intros R z HD HR. pose proof (DO_pos R z HD) as Hp. pose proof PI_RGT_0.
    unfold PI_Rf, PI_R2, PI_z2, PI_dens, PI_r. 
    set (L := atan _). clearbody L.
    setsqrt s Es (R ^ 2 + z ^ 2) Hp. rewrite <- ?Es.
    assert (E : z ^ 2 = s * s - R ^ 2) by lra; rewrite ?E. field. nz.
  Qed.
End PIp.
