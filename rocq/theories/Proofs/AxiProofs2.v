(** Plummer, isochrone, Kuzmin, pseudo-isothermal, Dehnen-core, Hernquist, Jaffe, NFW. *)
From Coq Require Import Reals Lra Psatz.
From Coquelicot Require Import Coquelicot.
From Verif.Lib Require Import RealAux.
From Verif.Model Require Import PotAPI PotAxi.
From Verif.Proofs Require Import AxiProofs.
Open Scope R_scope.
Notation RR := RbaseSymbolsImpl.R (only parsing).

Definition DAll (R z : RR) : Prop := True.
Definition DOrigin (R z : RR) : Prop := R <> 0 \/ z <> 0.

(** name the square root of [x] in goal and context, with its square *)
Ltac setsqrt s Es x Hx :=
  let Hs := fresh "Hs" in
  pose proof (sqrt_lt_R0 _ Hx) as Hs; pose proof (sqrt_sqrt x (Rlt_le _ _ Hx)) as Es;
  set (s := sqrt x) in *; clearbody s.

Section Plummerp.
  Variable b : RR.
  Hypothesis Hb : b <> 0.
  Lemma Pl_pos R z : 0 < R ^ 2 + z ^ 2 + b ^ 2.
  Proof. pose proof (sq_pos b Hb). nra. Qed.
  Lemma Pl_pos' R z : 0 < R ^ 2 + z ^ 2 + Pl_b2 b.
  Proof. apply Pl_pos. Qed.
  Ltac go R z s Es := 
    pose proof (Pl_pos R z) as Hp; 
    cbv [Pl_ev Pl_Rf Pl_zf Pl_dPhidrr Pl_R2 Pl_z2 Pl_Rz Pl_b2 rpow Rpower];
    auto_derive; 
    [ repeat split; auto; try (apply Rgt_not_eq, sqrt_lt_R0; auto)
    | fold_rpow; toR; halfpow; setsqrt s Es (R ^ 2 + z ^ 2 + b ^ 2) Hp ].
  Lemma Pl_force : AxiForce DAll (Pl_ev b) (Pl_Rf b) (Pl_zf b).
  Proof.
    split; intros R z _; go R z s Es; field; lra.
  Qed.
  Lemma Pl_hess : AxiHess DAll (Pl_Rf b) (Pl_zf b) (Pl_R2 b) (Pl_z2 b) (Pl_Rz b).
  Proof.
    split; intros R z _; go R z s Es; rewrite <- ?Es;
    assert (Eb : b ^ 2 = s * s - R ^ 2 - z ^ 2) by lra; rewrite ?Eb; field; lra.
  Qed.
  Lemma Pl_poisson : AxiPoisson DAll (Pl_Rf b) (Pl_R2 b) (Pl_z2 b) (Pl_dens b).
  Proof.
    intros R z _ HR. pose proof (Pl_pos R z) as Hp. pose proof PI_RGT_0.
    unfold Pl_Rf, Pl_dPhidrr, Pl_R2, Pl_z2, Pl_dens, Pl_b2. halfpow.
    setsqrt s Es (R ^ 2 + z ^ 2 + b ^ 2) Hp.
    assert (Eb : b ^ 2 = s * s - R ^ 2 - z ^ 2) by lra; rewrite ?Eb. field. lra.
  Qed.
End Plummerp.

Section Isop.
  Variable b : RR.
  Hypothesis Hb : 0 < b.
  Lemma Iso_pos R z : 0 < R ^ 2 + z ^ 2 + b ^ 2.
  Proof. nra. Qed.
  Ltac go R z s Es := 
    pose proof (Iso_pos R z) as Hp; 
    cbv [Iso_ev Iso_Rf Iso_zf Iso_dPhidrr Iso_R2 Iso_z2 Iso_Rz Iso_rb];
    pose proof (sqrt_lt_R0 _ Hp);
    auto_derive; 
    [ repeat split; auto; try (apply Rgt_not_eq, sqrt_lt_R0; auto); try lra; 
      try (apply pow_nonzero; lra)
    | setsqrt s Es (R ^ 2 + z ^ 2 + b ^ 2) Hp ].
  Lemma Iso_force : AxiForce DAll (Iso_ev b) (Iso_Rf b) (Iso_zf b).
  Proof.
    split; intros R z _; go R z s Es; field; lra.
  Qed.
  Lemma Iso_hess : AxiHess DAll (Iso_Rf b) (Iso_zf b) (Iso_R2 b) (Iso_z2 b) (Iso_Rz b).
  Proof.
    split; intros R z _; go R z s Es; rewrite <- ?Es.
    - assert (Eb : z ^ 2 = s * s - R ^ 2 - b ^ 2) by lra; rewrite ?Eb; field; lra.
    - assert (Eb : R ^ 2 = s * s - z ^ 2 - b ^ 2) by lra; rewrite ?Eb; field; lra.
    - field; lra.
    - field; lra.
  Qed.
  Lemma Iso_poisson : AxiPoisson DAll (Iso_Rf b) (Iso_R2 b) (Iso_z2 b) (Iso_dens b).
  Proof.
    intros R z _ HR. pose proof (Iso_pos R z) as Hp. pose proof PI_RGT_0.
    unfold Iso_Rf, Iso_dPhidrr, Iso_R2, Iso_z2, Iso_dens, Iso_rb.
    setsqrt s Es (R ^ 2 + z ^ 2 + b ^ 2) Hp.
    assert (Eb : z ^ 2 = s * s - R ^ 2 - b ^ 2) by lra; rewrite ?Eb. field. lra.
  Qed.
End Isop.

Section Kuzminp.
  Variable a : RR.
  Hypothesis Ha : 0 <= a.
  (** off the disc plane, where the potential is smooth *)
  Definition DKz (R z : RR) : Prop := z <> 0.
  Lemma Kz_pos R z : z <> 0 -> 0 < R ^ 2 + (a + Rabs z) ^ 2.
  Proof. intros H. pose proof (Rabs_pos_lt z H). nra. Qed.
  Lemma is_derive_abs z : z <> 0 -> is_derive Rabs z (rsign z).
  Proof.
    intros H. unfold rsign. destruct (Rlt_dec 0 z).
    - eapply is_derive_loc with (f := fun y => y) (P := fun y => 0 < y).
      + apply locally_pos; auto.
      + intros. symmetry. apply Rabs_right; lra.
      + auto_derive; auto.
    - destruct (Rlt_dec z 0); [|lra].
      eapply is_derive_loc with (f := fun y => - y) (P := fun y => y < 0).
      + apply locally_lt; auto.
      + intros. symmetry. apply Rabs_left; lra.
      + auto_derive; auto; ring.
  Qed.
  Lemma rsign_sq z : z <> 0 -> rsign z * rsign z = 1.
  Proof. intros H. unfold rsign. destruct (Rlt_dec 0 z); [lra|]. destruct (Rlt_dec z 0); lra. Qed.
  Lemma locally_rsign z : z <> 0 -> locally z (fun y => rsign y = rsign z /\ y <> 0).
  Proof.
    intros H. destruct (Rlt_dec 0 z).
    - eapply filter_imp; [|apply (locally_pos z r)]. intros y Hy. unfold rsign.
      destruct (Rlt_dec 0 y); [|lra]. destruct (Rlt_dec 0 z); [|lra]. split; lra.
    - assert (z < 0) by lra.
      eapply filter_imp; [|apply (locally_lt 0 z); auto]. intros y Hy. cbv beta in Hy. unfold rsign.
      destruct (Rlt_dec 0 y); [lra|]. destruct (Rlt_dec 0 z); [lra|].
      destruct (Rlt_dec y 0); [|lra]. destruct (Rlt_dec z 0); [|lra]. split; lra.
  Qed.
  Lemma Kz_force : AxiForce DKz (Kz_ev a) (Kz_Rf a) (Kz_zf a).
  Proof.
    split; intros R z Hz; unfold DKz in Hz; pose proof (Kz_pos R z Hz) as Hp;
      cbv [Kz_ev Kz_Rf Kz_zf Kz_den].
    - cbv [rpow Rpower]. auto_derive; [auto|]. fold_rpow; toR; halfpow.
      setsqrt s Es (R ^ 2 + (a + Rabs z) ^ 2) Hp. rewrite <- ?Es. field. lra.
    - eapply is_derive_eq.
      + apply (is_derive_Rchain (fun w => - rpow (R ^ 2 + (a + w) ^ 2) (- (1/2))) Rabs).
        * cbv [rpow Rpower]. auto_derive; [auto|]. reflexivity.
        * apply is_derive_abs; auto.
      + fold_rpow; toR; halfpow. 
      setsqrt s Es (R ^ 2 + (a + Rabs z) ^ 2) Hp. rewrite <- ?Es. field. lra.
  Qed.
  Lemma Kz_hess : AxiHess DKz (Kz_Rf a) (Kz_zf a) (Kz_R2 a) (Kz_z2 a) (Kz_Rz a).
  Proof.
    split; intros R z Hz; unfold DKz in Hz; pose proof (Kz_pos R z Hz) as Hp;
      cbv [Kz_Rf Kz_zf Kz_R2 Kz_z2 Kz_Rz Kz_den].
    - cbv [rpow Rpower]. auto_derive; [auto|]. fold_rpow; toR; halfpow.
      setsqrt s Es (R ^ 2 + (a + Rabs z) ^ 2) Hp. rewrite <- ?Es. field. lra.
    - eapply is_derive_loc with (P := fun y => rsign y = rsign z /\ y <> 0).
      + apply locally_rsign; auto.
      + intros y [Hy Hy0]. symmetry. rewrite Hy. reflexivity.
      + eapply is_derive_eq.
        * apply (is_derive_Rchain (fun w => - (- rsign z * rpow (R ^ 2 + (a + w) ^ 2) (- (3/2)) * (a + w))) Rabs).
          -- cbv [rpow Rpower]. auto_derive; [auto|]. reflexivity.
          -- apply is_derive_abs; auto.
        * fold_rpow; toR; halfpow. pose proof (rsign_sq z Hz) as Hsg.
          setsqrt s Es (R ^ 2 + (a + Rabs z) ^ 2) Hp. rewrite <- ?Es.
          set (g := rsign z) in *. clearbody g. field_simplify_eq; [|lra].
          replace (g ^ 2) with 1 by lra. ring.
    - eapply is_derive_eq.
      + apply (is_derive_Rchain (fun w => - (- rpow (R ^ 2 + (a + w) ^ 2) (- (3/2)) * R)) Rabs).
        * cbv [rpow Rpower]. auto_derive; [auto|]. reflexivity.
        * apply is_derive_abs; auto.
      + fold_rpow; toR; halfpow.
        setsqrt s Es (R ^ 2 + (a + Rabs z) ^ 2) Hp. rewrite <- ?Es. field. lra.
    - cbv [rpow Rpower]. auto_derive; [auto|]. fold_rpow; toR; halfpow.
      setsqrt s Es (R ^ 2 + (a + Rabs z) ^ 2) Hp. rewrite <- ?Es. field. lra.
  Qed.
  (** Off the plane the density is zero. *)
  Lemma Kz_poisson : AxiPoisson DKz (Kz_Rf a) (Kz_R2 a) (Kz_z2 a) (fun _ _ => 0).
  Proof.
    intros R z Hz HR. pose proof (Kz_pos R z Hz) as Hp.
    unfold Kz_Rf, Kz_R2, Kz_z2, Kz_den. halfpow.
    setsqrt s Es (R ^ 2 + (a + Rabs z) ^ 2) Hp.
    assert (E : (a + Rabs z) ^ 2 = s * s - R ^ 2) by lra. rewrite E. field. lra.
  Qed.
End Kuzminp.
