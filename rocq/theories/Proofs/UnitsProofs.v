(** Conversion factors against the internal units *)
From Coq Require Import Reals List Bool String ZArith Lra Lia.
From Verif Require Import Model.Conversion Spec.UnitsSpec.
Import ListNotations.
Open Scope string_scope. Open Scope list_scope. Open Scope R_scope.

Definition pos5 (a b c d e : R) : Prop := 0 < a /\ 0 < b /\ 0 < c /\ 0 < d /\ 0 < e.

Ltac units_unfold := cbv [internal unit_length unit_velocity unit_mass of_length of_velocity of_mass powerRZ Pos.to_nat Pos.iter_op Init.Nat.add pow
  Conversion.time_in_Gyr Conversion.kmsInPcMyr Conversion.kms Conversion.km Conversion.sec Conversion.udiv Conversion.umul Conversion.upow Conversion.uone Conversion.uscale
  Conversion.pc Conversion.kpc Conversion.Myr Conversion.Gyr Conversion.yr Conversion.Msun Conversion.value Conversion.G_ Conversion.freq_in_Gyr Conversion.freq_in_kmskpc
  Conversion.force_in_kmsMyr Conversion.force_in_pcMyr2 Conversion.force_in_2piGmsolpc2 Conversion.dens_in_msolpc3 Conversion.surfdens_in_msolpc2 Conversion.mass_in_msol
  Conversion.mass_in_1010msol Conversion.velocity_in_kpcGyr Conversion.dens_in_gevcc Conversion.dens_in_criticaldens Conversion.dens_in_meanmatterdens
  Conversion.force_in_10m13kms2 Conversion.MyrIn1013Sec Conversion.TWOPI Conversion.PCIN10p18CM Conversion.CIN10p5KMS Conversion.MSOLAR10p30KG Conversion.EVIN10m19J Conversion.JIN10p10KM2S2Msun
  Conversion.cm Conversion.Joule Conversion.GM_unit].
Ltac units_solve := units_unfold; field; repeat split; try lra; try apply PI_neq0.

Lemma base_pos parsec grav ro vo : 0 < parsec -> 0 < grav -> 0 < ro -> 0 < vo ->
  0 < unit_length parsec ro /\ 0 < unit_velocity vo /\ 0 < unit_mass parsec grav ro vo.
Proof.
  intros. unfold unit_mass, unit_length, unit_velocity.
  assert (0 < ro * (1000 * parsec)) by (apply Rmult_lt_0_compat; lra). assert (0 < vo * 1000) by lra.
  assert (0 < (vo * 1000) ^ 2) by (apply pow_lt; lra). split; [assumption | split; [assumption |]].
  apply Rdiv_lt_0_compat; auto. apply Rmult_lt_0_compat; auto.
Qed.
Lemma internal_pos parsec grav ro vo e : 0 < parsec -> 0 < grav -> 0 < ro -> 0 < vo -> 0 < internal parsec grav ro vo e.
Proof.
  intros. destruct (base_pos parsec grav ro vo) as (A & B & C); auto. unfold internal.
  apply Rmult_lt_0_compat; [apply Rmult_lt_0_compat |]; apply powerRZ_lt; auto.
Qed.
Lemma internal_add parsec grav ro vo a b : 0 < parsec -> 0 < grav -> 0 < ro -> 0 < vo ->
  internal parsec grav ro vo (exps_add a b) = internal parsec grav ro vo a * internal parsec grav ro vo b.
Proof.
  intros. unfold internal. cbn [of_length of_velocity of_mass exps_add].
  destruct (base_pos parsec grav ro vo) as (A & B & C); auto.
  rewrite !powerRZ_add by (apply Rgt_not_eq; auto). ring.
Qed.

Lemma powerRZ_powerRZ x m n : 0 < x -> powerRZ x (n * m) = powerRZ (powerRZ x m) n.
Proof.
  intros Hx. rewrite !(powerRZ_Rpower x) by assumption. rewrite powerRZ_Rpower by apply exp_pos. rewrite Rpower_mult, mult_IZR. f_equal; ring.
Qed.
Lemma internal_mul parsec grav ro vo n a : 0 < parsec -> 0 < grav -> 0 < ro -> 0 < vo ->
  internal parsec grav ro vo (exps_mul n a) = powerRZ (internal parsec grav ro vo a) n.
Proof.
  intros. unfold internal. cbn [of_length of_velocity of_mass exps_mul].
  destruct (base_pos parsec grav ro vo) as (A & B & C); auto.
  rewrite !powerRZ_mult, !powerRZ_powerRZ by auto. reflexivity.
Qed.

Section Table.
  Variables parsec solar grav light evolt ro vo : R.
  Hypothesis Hpc : 0 < parsec. Hypothesis Hs : 0 < solar. Hypothesis HG : 0 < grav. Hypothesis Hro : 0 < ro. Hypothesis Hvo : 0 < vo.
  Local Notation iu := (internal parsec grav ro vo).

  Lemma lookup_In {A} q (l : list (string * A)) v : lookup q l = Some v -> In (q, v) l.
  Proof.
    induction l as [|[k w] l IH]; cbn; [discriminate |]. destruct (String.eqb_spec q k) as [-> |]; [intros [= ->]; auto | auto].
  Qed.
  (** every entry of the table, with the exponents the specification gives its name *)
  Lemma table_ok q fac u e : lookup q (output_table parsec solar grav) = Some (fac, u) -> lookup q kinds = Some e ->
    exists k, fac (Some ro) (Some vo) = Ok k /\ k * value u = iu e /\ dimension u = exps_dim e /\ 0 < value u.
  Proof.
    intros L E. apply lookup_In in L.
    assert (P : forall a b, 0 < a -> 0 < b -> 0 < a * b) by (intros; now apply Rmult_lt_0_compat).
    assert (D : forall a b, 0 < a -> 0 < b -> 0 < a / b) by (intros; now apply Rdiv_lt_0_compat).
    unfold output_table in L. cbn [In] in L.
    repeat (destruct L as [[= <- <- <-] | L]; [vm_compute in E; first [discriminate E | injection E as <-];
      (eexists; split; [reflexivity | split; [units_solve | split; [reflexivity | cbn -[pow]; repeat first [assumption | apply P | apply D | apply Rinv_0_lt_compat | lra]]]]) |]).
    destruct L.
  Qed.
End Table.
