(** C18: prolate and oblate spheroidal coordinates round-trip. *)
From Coq Require Import Reals Lra.
From Coquelicot Require Import Coquelicot.
From Verif.Lib Require Import RealAux.
From Verif.Model Require Import CoordsSpheroid.
From Verif.Proofs Require Import SkyProofs SpheroidProofs.
Open Scope R_scope.
Notation RR := RbaseSymbolsImpl.R (only parsing).

Theorem C18_prolate_Rz_uv_Rz : forall delta R z, 0 < delta -> 0 <= R ->
  (let '(u, v) := Rz_to_uv false delta R z in uv_to_Rz false delta u v) = (R, z).
Proof. exact pro_roundtrip. Qed.
Print Assumptions C18_prolate_Rz_uv_Rz.
Theorem C18_prolate_uv_Rz_uv : forall delta u v, 0 < delta -> 0 <= u -> 0 <= v <= PI ->
  (let '(R, z) := uv_to_Rz false delta u v in Rz_to_uv false delta R z) = (u, v).
Proof. exact pro_roundtrip2. Qed.
Print Assumptions C18_prolate_uv_Rz_uv.
Theorem C18_oblate_Rz_uv_Rz : forall delta R z, 0 < delta -> 0 <= R ->
  (let '(u, v) := Rz_to_uv true delta R z in uv_to_Rz true delta u v) = (R, Rabs z).
Proof. exact obl_roundtrip. Qed.
Print Assumptions C18_oblate_Rz_uv_Rz.
Theorem C18_oblate_uv_Rz_uv : forall delta u v, 0 < delta -> 0 <= u -> 0 <= v <= PI / 2 ->
  (let '(R, z) := uv_to_Rz true delta u v in Rz_to_uv true delta R z) = (u, v).
Proof. exact obl_roundtrip2. Qed.
Print Assumptions C18_oblate_uv_Rz_uv.

(** The oblate conversion loses the sign of z: below the plane it does not round-trip. *)
Theorem C18_oblate_below_plane_refuted : exists delta R z, 0 < delta /\ 0 <= R /\
  (let '(u, v) := Rz_to_uv true delta R z in uv_to_Rz true delta u v) <> (R, z).
Proof.
  exists 1, 1, (-1). split; [lra|]. split; [lra|]. pose proof (obl_roundtrip 1 1 (-1) ltac:(lra) ltac:(lra)) as E.
  intros F. rewrite F in E. injection E. rewrite Rabs_left; lra.
Qed.
Print Assumptions C18_oblate_below_plane_refuted.

(** Momenta: defined as conjugate to u and v, and inverted away from the foci. *)
Theorem C18_momenta_conjugate : forall oblate delta vR vz u v,
  exists Ru zu Rv zv : RR,
  is_derive (fun x => fst (uv_to_Rz oblate delta x v)) u Ru /\ is_derive (fun x => snd (uv_to_Rz oblate delta x v)) u zu /\
  is_derive (fun x => fst (uv_to_Rz oblate delta u x)) v Rv /\ is_derive (fun x => snd (uv_to_Rz oblate delta u x)) v zv /\
  vRvz_to_pupv oblate true delta vR vz u v = (vR * Ru + vz * zu, vR * Rv + vz * zv).
Proof. exact pupv_conjugate. Qed.
Print Assumptions C18_momenta_conjugate.
Theorem C18_momenta_roundtrip : forall (oblate : bool) delta p q u v, delta <> 0 ->
  (sinh u <> 0 \/ (if oblate then cos v else sin v) <> 0) ->
  (let '(pu, pv) := vRvz_to_pupv oblate true delta p q u v in pupv_to_vRvz oblate delta pu pv u v) = (p, q) /\
  (let '(vR, vz) := pupv_to_vRvz oblate delta p q u v in vRvz_to_pupv oblate true delta vR vz u v) = (p, q).
Proof. intros. split; [apply pupv_roundtrip|apply pupv_roundtrip2]; auto. Qed.
Print Assumptions C18_momenta_roundtrip.
(** The position may be given as (R,z): then it is converted first. *)
Theorem C18_momenta_position_forms : forall oblate delta vR vz R z,
  vRvz_to_pupv oblate false delta vR vz R z =
  let '(u, v) := Rz_to_uv oblate delta R z in vRvz_to_pupv oblate true delta vR vz u v.
Proof. intros oblate delta vR vz R z. unfold vRvz_to_pupv. destruct (Rz_to_uv oblate delta R z). reflexivity. Qed.
Print Assumptions C18_momenta_position_forms.

(** (lambda, nu), for any axis ratio. *)
Theorem C18_lambdanu_roundtrip : forall ac Delta R z, Delta <> 0 ->
  (let '(l, n) := Rz_to_lambdanu ac Delta R z in lambdanu_to_Rz ac Delta l n) = (Rabs R, Rabs z).
Proof. exact lam_roundtrip. Qed.
Print Assumptions C18_lambdanu_roundtrip.
(** g and a as in the docstring: g = Delta^2/(1-ac^2), a = g - Delta^2; lambda >= -a >= nu >= -g. *)
Theorem C18_lambdanu_ordering : forall ac Delta R z,
  let g := Delta ^ 2 / (1 - ac ^ 2) in let a := g - Delta ^ 2 in
  let '(l, n) := Rz_to_lambdanu ac Delta R z in 0 <= l + a /\ n + a <= 0 /\ 0 <= n + g.
Proof.
  intros ac Delta R z g a. pose proof (lam_sums ac Delta R z) as S. destruct (Rz_to_lambdanu ac Delta R z). cbv zeta in S.
  change (lam_g ac Delta) with g in S. change (lam_a ac Delta) with a in S. tauto.
Qed.
Print Assumptions C18_lambdanu_ordering.
Theorem C18_lambdanu_onto : forall ac Delta l n, Delta <> 0 ->
  let g := Delta ^ 2 / (1 - ac ^ 2) in let a := g - Delta ^ 2 in
  0 <= l + a -> n + a <= 0 -> 0 <= n + g ->
  (let '(R, z) := lambdanu_to_Rz ac Delta l n in Rz_to_lambdanu ac Delta R z) = (l, n).
Proof. intros. apply lam_roundtrip2; auto. Qed.
Print Assumptions C18_lambdanu_onto.
(** They are the roots of the confocal-quadric equation  R^2/(tau+a) + z^2/(tau+g) = 1. *)
Theorem C18_lambdanu_confocal : forall ac Delta R z tau,
  let g := Delta ^ 2 / (1 - ac ^ 2) in let a := g - Delta ^ 2 in
  let '(l, n) := Rz_to_lambdanu ac Delta R z in
  tau + a <> 0 -> tau + g <> 0 -> (R ^ 2 / (tau + a) + z ^ 2 / (tau + g) = 1 <-> tau = l \/ tau = n).
Proof.
  intros ac Delta R z tau g a. pose proof (lam_sums ac Delta R z) as S. destruct (Rz_to_lambdanu ac Delta R z) as [l n]. cbv zeta in S.
  change (lam_g ac Delta) with g in S. change (lam_a ac Delta) with a in S. destruct S as (S1 & S2 & S3 & _). intros Ha Hg.
  assert (Ga : a = g - Delta ^ 2) by reflexivity. clearbody a. clearbody g.
  assert (P : (tau - l) * (tau - n) = (tau + a) * (tau + g) - R ^ 2 * (tau + g) - z ^ 2 * (tau + a)).
  { assert (LN : l * n = a * g - g * R ^ 2 - a * z ^ 2).
    { assert (l * n = - (Delta ^ 2 * R ^ 2) - a * (l + n) - a ^ 2) by lra. rewrite H, S3.
      assert (l * n = Delta ^ 2 * z ^ 2 - g * (l + n) - g ^ 2) by lra. rewrite S3 in H0, H. rewrite Ga in *. nra. }
    replace ((tau - l) * (tau - n)) with (tau ^ 2 - tau * (l + n) + l * n) by ring. rewrite S3, LN. ring. }
  split.
  - intros E. assert (Z : (tau - l) * (tau - n) = 0).
    { rewrite P. apply (f_equal (fun x => x * ((tau + a) * (tau + g)))) in E.
      replace ((R ^ 2 / (tau + a) + z ^ 2 / (tau + g)) * ((tau + a) * (tau + g))) with (R ^ 2 * (tau + g) + z ^ 2 * (tau + a)) in E by (field; auto). lra. }
    apply Rmult_integral in Z. destruct Z; [left|right]; lra.
  - intros T. assert (Z : (tau - l) * (tau - n) = 0) by (destruct T; subst; ring). rewrite P in Z.
    apply Rmult_eq_reg_r with ((tau + a) * (tau + g)); [|apply Rmult_integral_contrapositive_currified; auto].
    replace ((R ^ 2 / (tau + a) + z ^ 2 / (tau + g)) * ((tau + a) * (tau + g))) with (R ^ 2 * (tau + g) + z ^ 2 * (tau + a)) by (field; auto). lra.
Qed.
Print Assumptions C18_lambdanu_confocal.

Example C18_case : Rz_to_lambdanu 2 3 4 0 = (28, 3) /\ lambdanu_to_Rz 2 3 28 3 = (4, 0) /\ sinh 1 <> 0.
Proof.
  assert (E : Rz_to_lambdanu 2 3 4 0 = (28, 3)).
  { unfold Rz_to_lambdanu, lam_a, lam_g. destruct (Req_EM_T 0 0); [|lra]. f_equal; field. }
  split; auto. split.
  - pose proof (lam_roundtrip 2 3 4 0 ltac:(lra)) as R. rewrite E, Rabs_R0, Rabs_pos_eq in R by lra. auto.
  - unfold sinh. assert (exp (- (1)) < exp 1) by (apply exp_increasing; lra). lra.
Qed.
