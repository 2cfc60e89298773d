(** Jacobian and Hessian of the (lambda, nu) coordinates. *)
From Coq Require Import Reals Lra Psatz Field.
From Coquelicot Require Import Coquelicot.
From Verif.Lib Require Import RealAux Atan2 Vec3.
From Verif.Model Require Import Coords CoordsVec CoordsSky CoordsSpheroid CoordsJac.
From Verif.Spec Require Import SkySpec CovSpec JacSpec.
From Verif.Proofs Require Import SpheroidProofs JacProofs JacProofs2 PotLift.
Open Scope R_scope.
Notation RR := RbaseSymbolsImpl.R (only parsing).

Lemma disc_rate (f g : RR -> RR) Delta (s a b : RR) : is_derive f s a -> is_derive g s b ->
  0 < (f s ^ 2 + g s ^ 2 - Delta ^ 2) ^ 2 + 4 * Delta ^ 2 * f s ^ 2 ->
  is_derive (fun t => sqrt ((f t ^ 2 + g t ^ 2 - Delta ^ 2) ^ 2 + 4 * Delta ^ 2 * f t ^ 2)) s
    ((2 * f s * (f s ^ 2 + g s ^ 2 + Delta ^ 2) * a + 2 * g s * (f s ^ 2 + g s ^ 2 - Delta ^ 2) * b)
     / sqrt ((f s ^ 2 + g s ^ 2 - Delta ^ 2) ^ 2 + 4 * Delta ^ 2 * f s ^ 2)).
Proof.
  intros Hf Hg P. pose proof (sqrt_lt_R0 _ P) as PS.
  evar_last. apply (is_derive_comp sqrt (fun t => (f t ^ 2 + g t ^ 2 - Delta ^ 2) ^ 2 + 4 * Delta ^ 2 * f t ^ 2)).
  - apply is_derive_Reals, derivable_pt_lim_sqrt, P.
  - instantiate (1 := 2 * (2 * f s * (f s ^ 2 + g s ^ 2 + Delta ^ 2) * a + 2 * g s * (f s ^ 2 + g s ^ 2 - Delta ^ 2) * b)).
    auto_derive. { exder. } derw. ring.
  - cbv [scal]. simpl. cbv [mult]. simpl. toR. field. lra.
Qed.
Lemma lambdanu_jac ac Delta R z : Delta <> 0 -> (R <> 0 \/ z ^ 2 <> Delta ^ 2) ->
  jacobian2 (fun p => Rz_to_lambdanu ac Delta (fst p) (snd p)) (R, z) (Rz_to_lambdanu_jac Delta R z).
Proof.
  intros HD HF q s [a b] E [V1 V2]. cbn [fst snd] in *.
  set (f := fun t => fst (q t)) in *. set (g := fun t => snd (q t)) in *.
  assert (E1 : f s = R) by (unfold f; rewrite E; auto). assert (E2 : g s = z) by (unfold g; rewrite E; auto).
  pose proof (lam_disc_pos Delta R z HF HD) as P.
  change (is_derive f s a) in V1. change (is_derive g s b) in V2.
  pose proof (disc_rate f g Delta s a b V1 V2) as V3. rewrite E1, E2 in V3. specialize (V3 P).
  pose proof (sqrt_lt_R0 _ P) as PS.
  unfold Rz_to_lambdanu_jac. cbv zeta.
  set (S := sqrt ((R ^ 2 + z ^ 2 - Delta ^ 2) ^ 2 + 4 * Delta ^ 2 * R ^ 2)) in *.
  set (h := fun t => sqrt ((f t ^ 2 + g t ^ 2 - Delta ^ 2) ^ 2 + 4 * Delta ^ 2 * f t ^ 2)) in V3.
  split; cbn [fst snd].
  - eapply is_derive_ext; [intros t; rewrite lam_formula; cbn [fst]; fold (f t); fold (g t); fold (h t); reflexivity|].
    auto_derive. { exder. } derw. rewrite E1, E2. field. lra.
  - eapply is_derive_ext; [intros t; rewrite lam_formula; cbn [snd]; fold (f t); fold (g t); fold (h t); reflexivity|].
    auto_derive. { exder. } derw. rewrite E1, E2. field. lra.
Qed.
Lemma lambdanu_hess Delta R z : Delta <> 0 -> (R <> 0 \/ z ^ 2 <> Delta ^ 2) ->
  let '((l1, l2, l3), (n1, n2, n3)) := Rz_to_lambdanu_hess Delta R z in
  jacobian2 (fun p => fst (Rz_to_lambdanu_jac Delta (fst p) (snd p))) (R, z) ((l1, l2), (l2, l3)) /\
  jacobian2 (fun p => snd (Rz_to_lambdanu_jac Delta (fst p) (snd p))) (R, z) ((n1, n2), (n2, n3)).
Proof.
  intros HD HF. unfold Rz_to_lambdanu_hess. cbv zeta.
  pose proof (lam_disc_pos Delta R z HF HD) as P.
  pose proof (sqrt_lt_R0 _ P) as PS. pose proof (sq_sqrt _ (Rlt_le _ _ P)) as SQ.
  split; intros q s [a b] E [V1 V2]; cbn [fst snd] in *;
  set (f := fun t => fst (q t)) in *; set (g := fun t => snd (q t)) in *;
  assert (E1 : f s = R) by (unfold f; rewrite E; auto); assert (E2 : g s = z) by (unfold g; rewrite E; auto);
  change (is_derive f s a) in V1; change (is_derive g s b) in V2;
  pose proof (disc_rate f g Delta s a b V1 V2) as V3; rewrite E1, E2 in V3; specialize (V3 P);
  unfold Rz_to_lambdanu_jac; cbv zeta;
  set (S := sqrt ((R ^ 2 + z ^ 2 - Delta ^ 2) ^ 2 + 4 * Delta ^ 2 * R ^ 2)) in *;
  rewrite <- SQ; cbn [fst snd];
  set (h := fun t => sqrt ((f t ^ 2 + g t ^ 2 - Delta ^ 2) ^ 2 + 4 * Delta ^ 2 * f t ^ 2)) in V3;
  (assert (EH : h s = S) by (unfold h, S; rewrite E1, E2; auto));
  split; cbn [fst snd].
  - apply (is_derive_ext (fun t => f t * (1 + (f t ^ 2 + g t ^ 2 + Delta ^ 2) / h t))); [reflexivity|].
    auto_derive. { splits; try (eexists; eassumption); try (rewrite EH; apply Rgt_not_eq, PS); auto. } derw. rewrite E1, E2, EH. field. lra.
  - apply (is_derive_ext (fun t => g t * (1 + (f t ^ 2 + g t ^ 2 - Delta ^ 2) / h t))); [reflexivity|].
    auto_derive. { splits; try (eexists; eassumption); try (rewrite EH; apply Rgt_not_eq, PS); auto. } derw. rewrite E1, E2, EH. field. lra.
  - apply (is_derive_ext (fun t => f t * (1 - (f t ^ 2 + g t ^ 2 + Delta ^ 2) / h t))); [reflexivity|].
    auto_derive. { splits; try (eexists; eassumption); try (rewrite EH; apply Rgt_not_eq, PS); auto. } derw. rewrite E1, E2, EH. field. lra.
  - apply (is_derive_ext (fun t => g t * (1 - (f t ^ 2 + g t ^ 2 - Delta ^ 2) / h t))); [reflexivity|].
    auto_derive. { splits; try (eexists; eassumption); try (rewrite EH; apply Rgt_not_eq, PS); auto. } derw. rewrite E1, E2, EH. field. lra.
Qed.
