(** C11: reductions to the plane z = 0 and to a vertical line. *)
From Coq Require Import Reals List Lra Bool.
From Coquelicot Require Import Coquelicot.
From Verif.Lib Require Import RealAux.
From Verif.Model Require Import PotAPI PotAxi PotNonAxi Reduce.
From Verif.Spec Require Import PotSpec PotApiSpec SuperSpec Catalog ReduceSpec.
From Verif.Proofs Require Import Superposition CatalogProofs ReduceProofs.
From Verif.Props Require Import C01.
Import ListNotations.
Open Scope R_scope.
Notation RR := RbaseSymbolsImpl.R (only parsing).

(** toPlanarPotential of a potential, a dissipative force, or a combination of those: every planar quantity (value, both forces, the three
    second derivatives) is the three-dimensional one at z = 0, and one raises exactly when the other does. *)
Theorem C11_planar : forall p, amplitude_one_if_composite p -> List.Forall (fun q => simple q /\ honest_axi q) (members p) ->
  exists pl, toPlanar (O3 p) = ROk pl /\ is_planar_restriction p pl.
Proof. exact toPlanar_ok. Qed.
Print Assumptions C11_planar.

(** toPlanarPotential of a Python list is the reduction of the sum of its members. *)
Theorem C11_planar_list : forall l, List.Forall honest_axi (flatten (map Leaf l)) ->
  exists pl, toPlanarList (map O3 l) = ROk pl /\ is_planar_restriction (mkComp (map Leaf l)) pl.
Proof. exact toPlanarList_ok. Qed.
Print Assumptions C11_planar_list.

(** Every potential of the catalogue that calls itself axisymmetric is. *)
Theorem C11_catalogue_axisymmetric : forall D c amp, CatalogSingle D c -> honest_axi (Single amp c).
Proof. exact catalog_honest. Qed.
Print Assumptions C11_catalogue_axisymmetric.

(** So in the plane the reduced forces are minus the derivatives of the reduced potential. *)
Theorem C11_planar_forces : forall D p pl, Catalog D p -> amplitude_one_if_composite p -> List.Forall (fun q => simple q /\ honest_axi q) (members p) ->
  toPlanar (O3 p) = ROk pl ->
  exists Phi FR Fphi, plEv pl = Some Phi /\ (forall v, plRf pl v = Some FR) /\ (forall v, plPt pl v = Some Fphi) /\
    forall R phi t, D R 0 phi t ->
      is_derive (fun x => Phi x phi t) R (- FR R phi t) /\ is_derive (fun x => Phi R x t) phi (- Fphi R phi t).
Proof.
  intros D p pl C HA HM E. pose proof (catalog_conservative_planar D p pl C HA HM E) as H. exact H.
Qed.
Print Assumptions C11_planar_forces.

(** Reducing a planar potential again changes nothing, whatever planar potential it is. *)
Theorem C11_planar_idempotent : forall p pl, isDiss p = false -> toPlanar (O3 p) = ROk pl -> toPlanar (O2 pl) = ROk pl.
Proof.
  intros p pl D E. destruct p as [a c|a d|a ps]; [|discriminate|].
  - cbn in E. destruct (nonaxi c); injection E as <-; reflexivity.
  - injection E as <-. reflexivity.
Qed.
Print Assumptions C11_planar_idempotent.
Theorem C11_planar_identity : forall pl, plDiss pl = false -> toPlanar (O2 pl) = ROk pl.
Proof. intros [| | | |] H; try reflexivity. discriminate. Qed.
Print Assumptions C11_planar_identity.
(** A one-dimensional potential is rejected. *)
Theorem C11_planar_rejects_linear : forall l, toPlanar (O1 l) = RErr PotentialError.
Proof. reflexivity. Qed.
Print Assumptions C11_planar_rejects_linear.

(** toVerticalPotential: potential measured from the midplane value, vertical force, second derivative, all along the line (R, phi). *)
Theorem C11_vertical : forall p (R : RR) phi t0 l, amplitude_one_if_composite p -> toVertical (O3 p) R phi t0 = ROk l ->
  vertical_of p R (the_phi phi) t0 l.
Proof. intros p R phi t0 l. exact (toVertical_ok p R phi t0 l). Qed.
Print Assumptions C11_vertical.
(** It succeeds for every conservative potential when phi is given, and without phi when every member is axisymmetric. *)
Theorem C11_vertical_succeeds : forall p (R : RR) phi t0, List.Forall simple (members p) -> isDiss p = false ->
  (phi <> None \/ List.Forall (fun q => isNonAxi q = false) (members p)) -> exists l, toVertical (O3 p) R phi t0 = ROk l.
Proof. intros p R phi t0. exact (toVertical_total p R phi t0). Qed.
Print Assumptions C11_vertical_succeeds.
(** A non-axisymmetric potential without phi, a dissipative force, and a planar potential are rejected; a one-dimensional one is returned. *)
Theorem C11_vertical_rejects : forall (R t0 : RR) phi,
  (forall a c, nonaxi c = true -> toVertical (O3 (Single a c)) R None t0 = RErr PotentialError) /\
  (forall p, isDiss p = true -> toVertical (O3 p) R phi t0 = RErr NotImplementedError) /\
  (forall pl, plDiss pl = false -> toVertical (O2 pl) R phi t0 = RErr PotentialError) /\
  (forall l, toVertical (O1 l) R phi t0 = ROk l).
Proof.
  intros R t0 phi. split; [|split; [|split]].
  - intros a c H. unfold toVertical, mkVert. cbn. rewrite H. auto.
  - intros p H. unfold toVertical. rewrite H. auto.
  - intros pl H. unfold toVertical. rewrite H. auto.
  - auto.
Qed.
Print Assumptions C11_vertical_rejects.
(** So the vertical force is minus the derivative of the vertical potential. *)
Theorem C11_vertical_force : forall D p (R : RR) phi t0 l, Catalog D p -> amplitude_one_if_composite p -> toVertical (O3 p) R phi t0 = ROk l ->
  exists Phi F F2, liEv l = Some Phi /\ liF l = Some F /\ liF2 l = Some F2 /\ (Phi 0 t0 = 0) /\
    forall x t, D R x (the_phi phi) t ->
      is_derive (fun y => Phi y t) x (- F x t) /\ is_derive (fun y => - F y t) x (F2 x t).
Proof.
  intros D p R phi t0 l C HA E. exact (catalog_vertical_force D p R phi t0 l C HA E).
Qed.
Print Assumptions C11_vertical_force.

(** Not covered by the theorems above, and false: a combination that has been normalised keeps its factor in three dimensions but loses it on
    reduction to the plane or to a line. *)
Definition normalised : Pot := normalize (mkComp [Leaf (Single 1 Kepler)]) 4.
Lemma kep1 : rpow (1 ^ 2 + 0 ^ 2) (3 / 2) = 1.
Proof. replace (1 ^ 2 + 0 ^ 2) with 1 by ring. unfold rpow, Rpower. rewrite ln_1, Rmult_0_r. apply exp_0. Qed.
Lemma normalised_force : apiRf normalised (0, 0, 0) 1 0 0 0 = - 4.
Proof.
  cbv [normalised mkComp flatten flattenItem flat_map leaves app normalize setAmp apiRf scale4 sum4 map fold_left
       add4 zero4 Kepler PowerSpherical mkAxi c_Rf PS_Rf]. rewrite kep1. rewrite Rabs_left by lra. field.
Qed.
Theorem C11_normalised_planar_refuted : exists p pl, Built (mkComp [Leaf (Single 1 Kepler)]) /\ p = normalize (mkComp [Leaf (Single 1 Kepler)]) 4 /\
  toPlanar (O3 p) = ROk pl /\ apiRf p (0, 0, 0) 1 0 0 0 = -4 /\ exists F, plRf pl (0, 0) = Some F /\ F 1 0 0 = -1.
Proof.
  exists normalised. eexists. split; [apply b_list; repeat constructor|]. split; [reflexivity|]. split; [reflexivity|]. split; [exact normalised_force|].
  eexists. split; [reflexivity|].
  cbv [normalised mkComp flatten flattenItem flat_map leaves app scale3 fold_left add3 zero3 apiRf scale4 Kepler PowerSpherical mkAxi c_Rf PS_Rf].
  rewrite kep1. field.
Qed.
Print Assumptions C11_normalised_planar_refuted.
Theorem C11_normalised_vertical_refuted : exists p l, p = normalize (mkComp [Leaf (Single 1 Kepler)]) 4 /\
  toVertical (O3 p) 0 None 0 = ROk l /\ exists F, liF l = Some F /\ apizf p (0, 0, 0) 0 1 0 0 = -4 /\ F 1 0 = -1.
Proof.
  exists normalised. eexists. split; [reflexivity|]. split; [reflexivity|]. eexists. split; [reflexivity|].
  assert (E : rpow (0 ^ 2 + 1 ^ 2) (3 / 2) = 1). { rewrite Rplus_comm. exact kep1. }
  split.
  - cbv [normalised mkComp flatten flattenItem flat_map leaves app normalize setAmp apiRf apizf scale4 sum4 map fold_left
       add4 zero4 Kepler PowerSpherical mkAxi c_Rf c_zf PS_Rf PS_zf]. rewrite kep1, E. rewrite Rabs_left by lra. field.
  - cbv [scale2 fold_left add2 zero2 apizf scale4 Kepler PowerSpherical mkAxi c_zf PS_zf]. rewrite E. field.
Qed.
Print Assumptions C11_normalised_vertical_refuted.
(** A dissipative force reduced to the plane cannot be passed to toPlanarPotential again. *)
Theorem C11_dissipative_identity_refuted : forall d, exists pl, toPlanar (O3 (Diss 1 d)) = ROk pl /\ toPlanar (O2 pl) = RErr PotentialError.
Proof. intros d. eexists. split; reflexivity. Qed.
Print Assumptions C11_dissipative_identity_refuted.

(** Non-vacuity: a disc, a triaxial halo and a friction force. *)
Example C11_nonvacuous d : let p := mkComp [Leaf (Single 2 (MiyamotoNagai 3 (1/4) true)); Nest [Leaf (Single 1 (LogarithmicHalo 1 1 (Some (1/2)))); Leaf (Diss 1 d)]] in
  amplitude_one_if_composite p /\ (d_nonaxi d = true -> List.Forall (fun q => simple q /\ honest_axi q) (members p)).
Proof.
  split; [reflexivity|]. intros N. constructor; [|constructor; [|constructor; [|constructor]]]; (split; [exact I|]).
  - eapply catalog_honest. apply cat_MiyamotoNagai. lra.
  - intros H. discriminate H.
  - intros H. cbn in H. congruence.
Qed.
Example C11_nonvacuous_vertical : exists l, toVertical (O3 (mkComp [Leaf (Single 2 (Plummer 1)); Leaf (Single 1 (LogarithmicHalo 1 1 (Some (1/2))))])) 1 (Some 2) 0 = ROk l.
Proof. eexists. reflexivity. Qed.
