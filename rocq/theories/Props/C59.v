(** C59: potentials completed by numerical derivatives, disks approximated by three Miyamoto-Nagai disks, and the null potential. *)
From Coq Require Import Reals Lra Lia List String FunctionalExtensionality.
From Coquelicot Require Import Coquelicot.
From Verif.Lib Require Import RealAux.
From Verif.Model Require Import PotAPI PotAxi NumDeriv.
From Verif.Spec Require Import PotSpec PotApiSpec NumSpec.
From Verif.Proofs Require Import AxiProofs PotLift NumDerivProofs NumDisks.
Import ListNotations.
Open Scope R_scope.
Notation RR := RbaseSymbolsImpl.R (only parsing).
Ltac rr := match goal with |- ?a = ?b => change (@eq RR a b) end.

(** ** Numerical derivatives.  [f] is the _evaluate of the class, [amp] the amplitude of the instance. *)
Lemma scaled (amp x y e : RR) : Rabs (x - y) <= e -> Rabs (amp * x - amp * y) <= Rabs amp * e.
Proof. intros H. rewrite <- Rmult_minus_distr_l, Rabs_mult. apply Rmult_le_compat_l; [apply Rabs_pos|exact H]. Qed.

(** Rforce, zforce and phitorque are minus the derivatives of the potential up to the square of the step. *)
Theorem C59_forces : forall amp nonax f s R z phi t g K, let p := Single amp (ND_class nonax f s) in
  (0 < s_R s -> (forall x, g 0%nat x = f x z phi t) -> derivatives g 3 R (R + 2 * s_R s) -> bounded (g 3%nat) K R (R + 2 * s_R s) -> Rabs (apiRf p v0 R z phi t - - (amp * g 1%nat R)) <= Rabs amp * (K * s_R s ^ 2 / 3)) /\
  (0 < s_z s -> (forall x, g 0%nat x = f R x phi t) -> derivatives g 3 (z - s_z s) (z + s_z s) -> bounded (g 3%nat) K (z - s_z s) (z + s_z s) -> Rabs (apizf p v0 R z phi t - - (amp * g 1%nat z)) <= Rabs amp * (K * s_z s ^ 2 / 6)) /\
  (nonax = true -> 0 < s_phi s -> (forall x, g 0%nat x = f R z x t) -> derivatives g 3 (phi - s_phi s) (phi + s_phi s) -> bounded (g 3%nat) K (phi - s_phi s) (phi + s_phi s) ->
    exists Fphi, apiPt p v0 = Some Fphi /\ Rabs (Fphi R z phi t - - (amp * g 1%nat phi)) <= Rabs amp * (K * s_phi s ^ 2 / 6)).
Proof.
  intros amp nonax f s R z phi t g K p. unfold p. cbn [apiRf apizf apiPt ND_class c_Rf c_zf c_pt nonaxi dflt]. unfold scale4. splits.
  - intros Hh G D B. replace (- (amp * g 1%nat R)) with (amp * - g 1%nat R) by ring. apply scaled. eapply Rle_trans; [|exact (forward1 g R K (s_R s) Hh D B)]. right. f_equal. unfold ND_Rf. rewrite !G. rr. field. lra.
  - intros Hh G D B. replace (- (amp * g 1%nat z)) with (amp * - g 1%nat z) by ring. apply scaled. eapply Rle_trans; [|exact (central1 g z K (s_z s) Hh D B)]. right. f_equal. unfold ND_zf. rewrite !G. rr. field. lra.
  - intros -> Hh G D B. eexists. split; [reflexivity|]. cbv beta. replace (- (amp * g 1%nat phi)) with (amp * - g 1%nat phi) by ring. apply scaled. eapply Rle_trans; [|exact (central1 g phi K (s_phi s) Hh D B)]. right. f_equal. unfold ND_pt. cbn [negb]. rewrite !G. rr. field. lra.
Qed.

(** R2deriv, z2deriv and phi2deriv likewise. *)
Theorem C59_second : forall amp nonax f s R z phi t g K, let p := Single amp (ND_class nonax f s) in
  (0 < s_R2 s -> (forall x, g 0%nat x = f x z phi t) -> derivatives g 4 R (R + 3 * s_R2 s) -> bounded (g 4%nat) K R (R + 3 * s_R2 s) ->
    exists P, apiR2 p = Some P /\ Rabs (P R z phi t - amp * g 2%nat R) <= Rabs amp * (4 / 3 * K * s_R2 s ^ 2)) /\
  (0 < s_z2 s -> (forall x, g 0%nat x = f R x phi t) -> derivatives g 4 (z - s_z2 s) (z + s_z2 s) -> bounded (g 4%nat) K (z - s_z2 s) (z + s_z2 s) ->
    exists P, apiz2 p = Some P /\ Rabs (P R z phi t - amp * g 2%nat z) <= Rabs amp * (K * s_z2 s ^ 2 / 12)) /\
  (nonax = true -> 0 < s_phi2 s -> (forall x, g 0%nat x = f R z x t) -> derivatives g 4 (phi - s_phi2 s) (phi + s_phi2 s) -> bounded (g 4%nat) K (phi - s_phi2 s) (phi + s_phi2 s) ->
    exists P, apip2 p = Some P /\ Rabs (P R z phi t - amp * g 2%nat phi) <= Rabs amp * (K * s_phi2 s ^ 2 / 12)).
Proof.
  intros amp nonax f s R z phi t g K p. unfold p. splits.
  - intros Hh G D B. eexists. split; [reflexivity|]. cbn [ND_class c_R2]. unfold scale4. apply scaled. eapply Rle_trans; [|exact (forward2 g R K (s_R2 s) Hh D B)]. right. f_equal. unfold ND_R2. rewrite !G. rr. field. lra.
  - intros Hh G D B. eexists. split; [reflexivity|]. cbn [ND_class c_z2]. unfold scale4. apply scaled. eapply Rle_trans; [|exact (central2 g z K (s_z2 s) Hh D B)]. right. f_equal. unfold ND_z2. rewrite !G. rr. field. lra.
  - intros -> Hh G D B. eexists. split; [reflexivity|]. cbn [ND_class c_p2 dflt]. unfold scale4. apply scaled. eapply Rle_trans; [|exact (central2 g phi K (s_phi2 s) Hh D B)]. right. f_equal. unfold ND_p2. cbn [negb]. rewrite !G. rr. field. lra.
Qed.

(** Rzderiv, Rphideriv and phizderiv: the errors of the two directions add. *)
Theorem C59_mixed : forall amp nonax f s R z phi t u uy ux K1 K2, let p := Single amp (ND_class nonax f s) in
  (0 < s_R2 s -> 0 < s_z2 s -> (forall x y, u x y = f x y phi t) -> mixed u uy ux R R (R + 2 * s_R2 s) (z - s_z2 s) (z + s_z2 s) ->
    (forall a b, R <= a <= R + 2 * s_R2 s -> z - s_z2 s <= b <= z + s_z2 s -> Rabs (uy 3%nat a b) <= K1) -> bounded (ux 3%nat) K2 (z - s_z2 s) (z + s_z2 s) ->
    exists P, apiRz p = Some P /\ Rabs (P R z phi t - amp * ux 1%nat z) <= Rabs amp * (K1 * s_R2 s ^ 2 / 3 + K2 * s_z2 s ^ 2 / 6)) /\
  (nonax = true -> 0 < s_R2 s -> 0 < s_phi2 s -> (forall x y, u x y = f x z y t) -> mixed u uy ux R R (R + 2 * s_R2 s) (phi - s_phi2 s) (phi + s_phi2 s) ->
    (forall a b, R <= a <= R + 2 * s_R2 s -> phi - s_phi2 s <= b <= phi + s_phi2 s -> Rabs (uy 3%nat a b) <= K1) -> bounded (ux 3%nat) K2 (phi - s_phi2 s) (phi + s_phi2 s) ->
    exists P, apiRp p = Some P /\ Rabs (P R z phi t - amp * ux 1%nat phi) <= Rabs amp * (K1 * s_R2 s ^ 2 / 3 + K2 * s_phi2 s ^ 2 / 6)) /\
  (nonax = true -> 0 < s_phi2 s -> 0 < s_z2 s -> (forall x y, u x y = f R y x t) -> mixed u uy ux phi (phi - s_phi2 s) (phi + s_phi2 s) (z - s_z2 s) (z + s_z2 s) ->
    (forall a b, phi - s_phi2 s <= a <= phi + s_phi2 s -> z - s_z2 s <= b <= z + s_z2 s -> Rabs (uy 3%nat a b) <= K1) -> bounded (ux 3%nat) K2 (z - s_z2 s) (z + s_z2 s) ->
    exists P, apipz p = Some P /\ Rabs (P R z phi t - amp * ux 1%nat z) <= Rabs amp * (K1 * s_phi2 s ^ 2 / 6 + K2 * s_z2 s ^ 2 / 6)).
Proof.
  intros amp nonax f s R z phi t u uy ux K1 K2 p. unfold p. splits.
  - intros Hh Hk G M B1 B2. eexists. split; [reflexivity|]. cbn [ND_class c_Rz]. unfold scale4. apply scaled. eapply Rle_trans; [|exact (forward_central u uy ux R z (s_R2 s) (s_z2 s) K1 K2 Hh Hk M B1 B2)]. right. f_equal. unfold ND_Rz. rewrite !G. rr. field. lra.
  - intros -> Hh Hk G M B1 B2. eexists. split; [reflexivity|]. cbn [ND_class c_Rp dflt]. unfold scale4. apply scaled. eapply Rle_trans; [|exact (forward_central u uy ux R phi (s_R2 s) (s_phi2 s) K1 K2 Hh Hk M B1 B2)]. right. f_equal. unfold ND_Rp. cbn [negb]. rewrite !G. rr. field. lra.
  - intros -> Hh Hk G M B1 B2. eexists. split; [reflexivity|]. cbn [ND_class c_pz dflt]. unfold scale4. apply scaled. eapply Rle_trans; [|exact (central_central u uy ux phi z (s_phi2 s) (s_z2 s) K1 K2 Hh Hk M B1 B2)]. right. f_equal. unfold ND_pz. cbn [negb]. rewrite !G. rr. field. lra.
Qed.
(** A potential to which all this applies: (R^3 + R z) (1 + cos phi), with any steps. *)
Definition f0 : F4 := fun R z phi _ => (R ^ 3 + R * z) * (1 + cos phi).
Definition f0_R (z phi : RR) (k : nat) (x : RR) : RR := (1 + cos phi) * match k with 0%nat => x ^ 3 + x * z | 1%nat => 3 * x ^ 2 + z | 2%nat => 6 * x | 3%nat => 6 | _ => 0 end.
Definition f0_uy (phi : RR) (k : nat) (x y : RR) : RR := (1 + cos phi) * match k with 0%nat => x | 1%nat => 1 | _ => 0 end.
Definition f0_ux (phi R : RR) (k : nat) (y : RR) : RR := (1 + cos phi) * match k with 0%nat => 3 * R ^ 2 + y | 1%nat => 1 | _ => 0 end.
Example C59_example_steps : forall R z phi t h, 0 < h ->
  (forall x, f0_R z phi 0 x = f0 x z phi t) /\ derivatives (f0_R z phi) 4 R (R + 3 * h) /\ bounded (f0_R z phi 3) 12 R (R + 3 * h) /\ bounded (f0_R z phi 4) 0 R (R + 3 * h) /\
  mixed (fun x y => f0 x y phi t) (f0_uy phi) (f0_ux phi R) R R (R + 2 * h) (z - h) (z + h) /\ (forall a b, Rabs (f0_uy phi 3 a b) <= 0) /\ bounded (f0_ux phi R 3) 0 (z - h) (z + h).
Proof.
  intros R z phi t h Hh. pose proof (COS_bound phi). assert (Z : forall k, Rabs (k * 0) <= 0) by (intros; rewrite Rmult_0_r, Rabs_R0; lra). splits.
  - intros x. unfold f0_R, f0. ring.
  - intros k x Hk _. do 4 (destruct k as [|k]; [unfold f0_R; auto_derive; auto; rr; ring|]). lia.
  - intros x _. unfold f0_R. rewrite Rabs_mult, !Rabs_pos_eq by lra. lra.
  - intros x _. apply Z.
  - unfold mixed. splits.
    + intros a b _ _. unfold f0, f0_uy. auto_derive; auto; rr; ring.
    + intros k a b Hk _ _. do 3 (destruct k as [|k]; [unfold f0_uy; auto_derive; auto; rr; ring|]). lia.
    + intros b _. unfold f0, f0_ux. auto_derive; auto; rr; ring.
    + intros k b Hk _. do 3 (destruct k as [|k]; [unfold f0_ux; auto_derive; auto; rr; ring|]). lia.
    + reflexivity.
  - intros a b. apply Z.
  - intros b _. apply Z.
Qed.

(** The density of such a class is the Laplacian over 4 pi up to the sum of the errors of its four terms. *)
Theorem C59_density : forall amp f s R z phi t gR gz gp K3 K4 Kz Kp, 0 < R -> 0 < s_R s -> 0 < s_R2 s -> 0 < s_z2 s -> 0 < s_phi2 s ->
  (forall x, gR 0%nat x = f x z phi t) -> (forall x, gz 0%nat x = f R x phi t) -> (forall x, gp 0%nat x = f R z x t) ->
  derivatives gR 3 R (R + 2 * s_R s) -> bounded (gR 3%nat) K3 R (R + 2 * s_R s) -> derivatives gR 4 R (R + 3 * s_R2 s) -> bounded (gR 4%nat) K4 R (R + 3 * s_R2 s) ->
  derivatives gz 4 (z - s_z2 s) (z + s_z2 s) -> bounded (gz 4%nat) Kz (z - s_z2 s) (z + s_z2 s) -> derivatives gp 4 (phi - s_phi2 s) (phi + s_phi2 s) -> bounded (gp 4%nat) Kp (phi - s_phi2 s) (phi + s_phi2 s) ->
  exists dens, apiDens (Single amp (ND_class true f s)) = Some dens /\
    Rabs (dens R z phi t - amp * (gR 2%nat R + gR 1%nat R / R + gp 2%nat phi / R ^ 2 + gz 2%nat z) / (4 * PI))
      <= Rabs amp * (K3 * s_R s ^ 2 / 3 / R + 4 / 3 * K4 * s_R2 s ^ 2 + Kp * s_phi2 s ^ 2 / 12 / R ^ 2 + Kz * s_z2 s ^ 2 / 12) / (4 * PI).
Proof.
  intros amp f s R z phi t gR gz gp K3 K4 Kz Kp HR H1 H2 H3 H4 ER Ez Ep D1 B1 D2 B2 D3 B3 D4 B4.
  destruct (C59_forces amp true f s R z phi t gR K3) as (F & _ & _). specialize (F H1 ER D1 B1).
  destruct (C59_second amp true f s R z phi t gR K4) as (S & _ & _). destruct (S H2 ER D2 B2) as (P1 & Q1 & S1). injection Q1 as <-. clear S.
  destruct (C59_second amp true f s R z phi t gz Kz) as (_ & S & _). destruct (S H3 Ez D3 B3) as (P2 & Q2 & S2). injection Q2 as <-. clear S.
  destruct (C59_second amp true f s R z phi t gp Kp) as (_ & _ & S). destruct (S eq_refl H4 Ep D4 B4) as (P3 & Q3 & S3). injection Q3 as <-. clear S.
  eexists. split; [reflexivity|]. cbn [apiRf ND_class c_Rf] in F. pose proof PI_RGT_0 as HP.
  cbn [ND_class c_R2 c_p2 c_z2 c_Rf option_map dflt] in *.
  revert F S1 S2 S3. generalize (scale4 amp (ND_Rf f s) R z phi t). generalize (scale4 amp (ND_R2 f s) R z phi t). generalize (scale4 amp (ND_z2 f s) R z phi t). generalize (scale4 amp (ND_p2 true f s) R z phi t).
  generalize (gR 1%nat R) (gR 2%nat R) (gz 2%nat z) (gp 2%nat phi). intros g1 g2 g3 g4 p zz rr1 rf F S1 S2 S3.
  replace ((- rf / R + rr1 + p / R ^ 2 + zz) / 4 / PI - amp * (g2 + g1 / R + g4 / R ^ 2 + g3) / (4 * PI))
    with (/ (4 * PI) * (- / R * (rf - - (amp * g1)) + (rr1 - amp * g2) + / R ^ 2 * (p - amp * g4) + (zz - amp * g3))) by (field; lra).
  assert (I4 : 0 < / (4 * PI)) by (apply Rinv_0_lt_compat; lra). assert (IR : 0 < / R) by (apply Rinv_0_lt_compat; lra). assert (IR2 : 0 < / R ^ 2) by (apply Rinv_0_lt_compat, pow_lt; lra).
  rewrite Rabs_mult, (Rabs_pos_eq (/ (4 * PI))) by lra. rewrite Rmult_comm. unfold Rdiv at 5. apply Rmult_le_compat_r; [lra|].
  assert (T1 : Rabs (- / R * (rf - - (amp * g1))) <= Rabs amp * (K3 * s_R s ^ 2 / 3) * / R). { rewrite Rabs_mult, Rabs_Ropp, (Rabs_pos_eq (/ R)) by lra. rewrite Rmult_comm. apply Rmult_le_compat_r; [lra|exact F]. }
  assert (T2 : Rabs (/ R ^ 2 * (p - amp * g4)) <= Rabs amp * (Kp * s_phi2 s ^ 2 / 12) * / R ^ 2). { rewrite Rabs_mult, (Rabs_pos_eq (/ R ^ 2)) by lra. rewrite Rmult_comm. apply Rmult_le_compat_r; [lra|exact S3]. }
  eapply Rle_trans; [apply Rabs_triang|]. eapply Rle_trans; [apply Rplus_le_compat_r, Rabs_triang|]. eapply Rle_trans; [apply Rplus_le_compat_r, Rplus_le_compat_r, Rabs_triang|].
  replace (Rabs amp * (K3 * s_R s ^ 2 / 3 / R + 4 / 3 * K4 * s_R2 s ^ 2 + Kp * s_phi2 s ^ 2 / 12 / R ^ 2 + Kz * s_z2 s ^ 2 / 12))
    with (Rabs amp * (K3 * s_R s ^ 2 / 3) * / R + Rabs amp * (4 / 3 * K4 * s_R2 s ^ 2) + Rabs amp * (Kp * s_phi2 s ^ 2 / 12) * / R ^ 2 + Rabs amp * (Kz * s_z2 s ^ 2 / 12)) by (field; lra). lra.
Qed.

(** A class that does not set isNonAxi: the azimuthal derivatives are exactly zero, which is right when the potential does not depend on phi. *)
Theorem C59_axisymmetric : forall amp f s, let p := Single amp (ND_class false f s) in
  exists Fp Ppp PRp Ppz, apiPt p v0 = Some Fp /\ apip2 p = Some Ppp /\ apiRp p = Some PRp /\ apipz p = Some Ppz /\
    forall R z phi t, Fp R z phi t = 0 /\ Ppp R z phi t = 0 /\ PRp R z phi t = 0 /\ Ppz R z phi t = 0 /\ ((forall q, f R z q t = f R z 0 t) -> is_derive (fun q => amp * f R z q t) phi (- Fp R z phi t)).
Proof.
  intros amp f s p. do 4 eexists. splits; try reflexivity. intros R z phi t. cbn [ND_class c_pt c_p2 c_Rp c_pz]. unfold scale4, ND_pt, ND_p2, ND_Rp, ND_pz. cbn [negb]. splits; try ring.
  intros H. eapply is_derive_eq; [apply (is_derive_ext (fun _ => amp * f R z 0 t)); [intros q; rewrite (H q); reflexivity|apply is_derive_cst]|]. rr. ring.
Qed.
Theorem C59_flag_refuted : ~ forall amp nonax f s, (forall R z phi t, ex_derive (fun q => f R z q t) phi) -> forall R z phi t Fp, 0 < s_phi s -> apiPt (Single amp (ND_class nonax f s)) v0 = Some Fp ->
  Rabs (Fp R z phi t + amp * Derive (fun q => f R z q t) phi) <= Rabs amp / 2.
Proof.
  intros H. specialize (H 1 false (fun _ _ phi _ => phi) {| s_R := 1; s_phi := 1; s_z := 1; s_R2 := 1; s_phi2 := 1; s_z2 := 1 |}).
  specialize (H ltac:(intros; auto_derive; auto) 1 0 0 0 _ ltac:(cbn; lra) eq_refl). cbn [ND_class c_pt] in H. unfold scale4, ND_pt in H. cbn [negb] in H. rewrite (Derive_id) in H. rewrite !Rmult_1_l, Rplus_0_l, Rabs_R1 in H. lra.
Qed.
Example C59_example_right_flag : apiPt (Single 1 (ND_class true (fun _ _ phi _ => phi) {| s_R := 1; s_phi := 1; s_z := 1; s_R2 := 1; s_phi2 := 1; s_z2 := 1 |})) v0 <> None. Proof. discriminate. Qed.

(** "Central difference to get derivative at z=0 right": for a potential that is even in z the vertical force and Rzderiv are exactly zero in the plane. *)
Theorem C59_plane : forall amp nonax f s R phi t, (forall x z, f x (- z) phi t = f x z phi t) -> let p := Single amp (ND_class nonax f s) in
  apizf p v0 R 0 phi t = 0 /\ exists P, apiRz p = Some P /\ P R 0 phi t = 0.
Proof.
  intros amp nonax f s R phi t H p. split.
  - cbn. unfold scale4, ND_zf. rewrite Rplus_0_l, Rminus_0_l, H. unfold Rdiv. ring.
  - eexists. split; [reflexivity|]. cbn. unfold scale4, ND_Rz. rewrite Rplus_0_l, Rminus_0_l, !H. unfold Rdiv. ring.
Qed.
Example C59_example_plane : forall x z phi t, (fun R z _ _ : RR => R + z ^ 2) x (- z) phi t = (fun R z _ _ : RR => R + z ^ 2) x z phi t. Proof. intros. cbn. ring. Qed.

(** The keywords: each step is the one given, or the default; the caller's dictionary keeps exactly the other keywords. *)
Definition value_of (k : string) (d : RR) (kw : list (string * RR)) (v : RR) : Prop := In (k, v) kw \/ (~ In k (List.map fst kw) /\ v = d).
Lemma find_value k d (kw : list (string * RR)) : value_of k d kw (match find (keyeq k) kw with Some (_, v) => v | None => d end).
Proof.
  destruct (find (keyeq k) kw) as [[n v]|] eqn:E.
  - apply find_some in E as [Hi Hk]. unfold keyeq in Hk. cbn in Hk. apply String.eqb_eq in Hk. subst. left. exact Hi.
  - right. split; [|reflexivity]. intros H. apply in_map_iff in H as ([n v] & En & Hi). cbn in En. subst. pose proof (find_none _ _ E _ Hi) as N. unfold keyeq in N. cbn in N. rewrite String.eqb_refl in N. discriminate.
Qed.
Theorem C59_keywords : forall kw s rest, NoDup (List.map fst kw) -> ND_init kw = (s, rest) ->
  value_of "dR" (1 / 100000000) kw (s_R s) /\ value_of "dphi" (1 / 100000000) kw (s_phi s) /\ value_of "dz" (1 / 100000000) kw (s_z s) /\
  value_of "dR2" (1 / 10000) kw (s_R2 s) /\ value_of "dphi2" (1 / 10000) kw (s_phi2 s) /\ value_of "dz2" (1 / 10000) kw (s_z2 s) /\
  forall k v, In (k, v) rest <-> In (k, v) kw /\ ~ In k ["dR"; "dphi"; "dz"; "dR2"; "dphi2"; "dz2"]%string.
Proof.
  intros kw s rest N E. unfold ND_init in E.
  replace (1 / 100000000) with (/ 10 ^ 8) by field. replace (1 / 10000) with (/ 10 ^ 4) by field.
  destruct (pop "dR" (/ 10 ^ 8) kw) as [v1 k1] eqn:E1. pose proof (pop_val "dR" (/ 10 ^ 8) kw) as V1. pose proof (pop_rest "dR" (/ 10 ^ 8) kw N) as R1. rewrite E1 in V1, R1. cbn [fst snd] in V1, R1. assert (N1 : NoDup (List.map fst k1)) by (rewrite R1; apply nodup_filter; exact N).
  destruct (pop "dphi" (/ 10 ^ 8) k1) as [v2 k2] eqn:E2. pose proof (pop_val "dphi" (/ 10 ^ 8) k1) as V2. pose proof (pop_rest "dphi" (/ 10 ^ 8) k1 N1) as R2. rewrite E2 in V2, R2. cbn [fst snd] in V2, R2. assert (N2 : NoDup (List.map fst k2)) by (rewrite R2; apply nodup_filter; exact N1).
  destruct (pop "dz" (/ 10 ^ 8) k2) as [v3 k3] eqn:E3. pose proof (pop_val "dz" (/ 10 ^ 8) k2) as V3. pose proof (pop_rest "dz" (/ 10 ^ 8) k2 N2) as R3. rewrite E3 in V3, R3. cbn [fst snd] in V3, R3. assert (N3 : NoDup (List.map fst k3)) by (rewrite R3; apply nodup_filter; exact N2).
  destruct (pop "dR2" (/ 10 ^ 4) k3) as [v4 k4] eqn:E4. pose proof (pop_val "dR2" (/ 10 ^ 4) k3) as V4. pose proof (pop_rest "dR2" (/ 10 ^ 4) k3 N3) as R4. rewrite E4 in V4, R4. cbn [fst snd] in V4, R4. assert (N4 : NoDup (List.map fst k4)) by (rewrite R4; apply nodup_filter; exact N3).
  destruct (pop "dphi2" (/ 10 ^ 4) k4) as [v5 k5] eqn:E5. pose proof (pop_val "dphi2" (/ 10 ^ 4) k4) as V5. pose proof (pop_rest "dphi2" (/ 10 ^ 4) k4 N4) as R5. rewrite E5 in V5, R5. cbn [fst snd] in V5, R5. assert (N5 : NoDup (List.map fst k5)) by (rewrite R5; apply nodup_filter; exact N4).
  destruct (pop "dz2" (/ 10 ^ 4) k5) as [v6 k6] eqn:E6. pose proof (pop_val "dz2" (/ 10 ^ 4) k5) as V6. pose proof (pop_rest "dz2" (/ 10 ^ 4) k5 N5) as R6. rewrite E6 in V6, R6. cbn [fst snd] in V6, R6.
  injection E as <- <-. cbn [s_R s_phi s_z s_R2 s_phi2 s_z2]. clear E1 E2 E3 E4 E5 E6 N1 N2 N3 N4 N5.
  rewrite R1 in R2, V2. rewrite R2 in R3, V3. rewrite R3 in R4, V4. rewrite R4 in R5, V5. rewrite R5 in R6, V6. repeat rewrite find_filter in V2 by (intros; reflexivity). repeat rewrite find_filter in V3 by (intros; reflexivity). repeat rewrite find_filter in V4 by (intros; reflexivity). repeat rewrite find_filter in V5 by (intros; reflexivity). repeat rewrite find_filter in V6 by (intros; reflexivity).
  rewrite V1, V2, V3, V4, V5, V6. splits; try apply find_value.
  intros k v. rewrite R6, !filter_In. unfold keyeq. cbn [fst].
  assert (Q : forall a, negb (String.eqb k a) = true <-> a <> k). { intros a. rewrite Bool.negb_true_iff, String.eqb_neq. split; intros H ->; apply H; reflexivity. }
  rewrite !Q. cbn [In]. tauto.
Qed.
Example C59_example_keywords : NoDup (List.map fst [("dz2", 1); ("amp", 2); ("dR", 3)])%string. Proof. repeat constructor; cbn; intuition discriminate. Qed.

(** ** Three Miyamoto-Nagai disks *)
(** Inside the range of the fit (no warning) the potential is smooth everywhere, its derivatives are those of the potential and its density is the source. *)
Definition all_points : Dom := fun _ _ _ _ => True.
Lemma warns_range posdens brd : MN3_warns posdens brd = false -> brd <= if posdens then 135 / 100 else 3.
Proof. unfold MN3_warns. destruct posdens; cbn; [destruct (Rlt_dec (135 / 100) brd)|destruct (Rlt_dec 3 brd)]; intros; try discriminate; lra. Qed.
Lemma list3 hr posdens brd : exists m1 a1 b1 m2 a2 b2 m3 a3 b3, MN3_disks hr posdens brd = [(m1, a1, b1); (m2, a2, b2); (m3, a3, b3)].
Proof. destruct posdens; repeat eexists. Qed.
Lemma DMN_pos a b R z : b <> 0 -> 0 < a + Rabs b -> DMN a b R z.
Proof.
  intros _ H. right. assert (sqrt (Rsqr b) <= sqrt (z ^ 2 + b ^ 2)) by (apply sqrt_le_1_alt; unfold Rsqr; nra). rewrite sqrt_Rsqr_abs in H0. lra.
Qed.
Theorem C59_three_disks : forall fl amp hr hz sech posdens p, 0 < hr -> 0 < hz -> MN3_brd sech hr hz <> 0 -> MN3_warns posdens (MN3_brd sech hr hz) = false -> MN3_pot fl amp hr hz sech posdens = Some p ->
  forces_are_gradient all_points p /\ hessian_is_correct all_points p /\ azimuthal_hessian_is_correct all_points p /\ density_is_source all_points p /\ poisson_density_is_source all_points p.
Proof.
  intros fl amp hr hz sech posdens p Hr Hz N0 W E. unfold MN3_pot in E. destruct (Rlt_dec (MN3_brd sech hr hz) 0) as [|HB]; [discriminate|]. injection E as <-. revert N0 W HB. generalize (MN3_brd sech hr hz). intros brd N0 W HB. apply warns_range in W.
  destruct (list3 hr posdens brd) as (m1 & a1 & b1 & m2 & a2 & b2 & m3 & a3 & b3 & EL).
  assert (OK : forall m a b, In (m, a, b) (MN3_disks hr posdens brd) -> b <> 0 /\ forall R z, DMN a b R z).
  { intros m a b Hi. destruct (disks_ok hr posdens brd m a b Hr ltac:(lra) W Hi) as [-> Hp]. assert (0 < brd * hr) by (apply Rmult_lt_0_compat; lra). split; [lra|]. intros R z. apply DMN_pos; [lra|]. rewrite Rabs_pos_eq; lra. }
  rewrite EL in *. destruct (OK m1 a1 b1 ltac:(cbn; auto)) as [B1 P1]. destruct (OK m2 a2 b2 ltac:(cbn; auto)) as [B2 P2]. destruct (OK m3 a3 b3 ltac:(cbn; auto)) as [B3 P3].
  pose proof (three_force fl m1 a1 b1 m2 a2 b2 m3 a3 b3 B1 B2 B3 P1 P2 P3) as F. pose proof (three_hess fl m1 a1 b1 m2 a2 b2 m3 a3 b3 B1 B2 B3 P1 P2 P3) as H. pose proof (three_poisson fl m1 a1 b1 m2 a2 b2 m3 a3 b3 B1 B2 B3 P1 P2 P3) as Q.
  set (A := amp * (4 * PI * hr ^ 2 * hz)). unfold MN3_of.
  assert (G1 := fun o1 o2 o3 o4 => axi_forces D2T A _ _ _ o1 o2 o3 o4 F). assert (G2 := axi_hessian D2T A (MN3_sum fl (fun a b _ => MN_ev a b) [(m1, a1, b1); (m2, a2, b2); (m3, a3, b3)]) _ _ _ _ _ (Some (MN3_sum fl MN_dens [(m1, a1, b1); (m2, a2, b2); (m3, a3, b3)])) H).
  assert (G4 := axi_density D2T A _ _ _ _ _ _ _ open_T F H Q). splits; [apply G1|apply G2|apply (axi_azimuthal D2T)|apply G4|].
  apply (poisson_density (lift2 D2T)); [apply open_T|apply G1|apply G2|apply (axi_azimuthal D2T)].
Qed.
(** The three disks are those of the published tables: masses and scale lengths from the row of the disk, all with the same b. *)
Theorem C59_tables : forall (fl : bool) (amp hr hz : RR) (sech posdens : bool), let brd := decimal_poly 1000 (smith_b sech) (hz / hr) in 0 <= brd ->
  MN3_pot fl amp hr hz sech posdens = Some (Single (amp * (4 * PI * hr ^ 2 * hz)) (MN3_of fl
    (List.map (fun row => (decimal_poly 10000 (fst row) brd, decimal_poly 10000 (snd row) brd * hr, brd * hr)) (smith_table posdens)))).
Proof.
  intros fl amp hr hz sech posdens brd Hb. assert (E : MN3_brd sech hr hz = brd). { unfold brd, MN3_brd, smith_b, decimal_poly, b_sechhz, b_exphz. generalize (hz / hr). intros h. destruct sech; cbn [fold_left]; field. }
  unfold MN3_pot. rewrite E. destruct (Rlt_dec brd 0) as [L|_]; [lra|]. f_equal. f_equal. f_equal. generalize brd. clear. intros x.
  unfold MN3_disks. destruct posdens; cbn [smith_table List.map fst snd];
    repeat (match goal with |- cons _ _ = cons _ _ => apply f_equal2 | |- pair _ _ = pair _ _ => apply f_equal2 end); try reflexivity; try (apply (f_equal (fun u => u * hr)));
    unfold decimal_poly; cbn [fold_left]; unfold mass1_tab1, mass2_tab1, mass3_tab1, a1_tab1, a2_tab1, a3_tab1, mass1_tab2, mass2_tab2, mass3_tab2, a1_tab2, a2_tab2, a3_tab2, quartic; field.
Qed.
Print Assumptions C59_tables.
Example C59_example_disk : exists p, MN3_pot true 1 (1 / 3) (1 / 16) false false = Some p /\ MN3_brd false (1 / 3) (1 / 16) <> 0 /\ MN3_warns false (MN3_brd false (1 / 3) (1 / 16)) = false /\ MN3_warns true (MN3_brd true (1 / 3) (1 / 16)) = false.
Proof.
  unfold MN3_pot. assert (E : 0 < MN3_brd false (1 / 3) (1 / 16) < 1) by (unfold MN3_brd, b_exphz; lra). assert (E' : 0 < MN3_brd true (1 / 3) (1 / 16) < 1) by (unfold MN3_brd, b_sechhz; lra).
  destruct (Rlt_dec (MN3_brd false (1 / 3) (1 / 16)) 0); [lra|]. eexists. split; [reflexivity|]. split; [lra|]. unfold MN3_warns. cbn [negb andb orb]. split.
  - destruct (Rlt_dec 3 (MN3_brd false (1 / 3) (1 / 16))); [lra|reflexivity].
  - destruct (Rlt_dec (135 / 100) (MN3_brd true (1 / 3) (1 / 16))); [lra|reflexivity].
Qed.

(** It is the sum of three Miyamoto-Nagai potentials of amplitudes amp m_i: this is how it is handed to the C code. *)
Theorem C59_three_disks_sum : forall fl amp hr hz sech posdens p, MN3_pot fl amp hr hz sech posdens = Some p ->
  exists m1 a1 m2 a2 m3 a3, let b := MN3_brd sech hr hz * hr in let M := exponential_disk_mass amp hr hz in let q := Comp 1 [Single (M * m1) (MiyamotoNagai a1 b fl); Single (M * m2) (MiyamotoNagai a2 b fl); Single (M * m3) (MiyamotoNagai a3 b fl)] in
  MN3_disks hr posdens (MN3_brd sech hr hz) = [(m1, a1, b); (m2, a2, b); (m3, a3, b)] /\
  apiEv p = apiEv q /\ apiRf p v0 = apiRf q v0 /\ apizf p v0 = apizf q v0 /\ apiR2 p = apiR2 q /\ apiz2 p = apiz2 q /\ apiRz p = apiRz q /\ apiDens p = apiDens q.
Proof.
  intros fl amp hr hz sech posdens p E. unfold MN3_pot in E. destruct (Rlt_dec (MN3_brd sech hr hz) 0) as [|HB]; [discriminate|]. injection E as <-. set (brd := MN3_brd sech hr hz).
  destruct posdens; do 6 eexists; (split; [reflexivity|]); unfold exponential_disk_mass; splits; cbn; unfold scale4, sum4, osum4, add4, zero4; cbn; try f_equal; apply functional_extensionality; intros R; apply functional_extensionality; intros z; apply functional_extensionality; intros phi; apply functional_extensionality; intros t; rr; ring.
Qed.

(** Its total mass is within 15 per cent of that of the exponential disk with table 1, and exceeds it by 8 to 18 per cent with table 2 (posdens). *)
Theorem C59_three_disks_mass : forall fl amp hr hz sech posdens p, 0 < hr -> 0 < hz -> MN3_brd sech hr hz <> 0 -> MN3_warns posdens (MN3_brd sech hr hz) = false -> MN3_pot fl amp hr hz sech posdens = Some p ->
  exists Phi c, apiEv p = Some Phi /\ far_mass Phi (c * exponential_disk_mass amp hr hz) /\ if posdens then 108 / 100 < c < 118 / 100 else 86 / 100 < c < 110 / 100.
Proof.
  intros fl amp hr hz sech posdens p Hr Hz N0 W E. unfold MN3_pot in E. destruct (Rlt_dec (MN3_brd sech hr hz) 0) as [|HB]; [discriminate|]. injection E as <-. revert N0 W HB. generalize (MN3_brd sech hr hz). intros brd N0 W HB. apply warns_range in W.
  assert (OK : forall m a b, In (m, a, b) (MN3_disks hr posdens brd) -> 0 < a + Rabs b).
  { intros m a b Hi. destruct (disks_ok hr posdens brd m a b Hr ltac:(lra) W Hi) as [-> Hp]. assert (0 < brd * hr) by (apply Rmult_lt_0_compat; lra). rewrite Rabs_pos_eq; lra. }
  assert (FAR : forall m1 a1 b1 m2 a2 b2 m3 a3 b3 A, 0 < a1 + Rabs b1 -> 0 < a2 + Rabs b2 -> 0 < a3 + Rabs b3 ->
    far_mass (scale4 A (c_ev (MN3_of fl [(m1, a1, b1); (m2, a2, b2); (m3, a3, b3)]))) ((m1 + m2 + m3) * A)).
  { intros m1 a1 b1 m2 a2 b2 m3 a3 b3 A P1 P2 P3 phi t. cbn. unfold scale4.
    apply (is_lim_ext (fun R => A * (m1 * (R * MN_ev a1 b1 R 0) + m2 * (R * MN_ev a2 b2 R 0) + m3 * (R * MN_ev a3 b3 R 0)))); [intros R; rr; ring|].
    replace (Finite (- ((m1 + m2 + m3) * A))) with (Rbar_mult A (m1 * -1 + m2 * -1 + m3 * -1)) by (cbn; f_equal; ring). apply is_lim_scal_l.
    apply (is_lim_plus _ _ _ (m1 * -1 + m2 * -1) (m3 * -1)); [|exact (is_lim_scal_l _ m3 _ _ (MN_far a3 b3 P3))|reflexivity].
    apply (is_lim_plus _ _ _ (m1 * -1) (m2 * -1)); [exact (is_lim_scal_l _ m1 _ _ (MN_far a1 b1 P1))|exact (is_lim_scal_l _ m2 _ _ (MN_far a2 b2 P2))|reflexivity]. }
  replace (exponential_disk_mass amp hr hz) with (amp * (4 * PI * hr ^ 2 * hz)) by (unfold exponential_disk_mass; ring).
  destruct posdens; unfold MN3_disks in *; do 2 eexists; (split; [reflexivity|]); (split; [apply FAR; eapply OK; cbn; eauto|]).
  - split; apply Rminus_gt_0_lt.
    + replace (mass1_tab2 brd + mass2_tab2 brd + mass3_tab2 brd - 108 / 100) with (quartic (- (143 / 10000)) (1214 / 10000) (- (3343 / 10000)) (2598 / 10000) (93 / 10000) brd) by (unfold mass1_tab2, mass2_tab2, mass3_tab2, quartic; field). apply (bernstein (135 / 100)); lra.
    + replace (118 / 100 - (mass1_tab2 brd + mass2_tab2 brd + mass3_tab2 brd)) with (quartic (143 / 10000) (- (1214 / 10000)) (3343 / 10000) (- (2598 / 10000)) (907 / 10000) brd) by (unfold mass1_tab2, mass2_tab2, mass3_tab2, quartic; field). apply (bernstein (135 / 100)); lra.
  - split; apply Rminus_gt_0_lt.
    + replace (mass1_tab1 brd + mass2_tab1 brd + mass3_tab1 brd - 86 / 100) with (quartic (32 / 10000) (24 / 10000) (- (1137 / 10000)) (2649 / 10000) (52 / 10000) brd) by (unfold mass1_tab1, mass2_tab1, mass3_tab1, quartic; field). apply (bernstein 3); lra.
    + replace (110 / 100 - (mass1_tab1 brd + mass2_tab1 brd + mass3_tab1 brd)) with (quartic (- (32 / 10000)) (- (24 / 10000)) (1137 / 10000) (- (2649 / 10000)) (2348 / 10000) brd) by (unfold mass1_tab1, mass2_tab1, mass3_tab1, quartic; field). apply (bernstein 3); lra.
Qed.

(** Which thicknesses are accepted: all up to four (nine with sech) scale lengths, none from five (eleven) on. *)
Theorem C59_three_disks_accepted : forall fl amp hr hz posdens, 0 < hr -> 0 < hz ->
  (hz <= 4 * hr -> MN3_pot fl amp hr hz false posdens <> None) /\ (5 * hr <= hz -> MN3_pot fl amp hr hz false posdens = None) /\
  (hz <= 9 * hr -> MN3_pot fl amp hr hz true posdens <> None) /\ (11 * hr <= hz -> MN3_pot fl amp hr hz true posdens = None) /\
  (hz <= hr -> MN3_warns false (MN3_brd false hr hz) = false /\ forall pd, MN3_warns pd (MN3_brd true hr hz) = false).
Proof.
  intros fl amp hr hz posdens Hr Hz. unfold MN3_pot, MN3_warns, MN3_brd. set (h := hz / hr). assert (Hh : 0 < h) by (apply Rdiv_lt_0_compat; lra). assert (Eh : hz = h * hr) by (unfold h; field; lra).
  assert (LE : forall c, hz <= c * hr -> h <= c) by (intros c Hc; apply (Rmult_le_reg_r hr); lra). assert (GE : forall c, c * hr <= hz -> c <= h) by (intros c Hc; apply (Rmult_le_reg_r hr); lra). unfold b_exphz, b_sechhz.
  assert (H2 : 0 <= h ^ 2) by (apply pow_le; lra).
  assert (UP : forall c, h <= c -> h ^ 2 <= c * h /\ h ^ 3 <= c * h ^ 2). { intros c Hc. assert (0 <= h * (c - h)) by (apply Rmult_le_pos; lra). assert (0 <= h ^ 2 * (c - h)) by (apply Rmult_le_pos; lra). split; nra. }
  assert (DN : forall c, c <= h -> c * h <= h ^ 2 /\ c * h ^ 2 <= h ^ 3). { intros c Hc. assert (0 <= h * (h - c)) by (apply Rmult_le_pos; lra). assert (0 <= h ^ 2 * (h - c)) by (apply Rmult_le_pos; lra). split; nra. }
  splits.
  - intros Hc. apply LE in Hc. destruct (Rlt_dec (- (269 / 1000) * h ^ 3 + 1080 / 1000 * h ^ 2 + 1092 / 1000 * h) 0) as [N|]; [|discriminate]. exfalso. apply (UP 4) in Hc. lra.
  - intros Hc. apply GE in Hc. destruct (Rlt_dec (- (269 / 1000) * h ^ 3 + 1080 / 1000 * h ^ 2 + 1092 / 1000 * h) 0) as [|N]; [reflexivity|]. exfalso. apply (DN 5) in Hc. lra.
  - intros Hc. apply LE in Hc. destruct (Rlt_dec (- (33 / 1000) * h ^ 3 + 262 / 1000 * h ^ 2 + 659 / 1000 * h) 0) as [N|]; [|discriminate]. exfalso. apply (UP 9) in Hc. lra.
  - intros Hc. apply GE in Hc. destruct (Rlt_dec (- (33 / 1000) * h ^ 3 + 262 / 1000 * h ^ 2 + 659 / 1000 * h) 0) as [|N]; [reflexivity|]. exfalso. apply (DN 11) in Hc. lra.
  - intros Hc. assert (H1 : h <= 1) by (apply LE; lra). assert (Q : h ^ 2 <= h) by nra. assert (Q3 : 0 <= h ^ 3) by (apply pow_le; lra). split.
    + cbn [negb andb orb]. destruct (Rlt_dec 3 (- (269 / 1000) * h ^ 3 + 1080 / 1000 * h ^ 2 + 1092 / 1000 * h)); [lra|reflexivity].
    + intros pd. destruct (Rlt_dec 3 (- (33 / 1000) * h ^ 3 + 262 / 1000 * h ^ 2 + 659 / 1000 * h)); [lra|]. destruct (Rlt_dec (135 / 100) (- (33 / 1000) * h ^ 3 + 262 / 1000 * h ^ 2 + 659 / 1000 * h)); [lra|]. destruct pd; reflexivity.
Qed.

(** Outside the range of the fit the code only warns, and the result need not be a potential at all: with hz = 3 hr the disks have a < -b and the potential is
    infinite at a point of the axis. *)
Lemma singular a b m (g : RR -> RR) : b <> 0 -> a < - Rabs b -> m <> 0 -> let zs := sqrt (a ^ 2 - b ^ 2) in continuous g zs -> ~ continuous (fun z => m * MN_ev a b 0 z + g z) zs.
Proof.
  intros Hb Ha Hm zs Cg C. pose proof (Rabs_pos b) as AP. assert (Hd : 0 < a ^ 2 - b ^ 2). { rewrite <- (pow2_abs b). nra. } assert (Hz : 0 < zs) by (apply sqrt_lt_R0; exact Hd).
  assert (Ez : zs * zs = a ^ 2 - b ^ 2) by (apply sqrt_sqrt; lra).
  assert (C1 : continuous (fun z => m * MN_ev a b 0 z) zs). { apply (continuous_ext (fun z => minus (m * MN_ev a b 0 z + g z) (g z))); [intros z; unfold minus, plus, opp; cbn; rr; ring|]. apply (continuous_minus (V := R_NormedModule)); assumption. }
  set (w := fun z : RR => a + sqrt (z ^ 2 + b ^ 2)). assert (Hw : w zs = 0). { unfold w. replace (zs ^ 2 + b ^ 2) with (Rsqr a) by (unfold Rsqr; nra). rewrite sqrt_Rsqr_abs, Rabs_left by lra. lra. }
  assert (Cw : continuous w zs). { apply (ex_derive_continuous (V := R_NormedModule) w). unfold w. auto_derive. nra. }
  assert (V : forall z, MN_ev a b 0 z = - / Rabs (w z)). { intros z. unfold MN_ev, MN_b2. fold (w z). replace (0 ^ 2 + w z ^ 2) with (Rsqr (w z)) by (unfold Rsqr; ring). rewrite sqrt_Rsqr_abs. unfold Rdiv. ring. }
  assert (V0 : m * MN_ev a b 0 zs = 0). { rewrite V, Hw, Rabs_R0, Rinv_0. ring. }
  assert (HM : 0 < Rabs m) by (apply Rabs_pos_lt; exact Hm).
  destruct (C1 (fun y => Rabs y < 1)) as [d1 L1]. { rewrite V0. exists (mkposreal 1 Rlt_0_1). intros y Hy. unfold ball in Hy; cbn in Hy; unfold AbsRing_ball, abs, minus, plus, opp in Hy; cbn in Hy. rewrite Ropp_0, Rplus_0_r in Hy. exact Hy. }
  destruct (Cw (fun y => Rabs y < Rabs m)) as [d2 L2]. { rewrite Hw. exists (mkposreal _ HM). intros y Hy. unfold ball in Hy; cbn in Hy; unfold AbsRing_ball, abs, minus, plus, opp in Hy; cbn in Hy. rewrite Ropp_0, Rplus_0_r in Hy. exact Hy. }
  set (d := Rmin d1 d2 / 2). assert (Hdd : 0 < d < Rmin d1 d2). { unfold d. pose proof (cond_pos d1). pose proof (cond_pos d2). assert (0 < Rmin d1 d2) by (apply Rmin_glb_lt; assumption). lra. }
  pose proof (Rmin_l d1 d2). pose proof (Rmin_r d1 d2).
  assert (BL : forall e : posreal, d < e -> ball zs e (zs + d)). { intros e He. unfold ball; cbn; unfold AbsRing_ball, abs, minus, plus, opp; cbn. replace (zs + d + - zs) with d by ring. rewrite Rabs_pos_eq; lra. }
  specialize (L1 (zs + d) (BL d1 ltac:(lra))). specialize (L2 (zs + d) (BL d2 ltac:(lra))). cbv beta in L1, L2.
  assert (W : 0 < w (zs + d)). { rewrite <- Hw. unfold w. apply Rplus_lt_compat_l. apply sqrt_lt_1_alt. nra. }
  rewrite V, Rabs_mult, Rabs_Ropp, (Rabs_pos_eq (/ Rabs _)) in L1 by (left; apply Rinv_0_lt_compat; apply Rabs_pos_lt; lra). rewrite (Rabs_pos_eq (w _)) in L1, L2 by lra.
  apply (Rmult_lt_compat_r (w (zs + d))) in L1; [|exact W]. rewrite Rmult_assoc, Rinv_l in L1 by lra. lra.
Qed.
Lemma MN_cont a b z m : b <> 0 -> a + sqrt (z ^ 2 + b ^ 2) <> 0 -> continuous (fun z => m * MN_ev a b 0 z) z.
Proof.
  intros Hb Ha. apply (ex_derive_continuous (V := R_NormedModule) (fun z => m * MN_ev a b 0 z)). destruct (MN_force a b true Hb) as [_ Y]. eexists. apply is_derive_Rscal. apply (Y 0 z). right. exact Ha.
Qed.
Theorem C59_outside_range_refuted : ~ forall fl amp hr hz sech posdens p, amp <> 0 -> 0 < hr -> 0 < hz -> MN3_pot fl amp hr hz sech posdens = Some p -> forces_are_gradient all_points p.
Proof.
  intros H. specialize (H true 1 1 3 false false). unfold MN3_pot in H. assert (E : MN3_brd false 1 3 = 5733 / 1000) by (unfold MN3_brd, b_exphz; field). rewrite E in H. destruct (Rlt_dec (5733 / 1000) 0); [lra|].
  destruct (H _ ltac:(lra) ltac:(lra) ltac:(lra) eq_refl) as (Phi & Fp & E1 & _ & HF). clear H. cbn in E1. injection E1 as <-.
  set (b := 5733 / 1000 * 1) in *. set (a1 := a1_tab1 (5733 / 1000) * 1) in *. set (a2 := a2_tab1 (5733 / 1000) * 1) in *. set (a3 := a3_tab1 (5733 / 1000) * 1) in *.
  set (m1 := mass1_tab1 (5733 / 1000)) in *. set (m2 := mass2_tab1 (5733 / 1000)) in *. set (m3 := mass3_tab1 (5733 / 1000)) in *.
  assert (A1 : a1 < -11 /\ a2 < -20 /\ -11 < a3 < -10 /\ m1 < 0) by (unfold a1, a2, a3, m1, a1_tab1, a2_tab1, a3_tab1, mass1_tab1, quartic; lra). destruct A1 as (A1 & A2 & A3 & M1).
  assert (A12 : a2 < a1) by (unfold a1, a2, a1_tab1, a2_tab1, quartic; lra).
  assert (Bb : Rabs b = 5733 / 1000) by (unfold b; rewrite Rabs_pos_eq; lra). assert (Nb : b <> 0) by (unfold b; lra).
  set (zs := sqrt (a1 ^ 2 - b ^ 2)). assert (Ez : zs ^ 2 = a1 ^ 2 - b ^ 2). { unfold zs. replace (sqrt (a1 ^ 2 - b ^ 2) ^ 2) with (sqrt (a1 ^ 2 - b ^ 2) * sqrt (a1 ^ 2 - b ^ 2)) by ring. apply sqrt_sqrt. rewrite <- (pow2_abs b), Bb. nra. }
  assert (Es : sqrt (zs ^ 2 + b ^ 2) = - a1). { rewrite Ez. replace (a1 ^ 2 - b ^ 2 + b ^ 2) with (Rsqr a1) by (unfold Rsqr; ring). rewrite sqrt_Rsqr_abs, Rabs_left by lra. reflexivity. }
  set (A := 1 * (4 * PI * 1 ^ 2 * 3)) in *. assert (HA : A <> 0) by (unfold A; pose proof PI_RGT_0; lra).
  destruct (HF 0 zs 0 0 I) as (_ & D & _). assert (C : continuous (fun z => scale4 A (fun R z _ _ => m1 * MN_ev a1 b R z + m2 * MN_ev a2 b R z + m3 * MN_ev a3 b R z) 0 z 0 0) zs). { apply (ex_derive_continuous (V := R_NormedModule)). eexists. exact D. }
  apply (singular a1 b (A * m1) (fun z => plus (A * m2 * MN_ev a2 b 0 z) (A * m3 * MN_ev a3 b 0 z)) Nb); [lra| |fold zs|].
  - apply Rmult_integral_contrapositive_currified; [exact HA|lra].
  - apply (continuous_plus (V := R_NormedModule)); apply MN_cont; auto; rewrite Es; lra.
  - fold zs. eapply continuous_ext; [|exact C]. intros z. unfold scale4, plus. cbn. rr. ring.
Qed.

(** ** The null potential: a constant, with no force and no mass. *)
Theorem C59_null : forall amp, let p := Single amp Null_class in exists Phi dens, apiEv p = Some Phi /\ apiDens p = Some dens /\ (forall R z phi t, Phi R z phi t = amp /\ dens R z phi t = 0 /\ apiRf p v0 R z phi t = 0 /\ apizf p v0 R z phi t = 0) /\
  forces_are_gradient all_points p /\ hessian_is_correct all_points p /\ azimuthal_hessian_is_correct all_points p /\ density_is_source all_points p.
Proof.
  intros amp p. unfold p, Null_class.
  assert (F : AxiForce D2T (fun _ _ => 1) (fun _ _ => 0) (fun _ _ => 0)). { split; intros; (eapply is_derive_eq; [apply is_derive_cst|rr; ring]). }
  assert (H : AxiHess D2T (fun _ _ => 0) (fun _ _ => 0) (fun _ _ => 0) (fun _ _ => 0) (fun _ _ => 0)). { split; intros; apply is_derive_cst. }
  assert (Q : AxiPoisson D2T (fun _ _ => 0) (fun _ _ => 0) (fun _ _ => 0) (fun _ _ => 0)). { intros R z _ HR. field. lra. }
  do 2 eexists. split; [reflexivity|]. split; [reflexivity|]. split; [intros; cbn; unfold scale4; splits; ring|].
  splits; [apply (axi_forces D2T _ _ _ _ _ _ _ _ F)|apply (axi_hessian D2T _ _ _ _ _ _ _ _ H)|apply (axi_azimuthal D2T)|apply (axi_density D2T _ _ _ _ _ _ _ _ open_T F H Q)].
Qed.

Print Assumptions C59_forces.
Print Assumptions C59_second.
Print Assumptions C59_mixed.
Print Assumptions C59_density.
Print Assumptions C59_axisymmetric.
Print Assumptions C59_flag_refuted.
Print Assumptions C59_plane.
Print Assumptions C59_keywords.
Print Assumptions C59_three_disks.
Print Assumptions C59_three_disks_sum.
Print Assumptions C59_three_disks_mass.
Print Assumptions C59_three_disks_accepted.
Print Assumptions C59_outside_range_refuted.
Print Assumptions C59_null.
