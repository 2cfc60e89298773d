(** Rotated, tilted and shifted objects. *)
From Coq Require Import Reals Lra Psatz Nsatz List Bool.
From Coquelicot Require Import Coquelicot.
From Verif.Lib Require Import RealAux Atan2 Vec3.
From Verif.Model Require Import PotAPI Coords Wrappers.
From Verif.Spec Require Import PotSpec PotApiSpec SmoothSpec.
From Verif.Proofs Require Import AxiProofs PotLift SmoothProofs WrapProofs WrapProofs2.
Import ListNotations.
Open Scope R_scope.
Notation RR := RbaseSymbolsImpl.R (only parsing).

(** A periodic differentiable function of cylindrical coordinates along a Cartesian path. *)
Lemma is_derive_cyl (D : Dom) F FR Fz Fq t (x y h : RR -> RR) s (dx dy dz : RR) :
  differentiable_with D F FR Fz Fq -> periodic F -> 0 < x s ^ 2 + y s ^ 2 ->
  D (sqrt (x s ^ 2 + y s ^ 2)) (h s) (atan2 (y s) (x s)) t ->
  is_derive x s dx -> is_derive y s dy -> is_derive h s dz ->
  is_derive (fun u => F (sqrt (x u ^ 2 + y u ^ 2)) (h u) (atan2 (y u) (x u)) t) s
    (FR (sqrt (x s ^ 2 + y s ^ 2)) (h s) (atan2 (y s) (x s)) t * ((x s * dx + y s * dy) / sqrt (x s ^ 2 + y s ^ 2))
     + Fz (sqrt (x s ^ 2 + y s ^ 2)) (h s) (atan2 (y s) (x s)) t * dz
     + Fq (sqrt (x s ^ 2 + y s ^ 2)) (h s) (atan2 (y s) (x s)) t * ((x s * dy - y s * dx) / (x s ^ 2 + y s ^ 2))).
Proof.
  intros H Per Hp HD D1 D2 D3. pose proof (d_norm x y s dx dy Hp D1 D2) as Dr.
  destruct (Rlt_dec 0 (x s)) as [Hx|Hx].
  { apply (H t (fun u => sqrt (x u ^ 2 + y u ^ 2)) h (fun u => atan2 (y u) (x u)) s _ _ _ HD Dr D3). apply is_derive_atan2; auto. }
  destruct (Req_dec (y s) 0) as [Hy|Hy].
  2:{ apply (H t (fun u => sqrt (x u ^ 2 + y u ^ 2)) h (fun u => atan2 (y u) (x u)) s _ _ _ HD Dr D3). apply is_derive_atan2; auto. }
  assert (Hxn : x s < 0) by nra.
  assert (L : locally s (fun u => x u < 0)).
  { apply (ex_derive_continuous x s (ex_intro _ _ D1) (fun v => v < 0)). apply locally_lt; auto. }
  assert (Dx' : is_derive (fun u => - x u) s (- dx)) by (apply (is_derive_opp x s dx); auto).
  assert (Dy' : is_derive (fun u => - y u) s (- dy)) by (apply (is_derive_opp y s dy); auto).
  assert (Da : is_derive (fun u => atan2 (- y u) (- x u) + PI) s ((x s * dy - y s * dx) / (x s ^ 2 + y s ^ 2))).
  { eapply is_derive_eq. apply is_derive_Rplus; [apply (is_derive_atan2 (fun u => - x u) (fun u => - y u) s (- dx) (- dy)); auto; left; lra|apply is_derive_cst].
    unfold zero; simpl. toR. field. lra. }
  assert (Ev : atan2 (y s) (x s) = atan2 (- y s) (- x s) + PI).
  { unfold atan2. rewrite Hy. destruct (Rlt_dec 0 (x s)); [lra|]. destruct (Rlt_dec (x s) 0); [|lra].
    destruct (Rlt_dec 0 (- x s)); [|lra]. destruct (Rlt_dec 0 0); try lra; destruct (Rle_dec 0 0); try lra; f_equal; f_equal; field; lra. }
  eapply is_derive_ext_loc with (f := fun u => F (sqrt (x u ^ 2 + y u ^ 2)) (h u) (atan2 (- y u) (- x u) + PI) t).
  { eapply filter_imp; [|exact L]. intros u Hu. cbv beta in Hu.
    assert (E : atan2 (- y u) (- x u) = atan (y u / x u)).
    { unfold atan2. destruct (Rlt_dec 0 (- x u)); [|lra]. f_equal. field. lra. }
    rewrite E. unfold atan2. destruct (Rlt_dec 0 (x u)); [lra|]. destruct (Rlt_dec (x u) 0); [|lra].
    destruct (Rle_dec 0 (y u)); [reflexivity|].
    rewrite <- (Per _ _ (atan (y u / x u) - PI) t). f_equal. ring. }
  rewrite Ev in HD. rewrite Ev.
  apply (H t (fun u => sqrt (x u ^ 2 + y u ^ 2)) h (fun u => atan2 (- y u) (- x u) + PI) s _ _ _ HD Dr D3 Da).
Qed.

Section RT.
  Variables (rot : M3) (offset : option V3) (D : Dom).
  Let v := rt_xyz rot offset.
  Let at_ := rt_at rot offset.
  (** off the axis of the wrapped object *)
  Definition ERT : Dom := fun R z phi t =>
    0 < rt_R (v R z phi) /\ D (rt_R (v R z phi)) (vz (v R z phi)) (rt_phi (v R z phi)) t.
  Definition dP (r q : RR) (dr dz dp : RR) : V3 := mkV (dr * cos q - r * sin q * dp) (dr * sin q + r * cos q * dp) dz.
  (** derivatives with respect to the rotated Cartesian coordinates *)
  Definition icdw (F Fx Fy Fz : Fun4) : Prop :=
    forall t (r h q : RR -> RR) s (dr dz dp : RR), ERT (r s) (h s) (q s) t ->
      is_derive r s dr -> is_derive h s dz -> is_derive q s dp ->
      is_derive (fun u => F (r u) (h u) (q u) t) s
        (Fx (r s) (h s) (q s) t * vx (mulMV rot (dP (r s) (q s) dr dz dp))
         + Fy (r s) (h s) (q s) t * vy (mulMV rot (dP (r s) (q s) dr dz dp))
         + Fz (r s) (h s) (q s) t * vz (mulMV rot (dP (r s) (q s) dr dz dp))).
  Lemma v_d (r h q : RR -> RR) s (dr dz dp : RR) : is_derive r s dr -> is_derive h s dz -> is_derive q s dp ->
    is_derive (fun u => vx (v (r u) (h u) (q u))) s (vx (mulMV rot (dP (r s) (q s) dr dz dp))) /\
    is_derive (fun u => vy (v (r u) (h u) (q u))) s (vy (mulMV rot (dP (r s) (q s) dr dz dp))) /\
    is_derive (fun u => vz (v (r u) (h u) (q u))) s (vz (mulMV rot (dP (r s) (q s) dr dz dp))).
  Proof.
    intros D1 D2 D3. unfold v, rt_xyz. destruct rot as [[a b c] [d e f] [g i j]].
    splits; destruct offset as [[o1 o2 o3]|]; cbv [vadd mulMV vdot vx vy vz r0 r1 r2 dP]; (auto_derive; [repeat split; eexists; eauto|derw; ring]).
  Qed.
  Let rho : Fun4 := fun R z phi t => rt_R (v R z phi).
  Let X : Fun4 := fun R z phi t => vx (v R z phi).
  Let Y : Fun4 := fun R z phi t => vy (v R z phi).
  Lemma ERT_pos R z phi t : ERT R z phi t -> 0 < vx (v R z phi) ^ 2 + vy (v R z phi) ^ 2.
  Proof.
    intros (Hp & _). unfold rt_R in Hp. apply Rnot_le_lt. intros L. rewrite sqrt_neg_0 in Hp by lra. lra.
  Qed.
  Lemma at_icdw F FR Fz Fq : differentiable_with D F FR Fz Fq -> periodic F ->
    icdw (at_ F) (fun R z phi t => at_ FR R z phi t * X R z phi t / rho R z phi t - at_ Fq R z phi t * Y R z phi t / rho R z phi t ^ 2)
      (fun R z phi t => at_ FR R z phi t * Y R z phi t / rho R z phi t + at_ Fq R z phi t * X R z phi t / rho R z phi t ^ 2)
      (at_ Fz).
  Proof.
    intros H Per t r h q s dr dz dp HE D1 D2 D3. destruct (v_d r h q s dr dz dp D1 D2 D3) as (A1 & A2 & A3).
    pose proof (ERT_pos _ _ _ _ HE) as Hp. destruct HE as (Hr & HD).
    eapply is_derive_eq. apply (is_derive_cyl D F FR Fz Fq t (fun u => vx (v (r u) (h u) (q u))) (fun u => vy (v (r u) (h u) (q u))) (fun u => vz (v (r u) (h u) (q u))) s _ _ _ H Per Hp HD A1 A2 A3).
    cbv beta. unfold at_, rt_at, X, Y, rho. fold v. fold (rt_R (v (r s) (h s) (q s))). fold (rt_phi (v (r s) (h s) (q s))).
    assert (Er : vx (v (r s) (h s) (q s)) ^ 2 + vy (v (r s) (h s) (q s)) ^ 2 = rt_R (v (r s) (h s) (q s)) ^ 2).
    { unfold rt_R. rewrite sqrt_sq_eq by lra. reflexivity. }
    rewrite Er. toR. field. lra.
  Qed.
  Lemma rho_icdw : icdw rho (fun R z phi t => X R z phi t / rho R z phi t) (fun R z phi t => Y R z phi t / rho R z phi t) zero4.
  Proof.
    intros t r h q s dr dz dp HE D1 D2 D3. destruct (v_d r h q s dr dz dp D1 D2 D3) as (A1 & A2 & A3).
    pose proof (ERT_pos _ _ _ _ HE) as Hp. destruct HE as (Hr & HD).
    eapply is_derive_eq. apply (d_norm (fun u => vx (v (r u) (h u) (q u))) (fun u => vy (v (r u) (h u) (q u))) s _ _ Hp A1 A2).
    cbv beta. unfold X, Y, rho, zero4. fold (rt_R (v (r s) (h s) (q s))). toR. field. lra.
  Qed.
  Lemma X_icdw : icdw X (fun _ _ _ _ => 1) zero4 zero4.
  Proof.
    intros t r h q s dr dz dp HE D1 D2 D3. destruct (v_d r h q s dr dz dp D1 D2 D3) as (A1 & A2 & A3).
    eapply is_derive_eq. exact A1. unfold zero4. toR; ring.
  Qed.
  Lemma Y_icdw : icdw Y zero4 (fun _ _ _ _ => 1) zero4.
  Proof.
    intros t r h q s dr dz dp HE D1 D2 D3. destruct (v_d r h q s dr dz dp D1 D2 D3) as (A1 & A2 & A3).
    eapply is_derive_eq. exact A2. unfold zero4. toR; ring.
  Qed.
  Lemma icdw_mul f fx fy fz g gx gy gz : icdw f fx fy fz -> icdw g gx gy gz ->
    icdw (mul4 f g) (fun R z phi t => fx R z phi t * g R z phi t + f R z phi t * gx R z phi t)
      (fun R z phi t => fy R z phi t * g R z phi t + f R z phi t * gy R z phi t)
      (fun R z phi t => fz R z phi t * g R z phi t + f R z phi t * gz R z phi t).
  Proof.
    intros A B t r h q s dr dz dp HE D1 D2 D3. unfold mul4. eapply is_derive_eq.
    apply is_derive_Rmult; [apply (A t r h q s dr dz dp); auto|apply (B t r h q s dr dz dp); auto]. cbv beta; toR; ring.
  Qed.
  Lemma icdw_lin k f fx fy fz g gx gy gz : icdw f fx fy fz -> icdw g gx gy gz ->
    icdw (fun R z phi t => f R z phi t + k * g R z phi t) (fun R z phi t => fx R z phi t + k * gx R z phi t)
      (fun R z phi t => fy R z phi t + k * gy R z phi t) (fun R z phi t => fz R z phi t + k * gz R z phi t).
  Proof.
    intros A B t r h q s dr dz dp HE D1 D2 D3. eapply is_derive_eq.
    apply is_derive_Rplus; [apply (A t r h q s dr dz dp); auto|apply is_derive_scal, (B t r h q s dr dz dp); auto]. cbv beta; toR; ring.
  Qed.
  Definition irho (n : nat) : Fun4 := fun R z phi t => / rho R z phi t ^ n.
  Lemma irho_icdw n : icdw (irho n) (fun R z phi t => - INR n * X R z phi t / rho R z phi t ^ (n + 2)) (fun R z phi t => - INR n * Y R z phi t / rho R z phi t ^ (n + 2)) zero4.
  Proof.
    intros t r h q s dr dz dp HE D1 D2 D3. pose proof (rho_icdw t r h q s dr dz dp HE D1 D2 D3) as A.
    destruct HE as (Hr & HD). unfold irho.
    assert (B : is_derive (fun y => / y ^ n) (rho (r s) (h s) (q s) t) (- INR n / rho (r s) (h s) (q s) t ^ (n + 1))).
    { set (w := rho _ _ _ _). assert (Hw : 0 < w) by exact Hr. auto_derive. apply pow_nonzero; lra.
      destruct n as [|n]. simpl. field. lra. rewrite Nat.add_1_r. simpl pred. rewrite <- !tech_pow_Rmult. field. repeat split; try apply pow_nonzero; lra. }
    eapply is_derive_eq. apply (is_derive_Rchain (fun y => / y ^ n) (fun u => rho (r u) (h u) (q u) t) s _ _ B A).
    rewrite (pow_add _ n 1), (pow_add _ n 2). unfold zero4. toR. field. assert (0 < rho (r s) (h s) (q s) t) by exact Hr. repeat split; try apply pow_nonzero; lra.
  Qed.
  (** equal where the radius is positive *)
  Lemma icdw_ext f fx fy fz g gx gy gz :
    (forall R z phi t, 0 < rho R z phi t -> g R z phi t = f R z phi t) ->
    (forall R z phi t, 0 < rho R z phi t -> gx R z phi t = fx R z phi t /\ gy R z phi t = fy R z phi t /\ gz R z phi t = fz R z phi t) ->
    icdw f fx fy fz -> icdw g gx gy gz.
  Proof.
    intros E1 E2 A t r h q s dr dz dp HE D1 D2 D3.
    destruct (E2 (r s) (h s) (q s) t (proj1 HE)) as (-> & -> & ->).
    eapply is_derive_ext_loc; [|apply (A t r h q s dr dz dp); auto].
    pose proof (rho_icdw t r h q s dr dz dp HE D1 D2 D3) as B.
    assert (C : locally s (fun u => 0 < rho (r u) (h u) (q u) t)).
    { apply (ex_derive_continuous (fun u => rho (r u) (h u) (q u) t) s (ex_intro _ _ B) (fun y => 0 < y)). apply locally_pos. exact (proj1 HE). }
    eapply filter_imp; [|exact C]. intros u Hu. symmetry. apply E1; auto.
  Qed.
  Lemma cos_rt R z phi t : 0 < rho R z phi t -> cos (rt_phi (v R z phi)) = X R z phi t / rho R z phi t.
  Proof.
    intros H. unfold rt_phi. pose proof (atan2_cos (vx (v R z phi)) (vy (v R z phi))) as E.
    unfold rho, X, rt_R in *. rewrite <- E at 2. field. lra.
  Qed.
  Lemma sin_rt R z phi t : 0 < rho R z phi t -> sin (rt_phi (v R z phi)) = Y R z phi t / rho R z phi t.
  Proof.
    intros H. unfold rt_phi. pose proof (atan2_sin (vx (v R z phi)) (vy (v R z phi))) as E.
    unfold rho, Y, rt_R in *. rewrite <- E at 2. field. lra.
  Qed.
  Lemma rho_sq R z phi t : X R z phi t ^ 2 + Y R z phi t ^ 2 = rho R z phi t ^ 2.
  Proof. unfold rho, rt_R, X, Y. rewrite sqrt_sq_eq by nra. reflexivity. Qed.

  Variables Rf zf Pt P2R P2z PRz P2p PRp Ppz : Fun4.
  Hypothesis H2 : differentiable_with D (neg Rf) P2R PRz PRp.
  Hypothesis H3 : differentiable_with D (neg zf) PRz P2z Ppz.
  Hypothesis H4 : differentiable_with D (neg Pt) PRp Ppz P2p.
  Hypothesis P2' : periodic (neg Rf).
  Hypothesis P3' : periodic (neg zf).
  Hypothesis P4' : periodic (neg Pt).
  Definition fx : Fun4 := fun R z phi t => cos (rt_phi (v R z phi)) * at_ Rf R z phi t - sin (rt_phi (v R z phi)) * at_ Pt R z phi t / rho R z phi t.
  Definition fy : Fun4 := fun R z phi t => sin (rt_phi (v R z phi)) * at_ Rf R z phi t + cos (rt_phi (v R z phi)) * at_ Pt R z phi t / rho R z phi t.
  Let c : Fun4 := fun R z phi t => cos (rt_phi (v R z phi)).
  Let sn : Fun4 := fun R z phi t => sin (rt_phi (v R z phi)).
  Definition hxx : Fun4 := fun R z phi t =>
    at_ P2R R z phi t * c R z phi t ^ 2 - 2 * at_ PRp R z phi t * (c R z phi t * sn R z phi t) / rho R z phi t
    + at_ P2p R z phi t * sn R z phi t ^ 2 / (rho R z phi t * rho R z phi t) - at_ Rf R z phi t * sn R z phi t ^ 2 / rho R z phi t
    - 2 * at_ Pt R z phi t * (c R z phi t * sn R z phi t) / (rho R z phi t * rho R z phi t).
  Definition hyy : Fun4 := fun R z phi t =>
    at_ P2R R z phi t * sn R z phi t ^ 2 + 2 * at_ PRp R z phi t * (c R z phi t * sn R z phi t) / rho R z phi t
    + at_ P2p R z phi t * c R z phi t ^ 2 / (rho R z phi t * rho R z phi t) - at_ Rf R z phi t * c R z phi t ^ 2 / rho R z phi t
    + 2 * at_ Pt R z phi t * (c R z phi t * sn R z phi t) / (rho R z phi t * rho R z phi t).
  Definition hxy : Fun4 := fun R z phi t =>
    at_ P2R R z phi t * (c R z phi t * sn R z phi t) + at_ PRp R z phi t * (c R z phi t ^ 2 - sn R z phi t ^ 2) / rho R z phi t
    - at_ P2p R z phi t * (c R z phi t * sn R z phi t) / (rho R z phi t * rho R z phi t) + at_ Rf R z phi t * (c R z phi t * sn R z phi t) / rho R z phi t
    + at_ Pt R z phi t * (c R z phi t ^ 2 - sn R z phi t ^ 2) / (rho R z phi t * rho R z phi t).
  Definition hxz : Fun4 := fun R z phi t => at_ PRz R z phi t * c R z phi t - at_ Ppz R z phi t * sn R z phi t / rho R z phi t.
  Definition hyz : Fun4 := fun R z phi t => at_ PRz R z phi t * sn R z phi t + at_ Ppz R z phi t * c R z phi t / rho R z phi t.
  Ltac inner := intros R z phi t Hp; unfold neg, mul4, irho, fx, fy, hxx, hyy, hxy, hxz, hyz, c, sn; rewrite ?(cos_rt R z phi t Hp), ?(sin_rt R z phi t Hp);
    pose proof (rho_sq R z phi t) as Eq; unfold at_, rt_at; fold v; simpl INR; change (1 + 2)%nat with 3%nat; change (2 + 2)%nat with 4%nat; unfold zero4;
    change (vx (v R z phi)) with (X R z phi t) in *; change (vy (v R z phi)) with (Y R z phi t) in *;
    fold (rho R z phi t); set (w := rho R z phi t) in *; set (x := X R z phi t) in *; set (y := Y R z phi t) in *.
  Ltac gen w := repeat match goal with |- context [?F w ?a ?b ?t] => let k := fresh "k" in set (k := F w a b t) in *; clearbody k end.
  Ltac finish w x y Eq := clearbody w x y; gen w; assert (E2 : y ^ 2 = w ^ 2 - x ^ 2) by lra; splits; (field_simplify_eq; [|lra]); try replace (y ^ 4) with (y ^ 2 * y ^ 2) by ring; try replace (y ^ 3) with (y * y ^ 2) by ring; rewrite ?E2; ring.
  Lemma fx_icdw : icdw (neg fx) hxx hxy hxz.
  Proof.
    pose proof (icdw_lin (-1) _ _ _ _ _ _ _ _
      (icdw_mul _ _ _ _ _ _ _ _ (icdw_mul _ _ _ _ _ _ _ _ X_icdw (irho_icdw 1)) (at_icdw _ _ _ _ H2 P2'))
      (icdw_mul _ _ _ _ _ _ _ _ (icdw_mul _ _ _ _ _ _ _ _ Y_icdw (irho_icdw 2)) (at_icdw _ _ _ _ H4 P4'))) as A.
    eapply icdw_ext; [| |exact A].
    - inner. field. lra.
    - inner. finish w x y Eq.
  Qed.
  Lemma fy_icdw : icdw (neg fy) hxy hyy hyz.
  Proof.
    pose proof (icdw_lin 1 _ _ _ _ _ _ _ _
      (icdw_mul _ _ _ _ _ _ _ _ (icdw_mul _ _ _ _ _ _ _ _ Y_icdw (irho_icdw 1)) (at_icdw _ _ _ _ H2 P2'))
      (icdw_mul _ _ _ _ _ _ _ _ (icdw_mul _ _ _ _ _ _ _ _ X_icdw (irho_icdw 2)) (at_icdw _ _ _ _ H4 P4'))) as A.
    eapply icdw_ext; [| |exact A].
    - inner. field. lra.
    - inner. finish w x y Eq.
  Qed.
  Lemma fz_icdw : icdw (neg (at_ zf)) hxz hyz (at_ P2z).
  Proof.
    eapply icdw_ext; [| |apply (at_icdw _ _ _ _ H3 P3')].
    - intros; reflexivity.
    - inner. splits; field; lra.
  Qed.
  (** back to the outer Cartesian frame *)
  Lemma icdw_cdw F Fx Fy Fz : icdw F Fx Fy Fz ->
    cdw ERT F (fun R z phi t => vx (mulMV (transp rot) (mkV (Fx R z phi t) (Fy R z phi t) (Fz R z phi t))))
      (fun R z phi t => vy (mulMV (transp rot) (mkV (Fx R z phi t) (Fy R z phi t) (Fz R z phi t))))
      (fun R z phi t => vz (mulMV (transp rot) (mkV (Fx R z phi t) (Fy R z phi t) (Fz R z phi t)))).
  Proof.
    intros A t r h q s dr dz dp HE D1 D2 D3. eapply is_derive_eq. apply (A t r h q s dr dz dp HE D1 D2 D3).
    clear. destruct rot as [[a b c'] [d e f] [g i j]]. cbv [mulMV transp col0 col1 col2 vdot vx vy vz r0 r1 r2 dP]. toR; ring.
  Qed.
  Definition Hm (R z phi t : RR) : M3 :=
    mulMM (transp rot) (mulMM (mkM (mkV (hxx R z phi t) (hxy R z phi t) (hxz R z phi t))
                                   (mkV (hxy R z phi t) (hyy R z phi t) (hyz R z phi t))
                                   (mkV (hxz R z phi t) (hyz R z phi t) (at_ P2z R z phi t))) (transp (transp rot))).
  Definition Gm (R z phi t : RR) : V3 := mulMV (transp rot) (mkV (fx R z phi t) (fy R z phi t) (at_ zf R z phi t)).
  Ltac outer := intros R z phi t; intros; unfold neg, Gm, Hm;
     generalize (hxx R z phi t) (hyy R z phi t) (hxy R z phi t) (hxz R z phi t) (hyz R z phi t) (fx R z phi t) (fy R z phi t) (at_ zf R z phi t) (at_ P2z R z phi t); generalize rot; clear;
     intros [[a b c'] [d e f] [g i j]]; intros;
     cbv [mulMV mulMM transp col0 col1 col2 vdot vx vy vz r0 r1 r2]; ring.
  Lemma Gx_cdw : cdw ERT (neg (fun R z phi t => vx (Gm R z phi t))) (fun R z phi t => vx (r0 (Hm R z phi t))) (fun R z phi t => vy (r0 (Hm R z phi t))) (fun R z phi t => vz (r0 (Hm R z phi t))).
  Proof.
    eapply cdw_ext with (k := 1); [| | | |apply icdw_cdw;
      apply (icdw_lin (vx (r2 rot)) _ _ _ _ _ _ _ _ (icdw_lin (vx (r1 rot)) _ _ _ _ _ _ _ _ (icdw_lin (vx (r0 rot) - 1) _ _ _ _ _ _ _ _ fx_icdw fx_icdw) fy_icdw) fz_icdw)]; outer.
  Qed.
  Lemma Gy_cdw : cdw ERT (neg (fun R z phi t => vy (Gm R z phi t))) (fun R z phi t => vy (r0 (Hm R z phi t))) (fun R z phi t => vy (r1 (Hm R z phi t))) (fun R z phi t => vz (r1 (Hm R z phi t))).
  Proof.
    eapply cdw_ext with (k := 1); [| | | |apply icdw_cdw;
      apply (icdw_lin (vy (r2 rot)) _ _ _ _ _ _ _ _ (icdw_lin (vy (r1 rot)) _ _ _ _ _ _ _ _ (icdw_lin (vy (r0 rot) - 1) _ _ _ _ _ _ _ _ fx_icdw fx_icdw) fy_icdw) fz_icdw)]; outer.
  Qed.
  Lemma Gz_cdw : cdw ERT (neg (fun R z phi t => vz (Gm R z phi t))) (fun R z phi t => vz (r0 (Hm R z phi t))) (fun R z phi t => vz (r1 (Hm R z phi t))) (fun R z phi t => vz (r2 (Hm R z phi t))).
  Proof.
    eapply cdw_ext with (k := 1); [| | | |apply icdw_cdw;
      apply (icdw_lin (vz (r2 rot)) _ _ _ _ _ _ _ _ (icdw_lin (vz (r1 rot)) _ _ _ _ _ _ _ _ (icdw_lin (vz (r0 rot) - 1) _ _ _ _ _ _ _ _ fx_icdw fx_icdw) fy_icdw) fz_icdw)]; outer.
  Qed.
  Lemma ev_cdw Phi : differentiable_with D Phi (neg Rf) (neg zf) (neg Pt) -> periodic Phi ->
    cdw ERT (at_ Phi) (neg (fun R z phi t => vx (Gm R z phi t))) (neg (fun R z phi t => vy (Gm R z phi t))) (neg (fun R z phi t => vz (Gm R z phi t))).
  Proof.
    intros H1 P1.
    assert (A : icdw (at_ Phi) (neg fx) (neg fy) (neg (at_ zf))).
    { eapply icdw_ext; [| |apply (at_icdw _ _ _ _ H1 P1)]. intros; reflexivity. inner. splits; [field; lra|field; lra|reflexivity]. }
    eapply cdw_ext with (k := 1); [| | | |apply icdw_cdw; exact A]; [intros; ring| | |]; outer.
  Qed.
End RT.

Lemma neg_periodic F : periodic F -> periodic (neg F).
Proof. intros H R z phi t. unfold neg. rewrite H. reflexivity. Qed.

Lemma rt_force_Gm rot offset Rf zf Pt R z phi t : rt_force rot (transp rot) offset Rf zf Pt R z phi t = Gm rot offset Rf zf Pt R z phi t.
Proof. reflexivity. Qed.
Lemma rt_hess_Hm rot offset Rf Pt R2 p2 z2 Rz Rp pz R z phi t :
  rt_hess rot (transp rot) offset Rf Pt R2 p2 z2 Rz Rp pz R z phi t = Hm rot offset Rf Pt R2 z2 Rz p2 Rp pz R z phi t.
Proof. reflexivity. Qed.
Ltac fin := intros; unfold neg, cyR, cyP, k_R2, k_Rz, k_Rp, k_pz, k_p2; rewrite ?rt_force_Gm, ?rt_hess_Hm, ?cos_2a; ring.
Lemma rotate_smooth rot inv_rot offset (D : Dom) p : orthogonal rot -> mulMM rot inv_rot = eye ->
  isDiss p = false -> api_periodic p -> smooth D p ->
  exists c, RotateAndTilt rot inv_rot offset p = Some c /\ forall amp, smooth (ERT rot offset D) (Single amp c).
Proof.
  intros Ho Hi Hd (Q1 & Q2 & Q3 & Q4) Hs. usesm Hs.
  assert (inv_rot = transp rot) as ->. { rewrite <- (mulMM_eye_l inv_rot), <- (ortho_l rot Ho), mulMM_assoc, Hi, mulMM_eye_r. reflexivity. }
  unfold RotateAndTilt. change novel with v0. rewrite Hd, E1, E2, E3, E4, E5, E6, E7, E8. eexists. split; [reflexivity|].
  intros amp. specialize (Q1 _ E1). specialize (Q4 _ E2).
  apply neg_periodic in Q2. apply neg_periodic in Q3. apply neg_periodic in Q4.
  pose proof (ev_cdw rot offset D _ _ _ P2R P2z PRz P2p PRp Ppz Phi H1 Q1) as B0.
  pose proof (Gx_cdw rot offset D _ _ _ _ _ _ _ _ _ H2 H3 H4 Q2 Q3 Q4) as B1.
  pose proof (Gy_cdw rot offset D _ _ _ _ _ _ _ _ _ H2 H3 H4 Q2 Q3 Q4) as B2.
  pose proof (Gz_cdw rot offset D _ _ _ _ _ _ _ _ _ H2 H3 H4 Q2 Q3 Q4) as B3.
  set (E := ERT rot offset D) in *.
  eapply single_smooth; cbn [c_pt c_R2 c_z2 c_Rz c_p2 c_Rp c_pz c_ev c_Rf c_zf]; try reflexivity; try (left; reflexivity).
  - exact (cart_0 E _ _ _ _ B0).
  - eapply dw_ext with (k := 1); [| | | |exact (cart_1 E _ _ _ _ _ _ _ B1 B2)]; fin.
  - eapply dw_ext with (k := 1); [| | | |exact (cart_2 E _ _ _ _ B3)]; fin.
  - eapply dw_ext with (k := 1); [| | | |exact (cart_3 E _ _ _ _ _ _ _ B1 B2)]; fin.
Qed.
