(** The multipole expansion in cylindrical coordinates. *)
From Coq Require Import Reals Lra Lia Arith ZArith.
From Coquelicot Require Import Coquelicot.
From Verif.Lib Require Import RealAux Atan2.
From Verif.Model Require Import Coords PotAPI SphHarm Multipole.
From Verif.Spec Require Import PotSpec PotApiSpec.
From Verif.Proofs Require Import PotLift AxiProofs NonAxiProofs Gegenbauer SphAngular SphCyl SphMass MultiRadial.
Open Scope R_scope.
Notation RR := RbaseSymbolsImpl.R (only parsing).
Ltac rr := match goal with |- ?a = ?b => change (@eq RR a b) end.

Ltac gen_loops := repeat (match goal with |- context [loop ?L ?M ?f] => let v := fresh "v" in set (v := loop L M f); clearbody v end).
Section Gen.
  Variables L M : nat.
  Notation S3 := (loop L M).
  Lemma lp_ext f g : (forall k l m, f k l m = g k l m) -> S3 f = S3 g.
  Proof using. intros H. unfold loop. apply sum1_ext. intros l. apply sum1_ext. intros m. rewrite !H. reflexivity. Qed.
  Lemma lp_plus f g : S3 (fun k l m => f k l m + g k l m) = S3 f + S3 g.
  Proof using. unfold loop. rewrite <- sum1_plus. apply sum1_ext. intros l. rewrite <- sum1_plus. apply sum1_ext. intros m. destruct (Nat.ltb 0 m); rr; ring. Qed.
  Lemma lp_scal c f : S3 (fun k l m => c * f k l m) = c * S3 f.
  Proof using. unfold loop. rewrite <- sum1_scal. apply sum1_ext. intros l. rewrite <- sum1_scal. apply sum1_ext. intros m. destruct (Nat.ltb 0 m); rr; ring. Qed.
  Lemma d_lp (f : nat -> nat -> nat -> RR -> RR) (df : nat -> nat -> nat -> RR) x : (forall k l m, is_derive (f k l m) x (df k l m)) -> is_derive (fun y => S3 (fun k l m => f k l m y)) x (S3 df).
  Proof using.
    intros H. unfold loop. apply (d_sum1 L (fun l y => sum1 (Nat.min (l + 1) M) (fun m => f 0%nat l m y + (if Nat.ltb 0 m then f 1%nat l m y else 0)))). intros l. apply (d_sum1 (Nat.min (l + 1) M) (fun m y => f 0%nat l m y + (if Nat.ltb 0 m then f 1%nat l m y else 0))). intros m. apply is_derive_Rplus; [apply H|]. destruct (Nat.ltb 0 m); [apply H|apply (is_derive_const (V := R_NormedModule))].
  Qed.
  Lemma d_az k m phi : is_derive (az k m) phi (daz k m phi).
  Proof using. destruct k as [|k]; unfold az, daz; set (q := INR m); clearbody q; auto_derive; try exact I; rr; ring. Qed.
  Lemma d_daz k m phi : is_derive (daz k m) phi (- INR m * INR m * az k m phi).
  Proof using. destruct k as [|k]; unfold az, daz; set (q := INR m); clearbody q; auto_derive; try exact I; rr; ring. Qed.
  Variables f0 f1 f2 : nat -> nat -> nat -> RR -> RR.
  Variable Dr : RR -> Prop.
  Hypothesis Hd1 : forall r, Dr r -> forall k l m, is_derive (f0 k l m) r (f1 k l m r).
  Hypothesis Hd2 : forall r, Dr r -> forall k l m, is_derive (f1 k l m) r (f2 k l m r).
  Notation h0 phi := (fun k (l : nat) m => az k m phi).
  Notation h1 phi := (fun k (l : nat) m => daz k m phi).
  Definition U0 (h : nat -> nat -> nat -> RR) (r th : RR) : RR := S3 (fun k l m => h k l m * (1 * (f0 k l m r * th0 l m th))).
  Definition U1 (cr ct : RR) (h : nat -> nat -> nat -> RR) (r th : RR) : RR := S3 (fun k l m => h k l m * (cr * (f1 k l m r * th0 l m th) + ct * (f0 k l m r * th1 l m th))).
  Lemma d_U0 (h : nat -> nat -> nat -> RR) (rr_ th : RR -> RR) x dr dt : is_derive rr_ x dr -> is_derive th x dt -> Dr (rr_ x) -> 0 < sin (th x) ->
    is_derive (fun y => U0 h (rr_ y) (th y)) x (U1 dr dt h (rr_ x) (th x)).
  Proof using Hd1.
    intros DR Dt H1 H2. unfold U0, U1. apply (d_lp (fun k l m y => h k l m * (1 * (f0 k l m (rr_ y) * th0 l m (th y))))). intros n l m. apply is_derive_Rscal.
    refine (is_derive_eq _ _ _ _ (d_term (fun _ => 1) (f0 n l m) (th0 l m) rr_ th x 0 _ _ dr dt (is_derive_const (V := R_NormedModule) _ _) (Hd1 _ H1 n l m) (d_th0 l m _ H2) DR Dt) _). rr. ring.
  Qed.
  Lemma d_U1 (h : nat -> nat -> nat -> RR) (cr ct rr_ th : RR -> RR) x dcr dct dr dt : is_derive cr x dcr -> is_derive ct x dct -> is_derive rr_ x dr -> is_derive th x dt -> Dr (rr_ x) -> 0 < sin (th x) ->
    is_derive (fun y => U1 (cr y) (ct y) h (rr_ y) (th y)) x
      (cr x * dr * S3 (fun n l m => h n l m * th0 l m (th x) * f2 n l m (rr_ x)) + dcr * S3 (fun n l m => h n l m * th0 l m (th x) * f1 n l m (rr_ x))
       + (cr x * dt + ct x * dr) * S3 (fun n l m => h n l m * th1 l m (th x) * f1 n l m (rr_ x)) + ct x * dt * S3 (fun n l m => h n l m * th2 l m (th x) * f0 n l m (rr_ x))
       + dct * S3 (fun n l m => h n l m * th1 l m (th x) * f0 n l m (rr_ x))).
  Proof using Hd1 Hd2.
    intros D1 D2 DR Dt H1 H2. rewrite <- !lp_scal, <- !lp_plus. unfold U1. apply (d_lp (fun n l m y => h n l m * (cr y * (f1 n l m (rr_ y) * th0 l m (th y)) + ct y * (f0 n l m (rr_ y) * th1 l m (th y))))). intros n l m.
    refine (is_derive_eq _ _ _ _ (is_derive_Rscal _ x (h n l m) _ (is_derive_Rplus _ _ x _ _ (d_term cr (f1 n l m) (th0 l m) rr_ th x dcr _ _ dr dt D1 (Hd2 _ H1 n l m) (d_th0 l m _ H2) DR Dt) (d_term ct (f0 n l m) (th1 l m) rr_ th x dct _ _ dr dt D2 (Hd1 _ H1 n l m) (d_th1 l m _ H2) DR Dt))) _). rr. ring.
  Qed.
  Definition gev (R z phi t : RR) : RR := U0 (h0 phi) (rad R z) (tht R z).
  Definition gRf (R z phi t : RR) : RR := - U1 (R / rad R z) (z / rad R z ^ 2) (h0 phi) (rad R z) (tht R z).
  Definition gzf (R z phi t : RR) : RR := - U1 (z / rad R z) (- R / rad R z ^ 2) (h0 phi) (rad R z) (tht R z).
  Definition gpt (R z phi t : RR) : RR := - U0 (h1 phi) (rad R z) (tht R z).
  Definition g2nd (R z phi : RR) : spher2 := let r := rad R z in let th := tht R z in
    mkS2 (S3 (fun n l m => az n m phi * th0 l m th * f2 n l m r)) (S3 (fun n l m => az n m phi * th2 l m th * f0 n l m r))
         (S3 (fun n l m => - INR m * INR m * az n m phi * th0 l m th * f0 n l m r)) (S3 (fun n l m => az n m phi * th1 l m th * f1 n l m r))
         (S3 (fun n l m => daz n m phi * th0 l m th * f1 n l m r)) (S3 (fun n l m => daz n m phi * th1 l m th * f0 n l m r))
         (S3 (fun n l m => az n m phi * th0 l m th * f1 n l m r)) (S3 (fun n l m => az n m phi * th1 l m th * f0 n l m r)).
  Definition gcyl (d : deriv) (R z phi t : RR) : RR := let s := g2nd R z phi in let r := rad R z in match d with
    | dR2 => Phi_rr s * R ^ 2 / r ^ 2 + Phi_r s * z ^ 2 / r ^ 3 + 2 * Phi_rt s * R * z / r ^ 3 + Phi_tt s * z ^ 2 / r ^ 4 - Phi_t s * 2 * R * z / r ^ 4
    | dz2 => Phi_rr s * z ^ 2 / r ^ 2 + Phi_r s * R ^ 2 / r ^ 3 - 2 * Phi_rt s * R * z / r ^ 3 + Phi_tt s * R ^ 2 / r ^ 4 + Phi_t s * 2 * R * z / r ^ 4
    | dRz => Phi_rr s * R * z / r ^ 2 - Phi_r s * (R * z) / r ^ 3 + Phi_rt s * (z ^ 2 - R ^ 2) / r ^ 3 - Phi_tt s * (z * R) / r ^ 4 + Phi_t s * (R ^ 2 - z ^ 2) / r ^ 4
    | dphi2 => Phi_pp s
    | dRphi => Phi_rp s * R / r + Phi_tp s * z / r ^ 2
    | dphiz => Phi_rp s * z / r - Phi_tp s * R / r ^ 2 end.
  Definition DD : Dom := fun R z _ _ => 0 < R /\ Dr (rad R z).
  Lemma d_U0_phi (r th phi : RR) : is_derive (fun x => U0 (h0 x) r th) phi (U0 (h1 phi) r th).
  Proof using. unfold U0. apply (d_lp (fun n l m x => az n m x * (1 * (f0 n l m r * th0 l m th)))). intros n l m. refine (is_derive_eq _ _ _ _ (is_derive_Rmult (az n m) (fun _ => 1 * (f0 n l m r * th0 l m th)) phi _ 0 (d_az n m phi) (is_derive_const (V := R_NormedModule) _ _)) _). rr. ring. Qed.
  Lemma d_U1_phi (d1 d2 r th phi : RR) : is_derive (fun x => U1 d1 d2 (h0 x) r th) phi (U1 d1 d2 (h1 phi) r th).
  Proof using. unfold U1. apply (d_lp (fun n l m x => az n m x * (d1 * (f1 n l m r * th0 l m th) + d2 * (f0 n l m r * th1 l m th)))). intros n l m. refine (is_derive_eq _ _ _ _ (is_derive_Rmult (az n m) (fun _ => d1 * (f1 n l m r * th0 l m th) + d2 * (f0 n l m r * th1 l m th)) phi _ 0 (d_az n m phi) (is_derive_const (V := R_NormedModule) _ _)) _). rr. ring. Qed.
  Lemma d_U0_phi2 (r th phi : RR) : is_derive (fun x => U0 (h1 x) r th) phi (S3 (fun n l m => - INR m * INR m * az n m phi * th0 l m th * f0 n l m r)).
  Proof using. unfold U0. apply (d_lp (fun n l m x => daz n m x * (1 * (f0 n l m r * th0 l m th)))). intros n l m. refine (is_derive_eq _ _ _ _ (is_derive_Rmult (daz n m) (fun _ => 1 * (f0 n l m r * th0 l m th)) phi _ 0 (d_daz n m phi) (is_derive_const (V := R_NormedModule) _ _)) _). rr. ring. Qed.
  Ltac via f := apply (is_derive_ext f); [intros ?; symmetry; first [reflexivity|apply Ropp_involutive]|].
  Lemma gforces : is_force_field DD gev gRf gzf gpt.
  Proof using Hd1.
    intros R z phi t [HR HD]. pose proof (sin_tht_pos R z HR) as SP. unfold gRf, gzf, gpt. rewrite !Ropp_involutive. split; [|split].
    - apply (d_U0 _ (fun x => rad x z) (fun x => tht x z)); [apply dr_R|apply dt_R|exact HD|exact SP]; exact HR.
    - apply (d_U0 _ (fun x => rad R x) (fun x => tht R x)); [apply dr_z|apply dt_z|exact HD|exact SP]; exact HR.
    - apply d_U0_phi.
  Qed.
  Lemma ghess : is_meridional_hessian DD gRf gzf (gcyl dR2) (gcyl dz2) (gcyl dRz).
  Proof using Hd1 Hd2.
    intros R z phi t [HR HD]. pose proof (r0 R z HR) as P. pose proof (sin_tht_pos R z HR) as SP.
    split; [|split; [|split]].
    - via (fun x => U1 (x / rad x z) (z / rad x z ^ 2) (h0 phi) (rad x z) (tht x z)).
      refine (is_derive_eq _ _ _ _ (d_U1 (h0 phi) (fun x => x / rad x z) (fun x => z / rad x z ^ 2) (fun x => rad x z) (fun x => tht x z) R _ _ _ _ (c1R R z HR) (c3R R z HR) (dr_R R z HR) (dt_R R z HR) HD SP) _).
      unfold gcyl, g2nd. cbn [Phi_rr Phi_r Phi_rt Phi_tt Phi_t]. gen_loops. rr. field. lra.
    - via (fun x => U1 (x / rad R x) (- R / rad R x ^ 2) (h0 phi) (rad R x) (tht R x)).
      refine (is_derive_eq _ _ _ _ (d_U1 (h0 phi) (fun x => x / rad R x) (fun x => - R / rad R x ^ 2) (fun x => rad R x) (fun x => tht R x) z _ _ _ _ (c2z R z HR) (c4z R z HR) (dr_z R z HR) (dt_z R z HR) HD SP) _).
      unfold gcyl, g2nd. cbn [Phi_rr Phi_r Phi_rt Phi_tt Phi_t]. gen_loops. rr. field. lra.
    - via (fun x => U1 (R / rad R x) (x / rad R x ^ 2) (h0 phi) (rad R x) (tht R x)).
      refine (is_derive_eq _ _ _ _ (d_U1 (h0 phi) (fun x => R / rad R x) (fun x => x / rad R x ^ 2) (fun x => rad R x) (fun x => tht R x) z _ _ _ _ (c1z R z HR) (c3z R z HR) (dr_z R z HR) (dt_z R z HR) HD SP) _).
      unfold gcyl, g2nd. cbn [Phi_rr Phi_r Phi_rt Phi_tt Phi_t]. gen_loops. rr. field. lra.
    - via (fun x => U1 (z / rad x z) (- x / rad x z ^ 2) (h0 phi) (rad x z) (tht x z)).
      refine (is_derive_eq _ _ _ _ (d_U1 (h0 phi) (fun x => z / rad x z) (fun x => - x / rad x z ^ 2) (fun x => rad x z) (fun x => tht x z) R _ _ _ _ (c2R R z HR) (c4R R z HR) (dr_R R z HR) (dt_R R z HR) HD SP) _).
      unfold gcyl, g2nd. cbn [Phi_rr Phi_r Phi_rt Phi_tt Phi_t]. gen_loops. rr. field. lra.
  Qed.
  Lemma U1_sums d1 d2 h r th : U1 d1 d2 h r th = d1 * S3 (fun n l m => h n l m * th0 l m th * f1 n l m r) + d2 * S3 (fun n l m => h n l m * th1 l m th * f0 n l m r).
  Proof using. rewrite <- !lp_scal, <- lp_plus. unfold U1. apply lp_ext. intros. rr. ring. Qed.
  Lemma gazi : is_azimuthal_hessian DD gRf gzf gpt (gcyl dphi2) (gcyl dRphi) (gcyl dphiz).
  Proof using Hd1.
    intros R z phi t [HR HD]. pose proof (sin_tht_pos R z HR) as SP.
    assert (E1 : U1 (R / rad R z) (z / rad R z ^ 2) (h1 phi) (rad R z) (tht R z) = gcyl dRphi R z phi t). { rewrite U1_sums. unfold gcyl, g2nd. cbn [Phi_rp Phi_tp]. unfold Rdiv. rr. ring. }
    assert (E2 : U1 (z / rad R z) (- R / rad R z ^ 2) (h1 phi) (rad R z) (tht R z) = gcyl dphiz R z phi t). { rewrite U1_sums. unfold gcyl, g2nd. cbn [Phi_rp Phi_tp]. unfold Rdiv. rr. ring. }
    split; [|split; [|split; [|split]]].
    - via (fun x => U0 (h1 x) (rad R z) (tht R z)). apply d_U0_phi2.
    - rewrite <- E1. via (fun x => U1 (R / rad R z) (z / rad R z ^ 2) (h0 x) (rad R z) (tht R z)). apply d_U1_phi.
    - rewrite <- E1. via (fun x => U0 (h1 phi) (rad x z) (tht x z)). apply (d_U0 _ (fun x => rad x z) (fun x => tht x z)); [apply dr_R|apply dt_R|exact HD|exact SP]; exact HR.
    - rewrite <- E2. via (fun x => U1 (z / rad R z) (- R / rad R z ^ 2) (h0 x) (rad R z) (tht R z)). apply d_U1_phi.
    - rewrite <- E2. via (fun x => U0 (h1 phi) (rad R x) (tht R x)). apply (d_U0 _ (fun x => rad R x) (fun x => tht R x)); [apply dr_z|apply dt_z|exact HD|exact SP]; exact HR.
  Qed.
  (** the source, term by term *)
  Definition src (n l m : nat) (r : RR) : RR := (f2 n l m r + 2 / r * f1 n l m r - INR l * (INR l + 1) / r ^ 2 * f0 n l m r) / (4 * PI).
  Definition gdens (R z phi t : RR) : RR := S3 (fun n l m => az n m phi * th0 l m (tht R z) * src n l m (rad R z)).
  Lemma gpoisson : poisson_alg (fun R _ _ _ => 0 < R) gRf (gcyl dR2) (gcyl dphi2) (gcyl dz2) gdens.
  Proof using.
    intros R z phi t HR _. pose proof (r0 R z HR) as P. pose proof (sin_tht_pos R z HR) as SP. pose proof (rad_sq R z) as Q. pose proof PI_RGT_0 as P0.
    unfold gdens. rewrite <- lp_scal. rewrite (lp_ext _ (fun n l m => az n m phi * th0 l m (tht R z) * f2 n l m (rad R z) + (2 / rad R z * (az n m phi * th0 l m (tht R z) * f1 n l m (rad R z)) + (/ rad R z ^ 2 * (az n m phi * th2 l m (tht R z) * f0 n l m (rad R z)) + (z / R / rad R z ^ 2 * (az n m phi * th1 l m (tht R z) * f0 n l m (rad R z)) + / R ^ 2 * (- INR m * INR m * az n m phi * th0 l m (tht R z) * f0 n l m (rad R z))))))).
    - rewrite !lp_plus, !lp_scal. unfold gRf. rewrite U1_sums. unfold gcyl, g2nd. cbn [Phi_rr Phi_r Phi_rt Phi_tt Phi_t Phi_pp]. gen_loops. set (s := rad R z) in *. clearbody s.
      replace (z ^ 2) with (s ^ 2 - R ^ 2) by lra. rr. field. split; lra.
    - intros n l m. unfold src. pose proof (angular l m (tht R z) SP) as E. pose proof (sin_tht R z HR) as Es. pose proof (cos_tht R z HR) as Ec. rewrite Es, Ec in E.
      set (g0 := th0 l m (tht R z)) in *. set (g1 := th1 l m (tht R z)) in *. set (g2 := th2 l m (tht R z)) in *. set (s := rad R z) in *. set (u0 := f0 n l m s). set (u1 := f1 n l m s). set (u2 := f2 n l m s). set (h := az n m phi). clearbody g0 g1 g2 u0 u1 u2 h s. clear Es Ec SP.
      assert (E' : INR l * (INR l + 1) * g0 = - (g2 + z / s / (R / s) * g1 - INR m ^ 2 / (R / s) ^ 2 * g0)) by lra.
      replace (4 * PI * (h * g0 * ((u2 + 2 / s * u1 - INR l * (INR l + 1) / s ^ 2 * u0) / (4 * PI)))) with (h * g0 * u2 + 2 / s * (h * g0 * u1) - h * u0 / s ^ 2 * (INR l * (INR l + 1) * g0)) by (field; lra). rewrite E'. set (q := INR m). clearbody q. rr. field. split; lra.
  Qed.
End Gen.
Section Model.
  Variables (L M : nat) (rmin rmax : RR).
  Variables rho Ii Io : nat -> nat -> nat -> spline.
  Notation F0 := (Rl rmin rmax Ii Io).
  Notation F1 := (dRl rmin rmax Ii Io).
  Notation F2 := (d2Rl rmin rmax Ii Io).
  Lemma ev_g R z phi t : 0 < R -> mp_ev L M rmin rmax Ii Io R z phi t = gev L M F0 R z phi t.
  Proof using. intros HR. pose proof (r0 R z HR). unfold mp_ev, cyl_to_spher. fold (rad R z). fold (tht R z). destruct (Req_EM_T _ _) as [Z|_]; [exfalso; lra|]. unfold gev, U0. apply lp_ext. intros. unfold th0. rr. ring. Qed.
  Lemma force_g d1 d2 R z phi : 0 < R -> mp_force L M rmin rmax Ii Io d1 d2 0 R z phi = - U1 L M F0 F1 d1 d2 (fun k (l : nat) m => az k m phi) (rad R z) (tht R z).
  Proof using.
    intros HR. pose proof (r0 R z HR). unfold mp_force, mp_spher, cyl_to_spher. fold (rad R z). fold (tht R z). destruct (Req_EM_T _ _) as [Z|_]; [exfalso; lra|]. rewrite U1_sums.
    rewrite (lp_ext L M (fun n l m => az n m phi * th0 l m (tht R z) * F1 n l m (rad R z)) (fun k l m => lpm l m (cos (tht R z)) * az k m phi * F1 k l m (rad R z))) by (intros; unfold th0; rr; ring).
    rewrite (lp_ext L M (fun n l m => az n m phi * th1 l m (tht R z) * F0 n l m (rad R z)) (fun k l m => dlpm l m (cos (tht R z)) * - sin (tht R z) * az k m phi * F0 k l m (rad R z))) by (intros; unfold th1; rr; ring). rr. ring.
  Qed.
  Lemma torque_g R z phi t : 0 < R -> mp_pt L M rmin rmax Ii Io R z phi t = gpt L M F0 R z phi t.
  Proof using.
    intros HR. pose proof (r0 R z HR). unfold mp_pt, mp_force, mp_spher, cyl_to_spher. fold (rad R z). fold (tht R z). destruct (Req_EM_T _ _) as [Z|_]; [exfalso; lra|]. unfold gpt, U0.
    rewrite (lp_ext L M (fun k l m => daz k m phi * (1 * (F0 k l m (rad R z) * th0 l m (tht R z)))) (fun k l m => lpm l m (cos (tht R z)) * daz k m phi * F0 k l m (rad R z))) by (intros; unfold th0; rr; ring). rr. ring.
  Qed.
  Lemma cyl_g d R z phi t : 0 < R -> near_pole M (tht R z) = false -> mp_cyl L M rmin rmax Ii Io d R z phi t = gcyl L M F0 F1 F2 d R z phi t.
  Proof using.
    intros HR HP. pose proof (r0 R z HR) as P. assert (E : mp_2nd L M rmin rmax Ii Io R z phi = g2nd L M F0 F1 F2 R z phi).
    { unfold mp_2nd, cyl_to_spher. fold (rad R z). fold (tht R z). destruct (Req_EM_T (rad R z) 0) as [Z|_]; [exfalso; lra|]. rewrite HP. unfold g2nd. cbv zeta. f_equal; apply lp_ext; intros; unfold th0, th1, th2; rr; ring. }
    unfold mp_cyl. rewrite E. assert (Q : R * R + z * z = rad R z ^ 2) by (rewrite rad_sq; ring). rewrite !Q. replace (sqrt (rad R z ^ 2)) with (rad R z) by (symmetry; apply sqrt_pow2; lra). cbv zeta. destruct (Req_EM_T (rad R z) 0) as [Z|_]; [exfalso; lra|]. unfold gcyl. cbv zeta. clear E Q HP. set (s := g2nd L M F0 F1 F2 R z phi). clearbody s. set (r := rad R z) in *. clearbody r.
    destruct d; rr; try reflexivity; field; lra.
  Qed.
End Model.
