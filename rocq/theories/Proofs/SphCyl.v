(** The expansion in cylindrical coordinates. *)
From Coq Require Import Reals Lra Lia Arith.
From Coquelicot Require Import Coquelicot.
From Verif.Lib Require Import RealAux Atan2.
From Verif.Model Require Import Coords PotAPI SphHarm.
From Verif.Spec Require Import PotSpec PotApiSpec.
From Verif.Proofs Require Import PotLift AxiProofs NonAxiProofs Gegenbauer SphRadial SphAngular.
Open Scope R_scope.
Notation RR := RbaseSymbolsImpl.R (only parsing).
Ltac rr := match goal with |- ?a = ?b => change (@eq RR a b) end.

Definition rad (R z : RR) : RR := sqrt (R ^ 2 + z ^ 2).
Definition tht (R z : RR) : RR := atan2 R z.
Lemma rad_pos R z : 0 < R -> 0 < rad R z.
Proof. intros H. apply sqrt_lt_R0. pose proof (pow2_ge_0 z). assert (0 < R ^ 2) by (apply pow_lt; exact H). lra. Qed.
Lemma rad_sq R z : rad R z ^ 2 = R ^ 2 + z ^ 2.
Proof. apply pow2_sqrt. pose proof (pow2_ge_0 z). pose proof (pow2_ge_0 R). lra. Qed.
Lemma rad_sq' R z : sqrt (z ^ 2 + R ^ 2) = rad R z. Proof. unfold rad. f_equal. ring. Qed.
Lemma sin_tht R z : 0 < R -> sin (tht R z) = R / rad R z.
Proof. intros H. pose proof (rad_pos R z H). pose proof (atan2_sin z R) as E. rewrite rad_sq' in E. unfold tht. rewrite <- E at 2. field. lra. Qed.
Lemma cos_tht R z : 0 < R -> cos (tht R z) = z / rad R z.
Proof. intros H. pose proof (rad_pos R z H). pose proof (atan2_cos z R) as E. rewrite rad_sq' in E. unfold tht. rewrite <- E at 2. field. lra. Qed.
Lemma sin_tht_pos R z : 0 < R -> 0 < sin (tht R z).
Proof. intros H. rewrite sin_tht by exact H. apply Rdiv_lt_0_compat; [exact H|apply rad_pos; exact H]. Qed.
Section D.
  Variables R z : RR.
  Hypothesis HR : 0 < R.
  Notation r := (rad R z).
  Lemma r0 : 0 < r. Proof using HR. apply rad_pos; exact HR. Qed.
  Lemma q0 : 0 < R ^ 2 + z ^ 2. Proof using HR. pose proof (pow2_ge_0 z). assert (0 < R ^ 2) by (apply pow_lt; exact HR). lra. Qed.
  Lemma dr_R : is_derive (fun x => rad x z) R (R / r).
  Proof using HR.
    unfold rad. assert (Dq : is_derive (fun x => x ^ 2 + z ^ 2) R (2 * R)) by (auto_derive; [exact I|rr; ring]). refine (is_derive_eq _ _ _ _ (is_derive_comp (V := R_NormedModule) sqrt _ R _ _ _ Dq) _); [apply is_derive_Reals, derivable_pt_lim_sqrt, q0|]. change (2 * R * / (2 * rad R z) = R / rad R z). field. pose proof r0. lra.
  Qed.
  Lemma dr_z : is_derive (fun x => rad R x) z (z / r).
  Proof using HR.
    unfold rad. assert (Dq : is_derive (fun x => R ^ 2 + x ^ 2) z (2 * z)) by (auto_derive; [exact I|rr; ring]). refine (is_derive_eq _ _ _ _ (is_derive_comp (V := R_NormedModule) sqrt _ z _ _ _ Dq) _); [apply is_derive_Reals, derivable_pt_lim_sqrt, q0|]. change (2 * z * / (2 * rad R z) = z / rad R z). field. pose proof r0. lra.
  Qed.
  Lemma dt_R : is_derive (fun x => tht x z) R (z / r ^ 2).
  Proof using HR.
    unfold tht. refine (is_derive_eq _ _ _ _ (is_derive_atan2 (fun _ => z) (fun x => x) R 0 1 _ (is_derive_const (V := R_NormedModule) _ _) (is_derive_id (K := R_AbsRing) _)) _); [right; lra|]. rewrite rad_sq. replace (z ^ 2 + R ^ 2) with (R ^ 2 + z ^ 2) by ring. set (w := R ^ 2 + z ^ 2). unfold Rdiv. rr. ring.
  Qed.
  Lemma dt_z : is_derive (fun x => tht R x) z (- R / r ^ 2).
  Proof using HR.
    unfold tht. refine (is_derive_eq _ _ _ _ (is_derive_atan2 (fun x => x) (fun _ => R) z 1 0 _ (is_derive_id (K := R_AbsRing) _) (is_derive_const (V := R_NormedModule) _ _)) _); [right; lra|]. rewrite rad_sq. replace (z ^ 2 + R ^ 2) with (R ^ 2 + z ^ 2) by ring. set (w := R ^ 2 + z ^ 2). unfold Rdiv. rr. ring.
  Qed.
  (** the coefficients of the chain rule *)
  Ltac coef D := pose proof r0 as P; pose proof (rad_sq R z) as Q;
    refine (is_derive_eq _ _ _ _ D _); set (s := rad R z) in *; clearbody s; rr; field_simplify_eq; [|lra]; try (replace (s ^ 2) with (R ^ 2 + z ^ 2) by lra); ring.
  Lemma c1R : is_derive (fun x => x / rad x z) R (z ^ 2 / r ^ 3).
  Proof using HR.
    pose proof r0 as P. pose proof (rad_sq R z) as Q. refine (is_derive_eq _ _ _ _ (is_derive_div (fun x => x) (fun x => rad x z) R _ _ (is_derive_id (K := R_AbsRing) _) dr_R (Rgt_not_eq _ _ P)) _). change ((1 * r - R * (R / r)) / r ^ 2 = z ^ 2 / r ^ 3). replace (z ^ 2) with (r ^ 2 - R ^ 2) by lra. field. lra.
  Qed.
  Lemma c1z : is_derive (fun x => R / rad R x) z (- (R * z) / r ^ 3).
  Proof using HR.
    pose proof r0 as P. refine (is_derive_eq _ _ _ _ (is_derive_div (fun _ => R) (fun x => rad R x) z _ _ (is_derive_const (V := R_NormedModule) _ _) dr_z (Rgt_not_eq _ _ P)) _). change ((0 * r - R * (z / r)) / r ^ 2 = - (R * z) / r ^ 3). field. lra.
  Qed.
  Lemma c2z : is_derive (fun x => x / rad R x) z (R ^ 2 / r ^ 3).
  Proof using HR.
    pose proof r0 as P. pose proof (rad_sq R z) as Q. refine (is_derive_eq _ _ _ _ (is_derive_div (fun x => x) (fun x => rad R x) z _ _ (is_derive_id (K := R_AbsRing) _) dr_z (Rgt_not_eq _ _ P)) _). change ((1 * r - z * (z / r)) / r ^ 2 = R ^ 2 / r ^ 3). replace (R ^ 2) with (r ^ 2 - z ^ 2) by lra. field. lra.
  Qed.
  Lemma c2R : is_derive (fun x => z / rad x z) R (- (R * z) / r ^ 3).
  Proof using HR.
    pose proof r0 as P. refine (is_derive_eq _ _ _ _ (is_derive_div (fun _ => z) (fun x => rad x z) R _ _ (is_derive_const (V := R_NormedModule) _ _) dr_R (Rgt_not_eq _ _ P)) _). change ((0 * r - z * (R / r)) / r ^ 2 = - (R * z) / r ^ 3). field. lra.
  Qed.
  Lemma dr2_R : is_derive (fun x => rad x z ^ 2) R (2 * R).
  Proof using. apply (is_derive_ext (fun x => x ^ 2 + z ^ 2)); [intros x; symmetry; apply rad_sq|]. auto_derive; [exact I|rr; ring]. Qed.
  Lemma dr2_z : is_derive (fun x => rad R x ^ 2) z (2 * z).
  Proof using. apply (is_derive_ext (fun x => R ^ 2 + x ^ 2)); [intros x; symmetry; apply rad_sq|]. auto_derive; [exact I|rr; ring]. Qed.
  Lemma r2n : r ^ 2 <> 0. Proof using HR. apply Rgt_not_eq, pow_lt, r0. Qed.
  Lemma c3R : is_derive (fun x => z / rad x z ^ 2) R (- 2 * R * z / r ^ 4).
  Proof using HR.
    pose proof r0 as P. refine (is_derive_eq _ _ _ _ (is_derive_div (fun _ => z) (fun x => rad x z ^ 2) R _ _ (is_derive_const (V := R_NormedModule) _ _) dr2_R r2n) _). change ((0 * r ^ 2 - z * (2 * R)) / (r ^ 2) ^ 2 = - 2 * R * z / r ^ 4). field. lra.
  Qed.
  Lemma c3z : is_derive (fun x => x / rad R x ^ 2) z ((R ^ 2 - z ^ 2) / r ^ 4).
  Proof using HR.
    pose proof r0 as P. pose proof (rad_sq R z) as Q. refine (is_derive_eq _ _ _ _ (is_derive_div (fun x => x) (fun x => rad R x ^ 2) z _ _ (is_derive_id (K := R_AbsRing) _) dr2_z r2n) _). change ((1 * r ^ 2 - z * (2 * z)) / (r ^ 2) ^ 2 = (R ^ 2 - z ^ 2) / r ^ 4). replace (R ^ 2) with (r ^ 2 - z ^ 2) by lra. field. lra.
  Qed.
  Lemma c4z : is_derive (fun x => - R / rad R x ^ 2) z (2 * R * z / r ^ 4).
  Proof using HR.
    pose proof r0 as P. refine (is_derive_eq _ _ _ _ (is_derive_div (fun _ => - R) (fun x => rad R x ^ 2) z _ _ (is_derive_const (V := R_NormedModule) _ _) dr2_z r2n) _). change ((0 * r ^ 2 - - R * (2 * z)) / (r ^ 2) ^ 2 = 2 * R * z / r ^ 4). field. lra.
  Qed.
  Lemma c4R : is_derive (fun x => - x / rad x z ^ 2) R ((R ^ 2 - z ^ 2) / r ^ 4).
  Proof using HR.
    pose proof r0 as P. pose proof (rad_sq R z) as Q. refine (is_derive_eq _ _ _ _ (is_derive_div (fun x => - x) (fun x => rad x z ^ 2) R _ _ (is_derive_opp (V := R_NormedModule) _ _ _ (is_derive_id (K := R_AbsRing) _)) dr2_R r2n) _). change ((- (1) * r ^ 2 - - R * (2 * R)) / (r ^ 2) ^ 2 = (R ^ 2 - z ^ 2) / r ^ 4). replace (z ^ 2) with (r ^ 2 - R ^ 2) by lra. field. lra.
  Qed.
End D.
(** one term along a coordinate *)
Lemma d_term (k F G rr_ th : RR -> RR) x dk dF dG dr dt : is_derive k x dk -> is_derive F (rr_ x) dF -> is_derive G (th x) dG -> is_derive rr_ x dr -> is_derive th x dt ->
  is_derive (fun y => k y * (F (rr_ y) * G (th y))) x (dk * (F (rr_ x) * G (th x)) + k x * (dF * dr * G (th x) + F (rr_ x) * (dG * dt))).
Proof.
  intros Dk DF DG Dr Dt. pose proof (is_derive_comp (V := R_NormedModule) F rr_ x _ _ DF Dr) as A. pose proof (is_derive_comp (V := R_NormedModule) G th x _ _ DG Dt) as B.
  refine (is_derive_eq _ _ _ _ (is_derive_Rmult _ _ x _ _ Dk (is_derive_Rmult _ _ x _ _ A B)) _). unfold scal; simpl. unfold mult; simpl. rr. ring.
Qed.
Section Exp.
  Variables (N L M : nat) (a : RR).
  Variables Ac As : RR -> nat -> nat -> nat -> RR.
  Hypothesis Ha : 0 < a.
  Notation S3 := (sum3 N L M).
  Notation f0 := (phiTilde a). Notation f1 := (dphiTilde a). Notation f2 := (d2phiTilde a).
  Notation h0 := (cos_sin Ac As). Notation h1 := (dphi_coef Ac As).
  Lemma d_h0 phi t n l m : is_derive (fun x => h0 x t n l m) phi (h1 phi t n l m).
  Proof using. unfold cos_sin, dphi_coef. set (u := Acos _ _ _ _ _). set (v := Asin _ _ _ _ _). clearbody u v. auto_derive; [exact I|]. rr. ring. Qed.
  Lemma d_h1 phi t n l m : is_derive (fun x => h1 x t n l m) phi (- INR m * INR m * h0 phi t n l m).
  Proof using. unfold cos_sin, dphi_coef. set (u := Acos _ _ _ _ _). set (v := Asin _ _ _ _ _). clearbody u v. auto_derive; [exact I|]. rr. ring. Qed.
  (** the general linear combination of terms *)
  Definition T (cr ct : RR) (h : nat -> nat -> nat -> RR) (r th : RR) : RR := S3 (fun n l m => h n l m * (cr * (f1 r n l * th0 l m th) + ct * (f0 r n l * th1 l m th))).
  Lemma ev_eq R z phi t : scf_ev N L M a Ac As R z phi t = S3 (fun n l m => h0 phi t n l m * (1 * (f0 (rad R z) n l * th0 l m (tht R z)))).
  Proof using. unfold scf_ev, at_point, cyl_to_spher. apply s3_ext. intros. unfold th0, rad, tht. rr. ring. Qed.
  Lemma force_eq d1 d2 R z phi t : - cyl_force N L M a Ac As d1 d2 0 R z phi t = T d1 d2 (h0 phi t) (rad R z) (tht R z).
  Proof using.
    unfold cyl_force, spher_forces, cyl_to_spher. fold (rad R z). fold (tht R z). unfold T.
    rewrite (s3_ext N L M (fun n l m => h0 phi t n l m * (d1 * (f1 (rad R z) n l * th0 l m (tht R z)) + d2 * (f0 (rad R z) n l * th1 l m (tht R z)))) (fun n l m => d1 * (h0 phi t n l m * lpm l m (cos (tht R z)) * f1 (rad R z) n l) + d2 * (h0 phi t n l m * f0 (rad R z) n l * dlpm l m (cos (tht R z)) * - sin (tht R z)))); [|intros; unfold th0, th1; rr; ring].
    rewrite s3_plus, !s3_scal. rr. ring.
  Qed.
  Lemma torque_eq R z phi t : - scf_pt N L M a Ac As R z phi t = S3 (fun n l m => h1 phi t n l m * (1 * (f0 (rad R z) n l * th0 l m (tht R z)))).
  Proof using.
    unfold scf_pt, cyl_force, spher_forces, cyl_to_spher. fold (rad R z). fold (tht R z).
    rewrite (s3_ext N L M (fun n l m => h1 phi t n l m * (1 * (f0 (rad R z) n l * th0 l m (tht R z)))) (fun n l m => h1 phi t n l m * f0 (rad R z) n l * lpm l m (cos (tht R z)))); [|intros; unfold th0; rr; ring]. rr. ring.
  Qed.
  (** derivative of a potential-like sum *)
  Lemma d_T0 (h : nat -> nat -> nat -> RR) (rr_ th : RR -> RR) x dr dt : is_derive rr_ x dr -> is_derive th x dt -> 0 < rr_ x -> 0 < sin (th x) ->
    is_derive (fun y => S3 (fun n l m => h n l m * (1 * (f0 (rr_ y) n l * th0 l m (th y))))) x (T dr dt h (rr_ x) (th x)).
  Proof using Ha.
    intros Dr Dt H1 H2. unfold T. apply (d_s3 N L M (fun n l m y => h n l m * (1 * (f0 (rr_ y) n l * th0 l m (th y))))). intros n l m. apply is_derive_Rscal.
    refine (is_derive_eq _ _ _ _ (d_term (fun _ => 1) (fun u => f0 u n l) (th0 l m) rr_ th x 0 _ _ dr dt (is_derive_const (V := R_NormedModule) _ _) (d_phi a n l Ha _ H1) (d_th0 l m _ H2) Dr Dt) _). rr. ring.
  Qed.
  (** derivative of a force-like sum *)
  Lemma d_T1 (h : nat -> nat -> nat -> RR) (cr ct rr_ th : RR -> RR) x dcr dct dr dt : is_derive cr x dcr -> is_derive ct x dct -> is_derive rr_ x dr -> is_derive th x dt -> 0 < rr_ x -> 0 < sin (th x) ->
    is_derive (fun y => T (cr y) (ct y) h (rr_ y) (th y)) x
      (cr x * dr * S3 (fun n l m => h n l m * th0 l m (th x) * f2 (rr_ x) n l) + dcr * S3 (fun n l m => h n l m * th0 l m (th x) * f1 (rr_ x) n l)
       + (cr x * dt + ct x * dr) * S3 (fun n l m => h n l m * th1 l m (th x) * f1 (rr_ x) n l) + ct x * dt * S3 (fun n l m => h n l m * th2 l m (th x) * f0 (rr_ x) n l)
       + dct * S3 (fun n l m => h n l m * th1 l m (th x) * f0 (rr_ x) n l)).
  Proof using Ha.
    intros D1 D2 Dr Dt H1 H2. rewrite <- !s3_scal, <- !s3_plus. unfold T. apply (d_s3 N L M (fun n l m y => h n l m * (cr y * (f1 (rr_ y) n l * th0 l m (th y)) + ct y * (f0 (rr_ y) n l * th1 l m (th y))))). intros n l m.
    refine (is_derive_eq _ _ _ _ (is_derive_Rscal _ x (h n l m) _ (is_derive_Rplus _ _ x _ _ (d_term cr (fun u => f1 u n l) (th0 l m) rr_ th x dcr _ _ dr dt D1 (d_dphi a n l Ha _ H1) (d_th0 l m _ H2) Dr Dt) (d_term ct (fun u => f0 u n l) (th1 l m) rr_ th x dct _ _ dr dt D2 (d_phi a n l Ha _ H1) (d_th1 l m _ H2) Dr Dt))) _). rr. ring.
  Qed.
  (** the second derivatives away from the poles *)
  Definition pure2 (R z phi t : RR) : spher2 := let r := rad R z in let th := tht R z in
    mkS2 (S3 (fun n l m => h0 phi t n l m * th0 l m th * f2 r n l)) (S3 (fun n l m => h0 phi t n l m * th2 l m th * f0 r n l))
         (S3 (fun n l m => - INR m * INR m * h0 phi t n l m * th0 l m th * f0 r n l)) (S3 (fun n l m => h0 phi t n l m * th1 l m th * f1 r n l))
         (S3 (fun n l m => h1 phi t n l m * th0 l m th * f1 r n l)) (S3 (fun n l m => h1 phi t n l m * th1 l m th * f0 r n l))
         (S3 (fun n l m => h0 phi t n l m * th0 l m th * f1 r n l)) (S3 (fun n l m => h0 phi t n l m * th1 l m th * f0 r n l)).
  Definition pure_cyl (d : deriv) (R z phi t : RR) : RR := let s := pure2 R z phi t in let r := rad R z in match d with
    | dR2 => Phi_rr s * R ^ 2 / r ^ 2 + Phi_r s * z ^ 2 / r ^ 3 + 2 * Phi_rt s * R * z / r ^ 3 + Phi_tt s * z ^ 2 / r ^ 4 - Phi_t s * 2 * R * z / r ^ 4
    | dz2 => Phi_rr s * z ^ 2 / r ^ 2 + Phi_r s * R ^ 2 / r ^ 3 - 2 * Phi_rt s * R * z / r ^ 3 + Phi_tt s * R ^ 2 / r ^ 4 + Phi_t s * 2 * R * z / r ^ 4
    | dRz => Phi_rr s * R * z / r ^ 2 - Phi_r s * (R * z) / r ^ 3 + Phi_rt s * (z ^ 2 - R ^ 2) / r ^ 3 - Phi_tt s * (z * R) / r ^ 4 + Phi_t s * (R ^ 2 - z ^ 2) / r ^ 4
    | dphi2 => Phi_pp s
    | dRphi => Phi_rp s * R / r + Phi_tp s * z / r ^ 2
    | dphiz => Phi_rp s * z / r - Phi_tp s * R / r ^ 2 end.
  Lemma not_pole R z phi t d : 0 < R -> near_pole M (tht R z) = false -> cyl_2nd N L M a Ac As d R z phi t = pure_cyl d R z phi t.
  Proof using.
    intros HR HP. pose proof (r0 R z HR) as P. assert (E : spher_2nd N L M a Ac As R z phi t = pure2 R z phi t).
    { unfold spher_2nd, cyl_to_spher. fold (rad R z). fold (tht R z). destruct (Req_EM_T (rad R z) 0) as [Z|_]; [exfalso; lra|]. rewrite HP. reflexivity. }
    unfold cyl_2nd. rewrite E. assert (Q : R * R + z * z = rad R z ^ 2) by (rewrite rad_sq; ring). rewrite !Q. replace (sqrt (rad R z ^ 2)) with (rad R z) by (symmetry; apply sqrt_pow2; lra). cbv zeta. destruct (Req_EM_T (rad R z) 0) as [Z|_]; [exfalso; lra|]. unfold pure_cyl. cbv zeta. clear E Q HP. set (s := pure2 R z phi t). clearbody s. set (r := rad R z) in *. clearbody r.
    destruct d; rr; try reflexivity; field; lra.
  Qed.
  Lemma forces : is_force_field (fun R _ _ _ => 0 < R) (scf_ev N L M a Ac As) (scf_Rf N L M a Ac As) (scf_zf N L M a Ac As) (scf_pt N L M a Ac As).
  Proof using Ha.
    intros R z phi t HR. pose proof (r0 R z HR) as P. pose proof (sin_tht_pos R z HR) as SP. split; [|split].
    - unfold scf_Rf. cbv zeta. rewrite force_eq. apply (is_derive_ext (fun x => S3 (fun n l m => h0 phi t n l m * (1 * (f0 (rad x z) n l * th0 l m (tht x z)))))); [intros x; symmetry; apply ev_eq|]. apply (d_T0 _ (fun x => rad x z) (fun x => tht x z)); [apply dr_R|apply dt_R|exact P|exact SP]; exact HR.
    - unfold scf_zf. cbv zeta. rewrite force_eq. apply (is_derive_ext (fun x => S3 (fun n l m => h0 phi t n l m * (1 * (f0 (rad R x) n l * th0 l m (tht R x)))))); [intros x; symmetry; apply ev_eq|]. apply (d_T0 _ (fun x => rad R x) (fun x => tht R x)); [apply dr_z|apply dt_z|exact P|exact SP]; exact HR.
    - rewrite torque_eq. apply (is_derive_ext (fun x => S3 (fun n l m => h0 x t n l m * (1 * (f0 (rad R z) n l * th0 l m (tht R z)))))); [intros x; symmetry; apply ev_eq|].
      apply (d_s3 N L M (fun n l m x => h0 x t n l m * (1 * (f0 (rad R z) n l * th0 l m (tht R z))))). intros n l m. refine (is_derive_eq _ _ _ _ (is_derive_Rmult (fun x => h0 x t n l m) (fun _ => 1 * (f0 (rad R z) n l * th0 l m (tht R z))) phi _ 0 (d_h0 phi t n l m) (is_derive_const (V := R_NormedModule) _ _)) _). rr. ring.
  Qed.
  Lemma hess : is_meridional_hessian (fun R _ _ _ => 0 < R) (scf_Rf N L M a Ac As) (scf_zf N L M a Ac As) (pure_cyl dR2) (pure_cyl dz2) (pure_cyl dRz).
  Proof using Ha.
    intros R z phi t HR. pose proof (r0 R z HR) as P. pose proof (sin_tht_pos R z HR) as SP. unfold scf_Rf, scf_zf. cbv zeta.
    split; [|split; [|split]].
    - apply (is_derive_ext (fun x => T (x / rad x z) (z / rad x z ^ 2) (h0 phi t) (rad x z) (tht x z))); [intros x; symmetry; apply force_eq|].
      refine (is_derive_eq _ _ _ _ (d_T1 (h0 phi t) (fun x => x / rad x z) (fun x => z / rad x z ^ 2) (fun x => rad x z) (fun x => tht x z) R _ _ _ _ (c1R R z HR) (c3R R z HR) (dr_R R z HR) (dt_R R z HR) P SP) _).
      unfold pure_cyl, pure2. cbn [Phi_rr Phi_r Phi_rt Phi_tt Phi_t]. repeat (match goal with |- context [sum3 N L M ?f] => set (sum3 N L M f) end). clearbody r r1 r2 r3 r4. rr. field. lra.
    - apply (is_derive_ext (fun x => T (x / rad R x) (- R / rad R x ^ 2) (h0 phi t) (rad R x) (tht R x))); [intros x; symmetry; apply force_eq|].
      refine (is_derive_eq _ _ _ _ (d_T1 (h0 phi t) (fun x => x / rad R x) (fun x => - R / rad R x ^ 2) (fun x => rad R x) (fun x => tht R x) z _ _ _ _ (c2z R z HR) (c4z R z HR) (dr_z R z HR) (dt_z R z HR) P SP) _).
      unfold pure_cyl, pure2. cbn [Phi_rr Phi_r Phi_rt Phi_tt Phi_t]. repeat (match goal with |- context [sum3 N L M ?f] => set (sum3 N L M f) end). clearbody r r1 r2 r3 r4. rr. field. lra.
    - apply (is_derive_ext (fun x => T (R / rad R x) (x / rad R x ^ 2) (h0 phi t) (rad R x) (tht R x))); [intros x; symmetry; apply force_eq|].
      refine (is_derive_eq _ _ _ _ (d_T1 (h0 phi t) (fun x => R / rad R x) (fun x => x / rad R x ^ 2) (fun x => rad R x) (fun x => tht R x) z _ _ _ _ (c1z R z HR) (c3z R z HR) (dr_z R z HR) (dt_z R z HR) P SP) _).
      unfold pure_cyl, pure2. cbn [Phi_rr Phi_r Phi_rt Phi_tt Phi_t]. repeat (match goal with |- context [sum3 N L M ?f] => set (sum3 N L M f) end). clearbody r r1 r2 r3 r4. rr. field. lra.
    - apply (is_derive_ext (fun x => T (z / rad x z) (- x / rad x z ^ 2) (h0 phi t) (rad x z) (tht x z))); [intros x; symmetry; apply force_eq|].
      refine (is_derive_eq _ _ _ _ (d_T1 (h0 phi t) (fun x => z / rad x z) (fun x => - x / rad x z ^ 2) (fun x => rad x z) (fun x => tht x z) R _ _ _ _ (c2R R z HR) (c4R R z HR) (dr_R R z HR) (dt_R R z HR) P SP) _).
      unfold pure_cyl, pure2. cbn [Phi_rr Phi_r Phi_rt Phi_tt Phi_t]. repeat (match goal with |- context [sum3 N L M ?f] => set (sum3 N L M f) end). clearbody r r1 r2 r3 r4. rr. field. lra.
  Qed.
  Lemma d_T_phi d1 d2 R z phi t : is_derive (fun x => T d1 d2 (h0 x t) (rad R z) (tht R z)) phi (T d1 d2 (h1 phi t) (rad R z) (tht R z)).
  Proof using.
    unfold T. apply (d_s3 N L M (fun n l m x => h0 x t n l m * (d1 * (f1 (rad R z) n l * th0 l m (tht R z)) + d2 * (f0 (rad R z) n l * th1 l m (tht R z))))). intros n l m.
    refine (is_derive_eq _ _ _ _ (is_derive_Rmult (fun x => h0 x t n l m) (fun _ => d1 * (f1 (rad R z) n l * th0 l m (tht R z)) + d2 * (f0 (rad R z) n l * th1 l m (tht R z))) phi _ 0 (d_h0 phi t n l m) (is_derive_const (V := R_NormedModule) _ _)) _). rr. ring.
  Qed.
  Lemma T_sums d1 d2 h r th : T d1 d2 h r th = d1 * S3 (fun n l m => h n l m * th0 l m th * f1 r n l) + d2 * S3 (fun n l m => h n l m * th1 l m th * f0 r n l).
  Proof using. rewrite <- !s3_scal, <- s3_plus. unfold T. apply s3_ext. intros. rr. ring. Qed.
  Lemma azi : is_azimuthal_hessian (fun R _ _ _ => 0 < R) (scf_Rf N L M a Ac As) (scf_zf N L M a Ac As) (scf_pt N L M a Ac As) (pure_cyl dphi2) (pure_cyl dRphi) (pure_cyl dphiz).
  Proof using Ha.
    intros R z phi t HR. pose proof (r0 R z HR) as P. pose proof (sin_tht_pos R z HR) as SP.
    assert (E1 : T (R / rad R z) (z / rad R z ^ 2) (h1 phi t) (rad R z) (tht R z) = pure_cyl dRphi R z phi t). { rewrite T_sums. unfold pure_cyl, pure2. cbn [Phi_rp Phi_tp]. unfold Rdiv. rr. ring. }
    assert (E2 : T (z / rad R z) (- R / rad R z ^ 2) (h1 phi t) (rad R z) (tht R z) = pure_cyl dphiz R z phi t). { rewrite T_sums. unfold pure_cyl, pure2. cbn [Phi_rp Phi_tp]. unfold Rdiv. rr. ring. }
    split; [|split; [|split; [|split]]].
    - apply (is_derive_ext (fun x => S3 (fun n l m => h1 x t n l m * (1 * (f0 (rad R z) n l * th0 l m (tht R z)))))); [intros x; symmetry; apply torque_eq|]. unfold pure_cyl, pure2. cbn [Phi_pp].
      apply (d_s3 N L M (fun n l m x => h1 x t n l m * (1 * (f0 (rad R z) n l * th0 l m (tht R z))))). intros n l m. refine (is_derive_eq _ _ _ _ (is_derive_Rmult (fun x => h1 x t n l m) (fun _ => 1 * (f0 (rad R z) n l * th0 l m (tht R z))) phi _ 0 (d_h1 phi t n l m) (is_derive_const (V := R_NormedModule) _ _)) _). rr. ring.
    - unfold scf_Rf. cbv zeta. rewrite <- E1. apply (is_derive_ext (fun x => T (R / rad R z) (z / rad R z ^ 2) (h0 x t) (rad R z) (tht R z))); [intros x; symmetry; apply force_eq|]. apply d_T_phi.
    - rewrite <- E1. apply (is_derive_ext (fun x => S3 (fun n l m => h1 phi t n l m * (1 * (f0 (rad x z) n l * th0 l m (tht x z)))))); [intros x; symmetry; apply torque_eq|]. apply (d_T0 _ (fun x => rad x z) (fun x => tht x z)); [apply dr_R|apply dt_R|exact P|exact SP]; exact HR.
    - unfold scf_zf. cbv zeta. rewrite <- E2. apply (is_derive_ext (fun x => T (z / rad R z) (- R / rad R z ^ 2) (h0 x t) (rad R z) (tht R z))); [intros x; symmetry; apply force_eq|]. apply d_T_phi.
    - rewrite <- E2. apply (is_derive_ext (fun x => S3 (fun n l m => h1 phi t n l m * (1 * (f0 (rad R x) n l * th0 l m (tht R x)))))); [intros x; symmetry; apply torque_eq|]. apply (d_T0 _ (fun x => rad R x) (fun x => tht R x)); [apply dr_z|apply dt_z|exact P|exact SP]; exact HR.
  Qed.
  Lemma poisson_sum : poisson_alg (fun R _ _ _ => 0 < R) (scf_Rf N L M a Ac As) (pure_cyl dR2) (pure_cyl dphi2) (pure_cyl dz2) (scf_dens N L M a Ac As).
  Proof using Ha.
    intros R z phi t HR _. pose proof (r0 R z HR) as P. pose proof (sin_tht_pos R z HR) as SP. pose proof (rad_sq R z) as Q.
    assert (ED : 4 * PI * scf_dens N L M a Ac As R z phi t = S3 (fun n l m => h0 phi t n l m * (4 * PI * rhoTilde a (rad R z) n l) * th0 l m (tht R z))).
    { unfold scf_dens, at_point, cyl_to_spher. fold (rad R z). fold (tht R z). rewrite <- s3_scal. apply s3_ext. intros. unfold th0. rr. ring. }
    rewrite ED. rewrite (s3_ext N L M _ (fun n l m => h0 phi t n l m * th0 l m (tht R z) * f2 (rad R z) n l + (2 / rad R z * (h0 phi t n l m * th0 l m (tht R z) * f1 (rad R z) n l) + (/ rad R z ^ 2 * (h0 phi t n l m * th2 l m (tht R z) * f0 (rad R z) n l) + (z / R / rad R z ^ 2 * (h0 phi t n l m * th1 l m (tht R z) * f0 (rad R z) n l) + / R ^ 2 * (- INR m * INR m * h0 phi t n l m * th0 l m (tht R z) * f0 (rad R z) n l)))))).
    - rewrite !s3_plus, !s3_scal. assert (EF : scf_Rf N L M a Ac As R z phi t = - T (R / rad R z) (z / rad R z ^ 2) (h0 phi t) (rad R z) (tht R z)). { rewrite <- force_eq. unfold scf_Rf. cbv zeta. fold (rad R z). rr. ring. }
      rewrite EF, T_sums. unfold pure_cyl, pure2. cbn [Phi_rr Phi_r Phi_rt Phi_tt Phi_t Phi_pp]. repeat (match goal with |- context [sum3 N L M ?f] => set (sum3 N L M f) end). clearbody r r1 r2 r3 r4 r5. set (s := rad R z) in *. clearbody s.
      replace (z ^ 2) with (s ^ 2 - R ^ 2) by lra. rr. field. split; lra.
    - intros n l m. rewrite <- (radial_poisson a n l Ha (rad R z) P). pose proof (angular l m (tht R z) SP) as E. pose proof (sin_tht R z HR) as Es. pose proof (cos_tht R z HR) as Ec. rewrite Es, Ec in E.
      set (g0 := th0 l m (tht R z)) in *. set (g1 := th1 l m (tht R z)) in *. set (g2 := th2 l m (tht R z)) in *. set (s := rad R z) in *. set (u0 := f0 s n l). set (u1 := f1 s n l). set (u2 := f2 s n l). set (h := h0 phi t n l m). clearbody g0 g1 g2 u0 u1 u2 h s. clear Es Ec SP.
      assert (E' : INR l * (INR l + 1) * g0 = - (g2 + z / s / (R / s) * g1 - INR m ^ 2 / (R / s) ^ 2 * g0)) by lra.
      replace (h * (u2 + 2 / s * u1 - INR l * (INR l + 1) / s ^ 2 * u0) * g0) with (h * g0 * u2 + 2 / s * (h * g0 * u1) - h * u0 / s ^ 2 * (INR l * (INR l + 1) * g0)) by (field; lra). rewrite E'. set (q := INR m). clearbody q. rr. field. split; lra.
  Qed.
End Exp.
