(** Surface-of-section integration follows the orbit. *)
From Coq Require Import Reals List ZArith Lia Lra Psatz.
From Coquelicot Require Import Coquelicot.
From Verif.Lib Require Import RealAux Atan2.
From Verif.Model Require Import PotAPI RectForce SOS.
From Verif.Spec Require Import SOSSpec.
From Verif.Proofs Require Import RectProofs DehnenProofs.
Import ListNotations.
Open Scope R_scope.
Notation RR := RbaseSymbolsImpl.R (only parsing).
#[local] Arguments pow : simpl never.
Ltac rr := match goal with |- ?a = ?b => change (@eq R a b) end.

(** ** Angles *)
Lemma same_angle a b : cos a = cos b -> sin a = sin b -> exists k : Z, a = b + 2 * PI * IZR k.
Proof.
  intros C S. assert (H : cos (a - b) = 1). { rewrite cos_minus, C, S. pose proof (sin2_cos2 b) as P. unfold Rsqr in P. lra. }
  replace (a - b) with (2 * ((a - b) / 2)) in H by field. rewrite cos_2a_sin in H.
  assert (Z0 : sin ((a - b) / 2) = 0) by nra. destruct (sin_eq_0_0 _ Z0) as [k K]. exists k. lra.
Qed.
Lemma step_all (f : R -> R) : (forall x, f (x + 2 * PI) = f x) -> forall (k : Z) x, f (x + 2 * PI * IZR k) = f x.
Proof.
  intros H. assert (N : forall n x, f (x + 2 * PI * INR n) = f x).
  { induction n as [|n IH]; intros x. - cbn. f_equal. ring. - rewrite S_INR. replace (x + 2 * PI * (INR n + 1)) with ((x + 2 * PI * INR n) + 2 * PI) by ring. rewrite H. apply IH. }
  intros k x. destruct (Z_le_gt_dec 0 k) as [P|P].
  - rewrite <- (Z2Nat.id k P), <- INR_IZR_INZ. apply N.
  - rewrite <- (N (Z.to_nat (- k)) (x + 2 * PI * IZR k)). f_equal. rewrite INR_IZR_INZ, Z2Nat.id by lia. rewrite opp_IZR. ring.
Qed.
Lemma turns_angle f a b : turns f -> cos a = cos b -> sin a = sin b -> forall R z t, f R z a t = f R z b t.
Proof. intros H C S R z t. destruct (same_angle a b C S) as [k ->]. apply (step_all (fun x => f R z x t)). intros x. apply H. Qed.
Lemma turns2_angle f a b : turns2 f -> cos a = cos b -> sin a = sin b -> forall R t, f R a t = f R b t.
Proof. intros H C S R t. destruct (same_angle a b C S) as [k ->]. apply (step_all (fun x => f R x t)). intros x. apply H. Qed.

(** ** Sums *)
Lemma fold_shift {A} (f : A -> R) l a : fold_left (fun acc c => acc + f c) l a = a + add_up f l.
Proof. revert a. induction l as [|c l IH]; intros a; cbn; [ring|]. rewrite IH. unfold add_up. cbn. ring. Qed.
Lemma add_up_ext {A} (f g : A -> R) l : List.Forall (fun c => f c = g c) l -> add_up f l = add_up g l.
Proof. unfold add_up. induction 1 as [|c l E _ IH]; cbn; congruence. Qed.
Definition comp_of (s : part) := pick s comp_R comp_z comp_p.
Lemma py_force_sum s l vR vT vz R z phi t : py_force s l vR vT vz R z phi t = add_up (fun c => comp_of s c vR vT vz R z phi t) l.
Proof.
  unfold py_force. rewrite fold_shift. rewrite Rplus_0_l. apply add_up_ext. apply Forall_forall. intros c _.
  destruct c, s; reflexivity.
Qed.
Lemma c_force_static s l i vR vT vz R z phi t vR' vT' vz' : List.Forall conservative l ->
  c_force s l i vR vT vz R z phi t = py_force s l vR' vT' vz' R z phi t.
Proof.
  intros H. unfold c_force, py_force. generalize 0%R. induction H as [|c l Hc _ IH]; intros a; [reflexivity|]. cbn.
  destruct c; [|destruct Hc]. apply IH.
Qed.
Lemma c_force_one s l i vR vT vz R z phi t : i <> 0%Z -> c_force s l i vR vT vz R z phi t = py_force s l vR vT vz R z phi t.
Proof.
  intros H. unfold c_force, py_force. generalize 0%R. induction l as [|c l IH]; intros a; [reflexivity|]. cbn.
  destruct c; [apply IH|]. destruct (Z.eqb_spec i 0); [tauto|]. apply IH.
Qed.
Lemma comp_angle s l a b vR vT vz R z t : List.Forall azimuthal l -> cos a = cos b -> sin a = sin b ->
  add_up (fun c => comp_of s c vR vT vz R z a t) l = add_up (fun c => comp_of s c vR vT vz R z b t) l.
Proof.
  intros H C S. apply add_up_ext. revert H. apply Forall_impl. intros c Hc.
  destruct c as [fR fz fp|fR fz fp]; cbn in Hc.
  - destruct Hc as (H1 & H2 & H3). destruct s; apply turns_angle; auto.
  - destruct (Hc vR vT vz) as (H1 & H2 & H3). destruct s; cbn; apply (turns_angle _ a b); auto.
Qed.
Definition comp2_of (s : part2) := pick2 s comp2_R comp2_p.
Lemma force2_sum s l vR vT R phi t : force2 s l vR vT R phi t = add_up (fun c => comp2_of s c vR vT R phi t) l.
Proof.
  unfold force2. rewrite fold_shift. rewrite Rplus_0_l. apply add_up_ext. apply Forall_forall. intros c _.
  destruct c, s; reflexivity.
Qed.
Lemma comp2_angle s l a b vR vT R t : List.Forall azimuthal2 l -> cos a = cos b -> sin a = sin b ->
  add_up (fun c => comp2_of s c vR vT R a t) l = add_up (fun c => comp2_of s c vR vT R b t) l.
Proof.
  intros H C S. apply add_up_ext. revert H. apply Forall_impl. intros c Hc.
  destruct c as [fR fp|fR fp]; cbn in Hc.
  - destruct Hc as (H1 & H3). destruct s; apply (turns2_angle _ a b); auto.
  - destruct (Hc vR vT) as (H1 & H3). destruct s; cbn; apply (turns2_angle _ a b); auto.
Qed.

(** ** The rectangular forces are the acceleration *)
Lemma rect_polar x y : 0 < x ^ 2 + y ^ 2 ->
  0 < sqrt (x ^ 2 + y ^ 2) /\ cos (rect_phi x y) = x / sqrt (x ^ 2 + y ^ 2) /\ sin (rect_phi x y) = y / sqrt (x ^ 2 + y ^ 2).
Proof.
  intros H. pose proof (sqrt_lt_R0 _ H) as P. destruct (rect_phi_cos x y H) as [C S]. rewrite rect_R_sq in C, S.
  split; [exact P|]. split; [rewrite <- C at 2|rewrite <- S at 2]; field; lra.
Qed.
Lemma polar_unique x y R phi : 0 < x ^ 2 + y ^ 2 -> 0 < R -> x = R * cos phi -> y = R * sin phi ->
  sqrt (x ^ 2 + y ^ 2) = R /\ cos phi = x / sqrt (x ^ 2 + y ^ 2) /\ sin phi = y / sqrt (x ^ 2 + y ^ 2).
Proof.
  intros H HR -> ->. rewrite polar_norm, Rabs_pos_eq by lra. split; [reflexivity|]. split; field; lra.
Qed.
Lemma rect_phi_py x y : (if Rlt_dec y 0 then 2 * PI - acos (x / sqrt (x ^ 2 + y ^ 2)) else acos (x / sqrt (x ^ 2 + y ^ 2))) = rect_phi x y.
Proof. unfold rect_phi. rewrite rect_R_sq. reflexivity. Qed.
Lemma py_rect_acc l x y z t vx vy vz : List.Forall azimuthal l -> 0 < x ^ 2 + y ^ 2 ->
  acceleration l t (mkCart x y z vx vy vz) (py_rect_force l x y z t vx vy vz).
Proof.
  intros Az H R phi HR Ex Ey. cbn in Ex, Ey. cbn [k_x k_y k_z k_vx k_vy k_vz].
  destruct (polar_unique x y R phi H HR Ex Ey) as (ER & C & S). destruct (rect_polar x y H) as (P & C' & S').
  unfold py_rect_force. rewrite rect_phi_py. rewrite !py_force_sum.
  rewrite <- C', <- S' in *. rewrite ER. cbv zeta.
  change (fun c => comp_R c ?a ?b vz R z phi t) with (fun c => comp_of PR c a b vz R z phi t).
  change (fun c => comp_p c ?a ?b vz R z phi t) with (fun c => comp_of PP c a b vz R z phi t).
  change (fun c => comp_z c ?a ?b vz R z phi t) with (fun c => comp_of PZ c a b vz R z phi t).
  rewrite !(fun s vR vT => comp_angle s l phi (rect_phi x y) vR vT vz R z t Az C S). rewrite C, S.
  f_equal. f_equal; field; lra.
Qed.
Lemma py_prect_acc l x y t vx vy : List.Forall azimuthal2 l -> 0 < x ^ 2 + y ^ 2 ->
  acceleration2 l t (mkCart2 x y vx vy) (py_prect_force l x y t vx vy).
Proof.
  intros Az H R phi HR Ex Ey. cbn in Ex, Ey. cbn [k2_x k2_y k2_vx k2_vy].
  destruct (polar_unique x y R phi H HR Ex Ey) as (ER & C & S). destruct (rect_polar x y H) as (P & C' & S').
  unfold py_prect_force. rewrite rect_phi_py. rewrite !force2_sum.
  rewrite <- C', <- S' in *. rewrite ER. cbv zeta.
  change (fun c => comp2_R c ?a ?b R phi t) with (fun c => comp2_of QR c a b R phi t).
  change (fun c => comp2_p c ?a ?b R phi t) with (fun c => comp2_of QP c a b R phi t).
  rewrite !(fun s vR vT => comp2_angle s l phi (rect_phi x y) vR vT R t Az C S). rewrite C, S.
  f_equal; field; lra.
Qed.

(** ** The C right-hand sides are the Python ones *)
Definition py_of (q : csos) : sos := mkSos (c_x q) (c_vx q) (c_y q) (c_vy q) (c_A q) (c_t q).
Lemma atan2_rect x y : 0 < x ^ 2 + y ^ 2 -> cos (atan2 y x) = cos (rect_phi x y) /\ sin (atan2 y x) = sin (rect_phi x y).
Proof.
  intros H. destruct (rect_phi_cases x y H) as [-> | ->]; [tauto|].
  replace (atan2 y x + 2 * PI) with (atan2 y x + 2 * INR 1 * PI) by (cbn; ring). rewrite cos_period, sin_period. tauto.
Qed.
Lemma c_is_py l q : List.Forall conservative l -> List.Forall azimuthal l -> 0 < c_x q ^ 2 + c_y q ^ 2 ->
  py_of (c_sos_deriv l q) = py_sos_eom l (py_of q) (c_psi q) /\ c_psi (c_sos_deriv l q) = 1.
Proof.
  intros Cn Az H. split; [|reflexivity]. destruct q as [x y vx vy A t psi]. cbn in H. unfold c_sos_deriv, py_sos_eom, py_rect_force, py_of.
  cbn [c_x c_y c_vx c_vy c_A c_t c_psi s_x s_vx s_y s_vy s_A s_t fst snd]. rewrite rect_phi_py.
  replace (x * x + y * y) with (x ^ 2 + y ^ 2) by ring. unfold c_force_macro3.
  set (Rd := sqrt (x ^ 2 + y ^ 2)). set (vR := vx * (x / Rd) + vy * (y / Rd)). set (vT := - vx * (x / Rd) + vy * (y / Rd)).
  set (vT' := - vx * (y / Rd) + vy * (x / Rd)).
  rewrite !(fun s i b c d R z phi t => c_force_static s l i b c d R z phi t vR vT' (A * cos psi) Cn).
  rewrite !py_force_sum. destruct (atan2_rect x y H) as [C S].
  rewrite !(fun s => comp_angle s l (atan2 y x) (rect_phi x y) vR vT' (A * cos psi) Rd (A * sin psi) t Az C S).
  match goal with |- context [cos psi * cos psi - sin psi * ?w / A] => replace (cos psi * cos psi - sin psi * w / A) with (cos psi ^ 2 - sin psi / A * w) by (unfold Rdiv; ring) end.
  f_equal. f_equal. ring.
Qed.
Lemma c_is_pyx l q psi : List.Forall azimuthal2 l -> 0 < (p_A q * sin psi) ^ 2 + p_u q ^ 2 ->
  c_psos_derivx l q psi = (py_psos_eomx l q psi, 1).
Proof.
  intros Az H. destruct q as [u vu A t]. cbn in H. unfold c_psos_derivx, py_psos_eomx, py_prect_force.
  cbn [p_u p_vu p_A p_t fst snd]. rewrite rect_phi_py. set (x := A * sin psi) in *.
  replace (x * x + u * u) with (x ^ 2 + u ^ 2) by ring.
  set (Rd := sqrt (x ^ 2 + u ^ 2)). replace (- A * cos psi * (u / Rd)) with (- (A * cos psi) * (u / Rd)) by ring.
  rewrite !force2_sum. destruct (atan2_rect x u H) as [C S].
  rewrite !(fun s vR vT => comp2_angle s l (atan2 u x) (rect_phi x u) vR vT Rd t Az C S).
  match goal with |- context [cos psi * cos psi - sin psi * ?w / A] => replace (cos psi * cos psi - sin psi * w / A) with (cos psi ^ 2 - sin psi / A * w) by (unfold Rdiv; ring) end.
  f_equal. f_equal. f_equal. unfold x. ring.
Qed.
Lemma c_is_pyy l q psi : List.Forall azimuthal2 l -> 0 < p_u q ^ 2 + (p_A q * sin psi) ^ 2 ->
  c_psos_derivy l q psi = (py_psos_eomy l q psi, 1).
Proof.
  intros Az H. destruct q as [u vu A t]. cbn in H. unfold c_psos_derivy, py_psos_eomy, py_prect_force.
  cbn [p_u p_vu p_A p_t fst snd]. rewrite rect_phi_py. set (x := A * sin psi) in *.
  replace (u * u + x * x) with (u ^ 2 + x ^ 2) by ring.
  set (Rd := sqrt (u ^ 2 + x ^ 2)).
  rewrite !force2_sum. destruct (atan2_rect u x H) as [C S].
  rewrite !(fun s vR vT => comp2_angle s l (atan2 x u) (rect_phi u x) vR vT Rd t Az C S).
  match goal with |- context [cos psi * cos psi - sin psi * ?w / A] => replace (cos psi * cos psi - sin psi * w / A) with (cos psi ^ 2 - sin psi / A * w) by (unfold Rdiv; ring) end.
  f_equal. f_equal. f_equal. unfold x. ring.
Qed.

(** ** Following the orbit *)
Lemma sos_angle (A th : R -> R) p g pd : A p <> 0 -> pd = cos (th p) ^ 2 - sin (th p) / A p * g -> pd <> 0 -> is_derive th p 1 ->
  is_derive A p ((A p * cos (th p) * sin (th p) + g * cos (th p)) / pd) ->
  is_derive (fun u => A u * sin (th u)) p (A p * cos (th p) / pd) /\ is_derive (fun u => A u * cos (th u)) p (g / pd).
Proof.
  intros HA E Hpd Dt DA.
  assert (Ds : is_derive (fun u => sin (th u)) p (cos (th p) * 1)) by (apply (is_derive_Rchain sin th); [auto_derive; [exact I|ring]|exact Dt]).
  assert (Dc : is_derive (fun u => cos (th u)) p (- sin (th p) * 1)) by (apply (is_derive_Rchain cos th); [auto_derive; [exact I|ring]|exact Dt]).
  pose proof (sin2_cos2 (th p)) as P. unfold Rsqr in P.
  assert (K : pd * A p = cos (th p) ^ 2 * A p - sin (th p) * g) by (rewrite E; field; exact HA).
  assert (P2 : sin (th p) * sin (th p) = 1 - cos (th p) ^ 2) by (replace (cos (th p) ^ 2) with (cos (th p) * cos (th p)) by ring; lra).
  split; (eapply is_derive_eq; [apply is_derive_Rmult; [exact DA|first [exact Ds|exact Dc]]|]); rr.
  - replace (A p * (cos (th p) * 1)) with (cos (th p) * (pd * A p) / pd) by (field; exact Hpd). rewrite K.
    replace ((A p * cos (th p) * sin (th p) + g * cos (th p)) / pd * sin (th p) + cos (th p) * (cos (th p) ^ 2 * A p - sin (th p) * g) / pd)
      with (A p * cos (th p) * (sin (th p) * sin (th p) + cos (th p) ^ 2) / pd) by (field; exact Hpd). rewrite P2. field. exact Hpd.
  - replace (A p * (- sin (th p) * 1)) with (- sin (th p) * (pd * A p) / pd) by (field; exact Hpd). rewrite K.
    replace ((A p * cos (th p) * sin (th p) + g * cos (th p)) / pd * cos (th p) + - sin (th p) * (cos (th p) ^ 2 * A p - sin (th p) * g) / pd)
      with (g * (sin (th p) * sin (th p) + cos (th p) ^ 2) / pd) by (field; exact Hpd). rewrite P2. field. exact Hpd.
Qed.
Lemma clock_rate T s t pd : clock T s t -> is_derive T (s t) (1 / pd) -> T (s t) = t /\ pd <> 0 /\ is_derive s t pd.
Proof.
  intros [[ds Ds] L] DT. split; [apply (locally_singleton _ _ L)|].
  assert (D : is_derive (fun u => T (s u)) t (1 / pd * ds)) by (apply (is_derive_Rchain T s); assumption).
  assert (D1 : is_derive (fun u => T (s u)) t 1).
  { apply (is_derive_ext_loc (fun u => u)). - revert L. apply filter_imp. intros u E. symmetry. exact E. - apply (is_derive_id t). }
  assert (E : 1 / pd * ds = 1). { rewrite <- (is_derive_unique _ _ _ D). apply is_derive_unique. exact D1. }
  assert (Hp : pd <> 0). { intros ->. unfold Rdiv in E. rewrite Rinv_0 in E. lra. }
  split; [exact Hp|]. assert (Eq : @eq R ds pd). { apply (Rmult_eq_reg_l (1 / pd)). - rewrite E. field. exact Hp. - unfold Rdiv. rewrite Rmult_1_l. apply Rinv_neq_0_compat, Hp. } rewrite <- Eq. exact Ds.
Qed.
Lemma clock_comp (f s : R -> R) (t v pd : R) : pd <> 0 -> is_derive s t pd -> is_derive f (s t) (v / pd) -> is_derive (fun u => f (s u)) t v.
Proof. intros Hp Ds Df. replace v with (v / pd * pd) by (field; exact Hp). apply (is_derive_Rchain f s); assumption. Qed.
Lemma id_derive (t : R) : is_derive (fun u : R => u) t 1.
Proof. apply (is_derive_id t). Qed.
Lemma sos_newton l (Y : R -> sos) (s : R -> R) t : List.Forall azimuthal l -> s_A (Y (s t)) <> 0 -> 0 < s_x (Y (s t)) ^ 2 + s_y (Y (s t)) ^ 2 ->
  solves (py_sos_eom l) Y (s t) -> clock (fun p => s_t (Y p)) s t -> newton l (fun u => point (Y (s u)) (s u)) t.
Proof.
  intros Az HA HR (Dx & Dvx & Dy & Dvy & DA & DT) CL. unfold py_sos_eom in *.
  cbn [s_x s_vx s_y s_vy s_A s_t] in *.
  set (g := py_rect_force l _ _ _ _ _ _ _) in *. set (pd := cos (s t) ^ 2 - _) in *.
  destruct (clock_rate _ _ _ _ CL DT) as (Et & Hp & Ds). cbn beta in Et.
  destruct (sos_angle (fun p => s_A (Y p)) (fun p => p) (s t) (snd g) pd HA eq_refl Hp (id_derive _) DA) as [Dz Dvz].
  unfold newton, point. cbn [k_x k_y k_z k_vx k_vy k_vz].
  split; [exact (clock_comp (fun p => s_x (Y p)) s t _ _ Hp Ds Dx)|]. split; [exact (clock_comp (fun p => s_y (Y p)) s t _ _ Hp Ds Dy)|].
  split; [exact (clock_comp (fun p => s_A (Y p) * sin p) s t _ _ Hp Ds Dz)|].
  exists g. split; [unfold g; rewrite Et; apply py_rect_acc; assumption|].
  split; [exact (clock_comp (fun p => s_vx (Y p)) s t _ _ Hp Ds Dvx)|]. split; [exact (clock_comp (fun p => s_vy (Y p)) s t _ _ Hp Ds Dvy)|].
  exact (clock_comp (fun p => s_A (Y p) * cos p) s t _ _ Hp Ds Dvz).
Qed.
Lemma csos_newton l (Q : R -> csos) (s : R -> R) t : List.Forall conservative l -> List.Forall azimuthal l ->
  c_A (Q (s t)) <> 0 -> 0 < c_x (Q (s t)) ^ 2 + c_y (Q (s t)) ^ 2 ->
  csolves (c_sos_deriv l) Q (s t) -> clock (fun p => c_t (Q p)) s t -> newton l (fun u => cpoint (Q (s u))) t.
Proof.
  intros Cn Az HA HR (Dx & Dy & Dvx & Dvy & DA & DT & Dpsi) CL.
  destruct (c_is_py l (Q (s t)) Cn Az HR) as [E E1]. rewrite E1 in Dpsi.
  change (c_x (c_sos_deriv l (Q (s t)))) with (s_x (py_of (c_sos_deriv l (Q (s t))))) in Dx.
  change (c_y (c_sos_deriv l (Q (s t)))) with (s_y (py_of (c_sos_deriv l (Q (s t))))) in Dy.
  change (c_vx (c_sos_deriv l (Q (s t)))) with (s_vx (py_of (c_sos_deriv l (Q (s t))))) in Dvx.
  change (c_vy (c_sos_deriv l (Q (s t)))) with (s_vy (py_of (c_sos_deriv l (Q (s t))))) in Dvy.
  change (c_A (c_sos_deriv l (Q (s t)))) with (s_A (py_of (c_sos_deriv l (Q (s t))))) in DA.
  change (c_t (c_sos_deriv l (Q (s t)))) with (s_t (py_of (c_sos_deriv l (Q (s t))))) in DT.
  rewrite E in *. clear E. unfold py_sos_eom, py_of in *. cbn [s_x s_vx s_y s_vy s_A s_t] in *.
  set (g := py_rect_force l _ _ _ _ _ _ _) in *. set (pd := cos (c_psi (Q (s t))) ^ 2 - _) in *.
  destruct (clock_rate _ _ _ _ CL DT) as (Et & Hp & Ds). cbn beta in Et.
  destruct (sos_angle (fun p => c_A (Q p)) (fun p => c_psi (Q p)) (s t) (snd g) pd HA eq_refl Hp Dpsi DA) as [Dz Dvz].
  unfold newton, cpoint. cbn [k_x k_y k_z k_vx k_vy k_vz].
  split; [exact (clock_comp (fun p => c_x (Q p)) s t _ _ Hp Ds Dx)|]. split; [exact (clock_comp (fun p => c_y (Q p)) s t _ _ Hp Ds Dy)|].
  split; [exact (clock_comp (fun p => c_A (Q p) * sin (c_psi (Q p))) s t _ _ Hp Ds Dz)|].
  exists g. split; [unfold g; rewrite Et; apply py_rect_acc; assumption|].
  split; [exact (clock_comp (fun p => c_vx (Q p)) s t _ _ Hp Ds Dvx)|]. split; [exact (clock_comp (fun p => c_vy (Q p)) s t _ _ Hp Ds Dvy)|].
  exact (clock_comp (fun p => c_A (Q p) * cos (c_psi (Q p))) s t _ _ Hp Ds Dvz).
Qed.
Lemma psosx_newton l (Y : R -> psos) (s : R -> R) t : List.Forall azimuthal2 l -> p_A (Y (s t)) <> 0 ->
  0 < (p_A (Y (s t)) * sin (s t)) ^ 2 + p_u (Y (s t)) ^ 2 ->
  psolves (py_psos_eomx l) Y (s t) -> clock (fun p => p_t (Y p)) s t -> newton2 l (fun u => pointx (Y (s u)) (s u)) t.
Proof.
  intros Az HA HR (Du & Dvu & DA & DT) CL. unfold py_psos_eomx in *. cbn [p_u p_vu p_A p_t] in *.
  set (g := py_prect_force l _ _ _ _ _) in *. set (pd := cos (s t) ^ 2 - _) in *.
  destruct (clock_rate _ _ _ _ CL DT) as (Et & Hp & Ds). cbn beta in Et.
  destruct (sos_angle (fun p => p_A (Y p)) (fun p => p) (s t) (fst g) pd HA eq_refl Hp (id_derive _) DA) as [Dz Dvz].
  unfold newton2, pointx. cbn [k2_x k2_y k2_vx k2_vy].
  split; [exact (clock_comp (fun p => p_A (Y p) * sin p) s t _ _ Hp Ds Dz)|]. split; [exact (clock_comp (fun p => p_u (Y p)) s t _ _ Hp Ds Du)|].
  exists g. split; [unfold g; rewrite Et; apply py_prect_acc; assumption|].
  split; [exact (clock_comp (fun p => p_A (Y p) * cos p) s t _ _ Hp Ds Dvz)|]. exact (clock_comp (fun p => p_vu (Y p)) s t _ _ Hp Ds Dvu).
Qed.
Lemma psosy_newton l (Y : R -> psos) (s : R -> R) t : List.Forall azimuthal2 l -> p_A (Y (s t)) <> 0 ->
  0 < p_u (Y (s t)) ^ 2 + (p_A (Y (s t)) * sin (s t)) ^ 2 ->
  psolves (py_psos_eomy l) Y (s t) -> clock (fun p => p_t (Y p)) s t -> newton2 l (fun u => pointy (Y (s u)) (s u)) t.
Proof.
  intros Az HA HR (Du & Dvu & DA & DT) CL. unfold py_psos_eomy in *. cbn [p_u p_vu p_A p_t] in *.
  set (g := py_prect_force l _ _ _ _ _) in *. set (pd := cos (s t) ^ 2 - _) in *.
  destruct (clock_rate _ _ _ _ CL DT) as (Et & Hp & Ds). cbn beta in Et.
  destruct (sos_angle (fun p => p_A (Y p)) (fun p => p) (s t) (snd g) pd HA eq_refl Hp (id_derive _) DA) as [Dz Dvz].
  unfold newton2, pointy. cbn [k2_x k2_y k2_vx k2_vy].
  split; [exact (clock_comp (fun p => p_u (Y p)) s t _ _ Hp Ds Du)|]. split; [exact (clock_comp (fun p => p_A (Y p) * sin p) s t _ _ Hp Ds Dz)|].
  exists g. split; [unfold g; rewrite Et; apply py_prect_acc; assumption|].
  split; [exact (clock_comp (fun p => p_vu (Y p)) s t _ _ Hp Ds Dvu)|]. exact (clock_comp (fun p => p_A (Y p) * cos p) s t _ _ Hp Ds Dvz).
Qed.

(** ** Every orbit is reached: the converse *)
Lemma acc_unique l t k a b : 0 < k_x k ^ 2 + k_y k ^ 2 -> acceleration l t k a -> acceleration l t k b -> a = b.
Proof.
  intros H Ha Hb. destruct (rect_polar (k_x k) (k_y k) H) as (P & C & S).
  assert (Ex : k_x k = sqrt (k_x k ^ 2 + k_y k ^ 2) * cos (rect_phi (k_x k) (k_y k))) by (rewrite C; field; lra).
  assert (Ey : k_y k = sqrt (k_x k ^ 2 + k_y k ^ 2) * sin (rect_phi (k_x k) (k_y k))) by (rewrite S; field; lra).
  etransitivity; [apply (Ha _ _ P Ex Ey)|symmetry; apply (Hb _ _ P Ex Ey)].
Qed.
Lemma angle_rate (A th z v : R -> R) (t a dA dth : R) : A t <> 0 -> is_derive A t dA -> is_derive th t dth ->
  locally t (fun u => z u = A u * sin (th u)) -> locally t (fun u => v u = A u * cos (th u)) ->
  is_derive z t (v t) -> is_derive v t a ->
  dth = cos (th t) ^ 2 - sin (th t) / A t * a /\ dA = A t * cos (th t) * sin (th t) + a * cos (th t).
Proof.
  intros HA DA Dt Lz Lv Dz Dv.
  assert (Ds : is_derive (fun u => sin (th u)) t (cos (th t) * dth)) by (apply (is_derive_Rchain sin th); [auto_derive; [exact I|ring]|exact Dt]).
  assert (Dc : is_derive (fun u => cos (th u)) t (- sin (th t) * dth)) by (apply (is_derive_Rchain cos th); [auto_derive; [exact I|ring]|exact Dt]).
  assert (Ez : v t = dA * sin (th t) + A t * (cos (th t) * dth)).
  { rewrite <- (is_derive_unique _ _ _ Dz). apply is_derive_unique.
    apply (is_derive_ext_loc (fun u => A u * sin (th u))); [revert Lz; apply filter_imp; intros u E; symmetry; exact E|].
    apply (is_derive_Rmult A (fun u => sin (th u))); assumption. }
  assert (Ev : a = dA * cos (th t) + A t * (- sin (th t) * dth)).
  { rewrite <- (is_derive_unique _ _ _ Dv). apply is_derive_unique.
    apply (is_derive_ext_loc (fun u => A u * cos (th u))); [revert Lv; apply filter_imp; intros u E; symmetry; exact E|].
    apply (is_derive_Rmult A (fun u => cos (th u))); assumption. }
  rewrite (locally_singleton _ _ Lv) in Ez.
  pose proof (sin2_cos2 (th t)) as P. unfold Rsqr in P. set (sn := sin (th t)) in *. set (cs := cos (th t)) in *.
  split.
  - apply (Rmult_eq_reg_l (A t)); [|exact HA].
    replace (A t * (cs ^ 2 - sn / A t * a)) with (A t * cs ^ 2 - sn * a) by (field; exact HA). rewrite Ev.
    replace (A t * cs ^ 2) with ((A t * cs) * cs) by ring. rewrite Ez.
    replace ((dA * sn + A t * (cs * dth)) * cs - sn * (dA * cs + A t * (- sn * dth))) with (A t * dth * (sn * sn + cs * cs)) by ring.
    rewrite P. ring.
  - rewrite Ez, Ev. replace ((dA * sn + A t * (cs * dth)) * sn + (dA * cs + A t * (- sn * dth)) * cs) with (dA * (sn * sn + cs * cs)) by ring.
    rewrite P. ring.
Qed.
Lemma clock_inv th s p dth : clock th s p -> is_derive th (s p) dth -> th (s p) = p /\ dth <> 0 /\ is_derive s p (1 / dth).
Proof.
  intros CL D. replace dth with (1 / (1 / dth)) in D.
  - destruct (clock_rate _ _ _ _ CL D) as (E & N & Ds). split; [exact E|]. split; [|exact Ds].
    intros ->. apply N. unfold Rdiv. rewrite Rinv_0. ring.
  - unfold Rdiv. rewrite !Rmult_1_l. apply Rinv_inv.
Qed.
Lemma newton_sos l (w : R -> cart) (A th s : R -> R) psi : List.Forall azimuthal l ->
  newton l w (s psi) -> A (s psi) <> 0 -> ex_derive A (s psi) -> ex_derive th (s psi) ->
  locally (s psi) (fun u => k_z (w u) = A u * sin (th u)) -> locally (s psi) (fun u => k_vz (w u) = A u * cos (th u)) ->
  0 < k_x (w (s psi)) ^ 2 + k_y (w (s psi)) ^ 2 -> clock th s psi ->
  solves (py_sos_eom l) (fun p => mkSos (k_x (w (s p))) (k_vx (w (s p))) (k_y (w (s p))) (k_vy (w (s p))) (A (s p)) (s p)) psi.
Proof.
  intros Az (Dx & Dy & Dz & a & Ha & Dvx & Dvy & Dvz) HA [dA DA] [dth Dth] Lz Lv HR CL.
  destruct (angle_rate A th (fun u => k_z (w u)) (fun u => k_vz (w u)) (s psi) (snd a) dA dth HA DA Dth Lz Lv Dz Dvz) as [E1 E2].
  destruct (clock_inv _ _ _ _ CL Dth) as (Et & N & Ds). rewrite Et in *.
  assert (Eg : py_rect_force l (k_x (w (s psi))) (k_y (w (s psi))) (A (s psi) * sin psi) (s psi) (k_vx (w (s psi))) (k_vy (w (s psi))) (A (s psi) * cos psi) = a).
  { apply (acc_unique l (s psi) (w (s psi))); [exact HR| |exact Ha].
    pose proof (locally_singleton _ _ Lz) as Z1. pose proof (locally_singleton _ _ Lv) as Z2. cbn beta in Z1, Z2. rewrite Et in Z1, Z2. rewrite <- Z1, <- Z2.
    destruct (w (s psi)) as [x y z vx vy vz]. cbn in *. apply py_rect_acc; assumption. }
  unfold solves, py_sos_eom. cbn [s_x s_vx s_y s_vy s_A s_t]. rewrite Eg. rewrite <- E1, <- E2.
  assert (K : forall (f : R -> R) (v : R), is_derive f (s psi) v -> is_derive (fun p => f (s p)) psi (v / dth)).
  { intros f v D. replace (v / dth) with (v * (1 / dth)) by (unfold Rdiv; ring). apply (is_derive_Rchain f s); assumption. }
  split; [exact (K (fun u => k_x (w u)) _ Dx)|]. split; [exact (K (fun u => k_vx (w u)) _ Dvx)|].
  split; [exact (K (fun u => k_y (w u)) _ Dy)|]. split; [exact (K (fun u => k_vy (w u)) _ Dvy)|].
  split; [exact (K A _ DA)|exact Ds].
Qed.
