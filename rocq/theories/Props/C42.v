(** C42: orbit deviations integrated alongside an orbit are the exact derivative of the discrete orbit map, which is symplectic. *)
From Coq Require Import Reals Lra List Lia ZArith.
From Coquelicot Require Import Coquelicot.
From Verif.Lib Require Import RealAux.
From Verif.Model Require Import PotAPI Symplectic RectForce PotAxi.
From Verif.Spec Require Import PotSpec PotApiSpec SmoothSpec Catalog SymplecticSpec.
From Verif.Proofs Require Import SmoothCatalog SymplecticProofs RectProofs.
From Verif.Props Require Import C01.
Import ListNotations.
Open Scope R_scope.
Notation RR := RbaseSymbolsImpl.R (only parsing).

Definition steppers {J} (F : RR -> vec J -> vec J) := [(lf_interval F, leapfrog_scheme); (s4_interval F, fourth_order); (s6_interval F, sixth_order)].
Lemma steppers_run {J} (F : RR -> vec J -> vec J) interval scheme : In (interval, scheme) (steppers F) ->
  forall dt ndt s, (0 < ndt)%nat -> interval dt ndt s = dk_run F scheme dt ndt s.
Proof.
  intros HI. cbn in HI. destruct HI as [E|[E|[E|[]]]]; injection E as <- <-; intros; first [apply lf_interval_run|apply s4_interval_run|apply s6_interval_run]; auto.
Qed.
Lemma steppers_swap {J K} (F : RR -> vec J -> vec J) (G : RR -> vec K -> vec K) interval scheme : In (interval, scheme) (steppers F) ->
  exists interval', In (interval', scheme) (steppers G).
Proof. intros HI. cbn in HI. destruct HI as [E|[E|[E|[]]]]; injection E as <- <-; eexists; cbn; eauto. Qed.

(** The orbit returned with the deviations is the one returned without them, whatever the matrix used for the deviations: same step size,
    same rows. *)
Theorem C42_base_orbit_unchanged : forall (J : Type) (js : list J) F K interval interval' scheme error given q p t0 t1 ts out,
  In (interval', scheme) (steppers (force_aug js F K)) -> In (interval, scheme) (steppers F) ->
  t1 <> t0 -> (forall dt, given = Some dt -> exists n, (0 < n)%nat /\ t1 - t0 = INR n * dt) ->
  c_integrate interval' error 16 given q p (t0 :: t1 :: ts) = Some out ->
  c_integrate interval error 16 given (block O q) (block O p) (t0 :: t1 :: ts) = Some (map base out).
Proof.
  intros J js F K interval interval' scheme error given q p t0 t1 ts out HA HB Ht HG E.
  pose proof (steppers_run _ _ _ HA) as RA. pose proof (steppers_run _ _ _ HB) as RB.
  unfold c_integrate in *. destruct (Req_EM_T (t1 - t0) 0) as [X|_]; [exfalso; apply Ht; lra|].
  assert (N : forall dt, match given with Some dt => Some dt | None => est_c 16 error (t1 - t0) ((t1 - t0) * 2) 2 end = Some dt ->
              (0 < Z.to_nat (trunc ((t1 - t0) / dt)))%nat).
  { intros dt Ed. destruct given as [dt'|].
    - injection Ed as <-. destruct (HG dt' eq_refl) as (n & Hn & En).
      assert (P : 0 < INR n) by (apply lt_0_INR; auto). rewrite En.
      assert (Z : dt' <> 0). { intros ->. apply Ht. rewrite Rmult_0_r in En. lra. }
      replace (INR n * dt' / dt') with (INR n) by (field; auto). rewrite trunc_INR, Nat2Z.id. auto.
    - assert (Z : t1 - t0 <> 0) by (intros X; apply Ht; lra). destruct (est_c_ok error (t1 - t0) Z) as (k & _ & Ek). rewrite Ek in Ed. injection Ed as <-.
      rewrite (ndt_pow (t1 - t0) k Z). clear. induction k; cbn; lia. }
  destruct (match given with Some dt => Some dt | None => est_c 16 error (t1 - t0) ((t1 - t0) * 2) 2 end) as [dt|]; [|discriminate].
  specialize (N dt eq_refl). set (ndt := Z.to_nat (trunc ((t1 - t0) / dt))) in *. set (n := (length (t0 :: t1 :: ts) - 1)%nat) in *. clearbody n. injection E as <-. f_equal.
  rewrite (rows_run F (interval dt ndt) scheme dt ndt) by (intros; apply RB; auto).
  rewrite (rows_run (force_aug js F K) (interval' dt ndt) scheme dt ndt) by (intros; apply RA; auto).
  rewrite map_cons, map_map. f_equal. apply map_ext. intros i. rewrite aug_base_run. reflexivity.
Qed.
Print Assumptions C42_base_orbit_unchanged.

(** Each deviation is mapped by the derivative of the map from the initial condition to the state after the step(s), provided K is the
    Jacobian of the force at the points where it is evaluated. *)
Theorem C42_deviations_are_tangent : forall (J : Type) (js : list J) F K interval interval' scheme,
  In (interval', scheme) (steppers (force_aug js F K)) -> In (interval, scheme) (steppers F) ->
  forall dt ndt s b, (0 < ndt)%nat ->
  (forall t' q', kicked_at F scheme dt ndt (base s) t' q' -> force_jacobian js F t' q' (K t' q')) ->
  maps_tangent (fun x => fst (interval dt ndt (x, time s))) (fst (base s)) (column b s) (column b (interval' dt ndt s)).
Proof.
  intros J js F K interval interval' scheme HA HB dt ndt s b H HK.
  pose proof (steppers_run _ _ _ HA) as RA. pose proof (steppers_run _ _ _ HB) as RB.
  rewrite RA, aug_col_run by auto. intros c x E A B.
  destruct (run_tangent js F K scheme dt ndt (time s) (fst (base s)) (column b s) HK c x E A B) as [P Q]. split; intros j.
  - eapply is_derive_ext; [|exact (P j)]. intros z. cbn beta. rewrite RB by auto. reflexivity.
  - eapply is_derive_ext; [|exact (Q j)]. intros z. cbn beta. rewrite RB by auto. reflexivity.
Qed.
Print Assumptions C42_deviations_are_tangent.
(** Hence the canonical two-form of any two deviations is conserved over any number of steps. *)
Theorem C42_two_form_conserved : forall (J : Type) (js : list J) F K interval' scheme,
  In (interval', scheme) (steppers (force_aug js F K)) -> forall dt ndt s b b', (0 < ndt)%nat ->
  (forall t' q', kicked_at F scheme dt ndt (base s) t' q' -> symmetric js (K t' q')) ->
  symplectic_form js (column b (interval' dt ndt s)) (column b' (interval' dt ndt s)) = symplectic_form js (column b s) (column b' s).
Proof.
  intros J js F K interval' scheme HA dt ndt s b b' H HS. rewrite (steppers_run _ _ _ HA) by auto. rewrite !aug_col_run. apply form_runs.
  apply kicked_kicks with (Q' := fun t q => symmetric js (K t q)); auto.
Qed.
Print Assumptions C42_two_form_conserved.

(** ** The matrices the code uses are the Jacobians of the forces it uses. *)
(** A point is in the region D of (R, z, phi, t) space: *)
Definition point_in (D : Dom) (t : RR) (q : vec axis) : Prop :=
  0 < q AX ^ 2 + q AY ^ 2 /\ D (rect_R (q AX) (q AY)) (q AZ) (rect_phi (q AX) (q AY)) t.
Theorem C42_cylindrical_coordinates : forall x y, 0 < x ^ 2 + y ^ 2 ->
  rect_R x y = sqrt (x ^ 2 + y ^ 2) /\ rect_R x y * cos (rect_phi x y) = x /\ rect_R x y * sin (rect_phi x y) = y.
Proof. intros x y H. split; [apply rect_R_sq|apply rect_phi_cos; auto]. Qed.
Print Assumptions C42_cylindrical_coordinates.
Theorem C42_rect_force_jacobian : forall (D : Dom) p, smooth D p -> api_periodic p ->
  exists Fphi P2R P2z PRz P2p PRp Ppz, apiPt p v0 = Some Fphi /\ apiR2 p = Some P2R /\ apiz2 p = Some P2z /\ apiRz p = Some PRz /\
    apip2 p = Some P2p /\ apiRp p = Some PRp /\ apipz p = Some Ppz /\
    forall t q, point_in D t q ->
      let K := rect_hess (apiRf p v0) Fphi P2R P2p PRp P2z PRz Ppz t q in
      force_jacobian axes (rect_force (apiRf p v0) (apizf p v0) Fphi) t q K /\ symmetric axes K.
Proof.
  intros D p (Phi & Fphi & P2R & P2z & PRz & P2p & PRp & Ppz & []) (_ & Q2 & Q3 & Q4).
  exists Fphi, P2R, P2z, PRz, P2p, PRp, Ppz. do 7 (split; [assumption|]). intros t q (Hp & HD). split.
  - apply (rect_jacobian D); auto.
  - apply rect_symmetric.
Qed.
Print Assumptions C42_rect_force_jacobian.
(** The right-hand side of the non-symplectic variational integrators *)
Theorem C42_rhs_is_linearised : forall (D : Dom) p, smooth D p -> api_periodic p ->
  exists Fphi P2R P2z PRz P2p PRp Ppz, apiPt p v0 = Some Fphi /\ apiR2 p = Some P2R /\ apiz2 p = Some P2z /\ apiRz p = Some PRz /\
    apip2 p = Some P2p /\ apiRp p = Some PRp /\ apipz p = Some Ppz /\
    forall t q v dq dv, point_in D t q ->
      let '(qdot, vdot, dqdot, dvdot) := rect_deriv_dxdv (apiRf p v0) (apizf p v0) Fphi P2R P2p PRp P2z PRz Ppz t q v dq dv in
      qdot = v /\ vdot = rect_force (apiRf p v0) (apizf p v0) Fphi t q /\ dqdot = dv /\
      forall c s, c s = q -> vderive c s dq -> vderive (fun x => rect_force (apiRf p v0) (apizf p v0) Fphi t (c x)) s dvdot.
Proof.
  intros D p HS HP. destruct (C42_rect_force_jacobian D p HS HP) as (Fphi & P2R & P2z & PRz & P2p & PRp & Ppz & E1 & E2 & E3 & E4 & E5 & E6 & E7 & J).
  exists Fphi, P2R, P2z, PRz, P2p, PRp, Ppz. do 7 (split; [assumption|]). intros t q v dq dv Hq. cbn [rect_deriv_dxdv].
  split; auto. split; auto. split; auto. intros c s E Hc j. destruct (J t q Hq) as [Jq _]. pose proof (Jq c s dq E Hc j) as X.
  match type of X with is_derive _ _ ?l => match goal with |- is_derive _ _ ?r => replace r with l; [exact X|] end end.
  unfold sum_over, axes. cbn [map fold_right]. destruct j; unfold rect_hess; rr.
Qed.
Print Assumptions C42_rhs_is_linearised.
(** In the plane (both forms of the off-diagonal element) and along a line *)
Theorem C42_planar_force_jacobian : forall (D : Dom) p, smooth D p -> api_periodic p ->
  exists Fphi P2R P2p PRp, apiPt p v0 = Some Fphi /\ apiR2 p = Some P2R /\ apip2 p = Some P2p /\ apiRp p = Some PRp /\
    forall own t q, 0 < q true ^ 2 + q false ^ 2 -> D (rect_R (q true) (q false)) 0 (rect_phi (q true) (q false)) t ->
      let pl (f : Fun4) : Reduce.F3 := fun R phi t => f R 0 phi t in
      let K := prect_hess (pl (apiRf p v0)) (pl Fphi) (pl P2R) (pl P2p) (pl PRp) own t q in
      force_jacobian [true; false] (prect_force (pl (apiRf p v0)) (pl Fphi)) t q K /\ symmetric [true; false] K.
Proof.
  intros D p (Phi & Fphi & P2R & P2z & PRz & P2p & PRp & Ppz & []) (_ & Q2 & Q3 & Q4).
  exists Fphi, P2R, P2p, PRp. do 4 (split; [assumption|]). intros own t q Hp HD. split.
  - apply (prect_jacobian D _ _ _ _ _ PRz Ppz); auto.
  - apply prect_symmetric.
Qed.
Print Assumptions C42_planar_force_jacobian.
Theorem C42_linear_force_jacobian : forall f d2 t q, is_derive (fun x => f x t) (q tt) (- d2 (q tt) t) ->
  force_jacobian [tt] (lin_force f) t q (lin_hess d2 t q) /\ symmetric [tt] (lin_hess d2 t q).
Proof. intros f d2 t q H. split; [apply lin_jacobian; auto|]. intros j k _ _. reflexivity. Qed.
Print Assumptions C42_linear_force_jacobian.

(** ** Put together: every potential of the catalogue (any composite), any of the three integrators. *)
Theorem C42_catalogue_orbits_symplectic : forall D p, Catalog D p ->
  exists Fphi, apiPt p v0 = Some Fphi /\ forall interval scheme, let F := rect_force (apiRf p v0) (apizf p v0) Fphi in
  In (interval, scheme) (steppers F) -> forall dt ndt t x, (0 < ndt)%nat ->
  (forall t' q', kicked_at F scheme dt ndt (x, t) t' q' -> point_in D t' q') ->
  symplectic_at axes (fun x => fst (interval dt ndt (x, t))) x.
Proof.
  intros D p H. destruct (C42_rect_force_jacobian D p (catalog_smooth D p H) (catalog_periodic D p H)) as (Fphi & P2R & P2z & PRz & P2p & PRp & Ppz & E1 & _ & _ & _ & _ & _ & _ & J).
  exists Fphi. split; auto. intros interval scheme F HI dt ndt t x Hn HK. pose proof (steppers_run _ _ _ HI) as RB.
  destruct (run_symplectic axes F (rect_hess (apiRf p v0) Fphi P2R P2p PRp P2z PRz Ppz) scheme dt ndt t x) as (T & A & B).
  { intros t' q' Hq. apply J. apply HK. auto. }
  exists T. split; auto. intros u c s E0 P Q. destruct (A u c s E0 P Q) as [P' Q']. split; intros j.
  - eapply is_derive_ext; [|exact (P' j)]. intros z. cbn beta. rewrite RB by auto. reflexivity.
  - eapply is_derive_ext; [|exact (Q' j)]. intros z. cbn beta. rewrite RB by auto. reflexivity.
Qed.
Print Assumptions C42_catalogue_orbits_symplectic.

(** Non-vacuity: one leapfrog step in the Milky-Way-like composite of C01 from (1, 0, 0) at unit tangential velocity *)
Example C42_nonvacuous : forall Fphi, apiPt mw v0 = Some Fphi ->
  let F := rect_force (apiRf mw v0) (apizf mw v0) Fphi in
  let q : vec axis := fun a => match a with AX => 1 | _ => 0 end in let p : vec axis := fun a => match a with AY => 1 | _ => 0 end in
  forall t' q', kicked_at F leapfrog_scheme (1 / 100) 1 ((q, p), 0) t' q' -> point_in off_origin t' q'.
Proof.
  intros Fphi _ F q p t' q' (i & b & d & a & Hi & E & _ & <-). destruct i; [|lia]. change (dk_run F leapfrog_scheme (1 / 100) 0 (q, p, 0)) with (q, p, 0).
  assert (Hb : b = [Drift (1 / 2)]).
  { destruct b as [|o1 b]; [discriminate E|]. injection E as <- E. destruct b as [|o2 b]; auto. injection E as _ E. destruct b as [|o3 b]; [discriminate E|]. injection E as _ E. destruct b; discriminate E. }
  subst b. unfold dk_step, pos. cbn [fold_left dk_op fst]. unfold point_in, off_origin, q, p.
  assert (P : 0 < (1 + 1 / 2 * (1 / 100) * 0) ^ 2 + (0 + 1 / 2 * (1 / 100) * 1) ^ 2) by nra.
  split; [exact P|]. left. rewrite rect_R_sq. pose proof (sqrt_lt_R0 _ P) as Q. intros X. cbv beta iota in X. rewrite X in Q. lra.
Qed.
