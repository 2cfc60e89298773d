From Coq Require Import Reals List ZArith Lra Psatz.
From Coquelicot Require Import Coquelicot.
From Verif.Lib Require Import RealAux Atan2.
From Verif.Model Require Import PotAPI RectForce SOS EOM.
From Verif.Spec Require Import PotSpec PotApiSpec SmoothSpec SOSSpec EOMSpec.
From Verif.Proofs Require Import RectProofs SOSProofs.
Import ListNotations.
Open Scope R_scope.
Notation RR := RbaseSymbolsImpl.R (only parsing).
#[local] Arguments pow : simpl never.
Ltac rr := match goal with |- ?a = ?b => change (@eq R a b) end.

(** ** Derivatives of rotating vectors *)
Lemma d_cos (p : R -> R) t dp : is_derive p t dp -> is_derive (fun s => cos (p s)) t (- sin (p t) * dp).
Proof. intros D. apply (is_derive_Rchain cos p); [auto_derive; [exact I|ring]|exact D]. Qed.
Lemma d_sin (p : R -> R) t dp : is_derive p t dp -> is_derive (fun s => sin (p s)) t (cos (p t) * dp).
Proof. intros D. apply (is_derive_Rchain sin p); [auto_derive; [exact I|ring]|exact D]. Qed.
Lemma d_minus (f g : R -> R) t a b : is_derive f t a -> is_derive g t b -> is_derive (fun s => f s - g s) t (a - b).
Proof. intros A B. apply (is_derive_minus f g t a b A B). Qed.
Lemma d_rot_x (a b p : R -> R) t da db dp : is_derive a t da -> is_derive b t db -> is_derive p t dp ->
  is_derive (fun s => a s * cos (p s) - b s * sin (p s)) t (da * cos (p t) + a t * (- sin (p t) * dp) - (db * sin (p t) + b t * (cos (p t) * dp))).
Proof.
  intros A B P. apply d_minus.
  - apply (is_derive_Rmult a (fun s => cos (p s))); [exact A|exact (d_cos p t dp P)].
  - apply (is_derive_Rmult b (fun s => sin (p s))); [exact B|exact (d_sin p t dp P)].
Qed.
Lemma d_rot_y (a b p : R -> R) t da db dp : is_derive a t da -> is_derive b t db -> is_derive p t dp ->
  is_derive (fun s => a s * sin (p s) + b s * cos (p s)) t (da * sin (p t) + a t * (cos (p t) * dp) + (db * cos (p t) + b t * (- sin (p t) * dp))).
Proof.
  intros A B P. apply is_derive_Rplus.
  - apply (is_derive_Rmult a (fun s => sin (p s))); [exact A|exact (d_sin p t dp P)].
  - apply (is_derive_Rmult b (fun s => cos (p s))); [exact B|exact (d_cos p t dp P)].
Qed.
(** The acceleration at a point given in cylindrical coordinates. *)
Definition acc_cyl (l : list comp3) (t R vR vT z vz phi : RR) : RR * RR * RR :=
  let F s := py_force s l vR vT vz R z phi t in
  (cos phi * F PR - sin phi * (F PP / R), sin phi * F PR + cos phi * (F PP / R), F PZ).
Lemma acc_at l t R vR vT z vz phi : List.Forall azimuthal l -> 0 < R ->
  acceleration l t (cart_of (mkCyl R vR vT z vz phi)) (acc_cyl l t R vR vT z vz phi).
Proof.
  intros Az HR R' phi' HR' Ex Ey. unfold cart_of in *. cbn [k_x k_y k_z k_vx k_vy k_vz y_R y_vR y_vT y_z y_vz y_phi] in *.
  assert (H : 0 < (R * cos phi) ^ 2 + (R * sin phi) ^ 2).
  { pose proof (sin2_cos2 phi) as P. unfold Rsqr in P. replace ((R * cos phi) ^ 2 + (R * sin phi) ^ 2) with (R ^ 2 * (sin phi * sin phi + cos phi * cos phi)) by ring.
    rewrite P. nra. }
  destruct (polar_unique _ _ R' phi' H HR' Ex Ey) as (ER & C & S). destruct (polar_unique _ _ R phi H HR eq_refl eq_refl) as (ER2 & C2 & S2).
  rewrite ER2 in ER. subst R'. rewrite <- C2 in C. rewrite <- S2 in S. clear C2 S2 ER2 H.
  cbv zeta. unfold acc_cyl. rewrite C, S, !py_force_sum.
  pose proof (sin2_cos2 phi) as P. unfold Rsqr in P.
  replace ((vR * cos phi - vT * sin phi) * cos phi + (vR * sin phi + vT * cos phi) * sin phi) with vR
    by (replace ((vR * cos phi - vT * sin phi) * cos phi + (vR * sin phi + vT * cos phi) * sin phi) with (vR * (sin phi * sin phi + cos phi * cos phi)) by ring; rewrite P; ring).
  replace (- (vR * cos phi - vT * sin phi) * sin phi + (vR * sin phi + vT * cos phi) * cos phi) with vT
    by (replace (- (vR * cos phi - vT * sin phi) * sin phi + (vR * sin phi + vT * cos phi) * cos phi) with (vT * (sin phi * sin phi + cos phi * cos phi)) by ring; rewrite P; ring).
  change (fun c => comp_R c ?a ?b vz R z phi' t) with (fun c => comp_of PR c a b vz R z phi' t).
  change (fun c => comp_p c ?a ?b vz R z phi' t) with (fun c => comp_of PP c a b vz R z phi' t).
  change (fun c => comp_z c ?a ?b vz R z phi' t) with (fun c => comp_of PZ c a b vz R z phi' t).
  rewrite !(fun s => comp_angle s l phi' phi vR vT vz R z t Az C S). reflexivity.
Qed.
Lemma eom_newton l (Y : R -> eom) t : List.Forall azimuthal l -> 0 < e_R (Y t) -> solves_eom (py_eom l) Y t -> newton l (fun s => cart_eom (Y s)) t.
Proof.
  intros Az HR (DR & DvR & Dp & Dw & Dz & Dvz). unfold py_eom in *. cbn [e_R e_vR e_phi e_w e_z e_vz] in *.
  unfold newton, cart_eom. cbn [k_x k_y k_z k_vx k_vy k_vz].
  pose proof (is_derive_Rmult (fun s => e_R (Y s)) (fun s => e_w (Y s)) t _ _ DR Dw) as DvT.
  pose proof (is_derive_Rmult (fun s => e_R (Y s)) (fun s => cos (e_phi (Y s))) t _ _ DR (d_cos _ t _ Dp)) as Dx.
  pose proof (is_derive_Rmult (fun s => e_R (Y s)) (fun s => sin (e_phi (Y s))) t _ _ DR (d_sin _ t _ Dp)) as Dy.
  pose proof (d_rot_x _ _ _ t _ _ _ DvR DvT Dp) as Dvx. pose proof (d_rot_y _ _ _ t _ _ _ DvR DvT Dp) as Dvy. cbn beta in *.
  split; [|split; [|split; [exact Dz|]]].
  - eapply is_derive_eq; [exact Dx|]. rr. ring.
  - eapply is_derive_eq; [exact Dy|]. rr. ring.
  - exists (acc_cyl l t (e_R (Y t)) (e_vR (Y t)) (e_R (Y t) * e_w (Y t)) (e_z (Y t)) (e_vz (Y t)) (e_phi (Y t))).
    split; [exact (acc_at l t _ _ _ _ _ _ Az HR)|]. unfold acc_cyl. cbn [fst snd].
    split; [|split; [|exact Dvz]].
    + eapply is_derive_eq; [exact Dvx|]. rr. field. lra.
    + eapply is_derive_eq; [exact Dvy|]. rr. field. lra.
Qed.

(** ** Rewriting orbits *)
Lemma newton_loc l (w w' : R -> cart) t : locally t (fun s => w s = w' s) -> newton l w t -> newton l w' t.
Proof.
  intros L (A & B & C & a & Ha & Da & Db & Dc). pose proof (locally_singleton _ _ L) as E.
  unfold newton. rewrite <- E.
  assert (G : forall (f : cart -> R) v, is_derive (fun s => f (w s)) t v -> is_derive (fun s => f (w' s)) t v).
  { intros f v. apply is_derive_ext_loc. revert L. apply filter_imp. intros s ->. reflexivity. }
  split; [exact (G k_x _ A)|]. split; [exact (G k_y _ B)|]. split; [exact (G k_z _ C)|].
  exists a. split; [exact Ha|]. split; [exact (G k_vx _ Da)|]. split; [exact (G k_vy _ Db)|exact (G k_vz _ Dc)].
Qed.
Lemma newton2_loc l (w w' : R -> cart2) t : locally t (fun s => w s = w' s) -> newton2 l w t -> newton2 l w' t.
Proof.
  intros L (A & B & a & Ha & Da & Db). pose proof (locally_singleton _ _ L) as E.
  unfold newton2. rewrite <- E.
  assert (G : forall (f : cart2 -> R) v, is_derive (fun s => f (w s)) t v -> is_derive (fun s => f (w' s)) t v).
  { intros f v. apply is_derive_ext_loc. revert L. apply filter_imp. intros s ->. reflexivity. }
  split; [exact (G k2_x _ A)|]. split; [exact (G k2_y _ B)|].
  exists a. split; [exact Ha|]. split; [exact (G k2_vx _ Da)|exact (G k2_vy _ Db)].
Qed.
Lemma d_locally_pos (f : R -> R) t d : is_derive f t d -> 0 < f t -> locally t (fun s => 0 < f s).
Proof. intros Df H. apply (ex_derive_continuous f t (ex_intro _ _ Df) (fun v => 0 < v)). apply locally_gt; auto. Qed.
Lemma out_cart y : 0 <= e_R y -> cart_of (eom_out y) = cart_eom y.
Proof. intros H. unfold eom_out. destruct (Rlt_dec (e_R y) 0); [lra|]. unfold cart_of, cart_eom. cbn. reflexivity. Qed.
Lemma init_cart w : y_R w <> 0 -> cart_eom (eom_init w) = cart_of w.
Proof. intros H. unfold eom_init, cart_of, cart_eom. cbn. f_equal; field; auto. Qed.
Lemma out_init w : 0 < y_R w -> eom_out (eom_init w) = w.
Proof. intros H. unfold eom_out, eom_init. destruct w as [R vR vT z vz phi]. cbn in *. destruct (Rlt_dec R 0); [lra|]. f_equal; field; lra. Qed.
Lemma eom_rows l (Y : R -> eom) t : List.Forall azimuthal l -> 0 < e_R (Y t) -> solves_eom (py_eom l) Y t -> newton l (fun s => cart_of (eom_out (Y s))) t.
Proof.
  intros Az HR S. apply (newton_loc l (fun s => cart_eom (Y s))); [|exact (eom_newton l Y t Az HR S)].
  destruct S as (DR & _). generalize (d_locally_pos _ t _ DR HR). apply filter_imp. intros s Hs. symmetry. apply out_cart. lra.
Qed.
Lemma d_unique (f : R -> R) t a b : is_derive f t a -> is_derive f t b -> a = b.
Proof. intros A B. rewrite <- (is_derive_unique f t a A). apply is_derive_unique. exact B. Qed.
Lemma cs1 x : cos x * cos x + sin x * sin x = 1.
Proof. pose proof (sin2_cos2 x) as P. unfold Rsqr in P. lra. Qed.
(** From the velocity in Cartesian coordinates to the rates of R and phi. *)
Lemma polar_rates (Rf pf : R -> R) (t r p vR vT : R) : 0 < Rf t -> is_derive Rf t r -> is_derive pf t p ->
  is_derive (fun s => Rf s * cos (pf s)) t (vR * cos (pf t) - vT * sin (pf t)) ->
  is_derive (fun s => Rf s * sin (pf s)) t (vR * sin (pf t) + vT * cos (pf t)) -> r = vR /\ p = vT / Rf t.
Proof.
  intros HR Dr Dp X Y.
  pose proof (d_unique _ t _ _ X (is_derive_Rmult Rf (fun s => cos (pf s)) t _ _ Dr (d_cos pf t p Dp))) as E1.
  pose proof (d_unique _ t _ _ Y (is_derive_Rmult Rf (fun s => sin (pf s)) t _ _ Dr (d_sin pf t p Dp))) as E2. cbn beta in *.
  pose proof (cs1 (pf t)) as P. set (c := cos (pf t)) in *. set (s := sin (pf t)) in *. clearbody c s.
  set (R0 := Rf t) in *.
  assert (A : r = vR).
  { transitivity ((r * c + R0 * (- s * p)) * c + (r * s + R0 * (c * p)) * s); [|rewrite <- E1, <- E2].
    - transitivity (r * (c * c + s * s)); [rewrite P; ring|ring].
    - transitivity (vR * (c * c + s * s)); [ring|rewrite P; ring]. }
  split; [exact A|]. apply (Rmult_eq_reg_l R0); [|lra]. transitivity vT; [|field; lra].
  transitivity ((r * s + R0 * (c * p)) * c - (r * c + R0 * (- s * p)) * s); [|rewrite <- E1, <- E2].
  - transitivity (R0 * p * (c * c + s * s)); [rewrite P; ring|ring].
  - transitivity (vT * (c * c + s * s)); [ring|rewrite P; ring].
Qed.
(** From the acceleration in Cartesian coordinates to the rates of vR and vT. *)
Lemma polar_acc (f g p : R -> R) (t w fR fT : R) : is_derive p t w ->
  is_derive (fun s => f s * cos (p s) - g s * sin (p s)) t (cos (p t) * fR - sin (p t) * fT) ->
  is_derive (fun s => f s * sin (p s) + g s * cos (p s)) t (sin (p t) * fR + cos (p t) * fT) ->
  is_derive f t (fR + w * g t) /\ is_derive g t (fT - w * f t).
Proof.
  intros Dp X Y. pose proof (d_cos p t w Dp) as Dc. pose proof (d_sin p t w Dp) as Ds.
  pose proof (cs1 (p t)) as P.
  split.
  - apply (is_derive_ext (fun s => (f s * cos (p s) - g s * sin (p s)) * cos (p s) + (f s * sin (p s) + g s * cos (p s)) * sin (p s))).
    { intros s. rr. pose proof (cs1 (p s)) as Q. replace ((f s * cos (p s) - g s * sin (p s)) * cos (p s) + (f s * sin (p s) + g s * cos (p s)) * sin (p s)) with (f s * (cos (p s) * cos (p s) + sin (p s) * sin (p s))) by ring. rewrite Q. ring. }
    eapply is_derive_eq. apply is_derive_Rplus; apply is_derive_Rmult; eassumption. rr. cbn beta.
    set (c := cos (p t)) in *. set (s := sin (p t)) in *. clearbody c s.
    transitivity ((fR + w * g t) * (c * c + s * s)); [ring|rewrite P; ring].
  - apply (is_derive_ext (fun s => (f s * sin (p s) + g s * cos (p s)) * cos (p s) - (f s * cos (p s) - g s * sin (p s)) * sin (p s))).
    { intros s. rr. pose proof (cs1 (p s)) as Q. replace ((f s * sin (p s) + g s * cos (p s)) * cos (p s) - (f s * cos (p s) - g s * sin (p s)) * sin (p s)) with (g s * (cos (p s) * cos (p s) + sin (p s) * sin (p s))) by ring. rewrite Q. ring. }
    eapply is_derive_eq. apply d_minus; apply is_derive_Rmult; eassumption. rr. cbn beta.
    set (c := cos (p t)) in *. set (s := sin (p t)) in *. clearbody c s.
    transitivity ((fT - w * f t) * (c * c + s * s)); [ring|rewrite P; ring].
Qed.
Lemma d_quot (f g : R -> R) (t a b : R) : g t <> 0 -> is_derive f t a -> is_derive g t b -> is_derive (fun s => f s / g s) t ((a * g t - b * f t) / g t ^ 2).
Proof. intros H A B. eapply is_derive_eq; [exact (is_derive_div f g t a b A B H)|]. rr. unfold Rdiv. cbn. field. exact H. Qed.
Lemma polar_pos R p : 0 < R -> 0 < (R * cos p) ^ 2 + (R * sin p) ^ 2.
Proof. intros H. replace ((R * cos p) ^ 2 + (R * sin p) ^ 2) with (R ^ 2 * (cos p * cos p + sin p * sin p)) by ring. rewrite cs1. nra. Qed.
Lemma newton_eom l (y : R -> cyl) t : List.Forall azimuthal l -> 0 < y_R (y t) -> ex_derive (fun s => y_R (y s)) t -> ex_derive (fun s => y_phi (y s)) t ->
  newton l (fun s => cart_of (y s)) t -> solves_eom (py_eom l) (fun s => eom_init (y s)) t.
Proof.
  intros Az HR [r Dr] [p Dp] (X & Y & Z & a & Ha & DX & DY & DZ). unfold cart_of in X, Y, Z, DX, DY, DZ. cbn [k_x k_y k_z k_vx k_vy k_vz] in *.
  destruct (polar_rates _ _ t r p _ _ HR Dr Dp X Y) as [-> ->].
  pose proof (acc_at l t (y_R (y t)) (y_vR (y t)) (y_vT (y t)) (y_z (y t)) (y_vz (y t)) (y_phi (y t)) Az HR) as Hb.
  replace (mkCyl (y_R (y t)) (y_vR (y t)) (y_vT (y t)) (y_z (y t)) (y_vz (y t)) (y_phi (y t))) with (y t) in Hb by (destruct (y t); reflexivity).
  assert (E : a = acc_cyl l t (y_R (y t)) (y_vR (y t)) (y_vT (y t)) (y_z (y t)) (y_vz (y t)) (y_phi (y t))).
  { refine (acc_unique l t _ a _ _ Ha Hb). cbn [k_x k_y cart_of]. apply polar_pos. exact HR. }
  rewrite E in DX, DY, DZ. unfold acc_cyl in DX, DY, DZ. cbn [fst snd] in DX, DY, DZ.
  destruct (polar_acc _ _ _ t _ _ _ Dp DX DY) as [DvR DvT]. clear Ha Hb E DX DY X Y.
  unfold solves_eom, py_eom, eom_init. cbn [e_R e_vR e_phi e_w e_z e_vz].
  assert (EvT : y_R (y t) * (y_vT (y t) / y_R (y t)) = y_vT (y t)) by (field; lra).
  rewrite EvT.
  split; [exact Dr|]. split.
  { eapply is_derive_eq; [exact DvR|]. rr. field. lra. }
  split; [exact Dp|]. split.
  { eapply is_derive_eq; [exact (d_quot (fun s => y_vT (y s)) (fun s => y_R (y s)) t _ _ (Rgt_not_eq _ _ HR) DvT Dr)|]. rr. cbn beta. field. lra. }
  split; [exact Z|exact DZ].
Qed.

(** ** Orbits without azimuth *)
Lemma axisymmetric_az l : List.Forall axisymmetric l -> List.Forall azimuthal l.
Proof.
  apply Forall_impl. intros [fR fz fp|fR fz fp]; cbn; [|tauto]. intros (A & B & C). repeat split; intros R z phi t; [apply A|apply B|]. rewrite !C. reflexivity.
Qed.
Lemma axisymmetric_force s l vR vT vz R z phi t : List.Forall axisymmetric l -> py_force s l vR vT vz R z phi t = py_force s l 0 0 0 R z 0 t.
Proof.
  intros H. rewrite !py_force_sum. apply add_up_ext. revert H. apply Forall_impl. intros [fR fz fp|fR fz fp]; cbn; [|tauto].
  intros (A & B & C). destruct s; cbn; [apply A|apply B|]. rewrite !C. reflexivity.
Qed.
Lemma axisymmetric_torque l vR vT vz R z phi t : List.Forall axisymmetric l -> py_force PP l vR vT vz R z phi t = 0.
Proof.
  intros H. rewrite py_force_sum. unfold add_up. induction H as [|c l Hc _ IH]; [reflexivity|]. cbn [map fold_right]. rewrite IH.
  destruct c as [fR fz fp|]; [|destruct Hc]. cbn. destruct Hc as (_ & _ & C). rewrite C. ring.
Qed.
Definition rz_full (L : RR) (y : rzeom) (phi : RR) : eom := mkE (r_R y) (r_vR y) phi (L / r_R y ^ 2) (r_z y) (r_vz y).
Lemma rz_eom l (L : R) (Y : R -> rzeom) (phi : R -> R) t : List.Forall axisymmetric l -> 0 < r_R (Y t) ->
  is_derive phi t (L / r_R (Y t) ^ 2) -> solves_rz (py_rzeom l (L ^ 2)) Y t -> solves_eom (py_eom l) (fun s => rz_full L (Y s) (phi s)) t.
Proof.
  intros Ax HR Dp (DR & DvR & Dz & Dvz). unfold py_rzeom in *. cbn [r_R r_vR r_z r_vz] in *.
  unfold solves_eom, py_eom, rz_full. cbn [e_R e_vR e_phi e_w e_z e_vz].
  rewrite axisymmetric_torque, !(axisymmetric_force PR), !(axisymmetric_force PZ) by exact Ax.
  split; [exact DR|]. split. { eapply is_derive_eq; [exact DvR|]. rr. field. lra. }
  split; [exact Dp|]. split; [|split; [exact Dz|exact Dvz]].
  generalize (r_vR (Y t)) DR. intros v D.
  pose proof (is_derive_Rmult (fun s => r_R (Y s)) (fun s => r_R (Y s)) t _ _ D D) as D2. cbn beta in D2.
  assert (H2 : r_R (Y t) * r_R (Y t) <> 0) by nra.
  pose proof (d_quot (fun _ => L) (fun s => r_R (Y s) * r_R (Y s)) t _ _ H2 (is_derive_cst L t) D2) as Q. cbn beta in Q.
  apply (is_derive_ext (fun s => L / (r_R (Y s) * r_R (Y s)))). { intros s. rr. f_equal. ring. }
  eapply is_derive_eq; [exact Q|]. rr. unfold zero. cbn. field. lra.
Qed.
Lemma rz_rows l (L : R) (Y : R -> rzeom) (phi : R -> R) t : List.Forall axisymmetric l -> 0 < r_R (Y t) ->
  is_derive phi t (L / r_R (Y t) ^ 2) -> solves_rz (py_rzeom l (L ^ 2)) Y t -> newton l (fun s => cart_of (with_phi (rz_out L (Y s)) (phi s))) t.
Proof.
  intros Ax HR Dp S. pose proof (rz_eom l L Y phi t Ax HR Dp S) as E. pose proof (eom_newton l (fun s => rz_full L (Y s) (phi s)) t (axisymmetric_az l Ax) HR E) as N.
  refine (newton_loc l _ _ t _ N). destruct S as (DR & _). generalize (d_locally_pos _ t _ DR HR). apply filter_imp. intros s Hs.
  unfold cart_eom, rz_full, cart_of, with_phi, rz_out. cbn. destruct (Rlt_dec (r_R (Y s)) 0); [lra|]. f_equal; field; lra.
Qed.

(** ** Rectangular coordinates *)
Lemma c_rect_deriv_acc l q t : List.Forall azimuthal l -> 0 < q_x q ^ 2 + q_y q ^ 2 ->
  c_rect_deriv l q t = let a := py_rect_force l (q_x q) (q_y q) (q_z q) t (q_vx q) (q_vy q) (q_vz q) in
                       mkRect (q_vx q) (q_vy q) (q_vz q) (fst (fst a)) (snd (fst a)) (snd a).
Proof.
  intros Az H. unfold c_rect_deriv, py_rect_force, c_force_macro4. cbv zeta. cbn [fst snd]. rewrite !c_force_one by discriminate.
  replace (q_x q * q_x q + q_y q * q_y q) with (q_x q ^ 2 + q_y q ^ 2) by ring. reflexivity.
Qed.
Lemma c_rect_newton l (Y : R -> rect) t : List.Forall azimuthal l -> 0 < q_x (Y t) ^ 2 + q_y (Y t) ^ 2 ->
  solves_rect (c_rect_deriv l) Y t <-> newton l (fun s => cart_rect (Y s)) t.
Proof.
  intros Az H. unfold solves_rect. rewrite c_rect_deriv_acc by auto. cbv zeta. cbn [q_x q_y q_z q_vx q_vy q_vz].
  pose proof (py_rect_acc l _ _ (q_z (Y t)) t (q_vx (Y t)) (q_vy (Y t)) (q_vz (Y t)) Az H) as Ha.
  unfold newton, cart_rect. cbn [k_x k_y k_z k_vx k_vy k_vz]. split.
  - intros (A & B & C & D & E & F). split; [exact A|]. split; [exact B|]. split; [exact C|]. eexists. split; [exact Ha|]. auto.
  - intros (A & B & C & a & Hb & D & E & F). rewrite (acc_unique l t (mkCart _ _ _ _ _ _) _ _ H Ha Hb). auto 10.
Qed.
Lemma c_rect_force_acc l x y z t vx vy vz : List.Forall azimuthal l -> List.Forall conservative l -> 0 < x ^ 2 + y ^ 2 ->
  acceleration l t (mkCart x y z vx vy vz) (c_rect_force l x y z t).
Proof.
  intros Az Co H. pose proof (py_rect_acc l x y z t vx vy vz Az H) as Ha.
  replace (c_rect_force l x y z t) with (py_rect_force l x y z t vx vy vz); [exact Ha|].
  unfold c_rect_force, py_rect_force, c_force_macro4. cbv zeta. replace (x * x + y * y) with (x ^ 2 + y ^ 2) by ring.
  set (R := sqrt (x ^ 2 + y ^ 2)). rewrite !(fun s a b => c_force_static s l 1%Z 0 0 0 R z a b (vx * (x / R) + vy * (y / R)) (- vx * (y / R) + vy * (x / R)) vz Co).
  reflexivity.
Qed.
Lemma py_rect_force_conservative l x y z t : List.Forall conservative l -> c_rect_force l x y z t = py_rect_force l x y z t 0 0 0.
Proof.
  intros Co. unfold c_rect_force, py_rect_force, c_force_macro4. cbv zeta. replace (x * x + y * y) with (x ^ 2 + y ^ 2) by ring.
  set (R := sqrt (x ^ 2 + y ^ 2)). rewrite !(fun s a b => c_force_static s l 1%Z 0 0 0 R z a b (0 * (x / R) + 0 * (y / R)) (- 0 * (y / R) + 0 * (x / R)) 0 Co).
  reflexivity.
Qed.
(** Conversions of rows. *)
Lemma rect_init_cart w : cart_rect (rect_init w) = cart_of w.
Proof. unfold cart_rect, rect_init, cart_of. cbn. f_equal; ring. Qed.
Lemma unrotate c s x y : c * c + s * s = 1 -> (x * c + y * s) * c - (y * c - x * s) * s = x /\ (x * c + y * s) * s + (y * c - x * s) * c = y.
Proof. intros H. split; [transitivity (x * (c * c + s * s))|transitivity (y * (c * c + s * s))]; try ring; rewrite H; ring. Qed.
Lemma cart_ext a b : k_x a = k_x b -> k_y a = k_y b -> k_z a = k_z b -> k_vx a = k_vx b -> k_vy a = k_vy b -> k_vz a = k_vz b -> a = b.
Proof. destruct a, b. cbn. intros. subst. reflexivity. Qed.
Lemma leap_out_cart q : 0 < q_x q ^ 2 + q_y q ^ 2 -> cart_of (leap_out q) = cart_rect q /\ 0 < y_R (leap_out q).
Proof.
  intros H. destruct (rect_polar _ _ H) as (P & C & S). unfold leap_out. cbv zeta. rewrite rect_phi_py.
  set (p := rect_phi (q_x q) (q_y q)) in *. set (R := sqrt (q_x q ^ 2 + q_y q ^ 2)) in *. split; [|exact P].
  destruct (unrotate (cos p) (sin p) (q_vx q) (q_vy q) (cs1 p)) as [U V].
  apply cart_ext; cbn; auto; [rewrite C|rewrite S]; field; lra.
Qed.
Lemma rect_to_cyl_cart q : 0 < q_x q ^ 2 + q_y q ^ 2 -> cart_of (rect_to_cyl q) = cart_rect q /\ 0 < y_R (rect_to_cyl q).
Proof.
  intros H. pose proof (atan2_cos (q_x q) (q_y q)) as C. pose proof (atan2_sin (q_x q) (q_y q)) as S.
  unfold rect_to_cyl. replace (q_x q * q_x q + q_y q * q_y q) with (q_x q ^ 2 + q_y q ^ 2) by ring.
  pose proof (sqrt_lt_R0 _ H) as P. split; [|exact P].
  set (p := atan2 (q_y q) (q_x q)) in *. set (R := sqrt (q_x q ^ 2 + q_y q ^ 2)) in *.
  destruct (unrotate (cos p) (sin p) (q_vx q) (q_vy q) (cs1 p)) as [U V].
  apply cart_ext; cbn; auto; [rewrite <- U at 3|rewrite <- V at 3]; ring.
Qed.

(** ** The plane, as three dimensions without vertical force *)
Definition lift2 (c : comp2) : comp3 :=
  match c with
  | Static2 fR fp => Static3 (fun R _ phi t => fR R phi t) (fun _ _ _ _ => 0) (fun R _ phi t => fp R phi t)
  | Veloc2 fR fp => Veloc3 (fun vR vT _ R _ phi t => fR vR vT R phi t) (fun _ _ _ _ _ _ _ => 0) (fun vR vT _ R _ phi t => fp vR vT R phi t)
  end.
Definition up_cart (k : cart2) : cart := mkCart (k2_x k) (k2_y k) 0 (k2_vx k) (k2_vy k) 0.
Lemma lift2_R l vR vT vz R z phi t : add_up (fun c => comp_R c vR vT vz R z phi t) (map lift2 l) = add_up (fun c => comp2_R c vR vT R phi t) l.
Proof. unfold add_up. rewrite map_map. f_equal. apply map_ext. intros [|]; reflexivity. Qed.
Lemma lift2_p l vR vT vz R z phi t : add_up (fun c => comp_p c vR vT vz R z phi t) (map lift2 l) = add_up (fun c => comp2_p c vR vT R phi t) l.
Proof. unfold add_up. rewrite map_map. f_equal. apply map_ext. intros [|]; reflexivity. Qed.
Lemma lift2_z l vR vT vz R z phi t : add_up (fun c => comp_z c vR vT vz R z phi t) (map lift2 l) = 0.
Proof. unfold add_up. rewrite map_map. induction l as [|[|] l IH]; cbn; [reflexivity| |]; cbn in IH; rewrite IH; ring. Qed.
Lemma lift2_azimuthal l : List.Forall azimuthal2 l -> List.Forall azimuthal (map lift2 l).
Proof.
  induction 1 as [|c l H _ IH]; cbn; constructor; auto. destruct c as [fR fp|fR fp]; cbn in *.
  - destruct H as [A B]. split; [|split]; intros R z phi t; [apply A|reflexivity|apply B].
  - intros vR vT vz. destruct (H vR vT) as [A B]. split; [|split]; intros R z phi t; [apply A|reflexivity|apply B].
Qed.
Lemma acceleration_up l t k a : acceleration2 l t k a -> acceleration (map lift2 l) t (up_cart k) (fst a, snd a, 0).
Proof.
  intros H R phi HR Ex Ey. cbn [up_cart k_x k_y k_z k_vx k_vy k_vz] in *. specialize (H R phi HR Ex Ey). cbv zeta in *. subst a.
  rewrite lift2_R, lift2_p, lift2_z. reflexivity.
Qed.
Lemma acceleration_down l t k a : acceleration (map lift2 l) t (up_cart k) a -> acceleration2 l t k (fst (fst a), snd (fst a)).
Proof.
  intros H R phi HR Ex Ey. specialize (H R phi HR Ex Ey). cbn [up_cart k_x k_y k_z k_vx k_vy k_vz] in *. cbv zeta in *. subst a.
  rewrite lift2_R, lift2_p. reflexivity.
Qed.
Lemma newton_up l w t : newton2 l w t -> newton (map lift2 l) (fun s => up_cart (w s)) t.
Proof.
  intros (A & B & a & Ha & C & D). split; [exact A|]. split; [exact B|]. split; [exact (is_derive_cst 0 t)|].
  exists (fst a, snd a, 0). split; [exact (acceleration_up l t _ a Ha)|]. split; [exact C|]. split; [exact D|exact (is_derive_cst 0 t)].
Qed.
Lemma newton_down l w t : newton (map lift2 l) (fun s => up_cart (w s)) t -> newton2 l w t.
Proof.
  intros (A & B & _ & a & Ha & C & D & _). split; [exact A|]. split; [exact B|]. exists (fst (fst a), snd (fst a)).
  split; [exact (acceleration_down l t _ a Ha)|]. split; [exact C|exact D].
Qed.
Lemma lift2_force_R l vR vT vz R z phi t : py_force PR (map lift2 l) vR vT vz R z phi t = force2 QR l vR vT R phi t.
Proof. rewrite py_force_sum, force2_sum. apply lift2_R. Qed.
Lemma lift2_force_p l vR vT vz R z phi t : py_force PP (map lift2 l) vR vT vz R z phi t = force2 QP l vR vT R phi t.
Proof. rewrite py_force_sum, force2_sum. apply lift2_p. Qed.
Lemma lift2_force_z l vR vT vz R z phi t : py_force PZ (map lift2 l) vR vT vz R z phi t = 0.
Proof. rewrite py_force_sum. apply lift2_z. Qed.
Definition up_eom (y : peom) : eom := mkE (f_R y) (f_vR y) (f_phi y) (f_w y) 0 0.
Definition up_cyl (w : pol) : cyl := mkCyl (o_R w) (o_vR w) (o_vT w) 0 0 (o_phi w).
Lemma solves_up l Y t : solves_peom (py_peom l) Y t -> solves_eom (py_eom (map lift2 l)) (fun s => up_eom (Y s)) t.
Proof.
  intros (A & B & C & D). unfold solves_eom, py_eom, up_eom. cbn [e_R e_vR e_phi e_w e_z e_vz]. rewrite lift2_force_R, lift2_force_p, lift2_force_z.
  split; [exact A|]. split; [exact B|]. split; [exact C|]. split; [exact D|]. split; exact (is_derive_cst 0 t).
Qed.
Lemma solves_down l Y t : solves_eom (py_eom (map lift2 l)) (fun s => up_eom (Y s)) t -> solves_peom (py_peom l) Y t.
Proof.
  unfold solves_eom, py_eom, up_eom. cbn [e_R e_vR e_phi e_w e_z e_vz]. rewrite lift2_force_R, lift2_force_p, lift2_force_z.
  intros (A & B & C & D & _). split; [exact A|]. split; [exact B|]. split; [exact C|exact D].
Qed.
Lemma up_cart_of w : up_cart (cart2_of w) = cart_of (up_cyl w).
Proof. reflexivity. Qed.
Lemma up_cart_eom y : up_cart (cart_peom y) = cart_eom (up_eom y).
Proof. reflexivity. Qed.
Lemma peom_newton l Y t : List.Forall azimuthal2 l -> 0 < f_R (Y t) -> solves_peom (py_peom l) Y t -> newton2 l (fun s => cart_peom (Y s)) t.
Proof. intros Az HR S. apply newton_down. exact (eom_newton _ (fun s => up_eom (Y s)) t (lift2_azimuthal l Az) HR (solves_up l Y t S)). Qed.
Lemma pout_cart y : 0 <= f_R y -> cart2_of (peom_out y) = cart_peom y.
Proof. intros H. unfold peom_out. destruct (Rlt_dec (f_R y) 0); [lra|]. reflexivity. Qed.
Lemma peom_rows l Y t : List.Forall azimuthal2 l -> 0 < f_R (Y t) -> solves_peom (py_peom l) Y t -> newton2 l (fun s => cart2_of (peom_out (Y s))) t.
Proof.
  intros Az HR S. apply (newton2_loc l (fun s => cart_peom (Y s))); [|exact (peom_newton l Y t Az HR S)].
  destruct S as (DR & _). generalize (d_locally_pos _ t _ DR HR). apply filter_imp. intros s Hs. symmetry. apply pout_cart. lra.
Qed.
Lemma newton_peom l (y : R -> pol) t : List.Forall azimuthal2 l -> 0 < o_R (y t) -> ex_derive (fun s => o_R (y s)) t -> ex_derive (fun s => o_phi (y s)) t ->
  newton2 l (fun s => cart2_of (y s)) t -> solves_peom (py_peom l) (fun s => peom_init (y s)) t.
Proof.
  intros Az HR D1 D2 N. apply solves_down.
  exact (newton_eom (map lift2 l) (fun s => up_cyl (y s)) t (lift2_azimuthal l Az) HR D1 D2 (newton_up l _ t N)).
Qed.
Lemma peom_out_init w : 0 < o_R w -> peom_out (peom_init w) = w.
Proof. intros H. unfold peom_out, peom_init. destruct w as [R vR vT phi]. cbn in *. destruct (Rlt_dec R 0); [lra|]. f_equal; field; lra. Qed.
Lemma preom_rows l (L : R) (Y : R -> preom) (phi : R -> R) t : List.Forall axisymmetric2 l -> 0 < g_R (Y t) ->
  is_derive phi t (L / g_R (Y t) ^ 2) -> solves_preom (py_preom l (L ^ 2)) Y t ->
  newton2 l (fun s => cart2_of (mkPol (g_R (Y s)) (g_vR (Y s)) (L / g_R (Y s)) (phi s))) t.
Proof.
  intros Ax HR Dp S. apply newton_down.
  assert (Ax3 : List.Forall axisymmetric (map lift2 l)).
  { clear - Ax. induction Ax as [|c l H _ IH]; cbn; constructor; auto. destruct c as [fR fp|]; cbn in *; [|tauto]. destruct H as [A B].
    split; [intros R z phi phi' t; apply A|]. split; [intros R z phi phi' t; reflexivity|intros; apply B]. }
  assert (S3 : solves_rz (py_rzeom (map lift2 l) (L ^ 2)) (fun s => mkRZ (g_R (Y s)) (g_vR (Y s)) 0 0) t).
  { destruct S as [A B]. unfold solves_rz, py_rzeom. cbn [r_R r_vR r_z r_vz]. rewrite lift2_force_R, lift2_force_z.
    split; [exact A|]. split; [exact B|]. split; exact (is_derive_cst 0 t). }
  pose proof (rz_rows (map lift2 l) L (fun s => mkRZ (g_R (Y s)) (g_vR (Y s)) 0 0) phi t Ax3 HR Dp S3) as N.
  refine (newton_loc _ _ _ t _ N). destruct S as [A _]. generalize (d_locally_pos _ t _ A HR). apply filter_imp. intros s Hs.
  unfold rz_out. cbn. destruct (Rlt_dec (g_R (Y s)) 0); [lra|]. reflexivity.
Qed.
Lemma c_prect_newton l (Y : R -> rect2) t : List.Forall azimuthal2 l -> 0 < q2_x (Y t) ^ 2 + q2_y (Y t) ^ 2 ->
  solves_rect2 (c_prect_deriv l) Y t <-> newton2 l (fun s => cart2_rect (Y s)) t.
Proof.
  intros Az H. unfold solves_rect2.
  assert (E : c_prect_deriv l (Y t) t = let a := py_prect_force l (q2_x (Y t)) (q2_y (Y t)) t (q2_vx (Y t)) (q2_vy (Y t)) in mkRect2 (q2_vx (Y t)) (q2_vy (Y t)) (fst a) (snd a)).
  { unfold c_prect_deriv, py_prect_force. cbv zeta. cbn [fst snd].
    replace (q2_x (Y t) * q2_x (Y t) + q2_y (Y t) * q2_y (Y t)) with (q2_x (Y t) ^ 2 + q2_y (Y t) ^ 2) by ring. reflexivity. }
  rewrite E. cbv zeta. cbn [q2_x q2_y q2_vx q2_vy].
  pose proof (py_prect_acc l _ _ t (q2_vx (Y t)) (q2_vy (Y t)) Az H) as Ha.
  unfold newton2, cart2_rect. cbn [k2_x k2_y k2_vx k2_vy]. split.
  - intros (A & B & D & F). split; [exact A|]. split; [exact B|]. eexists. split; [exact Ha|]. auto.
  - intros (A & B & a & Hb & D & F).
    assert (U : py_prect_force l (q2_x (Y t)) (q2_y (Y t)) t (q2_vx (Y t)) (q2_vy (Y t)) = a).
    { pose proof (acc_unique (map lift2 l) t (up_cart (mkCart2 (q2_x (Y t)) (q2_y (Y t)) (q2_vx (Y t)) (q2_vy (Y t)))) _ _ H (acceleration_up _ _ _ _ Ha) (acceleration_up _ _ _ _ Hb)) as U.
      destruct a, (py_prect_force l (q2_x (Y t)) (q2_y (Y t)) t (q2_vx (Y t)) (q2_vy (Y t))). cbn in U. injection U. intros -> ->. reflexivity. }
    rewrite U. auto 10.
Qed.
Lemma rect2_init_cart w : cart2_rect (rect2_init w) = cart2_of w.
Proof. unfold cart2_rect, rect2_init, cart2_of. cbn. f_equal; ring. Qed.
Lemma leap2_out_cart q : 0 < q2_x q ^ 2 + q2_y q ^ 2 -> cart2_of (leap2_out q) = cart2_rect q /\ 0 < o_R (leap2_out q).
Proof.
  intros H. destruct (leap_out_cart (mkRect (q2_x q) (q2_y q) 0 (q2_vx q) (q2_vy q) 0) H) as [E P]. split; [|exact P].
  pose proof (f_equal k_x E) as E1. pose proof (f_equal k_y E) as E2. pose proof (f_equal k_vx E) as E3. pose proof (f_equal k_vy E) as E4.
  unfold cart2_of, cart2_rect. f_equal; assumption.
Qed.
Lemma rect_to_polar_cart q : 0 < q2_x q ^ 2 + q2_y q ^ 2 -> cart2_of (rect_to_polar q) = cart2_rect q /\ 0 < o_R (rect_to_polar q).
Proof.
  intros H. destruct (rect_to_cyl_cart (mkRect (q2_x q) (q2_y q) 0 (q2_vx q) (q2_vy q) 0) H) as [E P]. split; [|exact P].
  pose proof (f_equal k_x E) as E1. pose proof (f_equal k_y E) as E2. pose proof (f_equal k_vx E) as E3. pose proof (f_equal k_vy E) as E4.
  unfold cart2_of, cart2_rect. f_equal; assumption.
Qed.
