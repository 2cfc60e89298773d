(** Kepler's equation has a solution that depends smoothly on the mean anomaly. *)
From Coq Require Import Reals Lra Lia Psatz Ranalysis5.
From Coquelicot Require Import Coquelicot.
From Verif.Lib Require Import RealAux.
From Verif.Spec Require Import ActionAngleSpec.
From Verif.Proofs Require Import IsochroneProofs.
Open Scope R_scope.
Notation RR := RbaseSymbolsImpl.R (only parsing).

Lemma kepler_root k m : 0 <= k < 1 -> {x : RR | m - 1 <= x <= m + 1 /\ x - k * sin x - m = 0}.
Proof.
  intros H. apply (IVT_cor (fun x => x - k * sin x - m)).
  - intros x. apply derivable_continuous_pt. eexists. apply is_derive_Reals. auto_derive; [exact I|reflexivity].
  - lra.
  - pose proof (SIN_bound (m - 1)) as A. pose proof (SIN_bound (m + 1)) as B.
    assert (m - 1 - k * sin (m - 1) - m <= 0) by nra. assert (0 <= m + 1 - k * sin (m + 1) - m) by nra. nra.
Qed.
Definition kepler_sol (k m : RR) : RR :=
  match Rle_dec 0 k, Rlt_dec k 1 with
  | left A, left B => proj1_sig (kepler_root k m (conj A B))
  | _, _ => 0
  end.
Lemma kepler_sol_ok : kepler_solver kepler_sol.
Proof.
  intros k m H. unfold kepler_sol. destruct (Rle_dec 0 k); [|lra]. destruct (Rlt_dec k 1); [|lra]. destruct (kepler_root k m (conj r r0)) as [x Ex]. cbn. destruct Ex as [_ Ex]. lra.
Qed.
Lemma kepler_sol_lip k a b : 0 <= k < 1 -> a <= b -> 0 <= (1 - k) * (kepler_sol k b - kepler_sol k a) <= b - a.
Proof.
  intros H L. pose proof (kepler_sol_ok k a H) as A. pose proof (kepler_sol_ok k b H) as B. set (x := kepler_sol k a) in *. set (y := kepler_sol k b) in *.
  assert (XY : x <= y). { destruct (Rle_dec x y) as [Q|Q]; [exact Q|]. exfalso. pose proof (kepler_increasing k y x H ltac:(lra)). lra. }
  split; [apply Rmult_le_pos; lra|]. destruct (MVT_gen (fun x => x - k * sin x) x y (fun x => 1 - k * cos x)) as (c & _ & E).
  - intros t _. auto_derive; [exact I|ring].
  - intros t _. apply continuity_pt_filterlim, (ex_derive_continuous (K := R_AbsRing) (V := R_NormedModule) (fun x => x - k * sin x) t). auto_derive. exact I.
  - cbv beta in E. pose proof (COS_bound c) as Bc. assert ((1 - k) * (y - x) <= (1 - k * cos c) * (y - x)) by (apply Rmult_le_compat_r; nra). lra.
Qed.
Lemma kepler_sol_cont k m : 0 <= k < 1 -> continuity_pt (kepler_sol k) m.
Proof.
  intros H eps Pe. exists (eps * (1 - k)). split; [apply Rmult_lt_0_compat; lra|]. intros y [_ D]. unfold dist in *. cbn in *. unfold R_dist in *.
  assert (Q : (1 - k) * Rabs (kepler_sol k y - kepler_sol k m) <= Rabs (y - m)).
  { destruct (Rle_dec m y) as [L|L].
    - pose proof (kepler_sol_lip k m y H L). rewrite !Rabs_pos_eq; [lra|lra|]. apply (Rmult_le_reg_l (1 - k)); lra.
    - pose proof (kepler_sol_lip k y m H ltac:(lra)). rewrite (Rabs_minus_sym y m), (Rabs_minus_sym (kepler_sol k y)), !Rabs_pos_eq; [lra|lra|]. apply (Rmult_le_reg_l (1 - k)); lra. }
  apply (Rmult_lt_reg_l (1 - k)); lra.
Qed.
Lemma kepler_sol_derive k m : 0 <= k < 1 -> is_derive (kepler_sol k) m (/ (1 - k * cos (kepler_sol k m))).
Proof.
  intros H. set (f := fun x => x - k * sin x). assert (Df : forall x, derivable_pt_lim f x (1 - k * cos x)) by (intros x; apply is_derive_Reals; unfold f; auto_derive; [exact I|ring]).
  assert (Pos : 0 < 1 - k * cos (kepler_sol k m)) by (pose proof (COS_bound (kepler_sol k m)); nra).
  assert (Inc : kepler_sol k (m - 1) <= kepler_sol k m <= kepler_sol k (m + 1)).
  { pose proof (kepler_sol_lip k (m - 1) m H ltac:(lra)). pose proof (kepler_sol_lip k m (m + 1) H ltac:(lra)). split; apply (Rmult_le_reg_l (1 - k)); lra. }
  pose proof (derivable_pt_lim_recip_interv f (kepler_sol k) (m - 1) (m + 1) m (fun x _ => exist _ _ (Df x)) (kepler_sol_cont k m H) ltac:(lra) ltac:(lra) Inc) as Q.
  apply is_derive_Reals. replace (/ (1 - k * cos (kepler_sol k m))) with (1 / derive_pt f (kepler_sol k m) (exist _ _ (Df (kepler_sol k m)))) by (cbn; field; lra).
  apply Q.
  - intros x _. unfold comp, id, f. apply kepler_sol_ok, H.
  - cbn. lra.
Qed.

Ltac toR := match goal with |- ?a = ?b => change (@eq RbaseSymbolsImpl.R a b) end.
(** ** From Cartesian to cylindrical equations of motion *)
Lemma cartesian_motion GM b X Y z VX VY vz :
  (forall t, 0 < X t ^ 2 + Y t ^ 2) ->
  (forall t, is_derive X t (VX t)) -> (forall t, is_derive Y t (VY t)) -> (forall t, is_derive z t (vz t)) ->
  (forall t, is_derive VX t (- isochrone_pull GM b (sqrt (X t ^ 2 + Y t ^ 2)) (z t) * X t)) ->
  (forall t, is_derive VY t (- isochrone_pull GM b (sqrt (X t ^ 2 + Y t ^ 2)) (z t) * Y t)) ->
  (forall t, is_derive vz t (- isochrone_pull GM b (sqrt (X t ^ 2 + Y t ^ 2)) (z t) * z t)) ->
  let R := fun t => sqrt (X t ^ 2 + Y t ^ 2) in
  let vT := fun t => (X t * VY t - Y t * VX t) / R t in
  isochrone_motion GM b R (fun t => (X t * VX t + Y t * VY t) / R t) vT z vz (RInt (fun t => vT t / R t) 0).
Proof.
  intros Pos DX DY Dz DVX DVY Dvz R vT.
  assert (PR : forall t, 0 < R t) by (intros t; apply sqrt_lt_R0, Pos).
  assert (R2 : forall t, R t ^ 2 = X t ^ 2 + Y t ^ 2) by (intros t; apply sqrt_sq; pose proof (Pos t); lra).
  assert (DR : forall t, is_derive R t ((X t * VX t + Y t * VY t) / R t)).
  { intros t. unfold R at 1. pose proof (DX t) as D1. pose proof (DY t) as D2. assert (U1 : Derive (fun x => X x) t = VX t) by (apply is_derive_unique; exact D1). assert (U2 : Derive (fun x => Y x) t = VY t) by (apply is_derive_unique; exact D2).
    auto_derive; [repeat match goal with |- _ /\ _ => apply conj | |- True => exact I end; first [exact (ex_intro _ _ D1)|exact (ex_intro _ _ D2)|apply Pos]|]. rewrite U1, U2. fold (R t). pose proof (PR t). unfold R in *. field. lra. }
  set (P := fun t => isochrone_pull GM b (R t) (z t)) in *.
  assert (Dp : forall t, is_derive (fun t => X t * VX t + Y t * VY t) t (VX t ^ 2 + VY t ^ 2 - P t * R t ^ 2)).
  { intros t. rewrite R2. pose proof (DX t) as D1. pose proof (DY t) as D2. pose proof (DVX t) as D3. pose proof (DVY t) as D4.
    eapply is_derive_eq; [apply is_derive_Rplus; [apply (is_derive_Rmult X VX); eassumption|apply (is_derive_Rmult Y VY); eassumption]|]. cbv beta. fold (R t). change (isochrone_pull GM b (R t) (z t)) with (P t). toR. ring. }
  assert (Dl : forall t, is_derive (fun t => X t * VY t - Y t * VX t) t 0).
  { intros t. pose proof (DX t) as D1. pose proof (DY t) as D2. pose proof (DVX t) as D3. pose proof (DVY t) as D4.
    eapply is_derive_eq; [apply (is_derive_minus (K := R_AbsRing) (V := R_NormedModule)); [apply (is_derive_Rmult X VY); eassumption|apply (is_derive_Rmult Y VX); eassumption]|]. unfold minus, plus, opp; cbn. toR. ring. }
  assert (Dq : forall f df t, is_derive f t df -> is_derive (fun t => f t / R t) t ((df * R t - f t * ((X t * VX t + Y t * VY t) / R t)) / R t ^ 2)).
  { intros f df t Df. pose proof (DR t) as D2. pose proof (PR t) as Pt. assert (U1 : Derive (fun x => f x) t = df) by (apply is_derive_unique; exact Df). assert (U2 : Derive (fun x => R x) t = (X t * VX t + Y t * VY t) / R t) by (apply is_derive_unique; exact D2).
    clearbody R. auto_derive; [repeat match goal with |- _ /\ _ => apply conj | |- True => exact I end; first [exact (ex_intro _ _ Df)|exact (ex_intro _ _ D2)|lra]|]. rewrite U1, U2. field. lra. }
  assert (Cf : forall t, continuous (fun t => vT t / R t) t).
  { intros t. apply (ex_derive_continuous (K := R_AbsRing) (V := R_NormedModule)). eexists. apply Dq. unfold vT. apply Dq. apply Dl. }
  intros t. pose proof (PR t) as Pt. split; [exact Pt|]. split; [apply DR|]. split; [apply Dz|]. split; [|split; [|split]].
  - apply (is_derive_RInt (fun t => vT t / R t) (RInt (fun t => vT t / R t) 0) 0 t); [|apply Cf]. exists (mkposreal 1 Rlt_0_1). intros y _. apply (RInt_correct (V := R_CompleteNormedModule) (fun t => vT t / R t) 0 y). apply (ex_RInt_continuous (V := R_CompleteNormedModule) (fun t => vT t / R t)). intros; apply Cf.
  - eapply is_derive_eq; [apply (Dq _ _ t (Dp t))|]. toR. change (isochrone_pull GM b (R t) (z t)) with (P t). unfold vT.
    transitivity (((VX t ^ 2 + VY t ^ 2) * R t ^ 2 - (X t * VX t + Y t * VY t) ^ 2) / R t ^ 3 - P t * R t); [field; lra|]. rewrite R2 at 1. field. lra.
  - eapply is_derive_eq; [apply (Dq _ _ t (Dl t))|]. toR. unfold vT. field. lra.
  - apply Dvz.
Qed.

(** ** An inclined Kepler ellipse: semi-major axis 1, eccentricity 3/5, inclination arccos 3/5 *)
Definition xe (t : RR) : RR := kepler_sol (3 / 5) t.
Definition ex_X t := cos (xe t) - 3 / 5.
Definition ex_Y t := 12 / 25 * sin (xe t).
Definition ex_z t := 16 / 25 * sin (xe t).
Definition ex_h t := / (1 - 3 / 5 * cos (xe t)).
Definition ex_VX t := - sin (xe t) * ex_h t.
Definition ex_VY t := 12 / 25 * cos (xe t) * ex_h t.
Definition ex_vz t := 16 / 25 * cos (xe t) * ex_h t.
Definition ex_R t := sqrt (ex_X t ^ 2 + ex_Y t ^ 2).
Definition ex_vR t := (ex_X t * ex_VX t + ex_Y t * ex_VY t) / ex_R t.
Definition ex_vT t := (ex_X t * ex_VY t - ex_Y t * ex_VX t) / ex_R t.
Definition ex_phi := RInt (fun t => ex_vT t / ex_R t) 0.
Lemma ex_motion : isochrone_motion 1 0 ex_R ex_vR ex_vT ex_z ex_vz ex_phi.
Proof.
  assert (Dx : forall t, is_derive xe t (ex_h t)) by (intros t; apply kepler_sol_derive; lra).
  assert (Pd : forall t, 0 < 1 - 3 / 5 * cos (xe t)) by (intros t; pose proof (COS_bound (xe t)); lra).
  assert (T : forall t, sin (xe t) ^ 2 = 1 - cos (xe t) ^ 2) by (intros t; pose proof (sin2_cos2 (xe t)) as Q; rewrite !Rsqr_pow2 in Q; lra).
  assert (Pos : forall t, 0 < ex_X t ^ 2 + ex_Y t ^ 2).
  { intros t. unfold ex_X, ex_Y. rewrite Rpow_mult_distr, T. pose proof (COS_bound (xe t)). set (c := cos (xe t)) in *. nra. }
  assert (Pull : forall t, isochrone_pull 1 0 (sqrt (ex_X t ^ 2 + ex_Y t ^ 2)) (ex_z t) = ex_h t ^ 3).
  { intros t. unfold isochrone_pull. rewrite sqrt_sq by (pose proof (Pos t); lra). assert (S1 : sqrt (0 ^ 2 + (ex_X t ^ 2 + ex_Y t ^ 2) + ex_z t ^ 2) = 1 - 3 / 5 * cos (xe t)).
    { apply sqrt_of_sq; [pose proof (Pd t); lra|]. unfold ex_X, ex_Y, ex_z. rewrite !(Rpow_mult_distr _ (sin (xe t))), T. field. }
    rewrite S1. unfold ex_h. pose proof (Pd t). cbv zeta. field. lra. }
  assert (Dc : forall t, is_derive (fun t => cos (xe t)) t (- sin (xe t) * ex_h t)).
  { intros t. eapply is_derive_eq; [apply (is_derive_Rchain cos xe); [apply is_derive_cos|apply Dx]|toR; ring]. }
  assert (Ds : forall t, is_derive (fun t => sin (xe t)) t (cos (xe t) * ex_h t)).
  { intros t. eapply is_derive_eq; [apply (is_derive_Rchain sin xe); [apply is_derive_sin|apply Dx]|toR; ring]. }
  assert (Dh : forall t, is_derive ex_h t (- (3 / 5) * sin (xe t) * ex_h t ^ 3)).
  { intros t. assert (G : forall C dC, is_derive C t dC -> 0 < 1 - 3 / 5 * C t -> is_derive (fun t => / (1 - 3 / 5 * C t)) t (3 / 5 * dC / (1 - 3 / 5 * C t) ^ 2)).
    { intros C dC D P. assert (U : Derive (fun x => C x) t = dC) by (apply is_derive_unique; exact D). auto_derive; [split; [exact (ex_intro _ _ D)|split; [lra|exact I]]|]. rewrite U. field. lra. }
    eapply is_derive_eq; [apply (G _ _ (Dc t) (Pd t))|]. toR. unfold ex_h. pose proof (Pd t). field. lra. }
  apply (cartesian_motion 1 0 ex_X ex_Y ex_z ex_VX ex_VY ex_vz); [exact Pos|..]; intros t; try rewrite Pull; pose proof (Dc t) as D1; pose proof (Ds t) as D2; pose proof (Dh t) as D3; pose proof (Pd t) as P; assert (Hh : ex_h t * (1 - 3 / 5 * cos (xe t)) = 1) by (unfold ex_h; field; lra).
  - unfold ex_X. eapply is_derive_eq; [apply (is_derive_minus (K := R_AbsRing) (V := R_NormedModule)); [exact D1|apply is_derive_cst]|]. unfold minus, plus, opp, ex_VX; cbn. toR. ring.
  - unfold ex_Y. eapply is_derive_eq; [apply (is_derive_Rmult (fun _ => 12 / 25) (fun t => sin (xe t))); [apply is_derive_cst|exact D2]|]. unfold ex_VY. toR. ring.
  - unfold ex_z. eapply is_derive_eq; [apply (is_derive_Rmult (fun _ => 16 / 25) (fun t => sin (xe t))); [apply is_derive_cst|exact D2]|]. unfold ex_vz. toR. ring.
  - unfold ex_VX. eapply is_derive_eq; [apply (is_derive_Rmult (fun t => - sin (xe t)) ex_h); [apply (is_derive_opp (K := R_AbsRing) (V := R_NormedModule)); exact D2|exact D3]|]. unfold opp; cbn. toR. unfold ex_X. pose proof (T t) as Tt. set (h := ex_h t) in *. set (c := cos (xe t)) in *. set (s := sin (xe t)) in *.
    transitivity (h ^ 3 * (- c * (1 - 3 / 5 * c) + 3 / 5 * s ^ 2) + (- c * h ^ 2) * (1 - h * (1 - 3 / 5 * c))); [ring|]. rewrite Hh, Tt. ring.
  - unfold ex_VY. eapply is_derive_eq; [apply (is_derive_Rmult (fun t => 12 / 25 * cos (xe t)) ex_h); [apply (is_derive_Rmult (fun _ => 12 / 25) (fun t => cos (xe t))); [apply is_derive_cst|exact D1]|exact D3]|]. cbv beta. toR. unfold ex_Y. set (h := ex_h t) in *. set (c := cos (xe t)) in *. set (s := sin (xe t)) in *.
    transitivity (12 / 25 * s * (h ^ 3 * (- (1 - 3 / 5 * c) - 3 / 5 * c) - h ^ 2 * (1 - h * (1 - 3 / 5 * c)))); [field|]. rewrite Hh. field.
  - unfold ex_vz. eapply is_derive_eq; [apply (is_derive_Rmult (fun t => 16 / 25 * cos (xe t)) ex_h); [apply (is_derive_Rmult (fun _ => 16 / 25) (fun t => cos (xe t))); [apply is_derive_cst|exact D1]|exact D3]|]. cbv beta. toR. unfold ex_z. set (h := ex_h t) in *. set (c := cos (xe t)) in *. set (s := sin (xe t)) in *.
    transitivity (16 / 25 * s * (h ^ 3 * (- (1 - 3 / 5 * c) - 3 / 5 * c) - h ^ 2 * (1 - h * (1 - 3 / 5 * c)))); [field|]. rewrite Hh. field.
Qed.
(** it starts at pericentre *)
Lemma ex_start : ex_R 0 = 2 / 5 /\ ex_vR 0 = 0 /\ ex_vT 0 = 6 / 5 /\ ex_z 0 = 0 /\ ex_vz 0 = 8 / 5.
Proof.
  assert (X0 : xe 0 = 0). { apply (kepler_unique (3 / 5)); [lra|]. unfold xe. rewrite (kepler_sol_ok (3 / 5) 0) by lra. rewrite sin_0. ring. }
  assert (R0 : ex_R 0 = 2 / 5). { unfold ex_R, ex_X, ex_Y. rewrite X0, sin_0, cos_0. apply sqrt_of_sq; [lra|field]. }
  split; [exact R0|]. unfold ex_vR, ex_vT, ex_z, ex_vz. rewrite R0. unfold ex_VX, ex_VY, ex_X, ex_Y, ex_h. rewrite X0, sin_0, cos_0. repeat split; field.
Qed.
