From Coq Require Import Reals Lra Psatz.
From Coquelicot Require Import Coquelicot.
From Verif.Lib Require Import RealAux Atan2 Vec3.
From Verif.Model Require Import Coords CoordsVec CoordsSky CoordsSpheroid CoordsJac.
From Verif.Spec Require Import SkySpec CovSpec JacSpec.
From Verif.Proofs Require Import SkyProofs SkyProofs2 VecProofs SpheroidProofs JacProofs JacProofs2.
Open Scope R_scope.
Notation RR := RbaseSymbolsImpl.R (only parsing).

(** ** Motion on the sphere *)
Definition rotmap (M : M3) (a d : RR) : RR * RR :=
  let g := mulMV M (unit_vector a d) in (wrap2pi (atan2 (vy g) (vx g)), asin (vz g)).
Lemma dir_vel (a d : RR -> RR) (s a' d' : RR) : is_derive a s a' -> is_derive d s d' ->
  velocity3 (fun t => direction (a t) (d t)) s (proper_motion (a s) (d s) (cos (d s) * a') d').
Proof.
  intros Ha Hd. unfold direction, proper_motion, east, north. vunfold. cbn [vx vy vz]. vel; ring.
Qed.
Lemma vel_mulMV M q s v : velocity3 q s v -> velocity3 (fun t => mulMV M (q t)) s (mulMV M v).
Proof.
  intros (A & B & C). destruct M as [[a1 a2 a3] [b1 b2 b3] [c1 c2 c3]]. unfold mulMV, vdot. cbn [r0 r1 r2 vx vy vz].
  set (f := fun t => vx (q t)) in *. set (g := fun t => vy (q t)) in *. set (h := fun t => vz (q t)) in *.
  split; [|split]; cbn [vx vy vz].
  - apply (is_derive_ext (fun t => a1 * f t + a2 * g t + a3 * h t)); [reflexivity|]. auto_derive; [exder|]. derw. ring.
  - apply (is_derive_ext (fun t => b1 * f t + b2 * g t + b3 * h t)); [reflexivity|]. auto_derive; [exder|]. derw. ring.
  - apply (is_derive_ext (fun t => c1 * f t + c2 * g t + c3 * h t)); [reflexivity|]. auto_derive; [exder|]. derw. ring.
Qed.
Lemma sphere_rates q s v : (forall t, vnorm2 (q t) = 1) -> velocity3 q s v -> (vx (q s) < 0 \/ vy (q s) <> 0) ->
  let a t := wrap2pi (atan2 (vy (q t)) (vx (q t))) in let d t := asin (vz (q t)) in
  exists a' d' : RR, is_derive a s a' /\ is_derive d s d' /\ v = proper_motion (a s) (d s) (cos (d s) * a') d'.
Proof.
  intros U V HN a d. destruct V as (A & B & C).
  assert (Z : -1 < vz (q s) < 1).
  { specialize (U s). destruct (q s) as [x y z]. vunfold. destruct HN; split; nra. }
  pose proof (is_derive_wrap_atan2 (fun t => vx (q t)) (fun t => vy (q t)) s _ _ HN A B) as Da.
  pose proof (is_derive_asin_comp (fun t => vz (q t)) s _ Z C) as Dd. fold a in Da. fold d in Dd.
  eexists. eexists. split; [exact Da|]. split; [exact Dd|].
  eapply vel_uniq; [split; [exact A|split; [exact B|exact C]]|].
  eapply vel_ext; [|apply dir_vel; [exact Da|exact Dd]]. intros t. cbv beta. unfold a, d. apply direction_of_vector. auto.
Qed.
Lemma rotmap_rates M (a d : RR -> RR) (s a' d' : RR) : rotation M -> is_derive a s a' -> is_derive d s d' ->
  let p := rotmap M (a s) (d s) in fst p <> 0 -> cos (snd p) <> 0 ->
  exists p1 p2 : RR, is_derive (fun t => fst (rotmap M (a t) (d t))) s p1 /\ is_derive (fun t => snd (rotmap M (a t) (d t))) s p2 /\
    mulMV M (proper_motion (a s) (d s) (cos (d s) * a') d') = proper_motion (fst p) (snd p) (cos (snd p) * p1) p2.
Proof.
  intros HM Ha Hd p H0 Hc.
  pose proof (vel_mulMV M _ s _ (dir_vel a d s a' d' Ha Hd)) as V.
  assert (U : forall t, vnorm2 (mulMV M (direction (a t) (d t))) = 1) by (intros; rewrite rot_norm by auto; apply direction_norm).
  apply (sphere_rates _ s _ U) in V; [exact V|].
  unfold p, rotmap in H0, Hc. cbn [fst snd] in H0, Hc. change (unit_vector (a s) (d s)) with (direction (a s) (d s)) in *.
  specialize (U s). rewrite cos_asin_unit in Hc by auto. apply wrap_zero; auto.
  destruct (mulMV M (direction (a s) (d s))) as [x y z]. cbn [vx vy vz] in *.
  destruct (Req_dec x 0) as [->|]; auto. destruct (Req_dec y 0) as [->|]; auto. exfalso. apply Hc.
  replace (0 ^ 2 + 0 ^ 2) with 0 by ring. apply sqrt_0.
Qed.
Lemma rotmap_direction M a d : rotation M -> direction (fst (rotmap M a d)) (snd (rotmap M a d)) = mulMV M (direction a d) /\ 0 <= cos (snd (rotmap M a d)).
Proof.
  intros HM. unfold rotmap. cbn [fst snd]. change (unit_vector a d) with (direction a d).
  assert (U : vnorm2 (mulMV M (direction a d)) = 1) by (rewrite rot_norm by auto; apply direction_norm).
  split; [apply direction_of_vector; auto|]. rewrite cos_asin_unit by auto. apply sqrt_pos.
Qed.

(** ** The angle between the two frames *)
Lemma angle_rates (k g : RR -> RR) (s k' g' : RR) : is_derive k s k' -> is_derive g s g' -> 0 < k s ^ 2 + g s ^ 2 ->
  let n t := sqrt (k t ^ 2 + g t ^ 2) in
  let al := (k s * g' - g s * k') / (k s ^ 2 + g s ^ 2) in
  is_derive (fun t => k t / n t) s (- (g s / n s) * al) /\ is_derive (fun t => g t / n t) s (k s / n s * al).
Proof.
  intros Hk Hg P n al.
  assert (N : 0 < n s) by (apply sqrt_lt_R0; auto). assert (N2 : n s ^ 2 = k s ^ 2 + g s ^ 2) by (apply sq_sqrt; lra).
  assert (Dn : is_derive n s ((k s * k' + g s * g') / n s)).
  { unfold n. auto_derive. { exder. } derw. fold (n s). field. lra. }
  unfold al. rewrite <- N2. split.
  - auto_derive. { exder. lra. } derw. 
    transitivity ((k' * n s ^ 2 - k s * (k s * k' + g s * g')) / n s ^ 3); [field; lra|]. rewrite N2 at 1. field. lra.
  - auto_derive. { exder. lra. } derw.
    transitivity ((g' * n s ^ 2 - g s * (k s * k' + g s * g')) / n s ^ 3); [field; lra|]. rewrite N2 at 1. field. lra.
Qed.
Lemma pm_angle_rates dp rp (ra dec : RR -> RR) (s ra' dec' : RR) : is_derive ra s ra' -> is_derive dec s dec' -> dec s <> dp ->
  let '(c, sn, d1, d2) := pm_angle_jac dp rp (ra s) (dec s) in
  0 < (sin dp * cos (dec s) - cos dp * sin (dec s) * cos (ra s - rp)) ^ 2 + (sin (ra s - rp) * cos dp) ^ 2 ->
  pm_angle dp rp (ra s) (dec s) = (c, sn) /\
  is_derive (fun t => fst (pm_angle dp rp (ra t) (dec t))) s (- sn * (d1 * ra' + d2 * dec')) /\
  is_derive (fun t => snd (pm_angle dp rp (ra t) (dec t))) s (c * (d1 * ra' + d2 * dec')).
Proof.
  intros Hr Hd Hn. unfold pm_angle_jac. intros P.
  set (k := fun t => sin dp * cos (dec t) - cos dp * sin (dec t) * cos (ra t - rp)).
  set (g := fun t => sin (ra t - rp) * cos dp).
  assert (Dk : is_derive k s (cos dp * sin (dec s) * sin (ra s - rp) * ra' + (- sin dp * sin (dec s) - cos dp * cos (dec s) * cos (ra s - rp)) * dec')).
  { unfold k. auto_derive. { exder. } derw. unfold Rminus. ring. }
  assert (Dg : is_derive g s (cos dp * cos (ra s - rp) * ra')).
  { unfold g. auto_derive. { exder. } derw. unfold Rminus. ring. }
  change (0 < k s ^ 2 + g s ^ 2) in P.
  destruct (angle_rates k g s _ _ Dk Dg P) as [A B].
  assert (L : locally s (fun t => dec t <> dp)).
  { destruct (Rdichotomy _ _ Hn) as [G|G].
    - assert (Loc : locally s (fun u => dec u < dp)) by (apply (ex_derive_continuous dec s (ex_intro _ _ Hd) (fun v => v < dp)); apply locally_lt; auto).
      eapply filter_imp; [|exact Loc]. intros u Hu. cbv beta in Hu. lra.
    - assert (Loc : locally s (fun u => dp < dec u)) by (apply (ex_derive_continuous dec s (ex_intro _ _ Hd) (fun v => dp < v)); apply locally_gt; auto).
      eapply filter_imp; [|exact Loc]. intros u Hu. cbv beta in Hu. lra. }
  assert (N2 : k s * k s + g s * g s = k s ^ 2 + g s ^ 2) by ring.
  change (sin dp * cos (dec s) - cos dp * sin (dec s) * cos (ra s - rp)) with (k s). change (sin (ra s - rp) * cos dp) with (g s). rewrite N2.
  split; [|split].
  - unfold pm_angle. rewrite nudge_id by auto. reflexivity.
  - eapply is_derive_ext_loc; [|eapply is_derive_eq; [exact A|]].
    + eapply filter_imp; [|exact L]. intros t Ht. cbv beta in Ht. unfold pm_angle. rewrite nudge_id by auto. reflexivity.
    + toR. field. split; apply Rgt_not_eq; [lra|apply sqrt_lt_R0; lra].
  - eapply is_derive_ext_loc; [|eapply is_derive_eq; [exact B|]].
    + eapply filter_imp; [|exact L]. intros t Ht. cbv beta in Ht. unfold pm_angle. rewrite nudge_id by auto. reflexivity.
    + toR. field. split; apply Rgt_not_eq; [lra|apply sqrt_lt_R0; lra].
Qed.

(** ** The sky Jacobians, in radians *)
Definition skymap (M : M3) (ang : RR -> RR -> RR * RR) (p : V6) : V6 :=
  let '(a, d) := rotmap M (vx (fst p)) (vy (fst p)) in
  let '(c, s) := ang (vx (fst p)) (vy (fst p)) in
  (mkV a d (vz (fst p)), mkV (c * vx (snd p) + s * vy (snd p)) (- s * vx (snd p) + c * vy (snd p)) (vz (snd p))).

Lemma custom_false T ra dec : radec_to_custom false T ra dec = rotmap T ra dec.
Proof. reflexivity. Qed.
Lemma lb_false e l b : lb_to_radec false e l b = rotmap (T_gal_to_eq e) l b.
Proof. reflexivity. Qed.
Lemma custom_degree degree T ra dec : radec_to_custom degree T ra dec =
  let u := unit_angle degree in let p := rotmap T (ra * u) (dec * u) in (fst p * / u, snd p * / u).
Proof. unfold radec_to_custom, rotmap. cbv zeta. rewrite !deg_in_unit, deg_out_fun. reflexivity. Qed.
Lemma lb_degree degree e l b : lb_to_radec degree e l b =
  let u := unit_angle degree in let p := rotmap (T_gal_to_eq e) (l * u) (b * u) in (fst p * / u, snd p * / u).
Proof. unfold lb_to_radec, rotmap. cbv zeta. rewrite !deg_in_unit, deg_out_fun. reflexivity. Qed.



Lemma unit_k (degree : bool) : (if degree then degtorad else 1) = unit_angle degree.
Proof. destruct degree; auto. Qed.

Lemma custom_jac degree T ra dec D pmra pmdec vlos : rotation T ->
  let u := unit_angle degree in
  let '(p1, p2) := radec_to_custom degree T ra dec in
  p1 <> 0 -> cos (p2 * u) <> 0 -> dec * u <> snd (custom_to_radec false T 0 (PI / 2)) ->
  jacobian6 (customsky degree T) (mkV ra dec D, mkV pmra pmdec vlos) (sky_to_customsky_jac degree T ra dec pmra pmdec).
Proof.
  intros HT u. rewrite custom_degree. fold u. cbv zeta. intros H0 Hc Hn.
  pose proof (unit_angle_pos degree) as Hu. fold u in Hu.
  apply jac6_intro. intros f1 f2 f3 f4 f5 f6 s a b c d e g H1 H2 H3 H4 H5 H6 E. injection E as E1 E2 E3 E4 E5 E6.
  pose proof (custom_pole T HT) as PO. destruct (custom_to_radec false T 0 (PI / 2)) as [rp dp] eqn:EP. cbn [snd] in Hn.
  set (A := fun t => f1 t * u). set (B := fun t => f2 t * u).
  assert (DA : is_derive A s (a * u)) by (unfold A; auto_derive; [exder|derw; ring]).
  assert (DB : is_derive B s (b * u)) by (unfold B; auto_derive; [exder|derw; ring]).
  assert (EA : A s = ra * u) by (unfold A; rewrite E1; auto). assert (EB : B s = dec * u) by (unfold B; rewrite E2; auto).
  destruct (rotmap_rates T A B s _ _ HT DA DB) as (p1 & p2 & D1 & D2 & RT).
  { rewrite EA, EB. intros Q. apply H0. rewrite Q. ring. }
  { rewrite EA, EB. intros Q. apply Hc. rewrite <- Q. f_equal. field. lra. }
  destruct (rotmap_direction T (A s) (B s) HT) as [DIR CP]. rewrite EA, EB in *.
  set (P1 := fst (rotmap T (ra * u) (dec * u))) in *. set (P2 := snd (rotmap T (ra * u) (dec * u))) in *.
  assert (CP' : 0 < cos P2).
  { destruct CP as [L|Q]; auto. exfalso. apply Hc. replace (P2 * / u * u) with P2 by (field; lra). auto. }
  destruct (pm_rotate T (ra * u) (dec * u) rp dp P1 P2 (cos (dec * u) * (a * u)) (b * u) HT PO (eq_sym DIR) CP') as [NN RO].
  rewrite RT in RO. apply pm_inj in RO. destruct RO as [R1 R2].
  pose proof (pm_angle_rates dp rp A B s _ _ DA DB) as AR. rewrite EA, EB in AR. specialize (AR Hn).
  assert (NP : 0 < (sin dp * cos (dec * u) - cos dp * sin (dec * u) * cos (ra * u - rp)) ^ 2 + (sin (ra * u - rp) * cos dp) ^ 2).
  { apply sqrt_lt_0_alt. rewrite NN, sqrt_0. auto. }
  assert (CS : fst (fst (pm_angle_jac dp rp (ra * u) (dec * u))) =
     ((sin dp * cos (dec * u) - cos dp * sin (dec * u) * cos (ra * u - rp)) /
      sqrt ((sin dp * cos (dec * u) - cos dp * sin (dec * u) * cos (ra * u - rp)) ^ 2 + (sin (ra * u - rp) * cos dp) ^ 2),
      sin (ra * u - rp) * cos dp /
      sqrt ((sin dp * cos (dec * u) - cos dp * sin (dec * u) * cos (ra * u - rp)) ^ 2 + (sin (ra * u - rp) * cos dp) ^ 2))).
  { unfold pm_angle_jac. cbn [fst].
    replace ((sin dp * cos (dec * u) - cos dp * sin (dec * u) * cos (ra * u - rp)) * (sin dp * cos (dec * u) - cos dp * sin (dec * u) * cos (ra * u - rp)) +
             sin (ra * u - rp) * cos dp * (sin (ra * u - rp) * cos dp)) with
      ((sin dp * cos (dec * u) - cos dp * sin (dec * u) * cos (ra * u - rp)) ^ 2 + (sin (ra * u - rp) * cos dp) ^ 2) by ring. auto. }
  cbv zeta in R1, R2. rewrite NN in CS, R1, R2.
  unfold sky_to_customsky_jac. cbv zeta. rewrite !deg_if, !deg_in_unit, unit_k. fold u. rewrite EP. cbv iota beta. rewrite custom_false. fold P2.
  destruct (pm_angle_jac dp rp (ra * u) (dec * u)) as [[[ca sa] d1] d2]. cbn [fst] in CS. injection CS as CS1 CS2. rewrite <- CS1, <- CS2 in R1, R2.
  destruct (AR NP) as (AR0 & AR1 & AR2). clear AR CS1 CS2 DIR RT PO NN NP.
  set (cc := fun t => fst (pm_angle dp rp (A t) (B t))) in *. set (ss := fun t => snd (pm_angle dp rp (A t) (B t))) in *.
  assert (Ec : cc s = ca) by (unfold cc; rewrite EA, EB, AR0; auto). assert (Es : ss s = sa) by (unfold ss; rewrite EA, EB, AR0; auto).
  apply (fun H => H : velocity6 (fun t => customsky degree T (mkV (f1 t) (f2 t) (f3 t), mkV (f4 t) (f5 t) (f6 t))) s _).
  assert (F : forall t, customsky degree T (mkV (f1 t) (f2 t) (f3 t), mkV (f4 t) (f5 t) (f6 t)) =
    (mkV (fst (rotmap T (A t) (B t)) * / u) (snd (rotmap T (A t) (B t)) * / u) (f3 t),
     mkV (cc t * f4 t + ss t * f5 t) (- ss t * f4 t + cc t * f5 t) (f6 t))).
  { intros t. unfold customsky. cbn [fst snd vx vy vz]. rewrite custom_degree. fold u. cbv zeta. fold (A t). fold (B t).
    unfold pmrapmdec_to_custom. rewrite EP, !deg_in_unit. fold u. fold (A t). fold (B t). unfold cc, ss.
    destruct (pm_angle dp rp (A t) (B t)) as [x y]. reflexivity. }
  unfold mulM6, zero33. cbn [b00 b01 b10 b11 fst snd]. vunfold.
  set (X1 := fun t => fst (rotmap T (A t) (B t))) in *. set (X2 := fun t => snd (rotmap T (A t) (B t))) in *.
  split; cbn [fst snd].
  - eapply vel_ext; [intros t; rewrite F; cbn [fst]; reflexivity|]. split; [|split]; cbn [vx vy vz].
    + apply (is_derive_ext (fun t => X1 t * / u)); [reflexivity|]. auto_derive; [exder|]. derw.
      apply Rmult_eq_reg_l with (cos P2 * u); [|apply Rmult_integral_contrapositive_currified; lra].
      transitivity (cos P2 * p1); [field; lra|]. rewrite R1. field. lra.
    + apply (is_derive_ext (fun t => X2 t * / u)); [reflexivity|]. auto_derive; [exder|]. derw. rewrite R2. field. lra.
    + eapply is_derive_eq; [exact H3|]. toR. ring.
  - eapply vel_ext; [intros t; rewrite F; cbn [snd]; reflexivity|]. split; [|split]; cbn [vx vy vz].
    + auto_derive; [exder|]. derw. rewrite Ec, Es, E4, E5. ring.
    + auto_derive; [exder|]. derw. rewrite Ec, Es, E4, E5. ring.
    + eapply is_derive_eq; [exact H6|]. toR. ring.
Qed.
Lemma cos_unit_sq C S N : N <> 0 -> C ^ 2 + S ^ 2 = N ^ 2 -> (C / N) * (C / N) + (S / N) * (S / N) = 1.
Proof. intros H E. transitivity ((C ^ 2 + S ^ 2) / N ^ 2); [field; auto|]. rewrite E. field. auto. Qed.
Lemma T_gal_rotation e : rotation (T_gal_to_eq e).
Proof. rewrite T_inverse. apply rot_transp, T_rotation. Qed.
Lemma galsky_jac degree e l b D pmll pmbb vlos :
  let u := unit_angle degree in
  let '(ra, dec) := lb_to_radec degree e l b in
  ra <> 0 -> cos (dec * u) <> 0 -> dec * u <> dec_ngp e -> - PI / 2 < b * u < PI / 2 ->
  jacobian6 (galsky degree e) (mkV l b D, mkV pmll pmbb vlos) (galsky_to_sky_jac degree e e l b pmll pmbb).
Proof.
  intros u. rewrite lb_degree. fold u. cbv zeta. intros H0 Hc Hn Hb.
  pose proof (unit_angle_pos degree) as Hu. fold u in Hu.
  pose proof (T_gal_rotation e) as HT.
  apply jac6_intro. intros f1 f2 f3 f4 f5 f6 s a b' c d e' g H1 H2 H3 H4 H5 H6 E. injection E as E1 E2 E3 E4 E5 E6.
  set (A := fun t => f1 t * u). set (B := fun t => f2 t * u).
  assert (DA : is_derive A s (a * u)) by (unfold A; auto_derive; [exder|derw; ring]).
  assert (DB : is_derive B s (b' * u)) by (unfold B; auto_derive; [exder|derw; ring]).
  assert (EA : A s = l * u) by (unfold A; rewrite E1; auto). assert (EB : B s = b * u) by (unfold B; rewrite E2; auto).
  destruct (rotmap_rates (T_gal_to_eq e) A B s _ _ HT DA DB) as (p1 & p2 & D1 & D2 & RT).
  { rewrite EA, EB. intros Q. apply H0. rewrite Q. ring. }
  { rewrite EA, EB. intros Q. apply Hc. rewrite <- Q. f_equal. field. lra. }
  destruct (rotmap_direction (T_gal_to_eq e) (A s) (B s) HT) as [DIR CP].
  set (X1 := fun t => fst (rotmap (T_gal_to_eq e) (A t) (B t))) in *. set (X2 := fun t => snd (rotmap (T_gal_to_eq e) (A t) (B t))) in *.
  change (fst (rotmap (T_gal_to_eq e) (A s) (B s))) with (X1 s) in *. change (snd (rotmap (T_gal_to_eq e) (A s) (B s))) with (X2 s) in *.
  assert (EX1 : X1 s = fst (rotmap (T_gal_to_eq e) (l * u) (b * u))) by (unfold X1; rewrite EA, EB; auto).
  assert (EX2 : X2 s = snd (rotmap (T_gal_to_eq e) (l * u) (b * u))) by (unfold X2; rewrite EA, EB; auto).
  rewrite <- EX2 in Hc, Hn. replace (X2 s * / u * u) with (X2 s) in Hc, Hn by (field; lra). clear H0.
  assert (CP' : 0 < cos (X2 s)) by (destruct CP as [L|Q]; [auto|exfalso; apply Hc; auto]).
  assert (DIR2 : mulMV (T_eq_to_gal e) (direction (X1 s) (X2 s)) = direction (A s) (B s)).
  { rewrite DIR, T_inverse. apply rot_inv2, T_rotation. }
  assert (CB : 0 < cos (B s)) by (rewrite EB; apply cos_gt_0; lra).
  destruct (pm_rotate (T_eq_to_gal e) (X1 s) (X2 s) (ra_ngp e) (dec_ngp e) (A s) (B s) (cos (X2 s) * p1) p2 (T_rotation e) (T_pole e) DIR2 CB) as [NN RO].
  rewrite <- RT in RO. rewrite T_inverse in RO. rewrite rot_inv2 in RO by apply T_rotation. apply pm_inj in RO. destruct RO as [R1 R2].
  pose proof (pm_angle_rates (dec_ngp e) (ra_ngp e) X1 X2 s p1 p2 D1 D2 Hn) as AR.
  assert (NP : 0 < (sin (dec_ngp e) * cos (X2 s) - cos (dec_ngp e) * sin (X2 s) * cos (X1 s - ra_ngp e)) ^ 2 + (sin (X1 s - ra_ngp e) * cos (dec_ngp e)) ^ 2).
  { apply sqrt_lt_0_alt. rewrite NN, sqrt_0. auto. }
  unfold galsky_to_sky_jac. cbv zeta. rewrite !deg_if, !deg_in_unit, unit_k. fold u. rewrite lb_false.
  assert (EQ : rotmap (T_gal_to_eq e) (l * u) (b * u) = (X1 s, X2 s)) by (rewrite EX1, EX2; apply surjective_pairing).
  rewrite EQ. clear EQ EX1 EX2.
  assert (CS : fst (fst (pm_angle_jac (dec_ngp e) (ra_ngp e) (X1 s) (X2 s))) =
     ((sin (dec_ngp e) * cos (X2 s) - cos (dec_ngp e) * sin (X2 s) * cos (X1 s - ra_ngp e)) / cos (B s),
      sin (X1 s - ra_ngp e) * cos (dec_ngp e) / cos (B s))).
  { unfold pm_angle_jac. cbn [fst]. rewrite <- NN.
    replace ((sin (dec_ngp e) * cos (X2 s) - cos (dec_ngp e) * sin (X2 s) * cos (X1 s - ra_ngp e)) *
             (sin (dec_ngp e) * cos (X2 s) - cos (dec_ngp e) * sin (X2 s) * cos (X1 s - ra_ngp e)) +
             sin (X1 s - ra_ngp e) * cos (dec_ngp e) * (sin (X1 s - ra_ngp e) * cos (dec_ngp e))) with
      ((sin (dec_ngp e) * cos (X2 s) - cos (dec_ngp e) * sin (X2 s) * cos (X1 s - ra_ngp e)) ^ 2 + (sin (X1 s - ra_ngp e) * cos (dec_ngp e)) ^ 2) by ring. auto. }
  assert (N2 : (sin (dec_ngp e) * cos (X2 s) - cos (dec_ngp e) * sin (X2 s) * cos (X1 s - ra_ngp e)) ^ 2 + (sin (X1 s - ra_ngp e) * cos (dec_ngp e)) ^ 2 = cos (B s) ^ 2).
  { rewrite <- NN. symmetry. apply sq_sqrt. lra. }
  apply cos_unit_sq in N2; [|lra]. cbv zeta in R1, R2. rewrite NN in R1, R2.
  destruct (pm_angle_jac (dec_ngp e) (ra_ngp e) (X1 s) (X2 s)) as [[[ca sa] d1] d2]. cbn [fst] in CS. injection CS as CS1 CS2. rewrite <- CS1, <- CS2 in R1, R2, N2.
  destruct (AR NP) as (AR0 & AR1 & AR2). clear AR CS1 CS2 DIR DIR2 RT NN NP CP Hc Hn.
  set (cc := fun t => fst (pm_angle (dec_ngp e) (ra_ngp e) (X1 t) (X2 t))) in *. set (ss := fun t => snd (pm_angle (dec_ngp e) (ra_ngp e) (X1 t) (X2 t))) in *.
  assert (Ec : cc s = ca) by (unfold cc; rewrite AR0; auto). assert (Es : ss s = sa) by (unfold ss; rewrite AR0; auto).
  assert (F : forall t, galsky degree e (mkV (f1 t) (f2 t) (f3 t), mkV (f4 t) (f5 t) (f6 t)) =
    (mkV (X1 t * / u) (X2 t * / u) (f3 t),
     mkV (cc t * f4 t + - ss t * f5 t) (ss t * f4 t + cc t * f5 t) (f6 t))).
  { intros t. unfold galsky. cbn [fst snd vx vy vz]. rewrite lb_degree. fold u. cbv zeta. fold (A t). fold (B t).
    unfold pmllpmbb_to_pmrapmdec. rewrite !deg_in_unit, lb_false. fold u. fold (A t). fold (B t). unfold cc, ss, X1, X2.
    destruct (rotmap (T_gal_to_eq e) (A t) (B t)) as [x0 y0]. cbn [fst snd].
    destruct (pm_angle (dec_ngp e) (ra_ngp e) x0 y0) as [x y]. reflexivity. }
  (* solve for the rates *)
  rewrite EB in *.
  assert (Q1 : cos (X2 s) * p1 = ca * (cos (b * u) * (a * u)) - sa * (b' * u)).
  { rewrite R1, R2. transitivity ((ca * ca + sa * sa) * (cos (X2 s) * p1)); [rewrite N2|]; ring. }
  assert (Q2 : p2 = sa * (cos (b * u) * (a * u)) + ca * (b' * u)).
  { rewrite R1, R2. transitivity ((ca * ca + sa * sa) * p2); [rewrite N2|]; ring. }
  assert (Q1' : p1 = (ca * (cos (b * u) * (a * u)) - sa * (b' * u)) / cos (X2 s)) by (rewrite <- Q1; field; lra).
  change (is_derive X1 s p1) in D1. change (is_derive X2 s p2) in D2.
  unfold mulM6, zero33. cbn [b00 b01 b10 b11 fst snd]. change (is_derive cc s (- sa * (d1 * p1 + d2 * p2))) in AR1. change (is_derive ss s (ca * (d1 * p1 + d2 * p2))) in AR2. clearbody X1 X2 cc ss. clear EA EB R1 R2. clear dependent A. clear dependent B. vunfold.
  split; cbn [fst snd].
  - eapply vel_ext; [intros t; rewrite F; cbn [fst]; reflexivity|]. split; [|split]; cbn [vx vy vz].
    + auto_derive; [exder|]. derw. rewrite Q1'. field. lra.
    + auto_derive; [exder|]. derw. rewrite Q2. field. lra.
    + eapply is_derive_eq; [exact H3|]. toR. ring.
  - eapply vel_ext; [intros t; rewrite F; cbn [snd]; reflexivity|]. split; [|split]; cbn [vx vy vz].
    + auto_derive; [exder|]. derw. rewrite Ec, Es, E4, E5, Q1', Q2. field. lra.
    + auto_derive; [exder|]. derw. rewrite Ec, Es, E4, E5, Q1', Q2. field. lra.
    + eapply is_derive_eq; [exact H6|]. toR. ring.
Qed.
