(** C50: the Staeckel frequencies and angles *)
From Coq Require Import Reals Lra Lia ZArith List.
From Coquelicot Require Import Coquelicot.
From Verif.Lib Require Import RealAux.
From Verif.Model Require Import CoordsSpheroid Staeckel.
From Verif.Spec Require Import EOMSpec ActionAngleSpec StaeckelSpec.
From Verif.Proofs Require Import AngleProofs SpheroidProofs EOMProofs StaeckelProofs StaeckelProofs2 ChiProofs Libration ChiPrim StaeckelParts StaeckelAngles StaeckelWitness.
Import ListNotations.
Open Scope R_scope.
Notation RR := RbaseSymbolsImpl.R (only parsing).
Ltac rr := match goal with |- ?a = ?b => change (@eq RR a b) end.

(** The quadratures in chi, for every function S with simple zeros at the turning points and every continuous weight f: the value with upper
    limit q is the integral of f / sqrt(S) from the lower turning point to q. *)
Theorem C50_quadratures : forall (S dS f : RR -> RR) (qmin D : RR), 0 < D -> (forall q, qmin <= q <= qmin + D -> is_derive S q (dS q)) ->
  simple_well S qmin (qmin + D) -> (forall q, qmin <= q <= qmin + D -> continuous f q) ->
  let I := fun q => chi_weight 0 S dS f qmin D (2 * asin (sqrt (clip01 ((q - qmin) / D)))) in
  I qmin = 0 /\ I (qmin + D) = chi_weight 0 S dS f qmin D PI /\ (forall q, qmin <= q <= qmin + D -> continuous I q) /\
  (forall q, qmin < q < qmin + D -> is_derive I q (f q / sqrt (S q))).
Proof.
  intros S dS f qmin D HD DS (L & Z0 & Z1 & Pos & (d0 & P0 & D0) & (d1 & P1 & D1)) Cf I.
  assert (E0 : 0 < dS qmin) by (rewrite (d_unique _ _ _ _ (DS qmin ltac:(lra)) D0); exact P0).
  assert (E1 : dS (qmin + D) < 0) by (rewrite (d_unique _ _ _ _ (DS (qmin + D) ltac:(lra)) D1); exact P1).
  destruct (chi_prim_ok S dS f qmin D HD DS Z0 Z1 Pos E0 E1 Cf) as [A B C E]. split; [exact A|]. split; [exact B|]. split; [exact C|exact E].
Qed.
Print Assumptions C50_quadratures.

(** The frequencies: the rows (Omega_r, dI3/dJR), (Omega_z, dI3/dJz) and (Omega_phi, dI3/dLz) invert the matrix of the derivatives of the
    actions, and the C code computes the same numbers. *)
Theorem C50_jacobian : forall rE rL rI zE zL zI f, calcFreqs (rE, rL, rI) (zE, zL, zI) = Some f ->
  Or_ f * rE + I3r_ f * rI = 1 /\ Or_ f * zE + I3r_ f * zI = 0 /\ Oz_ f * rE + I3z_ f * rI = 0 /\ Oz_ f * zE + I3z_ f * zI = 1 /\
  rL + Op_ f * rE + I3p_ f * rI = 0 /\ zL + Op_ f * zE + I3p_ f * zI = 0 /\ c_calcFreqs (rE, rL, rI) (zE, zL, zI) = f.
Proof.
  intros rE rL rI zE zL zI f. unfold calcFreqs. destruct (Req_EM_T (rE * zI - zE * rI) 0) as [|N]; [discriminate|]. intros E. injection E as <-. cbn.
  repeat (split; [field; lra|]). reflexivity.
Qed.
Print Assumptions C50_jacobian.

Lemma fmod_same x : same_angle (fmod x (2 * PI)) x /\ - (2 * PI) < fmod x (2 * PI) < 2 * PI.
Proof.
  pose proof PI_RGT_0. unfold fmod. set (y := x / (2 * PI)). assert (E : x = 2 * PI * y) by (unfold y; field; lra).
  destruct (Rle_dec 0 y) as [P|P].
  - split; [exists (- Int_part y)%Z; rewrite opp_IZR; ring|]. pose proof (base_Int_part y). nra.
  - split; [exists (Int_part (- y)); rewrite opp_IZR; ring|]. rewrite opp_IZR. pose proof (base_Int_part (- y)). nra.
Qed.
Lemma wrap_ok x : same_angle (wrap x) x /\ 0 <= wrap x < 2 * PI.
Proof.
  pose proof PI_RGT_0. destruct (fmod_same x) as [[k E] B]. unfold wrap. destruct (Rlt_dec (fmod x (2 * PI)) 0) as [L|L].
  - split; [exists (k + 1)%Z; rewrite plus_IZR, E; ring|lra].
  - destruct (Rlt_dec (2 * PI) (fmod x (2 * PI))); [lra|]. split; [exists k; exact E|lra].
Qed.
Lemma sa_sym x y : same_angle x y -> same_angle y x.
Proof. exact (mod2pi_sym x y). Qed.
Lemma sa_add x y x' y' : same_angle x y -> same_angle x' y' -> same_angle (x + x') (y + y').
Proof. exact (mod2pi_add x y x' y'). Qed.
Lemma sa_refl x : same_angle x x.
Proof. exact (mod2pi_refl x). Qed.
Lemma sa_trans x y w : same_angle x y -> same_angle y w -> same_angle x w.
Proof. intros [k E] [k' E']. exists (k + k')%Z. rewrite plus_IZR, E, E'. ring. Qed.

(** In a Staeckel potential that is symmetric about the plane, along every orbit that swings between simple turning points in u and in v and is
    not within the thresholds of circular or planar: all points of the orbit are given the same frequencies, Omega_r and Omega_z are positive, the
    three angles lie in [0, 2 pi) and advance at exactly these frequencies, and they are 0, phi and 0 where the body crosses the plane upwards at the
    inner turning point. *)
Theorem C50_angles : forall delta Phi FR Fz U V (R vR vT z vz phi : RR -> RR) (a b t0 : RR) o v0u umin umax vmin epi circ vert jr jz,
  0 < delta -> force_of Phi FR Fz -> staeckel delta Phi U V -> mirror Phi -> (forall t, a < t < b -> moves FR Fz R vR vT z vz phi t) ->
  (forall t, a < t < b -> starts (o t)) -> (forall t, a < t < b -> 0 < v0u t < PI) -> a < t0 < b ->
  let s := fun t => single_init Phi delta (R t) (vR t) (vT t) (z t) (vz t) (o t) (v0u t) in
  let I3 := third_integral delta U (g_E (s t0)) (g_Lz (s t0)) (g_ux (s t0)) (g_pux (s t0)) in
  0 < umin -> simple_well (pu2 delta U (g_E (s t0)) (g_Lz (s t0)) I3) umin umax ->
  0 < vmin < PI / 2 -> simple_well (pv2 delta V (g_E (s t0)) (g_Lz (s t0)) I3) vmin (PI - vmin) ->
  umin <= g_ux (s t0) <= umax -> vmin <= g_vx (s t0) <= PI - vmin ->
  / 10 ^ 6 <= (umax - umin) / umax -> / 10 ^ 6 <= (PI / 2 - vmin) / PI * 2 ->
  exists Or Op Oz (ar ap az : RR -> RR), 0 < Or /\ 0 < Oz /\
    (forall t, a < t < b ->
       freqsAngles epi circ vert (R t) (phi t) jr jz (calcAngles 0 Phi FR Fz delta umin umax vmin (s t)) = (Some (Or, Op, Oz), Some (ar t, ap t, az t)) /\
       0 <= ar t < 2 * PI /\ 0 <= ap t < 2 * PI /\ 0 <= az t < 2 * PI) /\
    (forall t t', a < t < b -> a < t' < b ->
       same_angle (ar t') (ar t + Or * (t' - t)) /\ same_angle (ap t') (ap t + Op * (t' - t)) /\ same_angle (az t') (az t + Oz * (t' - t))) /\
    (forall t, a < t < b -> g_ux (s t) = umin -> z t = 0 -> 0 < vz t -> same_angle (ar t) 0 /\ same_angle (ap t) (phi t) /\ same_angle (az t) 0).
Proof.
  intros delta Phi FR Fz U V R vR vT z vz phi a b t0 o v0u umin umax vmin epi circ vert jr jz Hd G St Mi M Ho Hv0 Ht0 s I3 Hum WU Hvm WV Hu0 Hv0' Hcu Hcv.
  destruct (angle_facts delta Phi FR Fz U V R vR vT z vz phi a b t0 o v0u umin umax vmin Hd G St Mi M Ho Hv0 Ht0 Hum WU Hvm WV Hu0 Hv0' Hcu Hcv) as (f & ra & rp & rz & F1 & F2 & FO & AA & ZP & _).
  assert (FQ : forall t, a < t < b -> calcFreqs (calcdJR 0 Phi FR Fz delta umin umax (s t)) (calcdJz 0 Phi FR Fz delta vmin (s t)) = Some f) by (intros t Ht; exact (proj1 (FO t Ht))).
  assert (FP := conj F1 F2). assert (AO := fun t Ht => proj2 (FO t Ht)).
  set (raw := fun t => angles delta umin umax vmin (s t) (quadsU 0 Phi FR Fz delta umin umax (s t)) (quadsV 0 Phi FR Fz delta vmin (s t))
      (calcdJR 0 Phi FR Fz delta umin umax (s t)) (calcdJz 0 Phi FR Fz delta vmin (s t)) f).
  exists (Or_ f), (Op_ f), (Oz_ f), (fun t => wrap (fst (fst (raw t)))),
    (fun t => ActionAngle.modulo (snd (fst (raw t)) + ActionAngle.modulo (phi t) (2 * PI)) (2 * PI)), (fun t => wrap (snd (raw t))).
  pose proof PI_RGT_0 as PP.
  assert (PHI : forall t, same_angle (ActionAngle.modulo (snd (fst (raw t)) + ActionAngle.modulo (phi t) (2 * PI)) (2 * PI)) (snd (fst (raw t)) + phi t)).
  { intros t. eapply sa_trans; [apply modulo_same|]. apply sa_add; [apply sa_refl|apply modulo_same]. }
  split; [exact (proj1 FP)|]. split; [exact (proj2 FP)|]. split; [|split].
  - intros t Ht. split.
    + unfold freqsAngles, calcAngles. rewrite (FQ t Ht). destruct (Rlt_dec ((umax - umin) / umax) (/ 10 ^ 6)); [lra|]. fold (raw t). destruct (raw t) as [[x y] w]. reflexivity.
    + split; [apply wrap_ok|]. split; [apply modulo_range; lra|apply wrap_ok].
  - intros t t' Ht Ht'. destruct (AA t t' Ht Ht') as (A1 & A2 & A3).
    assert (E : raw t = (ra t, rp t, rz t)) by exact (AO t Ht). assert (E' : raw t' = (ra t', rp t', rz t')) by exact (AO t' Ht'). rewrite E, E'. cbn [fst snd]. split; [|split].
    + eapply sa_trans; [apply wrap_ok|]. eapply sa_trans; [exact A1|]. apply sa_add; [|apply sa_refl]. apply sa_sym, wrap_ok.
    + specialize (PHI t) as P1. specialize (PHI t') as P2. rewrite E in P1. rewrite E' in P2. cbn [fst snd] in P1, P2.
      eapply sa_trans; [exact P2|]. eapply sa_trans; [exact A2|]. apply sa_add; [|apply sa_refl]. apply sa_sym. exact P1.
    + eapply sa_trans; [apply wrap_ok|]. eapply sa_trans; [exact A3|]. apply sa_add; [|apply sa_refl]. apply sa_sym, wrap_ok.
  - intros t Ht E1 E2 E3. destruct (ZP t Ht E1 E2 E3) as (A1 & A2 & A3). assert (E : raw t = (ra t, rp t, rz t)) by exact (AO t Ht). specialize (PHI t) as P1. rewrite E in *. cbn [fst snd] in *. split; [|split].
    + eapply sa_trans; [apply wrap_ok|exact A1].
    + eapply sa_trans; [exact P1|]. replace (phi t) with (0 + phi t) at 2 by ring. apply sa_add; [exact A2|apply sa_refl].
    + eapply sa_trans; [apply wrap_ok|exact A3].
Qed.
Print Assumptions C50_angles.

(** An orbit between simple turning points never leaves the region between them. *)
Theorem C50_trapped : forall delta Phi FR Fz U V (R vR vT z vz phi : RR -> RR) (a b t0 : RR) o v0u umin umax vmin,
  0 < delta -> force_of Phi FR Fz -> staeckel delta Phi U V -> mirror Phi -> (forall t, a < t < b -> moves FR Fz R vR vT z vz phi t) ->
  (forall t, a < t < b -> starts (o t)) -> (forall t, a < t < b -> 0 < v0u t < PI) -> a < t0 < b ->
  let s := fun t => single_init Phi delta (R t) (vR t) (vT t) (z t) (vz t) (o t) (v0u t) in
  let I3 := third_integral delta U (g_E (s t0)) (g_Lz (s t0)) (g_ux (s t0)) (g_pux (s t0)) in
  0 < umin -> simple_well (pu2 delta U (g_E (s t0)) (g_Lz (s t0)) I3) umin umax ->
  0 < vmin < PI / 2 -> simple_well (pv2 delta V (g_E (s t0)) (g_Lz (s t0)) I3) vmin (PI - vmin) ->
  umin <= g_ux (s t0) <= umax -> vmin <= g_vx (s t0) <= PI - vmin ->
  forall t, a < t < b -> umin <= g_ux (s t) <= umax /\ vmin <= g_vx (s t) <= PI - vmin.
Proof.
  intros delta Phi FR Fz U V R vR vT z vz phi a b t0 o v0u umin umax vmin Hd G St Mi M Ho Hv0 Ht0 s I3 Hum WU Hvm WV Hu0 Hv0' t Ht.
  split.
  - exact (u_in delta Phi FR Fz U V R vR vT z vz phi a b t0 o v0u umin umax Hd G St M Ho Hv0 Ht0 Hum WU Hu0 t Ht).
  - exact (v_in delta Phi FR Fz U V R vR vT z vz phi a b t0 o v0u vmin Hd G St M Ho Hv0 Ht0 Hvm WV Hv0' t Ht).
Qed.
Print Assumptions C50_trapped.

(** The reference u0 minimises u0Equation: that is where the squared radial momentum is largest. *)
Theorem C50_u0 : forall pot (delta R vR vT z vz : RR) o u u', 0 < delta ->
  let s := single_init pot delta R vR vT z vz o (PI / 2) in
  u0Equation u (g_E s) (g_Lz s ^ 2 / 2 / delta ^ 2) delta pot <= u0Equation u' (g_E s) (g_Lz s ^ 2 / 2 / delta ^ 2) delta pot <-> SU pot delta s u' <= SU pot delta s u.
Proof.
  intros pot delta R vR vT z vz o u u' Hd s.
  assert (V0 : g_v0u s = PI / 2) by (unfold s, single_init; destruct (Rz_to_uv false delta R z); reflexivity).
  assert (E : forall x, u0Equation x (g_E s) (g_Lz s ^ 2 / 2 / delta ^ 2) delta pot = - SU pot delta s x - g_I3U s + (sinh (g_u0 s) ^ 2 + 1) * g_potu0v0 s).
  { intros x. unfold u0Equation, SU, JRSquared. rewrite V0, sin_PI2. rewrite (ch2 x). ring. }
  rewrite (E u), (E u'). split; intros; lra.
Qed.
Print Assumptions C50_u0.

(** Orbits in the plane: whatever the potential, their angles are not computed, and their frequencies are the epicycle frequencies at the present
    radius. *)
Theorem C50_planar : forall edge pot FR Fz delta umin umax s epi circ vert R phi jr jz, / 10 ^ 6 <= (umax - umin) / umax -> jz < / 10 ^ 3 ->
  freqsAngles epi circ vert R phi jr jz (calcAngles edge pot FR Fz delta umin umax (PI / 2) s) = (Some (epi R, circ R, vert R), None).
Proof.
  intros edge pot FR Fz delta umin umax s epi circ vert R phi jr jz Hc Hj. unfold calcAngles.
  assert (Z : calcdJz edge pot FR Fz delta (PI / 2) s = (0, 0, 0)).
  { unfold calcdJz. replace ((PI / 2 - PI / 2) / PI * 2) with 0 by (field; pose proof PI_RGT_0; lra). destruct (Rlt_dec 0 (/ 10 ^ 6)) as [_|N]; [reflexivity|]. exfalso. apply N. apply Rinv_0_lt_compat. apply pow_lt. lra. }
  rewrite Z. destruct (calcdJR edge pot FR Fz delta umin umax s) as [[x y] w]. unfold calcFreqs. replace (x * 0 - 0 * w) with 0 by ring.
  destruct (Req_EM_T 0 0) as [_|N]; [|contradiction]. destruct (Rlt_dec ((umax - umin) / umax) (/ 10 ^ 6)); [lra|].
  unfold freqsAngles. cbn [fst snd]. destruct (Rlt_dec jr (/ 10 ^ 3)); [reflexivity|]. destruct (Rlt_dec jz (/ 10 ^ 3)); [reflexivity|contradiction].
Qed.
Print Assumptions C50_planar.

(** So the frequencies are not the same along an eccentric orbit in the plane, although C50_angles says they are for every orbit that leaves it.
    In the Staeckel potential (R^2 + z^2 - 1)^2 + R^2 the inner and the outer turning point, R = 1 and R = sqrt 2, of the planar orbit with energy 5
    and angular momentum 2 sqrt 2 get different Omega_phi. *)
Definition po_circ (R : RR) : RR := sqrt (- po_FR R 0 / R).
Theorem C50_planar_frequencies_refuted : exists (L R1 R2 : RR), 0 < R1 < R2 /\
  po_Phi R1 0 + (L / R1) ^ 2 / 2 = po_Phi R2 0 + (L / R2) ^ 2 / 2 /\
  (forall R, R1 < R < R2 -> po_Phi R 0 + (L / R) ^ 2 / 2 < po_Phi R1 0 + (L / R1) ^ 2 / 2) /\
  forall edge umin umax epi vert phi1 phi2 jr s1 s2, / 10 ^ 6 <= (umax - umin) / umax ->
    fst (freqsAngles epi po_circ vert R1 phi1 jr 0 (calcAngles edge po_Phi po_FR po_Fz 1 umin umax (PI / 2) s1)) <>
    fst (freqsAngles epi po_circ vert R2 phi2 jr 0 (calcAngles edge po_Phi po_FR po_Fz 1 umin umax (PI / 2) s2)).
Proof.
  assert (Q8 : sqrt 8 ^ 2 = 8) by (apply pow2_sqrt; lra). assert (Q2 : sqrt 2 ^ 2 = 2) by (apply pow2_sqrt; lra). assert (P2 : 1 < sqrt 2) by (rewrite <- sqrt_1; apply sqrt_lt_1; lra).
  exists (sqrt 8), 1, (sqrt 2). split; [lra|].
  assert (EV : forall R, 0 < R -> po_Phi R 0 + (sqrt 8 / R) ^ 2 / 2 = (R ^ 2) ^ 2 - R ^ 2 + 1 + 4 / R ^ 2).
  { intros R HR. unfold po_Phi. replace ((sqrt 8 / R) ^ 2) with (sqrt 8 ^ 2 / R ^ 2) by (field; lra). rewrite Q8. field. lra. }
  split; [rewrite !EV by lra; rewrite Q2; field|]. split.
  - intros R HR. rewrite !EV by lra. assert (X : 1 < R ^ 2 < 2) by (split; [nra|rewrite <- Q2; nra]). set (x := R ^ 2) in *. clearbody x.
    apply Rminus_gt_0_lt. replace ((1 ^ 2) ^ 2 - 1 ^ 2 + 1 + 4 / 1 ^ 2 - (x ^ 2 - x + 1 + 4 / x)) with ((x - 1) * (2 - x) * (2 + x) / x) by (field; lra).
    apply Rdiv_lt_0_compat; [|lra]. repeat apply Rmult_lt_0_compat; lra.
  - intros edge umin umax epi vert phi1 phi2 jr s1 s2 Hc. assert (J : 0 < / 10 ^ 3) by (apply Rinv_0_lt_compat; apply pow_lt; lra).
    rewrite !C50_planar by assumption. cbn [fst]. intros E. injection E as _ E _. unfold po_circ in E.
    apply sqrt_inj in E; unfold po_FR in *.
    + replace (- - (4 * sqrt 2 * (sqrt 2 ^ 2 + 0 ^ 2 - 1) + 2 * sqrt 2) / sqrt 2) with (4 * (sqrt 2 ^ 2 - 1) + 2) in E by (field; lra). rewrite Q2 in E. lra.
    + lra.
    + replace (- - (4 * sqrt 2 * (sqrt 2 ^ 2 + 0 ^ 2 - 1) + 2 * sqrt 2) / sqrt 2) with (4 * (sqrt 2 ^ 2 - 1) + 2) by (field; lra). rewrite Q2. lra.
Qed.
Print Assumptions C50_planar_frequencies_refuted.

(** An orbit that meets the hypotheses of C50_angles: R = 1, z = sqrt(3/2) sin t in the harmonic potential, focal distance 1, at t = 0 on the plane
    going up at the inner turning point sinh u = 1; the outer one is sinh u = sqrt 2 and vmin = pi / 4. *)
Definition wu (X : RR) : RR := 2 * (7 / 4 * X - 1 / 4 - (X ^ 2 + X) / 2 - 1 / (2 * X)).
Definition wv (Y : RR) : RR := 2 * (7 / 4 * Y + 1 / 4 + (Y ^ 2 - Y) / 2 - 1 / (2 * Y)).
Lemma d_wu X : X <> 0 -> is_derive wu X (2 * (7 / 4 - X - 1 / 2 + 1 / (2 * X ^ 2))).
Proof. intros H. unfold wu. auto_derive; [lra|]. rr. field. exact H. Qed.
Lemma d_wv Y : Y <> 0 -> is_derive wv Y (2 * (7 / 4 + Y - 1 / 2 + 1 / (2 * Y ^ 2))).
Proof. intros H. unfold wv. auto_derive; [lra|]. rr. field. exact H. Qed.
Lemma wu_eq u : 0 < u -> pu2 1 (ha_U 1) (7 / 4) 1 (1 / 4) u = wu (sinh u ^ 2).
Proof. intros H. pose proof (sinh_pos_iff _ H). unfold pu2, ha_U, wu. field. lra. Qed.
Lemma wv_eq v : 0 < v < PI -> pv2 1 (ha_V 1) (7 / 4) 1 (1 / 4) v = wv (sin v ^ 2).
Proof. intros H. pose proof (sv_pos _ H). unfold pv2, ha_V, wv. field. lra. Qed.
Definition w_umin : RR := arcsinh 1.
Definition w_umax : RR := arcsinh (sqrt 2).
Lemma w_u : sinh w_umin = 1 /\ sinh w_umax = sqrt 2 /\ 0 < w_umin /\ w_umin < w_umax.
Proof.
  assert (P2 : 1 < sqrt 2) by (rewrite <- sqrt_1; apply sqrt_lt_1; lra). unfold w_umin, w_umax. rewrite !sinh_arcsinh. split; [reflexivity|]. split; [reflexivity|].
  split; [rewrite <- arcsinh_0; apply arcsinh_lt; lra|apply arcsinh_lt; exact P2].
Qed.
Lemma w_well_u : simple_well (pu2 1 (ha_U 1) (7 / 4) 1 (1 / 4)) w_umin w_umax.
Proof.
  destruct w_u as (E1 & E2 & P & L). assert (Q2 : sqrt 2 ^ 2 = 2) by (apply pow2_sqrt; lra). assert (S2 : 0 < sqrt 2) by (apply sqrt_lt_R0; lra).
  assert (D : forall u, 0 < u -> is_derive (pu2 1 (ha_U 1) (7 / 4) 1 (1 / 4)) u (2 * (7 / 4 - sinh u ^ 2 - 1 / 2 + 1 / (2 * (sinh u ^ 2) ^ 2)) * (2 * sinh u * (cosh u * 1)))).
  { intros u Hu. pose proof (sinh_pos_iff _ Hu) as Ps. apply (is_derive_loc (fun u => wu (sinh u ^ 2)) _ u _ (fun x => 0 < x) (locally_pos u Hu)); [intros x Hx; symmetry; apply wu_eq; exact Hx|].
    apply (is_derive_Rchain wu (fun u => sinh u ^ 2)); [apply d_wu; pose proof (pow_lt _ 2 Ps); lra|]. apply (d_sq sinh). apply (d_sinh (fun u => u)). apply d_id. }
  split; [exact L|]. split; [rewrite wu_eq by lra; rewrite E1; unfold wu; field|]. split; [rewrite wu_eq by lra; rewrite E2, Q2; unfold wu; field|]. split; [|split].
  - intros q Hq. rewrite wu_eq by lra. assert (A : 1 < sinh q < sqrt 2) by (rewrite <- E1, <- E2; split; apply sinh_lt; lra). assert (X : 1 < sinh q ^ 2 < 2) by (split; [nra|rewrite <- Q2; nra]).
    set (x := sinh q ^ 2) in *. clearbody x. unfold wu. replace (2 * (7 / 4 * x - 1 / 4 - (x ^ 2 + x) / 2 - 1 / (2 * x))) with ((x - 1) * (2 - x) * (x + 1 / 2) / x) by (field; lra).
    apply Rdiv_lt_0_compat; [|lra]. repeat apply Rmult_lt_0_compat; lra.
  - eexists. split; [|apply D; exact P]. rewrite E1. pose proof (cosh_pos w_umin). lra.
  - eexists. split; [|apply D; lra]. rewrite E2, Q2. pose proof (cosh_pos w_umax). assert (0 < sqrt 2 * cosh w_umax) by (apply Rmult_lt_0_compat; assumption). lra.
Qed.
Lemma w_well_v : simple_well (pv2 1 (ha_V 1) (7 / 4) 1 (1 / 4)) (PI / 4) (PI - PI / 4).
Proof.
  pose proof PI_RGT_0 as PP. assert (S2 : 0 < sqrt 2) by (apply sqrt_lt_R0; lra). assert (Q2 : sqrt 2 ^ 2 = 2) by (apply pow2_sqrt; lra).
  assert (E1 : sin (PI / 4) ^ 2 = 1 / 2) by (rewrite sin_PI4; unfold Rdiv; rewrite !Rmult_1_l, pow_inv, Q2; reflexivity).
  assert (Sp : 0 < sin (PI / 4)) by (apply sv_pos; lra). assert (Cp : 0 < cos (PI / 4)) by (apply cos_gt_0; lra).
  assert (D : forall v, 0 < v < PI -> is_derive (pv2 1 (ha_V 1) (7 / 4) 1 (1 / 4)) v (2 * (7 / 4 + sin v ^ 2 - 1 / 2 + 1 / (2 * (sin v ^ 2) ^ 2)) * (2 * sin v * (cos v * 1)))).
  { intros v Hv. pose proof (sv_pos _ Hv) as Ps. apply (is_derive_loc (fun v => wv (sin v ^ 2)) _ v _ (fun x => 0 < x < PI)); [apply filter_and; [apply locally_gt|apply locally_lt]; lra|intros x Hx; symmetry; apply wv_eq; exact Hx|].
    apply (is_derive_Rchain wv (fun v => sin v ^ 2)); [apply d_wv; pose proof (pow_lt _ 2 Ps); lra|]. apply (d_sq sin). refine (is_derive_eq _ _ _ _ (d_sin (fun v => v) v 1 (d_id v)) _). rr. ring. }
  split; [lra|]. split; [rewrite wv_eq by lra; rewrite E1; unfold wv; field|]. split; [rewrite wv_eq by lra; rewrite sin_PI_x, E1; unfold wv; field|]. split; [|split].
  - intros q Hq. rewrite wv_eq by lra. assert (A : sin (PI / 4) < sin q).
    { destruct (Rle_dec q (PI / 2)); [apply sin_increasing_1; lra|]. rewrite <- (sin_PI_x q). apply sin_increasing_1; lra. }
    assert (Y : 1 / 2 < sin q ^ 2 <= 1) by (split; [rewrite <- E1; nra|pose proof (SIN_bound q); nra]). set (y := sin q ^ 2) in *. clearbody y.
    unfold wv. replace (2 * (7 / 4 * y + 1 / 4 + (y ^ 2 - y) / 2 - 1 / (2 * y))) with ((y - 1 / 2) * (y + 1) * (y + 2) / y) by (field; lra).
    apply Rdiv_lt_0_compat; [|lra]. repeat apply Rmult_lt_0_compat; lra.
  - eexists. split; [|apply D; lra]. rewrite E1. assert (0 < sin (PI / 4) * cos (PI / 4)) by (apply Rmult_lt_0_compat; assumption). lra.
  - eexists. split; [|apply D; lra]. rewrite sin_PI_x, E1. replace (cos (PI - PI / 4)) with (- cos (PI / 4)) by (rewrite cos_minus, cos_PI, sin_PI; ring).
    assert (0 < sin (PI / 4) * cos (PI / 4)) by (apply Rmult_lt_0_compat; assumption). lra.
Qed.
Lemma w_start : Rz_to_uv false 1 1 (ha_z 0) = (w_umin, PI / 2).
Proof.
  apply spheroidal_uv; [lra|]. destruct w_u as (E1 & _ & P & _). pose proof PI_RGT_0. split; [exact P|]. split; [lra|]. rewrite E1, sin_PI2, cos_PI2. unfold ha_z. rewrite sin_0. split; ring.
Qed.
Lemma w_threshold : / 10 ^ 6 <= (w_umax - w_umin) / w_umax.
Proof.
  destruct w_u as (E1 & E2 & P & L). assert (Q2 : sqrt 2 ^ 2 = 2) by (apply pow2_sqrt; lra). assert (S2 : 0 < sqrt 2) by (apply sqrt_lt_R0; lra).
  assert (B : 1.4 < sqrt 2 < 1.5) by (split; nra).
  assert (Dh : forall x, is_derive sinh x (cosh x)) by (intros x; refine (is_derive_eq _ _ _ _ (d_sinh (fun x => x) x 1 (d_id x)) _); rr; ring).
  assert (Mv : forall p q, p < q -> exists c, p <= c <= q /\ sinh q - sinh p = cosh c * (q - p)).
  { intros p q Hpq. destruct (MVT_gen sinh p q cosh) as (c & Hc & E).
    - intros x _. apply Dh.
    - intros x _. apply continuity_pt_filterlim. apply (cont_derive sinh x (cosh x)). apply Dh.
    - exists c. rewrite Rmin_left, Rmax_right in Hc by lra. split; assumption. }
  destruct (Mv w_umin w_umax L) as (c & Hc & E). destruct (Mv 0 w_umax ltac:(lra)) as (c' & Hc' & E'). rewrite E1, E2 in E. rewrite E2, sinh_0 in E'.
  assert (C1 : 1 <= cosh c') by (pose proof (ch2 c') as Q; pose proof (cosh_pos c'); pose proof (pow2_ge_0 (sinh c')); destruct (Rle_dec 1 (cosh c')); [assumption|nra]).
  assert (C2 : cosh c <= 2). { pose proof (ch2 c) as Q. pose proof (cosh_pos c). assert (0 < sinh c <= sqrt 2) by (split; [apply sinh_pos_iff; lra|rewrite <- E2; destruct (Req_dec c w_umax) as [Z|Z]; [rewrite Z; lra|left; apply sinh_lt; lra]]). assert (sinh c ^ 2 <= 2) by (rewrite <- Q2; nra). destruct (Rle_dec (cosh c) 2); [assumption|nra]. }
  assert (U1 : w_umax <= 1.5) by nra. assert (U2 : 0.2 <= w_umax - w_umin) by nra.
  assert (U3 : 1 / 10 <= (w_umax - w_umin) / w_umax). { apply (Rmult_le_reg_r w_umax); [lra|]. unfold Rdiv at 2. rewrite Rmult_assoc, Rinv_l by lra. lra. } lra.
Qed.
Example C50_orbit : let s := fun t => single_init ha_Phi 1 1 0 1 (ha_z t) (ha_vz t) None (PI / 2) in
  let I3 := third_integral 1 (ha_U 1) (g_E (s 0)) (g_Lz (s 0)) (g_ux (s 0)) (g_pux (s 0)) in
  force_of ha_Phi ha_FR ha_Fz /\ staeckel 1 ha_Phi (ha_U 1) (ha_V 1) /\ mirror ha_Phi /\ (forall t, moves ha_FR ha_Fz (fun _ => 1) (fun _ => 0) (fun _ => 1) ha_z ha_vz (fun t => t) t) /\
  0 < w_umin /\ simple_well (pu2 1 (ha_U 1) (g_E (s 0)) (g_Lz (s 0)) I3) w_umin w_umax /\ simple_well (pv2 1 (ha_V 1) (g_E (s 0)) (g_Lz (s 0)) I3) (PI / 4) (PI - PI / 4) /\
  g_ux (s 0) = w_umin /\ PI / 4 <= g_vx (s 0) <= PI - PI / 4 /\ / 10 ^ 6 <= (w_umax - w_umin) / w_umax /\ / 10 ^ 6 <= (PI / 2 - PI / 4) / PI * 2 /\ ha_z 0 = 0 /\ 0 < ha_vz 0.
Proof.
  intros s I3. pose proof PI_RGT_0 as PP. destruct w_u as (E1 & E2 & P & L). assert (Q : sqrt (3 / 2) ^ 2 = 3 / 2) by (apply pow2_sqrt; lra).
  assert (Z0 : ha_z 0 = 0) by (unfold ha_z; rewrite sin_0; ring). assert (V0 : ha_vz 0 = sqrt (3 / 2)) by (unfold ha_vz; rewrite cos_0; ring).
  assert (EE : g_E (s 0) = 7 / 4) by (unfold s; rewrite single_E; unfold ha_Phi; rewrite Z0, V0, Q; field).
  assert (EL : g_Lz (s 0) = 1) by (unfold s; rewrite single_Lz; ring).
  assert (EU : g_ux (s 0) = w_umin) by (unfold s; rewrite single_ux, w_start; reflexivity).
  assert (EV : g_vx (s 0) = PI / 2) by (unfold s; rewrite single_vx, w_start; reflexivity).
  assert (EP : g_pux (s 0) = 0) by (unfold s; rewrite single_pux, w_start; cbn [fst snd]; rewrite cos_PI2; ring).
  assert (EI : I3 = 1 / 4) by (unfold I3, third_integral; rewrite EE, EL, EU, EP; unfold ha_U; rewrite E1; field).
  rewrite EI, EE, EL, EU, EV. split; [exact ha_force|]. split; [apply ha_staeckel|]. split; [exact ha_mirror|]. split; [exact ha_moves|]. split; [exact P|].
  split; [exact w_well_u|]. split; [exact w_well_v|]. split; [reflexivity|]. split; [lra|]. split; [exact w_threshold|]. split; [replace ((PI / 2 - PI / 4) / PI * 2) with (1 / 2) by (field; lra); lra|].
  split; [exact Z0|]. rewrite V0. apply sqrt_lt_R0. lra.
Qed.
