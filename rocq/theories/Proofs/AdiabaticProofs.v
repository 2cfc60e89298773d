(** The adiabatic approximation of the actions: the motion in the plane and its relation to the spherical action angles, the C quadratures *)
From Coq Require Import Reals Lra Lia ZArith List FunctionalExtensionality.
From Coquelicot Require Import Coquelicot.
From Verif.Lib Require Import RealAux.
From Verif.Model Require Import Spherical Adiabatic.
From Verif.Spec Require Import ActionAngleSpec StaeckelSpec SphericalSpec AdiabaticSpec.
From Verif.Proofs Require Import AngleProofs EOMProofs StaeckelProofs KuzminKutuzovProofs StaeckelParts Libration ChiPrim SubstPrim SphericalOrbit SphericalAngles VerticalAngles JzIntegral.
Open Scope R_scope.
From Verif.Props Require Import C51.
Notation RR := RbaseSymbolsImpl.R (only parsing).
Ltac rr := match goal with |- ?a = ?b => change (@eq RR a b) end.

Lemma pow2_abs x : Rabs x ^ 2 = x ^ 2.
Proof. unfold Rabs. destruct (Rcase_abs x); ring. Qed.
Lemma sqrt_sq_abs x : sqrt (x * x) = Rabs x.
Proof. exact (sqrt_Rsqr_abs x). Qed.
Lemma pl_L_0 J R vT : pl_L 0 J R vT = Rabs (R * vT).
Proof. unfold pl_L. destruct (Req_EM_T 0 0) as [_|N]; [apply sqrt_sq_abs|exfalso; apply N; reflexivity]. Qed.
Lemma pl_L_g g J R vT : pl_L g J R vT = Rabs (R * vT) + g * J.
Proof. unfold pl_L. rewrite sqrt_sq_abs. destruct (Req_EM_T g 0) as [->|N]; ring. Qed.
Lemma pl_E_0 pot J R vR vT : pl_E pot 0 J R vR vT = pot R + vR ^ 2 / 2 + vT ^ 2 / 2.
Proof. unfold pl_E. destruct (Req_EM_T 0 0) as [_|N]; [reflexivity|exfalso; apply N; reflexivity]. Qed.
Lemma pl_E_g pot g J R vR vT : 0 < R -> pl_E pot g J R vR vT = pot R + vR ^ 2 / 2 + (pl_L g J R vT / R) ^ 2 / 2.
Proof.
  intros HR. assert (Q : Rabs (R * vT) ^ 2 = (R * vT) ^ 2) by (apply pow2_abs).
  destruct (Req_EM_T g 0) as [->|N].
  - rewrite pl_E_0, pl_L_0. replace ((Rabs (R * vT) / R) ^ 2) with (Rabs (R * vT) ^ 2 / R ^ 2) by (field; lra). rewrite Q. field. lra.
  - unfold pl_E. destruct (Req_EM_T g 0) as [X|_]; [contradiction|]. rewrite sqrt_sq_abs. replace ((Rabs (R * vT) / R) ^ 2) with (Rabs (R * vT) ^ 2 / R ^ 2) by (field; lra). rewrite Q. field. lra.
Qed.
Lemma pl_E_L pot R vR vT vT' g J : 0 < R -> pl_L g J R vT = Rabs (R * vT') -> pl_E pot g J R vR vT = pl_E pot 0 0 R vR vT'.
Proof. intros HR E. rewrite !pl_E_g by exact HR. rewrite E, pl_L_0. reflexivity. Qed.
(** gamma = 0, or no vertical action *)
Lemma planar_gamma pot epi circ g rp ra R vR vT phi : 0 < R -> planarAA pot epi circ g 0 rp ra R vR vT phi = planarAA pot epi circ 0 0 rp ra R vR vT phi.
Proof.
  intros HR. assert (E : pl_L g 0 R vT = Rabs (R * vT)) by (rewrite pl_L_g; ring). unfold planarAA. rewrite (pl_E_L pot R vR vT vT g 0 HR E), E, pl_L_0. reflexivity.
Qed.
Lemma planar_J0 pot epi circ J rp ra R vR vT phi : planarAA pot epi circ 0 J rp ra R vR vT phi = planarAA pot epi circ 0 0 rp ra R vR vT phi.
Proof. unfold planarAA. rewrite !pl_E_0, !pl_L_0. reflexivity. Qed.

(** ** Prograde orbits: the spherical case in the plane *)
Lemma init_plane pot R vR vT : 0 < R -> sph_init pot R vR vT 0 0 = mkSph R vR 0 (R * vT) (pl_E pot 0 0 R vR vT) (pl_L 0 0 R vT).
Proof.
  intros HR. rewrite pl_E_0, pl_L_0. unfold sph_init. replace (R ^ 2 + 0 ^ 2) with (R ^ 2) by ring. rewrite sqrt_pow2 by lra.
  replace (- 0 * vT * (- 0 * vT) + (0 * vR - R * 0) * (0 * vR - R * 0) + R * vT * (R * vT)) with (R * vT * (R * vT)) by ring. rewrite sqrt_sq_abs.
  f_equal; try field; lra.
Qed.
Lemma flat_pro R vT : 0 < R -> 0 < vT -> pl_flat R vT (pl_L 0 0 R vT) = true /\ acos (R * vT / pl_L 0 0 R vT) = 0.
Proof.
  intros HR HT. assert (P : 0 < R * vT) by (apply Rmult_lt_0_compat; assumption). rewrite pl_L_0, Rabs_right by lra. replace (R * vT / (R * vT)) with 1 by (field; lra). split; [|exact acos_1].
  unfold pl_flat. replace (R * vT / (R * vT)) with 1 by (field; lra). destruct (Req_EM_T 1 1) as [_|N]; [reflexivity|exfalso; apply N; reflexivity].
Qed.
Lemma planar_pro pot epi circ rp ra R vR vT phi : 0 < R -> 0 < vT -> planarAA pot epi circ 0 0 rp ra R vR vT phi =
  (let s := sphericalAA pot epi circ rp ra R vR vT 0 0 phi in mkPl (a_jr s) (a_lz s) (a_Or s) (a_Op s) (a_ar s) (a_ap s)).
Proof.
  intros HR HT. destruct (flat_pro R vT HR HT) as [Fl Ac]. unfold planarAA, sphericalAA. rewrite (init_plane pot R vR vT HR). cbn [s_r s_vr s_vth s_Lz s_E s_L a_jr a_lz a_Or a_Op a_ar a_ap].
  rewrite Fl. unfold calc_long_asc, calc_anglez, calc_psi. rewrite Ac, sin_0. destruct (Req_EM_T 0 0) as [_|N]; [|exfalso; apply N; reflexivity]. reflexivity.
Qed.
Lemma flat_retro R vT : 0 < R -> vT < 0 -> pl_flat R vT (pl_L 0 0 R vT) = false.
Proof.
  intros HR HT. assert (P : R * vT < 0) by nra. rewrite pl_L_0, Rabs_left by lra. unfold pl_flat. replace (R * vT / - (R * vT)) with (-1) by (field; lra). destruct (Req_EM_T (-1) 1) as [X|_]; [lra|reflexivity].
Qed.
(** ** Retrograde orbits: the mirror image of a prograde one *)
Lemma planar_retro pot epi circ rp ra R vR vT phi : 0 < R -> vT < 0 ->
  let p := planarAA pot epi circ 0 0 rp ra R vR vT phi in let q := planarAA pot epi circ 0 0 rp ra R vR (- vT) (- phi) in
  p_jr p = p_jr q /\ p_lz p = - p_lz q /\ p_Or p = p_Or q /\ p_Op p = - p_Op q /\ p_ar p = p_ar q /\ same_angle (p_ap p) (- p_ap q) /\ 0 <= p_ap p < 2 * PI.
Proof.
  intros HR HT p q. assert (HT' : 0 < - vT) by lra.
  assert (EL : pl_L 0 0 R vT = pl_L 0 0 R (- vT)) by (rewrite !pl_L_0, Ropp_mult_distr_r_reverse, Rabs_Ropp; reflexivity).
  assert (EE : pl_E pot 0 0 R vR vT = pl_E pot 0 0 R vR (- vT)) by (rewrite !pl_E_0; field).
  unfold p, q, planarAA. rewrite (flat_retro R vT HR HT), (proj1 (flat_pro R (- vT) HR HT')). rewrite <- EL, <- EE. cbn [p_jr p_lz p_Or p_Op p_ar p_ap].
  destruct (Rlt_dec vT 0) as [_|N]; [|lra]. destruct (Rlt_dec (- vT) 0) as [X|_]; [lra|].
  split; [reflexivity|]. split; [ring|]. split; [reflexivity|]. split; [reflexivity|]. split; [reflexivity|].
  split; [|apply modulo_range; pose proof PI_RGT_0; lra].
  unfold pl_asc, pl_psi. cbv beta iota.
  generalize (pl_wz pot (pl_E pot 0 0 R vR vT) (pl_L 0 0 R vT) rp ra (Rmean_of rp ra)
    (if Rlt_dec (calc_jr pot (pl_E pot 0 0 R vR vT) (pl_L 0 0 R vT) rp ra) (/ 10 ^ 9) then epi R else calc_or pot (pl_E pot 0 0 R vR vT) (pl_L 0 0 R vT) rp ra (Rmean_of rp ra))
    (if Rlt_dec (calc_jr pot (pl_E pot 0 0 R vR vT) (pl_L 0 0 R vT) rp ra) (/ 10 ^ 9) then circ R else calc_op pot (pl_E pot 0 0 R vR vT) (pl_L 0 0 R vT) rp ra (Rmean_of rp ra)
       (if Rlt_dec (calc_jr pot (pl_E pot 0 0 R vR vT) (pl_L 0 0 R vT) rp ra) (/ 10 ^ 9) then epi R else calc_or pot (pl_E pot 0 0 R vR vT) (pl_L 0 0 R vT) rp ra (Rmean_of rp ra))) R vR). intros w.
  match goal with |- same_angle (ActionAngle.modulo (_ - (- w + _ + ?k)) _) _ => generalize k end. intros k.
  destruct (modulo_same (phi - 0 - (- w + ActionAngle.modulo 0 (2 * PI) + k))) as [i I]. destruct (modulo_same 0) as [j J]. destruct (modulo_same (- phi - - phi + (- w + ActionAngle.modulo (- phi) (2 * PI) + k))) as [m Hm]. destruct (modulo_same (- phi)) as [n N].
  exists (i + m + n - j)%Z. rewrite minus_IZR, !plus_IZR. rewrite I, Hm, J, N. ring.
Qed.

(** ** Orbits in the plane *)
Lemma Rmean_gt rp ra : 0 < rp -> rp < ra -> rp < Rmean_of rp ra.
Proof.
  intros H0 H1. unfold Rmean_of. destruct (Rlt_dec 0 rp) as [_|N]; [|lra]. rewrite <- (exp_ln rp H0) at 1. apply exp_increasing. pose proof (ln_increasing rp ra H0 H1). lra.
Qed.
Lemma moves2_3 F R vR vT phi t : moves2 F R vR vT phi t -> moves (central_R F) (central_z F) R vR vT (fun _ => 0) (fun _ => 0) phi t.
Proof.
  intros (HR & D1 & D2 & D3 & D4). assert (Q : sqrt (R t ^ 2 + 0 ^ 2) = R t) by (replace (R t ^ 2 + 0 ^ 2) with (R t ^ 2) by ring; apply sqrt_pow2; lra).
  split; [exact HR|]. split; [exact D1|]. split; [apply is_derive_cst|]. split; [exact D2|]. split; [refine (is_derive_eq _ _ _ _ D3 _); unfold central_R; rewrite Q; rr; field; lra|]. split; [exact D4|].
  refine (is_derive_eq _ _ _ _ (is_derive_cst 0 t) _). unfold central_z. rr. unfold Rdiv. ring.
Qed.
Lemma moves2_mirror F R vR vT phi t : moves2 F R vR vT phi t -> moves2 F R vR (fun s => - vT s) (fun s => - phi s) t.
Proof.
  intros (HR & D1 & D2 & D3 & D4). split; [exact HR|]. split; [exact D1|]. split; [|split].
  - apply (is_derive_ext (fun s => -1 * phi s)); [intros s; rr; ring|]. refine (is_derive_eq _ _ _ _ (d_scale _ t (-1) _ D2) _). rr. field. lra.
  - refine (is_derive_eq _ _ _ _ D3 _). rr. field. lra.
  - apply (is_derive_ext (fun s => -1 * vT s)); [intros s; rr; ring|]. refine (is_derive_eq _ _ _ _ (d_scale _ t (-1) _ D4) _). rr. field. lra.
Qed.
Section Orbit.
  Variables (f F : RR -> RR) (R vR vT phi : RR -> RR) (a b t0 rp ra : RR).
  Hypotheses (HF : radial_force f F) (M : forall t, a < t < b -> moves2 F R vR vT phi t) (Ht0 : a < t0 < b).
  Let E := plane_energy f (R t0) (vR t0) (vT t0). Let Lz := R t0 * vT t0.
  Hypotheses (Hp : 0 < rp) (W : simple_well (sph_radial2 f E (Rabs Lz)) rp ra) (Hr : rp <= R t0 <= ra).
  Let M3 t (Ht : a < t < b) := moves2_3 F R vR vT phi t (M t Ht).
  Lemma lz_const t : a < t < b -> R t * vT t = Lz.
  Proof using M Ht0. intros Ht. exact (Lz_const F R vR vT (fun _ => 0) (fun _ => 0) phi a b M3 t t0 Ht Ht0). Qed.
  Lemma momentum_plane x y w : 0 < x -> sph_momentum x y w 0 0 = Rabs (x * w).
  Proof using. intros Hx. unfold sph_momentum. replace ((x * w) ^ 2 + (0 * w) ^ 2 + (0 * y - x * 0) ^ 2) with ((x * w) * (x * w)) by ring. apply sqrt_sq_abs. Qed.
  Lemma energy_plane x y w : 0 < x -> sph_energy f x y w 0 0 = plane_energy f x y w.
  Proof using. intros Hx. unfold sph_energy, plane_energy. replace (x ^ 2 + 0 ^ 2) with (x ^ 2) by ring. rewrite sqrt_pow2 by lra. field. Qed.
  Lemma radius_plane x : 0 < x -> sph_radius x 0 = x.
  Proof using. intros Hx. unfold sph_radius. replace (x ^ 2 + 0 ^ 2) with (x ^ 2) by ring. apply sqrt_pow2. lra. Qed.
  Lemma e_const t : a < t < b -> plane_energy f (R t) (vR t) (vT t) = E.
  Proof using M Ht0 HF.
    intros Ht. rewrite <- (energy_plane (R t)) by apply (M t Ht). unfold E. rewrite <- (energy_plane (R t0)) by apply (M t0 Ht0).
    exact (E_const f F R vR vT (fun _ => 0) (fun _ => 0) phi a b HF M3 t t0 Ht Ht0). Qed.
  Lemma plane_in t : a < t < b -> rp <= R t <= ra.
  Proof using M Ht0 HF W Hr.
    intros Ht. rewrite <- (radius_plane (R t)) by apply (M t Ht).
    apply (r_in f F R vR vT (fun _ => 0) (fun _ => 0) phi a b t0 rp ra HF M3 Ht0); [|rewrite radius_plane by apply (M t0 Ht0); exact Hr|exact Ht].
    rewrite energy_plane, momentum_plane by apply (M t0 Ht0). exact W.
  Qed.
  Lemma plane_speed t : a < t < b -> vR t ^ 2 = sph_radial2 f E (Rabs Lz) (R t).
  Proof using M Ht0 HF.
    intros Ht. rewrite <- (e_const t Ht), <- (lz_const t Ht). unfold sph_radial2, plane_energy. rewrite pow2_abs. destruct (M t Ht) as (HR & _). field. lra.
  Qed.
  Lemma pl_E_of t : a < t < b -> pl_E f 0 0 (R t) (vR t) (vT t) = E.
  Proof using M Ht0 HF. intros Ht. rewrite <- (e_const t Ht), pl_E_0. unfold plane_energy. field. Qed.
  Variables (epi circ : RR -> RR).
  Hypothesis (HL : Lz <> 0) (Hj : / 10 ^ 9 <= calc_jr f E (Rabs Lz) rp ra).
  Definition pl_result (Jr Or Op : RR) (tr tp : RR -> RR) : Prop :=
    0 < Or /\ 0 < Op /\
    (forall t, a < t < b -> planarAA f epi circ 0 0 rp ra (R t) (vR t) (vT t) (phi t) = mkPl Jr Lz Or (if Rlt_dec Lz 0 then - Op else Op) (tr t) (tp t) /\ 0 <= tr t < 2 * PI /\ 0 <= tp t < 2 * PI) /\
    (forall t t', a < t < b -> a < t' < b -> same_angle (tr t') (tr t + Or * (t' - t)) /\ same_angle (tp t') (tp t + (if Rlt_dec Lz 0 then - Op else Op) * (t' - t))) /\
    (forall t, a < t < b -> R t = rp -> same_angle (tr t) 0 /\ same_angle (tp t) (phi t)).
  Lemma at_peri t : a < t < b -> R t = rp -> same_angle (p_ar (planarAA f epi circ 0 0 rp ra (R t) (vR t) (vT t) (phi t))) 0 /\ same_angle (p_ap (planarAA f epi circ 0 0 rp ra (R t) (vR t) (vT t) (phi t))) (phi t).
  Proof using M Ht0 HF Hp W HL.
    intros Ht Er. pose proof (plane_speed t Ht) as Sp. destruct W as (LL & W0 & _). rewrite Er, W0 in Sp. assert (V0 : vR t = 0) by nra. pose proof (Rmean_gt rp ra Hp LL) as Hm.
    assert (HT : vT t <> 0). { intros X. apply HL. rewrite <- (lz_const t Ht), X. ring. }
    unfold planarAA. cbn [p_ar p_ap]. rewrite Er, V0.
    assert (A1 : forall E' L' Or, calc_angler f E' L' rp ra (Rmean_of rp ra) Or rp 0 = 0).
    { intros E' L' Or. unfold calc_angler. destruct (Rlt_dec rp (Rmean_of rp ra)) as [_|N]; [|lra]. destruct (Rlt_dec rp rp) as [X|_]; [lra|]. destruct (Rlt_dec 0 0) as [X|_]; [lra|reflexivity]. }
    assert (A2 : forall E' L' Or Op, pl_wz f E' L' rp ra (Rmean_of rp ra) Or Op rp 0 = 0).
    { intros E' L' Or Op. unfold pl_wz. destruct (Rlt_dec rp (Rmean_of rp ra)) as [_|N]; [|lra]. replace (rp - rp) with 0 by ring. rewrite sqrt_0. destruct (Req_EM_T 0 0) as [_|N]; [|exfalso; apply N; reflexivity]. destruct (Rlt_dec 0 0) as [X|_]; [lra|reflexivity]. }
    rewrite A1, A2. split; [apply modulo_same|].
    destruct (Rlt_dec (vT t) 0) as [Neg|Pos].
    - rewrite (flat_retro rp (vT t) Hp Neg). unfold pl_asc, pl_psi. cbv iota.
      match goal with |- same_angle (ActionAngle.modulo ?x _) _ => destruct (modulo_same x) as [i I] end. destruct (modulo_same 0) as [j J]. exists (i - j)%Z. rewrite minus_IZR, I, J. ring.
    - assert (PT : 0 < vT t) by lra. rewrite (proj1 (flat_pro rp (vT t) Hp PT)). unfold pl_asc, pl_psi. cbv iota.
      match goal with |- same_angle (ActionAngle.modulo ?x _) _ => destruct (modulo_same x) as [i I] end. destruct (modulo_same (phi t)) as [j J]. exists (i + j)%Z. rewrite plus_IZR, I, J. ring.
  Qed.
End Orbit.
Section Package.
  Variables (f F : RR -> RR) (epi circ : RR -> RR).
  Hypothesis (HF : radial_force f F).
  Lemma package_pro R vR vT phi a b t0 rp ra : (forall t, a < t < b -> moves2 F R vR vT phi t) -> a < t0 < b -> let E := plane_energy f (R t0) (vR t0) (vT t0) in let Lz := R t0 * vT t0 in
    0 < rp -> simple_well (sph_radial2 f E (Rabs Lz)) rp ra -> rp <= R t0 <= ra -> 0 < Lz -> / 10 ^ 9 <= calc_jr f E (Rabs Lz) rp ra -> exists Jr Or Op tr tp, pl_result f R vR vT phi a b t0 rp ra epi circ Jr Or Op tr tp.
  Proof using HF.
    intros M Ht0 E Lz Hp W Hr HL Hj. pose proof (proj1 (M t0 Ht0)) as HR0.
    destruct (C51_spherical_angles f F R vR vT (fun _ => 0) (fun _ => 0) phi a b t0 rp ra epi circ HF (fun t Ht => moves2_3 F R vR vT phi t (M t Ht)) Ht0) as (Jr & Or & Oz & tr & tp & tz & P1 & P2 & P3 & P4 & _).
    - exact Hp.
    - rewrite energy_plane, momentum_plane by exact HR0. exact W.
    - rewrite radius_plane by exact HR0. exact Hr.
    - rewrite momentum_plane by exact HR0. fold Lz. rewrite Rabs_right by lra. lra.
    - rewrite energy_plane, momentum_plane by exact HR0. exact Hj.
    - exists Jr, Or, Oz, tr, tp. fold Lz in P3, P4. unfold pl_result. fold Lz. split; [exact P1|]. split; [exact P2|].
      assert (V : forall t, a < t < b -> planarAA f epi circ 0 0 rp ra (R t) (vR t) (vT t) (phi t) = mkPl Jr Lz Or (if Rlt_dec Lz 0 then - Oz else Oz) (tr t) (tp t)).
      { intros t Ht. destruct (P3 t Ht) as [Q _]. assert (HR := proj1 (M t Ht)). assert (HT : 0 < vT t). { pose proof (lz_const F R vR vT phi a b t0 M Ht0 t Ht) as X. fold Lz in X. nra. } rewrite planar_pro by assumption. cbv zeta. rewrite Q. reflexivity. }
      split; [|split].
      + intros t Ht. split; [exact (V t Ht)|]. destruct (P3 t Ht) as (_ & B1 & B2 & _). split; assumption.
      + intros t t' Ht Ht'. destruct (P4 t t' Ht Ht') as (B1 & B2 & _). split; assumption.
      + intros t Ht Er. assert (HL' : R t0 * vT t0 <> 0) by (fold Lz; lra). pose proof (at_peri f F R vR vT phi a b t0 rp ra HF M Ht0 Hp W epi circ HL' t Ht Er) as K. rewrite (V t Ht) in K. exact K.
  Qed.
  Lemma package R vR vT phi a b t0 rp ra : (forall t, a < t < b -> moves2 F R vR vT phi t) -> a < t0 < b -> let E := plane_energy f (R t0) (vR t0) (vT t0) in let Lz := R t0 * vT t0 in
    0 < rp -> simple_well (sph_radial2 f E (Rabs Lz)) rp ra -> rp <= R t0 <= ra -> Lz <> 0 -> / 10 ^ 9 <= calc_jr f E (Rabs Lz) rp ra -> exists Jr Or Op tr tp, pl_result f R vR vT phi a b t0 rp ra epi circ Jr Or Op tr tp.
  Proof using HF.
    intros M Ht0 E Lz Hp W Hr HL Hj. destruct (Rlt_dec 0 Lz) as [Pos|Neg]; [exact (package_pro R vR vT phi a b t0 rp ra M Ht0 Hp W Hr Pos Hj)|].
    assert (HL' : Lz < 0) by (destruct (Rtotal_order Lz 0) as [X|[X|X]]; [exact X|contradiction|lra]).
    assert (EL : R t0 * - vT t0 = - Lz) by (unfold Lz; ring). assert (EE : plane_energy f (R t0) (vR t0) (- vT t0) = E) by (unfold E, plane_energy; field).
    destruct (package_pro R vR (fun s => - vT s) (fun s => - phi s) a b t0 rp ra (fun t Ht => moves2_mirror F R vR vT phi t (M t Ht)) Ht0 Hp) as (Jr & Or & Op & tr & tp & P1 & P2 & P3 & P4 & _).
    - rewrite EE, EL, Rabs_Ropp. exact W.
    - exact Hr.
    - rewrite EL. lra.
    - rewrite EE, EL, Rabs_Ropp. exact Hj.
    - rewrite EL in P3, P4. destruct (Rlt_dec (- Lz) 0) as [X|_]; [lra|].
      set (tp' := fun t => p_ap (planarAA f epi circ 0 0 rp ra (R t) (vR t) (vT t) (phi t))).
      assert (V : forall t, a < t < b -> planarAA f epi circ 0 0 rp ra (R t) (vR t) (vT t) (phi t) = mkPl Jr Lz Or (- Op) (tr t) (tp' t) /\ same_angle (tp' t) (- tp t) /\ 0 <= tp' t < 2 * PI).
      { intros t Ht. assert (HR := proj1 (M t Ht)). assert (HT : vT t < 0). { pose proof (lz_const F R vR vT phi a b t0 M Ht0 t Ht) as X. fold Lz in X. nra. }
        destruct (planar_retro f epi circ rp ra (R t) (vR t) (vT t) (phi t) HR HT) as (B1 & B2 & B3 & B4 & B5 & B6 & B7). destruct (P3 t Ht) as [Q _]. rewrite Q in B1, B2, B3, B4, B5, B6. cbn [p_jr p_lz p_Or p_Op p_ar p_ap] in *. rewrite Ropp_involutive in B2.
        split; [|split; assumption]. unfold tp'. destruct (planarAA f epi circ 0 0 rp ra (R t) (vR t) (vT t) (phi t)) as [x1 x2 x3 x4 x5 x6]. cbn [p_jr p_lz p_Or p_Op p_ar p_ap] in *. rewrite B1, B2, B3, B4, B5. reflexivity. }
      exists Jr, Or, Op, tr, tp'. unfold pl_result. fold Lz. destruct (Rlt_dec Lz 0) as [_|N]; [|contradiction]. split; [exact P1|]. split; [exact P2|]. split; [|split].
      + intros t Ht. destruct (V t Ht) as (V1 & V2 & V3). split; [exact V1|]. destruct (P3 t Ht) as (_ & B1 & _). split; assumption.
      + intros t t' Ht Ht'. destruct (P4 t t' Ht Ht') as (B1 & [k K]). split; [exact B1|]. destruct (V t Ht) as (_ & [i I] & _). destruct (V t' Ht') as (_ & [j J] & _). exists (j - k - i)%Z. rewrite !minus_IZR, I, J, K. ring.
      + intros t Ht Er. pose proof (at_peri f F R vR vT phi a b t0 rp ra HF M Ht0 Hp W epi circ HL t Ht Er) as K. rewrite (proj1 (V t Ht)) in K. exact K.
  Qed.
End Package.

(** ** The C quadratures *)
Lemma subst_sqrt (g : RR -> RR) (h dh : RR -> RR) (x0 x1 : RR) : x0 <= x1 -> (forall x, x0 <= x <= x1 -> is_derive h x (dh x) /\ continuous dh x) -> (forall x, x0 <= x <= x1 -> continuous g (h x)) ->
  RInt (fun x => if Rle_dec (g (h x)) 0 then 0 else sqrt (g (h x)) * dh x) x0 x1 * sqrt 2 = RInt (fun y => sqrt (2 * g y)) (h x0) (h x1).
Proof.
  intros H01 Hh Hg.
  assert (I : is_RInt (fun x => dh x * sqrt (2 * g (h x))) x0 x1 (RInt (fun y => sqrt (2 * g y)) (h x0) (h x1))).
  { apply (is_RInt_comp (V := R_CompleteNormedModule) (fun y => sqrt (2 * g y)) h dh x0 x1).
    - intros x Hx. rewrite Rmin_left, Rmax_right in Hx by lra. apply (continuous_comp (fun y => 2 * g y) sqrt); [|apply continuous_sqrt]. apply (continuous_scal_r (V := R_NormedModule) 2 g). apply Hg. exact Hx.
    - intros x Hx. rewrite Rmin_left, Rmax_right in Hx by lra. apply Hh. exact Hx. }
  rewrite Rmult_comm. assert (Q : 0 < sqrt 2) by (apply sqrt_lt_R0; lra).
  assert (J : is_RInt (fun x => if Rle_dec (g (h x)) 0 then 0 else sqrt (g (h x)) * dh x) x0 x1 (/ sqrt 2 * RInt (fun y => sqrt (2 * g y)) (h x0) (h x1))).
  { apply (is_RInt_ext (V := R_NormedModule) (fun x => scal (/ sqrt 2) (dh x * sqrt (2 * g (h x))))); [|exact (is_RInt_scal (V := R_NormedModule) _ _ _ (/ sqrt 2) _ I)].
    intros x _. unfold scal; simpl; unfold mult; simpl. destruct (Rle_dec (g (h x)) 0) as [N|P]; [rewrite (sqrt_neg_0 (2 * g (h x))) by lra; rr; ring|]. rewrite sqrt_mult by lra. rr. field. lra. }
  etransitivity; [exact (f_equal (Rmult (sqrt 2)) (is_RInt_unique _ _ _ _ J))|]. rr. field. lra.
Qed.
Lemma cJR_int Phi rp ra E L : 0 < rp -> rp < ra -> (forall r, 0 < r -> continuous (fun r => Phi r 0) r) -> / 10 ^ 6 <= (ra - rp) / ra -> cJR Phi rp ra E L = calc_jr (fun r => Phi r 0) E L rp ra.
Proof.
  intros H0 H1 HC HT. unfold cJR. destruct (Req_EM_T rp (-999999 / 100)) as [X|_]; [lra|]. destruct (Req_EM_T ra (-999999 / 100)) as [X|_]; [lra|]. destruct (Rlt_dec ((ra - rp) / ra) (/ 10 ^ 6)) as [X|_]; [lra|]. cbv zeta.
  set (cc := 1 / 2 * (ra + rp)). set (k := 1 / 2 * (ra - rp)). assert (Hk : 0 < k) by (unfold k; lra). pose proof PI_RGT_0 as HP.
  set (g := fun r => E - Phi r 0 - 1 / 2 * L * L / (r * r)). set (h := fun th => cc - k * cos th).
  assert (R : forall th, rp <= h th). { intros th. unfold h, cc, k. pose proof (COS_bound th). nra. }
  assert (K := subst_sqrt g h (fun th => k * sin th) 0 PI ltac:(lra)).
  assert (E1 : RInt (fun th => if Rle_dec (c_FR Phi E L cc k th) 0 then 0 else sqrt (c_FR Phi E L cc k th) * k * sin th) 0 PI = RInt (fun x => if Rle_dec (g (h x)) 0 then 0 else sqrt (g (h x)) * (k * sin x)) 0 PI).
  { apply RInt_ext. intros x _. change (c_FR Phi E L cc k x) with (g (h x)). destruct (Rle_dec (g (h x)) 0); rr; ring. }
  rewrite E1, K.
  - unfold h at 1 2. rewrite cos_0, cos_PI. replace (cc - k * 1) with rp by (unfold cc, k; field). replace (cc - k * -1) with ra by (unfold cc, k; field). unfold calc_jr. f_equal. apply RInt_ext. intros r Hr. rewrite Rmin_left, Rmax_right in Hr by lra.
    unfold JrIntegrand, g. f_equal. field. lra.
  - intros x _. split; [unfold h; auto_derive; [exact I|rr; ring]|]. apply (continuous_scal_r (V := R_NormedModule) k sin). apply continuous_sin.
  - intros x _. pose proof (R x). unfold g. apply (continuous_minus (V := R_NormedModule) (fun r => E - Phi r 0) (fun r => 1 / 2 * L * L / (r * r))).
    + apply (continuous_minus (V := R_NormedModule) (fun _ => E) (fun r => Phi r 0)); [apply continuous_const|apply HC; lra].
    + apply (ex_derive_continuous (V := R_NormedModule)). auto_derive. nra.
Qed.
Lemma cJz_int Phi R E zmax : / 10 ^ 6 <= zmax -> (forall z, continuous (Phi R) z) -> cJz Phi R E zmax = v_J (vertical_of Phi R) zmax E.
Proof.
  intros HT HC. unfold cJz. assert (0 < / 10 ^ 6) by (apply Rinv_0_lt_compat, pow_lt; lra). destruct (Req_EM_T zmax (-999999 / 100)) as [X|_]; [lra|]. destruct (Rlt_dec zmax (/ 10 ^ 6)) as [X|_]; [lra|]. pose proof PI_RGT_0 as HP.
  set (g := fun z => E - c_vert Phi R z). set (h := fun th => zmax * sin th).
  assert (K := subst_sqrt g h (fun th => zmax * cos th) 0 (1 / 2 * PI) ltac:(lra)).
  assert (E1 : RInt (fun th => if Rle_dec (c_Fz Phi R E zmax th) 0 then 0 else sqrt (c_Fz Phi R E zmax th) * zmax * cos th) 0 (1 / 2 * PI) = RInt (fun x => if Rle_dec (g (h x)) 0 then 0 else sqrt (g (h x)) * (zmax * cos x)) 0 (1 / 2 * PI)).
  { apply RInt_ext. intros x _. change (c_Fz Phi R E zmax x) with (g (h x)). destruct (Rle_dec (g (h x)) 0); rr; ring. }
  rewrite E1. match goal with |- ?i * 2 * sqrt 2 / PI = _ => replace (i * 2 * sqrt 2 / PI) with (2 * (i * sqrt 2) / PI) by (unfold Rdiv; ring) end. rewrite K.
  - unfold h at 1 2. rewrite sin_0. replace (1 / 2 * PI) with (PI / 2) by field. rewrite sin_PI2, Rmult_0_r, Rmult_1_r. unfold v_J. reflexivity.
  - intros x _. split; [unfold h; auto_derive; [exact I|rr; ring]|]. apply (continuous_scal_r (V := R_NormedModule) zmax cos). apply continuous_cos.
  - intros x _. unfold g, c_vert. apply (continuous_minus (V := R_NormedModule) (fun _ => E) (fun z => Phi R z - Phi R 0)); [apply continuous_const|]. apply (continuous_minus (V := R_NormedModule) (Phi R) (fun _ => Phi R 0)); [apply HC|apply continuous_const].
Qed.
Lemma many_map {A B : Type} (one : A -> B) l : ad_many one l = List.map one l.
Proof.
  unfold ad_many. assert (G : forall l acc, fold_left (fun acc x => acc ++ one x :: nil) l acc = acc ++ List.map one l).
  { clear. induction l as [|x l IH]; intros acc; cbn [fold_left List.map]; [rewrite app_nil_r; reflexivity|]. rewrite IH, <- app_assoc. reflexivity. }
  apply G.
Qed.
