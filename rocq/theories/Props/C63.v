(** * C63: action-angle variables in the adiabatic approximation *)
From Coq Require Import Reals Lra Lia ZArith List FunctionalExtensionality.
From Coquelicot Require Import Coquelicot.
From Verif.Lib Require Import RealAux.
From Verif.Model Require Import Spherical Adiabatic.
From Verif.Spec Require Import ActionAngleSpec StaeckelSpec SphericalSpec AdiabaticSpec.
From Verif.Proofs Require Import AngleProofs EOMProofs StaeckelProofs KuzminKutuzovProofs StaeckelParts Libration ChiPrim SubstPrim SphericalOrbit SphericalAngles VerticalAngles AdiabaticProofs.
From Verif.Props Require Import C51.
Open Scope R_scope.
Notation RR := RbaseSymbolsImpl.R (only parsing).
Ltac rr := match goal with |- ?a = ?b => change (@eq RR a b) end.

(** ** Potentials in which the two motions are independent *)
Lemma moves_2 F1 F2 R vR vT z vz phi t : moves (fun R _ => F1 R) (fun _ z => F2 z) R vR vT z vz phi t -> moves2 F1 R vR vT phi t /\ moves1 F2 z vz t.
Proof. intros (HR & D1 & D2 & D3 & D4 & D5 & D6). split; [exact (conj HR (conj D1 (conj D3 (conj D4 D5))))|exact (conj D2 D6)]. Qed.
Lemma vertical_sep (f g : RR -> RR) (R : RR) : g 0 = 0 -> vertical_of (fun R z => f R + g z) R = g.
Proof. intros G0. apply functional_extensionality. intros z. unfold vertical_of. rewrite G0. ring. Qed.
Lemma plane_sep (f g : RR -> RR) nu : g 0 = 0 -> plane_of (Pot3 (fun R z => f R + g z) nu) = f.
Proof. intros G0. apply functional_extensionality. intros R. cbn [plane_of]. rewrite G0. ring. Qed.
(** With gamma = 0 the approximation is exact in such a potential: along every orbit, prograde or retrograde, that swings between simple turning points in both directions, the actions and frequencies
    are the same at every time and the angles lie in [0, 2 pi) and advance linearly, each at its frequency; they are counted from pericentre and from the upward passage through the plane. *)
Theorem C63_separable : forall f F1 g F2 (R vR vT z vz phi : RR -> RR) (a b t0 rperi rap zmax : RR) nu epi circ,
  radial_force f F1 -> (forall s, is_derive g s (- F2 s)) -> (forall s, g (- s) = g s) -> g 0 = 0 ->
  (forall t, a < t < b -> moves (fun R _ => F1 R) (fun _ z => F2 z) R vR vT z vz phi t) -> a < t0 < b ->
  let Phi := fun R z => f R + g z in let ER := plane_energy f (R t0) (vR t0) (vT t0) in let Lz := R t0 * vT t0 in let Ez := vz t0 ^ 2 / 2 + g (z t0) in
  0 < rperi -> simple_well (sph_radial2 f ER (Rabs Lz)) rperi rap -> rperi <= R t0 <= rap -> simple_well (fun s => 2 * (Ez - g s)) (- zmax) zmax -> Rabs (z t0) <= zmax ->
  Lz <> 0 -> / 10 ^ 9 <= calc_jr f ER (Rabs Lz) rperi rap ->
  exists Jr Jz Or Op Oz (tr tp tz : RR -> RR), 0 < Or /\ 0 < Op /\ 0 < Oz /\
    (forall t, a < t < b -> ad_all (Pot3 Phi nu) epi circ 0 zmax rperi rap (R t) (vR t) (vT t) (z t) (vz t) (phi t) = Some (mkAA9 Jr Lz Jz Or (if Rlt_dec Lz 0 then - Op else Op) Oz (tr t) (tp t) (tz t)) /\
       ad_actions (Pot3 Phi nu) epi circ 0 zmax rperi rap (R t) (vR t) (vT t) (z t) (vz t) = (Jr, Lz, Jz) /\
       0 <= tr t < 2 * PI /\ 0 <= tp t < 2 * PI /\ 0 <= tz t < 2 * PI) /\
    (forall t t', a < t < b -> a < t' < b -> same_angle (tr t') (tr t + Or * (t' - t)) /\ same_angle (tp t') (tp t + (if Rlt_dec Lz 0 then - Op else Op) * (t' - t)) /\ same_angle (tz t') (tz t + Oz * (t' - t))) /\
    (forall t, a < t < b -> R t = rperi -> same_angle (tr t) 0 /\ same_angle (tp t) (phi t)) /\
    (forall t, a < t < b -> z t = 0 -> 0 < vz t -> same_angle (tz t) 0) /\
    (forall t1 t2, a < t1 < b -> a < t2 < b -> t1 < t2 -> z t1 = - zmax -> z t2 = zmax -> (forall t, t1 < t < t2 -> 0 < vz t) -> is_RInt (fun t => vz t ^ 2) t1 t2 (PI * Jz)).
Proof.
  intros f F1 g F2 R vR vT z vz phi a b t0 rp ra zm nu epi circ HF HG Ev G0 M Ht0 Phi ER Lz Ez Hp W Hr Wz Hz HL Hj.
  assert (M2 : forall t, a < t < b -> moves2 F1 R vR vT phi t) by (intros t Ht; exact (proj1 (moves_2 _ _ _ _ _ _ _ _ _ (M t Ht)))).
  assert (M1 : forall t, a < t < b -> moves1 F2 z vz t) by (intros t Ht; exact (proj2 (moves_2 _ _ _ _ _ _ _ _ _ (M t Ht)))).
  destruct (package f F1 epi circ HF R vR vT phi a b t0 rp ra M2 Ht0 Hp W Hr HL Hj) as (Jr & Or & Op & tr & tp & P1 & P2 & P3 & P4 & P5).
  destruct (C51_vertical_angles g F2 z vz a b t0 zm HG Ev M1 Ht0 Wz Hz) as (J & Om & ang & Q1 & Q2 & Q3 & Q4 & Q5).
  exists Jr, J, Or, Op, Om, tr, tp, ang. split; [exact P1|]. split; [exact P2|]. split; [exact Q1|]. fold Lz in P3, P4.
  assert (Zm : 0 < zm). { destruct Wz as (X & _). lra. }
  split; [|split; [|split; [|split]]].
  - intros t Ht. destruct (P3 t Ht) as (V1 & V2 & V3). destruct (Q2 t Ht) as (V4 & V5 & _).
    assert (Vt : ad_vertical (Pot3 Phi nu) zm (R t) (z t) (vz t) = Some (J, Om, ang t)).
    { unfold ad_vertical. rewrite (vertical_sep f g (R t) G0 : vertical_of Phi (R t) = g). rewrite V4. destruct (Req_EM_T (z t) 0) as [Z0|]; [|reflexivity]. destruct (Req_EM_T (vz t) 0) as [Vz0|]; [|reflexivity]. exfalso.
      pose proof (v_S g F2 z vz a b t0 HG M1 Ht0 t Ht) as K. rewrite Z0, Vz0 in K. destruct Wz as (_ & _ & _ & Pos & _). specialize (Pos 0 ltac:(lra)). unfold Ez in Pos. unfold v_E in K. lra. }
    assert (Ja : ad_Jz (Pot3 Phi nu) zm (R t) (z t) (vz t) = J).
    { unfold ad_Jz. rewrite (vertical_sep f g (R t) G0 : vertical_of Phi (R t) = g). unfold verticalAA in V4. injection V4 as V4 _ _. exact V4. }
    split; [|split; [|split; [exact V2|split; [exact V3|exact V5]]]].
    + unfold ad_all. rewrite Vt. rewrite (plane_sep f g nu G0 : plane_of (Pot3 Phi nu) = f). cbn [gamma_of]. rewrite planar_J0, V1. reflexivity.
    + unfold ad_actions. cbv zeta. rewrite Ja, (plane_sep f g nu G0 : plane_of (Pot3 Phi nu) = f). cbn [gamma_of]. rewrite planar_J0.
      assert (X : forall ph, p_jr (planarAA f epi circ 0 0 rp ra (R t) (vR t) (vT t) ph) = p_jr (planarAA f epi circ 0 0 rp ra (R t) (vR t) (vT t) (phi t)) /\ p_lz (planarAA f epi circ 0 0 rp ra (R t) (vR t) (vT t) ph) = p_lz (planarAA f epi circ 0 0 rp ra (R t) (vR t) (vT t) (phi t))) by (intros ph; split; reflexivity).
      rewrite (proj1 (X 0)), (proj2 (X 0)), V1. reflexivity.
  - intros t t' Ht Ht'. destruct (P4 t t' Ht Ht') as [B1 B2]. split; [exact B1|]. split; [exact B2|exact (Q3 t t' Ht Ht')].
  - exact P5.
  - exact Q4.
  - intros t1 t2 H1 H2 H3 H4 H5 H6. exact (proj1 (Q5 t1 t2 H1 H2 H3 H4 H5 H6)).
Qed.
(** The eccentricity, the largest height and the radii returned are those of the orbit: it stays between the spheres of radius rperi and rap and below zmax. *)
Theorem C63_extent : forall f F1 g F2 (R vR vT z vz phi : RR -> RR) (a b t0 rperi Rap zmax : RR) nu,
  radial_force f F1 -> (forall s, is_derive g s (- F2 s)) -> (forall s, g (- s) = g s) -> g 0 = 0 ->
  (forall t, a < t < b -> moves (fun R _ => F1 R) (fun _ z => F2 z) R vR vT z vz phi t) -> a < t0 < b ->
  let Phi := fun R z => f R + g z in let ER := plane_energy f (R t0) (vR t0) (vT t0) in let Lz := R t0 * vT t0 in let Ez := vz t0 ^ 2 / 2 + g (z t0) in
  0 < rperi -> simple_well (sph_radial2 f ER (Rabs Lz)) rperi Rap -> rperi <= R t0 <= Rap -> simple_well (fun s => 2 * (Ez - g s)) (- zmax) zmax -> Rabs (z t0) <= zmax ->
  exists e rap, ad_ecc (Pot3 Phi nu) zmax rperi Rap = (e, zmax, rperi, rap) /\ 0 < e < 1 /\ e = (rap - rperi) / (rap + rperi) /\
    forall t, a < t < b -> rperi <= sqrt (R t ^ 2 + z t ^ 2) <= rap /\ Rabs (z t) <= zmax.
Proof.
  intros f F1 g F2 R vR vT z vz phi a b t0 rp ra zm nu HF HG Ev G0 M Ht0 Phi ER Lz Ez Hp W Hr Wz Hz.
  assert (M2 : forall t, a < t < b -> moves2 F1 R vR vT phi t) by (intros t Ht; exact (proj1 (moves_2 _ _ _ _ _ _ _ _ _ (M t Ht)))).
  assert (M1 : forall t, a < t < b -> moves1 F2 z vz t) by (intros t Ht; exact (proj2 (moves_2 _ _ _ _ _ _ _ _ _ (M t Ht)))).
  assert (Zm : 0 < zm) by (destruct Wz as (X & _); lra). assert (LL : rp < ra) by apply W.
  assert (Big : ra < sqrt (ra ^ 2 + zm ^ 2)). { rewrite <- (sqrt_pow2 ra) at 1 by lra. apply sqrt_lt_1; nra. }
  eexists. eexists. split; [reflexivity|]. split; [|split; [reflexivity|]].
  - split; [apply Rdiv_lt_0_compat; lra|]. apply (Rmult_lt_reg_r (sqrt (ra ^ 2 + zm ^ 2) + rp)); [lra|]. unfold Rdiv. rewrite Rmult_assoc, Rinv_l by lra. lra.
  - intros t Ht. pose proof (plane_in f F1 R vR vT phi a b t0 rp ra HF M2 Ht0 W Hr t Ht) as B.
    pose proof (v_in g F2 z vz a b t0 zm HG M1 Ht0 Wz Hz t Ht) as C. split; [|apply Rabs_le; exact C]. split.
    + rewrite <- (sqrt_pow2 rp) by lra. apply sqrt_le_1_alt. nra.
    + apply sqrt_le_1_alt. assert (z t ^ 2 <= zm ^ 2) by nra. assert (R t ^ 2 <= ra ^ 2) by nra. lra.
Qed.

(** ** Orbits in the plane *)
(** In every potential, with every gamma, along every orbit in the plane: jr, lz and the frequencies and angles of the motion in the plane are exact; the vertical action and angle are 0 and the vertical frequency is the one at the present radius. *)
Theorem C63_planar : forall Phi F nu gamma (R vR vT phi : RR -> RR) (a b t0 rperi rap : RR) zmax epi circ,
  let f := fun R => Phi R 0 in radial_force f F -> (forall t, a < t < b -> moves2 F R vR vT phi t) -> a < t0 < b ->
  let ER := plane_energy f (R t0) (vR t0) (vT t0) in let Lz := R t0 * vT t0 in
  0 < rperi -> simple_well (sph_radial2 f ER (Rabs Lz)) rperi rap -> rperi <= R t0 <= rap -> Lz <> 0 -> / 10 ^ 9 <= calc_jr f ER (Rabs Lz) rperi rap ->
  exists Jr Or Op (tr tp : RR -> RR), 0 < Or /\ 0 < Op /\
    (forall t, a < t < b -> ad_all (Pot3 Phi nu) epi circ gamma zmax rperi rap (R t) (vR t) (vT t) 0 0 (phi t) = Some (mkAA9 Jr Lz 0 Or (if Rlt_dec Lz 0 then - Op else Op) (nu (R t)) (tr t) (tp t) 0) /\
       0 <= tr t < 2 * PI /\ 0 <= tp t < 2 * PI) /\
    (forall t t', a < t < b -> a < t' < b -> same_angle (tr t') (tr t + Or * (t' - t)) /\ same_angle (tp t') (tp t + (if Rlt_dec Lz 0 then - Op else Op) * (t' - t))) /\
    (forall t, a < t < b -> R t = rperi -> same_angle (tr t) 0 /\ same_angle (tp t) (phi t)).
Proof.
  intros Phi F nu gamma R vR vT phi a b t0 rp ra zm epi circ f HF M Ht0 ER Lz Hp W Hr HL Hj.
  destruct (package f F epi circ HF R vR vT phi a b t0 rp ra M Ht0 Hp W Hr HL Hj) as (Jr & Or & Op & tr & tp & P1 & P2 & P3 & P4 & P5). fold Lz in P3, P4.
  exists Jr, Or, Op, tr, tp. split; [exact P1|]. split; [exact P2|]. split; [|split; [exact P4|exact P5]].
  intros t Ht. destruct (P3 t Ht) as (V1 & V2 & V3). split; [|split; assumption]. unfold ad_all, ad_vertical. destruct (Req_EM_T 0 0) as [_|N]; [|exfalso; apply N; reflexivity]. cbn [plane_of gamma_of]. fold f.
  rewrite (planar_gamma f epi circ gamma) by apply (M t Ht). rewrite V1. reflexivity.
Qed.
(** A circular orbit in the plane: the radial action is 0 and the frequencies are the epicycle frequency and, with the sense of the rotation, the circular frequency at its radius. *)
Theorem C63_circular : forall Phi nu gamma epi circ zmax R vT phi, 0 < R -> exists ar ap, ad_all (Pot3 Phi nu) epi circ gamma zmax R R R 0 vT 0 0 phi = Some (mkAA9 0 (R * vT) 0 (epi R) (if Rlt_dec vT 0 then - circ R else circ R) (nu R) ar ap 0).
Proof.
  intros Phi nu gamma epi circ zm R vT phi HR. unfold ad_all, ad_vertical. destruct (Req_EM_T 0 0) as [_|N]; [|exfalso; apply N; reflexivity]. cbn [plane_of gamma_of]. eexists. eexists. rewrite planar_gamma by exact HR. unfold planarAA. cbv zeta. cbn [p_jr p_lz p_Or p_Op p_ar p_ap].
  assert (J0 : forall E L, calc_jr (fun r => Phi r 0) E L R R = 0) by (intros E L; unfold calc_jr; rewrite RInt_point; unfold zero; simpl; unfold Rdiv; ring). rewrite !J0. destruct (Rlt_dec 0 (/ 10 ^ 9)) as [_|N]; [reflexivity|exfalso; apply N, Rinv_0_lt_compat, pow_lt; lra].
Qed.
(** The three methods agree on the actions: for a star at rest in the plane zmax is 0. *)
Theorem C63_actions_agree : forall Phi nu epi circ gamma zmax rperi rap R vR vT z vz phi, (z = 0 -> vz = 0 -> zmax = 0) ->
  exists r, ad_all (Pot3 Phi nu) epi circ gamma zmax rperi rap R vR vT z vz phi = Some r /\ ad_actions (Pot3 Phi nu) epi circ gamma zmax rperi rap R vR vT z vz = (a_jr r, a_lz r, a_jz r).
Proof.
  intros Phi nu epi circ gamma zm rp ra R vR vT z vz phi H. unfold ad_all, ad_vertical, ad_actions, ad_Jz. destruct (Req_EM_T z 0) as [Z0|]; [destruct (Req_EM_T vz 0) as [V0|]|]; (eexists; split; [reflexivity|]); [|reflexivity|reflexivity].
  rewrite (H Z0 V0). unfold v_J. rewrite RInt_point. unfold zero; simpl. replace (2 * 0 / PI) with 0 by (unfold Rdiv; ring). reflexivity.
Qed.
(** A potential in the plane: the actions are those of the motion in the plane whatever gamma was asked for, and the vertical action is 0; frequencies and angles cannot be asked for. *)
Theorem C63_plane_potential : forall f epi circ gamma zmax rperi rap R vR vT z vz phi,
  ad_actions (Pot2 f) epi circ gamma zmax rperi rap R vR vT z vz = (calc_jr f (plane_energy f R vR vT) (Rabs (R * vT)) rperi rap, R * vT, 0) /\
  ad_all (Pot2 f) epi circ gamma zmax rperi rap R vR vT z vz phi = None /\
  (0 <= rap -> ad_ecc (Pot2 f) zmax rperi rap = ((rap - rperi) / (rap + rperi), 0, rperi, rap)).
Proof.
  intros f epi circ gamma zm rp ra R vR vT z vz phi. split; [|split; [reflexivity|intros Hr; unfold ad_ecc; cbv zeta; replace (ra ^ 2 + 0 ^ 2) with (ra ^ 2) by ring; rewrite sqrt_pow2 by exact Hr; reflexivity]]. unfold ad_actions. cbn [ad_Jz plane_of gamma_of]. unfold planarAA. cbn [p_jr p_lz]. rewrite pl_E_0, pl_L_0. unfold plane_energy. replace (f R + vR ^ 2 / 2 + vT ^ 2 / 2) with (f R + (vR ^ 2 + vT ^ 2) / 2) by field. reflexivity.
Qed.

(** ** The parameter gamma *)
(** The motion in the plane is the one through the same point with the same radial velocity and the angular momentum |Lz| + gamma Jz: the radial action, frequency and angle and the size of the azimuthal frequency are those of that
    orbit, and the squared radial velocity they are integrals of is the star's at its radius. *)
Theorem C63_gamma : forall Phi nu epi circ gamma zmax rperi rap R vR vT z vz phi r, 0 < R -> ad_all (Pot3 Phi nu) epi circ gamma zmax rperi rap R vR vT z vz phi = Some r ->
  let f := fun R => Phi R 0 in let L := Rabs (R * vT) + gamma * a_jz r in 0 < L ->
  let q := planarAA f epi circ 0 0 rperi rap R vR (L / R) phi in
  a_lz r = R * vT /\ a_jr r = p_jr q /\ a_Or r = p_Or q /\ a_Op r = (if Rlt_dec vT 0 then - p_Op q else p_Op q) /\ a_ar r = p_ar q /\
  a_jr r = RInt (fun x => sqrt (sph_radial2 f (plane_energy f R vR (L / R)) L x)) rperi rap / PI /\ sph_radial2 f (plane_energy f R vR (L / R)) L R = vR ^ 2.
Proof.
  intros Phi nu epi circ gamma zm rp ra R vR vT z vz phi r HR Er f L HL q. unfold ad_all in Er. destruct (ad_vertical (Pot3 Phi nu) zm R z vz) as [[[Jz Oz] az]|]; [|discriminate]. injection Er as <-. cbn [a_jz] in L. cbn [a_lz a_jr a_Or a_Op a_ar plane_of gamma_of]. fold f.
  assert (LR : Rabs (R * (L / R)) = L) by (replace (R * (L / R)) with L by (field; lra); apply Rabs_right; lra).
  assert (E1 : pl_L gamma Jz R vT = L) by (apply pl_L_g). assert (E2 : pl_E f gamma Jz R vR vT = pl_E f 0 0 R vR (L / R)) by (apply pl_E_L; [exact HR|rewrite LR; exact E1]).
  assert (E3 : pl_L 0 0 R (L / R) = L) by (rewrite pl_L_0; exact LR). assert (E4 : pl_E f 0 0 R vR (L / R) = plane_energy f R vR (L / R)) by (rewrite pl_E_0; unfold plane_energy; field; lra).
  assert (PL : 0 < L / R) by (apply Rdiv_lt_0_compat; assumption).
  unfold q, planarAA. cbn [p_jr p_lz p_Or p_Op p_ar p_ap]. rewrite E1, E2, E3, E4. split; [reflexivity|]. split; [reflexivity|]. split; [reflexivity|]. split; [|split; [reflexivity|split; [reflexivity|]]].
  - destruct (Rlt_dec (L / R) 0) as [X|_]; [lra|]. reflexivity.
  - unfold sph_radial2, plane_energy. field. lra.
Qed.

(** The radial action alone ([_justjr]) is the one of the motion in the plane with the star's own angular momentum: that of the full call when gamma is 0. *)
Theorem C63_justjr : forall Phi nu epi circ gamma zmax rperi rap R vR vT z vz, 0 < R ->
  ad_justjr (Pot3 Phi nu) epi circ gamma rperi rap R vR vT = calc_jr (fun r => Phi r 0) (plane_energy (fun r => Phi r 0) R vR vT) (Rabs (R * vT)) rperi rap /\
  ad_justjr (Pot3 Phi nu) epi circ 0 rperi rap R vR vT = fst (fst (ad_actions (Pot3 Phi nu) epi circ 0 zmax rperi rap R vR vT z vz)).
Proof.
  intros Phi nu epi circ gamma zm rp ra R vR vT z vz HR. unfold ad_justjr, ad_actions. cbv zeta. cbn [gamma_of plane_of fst]. split; [|symmetry; rewrite planar_J0; reflexivity].
  rewrite planar_gamma by exact HR. unfold planarAA. cbn [p_jr]. rewrite pl_L_0.
  assert (E2 : pl_E (fun r => Phi r 0) 0 0 R vR vT = plane_energy (fun r => Phi r 0) R vR vT) by (rewrite pl_E_0; unfold plane_energy; field). rewrite E2. reflexivity.
Qed.

(** ** C *)
(** When neither motion is within the C code's tolerance of a point (zmax of 1e-6, relative radial range of 1e-6) the C code's actions are those of the Python code. *)
Theorem C63_C : forall Phi nu epi circ gamma zmax rperi rap R vR vT z vz, 0 < R -> 0 < rperi -> rperi < rap -> / 10 ^ 6 <= zmax -> / 10 ^ 6 <= (rap - rperi) / rap ->
  (forall r, 0 < r -> continuous (fun r => Phi r 0) r) -> (forall z, continuous (Phi R) z) ->
  let '(jr, jz) := c_actions Phi gamma zmax rperi rap R vR vT z vz in ad_actions (Pot3 Phi nu) epi circ gamma zmax rperi rap R vR vT z vz = (jr, R * vT, jz).
Proof.
  intros Phi nu epi circ gamma zm rp ra R vR vT z vz HR H0 H1 HZ HT C1 C2. unfold c_actions, ad_actions, ad_Jz. cbv zeta. cbn [plane_of gamma_of].
  rewrite (cJz_int Phi R _ zm HZ C2). assert (Ez : c_Ez Phi R z vz = v_E (vertical_of Phi R) z vz) by (unfold c_Ez, v_E, c_vert, vertical_of; field). rewrite Ez.
  set (Jz := v_J (vertical_of Phi R) zm (v_E (vertical_of Phi R) z vz)). rewrite (cJR_int Phi rp ra _ _ H0 H1 C1 HT). unfold planarAA. cbn [p_jr p_lz].
  assert (E1 : c_Leff gamma Jz R vT = pl_L gamma Jz R vT) by (rewrite pl_L_g; reflexivity).
  assert (E2 : c_Eeff Phi gamma Jz R vR vT = pl_E (fun r => Phi r 0) gamma Jz R vR vT). { rewrite pl_E_g by exact HR. rewrite <- E1. unfold c_Eeff, c_ER. field. lra. }
  rewrite E1, E2. reflexivity.
Qed.
(** Below the tolerance the C code returns 0 where the Python code returns a positive vertical action. *)
Theorem C63_C_tolerance_refuted : forall zmax, 0 < zmax < / 10 ^ 6 -> let Phi := fun R z : RR => R ^ 2 / 2 + z ^ 2 / 2 in
  cJz Phi 1 (zmax ^ 2 / 2) zmax = 0 /\ 0 < v_J (vertical_of Phi 1) zmax (zmax ^ 2 / 2).
Proof.
  intros zm Hz Phi. split.
  - unfold cJz. destruct (Req_EM_T zm (-999999 / 100)) as [X|_]; [lra|]. destruct (Rlt_dec zm (/ 10 ^ 6)) as [_|N]; [reflexivity|lra].
  - unfold v_J. apply Rdiv_lt_0_compat; [|exact PI_RGT_0]. apply Rmult_lt_0_compat; [lra|]. apply RInt_gt_0; [lra| |].
    + intros x Hx. apply sqrt_lt_R0. unfold vertical_of, Phi. nra.
    + intros x Hx. apply (continuous_comp (fun x => 2 * (zm ^ 2 / 2 - vertical_of Phi 1 x)) sqrt); [|apply continuous_sqrt]. apply (ex_derive_continuous (V := R_NormedModule)). unfold vertical_of, Phi. auto_derive. exact I.
Qed.
(** Several objects are treated one by one. *)
Theorem C63_many : forall (A B : Type) (one : A -> B) l, ad_many one l = List.map one l.
Proof. intros A B one l. apply many_map. Qed.

(** ** What the approximation does not keep *)
(** An ellipse with half axes 2 and 1 about the centre of the harmonic potential, and the oscillation 2 sin t across the plane. *)
Definition xR (t : RR) : RR := sqrt (4 * cos t ^ 2 + sin t ^ 2).
Definition xvR (t : RR) : RR := - 3 * sin t * cos t / xR t.
Definition xvT (t : RR) : RR := 2 / xR t.
Definition xphi (t : RR) : RR := RInt (fun s => xvT s / xR s) 0 t.
Lemma sc2 t : sin t ^ 2 = 1 - cos t ^ 2. Proof. pose proof (sin2_cos2 t) as H. unfold Rsqr in H. nra. Qed.
Lemma x_arg t : 0 < 4 * cos t ^ 2 + sin t ^ 2. Proof. rewrite sc2. pose proof (pow2_ge_0 (cos t)). lra. Qed.
Lemma xR_pos t : 0 < xR t. Proof. apply sqrt_lt_R0, x_arg. Qed.
Lemma xR_sq t : xR t ^ 2 = 4 * cos t ^ 2 + sin t ^ 2. Proof. unfold xR. apply pow2_sqrt. apply Rlt_le, x_arg. Qed.
Lemma d_xR t : is_derive xR t (xvR t).
Proof.
  pose proof (x_arg t) as A. pose proof (xR_pos t) as P. assert (D : is_derive (fun t => 4 * cos t ^ 2 + sin t ^ 2) t (- 6 * sin t * cos t)) by (auto_derive; [exact I|ring]).
  refine (is_derive_eq _ _ _ _ (is_derive_sqrt _ t _ D A) _). unfold xvR. unfold xR in *. simpl in *. rr. field. lra.
Qed.
Lemma d_xvT t : is_derive xvT t (- xvR t * xvT t / xR t).
Proof.
  pose proof (xR_pos t) as P. unfold xvT at 1. refine (is_derive_eq _ _ _ _ (is_derive_scal (fun t => / xR t) t 2 _ (is_derive_inv xR t (xvR t) (d_xR t) ltac:(lra))) _). unfold scal, mult; simpl. unfold mult; simpl. unfold xvT. rr. field. lra.
Qed.
Lemma d_xvR t : is_derive xvR t (xvT t ^ 2 / xR t + - xR t).
Proof.
  pose proof (xR_pos t) as P. pose proof (xR_sq t) as Q. pose proof (sc2 t) as S.
  assert (D : is_derive (fun t => - 3 * sin t * cos t) t (- 3 * (cos t * cos t - sin t * sin t))) by (auto_derive; [exact I|ring]).
  refine (is_derive_eq _ _ _ _ (is_derive_div _ xR t _ (xvR t) D (d_xR t) ltac:(lra)) _).
  unfold xvT, xvR. rr. set (r := xR t) in *. clearbody r. set (c := cos t) in *. set (s := sin t) in *. clearbody c s.
  apply (Rmult_eq_reg_r (r ^ 3)); [|apply pow_nonzero; lra]. transitivity (- 3 * (c ^ 2 - s ^ 2) * r ^ 2 - 9 * (s ^ 2 * c ^ 2)); [field; lra|]. transitivity (4 - (r ^ 2) ^ 2); [|field; lra]. rewrite Q, S. ring.
Qed.
Lemma d_xphi t : is_derive xphi t (xvT t / xR t).
Proof.
  assert (C : forall s, continuous (fun s => xvT s / xR s) s).
  { intros s. apply (ex_derive_continuous (V := R_NormedModule)). eexists. apply (is_derive_div xvT xR s _ _ (d_xvT s) (d_xR s)). pose proof (xR_pos s). lra. }
  unfold xphi. apply (is_derive_RInt (V := R_NormedModule) (fun s => xvT s / xR s) (fun t => RInt (fun s => xvT s / xR s) 0 t) 0 t); [|apply C]. exists (mkposreal 1 Rlt_0_1). intros y _. apply (RInt_correct (V := R_CompleteNormedModule)). apply (ex_RInt_continuous (V := R_CompleteNormedModule)). intros s _. apply C.
Qed.
Lemma x_moves2 t : moves2 (fun R => - R) xR xvR xvT xphi t.
Proof. split; [apply xR_pos|]. split; [apply d_xR|]. split; [apply d_xphi|]. split; [apply d_xvR|apply d_xvT]. Qed.
Lemma x_moves t : moves (fun R _ => - R) (fun _ z => - z) xR xvR xvT (fun t => 2 * sin t) (fun t => 2 * cos t) xphi t.
Proof.
  destruct (x_moves2 t) as (A & B & C & D & E). split; [exact A|]. split; [exact B|]. split; [auto_derive; [exact I|ring]|]. split; [exact C|]. split; [exact D|]. split; [exact E|]. auto_derive; [exact I|ring].
Qed.
Lemma xR_0 : xR 0 = 2. Proof. unfold xR. rewrite cos_0, sin_0. replace (4 * 1 ^ 2 + 0 ^ 2) with (2 ^ 2) by ring. apply sqrt_pow2. lra. Qed.
Lemma xR_1 : xR (PI / 2) = 1. Proof. unfold xR. rewrite cos_PI2, sin_PI2. replace (4 * 0 ^ 2 + 1 ^ 2) with (1 ^ 2) by ring. apply sqrt_pow2. lra. Qed.
Lemma xvR_0 : xvR 0 = 0. Proof. unfold xvR. rewrite sin_0. unfold Rdiv. ring. Qed.
Lemma xvR_1 : xvR (PI / 2) = 0. Proof. unfold xvR. rewrite cos_PI2. unfold Rdiv. ring. Qed.
Definition hPhi (R z : RR) : RR := R ^ 2 / 2 + z ^ 2 / 2.
Lemma h_vert R z : vertical_of hPhi R z = z ^ 2 / 2. Proof. unfold vertical_of, hPhi. field. Qed.
Lemma h_J R : v_J (vertical_of hPhi R) 2 2 = 2.
Proof.
  rewrite <- (cJz_int hPhi R 2 2); [|lra|intros z; apply (ex_derive_continuous (V := R_NormedModule)); unfold hPhi; auto_derive; exact I].
  unfold cJz. destruct (Req_EM_T 2 (-999999 / 100)) as [X|_]; [lra|]. destruct (Rlt_dec 2 (/ 10 ^ 6)) as [X|_]; [lra|]. pose proof PI_RGT_0 as P.
  assert (S2 : sqrt 2 * sqrt 2 = 2) by (apply sqrt_sqrt; lra).
  assert (I1 : is_RInt (fun th => 2 * sqrt 2 * cos th ^ 2) 0 (1 / 2 * PI) (sqrt 2 * PI / 2)).
  { replace (sqrt 2 * PI / 2) with (minus (sqrt 2 * (1 / 2 * PI + sin (1 / 2 * PI) * cos (1 / 2 * PI))) (sqrt 2 * (0 + sin 0 * cos 0))).
    - apply (is_RInt_derive (V := R_CompleteNormedModule) (fun th => sqrt 2 * (th + sin th * cos th))).
      + intros x _. auto_derive; [exact I|]. rr. transitivity (sqrt 2 * (1 + cos x ^ 2 - sin x ^ 2)); [ring|rewrite (sc2 x); ring].
      + intros x _. apply (ex_derive_continuous (V := R_NormedModule)). auto_derive. exact I.
    - unfold minus, plus, opp; simpl. replace (1 / 2 * PI) with (PI / 2) by field. rewrite cos_PI2, sin_0. field. }
  rewrite (is_RInt_unique (V := R_CompleteNormedModule) _ 0 (1 / 2 * PI) (sqrt 2 * PI / 2)).
  - transitivity ((sqrt 2 * sqrt 2) * (PI / PI)); [field; lra|]. rewrite S2. field. lra.
  - apply (is_RInt_ext (fun th => 2 * sqrt 2 * cos th ^ 2)); [|exact I1]. intros th Ht. rewrite Rmin_left, Rmax_right in Ht by lra. pose proof (cos_gt_0 th ltac:(lra) ltac:(lra)) as C.
    assert (F : c_Fz hPhi R 2 2 th = 2 * cos th ^ 2) by (pose proof (sc2 th); unfold c_Fz, c_vert, hPhi; nra).
    assert (P2 : 0 < cos th ^ 2) by (apply pow_lt; exact C). rewrite F. destruct (Rle_dec (2 * cos th ^ 2) 0) as [X|_]; [lra|]. rewrite sqrt_mult by lra. rewrite sqrt_pow2 by lra. rr. ring.
Qed.
Lemma h_plane nu : plane_of (Pot3 hPhi nu) = fun r => r ^ 2 / 2.
Proof. apply functional_extensionality. intros r. cbn [plane_of]. unfold hPhi. field. Qed.
Lemma h_Jz nu R z vz : vz ^ 2 / 2 + z ^ 2 / 2 = 2 -> ad_Jz (Pot3 hPhi nu) 2 R z vz = 2.
Proof. intros E. unfold ad_Jz. assert (V : v_E (vertical_of hPhi R) z vz = 2) by (unfold v_E; rewrite h_vert; lra). rewrite V. exact (h_J R). Qed.
(** With the default gamma = 1 the radial action is not conserved even where the two motions are independent: along one orbit in the harmonic potential it is 0 at apocentre and positive at pericentre, with the turning points of
    the squared radial velocity that the code solves for at each of the two. *)
Theorem C63_gamma_refuted : forall nu epi circ, exists (R vR vT z vz phi : RR -> RR) (jr2 : RR),
  (forall t, moves (fun R _ => - R) (fun _ z => - z) R vR vT z vz phi t) /\
  (forall r, 0 < r -> (0 <= radial2 (fun r => hPhi r 0) (pl_E (fun r => hPhi r 0) 1 2 (R 0) (vR 0) (vT 0)) (pl_L 1 2 (R 0) (vT 0)) r <-> r = 2)) /\
  (forall r, 0 < r -> (0 <= radial2 (fun r => hPhi r 0) (pl_E (fun r => hPhi r 0) 1 2 (R (PI / 2)) (vR (PI / 2)) (vT (PI / 2))) (pl_L 1 2 (R (PI / 2)) (vT (PI / 2))) r <-> 1 <= r <= 4)) /\
  ad_actions (Pot3 hPhi nu) epi circ 1 2 2 2 (R 0) (vR 0) (vT 0) (z 0) (vz 0) = (0, 2, 2) /\
  ad_actions (Pot3 hPhi nu) epi circ 1 2 1 4 (R (PI / 2)) (vR (PI / 2)) (vT (PI / 2)) (z (PI / 2)) (vz (PI / 2)) = (jr2, 2, 2) /\ 0 < jr2.
Proof.
  intros nu epi circ. exists xR, xvR, xvT, (fun t => 2 * sin t), (fun t => 2 * cos t), xphi. unfold xvT. rewrite xR_0, xR_1, xvR_0, xvR_1, sin_0, cos_0, sin_PI2, cos_PI2.
  assert (L0 : pl_L 1 2 2 (2 / 2) = 4) by (rewrite pl_L_g, Rabs_right; lra). assert (L1 : pl_L 1 2 1 (2 / 1) = 4) by (rewrite pl_L_g, Rabs_right; lra).
  assert (E0 : pl_E (fun r => hPhi r 0) 1 2 2 0 (2 / 2) = 4) by (rewrite pl_E_g by lra; rewrite L0; unfold hPhi; lra).
  assert (E1 : pl_E (fun r => hPhi r 0) 1 2 1 0 (2 / 1) = 17 / 2) by (rewrite pl_E_g by lra; rewrite L1; unfold hPhi; lra).
  assert (K : forall E r, 0 < r -> radial2 (fun r => hPhi r 0) E 4 r = - ((r ^ 2) ^ 2 - 2 * E * r ^ 2 + 16) / r ^ 2) by (intros E r Hr; unfold radial2, hPhi; field; lra).
  assert (N : forall x r, 0 < r -> (0 <= - x / r ^ 2 <-> x <= 0)).
  { intros x r Hr. assert (0 < r ^ 2) by (apply pow_lt; exact Hr). split; intros H1.
    - apply Rmult_le_compat_r with (r := r ^ 2) in H1; [|lra]. replace (- x / r ^ 2 * r ^ 2) with (- x) in H1 by (field; lra). lra.
    - apply Rdiv_le_0_compat; lra. }
  assert (JZ0 : ad_Jz (Pot3 hPhi nu) 2 2 (2 * 0) (2 * 1) = 2) by (apply h_Jz; lra). assert (JZ1 : ad_Jz (Pot3 hPhi nu) 2 1 (2 * 1) (2 * 0) = 2) by (apply h_Jz; lra).
  eexists. split; [exact x_moves|]. split; [|split; [|split; [|split]]].
  - intros r Hr. rewrite L0, E0, K by exact Hr. rewrite N by exact Hr. split; [intros X|intros ->; lra]. assert (Y : ((r - 2) * (r + 2)) ^ 2 <= 0) by (replace (((r - 2) * (r + 2)) ^ 2) with ((r ^ 2) ^ 2 - 2 * 4 * r ^ 2 + 16) by ring; exact X).
    assert (Z : (r - 2) * (r + 2) = 0) by (set (w := (r - 2) * (r + 2)) in *; clearbody w; apply Rsqr_0_uniq; pose proof (Rle_0_sqr w); unfold Rsqr in *; lra). apply Rmult_integral in Z. lra.
  - intros r Hr. rewrite L1, E1, K by exact Hr. rewrite N by exact Hr. replace ((r ^ 2) ^ 2 - 2 * (17 / 2) * r ^ 2 + 16) with (((r - 1) * (r - 4)) * ((r + 1) * (r + 4))) by field. assert (0 < (r + 1) * (r + 4)) by nra. split; [intros X|intros X; assert ((r - 1) * (r - 4) <= 0) by nra; nra].
    assert ((r - 1) * (r - 4) <= 0) by (apply Rnot_lt_le; intros Y; assert (0 < (r - 1) * (r - 4) * ((r + 1) * (r + 4))) by (apply Rmult_lt_0_compat; assumption); lra). split; apply Rnot_lt_le; intros Y; nra.
  - unfold ad_actions. cbv zeta. rewrite JZ0. unfold planarAA. cbn [p_jr p_lz]. unfold calc_jr. rewrite RInt_point. unfold zero; simpl. f_equal. f_equal; [unfold Rdiv; ring|field].
  - unfold ad_actions. cbv zeta. rewrite JZ1. unfold planarAA. cbn [p_jr p_lz plane_of gamma_of]. rewrite L1, E1. replace (1 * (2 / 1)) with 2 by field. reflexivity.
  - unfold calc_jr. apply Rdiv_lt_0_compat; [|exact PI_RGT_0].
    assert (K2 : forall x, 1 <= x <= 4 -> sph_radial2 (fun r => hPhi r 0) (17 / 2) 4 x = ((x ^ 2 - 1) * (16 - x ^ 2)) / x ^ 2) by (intros x Hx; unfold sph_radial2, hPhi; field; lra).
    apply RInt_gt_0; [lra| |].
    + intros x Hx. apply sqrt_lt_R0. unfold sph_radial2 in K2. rewrite K2 by lra. apply Rdiv_lt_0_compat; [apply Rmult_lt_0_compat; nra|apply pow_lt; lra].
    + intros x Hx. apply (continuous_comp (fun x => sph_radial2 (fun r => hPhi r 0) (17 / 2) 4 x) sqrt); [|apply continuous_sqrt]. apply (ex_derive_continuous (V := R_NormedModule)). unfold sph_radial2, hPhi. auto_derive. apply Rgt_not_eq; nra.
Qed.
(** For an orbit in the plane the vertical frequency returned is the one at the present radius: unless the potential is separable it changes along the orbit. *)
Definition nPhi (R z : RR) : RR := R ^ 2 / 2 + (1 + R ^ 2) * z ^ 2 / 2.
Theorem C63_Oz_refuted : let nu := fun R => sqrt (1 + R ^ 2) in
  (forall R, is_derive_n (nPhi R) 2 0 (nu R ^ 2)) /\
  exists (R vR vT phi : RR -> RR), (forall t, moves (fun R z => - R - R * z ^ 2) (fun R z => - (1 + R ^ 2) * z) R vR vT (fun _ => 0) (fun _ => 0) phi t) /\
    forall epi circ gamma zmax rperi rap, exists r1 r2, ad_all (Pot3 nPhi nu) epi circ gamma zmax rperi rap (R 0) (vR 0) (vT 0) 0 0 (phi 0) = Some r1 /\
      ad_all (Pot3 nPhi nu) epi circ gamma zmax rperi rap (R (PI / 2)) (vR (PI / 2)) (vT (PI / 2)) 0 0 (phi (PI / 2)) = Some r2 /\ a_Oz r1 = sqrt 5 /\ a_Oz r2 = sqrt 2.
Proof.
  intros nu. split.
  - intros R. simpl. unfold nu. apply is_derive_ext with (f := fun z => (1 + R ^ 2) * z).
    + intros z. symmetry. apply is_derive_unique. unfold nPhi. auto_derive; [exact I|]. rr. field.
    + pose proof (pow2_ge_0 R) as P. rewrite pow2_sqrt by lra. auto_derive; [exact I|]. rr. ring.
  - exists xR, xvR, xvT, xphi. split.
    + intros t. destruct (x_moves2 t) as (A & B & C & D & E). split; [exact A|]. split; [exact B|]. split; [apply is_derive_cst|]. split; [exact C|]. split; [refine (is_derive_eq _ _ _ _ D _); rr; ring|]. split; [exact E|]. refine (is_derive_eq _ _ _ _ (is_derive_cst 0 t) _). rr. ring.
    + intros epi circ gamma zm rp ra. unfold ad_all, ad_vertical. destruct (Req_EM_T 0 0) as [_|N]; [|exfalso; apply N; reflexivity]. eexists. eexists. split; [reflexivity|]. split; [reflexivity|]. cbn [a_Oz]. unfold nu. rewrite xR_0, xR_1. split; f_equal; ring.
Qed.

(** ** The hypotheses can be met *)
Lemma ex_force : radial_force (fun r => r ^ 2 / 2) (fun r => - r).
Proof. intros r Hr. auto_derive; [exact I|]. field. Qed.
Lemma ex_S r : 0 < r -> sph_radial2 (fun r => r ^ 2 / 2) (5 / 2) 2 r = (r ^ 2 - 1) * (4 - r ^ 2) / r ^ 2.
Proof. intros H. unfold sph_radial2. field. lra. Qed.
Lemma ex_Sd r : 0 < r -> is_derive (sph_radial2 (fun r => r ^ 2 / 2) (5 / 2) 2) r (8 / r ^ 3 - 2 * r).
Proof. intros H. unfold sph_radial2. auto_derive; [apply Rgt_not_eq; nra|]. rr. field. lra. Qed.
Lemma ex_wellR : simple_well (sph_radial2 (fun r => r ^ 2 / 2) (5 / 2) 2) 1 2.
Proof.
  split; [lra|]. split; [rewrite ex_S by lra; field|]. split; [rewrite ex_S by lra; field|]. split; [|split].
  - intros q Hq. rewrite ex_S by lra. apply Rdiv_lt_0_compat; [apply Rmult_lt_0_compat; nra|apply pow_lt; lra].
  - exists 6. split; [lra|]. refine (is_derive_eq _ _ _ _ (ex_Sd 1 Rlt_0_1) _). rr. field.
  - exists (- 3). split; [lra|]. refine (is_derive_eq _ _ _ _ (ex_Sd 2 ltac:(lra)) _). rr. field.
Qed.
Lemma ex_jr : / 10 ^ 9 <= calc_jr (fun r => r ^ 2 / 2) (5 / 2) 2 1 2.
Proof.
  assert (C : forall x, 0 < x -> continuous (JrIntegrand (fun r => r ^ 2 / 2) (5 / 2) 2) x).
  { intros x Hx. apply (continuous_comp (sph_radial2 (fun r => r ^ 2 / 2) (5 / 2) 2) sqrt); [eapply cont_derive; apply ex_Sd; exact Hx|apply continuous_sqrt]. }
  assert (X : forall u v, 0 < u -> u <= v -> ex_RInt (JrIntegrand (fun r => r ^ 2 / 2) (5 / 2) 2) u v) by (intros u v Hu Hv; apply (ex_RInt_continuous (V := R_CompleteNormedModule)); intros x Hx; rewrite Rmin_left, Rmax_right in Hx by lra; apply C; lra).
  assert (N : forall u v, 0 < u -> u <= v -> 0 <= RInt (JrIntegrand (fun r => r ^ 2 / 2) (5 / 2) 2) u v) by (intros u v Hu Hv; apply RInt_ge_0; [exact Hv|apply X; assumption|intros; apply sqrt_pos]).
  assert (B : 1 / 4 * (3 / 2 - 5 / 4) <= RInt (JrIntegrand (fun r => r ^ 2 / 2) (5 / 2) 2) (5 / 4) (3 / 2)).
  { replace (1 / 4 * (3 / 2 - 5 / 4)) with (RInt (fun _ : RR => 1 / 4) (5 / 4) (3 / 2)) by (rewrite RInt_const; unfold scal; simpl; unfold mult; simpl; ring).
    apply RInt_le; [lra|apply ex_RInt_const|apply X; lra|]. intros x Hx. change (1 / 4 <= sqrt (sph_radial2 (fun r => r ^ 2 / 2) (5 / 2) 2 x)). rewrite ex_S by lra.
    rewrite <- (sqrt_pow2 (1 / 4)) by lra. apply sqrt_le_1_alt. apply (Rmult_le_reg_r (x ^ 2)); [apply pow_lt; lra|]. replace ((x ^ 2 - 1) * (4 - x ^ 2) / x ^ 2 * x ^ 2) with ((x ^ 2 - 1) * (4 - x ^ 2)) by (field; lra).
    assert (25 / 16 <= x ^ 2 <= 9 / 4) by nra. nra. }
  unfold calc_jr. rewrite <- (RInt_Chasles (V := R_CompleteNormedModule) _ 1 (5 / 4) 2) by (apply X; lra). rewrite <- (RInt_Chasles (V := R_CompleteNormedModule) _ (5 / 4) (3 / 2) 2) by (apply X; lra).
  pose proof (N 1 (5 / 4) ltac:(lra) ltac:(lra)) as N1. pose proof (N (3 / 2) 2 ltac:(lra) ltac:(lra)) as N2. unfold plus; simpl. pose proof PI_RGT_0 as P0. pose proof PI_4 as P4.
  apply (Rmult_le_reg_r PI); [lra|]. unfold Rdiv. rewrite Rmult_assoc, Rinv_l, Rmult_1_r by lra. apply Rle_trans with (1 / 16); [|lra].
  apply Rle_trans with (/ 64 * PI); [apply Rmult_le_compat_r; [lra|apply Rinv_le_contravar; lra]|lra].
Qed.
(** The ellipse in the harmonic potential, for [C63_separable], [C63_extent] and [C63_planar]. *)
Example C63_orbit :
  let f := fun r : RR => r ^ 2 / 2 in let g := fun z : RR => z ^ 2 / 2 in let z := fun t => 2 * sin t in let vz := fun t => 2 * cos t in
  radial_force f (fun r => - r) /\ (forall s, is_derive g s (- - s)) /\ (forall s, g (- s) = g s) /\ g 0 = 0 /\
  (forall t, moves (fun R _ => - R) (fun _ z => - z) xR xvR xvT z vz xphi t) /\
  let ER := plane_energy f (xR 0) (xvR 0) (xvT 0) in let Lz := xR 0 * xvT 0 in let Ez := vz 0 ^ 2 / 2 + g (z 0) in
  simple_well (sph_radial2 f ER (Rabs Lz)) 1 2 /\ 1 <= xR 0 <= 2 /\ simple_well (fun s => 2 * (Ez - g s)) (- 2) 2 /\ Rabs (z 0) <= 2 /\ Lz <> 0 /\ / 10 ^ 9 <= calc_jr f ER (Rabs Lz) 1 2 /\
  xR (PI / 2) = 1 /\ z (- (PI / 2)) = - 2 /\ z (PI / 2) = 2 /\ (forall t, - (PI / 2) < t < PI / 2 -> 0 < vz t).
Proof.
  intros f g z vz. split; [exact ex_force|]. split; [intros s; unfold g; auto_derive; [exact I|rr; field]|]. split; [intros s; unfold g; field|]. split; [unfold g; field|]. split; [exact x_moves|]. intros ER Lz Ez.
  assert (EE : ER = 5 / 2) by (unfold ER, plane_energy, f, xvT; rewrite xR_0, xvR_0; field). assert (EL : Lz = 2) by (unfold Lz, xvT; rewrite xR_0; field).
  assert (EZ : Ez = 2) by (unfold Ez, vz, z, g; rewrite sin_0, cos_0; field). rewrite EE, EL, EZ, (Rabs_right 2) by lra.
  split; [exact ex_wellR|]. split; [rewrite xR_0; lra|]. split.
  - split; [lra|]. unfold g. split; [field|]. split; [field|]. split; [intros q Hq; nra|]. split; [exists 4; split; [lra|auto_derive; [exact I|rr; field]]|exists (- 4); split; [lra|auto_derive; [exact I|rr; field]]].
  - split; [unfold z; rewrite sin_0, Rmult_0_r, Rabs_R0; lra|]. split; [lra|]. split; [exact ex_jr|]. split; [exact xR_1|]. unfold z, vz. rewrite sin_neg, sin_PI2. split; [ring|]. split; [ring|]. intros t Ht. pose proof (cos_gt_0 t ltac:(lra) ltac:(lra)). lra.
Qed.
(** A point for [C63_gamma], [C63_C] and [C63_actions_agree]. *)
Example C63_point : exists r, ad_all (Pot3 hPhi (fun _ => 1)) (fun _ => 2) (fun _ => 1) 1 2 1 4 1 0 2 2 0 0 = Some r /\ a_jz r = 2 /\ 0 < Rabs (1 * 2) + 1 * a_jz r /\ (2 = 0 -> 0 = 0 -> 2 = 0) /\
  / 10 ^ 6 <= 2 /\ / 10 ^ 6 <= (4 - 1) / 4 /\ (forall r, 0 < r -> continuous (fun r => hPhi r 0) r) /\ (forall z, continuous (hPhi 1) z).
Proof.
  unfold ad_all, ad_vertical. destruct (Req_EM_T 2 0) as [X|_]; [lra|]. unfold verticalAA. eexists. split; [reflexivity|]. cbn [a_jz].
  assert (E : v_E (vertical_of hPhi 1) 2 0 = 2) by (unfold v_E; rewrite h_vert; field). rewrite E, h_J. split; [reflexivity|]. split; [rewrite Rabs_right; lra|]. split; [intros X; lra|]. split; [lra|]. split; [lra|].
  split; [intros r Hr|intros z]; apply (ex_derive_continuous (V := R_NormedModule)); unfold hPhi; auto_derive; exact I.
Qed.
Print Assumptions C63_separable.
Print Assumptions C63_extent.
Print Assumptions C63_planar.
Print Assumptions C63_actions_agree.
Print Assumptions C63_plane_potential.
Print Assumptions C63_gamma.
Print Assumptions C63_C.
Print Assumptions C63_C_tolerance_refuted.
Print Assumptions C63_many.
Print Assumptions C63_gamma_refuted.
Print Assumptions C63_Oz_refuted.
Print Assumptions C63_justjr.
Print Assumptions C63_circular.
