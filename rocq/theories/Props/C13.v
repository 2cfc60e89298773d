(** C13: the searches for radii return points bracketed by a sign change. *)
From Coq Require Import Reals List Lra Lia Bool.
From Coquelicot Require Import Coquelicot.
From Verif.Lib Require Import RealAux.
From Verif.Model Require Import PotAPI PotAxi Wrappers Reduce Derived Brackets.
From Verif.Spec Require Import PotApiSpec ReduceSpec BracketSpec.
From Verif.Proofs Require Import BracketProofs.
Import ListNotations.
Open Scope R_scope.
Notation RR := RbaseSymbolsImpl.R (only parsing).

(** ** Guiding-centre radius: the angular momentum of circular orbits crosses |Lz| around the radius returned. *)
Theorem C13_guiding_radius_bracket : forall tol brentq, root_finder tol brentq -> forall fuel p lz t r, lz <> 0 ->
  rl brentq fuel p lz t = Ret r ->
  exists a b va vb, 0 < a /\ 0 < b /\ between a b r /\ fun_vcirc p a None t = Val va /\ fun_vcirc p b None t = Val vb /\
    a * va <= Rabs lz <= b * vb.
Proof.
  intros tol brentq BQ fuel p lz t r Hl E. unfold rl in E.
  destruct (search_bracket tol brentq BQ _ _ _ _ E (Rabs_pos_lt lz Hl)) as (a & b & wa & wb & A & B & Fa & Fb & Sa & Sb & Bt & _).
  unfold rlfunc in Fa, Fb. destruct (fun_vcirc p a None t) as [| |va] eqn:Ea; try discriminate. destruct (fun_vcirc p b None t) as [| |vb] eqn:Eb; try discriminate.
  cbn [nbind] in Fa, Fb. injection Fa as Fa. injection Fb as Fb. exists a, b, va, vb. rewrite Ea, Eb. repeat split; auto; try apply Bt; lra.
Qed.
Print Assumptions C13_guiding_radius_bracket.

(** With a continuous rotation curve, the radius is within the tolerance of a true circular orbit of that angular momentum; *)
Theorem C13_guiding_radius_exact : forall tol brentq, root_finder tol brentq -> forall fuel p lz t r vc, lz <> 0 -> rotation_curve p t vc ->
  rl brentq fuel p lz t = Ret r -> exists x, 0 < x /\ x * vc x = Rabs lz /\ Rabs (r - x) <= tol.
Proof.
  intros tol brentq BQ fuel p lz t r vc Hl H E. unfold rl in E.
  destruct (search_exact tol brentq BQ _ _ (fun x => x * vc x - Rabs lz) _ _ E (Rabs_pos_lt lz Hl)) as (x & P & Z & T).
  - intros x P. destruct (H x P) as [F C]. split; [unfold rlfunc; rewrite F; reflexivity|].
    apply (continuous_minus (V := R_NormedModule) (fun x => x * vc x) (fun _ => Rabs lz)); [|apply continuous_const].
    apply (continuous_mult (K := R_AbsRing) (fun x => x) vc); [apply continuous_id|exact C].
  - exists x. repeat split; auto. lra.
Qed.
Print Assumptions C13_guiding_radius_exact.

(** and when the angular momentum of circular orbits increases outwards, the search ends and finds the only such orbit, wherever it is. *)
Theorem C13_guiding_radius_found : forall tol brentq, root_finder tol brentq -> forall p lz t vc rho, lz <> 0 -> rotation_curve p t vc ->
  increasing_on_radii (fun x => x * vc x) -> 0 < rho -> rho * vc rho = Rabs lz ->
  exists n, forall fuel, (n <= fuel)%nat -> exists r, rl brentq fuel p lz t = Ret r /\ Rabs (r - rho) <= tol.
Proof.
  intros tol brentq BQ p lz t vc rho Hl H I Pr Er.
  assert (HC : forall x, 0 < x -> rlfunc (Rabs lz) p t x = Val (x * vc x - Rabs lz) /\ continuous (fun x => x * vc x - Rabs lz) x).
  { intros x P. destruct (H x P) as [F C]. split; [unfold rlfunc; rewrite F; reflexivity|].
    apply (continuous_minus (V := R_NormedModule) (fun x => x * vc x) (fun _ => Rabs lz)); [|apply continuous_const].
    apply (continuous_mult (K := R_AbsRing) (fun x => x) vc); [apply continuous_id|exact C]. }
  destruct (search_total tol brentq BQ _ _ (Rabs lz) rho (Rabs_pos_lt lz Hl) Pr HC) as [n Hn].
  - intros x P L. destruct (Rle_lt_or_eq_dec _ _ L) as [L'| ->]; [specialize (I x rho P L'); cbv beta in I; lra|lra].
  - intros x L. destruct (Rle_lt_or_eq_dec _ _ L) as [L'| <-]; [specialize (I rho x Pr L'); cbv beta in I; lra|lra].
  - exists n. intros fuel Hf. destruct (Hn fuel Hf) as [r E]. exists r. split; [exact E|].
    destruct (C13_guiding_radius_exact tol brentq BQ fuel p lz t r vc Hl H E) as (x & P & Z & T).
    destruct (Rtotal_order x rho) as [L|[->|L]]; [|exact T|].
    + specialize (I x rho P L). cbv beta in I. lra.
    + specialize (I rho x Pr L). cbv beta in I. lra.
Qed.
Print Assumptions C13_guiding_radius_found.

(** ** Radius of the circular orbit of a given energy *)
Theorem C13_circular_radius_bracket : forall tol brentq, root_finder tol brentq -> forall fuel p E t r, rE brentq fuel p E t = Ret r ->
  exists a b va vb Phi, 0 < a /\ 0 < b /\ between a b r /\ fun_vcirc p a None t = Val va /\ fun_vcirc p b None t = Val vb /\ apiEv p = Some Phi /\
    va ^ 2 / 2 + Phi a 0 0 t <= E <= vb ^ 2 / 2 + Phi b 0 0 t.
Proof.
  intros tol brentq BQ fuel p E t r H. unfold rE in H.
  destruct (search_bracket tol brentq BQ _ _ _ _ H Rlt_0_1) as (a & b & wa & wb & A & B & Fa & Fb & Sa & Sb & Bt & _).
  unfold rEfunc in Fa, Fb. destruct (fun_vcirc p a None t) as [| |va] eqn:Ea; try discriminate. destruct (fun_vcirc p b None t) as [| |vb] eqn:Eb; try discriminate.
  destruct (apiEv p) as [Phi|] eqn:EP; [|discriminate]. cbn [nbind noption] in Fa, Fb. injection Fa as Fa. injection Fb as Fb.
  exists a, b, va, vb, Phi. rewrite Ea, Eb. repeat split; auto; try apply Bt; lra.
Qed.
Print Assumptions C13_circular_radius_bracket.
Lemma rE_continuous : forall p E t vc Phi, apiEv p = Some Phi -> rotation_curve p t vc -> (forall R, 0 < R -> continuous (fun x => Phi x 0 0 t) R) ->
  forall x, 0 < x -> rEfunc E p t x = Val (vc x ^ 2 / 2 + Phi x 0 0 t - E) /\ continuous (fun x => vc x ^ 2 / 2 + Phi x 0 0 t - E) x.
Proof.
  intros p E t vc Phi EP H HP x P. destruct (H x P) as [F C]. split; [unfold rEfunc; rewrite F, EP; reflexivity|].
  apply (continuous_minus (V := R_NormedModule) (fun x => vc x ^ 2 / 2 + Phi x 0 0 t) (fun _ => E)); [|apply continuous_const].
  apply (continuous_plus (V := R_NormedModule) (fun x => vc x ^ 2 / 2) (fun x => Phi x 0 0 t)); [|exact (HP x P)].
  apply (continuous_ext (fun y => (vc y * vc y) * / 2)). { intros y. match goal with |- ?a = ?b => change (@eq RbaseSymbolsImpl.R a b) end. field. }
  apply (continuous_mult (K := R_AbsRing) (fun y => vc y * vc y) (fun _ => / 2)); [|apply continuous_const].
  apply (continuous_mult (K := R_AbsRing) vc vc); exact C.
Qed.
Theorem C13_circular_radius_found : forall tol brentq, root_finder tol brentq -> forall p E t vc Phi rho, apiEv p = Some Phi -> rotation_curve p t vc ->
  (forall R, 0 < R -> continuous (fun x => Phi x 0 0 t) R) -> increasing_on_radii (fun x => vc x ^ 2 / 2 + Phi x 0 0 t) ->
  0 < rho -> vc rho ^ 2 / 2 + Phi rho 0 0 t = E ->
  exists n, forall fuel, (n <= fuel)%nat -> exists r, rE brentq fuel p E t = Ret r /\ Rabs (r - rho) <= tol.
Proof.
  intros tol brentq BQ p E t vc Phi rho EP H HP I Pr Er. pose proof (rE_continuous p E t vc Phi EP H HP) as HC.
  destruct (search_total tol brentq BQ _ _ 1 rho Rlt_0_1 Pr HC) as [n Hn].
  - intros x P L. destruct (Rle_lt_or_eq_dec _ _ L) as [L'| ->]; [specialize (I x rho P L'); cbv beta in I; lra|lra].
  - intros x L. destruct (Rle_lt_or_eq_dec _ _ L) as [L'| <-]; [specialize (I rho x Pr L'); cbv beta in I; lra|lra].
  - exists n. intros fuel Hf. destruct (Hn fuel Hf) as [r F]. exists r. split; [exact F|].
    destruct (search_exact tol brentq BQ _ _ _ _ _ F Rlt_0_1 HC) as (x & P & Z & T).
    destruct (Rtotal_order x rho) as [L|[->|L]]; [|exact T|].
    + specialize (I x rho P L). cbv beta in I. lra.
    + specialize (I rho x Pr L). cbv beta in I. lra.
Qed.
Print Assumptions C13_circular_radius_found.
(** The angular momentum of the circular orbit is that of the radius found, at time zero. *)
Theorem C13_circular_angular_momentum : forall brentq fuel p E t r v, rE brentq fuel p E t = Ret r -> fun_vcirc p r None 0 = Val v ->
  LcE brentq fuel p E t = Ret (r * v).
Proof. intros brentq fuel p E t r v F G. unfold LcE. rewrite F. cbn [obind]. rewrite G. reflexivity. Qed.
Print Assumptions C13_circular_angular_momentum.

(** ** Resonances *)
Theorem C13_corotation_bracket : forall tol brentq, root_finder tol brentq -> forall p OmegaP t r, lindbladR brentq p OmegaP None t = Ret (Some r) ->
  exists a oa ob, (a = / 10 ^ 7 \/ a = / 100) /\ a <= r <= 1000 /\ fun_omegac p a t = Val oa /\ fun_omegac p 1000 t = Val ob /\
    (oa <= OmegaP <= ob \/ ob <= OmegaP <= oa).
Proof.
  intros tol brentq BQ p OmegaP t r E. unfold lindbladR in E.
  assert (G : exists a, (a = / 10 ^ 7 \/ a = / 100) /\ brentq (corotation_eq p OmegaP t) a 1000 = Some r).
  { destruct (brentq _ (/ 10 ^ 7) 1000) as [x|] eqn:E1; [injection E as <-; eauto|]. destruct (brentq _ (/ 100) 1000) as [x|] eqn:E2; [injection E as <-; eauto|discriminate]. }
  destruct G as (a & Ha & G). destruct (rf_signs _ _ BQ _ _ _ _ G) as (va & vb & Ea & Eb & Sg & Bt).
  unfold corotation_eq in Ea, Eb. destruct (fun_omegac p a t) as [| |oa] eqn:Oa; try discriminate. destruct (fun_omegac p 1000 t) as [| |ob] eqn:Ob; try discriminate.
  cbn [nbind] in Ea, Eb. injection Ea as Ea. injection Eb as Eb. exists a, oa, ob. rewrite Oa. split; [exact Ha|].
  assert (L : a <= 1000). { assert (/ 10 ^ 7 <= 1) by (rewrite <- Rinv_1; apply Rinv_le_contravar; [lra|apply pow_R1_Rle; lra]). destruct Ha as [->| ->]; lra. }
  unfold between in Bt. rewrite Rmin_left, Rmax_right in Bt by exact L. repeat split; auto; try apply Bt. subst. nra.
Qed.
Print Assumptions C13_corotation_bracket.
(** If the pattern speed is reached between 10^-7 and 1000 by a continuous, decreasing angular frequency, corotation is found; *)
Theorem C13_corotation_found : forall tol brentq, root_finder tol brentq -> forall p OmegaP t om rho,
  (forall R, 0 < R -> fun_omegac p R t = Val (om R) /\ continuous om R) -> (forall x y, 0 < x -> x < y -> om y < om x) ->
  / 10 ^ 7 <= rho <= 1000 -> om rho = OmegaP ->
  exists r, lindbladR brentq p OmegaP None t = Ret (Some r) /\ Rabs (r - rho) <= tol.
Proof.
  intros tol brentq BQ p OmegaP t om rho H D Hr Er. assert (P7 : 0 < / 10 ^ 7) by (apply Rinv_0_lt_compat, pow_lt; lra).
  assert (HC : forall x, 0 < x -> corotation_eq p OmegaP t x = Val (om x - OmegaP) /\ continuous (fun x => om x - OmegaP) x).
  { intros x P. destruct (H x P) as [F C]. split; [unfold corotation_eq; rewrite F; reflexivity|].
    apply (continuous_minus (V := R_NormedModule) om (fun _ => OmegaP)); [exact C|apply continuous_const]. }
  assert (S1 : 0 <= om (/ 10 ^ 7) - OmegaP). { destruct (Rle_lt_or_eq_dec _ _ (proj1 Hr)) as [L|E]; [specialize (D _ _ P7 L); lra|rewrite E; lra]. }
  assert (S2 : om 1000 - OmegaP <= 0). { destruct (Rle_lt_or_eq_dec _ _ (proj2 Hr)) as [L|E]; [specialize (D rho 1000 ltac:(lra) L); lra|rewrite <- E; lra]. }
  destruct (finder_answers tol brentq BQ (corotation_eq p OmegaP t) (fun x => om x - OmegaP) (/ 10 ^ 7) 1000) as [r E].
  { intros x Hx. apply HC. apply (between_pos (/ 10 ^ 7) 1000); auto; lra. }
  { nra. }
  exists r. split; [unfold lindbladR; rewrite E; reflexivity|].
  destruct (brentq_near tol brentq BQ _ _ _ _ _ E HC P7 ltac:(lra)) as (x & Px & _ & Z & T).
  destruct (Rtotal_order x rho) as [L|[->|L]]; [|exact T|]; [specialize (D x rho Px L)|specialize (D rho x ltac:(lra) L)]; cbv beta in *; lra.
Qed.
Print Assumptions C13_corotation_found.
(** and None is returned only when the two ends of that range are on the same side. *)
Theorem C13_corotation_none : forall tol brentq, root_finder tol brentq -> forall p OmegaP t om,
  (forall R, 0 < R -> fun_omegac p R t = Val (om R) /\ continuous om R) -> lindbladR brentq p OmegaP None t = Ret None ->
  ~ opposite om OmegaP (/ 10 ^ 7) 1000.
Proof.
  intros tol brentq BQ p OmegaP t om H E O. assert (P7 : 0 < / 10 ^ 7) by (apply Rinv_0_lt_compat, pow_lt; lra).
  destruct (finder_answers tol brentq BQ (corotation_eq p OmegaP t) (fun x => om x - OmegaP) (/ 10 ^ 7) 1000) as [r F].
  - intros x Hx. assert (P : 0 < x) by (apply (between_pos (/ 10 ^ 7) 1000); auto; lra). destruct (H x P) as [G C]. split; [unfold corotation_eq; rewrite G; reflexivity|].
    apply (continuous_minus (V := R_NormedModule) om (fun _ => OmegaP)); [exact C|apply continuous_const].
  - destruct O as [[A B]|[A B]]; nra.
  - unfold lindbladR in E. rewrite F in E. discriminate.
Qed.
Print Assumptions C13_corotation_none.
(** The m-th Lindblad resonance: m (Omega - OmegaP) = kappa. *)
Theorem C13_lindblad : forall tol brentq, root_finder tol brentq -> forall p OmegaP m t,
  (forall r, lindbladR brentq p OmegaP (Some m) t = Ret (Some r) ->
     exists oa ka ob kb, / 10 ^ 7 <= r <= 1000 /\ fun_omegac p (/ 10 ^ 7) t = Val oa /\ epifreq p (/ 10 ^ 7) t = Val ka /\
       fun_omegac p 1000 t = Val ob /\ epifreq p 1000 t = Val kb /\ (m * (oa - OmegaP) - ka) * (m * (ob - OmegaP) - kb) <= 0) /\
  (forall om ka, (forall R, 0 < R -> fun_omegac p R t = Val (om R) /\ epifreq p R t = Val (ka R) /\ continuous om R /\ continuous ka R) ->
     (forall r, lindbladR brentq p OmegaP (Some m) t = Ret (Some r) ->
        exists x, 0 < x /\ m * (om x - OmegaP) = ka x /\ Rabs (r - x) <= tol) /\
     (opposite (fun x => m * (om x - OmegaP) - ka x) 0 (/ 10 ^ 7) 1000 <-> exists r, lindbladR brentq p OmegaP (Some m) t = Ret (Some r))).
Proof.
  intros tol brentq BQ p OmegaP m t. assert (P7 : 0 < / 10 ^ 7) by (apply Rinv_0_lt_compat, pow_lt; lra).
  assert (L7 : / 10 ^ 7 <= 1000). { assert (/ 10 ^ 7 <= 1) by (rewrite <- Rinv_1; apply Rinv_le_contravar; [lra|apply pow_R1_Rle; lra]). lra. }
  assert (S1 : forall r, lindbladR brentq p OmegaP (Some m) t = Ret (Some r) -> brentq (lindblad_eq p OmegaP m t) (/ 10 ^ 7) 1000 = Some r).
  { intros r E. unfold lindbladR in E. destruct (brentq _ _ _) as [x|]; [injection E as <-; reflexivity|discriminate]. }
  assert (S2 : forall r, lindbladR brentq p OmegaP (Some m) t = Ret (Some r) ->
     exists oa ka ob kb, / 10 ^ 7 <= r <= 1000 /\ fun_omegac p (/ 10 ^ 7) t = Val oa /\ epifreq p (/ 10 ^ 7) t = Val ka /\
       fun_omegac p 1000 t = Val ob /\ epifreq p 1000 t = Val kb /\ (m * (oa - OmegaP) - ka) * (m * (ob - OmegaP) - kb) <= 0).
  { intros r E. apply S1 in E. destruct (rf_signs _ _ BQ _ _ _ _ E) as (va & vb & Ea & Eb & Sg & Bt). unfold lindblad_eq in Ea, Eb.
    destruct (fun_omegac p (/ 10 ^ 7) t) as [| |oa] eqn:Oa; try discriminate. destruct (fun_omegac p 1000 t) as [| |ob] eqn:Ob; try discriminate.
    cbn [nbind] in Ea, Eb. destruct (epifreq p (/ 10 ^ 7) t) as [| |ka] eqn:Ka; try discriminate. destruct (epifreq p 1000 t) as [| |kb] eqn:Kb; try discriminate.
    cbn [nbind] in Ea, Eb. injection Ea as Ea. injection Eb as Eb. exists oa, ka, ob, kb.
    unfold between in Bt. rewrite Rmin_left, Rmax_right in Bt by exact L7. repeat split; try apply Bt. rewrite Ea, Eb. exact Sg. }
  split; [exact S2|]. intros om ka H.
  assert (HC : forall x, 0 < x -> lindblad_eq p OmegaP m t x = Val (m * (om x - OmegaP) - ka x) /\ continuous (fun x => m * (om x - OmegaP) - ka x) x).
  { intros x P. destruct (H x P) as (F & G & C1 & C2). split; [unfold lindblad_eq; rewrite F, G; reflexivity|].
    apply (continuous_minus (V := R_NormedModule) (fun x => m * (om x - OmegaP)) ka); [|exact C2].
    apply (continuous_mult (K := R_AbsRing) (fun _ => m) (fun x => om x - OmegaP)); [apply continuous_const|].
    apply (continuous_minus (V := R_NormedModule) om (fun _ => OmegaP)); [exact C1|apply continuous_const]. }
  split; [|split].
  - intros r E. apply S1 in E. destruct (brentq_near tol brentq BQ _ _ _ _ _ E HC P7 ltac:(lra)) as (x & Px & _ & Z & T). exists x. repeat split; auto. lra.
  - intros O. destruct (finder_answers tol brentq BQ (lindblad_eq p OmegaP m t) (fun x => m * (om x - OmegaP) - ka x) (/ 10 ^ 7) 1000) as [r F].
    + intros x Hx. apply HC. apply (between_pos (/ 10 ^ 7) 1000); auto; lra.
    + destruct O as [[A B]|[A B]]; cbv beta in *; nra.
    + exists r. unfold lindbladR. rewrite F. reflexivity.
  - intros (r & E). destruct (S2 r E) as (oa & k1 & ob & k2 & _ & A1 & A2 & A3 & A4 & Sg).
    destruct (H _ P7) as (B1 & B2 & _). destruct (H 1000 ltac:(lra)) as (B3 & B4 & _). rewrite A1 in B1. rewrite A2 in B2. rewrite A3 in B3. rewrite A4 in B4.
    injection B1 as B1. injection B2 as B2. injection B3 as B3. injection B4 as B4. unfold opposite. subst. nra.
Qed.
Print Assumptions C13_lindblad.

(** ** Zero-velocity curves.  The loop tries at most eleven heights. *)
Theorem C13_zvc_terminates : forall brentq fuel p R E Lz phi t, (11 <= fuel)%nat -> zvc brentq fuel p R E Lz phi t <> Loop.
Proof.
  intros brentq fuel p R E Lz phi t Hf. unfold zvc. destruct (apiEv p) as [Phi|]; [|discriminate]. cbv zeta.
  destruct (Rlt_dec _ _); [discriminate|]. destruct (Rlt_dec _ _); [discriminate|].
  destruct (zLoop_total 10 (fun z => E - Phi R z phi t - Lz ^ 2 / 2 / R ^ 2) 1000 1 Rlt_0_1) with (fuel := fuel) as [x Ex]; [cbn; lra|lia|].
  rewrite Ex. cbn [obind]. destruct (brentq _ _ _); discriminate.
Qed.
Print Assumptions C13_zvc_terminates.
(** nan is returned exactly when (R, 0) itself is out of reach; zero when it is on the curve to 10^-8; a positive height has the curve below it. *)
Theorem C13_zvc : forall tol brentq, root_finder tol brentq -> forall fuel p R E Lz phi t Phi, apiEv p = Some Phi ->
  let eff z := Phi R z phi t + Lz ^ 2 / 2 / R ^ 2 in
  (forall fuel', (zvc brentq fuel' p R E Lz phi t = Ret NaN <-> / 10 ^ 8 <= eff 0 - E)) /\
  (Rabs (eff 0 - E) < / 10 ^ 8 -> zvc brentq fuel p R E Lz phi t = Ret (Val 0)) /\
  (forall z, zvc brentq fuel p R E Lz phi t = Ret (Val z) -> / 10 ^ 8 <= Rabs (eff 0 - E) ->
     exists z1, 0 <= z <= z1 /\ 1 <= z1 /\ eff 0 < E /\ E <= eff z1) /\
  (forall z, zvc brentq fuel p R E Lz phi t = Ret (Val z) -> / 10 ^ 8 <= Rabs (eff 0 - E) -> (forall x, 0 <= x -> continuous eff x) ->
     exists x, 0 < x /\ eff x = E /\ Rabs (z - x) <= tol).
Proof.
  intros tol brentq BQ fuel p R E Lz phi t Phi EP eff. assert (P8 : 0 < / 10 ^ 8) by (apply Rinv_0_lt_compat, pow_lt; lra).
  assert (U : forall n, zvc brentq n p R E Lz phi t =
     if Rlt_dec (Rabs (eff 0 - E)) (/ 10 ^ 8) then Ret (Val 0) else if Rlt_dec E (eff 0) then Ret NaN
     else obind (zLoop n (fun z => E - Phi R z phi t - Lz ^ 2 / 2 / R ^ 2) 1000 1) (fun zstart =>
             obind (of_brentq (brentq (fun z => Val (eff z - E)) 0 zstart)) (fun r => Ret (Val r)))).
  { intros n. unfold zvc. rewrite EP. reflexivity. }
  split; [|split; [|split]].
  - intros n. rewrite U. destruct (Rlt_dec (Rabs (eff 0 - E)) (/ 10 ^ 8)) as [A|A].
    + split; [discriminate|]. intros B. apply Rabs_def2 in A. lra.
    + destruct (Rlt_dec E (eff 0)) as [B|B].
      * split; [|reflexivity]. intros _. rewrite Rabs_right in A by lra. lra.
      * split; [|intros; lra]. destruct (zLoop _ _ _ _); cbn [obind]; try discriminate. destruct (brentq _ _ _); cbn; discriminate.
  - intros A. rewrite U. destruct (Rlt_dec _ _); [reflexivity|contradiction].
  - intros z F A. rewrite U in F. destruct (Rlt_dec _ _) as [B|_]; [lra|]. destruct (Rlt_dec E (eff 0)) as [B|B]; [discriminate|].
    destruct (zLoop _ _ _ _) as [| | | |z1] eqn:EZ; try discriminate. cbn [obind] in F. destruct (zLoop_post _ _ _ _ _ EZ Rlt_0_1) as [Lz1 _].
    destruct (brentq _ _ _) as [x|] eqn:EB; [|discriminate]. injection F as <-. destruct (rf_signs _ _ BQ _ _ _ _ EB) as (va & vb & Ea & Eb & Sg & Bt).
    injection Ea as Ea. injection Eb as Eb. unfold between in Bt. rewrite Rmin_left, Rmax_right in Bt by lra.
    assert (N : eff 0 < E). { unfold Rabs in A. destruct (Rcase_abs _); lra. }
    exists z1. split; [exact Bt|]. split; [exact Lz1|]. split; [exact N|]. nra.
  - intros z F A C. rewrite U in F. destruct (Rlt_dec _ _) as [B|_]; [lra|]. destruct (Rlt_dec E (eff 0)) as [B|B]; [discriminate|].
    destruct (zLoop _ _ _ _) as [| | | |z1] eqn:EZ; try discriminate. cbn [obind] in F. destruct (zLoop_post _ _ _ _ _ EZ Rlt_0_1) as [Lz1 _].
    destruct (brentq _ _ _) as [x|] eqn:EB; [|discriminate]. injection F as <-.
    assert (N : eff 0 < E). { unfold Rabs in A. destruct (Rcase_abs _); lra. }
    destruct (rf_root _ _ BQ _ _ _ _ EB) as (y & By & Ey & Ty).
    + exists (fun z => eff z - E). intros y Hy. unfold between in Hy. rewrite Rmin_left, Rmax_right in Hy by lra. split; [reflexivity|].
      apply (continuous_minus (V := R_NormedModule) eff (fun _ => E)); [apply C; lra|apply continuous_const].
    + injection Ey as Ey. unfold between in By. rewrite Rmin_left, Rmax_right in By by lra. exists y. split; [|split; [lra|exact Ty]].
      destruct (Rle_lt_or_eq_dec _ _ (proj1 By)) as [|E0]; auto. rewrite <- E0 in Ey. lra.
Qed.
Print Assumptions C13_zvc.
(** The curve is found whenever the potential rises monotonically to E below a height of 1000. *)
Theorem C13_zvc_found : forall tol brentq, root_finder tol brentq -> forall fuel p R E Lz phi t Phi zeta, (11 <= fuel)%nat -> apiEv p = Some Phi ->
  let eff z := Phi R z phi t + Lz ^ 2 / 2 / R ^ 2 in
  (forall x, 0 <= x -> continuous eff x) -> (forall x y, 0 <= x -> x < y -> eff x < eff y) -> 0 <= zeta <= 1000 -> eff zeta = E -> / 10 ^ 8 <= E - eff 0 ->
  exists z, zvc brentq fuel p R E Lz phi t = Ret (Val z) /\ Rabs (z - zeta) <= tol.
Proof.
  intros tol brentq BQ fuel p R E Lz phi t Phi zeta Hf EP eff C I Hz Ez E8. assert (P8 : 0 < / 10 ^ 8) by (apply Rinv_0_lt_compat, pow_lt; lra).
  assert (G : exists z, zvc brentq fuel p R E Lz phi t = Ret (Val z)).
  { unfold zvc. rewrite EP. cbv zeta. fold (eff 0). change (Phi R 0 phi t + Lz ^ 2 / 2 / R ^ 2) with (eff 0).
    destruct (Rlt_dec _ _); [eauto|]. destruct (Rlt_dec E (eff 0)); [lra|].
    destruct (zLoop_total 10 (fun z => E - Phi R z phi t - Lz ^ 2 / 2 / R ^ 2) 1000 1 Rlt_0_1) with (fuel := fuel) as [x Ex]; [cbn; lra|lia|].
    rewrite Ex. cbn [obind]. destruct (zLoop_post _ _ _ _ _ Ex Rlt_0_1) as [L1 Sx]. change (fun z => Val (Phi R z phi t + Lz ^ 2 / 2 / R ^ 2 - E)) with (fun z => Val (eff z - E)).
    assert (Q : E <= eff x).
    { destruct Sx as [Sx|Sx]; [unfold eff; lra|]. destruct (Rle_lt_or_eq_dec zeta x) as [L| <-]; [lra| |lra]. specialize (I zeta x (proj1 Hz) L). lra. }
    destruct (finder_answers tol brentq BQ (fun z => Val (eff z - E)) (fun z => eff z - E) 0 x) as [r Er].
    - intros y Hy. unfold between in Hy. rewrite Rmin_left, Rmax_right in Hy by lra. split; [reflexivity|].
      apply (continuous_minus (V := R_NormedModule) eff (fun _ => E)); [apply C; lra|apply continuous_const].
    - nra.
    - rewrite Er. cbn. eauto. }
  destruct G as [z G]. exists z. split; [exact G|].
  destruct (C13_zvc tol brentq BQ fuel p R E Lz phi t Phi EP) as (_ & _ & _ & H). destruct (H z G) as (x & Px & Ex & Tx).
  - fold eff. change (Phi R 0 phi t + Lz ^ 2 / 2 / R ^ 2) with (eff 0). rewrite Rabs_left; lra.
  - exact C.
  - change (eff x = E) in Ex. destruct (Rtotal_order x zeta) as [L|[->|L]]; [|exact Tx|]; [specialize (I x zeta ltac:(lra) L)|specialize (I zeta x ltac:(lra) L)]; lra.
Qed.
Print Assumptions C13_zvc_found.

(** Radial range of the zero-velocity curve: around the guiding radius, with the effective potential equal to E at both ends. *)
Theorem C13_zvc_range : forall tol brentq, root_finder tol brentq -> forall fuel p E Lz phi t Phi Rmin_ Rmax_, apiEv p = Some Phi ->
  let eff R := Phi R 0 phi t + Lz ^ 2 / 2 / R ^ 2 in
  Lz <> 0 -> (forall x, 0 < x -> continuous eff x) -> zvc_range brentq fuel p E Lz phi t = Ret (Val Rmin_, Val Rmax_) ->
  exists RLz x y, rl brentq fuel p Lz t = Ret RLz /\ Rmin_ <= RLz <= Rmax_ /\ eff RLz <= E /\
    x <= RLz <= y /\ eff x = E /\ eff y = E /\ Rabs (Rmin_ - x) <= tol /\ Rabs (Rmax_ - y) <= tol.
Proof.
  intros tol brentq BQ fuel p E Lz phi t Phi Rmin_ Rmax_ EP eff HL C F. unfold zvc_range in F. rewrite EP in F. cbv zeta in F.
  destruct (rl brentq fuel p Lz t) as [| | | |RLz] eqn:ER; try discriminate. cbn [obind] in F.
  destruct (C13_guiding_radius_bracket tol brentq BQ fuel p Lz t RLz HL ER) as (a & b & _ & _ & A & B & Bt & _). pose proof (between_pos a b RLz A B Bt) as PL.
  change (Phi RLz 0 phi t + Lz ^ 2 / 2 / RLz ^ 2) with (eff RLz) in F.
  change (fun R => Phi R 0 phi t + Lz ^ 2 / 2 / R ^ 2 - E) with (fun R => eff R - E) in F.
  change (fun R => Val (Phi R 0 phi t + Lz ^ 2 / 2 / R ^ 2 - E)) with (fun R => Val (eff R - E)) in F.
  destruct (Rlt_dec 0 (eff RLz - E)) as [|N]; [discriminate|].
  destruct (downLoop _ _ _ _) as [| | | |lo] eqn:ED; try discriminate. cbn [obind] in F. destruct (downLoop_post _ _ _ _ _ ED PL) as [Hlo _].
  destruct (brentq _ lo RLz) as [r1|] eqn:B1; [|discriminate]. cbn [obind of_brentq] in F.
  destruct (upLoop _ _ _ _) as [| | | |hi] eqn:EU; try discriminate. cbn [obind] in F. destruct (upLoop_post _ _ _ _ _ EU PL) as [Hhi _].
  destruct (brentq _ RLz hi) as [r2|] eqn:B2; [|discriminate]. cbn [obind of_brentq] in F. injection F as <- <-.
  assert (HC : forall x, 0 < x -> Val (eff x - E) = Val (eff x - E) /\ continuous (fun x => eff x - E) x).
  { intros x P. split; [reflexivity|]. apply (continuous_minus (V := R_NormedModule) eff (fun _ => E)); [apply C; exact P|apply continuous_const]. }
  destruct (brentq_near tol brentq BQ (fun R => Val (eff R - E)) _ _ _ _ B1 HC (proj1 Hlo) PL) as (x & Px & Bx & Zx & Tx).
  destruct (brentq_near tol brentq BQ (fun R => Val (eff R - E)) _ _ _ _ B2 HC PL ltac:(lra)) as (y & Py & By & Zy & Ty).
  destruct (rf_signs _ _ BQ _ _ _ _ B1) as (_ & _ & _ & _ & _ & Bt1). destruct (rf_signs _ _ BQ _ _ _ _ B2) as (_ & _ & _ & _ & _ & Bt2).
  unfold between in *. rewrite Rmin_left, Rmax_right in Bx, Bt1 by lra. rewrite Rmin_left, Rmax_right in By, Bt2 by lra.
  exists RLz, x, y. cbv beta in *. repeat split; auto; lra.
Qed.
Print Assumptions C13_zvc_range.
(** Its loops end, and it answers whenever the effective potential exceeds E somewhere on each side within the limits 10^-8 and 1000 of the loops. *)
Theorem C13_zvc_range_found : forall tol brentq, root_finder tol brentq -> forall p E Lz phi t Phi RLz lo hi, apiEv p = Some Phi ->
  let eff R := Phi R 0 phi t + Lz ^ 2 / 2 / R ^ 2 in
  0 < RLz -> (exists n, forall fuel, (n <= fuel)%nat -> rl brentq fuel p Lz t = Ret RLz) -> (forall x, 0 < x -> continuous eff x) ->
  eff RLz <= E -> / 10 ^ 8 <= lo <= RLz -> (forall x, 0 < x -> x <= lo -> E <= eff x) -> RLz <= hi <= 1000 -> (forall x, hi <= x -> E <= eff x) ->
  exists n, forall fuel, (n <= fuel)%nat -> exists Rmin_ Rmax_, zvc_range brentq fuel p E Lz phi t = Ret (Val Rmin_, Val Rmax_).
Proof.
  intros tol brentq BQ p E Lz phi t Phi RLz lo hi EP eff PL [n0 H0] C HE Hlo Glo Hhi Ghi.
  assert (P8 : 0 < / 10 ^ 8) by (apply Rinv_0_lt_compat, pow_lt; lra).
  destruct (pow2_shrinks (/ 10 ^ 8) RLz P8) as [n1 N1]. destruct (pow2_beats RLz 1000 PL) as [n2 N2].
  exists (S (n0 + n1 + n2)). intros fuel Hf. unfold zvc_range. rewrite EP. cbv zeta. rewrite (H0 fuel) by lia. cbn [obind].
  change (Phi RLz 0 phi t + Lz ^ 2 / 2 / RLz ^ 2) with (eff RLz).
  change (fun R => Phi R 0 phi t + Lz ^ 2 / 2 / R ^ 2 - E) with (fun R => eff R - E).
  change (fun R => Val (Phi R 0 phi t + Lz ^ 2 / 2 / R ^ 2 - E)) with (fun R => Val (eff R - E)).
  destruct (Rlt_dec 0 (eff RLz - E)); [lra|].
  assert (HC : forall x, 0 < x -> continuous (fun x => eff x - E) x).
  { intros x P. apply (continuous_minus (V := R_NormedModule) eff (fun _ => E)); [apply C; exact P|apply continuous_const]. }
  destruct (downLoop_total n1 (fun R => eff R - E) (/ 10 ^ 8) RLz PL N1 fuel ltac:(lia)) as [a Ea]. rewrite Ea. cbn [obind].
  destruct (downLoop_post _ _ _ _ _ Ea PL) as [Ha Sa]. assert (Sa' : 0 <= eff a - E) by (destruct Sa as [Sa|Sa]; [exact Sa|specialize (Glo a); lra]).
  destruct (finder_answers tol brentq BQ (fun R => Val (eff R - E)) (fun R => eff R - E) a RLz) as [r1 E1].
  { intros x Hx. split; [reflexivity|]. apply HC. apply (between_pos a RLz); auto; lra. }
  { nra. }
  rewrite E1. cbn [of_brentq obind].
  destruct (upLoop_total n2 (fun R => eff R - E) 1000 RLz PL N2 fuel ltac:(lia)) as [b Eb]. rewrite Eb. cbn [obind].
  destruct (upLoop_post _ _ _ _ _ Eb PL) as [Hb Sb]. assert (Sb' : 0 <= eff b - E) by (destruct Sb as [Sb|Sb]; [exact Sb|specialize (Ghi b); lra]).
  destruct (finder_answers tol brentq BQ (fun R => Val (eff R - E)) (fun R => eff R - E) RLz b) as [r2 E2].
  { intros x Hx. split; [reflexivity|]. apply HC. apply (between_pos RLz b); auto; lra. }
  { nra. }
  rewrite E2. cbn [of_brentq obind]. eauto.
Qed.
Print Assumptions C13_zvc_range_found.

(** ** Half-mass radius: for an increasing, continuous enclosed mass it is found, wherever it is. *)
Theorem C13_half_mass_radius : forall tol brentq, root_finder tol brentq -> forall mass tot rho, 0 < tot -> 0 < rho ->
  (forall x, 0 < x -> continuous mass x) -> increasing_on_radii mass -> mass rho = tot / 2 ->
  exists n, forall fuel, (n <= fuel)%nat -> exists r, rhalf brentq fuel mass tot = Ret r /\ Rabs (r - rho) <= tol.
Proof.
  intros tol brentq BQ mass tot rho Pt Pr C I Er.
  assert (HC : forall x, 0 < x -> rhalffunc mass tot x = Val (mass x / tot - / 2) /\ continuous (fun x => mass x / tot - / 2) x).
  { intros x P. split; [unfold rhalffunc, ndiv; destruct (Req_EM_T tot 0); [lra|reflexivity]|].
    apply (continuous_minus (V := R_NormedModule) (fun x => mass x / tot) (fun _ => / 2)); [|apply continuous_const].
    apply (continuous_mult (K := R_AbsRing) mass (fun _ => / tot)); [apply C; exact P|apply continuous_const]. }
  assert (Q : forall x, mass x / tot - / 2 = (mass x - tot / 2) * / tot) by (intros; field; lra).
  assert (PI_ : 0 < / tot) by (apply Rinv_0_lt_compat; exact Pt).
  assert (Lo : forall x, x <= rho -> 0 < x -> mass x / tot - / 2 <= 0).
  { intros x L P. rewrite Q. destruct (Rle_lt_or_eq_dec _ _ L) as [L'| ->]; [specialize (I x rho P L'); nra|rewrite Er; lra]. }
  assert (Hi : forall x, rho <= x -> 0 < x -> 0 <= mass x / tot - / 2).
  { intros x L P. rewrite Q. destruct (Rle_lt_or_eq_dec _ _ L) as [L'| <-]; [specialize (I rho x Pr L'); nra|rewrite Er; lra]. }
  destruct (pow2_beats (2 * 1) rho) as [n1 N1]; [lra|]. destruct (pow2_shrinks rho (2 * 1) Pr) as [n2 N2].
  exists (S (n1 + n2)). intros fuel Hf. unfold rhalf, findStart.
  destruct (startLoop_up _ _ rho (2 * 1) (fun x Hx => proj1 (HC x Hx)) Hi) with (n := n1) (fuel := fuel) as [b Eb]; try lra; try lia.
  destruct (startLoop_down _ _ rho (2 * 1) (fun x Hx => proj1 (HC x Hx)) Lo) with (n := n2) (fuel := fuel) as [a Ea]; try lra; try lia.
  rewrite Eb, Ea. cbn [obind].
  destruct (startLoop_post _ _ _ _ _ Eb) as (Pb & _ & Sb); [lra|]. destruct (startLoop_post _ _ _ _ _ Ea) as (Pa & _ & Sa); [lra|].
  destruct (HC a Pa) as [Fa _]. destruct (HC b Pb) as [Fb _]. rewrite Fa in Sa. rewrite Fb in Sb.
  destruct (rf_answers _ _ BQ (rhalffunc mass tot) a b _ _ (continuous_between_pos _ _ a b HC Pa Pb) Fa Fb) as [r E]; [nra|].
  rewrite E. cbn [of_brentq]. exists r. split; [reflexivity|].
  destruct (brentq_near tol brentq BQ _ _ _ _ _ E HC Pa Pb) as (x & Px & _ & Z & T). cbv beta in Z. rewrite Q in Z.
  assert (Z' : mass x = tot / 2) by nra.
  destruct (Rtotal_order x rho) as [L|[->|L]]; [|exact T|]; [specialize (I x rho Px L)|specialize (I rho x Pr L)]; lra.
Qed.
Print Assumptions C13_half_mass_radius.

(** ** Peri- and apocentre of an orbit that moves radially: the answer encloses the radius and the radial velocity vanishes there; the only refusal is
    "unbound", and then the orbit still moves outwards at some radius beyond 100.  (A radius that is exactly a power of two times 10^-9 is left out:
    there the inward search can stop on 10^-9 itself.) *)
Theorem C13_peri_apo : forall tol brentq, root_finder tol brentq -> forall Phi vc r vr vt, / 10 ^ 9 < r -> vr <> 0 -> (forall x, 0 < x -> continuous Phi x) ->
  (forall k, r / 2 ^ k <> / 10 ^ 9) ->
  let E := Phi r + vr ^ 2 / 2 + vt ^ 2 / 2 in
  let L := r * vt in
  let vr2 R := 2 * (E - Phi R - L ^ 2 / (2 * R ^ 2)) in
  exists n, forall fuel, (n <= fuel)%nat ->
    (calc_rperi_rap brentq fuel Phi vc r vr vt E L = UnboundErr /\ exists R, 100 < R /\ 0 < vr2 R) \/
    exists rperi rap, calc_rperi_rap brentq fuel Phi vc r vr vt E L = Ret (rperi, rap) /\ rperi <= r <= rap /\
      (rperi = 0 \/ exists x, 0 < x <= r /\ vr2 x = 0 /\ Rabs (rperi - x) <= tol) /\ exists y, r < y /\ vr2 y = 0 /\ Rabs (rap - y) <= tol.
Proof.
  intros tol brentq BQ Phi vc r vr vt H9 Hv C G E L vr2. assert (P9 : 0 < / 10 ^ 9) by (apply Rinv_0_lt_compat, pow_lt; lra).
  assert (Pr : 0 < r) by lra. set (f := rapRperiAxiEq Phi E L).
  assert (F2 : forall x, 0 < x -> vr2 x = 2 * f x). { intros x P. unfold vr2, f, rapRperiAxiEq. field. lra. }
  assert (Fr : f r = vr ^ 2 / 2). { unfold f, rapRperiAxiEq, E, L. field. lra. }
  assert (Pv : 0 < f r). { rewrite Fr. assert (0 < vr ^ 2) by (rewrite <- Rsqr_pow2; apply Rsqr_pos_lt; exact Hv). lra. }
  assert (HC : forall x, 0 < x -> Val (f x) = Val (f x) /\ continuous f x).
  { intros x P. split; [reflexivity|]. unfold f, rapRperiAxiEq. apply (continuous_minus (V := R_NormedModule) (fun x => E - Phi x) (fun x => L ^ 2 / 2 / x ^ 2)).
    - apply (continuous_minus (V := R_NormedModule) (fun _ => E) Phi); [apply continuous_const|apply C; exact P].
    - apply (ex_derive_continuous (K := R_AbsRing) (V := R_NormedModule)). auto_derive. apply pow_nonzero. lra. }
  destruct (pow2_shrinks (/ 10 ^ 9) (r / 2) P9) as [n1 N1].
  destruct (pow2_beats (2 * r) 101) as [n2 N2]; [lra|].
  exists (S (n1 + n2)). intros fuel Hf. unfold calc_rperi_rap. cbv zeta. fold f.
  destruct (Req_EM_T vr 0) as [|_]; [contradiction|]. unfold rapFindStart.
  destruct (rapLoop_down_total n1 f (r / 2) ltac:(lra) N1 fuel ltac:(lia)) as [a Ea]. rewrite Ea. cbn [obind].
  destruct (rapLoop_down_post _ _ _ _ Ea ltac:(lra)) as [Ha Sa]. destruct (rapLoop_down_grid _ _ _ _ Ea) as [k Ek]. rewrite halves in Ek.
  set (a0 := if Rlt_dec a (/ 10 ^ 9) then 0 else a).
  assert (Per : exists rperi, (if Req_EM_T a0 0 then Ret 0 else of_brentq (brentq (fun R => Val (f R)) a0 r)) = Ret rperi /\ rperi <= r /\
                  (rperi = 0 \/ exists x, 0 < x <= r /\ vr2 x = 0 /\ Rabs (rperi - x) <= tol)).
  { destruct (Req_EM_T a0 0) as [Z|Z]; [exists 0; split; [reflexivity|]; split; [lra|left; reflexivity]|].
    assert (Ea0 : a0 = a /\ / 10 ^ 9 <= a). { unfold a0 in *. destruct (Rlt_dec a (/ 10 ^ 9)); [contradiction|]. split; [reflexivity|lra]. }
    destruct Ea0 as [-> La]. assert (Na : f a <= 0). { destruct Sa as [Sa|Sa]; [exact Sa|]. exfalso. apply (G (S k)). rewrite <- Ek. lra. }
    destruct (finder_answers tol brentq BQ (fun R => Val (f R)) f a r) as [rp Ep].
    { intros x Hx. apply HC. apply (between_pos a r); auto; lra. }
    { nra. }
    destruct (brentq_near tol brentq BQ _ f _ _ _ Ep HC ltac:(lra) Pr) as (x & Px & Bx & Zx & Tx). destruct (rf_signs _ _ BQ _ _ _ _ Ep) as (_ & _ & _ & _ & _ & Bt).
    unfold between in *. rewrite Rmin_left, Rmax_right in Bx by lra. rewrite Rmin_left, Rmax_right in Bt by lra.
    exists rp. rewrite Ep. cbn [of_brentq]. split; [reflexivity|]. split; [lra|]. right. exists x. split; [lra|]. split; [rewrite F2 by exact Px; lra|exact Tx]. }
  destruct Per as (rp & Erp & Lrp & Qrp). rewrite Erp. cbn [obind].
  destruct (rapLoop_up_total n2 f (2 * r) ltac:(lra) ltac:(lra) fuel ltac:(lia)) as [[b Eb]|Eb]; rewrite Eb; cbn [obind].
  - right. destruct (rapLoop_up_post _ _ _ _ Eb ltac:(lra)) as [Lb Sb]. destruct (Rlt_dec b (/ 10 ^ 9)); [lra|].
    destruct (finder_answers tol brentq BQ (fun R => Val (f R)) f r b) as [ra Era].
    { intros x Hx. apply HC. apply (between_pos r b); auto; lra. }
    { nra. }
    destruct (brentq_near tol brentq BQ _ f _ _ _ Era HC Pr ltac:(lra)) as (y & Py & By & Zy & Ty). destruct (rf_signs _ _ BQ _ _ _ _ Era) as (_ & _ & _ & _ & _ & Bt).
    unfold between in *. rewrite Rmin_left, Rmax_right in By by lra. rewrite Rmin_left, Rmax_right in Bt by lra.
    rewrite Era. cbn [of_brentq obind]. exists rp, ra. split; [reflexivity|]. split; [lra|]. split; [exact Qrp|]. exists y.
    split; [|split; [rewrite F2 by exact Py; lra|exact Ty]]. destruct (Rle_lt_or_eq_dec r y) as [|E0]; [lra|assumption|]. rewrite <- E0 in Zy. lra.
  - left. split; [reflexivity|]. destruct (rapLoop_unbound _ _ _ Eb) as (x & Hx & Sx). exists x. split; [exact Hx|]. rewrite F2 by lra. lra.
Qed.
Print Assumptions C13_peri_apo.

(** Turning points of the prolate spheroidal coordinate u: [p2] is the squared momentum, non-negative at the present point.  Away from turning points
    the search answers with umin <= u <= umax, where the momentum vanishes (or umin = 0), or reports an unbound orbit. *)
Theorem C13_u_range : forall tol brentq, root_finder tol brentq -> forall p2 ux pux, / 10 ^ 9 < ux -> / 10 ^ 7 <= Rabs pux -> / 10 ^ 10 <= p2 ux ->
  (forall x, 0 < x -> continuous p2 x) -> (forall k, ux * (9 / 10) ^ k <> / 10 ^ 9) ->
  exists n, forall fuel, (n <= fuel)%nat ->
    (calcUminUmax brentq fuel p2 ux pux = UnboundErr /\ exists u, 100 < u /\ 0 <= p2 u) \/
    exists umin umax, calcUminUmax brentq fuel p2 ux pux = Ret (umin, umax) /\ umin <= ux <= umax /\
      (umin = 0 \/ exists x, 0 < x < ux /\ p2 x = 0 /\ Rabs (umin - x) <= tol) /\ exists y, ux < y /\ p2 y = 0 /\ Rabs (umax - y) <= tol.
Proof.
  intros tol brentq BQ f ux pux H9 Hp Hf0 C G. assert (P9 : 0 < / 10 ^ 9) by (apply Rinv_0_lt_compat, pow_lt; lra).
  assert (P10 : 0 < / 10 ^ 10) by (apply Rinv_0_lt_compat, pow_lt; lra).
  assert (HC : forall x, 0 < x -> Val (f x) = Val (f x) /\ continuous f x) by (intros x P; split; [reflexivity|apply C; exact P]).
  destruct (pow_shrinks (9 / 10) (/ 10 ^ 9) (ux * (9 / 10))) as [n1 N1]; try lra.
  destruct (pow_beats (11 / 10) (ux * (11 / 10)) 101) as [n2 N2]; try lra.
  exists (S (n1 + n2)). intros fuel Hf. unfold calcUminUmax. cbv zeta.
  destruct (Rlt_dec (Rabs pux) (/ 10 ^ 7)); [lra|]. destruct (Rlt_dec (Rabs (f ux)) (/ 10 ^ 10)) as [N|_]; [rewrite Rabs_right in N; lra|].
  unfold uFindStart.
  destruct (uLoop_down_total n1 f ux (ux * (9 / 10)) ltac:(lra) N1 fuel ltac:(lia)) as [[a pa] Ea]. rewrite Ea. cbn [obind].
  destruct (uLoop_post _ _ _ _ _ _ _ Ea) as (Pa & Fpa & Sa & Eap & Lpa & Ppa); [lra|lra|reflexivity|]. cbv iota in *.
  destruct (uLoop_down_grid _ _ _ _ _ _ Ea) as [k Ek].
  assert (Per : exists umin, (let '(rstart, prevr) := if Rlt_dec a (/ 10 ^ 9) then (0, pa) else (a, pa) in
        if Req_EM_T rstart 0 then Ret 0 else of_brentq (brentq (fun u => Val (f u)) rstart (if Rlt_dec (Rabs (prevr - ux)) (/ 100) then ux else prevr))) = Ret umin /\
        umin <= ux /\ (umin = 0 \/ exists x, 0 < x < ux /\ f x = 0 /\ Rabs (umin - x) <= tol)).
  { destruct (Rlt_dec a (/ 10 ^ 9)) as [La|La].
    - destruct (Req_EM_T 0 0) as [_|N]; [|lra]. exists 0. split; [reflexivity|]. split; [lra|left; reflexivity].
    - destruct (Req_EM_T a 0) as [|_]; [lra|]. assert (Na : f a < 0).
      { destruct Sa as [Sa|Sa]; [exact Sa|]. exfalso. apply (G (S k)). rewrite <- tech_pow_Rmult. transitivity a; [rewrite Ek; ring|lra]. }
      set (top := if Rlt_dec (Rabs (pa - ux)) (/ 100) then ux else pa). assert (Ht : a < top <= ux /\ 0 <= f top).
      { unfold top. destruct (Rlt_dec _ _); split; lra. }
      destruct (finder_answers tol brentq BQ (fun R => Val (f R)) f a top) as [rp Ep].
      { intros x Hx. apply HC. apply (between_pos a top); auto; lra. }
      { nra. }
      destruct (brentq_near tol brentq BQ _ f _ _ _ Ep HC Pa ltac:(lra)) as (x & Px & Bx & Zx & Tx). destruct (rf_signs _ _ BQ _ _ _ _ Ep) as (_ & _ & _ & _ & _ & Bt).
      unfold between in *. rewrite Rmin_left, Rmax_right in Bx by lra. rewrite Rmin_left, Rmax_right in Bt by lra.
      exists rp. rewrite Ep. cbn [of_brentq]. split; [reflexivity|]. split; [lra|]. right. exists x. split; [|split; [lra|exact Tx]].
      split; [exact Px|]. destruct (Rle_lt_or_eq_dec x ux) as [|E0]; [lra|assumption|]. rewrite E0 in Zx. lra. }
  destruct Per as (rp & Erp & Lrp & Qrp).
  assert (SPLIT : forall (q : RR * RR) (K : RR -> out (RR * RR)), (let '(rstart, prevr) := q in obind (if Req_EM_T rstart 0 then Ret 0 else
      of_brentq (brentq (fun u => Val (f u)) rstart (if Rlt_dec (Rabs (prevr - ux)) (/ 100) then ux else prevr))) K) =
      obind (let '(rstart, prevr) := q in if Req_EM_T rstart 0 then Ret 0 else
      of_brentq (brentq (fun u => Val (f u)) rstart (if Rlt_dec (Rabs (prevr - ux)) (/ 100) then ux else prevr))) K) by (intros [q1 q2] K; reflexivity).
  rewrite SPLIT, Erp. cbn [obind]. clear SPLIT.
  destruct (uLoop_up_total n2 f ux (ux * (11 / 10)) ltac:(lra) ltac:(lra) fuel ltac:(lia)) as [[[b pb] Eb]|Eb]; rewrite Eb; cbn [obind].
  - right. destruct (uLoop_post _ _ _ _ _ _ _ Eb) as (Pb & Fpb & Sb & Ebp & Lpb & Ppb); [lra|lra|reflexivity|]. cbv iota in *.
    assert (Nb : f b < 0) by (destruct Sb; lra). destruct (Rlt_dec b (/ 10 ^ 9)); [lra|].
    destruct (finder_answers tol brentq BQ (fun R => Val (f R)) f pb b) as [ra Era].
    { intros x Hx. apply HC. apply (between_pos pb b); auto; lra. }
    { nra. }
    destruct (brentq_near tol brentq BQ _ f _ _ _ Era HC ltac:(lra) ltac:(lra)) as (y & Py & By & Zy & Ty). destruct (rf_signs _ _ BQ _ _ _ _ Era) as (_ & _ & _ & _ & _ & Bt).
    unfold between in *. rewrite Rmin_left, Rmax_right in By by lra. rewrite Rmin_left, Rmax_right in Bt by lra.
    rewrite Era. cbn [of_brentq obind]. exists rp, ra. split; [reflexivity|]. split; [lra|]. split; [exact Qrp|]. exists y.
    split; [|split; [exact Zy|exact Ty]]. destruct (Rle_lt_or_eq_dec ux y) as [|E0]; [lra|assumption|]. rewrite <- E0 in Zy. lra.
  - left. split; [reflexivity|]. exact (uLoop_unbound _ _ _ _ Eb).
Qed.
Print Assumptions C13_u_range.
(** At a turning point in u the present value is one end of the range. *)
Theorem C13_u_range_turning : forall tol brentq, root_finder tol brentq -> forall p2 ux pux, / 10 ^ 8 < ux -> 0 <= p2 ux -> Rabs pux < / 10 ^ 7 ->
  (forall x, 0 < x -> continuous p2 x) -> (forall k, ux * (9 / 10) ^ k <> / 10 ^ 9) ->
  let eps := / 10 ^ 8 in
  exists n, forall fuel, (n <= fuel)%nat ->
    (p2 (ux + eps) < 0 < p2 (ux - eps) -> exists umin, calcUminUmax brentq fuel p2 ux pux = Ret (umin, ux) /\
       (umin = 0 \/ (umin <= Rmax (ux - eps) (ux * (9 / 10)) /\ exists x, 0 < x /\ p2 x = 0 /\ Rabs (umin - x) <= tol))) /\
    (p2 (ux - eps) < 0 < p2 (ux + eps) -> calcUminUmax brentq fuel p2 ux pux = UnboundErr \/ exists umax, calcUminUmax brentq fuel p2 ux pux = Ret (ux, umax) /\
       ux < umax /\ exists y, ux < y /\ p2 y = 0 /\ Rabs (umax - y) <= tol).
Proof.
  intros tol brentq BQ f ux pux H8 F0 Hp C G eps. assert (P9 : 0 < / 10 ^ 9) by (apply Rinv_0_lt_compat, pow_lt; lra).
  assert (L98 : / 10 ^ 9 < / 10 ^ 8). { apply Rinv_lt_contravar; [apply Rmult_lt_0_compat; apply pow_lt; lra|apply Rlt_pow; [lra|lia]]. }
  assert (HC : forall x, 0 < x -> Val (f x) = Val (f x) /\ continuous f x) by (intros x P; split; [reflexivity|apply C; exact P]).
  destruct (pow_shrinks (9 / 10) (/ 10 ^ 9) (ux * (9 / 10))) as [n1 N1]; try lra.
  destruct (pow_beats (11 / 10) (ux * (11 / 10)) 101) as [n2 N2]; try lra.
  exists (S (n1 + n2)). intros fuel Hf. unfold calcUminUmax. cbv zeta. fold eps.
  destruct (Rlt_dec (Rabs pux) (/ 10 ^ 7)) as [_|]; [|contradiction]. unfold uFindStart. split.
  - intros [A B]. destruct (Rlt_dec (f (ux + eps)) 0) as [_|]; [|contradiction]. destruct (Rlt_dec 0 (f (ux - eps))) as [_|]; [|contradiction].
    destruct (uLoop_down_total n1 f ux (ux * (9 / 10)) ltac:(lra) N1 fuel ltac:(lia)) as [[a pa] Ea]. rewrite Ea. cbn [obind].
    destruct (uLoop_post _ _ _ _ _ _ _ Ea) as (Pa & Fpa & Sa & Eap & Lpa & Ppa); [lra|lra|reflexivity|]. cbv iota in *.
    destruct (uLoop_down_grid _ _ _ _ _ _ Ea) as [k Ek].
    destruct (Rlt_dec a (/ 10 ^ 9)) as [La|La].
    + destruct (Req_EM_T 0 0) as [_|N]; [|lra]. cbn [obind]. exists 0. split; [reflexivity|left; reflexivity].
    + destruct (Req_EM_T a 0) as [|_]; [lra|]. assert (Na : f a < 0).
      { destruct Sa as [Sa|Sa]; [exact Sa|]. exfalso. apply (G (S k)). rewrite <- tech_pow_Rmult. transitivity a; [rewrite Ek; ring|lra]. }
      assert (Pe : 0 < ux - eps) by (unfold eps; lra).
      destruct (finder_answers tol brentq BQ (fun R => Val (f R)) f a (ux - eps)) as [rp Ep].
      { intros x Hx. apply HC. apply (between_pos a (ux - eps)); auto; lra. }
      { nra. }
      destruct (brentq_near tol brentq BQ _ f _ _ _ Ep HC Pa Pe) as (x & Px & Bx & Zx & Tx). destruct (rf_signs _ _ BQ _ _ _ _ Ep) as (_ & _ & _ & _ & _ & Bt).
      rewrite Ep. cbn [of_brentq obind]. exists rp. split; [reflexivity|]. right. split; [|exists x; auto].
      unfold between in Bt. destruct Bt as [_ Bt]. assert (Lm : a <= ux * (9 / 10)) by lra. unfold Rmax in *. destruct (Rle_dec a (ux - eps)); destruct (Rle_dec (ux - eps) (ux * (9 / 10))); lra.
  - intros [A B]. destruct (Rlt_dec (f (ux + eps)) 0) as [|_]; [lra|]. destruct (Rlt_dec 0 (f (ux + eps))) as [_|]; [|contradiction]. destruct (Rlt_dec (f (ux - eps)) 0) as [_|]; [|contradiction].
    assert (P8 : 0 < eps) by (unfold eps; apply Rinv_0_lt_compat, pow_lt; lra).
    destruct (uLoop_up_total n2 f ux (ux * (11 / 10)) ltac:(lra) ltac:(lra) fuel ltac:(lia)) as [[[b pb] Eb]|Eb]; rewrite Eb; cbn [obind]; [|left; reflexivity].
    right. destruct (uLoop_post _ _ _ _ _ _ _ Eb) as (Pb & Fpb & Sb & Ebp & Lpb & Ppb); [lra|lra|reflexivity|]. cbv iota in *.
    assert (Nb : f b < 0) by (destruct Sb; lra). destruct (Rlt_dec b (/ 10 ^ 9)); [lra|].
    destruct (finder_answers tol brentq BQ (fun R => Val (f R)) f (ux + eps) b) as [ra Era].
    { intros x Hx. apply HC. apply (between_pos (ux + eps) b); auto; lra. }
    { nra. }
    destruct (brentq_near tol brentq BQ _ f _ _ _ Era HC ltac:(lra) ltac:(lra)) as (y & Py & By & Zy & Ty). destruct (rf_signs _ _ BQ _ _ _ _ Era) as (_ & _ & _ & _ & _ & Bt).
    assert (M : forall q, between (ux + eps) b q -> ux < q). { intros q [Hq _]. unfold Rmin in Hq. destruct (Rle_dec (ux + eps) b); lra. }
    rewrite Era. cbn [of_brentq obind]. exists ra. split; [reflexivity|]. split; [exact (M _ Bt)|]. exists y. split; [exact (M _ By)|]. split; [exact Zy|exact Ty].
Qed.
Print Assumptions C13_u_range_turning.
(** The lowest value of v: zero, or a zero of the squared momentum below the present value. *)
Theorem C13_v_range : forall tol brentq, root_finder tol brentq -> forall p2 vx pvx, 0 < vx -> / 10 ^ 7 <= Rabs pvx -> 0 <= p2 vx ->
  (forall x, 0 < x -> continuous p2 x) -> (forall k, vx * (9 / 10) ^ k <> / 10 ^ 9) ->
  exists n, forall fuel, (n <= fuel)%nat -> exists vmin, calcVmin brentq fuel p2 vx pvx = Ret vmin /\
    (vmin = 0 \/ (vmin <= vx /\ exists x, 0 < x <= vx /\ p2 x = 0 /\ Rabs (vmin - x) <= tol)).
Proof.
  intros tol brentq BQ f vx pvx Pv Hp F0 C G. assert (P9 : 0 < / 10 ^ 9) by (apply Rinv_0_lt_compat, pow_lt; lra).
  assert (HC : forall x, 0 < x -> Val (f x) = Val (f x) /\ continuous f x) by (intros x P; split; [reflexivity|apply C; exact P]).
  destruct (pow_shrinks (9 / 10) (/ 10 ^ 9) (9 / 10 * vx)) as [n1 N1]; try lra.
  exists (S n1). intros fuel Hf. unfold calcVmin. cbv zeta. destruct (Rlt_dec (Rabs pvx) (/ 10 ^ 7)); [lra|]. unfold vFindStart.
  destruct (vLoop_total n1 f (9 / 10 * vx) ltac:(lra) N1 fuel ltac:(lia)) as [a Ea]. rewrite Ea. cbn [obind].
  destruct (vLoop_post _ _ _ _ Ea Pv F0) as (Pa & Fpa & Sa & Lpa). destruct (vLoop_grid _ _ _ _ Ea) as [k Ek].
  destruct (Rlt_dec a (/ 10 ^ 9)) as [La|La].
  - destruct (Req_EM_T 0 0) as [_|N]; [|lra]. exists 0. split; [reflexivity|left; reflexivity].
  - destruct (Req_EM_T a 0) as [|_]; [lra|]. assert (Na : f a < 0).
    { destruct Sa as [Sa|Sa]; [exact Sa|]. exfalso. apply (G (S k)). rewrite <- tech_pow_Rmult. transitivity a; [rewrite Ek; ring|lra]. }
    assert (Pt : a < a / (9 / 10)) by lra.
    destruct (finder_answers tol brentq BQ (fun R => Val (f R)) f a (a / (9 / 10))) as [rp Ep].
    { intros x Hx. apply HC. apply (between_pos a (a / (9 / 10))); auto; lra. }
    { nra. }
    destruct (brentq_near tol brentq BQ _ f _ _ _ Ep HC Pa ltac:(lra)) as (x & Px & Bx & Zx & Tx). destruct (rf_signs _ _ BQ _ _ _ _ Ep) as (_ & _ & _ & _ & _ & Bt).
    unfold between in *. rewrite Rmin_left, Rmax_right in Bx by lra. rewrite Rmin_left, Rmax_right in Bt by lra.
    rewrite Ep. cbn [of_brentq]. exists rp. split; [reflexivity|]. right. split; [lra|]. exists x. repeat split; auto; lra.
Qed.
Print Assumptions C13_v_range.

(** ** Refuted: resonances, near-circular orbits and bound orbits that are missed *)
Notation Kep := (Single 1 Kepler) (only parsing).
Lemma kepler_force : forall R : RR, 0 < R -> PS_Rf 3 R 0 = - / R ^ 2.
Proof.
  intros R P. unfold PS_Rf. replace (R ^ 2 + 0 ^ 2) with (R ^ 2) by ring.
  rewrite rpow_3_2 by (apply pow_lt; exact P). rewrite sqrt_pow2 by lra. field. lra.
Qed.
Lemma kepler_vcirc : forall R t : RR, 0 < R -> fun_vcirc Kep R None t = Val (sqrt (/ R)).
Proof.
  intros R t P. pose proof (kepler_force R P) as F. unfold fun_vcirc. cbn [toPlanar planar_of isNonAxi nonaxi Kepler PowerSpherical mkAxi].
  unfold evaluateplanarRforces. cbn. unfold scale3, scale4. rewrite F, !Rmult_1_l. unfold nsqrt.
  assert (Q : - R * - / R ^ 2 = / R) by (field; lra). assert (P' : 0 < / R) by (apply Rinv_0_lt_compat; exact P).
  destruct (Rle_dec _ _) as [|N]; [rewrite Q; reflexivity|exfalso; apply N; rewrite Q; lra].
Qed.
Lemma kepler_omegac : forall R t : RR, 0 < R -> fun_omegac Kep R t = Val (sqrt (/ R ^ 3)).
Proof.
  intros R t P. pose proof (kepler_force R P) as F. unfold fun_omegac. cbn [RZToplanar isDiss isNonAxi nonaxi Kepler PowerSpherical mkAxi noption].
  unfold evaluateplanarRforces. cbn. unfold scale3, scale4. rewrite F, !Rmult_1_l. unfold ndiv, nsqrt. destruct (Req_EM_T R 0); [lra|]. cbn [nbind].
  assert (Q : - - / R ^ 2 / R = / R ^ 3) by (field; lra). assert (P' : 0 < / R ^ 3) by (apply Rinv_0_lt_compat, pow_lt; exact P).
  destruct (Rle_dec _ _) as [|N]; [rewrite Q; reflexivity|exfalso; apply N; rewrite Q; lra].
Qed.
Lemma kepler_ev : forall R z phi t : RR, 0 < R -> exists Phi, apiEv Kep = Some Phi /\ Phi R 0 phi t = - / R.
Proof.
  intros R z phi t P. eexists. split; [reflexivity|]. cbv [scale4 Kepler PowerSpherical mkAxi c_ev PS_ev]. destruct (Req_EM_T 3 2); [lra|].
  replace (R ^ 2 + 0 ^ 2) with (R ^ 2) by ring. replace (1 - 3 / 2) with (- (1 / 2)) by lra. rewrite rpow_opp, rpow_1_2 by (apply pow_lt; exact P). rewrite sqrt_pow2 by lra. field. lra.
Qed.
(** Corotation of a slow pattern is at R = 10^4: lindbladR answers None, with any root finder. *)
Theorem C13_lindblad_complete_refuted : exists p OmegaP R, fun_omegac p R 0 = Val OmegaP /\ 0 < OmegaP /\ 0 < R /\
  forall tol brentq, root_finder tol brentq -> lindbladR brentq p OmegaP None 0 = Ret None.
Proof.
  exists Kep, (/ 10 ^ 6), (10 ^ 4). assert (P4 : 0 < 10 ^ 4) by (apply pow_lt; lra). assert (P6 : 0 < / 10 ^ 6) by (apply Rinv_0_lt_compat, pow_lt; lra).
  split. { rewrite kepler_omegac by exact P4. f_equal. replace (/ (10 ^ 4) ^ 3) with ((/ 10 ^ 6) ^ 2) by field. apply sqrt_pow2. lra. }
  split; [exact P6|]. split; [exact P4|]. intros tol brentq BQ.
  assert (B : forall R, 0 < R -> R <= 1000 -> / 10 ^ 6 < sqrt (/ R ^ 3)).
  { intros R P L. rewrite <- (sqrt_pow2 (/ 10 ^ 6)) by lra. apply sqrt_lt_1_alt. split; [apply pow2_ge_0|].
    apply (Rlt_le_trans _ (/ 1000 ^ 3)); [rewrite Rinv_pow_depr by lra; lra|]. apply Rinv_le_contravar; [apply pow_lt; exact P|]. apply pow_incr. lra. }
  assert (N : forall a, 0 < a -> a <= 1000 -> brentq (corotation_eq Kep (/ 10 ^ 6) 0) a 1000 = None).
  { intros a Pa La. destruct (brentq _ a 1000) as [r|] eqn:E; [|reflexivity]. exfalso.
    destruct (rf_signs _ _ BQ _ _ _ _ E) as (va & vb & Ea & Eb & Sg & _). unfold corotation_eq in Ea, Eb. rewrite kepler_omegac in Ea, Eb by lra. cbn [nbind] in Ea, Eb.
    injection Ea as Ea. injection Eb as Eb. pose proof (B a Pa La). pose proof (B 1000 ltac:(lra) ltac:(lra)). nra. }
  unfold lindbladR. assert (L7 : 0 < / 10 ^ 7 <= 1000).
  { split; [apply Rinv_0_lt_compat, pow_lt; lra|]. assert (/ 10 ^ 7 <= 1) by (rewrite <- Rinv_1; apply Rinv_le_contravar; [lra|apply pow_R1_Rle; lra]). lra. }
  rewrite N by lra. rewrite N by lra. reflexivity.
Qed.
Print Assumptions C13_lindblad_complete_refuted.
(** A Kepler orbit that starts at its pericentre R = 1 with 1.000001 times the circular velocity is an ellipse with apocentre below 1.00001:
    the bracket starts beyond the apocentre, and the search raises ValueError. *)
Theorem C13_near_circular_refuted : exists Phi vc r vt E L, (forall x, 0 < x -> Phi x = - / x /\ vc x = sqrt (/ x)) /\ vc r < vt /\ E = Phi r + vt ^ 2 / 2 /\ L = r * vt /\ E < 0 /\
  (exists R, r < R /\ E - Phi R - L ^ 2 / (2 * R ^ 2) = 0) /\
  forall tol brentq, root_finder tol brentq -> forall fuel, (1 <= fuel)%nat -> calc_rperi_rap brentq fuel Phi vc r 0 vt E L = ValueErr.
Proof.
  set (v := 1 + / 1000000). exists (fun x => - / x), (fun x => sqrt (/ x)), 1, v, (- / 1 + v ^ 2 / 2), (1 * v).
  assert (S1 : sqrt (/ 1) = 1) by (rewrite Rinv_1; apply sqrt_1).
  split; [intros; split; reflexivity|]. split; [rewrite S1; unfold v; lra|]. split; [reflexivity|]. split; [reflexivity|]. split; [unfold v; lra|]. split.
  { exists (v ^ 2 / (2 - v ^ 2)). split; [|unfold v; field; lra]. unfold v. lra. }
  intros tol brentq BQ fuel Hf. unfold calc_rperi_rap. cbv zeta. destruct (Req_EM_T 0 0) as [_|N]; [|lra]. rewrite S1.
  assert (P15 : / 10 ^ 15 < / 1000000) by (apply Rinv_lt_contravar; [|]; lra).
  destruct (Rlt_dec (Rabs (v - 1)) (/ 10 ^ 15)) as [A|_]. { rewrite Rabs_right in A by (unfold v; lra). unfold v in A. lra. }
  destruct (Rlt_dec 1 v) as [_|N]; [|exfalso; apply N; unfold v; lra].
  set (f := rapRperiAxiEq _ _ _). assert (F2 : f (2 * 1) < 0) by (unfold f, rapRperiAxiEq, v; lra).
  assert (F1 : f (1 + / 10 ^ 5) < 0) by (unfold f, rapRperiAxiEq, v; lra).
  unfold rapFindStart. destruct fuel as [|fuel]; [lia|]. cbn [rapLoop]. destruct (Rlt_dec 0 (1 * f (2 * 1))); [lra|]. cbn [obind].
  assert (P9 : / 10 ^ 9 < 1) by (rewrite <- Rinv_1; apply Rinv_lt_contravar; lra). destruct (Rlt_dec (2 * 1) (/ 10 ^ 9)); [lra|].
  destruct (brentq _ _ _) as [x|] eqn:EB; [|reflexivity]. exfalso. destruct (rf_signs _ _ BQ _ _ _ _ EB) as (va & vb & Ea & Eb & Sg & _).
  injection Ea as Ea. injection Eb as Eb. nra.
Qed.
Print Assumptions C13_near_circular_refuted.
(** A bound Kepler orbit with its apocentre at R = 120 or beyond is reported as unbound. *)
Theorem C13_bound_orbit_refuted : exists Phi vc r vt E L, (forall x, 0 < x -> Phi x = - / x /\ vc x = sqrt (/ x)) /\ vc r < vt /\ E = Phi r + vt ^ 2 / 2 /\ L = r * vt /\ E < 0 /\
  (exists R, r < R /\ E - Phi R - L ^ 2 / (2 * R ^ 2) = 0) /\
  forall brentq fuel, (2 <= fuel)%nat -> calc_rperi_rap brentq fuel Phi vc r 0 vt E L = UnboundErr.
Proof.
  set (v := / 4). exists (fun x => - / x), (fun x => sqrt (/ x)), 30, v, (- / 30 + v ^ 2 / 2), (30 * v).
  assert (S1 : sqrt (/ 30) < v). { rewrite <- (sqrt_pow2 v) by (unfold v; lra). apply sqrt_lt_1_alt. unfold v. lra. }
  split; [intros; split; reflexivity|]. split; [exact S1|]. split; [reflexivity|]. split; [reflexivity|]. split; [unfold v; lra|]. split.
  { exists 450. unfold v. split; lra. }
  intros brentq fuel Hf. unfold calc_rperi_rap. cbv zeta. destruct (Req_EM_T 0 0) as [_|N]; [|lra].
  assert (S2 : sqrt (/ 30) < 1 / 5). { rewrite <- (sqrt_pow2 (1 / 5)) by lra. apply sqrt_lt_1_alt. lra. }
  assert (P15 : / 10 ^ 15 < / 1000) by (apply Rinv_lt_contravar; lra).
  destruct (Rlt_dec (Rabs (v - sqrt (/ 30))) (/ 10 ^ 15)) as [A|_]. { rewrite Rabs_right in A by (unfold v in *; lra). unfold v in *. lra. }
  destruct (Rlt_dec (sqrt (/ 30)) v) as [_|N]; [|contradiction].
  set (f := rapRperiAxiEq _ _ _). assert (F1 : 0 < f (2 * 30)) by (unfold f, rapRperiAxiEq, v; lra).
  assert (F2 : 0 < f (2 * 30 * 2)) by (unfold f, rapRperiAxiEq, v; lra).
  assert (P9 : / 10 ^ 9 < 1) by (rewrite <- Rinv_1; apply Rinv_lt_contravar; lra).
  unfold rapFindStart. destruct fuel as [|[|fuel]]; [lia|lia|]. cbn [rapLoop]. destruct (Rlt_dec 0 (1 * f (2 * 30))); [|lra]. destruct (Rlt_dec (/ 10 ^ 9) (2 * 30)); [|lra].
  destruct (Rlt_dec 100 (2 * 30)); [lra|]. destruct (Rlt_dec 0 (1 * f (2 * 30 * 2))); [|lra]. destruct (Rlt_dec (/ 10 ^ 9) (2 * 30 * 2)); [|lra].
  destruct (Rlt_dec 100 (2 * 30 * 2)); [reflexivity|lra].
Qed.
Print Assumptions C13_bound_orbit_refuted.

(** ** Non-vacuity.  A root finder with tolerance zero: the first root of a continuous function. *)
Definition first_root (f : RR -> num) (a b : RR) : option RR :=
  match f a, f b with
  | Val va, Val vb => if Rle_dec (va * vb) 0
                      then Some (real (Glb_Rbar (fun x => between a b x /\ (f x = Val 0 \/ x = Rmax a b)))) else None
  | _, _ => None
  end.
Lemma minmax : forall a b : RR, Rmin a b <= Rmax a b.
Proof. intros. apply (Rle_trans _ a); [apply Rmin_l|apply Rmax_l]. Qed.
Lemma first_root_glb : forall (f : RR -> num) a b, exists r, Glb_Rbar (fun x => between a b x /\ (f x = Val 0 \/ x = Rmax a b)) = Finite r /\ between a b r.
Proof.
  intros f a b. set (S0 := fun x => between a b x /\ (f x = Val 0 \/ x = Rmax a b)). pose proof (Glb_Rbar_correct S0) as [LB GL].
  assert (M : S0 (Rmax a b)). { split; [split; [apply minmax|lra]|right; reflexivity]. }
  assert (U := LB _ M). assert (L : Rbar_le (Rmin a b) (Glb_Rbar S0)). { apply GL. intros x [[Hx _] _]. exact Hx. }
  destruct (Glb_Rbar S0) as [r| |]; cbn in U, L; try contradiction. exists r. split; [reflexivity|]. split; assumption.
Qed.
Lemma ivt_between : forall (g : RR -> RR) a b, (forall x, between a b x -> continuous g x) -> g a * g b <= 0 -> exists x, between a b x /\ g x = 0.
Proof.
  intros g a b C S0. destruct (Rtotal_order a b) as [L|[E|L]].
  - assert (C' : forall x, a <= x <= b -> continuity_pt g x).
    { intros x Hx. apply continuity_pt_filterlim. apply C. unfold between. rewrite Rmin_left, Rmax_right; lra. }
    destruct (Req_EM_T (g a) 0) as [Z|Z]; [exists a; split; [unfold between; rewrite Rmin_left, Rmax_right; lra|exact Z]|].
    destruct (Req_EM_T (g b) 0) as [Z'|Z']; [exists b; split; [unfold between; rewrite Rmin_left, Rmax_right; lra|exact Z']|].
    destruct (Rlt_dec (g a) 0) as [N|N].
    + destruct (Ranalysis5.IVT_interv g a b C' L N) as (x & Hx & Zx); [nra|]. exists x. split; [unfold between; rewrite Rmin_left, Rmax_right; lra|exact Zx].
    + destruct (Ranalysis5.IVT_interv (fun x => - g x) a b) as (x & Hx & Zx); [|exact L| | |].
      * intros x Hx. apply continuity_pt_opp. apply C'. exact Hx.
      * lra.
      * nra.
      * exists x. split; [unfold between; rewrite Rmin_left, Rmax_right; lra|lra].
  - subst. exists b. split; [unfold between; rewrite Rmin_left, Rmax_right; lra|nra].
  - assert (C' : forall x, b <= x <= a -> continuity_pt g x).
    { intros x Hx. apply continuity_pt_filterlim. apply C. unfold between. rewrite Rmin_right, Rmax_left; lra. }
    destruct (Req_EM_T (g a) 0) as [Z|Z]; [exists a; split; [unfold between; rewrite Rmin_right, Rmax_left; lra|exact Z]|].
    destruct (Req_EM_T (g b) 0) as [Z'|Z']; [exists b; split; [unfold between; rewrite Rmin_right, Rmax_left; lra|exact Z']|].
    destruct (Rlt_dec (g b) 0) as [N|N].
    + destruct (Ranalysis5.IVT_interv g b a C' L N) as (x & Hx & Zx); [nra|]. exists x. split; [unfold between; rewrite Rmin_right, Rmax_left; lra|exact Zx].
    + destruct (Ranalysis5.IVT_interv (fun x => - g x) b a) as (x & Hx & Zx); [|exact L| | |].
      * intros x Hx. apply continuity_pt_opp. apply C'. exact Hx.
      * lra.
      * nra.
      * exists x. split; [unfold between; rewrite Rmin_right, Rmax_left; lra|lra].
Qed.
Lemma first_root_finder : root_finder 0 first_root.
Proof.
  constructor.
  - intros f a b r E. unfold first_root in E. destruct (f a) as [| |va]; try discriminate. destruct (f b) as [| |vb]; try discriminate.
    destruct (Rle_dec (va * vb) 0) as [L|]; [|discriminate]. injection E as <-. destruct (first_root_glb f a b) as (r & Er & Br). rewrite Er.
    exists va, vb. repeat split; auto; apply Br.
  - intros f a b r E [g H]. unfold first_root in E.
    assert (Ba : between a b a) by (split; [apply Rmin_l|apply Rmax_l]). assert (Bb : between a b b) by (split; [apply Rmin_r|apply Rmax_r]).
    rewrite (proj1 (H a Ba)), (proj1 (H b Bb)) in E. destruct (Rle_dec (g a * g b) 0) as [L|]; [|discriminate]. injection E as <-.
    destruct (first_root_glb f a b) as (r & Er & Br). pose proof (Glb_Rbar_correct (fun x => between a b x /\ (f x = Val 0 \/ x = Rmax a b))) as [LB GL]. rewrite Er in *. cbn [real].
    destruct (ivt_between g a b (fun x Hx => proj2 (H x Hx)) L) as (x0 & B0 & Z0).
    exists r. split; [exact Br|]. split; [|rewrite Rminus_eq_0, Rabs_R0; lra]. rewrite (proj1 (H r Br)). f_equal.
    destruct (Req_EM_T (g r) 0) as [Z|Z]; [exact Z|exfalso].
    assert (LN : locally (g r) (fun y => y <> 0)) by (apply open_neq; exact Z). pose proof (proj2 (H r Br) _ LN) as LN'.
    destruct LN' as [d Hd].
    assert (L1 : Rbar_le (Finite (r + d)) (Finite r)).
    { apply GL. intros x [Bx [Fx|Fx]]; cbn.
      - assert (g x = 0) by (pose proof (proj1 (H x Bx)) as Q; rewrite Fx in Q; injection Q as Q; congruence).
        assert (Lx : r <= x) by (apply (LB x); split; [exact Bx|left; exact Fx]).
        destruct (Rle_dec (r + d) x) as [|N]; [assumption|exfalso]. apply (Hd x); [|assumption]. unfold ball; cbn; unfold AbsRing_ball, abs, minus, plus, opp; cbn. rewrite Rabs_right; lra.
      - assert (L0 : r <= x0) by (apply (LB x0); split; [exact B0|left; rewrite (proj1 (H x0 B0)), Z0; reflexivity]).
        destruct (Rle_dec (r + d) x0) as [|N]; [destruct B0; lra|exfalso]. apply (Hd x0); [|assumption]. unfold ball; cbn; unfold AbsRing_ball, abs, minus, plus, opp; cbn. rewrite Rabs_right; lra. }
    cbn in L1. destruct d as [d Pd]. cbn in L1. lra.
  - intros f a b va vb _ Ea Eb L. unfold first_root. rewrite Ea, Eb. destruct (Rle_dec _ _); [eauto|contradiction].
Qed.
Lemma kepler_curve : rotation_curve Kep 0 (fun x => sqrt (/ x)).
Proof.
  intros R P. split; [apply kepler_vcirc; exact P|]. apply (ex_derive_continuous (K := R_AbsRing) (V := R_NormedModule)). auto_derive. split; [lra|]. split; [apply Rinv_0_lt_compat; exact P|exact I].
Qed.
Lemma kepler_L : forall x, 0 < x -> x * sqrt (/ x) = sqrt x.
Proof.
  intros x P. apply Rsqr_inj; [|apply sqrt_pos|]. { apply Rmult_le_pos; [lra|apply sqrt_pos]. }
  rewrite Rsqr_mult, !Rsqr_sqrt; [unfold Rsqr; field; lra|lra|]. apply Rlt_le, Rinv_0_lt_compat, P.
Qed.
(** For Kepler the guiding radius of angular momentum Lz is Lz^2: both a contracted and an expanded search find it. *)
Example C13_kepler : forall lz, lz <> 0 -> exists n, forall fuel, (n <= fuel)%nat -> rl first_root fuel Kep lz 0 = Ret (lz ^ 2).
Proof.
  intros lz H. assert (P2 : 0 < lz ^ 2) by (rewrite <- Rsqr_pow2; apply Rsqr_pos_lt; exact H).
  destruct (C13_guiding_radius_found 0 first_root first_root_finder Kep lz 0 _ (lz ^ 2) H kepler_curve) as [n Hn].
  - intros x y P L. rewrite !kepler_L by lra. apply sqrt_lt_1_alt. lra.
  - exact P2.
  - rewrite kepler_L by exact P2. rewrite <- Rsqr_pow2. apply sqrt_Rsqr_abs.
  - exists n. intros fuel Hf. destruct (Hn fuel Hf) as (r & E & T). rewrite E. f_equal. pose proof (Rabs_pos (r - lz ^ 2)). assert (Z : Rabs (r - lz ^ 2) = 0) by lra.
    destruct (Req_EM_T (r - lz ^ 2) 0) as [Z'|Z']; [lra|]. apply Rabs_no_R0 in Z'. contradiction.
Qed.
Example C13_kepler_orbit : exists (Phi : RR -> RR) (r vr : RR), / 10 ^ 9 < r /\ vr <> 0 /\ (forall x, 0 < x -> continuous Phi x) /\ forall k, r / 2 ^ k <> / 10 ^ 9.
Proof.
  exists (fun x => - / x), 3, 1. assert (P9 : / 10 ^ 9 < 1) by (rewrite <- Rinv_1; apply Rinv_lt_contravar; lra). split; [lra|]. split; [lra|]. split.
  - intros x P. apply (ex_derive_continuous (K := R_AbsRing) (V := R_NormedModule)). auto_derive. lra.
  - intros k E. assert (Q : 3 * 10 ^ 9 = 2 ^ k). { apply (Rmult_eq_reg_r (/ 2 ^ k)); [|apply Rinv_neq_0_compat, pow_nonzero; lra]. rewrite Rinv_r by (apply pow_nonzero; lra).
      replace (3 * 10 ^ 9 * / 2 ^ k) with (10 ^ 9 * (3 / 2 ^ k)) by (unfold Rdiv; ring). rewrite E. field. }
    assert (Z3 : (3 * 10 ^ 9 = 2 ^ Z.of_nat k)%Z). { apply eq_IZR. change (10 ^ 9)%Z with (10 ^ Z.of_nat 9)%Z. rewrite mult_IZR, <- !pow_IZR. exact Q. }
    assert (D : Z.divide 3 (2 ^ Z.of_nat k)%Z) by (rewrite <- Z3; apply Z.divide_factor_l).
    assert (R3 : Znumtheory.prime 3) by exact Znumtheory.prime_3.
    apply (Zpow_facts.prime_power_prime 3 2) in D; [discriminate|lia|exact R3|exact Znumtheory.prime_2].
Qed.
(** Refuted: LcE takes the circular velocity at t = 0.  A point mass that has doubled since: the angular momentum is too small by a factor sqrt(2). *)
Theorem C13_circular_angular_momentum_refuted : exists p E t r L v, (exists c A, TimeDependentAmplitude A Kep = Some c /\ p = Single 1 c) /\
  (exists n, forall fuel, (n <= fuel)%nat -> rE first_root fuel p E t = Ret r /\ LcE first_root fuel p E t = Ret L) /\
  fun_vcirc p r None t = Val v /\ L <> r * v.
Proof.
  set (A := fun t : RR => 1 + t). destruct (TimeDependentAmplitude A Kep) as [c|] eqn:Ec; [|discriminate].
  assert (Fc : forall R t, 0 < R -> scale4 1 (c_Rf c) R 0 0 t = (1 + t) * - / R ^ 2).
  { intros R t P. injection Ec as <-. cbn [c_Rf]. change (1 * (A t * (1 * PS_Rf 3 R 0)) = (1 + t) * - / R ^ 2). unfold A. rewrite kepler_force by exact P. ring. }
  assert (Nc : nonaxi c = false) by (injection Ec as <-; reflexivity).
  assert (V : forall R t, 0 < R -> 0 <= 1 + t -> fun_vcirc (Single 1 c) R None t = Val (sqrt ((1 + t) * / R))).
  { intros R t P Pt. unfold fun_vcirc, toPlanar, planar_of. cbn [isNonAxi]. rewrite Nc. unfold evaluateplanarRforces. cbn. unfold scale3. rewrite Rmult_1_l, Fc by exact P.
    assert (Q : - R * ((1 + t) * - / R ^ 2) = (1 + t) * / R) by (field; lra). assert (P' : 0 < / R) by (apply Rinv_0_lt_compat; exact P).
    unfold nsqrt. rewrite Q. destruct (Rle_dec _ _) as [|N]; [reflexivity|exfalso; apply N; nra]. }
  exists (Single 1 c), (-1), 1, 1, 1, (sqrt 2). split; [exists c, A; auto|].
  assert (PH : exists Phi, apiEv (Single 1 c) = Some Phi /\ forall R t, 0 < R -> Phi R 0 0 t = (1 + t) * - / R).
  { exists (scale4 1 (c_ev c)). split; [reflexivity|]. intros R t P. injection Ec as <-. cbn [c_ev]. change (1 * (A t * (1 * PS_ev 3 R 0)) = (1 + t) * - / R). unfold A.
    destruct (kepler_ev R 0 0 t P) as (Phi & EP & Er). injection EP as <-. rewrite <- Er. change ((1 * ((1 + t) * (1 * PS_ev 3 R 0))) = (1 + t) * (1 * PS_ev 3 R 0)). ring. }
  destruct PH as (Phi & EP & HP). assert (V1 : sqrt ((1 + 1) * / 1) = sqrt 2) by (f_equal; field).
  split; [|split].
  - destruct (C13_circular_radius_found 0 first_root first_root_finder (Single 1 c) (-1) 1 (fun x => sqrt ((1 + 1) * / x)) Phi 1 EP) as [n Hn].
    + intros R P. split; [apply V; lra|]. apply (ex_derive_continuous (K := R_AbsRing) (V := R_NormedModule)). auto_derive. split; [lra|]. split; [|exact I].
      apply Rmult_lt_0_compat; [lra|apply Rinv_0_lt_compat; exact P].
    + intros R P. apply (continuous_ext_loc _ (fun x => (1 + 1) * - / x)).
      * apply (filter_imp (fun x => 0 < x)); [intros x Px; symmetry; apply HP; exact Px|]. apply locally_gt. exact P.
      * apply (ex_derive_continuous (K := R_AbsRing) (V := R_NormedModule)). auto_derive. lra.
    + intros x y P L. rewrite !HP by lra. assert (0 < / x) by (apply Rinv_0_lt_compat; lra). assert (0 < / y) by (apply Rinv_0_lt_compat; lra).
      rewrite <- !Rsqr_pow2, !Rsqr_sqrt by lra. assert (/ y < / x) by (apply Rinv_lt_contravar; [nra|exact L]). lra.
    + lra.
    + rewrite HP by lra. rewrite <- Rsqr_pow2, Rsqr_sqrt by lra. field.
    + exists n. intros fuel Hf. destruct (Hn fuel Hf) as (r & E & T). assert (r = 1).
      { pose proof (Rabs_pos (r - 1)). destruct (Req_EM_T (r - 1) 0) as [Z'|Z']; [lra|]. apply Rabs_no_R0 in Z'. lra. }
      subst r. split; [exact E|]. rewrite (C13_circular_angular_momentum first_root fuel (Single 1 c) (-1) 1 1 (sqrt ((1 + 0) * / 1)) E (V 1 0 ltac:(lra) ltac:(lra))).
      f_equal. replace ((1 + 0) * / 1) with 1 by field. rewrite sqrt_1. ring.
  - rewrite V by lra. rewrite V1. reflexivity.
  - intros X. assert (Q : sqrt 2 * sqrt 2 = 2) by (apply sqrt_sqrt; lra). assert (sqrt 2 = 1) by lra. rewrite H in Q. lra.
Qed.
Print Assumptions C13_circular_angular_momentum_refuted.
