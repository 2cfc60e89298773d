(** C47: the Staeckel integrals, momenta and actions *)
From Coq Require Import Reals Lra Lia List Permutation.
From Coquelicot Require Import Coquelicot.
From Verif.Lib Require Import RealAux.
From Verif.Model Require Import CoordsSpheroid Staeckel KuzminKutuzov.
From Verif.Spec Require Import EOMSpec StaeckelSpec.
From Verif.Proofs Require Import SpheroidProofs EOMProofs EOMIntegrals StaeckelProofs StaeckelOrbit StaeckelProofs2 ChiProofs KuzminKutuzovProofs StaeckelWitness.
Import ListNotations.
Open Scope R_scope.
Notation RR := RbaseSymbolsImpl.R (only parsing).
Ltac rr := match goal with |- ?a = ?b => change (@eq RR a b) end.

(** In every potential, at every point off the axis: u and v are the spheroidal coordinates, pu and pv the momenta conjugate to them, and the
    functions under the square roots of the action integrals, at the present u and v, are the squares of the momenta over 2 delta^2: the
    present point always lies in the allowed region. *)
Theorem C47_momenta : forall pot (delta R vR vT z vz : RR) o v0u, 0 < delta -> 0 < R ->
  let s := single_init pot delta R vR vT z vz o v0u in
  spheroidal delta R z (g_ux s) (g_vx s) /\
  SU pot delta s (g_ux s) = g_pux s ^ 2 / (2 * delta ^ 2) /\ SV pot delta s (g_vx s) = g_pvx s ^ 2 / (2 * delta ^ 2) /\
  g_E s = pot R z + (vR ^ 2 + vT ^ 2 + vz ^ 2) / 2 /\ g_Lz s = R * vT /\
  (forall (u v : RR -> RR) t u' v', spheroidal delta R z (u t) (v t) -> is_derive u t u' -> is_derive v t v' ->
     is_derive (fun x => delta * sinh (u x) * sin (v x)) t vR -> is_derive (fun x => delta * cosh (u x) * cos (v x)) t vz ->
     g_pux s = metric delta (u t) (v t) * u' /\ g_pvx s = metric delta (u t) (v t) * v').
Proof.
  intros pot delta R vR vT z vz o v0u Hd HR s. pose proof (uv_spheroidal delta R z Hd HR) as Sp.
  split; [unfold s; rewrite single_ux, single_vx; exact Sp|]. split; [exact (SU_any pot delta R vR vT z vz o v0u Hd HR)|]. split; [exact (SV_any pot delta R vR vT z vz o v0u Hd HR)|].
  split; [unfold s; rewrite single_E; field|]. split; [apply single_Lz|].
  intros u v t u' v' S2 Du Dv DR Dz.
  pose proof (spheroidal_uv delta R z (u t) (v t) Hd S2) as Q. unfold s. rewrite single_pux, single_pvx. rewrite Q. cbn [fst snd].
  destruct S2 as (Hu & Hv & ER & Ez). pose proof (sinh_pos_iff _ Hu) as P1. pose proof (sv_pos _ Hv) as P2.
  pose proof (is_derive_Rmult _ _ t _ _ (d_scale _ t delta _ (d_sinh u t u' Du)) (d_sin v t v' Dv)) as A.
  pose proof (is_derive_Rmult _ _ t _ _ (d_scale _ t delta _ (d_cosh u t u' Du)) (d_cos v t v' Dv)) as B.
  pose proof (d_unique _ _ _ _ DR A) as EA. pose proof (d_unique _ _ _ _ Dz B) as EB. rewrite EA, EB. unfold metric. pose proof (ch2 (u t)) as C1. pose proof (cv2 (v t)) as C2.
  split.
  - transitivity (delta ^ 2 * (cosh (u t) ^ 2 * sin (v t) ^ 2 + sinh (u t) ^ 2 * cos (v t) ^ 2) * u'); [ring|]. rewrite C1, C2. ring.
  - transitivity (delta ^ 2 * (sinh (u t) ^ 2 * cos (v t) ^ 2 + cosh (u t) ^ 2 * sin (v t) ^ 2) * v'); [ring|]. rewrite C1, C2. ring.
Qed.
Print Assumptions C47_momenta.

(** In a Staeckel potential with focal distance delta the two integrands are the squared momenta of the orbit as functions of u and of v,
    whatever the reference point u0 and reference angle. *)
Theorem C47_integrands : forall delta Phi U V (R vR vT z vz : RR) o v0u, 0 < delta -> 0 < R -> staeckel delta Phi U V -> starts o -> 0 < v0u < PI ->
  let s := single_init Phi delta R vR vT z vz o v0u in
  let I3 := third_integral delta U (g_E s) (g_Lz s) (g_ux s) (g_pux s) in
  (forall u, 0 < u -> 2 * delta ^ 2 * SU Phi delta s u = pu2 delta U (g_E s) (g_Lz s) I3 u) /\
  (forall v, 0 < v < PI -> 2 * delta ^ 2 * SV Phi delta s v = pv2 delta V (g_E s) (g_Lz s) I3 v).
Proof. intros. apply integrands; assumption. Qed.
Print Assumptions C47_integrands.

(** The actions: without fixed_quad and with it, JR and Jz are the closed-loop integrals of the momenta over 2 pi. *)
Section Actions.
  Variables (delta : RR) (Phi FR Fz : RR -> RR -> RR) (U V : RR -> RR) (R vR vT z vz : RR) (o : option RR) (v0u umin umax vmin : RR).
  Hypotheses (Hd : 0 < delta) (HR : 0 < R) (G : force_of Phi FR Fz) (St : staeckel delta Phi U V) (So : starts o) (Hv0 : 0 < v0u < PI)
    (Hu : 0 < umin < umax) (Hv : 0 < vmin < PI / 2).
  Let s := single_init Phi delta R vR vT z vz o v0u.
  Let I3 := third_integral delta U (g_E s) (g_Lz s) (g_ux s) (g_pux s).
  Lemma su_cont u : 0 < u -> continuous (SU Phi delta s) u.
  Proof.
    intros P. apply (@ex_derive_continuous R_AbsRing R_NormedModule). exists (dSU Phi FR Fz delta s u). apply dSU_ok; auto.
  Qed.
  Lemma u0_pos : 0 < g_u0 s.
  Proof.
    unfold s, single_init. pose proof (uv_spheroidal delta R z Hd HR) as Sp. destruct (Rz_to_uv false delta R z) as [u v]. cbn in *. destruct Sp as (P & _).
    destruct o as [u0|]; [exact So|exact P].
  Qed.
  Lemma sv_cont v : 0 < v < PI -> continuous (SV Phi delta s) v.
  Proof. intros P. apply (@ex_derive_continuous R_AbsRing R_NormedModule). exists (dSV Phi FR Fz delta s v). apply dSV_ok; auto. apply u0_pos. Qed.
  Lemma root_scale x : sqrt 2 * delta * sqrt x = sqrt (2 * delta ^ 2 * x).
  Proof.
    rewrite sqrt_mult_alt by (pose proof (pow2_ge_0 delta); lra). rewrite sqrt_mult_alt by lra. rewrite sqrt_pow2 by lra. reflexivity.
  Qed.
  Lemma JR_loop : 1 / PI * sqrt 2 * delta * RInt (fun u => sqrt (SU Phi delta s u)) umin umax = / PI * RInt (fun u => sqrt (pu2 delta U (g_E s) (g_Lz s) I3 u)) umin umax.
  Proof.
    assert (X : ex_RInt (fun u => sqrt (SU Phi delta s u)) umin umax).
    { apply (ex_RInt_continuous (V := R_CompleteNormedModule)). intros u P. rewrite Rmin_left, Rmax_right in P by lra. apply (continuous_comp (SU Phi delta s) sqrt); [apply su_cont; lra|apply continuous_sqrt]. }
    replace (1 / PI * sqrt 2 * delta * RInt (fun u => sqrt (SU Phi delta s u)) umin umax) with (/ PI * (sqrt 2 * delta * RInt (fun u => sqrt (SU Phi delta s u)) umin umax)) by (unfold Rdiv; ring).
    f_equal. etransitivity; [symmetry; exact (RInt_scal (V := R_CompleteNormedModule) _ umin umax (sqrt 2 * delta) X)|]. apply RInt_ext. intros u P. rewrite Rmin_left, Rmax_right in P by lra.
    change (sqrt 2 * delta * sqrt (SU Phi delta s u) = sqrt (pu2 delta U (g_E s) (g_Lz s) I3 u)). rewrite root_scale. f_equal. apply (proj1 (integrands delta Phi U V R vR vT z vz o v0u Hd HR St So Hv0)). lra.
  Qed.
  Lemma Jz_loop : 2 / PI * sqrt 2 * delta * RInt (fun v => sqrt (SV Phi delta s v)) vmin (PI / 2) = 2 / PI * RInt (fun v => sqrt (pv2 delta V (g_E s) (g_Lz s) I3 v)) vmin (PI / 2).
  Proof.
    assert (X : ex_RInt (fun v => sqrt (SV Phi delta s v)) vmin (PI / 2)).
    { apply (ex_RInt_continuous (V := R_CompleteNormedModule)). intros v P. rewrite Rmin_left, Rmax_right in P by lra. apply (continuous_comp (SV Phi delta s) sqrt); [apply sv_cont; lra|apply continuous_sqrt]. }
    replace (2 / PI * sqrt 2 * delta * RInt (fun v => sqrt (SV Phi delta s v)) vmin (PI / 2)) with (2 / PI * (sqrt 2 * delta * RInt (fun v => sqrt (SV Phi delta s v)) vmin (PI / 2))) by (unfold Rdiv; ring).
    f_equal. etransitivity; [symmetry; exact (RInt_scal (V := R_CompleteNormedModule) _ vmin (PI / 2) (sqrt 2 * delta) X)|]. apply RInt_ext. intros v P. rewrite Rmin_left, Rmax_right in P by lra.
    change (sqrt 2 * delta * sqrt (SV Phi delta s v) = sqrt (pv2 delta V (g_E s) (g_Lz s) I3 v)). rewrite root_scale. f_equal. apply (proj2 (integrands delta Phi U V R vR vT z vz o v0u Hd HR St So Hv0)). lra.
  Qed.
  Lemma JR_fixed_eq : (forall u, umin <= u <= umax -> 0 <= SU Phi delta s u) -> JR_fixed 0 Phi FR Fz delta umin umax s = JR_quad Phi delta umin umax s.
  Proof.
    intros Pos. unfold JR_fixed, JR_quad. destruct (Rlt_dec _ _); [reflexivity|]. f_equal.
    rewrite chi_action_ok; [|lra|intros q Hq; apply su_cont; lra|pose proof PI_RGT_0; lra|intros q Hq; apply Pos; lra].
    f_equal. unfold chi_q. rewrite sin_PI2. ring.
  Qed.
  Lemma Jz_fixed_eq : (forall v, vmin <= v <= PI - vmin -> 0 <= SV Phi delta s v) -> Jz_fixed 0 Phi FR Fz delta vmin s = Jz_quad Phi delta vmin s.
  Proof.
    intros Pos. unfold Jz_fixed, Jz_quad. destruct (Rlt_dec _ _); [reflexivity|]. f_equal.
    rewrite chi_action_ok; [|lra|intros q Hq; apply sv_cont; lra|pose proof PI_RGT_0; lra|intros q Hq; apply Pos; lra].
    f_equal. unfold chi_q. replace (PI / 2 / 2) with (PI / 4) by field. rewrite sin_PI4. replace ((1 / sqrt 2) ^ 2) with (1 / 2).
    - field.
    - pose proof (Rsqr_sqrt 2 ltac:(lra)) as Q. rewrite Rsqr_pow2 in Q. unfold Rdiv. rewrite !Rmult_1_l, pow_inv, Q. reflexivity.
  Qed.
End Actions.
Theorem C47_actions : forall (delta : RR) Phi FR Fz U V (R vR vT z vz : RR) o v0u umin umax vmin, 0 < delta -> 0 < R -> force_of Phi FR Fz -> staeckel delta Phi U V ->
  starts o -> 0 < v0u < PI -> 0 < umin < umax -> 0 < vmin < PI / 2 ->
  let s := single_init Phi delta R vR vT z vz o v0u in
  let I3 := third_integral delta U (g_E s) (g_Lz s) (g_ux s) (g_pux s) in
  (/ 10 ^ 6 <= (umax - umin) / umax -> JR_quad Phi delta umin umax s = / (2 * PI) * (2 * RInt (fun u => sqrt (pu2 delta U (g_E s) (g_Lz s) I3 u)) umin umax)) /\
  (/ 10 ^ 7 <= PI / 2 - vmin -> Jz_quad Phi delta vmin s = / (2 * PI) * (4 * RInt (fun v => sqrt (pv2 delta V (g_E s) (g_Lz s) I3 v)) vmin (PI / 2))) /\
  ((forall u, umin <= u <= umax -> 0 <= SU Phi delta s u) -> JR_fixed 0 Phi FR Fz delta umin umax s = JR_quad Phi delta umin umax s) /\
  ((forall v, vmin <= v <= PI - vmin -> 0 <= SV Phi delta s v) -> Jz_fixed 0 Phi FR Fz delta vmin s = Jz_quad Phi delta vmin s).
Proof.
  intros delta Phi FR Fz U V R vR vT z vz o v0u umin umax vmin Hd HR G St So Hv0 Hu Hv s I3. pose proof PI_RGT_0.
  split; [|split; [|split]].
  - intros L. unfold JR_quad. destruct (Rlt_dec _ _); [lra|]. unfold s. rewrite (JR_loop delta Phi FR Fz U V R vR vT z vz o v0u umin umax) by assumption. fold s I3. field. lra.
  - intros L. unfold Jz_quad. destruct (Rlt_dec _ _); [lra|]. unfold s. rewrite (Jz_loop delta Phi FR Fz U V R vR vT z vz o v0u vmin) by assumption. fold s I3. field. lra.
  - apply JR_fixed_eq; assumption.
  - apply Jz_fixed_eq; assumption.
Qed.
Print Assumptions C47_actions.

(** Along every orbit in a Staeckel potential the energy, Lz and the third integral are constant, both integrands are the same functions at all
    times, and so are the actions (for turning points that do not depend on time, and they are zeros of the same functions). *)
Theorem C47_conserved : forall (delta : RR) Phi FR Fz U V (R vR vT z vz phi : RR -> RR) (a b : RR) o v0u, 0 < delta -> force_of Phi FR Fz -> staeckel delta Phi U V ->
  (forall t, a <= t <= b -> moves FR Fz R vR vT z vz phi t) -> (forall t, a <= t <= b -> starts (o t)) -> (forall t, a <= t <= b -> 0 < v0u t < PI) ->
  let s := fun t => single_init Phi delta (R t) (vR t) (vT t) (z t) (vz t) (o t) (v0u t) in
  constant_on (fun t => g_E (s t)) a b /\ constant_on (fun t => g_Lz (s t)) a b /\
  constant_on (fun t => third_integral delta U (g_E (s t)) (g_Lz (s t)) (g_ux (s t)) (g_pux (s t))) a b /\
  (forall u, 0 < u -> constant_on (fun t => SU Phi delta (s t) u) a b) /\ (forall v, 0 < v < PI -> constant_on (fun t => SV Phi delta (s t) v) a b) /\
  (forall umin umax, 0 < umin -> umin < umax -> constant_on (fun t => JR_quad Phi delta umin umax (s t)) a b) /\
  (forall vmin, 0 < vmin -> vmin < PI / 2 -> constant_on (fun t => Jz_quad Phi delta vmin (s t)) a b).
Proof.
  intros delta Phi FR Fz U V R vR vT z vz phi a b o v0u Hd G St M Ho Hv0 s.
  assert (CU : forall u, 0 < u -> constant_on (fun t => SU Phi delta (s t) u) a b).
  { intros u Hu t t' Ht Ht'. exact (along_SU delta Phi FR Fz U V R vR vT z vz phi a b o v0u Hd G St M Ho Hv0 t t' u Ht Ht' Hu). }
  assert (CV : forall v, 0 < v < PI -> constant_on (fun t => SV Phi delta (s t) v) a b).
  { intros v Hv t t' Ht Ht'. exact (along_SV delta Phi FR Fz U V R vR vT z vz phi a b o v0u Hd G St M Ho Hv0 t t' v Ht Ht' Hv). }
  split; [exact (along_E delta Phi FR Fz R vR vT z vz phi a b o v0u G M)|]. split; [exact (along_Lz delta Phi FR Fz R vR vT z vz phi a b o v0u M)|].
  split; [exact (along_I3 delta Phi FR Fz U V R vR vT z vz phi a b o v0u Hd G St M)|]. split; [exact CU|]. split; [exact CV|]. split.
  - intros umin umax H1 H2 t t' Ht Ht'. unfold JR_quad. destruct (Rlt_dec _ _); [reflexivity|]. f_equal. apply RInt_ext. intros u P. rewrite Rmin_left, Rmax_right in P by lra. f_equal. apply (CU u); [lra|exact Ht|exact Ht'].
  - intros vmin H1 H2 t t' Ht Ht'. unfold Jz_quad. destruct (Rlt_dec _ _); [reflexivity|]. f_equal. apply RInt_ext. intros v P. rewrite Rmin_left, Rmax_right in P by lra. f_equal. apply (CV v); [lra|exact Ht|exact Ht'].
Qed.
Print Assumptions C47_conserved.

(** The analytic derivatives of the integrands are their derivatives, in every potential. *)
Theorem C47_derivatives : forall delta Phi FR Fz (s : single), 0 < delta -> force_of Phi FR Fz -> 0 < g_v0u s < PI -> 0 < g_u0 s ->
  (forall u, 0 < u -> is_derive (SU Phi delta s) u (dSU Phi FR Fz delta s u)) /\ (forall v, 0 < v < PI -> is_derive (SV Phi delta s) v (dSV Phi FR Fz delta s v)).
Proof. intros delta Phi FR Fz s Hd G H1 H2. split; intros x Hx; [apply dSU_ok|apply dSV_ok]; assumption. Qed.
Print Assumptions C47_derivatives.

(** The C code computes the same attributes and the same integrands as the Python code. *)
Theorem C47_c : forall pot (delta R vR vT z vz u0 : RR), 0 < delta -> 0 < R ->
  c_single pot delta R vR vT z vz u0 = single_init pot delta R vR vT z vz (Some u0) (PI / 2) /\
  (forall s u, 0 < u -> c_SU pot delta s u = SU pot delta s u) /\ (forall s v, 0 < v < PI -> c_SV pot delta s v = SV pot delta s v).
Proof.
  intros pot delta R vR vT z vz u0 Hd HR. split; [apply c_single_ok; assumption|]. split; intros s x Hx; [apply c_SU_ok|apply c_SV_ok]; assumption.
Qed.
Print Assumptions C47_c.

(** estimateDeltaStaeckel returns the focal distance of a Staeckel potential, at every point where the mixed derivative does not vanish
    (a point of the plane is moved to z = 1e-4), for one point, for arrays and for their median. *)
Lemma floor_exact scf delta0 delta : 0 <= delta0 <= delta -> sqrt (delta2_floor scf delta0 (delta ^ 2)) = delta.
Proof. intros H. unfold delta2_floor. destruct (Rlt_dec (delta ^ 2) (delta0 ^ 2)) as [L|_]; [nra|]. apply sqrt_pow2. lra. Qed.
Theorem C47_estimateDelta : forall delta Phi FR Fz P2R P2z PRz U V scf delta0, 0 < delta -> force_of Phi FR Fz -> hessian_of FR Fz P2R P2z PRz ->
  staeckel delta Phi U V -> 0 <= delta0 <= delta ->
  (forall R z, 0 < R -> PRz R (if Req_EM_T z 0 then / 10 ^ 4 else z) <> 0 -> estimateDelta FR Fz P2R P2z PRz scf delta0 R z = delta) /\
  (forall sort Rz, (forall l, Permutation (sort l) l) -> Rz <> [] -> List.Forall (fun p => 0 < fst p /\ PRz (fst p) (if Req_EM_T (snd p) 0 then / 10 ^ 4 else snd p) <> 0) Rz ->
     fst (estimateDelta_arr sort FR Fz P2R P2z PRz scf true delta0 Rz) = map (fun _ => delta) Rz /\
     fst (estimateDelta_arr sort FR Fz P2R P2z PRz scf false delta0 Rz) = [delta]).
Proof.
  intros delta Phi FR Fz P2R P2z PRz U V scf delta0 Hd G Hs St H0.
  assert (E : forall R z, 0 < R -> PRz R (off_plane z) <> 0 -> delta2_of FR Fz P2R P2z PRz R (off_plane z) = delta ^ 2).
  { intros R z HR N. apply (delta2_exact delta Phi FR Fz P2R P2z PRz U V); assumption. }
  assert (FL : delta2_floor scf delta0 (delta ^ 2) = delta ^ 2). { unfold delta2_floor. destruct (Rlt_dec (delta ^ 2) (delta0 ^ 2)) as [L|_]; [nra|reflexivity]. }
  split.
  - intros R z HR N. unfold estimateDelta. rewrite E by assumption. apply floor_exact. exact H0.
  - intros sort Rz Hsort Ne HF. unfold estimateDelta_arr. cbv zeta. cbn [fst].
    assert (EM : map (fun p => delta2_floor scf delta0 (delta2_of FR Fz P2R P2z PRz (fst p) (off_plane (snd p)))) Rz = map (fun _ => delta ^ 2) Rz).
    { apply map_ext_in. intros p Hp. rewrite Forall_forall in HF. destruct (HF p Hp) as [H1 H2]. rewrite E; [exact FL|exact H1|exact H2]. }
    rewrite EM. split.
    + rewrite map_map. apply map_ext. intros _. apply sqrt_pow2. lra.
    + f_equal. assert (AL : forall k, (k < length (map (fun _ : (RR * RR)%type => (delta ^ 2)%R) Rz))%nat -> nth k (sort (map (fun _ => delta ^ 2) Rz)) 0 = delta ^ 2).
      { intros k Hk. assert (I : In (nth k (sort (map (fun _ => delta ^ 2) Rz)) 0) (map (fun _ => delta ^ 2) Rz)).
        { apply (Permutation_in _ (Hsort _)). apply nth_In. rewrite (Permutation_length (Hsort _)). exact Hk. }
        apply in_map_iff in I. destruct I as (x & <- & _). reflexivity. }
      assert (LP : (0 < length (map (fun _ : (RR * RR)%type => (delta ^ 2)%R) Rz))%nat) by (rewrite map_length; destruct Rz; [contradiction|cbn; lia]).
      unfold median. set (n := length (map (fun _ : (RR * RR)%type => (delta ^ 2)%R) Rz)) in *.
      assert (D2 : (n / 2 < n)%nat) by (apply Nat.div_lt; lia).
      destruct (Nat.even n).
      * rewrite (AL (n / 2 - 1)%nat), (AL (n / 2)%nat) by lia. replace ((delta ^ 2 + delta ^ 2) / 2) with (delta ^ 2) by field. apply sqrt_pow2. lra.
      * rewrite (AL (n / 2)%nat) by lia. apply sqrt_pow2. lra.
Qed.
Print Assumptions C47_estimateDelta.

(** Called with arrays, estimateDeltaStaeckel changes the caller's array z: it leaves 1e-4 wherever z was 0. *)
Theorem C47_estimateDelta_input_refuted : forall sort FR Fz P2R P2z PRz scf no_median delta0 Rz, In 0 (map snd Rz) ->
  snd (estimateDelta_arr sort FR Fz P2R P2z PRz scf no_median delta0 Rz) <> map snd Rz.
Proof.
  intros sort FR Fz P2R P2z PRz scf nm delta0 Rz I E. cbn in E. rewrite <- E in I. apply in_map_iff in I. destruct I as (p & Hp & _). unfold off_plane in Hp.
  destruct (Req_EM_T (snd p) 0) as [_|N]; [|contradiction]. assert (0 < / 10 ^ 4) by (apply Rinv_0_lt_compat; apply pow_lt; lra). lra.
Qed.
Print Assumptions C47_estimateDelta_input_refuted.

(** KuzminKutuzovStaeckelPotential is a Staeckel potential with its own focal distance; its forces and second derivatives are its derivatives. *)
Theorem C47_kuzminkutuzov : forall ac Delta, 0 < Delta -> 1 < ac ->
  force_of (KK_ev ac Delta) (KK_Rf ac Delta) (KK_zf ac Delta) /\ hessian_of (KK_Rf ac Delta) (KK_zf ac Delta) (KK_R2 ac Delta) (KK_z2 ac Delta) (KK_Rz ac Delta) /\
  mirror (KK_ev ac Delta) /\ exists U V, staeckel Delta (KK_ev ac Delta) U V.
Proof.
  intros ac Delta HD Hac. split; [apply kk_force; assumption|]. split; [apply kk_hessian; assumption|]. split; [apply kk_mirror|].
  exists (KK_U ac Delta), (KK_V ac Delta). apply kk_staeckel; assumption.
Qed.
Print Assumptions C47_kuzminkutuzov.

(** An orbit that meets the hypotheses: a body on the cylinder R = 1 in a harmonic potential, with focal distance 1; and a potential whose mixed
    derivative does not vanish. *)
Example C47_orbit : force_of ha_Phi ha_FR ha_Fz /\ staeckel 1 ha_Phi (ha_U 1) (ha_V 1) /\ (forall t, moves ha_FR ha_Fz (fun _ => 1) (fun _ => 0) (fun _ => 1) ha_z ha_vz (fun t => t) t) /\
  ha_vz 0 <> ha_vz (PI / 2).
Proof.
  split; [exact ha_force|]. split; [apply ha_staeckel|]. split; [exact ha_moves|]. unfold ha_vz. rewrite cos_0, cos_PI2. assert (0 < sqrt (3 / 2)) by (apply sqrt_lt_R0; lra). lra.
Qed.
Example C47_delta : estimateDelta po_FR po_Fz po_P2R po_P2z po_PRz false (/ 10 ^ 6) 2 0 = 1 /\
  fst (estimateDelta_arr (fun l => l) po_FR po_Fz po_P2R po_P2z po_PRz false false (/ 10 ^ 6) [(1, 1); (2, 3); (1, 0)]) = [1].
Proof.
  assert (P4 : 0 < / 10 ^ 4) by (apply Rinv_0_lt_compat; apply pow_lt; lra). assert (P6 : 0 <= / 10 ^ 6 <= 1) by lra.
  destruct (C47_estimateDelta 1 po_Phi po_FR po_Fz po_P2R po_P2z po_PRz (fun u => sinh u ^ 6) (fun v => - sin v ^ 6) false (/ 10 ^ 6) Rlt_0_1 po_force po_hessian po_staeckel P6) as [A B].
  split.
  - apply A; [lra|]. unfold po_PRz. destruct (Req_EM_T 0 0); lra.
  - apply (B (fun l => l)); [reflexivity|discriminate|]. repeat constructor; cbn [fst snd]; unfold po_PRz; try lra; destruct (Req_EM_T _ 0); lra.
Qed.
