(** C57: the quasi-isothermal distribution function has its textbook form, and its moments, marginals and velocity samples belong to that function. *)
From Coq Require Import Reals List Lra Lia Permutation.
From Coquelicot Require Import Coquelicot.
From Verif.Lib Require Import RealAux.
From Verif.Model Require Import QuasiDF.
From Verif.Spec Require Import QuasiDFSpec.
From Verif.Proofs Require Import QuasiForm QuasiGauss QuasiMore QuasiSample.
Import ListNotations.
Open Scope R_scope.
Notation RR := RbaseSymbolsImpl.R (only parsing).
Ltac rr := match goal with |- ?a = ?b => change (@eq RR a b) end.

(** ** The function *)
(** Rg is the guiding radius: the radius of the circular orbit with angular momentum |lz|.  A counter-rotating star has density 0 when cutcounter is set. *)
Theorem C57_form : forall arr q func jr lz jz Rg kappa nu, 0 < q_sr q -> 0 < q_sz q -> rg_of arr q lz = Rg -> 0 < Rg -> Rg * q_vc q Rg = Rabs lz ->
  q_epi q Rg = Some kappa -> q_vert q Rg = Some nu -> 0 < kappa -> 0 < nu ->
  call_plain arr q None func (jr, lz, jz) = if andb (q_cut q) (if Rlt_dec lz 0 then true else false) then 0 else
    qi_form (exp_profile 1 (q_hr q) (q_refr q) Rg) (exp_profile (q_sr q) (q_hsr q) (q_refr q) Rg) (exp_profile (q_sz q) (q_hsz q) (q_refr q) Rg) (q_vc q Rg / Rg) kappa nu (q_lo q) jr lz jz
    * match func with Some f => f jr lz jz | None => 1 end.
Proof.
  intros arr q func jr lz jz Rg k n H1 H2 E HR Hc Ek En Hk Hn. rewrite (plain_form arr q None func jr lz jz Rg k n (q_vc q Rg / Rg) (conj H1 H2)); [reflexivity| |exact Hk|exact Hn].
  unfold circ_of. rewrite E, Ek, En, <- Hc. do 2 f_equal. rr. field. lra.
Qed.
Example C57_example_form : rg_of false (q0 aA0 false) 2 = 2 /\ 2 * q_vc (q0 aA0 false) 2 = Rabs 2.
Proof. cbn. rewrite Rabs_pos_eq by lra. split; [reflexivity|ring]. Qed.
(** log=True gives the logarithm: the same number after exponentiation, 0 for a star that is unbound, cut, or has a NaN frequency. *)
Theorem C57_log : forall arr q func jr lz jz, 0 < q_sr q -> 0 < q_sz q -> (forall r k, q_epi q r = Some k -> 0 < k) -> (forall r n, q_vert q r = Some n -> 0 < n) ->
  match func with Some f => 0 <= f jr lz jz | None => True end -> lexp (call_log arr q None func (jr, lz, jz)) = call_plain arr q None func (jr, lz, jz).
Proof.
  intros arr q func jr lz jz H1 H2 Hk Hn Hf. apply log_form; [split; assumption| |exact Hf]. unfold circ_of. split; [|split; intros; [eapply Hk|eapply Hn]; eassumption].
  generalize (rg_of arr q lz). intros y. destruct (Req_dec y 0) as [->|Hy]; [unfold Rdiv; rewrite Rinv_0; lra|]. replace (Rabs lz / y / y) with (Rabs lz / (y * y)) by (field; exact Hy). apply Rmult_le_pos; [apply Rabs_pos|]. left. apply Rinv_0_lt_compat. nra.
Qed.
Theorem C57_unbound : forall q R vR vT z vz, q_aA q R vR vT z vz = None -> call_at q R vR vT z vz = 0 /\ lexp (call_log_at q R vR vT z vz) = 0.
Proof. intros q R vR vT z vz H. unfold call_at, call_log_at. rewrite H. split; reflexivity. Qed.
(** The number of stars per unit of angular momentum, (2 pi)^3 times the integral over the radial and the vertical action, is that of a disk with surface
    density Sigma on circular orbits, times 1 + tanh: 2 pi R Sigma dR/dLz.  [d] is dLz/dR, and kappa^2 = 2 Omega/R dLz/dR. *)
Theorem C57_angular_momentum : forall Sigma sR sz Omega kappa nu L0 lz Rg d, 0 < sR -> 0 < sz -> 0 < Omega -> 0 < kappa -> 0 < nu -> 0 < Rg -> d <> 0 -> kappa ^ 2 = 2 * Omega / Rg * d ->
  exists I : RR -> RR, (forall jr, half_line (fun jz => qi_form Sigma sR sz Omega kappa nu L0 jr lz jz) (I jr)) /\
    half_line I (2 * PI * Rg * Sigma * / d * (1 + tanh (lz / L0)) / (2 * PI) ^ 3).
Proof.
  intros S sR sz Om k n L0 lz Rg d H1 H2 H3 H4 H5 H6 H7 E. destruct (per_lz S sR sz Om k n L0 lz Rg d H1 H2 H3 H4 H5 H6 H7 E) as (I & HI & HJ). exists I. split; [exact HI|].
  replace (2 * PI * Rg * S * / d * (1 + tanh (lz / L0)) / (2 * PI) ^ 3) with (2 * PI * Rg * S * (1 + tanh (lz / L0)) / d / (2 * PI) ^ 3) by (unfold Rdiv; ring). exact HJ.
Qed.
Example C57_example_flat : sqrt 2 ^ 2 = 2 * 1 / 1 * 1. Proof. replace (sqrt 2 ^ 2) with (sqrt 2 * sqrt 2) by ring. rewrite sqrt_sqrt by lra. field. Qed.

(** ** Numbers and arrays *)
(** Inside the table of guiding radii, or without a table, an array gives what its elements give one by one. *)
Theorem C57_array : forall q pts, (forall p J, In p pts -> aA_at q p = Some J -> match q_grid q with Some (lo, hi, _) => lo <= snd (fst J) <= hi | None => True end) ->
  (forall p, In p pts -> aA_at q p <> None) -> call_array q pts = AList (List.map (fun p => let '(R, vR, vT, z, vz) := p in call_at q R vR vT z vz) pts).
Proof.
  intros q pts Hg Hb. unfold call_array. assert (E : exists js, all_some (List.map (aA_at q) pts) = Some js).
  { induction pts as [|p pts IH]; [eexists; reflexivity|]. cbn. destruct (aA_at q p) as [J|] eqn:Ep; [|exfalso; exact (Hb p (or_introl eq_refl) Ep)]. destruct IH as [js ->]; [intros; eapply Hg; [right; eassumption|assumption]|intros; apply Hb; right; assumption|]. eexists. reflexivity. }
  destruct E as [js E]. rewrite E. f_equal. apply all_some_map in E. induction E as [|p J pts js Ep E IH]; [reflexivity|]. cbn. f_equal.
  - pose proof (Hg p J (or_introl eq_refl) Ep) as G. destruct p as [[[[R vR] vT] z] vz]. cbn in Ep. unfold call_at. rewrite Ep. destruct J as [[jr lz] jz]. unfold call_plain. fold (cut_here q lz).
    assert (RG : circ_of true q lz = circ_of false q lz). { unfold circ_of, rg_of, rg_array, rg_scalar. cbn in G. destruct (q_grid q) as [[[lo hi] sp]|]; [|reflexivity]. destruct (Rlt_dec hi lz); [lra|]. destruct (Rlt_dec lz lo); [lra|]. reflexivity. }
    rewrite RG. destruct (cut_here q lz); [reflexivity|]. cbn. reflexivity.
  - apply IH; [intros; eapply Hg; [right; eassumption|assumption]|intros; apply Hb; right; assumption].
Qed.
Example C57_example_array : (forall p, In p [(1, 0, 1, 0, 0); (2, 0, 1, 0, 0)] -> aA_at (q0 aA0 false) p <> None). Proof. intros p [<- | [<- | []]]; cbn; discriminate. Qed.
Lemma qi_pos Sigma sR sz Omega kappa nu L0 jr lz jz : 0 < Sigma -> 0 < sR -> 0 < sz -> 0 < Omega -> 0 < kappa -> 0 < nu -> 0 < qi_form Sigma sR sz Omega kappa nu L0 jr lz jz.
Proof.
  intros. unfold qi_form. pose proof (tanh1_pos (lz / L0)) as T. pose proof PI_RGT_0 as P. pose proof (pow_lt sR 2 H0) as A. pose proof (pow_lt sz 2 H1) as B.
  apply Rmult_lt_0_compat; [apply Rmult_lt_0_compat; [apply Rmult_lt_0_compat; [|exact T]|apply exp_pos]|apply Rmult_lt_0_compat; [|apply exp_pos]]; apply Rdiv_lt_0_compat; generalize dependent (sR ^ 2); generalize dependent (sz ^ 2); generalize dependent PI; intros; repeat apply Rmult_lt_0_compat; lra.
Qed.
(** Outside the table a number is given the guiding radius that solves R vc(R) = |lz|, an element of an array the extrapolated spline (the two comparisons with the
    ends of the table are multiplied instead of added), so the two values differ although the spline is exact on the table. *)
Theorem C57_array_refuted : ~ forall q J, (forall lo hi sp, q_grid q = Some (lo, hi, sp) -> forall l, lo <= l <= hi -> sp l = q_rl q l) -> call_plain true q None None J = call_plain false q None None J.
Proof.
  intros H. set (sp := fun l : RR => if Rlt_dec 2 l then 0 else Rabs l).
  set (q := {| q_hr := 1; q_sr := 1; q_sz := 1; q_hsr := 1; q_hsz := 1; q_refr := 1; q_lo := 1; q_cut := false; q_rl := Rabs; q_epi := fun _ => Some 1; q_vert := fun _ => Some 1; q_vc := fun _ => 1; q_grid := Some (1, 2, sp); q_aA := aA0; q_adia := false |}).
  assert (OK : q_ok q) by (split; cbn; lra). specialize (H q (0, 3, 0)).
  rewrite (plain_form true q None None 0 3 0 0 1 1 (Rabs 3 / 0 / 0) OK) in H; [| |lra|lra].
  2: { unfold circ_of, rg_of, rg_array. cbn. destruct (Rlt_dec 2 3); [|lra]. destruct (Rlt_dec 3 1); [lra|]. unfold sp. destruct (Rlt_dec 2 3); [reflexivity|lra]. }
  rewrite (plain_form false q None None 0 3 0 3 1 1 (Rabs 3 / 3 / 3) OK) in H; [| |lra|lra].
  2: { unfold circ_of, rg_of, rg_scalar. cbn. destruct (Rlt_dec 2 3); [|lra]. rewrite Rabs_pos_eq by lra. reflexivity. }
  cbn [cut_here q q_cut andb] in H. assert (E : 0 = qi_form (Sg q 3) (sRg q 3) (szg q 3) (Rabs 3 / 3 / 3) 1 1 (q_lo q) 0 3 0).
  { refine (eq_trans _ (eq_trans (H _) _)); [|intros lo hi sp' [= <- <- <-] l Hl; cbn; unfold sp; destruct (Rlt_dec 2 l); [lra|reflexivity]|ring]. unfold qi_form, Rdiv. rewrite Rinv_0. ring. }
  rewrite Rabs_pos_eq in E by lra. apply (Rlt_irrefl 0). rewrite E at 2. apply qi_pos; try lra; apply prof_pos; first [exact (proj1 OK)|exact (proj2 OK)|lra].
Qed.
(** One unbound star in an array: the result is the single number 0. *)
Theorem C57_array_unbound_refuted : ~ forall q pts, call_array q pts = AList (List.map (fun p => let '(R, vR, vT, z, vz) := p in call_at q R vR vT z vz) pts).
Proof. intros H. specialize (H (q0 (fun _ _ _ _ _ => None) false) [(1, 0, 1, 0, 0)]). cbn in H. discriminate. Qed.
(** The test that the action-angle object belongs to the potential accepts an isochrone with another scale length when the amplitude is the same. *)
Theorem C57_same_potential_refuted : ~ forall b amp pb pamp, aA_accepted false (Some (b, amp)) (Some (pb, pamp)) = true -> b = pb /\ amp = pamp.
Proof. intros H. specialize (H 1 1 2 1). cbn in H. destruct (Req_EM_T 1 2); [lra|]. destruct (Req_EM_T 1 1); [|contradiction]. destruct (H eq_refl). lra. Qed.
Theorem C57_other_potential : forall iso_pot, aA_accepted false None iso_pot = false /\ forall b amp pb pamp, b <> pb -> amp <> pamp -> aA_accepted false (Some (b, amp)) (Some (pb, pamp)) = false.
Proof. intros. split; [reflexivity|]. intros. cbn. destruct (Req_EM_T b pb); [contradiction|]. destruct (Req_EM_T amp pamp); [contradiction|]. reflexivity. Qed.

(** ** Gauss-Legendre moments *)
Definition freqs_positive (q : QDF) : Prop := (forall r k, q_epi q r = Some k -> 0 < k) /\ (forall r n, q_vert q r = Some n -> 0 < n).
Lemma fa_call q R z vR vT vz : q_ok q -> freqs_positive q -> fa q R z vR vT vz = call_arr_at q None R vR vT z vz.
Proof.
  intros [H1 H2] [Hk Hn]. unfold fa, call_arr_at. destruct (q_aA q R vR vT z vz) as [[[jr lz] jz]|]; [|reflexivity]. apply C57_log; try assumption. exact I.
Qed.
(** The moment is the product rule for the integral of vR^n vT^m vz^o f over the box: two panels in vR and vz, one in vT. *)
Theorem C57_moment : forall q gl ngl nsigma vTmax R z n m o I, q_ok q -> freqs_positive q -> q_adia q = false -> (forall k, k = ngl \/ k = (ngl / 2)%nat -> gauss_legendre k (gl k)) -> vmoment_gl q gl ngl nsigma vTmax R z n m o = Some I ->
  I = rule_on (gl ngl) 0 vTmax (fun vT => two_panels (gl (ngl / 2)%nat) (nsigma * sigR1 q R) (fun vR => two_panels (gl (ngl / 2)%nat) (nsigma * sigz1 q R) (fun vz => vR ^ n * vT ^ m * vz ^ o * call_arr_at q None R vR vT z vz))).
Proof.
  intros q gl ngl ns vTm R z n m o I Hq Hf Ha Hg H. rewrite (vmoment_product _ _ _ _ _ _ _ _ _ _ _ Ha (proj1 (proj2 (proj2 (Hg (ngl / 2)%nat (or_intror eq_refl))))) H).
  apply Rule_on_ext. intros vT. apply two_panels_ext. intros vR. apply two_panels_ext. intros vz. unfold wgt. rewrite fa_call by assumption. reflexivity.
Qed.
(** Its error: if the integrand is within eps of a polynomial of degree below ngl in vR and vz and below 2 ngl in vT, the moment is within 2 eps times the volume
    of the box of the integral.  In particular it is exact for such polynomials. *)
Theorem C57_moment_error : forall q gl ngl nsigma vTmax R z n m o I exact p eps, q_ok q -> freqs_positive q -> q_adia q = false -> (forall k, k = ngl \/ k = (ngl / 2)%nat -> gauss_legendre k (gl k)) -> (2 <= ngl)%nat -> Nat.odd ngl = false -> 0 <= nsigma -> 0 <= vTmax ->
  vmoment_gl q gl ngl nsigma vTmax R z n m o = Some I ->
  velocity_integral (nsigma * sigR1 q R) 0 vTmax (nsigma * sigz1 q R) (fun vR vT vz => vR ^ n * vT ^ m * vz ^ o * call_arr_at q None R vR vT z vz) exact ->
  poly ngl (2 * ngl) ngl p ->
  (forall x y w, - (nsigma * sigR1 q R) <= x <= nsigma * sigR1 q R -> 0 <= y <= vTmax -> - (nsigma * sigz1 q R) <= w <= nsigma * sigz1 q R -> Rabs (x ^ n * y ^ m * w ^ o * call_arr_at q None R x y z w - p x y w) <= eps) ->
  Rabs (I - exact) <= 2 * eps * (2 * (nsigma * sigR1 q R) * vTmax * (2 * (nsigma * sigz1 q R))).
Proof.
  intros q gl ngl ns vTm R z n m o I ex p eps Hq Hf Ha Hg H2 Hodd Hns HvT H HI Hp Hc. rewrite (C57_moment q gl ngl ns vTm R z n m o I Hq Hf Ha Hg H). pose proof Hq as [Q1 Q2].
  assert (S1 : 0 < sigR1 q R) by (apply Rmult_lt_0_compat; [exact Q1|apply exp_pos]). assert (S2 : 0 < sigz1 q R) by (apply Rmult_lt_0_compat; [exact Q2|apply exp_pos]).
  assert (E : (2 * (ngl / 2) = ngl)%nat). { pose proof (Nat.div2_odd ngl) as D. rewrite Nat.div2_div, Hodd in D. cbn [Nat.b2n] in D. lia. }
  assert (P : (0 < ngl / 2)%nat) by lia. rewrite <- (Rminus_0_r vTm) at 2. replace (2 * (ns * sigR1 q R) * (vTm - 0) * (2 * (ns * sigz1 q R))) with (2 * (ns * sigR1 q R) * (vTm - 0) * (2 * (ns * sigz1 q R))) by ring.
  assert (QR : quad (two_panels (gl (ngl / 2)%nat) (ns * sigR1 q R)) (- (ns * sigR1 q R)) (ns * sigR1 q R) ngl) by (pose proof (panels_quad (ngl / 2) _ (ns * sigR1 q R) (Hg _ (or_intror eq_refl)) P ltac:(nra)) as Q; rewrite E in Q; exact Q).
  assert (QZ : quad (two_panels (gl (ngl / 2)%nat) (ns * sigz1 q R)) (- (ns * sigz1 q R)) (ns * sigz1 q R) ngl) by (pose proof (panels_quad (ngl / 2) _ (ns * sigz1 q R) (Hg _ (or_intror eq_refl)) P ltac:(nra)) as Q; rewrite E in Q; exact Q).
  pose proof (rule_quad ngl (gl ngl) 0 vTm (Hg ngl (or_introl eq_refl)) ltac:(lia) HvT) as QT.
  exact (product_error _ _ _ _ _ _ _ _ _ _ _ p ex eps QR QT QZ Hp HI Hc).
Qed.
(** Gauss-Legendre rules with one and two nodes, the moments of the constant example, and its integral. *)
Example gl12_ok : forall k, k = 2%nat \/ k = (2 / 2)%nat -> gauss_legendre k (gl12 k). Proof. intros k [-> | ->]; [exact gl2_ok|exact gl1_ok]. Qed.
Example C57_example_moment : (exists I, vmoment_gl (q0 aA0 false) gl12 2 4 (3 / 2) 1 0 0 0 0 = Some I) /\ freqs_positive (q0 aA0 false)
  /\ velocity_integral 4 0 (3 / 2) 4 (fun vR vT vz => vR ^ 0 * vT ^ 0 * vz ^ 0 * K0) (3 / 2 * (8 * (8 * K0))) /\ poly 2 4 2 (fun _ _ _ => K0).
Proof.
  split; [apply const_some; reflexivity|]. split; [split; intros ? ? [= <-]; lra|]. split.
  - exists (fun _ _ => 8 * K0). split; [intros; apply (is_RInt_ext (fun _ => K0)); [intros; cbn; rr; ring|]; replace (8 * K0) with (scal (4 - - (4)) K0) by (unfold scal; cbn; unfold mult; cbn; rr; ring); apply (is_RInt_const (V := R_NormedModule))|].
    exists (fun _ => 8 * (8 * K0)). split; [intros; replace (8 * (8 * K0)) with (scal (4 - - (4)) (8 * K0)) by (unfold scal; cbn; unfold mult; cbn; rr; ring); apply (is_RInt_const (V := R_NormedModule))|].
    replace (3 / 2 * (8 * (8 * K0))) with (scal (3 / 2 - 0) (8 * (8 * K0))) by (unfold scal; cbn; unfold mult; cbn; rr; ring). apply (is_RInt_const (V := R_NormedModule)).
  - exists [(K0, (0, 0, 0))%nat]. split; [repeat constructor|]. intros. cbn. ring.
Qed.

(** sigmaR2, sigmaz2 and sigmaT2 are not negative, the covariance obeys Cauchy-Schwarz, and tilt is the angle that removes it. *)
Theorem C57_dispersions : forall q gl ngl nsigma vTmax R z d a b c t, q_ok q -> (forall n, pos_rule (gl n)) -> 0 <= vTmax -> density_gl q gl ngl nsigma_default vTmax R z = Some d -> 0 < d ->
  sigmaR2_gl q gl ngl nsigma vTmax R z = Some a -> sigmaz2_gl q gl ngl nsigma vTmax R z = Some b -> sigmaRz_gl q gl ngl nsigma vTmax R z = Some c -> sigmaT2_gl q gl ngl nsigma vTmax R z = Some t ->
  0 <= a /\ 0 <= b /\ c ^ 2 <= a * b /\ 0 <= t.
Proof.
  intros q gl ngl ns vTm R z d a b c t Hq Hg HT Hd0 Hd Ha Hb Hc Ht. unfold density_gl in Hd0. unfold sigmaR2_gl, sigmaz2_gl, sigmaRz_gl, sigmaT2_gl, ratio_gl in *. rewrite Hd0 in *. cbn [obind] in *.
  pose proof (fun g => Wt_nonneg q gl ngl nsigma_default vTm R z g Hg Hq HT) as W. set (G := the_grid q gl ngl nsigma_default vTm R) in *. set (w := Wt q nsigma_default vTm R z) in *.
  destruct (vmoment_gl q gl ngl nsigma_default vTm R z 2 0 0) as [a'|] eqn:Ea; [|discriminate]. destruct (vmoment_gl q gl ngl nsigma_default vTm R z 0 0 2) as [b'|] eqn:Eb; [|discriminate]. destruct (vmoment_gl q gl ngl nsigma_default vTm R z 1 0 1) as [c'|] eqn:Ec; [|discriminate].
  destruct (vmoment_gl q gl ngl nsigma_default vTm R z 0 1 0) as [t1|] eqn:Et1; [|discriminate]. cbn [obind] in Ht. destruct (vmoment_gl q gl ngl nsigma_default vTm R z 0 2 0) as [t2|] eqn:Et2; [|discriminate].
  injection Ha as <-. injection Hb as <-. injection Hc as <-. injection Ht as <-.
  apply vmoment_flat in Hd0. apply vmoment_flat in Ea. apply vmoment_flat in Eb. apply vmoment_flat in Ec. apply vmoment_flat in Et1. apply vmoment_flat in Et2. fold G w in Hd0, Ea, Eb, Ec, Et1, Et2. cbn [Nat.odd Nat.even negb orb] in *. rewrite Bool.andb_false_r in Hd0, Ea, Eb, Et1, Et2.
  assert (A : a' = sum (List.map (fun g => w g * (nR g * nR g)) G)) by (rewrite Ea; apply sum_ext; intros; cbn; rr; ring). assert (B : b' = sum (List.map (fun g => w g * (nZ g * nZ g)) G)) by (rewrite Eb; apply sum_ext; intros; cbn; rr; ring).
  assert (T2 : t2 = sum (List.map (fun g => w g * (nT g * nT g)) G)) by (rewrite Et2; apply sum_ext; intros; cbn; rr; ring). assert (T1 : t1 = sum (List.map (fun g => w g * (nT g * 1)) G)) by (rewrite Et1; apply sum_ext; intros; cbn; rr; ring).
  assert (D : d = sum (List.map (fun g => w g * (1 * 1)) G)) by (rewrite Hd0; apply sum_ext; intros; cbn; rr; ring).
  assert (A0 : 0 <= a') by (rewrite A; apply sum_nonneg; intros; apply Rmult_le_pos; [apply W; assumption|nra]). assert (B0 : 0 <= b') by (rewrite B; apply sum_nonneg; intros; apply Rmult_le_pos; [apply W; assumption|nra]).
  assert (I : 0 < / d) by (apply Rinv_0_lt_compat; exact Hd). unfold Rdiv. split; [nra|]. split; [nra|]. split.
  - assert (CS : c' ^ 2 <= a' * b').
    { rewrite Ec. destruct (q_adia q); [cbn [andb]; pose proof (Rmult_le_pos _ _ A0 B0); replace (0 ^ 2) with 0 by ring; assumption|]. cbn [andb]. rewrite A, B. replace (sum (List.map (fun g => w g * (nR g ^ 1 * nT g ^ 0 * nZ g ^ 1)) G)) with (sum (List.map (fun g => w g * (nR g * nZ g)) G)) by (apply sum_ext; intros; cbn; rr; ring). apply cauchy. exact W. }
    replace ((c' * / d) ^ 2) with (c' ^ 2 * (/ d * / d)) by ring. replace (a' * / d * (b' * / d)) with (a' * b' * (/ d * / d)) by ring. apply Rmult_le_compat_r; [nra|exact CS].
  - pose proof (cauchy w nT (fun _ => 1) G W) as CS. cbv beta in CS. rewrite <- T1, <- T2, <- D in CS. replace (t2 * / d - (t1 * / d) ^ 2) with ((t2 * d - t1 ^ 2) * (/ d * / d)) by (field; lra). apply Rmult_le_pos; nra.
Qed.
Theorem C57_tilt : forall q gl ngl nsigma vTmax R z a b c alpha, sigmaR2_gl q gl ngl nsigma vTmax R z = Some a -> sigmaz2_gl q gl ngl nsigma vTmax R z = Some b -> sigmaRz_gl q gl ngl nsigma vTmax R z = Some c -> a <> b ->
  tilt_gl q gl ngl nsigma vTmax R z = Some alpha -> (a - b) / 2 * sin (2 * alpha) - c * cos (2 * alpha) = 0 /\ - PI / 4 < alpha < PI / 4.
Proof.
  intros q gl ngl ns vTm R z a b c al Ha Hb Hc Hab. unfold tilt_gl. rewrite Ha, Hb, Hc. cbn [obind]. intros [= <-]. set (x := 2 * c / (a - b)). replace (2 * (1 / 2 * atan x)) with (atan x) by field. pose proof (atan_bound x) as [B1 B2]. split; [|lra].
  assert (C : 0 < cos (atan x)) by (apply cos_gt_0; lra). assert (S : sin (atan x) = x * cos (atan x)) by (pose proof (tan_atan x) as T; unfold tan in T; rewrite <- T at 2; field; lra). rewrite S. unfold x. field. lra.
Qed.
(** If f does not change with the sign of vR, the mean radial velocity and the tilt covariance vanish; the same for vz. *)
Theorem C57_even : forall q gl ngl nsigma vTmax R z d, q_ok q -> freqs_positive q -> q_adia q = false -> (forall k, k = ngl \/ k = (ngl / 2)%nat -> gauss_legendre k (gl k)) -> density_gl q gl ngl nsigma_default vTmax R z = Some d ->
  (forall vR vT vz, call_arr_at q None R (- vR) vT z vz = call_arr_at q None R vR vT z vz) ->
  (forall x, meanvR_gl q gl ngl nsigma vTmax R z = Some x -> x = 0) /\ (forall x, sigmaRz_gl q gl ngl nsigma vTmax R z = Some x -> x = 0).
Proof.
  intros q gl ngl ns vTm R z d Hq Hf Ha Hg Hd He. assert (Z : forall m o I, vmoment_gl q gl ngl nsigma_default vTm R z 1 m o = Some I -> I = 0).
  { intros m o I HI. rewrite (C57_moment _ _ _ _ _ _ _ _ _ _ _ Hq Hf Ha Hg HI). set (r := gl (ngl / 2)%nat).
    assert (O : forall c h, (forall x, h (- x) = - h x) -> two_panels r c h = 0).
    { intros c h Hh. rewrite <- (Sm_sym c r h) by apply (Hg (ngl / 2)%nat (or_intror eq_refl)). unfold Sm, sym_nodes, half_nodes. rewrite map_app, sum_app, !map_map.
      rewrite (sum_ext (fun x : RR * RR => snd (- c / 2 * (fst x + 1), snd x) * h (fst (- c / 2 * (fst x + 1), snd x))) (fun x => -1 * (snd (c / 2 * (fst x + 1), snd x) * h (fst (c / 2 * (fst x + 1), snd x))))).
      - rewrite sum_scal. rr. ring.
      - intros [x w] _. cbn. replace (- c / 2 * (x + 1)) with (- (c / 2 * (x + 1))) by field. rewrite Hh. rr. ring. }
    assert (RZ : forall a b h, (forall x, h x = 0) -> rule_on (gl ngl) a b h = 0). { intros a b h Hh. rewrite (Rule_on_ext _ _ _ h (fun x => 0 * h x)) by (intros; rewrite Hh; ring). rewrite rule_scal. ring. }
    apply RZ. intros vT. apply O. intros vR. unfold two_panels at 1. rewrite (Rule_on_ext _ _ _ _ (fun vz => -1 * (vR ^ 1 * vT ^ m * vz ^ o * call_arr_at q None R vR vT z vz))) by (intros; rewrite He; cbn; rr; ring).
    rewrite (Rule_on_ext _ 0 _ _ (fun vz => -1 * (vR ^ 1 * vT ^ m * vz ^ o * call_arr_at q None R vR vT z vz))) by (intros; rewrite He; cbn; rr; ring). rewrite !rule_scal. unfold two_panels. rr. ring. }
  unfold density_gl in Hd. unfold meanvR_gl, sigmaRz_gl, ratio_gl. rewrite Hd. cbn [obind]. split; intros x.
  - destruct (vmoment_gl q gl ngl nsigma_default vTm R z 1 0 0) as [I|] eqn:E; [|discriminate]. cbn. intros [= <-]. rewrite (Z _ _ _ E). unfold Rdiv. ring.
  - destruct (vmoment_gl q gl ngl nsigma_default vTm R z 1 0 1) as [I|] eqn:E; [|discriminate]. cbn. intros [= <-]. rewrite (Z _ _ _ E). unfold Rdiv. ring.
Qed.
Theorem C57_even_z : forall q gl ngl nsigma vTmax R z d, q_ok q -> freqs_positive q -> q_adia q = false -> (forall k, k = ngl \/ k = (ngl / 2)%nat -> gauss_legendre k (gl k)) -> density_gl q gl ngl nsigma_default vTmax R z = Some d ->
  (forall vR vT vz, call_arr_at q None R vR vT z (- vz) = call_arr_at q None R vR vT z vz) ->
  (forall x, meanvz_gl q gl ngl nsigma vTmax R z = Some x -> x = 0) /\ (forall x, sigmaRz_gl q gl ngl nsigma vTmax R z = Some x -> x = 0).
Proof.
  intros q gl ngl ns vTm R z d Hq Hf Ha Hg Hd He. assert (Z : forall n m I, vmoment_gl q gl ngl nsigma_default vTm R z n m 1 = Some I -> I = 0).
  { intros n m I HI. rewrite (C57_moment _ _ _ _ _ _ _ _ _ _ _ Hq Hf Ha Hg HI). set (r := gl (ngl / 2)%nat).
    assert (O : forall c h, (forall x, h (- x) = - h x) -> two_panels r c h = 0).
    { intros c h Hh. rewrite <- (Sm_sym c r h) by apply (Hg (ngl / 2)%nat (or_intror eq_refl)). unfold Sm, sym_nodes, half_nodes. rewrite map_app, sum_app, !map_map.
      rewrite (sum_ext (fun x : RR * RR => snd (- c / 2 * (fst x + 1), snd x) * h (fst (- c / 2 * (fst x + 1), snd x))) (fun x => -1 * (snd (c / 2 * (fst x + 1), snd x) * h (fst (c / 2 * (fst x + 1), snd x))))).
      - rewrite sum_scal. rr. ring.
      - intros [x w] _. cbn. replace (- c / 2 * (x + 1)) with (- (c / 2 * (x + 1))) by field. rewrite Hh. rr. ring. }
    assert (RZ : forall r' a b h, (forall x, h x = 0) -> rule_on r' a b h = 0). { intros r' a b h Hh. rewrite (Rule_on_ext _ _ _ h (fun x => 0 * h x)) by (intros; rewrite Hh; ring). rewrite rule_scal. ring. }
    apply RZ. intros vT. unfold two_panels at 1. rewrite !RZ; [ring| |]; intros vR; apply O; intros vz; rewrite He; cbn; rr; ring. }
  unfold density_gl in Hd. unfold meanvz_gl, sigmaRz_gl, ratio_gl. rewrite Hd. cbn [obind]. split; intros x.
  - destruct (vmoment_gl q gl ngl nsigma_default vTm R z 0 0 1) as [I|] eqn:E; [|discriminate]. cbn. intros [= <-]. rewrite (Z _ _ _ E). unfold Rdiv. ring.
  - destruct (vmoment_gl q gl ngl nsigma_default vTm R z 1 0 1) as [I|] eqn:E; [|discriminate]. cbn. intros [= <-]. rewrite (Z _ _ _ E). unfold Rdiv. ring.
Qed.
(** The means and dispersions in terms of the moments of C57_moment: first moments over the density, and the second moment of vT less the square of its mean. *)
Theorem C57_means : forall q gl ngl nsigma vTmax R z s mR mT mz mTT, let M := vmoment_gl q gl ngl 4 vTmax R z in
  M 0%nat 0%nat 0%nat = Some s -> M 1%nat 0%nat 0%nat = Some mR -> M 0%nat 1%nat 0%nat = Some mT -> M 0%nat 0%nat 1%nat = Some mz -> M 0%nat 2%nat 0%nat = Some mTT ->
  meanvR_gl q gl ngl nsigma vTmax R z = Some (mR / s) /\ meanvT_gl q gl ngl nsigma vTmax R z = Some (mT / s) /\ meanvz_gl q gl ngl nsigma vTmax R z = Some (mz / s) /\
  sigmaT2_gl q gl ngl nsigma vTmax R z = Some (mTT / s - (mT / s) ^ 2).
Proof.
  intros q gl ngl ns vTm R z s mR mT mz mTT M H0 HR HT Hz HTT. unfold M in *. unfold meanvR_gl, meanvT_gl, meanvz_gl, sigmaT2_gl, ratio_gl, nsigma_default. rewrite H0, HR, HT, Hz, HTT. cbn [obind]. repeat split.
Qed.
Example C57_example_means : exists s mR mT mz mTT, let M := vmoment_gl (q0 aA0 false) gl12 2 4 1 1 0 in M 0%nat 0%nat 0%nat = Some s /\ M 1%nat 0%nat 0%nat = Some mR /\ M 0%nat 1%nat 0%nat = Some mT /\ M 0%nat 0%nat 1%nat = Some mz /\ M 0%nat 2%nat 0%nat = Some mTT.
Proof.
  destruct (const_some false gl12 2 4 1 1 0 0 0 0 eq_refl) as [s Hs]. destruct (const_some false gl12 2 4 1 1 0 1 0 0 eq_refl) as [a Ha]. destruct (const_some false gl12 2 4 1 1 0 0 1 0 eq_refl) as [b Hb].
  destruct (const_some false gl12 2 4 1 1 0 0 0 1 eq_refl) as [c Hc]. destruct (const_some false gl12 2 4 1 1 0 0 2 0 eq_refl) as [d Hd]. exists s, a, b, c, d. repeat split; assumption.
Qed.
(** A table of guiding radii that is exact on its range changes nothing for a number, inside or outside the range. *)
Theorem C57_table_number : forall q func J, (forall lo hi sp, q_grid q = Some (lo, hi, sp) -> forall l, lo <= l <= hi -> sp l = q_rl q l) ->
  call_plain false q None func J = call_plain false {| q_hr := q_hr q; q_sr := q_sr q; q_sz := q_sz q; q_hsr := q_hsr q; q_hsz := q_hsz q; q_refr := q_refr q; q_lo := q_lo q; q_cut := q_cut q; q_rl := q_rl q; q_epi := q_epi q; q_vert := q_vert q; q_vc := q_vc q; q_grid := None; q_aA := q_aA q; q_adia := q_adia q |} None func J.
Proof.
  intros q func [[jr lz] jz] H. assert (E : rg_of false q lz = q_rl q lz).
  { unfold rg_of, rg_scalar. destruct (q_grid q) as [[[lo hi] sp]|]; [|reflexivity]. destruct (Rlt_dec hi lz); [reflexivity|]. destruct (Rlt_dec lz lo); [reflexivity|]. apply (H lo hi sp eq_refl). lra. }
  unfold call_plain, circ_of. rewrite E. reflexivity.
Qed.
Example C57_example_table : exists q, q_grid q <> None /\ q_ok q /\ forall lo hi sp, q_grid q = Some (lo, hi, sp) -> forall l, lo <= l <= hi -> sp l = q_rl q l.
Proof.
  exists {| q_hr := 1; q_sr := 1; q_sz := 1; q_hsr := 1; q_hsz := 1; q_refr := 1; q_lo := 1; q_cut := false; q_rl := Rabs; q_epi := fun _ => Some 1; q_vert := fun _ => Some 1; q_vc := fun _ => 1; q_grid := Some (1, 2, fun l => l); q_aA := aA0; q_adia := false |}.
  split; [discriminate|]. split; [split; cbn; lra|]. intros lo hi sp [= <- <- <-] l Hl. cbn. rewrite Rabs_pos_eq; lra.
Qed.
(** The keyword nsigma is accepted and ignored by the Gauss-Legendre dispersions and means: *)
Lemma gl12_1 h c : two_panels gl1 c h = c * (h (- c / 2) + h (c / 2)).
Proof. unfold two_panels, rule_on, gl1. cbn. replace ((- c + 0) / 2 + (0 - - c) / 2 * 0) with (- c / 2) by field. replace ((0 + c) / 2 + (c - 0) / 2 * 0) with (c / 2) by field. field. Qed.
Lemma const_moment ns n : vmoment_gl (q0 aA0 false) gl12 2 ns 1 1 0 n 0 0 = Some (2 * K0 * ns ^ 2 * ((- (ns / 2)) ^ n + (ns / 2) ^ n)).
Proof.
  destruct (const_some false gl12 2 ns 1 1 0 n 0 0 eq_refl) as [I HI]. rewrite HI. f_equal.
  rewrite (vmoment_product (q0 aA0 false) gl12 2 ns 1 1 0 n 0 0 I eq_refl (proj1 (proj2 (proj2 gl1_ok))) HI). destruct (sig0 aA0 false) as [-> ->]. rewrite Rmult_1_r. change (gl12 (2 / 2)%nat) with gl1. change (gl12 2) with gl2.
  rewrite (Rule_on_ext _ _ _ _ (fun _ => 2 * K0 * ns ^ 2 * ((- (ns / 2)) ^ n + (ns / 2) ^ n))).
  - unfold rule_on, gl2. cbn. field.
  - intros vT. rewrite !gl12_1. unfold wgt. rewrite !fa0. replace (- ns / 2) with (- (ns / 2)) by field. cbn [pow]. generalize ((- (ns / 2)) ^ n). generalize ((ns / 2) ^ n). intros. rr. ring.
Qed.
Theorem C57_nsigma_refuted : ~ forall q gl ngl nsigma vTmax R z x s y, q_ok q -> 0 < nsigma -> vmoment_gl q gl ngl nsigma vTmax R z 0 0 0 = Some s -> vmoment_gl q gl ngl nsigma vTmax R z 2 0 0 = Some y -> sigmaR2_gl q gl ngl nsigma vTmax R z = Some x -> x = y / s.
Proof.
  intros H. pose proof const_moment as V. assert (X : exists x, sigmaR2_gl (q0 aA0 false) gl12 2 2 1 1 0 = Some x) by (unfold sigmaR2_gl, ratio_gl, nsigma_default; rewrite !V; eexists; reflexivity).
  destruct X as [x X]. specialize (H (q0 aA0 false) gl12 2%nat 2 1 1 0 x _ _ (q0_ok _ _) ltac:(lra) (V 2 0%nat) (V 2 2%nat) X). unfold sigmaR2_gl, ratio_gl, nsigma_default in X. rewrite !V in X. cbn [obind] in X. injection X as <-. pose proof K0_pos.
  match type of H with ?l = ?r => assert (A : l = 4) by (field; lra); assert (B : r = 1) by (field; lra); rewrite A, B in H end. lra.
Qed.
(** With an adiabatic action-angle object only positive vR and vz are summed but the factor 4 is left out: the moment is a quarter of the rule for the whole box,
    the ratios are not affected, and the density disagrees with the marginals. *)
Theorem C57_adiabatic : forall q gl ngl nsigma vTmax R z n m o I, q_ok q -> freqs_positive q -> q_adia q = true -> vmoment_gl q gl ngl nsigma vTmax R z n m o = Some I ->
  if orb (Nat.odd n) (Nat.odd o) then I = 0 else
  4 * I = rule_on (gl ngl) 0 vTmax (fun vT => 2 * rule_on (gl ngl) 0 (nsigma * sigR1 q R) (fun vR => 2 * rule_on (gl ngl) 0 (nsigma * sigz1 q R) (fun vz => vR ^ n * vT ^ m * vz ^ o * call_arr_at q None R vR vT z vz))).
Proof.
  intros q gl ngl ns vTm R z n m o I Hq Hf Ha H. destruct (orb (Nat.odd n) (Nat.odd o)) eqn:E.
  - unfold vmoment_gl in H. rewrite Ha, E in H. cbn [andb] in H. injection H as <-. reflexivity.
  - rewrite (vmoment_nested _ _ _ _ _ _ _ _ _ _ _ H) by (rewrite Ha, E; reflexivity). rewrite Sm_half. rewrite <- rule_scal. apply Rule_on_ext. intros vT. unfold nodesR. rewrite Ha, Sm_half.
    rewrite (Rule_on_ext _ _ _ (fun vR => 2 * rule_on (gl ngl) 0 (ns * sigz1 q R) (fun vz => vR ^ n * vT ^ m * vz ^ o * call_arr_at q None R vR vT z vz)) (fun vR => 2 * (ns * sigz1 q R / 2 * Sm (half_nodes (ns * sigz1 q R) (gl ngl)) (fun vz => wgt n m o (fa q R z) vR vT vz)))).
    + rewrite !rule_scal. generalize (rule_on (gl ngl) 0 (ns * sigR1 q R) (fun x => Sm (half_nodes (ns * sigz1 q R) (gl ngl)) (fun vz => wgt n m o (fa q R z) x vT vz))). intros. rr. field.
    + intros vR. rewrite Sm_half. f_equal. apply Rule_on_ext. intros vz. unfold wgt. rewrite fa_call by assumption. reflexivity.
Qed.
Theorem C57_adiabatic_density_refuted : ~ forall q gl ngl nsigma vTmax R z I exact, q_ok q -> freqs_positive q -> (forall vR vT vz, call_arr_at q None R vR vT z vz = call_arr_at q None R 0 0 z 0) -> gauss_legendre 2 (gl ngl) ->
  density_gl q gl ngl nsigma vTmax R z = Some I -> velocity_integral (nsigma * sigR1 q R) 0 vTmax (nsigma * sigz1 q R) (fun vR vT vz => call_arr_at q None R vR vT z vz) exact -> I = exact.
Proof.
  intros H. assert (Fp : freqs_positive (q0 aA0 true)) by (split; intros ? ? [= <-]; lra). assert (C : forall R vR vT z vz, call_arr_at (q0 aA0 true) None R vR vT z vz = K0) by (intros; unfold call_arr_at; cbn [q_aA q0 aA0]; apply plain0).
  destruct (const_some true gl12 2 4 1 1 0 0 0 0 eq_refl) as [I HI]. specialize (H (q0 aA0 true) gl12 2%nat 4 1 1 0 I (1 * (8 * (8 * K0))) (q0_ok _ _) Fp). pose proof (C57_adiabatic _ _ _ _ _ _ _ _ _ _ _ (q0_ok _ _) Fp eq_refl HI) as A. cbn [Nat.odd Nat.even negb orb] in A.
  assert (E : I = 1 * (8 * (8 * K0))).
  { apply H; [intros; rewrite !C; reflexivity|exact gl2_ok|exact HI|]. destruct (sig0 aA0 true) as [-> ->]. replace (4 * 1) with 4 by ring. exists (fun _ _ => 8 * K0). split.
    - intros. apply (is_RInt_ext (fun _ => K0)); [intros; symmetry; apply C|]. replace (8 * K0) with (scal (4 - - (4)) K0) by (unfold scal; cbn; unfold mult; cbn; rr; ring). apply (is_RInt_const (V := R_NormedModule)).
    - exists (fun _ => 8 * (8 * K0)). split; [intros; replace (8 * (8 * K0)) with (scal (4 - - (4)) (8 * K0)) by (unfold scal; cbn; unfold mult; cbn; rr; ring); apply (is_RInt_const (V := R_NormedModule))|].
      replace (1 * (8 * (8 * K0))) with (scal (1 - 0) (8 * (8 * K0))) by (unfold scal; cbn; unfold mult; cbn; rr; ring). apply (is_RInt_const (V := R_NormedModule)). }
  revert A. destruct (sig0 aA0 true) as [-> ->]. change (gl12 2) with gl2. rewrite (Rule_on_ext gl2 0 1 _ (fun _ => 8 * (8 * K0))).
  - unfold rule_on at 1, gl2 at 1. cbn. pose proof K0_pos. intros A. rewrite E in A. lra.
  - intros vT. rewrite (Rule_on_ext gl2 0 (4 * 1) _ (fun _ => 8 * K0)).
    + unfold rule_on, gl2. cbn. field.
    + intros vR. rewrite (Rule_on_ext gl2 0 (4 * 1) _ (fun _ => K0)) by (intros; rewrite C; cbn; rr; ring). unfold rule_on, gl2. cbn. field.
Qed.

(** ** Marginals *)
(** [panels] is the rule for a velocity that is symmetric about 0: two panels, or twice the positive one for an adiabatic action-angle object. *)
Definition panels (q : QDF) gl ngl c h : RR := if q_adia q then 2 * rule_on (gl ngl) 0 c h else two_panels (gl (ngl / 2)%nat) c h.
Theorem C57_marginals : forall q gl ngl nsigma vTmax R z, q_ok q -> freqs_positive q -> (forall k, k = ngl \/ k = (ngl / 2)%nat -> gauss_legendre k (gl k)) ->
  let f := fun vR vT vz => call_arr_at q None R vR vT z vz in let PR := panels q gl ngl (nsigma * sigR1 q R) in let PZ := panels q gl ngl (nsigma * sigz1 q R) in let PT := rule_on (gl ngl) 0 vTmax in
  (forall vR I, pvR q gl ngl nsigma vTmax vR R z = Some I -> I = PT (fun vT => PZ (fun vz => f vR vT vz))) /\
  (forall vT I, pvT q gl ngl nsigma vT R z = Some I -> I = PR (fun vR => PZ (fun vz => f vR vT vz))) /\
  (forall vz I, pvz q gl ngl nsigma vTmax vz R z = Some I -> I = PT (fun vT => PR (fun vR => f vR vT vz))) /\
  (forall vR vz I, pvRvz q gl ngl vTmax vR vz R z = Some I -> I = PT (fun vT => f vR vT vz)) /\
  (forall vR vT I, (forall xw, In xw (nodesR q gl ngl (nsigma * sigz1 q R)) -> q_aA q R vR vT z (fst xw) <> None) -> pvRvT q gl ngl nsigma vR vT R z = Some I -> I = PZ (fun vz => f vR vT vz)) /\
  (forall vT vz I, (forall xw, In xw (nodesR q gl ngl (nsigma * sigR1 q R)) -> q_aA q R (fst xw) vT z vz <> None) -> pvTvz q gl ngl nsigma vT vz R z = Some I -> I = PR (fun vR => f vR vT vz)).
Proof.
  intros q gl ngl ns vTm R z Hq Hf Hg f PR PZ PT. assert (S : q_adia q = false -> symmetric (gl (ngl / 2)%nat)) by (intros _; apply (Hg (ngl / 2)%nat (or_intror eq_refl))).
  assert (F : forall a b c, fa q R z a b c = f a b c) by (intros; apply fa_call; assumption). unfold PR, PZ, PT. repeat split; intros.
  - rewrite (pvR_rule q gl ngl ns vTm R z S vR I H). apply Rule_on_ext. intros. apply vrule_ext. intros. apply F.
  - rewrite (pvT_rule q gl ngl ns R z S vT I H). apply vrule_ext. intros. apply vrule_ext. intros. apply F.
  - rewrite (pvz_rule q gl ngl ns vTm R z S vz I H). apply Rule_on_ext. intros. apply vrule_ext. intros. apply F.
  - rewrite (pvRvz_rule q gl ngl vTm R z vR vz I H). apply Rule_on_ext. intros. apply F.
  - rewrite (pvRvT_rule q gl ngl ns R z S vR vT I H H0). apply vrule_ext. intros. apply F.
  - rewrite (pvTvz_rule q gl ngl ns R z S vT vz I H H0). apply vrule_ext. intros. apply F.
Qed.
(** Summed over the remaining velocities with the same rule, a marginal gives back the density (not for an adiabatic action-angle object). *)
Theorem C57_marginal_density : forall q gl ngl nsigma vTmax R z I (pT : RR -> RR), q_ok q -> freqs_positive q -> (forall k, k = ngl \/ k = (ngl / 2)%nat -> gauss_legendre k (gl k)) -> q_adia q = false -> density_gl q gl ngl nsigma vTmax R z = Some I ->
  (forall vT, pvT q gl ngl nsigma vT R z = Some (pT vT)) -> I = rule_on (gl ngl) 0 vTmax pT.
Proof.
  intros q gl ngl ns vTm R z I pT Hq Hf Hg Ha HI HT. rewrite (C57_moment _ _ _ _ _ _ _ _ _ _ _ Hq Hf Ha Hg HI). apply Rule_on_ext. intros vT.
  destruct (C57_marginals q gl ngl ns vTm R z Hq Hf Hg) as (_ & M & _). rewrite (M vT _ (HT vT)). unfold panels. rewrite Ha. apply two_panels_ext. intros. apply two_panels_ext. intros. cbn. rr. ring.
Qed.
(** pvRvT is 0 as soon as the orbit of one node is unbound (the other marginals raise an exception then). *)
Theorem C57_marginal_unbound_refuted : ~ forall q gl ngl nsigma vR vT R z I, q_ok q -> freqs_positive q -> (forall k, k = ngl \/ k = (ngl / 2)%nat -> gauss_legendre k (gl k)) -> pvRvT q gl ngl nsigma vR vT R z = Some I ->
  I = panels q gl ngl (nsigma * sigz1 q R) (fun vz => call_arr_at q None R vR vT z vz).
Proof.
  intros H. set (aA := fun _ _ _ _ vz : RR => if Rlt_dec vz 0 then None else Some (0, 1, 0) : option (RR * RR * RR)). specialize (H (q0 aA false) gl12 2%nat 4 0 1 1 0 0).
  assert (E : pvRvT (q0 aA false) gl12 2 4 0 1 1 0 = Some 0).
  { unfold pvRvT. cbn [Nat.odd Nat.even negb]. cbv zeta. destruct (sig0 aA false) as [_ ->]. unfold nodesR. cbn [q_adia q0]. change (gl12 (2 / 2)%nat) with gl1. unfold sym_nodes, half_nodes, gl1, exp_call_array. cbn [List.map app fst snd aA_at all_some q_aA q0].
    unfold aA at 1 2. destruct (Rlt_dec (4 * 1 / 2 * (0 + 1)) 0); [lra|]. destruct (Rlt_dec (- (4 * 1) / 2 * (0 + 1)) 0); [|lra]. unfold sum. cbn. f_equal. ring. }
  specialize (H (q0_ok _ _) ltac:(split; intros ? ? [= <-]; lra)). pose proof (H gl12_ok E) as A. revert A. unfold panels. cbn [q_adia q0]. change (gl12 (2 / 2)%nat) with gl1. rewrite gl12_1.
  destruct (sig0 aA false) as [_ ->]. unfold call_arr_at. cbn [q_aA q0]. unfold aA at 1 3. destruct (Rlt_dec (- (4 * 1) / 2) 0); [|lra]. destruct (Rlt_dec (4 * 1 / 2) 0); [lra|]. rewrite plain0. pose proof K0_pos. lra.
Qed.

(** ** Monte-Carlo moments *)
(** With mc=True the mean vT and the like are self-normalised importance sampling of the distribution function: draw s has the velocities [phys s] and the weight
    f / (its normal density); the same weights give the mean actions. *)
Theorem C57_monte_carlo : forall q R z smp, q_ok q -> smp <> [] -> sum (List.map (omega q R z) smp) <> 0 ->
  (forall n m o, ratio_mc q R z n m o smp = sum (List.map (fun s => f_at q R z (phys q R s) / normal3 (mvT q R) 1 1 s * moment_of n m o (phys q R s)) smp) / sum (List.map (fun s => f_at q R z (phys q R s) / normal3 (mvT q R) 1 1 s) smp)) /\
  (forall n m o, jratio_mc q R z n m o smp = sum (List.map (fun s => f_at q R z (phys q R s) / normal3 (mvT q R) 1 1 s * J_at q R z n m o (phys q R s)) smp) / sum (List.map (fun s => f_at q R z (phys q R s) / normal3 (mvT q R) 1 1 s) smp)).
Proof. intros q R z smp Hq Hn Hs. split; intros; [apply mc_ratio|apply jmc_ratio]; assumption. Qed.
Theorem C57_sigmaT2_mc : forall q R z smp, q_ok q -> smp <> [] -> List.Forall (fun s => 0 <= f_at q R z (phys q R s)) smp -> sum (List.map (omega q R z) smp) <> 0 -> 0 <= sigmaT2_mc q R z smp.
Proof.
  intros q R z smp Hq Hn Hf Hs. unfold sigmaT2_mc. rewrite !mc_ratio by assumption. set (w := omega q R z) in *. set (v := fun s => snd (fst (phys q R s))). rewrite Forall_forall in Hf.
  assert (W : forall s, In s smp -> 0 <= w s) by (intros s Hs'; unfold w, omega; apply Rmult_le_pos; [apply Hf; exact Hs'|left; apply Rinv_0_lt_compat; apply normal_pos; lra]).
  replace (sum (List.map (fun s => w s * moment_of 0 2 0 (phys q R s)) smp)) with (sum (List.map (fun s => w s * (v s * v s)) smp)) by (apply sum_ext; intros [[a b] c] _; cbn; rr; ring).
  replace (sum (List.map (fun s => w s * moment_of 0 1 0 (phys q R s)) smp)) with (sum (List.map (fun s => w s * (v s * 1)) smp)) by (apply sum_ext; intros [[a b] c] _; cbn; rr; ring).
  pose proof (cauchy w v (fun _ => 1) smp W) as CS. cbv beta in CS. replace (sum (List.map (fun s => w s * (1 * 1)) smp)) with (sum (List.map w smp)) in CS by (apply sum_ext; intros; rr; ring). pose proof (sum_nonneg w smp W) as P. set (D := sum (List.map w smp)) in *.
  assert (D0 : 0 < D) by lra. assert (I : 0 < / D) by (apply Rinv_0_lt_compat; exact D0). set (A := sum (List.map (fun s => w s * (v s * v s)) smp)) in *. set (B := sum (List.map (fun s => w s * (v s * 1)) smp)) in *.
  replace (A / D - (B / D) ^ 2) with ((A * D - B ^ 2) * (/ D * / D)) by (field; lra). apply Rmult_le_pos; nra.
Qed.
Example C57_example_mc : sum (List.map (omega (q0 aA0 false) 1 0) [(0, 1, 0)]) <> 0 /\ [(0, 1, 0)] <> @nil (RR * RR * RR).
Proof.
  split; [|discriminate]. unfold sum. cbn [List.map fold_right]. rewrite Rplus_0_r. unfold omega, Rdiv. apply Rmult_integral_contrapositive. split; [|apply Rinv_neq_0_compat; apply Rgt_not_eq; apply normal_pos; lra].
  unfold phys, f_at, call_arr_at. cbn [q_aA q0 aA0]. rewrite plain0. pose proof K0_pos. lra.
Qed.
(** One draw: its term times its probability density is the integrand times the volume element, divided by (2 pi)^(3/2). *)
Theorem C57_monte_carlo_term : forall q R z n m o s, sqrt (2 * PI) ^ 3 * (mc_term q R z n m o s * (sigR1 q R ^ (2 + n + m) * gam ^ (1 + m) * sigz1 q R ^ (1 + o)) * normal3 (mvT q R) 1 1 s)
  = moment_of n m o (phys q R s) * f_at q R z (phys q R s) * (sigR1 q R * (sigR1 q R * gam) * sigz1 q R).
Proof. intros. apply mc_weight. Qed.
(** So density(mc=True) and vmomentdensity(mc=True) are too small by (2 pi)^(3/2): *)
Theorem C57_monte_carlo_density_refuted : ~ forall q R z s, q_ok q -> mc_term q R z 0 0 0 s * (sigR1 q R ^ 2 * gam * sigz1 q R) * normal3 (mvT q R) 1 1 s = f_at q R z (phys q R s) * (sigR1 q R * (sigR1 q R * gam) * sigz1 q R).
Proof.
  intros H. specialize (H (q0 aA0 false) 1 0 (0, 1, 0) (q0_ok _ _)). pose proof (C57_monte_carlo_term (q0 aA0 false) 1 0 0 0 0 (0, 1, 0)) as A. set (q := q0 aA0 false) in *. assert (M : moment_of 0 0 0 (phys q 1 (0, 1, 0)) = 1) by (cbn; ring). rewrite M, Rmult_1_l in A.
  cbn [Nat.add] in A. rewrite !pow_1 in A. rewrite <- H in A.
  assert (P : 0 < mc_term q 1 0 0 0 0 (0, 1, 0) * (sigR1 q 1 ^ 2 * gam * sigz1 q 1) * normal3 (mvT q 1) 1 1 (0, 1, 0)).
  { rewrite H. apply Rmult_lt_0_compat; [unfold phys, f_at, call_arr_at; cbn [q_aA q q0 aA0]; fold (q0 aA0 false); unfold q; rewrite plain0; apply K0_pos|apply (jac_pos q 1 (q0_ok _ _))]. }
  set (x := mc_term q 1 0 0 0 0 (0, 1, 0) * (sigR1 q 1 ^ 2 * gam * sigz1 q 1) * normal3 (mvT q 1) 1 1 (0, 1, 0)) in *. assert (S : sqrt (2 * PI) ^ 3 = 1) by (apply Rmult_eq_reg_r with x; lra).
  assert (B : 1 < sqrt (2 * PI)) by (rewrite <- sqrt_1; apply sqrt_lt_1_alt; pose proof PI_RGT_0; pose proof PI2_1; unfold PI2 in *; lra). assert (1 < sqrt (2 * PI) * sqrt (2 * PI)) by nra. cbn in S. nra.
Qed.

(** ** Direct moments *)
Lemma const_direct n ns : vmoment_direct (q0 aA0 false) ns 1 0 0 n 0 = RInt (fun vT => ns * (ns * (vT ^ n * K0))) (sqrt 2 - ns) (sqrt 2 + ns) * gam ^ (1 + n).
Proof.
  unfold vmoment_direct. cbn [q_adia q0 andb]. destruct (sig0 aA0 false) as [-> ->]. assert (V : va (q0 aA0 false) 1 = 0).
  { unfold va. destruct (sig0 aA0 false) as [-> _]. cbn [q_vc q_hr q_hsr q0]. assert (G : gam ^ 2 = 1 / 2) by (unfold gam; replace (sqrt (1 / 2) ^ 2) with (sqrt (1 / 2) * sqrt (1 / 2)) by ring; apply sqrt_sqrt; lra). rewrite G. match goal with |- (if Rlt_dec _ (Rabs ?v) then _ else _) = _ => replace v with (5 / 4) by field end. rewrite Rabs_pos_eq by lra. destruct (Rlt_dec 1 (5 / 4)); [reflexivity|lra]. }
  rewrite V. cbn [q_vc q0]. assert (G : 1 / gam * (1 - 0) / 1 = sqrt 2). { pose proof gam_pos. replace (1 / gam * (1 - 0) / 1) with (/ gam) by (field; lra). unfold gam. replace (1 / 2) with (/ 2) by field. rewrite sqrt_inv, Rinv_inv. reflexivity. }
  rewrite G, !pow1, !Rmult_1_r. f_equal. apply RInt_ext. intros vT _. rewrite (RInt_ext _ (fun _ => ns * (vT ^ n * K0))).
  - rewrite RInt_const. unfold scal. cbn. unfold mult. cbn. rr. ring.
  - intros vR _. rewrite (RInt_ext _ (fun _ => vT ^ n * K0)).
    + rewrite RInt_const. unfold scal. cbn. unfold mult. cbn. rr. ring.
    + intros vz _. unfold call_at. cbn [q_aA q0 aA0]. rewrite plain0. cbn [pow]. rr. ring.
Qed.
(** With gl=False and mc=False vR and vz run from 0 to nsigma only: for a constant f the density is a quarter of the integral over the box. *)
Theorem C57_direct_density_refuted : ~ forall q nsigma R z exact, q_ok q -> 0 < nsigma -> (forall vR vT vz, call_at q R vR vT z vz = call_at q R 0 0 z 0) ->
  velocity_integral (nsigma * sigR1 q R) (q_vc q R - va q R - nsigma * (gam * sigR1 q R)) (q_vc q R - va q R + nsigma * (gam * sigR1 q R)) (nsigma * sigz1 q R) (fun vR vT vz => call_at q R vR vT z vz) exact ->
  vmoment_direct q nsigma R z 0 0 0 = exact.
Proof.
  intros H. pose proof (const_direct 0 1) as D. rewrite (RInt_ext _ (fun _ => K0)) in D by (intros; cbn; rr; ring). rewrite RInt_const in D. specialize (H (q0 aA0 false) 1 1 0 (2 * (1 * (gam * 1)) * (2 * (2 * K0))) (q0_ok _ _) ltac:(lra)).
  assert (C : forall R vR vT z vz, call_at (q0 aA0 false) R vR vT z vz = K0) by (intros; unfold call_at; cbn [q_aA q0 aA0]; apply plain0).
  rewrite H in D; [|intros; rewrite !C; reflexivity|].
  - unfold scal in D. cbn in D. unfold mult in D. cbn in D. pose proof gam_pos. pose proof K0_pos. assert (P : 0 < gam * K0) by (apply Rmult_lt_0_compat; assumption). nra.
  - destruct (sig0 aA0 false) as [-> ->]. exists (fun _ _ => 2 * K0). split.
    + intros. apply (is_RInt_ext (fun _ => K0)); [intros; symmetry; apply C|]. replace (2 * K0) with (scal (1 * 1 - - (1 * 1)) K0) by (unfold scal; cbn; unfold mult; cbn; rr; ring). apply (is_RInt_const (V := R_NormedModule)).
    + exists (fun _ => 2 * (2 * K0)). split; [intros; replace (2 * (2 * K0)) with (scal (1 * 1 - - (1 * 1)) (2 * K0)) by (unfold scal; cbn; unfold mult; cbn; rr; ring); apply (is_RInt_const (V := R_NormedModule))|].
      set (c := q_vc (q0 aA0 false) 1 - va (q0 aA0 false) 1). replace (2 * (1 * (gam * 1)) * (2 * (2 * K0))) with (scal (c + 1 * (gam * 1) - (c - 1 * (gam * 1))) (2 * (2 * K0))) by (unfold scal; cbn; unfold mult; cbn; rr; ring). apply (is_RInt_const (V := R_NormedModule)).
Qed.
(** sigmaT2 subtracts the square of the mean square instead of the square of the mean: it can be negative. *)
Theorem C57_direct_sigmaT2_refuted : ~ forall q nsigma R z, q_ok q -> 0 < nsigma -> 0 < vmoment_direct q nsigma R z 0 0 0 -> 0 <= sigmaT2_direct q nsigma R z.
Proof.
  intros H. specialize (H (q0 aA0 false) 4 1 0 (q0_ok _ _) ltac:(lra)). assert (S2 : sqrt 2 * sqrt 2 = 2) by (apply sqrt_sqrt; lra). assert (G : gam * gam = 1 / 2) by (apply sqrt_sqrt; lra). pose proof gam_pos as Gp. pose proof K0_pos as Kp.
  assert (D0 : vmoment_direct (q0 aA0 false) 4 1 0 0 0 0 = 128 * K0 * gam).
  { rewrite const_direct. rewrite (RInt_ext _ (fun _ => 16 * K0)) by (intros; cbn; rr; ring). rewrite RInt_const. unfold scal. cbn. unfold mult. cbn. rr. ring. }
  assert (D2 : vmoment_direct (q0 aA0 false) 4 1 0 0 2 0 = 16 * K0 * (((sqrt 2 + 4) ^ 3 - (sqrt 2 - 4) ^ 3) / 3) * gam ^ 3).
  { rewrite const_direct. f_equal. apply (is_RInt_unique (V := R_CompleteNormedModule)). apply (is_RInt_ext (fun x => scal (16 * K0) (x ^ 2))); [intros; unfold scal; cbn; unfold mult; cbn; rr; ring|]. apply (is_RInt_scal (V := R_NormedModule)).
    replace (((sqrt 2 + 4) ^ 3 - (sqrt 2 - 4) ^ 3) / 3) with (minus ((fun x => x ^ 3 / 3) (sqrt 2 + 4)) ((fun x => x ^ 3 / 3) (sqrt 2 - 4))) by (unfold minus, plus, opp; cbn; rr; field). apply (is_RInt_derive (V := R_CompleteNormedModule) (fun x => x ^ 3 / 3) (fun x => x ^ 2)); [intros x _; auto_derive; [exact I|field]|intros; apply pow_cont]. }
  assert (Q : vmoment_direct (q0 aA0 false) 4 1 0 0 2 0 / vmoment_direct (q0 aA0 false) 4 1 0 0 0 0 = 11 / 3).
  { rewrite D0, D2. replace (((sqrt 2 + 4) ^ 3 - (sqrt 2 - 4) ^ 3) / 3) with (8 * (sqrt 2 * sqrt 2) + 128 / 3) by field. rewrite S2. replace (gam ^ 3) with (gam * gam * gam) by ring. rewrite G. field. split; lra. }
  assert (P : 0 < vmoment_direct (q0 aA0 false) 4 1 0 0 0 0) by (rewrite D0; apply Rmult_lt_0_compat; [lra|exact Gp]). specialize (H P). unfold sigmaT2_direct in H. cbv zeta in H. rewrite Q in H. lra.
Qed.

(** ** Scale lengths, surface density, units *)
Theorem C57_scale_lengths : forall a h x dx, 0 < a -> h <> 0 -> dx <> 0 ->
  estimate_hr (fun R => a * exp (- R / h)) x dx = h /\ estimate_hz (fun z => a * exp (- z / h)) x dx = h /\ estimate_hs (fun R => (a * exp (- R / h)) ^ 2) x dx = h.
Proof.
  intros a h x dx Ha Hh Hd. assert (L : forall y, ln (a * exp (- y / h)) = ln a - y / h) by (intros; rewrite ln_mult, ln_exp; [unfold Rdiv; ring|exact Ha|apply exp_pos]).
  assert (L2 : forall y, ln ((a * exp (- y / h)) ^ 2) = 2 * (ln a - y / h)) by (intros y; pose proof (exp_pos (- y / h)); replace ((a * exp (- y / h)) ^ 2) with (a * exp (- y / h) * (a * exp (- y / h))) by ring; rewrite ln_mult, L by (apply Rmult_lt_0_compat; assumption); ring).
  split; [|split].
  - unfold estimate_hr. rewrite !L. replace (ln a - (x + dx / 2) / h - (ln a - (x - dx / 2) / h)) with (- (dx / h)) by (field; exact Hh). field. split; assumption.
  - unfold estimate_hz. rewrite !L. destruct (Req_EM_T x 0); [replace (ln a - (x + dx) / h - (ln a - x / h)) with (- (dx / h)) by (field; exact Hh)|replace (ln a - (x + dx / 2) / h - (ln a - (x - dx / 2) / h)) with (- (dx / h)) by (field; exact Hh)]; field; split; assumption.
  - unfold estimate_hs. rewrite !L2. replace (2 * (ln a - (x + dx / 2) / h) / 2 - 2 * (ln a - (x - dx / 2) / h) / 2) with (- (dx / h)) by (field; exact Hh). field. split; assumption.
Qed.
(** surfacemass_z: with fixed_quad the integral ends at |z| = 1/2 whatever zmax is, without it at |z| = 1. *)
Theorem C57_surfacemass : forall density r zmax interp, surfacemass_fixed density r zmax = 2 * rule_on r 0 (1 / 2) density /\ surfacemass_spline interp zmax = 2 * RInt (fun x => exp (interp x)) 0 1.
Proof.
  intros. split; [|reflexivity]. unfold surfacemass_fixed, rule_on. f_equal. change (fold_right Rplus 0) with sum. rewrite <- sum_scal. apply sum_ext. intros [x w] _. cbn. replace ((0 + 1 / 2) / 2 + (1 / 2 - 0) / 2 * x) with (1 / 2 / 2 * (x + 1)) by field. field.
Qed.
Theorem C57_surfacemass_refuted : ~ forall density r zmax, gauss_legendre 2 r -> (forall z, density z = density 0) -> surfacemass_fixed density r zmax = 2 * RInt density 0 zmax.
Proof.
  intros H. specialize (H (fun _ => 1) gl2 1 gl2_ok (fun _ => eq_refl)). rewrite RInt_const in H. unfold surfacemass_fixed, gl2, sum, scal in H. cbn in H. unfold mult in H. cbn in H. lra.
Qed.
Theorem C57_units : forall ro vo x s n m o, 0 < ro -> 0 < vo -> s <> 0 -> phys_vmoment ro vo x n m o / phys_vmoment ro vo s 0 0 0 = vo ^ (n + m + o) * (x / s) /\ phys_jmoment ro vo x n m o / phys_jmoment ro vo s 0 0 0 = (ro * vo) ^ (n + m + o) * (x / s).
Proof. intros ro vo x s n m o Hr Hv Hs. unfold phys_vmoment, phys_jmoment. cbn [Nat.add]. split; cbn [pow]; field; lra. Qed.

(** ** Velocity samples *)
(** A proposal v is accepted with probability min(1, exp VDatprop); when the density is below the proposal's envelope, an accepted velocity has a density
    proportional to the distribution function. *)
Theorem C57_sample : forall q lnf maxVT, q_ok q -> (forall v, uniform_probability (fun u => accepted q lnf maxVT v u = true) (Rmin 1 (exp (VDatprop q lnf maxVT v)))) /\
  (forall s, normal3 maxVT (2 * q_sr q) (2 * q_sz q) (proposal q maxVT s) * (2 * q_sr q * (2 * q_sr q) * (2 * q_sz q)) = normal3 0 1 1 s) /\
  ((forall vR vT vz, lnf (vR, vT, vz) <= lnf (0, maxVT, 0) - (vR ^ 2 / (2 * q_sr q) ^ 2 + (vT - maxVT) ^ 2 / (2 * q_sr q) ^ 2 + vz ^ 2 / (2 * q_sz q) ^ 2) / 2) ->
   exists K, 0 < K /\ forall v, normal3 maxVT (2 * q_sr q) (2 * q_sz q) v * Rmin 1 (exp (VDatprop q lnf maxVT v)) = K * exp (lnf v)).
Proof.
  intros q lnf mv Hq. split; [intros; apply accept_prob|]. split; [intros; apply proposal_density; exact Hq|]. intros H. apply accepted_density; [exact Hq|]. intros [[a b] c]. specialize (H a b c). unfold VDatprop. destruct Hq as [H1 H2].
  replace (a ^ 2 / (2 * q_sr q) ^ 2 + (b - mv) ^ 2 / (2 * q_sr q) ^ 2 + c ^ 2 / (2 * q_sz q) ^ 2) with (a ^ 2 / 4 / q_sr q ^ 2 + c ^ 2 / 4 / q_sz q ^ 2 + (b - mv) ^ 2 / 4 / q_sr q ^ 2) in H by (field; lra). lra.
Qed.
Example C57_example_envelope : forall vR vT vz, (fun v : RR * RR * RR => let '(a, b, c) := v in - (a ^ 2 + (b - 1) ^ 2 + c ^ 2) / 2) (vR, vT, vz) <= - (0 ^ 2 + (1 - 1) ^ 2 + 0 ^ 2) / 2 - (vR ^ 2 / (2 * 1) ^ 2 + (vT - 1) ^ 2 / (2 * 1) ^ 2 + vz ^ 2 / (2 * 1) ^ 2) / 2.
Proof. intros. pose proof (pow2_ge_0 vR). pose proof (pow2_ge_0 (vT - 1)). pose proof (pow2_ge_0 vz). replace ((2 * 1) ^ 2) with 4 by ring. replace (0 ^ 2) with 0 by ring. replace ((1 - 1) ^ 2) with 0 by ring. lra. Qed.
(** The envelope has twice the dispersions at the reference radius, not at the radius of the star: where the dispersion is three times larger the samples do not
    follow the distribution function. *)
Theorem C57_sample_refuted : ~ forall q lnf maxVT, q_ok q -> (forall v, lnf v <= lnf (0, maxVT, 0)) -> exists K, 0 < K /\ forall v, normal3 maxVT (2 * q_sr q) (2 * q_sz q) v * Rmin 1 (exp (VDatprop q lnf maxVT v)) = K * exp (lnf v).
Proof.
  intros H. set (lnf := fun v : RR * RR * RR => let '(a, b, c) := v in - (a ^ 2 + b ^ 2 + c ^ 2) / 18). destruct (H (q0 aA0 false) lnf 0 (q0_ok _ _)) as (K & HK & E).
  { intros [[a b] c]. unfold lnf. nra. }
  pose proof (E (0, 0, 0)) as E0. pose proof (E (1, 0, 0)) as E1. unfold VDatprop, normal3, lnf in E0, E1. cbn [q_sr q_sz q0] in E0, E1. pose proof s2pi_pos as P. set (N := sqrt (2 * PI) ^ 3 * (2 * 1) ^ 2 * (2 * 1)) in *. assert (HN : 0 < N) by (unfold N; repeat apply Rmult_lt_0_compat; try lra; apply pow_lt; lra).
  assert (M : forall x, 0 <= x -> Rmin 1 (exp x) = 1) by (intros x Hx; apply Rmin_left; pose proof (exp_ineq1_le x); lra). rewrite !M in E0, E1 by lra.
  replace (- (0 ^ 2 / (2 * (2 * 1) ^ 2) + (0 - 0) ^ 2 / (2 * (2 * 1) ^ 2) + 0 ^ 2 / (2 * (2 * 1) ^ 2))) with 0 in E0 by field. replace (- (0 ^ 2 + 0 ^ 2 + 0 ^ 2) / 18) with 0 in E0 by field. rewrite exp_0 in E0.
  replace (- (1 ^ 2 / (2 * (2 * 1) ^ 2) + (0 - 0) ^ 2 / (2 * (2 * 1) ^ 2) + 0 ^ 2 / (2 * (2 * 1) ^ 2))) with (- (1 / 8)) in E1 by field. replace (- (1 ^ 2 + 0 ^ 2 + 0 ^ 2) / 18) with (- (1 / 18)) in E1 by field.
  assert (EK : K = 1 / N) by (rewrite <- (Rmult_1_r K), <- E0; ring). rewrite EK in E1. assert (X : exp (- (1 / 8)) = exp (- (1 / 18))). { apply Rmult_eq_reg_r with (1 / N); [|apply Rgt_not_eq; apply Rdiv_lt_0_compat; lra]. transitivity (exp (- (1 / 8)) / N * 1); [unfold Rdiv; ring|]. rewrite E1. ring. }
  apply exp_inv in X. lra.
Qed.
(** sampleV returns n velocities, each an accepted proposal. *)
Theorem C57_sampleV : forall q lnf maxVT n draws fuel out, sampleV q lnf maxVT n draws fuel = Some out ->
  length out = n /\ List.Forall (fun v => exists pass i, v = proposal q maxVT (fst (draws pass i)) /\ accepted q lnf maxVT v (snd (draws pass i)) = true) out.
Proof. intros q lnf mv n draws fuel out H. apply (sample_loop_ok q lnf mv n draws fuel 0 [] out); [constructor|exact H]. Qed.
(** The sampler for many positions gives every position a velocity that was proposed and accepted with its own density and maxVT, and the positions outside the
    interpolation box get theirs in their own rows. *)
Theorem C57_sample_many : forall q pos draws fuel junk out, length junk = length pos -> sample_pre q pos draws fuel junk = Some out ->
  Forall2 (fun p v => exists pass i, v = proposal q (snd p) (fst (draws pass i)) /\ accepted q (fst p) (snd p) v (snd (draws pass i)) = true) pos out.
Proof. intros. apply (sample_pre_ok q pos draws fuel junk); assumption. Qed.
Example C57_example_sample : sampleV (q0 aA0 false) (fun _ => 0) 0 1 (fun _ _ => ((0, 0, 0), 1 / 2)) 1 = Some [(0 * 2 * 1, 0 * 2 * 1 + 0, 0 * 2 * 1)] /\
  sample_pre (q0 aA0 false) [(fun _ => 0, 0)] (fun _ _ => ((0, 0, 0), 1 / 2)) 1 [(1, 1, 1)] = Some [(0 * 2 * 1, 0 * 2 * 1 + 0, 0 * 2 * 1)].
Proof.
  assert (L : ln (1 / 2) < 0) by (rewrite <- ln_1; apply ln_increasing; lra). assert (A : accepted (q0 aA0 false) (fun _ => 0) 0 (proposal (q0 aA0 false) 0 (0, 0, 0)) (1 / 2) = true).
  { unfold accepted, VDatprop, proposal. cbn [q_sr q_sz q0]. match goal with |- (if Rlt_dec _ ?x then _ else _) = _ => replace x with 0 by field end. destruct (Rlt_dec (ln (1 / 2)) 0); [reflexivity|contradiction]. }
  split; [unfold sampleV; cbn -[accepted proposal q0]|unfold sample_pre; cbn -[accepted proposal q0]]; rewrite !A; reflexivity.
Qed.
Theorem C57_sample_rows : forall mask far near junk, length junk = length mask -> length far = length (filter (fun b => b) mask) -> length near = length (filter (fun b => b) (List.map negb mask)) ->
  take mask (interp_merge mask far near junk) = far /\ take (List.map negb mask) (interp_merge mask far near junk) = near.
Proof. exact merge_ok. Qed.

Print Assumptions C57_form.
Print Assumptions C57_log.
Print Assumptions C57_unbound.
Print Assumptions C57_angular_momentum.
Print Assumptions C57_array.
Print Assumptions C57_array_refuted.
Print Assumptions C57_array_unbound_refuted.
Print Assumptions C57_same_potential_refuted.
Print Assumptions C57_other_potential.
Print Assumptions C57_moment.
Print Assumptions C57_moment_error.
Print Assumptions C57_dispersions.
Print Assumptions C57_tilt.
Print Assumptions C57_even.
Print Assumptions C57_nsigma_refuted.
Print Assumptions C57_adiabatic.
Print Assumptions C57_adiabatic_density_refuted.
Print Assumptions C57_marginals.
Print Assumptions C57_marginal_density.
Print Assumptions C57_marginal_unbound_refuted.
Print Assumptions C57_monte_carlo.
Print Assumptions C57_sigmaT2_mc.
Print Assumptions C57_monte_carlo_term.
Print Assumptions C57_monte_carlo_density_refuted.
Print Assumptions C57_direct_density_refuted.
Print Assumptions C57_direct_sigmaT2_refuted.
Print Assumptions C57_scale_lengths.
Print Assumptions C57_surfacemass.
Print Assumptions C57_surfacemass_refuted.
Print Assumptions C57_units.
Print Assumptions C57_sample.
Print Assumptions C57_sample_refuted.
Print Assumptions C57_sampleV.
Print Assumptions C57_sample_many.
Print Assumptions C57_sample_rows.
Print Assumptions C57_even_z.
Print Assumptions C57_means.
Print Assumptions C57_table_number.
