(** The closed form, the logarithm and the angular-momentum distribution of the quasi-isothermal distribution function. *)
From Coq Require Import Reals List Lra Lia.
From Coquelicot Require Import Coquelicot.
From Verif.Lib Require Import RealAux.
From Verif.Model Require Import QuasiDF.
From Verif.Spec Require Import QuasiDFSpec.
From Verif.Proofs Require Import JeansProofs DiskDFSample.
Import ListNotations.
Open Scope R_scope.
Notation RR := RbaseSymbolsImpl.R (only parsing).
Ltac rr := match goal with |- ?a = ?b => change (@eq RR a b) end.

Lemma cosh_pos x : 0 < cosh x. Proof. unfold cosh. pose proof (exp_pos x). pose proof (exp_pos (- x)). lra. Qed.
Lemma tanh1_pos x : 0 < 1 + tanh x.
Proof.
  unfold tanh. pose proof (cosh_pos x) as C. replace (1 + sinh x / cosh x) with ((cosh x + sinh x) / cosh x) by (field; lra).
  apply Rdiv_lt_0_compat; [|exact C]. unfold cosh, sinh. pose proof (exp_pos x). lra.
Qed.
Lemma prof_exp s h r R : 0 < s -> exp (ln s + (r - R) / h) = exp_profile s h r R.
Proof. intros H. rewrite exp_plus, exp_ln by exact H. unfold exp_profile. do 2 f_equal. unfold Rdiv. ring. Qed.
Lemma prof_pos s h r R : 0 < s -> 0 < exp_profile s h r R. Proof. intros H. apply Rmult_lt_0_compat; [exact H|apply exp_pos]. Qed.
Lemma exp_m2 x s : exp x = s -> exp (- 2 * x) = / s ^ 2.
Proof. intros H. replace (- 2 * x) with (- (x + x)) by ring. rewrite exp_Ropp, exp_plus, H. f_equal. ring. Qed.
Lemma surf_exp q rg : exp (lnsurf_at q rg) = exp_profile 1 (q_hr q) (q_refr q) rg.
Proof. unfold lnsurf_at, exp_profile. rewrite Rmult_1_l. f_equal. unfold Rdiv. ring. Qed.

Definition q_ok (q : QDF) : Prop := 0 < q_sr q /\ 0 < q_sz q.
Definition sRg q rg := exp_profile (q_sr q) (q_hsr q) (q_refr q) rg.
Definition szg q rg := exp_profile (q_sz q) (q_hsz q) (q_refr q) rg.
Definition Sg q rg := exp_profile 1 (q_hr q) (q_refr q) rg.
Lemma core_form q rg k n Om jr lz jz : q_ok q -> 0 < k -> 0 < n ->
  Om * exp (lnsurf_at q rg) * exp (- 2 * lnsr_at q rg) / PI / k * (1 + tanh (lz / q_lo q)) * exp (- k * jr * exp (- 2 * lnsr_at q rg))
    * (n / 2 / PI * exp (- 2 * lnsz_at q rg) * exp (- n * jz * exp (- 2 * lnsz_at q rg))) = qi_form (Sg q rg) (sRg q rg) (szg q rg) Om k n (q_lo q) jr lz jz.
Proof.
  intros [Hr Hz] Hk Hn. rewrite surf_exp. unfold lnsr_at, lnsz_at. rewrite (exp_m2 _ _ (prof_exp _ (q_hsr q) (q_refr q) rg Hr)), (exp_m2 _ _ (prof_exp _ (q_hsz q) (q_refr q) rg Hz)).
  fold (sRg q rg) (szg q rg) (Sg q rg). pose proof (prof_pos _ (q_hsr q) (q_refr q) rg Hr) as P1. pose proof (prof_pos _ (q_hsz q) (q_refr q) rg Hz) as P2. fold (sRg q rg) in P1. fold (szg q rg) in P2.
  unfold qi_form. pose proof PI_RGT_0. replace (- k * jr * / sRg q rg ^ 2) with (- (k * jr / sRg q rg ^ 2)) by (field; lra). replace (- n * jz * / szg q rg ^ 2) with (- (n * jz / szg q rg ^ 2)) by (field; lra).
  field. repeat split; lra.
Qed.
Definition cut_here q lz := andb (q_cut q) (if Rlt_dec lz 0 then true else false).
Lemma plain_form arr q freqs func jr lz jz rg k n Om : q_ok q -> match freqs with Some f => f | None => circ_of arr q lz end = (rg, Some k, Some n, Om) -> 0 < k -> 0 < n ->
  call_plain arr q freqs func (jr, lz, jz) = if cut_here q lz then 0 else qi_form (Sg q rg) (sRg q rg) (szg q rg) Om k n (q_lo q) jr lz jz * match func with Some f => f jr lz jz | None => 1 end.
Proof.
  intros Hq E Hk Hn. unfold call_plain. fold (cut_here q lz). rewrite E. cbv zeta iota. rewrite core_form by assumption. destruct arr, (cut_here q lz); reflexivity.
Qed.
Lemma plain_nan arr q freqs func jr lz jz rg k n Om : match freqs with Some f => f | None => circ_of arr q lz end = (rg, k, n, Om) -> k = None \/ n = None -> call_plain arr q freqs func (jr, lz, jz) = 0.
Proof. intros E H. unfold call_plain. fold (cut_here q lz). rewrite E. destruct H as [-> | ->]; [|destruct k]; destruct arr, (cut_here q lz); reflexivity. Qed.

Lemma lexp_add a b : lexp (ladd a b) = lexp a * lexp b.
Proof. destruct a, b; cbn; try ring. apply exp_plus. Qed.
Lemma lexp_sent a : lexp (nan_to_sent a) = lexp a. Proof. destruct a; reflexivity. Qed.
Lemma lexp_lln x : 0 <= x -> lexp (lln x) = x.
Proof. intros H. unfold lln. destruct (Rlt_dec x 0); [lra|]. destruct (Req_EM_T x 0) as [->|]; [reflexivity|]. cbn. apply exp_ln. lra. Qed.
Lemma log_form arr q freqs func jr lz jz : q_ok q ->
  (let '(rg, k, n, Om) := match freqs with Some f => f | None => circ_of arr q lz end in 0 <= Om /\ (forall k', k = Some k' -> 0 < k') /\ (forall n', n = Some n' -> 0 < n')) ->
  match func with Some f => 0 <= f jr lz jz | None => True end ->
  lexp (call_log arr q freqs func (jr, lz, jz)) = call_plain arr q freqs func (jr, lz, jz).
Proof.
  intros Hq E Hf. destruct (match freqs with Some f => f | None => circ_of arr q lz end) as [[[rg k] n] Om] eqn:EE. destruct E as (HO & Hk & Hn).
  unfold call_log, call_plain. fold (cut_here q lz). rewrite EE. assert (F : lexp (match func with Some f => lln (f jr lz jz) | None => LFin 0 end) = match func with Some f => f jr lz jz | None => 1 end).
  { destruct func as [f|]; [apply lexp_lln; exact Hf|cbn; apply exp_0]. }
  assert (C : forall P, (if andb arr (cut_here q lz) then LSent else nan_to_sent P) = (if andb arr (cut_here q lz) then LSent else nan_to_sent P)) by reflexivity. clear C.
  destruct (andb (negb arr) (cut_here q lz)); [reflexivity|]. cbv zeta.
  destruct (andb arr (cut_here q lz)); [reflexivity|]. rewrite lexp_sent. destruct k as [k|]; [|reflexivity]. destruct n as [n|]; [|reflexivity].
  specialize (Hk k eq_refl). specialize (Hn n eq_refl). rewrite !lexp_add, F, lexp_lln by exact HO. apply f_equal2; [|reflexivity]. pose proof PI_RGT_0. pose proof (tanh1_pos (lz / q_lo q)) as T. cbn [lexp].
  unfold Rminus. rewrite !exp_plus, !exp_Ropp, !exp_ln by (try assumption; lra).
  replace (- k * jr * exp (- 2 * lnsr_at q rg)) with (- (k * jr * exp (- 2 * lnsr_at q rg))) by ring. replace (- n * jz * exp (- 2 * lnsz_at q rg)) with (- (n * jz * exp (- 2 * lnsz_at q rg))) by ring.
  rewrite !exp_Ropp. replace (/ exp (2 * lnsr_at q rg)) with (exp (- 2 * lnsr_at q rg)) by (rewrite <- exp_Ropp; f_equal; ring). replace (/ exp (2 * lnsz_at q rg)) with (exp (- 2 * lnsz_at q rg)) by (rewrite <- exp_Ropp; f_equal; ring).
  pose proof (exp_pos (k * jr * exp (- 2 * lnsr_at q rg))). pose proof (exp_pos (n * jz * exp (- 2 * lnsz_at q rg))). field. repeat split; lra.
Qed.

(** ** Angular momentum distribution *)
Lemma exp_half_line a c : 0 < a -> half_line (fun x => c * exp (- (a * x))) (c / a).
Proof.
  intros Ha. unfold half_line. assert (P : 0 < / a) by (apply Rinv_0_lt_compat; exact Ha). pose proof (exp_tail_high c (/ a) 0 0 P) as T.
  replace (c * / a * exp ((0 - 0) / / a)) with (c / a) in T by (replace ((0 - 0) / / a) with 0 by (unfold Rdiv; ring); rewrite exp_0; unfold Rdiv; ring).
  apply (gen_same (fun e => c * exp ((0 - e) / / a))); try typeclasses eauto; [|exact T]. intros x. apply (f_equal (fun e => c * exp e)). field. lra.
Qed.
(** Stars per unit of angular momentum: (2 pi)^3 times the integral over the other two actions. *)
Lemma per_lz Sg sR sz Om k n L0 lz Rg d : 0 < sR -> 0 < sz -> 0 < Om -> 0 < k -> 0 < n -> 0 < Rg -> d <> 0 -> k ^ 2 = 2 * Om / Rg * d ->
  exists I : RR -> RR, (forall jr, half_line (fun jz => qi_form Sg sR sz Om k n L0 jr lz jz) (I jr)) /\
    half_line I (2 * PI * Rg * Sg * (1 + tanh (lz / L0)) / d / (2 * PI) ^ 3).
Proof.
  intros HsR Hsz HO Hk Hn HR Hd E. pose proof PI_RGT_0. assert (sR2 : 0 < sR ^ 2) by (apply pow_lt; exact HsR). assert (sz2 : 0 < sz ^ 2) by (apply pow_lt; exact Hsz).
  set (A := Om * Sg / (PI * sR ^ 2 * k) * (1 + tanh (lz / L0))).
  exists (fun jr => A * exp (- (k / sR ^ 2 * jr)) * (n / (2 * PI * sz ^ 2)) / (n / sz ^ 2)). split.
  - intros jr. assert (P : 0 < n / sz ^ 2) by (apply Rdiv_lt_0_compat; assumption). pose proof (exp_half_line _ (A * exp (- (k / sR ^ 2 * jr)) * (n / (2 * PI * sz ^ 2))) P) as T.
    unfold half_line in *. refine (gen_same _ _ _ _ _ _ _ _ T); try typeclasses eauto. intros jz. unfold qi_form. fold A.
    replace (k * jr / sR ^ 2) with (k / sR ^ 2 * jr) by (field; lra). replace (n * jz / sz ^ 2) with (n / sz ^ 2 * jz) by (field; lra). rr. ring.
  - assert (P : 0 < k / sR ^ 2) by (apply Rdiv_lt_0_compat; assumption). pose proof (exp_half_line _ (A * (n / (2 * PI * sz ^ 2)) / (n / sz ^ 2)) P) as T.
    replace (2 * PI * Rg * Sg * (1 + tanh (lz / L0)) / d / (2 * PI) ^ 3) with (A * (n / (2 * PI * sz ^ 2)) / (n / sz ^ 2) / (k / sR ^ 2)).
    { unfold half_line in *. refine (gen_same _ _ _ _ _ _ _ _ T); try typeclasses eauto. intros jr. rr. field. repeat split; lra. }
    unfold A. transitivity (Om * Sg * (1 + tanh (lz / L0)) / (2 * PI ^ 2 * k ^ 2)); [field; repeat split; lra|]. rewrite E. field. repeat split; lra.
Qed.
