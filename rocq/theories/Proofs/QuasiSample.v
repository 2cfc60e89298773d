(** Monte-Carlo weights and velocity samplers of the quasi-isothermal distribution function, and the constant example. *)
From Coq Require Import Reals List Lra Lia Permutation.
From Coquelicot Require Import Coquelicot.
From Verif.Lib Require Import RealAux.
From Verif.Model Require Import QuasiDF.
From Verif.Spec Require Import QuasiDFSpec.
From Verif.Proofs Require Import QuasiForm QuasiGauss QuasiMore.
Import ListNotations.
Open Scope R_scope.
Notation RR := RbaseSymbolsImpl.R (only parsing).
Ltac rr := match goal with |- ?a = ?b => change (@eq RR a b) end.

(** ** Monte-Carlo *)
Lemma gam_pos : 0 < gam. Proof. apply sqrt_lt_R0. lra. Qed.
Lemma s2pi_pos : 0 < sqrt (2 * PI). Proof. apply sqrt_lt_R0. pose proof PI_RGT_0. lra. Qed.
Definition phys q R (s : RR * RR * RR) : RR * RR * RR := let '(vr, vt, vz) := s in (vr * sigR1 q R, vt * sigR1 q R * gam, vz * sigz1 q R).
Definition moment_of (n m o : nat) (v : RR * RR * RR) : RR := let '(vR, vT, vz) := v in vR ^ n * vT ^ m * vz ^ o.
Definition f_at q R z (v : RR * RR * RR) : RR := let '(vR, vT, vz) := v in call_arr_at q None R vR vT z vz.
Lemma normal_unit c s : exp (let '(vr, vt, vz) := s in vr ^ 2 / 2 + (vt - c) ^ 2 / 2 + vz ^ 2 / 2) * normal3 c 1 1 s = / sqrt (2 * PI) ^ 3.
Proof.
  destruct s as [[vr vt] vz]. unfold normal3. replace (vr ^ 2 / (2 * 1 ^ 2) + (vt - c) ^ 2 / (2 * 1 ^ 2) + vz ^ 2 / (2 * 1 ^ 2)) with (vr ^ 2 / 2 + (vt - c) ^ 2 / 2 + vz ^ 2 / 2) by field. rewrite exp_Ropp.
  pose proof s2pi_pos. pose proof (exp_pos (vr ^ 2 / 2 + (vt - c) ^ 2 / 2 + vz ^ 2 / 2)). field. split; lra.
Qed.
Definition mc_scale q R n m o : RR := sigR1 q R ^ (2 + n + m) * gam ^ (1 + m) * sigz1 q R ^ (1 + o).
Definition jac q R : RR := sigR1 q R * (sigR1 q R * gam) * sigz1 q R.
Lemma mc_scale_eq q R n m o vr vt vz : vr ^ n * vt ^ m * vz ^ o * mc_scale q R n m o = moment_of n m o (phys q R (vr, vt, vz)) * jac q R.
Proof. unfold mc_scale, moment_of, phys, jac. rewrite !Rpow_mult_distr. rewrite !pow_add. cbn [pow]. ring. Qed.
Lemma mc_weight q R z n m o s : sqrt (2 * PI) ^ 3 * (mc_term q R z n m o s * mc_scale q R n m o * normal3 (mvT q R) 1 1 s) = moment_of n m o (phys q R s) * f_at q R z (phys q R s) * jac q R.
Proof.
  pose proof (normal_unit (mvT q R) s) as N. destruct s as [[vr vt] vz]. unfold mc_term. set (e := exp _) in *.
  transitivity (sqrt (2 * PI) ^ 3 * ((vr ^ n * vt ^ m * vz ^ o * mc_scale q R n m o) * f_at q R z (phys q R (vr, vt, vz)) * (e * normal3 (mvT q R) 1 1 (vr, vt, vz)))); [cbn [phys f_at]; ring|].
  rewrite N, mc_scale_eq. pose proof s2pi_pos. field. lra.
Qed.
Lemma mean_sum {A} (f : A -> RR) l : mean (List.map f l) = sum (List.map f l) / INR (length l). Proof. unfold mean. rewrite map_length. reflexivity. Qed.
Definition omega q R z s : RR := f_at q R z (phys q R s) / normal3 (mvT q R) 1 1 s.
Lemma normal_pos c a b s : 0 < a -> 0 < b -> 0 < normal3 c a b s.
Proof. intros Ha Hb. destruct s as [[x y] w]. unfold normal3. apply Rdiv_lt_0_compat; [apply exp_pos|]. pose proof s2pi_pos. repeat apply Rmult_lt_0_compat; try lra; apply pow_lt; lra. Qed.
Lemma mc_moment q R z n m o smp : sqrt (2 * PI) ^ 3 * vmoment_mc q R z n m o smp = sum (List.map (fun s => omega q R z s * moment_of n m o (phys q R s)) smp) * (jac q R / INR (length smp)).
Proof.
  unfold vmoment_mc. rewrite mean_sum. replace (sum (List.map (mc_term q R z n m o) smp) / INR (length smp) * sigR1 q R ^ (2 + n + m) * gam ^ (1 + m) * sigz1 q R ^ (1 + o)) with (sum (List.map (mc_term q R z n m o) smp) * (mc_scale q R n m o / INR (length smp))) by (unfold mc_scale, Rdiv; ring).
  transitivity (sum (List.map (fun s => sqrt (2 * PI) ^ 3 * (mc_term q R z n m o s * mc_scale q R n m o)) smp) / INR (length smp)).
  - rewrite sum_scal, sum_scal_r. unfold Rdiv. ring.
  - replace (sum (List.map (fun s => omega q R z s * moment_of n m o (phys q R s)) smp) * (jac q R / INR (length smp))) with (sum (List.map (fun s => omega q R z s * moment_of n m o (phys q R s)) smp) * jac q R / INR (length smp)) by (unfold Rdiv; ring).
    rewrite <- sum_scal_r. f_equal. apply sum_ext. intros s _. pose proof (normal_pos (mvT q R) 1 1 s Rlt_0_1 Rlt_0_1) as P. apply Rmult_eq_reg_r with (normal3 (mvT q R) 1 1 s); [|lra].
    transitivity (sqrt (2 * PI) ^ 3 * (mc_term q R z n m o s * mc_scale q R n m o * normal3 (mvT q R) 1 1 s)); [ring|]. rewrite mc_weight. unfold omega. field. lra.
Qed.
Lemma jac_pos q R : q_ok q -> 0 < jac q R.
Proof.
  intros [H1 H2]. unfold jac. pose proof gam_pos. assert (0 < sigR1 q R) by (apply Rmult_lt_0_compat; [exact H1|apply exp_pos]). assert (0 < sigz1 q R) by (apply Rmult_lt_0_compat; [exact H2|apply exp_pos]).
  apply Rmult_lt_0_compat; [apply Rmult_lt_0_compat; [|apply Rmult_lt_0_compat]|]; assumption.
Qed.
Lemma ratio_of_mc (A B a b c k : RR) : k <> 0 -> c <> 0 -> b <> 0 -> k * A = a * c -> k * B = b * c -> A / B = a / b.
Proof.
  intros Hk Hc Hb EA EB. replace A with (a * c / k) by (rewrite <- EA; field; exact Hk). replace B with (b * c / k) by (rewrite <- EB; field; exact Hk). field. auto.
Qed.
Lemma mc_ratio q R z n m o smp : q_ok q -> smp <> [] -> sum (List.map (omega q R z) smp) <> 0 ->
  ratio_mc q R z n m o smp = sum (List.map (fun s => omega q R z s * moment_of n m o (phys q R s)) smp) / sum (List.map (omega q R z) smp).
Proof.
  intros Hq Hn Hs. unfold ratio_mc. pose proof s2pi_pos as P. assert (P3 : sqrt (2 * PI) ^ 3 <> 0) by (apply pow_nonzero; lra). assert (N : INR (length smp) <> 0) by (apply not_0_INR; destruct smp; [contradiction|discriminate]).
  pose proof (jac_pos q R Hq). assert (C : jac q R / INR (length smp) <> 0) by (unfold Rdiv; apply Rmult_integral_contrapositive; split; [lra|apply Rinv_neq_0_compat; exact N]).
  apply (ratio_of_mc _ _ _ _ _ _ P3 C Hs (mc_moment q R z n m o smp)). rewrite mc_moment. f_equal. apply sum_ext. intros s _. destruct s as [[x y] w]. cbn. ring.
Qed.
(** The actions of a draw; 0 when it is unbound. *)
Definition J_at q R z (n m o : nat) (v : RR * RR * RR) : RR := let '(vR, vT, vz) := v in match q_aA q R vR vT z vz with Some (jr, lz, jz) => jr ^ n * lz ^ m * jz ^ o | None => 0 end.
Lemma plain_func arr q f J : call_plain arr q None (Some f) J = call_plain arr q None None J * (let '(a, b, c) := J in f a b c).
Proof.
  destruct J as [[a b] c]. unfold call_plain. fold (cut_here q b). destruct (andb (negb arr) (cut_here q b)); [ring|]. destruct (circ_of arr q b) as [[[rg k] n] Om]. cbv zeta. destruct (andb arr (cut_here q b)); [ring|]. destruct k; [|ring]. destruct n; ring.
Qed.
Lemma jmc_eq q R z n m o s : jmc_term q R z n m o s = mc_term q R z 0 0 0 s * J_at q R z n m o (phys q R s).
Proof.
  destruct s as [[x y] w]. unfold jmc_term, mc_term, J_at, phys, call_arr_at. destruct (q_aA q R (x * sigR1 q R) (y * sigR1 q R * gam) z (w * sigz1 q R)) as [[[a b] c]|]; [rewrite plain_func|]; cbn [pow]; ring.
Qed.
Lemma jmc_moment q R z n m o smp : sqrt (2 * PI) ^ 3 * jmoment_mc q R z n m o smp = sum (List.map (fun s => omega q R z s * J_at q R z n m o (phys q R s)) smp) * (jac q R / INR (length smp)).
Proof.
  unfold jmoment_mc. rewrite mean_sum.
  transitivity (sum (List.map (fun s => sqrt (2 * PI) ^ 3 * (mc_term q R z 0 0 0 s * mc_scale q R 0 0 0) * J_at q R z n m o (phys q R s)) smp) / INR (length smp)).
  - rewrite (sum_ext (jmc_term q R z n m o) (fun s => mc_term q R z 0 0 0 s * J_at q R z n m o (phys q R s))) by (intros; apply jmc_eq).
    rewrite (sum_ext (fun s => sqrt (2 * PI) ^ 3 * (mc_term q R z 0 0 0 s * mc_scale q R 0 0 0) * J_at q R z n m o (phys q R s)) (fun s => (sqrt (2 * PI) ^ 3 * mc_scale q R 0 0 0) * (mc_term q R z 0 0 0 s * J_at q R z n m o (phys q R s)))) by (intros; ring).
    rewrite sum_scal. unfold mc_scale. cbn [pow plus Nat.add]. unfold Rdiv. ring.
  - replace (sum (List.map (fun s => omega q R z s * J_at q R z n m o (phys q R s)) smp) * (jac q R / INR (length smp))) with (sum (List.map (fun s => omega q R z s * J_at q R z n m o (phys q R s)) smp) * jac q R / INR (length smp)) by (unfold Rdiv; ring).
    rewrite <- sum_scal_r. f_equal. apply sum_ext. intros s _. pose proof (normal_pos (mvT q R) 1 1 s Rlt_0_1 Rlt_0_1) as P. apply Rmult_eq_reg_r with (normal3 (mvT q R) 1 1 s); [|lra].
    transitivity (sqrt (2 * PI) ^ 3 * (mc_term q R z 0 0 0 s * mc_scale q R 0 0 0 * normal3 (mvT q R) 1 1 s) * J_at q R z n m o (phys q R s)); [ring|]. rewrite mc_weight. unfold omega. assert (M : moment_of 0 0 0 (phys q R s) = 1) by (destruct s as [[x y] w]; cbn; ring). rewrite M. field. lra.
Qed.
Lemma jmc_ratio q R z n m o smp : q_ok q -> smp <> [] -> sum (List.map (omega q R z) smp) <> 0 ->
  jratio_mc q R z n m o smp = sum (List.map (fun s => omega q R z s * J_at q R z n m o (phys q R s)) smp) / sum (List.map (omega q R z) smp).
Proof.
  intros Hq Hn Hs. unfold jratio_mc. pose proof s2pi_pos as P. assert (P3 : sqrt (2 * PI) ^ 3 <> 0) by (apply pow_nonzero; lra). assert (N : INR (length smp) <> 0) by (apply not_0_INR; destruct smp; [contradiction|discriminate]).
  pose proof (jac_pos q R Hq). assert (C : jac q R / INR (length smp) <> 0) by (unfold Rdiv; apply Rmult_integral_contrapositive; split; [lra|apply Rinv_neq_0_compat; exact N]).
  apply (ratio_of_mc _ _ _ _ _ _ P3 C Hs (jmc_moment q R z n m o smp)). rewrite mc_moment. f_equal. apply sum_ext. intros s _. destruct s as [[x y] w]. cbn. ring.
Qed.

(** ** Samplers *)
Lemma accept_prob q lnf mv v : uniform_probability (fun u => accepted q lnf mv v u = true) (Rmin 1 (exp (VDatprop q lnf mv v))).
Proof.
  set (V := VDatprop q lnf mv v). pose proof (exp_pos V). split; [split; [apply Rmin_glb; lra|apply Rmin_l]|]. intros u Hu. unfold accepted. fold V.
  assert (E : ln u < V <-> u < exp V). { split; intros H1; [rewrite <- (exp_ln u) by lra; apply exp_increasing; exact H1|]. rewrite <- (ln_exp V). apply ln_increasing; lra. }
  destruct (Rlt_dec (ln u) V) as [h|h]; split; intros H1; try reflexivity; try discriminate.
  - apply Rmin_glb_lt; [lra|apply E; exact h].
  - exfalso. apply h. apply E. eapply Rlt_le_trans; [exact H1|apply Rmin_r].
Qed.
Lemma proposal_density q mv s : q_ok q -> normal3 mv (2 * q_sr q) (2 * q_sz q) (proposal q mv s) * (2 * q_sr q * (2 * q_sr q) * (2 * q_sz q)) = normal3 0 1 1 s.
Proof.
  intros [H1 H2]. destruct s as [[a b] c]. unfold normal3, proposal.
  replace ((a * 2 * q_sr q) ^ 2 / (2 * (2 * q_sr q) ^ 2) + (b * 2 * q_sr q + mv - mv) ^ 2 / (2 * (2 * q_sr q) ^ 2) + (c * 2 * q_sz q) ^ 2 / (2 * (2 * q_sz q) ^ 2)) with (a ^ 2 / (2 * 1 ^ 2) + (b - 0) ^ 2 / (2 * 1 ^ 2) + c ^ 2 / (2 * 1 ^ 2)) by (field; lra).
  pose proof s2pi_pos. field. repeat split; lra.
Qed.
Lemma accepted_density q lnf mv : q_ok q -> (forall v, VDatprop q lnf mv v <= 0) ->
  exists K, 0 < K /\ forall v, normal3 mv (2 * q_sr q) (2 * q_sz q) v * Rmin 1 (exp (VDatprop q lnf mv v)) = K * exp (lnf v).
Proof.
  intros [H1 H2] H. pose proof s2pi_pos as P. exists (/ (sqrt (2 * PI) ^ 3 * (2 * q_sr q) ^ 2 * (2 * q_sz q) * exp (lnf (0, mv, 0)))). split.
  - apply Rinv_0_lt_compat. repeat apply Rmult_lt_0_compat; try lra; try apply exp_pos; apply pow_lt; lra.
  - intros v. rewrite Rmin_right by (rewrite <- exp_0; destruct (H v) as [h|h]; [left; apply exp_increasing; exact h|right; rewrite h; reflexivity]).
    destruct v as [[x y] w]. unfold normal3, VDatprop. pose proof (exp_pos (lnf (0, mv, 0))).
    replace (x ^ 2 / (2 * (2 * q_sr q) ^ 2) + (y - mv) ^ 2 / (2 * (2 * q_sr q) ^ 2) + w ^ 2 / (2 * (2 * q_sz q) ^ 2)) with (1 / 2 * (x ^ 2 / 4 / q_sr q ^ 2 + w ^ 2 / 4 / q_sz q ^ 2 + (y - mv) ^ 2 / 4 / q_sr q ^ 2)) by (field; lra).
    set (e := x ^ 2 / 4 / q_sr q ^ 2 + w ^ 2 / 4 / q_sz q ^ 2 + (y - mv) ^ 2 / 4 / q_sr q ^ 2). replace (lnf (x, y, w) - lnf (0, mv, 0) - - (1 / 2) * e) with (lnf (x, y, w) + - lnf (0, mv, 0) + 1 / 2 * e) by ring.
    rewrite !exp_plus, !exp_Ropp. pose proof (exp_pos (1 / 2 * e)). field. repeat split; lra.
Qed.

Definition drawn q lnf mv (draws : nat -> nat -> (RR * RR * RR) * RR) (v : RR * RR * RR) : Prop :=
  exists pass i, v = proposal q mv (fst (draws pass i)) /\ accepted q lnf mv v (snd (draws pass i)) = true.
Lemma sample_loop_ok q lnf mv n draws fuel pass got out : List.Forall (drawn q lnf mv draws) got -> sample_loop q lnf mv n draws fuel pass got = Some out ->
  length out = n /\ List.Forall (drawn q lnf mv draws) out.
Proof.
  revert pass got. induction fuel as [|fuel IH]; intros pass got Hg; cbn [sample_loop]; destruct (Nat.ltb (length got) n) eqn:L.
  - discriminate.
  - intros [= <-]. apply Nat.ltb_ge in L. split; [apply firstn_length_le; exact L|]. apply Forall_forall. intros v Hv. apply (proj1 (Forall_forall _ _) Hg). rewrite <- (firstn_skipn n got). apply in_or_app. left. exact Hv.
  - intros H. apply IH in H; [exact H|]. apply Forall_app. split; [exact Hg|]. apply Forall_forall. intros v Hv. apply in_map_iff in Hv. destruct Hv as ([w u] & <- & Hv). apply filter_In in Hv. destruct Hv as [Hv Ha]. apply in_map_iff in Hv. destruct Hv as (i & E & _).
    destruct (draws pass i) as [s u'] eqn:Ed. injection E as <- <-. exists pass, i. rewrite Ed. split; [reflexivity|exact Ha].
  - intros [= <-]. apply Nat.ltb_ge in L. split; [apply firstn_length_le; exact L|]. apply Forall_forall. intros v Hv. apply (proj1 (Forall_forall _ _) Hg). rewrite <- (firstn_skipn n got). apply in_or_app. left. exact Hv.
Qed.

(** ** Masked sampling *)
Definition good q draws (p : (RR * RR * RR -> RR) * RR) (v : RR * RR * RR) : Prop := drawn q (fst p) (snd p) draws v.
Inductive inv q draws : list ((RR * RR * RR -> RR) * RR) -> list (RR * RR * RR) -> list bool -> Prop :=
| inv_nil : inv q draws [] [] []
| inv_cons p v b ps vs bs : (b = false -> good q draws p v) -> inv q draws ps vs bs -> inv q draws (p :: ps) (v :: vs) (b :: bs).
Definition step_props q (draws : nat -> nat -> (RR * RR * RR) * RR) pass k (here : list ((RR * RR * RR -> RR) * RR)) :=
  List.map (fun ip : nat * ((RR * RR * RR -> RR) * RR) => let '(i, (lnf, mvt)) := ip in let '(s, u) := draws pass i in (proposal q mvt s, accepted q lnf mvt (proposal q mvt s) u)) (combine (seq k (length here)) here).
Lemma step_inv q draws pass pos out remain : inv q draws pos out remain -> forall k,
  let props := step_props q draws pass k (take remain pos) in let accept := List.map snd props in
  inv q draws pos (put (put remain accept remain) (take accept (List.map fst props)) out) (put remain (List.map negb accept) remain).
Proof.
  induction 1 as [|p v b ps vs bs Hb H IH]; intros k; cbn zeta; [constructor|]. destruct b; cbn [take put].
  - unfold step_props. cbn [length seq combine List.map]. destruct p as [lnf mvt]. destruct (draws pass k) as [s u] eqn:E. specialize (IH (S k)). cbn zeta in IH. unfold step_props in IH. cbn [List.map snd fst]. destruct (accepted q lnf mvt (proposal q mvt s) u) eqn:Ea; cbn [negb put take].
    + constructor; [|exact IH]. intros _. exists pass, k. rewrite E. cbn. auto.
    + constructor; [discriminate|exact IH].
  - specialize (IH k). cbn zeta in IH. constructor; [intros _; apply Hb; reflexivity|exact IH].
Qed.
Lemma pre_loop_ok q pos draws fuel : forall pass out remain res, inv q draws pos out remain -> pre_loop q pos draws fuel pass out remain = Some res -> Forall2 (good q draws) pos res.
Proof.
  assert (D : forall out remain, inv q draws pos out remain -> existsb (fun b => b) remain = false -> Forall2 (good q draws) pos out).
  { intros out remain H. induction H as [|p v b ps vs bs Hb H IH]; intros E; [constructor|]. cbn in E. apply Bool.orb_false_iff in E. destruct E as [-> E]. constructor; auto. }
  induction fuel as [|fuel IH]; intros pass out remain res H; cbn [pre_loop]; destruct (existsb (fun b => b) remain) eqn:L.
  - discriminate.
  - intros [= <-]. apply (D out remain); assumption.
  - intros E. apply IH in E; [exact E|]. apply (step_inv q draws pass pos out remain H 0).
  - intros [= <-]. apply (D out remain); assumption.
Qed.
Lemma sample_pre_ok q pos draws fuel junk res : length junk = length pos -> sample_pre q pos draws fuel junk = Some res -> Forall2 (good q draws) pos res.
Proof.
  intros HL. apply pre_loop_ok. revert junk HL. induction pos as [|p pos IH]; intros [|v junk] HL; try discriminate; constructor; [discriminate|]. apply IH. injection HL as HL. exact HL.
Qed.
Lemma take_put {A} mask : forall (v x : list A), length mask = length x -> length v = length (filter (fun b => b) mask) -> take mask (put mask v x) = v.
Proof.
  induction mask as [|b mask IH]; intros v [|a x] H1 H2; try discriminate; cbn in *; [destruct v; [reflexivity|discriminate]|]. destruct b; cbn in *.
  - destruct v as [|w v]; [discriminate|]. injection H1 as H1. injection H2 as H2. cbn. f_equal. apply IH; assumption.
  - injection H1 as H1. apply IH; assumption.
Qed.
Lemma take_put_other {A} mask : forall (v x : list A), take (List.map negb mask) (put mask v x) = take (List.map negb mask) x.
Proof.
  induction mask as [|b mask IH]; intros v [|a x]; try reflexivity. cbn. destruct b; cbn; [destruct v; cbn; apply IH|f_equal; apply IH].
Qed.
Lemma put_length {A} mask : forall (v x : list A), length (put mask v x) = length x.
Proof. induction mask as [|b mask IH]; intros v [|a x]; try reflexivity. cbn. destruct b; [destruct v|]; cbn; rewrite IH; reflexivity. Qed.
Lemma negb_negb l : List.map negb (List.map negb l) = l. Proof. rewrite map_map. rewrite <- (map_id l) at 2. apply map_ext. intros. apply Bool.negb_involutive. Qed.
Lemma merge_ok mask far near junk : length junk = length mask -> length far = length (filter (fun b => b) mask) -> length near = length (filter (fun b => b) (List.map negb mask)) ->
  take mask (interp_merge mask far near junk) = far /\ take (List.map negb mask) (interp_merge mask far near junk) = near.
Proof.
  intros H1 H2 H3. unfold interp_merge. split.
  - pose proof (take_put_other (List.map negb mask) near (put mask far junk)) as T. rewrite negb_negb in T. rewrite T. apply take_put; [symmetry; exact H1|exact H2].
  - apply take_put; [rewrite map_length, put_length; symmetry; exact H1|exact H3].
Qed.

(** ** An instance whose distribution function is constant *)
Definition q0 (aA : RR -> RR -> RR -> RR -> RR -> option (RR * RR * RR)) (adia : bool) : QDF := {| q_hr := 1; q_sr := 1; q_sz := 1; q_hsr := 1; q_hsz := 1; q_refr := 1; q_lo := 1; q_cut := false;
  q_rl := Rabs; q_epi := fun _ => Some 1; q_vert := fun _ => Some 1; q_vc := fun _ => 1; q_grid := None; q_aA := aA; q_adia := adia |}.
Definition aA0 : RR -> RR -> RR -> RR -> RR -> option (RR * RR * RR) := fun _ _ _ _ _ => Some (0, 1, 0).
Definition K0 : RR := 1 / (2 * PI ^ 2) * (1 + tanh 1).
Lemma K0_pos : 0 < K0. Proof. unfold K0. apply Rmult_lt_0_compat; [|apply tanh1_pos]. pose proof PI_RGT_0. apply Rdiv_lt_0_compat; [lra|]. apply Rmult_lt_0_compat; [lra|apply pow_lt; exact H]. Qed.
Lemma q0_ok aA b : q_ok (q0 aA b). Proof. split; cbn; lra. Qed.
Lemma plain0 arr aA b : call_plain arr (q0 aA b) None None (0, 1, 0) = K0.
Proof.
  rewrite (plain_form arr (q0 aA b) None None 0 1 0 1 1 1 1 (q0_ok aA b)); [|unfold circ_of, rg_of, rg_array, rg_scalar; cbn; rewrite Rabs_R1; destruct arr; f_equal; field|lra|lra].
  cbn. unfold cut_here. cbn. unfold qi_form, Sg, sRg, szg, exp_profile, K0. cbn [q_hr q_hsr q_hsz q_refr q_sr q_sz q_lo q0]. replace (- (1 - 1) / 1) with 0 by field. rewrite exp_0.
  replace (- (1 * 0 / (1 * 1) ^ 2)) with 0 by field. rewrite exp_0. replace (1 / 1) with 1 by field. pose proof PI_RGT_0. field. lra.
Qed.
Lemma freq0 arr aA b lz jr jz : lexp (call_log arr (q0 aA b) None None (jr, lz, jz)) = call_plain arr (q0 aA b) None None (jr, lz, jz).
Proof.
  apply log_form; [apply q0_ok| |exact I]. cbn. split; [|split; intros ? [= <-]; lra]. assert (P : forall y, 0 <= Rabs lz / y / y).
  { intros y. destruct (Req_dec y 0) as [->|Hy]; [unfold Rdiv; rewrite Rinv_0; lra|]. replace (Rabs lz / y / y) with (Rabs lz / (y * y)) by (field; exact Hy). apply Rmult_le_pos; [apply Rabs_pos|]. left. apply Rinv_0_lt_compat. nra. }
  apply P.
Qed.
Lemma fa0 b R z vR vT vz : fa (q0 aA0 b) R z vR vT vz = K0.
Proof. unfold fa. cbn [q_aA q0 aA0]. rewrite freq0. apply plain0. Qed.
Lemma sig0 aA b : sigR1 (q0 aA b) 1 = 1 /\ sigz1 (q0 aA b) 1 = 1.
Proof. unfold sigR1, sigz1. cbn [q0 q_sr q_sz q_hsr q_hsz q_refr]. replace ((1 - 1) / 1) with 0 by field. rewrite exp_0. lra. Qed.
Lemma const_some b gl ngl ns vTm R z n m o : Nat.odd ngl = false -> exists I, vmoment_gl (q0 aA0 b) gl ngl ns vTm R z n m o = Some I.
Proof.
  intros H. unfold vmoment_gl. destruct (andb _ _); [eexists; reflexivity|]. rewrite H. cbv zeta. set (g := grid3 _ _ _). unfold exp_call_array.
  assert (E : exists js, all_some (List.map (aA_at (q0 aA0 b)) (List.map (point3 R z) g)) = Some js).
  { rewrite map_map. induction g as [|a g [js IH]]; [eexists; reflexivity|]. cbn [List.map all_some]. rewrite IH. destruct a as [[t r] v]. cbn. eexists. reflexivity. }
  destruct E as [js ->]. eexists. reflexivity.
Qed.
