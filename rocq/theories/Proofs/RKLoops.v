(** The loops of bovy_rk.c: directions of time, equal steps, the adaptive steps of dopr54 and the step estimate. *)
From Coq Require Import Reals Lra Lia List FunctionalExtensionality ZArith.
From Coquelicot Require Import Coquelicot.
From Verif.Lib Require Import RealAux.
From Verif.Model Require Import Symplectic RungeKutta.
From Verif.Spec Require Import OrderSpec.
From Verif.Proofs Require Import RKOrder RK4Local RKLinear RK6Local DP5Local RKConv RKStab.
Import ListNotations.
Open Scope R_scope.
Notation RR := RbaseSymbolsImpl.R (only parsing).

Section Clock.
  Context {J : Type}.
  Variables (f : RR -> vec J -> vec J) (t0 sigma : RR).
  Notation F := (clock_field f t0 sigma).
  Lemma along_stage tau tau' (Z Z' : vec J) : tau = t0 + sigma * tau' -> (forall i, Z i = Z' i) -> F tau' Z' = (fun i => sigma * f tau Z i).
  Proof. intros -> H. assert (E : Z = Z') by (apply functional_extensionality; exact H). rewrite E. reflexivity. Qed.
  Lemma along_first s x : F s x = (fun i => sigma * f (t0 + sigma * s) x i).
  Proof. reflexivity. Qed.
  Lemma rk4_clock x s h : rk4_onestep F x x s h = rk4_onestep f x x (t0 + sigma * s) (sigma * h).
  Proof.
    assert (E2 : p2 F s h x = (fun i => sigma * p2 f (t0 + sigma * s) (sigma * h) x i)) by (apply along_stage; [field|intros i; rewrite along_first; field]).
    assert (E3 : p3 F s h x = (fun i => sigma * p3 f (t0 + sigma * s) (sigma * h) x i)) by (apply along_stage; [field|intros i; rewrite E2; field]).
    assert (E4 : p4 F s h x = (fun i => sigma * p4 f (t0 + sigma * s) (sigma * h) x i)) by (apply along_stage; [field|intros i; rewrite E3; field]).
    apply functional_extensionality. intros j. rewrite !rk4_form, E2, E3, E4, along_first. field.
  Qed.
  Lemma rk6_clock x s h : rk6_onestep F x x s h = rk6_onestep f x x (t0 + sigma * s) (sigma * h).
  Proof.
    assert (E2 : q2 F s h x = (fun i => sigma * q2 f (t0 + sigma * s) (sigma * h) x i)) by (apply along_stage; [field|intros i; rewrite along_first; field]).
    assert (E3 : q3 F s h x = (fun i => sigma * q3 f (t0 + sigma * s) (sigma * h) x i)) by (apply along_stage; [field|intros i; rewrite E2; field]).
    assert (E4 : q4 F s h x = (fun i => sigma * q4 f (t0 + sigma * s) (sigma * h) x i)) by (apply along_stage; [field|intros i; rewrite E2, E3, along_first; field]).
    assert (E5 : q5 F s h x = (fun i => sigma * q5 f (t0 + sigma * s) (sigma * h) x i)) by (apply along_stage; [field|intros i; rewrite E2, E3, E4, along_first; field]).
    assert (E6 : q6 F s h x = (fun i => sigma * q6 f (t0 + sigma * s) (sigma * h) x i)) by (apply along_stage; [field|intros i; rewrite E2, E3, E4, E5; field]).
    assert (E7 : q7 F s h x = (fun i => sigma * q7 f (t0 + sigma * s) (sigma * h) x i)) by (apply along_stage; [field|intros i; rewrite E2, E3, E4, E6, along_first; field]).
    apply functional_extensionality. intros j. rewrite !rk6_form, E3, E4, E5, E6, E7, along_first. field.
  Qed.
  Lemma dopr54_clock x s h : fst (fst (dopr54_propose F x (F s x) s h)) = fst (fst (dopr54_propose f x (f (t0 + sigma * s) x) (t0 + sigma * s) (sigma * h))).
  Proof.
    assert (E2 : r2 F s h x = (fun i => sigma * r2 f (t0 + sigma * s) (sigma * h) x i)) by (apply along_stage; [field|intros i; rewrite along_first; field]).
    assert (E3 : r3 F s h x = (fun i => sigma * r3 f (t0 + sigma * s) (sigma * h) x i)) by (apply along_stage; [field|intros i; rewrite E2, along_first; field]).
    assert (E4 : r4 F s h x = (fun i => sigma * r4 f (t0 + sigma * s) (sigma * h) x i)) by (apply along_stage; [field|intros i; rewrite E2, E3, along_first; field]).
    assert (E5 : r5 F s h x = (fun i => sigma * r5 f (t0 + sigma * s) (sigma * h) x i)) by (apply along_stage; [field|intros i; rewrite E2, E3, E4, along_first; field]).
    assert (E6 : r6 F s h x = (fun i => sigma * r6 f (t0 + sigma * s) (sigma * h) x i)) by (apply along_stage; [field|intros i; rewrite E2, E3, E4, E5, along_first; field]).
    apply functional_extensionality. intros j. rewrite !dopr54_form, E3, E4, E5, E6, along_first. field.
  Qed.
End Clock.

(** ** Equal steps *)
Section Equal.
  Context {J : Type}.
  Variables (onestep : vec J -> vec J -> RR -> RR -> vec J) (t0 sigma : RR) (stepF : RR -> RR -> vec J -> vec J).
  Hypothesis Hclock : forall x s h, onestep x x (t0 + sigma * s) (sigma * h) = stepF s h x.
  Lemma sum_repeat h m : fold_right Rplus 0 (repeat h m) = INR m * h.
  Proof. induction m as [|m IH]; [cbn; ring|]. cbn [repeat fold_right]. rewrite IH, S_INR. ring. Qed.
  Lemma run_app hs hs' s : run stepF (hs ++ hs') s = run stepF hs' (run stepF hs s).
  Proof. apply fold_left_app. Qed.
  Lemma iter_sub h m u x : Nat.iter m (rk_sub onestep (sigma * h)) (x, x, t0 + sigma * u) =
    let X := snd (run stepF (repeat h m) (u, x)) in (X, X, t0 + sigma * (u + INR m * h)).
  Proof.
    induction m as [|m IH]; cbv zeta; [cbn; rewrite Rmult_0_l, Rplus_0_r; reflexivity|]. cbv zeta in IH.
    change (Nat.iter (S m) (rk_sub onestep (sigma * h)) (x, x, t0 + sigma * u)) with (rk_sub onestep (sigma * h) (Nat.iter m (rk_sub onestep (sigma * h)) (x, x, t0 + sigma * u))). rewrite IH.
    replace (repeat h (S m)) with (repeat h m ++ [h]) by (rewrite <- repeat_cons; reflexivity). rewrite run_app. unfold rk_sub. rewrite Hclock.
    pose proof (run_time stepF (repeat h m) (u, x)) as RT. rewrite sum_repeat in RT. cbn [fst] in RT. 
    assert (R1 : forall S0, run stepF [h] S0 = (fst S0 + h, stepF (fst S0) h (snd S0))) by reflexivity. rewrite R1, RT. cbn [snd].
    replace (t0 + sigma * (u + INR m * h) + sigma * h) with (t0 + sigma * (u + INR (S m) * h)) by (rewrite S_INR; ring). reflexivity.
  Qed.
  Lemma interval h ndt u x : (1 <= ndt)%nat -> rk_interval onestep (sigma * h) ndt (x, x, t0 + sigma * u) =
    let X := snd (run stepF (repeat h ndt) (u, x)) in (X, X, t0 + sigma * (u + INR ndt * h)).
  Proof.
    intros H. rewrite <- iter_sub. unfold rk_interval. destruct ndt as [|m]; [lia|]. replace (S m - 1)%nat with m by lia. reflexivity.
  Qed.
  Lemma rows_nth h ndt n : (1 <= ndt)%nat -> forall u x i dflt, (i < n)%nat ->
    nth i (rk_rows onestep (sigma * h) ndt n (x, x, t0 + sigma * u)) dflt = snd (run stepF (repeat h (S i * ndt)) (u, x)).
  Proof.
    intros Hn. induction n as [|n IH]; intros u x i dflt Hi; [lia|]. cbn [rk_rows]. rewrite interval by exact Hn. cbv zeta. cbn [fst snd].
    destruct i as [|i]; cbn [nth]; [rewrite Nat.mul_1_l; reflexivity|]. rewrite IH by lia.
    change (S (S i) * ndt)%nat with (ndt + S i * ndt)%nat. rewrite repeat_app, run_app. f_equal. f_equal.
    pose proof (run_time stepF (repeat h ndt) (u, x)) as RT. rewrite sum_repeat in RT. cbn [fst] in RT. rewrite <- RT. symmetry. apply surjective_pairing.
  Qed.
  Lemma rows_length h ndt n : forall s, length (rk_rows onestep h ndt n s) = n.
  Proof. induction n as [|n IH]; intros s; [reflexivity|]. cbn. rewrite IH. reflexivity. Qed.
  Lemma run_nth h ndt nt x i dflt : (1 <= ndt)%nat -> (i < nt)%nat -> nth i (rk_run onestep x t0 (sigma * h) ndt nt) dflt = snd (run stepF (repeat h (i * ndt)) (0, x)).
  Proof.
    intros Hn Hi. unfold rk_run. destruct i as [|i]; [reflexivity|]. cbn [nth]. rewrite <- (rows_nth h ndt (nt - 1) Hn 0 x i dflt) by lia. rewrite Rmult_0_r, Rplus_0_r. reflexivity.
  Qed.
  Theorem equal_converge (y : RR -> vec J) T p : 0 < T -> (0 < p)%nat -> stable_step y T stepF -> O T (S p) (fun t h j => stepF t h (y t) j - y (t + h) j) ->
    exists C h1, 0 <= C /\ 0 < h1 /\ forall dt ndt nt, (1 <= ndt)%nat -> (1 <= nt)%nat -> 0 <= dt -> dt / INR ndt <= h1 -> INR (nt - 1) * dt <= T ->
      length (rk_run onestep (y 0) t0 (sigma * (dt / INR ndt)) ndt nt) = nt /\
      forall i, (i < nt)%nat -> within (C * (dt / INR ndt) ^ p) (nth i (rk_run onestep (y 0) t0 (sigma * (dt / INR ndt)) ndt nt) (y 0)) (y (INR i * dt)).
  Proof.
    intros HT Hp HS HO. destruct (converge y T HT stepF p Hp HS HO) as (C & h1 & HC & Hh1 & H). exists C, h1. split; [exact HC|]. split; [lra|].
    intros dt ndt nt Hn Hnt Hdt Hh HsT. split; [unfold rk_run; cbn [length]; rewrite rows_length; lia|]. intros i Hi. rewrite run_nth by assumption.
    assert (Np : 0 < INR ndt) by (apply lt_0_INR; lia). assert (H0 : 0 <= dt / INR ndt) by (apply Rmult_le_pos; [lra|apply Rlt_le, Rinv_0_lt_compat; exact Np]).
    pose proof (H (dt / INR ndt) (repeat (dt / INR ndt) (i * ndt)) ltac:(lra)) as G. rewrite sum_repeat, mult_INR in G.
    replace (INR i * INR ndt * (dt / INR ndt)) with (INR i * dt) in G by (field; lra). apply G.
    - apply Forall_forall. intros h Hin. apply repeat_spec in Hin. subst h. lra.
    - eapply Rle_trans; [|exact HsT]. apply Rmult_le_compat_r; [exact Hdt|]. apply le_INR. lia.
  Qed.
End Equal.

(** ** The step estimate *)
Lemma ceilZ_spec x : IZR (ceilZ x) - 1 < x <= IZR (ceilZ x).
Proof. unfold ceilZ. destruct (base_Int_part (- x)) as [H1 H2]. rewrite opp_IZR. lra. Qed.
Section Estimate.
  Context {J : Type}.
  Variables (onestep : vec J -> vec J -> RR -> RR -> vec J) (js : list J) (s : RR) (root : RR -> RR) (yo : vec J) (to D : RR).
  Hypothesis HD : D <> 0.
  Lemma est_divides : forall fuel (m : Z) err, (1 <= m < 10000)%Z -> (10000 < m * 2 ^ Z.of_nat fuel)%Z ->
    exists m' : Z, (1 <= m' < 10000)%Z /\ est_step onestep js s root fuel yo to D (D / IZR m) err = Some (D / IZR m').
  Proof.
    induction fuel as [|fuel IH]; intros m err Hm Hf; [cbn in Hf; lia|]. cbn [est_step].
    destruct (Rlt_dec 1 err) as [_|_]; [|exists m; split; [exact Hm|reflexivity]]. cbv zeta.
    set (c := ceilZ _). destruct (Rlt_dec 1 (IZR c)) as [Hc|_]; [|exists m; split; [exact Hm|reflexivity]].
    assert (Hc' : (1 < c)%Z) by (apply lt_IZR; exact Hc). assert (Pm : 0 < IZR m) by (apply IZR_lt; lia).
    replace (D / (D / IZR m) * IZR c) with (IZR (m * c)) by (rewrite mult_IZR; field; split; [lra|exact HD]).
    destruct (Rlt_dec (IZR (m * c)) 10000) as [H|_]; [|exists m; split; [exact Hm|reflexivity]].
    apply (lt_IZR (m * c) 10000) in H. replace (D / IZR m / IZR c) with (D / IZR (m * c)) by (rewrite mult_IZR; field; lra).
    apply IH; [nia|]. rewrite Nat2Z.inj_succ, Z.pow_succ_r in Hf by lia. pose proof (Z.pow_pos_nonneg 2 (Z.of_nat fuel) ltac:(lia) ltac:(lia)). nia.
  Qed.
  Theorem estimate_divides : exists m : nat, (1 <= Z.of_nat m < 10000)%Z /\ estimate onestep js s root 14 yo to D = Some (D / INR m) /\ ndt_of D (D / INR m) = Z.of_nat m.
  Proof.
    destruct (est_divides 14 1 2 ltac:(lia) ltac:(reflexivity)) as (m & Hm & E). exists (Z.to_nat m).
    assert (Ei : INR (Z.to_nat m) = IZR m) by (rewrite INR_IZR_INZ, Z2Nat.id by lia; reflexivity). rewrite Ei. split; [lia|]. split; [unfold estimate; rewrite <- E; f_equal; field|].
    assert (Pm : 0 < IZR m) by (apply IZR_lt; lia). unfold ndt_of. replace (D / (D / IZR m)) with (IZR m) by (field; split; [lra|exact HD]).
    destruct (Rle_dec 0 (IZR m)); [|lra]. rewrite Z2Nat.id by lia. destruct (base_Int_part (IZR m)) as [B1 B2].
    apply le_IZR in B1. assert (B3 : IZR (Int_part (IZR m)) > IZR (m - 1)) by (rewrite minus_IZR; lra). apply Rgt_lt, lt_IZR in B3. lia.
  Qed.
End Estimate.

(** ** The adaptive steps of dopr54 *)
Section Adapt.
  Context {J : Type}.
  Variables (f : RR -> vec J -> vec J) (t0 sigma : RR) (power : vec J -> vec J -> Z).
  Hypothesis Hsig : sigma = 1 \/ sigma = -1.
  Definition stepD (s h : RR) (x : vec J) : vec J := fst (fst (dopr54_propose (clock_field f t0 sigma) x (clock_field f t0 sigma s x) s h)).
  (** The state at clock time [u] with next step [e], the stored derivative being the derivative there. *)
  Definition at_ (u e : RR) (x : vec J) : dstate := mkD x (f (t0 + sigma * u) x) (t0 + sigma * u) (sigma * e).
  Lemma clip3_range p : (-3 <= clip3 p <= 3)%Z.
  Proof. unfold clip3. destruct (Z.ltb_spec 3 p); [lia|]. destruct (Z.ltb_spec p (-3)); lia. Qed.
  Lemma actual_cases acc u k x : exists p, (-3 <= p <= 3)%Z /\
    (dopr54_actualstep f power acc (at_ u k x) = at_ (u + k) (k * powerRZ 2 p) (stepD u k x) \/
     (acc = false /\ (p < 0)%Z /\ dopr54_actualstep f power acc (at_ u k x) = at_ u (k * powerRZ 2 p) x)).
  Proof.
    unfold dopr54_actualstep, at_. cbn [d_yo d_a1 d_to d_dt]. destruct (dopr54_propose f x (f (t0 + sigma * u) x) (t0 + sigma * u) (sigma * k)) as [[yn1 yerr] a] eqn:E.
    exists (clip3 (power x yerr)). split; [apply clip3_range|]. set (p := clip3 (power x yerr)).
    assert (E1 : yn1 = stepD u k x) by (unfold stepD; rewrite dopr54_clock, E; reflexivity).
    assert (E2 : a = f (t0 + sigma * (u + k)) (stepD u k x)).
    { pose proof (dopr54_last f (t0 + sigma * u) (sigma * k) x) as Q. rewrite E in Q. cbn [snd fst] in Q. rewrite Q, <- E1. f_equal. ring. }
    destruct (Z.leb_spec 0 p) as [H|H]; cbn [orb].
    - left. rewrite E1, E2. f_equal; ring.
    - destruct acc; [left; rewrite E1, E2; f_equal; ring|right]. split; [reflexivity|]. split; [exact H|]. f_equal; ring.
  Qed.
  (** One pass of the loop for the clock: [E] the step at the start of the interval, [rem] the time left. *)
  Definition least (E e : RR) : bool := if Rlt_dec 10000 (E / e) then true else false.
  Definition nexth (E e rem : RR) : RR := let h := if least E e then E / 10000 else e in if Rlt_dec rem h then rem else h.
  Lemma loop_pass fuel u0 D E u e x : 0 < D -> 0 < E -> 0 < e ->
    dopr54_loop f power fuel (t0 + sigma * u0) (sigma * D) (sigma * E) (at_ u e x) =
    if Rlt_dec u (u0 + D) then match fuel with 0%nat => None | S fuel =>
      dopr54_loop f power fuel (t0 + sigma * u0) (sigma * D) (sigma * E) (dopr54_actualstep f power (least E e) (at_ u (nexth E e (u0 + D - u)) x)) end
    else Some (at_ u e x).
  Proof.
    intros HD HE He.
    assert (Q : sigma * E / (sigma * e) = E / e) by (destruct Hsig as [-> | ->]; field; lra).
    assert (C : (if (if Rle_dec 0 (sigma * D) then if Rlt_dec (t0 + sigma * u) (t0 + sigma * u0 + sigma * D) then true else false
          else if Rlt_dec (t0 + sigma * u0 + sigma * D) (t0 + sigma * u) then true else false) then true else false) = (if Rlt_dec u (u0 + D) then true else false)).
    { destruct Hsig as [-> | ->]; destruct (Rle_dec _ _); try lra; repeat destruct (Rlt_dec _ _); try lra; reflexivity. }
    destruct fuel as [|fuel]; cbn [dopr54_loop]; unfold at_ at 1 2; cbn [d_to d_dt d_yo d_a1].
    - destruct (Rlt_dec u (u0 + D)); destruct (if Rle_dec 0 (sigma * D) then _ else _); try discriminate; reflexivity.
    - destruct (Rlt_dec u (u0 + D)) as [Hu|Hu]; destruct (if Rle_dec 0 (sigma * D) then _ else _); try discriminate; [|reflexivity].
      f_equal. change (d_dt (at_ u e x)) with (sigma * e). change (d_to (at_ u e x)) with (t0 + sigma * u). change (d_yo (at_ u e x)) with x. change (d_a1 (at_ u e x)) with (f (t0 + sigma * u) x).
      assert (L0 : (if Rlt_dec 10000 (sigma * E / (sigma * e)) then true else false) = least E e) by (unfold least; destruct (Rlt_dec 10000 (sigma * E / (sigma * e))); destruct (Rlt_dec 10000 (E / e)); lra || reflexivity).
      destruct (Rlt_dec 10000 (sigma * E / (sigma * e))); rewrite <- L0; f_equal; unfold at_; f_equal; unfold nexth; cbv zeta; rewrite <- L0; clear C L0 Q;
      destruct Hsig as [-> | ->]; destruct (Rle_dec _ _); try lra; repeat destruct (Rlt_dec _ _); lra.
  Qed.
  Lemma nexth_pos E e rem : 0 < E -> 0 < e -> 0 < rem -> 0 < nexth E e rem <= rem.
  Proof. intros HE He Hr. unfold nexth. cbv zeta. destruct (least E e); destruct (Rlt_dec _ _); lra. Qed.
  (** Every way through the loop ends at the output time by accepted steps. *)
  Theorem loop_steps fuel u0 D E : 0 < D -> 0 < E -> forall u e x s', 0 < e -> u0 <= u <= u0 + D ->
    dopr54_loop f power fuel (t0 + sigma * u0) (sigma * D) (sigma * E) (at_ u e x) = Some s' ->
    exists hs e', 0 < e' /\ List.Forall (fun h => 0 <= h <= D) hs /\ u + fold_right Rplus 0 hs = u0 + D /\
      s' = at_ (u0 + D) e' (snd (run stepD hs (u, x))).
  Proof.
    intros HD HE. induction fuel as [|fuel IH]; intros u e x s' He Hu H; rewrite loop_pass in H by assumption; destruct (Rlt_dec u (u0 + D)) as [Hlt|Hge].
    - discriminate H.
    - assert (Eu : u = u0 + D) by lra. subst u. injection H as <-. exists [], e. cbn. repeat split; [exact He|constructor|ring].
    - pose proof (nexth_pos E e (u0 + D - u) HE He ltac:(lra)) as Hk. set (k := nexth E e (u0 + D - u)) in *.
      destruct (actual_cases (least E e) u k x) as (p & Hp & [A|(_ & _ & A)]); rewrite A in H; pose proof (powerRZ_lt 2 p ltac:(lra)) as Pp; assert (Pk : 0 < k * powerRZ 2 p) by (apply Rmult_lt_0_compat; lra).
      + destruct (IH (u + k) _ _ _ Pk ltac:(lra) H) as (hs & e' & He' & F & S1 & S2). exists (k :: hs), e'. split; [exact He'|]. split; [constructor; [lra|exact F]|]. split; [cbn; lra|]. exact S2.
      + exact (IH _ _ _ _ Pk Hu H).
    - assert (Eu : u = u0 + D) by lra. subst u. injection H as <-. exists [], e. cbn. repeat split; [exact He|constructor|ring].
  Qed.
  Lemma big_pow a b : 0 < b -> exists M, a <= 2 ^ M * b.
  Proof.
    intros Hb. destruct (Pow_x_infinity 2 ltac:(rewrite Rabs_right; lra) (a / b)) as [M HM]. exists M. specialize (HM M (le_n _)). rewrite Rabs_right in HM by (apply Rle_ge, pow_le; lra).
    apply Rge_le, (Rmult_le_compat_r b) in HM; [|lra]. replace (a / b * b) with a in HM by (field; lra). exact HM.
  Qed.
  (** The loop ends. *)
  Theorem loop_ends u0 D E : 0 < D -> 0 < E -> forall N M u e x, 0 < e -> u0 <= u <= u0 + D -> u0 + D - u <= INR N * (E / 10000) -> e <= 2 ^ M * (E / 20000) ->
    exists fuel s', dopr54_loop f power fuel (t0 + sigma * u0) (sigma * D) (sigma * E) (at_ u e x) = Some s'.
  Proof.
    intros HD HE. assert (Eh : 0 < E / 20000) by lra. induction N as [|N IN]; intros M; induction M as [|M IM]; intros u e x He Hu HN HM;
      destruct (Rlt_dec u (u0 + D)) as [Hlt|Hge]; try (exists 0%nat, (at_ u e x); rewrite (loop_pass 0 u0 D E u e x HD HE He); destruct (Rlt_dec u (u0 + D)); [lra|reflexivity]);
      try (cbn in HN; lra);
      pose proof (nexth_pos E e (u0 + D - u) HE He ltac:(lra)) as Hk; set (k := nexth E e (u0 + D - u)) in *;
      destruct (actual_cases (least E e) u k x) as (p & Hp & A); pose proof (powerRZ_lt 2 p ltac:(lra)) as Pp; assert (Pk : 0 < k * powerRZ 2 p) by (apply Rmult_lt_0_compat; lra).
    all: assert (ACC : dopr54_actualstep f power (least E e) (at_ u k x) = at_ (u + k) (k * powerRZ 2 p) (stepD u k x) ->
        exists fuel s', dopr54_loop f power fuel (t0 + sigma * u0) (sigma * D) (sigma * E) (at_ u e x) = Some s').
    1, 3: (intros A1; assert (R1 : u + k = u0 + D \/ u0 + D - (u + k) <= INR N * (E / 10000));
      [rewrite S_INR in HN; assert (LK : k = u0 + D - u \/ E / 10000 <= k);
        [unfold k, nexth; cbv zeta; destruct (least E e) eqn:EL; [destruct (Rlt_dec _ _); lra|];
         destruct (Rlt_dec _ _); [left; reflexivity|right]; unfold least in EL; destruct (Rlt_dec 10000 (E / e)) as [|NL]; [discriminate|];
         apply Rnot_lt_le in NL; apply (Rmult_le_compat_r e) in NL; [|lra]; unfold Rdiv in NL at 1; rewrite Rmult_assoc, Rinv_l in NL by lra; lra
        |destruct LK; [left; lra|right; lra]]
      |destruct R1 as [R1|R1];
        [exists 1%nat, (at_ (u + k) (k * powerRZ 2 p) (stepD u k x)); rewrite loop_pass by assumption; destruct (Rlt_dec u (u0 + D)); [|lra]; fold k; rewrite A1, loop_pass by assumption; destruct (Rlt_dec (u + k) (u0 + D)); [lra|reflexivity]
        |destruct (big_pow (k * powerRZ 2 p) (E / 20000) Eh) as [M' HM']; assert (UK : u0 <= u + k <= u0 + D) by lra;
         destruct (IN M' (u + k) (k * powerRZ 2 p) (stepD u k x) Pk UK R1 HM') as (fuel & s' & Hf);
         exists (S fuel), s'; rewrite loop_pass by assumption; destruct (Rlt_dec u (u0 + D)); [|lra]; fold k; rewrite A1; exact Hf]]).
    - destruct A as [A|(AL & _ & _)]; [exact (ACC A)|]. exfalso. unfold least in AL. destruct (Rlt_dec 10000 (E / e)) as [|NL]; [discriminate|]. apply NL.
      apply (Rmult_lt_reg_r e); [exact He|]. unfold Rdiv. rewrite (Rmult_assoc E), Rinv_l by lra. cbn in HM. lra.
    - destruct A as [A|(AL & Hp0 & A)]; [exact (ACC A)|].
      assert (KE : k <= e) by (unfold k, nexth; cbv zeta; rewrite AL; destruct (Rlt_dec _ _); lra).
      assert (PH : powerRZ 2 p <= / 2).
      { assert (p = -1 \/ p = -2 \/ p = -3)%Z as [-> | [-> | ->]] by lia; [change (/ (2 ^ 1) <= / 2)|change (/ (2 ^ 2) <= / 2)|change (/ (2 ^ 3) <= / 2)]; apply Rinv_le_contravar; lra. }
      destruct (IM u (k * powerRZ 2 p) x Pk Hu HN) as (fuel & s' & Hf).
      + rewrite <- tech_pow_Rmult in HM. apply Rle_trans with (e * / 2); [|lra]. apply Rmult_le_compat; lra.
      + exists (S fuel), s'. rewrite loop_pass by assumption. destruct (Rlt_dec u (u0 + D)); [|lra]. fold k. rewrite A. exact Hf.
  Qed.
  Lemma fuel_more fuel : forall fuel' i dt E s s', (fuel <= fuel')%nat -> dopr54_loop f power fuel i dt E s = Some s' -> dopr54_loop f power fuel' i dt E s = Some s'.
  Proof.
    induction fuel as [|fuel IH]; intros fuel' i dt E s s' Hf H.
    - destruct fuel' as [|fuel']; [exact H|]. cbn [dopr54_loop] in *. destruct (if Rle_dec 0 dt then _ else _); [discriminate|exact H].
    - destruct fuel' as [|fuel']; [lia|]. cbn [dopr54_loop] in *. destruct (if Rle_dec 0 dt then _ else _); [|exact H]. apply IH; [lia|exact H].
  Qed.
  Lemma rows_more fuel fuel' dt n : (fuel <= fuel')%nat -> forall s rows, dopr54_rows f power fuel dt n s = Some rows -> dopr54_rows f power fuel' dt n s = Some rows.
  Proof.
    intros Hf. induction n as [|n IH]; intros s rows H; [exact H|]. cbn [dopr54_rows] in *. unfold dopr54_onestep in *.
    destruct (dopr54_loop f power fuel (d_to s) dt (d_dt s) s) as [s1|] eqn:E; [|discriminate]. rewrite (fuel_more _ fuel' _ _ _ _ _ Hf E).
    destruct (dopr54_rows f power fuel dt n s1) as [r|] eqn:E1; [|discriminate]. rewrite (IH _ _ E1). exact H.
  Qed.
  Lemma big_INR a : exists n, INR n > a.
  Proof. exists (Z.to_nat (up a)). destruct (archimed a) as [H _]. rewrite INR_IZR_INZ. assert (IZR (up a) <= IZR (Z.of_nat (Z.to_nat (up a)))) by (apply IZR_le; lia). lra. Qed.
  Lemma one_ends D u e x : 0 < D -> 0 < e -> exists fuel s', dopr54_onestep f power fuel (sigma * D) (at_ u e x) = Some s'.
  Proof.
    intros HD He. destruct (big_pow e (e / 20000) ltac:(lra)) as [M HM]. destruct (big_INR (D / (e / 10000))) as [N HN].
    apply (loop_ends u D e HD He N M u e x He); [lra| |exact HM]. apply Rgt_lt, Rlt_le in HN. apply (Rmult_le_compat_r (e / 10000)) in HN; [|lra].
    replace (D / (e / 10000) * (e / 10000)) with D in HN by (field; lra). lra.
  Qed.
  Lemma rows_end D n : 0 < D -> forall u e x, 0 < e -> exists fuel rows, dopr54_rows f power fuel (sigma * D) n (at_ u e x) = Some rows.
  Proof.
    intros HD. induction n as [|n IH]; intros u e x He; [exists 0%nat, []; reflexivity|].
    destruct (one_ends D u e x HD He) as (fuel & s1 & H1). pose proof H1 as H1'. unfold dopr54_onestep in H1'. cbn [at_ d_to d_dt] in H1'.
    destruct (loop_steps fuel u D e HD He u e x s1 He ltac:(lra) H1') as (hs & e' & He' & _ & _ & ->).
    destruct (IH (u + D) e' (snd (run stepD hs (u, x))) He') as (fuel2 & rows & H2). exists (Nat.max fuel fuel2), (d_yo (at_ (u + D) e' (snd (run stepD hs (u, x)))) :: rows).
    cbn [dopr54_rows]. unfold dopr54_onestep in *. rewrite (fuel_more fuel (Nat.max fuel fuel2) _ _ _ _ _ ltac:(lia) H1), (rows_more fuel2 (Nat.max fuel fuel2) _ _ ltac:(lia) _ _ H2). reflexivity.
  Qed.
  Lemma rows_runs D fuel n : 0 < D -> forall u e x rows, 0 < e -> dopr54_rows f power fuel (sigma * D) n (at_ u e x) = Some rows ->
    length rows = n /\ forall i dflt, (i < n)%nat -> exists hs, List.Forall (fun h => 0 <= h <= D) hs /\ fold_right Rplus 0 hs = INR (S i) * D /\ nth i rows dflt = snd (run stepD hs (u, x)).
  Proof.
    intros HD. induction n as [|n IH]; intros u e x rows He H; [injection H as <-; split; [reflexivity|intros; lia]|]. cbn [dopr54_rows] in H.
    destruct (dopr54_onestep f power fuel (sigma * D) (at_ u e x)) as [s1|] eqn:E; [|discriminate]. unfold dopr54_onestep in E. cbn [at_ d_to d_dt] in E.
    destruct (loop_steps fuel u D e HD He u e x s1 He ltac:(lra) E) as (hs & e' & He' & F & S1 & ->).
    destruct (dopr54_rows f power fuel (sigma * D) n (at_ (u + D) e' (snd (run stepD hs (u, x))))) as [r|] eqn:E1; [|discriminate]. injection H as <-.
    destruct (IH _ _ _ _ He' E1) as [L R]. split; [cbn; rewrite L; reflexivity|]. intros i dflt Hi. destruct i as [|i].
    - exists hs. split; [exact F|]. split; [cbn; lra|reflexivity].
    - destruct (R i dflt ltac:(lia)) as (hs2 & F2 & S2 & N2). exists (hs ++ hs2). split; [apply Forall_app; split; assumption|]. split.
      + rewrite fold_right_app. assert (Q : forall a l, fold_right Rplus a l = fold_right Rplus 0 l + a) by (intros a l; induction l as [|b l IHl]; cbn; [ring|rewrite IHl; ring]).
        rewrite Q, S2, !S_INR. lra.
      + cbn [nth]. rewrite N2. unfold run at 3. rewrite fold_left_app. fold (run stepD hs (u, x)).
        pose proof (run_time stepD hs (u, x)) as RT. cbn [fst] in RT. assert (U : u + D = fst (run stepD hs (u, x))) by (rewrite RT; lra). rewrite U.
        unfold run at 1. f_equal. f_equal. symmetry. apply surjective_pairing.
  Qed.
  Theorem adaptive_converge (y : RR -> vec J) T : 0 < T -> stable_step y T stepD -> O T 6 (fun t h j => stepD t h (y t) j - y (t + h) j) ->
    exists C h1, 0 <= C /\ 0 < h1 /\ forall D e n fuel rows, 0 < D <= h1 -> 0 < e -> INR n * D <= T ->
      dopr54_rows f power fuel (sigma * D) n (at_ 0 e (y 0)) = Some rows ->
      length rows = n /\ forall i, (i < n)%nat -> within (C * D ^ 5) (nth i rows (y 0)) (y (INR (S i) * D)).
  Proof.
    intros HT HS HO. destruct (converge y T HT stepD 5 ltac:(lia) HS HO) as (C & h1 & HC & Hh1 & H). exists C, h1. split; [exact HC|]. split; [lra|].
    intros D e n fuel rows HD He HnT E. destruct (rows_runs D fuel n ltac:(lra) 0 e (y 0) rows He E) as [L R]. split; [exact L|]. intros i Hi.
    destruct (R i (y 0) Hi) as (hs & F & S1 & ->). rewrite <- S1. apply H; [lra|exact F|]. rewrite S1. eapply Rle_trans; [|exact HnT]. apply Rmult_le_compat_r; [lra|]. apply le_INR. lia.
  Qed.
End Adapt.
