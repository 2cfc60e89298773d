(** Potentials with real exponents, the homogeneous sphere, the generic spherical potential. *)
From Coq Require Import Reals Lra Psatz.
From Coquelicot Require Import Coquelicot.
From Verif.Lib Require Import RealAux.
From Verif.Model Require Import PotAPI PotAxi.
From Verif.Proofs Require Import AxiProofs AxiProofs2 AxiProofs3.
Open Scope R_scope.
Notation RR := RbaseSymbolsImpl.R (only parsing).

Lemma rpow_sqrt_sq x y : 0 < x -> rpow (sqrt x) (2 * y) = rpow x y.
Proof.
  intros. rewrite <- rpow_1_2 by auto. rewrite rpow_mult. f_equal. field.
Qed.
Lemma rpow_div x y e : 0 < x -> 0 < y -> rpow (x / y) e = rpow x e / rpow y e.
Proof.
  intros Hx Hy. unfold rpow, Rpower.
  rewrite ln_div by auto. rewrite Rmult_minus_distr_l. unfold Rminus.
  rewrite exp_plus, exp_Ropp. reflexivity.
Qed.
Lemma rpow_0 x : rpow x 0 = 1.
Proof. unfold rpow, Rpower. rewrite Rmult_0_l. apply exp_0. Qed.
Lemma rpow_4 x : 0 < x -> rpow x 4 = x ^ 4.
Proof. intros. unfold rpow. replace 4 with (INR 4) by (simpl; lra). apply Rpower_pow; auto. Qed.

Lemma rpow_m1 x : 0 < x -> rpow x (- 1) = / x.
Proof. intros. replace (-1) with (- (1)) by lra. rewrite rpow_opp, rpow_1; auto. Qed.

Section PSp.
  Variable alpha : RR.
  Lemma PS_force : AxiForce DOrigin (PS_ev alpha) (PS_Rf alpha) (PS_zf alpha).
  Proof.
    split; intros R z HD; pose proof (DO_pos R z HD) as Hp; clear HD;
    unfold PS_ev, PS_Rf, PS_zf; destruct (Req_EM_T alpha 2) as [->|Hne].
    - auto_derive; [auto|]. replace (2 / 2) with 1 by lra. rewrite rpow_1 by auto. field. lra.
    - cbv [rpow Rpower]. auto_derive; [auto|]. fold_rpow. rewrite rpow_minus, rpow_1 by auto.
      pose proof (rpow_pos (R ^ 2 + z ^ 2) (alpha / 2)) as He.
      set (e := rpow _ (alpha / 2)) in *. clearbody e. field. repeat split; lra.
    - auto_derive; [auto|]. replace (2 / 2) with 1 by lra. rewrite rpow_1 by auto. field. lra.
    - cbv [rpow Rpower]. auto_derive; [auto|]. fold_rpow. rewrite rpow_minus, rpow_1 by auto.
      pose proof (rpow_pos (R ^ 2 + z ^ 2) (alpha / 2)) as He.
      set (e := rpow _ (alpha / 2)) in *. clearbody e. field. repeat split; lra.
  Qed.
  Lemma PS_hess : AxiHess DOrigin (PS_Rf alpha) (PS_zf alpha) (PS_R2 alpha) (PS_z2 alpha) (PS_Rz alpha).
  Proof.
    split; intros R z HD; pose proof (DO_pos R z HD) as Hp; clear HD;
    cbv [PS_Rf PS_zf PS_z2 PS_R2 PS_Rz rpow Rpower]; rewrite ?(Rplus_comm (z ^ 2) (R ^ 2));
    (auto_derive; [repeat split; auto; apply Rgt_not_eq, exp_pos|]); fold_rpow;
    rewrite ?rpow_minus, ?rpow_plus, ?rpow_opp, ?rpow_m1, ?rpow_1 by auto;
    pose proof (rpow_pos (R ^ 2 + z ^ 2) (alpha / 2)) as He;
    set (e := rpow _ (alpha / 2)) in *; clearbody e; field; repeat split; lra.
  Qed.
  Lemma PS_poisson : AxiPoisson DOrigin (PS_Rf alpha) (PS_R2 alpha) (PS_z2 alpha) (PS_dens alpha).
  Proof.
    intros R z HD HR. pose proof (DO_pos R z HD) as Hp. pose proof PI_RGT_0.
    unfold PS_Rf, PS_z2, PS_R2, PS_dens. rewrite ?(Rplus_comm (z ^ 2) (R ^ 2)).
    replace (rpow (sqrt (R ^ 2 + z ^ 2)) alpha) with (rpow (R ^ 2 + z ^ 2) (alpha / 2))
      by (rewrite <- rpow_sqrt_sq by auto; f_equal; field).
    rewrite ?rpow_minus, ?rpow_plus, ?rpow_opp, ?rpow_1 by auto;
    pose proof (rpow_pos (R ^ 2 + z ^ 2) (alpha / 2)) as He.
    set (e := rpow _ (alpha / 2)) in *; clearbody e. field. lra.
  Qed.
End PSp.

Section FPp.
  Variables alpha q2 core2 : RR.
  Hypothesis Hq : 0 < q2.
  Definition DFP (R z : RR) : Prop := 0 < core2 + R ^ 2 + z ^ 2 / q2.
  Ltac go R z HD :=
    unfold DFP in HD; assert (Hd : 0 < R ^ 2 + z ^ 2 / q2 + core2) by lra;
    unfold FP_ev, FP_Rf, FP_zf, FP_R2, FP_z2, FP_Rz, FP_dens, FP_is0, FP_d, FP_m2.
  Ltac fin R z HD := fold_rpow;
      rewrite ?rpow_minus, ?rpow_1, ?rpow_2 by auto;
      let He := fresh in let e := fresh in let m := fresh in let Em := fresh in
      pose proof (rpow_pos (core2 + R ^ 2 + z ^ 2 / q2) (- alpha / 2)) as He;
      set (e := rpow _ (- alpha / 2)) in *; clearbody e;
      set (m := core2 + R ^ 2 + z ^ 2 / q2) in *; assert (Em : core2 = m - R ^ 2 - z ^ 2 / q2) by (unfold m; ring);
      change (core2 + R ^ 2 + z ^ 2 * / q2) with m;
      clearbody m;
      rewrite ?Em; field; repeat split; auto; try lra.
  Lemma FP_force : AxiForce DFP (FP_ev alpha q2 core2) (FP_Rf alpha q2 core2) (FP_zf alpha q2 core2).
  Proof.
    split; intros R z HD; go R z HD; destruct (Req_EM_T alpha 0) as [->|Hne].
    - auto_derive; [auto|]. set (m := R ^ 2 + z ^ 2 / q2 + core2) in *. 
      change (R ^ 2 + z ^ 2 * / q2 + core2) with m. clearbody m. field. lra.
    - cbv [rpow Rpower]; auto_derive; [auto|]. fin R z HD.
    - auto_derive; [auto|]. set (m := R ^ 2 + z ^ 2 / q2 + core2) in *. 
      change (R ^ 2 + z ^ 2 * / q2 + core2) with m. clearbody m. field. lra.
    - cbv [rpow Rpower]; auto_derive; [auto|]. fin R z HD.
  Qed.
  Lemma FP_hess : AxiHess DFP (FP_Rf alpha q2 core2) (FP_zf alpha q2 core2)
    (FP_R2 alpha q2 core2) (FP_z2 alpha q2 core2) (FP_Rz alpha q2 core2).
  Proof.
    split; intros R z HD; go R z HD; destruct (Req_EM_T alpha 0) as [->|Hne];
    try (auto_derive; [repeat split; auto; lra|]; set (m := R ^ 2 + z ^ 2 / q2 + core2) in *;
      change (R ^ 2 + z ^ 2 * / q2 + core2) with m; clearbody m; field; repeat split; lra);
    cbv [rpow Rpower]; (auto_derive; [auto|]); fin R z HD.
  Qed.
  Lemma FP_poisson : AxiPoisson DFP (FP_Rf alpha q2 core2) (FP_R2 alpha q2 core2)
    (FP_z2 alpha q2 core2) (FP_dens alpha q2 core2).
  Proof.
    intros R z HD HR. go R z HD. pose proof PI_RGT_0. destruct (Req_EM_T alpha 0) as [->|Hne].
    - set (m := R ^ 2 + z ^ 2 / q2 + core2) in *; assert (Em : core2 = m - R ^ 2 - z ^ 2 / q2) by (unfold m; ring).
      clearbody m. rewrite Em. field. lra.
    - fin R z HD.
  Qed.
End FPp.

Section Dep.
  Variables a alpha : RR.
  Hypothesis Ha : 0 < a.
  Hypothesis Halpha2 : alpha <> 2.
  Hypothesis Halpha3 : alpha <> 3.
  Lemma De_1a r : 0 < r -> 1 + a / r = (a + r) / r.
  Proof. intros. field. lra. Qed.
  (** both powers in terms of r^alpha and (a+r)^alpha *)
  Ltac fin s := 
      rewrite ?rpow_minus, ?rpow_opp, ?rpow_1, ?rpow_2, ?rpow_3, ?rpow_4 by lra;
      let He := fresh in let Hf := fresh in let e := fresh in let f := fresh in
      pose proof (rpow_pos s alpha) as He;
      pose proof (rpow_pos (a + s) alpha) as Hf;
      set (e := rpow s alpha) in *; clearbody e;
      set (f := rpow (a + s) alpha) in *; clearbody f.
  Lemma De_force : AxiForce DOrigin (De_ev a alpha) (De_Rf a alpha) (De_zf a alpha).
  Proof.
    split; intros R z HD; pose proof (DO_pos R z HD) as Hp; clear HD;
    pose proof (sqrt_lt_R0 _ Hp) as Hs0;
    assert (0 < a / sqrt (R ^ 2 + z ^ 2)) by (apply Rdiv_lt_0_compat; auto);
    cbv [De_ev De_Rf De_zf De_r rpow Rpower];
    (auto_derive; [repeat split; auto; try lra; apply Rgt_not_eq, exp_pos|]);
    fold_rpow; change (sqrt (R ^ 2 + z ^ 2)) with (De_r R z) in *;
    change (a * / De_r R z) with (a / De_r R z); 
    pose proof (sqrt_sqrt _ (Rlt_le _ _ Hp)) as Es;
    change (sqrt (R ^ 2 + z ^ 2)) with (De_r R z) in *; set (s := De_r R z) in *; clearbody s;
    rewrite ?(De_1a s), ?rpow_div by lra; fin s; field; repeat split; lra.
  Qed.
  Lemma De_hess : AxiHess DOrigin (De_Rf a alpha) (De_zf a alpha) (De_R2 a alpha) (De_z2 a alpha) (De_Rz a alpha).
  Proof.
    split; intros R z HD; pose proof (DO_pos R z HD) as Hp; clear HD;
    pose proof (sqrt_lt_R0 _ Hp) as Hs0;
    cbv [De_R2 De_z2 De_Rz De_Rf De_zf De_r rpow Rpower];
    rewrite ?(Rplus_comm (z ^ 2) (R ^ 2));
    (auto_derive; [repeat split; auto; try lra; apply Rgt_not_eq, exp_pos|]);
    fold_rpow; setsqrt s Es (R ^ 2 + z ^ 2) Hp;
    rewrite ?(Rplus_comm s a); replace (- 2 - alpha) with (- alpha - 2) by ring; fin s.
    - assert (E : z ^ 2 = s * s - R ^ 2) by lra; rewrite ?E; field; repeat split; lra.
    - assert (E : R ^ 2 = s * s - z ^ 2) by lra; rewrite ?E; field; repeat split; lra.
    - field; repeat split; lra.
    - field; repeat split; lra.
  Qed.
  Lemma De_poisson : AxiPoisson DOrigin (De_Rf a alpha) (De_R2 a alpha) (De_z2 a alpha) (De_dens a alpha).
  Proof.
    intros R z HD HR. pose proof (DO_pos R z HD) as Hp. pose proof PI_RGT_0.
    pose proof (sqrt_lt_R0 _ Hp) as Hs0.
    unfold De_z2, De_R2, De_Rf, De_dens, De_r. rewrite ?(Rplus_comm (z ^ 2) (R ^ 2)).
    setsqrt s Es (R ^ 2 + z ^ 2) Hp. 
    replace (1 + s / a) with ((a + s) / a) by (field; lra). rewrite !rpow_div by lra.
    rewrite ?(Rplus_comm s a); replace (- 2 - alpha) with (- alpha - 2) by ring.
    pose proof (rpow_pos a alpha) as Hg.
    rewrite (rpow_minus a 4 alpha), (rpow_4 a) by lra.
    set (g := rpow a alpha) in *; clearbody g. fin s.
    assert (E : z ^ 2 = s * s - R ^ 2) by lra; rewrite ?E. field. repeat split; lra.
  Qed.
End Dep.

Section HSp.
  Variable Rs : RR.
  Hypothesis HRs : 0 < Rs.
  (** away from the surface, where the second derivatives jump *)
  Definition DHS (R z : RR) : Prop := R ^ 2 + z ^ 2 <> Rs ^ 2.
  Lemma HS_dec R z : DHS R z -> (R ^ 2 + z ^ 2 < Rs ^ 2) \/ (Rs ^ 2 < R ^ 2 + z ^ 2).
  Proof. unfold DHS. intros. lra. Qed.
  Lemma HS_in_true R z : R ^ 2 + z ^ 2 < Rs ^ 2 -> HS_in Rs R z = true.
  Proof. intros. unfold HS_in. destruct (Rlt_dec _ _); auto; lra. Qed.
  Lemma HS_in_false R z : Rs ^ 2 < R ^ 2 + z ^ 2 -> HS_in Rs R z = false.
  Proof. intros. unfold HS_in. destruct (Rlt_dec _ _); auto; lra. Qed.
  Lemma loc_of_cont (f : RR -> RR) x (P : RR -> Prop) : continuous f x -> locally (f x) P -> locally x (fun y => P (f y)).
  Proof. intros Hc HP. apply (Hc P HP). Qed.
  Lemma cR R z : continuous (fun y : RR => y ^ 2 + z ^ 2) R.
  Proof. apply (ex_derive_continuous (fun y : RR => y ^ 2 + z ^ 2)). auto_derive; auto. Qed.
  Lemma cz R z : continuous (fun y : RR => R ^ 2 + y ^ 2) z.
  Proof. apply (ex_derive_continuous (fun y : RR => R ^ 2 + y ^ 2)). auto_derive; auto. Qed.
  Lemma der_in_R (f g : RR -> RR) R z l : R ^ 2 + z ^ 2 < Rs ^ 2 ->
    is_derive f R l -> is_derive (fun y => if HS_in Rs y z then f y else g y) R l.
  Proof.
    intros H Hd. apply is_derive_loc with (f := f) (P := fun y => y ^ 2 + z ^ 2 < Rs ^ 2); auto.
    - apply (loc_of_cont (fun y => y ^ 2 + z ^ 2) R (fun w => w < Rs ^ 2)); [apply cR|apply locally_lt; auto].
    - intros y Hy; rewrite (HS_in_true _ _ Hy); reflexivity.
  Qed.
  Lemma der_in_z (f g : RR -> RR) R z l : R ^ 2 + z ^ 2 < Rs ^ 2 ->
    is_derive f z l -> is_derive (fun y => if HS_in Rs R y then f y else g y) z l.
  Proof.
    intros H Hd. apply is_derive_loc with (f := f) (P := fun y => R ^ 2 + y ^ 2 < Rs ^ 2); auto.
    - apply (loc_of_cont (fun y => R ^ 2 + y ^ 2) z (fun w => w < Rs ^ 2)); [apply cz|apply locally_lt; auto].
    - intros y Hy; rewrite (HS_in_true _ _ Hy); reflexivity.
  Qed.
  Lemma der_out_R (f g : RR -> RR) R z l : Rs ^ 2 < R ^ 2 + z ^ 2 ->
    is_derive g R l -> is_derive (fun y => if HS_in Rs y z then f y else g y) R l.
  Proof.
    intros H Hd. apply is_derive_loc with (f := g) (P := fun y => Rs ^ 2 < y ^ 2 + z ^ 2); auto.
    - apply (loc_of_cont (fun y => y ^ 2 + z ^ 2) R (fun w => Rs ^ 2 < w)); [apply cR|apply locally_gt; auto].
    - intros y Hy; rewrite (HS_in_false _ _ Hy); reflexivity.
  Qed.
  Lemma der_out_z (f g : RR -> RR) R z l : Rs ^ 2 < R ^ 2 + z ^ 2 ->
    is_derive g z l -> is_derive (fun y => if HS_in Rs R y then f y else g y) z l.
  Proof.
    intros H Hd. apply is_derive_loc with (f := g) (P := fun y => Rs ^ 2 < R ^ 2 + y ^ 2); auto.
    - apply (loc_of_cont (fun y => R ^ 2 + y ^ 2) z (fun w => Rs ^ 2 < w)); [apply cz|apply locally_gt; auto].
    - intros y Hy; rewrite (HS_in_false _ _ Hy); reflexivity.
  Qed.
  Lemma opp_if (c : bool) (x y : RR) : - (if c then x else y) = if c then - x else - y.
  Proof. destruct c; auto. Qed.
  Ltac fin R z Hp := let s := fresh "s" in let Es := fresh "Es" in
     fold_rpow; halfpow; setsqrt s Es (R ^ 2 + z ^ 2) Hp; rewrite <- ?Es; field; lra.
  Lemma HS_force : AxiForce DHS (HS_ev Rs) (HS_Rf Rs) (HS_zf Rs).
  Proof.
    split; intros R z HD; apply HS_dec in HD; destruct HD as [H|H];
    unfold HS_ev, HS_Rf, HS_zf; rewrite ?(HS_in_true _ _ H), ?(HS_in_false _ _ H).
    - apply (der_in_R (fun y => y ^ 2 + z ^ 2 - 3 * Rs ^ 2)); auto. auto_derive; auto; ring.
    - assert (Hp : 0 < R ^ 2 + z ^ 2) by nra.
      apply (der_out_R _ (fun y => - 2 * Rs ^ 3 / sqrt (y ^ 2 + z ^ 2))); auto.
      auto_derive; [sph_side|]. fin R z Hp.
    - apply (der_in_z (fun y => R ^ 2 + y ^ 2 - 3 * Rs ^ 2)); auto. auto_derive; auto; ring.
    - assert (Hp : 0 < R ^ 2 + z ^ 2) by nra.
      apply (der_out_z _ (fun y => - 2 * Rs ^ 3 / sqrt (R ^ 2 + y ^ 2))); auto.
      auto_derive; [sph_side|]. fin R z Hp.
  Qed.
  Lemma is_derive_opp_if (c : RR -> bool) (f g : RR -> RR) x l :
    is_derive (fun y => if c y then - f y else - g y) x l ->
    is_derive (fun y => - (if c y then f y else g y)) x l.
  Proof. apply is_derive_ext. intros t. destruct (c t); auto. Qed.
  Lemma HS_hess : AxiHess DHS (HS_Rf Rs) (HS_zf Rs) (HS_R2 Rs) (HS_z2 Rs) (HS_Rz Rs).
  Proof.
    split; intros R z HD; apply HS_dec in HD; destruct HD as [H|H];
    unfold HS_R2, HS_z2, HS_Rz, HS_Rf, HS_zf; rewrite ?(HS_in_true _ _ H), ?(HS_in_false _ _ H);
    apply is_derive_opp_if.
    - apply (der_in_R (fun y => - (- 2 * y))); auto. auto_derive; auto; ring.
    - assert (Hp : 0 < R ^ 2 + z ^ 2) by nra.
      apply (der_out_R _ (fun y => - (- 2 * Rs ^ 3 * y / rpow (y ^ 2 + z ^ 2) (3 / 2)))); auto.
      cbv [rpow Rpower]; auto_derive; [sph_side|]. fin R z Hp.
    - apply (der_in_z (fun y => - (- 2 * y))); auto. auto_derive; auto; ring.
    - assert (Hp : 0 < R ^ 2 + z ^ 2) by nra.
      apply (der_out_z _ (fun y => - (- 2 * Rs ^ 3 * y / rpow (R ^ 2 + y ^ 2) (3 / 2)))); auto.
      cbv [rpow Rpower]; auto_derive; [sph_side|]. fin R z Hp.
    - apply (der_in_z (fun y => - (- 2 * R))); auto. auto_derive; auto; ring.
    - assert (Hp : 0 < R ^ 2 + z ^ 2) by nra.
      apply (der_out_z _ (fun y => - (- 2 * Rs ^ 3 * R / rpow (R ^ 2 + y ^ 2) (3 / 2)))); auto.
      cbv [rpow Rpower]; auto_derive; [sph_side|]. fin R z Hp.
    - apply (der_in_R (fun y => - (- 2 * z))); auto. auto_derive; auto; ring.
    - assert (Hp : 0 < R ^ 2 + z ^ 2) by nra.
      apply (der_out_R _ (fun y => - (- 2 * Rs ^ 3 * z / rpow (y ^ 2 + z ^ 2) (3 / 2)))); auto.
      cbv [rpow Rpower]; auto_derive; [sph_side|]. fin R z Hp.
  Qed.
  Lemma HS_poisson : AxiPoisson DHS (HS_Rf Rs) (HS_R2 Rs) (HS_z2 Rs) (HS_dens Rs).
  Proof.
    intros R z HD HR. apply HS_dec in HD. pose proof PI_RGT_0.
    unfold HS_R2, HS_z2, HS_Rf, HS_dens. destruct HD as [H1|H1].
    - rewrite HS_in_true by auto. field. lra.
    - rewrite HS_in_false by auto. assert (Hp : 0 < R ^ 2 + z ^ 2) by nra.
      halfpow. setsqrt s Es (R ^ 2 + z ^ 2) Hp.
      assert (E : z ^ 2 = s * s - R ^ 2) by lra; rewrite ?E. field. lra.
  Qed.
End HSp.
