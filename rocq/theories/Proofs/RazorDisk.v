(** The razor-thin disk as a sum of rings. *)
From Coq Require Import Reals Lra.
From Coquelicot Require Import Coquelicot.
From Verif.Lib Require Import RealAux.
From Verif.Model Require Import RingDisk.
From Verif.Spec Require Import RingSpec.
From Verif.Proofs Require Import Elliptic.
Open Scope R_scope.
Notation RR := RbaseSymbolsImpl.R (only parsing).
Ltac rr := match goal with |- ?a = ?b => change (@eq RR a b) end.

(** ** The potential of a ring as an integral over the ring *)
Lemma dist_arg a R z phi : 0 < rd a R z -> 0 < rD a R z -> 0 < R ^ 2 + a ^ 2 - 2 * a * R * cos phi + z ^ 2.
Proof. unfold rd, rD. intros H1 H2. pose proof (COS_bound phi) as C. set (c := cos phi) in *. clearbody c. destruct (Rle_dec 0 (a * R)); nra. Qed.
Lemma around_kk a R z : 0 < rd a R z -> 0 < rD a R z -> around a R z = 4 * kk a R z.
Proof.
  intros H1 H2. set (f := fun phi => / ring_distance a R z phi). pose proof PI_RGT_0 as P0.
  assert (C : forall x, continuous f x).
  { intros x. unfold f, ring_distance. apply c2_inv; [|pose proof (sqrt_lt_R0 _ (dist_arg a R z x H1 H2)); lra]. apply c2_sqrt. apply (ex_derive_continuous (V := R_NormedModule)). auto_derive. exact I. }
  assert (X : forall u v, ex_RInt f u v) by (intros; apply exi; exact C).
  assert (Half : RInt f PI (2 * PI) = RInt f 0 PI).
  { pose proof (RInt_comp_lin (V := R_CompleteNormedModule) f (- 1) (2 * PI) PI 0) as L. replace (- 1 * PI + 2 * PI) with PI in L by ring. replace (- 1 * 0 + 2 * PI) with (2 * PI) in L by ring. rewrite <- (L (X _ _)).
    rewrite <- (opp_RInt_swap (V := R_CompleteNormedModule)).
    - rewrite <- (RInt_opp (V := R_CompleteNormedModule)).
      + apply RInt_ext. intros x _. unfold opp, scal; simpl. unfold mult; simpl. replace (-1 * x + 2 * PI) with (2 * PI - x) by ring. unfold f, ring_distance.
        replace (cos (2 * PI - x)) with (cos x) by (rewrite cos_minus, cos_2PI, sin_2PI; ring). rr. ring.
      + apply exi. intros x. unfold scal; simpl. unfold mult; simpl. apply c2_mult; [apply c2_const|]. apply (c2_comp f (fun x => -1 * x + 2 * PI)); [|apply C]. apply (ex_derive_continuous (V := R_NormedModule)). auto_derive. exact I.
    - apply exi. intros x. unfold scal; simpl. unfold mult; simpl. apply c2_mult; [apply c2_const|]. apply (c2_comp f (fun x => -1 * x + 2 * PI)); [|apply C]. apply (ex_derive_continuous (V := R_NormedModule)). auto_derive. exact I. }
  assert (Quart : RInt f 0 PI = 2 * kk a R z).
  { pose proof (RInt_comp_lin (V := R_CompleteNormedModule) f (- 2) PI (PI / 2) 0) as L. replace (- 2 * (PI / 2) + PI) with 0 in L by field. replace (- 2 * 0 + PI) with PI in L by ring. rewrite <- (L (X _ _)).
    apply (is_RInt_unique (V := R_CompleteNormedModule)). pose proof (mm_lt1 a R z H1 H2) as M1. pose proof (iK _ M1) as K.
    pose proof (is_RInt_swap (V := R_NormedModule) _ _ _ _ (is_RInt_scal (V := R_NormedModule) _ _ _ (- 2 / sqrt (rD a R z)) _ K)) as J. unfold opp, scal in J; simpl in J. unfold mult in J; simpl in J.
    assert (S : 0 < sqrt (rD a R z)) by (apply sqrt_lt_R0; exact H2).
    replace (- (- 2 / sqrt (rD a R z) * ellipk (mm a R z))) with (2 * kk a R z) in J by (unfold kk; field; lra).
    refine (is_RInt_ext _ _ _ _ _ _ J). intros th _. cbv beta. unfold scal; simpl. unfold mult; simpl. unfold f, ring_distance.
    replace (cos (- 2 * th + PI)) with (2 * sin th ^ 2 - 1) by (rewrite neg_cos; replace (- 2 * th) with (- (2 * th)) by ring; rewrite cos_neg, cos_2a_sin; ring).
    replace (R ^ 2 + a ^ 2 - 2 * a * R * (2 * sin th ^ 2 - 1) + z ^ 2) with (rD a R z * Dl (mm a R z) th).
    - rewrite sqrt_mult by (pose proof (Dl_pos _ th M1); lra). pose proof (Dl_s _ th M1). rr. field. split; lra.
    - unfold Dl, mm. replace (rD a R z * (1 - 4 * R * a / rD a R z * sin th ^ 2)) with (rD a R z - 4 * R * a * sin th ^ 2) by (field; lra). unfold rD. ring. }
  unfold around. fold f. rewrite <- (RInt_Chasles (V := R_CompleteNormedModule) f 0 PI (2 * PI)) by apply X. unfold plus; simpl. rewrite Half, Quart. rr. ring.
Qed.
Lemma rd_pos a R z : z <> 0 -> 0 < rd a R z.
Proof. intros H. unfold rd. pose proof (pow2_ge_0 (R - a)). assert (0 < z ^ 2) by (apply pow2_gt_0; exact H). lra. Qed.
Lemma rDz_pos a R z : z <> 0 -> 0 < rD a R z.
Proof. intros H. unfold rD. pose proof (pow2_ge_0 (R + a)). assert (0 < z ^ 2) by (apply pow2_gt_0; exact H). lra. Qed.

(** ** Continuity of the kernels *)
Section C.
  Context {U : UniformSpace}.
  Variables (A B C : U -> RR) (p : U).
  Hypotheses (cA : continuous A p) (cB : continuous B p) (cC : continuous C p) (H1 : 0 < rd (A p) (B p) (C p)) (H2 : 0 < rD (A p) (B p) (C p)).
  Lemma c_rd : continuous (fun p => rd (A p) (B p) (C p)) p.
  Proof using cA cB cC. unfold rd. apply c2_plus; apply c2_pow; [apply c2_minus; assumption|assumption]. Qed.
  Lemma c_rD : continuous (fun p => rD (A p) (B p) (C p)) p.
  Proof using cA cB cC. unfold rD. apply c2_plus; apply c2_pow; [apply c2_plus; assumption|assumption]. Qed.
  Lemma c_mm : continuous (fun p => mm (A p) (B p) (C p)) p.
  Proof using cA cB cC H2. unfold mm. apply c2_div; [apply c2_mult; [apply c2_mult; [apply c2_const|assumption]|assumption]|apply c_rD|lra]. Qed.
  Lemma c_kk : continuous (fun p => kk (A p) (B p) (C p)) p.
  Proof using cA cB cC H1 H2. unfold kk. apply c2_div; [apply c2_comp; [apply c_mm|apply c_K, mm_lt1; assumption]|apply c2_sqrt, c_rD|pose proof (sqrt_lt_R0 _ H2); lra]. Qed.
  Lemma c_hh : continuous (fun p => hh (A p) (B p) (C p)) p.
  Proof using cA cB cC H1 H2. unfold hh. apply c2_div; [apply c2_comp; [apply c_mm|apply c_E, mm_lt1; assumption]|apply c2_sqrt, c_rD|pose proof (sqrt_lt_R0 _ H2); lra]. Qed.
  Hypothesis H3 : 0 < B p.
  Ltac step := lazymatch goal with
    | |- continuous (fun x => - (@?a x)) _ => apply (c2_opp a)
    | |- continuous (fun x => hh _ _ _) _ => apply c_hh
    | |- continuous (fun x => kk _ _ _) _ => apply c_kk
    | |- continuous (fun x => rd _ _ _) _ => apply c_rd
    | |- continuous (fun x => rD _ _ _) _ => apply c_rD
    | |- continuous (fun x => @?a x + @?b x) _ => apply (c2_plus a b)
    | |- continuous (fun x => @?a x - @?b x) _ => apply (c2_minus a b)
    | |- continuous (fun x => @?a x / @?b x) _ => apply (c2_div a b)
    | |- continuous (fun x => @?a x * @?b x) _ => apply (c2_mult a b)
    | |- continuous (fun x => @?a x ^ _) _ => apply (c2_pow a)
    | |- continuous (fun x => A x) _ => exact cA
    | |- continuous (fun x => B x) _ => exact cB
    | |- continuous (fun x => C x) _ => exact cC
    | |- continuous (fun x => ?c) _ => apply (c2_const c) end.
  Ltac nz := solve [lra | apply pow_nonzero; lra | (apply Rmult_integral_contrapositive_currified; lra) | (apply Rmult_integral_contrapositive_currified; [apply Rmult_integral_contrapositive_currified; lra|lra])].
  Lemma c_kR : continuous (fun p => kR (A p) (B p) (C p)) p.
  Proof using cA cB cC H1 H2 H3. unfold kR. repeat step; nz. Qed.
  Lemma c_kz : continuous (fun p => kz (A p) (B p) (C p)) p.
  Proof using cA cB cC H1 H2. unfold kz. repeat step; nz. Qed.
  Lemma c_kz2 : continuous (fun p => kz2 (A p) (B p) (C p)) p.
  Proof using cA cB cC H1 H2. unfold kz2. repeat step; nz. Qed.
  Lemma c_kR2 : continuous (fun p => kR2 (A p) (B p) (C p)) p.
  Proof using cA cB cC H1 H2 H3. unfold kR2. apply c2_minus; [apply c2_div; [apply c2_opp, c_kR|assumption|lra]|apply c_kz2]. Qed.
  Lemma c_kRz : continuous (fun p => kRz (A p) (B p) (C p)) p.
  Proof using cA cB cC H1 H2 H3. unfold kRz. repeat step; nz. Qed.
End C.

(** ** The quadratures *)
Lemma RInt_Chasles' (G : RR -> RR) (cG : forall a, continuous G a) u v w : RInt G u v + RInt G v w = RInt G u w.
Proof. apply (RInt_Chasles (V := R_CompleteNormedModule) G u v w); apply exi; exact cG. Qed.
Section Quad.
  Variables (top : RR) (R z : RR) (f : RR -> RR -> RR -> RR) (G : RR -> RR).
  Hypotheses (HR : 0 <= R) (Ht : 0 <= top) (HG : forall a, G a = f a (a - R) ((a - R) ^ 2 + z ^ 2)) (cG : forall a, continuous G a) (G0 : forall a, top <= a -> G a = 0).
  Let X u v : ex_RInt G u v := exi G u v cG.
  Lemma beyond u : 0 <= u -> RInt G 0 (Rmax u top) = RInt G 0 top.
  Proof using cG G0 X.
    intros Hu. destruct (Rle_dec u top) as [L|L]; [rewrite Rmax_right by exact L; reflexivity|]. rewrite Rmax_left by lra. rewrite <- (RInt_Chasles (V := R_CompleteNormedModule) G 0 top u) by apply X.
    assert (Z : RInt G top u = 0). { transitivity (RInt (fun _ : RR => 0) top u); [apply RInt_ext; intros x Hx; rewrite Rmin_left in Hx by lra; apply G0; lra|]. rewrite RInt_const. unfold scal; simpl. unfold mult; simpl. ring. }
    rewrite Z. unfold plus; simpl. rr. ring.
  Qed.
  Lemma plain_eq : RInt G 0 R + RInt G R (2 * R) + quad_inf top G (2 * R) = RInt G 0 top.
  Proof using HR cG G0 X. unfold quad_inf. rewrite <- (beyond (2 * R)) by lra. rewrite !(RInt_Chasles' G cG). reflexivity. Qed.
  Lemma apeak_eq : quad_apeak top f R z = RInt G 0 top.
  Proof using HR Ht HG cG G0 X.
    assert (E : forall u v, RInt (fun a => f a (a - R) ((a - R) ^ 2 + z ^ 2)) u v = RInt G u v) by (intros u v; apply RInt_ext; intros; symmetry; apply HG).
    assert (Ch : forall u v w, RInt G u v + RInt G v w = RInt G u w) by (intros u v w; apply (RInt_Chasles (V := R_CompleteNormedModule) G u v w); apply X).
    assert (Pl : RInt G 0 R + RInt G R (2 * R) + RInt G (2 * R) (Rmax (2 * R) top) = RInt G 0 top) by (rewrite Ch, Ch; apply beyond; lra).
    unfold quad_apeak, quad_inf. cbv zeta. rewrite !E. destruct (Req_EM_T (Rabs z) 0) as [|N]; [exact Pl|]. destruct (Rle_dec (/ 10 ^ 4 * R) (Rabs z)) as [|L]; [exact Pl|]. clear L.
    assert (P : 0 < Rabs z) by (pose proof (Rabs_pos z); lra). set (az := Rabs z) in *. assert (A2 : az ^ 2 = z ^ 2) by (unfold az; rewrite RPow_abs; apply Rabs_right; pose proof (pow2_ge_0 z); lra). clearbody az. set (tl := Rmin (10 ^ 4) (R / az)). clearbody tl.
    assert (Mid : RInt (fun t => f (R + az * t) (az * t) (z ^ 2 * (1 + t * t)) * az) (- tl) tl = RInt G (R - az * tl) (R + az * tl)).
    { pose proof (RInt_comp_lin (V := R_CompleteNormedModule) G az R (- tl) tl) as L. replace (az * - tl + R) with (R - az * tl) in L by ring. replace (az * tl + R) with (R + az * tl) in L by ring. rewrite <- (L (X _ _)).
      apply RInt_ext. intros t _. unfold scal; simpl. unfold mult; simpl. rewrite HG. replace (az * t + R - R) with (az * t) by ring. replace (az * t + R) with (R + az * t) by ring. replace ((az * t) ^ 2 + z ^ 2) with (z ^ 2 * (1 + t * t)) by (rewrite <- A2; ring). simpl. rr. ring. }
    rewrite Mid. rewrite <- Pl. rewrite !Ch. rewrite <- (Ch 0 (R - az * tl) (Rmax (2 * R) top)). rewrite <- (Ch (R - az * tl) (R + az * tl) (Rmax (2 * R) top)). rewrite <- (Ch (R + az * tl) (2 * R) (Rmax (2 * R) top)). rr. ring.
  Qed.
End Quad.
Section Finite.
  Variables (top : RR) (R az Cc : RR) (f G : RR -> RR).
  Hypotheses (HR : 0 < R) (Ht : 0 <= top) (Haz : 0 < az) (HG : forall d, f d = G (R + d)) (cG : forall a, continuous G a) (G0 : forall a, top <= a -> G a = 0).
  Lemma finite_eq : finite_part_quad top f R az Cc = - 4 * RInt G 0 top.
  Proof using HR Ht Haz HG cG G0.
    assert (X : forall u v, ex_RInt G u v) by (intros; apply exi; exact cG).
    assert (Ch : forall u v w, RInt G u v + RInt G v w = RInt G u w) by (intros u v w; apply (RInt_Chasles (V := R_CompleteNormedModule) G u v w); apply X).
    assert (cf : forall d, continuous f d) by (intros d; apply (continuous_ext (fun d => G (R + d))); [intros; symmetry; apply HG|apply (c2_comp G (fun d => R + d)); [apply (ex_derive_continuous (V := R_NormedModule)); auto_derive; exact I|apply cG]]).
    assert (Sh : forall u v, RInt f u v = RInt G (R + u) (R + v)).
    { intros u v. pose proof (RInt_comp_lin (V := R_CompleteNormedModule) G 1 R u v) as L. replace (1 * u + R) with (R + u) in L by ring. replace (1 * v + R) with (R + v) in L by ring. rewrite <- (L (X _ _)). apply RInt_ext. intros t _. unfold scal; simpl. unfold mult; simpl. rewrite HG. replace (1 * t + R) with (R + t) by ring. rr. ring. }
    assert (Rf : RInt (fun u => f (- u)) 0 R = RInt f (- R) 0).
    { pose proof (RInt_comp_lin (V := R_CompleteNormedModule) f (- 1) 0 0 R) as L. replace (- 1 * 0 + 0) with 0 in L by ring. replace (- 1 * R + 0) with (- R) in L by ring.
      rewrite <- (opp_RInt_swap (V := R_CompleteNormedModule) f 0 (- R)) by (apply exi; exact cf). rewrite <- L by (apply exi; exact cf).
      rewrite <- (RInt_opp (V := R_CompleteNormedModule)); [|apply exi; intros x; unfold scal; simpl; unfold mult; simpl; apply c2_mult; [apply c2_const|]; apply (c2_comp f (fun x => - 1 * x + 0)); [apply (ex_derive_continuous (V := R_NormedModule)); auto_derive; exact I|apply cf]].
      apply RInt_ext. intros t _. unfold opp, scal; simpl. unfold mult; simpl. replace (-1 * t + 0) with (- t) by ring. rr. ring. }
    unfold finite_part_quad. cbv zeta. destruct (Req_EM_T az 0) as [Q|_]; [lra|].
    set (sym := fun u => f u + f (- u)).
    assert (cs : forall u, continuous sym u) by (intros u; unfold sym; apply c2_plus; [apply cf|apply (c2_comp f (fun x => - x)); [apply (ex_derive_continuous (V := R_NormedModule)); auto_derive; exact I|apply cf]]).
    assert (In : RInt (fun t => sym (az * sinh t) * az * cosh t) 0 (arcsinh (R / az)) = RInt sym 0 R).
    { assert (dS : forall x, is_derive (fun t => az * sinh t) x (az * cosh x)) by (intros x; refine (is_derive_eq _ _ _ _ (is_derive_Rscal sinh x az (cosh x) _) _); [apply is_derive_Reals; apply derivable_pt_lim_sinh|reflexivity]).
      pose proof (is_RInt_comp (V := R_CompleteNormedModule) sym (fun t => az * sinh t) (fun t => az * cosh t) 0 (arcsinh (R / az))) as L.
      assert (K : is_RInt (fun t => scal (az * cosh t) (sym (az * sinh t))) 0 (arcsinh (R / az)) (RInt sym (az * sinh 0) (az * sinh (arcsinh (R / az))))).
      { apply L; [intros; apply cs|]. intros x _. split; [apply dS|]. apply c2_mult; [apply c2_const|]. apply (ex_derive_continuous (V := R_NormedModule)). exists (sinh x). apply is_derive_Reals. apply derivable_pt_lim_cosh. }
      rewrite sinh_arcsinh, sinh_0, Rmult_0_r in K. replace (az * (R / az)) with R in K by (field; lra). rewrite <- (is_RInt_unique (V := R_CompleteNormedModule) _ _ _ _ K). apply RInt_ext. intros t _. unfold scal; simpl. unfold mult; simpl. rr. ring. }
    assert (In' : RInt (fun t => (f (az * sinh t) + f (- (az * sinh t))) * az * cosh t) 0 (arcsinh (R / az)) = RInt sym 0 R) by exact In. rewrite In'. assert (Sp : RInt sym 0 R = RInt f 0 R + RInt f (- R) 0).
    { rewrite <- Rf. apply (RInt_plus (V := R_CompleteNormedModule) f (fun u => f (- u))); apply exi; [exact cf|intros u; apply (c2_comp f (fun x => - x)); [apply (ex_derive_continuous (V := R_NormedModule)); auto_derive; exact I|apply cf]]. }
    rewrite Sp, !Sh. replace (R + 0) with R by ring. replace (R + - R) with 0 by ring.
    assert (M : R + Rmax R (top - R) = Rmax (2 * R) top) by (unfold Rmax; destruct (Rle_dec R (top - R)), (Rle_dec (2 * R) top); lra). rewrite M. replace (R + R) with (2 * R) by ring.
    rewrite (Rplus_comm (RInt G R (2 * R))), !Ch. rewrite (beyond top G cG G0) by lra. reflexivity.
  Qed.
End Finite.

(** ** The disk *)
Lemma rpow15 x : 0 < x -> rpow x (3 / 2) = x * sqrt x.
Proof. intros P. rewrite rpow_3_2 by exact P. replace (sqrt x ^ 3) with (sqrt x ^ 2 * sqrt x) by ring. rewrite pow2_sqrt by lra. reflexivity. Qed.
Section Disk.
  Variables (sdens : RR -> RR) (top : RR).
  Hypotheses (Ht : 0 <= top) (cS : forall a, continuous sdens a) (S0 : forall a, top <= a -> sdens a = 0).
  Definition dk (k : RR -> RR -> RR -> RR) (R z a : RR) : RR := a * sdens a * k a R z.
  Definition dI (k : RR -> RR -> RR -> RR) (R z : RR) : RR := RInt (dk k R z) 0 top.
  Lemma dk0 k R z a : top <= a -> dk k R z a = 0. Proof using S0. intros H. unfold dk. rewrite (S0 a H). ring. Qed.
  Lemma c_dk k R z : (forall a, continuous (fun a => k a R z) a) -> forall a, continuous (dk k R z) a.
  Proof using cS. intros H a. unfold dk. apply c2_mult; [apply c2_mult; [apply continuous_id|apply cS]|apply H]. Qed.
  Section At.
    Variables R z : RR.
    Hypotheses (HR : 0 <= R) (Hz : z <> 0).
    Let p1 a : 0 < rd a R z := rd_pos a R z Hz.
    Let p2 a : 0 < rD a R z := rDz_pos a R z Hz.
    Lemma k_cont : forall a, continuous (fun a => kk a R z) a.
    Proof using Hz p1 p2. intros a. apply (c_kk (fun a : R_UniformSpace => a) (fun _ => R) (fun _ => z)); [apply continuous_id|apply c2_const|apply c2_const|apply p1|apply p2]. Qed.
    Lemma kz_cont : forall a, continuous (fun a => kz a R z) a.
    Proof using Hz p1 p2. intros a. apply (c_kz (fun a : R_UniformSpace => a) (fun _ => R) (fun _ => z)); [apply continuous_id|apply c2_const|apply c2_const|apply p1|apply p2]. Qed.
    Lemma kz2_cont : forall a, continuous (fun a => kz2 a R z) a.
    Proof using Hz p1 p2. intros a. apply (c_kz2 (fun a : R_UniformSpace => a) (fun _ => R) (fun _ => z)); [apply continuous_id|apply c2_const|apply c2_const|apply p1|apply p2]. Qed.
    Lemma kR_cont : 0 < R -> forall a, continuous (fun a => kR a R z) a.
    Proof using Hz p1 p2. intros P a. apply (c_kR (fun a : R_UniformSpace => a) (fun _ => R) (fun _ => z)); [apply continuous_id|apply c2_const|apply c2_const|apply p1|apply p2|exact P]. Qed.
    Lemma kR2_cont : 0 < R -> forall a, continuous (fun a => kR2 a R z) a.
    Proof using Hz p1 p2. intros P a. apply (c_kR2 (fun a : R_UniformSpace => a) (fun _ => R) (fun _ => z)); [apply continuous_id|apply c2_const|apply c2_const|apply p1|apply p2|exact P]. Qed.
    Lemma kRz_cont : 0 < R -> forall a, continuous (fun a => kRz a R z) a.
    Proof using Hz p1 p2. intros P a. apply (c_kRz (fun a : R_UniformSpace => a) (fun _ => R) (fun _ => z)); [apply continuous_id|apply c2_const|apply c2_const|apply p1|apply p2|exact P]. Qed.
    Lemma km1_eq a x y : x = rd a R z -> y = rD a R z -> ellipkm1 (x / y) = ellipk (mm a R z).
    Proof using Hz p2. intros -> ->. unfold ellipkm1. f_equal. rewrite <- (one_mm a R z (p2 a)). ring. Qed.
    Lemma em_eq a y : y = rD a R z -> Rmin (4 * a * R / y) 1 = mm a R z.
    Proof using Hz p1 p2. intros ->. pose proof (mm_lt1 a R z (p1 a) (p2 a)) as H. replace (4 * a * R / rD a R z) with (mm a R z) by (unfold mm; f_equal; ring). apply Rmin_left. lra. Qed.
    Lemma disk_ev_eq : disk_ev sdens top R z = - 4 * dI kk R z.
    Proof using Ht cS S0 HR Hz p1 p2.
      unfold disk_ev. cbv zeta. assert (E : quad_apeak top (fun a _ d2 => a * sdens a / sqrt ((R + a) ^ 2 + z ^ 2) * ellipkm1 (d2 / ((R + a) ^ 2 + z ^ 2))) R z = dI kk R z).
      { apply apeak_eq; [exact HR|exact Ht| |apply c_dk, k_cont|intros a; apply dk0]. intros a. rewrite (km1_eq a); [|unfold rd; ring|reflexivity]. unfold dk, kk. change ((R + a) ^ 2 + z ^ 2) with (rD a R z). unfold Rdiv. ring. }
      rewrite E. destruct (Req_EM_T R 0); [destruct (Req_EM_T z 0); [contradiction|reflexivity]|reflexivity].
    Qed.
    Lemma disk_zf_eq : disk_zf sdens top R z = 4 * dI kz R z.
    Proof using Ht cS S0 HR Hz p1 p2.
      unfold disk_zf. cbv zeta. destruct (Req_EM_T z 0) as [|_]; [contradiction|].
      assert (E : quad_apeak top (fun a _ d2 => a * sdens a * ellipe (Rmin (4 * a * R / ((a + R) ^ 2 + z ^ 2)) 1) / d2 / sqrt ((a + R) ^ 2 + z ^ 2)) R z = RInt (fun a => - / z * dk kz R z a) 0 top).
      { apply apeak_eq; [exact HR|exact Ht| |intros a; apply c2_mult; [apply c2_const|apply c_dk, kz_cont]|intros a H; rewrite (dk0 kz R z a H); ring].
        intros a. rewrite (em_eq a); [|unfold rD; ring]. replace ((a + R) ^ 2 + z ^ 2) with (rD a R z) by (unfold rD; ring). replace ((a - R) ^ 2 + z ^ 2) with (rd a R z) by (unfold rd; ring). unfold dk, kz, hh. pose proof (p1 a). pose proof (sqrt_lt_R0 _ (p2 a)). field. repeat split; lra. }
      rewrite E. pose proof (RInt_scal (V := R_CompleteNormedModule) (dk kz R z) 0 top (- / z)) as L. unfold scal in L; simpl in L. unfold mult in L; simpl in L. rewrite L by (apply exi, c_dk, kz_cont). unfold dI. field. exact Hz.
    Qed.
    Hypothesis HR' : 0 < R.
    Lemma disk_Rf_eq : disk_Rf sdens top R z = 4 * dI kR R z.
    Proof using Ht cS S0 HR Hz p1 p2 HR'.
      unfold disk_Rf. cbv zeta. set (f := fun a : RR => _).
      assert (F : forall a, f a = 2 * dk kR R z a).
      { intros a. unfold f. rewrite (em_eq a); [|unfold rD; ring]. rewrite (km1_eq a); [|unfold rd; ring|unfold rD; ring]. replace ((a + R) ^ 2 + z ^ 2) with (rD a R z) by (unfold rD; ring). replace ((a - R) ^ 2 + z ^ 2) with (rd a R z) by (unfold rd; ring).
        unfold dk, kR, hh, kk. pose proof (p1 a). pose proof (sqrt_lt_R0 _ (p2 a)). field. repeat split; lra. }
      assert (C : forall a, continuous f a) by (intros a; apply (continuous_ext (fun a => 2 * dk kR R z a)); [intros; symmetry; apply F|apply c2_mult; [apply c2_const|apply c_dk, kR_cont, HR']]).
      clearbody f. rewrite (plain_eq top R f HR C); [|intros a H; rewrite F, (dk0 kR R z a H); ring].
      pose proof (RInt_scal (V := R_CompleteNormedModule) (dk kR R z) 0 top 2) as L. unfold scal in L; simpl in L. unfold mult in L; simpl in L. rewrite (RInt_ext f (fun a => 2 * dk kR R z a)) by (intros; apply F). rewrite L by (apply exi, c_dk, kR_cont, HR'). unfold dI. rr. ring.
    Qed.
    Lemma disk_Rz_eq : disk_Rz sdens top R z = - 4 * dI kRz R z.
    Proof using Ht cS S0 HR Hz p1 p2 HR'.
      unfold disk_Rz. cbv zeta. match goal with |- _ * quad_apeak _ ?f _ _ = _ => assert (E : quad_apeak top f R z = RInt (fun a => 2 * / z * dk kRz R z a) 0 top) end.
      { apply apeak_eq; [exact HR|exact Ht| |intros a; apply c2_mult; [apply c2_const|apply c_dk, kRz_cont, HR']|intros a H; rewrite (dk0 kRz R z a H); ring].
        intros a. rewrite (em_eq a); [|unfold rD; ring]. rewrite (km1_eq a); [|unfold rd; ring|unfold rD; ring]. replace ((a + R) ^ 2 + z ^ 2) with (rD a R z) by (unfold rD; ring). rewrite rpow15 by apply p2.
        unfold dk, kRz, hh, kk. pose proof (p1 a) as Q1. pose proof (p2 a) as Q2. pose proof (sqrt_lt_R0 _ Q2) as Q3. set (s := sqrt _) in *. clearbody s. set (Ee := ellipe _). set (Kk := ellipk _). clearbody Ee Kk. unfold rd, rD in *. field. repeat split; lra. }
      rewrite E. pose proof (RInt_scal (V := R_CompleteNormedModule) (dk kRz R z) 0 top (2 * / z)) as L. unfold scal in L; simpl in L. unfold mult in L; simpl in L. rewrite L by (apply exi, c_dk, kRz_cont, HR'). unfold dI. field. exact Hz.
    Qed.
    Hypothesis Hf : zfloor <= Rabs z.
    Lemma fl : floored z = Rabs z. Proof using Hf. unfold floored. cbv zeta. destruct (Rlt_dec (Rabs z) zfloor); [lra|reflexivity]. Qed.
    Lemma az2 : Rabs z ^ 2 = z ^ 2. Proof using. rewrite RPow_abs. apply Rabs_right. pose proof (pow2_ge_0 z). lra. Qed.
    Lemma disk_z2_eq : disk_z2 sdens top R z = - 4 * dI kz2 R z.
    Proof using Ht cS S0 HR Hz p1 p2 HR' Hf.
      unfold disk_z2. cbv zeta. rewrite fl, az2. unfold dI. apply finite_eq; [exact HR'|exact Ht|apply Rabs_pos_lt; exact Hz| |apply c_dk, kz2_cont|intros a; apply dk0].
      intros d. set (a := R + d). replace d with (a - R) by (unfold a; ring). clearbody a. rewrite (em_eq a); [|unfold rD; ring]. rewrite (km1_eq a); [|unfold rd; ring|unfold rD; ring]. replace ((2 * R + (a - R)) ^ 2 + z ^ 2) with (rD a R z) by (unfold rD; ring). rewrite rpow15 by apply p2.
      unfold dk, kz2, hh, kk. pose proof (p1 a) as Q1. pose proof (p2 a) as Q2. pose proof (sqrt_lt_R0 _ Q2) as Q3. set (s := sqrt _) in *. clearbody s. set (Ee := ellipe _). set (Kk := ellipk _). clearbody Ee Kk. unfold rd, rD in *. field. repeat split; lra.
    Qed.
    Lemma disk_R2_eq : disk_R2 sdens top R z = - 4 * dI kR2 R z.
    Proof using Ht cS S0 HR Hz p1 p2 HR' Hf.
      unfold disk_R2. cbv zeta. rewrite fl, az2. unfold dI. apply finite_eq; [exact HR'|exact Ht|apply Rabs_pos_lt; exact Hz| |apply c_dk, kR2_cont, HR'|intros a; apply dk0].
      intros d. set (a := R + d). replace d with (a - R) by (unfold a; ring). clearbody a. rewrite (em_eq a); [|unfold rD; ring]. rewrite (km1_eq a); [|unfold rd; ring|unfold rD; ring]. replace ((2 * R + (a - R)) ^ 2 + z ^ 2) with (rD a R z) by (unfold rD; ring). rewrite rpow15 by apply p2.
      unfold dk, kR2, kR, kz2, hh, kk. pose proof (p1 a) as Q1. pose proof (p2 a) as Q2. pose proof (sqrt_lt_R0 _ Q2) as Q3. set (s := sqrt _) in *. clearbody s. set (Ee := ellipe _). set (Kk := ellipk _). clearbody Ee Kk. unfold rd, rD in *. field. repeat split; lra.
    Qed.
  End At.
End Disk.

(** ** Derivatives *)
Section DiskD.
  Variables (sdens : RR -> RR) (top : RR).
  Hypotheses (Ht : 0 <= top) (cS : forall a, continuous sdens a) (S0 : forall a, top <= a -> sdens a = 0).
  Lemma d_dI_R k k' R z : 0 < R -> z <> 0 ->
    (forall a R, a <> 0 -> 0 < R -> is_derive (fun R => k a R z) R (k' a R z)) ->
    (forall R, 0 < R -> forall a, continuous (fun a => k a R z) a) ->
    (forall s : RR, continuous (fun p : P2 => k' (snd p) (fst p) z) (R, s)) ->
    is_derive (fun R => dI sdens top k R z) R (dI sdens top k' R z).
  Proof using cS.
    intros HR Hz D C1 C2. unfold dI. apply (param_ab (fun R a => dk sdens k R z a) (fun R a => dk sdens k' R z a)).
    - apply (filter_imp (fun v => 0 < v)); [|apply locally_pos; exact HR]. intros v Hv s. destruct (Req_EM_T s 0) as [->|N].
      + unfold dk. apply (is_derive_ext (fun _ => 0)); [intros; rr; ring|]. rewrite !Rmult_0_l. apply is_derive_cst.
      + unfold dk. apply is_derive_Rscal. apply D; assumption.
    - apply (filter_imp (fun v => 0 < v)); [|apply locally_pos; exact HR]. intros v Hv s. apply (c_dk sdens cS). apply C1; exact Hv.
    - intros s. unfold dk. apply (c2_mult (U := P2)); [|exact (C2 s)]. apply (c2_mult (U := P2)); [apply c2_snd|]. apply (c2_comp (U := P2) sdens (fun p => snd p)); [apply c2_snd|apply cS].
  Qed.
  Lemma d_dI_z k k' R z : 0 < R -> z <> 0 ->
    (forall a z, a <> 0 -> z <> 0 -> is_derive (fun z => k a R z) z (k' a R z)) ->
    (forall z, z <> 0 -> forall a, continuous (fun a => k a R z) a) ->
    (forall s : RR, continuous (fun p : P2 => k' (snd p) R (fst p)) (z, s)) ->
    is_derive (fun z => dI sdens top k R z) z (dI sdens top k' R z).
  Proof using cS.
    intros HR Hz D C1 C2. unfold dI. assert (L : locally z (fun v => v <> 0)) by (apply (open_neq 0); exact Hz). apply (param_ab (fun z a => dk sdens k R z a) (fun z a => dk sdens k' R z a)).
    - revert L. apply filter_imp. intros v Hv s. destruct (Req_EM_T s 0) as [->|N].
      + unfold dk. apply (is_derive_ext (fun _ => 0)); [intros; rr; ring|]. rewrite !Rmult_0_l. apply is_derive_cst.
      + unfold dk. apply is_derive_Rscal. apply D; assumption.
    - revert L. apply filter_imp. intros v Hv s. apply (c_dk sdens cS). apply C1; exact Hv.
    - intros s. unfold dk. apply (c2_mult (U := P2)); [|exact (C2 s)]. apply (c2_mult (U := P2)); [apply c2_snd|]. apply (c2_comp (U := P2) sdens (fun p => snd p)); [apply c2_snd|apply cS].
  Qed.
  Let rp a R z (H : z <> 0) : 0 < rd a R z := rd_pos a R z H.
  Let rq a R z (H : z <> 0) : 0 < rD a R z := rDz_pos a R z H.
  Ltac cR L := intros s; apply (L (prod_UniformSpace R_UniformSpace R_UniformSpace) (fun p => snd p) (fun p => fst p) (fun _ => _)); [apply c2_snd|apply c2_fst|apply c2_const|apply rp; assumption|apply rq; assumption|..]; try assumption.
  Ltac cZ L := intros s; apply (L (prod_UniformSpace R_UniformSpace R_UniformSpace) (fun p => snd p) (fun _ => _) (fun p => fst p)); [apply c2_snd|apply c2_const|apply c2_fst|apply rp; assumption|apply rq; assumption|..]; try assumption.
  Section P.
    Variables R z : RR.
    Hypotheses (HR : 0 < R) (Hz : z <> 0).
    Lemma dI_kR : is_derive (fun R => dI sdens top kk R z) R (dI sdens top kR R z).
    Proof using cS HR Hz rp rq. apply d_dI_R; [exact HR|exact Hz| |intros; apply k_cont; exact Hz|cR @c_kR]. intros a x Na Hx. apply d_kR; [exact Hx|apply rp; exact Hz|apply rq; exact Hz|exact Na]. Qed.
    Lemma dI_kz : is_derive (fun z => dI sdens top kk R z) z (dI sdens top kz R z).
    Proof using cS HR Hz rp rq. apply d_dI_z; [exact HR|exact Hz| |intros; apply k_cont; assumption|cZ @c_kz]. intros a x Na Hx. apply d_kz; [exact HR|apply rp; exact Hx|apply rq; exact Hx|exact Na]. Qed.
    Lemma dI_kRR : is_derive (fun R => dI sdens top kR R z) R (dI sdens top kR2 R z).
    Proof using cS HR Hz rp rq. apply d_dI_R; [exact HR|exact Hz| |intros; apply kR_cont; assumption|cR @c_kR2]. intros a x Na Hx. apply d_kRR; try assumption; [apply rp; exact Hz|apply rq; exact Hz]. Qed.
    Lemma dI_kzz : is_derive (fun z => dI sdens top kz R z) z (dI sdens top kz2 R z).
    Proof using cS HR Hz rp rq. apply d_dI_z; [exact HR|exact Hz| |intros; apply kz_cont; assumption|cZ @c_kz2]. intros a x Na Hx. apply d_kzz; try assumption; [apply rp; exact Hx|apply rq; exact Hx]. Qed.
    Lemma dI_kRz : is_derive (fun z => dI sdens top kR R z) z (dI sdens top kRz R z).
    Proof using cS HR Hz rp rq. apply d_dI_z; [exact HR|exact Hz| |intros; apply kR_cont; assumption|cZ @c_kRz]. intros a x Na Hx. apply d_kRz'; try assumption; [apply rp; exact Hx|apply rq; exact Hx]. Qed.
    Lemma dI_kzR : is_derive (fun R => dI sdens top kz R z) R (dI sdens top kRz R z).
    Proof using cS HR Hz rp rq. apply d_dI_R; [exact HR|exact Hz| |intros; apply kz_cont; assumption|cR @c_kRz]. intros a x Na Hx. apply d_kzR; try assumption; [apply rp; exact Hz|apply rq; exact Hz]. Qed.
    Lemma dI_laplace : dI sdens top kR2 R z + dI sdens top kz2 R z + dI sdens top kR R z / R = 0.
    Proof using cS HR Hz.
      unfold dI. pose proof (exi _ 0 top (c_dk sdens cS kR2 R z (kR2_cont R z Hz HR))) as X1. pose proof (exi _ 0 top (c_dk sdens cS kz2 R z (kz2_cont R z Hz))) as X2. pose proof (exi _ 0 top (c_dk sdens cS kR R z (kR_cont R z Hz HR))) as X3.
      pose proof (is_RInt_plus (V := R_NormedModule) _ _ _ _ _ _ (is_RInt_plus (V := R_NormedModule) _ _ _ _ _ _ (icor _ _ _ X1) (icor _ _ _ X2)) (is_RInt_scal (V := R_NormedModule) _ _ _ (/ R) _ (icor _ _ _ X3))) as J. unfold plus, scal in J; simpl in J. unfold mult in J; simpl in J.
      assert (Z : is_RInt (fun _ : RR => 0) 0 top 0). { pose proof (is_RInt_const (V := R_NormedModule) 0 top (0 : R_NormedModule)) as C. unfold scal in C; simpl in C. unfold mult in C; simpl in C. rewrite Rmult_0_r in C. exact C. }
      assert (Z' : is_RInt (fun x => dk sdens kR2 R z x + dk sdens kz2 R z x + / R * dk sdens kR R z x) 0 top 0) by (refine (is_RInt_ext _ _ _ _ _ _ Z); intros x _; unfold dk, kR2; rr; field; lra).
      unfold Rdiv. rewrite (Rmult_comm (RInt (dk sdens kR R z) 0 top)). rewrite <- (is_RInt_unique (V := R_CompleteNormedModule) _ _ _ _ J). apply (is_RInt_unique (V := R_CompleteNormedModule)). exact Z'.
    Qed.
  End P.
End DiskD.
