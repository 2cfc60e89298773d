(** Derivatives of the spiral-arm potential, harmonic by harmonic. *)
From Coq Require Import Reals Lra Psatz List.
From Coquelicot Require Import Coquelicot.
From Verif.Lib Require Import RealAux.
From Verif.Model Require Import PotAPI PotSpiral.
From Verif.Spec Require Import PotSpec PotApiSpec SpiralBarSpec.
From Verif.Proofs Require Import PotLift NonAxiProofs EOMProofs StaeckelProofs.
Open Scope R_scope.
Notation RR := RbaseSymbolsImpl.R (only parsing).
Ltac rr := match goal with |- ?a = ?b => change (@eq RR a b) end.

(** ** Sums over harmonics *)
Lemma d_hsum (l : list (RR * RR)) (a : RR -> RR) (F : RR -> RR -> RR -> RR) (b : RR) (G : RR -> RR -> RR) (x : RR) :
  (forall n C, In (n, C) l -> is_derive (fun y => a y * F n C y) x (b * G n C)) ->
  is_derive (fun y => a y * hsum l (fun n C => F n C y)) x (b * hsum l G).
Proof.
  induction l as [|[n C] l IH]; intros H; cbn [hsum fold_right fst snd].
  - apply (is_derive_ext (fun _ => 0)). { intros y. rr. ring. }
    refine (is_derive_eq _ _ _ _ (is_derive_cst 0 x) _). rr. ring.
  - apply (is_derive_ext (fun y => a y * F n C y + a y * hsum l (fun n C => F n C y))).
    { intros y. unfold hsum. rr. ring. }
    refine (is_derive_eq _ _ _ _ (is_derive_Rplus _ _ _ _ _ (H n C (or_introl eq_refl)) (IH _)) _).
    { intros m D HI. apply H. right. exact HI. }
    unfold hsum. rr. ring.
Qed.
Lemma hsum_eq4 (l : list (RR * RR)) (a b c d e k1 k2 k3 : RR) (A B C D E : RR -> RR -> RR) :
  (forall n v, In (n, v) l -> a * A n v * k1 + b * B n v * k2 + c * C n v * k3 + d * D n v = e * E n v) ->
  a * hsum l A * k1 + b * hsum l B * k2 + c * hsum l C * k3 + d * hsum l D = e * hsum l E.
Proof.
  induction l as [|[n v] l IH]; intros H; cbn [hsum fold_right fst snd].
  - ring.
  - assert (I : a * hsum l A * k1 + b * hsum l B * k2 + c * hsum l C * k3 + d * hsum l D = e * hsum l E).
    { apply IH. intros m w HI. apply H. right. exact HI. }
    pose proof (H n v (or_introl eq_refl)) as J. unfold hsum in I |- *. lra.
Qed.
Lemma harmonics_pos (s : Spiral) n C : In (n, C) (harmonics s) -> 0 < n.
Proof.
  intros H. apply in_combine_l in H. apply in_map_iff in H. destruct H as (k & <- & Hk).
  apply in_seq in Hk. apply lt_0_INR. lia.
Qed.

(** ** Derivative rules in the code's own atoms *)
Lemma coshp (x : RR) : 0 < cosh x.
Proof. unfold cosh. pose proof (exp_pos x). pose proof (exp_pos (- x)). lra. Qed.
Lemma sech_rpow (x b : RR) : rpow (1 / cosh x) b = / rpow (cosh x) b.
Proof.
  unfold rpow, Rpower. pose proof (coshp x). replace (1 / cosh x) with (/ cosh x) by (field; lra).
  rewrite ln_Rinv by auto. rewrite <- exp_Ropp. f_equal. ring.
Qed.
Lemma d_tanh (f : RR -> RR) (t d : RR) : is_derive f t d -> is_derive (fun y => tanh (f y)) t ((1 - tanh (f t) ^ 2) * d).
Proof.
  intros D. unfold tanh. refine (is_derive_eq _ _ _ _ (d_quot _ _ _ _ _ _ (d_sinh f t d D) (d_cosh f t d D)) _).
  - pose proof (coshp (f t)). lra.
  - cbv beta. pose proof (coshp (f t)). rr. field. lra.
Qed.
Lemma d_lsech (f : RR -> RR) (t d : RR) : is_derive f t d -> is_derive (fun y => ln (1 / cosh (f y))) t (- tanh (f t) * d).
Proof.
  intros D. apply (is_derive_ext (fun y => - ln (cosh (f y)))).
  { intros y. pose proof (coshp (f y)). replace (1 / cosh (f y)) with (/ cosh (f y)) by (field; lra). rewrite ln_Rinv by auto. reflexivity. }
  pose proof (coshp (f t)) as Hp.
  assert (L : is_derive ln (cosh (f t)) (/ cosh (f t))). { apply is_derive_Reals. apply derivable_pt_lim_ln. exact Hp. }
  refine (is_derive_eq _ _ _ _ (is_derive_opp _ _ _ (is_derive_Rchain ln (fun y => cosh (f y)) t _ _ L (d_cosh f t d D))) _).
  unfold opp; cbn. unfold tanh. rr. field. lra.
Qed.
Lemma d_coshpow (f b : RR -> RR) (t d e : RR) : is_derive f t d -> is_derive b t e ->
  is_derive (fun y => rpow (cosh (f y)) (b y)) t (rpow (cosh (f t)) (b t) * (b t * tanh (f t) * d - e * ln (1 / cosh (f t)))).
Proof.
  intros D E. unfold rpow, Rpower.
  pose proof (coshp (f t)) as Hp.
  assert (L : is_derive (fun y => ln (cosh (f y))) t (tanh (f t) * d)).
  { assert (L : is_derive ln (cosh (f t)) (/ cosh (f t))). { apply is_derive_Reals. apply derivable_pt_lim_ln. exact Hp. }
    refine (is_derive_eq _ _ _ _ (is_derive_Rchain ln (fun y => cosh (f y)) t _ _ L (d_cosh f t d D)) _).
    unfold tanh. rr. field. lra. }
  assert (X : is_derive exp (b t * ln (cosh (f t))) (exp (b t * ln (cosh (f t))))). { apply is_derive_Reals. apply derivable_pt_lim_exp. }
  refine (is_derive_eq _ _ _ _ (is_derive_Rchain exp (fun y => b y * ln (cosh (f y))) t _ _ X (is_derive_Rmult b (fun y => ln (cosh (f y))) t e _ E L)) _).
  replace (1 / cosh (f t)) with (/ cosh (f t)) by (field; lra). rewrite ln_Rinv by auto. cbv beta. rr. ring.
Qed.
Lemma d_sechpow (f b : RR -> RR) (t d e : RR) : is_derive f t d -> is_derive b t e ->
  is_derive (fun y => rpow (1 / cosh (f y)) (b y)) t (/ rpow (cosh (f t)) (b t) * (e * ln (1 / cosh (f t)) - b t * tanh (f t) * d)).
Proof.
  intros D E. apply (is_derive_ext (fun y => 1 / rpow (cosh (f y)) (b y))).
  { intros y. rewrite sech_rpow. unfold Rdiv. rr. ring. }
  pose proof (rpow_pos (cosh (f t)) (b t)) as Hp.
  refine (is_derive_eq _ _ _ _ (d_quot _ _ _ _ _ _ (is_derive_cst 1 t) (d_coshpow f b t d e D E)) _).
  - lra.
  - cbv beta. rr. field. lra.
Qed.
Lemma d_exp (f : RR -> RR) (t d : RR) : is_derive f t d -> is_derive (fun y => exp (f y)) t (exp (f t) * d).
Proof.
  intros D. assert (X : is_derive exp (f t) (exp (f t))). { apply is_derive_Reals. apply derivable_pt_lim_exp. }
  exact (is_derive_Rchain exp f t _ _ X D).
Qed.
Lemma d_opp (f : RR -> RR) (t d : RR) : is_derive f t d -> is_derive (fun y => - f y) t (- d).
Proof. intros D. exact (is_derive_opp f t d D). Qed.
Lemma d_pow (f : RR -> RR) (k : nat) (t d : RR) : is_derive f t d -> is_derive (fun y => f y ^ k) t (INR k * d * f t ^ pred k).
Proof. intros D. exact (is_derive_pow f k t d D). Qed.

(** Builds the derivative of an expression; leaves the nonvanishing of denominators. *)
Ltac dv :=
  first
  [ eassumption
  | lazymatch goal with
    | |- is_derive (fun _ => ?c) _ _ => exact (is_derive_cst c _)
    | |- is_derive (fun y => y) _ _ => exact (d_id _)
    | |- is_derive (fun y => @?f y + @?g y) _ _ => eapply (is_derive_Rplus f g); dv
    | |- is_derive (fun y => @?f y - @?g y) _ _ => eapply (d_minus f g); dv
    | |- is_derive (fun y => @?f y * @?g y) _ _ => eapply (is_derive_Rmult f g); dv
    | |- is_derive (fun y => @?f y / @?g y) _ _ => eapply (d_quot f g); [cbv beta|dv|dv]
    | |- is_derive (fun y => - @?f y) _ _ => eapply (d_opp f); dv
    | |- is_derive (fun y => @?f y ^ ?k) _ _ => eapply (d_pow f k); dv
    | |- is_derive (fun y => cos (@?f y)) _ _ => eapply (d_cos f); dv
    | |- is_derive (fun y => sin (@?f y)) _ _ => eapply (d_sin f); dv
    | |- is_derive (fun y => exp (@?f y)) _ _ => eapply (d_exp f); dv
    | |- is_derive (fun y => tanh (@?f y)) _ _ => eapply (d_tanh f); dv
    | |- is_derive (fun y => ln (1 / cosh (@?f y))) _ _ => eapply (d_lsech f); dv
    | |- is_derive (fun y => rpow (cosh (@?f y)) (@?g y)) _ _ => eapply (d_coshpow f g); dv
    | |- is_derive (fun y => rpow (1 / cosh (@?f y)) (@?g y)) _ _ => eapply (d_sechpow f g); dv
    end
  | idtac ].


Section One.
  Variable s : Spiral.
  Hypothesis Hs : spiral_ok s.
  Let sa := sin (a_alpha s).
  Let ca := cos (a_alpha s).
  Lemma sa_pos : 0 < sin (a_alpha s). Proof. destruct Hs as (_ & H & _). apply sin_gt_0; lra. Qed.
  Lemma ca_pos : 0 < cos (a_alpha s). Proof. destruct Hs as (_ & H & _). apply cos_gt_0; lra. Qed.
  Lemma sina_eq : sina s = - sa. Proof. unfold sina, sa. apply sin_neg. Qed.
  Lemma tana_eq : tana s = - (sa / ca). Proof. unfold tana, tan, sa, ca. rewrite sin_neg, cos_neg. field. pose proof ca_pos. lra. Qed.
  Lemma calpha_eq : cos (salpha s) = ca. Proof. unfold salpha. apply cos_neg. Qed.

  Section Harmonic.
    Variable n : RR.
    Hypothesis Hn : 0 < n.
    Let q := n * a_N s / sa.
    Lemma q_pos : 0 < n * a_N s / sin (a_alpha s).
    Proof. destruct Hs as (H & _). apply Rdiv_lt_0_compat; [nra|apply sa_pos]. Qed.
    Variable R : RR.
    Hypothesis HR : 0 < R.
    Let h := a_H s * q / R.
    Lemma h_pos : 0 < h.
    Proof. unfold h, q. destruct Hs as (_ & _ & _ & _ & H). pose proof q_pos. apply Rdiv_lt_0_compat; [apply Rmult_lt_0_compat; [exact H|exact H0]|exact HR]. Qed.
    Lemma sK_eq : sK s n R = q / R.
    Proof. unfold sK. rewrite sina_eq. unfold sN, q. pose proof sa_pos. fold sa in H. field. repeat split; lra. Qed.
    Lemma sB_eq : sB s n R = h * (4 / 10 * h + 1).
    Proof. unfold sB, HNn. cbv zeta. rewrite sina_eq. unfold sN, h, q. pose proof sa_pos. fold sa in H. field. repeat split; lra. Qed.
    Lemma sD_eq : sD s n R = (3 / 10 * h ^ 2 + h + 1) / (3 / 10 * h + 1).
    Proof.
      pose proof h_pos as Hh. unfold sD, HNn. rewrite sina_eq. unfold sN. pose proof sa_pos as Hsa. fold sa in Hsa.
      replace (a_H s * - a_N s * n) with (- (h * R * sa)) by (unfold h, q; field; lra).
      clearbody h sa. assert (0 < R * sa) by nra. assert (0 < R * sa * h) by nra. field. repeat split; try lra; nra.
    Qed.
    Lemma dK_eq : dK_dR s n R = - q / R ^ 2.
    Proof. unfold dK_dR. rewrite sina_eq. unfold sN, q. pose proof sa_pos. fold sa in H. field. repeat split; lra. Qed.
    Lemma dB_eq : dB_dR s n R = - h / R * (8 / 10 * h + 1).
    Proof.
      unfold dB_dR, HNn. rewrite sina_eq. unfold sN. pose proof sa_pos as Hsa. fold sa in Hsa.
      replace (a_H s * - a_N s * n) with (- (h * R * sa)) by (unfold h, q; field; lra).
      clearbody h sa. field. repeat split; lra.
    Qed.
    Lemma dD_eq : dD_dR s n R = h / R * (3 / 10 * (h + 3 / 10 * h ^ 2 + 1) / (3 / 10 * h + 1) ^ 2 - (1 + 6 / 10 * h) / (3 / 10 * h + 1)).
    Proof.
      pose proof h_pos as Hh. unfold dD_dR, HNn. cbv zeta. rewrite sina_eq. unfold sN. pose proof sa_pos as Hsa. fold sa in Hsa.
      replace (a_H s * - a_N s * n / R / - sa) with h by (unfold h, q; field; lra).
      clearbody h sa. field. repeat split; lra.
    Qed.
    Lemma K_pos : 0 < sK s n R.
    Proof. rewrite sK_eq. apply Rdiv_lt_0_compat; [apply q_pos|exact HR]. Qed.
    Lemma B_pos : 0 < sB s n R. Proof. rewrite sB_eq. pose proof h_pos. nra. Qed.
    Lemma D_pos : 0 < sD s n R. Proof. rewrite sD_eq. pose proof h_pos. apply Rdiv_lt_0_compat; nra. Qed.

    Lemma sin_ne : sina s <> 0. Proof. rewrite sina_eq. pose proof sa_pos. fold sa in H. lra. Qed.
    Lemma tan_ne : tana s <> 0. Proof. rewrite tana_eq. pose proof sa_pos. pose proof ca_pos. fold sa in H. fold ca in H0. assert (0 < sa / ca) by (apply Rdiv_lt_0_compat; assumption). lra. Qed.

    Lemma d_K : is_derive (fun y => sK s n y) R (dK_dR s n R).
    Proof. unfold sK, dK_dR. pose proof sin_ne. refine (is_derive_eq _ _ _ _ _ _); [dv; lra|]. cbv beta. rr. field. repeat split; lra. Qed.
    Lemma d_B : is_derive (fun y => sB s n y) R (dB_dR s n R).
    Proof. unfold sB, dB_dR. cbv zeta. pose proof sin_ne. refine (is_derive_eq _ _ _ _ _ _); [dv; lra|]. cbv beta. rr. field. repeat split; lra. Qed.
    Lemma den_ne : 3 / 10 * HNn s n + R * sina s <> 0.
    Proof. pose proof h_pos as Hh. unfold HNn, sN. rewrite sina_eq. pose proof sa_pos as Hsa. fold sa in Hsa.
      replace (a_H s * - a_N s * n) with (- (h * R * sa)) by (unfold h, q; field; lra). clearbody h sa.
      assert (0 < R * sa * (3 / 10 * h + 1)) by (apply Rmult_lt_0_compat; nra). nra. Qed.
    Lemma d_D : is_derive (fun y => sD s n y) R (dD_dR s n R).
    Proof. unfold sD, dD_dR. cbv zeta. pose proof sin_ne. pose proof den_ne. refine (is_derive_eq _ _ _ _ _ _); [dv; lra|]. cbv beta. rr. field. repeat split; lra. Qed.
    Lemma d_gam (p : RR) : is_derive (fun y => sgamma s y p) R (dgamma_dR s R).
    Proof.
      unfold sgamma, dgamma_dR. pose proof tan_ne as Ht. destruct Hs as (_ & _ & Hr & _).
      assert (L : is_derive (fun y => ln (y / a_rref s)) R (/ R)).
      { assert (Hp : 0 < R / a_rref s) by (apply Rdiv_lt_0_compat; assumption).
        assert (L : is_derive ln (R / a_rref s) (/ (R / a_rref s))). { apply is_derive_Reals. apply derivable_pt_lim_ln. exact Hp. }
        assert (M : is_derive (fun y => y / a_rref s) R (/ a_rref s)).
        { refine (is_derive_eq _ _ _ _ _ _); [dv; lra|]. cbv beta. rr. field. lra. }
        refine (is_derive_eq _ _ _ _ (is_derive_Rchain ln (fun y => y / a_rref s) R _ _ L M) _). rr. field. lra. }
      refine (is_derive_eq _ _ _ _ _ _); [dv; lra|]. cbv beta. rr. field. lra.
    Qed.
    Definition d2K : RR := 2 * sN s * n / R ^ 3 / sina s.
    Definition d2B : RR := let hh := HNn s n / (R * sina s) in hh / R ^ 2 * (24 / 10 * hh + 2).
    Definition d2D : RR := let R_sina := R * sina s in
      let h := HNn s n / R_sina in let h2 := h ^ 2 in
      let x := R * (3 / 10 * h + 1) * sina s in
      sina s / R / x *
        (HNn s n * (18 / 100 * HNn s n * (h + 3 / 10 * h2 + 1) / x ^ 2 + 2 / R_sina
                  - 6 / 10 * h * (1 + 6 / 10 * h) / x
                  - 6 / 10 * (h + 3 / 10 * h2 + 1) / x
                  + 18 / 10 * HNn s n / R_sina ^ 2)).
    Lemma den_ne2 : 3 / 10 * (HNn s n / R / sina s) + 1 <> 0.
    Proof. pose proof den_ne as H. pose proof sin_ne. intros E. apply H. replace (3 / 10 * HNn s n + R * sina s) with ((R * sina s) * (3 / 10 * (HNn s n / R / sina s) + 1)) by (field; split; lra). rewrite E. ring. Qed.
    Lemma d_dK : is_derive (fun y => dK_dR s n y) R d2K.
    Proof. unfold dK_dR, d2K. pose proof sin_ne. assert (R ^ 2 <> 0) by nra. refine (is_derive_eq _ _ _ _ _ _); [dv; lra|]. cbv beta. cbn [INR pred pow]. rr. field. repeat split; lra. Qed.
    Lemma d_dB : is_derive (fun y => dB_dR s n y) R d2B.
    Proof. unfold dB_dR, d2B. cbv zeta. pose proof sin_ne as Hn'. assert (R ^ 3 <> 0) by (apply pow_nonzero; lra). assert (sina s ^ 2 <> 0) by (apply pow_nonzero; lra). refine (is_derive_eq _ _ _ _ _ _); [dv; lra|]. cbv beta. cbn [INR pred pow]. rr. field. repeat split; lra. Qed.
    Lemma d_dD : is_derive (fun y => dD_dR s n y) R d2D.
    Proof.
      unfold dD_dR, d2D. cbv zeta. pose proof sin_ne as Hsn. pose proof den_ne as Hd. pose proof den_ne2 as He.
      assert ((3 / 10 * (HNn s n / R / sina s) + 1) ^ 2 <> 0) by (apply pow_nonzero; exact He).
      refine (is_derive_eq _ _ _ _ _ _); [dv; first [lra|exact He|assumption]|]. cbv beta. cbn [INR pred pow]. rr. field. repeat split; lra.
    Qed.
    Lemma d_dg : is_derive (fun y => dgamma_dR s y) R (sN s / R ^ 2 / tana s).
    Proof. unfold dgamma_dR. pose proof tan_ne. refine (is_derive_eq _ _ _ _ _ _); [dv; lra|]. cbv beta. rr. field. repeat split; lra. Qed.
  End Harmonic.
End One.
