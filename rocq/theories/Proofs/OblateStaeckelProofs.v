(** A potential (U(u) - V(v)) / (sinh^2 u + sin^2 v) through the prolate spheroidal coordinates: its gradient and its second derivatives. *)
From Coq Require Import Reals Lra Lia.
From Coquelicot Require Import Coquelicot.
From Verif.Lib Require Import RealAux.
From Verif.Model Require Import PotAPI CoordsSpheroid OblateStaeckel.
From Verif.Spec Require Import StaeckelSpec OblateSpec.
From Verif.Proofs Require Import SpheroidProofs EOMProofs StaeckelProofs.
Open Scope R_scope.
Notation RR := RbaseSymbolsImpl.R (only parsing).
Ltac rr := match goal with |- ?a = ?b => change (@eq RR a b) end.

Section Algebra.
  (** eight numbers: U, U', U'', V, V', V'' and sinh u, cosh u, sin v, cos v *)
  Variables (delta a b e f g h S C s c : RR).
  Let W := S ^ 2 + s ^ 2.
  Definition aR : RR := (- b * C * s + g * S * c + (a - f) * (2 * S * C * (C * s) + 2 * s * c * (S * c)) / W) / (delta * W ^ 2).
  Definition az : RR := (- b * S * c - g * C * s + (a - f) * (2 * S * C * (S * c) - 2 * s * c * (C * s)) / W) / (delta * W ^ 2).
  Definition umR : RR := delta * (2 * S * C * s * C + 2 * s * c * S * c) / W.
  Definition umz : RR := delta * (2 * S * C * (S * c) - 2 * s * c * (s * C)) / W.
  Definition aRR : RR :=
    (e * s ^ 2 * C ^ 2 + b * S * C - h * S ^ 2 * c ^ 2 - g * s * c
      + ((- b * C * s + g * S * c) / delta * umR + (a - f) * (- (2 * (1 + 2 * S ^ 2)) * C ^ 2 * s ^ 2 - 2 * S * C * S * C - 2 * (1 - 2 * s ^ 2) * S ^ 2 * c ^ 2 - 2 * s * c * s * c) / W
         + (a - f) * umR / W / delta * (2 * S * C * C * s + 2 * s * c * S * c))) / delta ^ 2 / W ^ 3
    + 2 * aR / W ^ 2 * (2 * S * C * C * s + 2 * s * c * S * c) / delta.
  Definition azz : RR :=
    (e * S ^ 2 * c ^ 2 + b * C * S - h * s ^ 2 * C ^ 2 - g * c * s
      + ((- b * S * c - g * C * s) / delta * umz + (a - f) * (- (2 * (1 + 2 * S ^ 2)) * S ^ 2 * c ^ 2 - 2 * S * C * S * C - 2 * (1 - 2 * s ^ 2) * s ^ 2 * C ^ 2 - 2 * s * c * c * s) / W
         - (a - f) * umz / W / delta * (- (2 * S * C) * S * c + 2 * s * c * C * s))) / delta ^ 2 / W ^ 3
    - 2 * az / W ^ 2 * (- (2 * S * C) * S * c + 2 * s * c * C * s) / delta.
  Definition aRz : RR :=
    ((e + h) * C * s * c * S + b * s * c + g * S * C
      + ((- b * C * s + g * S * c) / delta * umz + (a - f) * ((- (2 * (1 + 2 * S ^ 2)) + 2 * (1 - 2 * s ^ 2)) * s * C * S * c - 2 * S * C * s * c + 2 * s * c * C * S) / W
         + (a - f) * umz / W / delta * (2 * S * C * C * s + 2 * s * c * S * c))) / delta ^ 2 / W ^ 3
    + 2 * az / W ^ 2 * (2 * S * C * C * s + 2 * s * c * S * c) / delta.
End Algebra.

Section Curve1.
  Variables (delta : RR) (a f S s : RR -> RR) (t du dv b g C c : RR).
  Hypotheses (Hd : 0 < delta) (HW : 0 < S t ^ 2 + s t ^ 2) (Da : is_derive a t (b * du)) (Df : is_derive f t (g * dv)) (DS : is_derive S t (C * du)) (Ds : is_derive s t (c * dv)).
  Variables (vR vz : RR).
  Hypotheses (Eu : du = (vR * C * s t + vz * S t * c) / (delta * (S t ^ 2 + s t ^ 2))) (Ev : dv = (vR * S t * c - vz * C * s t) / (delta * (S t ^ 2 + s t ^ 2))).
  Lemma curve_ev : is_derive (fun x => (a x - f x) / (S x ^ 2 + s x ^ 2)) t (- aR delta (a t) b (f t) g (S t) C (s t) c * vR + - az delta (a t) b (f t) g (S t) C (s t) c * vz).
  Proof using All.
    auto_derive.
    - repeat split; try (eexists; eassumption). nra.
    - change (fun x : RR => a x) with a; change (fun x : RR => f x) with f; change (fun x : RR => S x) with S; change (fun x : RR => s x) with s.
      rewrite (is_derive_unique _ _ _ Da), (is_derive_unique _ _ _ Df), (is_derive_unique _ _ _ DS), (is_derive_unique _ _ _ Ds). rewrite Eu, Ev. unfold aR, az. rr. field. split; lra.
  Qed.
End Curve1.
Section Curve.
  Variables (delta : RR) (a b f g S C s c : RR -> RR) (t du dv e h : RR).
  Hypotheses (Hd : 0 < delta) (HW : 0 < S t ^ 2 + s t ^ 2) (Q1 : C t ^ 2 = 1 + S t ^ 2) (Q2 : c t ^ 2 = 1 - s t ^ 2).
  Hypotheses (Da : is_derive a t (b t * du)) (Db : is_derive b t (e * du)) (Df : is_derive f t (g t * dv)) (Dg : is_derive g t (h * dv))
             (DS : is_derive S t (C t * du)) (DC : is_derive C t (S t * du)) (Ds : is_derive s t (c t * dv)) (Dc : is_derive c t (- s t * dv)).
  Let W := S t ^ 2 + s t ^ 2.
  Ltac der := match goal with D1 : is_derive a _ _, D2 : is_derive b _ _, D3 : is_derive f _ _, D4 : is_derive g _ _, D5 : is_derive S _ _, D6 : is_derive C _ _, D7 : is_derive s _ _, D8 : is_derive c _ _ |- _ =>
     change (fun x : RR => a x) with a; change (fun x : RR => b x) with b; change (fun x : RR => f x) with f; change (fun x : RR => g x) with g;
     change (fun x : RR => S x) with S; change (fun x : RR => C x) with C; change (fun x : RR => s x) with s; change (fun x : RR => c x) with c;
     rewrite ?(is_derive_unique _ _ _ D1), ?(is_derive_unique _ _ _ D2), ?(is_derive_unique _ _ _ D3), ?(is_derive_unique _ _ _ D4), ?(is_derive_unique _ _ _ D5), ?(is_derive_unique _ _ _ D6), ?(is_derive_unique _ _ _ D7), ?(is_derive_unique _ _ _ D8) end.
  Variables (vR vz : RR).
  Hypotheses (Eu : du = (vR * C t * s t + vz * S t * c t) / (delta * W)) (Ev : dv = (vR * S t * c t - vz * C t * s t) / (delta * W)).
  Lemma curve_R : is_derive (fun x => - aR delta (a x) (b x) (f x) (g x) (S x) (C x) (s x) (c x)) t
    (aRR delta (a t) (b t) e (f t) (g t) h (S t) (C t) (s t) (c t) * vR + aRz delta (a t) (b t) e (f t) (g t) h (S t) (C t) (s t) (c t) * vz).
  Proof using All.
    unfold aR. auto_derive.
    - repeat split; try (eexists; eassumption); try (unfold W in *; nra). apply Rmult_integral_contrapositive_currified; [lra|]. unfold W in *; nra.
    - der. rewrite Eu, Ev. unfold aRR, aRz, umR, umz, aR, az. subst W. clear Da Db Df Dg DS DC Ds Dc Eu Ev. clear - Hd HW Q1 Q2. revert HW Q1 Q2. generalize (S t) (C t) (s t) (c t) (a t) (b t) (f t) (g t). intros x y p q A B F G HW Q1 Q2. rr.
      field_simplify_eq; [|split; lra].
      ring [Q1 Q2].
  Qed.
  Lemma curve_z : is_derive (fun x => - az delta (a x) (b x) (f x) (g x) (S x) (C x) (s x) (c x)) t
    (aRz delta (a t) (b t) e (f t) (g t) h (S t) (C t) (s t) (c t) * vR + azz delta (a t) (b t) e (f t) (g t) h (S t) (C t) (s t) (c t) * vz).
  Proof using All.
    unfold az. auto_derive.
    - repeat split; try (eexists; eassumption); try (unfold W in *; nra). apply Rmult_integral_contrapositive_currified; [lra|]. unfold W in *; nra.
    - der. rewrite Eu, Ev. unfold azz, aRz, umR, umz, aR, az. subst W. clear Da Db Df Dg DS DC Ds Dc Eu Ev. clear - Hd HW Q1 Q2. revert HW Q1 Q2. generalize (S t) (C t) (s t) (c t) (a t) (b t) (f t) (g t). intros x y p q A B F G HW Q1 Q2. rr.
      field_simplify_eq; [|split; lra].
      ring [Q1 Q2].
  Qed.
End Curve.

Lemma cosh_2 u : cosh (2 * u) = 1 + 2 * sinh u ^ 2.
Proof. pose proof (ch2 u) as E. replace (2 * u) with (u + u) by ring. unfold cosh, sinh in *. rewrite Ropp_plus_distr, !exp_plus. nra. Qed.
Lemma cos_2 v : cos (2 * v) = 1 - 2 * sin v ^ 2.
Proof. rewrite cos_2a_sin. ring. Qed.
Lemma tanh_mul u x : sinh u * x = tanh u * (cosh u * x).
Proof. unfold tanh. pose proof (cosh_pos u). field. lra. Qed.
Lemma W_pos u v : 0 < u -> 0 < sinh u ^ 2 + sin v ^ 2.
Proof. intros H. pose proof (pow_lt _ 2 (sinh_pos_iff u H)). pose proof (pow2_ge_0 (sin v)). lra. Qed.

Section Sep.
  Variables (delta : RR) (U dU d2U V dV d2V : RR -> RR).
  Hypotheses (Hd : 0 < delta) (D1 : forall u, 0 < u -> is_derive U u (dU u)) (D3 : forall v, 0 < v < PI -> is_derive V v (dV v)).
  Let cu (R z : RR) := fst (Rz_to_uv false delta R z). Let cv (R z : RR) := snd (Rz_to_uv false delta R z).
  Definition sep_ev (R z : RR) : RR := let u := cu R z in let v := cv R z in (U u - V v) / (sinh u ^ 2 + sin v ^ 2).
  Definition sep_R (R z : RR) : RR := let u := cu R z in let v := cv R z in aR delta (U u) (dU u) (V v) (dV v) (sinh u) (cosh u) (sin v) (cos v).
  Definition sep_z (R z : RR) : RR := let u := cu R z in let v := cv R z in az delta (U u) (dU u) (V v) (dV v) (sinh u) (cosh u) (sin v) (cos v).
  Let on6 (k : RR -> RR -> RR -> RR -> RR -> RR -> RR -> RR -> RR -> RR -> RR) (R z : RR) : RR := let u := cu R z in let v := cv R z in k (U u) (dU u) (d2U u) (V v) (dV v) (d2V v) (sinh u) (cosh u) (sin v) (cos v).
  Definition sep_R2 : RR -> RR -> RR := on6 (aRR delta).
  Definition sep_z2 : RR -> RR -> RR := on6 (azz delta).
  Definition sep_Rz : RR -> RR -> RR := on6 (aRz delta).
  Section At.
    Variables (R z : RR -> RR) (t vR vz : RR).
    Hypotheses (HR : 0 < R t) (DR : is_derive R t vR) (Dz : is_derive z t vz).
    Let u (x : RR) := cu (R x) (z x). Let v (x : RR) := cv (R x) (z x).
    Lemma all_along (P : Prop) : (let W := sinh (u t) ^ 2 + sin (v t) ^ 2 in let du := (vR * cosh (u t) * sin (v t) + vz * sinh (u t) * cos (v t)) / (delta * W) in let dv := (vR * sinh (u t) * cos (v t) - vz * cosh (u t) * sin (v t)) / (delta * W) in
      0 < W -> 0 < u t -> 0 < v t < PI -> is_derive u t du -> is_derive v t dv -> is_derive (fun x => U (u x)) t (dU (u t) * du) -> is_derive (fun x => V (v x)) t (dV (v t) * dv) ->
      is_derive (fun x => sinh (u x)) t (cosh (u t) * du) -> is_derive (fun x => cosh (u x)) t (sinh (u t) * du) -> is_derive (fun x => sin (v x)) t (cos (v t) * dv) -> is_derive (fun x => cos (v x)) t (- sin (v t) * dv) -> P) -> P.
    Proof using Hd D1 D3 HR DR Dz.
      intros K. destruct (uv_spheroidal delta (R t) (z t) Hd HR) as (Hu & Hv & _ & _). destruct (uv_motion delta R z t vR vz Hd HR DR Dz) as [Du Dv].
      change (fst (Rz_to_uv false delta (R t) (z t))) with (u t) in *. change (snd (Rz_to_uv false delta (R t) (z t))) with (v t) in *.
      assert (Du' : is_derive u t ((vR * cosh (u t) * sin (v t) + vz * sinh (u t) * cos (v t)) / (delta * (sinh (u t) ^ 2 + sin (v t) ^ 2)))) by exact Du.
      assert (Dv' : is_derive v t ((vR * sinh (u t) * cos (v t) - vz * cosh (u t) * sin (v t)) / (delta * (sinh (u t) ^ 2 + sin (v t) ^ 2)))) by exact Dv.
      apply K; try assumption.
      - apply W_pos. exact Hu.
      - apply (is_derive_Rchain U u t _ _ (D1 _ Hu) Du').
      - apply (is_derive_Rchain V v t _ _ (D3 _ Hv) Dv').
      - apply d_sinh. exact Du'.
      - apply d_cosh. exact Du'.
      - refine (is_derive_eq _ _ _ _ (d_sin v t _ Dv') _). rr. ring.
      - refine (is_derive_eq _ _ _ _ (d_cos v t _ Dv') _). rr. ring.
    Qed.
  End At.
  Lemma sep_force : force_of sep_ev sep_R sep_z.
  Proof using Hd D1 D3.
    intros R z t vR vz HR DR Dz. apply (all_along R z t vR vz HR DR Dz). intros W du dv HW Hu Hv Du Dv K1 K3 K5 K6 K7 K8.
    exact (curve_ev delta (fun x => U (cu (R x) (z x))) (fun x => V (cv (R x) (z x))) (fun x => sinh (cu (R x) (z x))) (fun x => sin (cv (R x) (z x))) t du dv (dU (cu (R t) (z t))) (dV (cv (R t) (z t))) (cosh (cu (R t) (z t))) (cos (cv (R t) (z t))) Hd HW K1 K3 K5 K7 vR vz eq_refl eq_refl).
  Qed.
  Hypotheses (D2 : forall u, 0 < u -> is_derive dU u (d2U u)) (D4 : forall v, 0 < v < PI -> is_derive dV v (d2V v)).
  Lemma sep_hess : hessian_of sep_R sep_z sep_R2 sep_z2 sep_Rz.
  Proof using Hd D1 D2 D3 D4.
    split; intros R z t vR vz HR DR Dz; apply (all_along R z t vR vz HR DR Dz); intros W du dv HW Hu Hv Du Dv K1 K3 K5 K6 K7 K8;
      pose proof (is_derive_Rchain dU (fun x => cu (R x) (z x)) t _ _ (D2 _ Hu) Du) as K2; pose proof (is_derive_Rchain dV (fun x => cv (R x) (z x)) t _ _ (D4 _ Hv) Dv) as K4.
    - exact (curve_R delta (fun x => U (cu (R x) (z x))) (fun x => dU (cu (R x) (z x))) (fun x => V (cv (R x) (z x))) (fun x => dV (cv (R x) (z x))) (fun x => sinh (cu (R x) (z x))) (fun x => cosh (cu (R x) (z x))) (fun x => sin (cv (R x) (z x))) (fun x => cos (cv (R x) (z x))) t du dv (d2U (cu (R t) (z t))) (d2V (cv (R t) (z t))) Hd HW (ch2 _) (cv2 _) K1 K2 K3 K4 K5 K6 K7 K8 vR vz eq_refl eq_refl).
    - exact (curve_z delta (fun x => U (cu (R x) (z x))) (fun x => dU (cu (R x) (z x))) (fun x => V (cv (R x) (z x))) (fun x => dV (cv (R x) (z x))) (fun x => sinh (cu (R x) (z x))) (fun x => cosh (cu (R x) (z x))) (fun x => sin (cv (R x) (z x))) (fun x => cos (cv (R x) (z x))) t du dv (d2U (cu (R t) (z t))) (d2V (cv (R t) (z t))) Hd HW (ch2 _) (cv2 _) K1 K2 K3 K4 K5 K6 K7 K8 vR vz eq_refl eq_refl).
  Qed.
End Sep.

(** ** The two functions of the wrapper and their derivatives *)
Section Along.
  Variables (delta : RR) (G GR Gz : RR -> RR -> RR).
  Hypotheses (Hd : 0 < delta) (HG : gradient G GR Gz).
  Lemma along_u u v : 0 < u -> 0 < v < PI -> is_derive (fun x => G (delta * sinh x * sin v) (delta * cosh x * cos v)) u
    (GR (delta * sinh u * sin v) (delta * cosh u * cos v) * (delta * cosh u * sin v) + Gz (delta * sinh u * sin v) (delta * cosh u * cos v) * (delta * sinh u * cos v)).
  Proof.
    intros Hu Hv. apply (HG (fun x => delta * sinh x * sin v) (fun x => delta * cosh x * cos v) u).
    - pose proof (sinh_pos_iff u Hu). pose proof (sv_pos v Hv). apply Rmult_lt_0_compat; [apply Rmult_lt_0_compat|]; assumption.
    - apply (is_derive_ext (fun x => delta * sin v * sinh x)); [intros x; rr; ring|]. refine (is_derive_eq _ _ _ _ (d_scale _ u (delta * sin v) _ (d_sinh _ u _ (d_id u))) _). rr. ring.
    - apply (is_derive_ext (fun x => delta * cos v * cosh x)); [intros x; rr; ring|]. refine (is_derive_eq _ _ _ _ (d_scale _ u (delta * cos v) _ (d_cosh _ u _ (d_id u))) _). rr. ring.
  Qed.
  Lemma along_v u v : 0 < u -> 0 < v < PI -> is_derive (fun x => G (delta * sinh u * sin x) (delta * cosh u * cos x)) v
    (GR (delta * sinh u * sin v) (delta * cosh u * cos v) * (delta * sinh u * cos v) - Gz (delta * sinh u * sin v) (delta * cosh u * cos v) * (delta * cosh u * sin v)).
  Proof.
    intros Hu Hv. refine (is_derive_eq _ _ _ _ (HG (fun x => delta * sinh u * sin x) (fun x => delta * cosh u * cos x) v _ _ _ (d_scale _ v (delta * sinh u) _ (d_sin _ v _ (d_id v))) (d_scale _ v (delta * cosh u) _ (d_cos _ v _ (d_id v)))) _).
    - pose proof (sinh_pos_iff u Hu). pose proof (sv_pos v Hv). apply Rmult_lt_0_compat; [apply Rmult_lt_0_compat|]; assumption.
    - cbn beta. rr. ring.
  Qed.
End Along.
Lemma axis_v delta (G : RR -> RR) (D : RR -> RR) v : 0 < delta -> 0 < v < PI -> (forall z, - delta < z < delta -> is_derive G z (D z)) -> is_derive (fun x => G (delta * 1 * cos x)) v (D (delta * 1 * cos v) * (- (delta * sin v))).
Proof.
  intros Hd Hv H. assert (B : -1 < cos v < 1). { pose proof (sv_pos v Hv). pose proof (cv2 v). nra. }
  refine (is_derive_eq _ _ _ _ (is_derive_Rchain G (fun x => delta * 1 * cos x) v _ _ (H _ _) (d_scale _ v (delta * 1) _ (d_cos _ v _ (d_id v)))) _); [nra|]. rr. ring.
Qed.
Lemma cosh_zero : cosh 0 = 1.
Proof. unfold cosh. rewrite Ropp_0, exp_0. field. Qed.
Lemma sinh_zero : sinh 0 = 0.
Proof. unfold sinh. rewrite Ropp_0, exp_0. field. Qed.

Section Functions.
  Variables (delta u0 : RR) (Phi FR Fz P2R P2z PRz : RR -> RR -> RR).
  Hypotheses (Hd : 0 < delta) (HF : force_of Phi FR Fz).
  Notation U := (OS_U delta Phi). Notation dU := (OS_dU delta 0 Phi FR Fz). Notation V := (OS_V delta u0 Phi). Notation dV := (OS_dV delta u0 Phi FR Fz).
  Lemma at_plane (f : RR -> RR -> RR) u : at_uv delta f u v0 = f (delta * sinh u * sin (PI / 2)) (delta * cosh u * cos (PI / 2)).
  Proof. reflexivity. Qed.
  Lemma dU_form eps u : 0 < u -> OS_dU delta eps Phi FR Fz u = 2 * cosh u * sinh u * Phi (delta * sinh u) 0 - cosh u ^ 2 * (FR (delta * sinh u) 0 * (delta * sinh u) / (tanh u + eps)).
  Proof. intros Hu. unfold OS_dU, uv_to_Rz, v0. rewrite sin_PI2, cos_PI2, !Rmult_1_r, !Rmult_0_r. ring. Qed.
  Lemma over_tanh u x : 0 < u -> x * (delta * sinh u) / tanh u = x * (delta * cosh u).
  Proof. intros Hu. unfold tanh. pose proof (sinh_pos_iff u Hu). pose proof (cosh_pos u). field. lra. Qed.
  Lemma plane_u (G GR Gz : RR -> RR -> RR) u : gradient G GR Gz -> 0 < u -> is_derive (fun x => G (delta * sinh x) 0) u (GR (delta * sinh u) 0 * (delta * cosh u)).
  Proof.
    intros HG Hu. pose proof (along_u delta G GR Gz Hd HG u (PI / 2) Hu pi2_in) as P. rewrite sin_PI2, cos_PI2 in P. rewrite ?Rmult_1_r, ?Rmult_0_r in P.
    apply (is_derive_ext (fun x => G (delta * sinh x * 1) (delta * cosh x * 0))); [intros x; rewrite Rmult_1_r, Rmult_0_r; reflexivity|]. refine (is_derive_eq _ _ _ _ P _). rr. ring.
  Qed.
  Lemma U_form x : U x = cosh x ^ 2 * Phi (delta * sinh x) 0.
  Proof. unfold OS_U. rewrite at_plane, sin_PI2, cos_PI2, Rmult_1_r, Rmult_0_r. reflexivity. Qed.
  Lemma U_ok u : 0 < u -> is_derive U u (dU u).
  Proof.
    intros Hu. apply (is_derive_ext (fun x => cosh x ^ 2 * Phi (delta * sinh x) 0)); [intros x; symmetry; apply U_form|].
    refine (is_derive_eq _ _ _ _ (is_derive_Rmult _ _ u _ _ (d_sq _ u _ (d_cosh _ u _ (d_id u))) (plane_u _ _ _ u HF Hu)) _). rewrite (dU_form 0 u Hu), Rplus_0_r, (over_tanh u _ Hu). rr. ring.
  Qed.
  Lemma dU_ok u : hessian_of FR Fz P2R P2z PRz -> 0 < u -> is_derive dU u (OS_d2U delta 0 Phi FR Fz P2R P2z PRz u).
  Proof.
    intros [H1 _] Hu. apply (is_derive_loc (fun x => 2 * (cosh x * sinh x) * Phi (delta * sinh x) 0 + delta * cosh x * cosh x ^ 2 * (- FR (delta * sinh x) 0)) _ u _ (fun x => 0 < x) (locally_pos u Hu)).
    - intros x Hx. rewrite (dU_form 0 x Hx), Rplus_0_r, (over_tanh x _ Hx). ring.
    - refine (is_derive_eq _ _ _ _ (is_derive_Rplus _ _ u _ _ (is_derive_Rmult _ _ u _ _ (d_scale _ u 2 _ (is_derive_Rmult _ _ u _ _ (d_cosh _ u _ (d_id u)) (d_sinh _ u _ (d_id u)))) (plane_u _ _ _ u HF Hu))
        (is_derive_Rmult _ _ u _ _ (is_derive_Rmult _ _ u _ _ (d_scale _ u delta _ (d_cosh _ u _ (d_id u))) (d_sq _ u _ (d_cosh _ u _ (d_id u)))) (plane_u _ _ _ u H1 Hu))) _).
      unfold OS_d2U, uv_to_Rz, v0. rewrite sin_PI2, cos_PI2, !Rmult_1_r, !Rmult_0_r, Rplus_0_r, cosh_2. rewrite (over_tanh u _ Hu).
      replace (- P2R (delta * sinh u) 0 * (delta * sinh u) ^ 2 / tanh u ^ 2) with (- P2R (delta * sinh u) 0 * (delta * cosh u) ^ 2) by (unfold tanh; pose proof (sinh_pos_iff u Hu); pose proof (cosh_pos u); field; lra).
      generalize (Phi (delta * sinh u) 0) (FR (delta * sinh u) 0) (P2R (delta * sinh u) 0) (PRz (delta * sinh u) 0) (P2z (delta * sinh u) 0) (Fz (delta * sinh u) 0). intros a b c d e f. pose proof (ch2 u) as Q. rr. ring [Q].
  Qed.
  (** along the reference spheroid *)
  Notation R0 v := (delta * sinh u0 * sin v). Notation z0 v := (delta * cosh u0 * cos v).
  Lemma ref_Phi v : reference_force delta u0 Phi Fz -> 0 < v < PI -> is_derive (fun x => Phi (R0 x) (z0 x)) v (- FR (R0 v) (z0 v) * (delta * sinh u0 * cos v) + Fz (R0 v) (z0 v) * (delta * cosh u0 * sin v)).
  Proof.
    intros [Hu | [E H]] Hv; [refine (is_derive_eq _ _ _ _ (along_v delta _ _ _ Hd HF u0 v Hu Hv) _); rr; ring|].
    rewrite E, sinh_zero, cosh_zero, !Rmult_0_r, !Rmult_0_l. apply (is_derive_ext (fun x => Phi 0 (delta * 1 * cos x))); [intros x; rewrite Rmult_0_l; reflexivity|].
    refine (is_derive_eq _ _ _ _ (axis_v delta _ _ v Hd Hv H) _). rr. ring.
  Qed.
  Lemma V_ok v : reference_force delta u0 Phi Fz -> 0 < v < PI -> is_derive V v (dV v).
  Proof.
    intros H Hv. refine (is_derive_eq _ _ _ _ (d_minus _ _ v _ _ (is_derive_cst (refpot delta u0 Phi) v) (is_derive_Rmult (fun x => sinh u0 ^ 2 + sin x ^ 2) _ v _ _ (is_derive_Rplus _ _ v _ _ (is_derive_cst (sinh u0 ^ 2) v) (d_sq _ v _ (d_sin _ v _ (d_id v)))) (ref_Phi v H Hv))) _).
    unfold OS_dV, uv_to_Rz, cot, ztan, prefactor. pose proof (sv_pos v Hv). rr. field. lra.
  Qed.
  Lemma dV_ok v : hessian_of FR Fz P2R P2z PRz -> reference_force delta u0 Phi Fz -> reference_hess delta u0 Fz P2z -> 0 < v < PI -> is_derive dV v (OS_d2V delta u0 Phi FR Fz P2R P2z PRz v).
  Proof.
    intros [H1 H2] H H' Hv. pose proof (sv_pos v Hv) as Hs.
    assert (DB : is_derive (fun x => sinh u0 * FR (R0 x) (z0 x)) v (- sinh u0 * (P2R (R0 v) (z0 v) * (delta * sinh u0 * cos v) - PRz (R0 v) (z0 v) * (delta * cosh u0 * sin v)))).
    { destruct H as [Hu | [E _]]; [|rewrite E, sinh_zero; apply (is_derive_ext (fun _ => 0)); [intros; rr; ring|]; refine (is_derive_eq _ _ _ _ (is_derive_cst 0 v) _); rr; ring].
      apply (is_derive_ext (fun x => - sinh u0 * (- FR (R0 x) (z0 x)))); [intros; rr; ring|]. apply d_scale. apply (along_v delta _ _ _ Hd H1 u0 v Hu Hv). }
    assert (DD : is_derive (fun x => - Fz (R0 x) (z0 x)) v (PRz (R0 v) (z0 v) * (delta * sinh u0 * cos v) - P2z (R0 v) (z0 v) * (delta * cosh u0 * sin v))).
    { destruct H' as [Hu | [E K]]; [exact (along_v delta _ _ _ Hd H2 u0 v Hu Hv)|]. rewrite E, sinh_zero, cosh_zero, !Rmult_0_r, !Rmult_0_l.
      apply (is_derive_ext (fun x => - Fz 0 (delta * 1 * cos x))); [intros x; rewrite Rmult_0_l; reflexivity|]. refine (is_derive_eq _ _ _ _ (axis_v delta (fun z => - Fz 0 z) _ v Hd Hv K) _). rr. ring. }
    apply (is_derive_loc (fun x => -2 * (sin x * cos x) * Phi (R0 x) (z0 x) + (sinh u0 ^ 2 + sin x ^ 2) * (delta * cos x * (sinh u0 * FR (R0 x) (z0 x)) + delta * cosh u0 * sin x * (- Fz (R0 x) (z0 x)))) _ v _ (fun x => 0 < x < PI)).
    - apply filter_and; [exact (locally_gt 0 v (proj1 Hv))|exact (locally_lt PI v (proj2 Hv))].
    - intros x Hx. pose proof (sv_pos x Hx). unfold OS_dV, uv_to_Rz, cot, ztan, prefactor. field. lra.
    - refine (is_derive_eq _ _ _ _ (is_derive_Rplus _ _ v _ _ (is_derive_Rmult _ _ v _ _ (d_scale _ v (-2) _ (is_derive_Rmult _ _ v _ _ (d_sin _ v _ (d_id v)) (d_cos _ v _ (d_id v)))) (ref_Phi v H Hv))
        (is_derive_Rmult _ _ v _ _ (is_derive_Rplus _ _ v _ _ (is_derive_cst (sinh u0 ^ 2) v) (d_sq _ v _ (d_sin _ v _ (d_id v))))
          (is_derive_Rplus _ _ v _ _ (is_derive_Rmult _ _ v _ _ (d_scale _ v delta _ (d_cos _ v _ (d_id v))) DB) (is_derive_Rmult _ _ v _ _ (d_scale _ v (delta * cosh u0) _ (d_sin _ v _ (d_id v))) DD)))) _).
      unfold OS_d2V, uv_to_Rz, cot, ztan, prefactor. rewrite cos_2, sin_2a.
      generalize (Phi (R0 v) (z0 v)) (FR (R0 v) (z0 v)) (P2R (R0 v) (z0 v)) (PRz (R0 v) (z0 v)) (P2z (R0 v) (z0 v)) (Fz (R0 v) (z0 v)). intros a b c d e f. pose proof (cv2 v) as Q. cbn beta. rr. field_simplify_eq; [|lra]. ring [Q].
  Qed.
End Functions.

(** ** The methods in terms of the two functions *)
Section Methods.
  Variables (delta u0 eps : RR) (Phi FR Fz P2R P2z PRz : RR -> RR -> RR) (R z u v : RR).
  Hypotheses (Hd : 0 < delta) (HS : spheroidal delta R z u v).
  Let E : Rz_to_uv false delta R z = (u, v) := spheroidal_uv delta R z u v Hd HS.
  Let Hu : 0 < u := proj1 HS.
  Let Hv : 0 < v < PI := proj1 (proj2 HS).
  Let ER : R = delta * sinh u * sin v := proj1 (proj2 (proj2 HS)).
  Let Ez : z = delta * cosh u * cos v := proj2 (proj2 (proj2 HS)).
  Notation a := (OS_U delta Phi u). Notation b := (OS_dU delta eps Phi FR Fz u). Notation e := (OS_d2U delta eps Phi FR Fz P2R P2z PRz u).
  Notation f := (OS_V delta u0 Phi v). Notation g := (OS_dV delta u0 Phi FR Fz v). Notation h := (OS_d2V delta u0 Phi FR Fz P2R P2z PRz v).
  Notation S := (sinh u). Notation C := (cosh u). Notation s := (sin v). Notation c := (cos v).
  Let HC : 0 < C := cosh_pos u. Let HSu : 0 < S := sinh_pos_iff u Hu. Let Hs : 0 < s := sv_pos v Hv. Let HW : 0 < S ^ 2 + s ^ 2 := W_pos u v Hu.
  Ltac go := rr; field; repeat split; lra.
  Lemma m_ev : OS_ev delta u0 Phi R z = (a - f) / (S ^ 2 + s ^ 2).
  Proof using E. unfold OS_ev. rewrite E. reflexivity. Qed.
  Lemma m_R : OS_Rf delta u0 eps Phi FR Fz R z = aR delta a b f g S C s c.
  Proof using E Ez HC HW Hd. unfold OS_Rf. rewrite E. unfold dprefactor, prefactor. rewrite Ez. generalize a b f g. intros A B F G. unfold aR, tanh. go. Qed.
  Lemma m_z : OS_zf delta u0 eps Phi FR Fz R z = az delta a b f g S C s c.
  Proof using E ER Hs HW Hd. unfold OS_zf. rewrite E. unfold dprefactor, prefactor, cot. rewrite ER. generalize a b f g. intros A B F G. unfold az. go. Qed.
  Lemma m_RR : OS_R2 delta u0 eps Phi FR Fz P2R P2z PRz R z = aRR delta a b e f g h S C s c.
  Proof using E Ez HC HW Hd. unfold OS_R2. rewrite E, m_R. unfold dprefactor, d2prefactor, prefactor. rewrite Ez, cosh_2, cos_2. generalize a b e f g h. intros A B E' F G H. unfold aRR, umR. generalize (aR delta A B F G S C s c). intros X. unfold tanh. go. Qed.
  Lemma m_zz : OS_z2 delta u0 eps Phi FR Fz P2R P2z PRz R z = azz delta a b e f g h S C s c.
  Proof using E ER Hs HW Hd. unfold OS_z2. rewrite E, m_z. unfold dprefactor, d2prefactor, prefactor, cot. rewrite ER, cosh_2, cos_2. generalize a b e f g h. intros A B E' F G H. unfold azz, umz. generalize (az delta A B F G S C s c). intros X. go. Qed.
  Lemma m_Rz : OS_Rz delta u0 eps Phi FR Fz P2R P2z PRz R z = aRz delta a b e f g h S C s c.
  Proof using E ER Hs HW Hd. unfold OS_Rz. rewrite E, m_z. unfold dprefactor, d2prefactor, prefactor, cot. rewrite ER, cosh_2, cos_2. generalize a b e f g h. intros A B E' F G H. unfold aRz, umz. generalize (az delta A B F G S C s c). intros X. go. Qed.
End Methods.

(** ** How the regularisation enters *)
Section Linear.
  Variables (delta a b b0 e e0 f g h S C s c : RR).
  Hypotheses (Hd : 0 < delta) (HW : 0 < S ^ 2 + s ^ 2).
  Lemma aR_lin : aR delta a b f g S C s c - aR delta a b0 f g S C s c = (b - b0) * (- (C * s) / (delta * (S ^ 2 + s ^ 2) ^ 2)).
  Proof using Hd HW. unfold aR. field. split; lra. Qed.
  Lemma az_lin : az delta a b f g S C s c - az delta a b0 f g S C s c = (b - b0) * (- (S * c) / (delta * (S ^ 2 + s ^ 2) ^ 2)).
  Proof using Hd HW. unfold az. field. split; lra. Qed.
  Lemma aRR_lin : aRR delta a b e f g h S C s c - aRR delta a b0 e0 f g h S C s c = (b - b0) * aRR delta 0 1 0 0 0 0 S C s c + (e - e0) * aRR delta 0 0 1 0 0 0 S C s c.
  Proof using Hd HW. unfold aRR, umR, aR. field. split; lra. Qed.
  Lemma azz_lin : azz delta a b e f g h S C s c - azz delta a b0 e0 f g h S C s c = (b - b0) * azz delta 0 1 0 0 0 0 S C s c + (e - e0) * azz delta 0 0 1 0 0 0 S C s c.
  Proof using Hd HW. unfold azz, umz, az. field. split; lra. Qed.
  Lemma aRz_lin : aRz delta a b e f g h S C s c - aRz delta a b0 e0 f g h S C s c = (b - b0) * aRz delta 0 1 0 0 0 0 S C s c + (e - e0) * aRz delta 0 0 1 0 0 0 S C s c.
  Proof using Hd HW. unfold aRz, umz, az. field. split; lra. Qed.
End Linear.
Lemma inv_eps T e : 0 < T -> 0 <= e -> Rabs (/ (T + e) - / T) <= e / T ^ 2.
Proof.
  intros HT He. replace (/ (T + e) - / T) with (- (e * / (T * (T + e)))) by (field; lra). rewrite Rabs_Ropp, Rabs_right.
  - unfold Rdiv. apply Rmult_le_compat_l; [exact He|]. apply Rinv_le_contravar; nra.
  - apply Rle_ge, Rmult_le_pos; [exact He|]. apply Rlt_le, Rinv_0_lt_compat. nra.
Qed.
Lemma inv2_eps T e : 0 < T -> 0 <= e -> Rabs (/ (T + e) ^ 2 - / T ^ 2) <= 2 * e / T ^ 3.
Proof.
  intros HT He. replace (/ (T + e) ^ 2 - / T ^ 2) with ((/ (T + e) - / T) * (/ (T + e) + / T)) by (field; lra). rewrite Rabs_mult.
  assert (A : 0 < / (T + e) <= / T) by (split; [apply Rinv_0_lt_compat; lra|apply Rinv_le_contravar; lra]). assert (0 < / T) by (apply Rinv_0_lt_compat; lra).
  replace (2 * e / T ^ 3) with (e / T ^ 2 * (2 * / T)) by (field; lra). apply Rmult_le_compat; try apply Rabs_pos; [apply inv_eps; assumption|]. rewrite Rabs_right; lra.
Qed.
Section Errors.
  Variables (delta : RR) (Phi FR Fz P2R P2z PRz : RR -> RR -> RR) (u e : RR).
  Hypotheses (Hd : 0 < delta) (Hu : 0 < u) (He : 0 <= e).
  Let X := delta * sinh u. Let T := tanh u.
  Let HT : 0 < T.
  Proof. unfold T, tanh. apply Rdiv_lt_0_compat; [apply sinh_pos_iff; exact Hu|apply cosh_pos]. Qed.
  Definition err1 : RR := cosh u ^ 2 * Rabs (FR X 0) * X / T ^ 2.
  Lemma dU_err : Rabs (OS_dU delta e Phi FR Fz u - OS_dU delta 0 Phi FR Fz u) <= e * err1.
  Proof using Hd Hu He HT.
    rewrite !dU_form by exact Hu. rewrite Rplus_0_r. fold X T. assert (HX : 0 < X) by (unfold X; apply Rmult_lt_0_compat; [exact Hd|apply sinh_pos_iff; exact Hu]).
    match goal with |- Rabs ?d <= _ => replace d with (- (cosh u ^ 2 * (FR X 0) * X) * (/ (T + e) - / T)) by (field; lra) end. rewrite Rabs_mult, Rabs_Ropp, !Rabs_mult, (Rabs_right X) by lra. rewrite (Rabs_right (cosh u ^ 2)) by (apply Rle_ge, pow2_ge_0).
    unfold err1. replace (e * (cosh u ^ 2 * Rabs (FR X 0) * X / T ^ 2)) with (cosh u ^ 2 * Rabs (FR X 0) * X * (e / T ^ 2)) by (field; lra). apply Rmult_le_compat_l; [|apply inv_eps; assumption].
    apply Rmult_le_pos; [apply Rmult_le_pos; [apply pow2_ge_0|apply Rabs_pos]|lra].
  Qed.
  Definition err2 : RR := 4 * cosh u * sinh u * Rabs (FR X 0) * X / T ^ 2 + cosh u ^ 2 * Rabs (P2R X 0) * X ^ 2 * (2 / T ^ 3).
  Lemma d2U_form eps : OS_d2U delta eps Phi FR Fz P2R P2z PRz u = 2 * cosh (2 * u) * Phi X 0 - 4 * cosh u * sinh u * (FR X 0 * X / (T + eps)) - cosh u ^ 2 * (- P2R X 0 * X ^ 2 / (T + eps) ^ 2 + FR X 0 * X).
  Proof using. unfold OS_d2U, uv_to_Rz, v0. rewrite sin_PI2, cos_PI2, !Rmult_1_r, !Rmult_0_r. fold X T. ring. Qed.
  Lemma d2U_err : Rabs (OS_d2U delta e Phi FR Fz P2R P2z PRz u - OS_d2U delta 0 Phi FR Fz P2R P2z PRz u) <= e * err2.
  Proof using Hd Hu He HT.
    rewrite !d2U_form. rewrite Rplus_0_r. assert (HX : 0 < X) by (unfold X; apply Rmult_lt_0_compat; [exact Hd|apply sinh_pos_iff; exact Hu]). pose proof (cosh_pos u) as HC. pose proof (sinh_pos_iff u Hu) as HS.
    match goal with |- Rabs ?d <= _ => replace d with (- (4 * cosh u * sinh u * (FR X 0) * X) * (/ (T + e) - / T) + cosh u ^ 2 * P2R X 0 * X ^ 2 * (/ (T + e) ^ 2 - / T ^ 2)) by (field; lra) end.
    eapply Rle_trans; [apply Rabs_triang|]. unfold err2. rewrite Rmult_plus_distr_l. apply Rplus_le_compat.
    - rewrite Rabs_mult, Rabs_Ropp, Rabs_mult, (Rabs_mult _ (FR X 0)), (Rabs_right X) by lra. rewrite (Rabs_right (4 * cosh u * sinh u)) by nra.
      replace (e * (4 * cosh u * sinh u * Rabs (FR X 0) * X / T ^ 2)) with (4 * cosh u * sinh u * Rabs (FR X 0) * X * (e / T ^ 2)) by (field; lra). apply Rmult_le_compat_l; [|apply inv_eps; assumption].
      apply Rmult_le_pos; [apply Rmult_le_pos; [nra|apply Rabs_pos]|lra].
    - rewrite Rabs_mult, !Rabs_mult. rewrite (Rabs_right (cosh u ^ 2)) by (apply Rle_ge, pow2_ge_0). rewrite (Rabs_right (X ^ 2)) by (apply Rle_ge, pow2_ge_0).
      replace (e * (cosh u ^ 2 * Rabs (P2R X 0) * X ^ 2 * (2 / T ^ 3))) with (cosh u ^ 2 * Rabs (P2R X 0) * X ^ 2 * (2 * e / T ^ 3)) by (field; lra). apply Rmult_le_compat_l; [|apply inv2_eps; assumption].
      apply Rmult_le_pos; [apply Rmult_le_pos; [apply pow2_ge_0|apply Rabs_pos]|apply pow2_ge_0].
  Qed.
  Lemma err1_pos : 0 <= err1.
  Proof using Hd Hu HT. unfold err1. assert (HX : 0 < X) by (unfold X; apply Rmult_lt_0_compat; [exact Hd|apply sinh_pos_iff; exact Hu]). apply Rmult_le_pos; [|apply Rlt_le, Rinv_0_lt_compat, pow_lt; exact HT]. apply Rmult_le_pos; [apply Rmult_le_pos; [apply pow2_ge_0|apply Rabs_pos]|lra]. Qed.
  Lemma err2_pos : 0 <= err2.
  Proof using Hd Hu HT.
    unfold err2. assert (HX : 0 < X) by (unfold X; apply Rmult_lt_0_compat; [exact Hd|apply sinh_pos_iff; exact Hu]). pose proof (cosh_pos u) as HC. pose proof (sinh_pos_iff u Hu) as HS. pose proof (Rinv_0_lt_compat _ (pow_lt _ 2 HT)). pose proof (Rinv_0_lt_compat _ (pow_lt _ 3 HT)). pose proof (Rabs_pos (FR X 0)). pose proof (Rabs_pos (P2R X 0)).
    pose proof (pow2_ge_0 (cosh u)). pose proof (pow2_ge_0 X). apply Rplus_le_le_0_compat; unfold Rdiv; [|].
    - apply Rmult_le_pos; [|lra]. apply Rmult_le_pos; [|lra]. apply Rmult_le_pos; [|lra]. apply Rmult_le_pos; lra.
    - apply Rmult_le_pos; [|lra]. apply Rmult_le_pos; [|lra]. apply Rmult_le_pos; lra.
  Qed.
End Errors.
