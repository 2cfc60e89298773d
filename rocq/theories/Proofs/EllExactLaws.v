(** The exact integrals of an ellipsoidal potential obey the same laws as the sums. *)
From Coq Require Import Reals Lra Psatz List.
From Coquelicot Require Import Coquelicot.
From Verif.Lib Require Import RealAux Vec3.
From Verif.Model Require Import PotAPI Coords PotEllipsoidal.
From Verif.Spec Require Import PotSpec PotApiSpec EllipsoidalSpec.
From Verif.Proofs Require Import PotLift NonAxiProofs EOMProofs StaeckelProofs KuzminKutuzovProofs SpiralProofs EllProofs EllLaws EllExact.
Import ListNotations.
Open Scope R_scope.
Notation RR := RbaseSymbolsImpl.R (only parsing).
Ltac rr := match goal with |- ?a = ?b => change (@eq RR a b) end.

Lemma RInt_lin4 (f1 f2 f3 f4 : RR -> RR) (a1 a2 a3 a4 : RR) :
  (forall s, continuous f1 s) -> (forall s, continuous f2 s) -> (forall s, continuous f3 s) -> (forall s, continuous f4 s) ->
  RInt (fun s => a1 * f1 s + a2 * f2 s + a3 * f3 s + a4 * f4 s) 0 1 = a1 * RInt f1 0 1 + a2 * RInt f2 0 1 + a3 * RInt f3 0 1 + a4 * RInt f4 0 1.
Proof.
  intros C1 C2 C3 C4. apply is_RInt_unique.
  assert (J : forall f a, (forall s, continuous f s) -> is_RInt (fun s => a * f s) 0 1 (a * RInt f 0 1)).
  { intros f a C. apply (is_RInt_scal (V := R_NormedModule)). apply (RInt_correct (V := R_CompleteNormedModule)). apply (ex_RInt_continuous (V := R_CompleteNormedModule)). intros; apply C. }
  apply (is_RInt_plus (V := R_NormedModule)); [apply (is_RInt_plus (V := R_NormedModule)); [apply (is_RInt_plus (V := R_NormedModule))|]|]; apply J; assumption.
Qed.

Section Laws.
  Variable e : Ell.
  Notation b := (e_b e).
  Notation c := (e_c e).
  Notation psi := (e_psi e).
  Notation dens := (e_mdens e).
  Notation deriv := (e_mderiv e).
  Hypothesis Hb : 0 < b.
  Hypothesis Hc : 0 < c.
  Hypothesis Hp : is_profile psi dens deriv.
  Hypothesis Hq : mild_cusp psi dens deriv.
  Hypothesis Hgl : e_gl e = None.
  Lemma int_none f : ell_int e f = RInt f 0 1.
  Proof. unfold ell_int. rewrite Hgl. reflexivity. Qed.
  Let Hd := proj1 Hq.
  Let H2 := proj1 (proj2 (proj2 Hq)).
  Let H3 := proj2 (proj2 (proj2 Hq)).
  Definition IA (k x y z : RR) : RR := RInt (Ae e k x y z) 0 1.
  Definition IB (j k x y z : RR) : RR := RInt (Be e j k x y z) 0 1.
  Lemma As k x y z : 0 < k -> off3 x y z -> forall s, continuous (Ae e k x y z) s.
  Proof. intros Hk H s. apply (Ae_s e Hb Hc Hp H2 k x y z s Hk H). Qed.
  Lemma Bs j k x y z : 0 < j -> 0 < k -> off3 x y z -> forall s, continuous (Be e j k x y z) s.
  Proof. intros Hj Hk H s. apply (Be_s e Hb Hc Hd H3 j k x y z s Hj Hk H). Qed.
  Lemma ex_c (f : RR -> RR) : (forall s, continuous f s) -> ex_RInt f 0 1.
  Proof. intros C. apply (ex_RInt_continuous (V := R_CompleteNormedModule)). intros; apply C. Qed.
  Lemma force_val k i v x y z : 0 < k -> off3 x y z -> (forall s, 0 < s <= 1 -> i s = ik k s) ->
    ell_forceInt e x y z v i = v * IA k x y z.
  Proof.
    intros Hk H Hi. unfold ell_forceInt, IA. rewrite int_none, <- (RInt_scal (V := R_CompleteNormedModule)) by (apply ex_c, As; assumption).
    apply RInt_ext. intros s Hs. rewrite Rmin_left, Rmax_right in Hs by lra. rewrite Hi by lra. apply Ae_eq; (assumption || lra).
  Qed.
  Lemma second_val j k i1 i2 v w d x y z : 0 < j -> 0 < k -> off3 x y z -> (forall s, 0 < s <= 1 -> i1 s = ik j s) -> (forall s, 0 < s <= 1 -> i2 s = ik k s) ->
    ell_2ndInt e x y z v i1 w i2 d = v * w * IB j k x y z + (if d then IA j x y z else 0).
  Proof.
    intros Hj Hk H Hi1 Hi2. unfold ell_2ndInt. rewrite int_none.
    transitivity (RInt (fun s => v * w * Be e j k x y z s + (if d then 1 else 0) * Ae e j x y z s + 0 * Ae e j x y z s + 0 * Ae e j x y z s) 0 1).
    - apply RInt_ext. intros s Hs. rewrite Rmin_left, Rmax_right in Hs by lra. rewrite Hi1, Hi2 by lra.
      pose proof (Be_eq e Hb Hc j k v w x y z s Hj Hk H ltac:(lra)) as E1. pose proof (Ae_eq e Hb Hc j 1 x y z s Hj H ltac:(lra)) as E2.
      rewrite <- E1. replace (Ae e j x y z s) with (1 * Ae e j x y z s) by (rr; ring). rewrite <- E2. rr. unfold Rdiv. destruct d; ring.
    - rewrite RInt_lin4; try (apply As; assumption); try (apply Bs; assumption). fold (IB j k x y z). fold (IA j x y z). destruct d; rr; ring.
  Qed.
  Lemma i1_ik s : 0 < s <= 1 -> ell_i1 s = ik 1 s.
  Proof. intros _. apply ik_1. Qed.
  Lemma IB_sym j k x y z : IB j k x y z = IB k j x y z.
  Proof. unfold IB. apply RInt_ext. intros s _. apply Be_sym. Qed.

  Section Along.
    Variables X Y Z dX dY dZ : RR -> RR.
    Hypothesis SX : smooth X dX.
    Hypothesis SY : smooth Y dY.
    Hypothesis SZ : smooth Z dZ.
    Variable u : RR.
    Hypothesis Ho : off3 (X u) (Y u) (Z u).
    Let Hop := off3_open X Y Z dX dY dZ SX SY SZ u Ho.
    Notation at_ f v s := (f (X v) (Y v) (Z v) s).
    Lemma pot_d : is_derive (fun v => ell_potInt e (X v) (Y v) (Z v)) u
      (2 * (X u * dX u * IA 1 (X u) (Y u) (Z u) + Y u * dY u * IA b (X u) (Y u) (Z u) + Z u * dZ u * IA c (X u) (Y u) (Z u))).
    Proof.
      destruct (proj1 (proj2 Hq)) as (l & Hl).
      apply (is_derive_ext (fun v => RInt (fun s => psi (at_ (ell_m e) v s) / ell_denom e s) 0 1)); [intros v; unfold ell_potInt; rewrite int_none; reflexivity|].
      apply (is_derive_eq _ _ (RInt (fun s => 2 * (at_ (Ae e 1) u s * (X u * dX u) + at_ (Ae e b) u s * (Y u * dY u) + at_ (Ae e c) u s * (Z u * dZ u))) 0 1)).
      - apply (param_int (fun v s => psi (at_ (ell_m e) v s) / ell_denom e s) (fun v s => at_ (Pe e l) v s)
          (fun v s => 2 * (at_ (Ae e 1) v s * (X v * dX v) + at_ (Ae e b) v s * (Y v * dY v) + at_ (Ae e c) v s * (Z v * dZ v))) u).
        + generalize Hop. apply filter_imp. intros v Hv s Hs. apply Pe_eq; (assumption || lra).
        + generalize Hop. apply filter_imp. intros v Hv s. apply (Pe_d e Hb Hc Hp l X Y Z dX dY dZ SX SY SZ v s Hv).
        + generalize Hop. apply filter_imp. intros v Hv s. apply (Pe_s e Hb Hc Hp l Hl _ _ _ s Hv).
        + intros s. assert (K : forall V dV, smooth V dV -> continuous (fun p : RR * RR => V (fst p) * dV (fst p)) (u, s)).
          { intros V dV SV. apply cmult; [apply (cv u s V), (sm_c V dV u SV)|apply (cv u s dV), (proj2 SV)]. }
          assert (J : forall k, 0 < k -> continuous (fun p : RR * RR => Ae e k (X (fst p)) (Y (fst p)) (Z (fst p)) (snd p)) (u, s)).
          { intros k Hk. apply (Ae_j e Hb Hc Hp H2 X Y Z u s (sm_c X dX u SX) (sm_c Y dY u SY) (sm_c Z dZ u SZ) Ho k Hk). }
          apply cmult; [apply ccst|]. apply cplus; [apply cplus|]; (apply cmult; [apply J; (assumption || lra)|apply K; assumption]).
      - transitivity (RInt (fun s => 2 * (X u * dX u) * at_ (Ae e 1) u s + 2 * (Y u * dY u) * at_ (Ae e b) u s + 2 * (Z u * dZ u) * at_ (Ae e c) u s + 0 * at_ (Ae e c) u s) 0 1).
        { apply RInt_ext. intros s _. rr. ring. }
        rewrite RInt_lin4 by (apply As; (assumption || lra)). unfold IA. rr. ring.
    Qed.
    Lemma force_d V dV k i : smooth V dV -> 0 < k -> (forall s, 0 < s <= 1 -> i s = ik k s) -> is_derive (fun v => ell_forceInt e (X v) (Y v) (Z v) (V v) i) u
      (V u * (X u * dX u * IB k 1 (X u) (Y u) (Z u) + Y u * dY u * IB k b (X u) (Y u) (Z u) + Z u * dZ u * IB k c (X u) (Y u) (Z u)) + dV u * IA k (X u) (Y u) (Z u)).
    Proof.
      intros SV Hk Hi.
      apply (is_derive_ext (fun v => RInt (fun s => dens (at_ (ell_m e) v s) * (V v * i s) / ell_denom e s) 0 1)); [intros v; unfold ell_forceInt; rewrite int_none; reflexivity|].
      set (G := fun v s => V v * (at_ (Be e k 1) v s * (X v * dX v) + at_ (Be e k b) v s * (Y v * dY v) + at_ (Be e k c) v s * (Z v * dZ v)) + dV v * at_ (Ae e k) v s).
      apply (is_derive_eq _ _ (RInt (G u) 0 1)).
      - apply (param_int (fun v s => dens (at_ (ell_m e) v s) * (V v * i s) / ell_denom e s) (fun v s => V v * at_ (Ae e k) v s) G u).
        + generalize Hop. apply filter_imp. intros v Hv s Hs. rewrite Hi by lra. apply Ae_eq; (assumption || lra).
        + generalize Hop. apply filter_imp. intros v Hv s. apply (Ae_d e Hb Hc Hp X Y Z dX dY dZ SX SY SZ V dV SV k Hk v s Hv).
        + generalize Hop. apply filter_imp. intros v Hv s. apply cmult; [apply ccst|]. apply (As k _ _ _ Hk Hv).
        + intros s. unfold G. assert (K : forall V dV, smooth V dV -> continuous (fun p : RR * RR => V (fst p) * dV (fst p)) (u, s)).
          { intros V' dV' SV'. apply cmult; [apply (cv u s V'), (sm_c V' dV' u SV')|apply (cv u s dV'), (proj2 SV')]. }
          assert (J : forall j, 0 < j -> continuous (fun p : RR * RR => Be e k j (X (fst p)) (Y (fst p)) (Z (fst p)) (snd p)) (u, s)).
          { intros j Hj. apply (Be_j e Hb Hc Hd H3 X Y Z u s (sm_c X dX u SX) (sm_c Y dY u SY) (sm_c Z dZ u SZ) Ho k j Hk Hj). }
          apply cplus.
          * apply cmult; [apply (cv u s V), (sm_c V dV u SV)|]. apply cplus; [apply cplus|]; (apply cmult; [apply J; (assumption || lra)|apply K; assumption]).
          * apply cmult; [apply (cv u s dV), (proj2 SV)|]. apply (Ae_j e Hb Hc Hp H2 X Y Z u s (sm_c X dX u SX) (sm_c Y dY u SY) (sm_c Z dZ u SZ) Ho k Hk).
      - transitivity (RInt (fun s => V u * (X u * dX u) * at_ (Be e k 1) u s + V u * (Y u * dY u) * at_ (Be e k b) u s + V u * (Z u * dZ u) * at_ (Be e k c) u s + dV u * at_ (Ae e k) u s) 0 1).
        { apply RInt_ext. intros s _. unfold G. rr. ring. }
        rewrite RInt_lin4; try (apply As; (assumption || lra)); try (apply Bs; (assumption || lra)). unfold IA, IB. rr. ring.
    Qed.
  End Along.

  Theorem exact_laws : ell_laws e.
  Proof.
    intros X Y Z dX dY dZ SX SY SZ u Ho. cbv zeta.
    assert (I1 : forall s, 0 < s <= 1 -> ell_i1 s = ik 1 s) by (intros; apply ik_1).
    assert (I2 : forall s, 0 < s <= 1 -> ell_ib e s = ik b s) by reflexivity.
    assert (I3 : forall s, 0 < s <= 1 -> ell_ic e s = ik c s) by reflexivity.
    pose proof Rlt_0_1 as P1.
    rewrite (force_val 1 ell_i1), (force_val b (ell_ib e)), (force_val c (ell_ic e)) by assumption.
    rewrite (second_val 1 1), (second_val 1 b), (second_val 1 c), (second_val b b), (second_val b c), (second_val c c) by assumption.
    splits.
    - refine (is_derive_eq _ _ _ _ _ _); [apply (pot_d X Y Z dX dY dZ); assumption|]. rr. ring.
    - refine (is_derive_eq _ _ _ _ _ _); [apply (force_d X Y Z dX dY dZ SX SY SZ u Ho X dX 1); assumption|]. rr. ring.
    - refine (is_derive_eq _ _ _ _ _ _); [apply (force_d X Y Z dX dY dZ SX SY SZ u Ho Y dY b); assumption|]. rewrite (IB_sym b 1). rr. ring.
    - refine (is_derive_eq _ _ _ _ _ _); [apply (force_d X Y Z dX dY dZ SX SY SZ u Ho Z dZ c); assumption|]. rewrite (IB_sym c 1), (IB_sym c b). rr. ring.
  Qed.
End Laws.
