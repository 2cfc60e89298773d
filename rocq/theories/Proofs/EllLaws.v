(** The integrals of an ellipsoidal potential along smooth curves: sums over quadrature nodes. *)
From Coq Require Import Reals Lra Psatz List.
From Coquelicot Require Import Coquelicot.
From Verif.Lib Require Import RealAux Vec3.
From Verif.Model Require Import PotAPI Coords PotEllipsoidal.
From Verif.Spec Require Import PotSpec PotApiSpec EllipsoidalSpec.
From Verif.Proofs Require Import PotLift NonAxiProofs EOMProofs StaeckelProofs KuzminKutuzovProofs SpiralProofs EllProofs.
Import ListNotations.
Open Scope R_scope.
Notation RR := RbaseSymbolsImpl.R (only parsing).
Ltac rr := match goal with |- ?a = ?b => change (@eq RR a b) end.

Definition smooth (X dX : RR -> RR) : Prop := (forall v, is_derive X v (dX v)) /\ (forall v, continuous dX v).

Definition ell_laws (e : Ell) : Prop :=
  forall X Y Z dX dY dZ : RR -> RR, smooth X dX -> smooth Y dY -> smooth Z dZ -> forall u, off3 (X u) (Y u) (Z u) ->
    let x := X u in let y := Y u in let z := Z u in
    let i1 := ell_i1 in let ib := ell_ib e in let ic := ell_ic e in
    let H := ell_2ndInt e x y z in
    is_derive (fun v => ell_potInt e (X v) (Y v) (Z v)) u
      (2 * (ell_forceInt e x y z x i1 * dX u + ell_forceInt e x y z y ib * dY u + ell_forceInt e x y z z ic * dZ u)) /\
    is_derive (fun v => ell_forceInt e (X v) (Y v) (Z v) (X v) i1) u
      (H x i1 x i1 true * dX u + H x i1 y ib false * dY u + H x i1 z ic false * dZ u) /\
    is_derive (fun v => ell_forceInt e (X v) (Y v) (Z v) (Y v) ib) u
      (H x i1 y ib false * dX u + H y ib y ib true * dY u + H y ib z ic false * dZ u) /\
    is_derive (fun v => ell_forceInt e (X v) (Y v) (Z v) (Z v) ic) u
      (H x i1 z ic false * dX u + H y ib z ic false * dY u + H z ic z ic true * dZ u).

Definition gsum (l : list (RR * RR)) (f : RR -> RR) : RR := fold_left (fun acc p => acc + snd p * f (fst p)) l 0.
Lemma gsum_acc l f : forall a, fold_left (fun acc p => acc + snd p * f (fst p)) l a = a + gsum l f.
Proof.
  unfold gsum. induction l as [|p l IH]; intros a; cbn; [rr; ring|]. rewrite IH, (IH (0 + _)). rr. ring.
Qed.
Lemma gsum_cons p l f : gsum (p :: l) f = snd p * f (fst p) + gsum l f.
Proof. unfold gsum at 1. cbn. rewrite gsum_acc. rr. ring. Qed.
Lemma gsum_ext l f g : (forall p, In p l -> f (fst p) = g (fst p)) -> gsum l f = gsum l g.
Proof.
  induction l as [|p l IH]; intros H; [reflexivity|]. rewrite !gsum_cons, (H p) by (left; reflexivity). f_equal. apply IH. intros; apply H; right; assumption.
Qed.
Lemma gsum_lin l a b c f g h : gsum l (fun s => f s * a + g s * b + h s * c) = gsum l f * a + gsum l g * b + gsum l h * c.
Proof. induction l as [|p l IH]; [unfold gsum; cbn; rr; ring|]. rewrite !gsum_cons, IH. rr. ring. Qed.
Lemma gsum_derive l (f : RR -> RR -> RR) (g : RR -> RR) u : (forall p, In p l -> is_derive (fun v => f v (fst p)) u (g (fst p))) ->
  is_derive (fun v => gsum l (f v)) u (gsum l g).
Proof.
  induction l as [|p l IH]; intros H.
  - apply (is_derive_ext (fun _ => 0)); [reflexivity|]. unfold gsum; cbn. apply is_derive_cst.
  - apply (is_derive_ext (fun v => snd p * f v (fst p) + gsum l (f v))). { intros v. rewrite gsum_cons. reflexivity. }
    rewrite gsum_cons. assert (A : is_derive (fun v => f v (fst p)) u (g (fst p))) by (apply H; left; reflexivity).
    assert (B : is_derive (fun v => gsum l (f v)) u (gsum l g)) by (apply IH; intros; apply H; right; assumption).
    refine (is_derive_eq _ _ _ _ _ _); [dv|]. cbv beta. rr. ring.
Qed.

Lemma gl_derive e l (f : RR -> RR -> RR) g1 g2 g3 (a b c u : RR) : e_gl e = Some l -> inside l ->
  (forall s, 0 < s <= 1 -> is_derive (fun v => f v s) u (g1 s * a + g2 s * b + g3 s * c)) ->
  is_derive (fun v => ell_int e (f v)) u (ell_int e g1 * a + ell_int e g2 * b + ell_int e g3 * c).
Proof.
  intros El Hl H. assert (J : forall k, ell_int e k = gsum l k) by (intros k; unfold ell_int; rewrite El; reflexivity).
  apply (is_derive_ext (fun v => gsum l (f v))). { intros v. symmetry. apply J. }
  rewrite !J, <- gsum_lin. apply gsum_derive. intros p Hin. apply H. unfold inside in Hl. rewrite List.Forall_forall in Hl. apply Hl. exact Hin.
Qed.

(** What has to be shown for one value of the integration variable. *)
Section Terms.
  Variable e : Ell.
  Hypothesis Hb : 0 < e_b e.
  Hypothesis Hc : 0 < e_c e.
  Hypothesis Hp : is_profile (e_psi e) (e_mdens e) (e_mderiv e).
  Variables X Y Z : RR -> RR.
  Variables x' y' z' u : RR.
  Hypothesis DX : is_derive X u x'.
  Hypothesis DY : is_derive Y u y'.
  Hypothesis DZ : is_derive Z u z'.
  Hypothesis Ho : off3 (X u) (Y u) (Z u).
  Notation mm s := (ell_m e (X u) (Y u) (Z u) s).
  Definition tF (v : RR) (i : RR -> RR) (s : RR) : RR := e_mdens e (mm s) * (v * i s) / ell_denom e s.
  Definition tH (v : RR) (i : RR -> RR) (w : RR) (j : RR -> RR) (d : bool) (s : RR) : RR :=
    (e_mderiv e (mm s) * (v * i s) * (w * j s) / mm s + (if d then e_mdens e (mm s) * i s else 0)) / ell_denom e s.
  Notation x := (X u).
  Notation y := (Y u).
  Notation z := (Z u).
  Notation i1 := ell_i1.
  Notation ib := (ell_ib e).
  Notation ic := (ell_ic e).
  Lemma term_pot s : 0 < s <= 1 -> is_derive (fun v => e_psi e (ell_m e (X v) (Y v) (Z v) s) / ell_denom e s) u
    (tF x i1 s * (2 * x') + tF y ib s * (2 * y') + tF z ic s * (2 * z')).
  Proof.
    intros Hs. refine (is_derive_eq _ _ _ _ _ _); [apply (pot_term e Hb Hc Hp X Y Z u x' y' z' DX DY DZ Ho s Hs)|].
    unfold tF, along. rr. unfold Rdiv. ring.
  Qed.
  Lemma term_x s : 0 < s <= 1 -> is_derive (fun v => e_mdens e (ell_m e (X v) (Y v) (Z v) s) * (X v * i1 s) / ell_denom e s) u
    (tH x i1 x i1 true s * x' + tH x i1 y ib false s * y' + tH x i1 z ic false s * z').
  Proof.
    intros Hs. refine (is_derive_eq _ _ _ _ _ _); [apply (force_term e Hb Hc Hp X Y Z u x' y' z' DX DY DZ Ho X x' DX i1 s Hs)|].
    unfold tH, along. rr. unfold Rdiv. ring.
  Qed.
  Lemma term_y s : 0 < s <= 1 -> is_derive (fun v => e_mdens e (ell_m e (X v) (Y v) (Z v) s) * (Y v * ib s) / ell_denom e s) u
    (tH x i1 y ib false s * x' + tH y ib y ib true s * y' + tH y ib z ic false s * z').
  Proof.
    intros Hs. refine (is_derive_eq _ _ _ _ _ _); [apply (force_term e Hb Hc Hp X Y Z u x' y' z' DX DY DZ Ho Y y' DY ib s Hs)|].
    unfold tH, along. rr. unfold Rdiv. ring.
  Qed.
  Lemma term_z s : 0 < s <= 1 -> is_derive (fun v => e_mdens e (ell_m e (X v) (Y v) (Z v) s) * (Z v * ic s) / ell_denom e s) u
    (tH x i1 z ic false s * x' + tH y ib z ic false s * y' + tH z ic z ic true s * z').
  Proof.
    intros Hs. refine (is_derive_eq _ _ _ _ _ _); [apply (force_term e Hb Hc Hp X Y Z u x' y' z' DX DY DZ Ho Z z' DZ ic s Hs)|].
    unfold tH, along. rr. unfold Rdiv. ring.
  Qed.
End Terms.

Lemma gl_laws e l : 0 < e_b e -> 0 < e_c e -> is_profile (e_psi e) (e_mdens e) (e_mderiv e) -> e_gl e = Some l -> inside l -> ell_laws e.
Proof.
  intros Hb Hc Hp El Hl X Y Z dX dY dZ (DX & _) (DY & _) (DZ & _) u Ho. cbv zeta.
  splits.
  - refine (is_derive_eq _ _ _ _ _ _); [apply (gl_derive e l _ (tF e X Y Z u (X u) ell_i1) (tF e X Y Z u (Y u) (ell_ib e)) (tF e X Y Z u (Z u) (ell_ic e)) (2 * dX u) (2 * dY u) (2 * dZ u) u El Hl); intros s Hs; apply (term_pot e Hb Hc Hp X Y Z _ _ _ u (DX u) (DY u) (DZ u) Ho s Hs)|].
    unfold ell_forceInt, tF. rr. ring.
  - apply (gl_derive e l _ _ _ _ _ _ _ u El Hl); intros s Hs; apply (term_x e Hb Hc Hp X Y Z _ _ _ u (DX u) (DY u) (DZ u) Ho s Hs).
  - apply (gl_derive e l _ _ _ _ _ _ _ u El Hl); intros s Hs; apply (term_y e Hb Hc Hp X Y Z _ _ _ u (DX u) (DY u) (DZ u) Ho s Hs).
  - apply (gl_derive e l _ _ _ _ _ _ _ u El Hl); intros s Hs; apply (term_z e Hb Hc Hp X Y Z _ _ _ u (DX u) (DY u) (DZ u) Ho s Hs).
Qed.
