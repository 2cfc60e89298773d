(** Ellipsoidal potentials: the integrands along curves. *)
From Coq Require Import Reals Lra Psatz List.
From Coquelicot Require Import Coquelicot.
From Verif.Lib Require Import RealAux Vec3.
From Verif.Model Require Import PotAPI Coords PotEllipsoidal.
From Verif.Spec Require Import PotSpec PotApiSpec EllipsoidalSpec.
From Verif.Proofs Require Import PotLift NonAxiProofs EOMProofs StaeckelProofs KuzminKutuzovProofs SpiralProofs.
Import ListNotations.
Open Scope R_scope.
Notation RR := RbaseSymbolsImpl.R (only parsing).
Ltac rr := match goal with |- ?a = ?b => change (@eq RR a b) end.

Section Ell.
  Variable e : Ell.
  Notation b := (e_b e).
  Notation c := (e_c e).
  Notation psi := (e_psi e).
  Notation dens := (e_mdens e).
  Notation deriv := (e_mderiv e).
  Hypothesis Hb : 0 < b.
  Hypothesis Hc : 0 < c.
  Hypothesis Hp : is_profile psi dens deriv.

  Lemma i1_eq s : 0 < s -> ell_i1 s = s ^ 2.
  Proof. intros H. unfold ell_i1, ell_t. rr. field. lra. Qed.
  Lemma one_pos k s : 0 < k -> 0 <= s <= 1 -> 0 < 1 + (k ^ 2 - 1) * s ^ 2.
  Proof.
    intros Hk Hs. assert (0 < k ^ 2) by nra. pose proof (pow2_ge_0 s) as Q. assert (s ^ 2 <= 1) by nra.
    replace (1 + (k ^ 2 - 1) * s ^ 2) with (1 - s ^ 2 + k ^ 2 * s ^ 2) by ring.
    destruct (Req_dec (s ^ 2) 1) as [E|E]; [rewrite E; lra|]. pose proof (Rmult_le_pos (k ^ 2) (s ^ 2)). lra.
  Qed.
  Lemma ik_eq k s : 0 < k -> 0 < s <= 1 -> 1 / (k ^ 2 + ell_t s) = s ^ 2 / (1 + (k ^ 2 - 1) * s ^ 2).
  Proof.
    intros Hk Hs. pose proof (one_pos k s Hk ltac:(lra)) as P. unfold ell_t.
    replace (k ^ 2 + (1 / s ^ 2 - 1)) with ((1 + (k ^ 2 - 1) * s ^ 2) / s ^ 2) by (field; lra).
    set (q := 1 + (k ^ 2 - 1) * s ^ 2) in *. clearbody q. rr. field. split; lra.
  Qed.
  Lemma ib_eq s : 0 < s <= 1 -> ell_ib e s = s ^ 2 / (1 + (b ^ 2 - 1) * s ^ 2).
  Proof. apply ik_eq; exact Hb. Qed.
  Lemma ic_eq s : 0 < s <= 1 -> ell_ic e s = s ^ 2 / (1 + (c ^ 2 - 1) * s ^ 2).
  Proof. apply ik_eq; exact Hc. Qed.
  Lemma i1_pos s : 0 < s -> 0 < ell_i1 s.
  Proof. intros. rewrite i1_eq by assumption. nra. Qed.
  Lemma ib_pos s : 0 < s <= 1 -> 0 < ell_ib e s.
  Proof. intros. rewrite ib_eq by assumption. apply Rdiv_lt_0_compat; [nra|]. apply one_pos; [exact Hb|lra]. Qed.
  Lemma ic_pos s : 0 < s <= 1 -> 0 < ell_ic e s.
  Proof. intros. rewrite ic_eq by assumption. apply Rdiv_lt_0_compat; [nra|]. apply one_pos; [exact Hc|lra]. Qed.
  Lemma den_pos s : 0 <= s <= 1 -> 0 < ell_denom e s.
  Proof. intros H. unfold ell_denom. apply sqrt_lt_R0. apply Rmult_lt_0_compat; apply one_pos; assumption. Qed.

  Definition off3 (x y z : RR) : Prop := x <> 0 \/ y <> 0 \/ z <> 0.
  Lemma sq_pos_ne x : x <> 0 -> 0 < x ^ 2.
  Proof. intros H. destruct (Rdichotomy _ _ H); nra. Qed.
  Lemma form_pos x y z A B C : off3 x y z -> 0 < A -> 0 < B -> 0 < C -> 0 < x ^ 2 * A + y ^ 2 * B + z ^ 2 * C.
  Proof.
    intros H HA HB HC. pose proof (Rmult_le_pos _ _ (pow2_ge_0 x) (Rlt_le _ _ HA)). pose proof (Rmult_le_pos _ _ (pow2_ge_0 y) (Rlt_le _ _ HB)).
    pose proof (Rmult_le_pos _ _ (pow2_ge_0 z) (Rlt_le _ _ HC)).
    destruct H as [H|[H|H]]; apply sq_pos_ne in H; [pose proof (Rmult_lt_0_compat _ _ H HA)|pose proof (Rmult_lt_0_compat _ _ H HB)|pose proof (Rmult_lt_0_compat _ _ H HC)]; lra.
  Qed.
  Lemma m_pos x y z s : off3 x y z -> 0 < s <= 1 -> 0 < ell_m e x y z s.
  Proof. intros H Hs. apply sqrt_lt_R0. apply form_pos; [exact H|apply i1_pos; lra|apply ib_pos|apply ic_pos]; exact Hs. Qed.

  Section Curve.
    Variables (X Y Z : RR -> RR) (u x' y' z' : RR).
    Hypothesis DX : is_derive X u x'.
    Hypothesis DY : is_derive Y u y'.
    Hypothesis DZ : is_derive Z u z'.
    Hypothesis Ho : off3 (X u) (Y u) (Z u).
    Let x := X u.
    Let y := Y u.
    Let z := Z u.
    Definition along (s : RR) : RR := x * ell_i1 s * x' + y * ell_ib e s * y' + z * ell_ic e s * z'.
    Lemma d_m s : 0 < s <= 1 -> is_derive (fun v => ell_m e (X v) (Y v) (Z v) s) u (along s / ell_m e x y z s).
    Proof.
      intros Hs. unfold ell_m. pose proof (form_pos _ _ _ _ _ _ Ho (i1_pos s (proj1 Hs)) (ib_pos s Hs) (ic_pos s Hs)) as P.
      unfold along, x, y, z. set (A := ell_i1 s) in *. set (B := ell_ib e s) in *. set (C := ell_ic e s) in *. clearbody A B C.
      assert (D0 : is_derive (fun v => X v ^ 2 * A + Y v ^ 2 * B + Z v ^ 2 * C) u (2 * (X u * A * x' + Y u * B * y' + Z u * C * z'))).
      { refine (is_derive_eq _ _ _ _ _ _); [dv|]. cbv beta. cbn [INR pred]. rr. ring. }
      refine (is_derive_eq _ _ _ _ _ _); [apply (d_sqrt _ _ _ P D0)|]. rr. pose proof (sqrt_lt_R0 _ P). cbv beta. field. lra.
    Qed.
    Lemma pot_term s : 0 < s <= 1 ->
      is_derive (fun v => psi (ell_m e (X v) (Y v) (Z v) s) / ell_denom e s) u
        (2 * (dens (ell_m e x y z s) * along s / ell_denom e s)).
    Proof.
      intros Hs. pose proof (m_pos _ _ _ s Ho Hs) as M. pose proof (den_pos s ltac:(lra)) as D.
      destruct (Hp _ M) as (P1 & _). pose proof (is_derive_Rchain psi (fun v => ell_m e (X v) (Y v) (Z v) s) u _ _ P1 (d_m s Hs)) as Q.
      refine (is_derive_eq _ _ _ _ _ _); [dv; lra|]. cbv beta. unfold x, y, z in *. rr. field. lra.
    Qed.
    Variables (V : RR -> RR) (v' : RR).
    Hypothesis DV : is_derive V u v'.
    Lemma force_term (i : RR -> RR) s : 0 < s <= 1 ->
      is_derive (fun v => dens (ell_m e (X v) (Y v) (Z v) s) * (V v * i s) / ell_denom e s) u
        ((deriv (ell_m e x y z s) * along s * (V u * i s) / ell_m e x y z s + dens (ell_m e x y z s) * (v' * i s)) / ell_denom e s).
    Proof.
      intros Hs. pose proof (m_pos _ _ _ s Ho Hs) as M. pose proof (den_pos s ltac:(lra)) as D.
      destruct (Hp _ M) as (_ & P1). pose proof (is_derive_Rchain dens (fun v => ell_m e (X v) (Y v) (Z v) s) u _ _ P1 (d_m s Hs)) as Q.
      refine (is_derive_eq _ _ _ _ _ _); [dv; lra|]. cbv beta. unfold x, y, z in *. rr. field. lra.
    Qed.
  End Curve.
End Ell.
