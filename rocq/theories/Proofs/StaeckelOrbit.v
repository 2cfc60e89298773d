(** Orbits in Staeckel potentials: Hamilton's equations in spheroidal coordinates and the third integral. *)
From Coq Require Import Reals Lra Lia List.
From Coquelicot Require Import Coquelicot.
From Verif.Lib Require Import RealAux.
From Verif.Model Require Import CoordsSpheroid Staeckel.
From Verif.Spec Require Import StaeckelSpec.
From Verif.Proofs Require Import SpheroidProofs EOMProofs StaeckelProofs.
Import ListNotations.
Open Scope R_scope.
Notation RR := RbaseSymbolsImpl.R (only parsing).
Ltac rr := match goal with |- ?a = ?b => change (@eq RR a b) end.

Section Orbit.
  Variables (delta : RR) (Phi FR Fz : RR -> RR -> RR) (U V : RR -> RR) (R vR vT z vz phi : RR -> RR) (t : RR).
  Hypotheses (Hd : 0 < delta) (G : force_of Phi FR Fz) (St : staeckel delta Phi U V) (M : moves FR Fz R vR vT z vz phi t).
  Let u (s : RR) : RR := fst (Rz_to_uv false delta (R s) (z s)).
  Let v (s : RR) : RR := snd (Rz_to_uv false delta (R s) (z s)).
  Let pu (s : RR) : RR := delta * (vR s * cosh (u s) * sin (v s) + vz s * sinh (u s) * cos (v s)).
  Let pv (s : RR) : RR := delta * (vR s * sinh (u s) * cos (v s) - vz s * cosh (u s) * sin (v s)).
  Let E (s : RR) : RR := Phi (R s) (z s) + vR s ^ 2 / 2 + vT s ^ 2 / 2 + vz s ^ 2 / 2.
  Let Lz (s : RR) : RR := R s * vT s.
  Let w : RR := delta ^ 2 * (sinh (u t) ^ 2 + sin (v t) ^ 2).
  Lemma w_pos : 0 < w.
  Proof.
    destruct M as (HR & _). destruct (uv_spheroidal delta (R t) (z t) Hd HR) as (Hu & Hv & _). fold (u t) (v t) in *.
    pose proof (sinh_pos_iff _ Hu). pose proof (sv_pos _ Hv). unfold w. apply Rmult_lt_0_compat; nra.
  Qed.
  Lemma u_rate : is_derive u t (pu t / w).
  Proof.
    pose proof w_pos as W. destruct M as (HR & DR & Dz & _). refine (is_derive_eq _ _ _ _ (proj1 (uv_motion delta R z t (vR t) (vz t) Hd HR DR Dz)) _).
    fold (u t) (v t). unfold pu, w in *. rr. field. split; nra.
  Qed.
  Lemma v_rate : is_derive v t (pv t / w).
  Proof.
    pose proof w_pos as W. destruct M as (HR & DR & Dz & _). refine (is_derive_eq _ _ _ _ (proj2 (uv_motion delta R z t (vR t) (vz t) Hd HR DR Dz)) _).
    fold (u t) (v t). unfold pv, w in *. rr. field. split; nra.
  Qed.
  Lemma E_rate : is_derive E t 0.
  Proof.
    destruct M as (HR & DR & Dz & _ & DvR & DvT & Dvz).
    pose proof (is_derive_Rplus _ _ t _ _ (is_derive_Rplus _ _ t _ _ (is_derive_Rplus _ _ t _ _ (G R z t (vR t) (vz t) HR DR Dz)
      (d_scale _ t (/ 2) _ (d_sq vR t _ DvR))) (d_scale _ t (/ 2) _ (d_sq vT t _ DvT))) (d_scale _ t (/ 2) _ (d_sq vz t _ Dvz))) as D.
    apply (is_derive_ext (fun s => Phi (R s) (z s) + / 2 * vR s ^ 2 + / 2 * vT s ^ 2 + / 2 * vz s ^ 2)); [intros s; unfold E; rr; field|].
    refine (is_derive_eq _ _ _ _ D _). rr. field. lra.
  Qed.
  Lemma Lz_rate : is_derive Lz t 0.
  Proof.
    destruct M as (HR & DR & Dz & _ & DvR & DvT & Dvz).
    refine (is_derive_eq _ _ _ _ (is_derive_Rmult R vT t _ _ DR DvT) _). rr. field. lra.
  Qed.
  (** Hamilton's equations for the momenta. *)
  Lemma pu_rate : is_derive pu t
    ((2 * E t * sinh (u t) * cosh (u t) + Lz t ^ 2 * cosh (u t) / (delta ^ 2 * sinh (u t) ^ 3) - dU delta Phi FR Fz (u t) (v t)) / (sinh (u t) ^ 2 + sin (v t) ^ 2)).
  Proof.
    pose proof u_rate as Du. pose proof v_rate as Dv. pose proof w_pos as W. destruct M as (HR & DR & Dz & _ & DvR & DvT & Dvz).
    destruct (uv_spheroidal delta (R t) (z t) Hd HR) as (Hu & Hv & E1 & E2). fold (u t) (v t) in *.
    pose proof (sinh_pos_iff _ Hu) as S1. pose proof (sv_pos _ Hv) as S2. pose proof (ch2 (u t)) as Q1. pose proof (cv2 (v t)) as Q2.
    pose proof (is_derive_Rmult _ _ t _ _ (is_derive_Rmult _ _ t _ _ DvR (d_cosh u t _ Du)) (d_sin v t _ Dv)) as A.
    pose proof (is_derive_Rmult _ _ t _ _ (is_derive_Rmult _ _ t _ _ Dvz (d_sinh u t _ Du)) (d_cos v t _ Dv)) as B.
    refine (is_derive_eq _ _ _ _ (d_scale _ t delta _ (is_derive_Rplus _ _ t _ _ A B)) _).
    unfold dU, E, Lz, pu, pv, w in *. rewrite <- E1, <- E2. cbn beta zeta.
    set (a := FR (R t) (z t)). set (b := Fz (R t) (z t)). set (p := Phi (R t) (z t)). clearbody a b p. rewrite E1.
    set (x := sinh (u t)) in *. set (y := cosh (u t)) in *. set (k := sin (v t)) in *. set (c := cos (v t)) in *. clearbody x y k c.
    rr. field_simplify_eq; [|repeat split; nra].
    assert (Q4 : y ^ 3 = y * (1 + x ^ 2)) by (rewrite <- Q1; ring). assert (Q5 : c ^ 3 = c * (1 - k ^ 2)) by (rewrite <- Q2; ring).
    assert (Q6 : y ^ 4 = (1 + x ^ 2) ^ 2) by (rewrite <- Q1; ring). assert (Q7 : c ^ 4 = (1 - k ^ 2) ^ 2) by (rewrite <- Q2; ring).
    ring [Q1 Q2 Q4 Q5 Q6 Q7].
  Qed.
  Let I3 (s : RR) : RR := third_integral delta U (E s) (Lz s) (u s) (pu s).
  Lemma I3_rate : is_derive I3 t 0.
  Proof.
    pose proof u_rate as Du. pose proof pu_rate as Dp. pose proof E_rate as DE. pose proof Lz_rate as DL. pose proof w_pos as W.
    destruct M as (HR & _). destruct (uv_spheroidal delta (R t) (z t) Hd HR) as (Hu & Hv & _). fold (u t) (v t) in *.
    pose proof (sinh_pos_iff _ Hu) as S1. pose proof (sv_pos _ Hv) as S2.
    pose proof (is_derive_Rchain U u t _ _ (U_rate delta Phi FR Fz U V (u t) (v t) Hd G St Hu Hv) Du) as DU.
    pose proof (is_derive_Rmult _ _ t _ _ DE (d_sq _ t _ (d_sinh u t _ Du))) as A.
    pose proof (d_scale _ t (/ (2 * delta ^ 2)) _ (d_sq _ t _ Dp)) as B.
    assert (N : 2 * delta ^ 2 * sinh (u t) ^ 2 <> 0) by (pose proof (pow_lt _ 2 S1); pose proof (pow_lt _ 2 Hd); nra).
    pose proof (d_quot (fun s => Lz s ^ 2) (fun s => 2 * delta ^ 2 * sinh (u s) ^ 2) t _ _ N (d_sq _ t _ DL) (d_scale _ t (2 * delta ^ 2) _ (d_sq _ t _ (d_sinh u t _ Du)))) as C.
    pose proof (d_minus _ _ t _ _ (d_minus _ _ t _ _ (d_minus _ _ t _ _ A B) C) DU) as D.
    apply (is_derive_ext (fun s => E s * sinh (u s) ^ 2 - / (2 * delta ^ 2) * pu s ^ 2 - Lz s ^ 2 / (2 * delta ^ 2 * sinh (u s) ^ 2) - U (u s))).
    { intros s. unfold I3, third_integral, Rdiv. rr. ring. }
    refine (is_derive_eq _ _ _ _ D _). unfold w. cbn beta. set (du := dU delta Phi FR Fz (u t) (v t)). clearbody du. rr. field. repeat split; nra.
  Qed.
End Orbit.
