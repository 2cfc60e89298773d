(** The spiral-arm potential: forces, second derivatives and density. *)
From Coq Require Import Reals Lra Psatz List.
From Coquelicot Require Import Coquelicot.
From Verif.Lib Require Import RealAux.
From Verif.Model Require Import PotAPI PotSpiral.
From Verif.Spec Require Import PotSpec PotApiSpec SpiralBarSpec.
From Verif.Proofs Require Import PotLift NonAxiProofs EOMProofs StaeckelProofs SpiralProofs.
Open Scope R_scope.
Notation RR := RbaseSymbolsImpl.R (only parsing).
Ltac rr := match goal with |- ?a = ?b => change (@eq RR a b) end.

Ltac factor :=
  match goal with
  | |- is_derive _ _ (?a * hsum ?l ?G) => idtac
  | |- is_derive _ _ (- (- ?a * ?b * hsum ?l ?G)) =>
      apply (is_derive_eq _ _ (a * b * hsum l G)); [|rr; ring]
  | |- is_derive _ _ (- (- ?a * hsum ?l ?G)) =>
      apply (is_derive_eq _ _ (a * hsum l G)); [|rr; ring]
  end.

Section Derivs.
  Variable s : Spiral.
  Hypothesis Hs : spiral_ok s.

  (** the facts about one harmonic that the derivative computations use *)
  Ltac facts n R :=
    let Hn := fresh "Hn" in
    match goal with H : In (n, _) (harmonics s) |- _ => pose proof (harmonics_pos s _ _ H) as Hn end;
    match goal with HR : 0 < R |- _ =>
      pose proof (K_pos s Hs n Hn R HR); pose proof (B_pos s Hs n Hn R HR); pose proof (D_pos s Hs n Hn R HR);
      pose proof (d_K s Hs n R HR); pose proof (d_B s Hs n R HR); pose proof (d_D s Hs n Hn R HR);
      pose proof (fun p => d_gam s Hs R HR p);
      pose proof (d_dK s Hs n R HR); pose proof (d_dB s Hs n R HR); pose proof (d_dD s Hs n Hn R HR);
      pose proof (d_dg s Hs R HR)
    end.

  Ltac go n R z :=
    assert (HRs : a_Rs s <> 0) by apply Hs;
    pose proof (rpow_pos (cosh (z * sK s n R / sB s n R)) (sB s n R)) as HP;
    assert (EX : sK s n R * z / sB s n R = z * sK s n R / sB s n R) by (unfold Rdiv; ring);
    assert (HK2 : sK s n R ^ 2 <> 0) by (apply pow_nonzero; lra);
    assert (HB2 : sB s n R ^ 2 <> 0) by (apply pow_nonzero; lra);
    refine (is_derive_eq _ _ _ _ _ _);
    [ dv; try lra; try solve [match goal with H : forall p, is_derive _ _ _ |- _ => apply H end];
        try (apply Rgt_not_eq; apply rpow_pos)
    | cbv beta; rewrite ?sech_rpow, ?EX; cbn [INR pred];
      generalize dependent (rpow (cosh (z * sK s n R / sB s n R)) (sB s n R));
      intros; rr; field; repeat split; try lra ].

  Lemma force_R R z phi t : 0 < R -> is_derive (fun x => sp_ev s x z phi t) R (- sp_Rf s R z phi t).
  Proof.
    intros HR. unfold sp_ev, sp_Rf. cbv zeta. factor. apply d_hsum. intros n C HI. facts n R. go n R z.
  Qed.
  Lemma force_z R z phi t : 0 < R -> is_derive (fun x => sp_ev s R x phi t) z (- sp_zf s R z phi t).
  Proof.
    intros HR. unfold sp_ev, sp_zf. cbv zeta. factor. apply d_hsum. intros n C HI. facts n R. go n R z.
  Qed.
  Lemma d_gphi R phi t : is_derive (fun y => sgamma s R (y - a_omega s * t)) phi (sN s).
  Proof. unfold sgamma. refine (is_derive_eq _ _ _ _ _ _); [dv|]. cbv beta. rr. ring. Qed.
  Lemma force_phi R z phi t : 0 < R -> is_derive (fun x => sp_ev s R z x t) phi (- sp_pt s R z phi t).
  Proof.
    intros HR. unfold sp_ev, sp_pt. cbv zeta. factor. apply d_hsum. intros n C HI. facts n R.
    pose proof (d_gphi R phi t). go n R z.
  Qed.
  Lemma hess_z2 R z phi t : 0 < R -> is_derive (fun x => - sp_zf s R x phi t) z (sp_z2 s R z phi t).
  Proof.
    intros HR. apply is_derive_flip2. unfold sp_zf, sp_z2. cbv zeta. factor. apply d_hsum. intros n C HI. facts n R. go n R z.
  Qed.
  Lemma hess_Rz R z phi t : 0 < R -> is_derive (fun x => - sp_Rf s R x phi t) z (sp_Rz s R z phi t).
  Proof.
    intros HR. apply is_derive_flip2. unfold sp_Rf, sp_Rz. cbv zeta. factor. apply d_hsum. intros n C HI. facts n R. go n R z.
  Qed.
  Lemma hess_zR R z phi t : 0 < R -> is_derive (fun x => - sp_zf s x z phi t) R (sp_Rz s R z phi t).
  Proof.
    intros HR. apply is_derive_flip2. unfold sp_zf, sp_Rz. cbv zeta. factor. apply d_hsum. intros n C HI. facts n R. go n R z.
  Qed.
  Lemma hess_p2 R z phi t : 0 < R -> is_derive (fun x => - sp_pt s R z x t) phi (sp_p2 s R z phi t).
  Proof.
    intros HR. apply is_derive_flip2. unfold sp_pt, sp_p2. cbv zeta.
    match goal with |- is_derive _ _ (- (?a * ?b * hsum ?l ?G)) => apply (is_derive_eq _ _ (- (a * b) * hsum l G)); [|rr; ring] end.
    apply d_hsum. intros n C HI. facts n R. pose proof (d_gphi R phi t). go n R z.
  Qed.
  Lemma hess_Rp R z phi t : 0 < R -> is_derive (fun x => - sp_Rf s R z x t) phi (sp_Rp s R z phi t).
  Proof.
    intros HR. apply is_derive_flip2. unfold sp_Rf, sp_Rp. cbv zeta. factor. apply d_hsum. intros n C HI. facts n R. pose proof (d_gphi R phi t). go n R z.
  Qed.
  Lemma hess_pR R z phi t : 0 < R -> is_derive (fun x => - sp_pt s x z phi t) R (sp_Rp s R z phi t).
  Proof.
    intros HR. apply is_derive_flip2. unfold sp_pt, sp_Rp. cbv zeta. factor. apply d_hsum. intros n C HI. facts n R. go n R z.
  Qed.
  Lemma hess_zp R z phi t : 0 < R -> is_derive (fun x => - sp_zf s R z x t) phi (sp_pz s R z phi t).
  Proof.
    intros HR. apply is_derive_flip2. unfold sp_zf, sp_pz. cbv zeta. factor. apply d_hsum. intros n C HI. facts n R. pose proof (d_gphi R phi t). go n R z.
  Qed.
  Lemma hess_pz R z phi t : 0 < R -> is_derive (fun x => - sp_pt s R x phi t) z (sp_pz s R z phi t).
  Proof.
    intros HR. apply is_derive_flip2. unfold sp_pt, sp_pz. cbv zeta. factor. apply d_hsum. intros n C HI. facts n R. go n R z.
  Qed.
  Lemma hess_R2 R z phi t : 0 < R -> is_derive (fun x => - sp_Rf s x z phi t) R (sp_R2 s R z phi t).
  Proof.
    intros HR. apply is_derive_flip2. unfold sp_Rf, sp_R2. cbv zeta.
    assert (HRs : a_Rs s <> 0) by apply Hs.
    match goal with |- is_derive _ _ (- (- ?a / ?b * hsum ?l ?G)) => apply (is_derive_eq _ _ ((a / b) * hsum l G)); [|rr; field; exact HRs] end.
    apply d_hsum. intros n C HI. facts n R. cbv beta.
    let e := eval cbv beta delta [d2D] zeta in (d2D s n R) in
    change e with (d2D s n R).
    let e := eval cbv beta delta [d2B] zeta in (d2B s n R) in
    change e with (d2B s n R).
    let e := eval cbv beta delta [d2K] zeta in (d2K s n R) in
    change e with (d2K s n R).
    pose proof (rpow_pos (cosh (z * sK s n R / sB s n R)) (sB s n R)) as HP.
    assert (HK2 : sK s n R ^ 2 <> 0) by (apply pow_nonzero; lra).
    refine (is_derive_eq _ _ _ _ _ _).
    { dv; try lra; try apply H5; try (apply Rgt_not_eq; apply rpow_pos). }
    cbv beta. rewrite ?sech_rpow. cbn [INR pred].
    generalize dependent (rpow (cosh (z * sK s n R / sB s n R)) (sB s n R)). intros P HP.
    generalize (exp (- (R - a_rref s) / a_Rs s)). intros E.
    generalize (ln (1 / cosh (z * sK s n R / sB s n R))). intros L.
    generalize (tanh (z * sK s n R / sB s n R)). intros T.
    generalize (cos (n * sgamma s R (phi - a_omega s * t))) (sin (n * sgamma s R (phi - a_omega s * t))). intros c si.
    repeat match goal with H : is_derive _ _ _ |- _ => clear H end.
    repeat match goal with H : forall p, is_derive _ _ _ |- _ => clear H end.
    generalize dependent (sK s n R). generalize dependent (sB s n R). generalize dependent (sD s n R).
    generalize (d2K s n R) (d2B s n R) (d2D s n R) (dK_dR s n R) (dB_dR s n R) (dD_dR s n R) (dgamma_dR s R) (sN s / R ^ 2 / tana s).
    intros. rr. field. repeat split; lra.
  Qed.
End Derivs.
