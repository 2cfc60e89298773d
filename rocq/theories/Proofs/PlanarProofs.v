(** Derivatives of the planar and one-dimensional potentials. *)
From Coq Require Import Reals Lra Lia Psatz List Bool ZArith.
From Coquelicot Require Import Coquelicot.
From Verif.Lib Require Import RealAux Atan2.
From Verif.Model Require Import PotAPI Reduce PotPlanar Wrappers.
From Verif.Proofs Require Import DehnenProofs.
From Verif.Spec Require Import PlanarSpec.
Import ListNotations.
Open Scope R_scope.
Notation RR := RbaseSymbolsImpl.R (only parsing).
Ltac toR := cbv beta; match goal with |- ?a = ?b => change (@eq RbaseSymbolsImpl.R a b) end.
Ltac conjs := repeat match goal with |- _ /\ _ => apply conj end.

(** ** From a class to the object with its amplitude *)
Definition PlForce (D : Dom3) (ev Rf pt : F3) : Prop := forall R phi t, D R phi t ->
  is_derive (fun x => ev x phi t) R (- Rf R phi t) /\ is_derive (fun x => ev R x t) phi (- pt R phi t).
Definition PlHess (D : Dom3) (Rf pt R2 p2 Rp : F3) : Prop := forall R phi t, D R phi t ->
  is_derive (fun x => - Rf x phi t) R (R2 R phi t) /\ is_derive (fun x => - pt R x t) phi (p2 R phi t) /\
  is_derive (fun x => - Rf R x t) phi (Rp R phi t) /\ is_derive (fun x => - pt x phi t) R (Rp R phi t).
Lemma scal_opp (f : RR -> RR) a x l : is_derive (fun y => - f y) x l -> is_derive (fun y => - (a * f y)) x (a * l).
Proof. intros H. apply is_derive_ext with (f := fun y => a * (- f y)); [intros; toR; ring|]. apply is_derive_Rscal, H. Qed.
Lemma scal_ev (f : RR -> RR) a x l : is_derive f x (- l) -> is_derive (fun y => a * f y) x (- (a * l)).
Proof. intros H. eapply is_derive_eq; [apply is_derive_Rscal, H|toR; ring]. Qed.
Lemma native_forces D amp ev Rf pt R2 p2 Rp : PlForce D ev Rf pt -> planar_forces_are_gradient D (PNat amp (mkPlC true ev Rf (Some pt) R2 p2 Rp)).
Proof. intros H. exists (scale3 amp ev), (scale3 amp Rf), (scale3 amp pt). conjs; try reflexivity. intros R phi t HD. destruct (H _ _ _ HD) as [A B]. unfold scale3. split; apply scal_ev; assumption. Qed.
Lemma native_hessian D amp ev Rf pt R2 p2 Rp : PlHess D Rf pt R2 p2 Rp -> planar_hessian_is_correct D (PNat amp (mkPlC true ev Rf (Some pt) (Some R2) (Some p2) (Some Rp))).
Proof.
  intros H. exists (scale3 amp Rf), (scale3 amp pt), (scale3 amp R2), (scale3 amp p2), (scale3 amp Rp). conjs; try reflexivity. intros R phi t HD. destruct (H _ _ _ HD) as (A & B & C & E). unfold scale3.
  conjs; apply scal_opp; assumption.
Qed.

(** ** Sums *)
Definition get3 (o : option F3) : F3 := match o with Some f => f | None => zero3 end.
Definition sum3 (l : list F3) : F3 := fun R phi t => fold_right (fun f s => f R phi t + s) 0 l.
Lemma fold_add3 l g R phi t : fold_left add3 l g R phi t = g R phi t + sum3 l R phi t.
Proof. revert g. induction l as [|f l IH]; intros g; cbn [fold_left]; unfold sum3 in *; cbn [fold_right]; [ring|]. rewrite IH. unfold add3. ring. Qed.
Lemma sequence_some {A B} (f : A -> option B) (g : A -> B) l : (forall a, In a l -> f a = Some (g a)) -> sequence (map f l) = Some (map g l).
Proof. induction l as [|a l IH]; intros H; [reflexivity|]. cbn. rewrite (H a) by now left. rewrite IH by (intros; apply H; now right). reflexivity. Qed.
Lemma osum3_some {A} (f : A -> option F3) (g : A -> F3) l : (forall a, In a l -> f a = Some (g a)) -> osum3 (map f l) = Some (fold_left add3 (map g l) zero3).
Proof. intros H. unfold osum3. rewrite (sequence_some f g l H). reflexivity. Qed.
Lemma sum_derive {A} (h : A -> RR -> RR) (dh : A -> RR) (l : list A) x : (forall a, In a l -> is_derive (h a) x (dh a)) ->
  is_derive (fun y => fold_right (fun a s => h a y + s) 0 l) x (fold_right (fun a s => dh a + s) 0 l).
Proof. induction l as [|a l IH]; intros H; cbn [fold_right]; [apply (is_derive_cst 0)|]. apply is_derive_Rplus; [apply H; now left|apply IH; intros; apply H; now right]. Qed.
Lemma sum3_map {A} (g : A -> F3) l R phi t : sum3 (map g l) R phi t = fold_right (fun a s => g a R phi t + s) 0 l.
Proof. unfold sum3. induction l as [|a l IH]; [reflexivity|]. cbn. rewrite IH. reflexivity. Qed.
Lemma sum_opp {A} (f : A -> RR) l : fold_right (fun a s => - f a + s) 0 l = - fold_right (fun a s => f a + s) 0 l.
Proof. induction l as [|a l IH]; cbn [fold_right]; [ring|]. rewrite IH. ring. Qed.
(** ** Derivatives of composites *)
Lemma composite_ev {A} (l : list A) (amp : RR) (f g : A -> F3) (s : RR -> RR -> RR * RR * RR) x y : (* s picks the varied coordinate *)
  (forall a, In a l -> is_derive (fun u => let '(R, phi, t) := s u y in f a R phi t) x (- (let '(R, phi, t) := s x y in g a R phi t))) ->
  is_derive (fun u => let '(R, phi, t) := s u y in scale3 amp (fold_left add3 (map f l) zero3) R phi t) x
    (- (let '(R, phi, t) := s x y in scale3 amp (fold_left add3 (map g l) zero3) R phi t)).
Proof.
  intros H. pose proof (sum_derive _ _ l x H) as D. cbv beta in D. rewrite sum_opp in D.
  eapply is_derive_ext; [|eapply is_derive_eq; [apply (is_derive_Rscal _ _ amp _ D)|]].
  - intros u. cbv beta. destruct (s u y) as [[R phi] t] eqn:E. unfold scale3. rewrite fold_add3, sum3_map. toR. unfold zero3. rewrite Rplus_0_l. reflexivity.
  - toR. destruct (s x y) as [[R phi] t]. unfold scale3. rewrite fold_add3, sum3_map. unfold zero3. ring.
Qed.
Lemma composite_f {A} (l : list A) (amp : RR) (f g : A -> F3) (s : RR -> RR -> RR * RR * RR) x y :
  (forall a, In a l -> is_derive (fun u => - (let '(R, phi, t) := s u y in f a R phi t)) x (let '(R, phi, t) := s x y in g a R phi t)) ->
  is_derive (fun u => - (let '(R, phi, t) := s u y in scale3 amp (fold_left add3 (map f l) zero3) R phi t)) x
    (let '(R, phi, t) := s x y in scale3 amp (fold_left add3 (map g l) zero3) R phi t).
Proof.
  intros H. pose proof (sum_derive _ _ l x H) as D. cbv beta in D.
  eapply is_derive_ext; [|eapply is_derive_eq; [apply (is_derive_Rscal _ _ amp _ D)|]].
  - intros u. cbv beta. destruct (s u y) as [[R phi] t] eqn:E. unfold scale3. rewrite fold_add3, sum3_map. rewrite sum_opp. toR. unfold zero3. ring.
  - toR. destruct (s x y) as [[R phi] t]. unfold scale3. rewrite fold_add3, sum3_map. unfold zero3. ring.
Qed.
Lemma composite_forces D amp ps : (forall p, In p ps -> plDiss p = false /\ planar_forces_are_gradient D p) -> planar_forces_are_gradient D (PComp amp ps).
Proof.
  intros H. set (ev := fun p => get3 (plEv p)). set (rf := fun p => get3 (plRf p (0, 0))). set (pt := fun p => get3 (plPt p (0, 0))).
  exists (scale3 amp (fold_left add3 (map ev ps) zero3)), (scale3 amp (fold_left add3 (map rf ps) zero3)), (scale3 amp (fold_left add3 (map pt ps) zero3)). conjs.
  - cbn [plEv]. rewrite (osum3_some _ ev); [reflexivity|]. intros p Hp. destruct (H p Hp) as [E (Phi & FR & Fp & E1 & _)]. rewrite E. unfold ev. rewrite E1. reflexivity.
  - intros v. cbn [plRf]. rewrite (osum3_some _ rf); [reflexivity|]. intros p Hp. destruct (H p Hp) as [E (Phi & FR & Fp & E1 & E2 & _)]. unfold rf. rewrite !E2. reflexivity.
  - intros v. cbn [plPt]. rewrite (osum3_some _ pt); [reflexivity|]. intros p Hp. destruct (H p Hp) as [E (Phi & FR & Fp & E1 & E2 & E3 & _)]. unfold pt. rewrite !E3. reflexivity.
  - intros R phi t HD. split.
    + apply (composite_ev ps amp ev rf (fun u y => (u, phi, t)) R 0). intros p Hp. destruct (H p Hp) as [_ (Phi & FR & Fp & E1 & E2 & E3 & HF)]. unfold ev, rf. rewrite E1, E2. apply HF, HD.
    + apply (composite_ev ps amp ev pt (fun u y => (R, u, t)) phi 0). intros p Hp. destruct (H p Hp) as [_ (Phi & FR & Fp & E1 & E2 & E3 & HF)]. unfold ev, pt. rewrite E1, E3. apply HF, HD.
Qed.
Lemma composite_hessian D amp ps : (forall p, In p ps -> plDiss p = false /\ planar_hessian_is_correct D p) -> planar_hessian_is_correct D (PComp amp ps).
Proof.
  intros H. set (rf := fun p => get3 (plRf p (0, 0))). set (pt := fun p => get3 (plPt p (0, 0))). set (r2 := fun p => get3 (plR2 p)). set (p2 := fun p => get3 (plp2 p)). set (rp := fun p => get3 (plRp p)).
  exists (scale3 amp (fold_left add3 (map rf ps) zero3)), (scale3 amp (fold_left add3 (map pt ps) zero3)), (scale3 amp (fold_left add3 (map r2 ps) zero3)),
    (scale3 amp (fold_left add3 (map p2 ps) zero3)), (scale3 amp (fold_left add3 (map rp ps) zero3)).
  assert (G : forall p, In p ps -> plDiss p = false /\ (forall v, plRf p v = Some (rf p)) /\ (forall v, plPt p v = Some (pt p)) /\ plR2 p = Some (r2 p) /\ plp2 p = Some (p2 p) /\ plRp p = Some (rp p) /\
     forall R phi t, D R phi t -> is_derive (fun x => - rf p x phi t) R (r2 p R phi t) /\ is_derive (fun x => - pt p R x t) phi (p2 p R phi t) /\
       is_derive (fun x => - rf p R x t) phi (rp p R phi t) /\ is_derive (fun x => - pt p x phi t) R (rp p R phi t)).
  { intros p Hp. destruct (H p Hp) as [E (FR & Fp & PRR & Ppp & PRp & E1 & E2 & E3 & E4 & E5 & HF)]. unfold rf, pt, r2, p2, rp. rewrite E1, E2, E3, E4, E5. cbn [get3].
    split; [exact E|]. split; [intros; rewrite E1; reflexivity|]. split; [intros; rewrite E2; reflexivity|]. split; [reflexivity|]. split; [reflexivity|]. split; [reflexivity|]. exact HF. }
  clearbody rf pt r2 p2 rp. conjs.
  - intros v. cbn [plRf]. rewrite (osum3_some _ rf); [reflexivity|]. intros p Hp. apply (G p Hp).
  - intros v. cbn [plPt]. rewrite (osum3_some _ pt); [reflexivity|]. intros p Hp. apply (G p Hp).
  - cbn [plR2]. rewrite (osum3_some _ r2); [reflexivity|]. intros p Hp. destruct (G p Hp) as (-> & _ & _ & E & _). exact E.
  - cbn [plp2]. rewrite (osum3_some _ p2); [reflexivity|]. intros p Hp. destruct (G p Hp) as (-> & _ & _ & _ & E & _). exact E.
  - cbn [plRp]. rewrite (osum3_some _ rp); [reflexivity|]. intros p Hp. destruct (G p Hp) as (-> & _ & _ & _ & _ & E & _). exact E.
  - intros R phi t HD. conjs.
    + apply (composite_f ps amp rf r2 (fun u y => (u, phi, t)) R 0). intros p Hp. apply (G p Hp), HD.
    + apply (composite_f ps amp pt p2 (fun u y => (R, u, t)) phi 0). intros p Hp. apply (G p Hp), HD.
    + apply (composite_f ps amp rf rp (fun u y => (R, u, t)) phi 0). intros p Hp. apply (G p Hp), HD.
    + apply (composite_f ps amp pt rp (fun u y => (u, phi, t)) R 0). intros p Hp. apply (G p Hp), HD.
Qed.

(** ** The classes *)
Lemma rp_m1 R p : 0 < R -> rpow R (p - 1) = rpow R p / R.
Proof. intros P. rewrite rpow_minus, rpow_1 by exact P. reflexivity. Qed.
Lemma rp_m2 R p : 0 < R -> rpow R (p - 2) = rpow R p / R ^ 2.
Proof. intros P. rewrite rpow_minus, rpow_2 by exact P. reflexivity. Qed.
Lemma rp_p1 R p : 0 < R -> rpow R (p + 1) = rpow R p * R.
Proof. intros P. rewrite rpow_plus, rpow_1 by exact P. reflexivity. Qed.
Lemma rp_p2 R p : 0 < R -> rpow R (p + 2) = rpow R p * R ^ 2.
Proof. intros P. rewrite rpow_plus, rpow_2 by exact P. reflexivity. Qed.
Lemma rp_derive R p : 0 < R -> is_derive (fun x => rpow x p) R (p * (rpow R p / R)).
Proof. intros P. eapply is_derive_eq; [apply (is_derive_rpow (fun x => x) p R 1 P); apply (is_derive_id (K := R_AbsRing) R)|]. toR. rewrite rp_m1 by exact P. field. lra. Qed.
(** products of a power of R, a trigonometric function of phi and a constant *)
Lemma dR_prod c (g h : RR -> RR) R dh : is_derive h R dh -> is_derive (fun x => c * h x) R (c * dh).
Proof. intros H. apply is_derive_Rscal, H. Qed.
Definition away : Dom3 := fun R _ _ => 0 < R.

Lemma ED_forces phib p twophio w : PlForce away (ED_ev phib p twophio w) (ED_Rf phib p twophio w) (ED_pt phib p twophio w).
Proof.
  intros R phi t P. unfold away in P. unfold ED_ev, ED_Rf, ED_pt. set (g := growth w t). split.
  - eapply is_derive_ext; [|eapply is_derive_eq; [apply (is_derive_Rscal _ _ (g * twophio / 2 * cos (2 * (phi - phib))) _ (rp_derive R p P))|]]; [intros; toR; cbv beta; ring|]. toR. rewrite rp_m1 by exact P. field. lra.
  - auto_derive; [exact I|]. change (phi + - phib) with (phi - phib). field.
Qed.
Lemma ED_hess phib p twophio w : PlHess away (ED_Rf phib p twophio w) (ED_pt phib p twophio w) (ED_R2 phib p twophio w) (ED_p2 phib p twophio w) (ED_Rp phib p twophio w).
Proof.
  intros R phi t P. unfold away in P. unfold ED_Rf, ED_pt, ED_R2, ED_p2, ED_Rp. set (g := growth w t). conjs.
  - eapply is_derive_ext; [|eapply is_derive_eq; [apply (is_derive_Rscal _ _ (g * p * twophio / 2 * cos (2 * (phi - phib))) _ (rp_derive R (p - 1) P))|]]; [intros; toR; cbv beta; field|]. toR. rewrite rp_m1, rp_m2 by exact P. field. lra.
  - auto_derive; [exact I|]. change (phi + - phib) with (phi - phib). field.
  - auto_derive; [exact I|]. change (phi + - phib) with (phi - phib). field.
  - eapply is_derive_ext; [|eapply is_derive_eq; [apply (is_derive_Rscal _ _ (- g * twophio * sin (2 * (phi - phib))) _ (rp_derive R p P))|]]; [intros; toR; cbv beta; ring|]. toR. rewrite rp_m1 by exact P. field. lra.
Qed.
Lemma chi_R omegas alpha m gamma phi t R : 0 < R -> is_derive (fun x => SLS_chi omegas alpha m gamma x phi t) R (alpha / R).
Proof. intros P. unfold SLS_chi. auto_derive; [exact P|]. field. lra. Qed.
Lemma chi_phi omegas alpha m gamma phi t R : is_derive (fun x => SLS_chi omegas alpha m gamma R x t) phi (- m).
Proof. unfold SLS_chi. auto_derive; [exact I|]. ring. Qed.
Lemma d_cos (f : RR -> RR) x df : is_derive f x df -> is_derive (fun y => cos (f y)) x (- sin (f x) * df).
Proof. intros H. apply (is_derive_Rchain cos f); [apply is_derive_cos|exact H]. Qed.
Lemma d_sin (f : RR -> RR) x df : is_derive f x df -> is_derive (fun y => sin (f y)) x (cos (f x) * df).
Proof. intros H. apply (is_derive_Rchain sin f); [apply is_derive_sin|exact H]. Qed.
Lemma d_inv x : 0 < x -> is_derive (fun y : RR => / y) x (- / x ^ 2).
Proof. intros H. auto_derive; [lra|]. field. lra. Qed.
(** Both spirals: an amplitude that depends on time only, times the same pattern *)
Section Spirals.
  Variables (omegas alpha m gamma : RR).
  Hypothesis Na : alpha <> 0.
  Notation chi := (SLS_chi omegas alpha m gamma).
  Lemma spiral_forces (S : RR -> RR) : PlForce away (fun R phi t => S t / alpha * cos (chi R phi t)) (fun R phi t => S t / R * sin (chi R phi t)) (fun R phi t => - S t / alpha * m * sin (chi R phi t)).
  Proof.
    intros R phi t P. unfold away in P. split.
    - eapply is_derive_eq; [apply is_derive_Rscal, d_cos, chi_R, P|]. toR. field. split; [lra|exact Na].
    - eapply is_derive_eq; [apply is_derive_Rscal, d_cos, chi_phi|]. toR. field. exact Na.
  Qed.
  Lemma spiral_hess (S : RR -> RR) : PlHess away (fun R phi t => S t / R * sin (chi R phi t)) (fun R phi t => - S t / alpha * m * sin (chi R phi t))
    (fun R phi t => S t / R ^ 2 * (sin (chi R phi t) - alpha * cos (chi R phi t))) (fun R phi t => - S t / alpha * m ^ 2 * cos (chi R phi t)) (fun R phi t => S t * m / R * cos (chi R phi t)).
  Proof.
    intros R phi t P. unfold away in P. conjs.
    - eapply is_derive_ext; [|eapply is_derive_eq; [apply (is_derive_Rscal _ _ (- S t) _ (is_derive_Rmult _ _ _ _ _ (d_inv R P) (d_sin _ _ _ (chi_R omegas alpha m gamma phi t R P))))|]]; [intros; toR; cbv beta; unfold Rdiv; ring|]. toR. field. lra.
    - eapply is_derive_ext; [|eapply is_derive_eq; [apply (is_derive_Rscal _ _ (S t / alpha * m) _ (d_sin _ _ _ (chi_phi omegas alpha m gamma phi t R)))|]]; [intros; toR; cbv beta; field; exact Na|]. toR. field. exact Na.
    - eapply is_derive_ext; [|eapply is_derive_eq; [apply (is_derive_Rscal _ _ (- S t / R) _ (d_sin _ _ _ (chi_phi omegas alpha m gamma phi t R)))|]]; [intros; toR; cbv beta; field; lra|]. toR. field. lra.
    - eapply is_derive_ext; [|eapply is_derive_eq; [apply (is_derive_Rscal _ _ (S t / alpha * m) _ (d_sin _ _ _ (chi_R omegas alpha m gamma phi t R P)))|]]; [intros; toR; cbv beta; field; exact Na|]. toR. field. split; [lra|exact Na].
  Qed.
End Spirals.
Lemma PlForce_ext D ev Rf pt ev' Rf' pt' : (forall R phi t, ev R phi t = ev' R phi t) -> (forall R phi t, Rf R phi t = Rf' R phi t) -> (forall R phi t, pt R phi t = pt' R phi t) ->
  PlForce D ev Rf pt -> PlForce D ev' Rf' pt'.
Proof. intros E1 E2 E3 H R phi t HD. destruct (H R phi t HD) as [A B]. rewrite <- E2, <- E3. split; [eapply is_derive_ext; [|exact A]|eapply is_derive_ext; [|exact B]]; intros; cbv beta; apply E1. Qed.
Lemma PlHess_ext D Rf pt R2 p2 Rp Rf' pt' R2' p2' Rp' : (forall R phi t, Rf R phi t = Rf' R phi t) -> (forall R phi t, pt R phi t = pt' R phi t) -> (forall R phi t, R2 R phi t = R2' R phi t) ->
  (forall R phi t, p2 R phi t = p2' R phi t) -> (forall R phi t, Rp R phi t = Rp' R phi t) -> PlHess D Rf pt R2 p2 Rp -> PlHess D Rf' pt' R2' p2' Rp'.
Proof.
  intros E1 E2 E3 E4 E5 H R phi t HD. destruct (H R phi t HD) as (A & B & C & E). rewrite <- E3, <- E4, <- E5.
  conjs; [eapply is_derive_ext; [|exact A]|eapply is_derive_ext; [|exact B]|eapply is_derive_ext; [|exact C]|eapply is_derive_ext; [|exact E]]; intros; cbv beta; [rewrite E1|rewrite E2|rewrite E1|rewrite E2]; reflexivity.
Qed.
Lemma SLS_forces omegas A alpha m gamma w : alpha <> 0 -> PlForce away (SLS_ev omegas A alpha m gamma w) (SLS_Rf omegas A alpha m gamma w) (SLS_pt omegas A alpha m gamma w).
Proof. intros N. eapply PlForce_ext; [| | |apply (spiral_forces omegas alpha m gamma N (fun t => growth w t * A))]; intros; cbv [SLS_ev SLS_Rf SLS_pt]; unfold Rdiv; ring. Qed.
Lemma SLS_hess omegas A alpha m gamma w : alpha <> 0 -> PlHess away (SLS_Rf omegas A alpha m gamma w) (SLS_pt omegas A alpha m gamma w) (SLS_R2 omegas A alpha m gamma w) (SLS_p2 omegas A alpha m gamma w) (SLS_Rp omegas A alpha m gamma w).
Proof. intros N. eapply PlHess_ext; [| | | | |apply (spiral_hess omegas alpha m gamma N (fun t => growth w t * A))]; intros; cbv [SLS_R2 SLS_Rf SLS_pt SLS_p2 SLS_Rp]; unfold Rdiv; ring. Qed.
Lemma TLS_forces omegas A alpha m gamma s2 to : alpha <> 0 -> PlForce away (TLS_ev omegas A alpha m gamma s2 to) (TLS_Rf omegas A alpha m gamma s2 to) (TLS_pt omegas A alpha m gamma s2 to).
Proof. intros N. eapply PlForce_ext; [| | |apply (spiral_forces omegas alpha m gamma N (fun t => A * TLS_amp s2 to t))]; intros; cbv [TLS_ev TLS_Rf TLS_pt]; unfold Rdiv; ring. Qed.
Lemma TLS_hess omegas A alpha m gamma s2 to : alpha <> 0 -> PlHess away (TLS_Rf omegas A alpha m gamma s2 to) (TLS_pt omegas A alpha m gamma s2 to) (TLS_R2 omegas A alpha m gamma s2 to) (TLS_p2 omegas A alpha m gamma s2 to) (TLS_Rp omegas A alpha m gamma s2 to).
Proof. intros N. eapply PlHess_ext; [| | | | |apply (spiral_hess omegas alpha m gamma N (fun t => A * TLS_amp s2 to t))]; intros; cbv [TLS_R2 TLS_Rf TLS_pt TLS_p2 TLS_Rp]; unfold Rdiv; ring. Qed.
Definition everywhere : Dom3 := fun _ _ _ => True.
Lemma HH_forces : PlForce everywhere HH_ev HH_Rf HH_pt.
Proof. intros R phi t _. unfold HH_ev, HH_Rf, HH_pt. split; (auto_derive; [exact I|]; field). Qed.
Lemma HH_hess : PlHess everywhere HH_Rf HH_pt HH_R2 HH_p2 HH_Rp.
Proof. intros R phi t _. unfold HH_R2, HH_Rf, HH_pt, HH_p2, HH_Rp. conjs; (auto_derive; [exact I|]; field). Qed.

(** ** CosmphiDisk: two branches that meet at the break radius *)
Section Cos.
  Variables (m mphio mphib p rb r1p : RR).
  Hypothesis Nm : m <> 0.
  Notation ev := (CD_ev m mphio mphib p rb r1p). Notation Rf := (CD_Rf m mphio mphib p rb). Notation pt := (CD_pt m mphio mphib p rb r1p).
  Notation R2 := (CD_R2 m mphio mphib p rb). Notation p2 := (CD_p2 m mphio mphib p rb r1p). Notation Rp := (CD_Rp m mphio mphib p rb).
  Definition off_break : Dom3 := fun R _ _ => 0 < R /\ R <> rb.
  Definition outside : Dom3 := fun R _ _ => 0 < R /\ rb < R.
  Lemma inner_derive R : 0 < R -> is_derive (fun x => 2 * r1p - CD_rbp p rb / rpow x p) R (CD_rbp p rb * p / (rpow R p * R)).
  Proof.
    intros P. pose proof (rpow_pos R p) as Q. pose proof (rp_derive R p P) as D.
    eapply is_derive_ext; [|eapply is_derive_eq; [apply (is_derive_Rplus _ _ R _ _ (is_derive_cst (2 * r1p) R) (is_derive_Rscal _ R (- CD_rbp p rb) _ (is_derive_Rchain Rinv _ R _ _ (d_inv _ Q) D)))|]].
    - intros. toR. unfold Rdiv. ring.
    - toR. field. lra.
  Qed.
  Lemma ang_cos phi : is_derive (fun x => cos (m * x - mphib)) phi (- m * sin (m * phi - mphib)).
  Proof. auto_derive; [exact I|]. change (m * phi + - mphib) with (m * phi - mphib). ring. Qed.
  Lemma ang_sin phi : is_derive (fun x => sin (m * x - mphib)) phi (m * cos (m * phi - mphib)).
  Proof. auto_derive; [exact I|]. change (m * phi + - mphib) with (m * phi - mphib). ring. Qed.
  (** the two branches *)
  Definition ev_in (R phi : RR) := mphio / m * cos (m * phi - mphib) * CD_rbp p rb * (2 * r1p - CD_rbp p rb / rpow R p).
  Definition ev_out (R phi : RR) := mphio / m * rpow R p * cos (m * phi - mphib).
  Lemma ev_in_R R phi : 0 < R -> is_derive (fun x => ev_in x phi) R (p * mphio / m * CD_rb2p p rb / rpow R (p + 1) * cos (m * phi - mphib)).
  Proof. intros P. unfold ev_in. eapply is_derive_eq; [apply is_derive_Rscal, inner_derive, P|]. toR. rewrite rp_p1 by exact P. pose proof (rpow_pos R p). unfold CD_rb2p. field. repeat split; try lra; exact Nm. Qed.
  Lemma ev_out_R R phi : 0 < R -> is_derive (fun x => ev_out x phi) R (p * mphio / m * rpow R (p - 1) * cos (m * phi - mphib)).
  Proof.
    intros P. unfold ev_out. eapply is_derive_ext; [|eapply is_derive_eq; [apply (is_derive_Rscal _ R (mphio / m * cos (m * phi - mphib)) _ (rp_derive R p P))|]]; [intros; toR; ring|].
    toR. rewrite rp_m1 by exact P. field. split; [lra|exact Nm].
  Qed.
  Definition pt_in (R phi : RR) := mphio * sin (m * phi - mphib) * CD_rbp p rb * (2 * r1p - CD_rbp p rb / rpow R p).
  Definition pt_out (R phi : RR) := mphio * rpow R p * sin (m * phi - mphib).
  Lemma pt_in_R R phi : 0 < R -> is_derive (fun x => - pt_in x phi) R (- (p * mphio * CD_rb2p p rb / rpow R (p + 1) * sin (m * phi - mphib))).
  Proof.
    intros P. unfold pt_in. eapply is_derive_ext; [|eapply is_derive_eq; [apply (is_derive_Rscal _ R (- (mphio * sin (m * phi - mphib) * CD_rbp p rb)) _ (inner_derive R P))|]]; [intros; toR; ring|].
    toR. rewrite rp_p1 by exact P. pose proof (rpow_pos R p). unfold CD_rb2p. field. lra.
  Qed.
  Lemma pt_out_R R phi : 0 < R -> is_derive (fun x => - pt_out x phi) R (- (p * mphio * rpow R (p - 1) * sin (m * phi - mphib))).
  Proof.
    intros P. unfold pt_out. eapply is_derive_ext; [|eapply is_derive_eq; [apply (is_derive_Rscal _ R (- (mphio * sin (m * phi - mphib))) _ (rp_derive R p P))|]]; [intros; toR; ring|].
    toR. rewrite rp_m1 by exact P. field. lra.
  Qed.
  Lemma two_branches (f g : RR -> RR) R l : R <> rb -> (R < rb -> is_derive f R l) -> (rb < R -> is_derive g R l) -> is_derive (fun x => if Rlt_dec x rb then f x else g x) R l.
  Proof.
    intros N Hf Hg. destruct (Rtotal_order R rb) as [L|[E|L]]; [|contradiction|].
    - eapply is_derive_loc; [apply (locally_lt rb R L)| |apply (Hf L)]. intros y Hy. cbv beta in *. destruct (Rlt_dec y rb); [reflexivity|lra].
    - eapply is_derive_loc; [apply (locally_gt rb R L)| |apply (Hg L)]. intros y Hy. cbv beta in *. destruct (Rlt_dec y rb); [lra|reflexivity].
  Qed.
  Lemma ev_phi R phi t : is_derive (fun x => ev R x t) phi (- pt R phi t).
  Proof.
    unfold CD_ev, CD_pt. destruct (Rlt_dec R rb).
    - eapply is_derive_ext; [|eapply is_derive_eq; [apply (is_derive_Rscal _ phi (mphio / m * CD_rbp p rb * (2 * r1p - CD_rbp p rb / rpow R p)) _ (ang_cos phi))|]]; [intros; toR; ring|]. toR. pose proof (rpow_pos R p). field. split; [lra|exact Nm].
    - eapply is_derive_ext; [|eapply is_derive_eq; [apply (is_derive_Rscal _ phi (mphio / m * rpow R p) _ (ang_cos phi))|]]; [intros; toR; ring|]. toR. field. exact Nm.
  Qed.
  Lemma CD_forces : PlForce off_break ev Rf pt.
  Proof.
    intros R phi t [P N]. split; [|apply ev_phi]. apply (two_branches (fun x => ev_in x phi) (fun x => ev_out x phi)); [exact N| |]; intros L.
    - eapply is_derive_eq; [apply ev_in_R, P|]. toR. unfold CD_Rf. destruct (Rlt_dec R rb); [|lra]. unfold Rdiv. ring.
    - eapply is_derive_eq; [apply ev_out_R, P|]. toR. unfold CD_Rf. destruct (Rlt_dec R rb); [lra|]. unfold Rdiv. ring.
  Qed.
  (** with the normalisation at one, the two branches meet with equal slopes *)
  Lemma CD_forces_break : r1p = 1 -> PlForce away ev Rf pt.
  Proof.
    intros E1 R phi t P. unfold away in P. destruct (Req_dec R rb) as [E|N]; [|apply CD_forces; split; assumption]. split; [|apply ev_phi]. subst R.
    pose proof (rpow_pos rb p) as Q.
    apply (glue_derive (fun x => ev_in x phi) (fun x => ev_out x phi)).
    - unfold ev_in, ev_out, CD_rbp. rewrite E1. field. split; [exact Nm|lra].
    - eapply is_derive_eq; [apply ev_in_R, P|]. toR. unfold CD_Rf. destruct (Rlt_dec rb rb); [lra|]. rewrite rp_p1, rp_m1 by exact P. unfold CD_rb2p, CD_rbp. field. repeat split; try lra; exact Nm.
    - eapply is_derive_eq; [apply ev_out_R, P|]. toR. unfold CD_Rf. destruct (Rlt_dec rb rb); [lra|]. unfold Rdiv. ring.
  Qed.
  Lemma Rf_out_R R phi : 0 < R -> is_derive (fun x => - (- p * mphio / m * rpow x (p - 1) * cos (m * phi - mphib))) R (p * (p - 1) / m * mphio * rpow R (p - 2) * cos (m * phi - mphib)).
  Proof.
    intros P. eapply is_derive_ext; [|eapply is_derive_eq; [apply (is_derive_Rscal _ R (p * mphio / m * cos (m * phi - mphib)) _ (rp_derive R (p - 1) P))|]]; [intros; toR; unfold Rdiv; ring|].
    toR. rewrite rp_m1, rp_m2 by exact P. field. split; [lra|exact Nm].
  Qed.
  Lemma Rf_in_R R phi : 0 < R -> is_derive (fun x => - (- p * mphio / m * CD_rb2p p rb / rpow x (p + 1) * cos (m * phi - mphib))) R (- p * (p + 1) * mphio / m * CD_rb2p p rb / rpow R (p + 2) * cos (m * phi - mphib)).
  Proof.
    intros P. pose proof (rpow_pos R (p + 1)) as Q. pose proof (rp_derive R (p + 1) P) as D. pose proof (rpow_pos R p).
    eapply is_derive_ext; [|eapply is_derive_eq; [apply (is_derive_Rscal _ R (p * mphio / m * CD_rb2p p rb * cos (m * phi - mphib)) _ (is_derive_Rchain Rinv _ R _ _ (d_inv _ Q) D))|]]; [intros; toR; unfold Rdiv; ring|].
    toR. rewrite rp_p1, rp_p2 by exact P. field. repeat split; try lra; exact Nm.
  Qed.
  (** everything but the mixed derivative inside the break *)
  Lemma R2_ok R phi t : 0 < R -> R <> rb -> is_derive (fun x => - Rf x phi t) R (R2 R phi t).
  Proof.
    intros P N. unfold CD_Rf. eapply is_derive_ext with (f := fun x => if Rlt_dec x rb then - (- p * mphio / m * CD_rb2p p rb / rpow x (p + 1) * cos (m * phi - mphib)) else - (- p * mphio / m * rpow x (p - 1) * cos (m * phi - mphib))).
    { intros x. destruct (Rlt_dec x rb); reflexivity. }
    apply (two_branches (fun x => - (- p * mphio / m * CD_rb2p p rb / rpow x (p + 1) * cos (m * phi - mphib))) (fun x => - (- p * mphio / m * rpow x (p - 1) * cos (m * phi - mphib)))); [exact N| |]; intros L; unfold CD_R2; destruct (Rlt_dec R rb); try lra.
    - apply Rf_in_R, P.
    - apply Rf_out_R, P.
  Qed.
  Lemma p2_ok R phi t : is_derive (fun x => - pt R x t) phi (p2 R phi t).
  Proof.
    unfold CD_pt, CD_p2. destruct (Rlt_dec R rb).
    - eapply is_derive_ext; [|eapply is_derive_eq; [apply (is_derive_Rscal _ phi (- (mphio * CD_rbp p rb * (2 * r1p - CD_rbp p rb / rpow R p))) _ (ang_sin phi))|]]; [intros; toR; ring|]. toR. ring.
    - eapply is_derive_ext; [|eapply is_derive_eq; [apply (is_derive_Rscal _ phi (- (mphio * rpow R p)) _ (ang_sin phi))|]]; [intros; toR; ring|]. toR. ring.
  Qed.
  Lemma Rp_from_Rf R phi t : rb <= R \/ m = 1 -> is_derive (fun x => - Rf R x t) phi (Rp R phi t).
  Proof.
    intros H. unfold CD_Rf, CD_Rp. destruct (Rlt_dec R rb).
    - destruct H as [H|H]; [lra|]. eapply is_derive_ext; [|eapply is_derive_eq; [apply (is_derive_Rscal _ phi (p * mphio / m * CD_rb2p p rb / rpow R (p + 1)) _ (ang_cos phi))|]]; [intros; toR; unfold Rdiv; ring|].
      toR. rewrite H. unfold Rdiv. rewrite Rinv_1. ring.
    - eapply is_derive_ext; [|eapply is_derive_eq; [apply (is_derive_Rscal _ phi (p * mphio / m * rpow R (p - 1)) _ (ang_cos phi))|]]; [intros; toR; unfold Rdiv; ring|].
      toR. field. exact Nm.
  Qed.
  Lemma Rp_from_pt R phi t : 0 < R -> R <> rb -> rb <= R \/ m = 1 -> is_derive (fun x => - pt x phi t) R (Rp R phi t).
  Proof.
    intros P N H. unfold CD_pt. eapply is_derive_ext with (f := fun x => if Rlt_dec x rb then - pt_in x phi else - pt_out x phi); [intros x; unfold pt_in, pt_out; destruct (Rlt_dec x rb); reflexivity|].
    apply (two_branches (fun x => - pt_in x phi) (fun x => - pt_out x phi)); [exact N| |]; intros L; unfold CD_Rp; destruct (Rlt_dec R rb); try lra.
    - eapply is_derive_eq; [apply pt_in_R, P|]. toR. destruct H as [H|H]; [lra|]. rewrite H. unfold Rdiv. rewrite Rinv_1. ring.
    - eapply is_derive_eq; [apply pt_out_R, P|]. toR. ring.
  Qed.
  Lemma CD_hess : PlHess (fun R phi t => 0 < R /\ R <> rb /\ (rb <= R \/ m = 1)) Rf pt R2 p2 Rp.
  Proof. intros R phi t (P & N & H). conjs; [apply R2_ok|apply p2_ok|apply Rp_from_Rf|apply Rp_from_pt]; assumption. Qed.
End Cos.

(** ** One dimension *)
Lemma cosh_pos x : 0 < cosh x.
Proof. unfold cosh. pose proof (exp_pos x). pose proof (exp_pos (- x)). lra. Qed.
Lemma tanh_sech x : 1 - tanh x ^ 2 = sech x ^ 2.
Proof. unfold tanh, sech, sinh, cosh. pose proof (exp_pos x) as A. rewrite exp_Ropp. field. repeat split; nra. Qed.
Lemma ID_forces sigma H : H <> 0 -> forall x t, is_derive (fun y => ID_ev sigma H y t) x (- ID_f sigma H x t).
Proof.
  intros N x t. unfold ID_ev, ID_f. pose proof (cosh_pos (/ 2 * x / H)) as P.
  eapply is_derive_eq; [apply is_derive_Rscal, (is_derive_Rchain ln (fun y => cosh (/ 2 * y / H)) x (/ cosh (/ 2 * x / H)) (sinh (/ 2 * x / H) * (/ 2 / H)))|].
  - apply is_derive_ln. exact P.
  - apply (is_derive_Rchain cosh (fun y => / 2 * y / H) x); [apply is_derive_Reals, derivable_pt_lim_cosh|]. auto_derive; [exact I|]. field. exact N.
  - toR. unfold tanh. field. split; [lra|exact N].
Qed.
Lemma ID_second sigma H : H <> 0 -> forall x t, is_derive (fun y => - ID_f sigma H y t) x (ID_f2 sigma H x t).
Proof.
  intros N x t. unfold ID_f, ID_f2. pose proof (cosh_pos (/ 2 * x / H)) as P.
  assert (DT : is_derive tanh (/ 2 * x / H) (1 - tanh (/ 2 * x / H) ^ 2)).
  { set (u := / 2 * x / H) in *. clearbody u.
    eapply is_derive_ext; [|eapply is_derive_eq; [apply (is_derive_Rmult sinh (fun y => / cosh y) u (cosh u) (- / cosh u ^ 2 * sinh u)); [apply is_derive_Reals, derivable_pt_lim_sinh|apply (is_derive_Rchain Rinv cosh u _ _ (d_inv _ P)), is_derive_Reals, derivable_pt_lim_cosh]|]].
    - intros y. reflexivity.
    - toR. unfold tanh. field. lra. }
  assert (DI : is_derive (fun y => / 2 * y / H) x (/ 2 / H)) by (auto_derive; [exact I|]; field; exact N).
  eapply is_derive_ext; [|eapply is_derive_eq; [apply (is_derive_Rscal _ x (sigma ^ 2 / H) _ (is_derive_Rchain tanh _ x _ _ DT DI))|]].
  - intros y. toR. unfold Rdiv. ring.
  - toR. field. exact N.
Qed.
Lemma KG_forces K F D : D <> 0 -> forall x t, is_derive (fun y => KG_ev K F D y t) x (- KG_f K F D x t).
Proof. intros N x t. unfold KG_ev, KG_f. assert (P : 0 < x ^ 2 + D ^ 2) by nra. auto_derive; [nra|]. pose proof (sqrt_lt_R0 _ P) as Q. replace (x * (x * 1) + D * (D * 1)) with (x ^ 2 + D ^ 2) by ring. field. lra. Qed.
Lemma KG_second K F D : D <> 0 -> forall x t, is_derive (fun y => - KG_f K F D y t) x (KG_f2 K F D x t).
Proof.
  intros N x t. unfold KG_f, KG_f2. assert (P : 0 < x ^ 2 + D ^ 2) by nra. pose proof (sqrt_lt_R0 _ P) as Q. rewrite rpow_3_2 by exact P.
  auto_derive; [split; [nra|split; [|exact I]]; replace (x * (x * 1) + D * (D * 1)) with (x ^ 2 + D ^ 2) by ring; lra|].
  replace (x * (x * 1) + D * (D * 1)) with (x ^ 2 + D ^ 2) by ring. pose proof (sqrt_sqrt (x ^ 2 + D ^ 2) ltac:(lra)) as S2. set (s := sqrt (x ^ 2 + D ^ 2)) in *. 
  replace (D ^ 2) with (s * s - x ^ 2) by lra. field. lra.
Qed.
