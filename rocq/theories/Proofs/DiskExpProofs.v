(** The pairs of the disk expansion: derivatives, Poisson's equation, and the class as a sum of its expansion and the pairs. *)
From Coq Require Import Reals Lra Psatz List Bool String FunctionalExtensionality.
From Coquelicot Require Import Coquelicot.
From Verif.Lib Require Import RealAux.
From Verif.Model Require Import PotAPI PotAxi Mass DiskExpansion.
From Verif.Spec Require Import PotSpec PotApiSpec DiskExpSpec.
From Verif.Proofs Require Import AxiProofs AxiProofs2 PotLift.
Import ListNotations.
Open Scope R_scope.
Notation RR := RbaseSymbolsImpl.R (only parsing).
Ltac rr := match goal with |- ?a = ?b => change (@eq RR a b) end.

Definition D2 (R z : RR) : Prop := R <> 0 \/ z <> 0.
Lemma rad_pos R z : D2 R z -> 0 < rad R z. Proof. intros H. apply sqrt_lt_R0. apply origin_pos. exact H. Qed.
Lemma rad_sq R z : rad R z ^ 2 = R ^ 2 + z ^ 2. Proof. unfold rad. rewrite pow2_sqrt; [reflexivity|]. pose proof (pow2_ge_0 R). pose proof (pow2_ge_0 z). lra. Qed.
Lemma rad_sym R z : rad R z = rad z R. Proof. unfold rad. f_equal. ring. Qed.
Lemma d_radR R z : D2 R z -> is_derive (fun x => rad x z) R (R / rad R z).
Proof. intros H. pose proof (origin_pos _ _ H). pose proof (rad_pos _ _ H) as P. unfold rad in *. auto_derive; [simpl in *; lra|]. replace (R * (R * 1) + z * (z * 1)) with (R ^ 2 + z ^ 2) by ring. field. lra. Qed.
Lemma d_radz R z : D2 R z -> is_derive (fun x => rad R x) z (z / rad R z).
Proof. intros H. apply is_derive_ext with (f := fun x => rad x R); [intros; apply rad_sym|]. rewrite (rad_sym R z). apply d_radR. destruct H; [right|left]; assumption. Qed.
Lemma d_compR (f : RR -> RR) R z l : D2 R z -> is_derive f (rad R z) l -> is_derive (fun x => f (rad x z)) R (l * (R / rad R z)).
Proof. intros H D. exact (is_derive_Rchain f (fun x => rad x z) R l _ D (d_radR R z H)). Qed.
Lemma d_compz (f : RR -> RR) R z l : D2 R z -> is_derive f (rad R z) l -> is_derive (fun x => f (rad R x)) z (l * (z / rad R z)).
Proof. intros H D. exact (is_derive_Rchain f (fun x => rad R x) z l _ D (d_radz R z H)). Qed.
Lemma d_cosR R z : D2 R z -> is_derive (fun x => x / rad x z) R (z ^ 2 / rad R z ^ 3).
Proof.
  intros H. pose proof (rad_pos _ _ H) as P. pose proof (rad_sq R z) as Q. pose proof (d_radR R z H) as D.
  eapply is_derive_eq. { apply (is_derive_div (fun x => x) (fun x => rad x z) R 1 (R / rad R z)); [exact (is_derive_id (K := R_AbsRing) R)|exact D|lra]. }
  rr. apply Rmult_eq_reg_r with (rad R z ^ 3); [|apply pow_nonzero; lra]. field_simplify; [|lra|lra]. nra.
Qed.
Lemma d_cosz R z : D2 R z -> is_derive (fun x => R / rad R x) z (- (R * z) / rad R z ^ 3).
Proof.
  intros H. pose proof (rad_pos _ _ H) as P. pose proof (d_radz R z H) as D.
  eapply is_derive_eq. { apply (is_derive_div (fun _ => R) (fun x => rad R x) z 0 (z / rad R z)); [apply is_derive_cst|exact D|lra]. }
  rr. field. lra.
Qed.
Lemma d_sinR R z : D2 R z -> is_derive (fun x => z / rad x z) R (- (R * z) / rad R z ^ 3).
Proof. intros H. eapply is_derive_eq; [apply is_derive_ext with (f := fun x => z / rad z x); [intros; rewrite rad_sym; reflexivity|]; apply d_cosz; destruct H; [right|left]; assumption|]. rewrite (rad_sym z R). rr. unfold Rdiv. ring. Qed.
Lemma d_sinz R z : D2 R z -> is_derive (fun x => x / rad R x) z (R ^ 2 / rad R z ^ 3).
Proof. intros H. eapply is_derive_eq; [apply is_derive_ext with (f := fun x => x / rad x R); [intros; rewrite rad_sym; reflexivity|]; apply d_cosR; destruct H; [right|left]; assumption|]. rewrite (rad_sym z R). reflexivity. Qed.

(** ** One pair *)
Section Pair.
  Variable p : disk_pair.
  Definition pr_ev (R z : RR) : RR := 4 * PI * dp_amp p * dp_S p (rad R z) * dp_H p z.
  Definition pr_Rf (R z : RR) : RR := - (4 * PI * dp_amp p * dp_dS p (rad R z) * dp_H p z * R / rad R z).
  Definition pr_zf (R z : RR) : RR := - (4 * PI * dp_amp p * (dp_dS p (rad R z) * dp_H p z * z / rad R z + dp_S p (rad R z) * dp_dH p z)).
  Definition pr_R2 (R z : RR) : RR := 4 * PI * dp_amp p * dp_H p z / rad R z ^ 2 * (dp_d2S p (rad R z) * R ^ 2 + z ^ 2 / rad R z * dp_dS p (rad R z)).
  Definition pr_z2 (R z : RR) : RR := 4 * PI * dp_amp p * (dp_H p z / rad R z ^ 2 * (dp_d2S p (rad R z) * z ^ 2 + dp_dS p (rad R z) * R ^ 2 / rad R z) + 2 * dp_dS p (rad R z) * dp_dH p z * z / rad R z + dp_S p (rad R z) * dp_h p z).
  Definition pr_Rz (R z : RR) : RR := 4 * PI * dp_amp p * (dp_H p z * R * z / rad R z ^ 2 * (dp_d2S p (rad R z) - dp_dS p (rad R z) / rad R z) + dp_dS p (rad R z) * dp_dH p z * R / rad R z).
  Definition pr_dn (R z : RR) : RR := dp_amp p * (dp_S p (rad R z) * dp_h p z + dp_d2S p (rad R z) * dp_H p z + 2 / rad R z * dp_dS p (rad R z) * (dp_H p z + z * dp_dH p z)).
  Definition pr_class : PotC := mkAxi pr_ev pr_Rf pr_zf (Some pr_R2) (Some pr_z2) (Some pr_Rz) (Some pr_dn).
  Definition prod2 (f g : RR -> RR) x a b (Hf : is_derive f x a) (Hg : is_derive g x b) : is_derive (fun y => f y * g y) x (a * g x + f x * b) := is_derive_Rmult f g x a b Hf Hg.
  Lemma pair_force : sound p -> AxiForce D2 pr_ev pr_Rf pr_zf.
  Proof.
    intros [HS (_ & _ & HH)]. split; intros R z H; pose proof (rad_pos _ _ H) as P; destruct (HS _ P) as [S1 _]; destruct (HH z) as [H1 _].
    - eapply is_derive_eq; [apply is_derive_ext with (f := fun x => (4 * PI * dp_amp p * dp_H p z) * dp_S p (rad x z)); [intros; unfold pr_ev; rr; ring|]; apply is_derive_Rscal; apply d_compR; eassumption|]. unfold pr_Rf. rr. field. lra.
    - eapply is_derive_eq; [apply is_derive_ext with (f := fun x => (4 * PI * dp_amp p) * (dp_S p (rad R x) * dp_H p x)); [intros; unfold pr_ev; rr; ring|]; apply is_derive_Rscal; exact (prod2 _ _ _ _ _ (d_compz _ _ _ _ H S1) H1)|]. unfold pr_zf. cbv beta. rr. field. lra.
  Qed.
  Lemma pair_hess : sound p -> AxiHess D2 pr_Rf pr_zf pr_R2 pr_z2 pr_Rz.
  Proof.
    intros [HS (_ & _ & HH)]. split; intros R z H; pose proof (rad_pos _ _ H) as P; pose proof (rad_sq R z) as Q; destruct (HS _ P) as [S1 S2]; destruct (HH z) as [H1 H2].
    - eapply is_derive_eq; [apply is_derive_ext with (f := fun x => (4 * PI * dp_amp p * dp_H p z) * (dp_dS p (rad x z) * (x / rad x z))); [intros; unfold pr_Rf; rr; unfold Rdiv; ring|]; apply is_derive_Rscal; exact (prod2 _ _ _ _ _ (d_compR _ _ _ _ H S2) (d_cosR _ _ H))|]. unfold pr_R2. cbv beta. rr. field. lra.
    - eapply is_derive_eq; [apply is_derive_ext with (f := fun x => (4 * PI * dp_amp p) * ((dp_dS p (rad R x) * (x / rad R x)) * dp_H p x + dp_S p (rad R x) * dp_dH p x)); [intros; unfold pr_zf; rr; unfold Rdiv; ring|]; apply is_derive_Rscal;
        exact (is_derive_Rplus _ _ _ _ _ (prod2 _ _ _ _ _ (prod2 _ _ _ _ _ (d_compz _ _ _ _ H S2) (d_sinz _ _ H)) H1) (prod2 _ _ _ _ _ (d_compz _ _ _ _ H S1) H2))|]. unfold pr_z2. cbv beta. rr. field. lra.
    - eapply is_derive_eq; [apply is_derive_ext with (f := fun x => (4 * PI * dp_amp p) * ((dp_dS p (rad R x) * (R / rad R x)) * dp_H p x)); [intros; unfold pr_Rf; rr; unfold Rdiv; ring|]; apply is_derive_Rscal;
        exact (prod2 _ _ _ _ _ (prod2 _ _ _ _ _ (d_compz _ _ _ _ H S2) (d_cosz _ _ H)) H1)|]. unfold pr_Rz. cbv beta. rr. field. lra.
    - eapply is_derive_eq; [apply is_derive_ext with (f := fun x => (4 * PI * dp_amp p) * ((dp_H p z * (dp_dS p (rad x z) * (z / rad x z))) + dp_dH p z * dp_S p (rad x z))); [intros; unfold pr_zf; rr; unfold Rdiv; ring|]; apply is_derive_Rscal;
        exact (is_derive_Rplus _ _ _ _ _ (is_derive_Rscal _ _ _ _ (prod2 _ _ _ _ _ (d_compR _ _ _ _ H S2) (d_sinR _ _ H))) (is_derive_Rscal _ _ _ _ (d_compR _ _ _ _ H S1)))|]. unfold pr_Rz. cbv beta. rr. field. lra.
  Qed.
  Lemma pair_poisson : AxiPoisson D2 pr_Rf pr_R2 pr_z2 pr_dn.
  Proof.
    intros R z H HR. pose proof (rad_pos _ _ H) as P. pose proof (rad_sq R z) as Q. unfold pr_Rf, pr_R2, pr_z2, pr_dn.
    set (r := rad R z) in *. set (S := dp_S p r). set (S1 := dp_dS p r). set (S2 := dp_d2S p r). set (h := dp_h p z). set (H0 := dp_H p z). set (H1 := dp_dH p z). clearbody r S S1 S2 h H0 H1.
    apply Rminus_diag_uniq. rewrite <- (Rmult_0_r (4 * PI * dp_amp p * / r ^ 3)).
    transitivity (4 * PI * dp_amp p * / r ^ 3 * (r * S2 * H0 * (R ^ 2 + z ^ 2 - r ^ 2) + H0 * S1 * (R ^ 2 + z ^ 2 - r ^ 2))); [field; lra|]. rewrite <- Q. rr. ring.
  Qed.
End Pair.

(** ** The class is the sum of its expansion and of its pairs *)
Definition psum (c : disk_pair -> RR) (ps : list disk_pair) : RR := fold_right (fun p y => c p + y) 0 ps.
Lemma zip_map {A B C : Type} (f : A -> B) (g : A -> C) (l : list A) : combine (List.map f l) (List.map g l) = List.map (fun x => (f x, g x)) l.
Proof. induction l as [|x l IH]; [reflexivity|]. simpl. rewrite IH. reflexivity. Qed.
Lemma fold_pairs {A : Type} (step : RR -> A -> RR) (g : disk_pair -> A) (c : disk_pair -> RR) (ps : list disk_pair) : (forall out p, step out (g p) = out + c p) -> forall o, fold_left step (List.map g ps) o = o + psum c ps.
Proof. intros H. induction ps as [|p ps IH]; intros o; simpl; [ring|]. rewrite H, IH. ring. Qed.
Lemma psum_ext (f g : disk_pair -> RR) ps : (forall p, f p = g p) -> psum f ps = psum g ps.
Proof. intros H. induction ps as [|p ps IH]; simpl; [reflexivity|]. rewrite H, IH. reflexivity. Qed.
Ltac zips M := let Ma := fresh in let Ms := fresh in let Mds := fresh in let Md2 := fresh in let Mh := fresh in let MH := fresh in let MdH := fresh in
  destruct M as (Ma & Ms & Mds & Md2 & Mh & MH & MdH); rewrite ?Ma, ?Ms, ?Mds, ?Md2, ?Mh, ?MH, ?MdH, ?zip_map.
Section Sum.
  Variables (d : Lists) (ps : list disk_pair).
  Hypothesis M : matched d ps.
  Variables (R z phi t : RR) (m : F4).
  Lemma ev_sum : KD_ev d m R z phi t = m R z phi t + psum (fun p => pr_ev p R z) ps.
  Proof using M. unfold KD_ev. zips M. apply fold_pairs. reflexivity. Qed.
  Lemma Rf_sum : KD_Rf d m R z phi t = m R z phi t + psum (fun p => pr_Rf p R z) ps.
  Proof using M. unfold KD_Rf. zips M. apply fold_pairs. reflexivity. Qed.
  Lemma zf_sum : KD_zf d m R z phi t = m R z phi t + psum (fun p => pr_zf p R z) ps.
  Proof using M. unfold KD_zf. zips M. apply fold_pairs. reflexivity. Qed.
  Lemma R2_sum : KD_R2 d m R z phi t = m R z phi t + psum (fun p => pr_R2 p R z) ps.
  Proof using M. unfold KD_R2. zips M. apply fold_pairs. reflexivity. Qed.
  Lemma z2_sum : KD_z2 d m R z phi t = m R z phi t + psum (fun p => pr_z2 p R z) ps.
  Proof using M. unfold KD_z2. zips M. apply fold_pairs. reflexivity. Qed.
  Lemma Rz_sum : KD_Rz d m R z phi t = m R z phi t + psum (fun p => pr_Rz p R z) ps.
  Proof using M. unfold KD_Rz. zips M. apply fold_pairs. reflexivity. Qed.
  Lemma dn_sum : KD_dn d m R z phi t = m R z phi t + psum (fun p => pr_dn p R z) ps.
  Proof using M. unfold KD_dn. zips M. apply fold_pairs. reflexivity. Qed.
End Sum.
Definition singles (ps : list disk_pair) : list Pot := List.map (fun p => Single 1 (pr_class p)) ps.
Definition whole (amp : RR) (me : Pot) (ps : list disk_pair) : Pot := Comp amp (me :: singles ps).
Lemma sum4_singles (F : Pot -> F4) (c : disk_pair -> RR -> RR -> RR) ps R z phi t : (forall p, F (Single 1 (pr_class p)) R z phi t = c p R z) -> sum4 (List.map F (singles ps)) R z phi t = psum (fun p => c p R z) ps.
Proof. intros H. induction ps as [|p ps IH]; [reflexivity|]. unfold singles in *. simpl List.map. rewrite sum4_cons, IH, H. reflexivity. Qed.
Lemma f4_ext (f g : F4) : (forall R z phi t, f R z phi t = g R z phi t) -> f = g.
Proof. intros H. extensionality R. extensionality z. extensionality phi. extensionality t. apply H. Qed.
Lemma in_singles p me ps : In p (me :: singles ps) -> p = me \/ exists q, In q ps /\ p = Single 1 (pr_class q).
Proof. intros [H|H]; [left; auto|right]. apply in_map_iff in H. destruct H as (q & E & Hq). exists q. split; [exact Hq|symmetry; exact E]. Qed.

Section Equal.
  Variables (d : Lists) (ps : list disk_pair) (me : Pot) (amp : RR) (b : bool).
  Hypothesis M : matched d ps.
  Let k := Single amp (KD_class d me b).
  Let w := whole amp me ps.
  Lemma Rf_eq : apiRf k v0 = apiRf w v0.
  Proof using M. apply f4_ext. intros R z phi t. unfold k, w, whole. simpl. unfold scale4. f_equal. rewrite sum4_cons, (Rf_sum d ps M). f_equal. symmetry. apply (sum4_singles (fun q => apiRf q v0) pr_Rf). intros p. simpl. unfold scale4. apply Rmult_1_l. Qed.
  Lemma zf_eq : apizf k v0 = apizf w v0.
  Proof using M. apply f4_ext. intros R z phi t. unfold k, w, whole. simpl. unfold scale4. f_equal. rewrite sum4_cons, (zf_sum d ps M). f_equal. symmetry. apply (sum4_singles (fun q => apizf q v0) pr_zf). intros p. simpl. unfold scale4. apply Rmult_1_l. Qed.
  Hypothesis Hd : isDiss me = false.
  Lemma second (s : RR -> PotC -> option F4) (kd : F4 -> F4) (c : disk_pair -> RR -> RR -> RR) f :
    api2 s me = Some f -> s amp (KD_class d me b) = Some (scale4 amp (kd f)) -> (forall p, s 1 (pr_class p) = Some (fun R z _ _ => 1 * c p R z)) -> (forall R z phi t, kd f R z phi t = f R z phi t + psum (fun p => c p R z) ps) -> api2 s k = api2 s w.
  Proof using Hd.
    intros E K C S. unfold w, whole. rewrite api2_comp.
    - simpl. rewrite K. f_equal. apply f4_ext. intros R z phi t. unfold scale4. f_equal. rewrite S, sum4_cons, E. simpl. f_equal. symmetry. apply (sum4_singles (fun q => getF (api2 s q)) c). intros p. simpl. rewrite C. simpl. apply Rmult_1_l.
    - intros p Hp. destruct (in_singles p me ps Hp) as [-> | (q & _ & ->)]; [exact Hd|reflexivity].
    - intros p Hp. destruct (in_singles p me ps Hp) as [-> | (q & _ & ->)]; [exists f; exact E|]. simpl. rewrite C. eexists. reflexivity.
  Qed.
  Lemma ev_eq f : apiEv me = Some f -> apiEv k = apiEv w.
  Proof using M Hd.
    intros E. unfold w, whole. rewrite apiEv_comp.
    - simpl. rewrite E. f_equal. apply f4_ext. intros R z phi t. unfold scale4. f_equal. rewrite (ev_sum d ps M), sum4_cons. simpl. f_equal. symmetry. apply (sum4_singles (fun q => getF (apiEv q)) pr_ev). intros p. simpl. unfold scale4. apply Rmult_1_l.
    - intros p Hp. destruct (in_singles p me ps Hp) as [-> | (q & _ & ->)]; [exact Hd|reflexivity].
    - intros p Hp. destruct (in_singles p me ps Hp) as [-> | (q & _ & ->)]; [exists f; exact E|]. simpl. eexists. reflexivity.
  Qed.
  Lemma psum_0 : psum (fun _ => 0) ps = 0. Proof using. clear. induction ps as [|p l IH]; simpl; [reflexivity|]. rewrite IH. ring. Qed.
  Lemma pt_eq f : apiPt me v0 = Some f -> apiPt k v0 = apiPt w v0.
  Proof using Hd.
    intros E. unfold w, whole. rewrite apiPt_comp.
    - simpl. unfold v0 in *. rewrite E. unfold dflt. f_equal. apply f4_ext. intros R z phi t. unfold scale4. f_equal. rewrite sum4_cons. simpl. rewrite (sum4_singles (fun q => getF (apiPt q (0, 0, 0))) (fun _ _ _ => 0)); [rewrite psum_0; ring|]. intros p. reflexivity.
    - intros p Hp. destruct (in_singles p me ps Hp) as [-> | (q & _ & ->)]; [exists f; exact E|]. simpl. eexists. reflexivity.
  Qed.
  Lemma R2_eq f : apiR2 me = Some f -> apiR2 k = apiR2 w.
  Proof using M Hd. intros E. apply (second _ (KD_R2 d) pr_R2 f E); [simpl; rewrite E; reflexivity|reflexivity|intros; apply (R2_sum d ps M)]. Qed.
  Lemma z2_eq f : apiz2 me = Some f -> apiz2 k = apiz2 w.
  Proof using M Hd. intros E. apply (second _ (KD_z2 d) pr_z2 f E); [simpl; rewrite E; reflexivity|reflexivity|intros; apply (z2_sum d ps M)]. Qed.
  Lemma Rz_eq f : apiRz me = Some f -> apiRz k = apiRz w.
  Proof using M Hd. intros E. apply (second _ (KD_Rz d) pr_Rz f E); [simpl; rewrite E; reflexivity|reflexivity|intros; apply (Rz_sum d ps M)]. Qed.
  Lemma dn_eq f : apiDens me = Some f -> apiDens k = apiDens w.
  Proof using M Hd. intros E. apply (second _ (KD_dn d) pr_dn f E); [unfold dens_single; simpl; rewrite E; reflexivity|reflexivity|intros; apply (dn_sum d ps M)]. Qed.
End Equal.
Lemma D2_open : slice_open (lift2 D2).
Proof.
  apply slice_open_lift. intros R z [H|H].
  - split.
    + apply filter_imp with (fun x => x <> 0); [intros x Hx; left; exact Hx|]. exact (open_neq 0 R H).
    + apply filter_forall. intros x. left. exact H.
  - split.
    + apply filter_forall. intros x. right. exact H.
    + apply filter_imp with (fun x => x <> 0); [intros x Hx; right; exact Hx|]. exact (open_neq 0 z H).
Qed.
