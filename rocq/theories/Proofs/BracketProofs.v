(** Loop invariants and totality of the radius searches, for any function. *)
From Coq Require Import Reals List Lra Lia.
From Coquelicot Require Import Coquelicot.
From Verif.Lib Require Import RealAux.
From Verif.Model Require Import PotAPI Derived Brackets.
From Verif.Spec Require Import BracketSpec.
Open Scope R_scope.
Notation RR := RbaseSymbolsImpl.R (only parsing).

Lemma startLoop_post : forall fuel lower f r x, startLoop fuel lower f r = Ret x -> 0 < r ->
  0 < x /\ (if lower then x <= r else r <= x) /\
  match f x with Val v => if lower then v <= 0 else 0 <= v | NaN => True | Raises => False end.
Proof.
  induction fuel as [|n IH]; intros lower f r x E Pr; cbn [startLoop] in E; [discriminate|].
  destruct (f r) as [| |v] eqn:Ef; [discriminate| |].
  - injection E as <-. rewrite Ef. repeat split; auto. destruct lower; lra.
  - destruct (Rlt_dec 0 ((2 * b2r lower - 1) * v)) as [P|N].
    + apply IH in E; [|destruct lower; lra]. destruct E as (A & B & C). split; [exact A|]. split; [destruct lower; lra|exact C].
    + injection E as <-. rewrite Ef. split; [exact Pr|]. split; [destruct lower; lra|]. destruct lower; cbn [b2r] in N; lra.
Qed.
Lemma findStart_post : forall fuel lower f r x, findStart fuel r f lower = Ret x -> 0 < r ->
  0 < x /\ (if lower then x <= 2 * r else 2 * r <= x) /\
  match f x with Val v => if lower then v <= 0 else 0 <= v | NaN => True | Raises => False end.
Proof. intros fuel lower f r x E P. apply (startLoop_post fuel lower f (2 * r) x E). lra. Qed.

Lemma startLoop_up : forall f g (rho r : RR), (forall x, 0 < x -> f x = Val (g x)) -> (forall x, rho <= x -> 0 < x -> 0 <= g x) -> 0 < r ->
  forall n, rho <= r * 2 ^ n -> forall fuel, (n < fuel)%nat -> exists x, startLoop fuel false f r = Ret x.
Proof.
  intros f g rho r Hf Hg Pr n. revert r Pr. induction n as [|n IH]; intros r Pr Hn fuel Hfuel; destruct fuel as [|fuel]; try lia; cbn [startLoop]; rewrite (Hf r Pr);
    destruct (Rlt_dec 0 ((2 * b2r false - 1) * g r)) as [P|N]; eauto.
  - cbn [b2r] in P. specialize (Hg r). cbn in Hn. assert (0 <= g r) by (apply Hg; lra). lra.
  - apply IH; [lra| |lia]. replace (r * 2 * 2 ^ n) with (r * 2 ^ S n) by (rewrite <- tech_pow_Rmult; ring). exact Hn.
Qed.
Lemma startLoop_down : forall f g (rho r : RR), (forall x, 0 < x -> f x = Val (g x)) -> (forall x, x <= rho -> 0 < x -> g x <= 0) -> 0 < r ->
  forall n, r / 2 ^ n <= rho -> forall fuel, (n < fuel)%nat -> exists x, startLoop fuel true f r = Ret x.
Proof.
  intros f g rho r Hf Hg Pr n. revert r Pr. induction n as [|n IH]; intros r Pr Hn fuel Hfuel; destruct fuel as [|fuel]; try lia; cbn [startLoop]; rewrite (Hf r Pr);
    destruct (Rlt_dec 0 ((2 * b2r true - 1) * g r)) as [P|N]; eauto.
  - cbn [b2r] in P. assert (g r <= 0). { apply Hg; [|exact Pr]. cbn in Hn. lra. } lra.
  - apply IH; [lra| |lia]. replace (r / 2 / 2 ^ n) with (r / 2 ^ S n); [exact Hn|]. rewrite <- tech_pow_Rmult. field. apply pow_nonzero. lra.
Qed.
Lemma pow2_beats : forall a b : RR, 0 < a -> exists n, b <= a * 2 ^ n.
Proof.
  intros a b Pa. destruct (Pow_x_infinity 2) with (b := b / a) as [n Hn]. { rewrite Rabs_right; lra. }
  exists n. specialize (Hn n (Nat.le_refl n)). rewrite Rabs_right in Hn by (apply Rle_ge, pow_le; lra).
  apply Rge_le in Hn. replace b with (a * (b / a)) by (field; lra). apply Rmult_le_compat_l; lra.
Qed.
Lemma pow_beats : forall q a b : RR, 1 < q -> 0 < a -> exists n, b <= a * q ^ n.
Proof.
  intros q a b Pq Pa. destruct (Pow_x_infinity q) with (b := b / a) as [n Hn]. { rewrite Rabs_right; lra. }
  exists n. specialize (Hn n (Nat.le_refl n)). rewrite Rabs_right in Hn by (apply Rle_ge, pow_le; lra).
  apply Rge_le in Hn. replace b with (a * (b / a)) by (field; lra). apply Rmult_le_compat_l; lra.
Qed.
Lemma pow2_shrinks : forall a b : RR, 0 < a -> exists n, b / 2 ^ n <= a.
Proof.
  intros a b Pa. destruct (pow2_beats a b Pa) as [n Hn]. exists n. assert (P : 0 < 2 ^ n) by (apply pow_lt; lra).
  apply (Rmult_le_reg_r (2 ^ n)); [exact P|]. unfold Rdiv. rewrite Rmult_assoc, Rinv_l by lra. lra.
Qed.

Lemma between_pos : forall a b x : RR, 0 < a -> 0 < b -> between a b x -> 0 < x.
Proof. intros a b x A B [H _]. unfold Rmin in H. destruct (Rle_dec a b); lra. Qed.
Lemma continuous_between_pos : forall f g (a b : RR), (forall x, 0 < x -> f x = Val (g x) /\ continuous g x) -> 0 < a -> 0 < b -> continuous_between f a b.
Proof. intros f g a b H A B. exists g. intros x Hx. apply H. exact (between_pos a b x A B Hx). Qed.
Lemma between_sym : forall a b x, between a b x -> between b a x.
Proof. intros a b x H. unfold between in *. rewrite Rmin_comm, Rmax_comm. exact H. Qed.

Section Search.
  Variable tol : RR.
  Variable brentq : (RR -> num) -> RR -> RR -> option RR.
  Hypothesis BQ : root_finder tol brentq.

  Lemma search_bracket : forall fuel f r0 r, search brentq fuel f r0 = Ret r -> 0 < r0 ->
    exists a b va vb, 0 < a /\ 0 < b /\ f a = Val va /\ f b = Val vb /\ va <= 0 /\ 0 <= vb /\ between a b r /\ (brentq f a b = Some r \/ brentq f b a = Some r).
  Proof.
    intros fuel f r0 r E P0. unfold search in E. destruct (findStart fuel r0 f false) as [| | | |b] eqn:Eb; try discriminate. cbn [obind] in E.
    destruct (findStart_post _ _ _ _ _ Eb P0) as (Pb & _ & Sb).
    assert (P5 : 0 < / 10 ^ 5) by (apply Rinv_0_lt_compat, pow_lt; lra).
    destruct (brentq f (/ 10 ^ 5) b) as [x|] eqn:E1.
    - injection E as <-. destruct (rf_signs _ _ BQ _ _ _ _ E1) as (va & vb & Ea & Evb & Sg & Bt). rewrite Evb in Sb.
      destruct (Rle_dec va 0) as [Pa|Na].
      + exists (/ 10 ^ 5), b, va, vb. split; [exact P5|]. repeat split; auto; apply Bt.
      + exists b, (/ 10 ^ 5), vb, va. apply between_sym in Bt. split; [exact Pb|]. split; [exact P5|]. repeat split; auto; try apply Bt; nra.
    - destruct (findStart fuel (/ 10 ^ 5) f true) as [| | | |a] eqn:Ea; try discriminate. cbn [obind] in E.
      destruct (findStart_post _ _ _ _ _ Ea P5) as (Pa & _ & Sa). destruct (brentq f a b) as [x|] eqn:E2; [|discriminate]. injection E as <-.
      destruct (rf_signs _ _ BQ _ _ _ _ E2) as (va & vb & Eva & Evb & Sg & Bt). rewrite Evb in Sb. rewrite Eva in Sa.
      exists a, b, va, vb. repeat split; auto; apply Bt.
  Qed.
  Lemma brentq_near : forall f g (a b r : RR), brentq f a b = Some r -> (forall x, 0 < x -> f x = Val (g x) /\ continuous g x) -> 0 < a -> 0 < b ->
    exists x, 0 < x /\ between a b x /\ g x = 0 /\ Rabs (r - x) <= tol.
  Proof.
    intros f g a b r E H A B. destruct (rf_root _ _ BQ _ _ _ _ E (continuous_between_pos f g a b H A B)) as (x & Bx & Ex & Tx).
    pose proof (between_pos a b x A B Bx) as Px. exists x. split; [exact Px|]. split; [exact Bx|]. split; [|exact Tx].
    destruct (H x Px) as [E2 _]. rewrite E2 in Ex. now injection Ex.
  Qed.
  Lemma search_exact : forall fuel f g r0 r, search brentq fuel f r0 = Ret r -> 0 < r0 -> (forall x, 0 < x -> f x = Val (g x) /\ continuous g x) ->
    exists x, 0 < x /\ g x = 0 /\ Rabs (r - x) <= tol.
  Proof.
    intros fuel f g r0 r E P0 H. destruct (search_bracket fuel f r0 r E P0) as (a & b & va & vb & A & B & _ & _ & _ & _ & _ & [Q|Q]).
    - destruct (brentq_near f g a b r Q H A B) as (x & P & _ & Z & T). eauto.
    - destruct (brentq_near f g b a r Q H B A) as (x & P & _ & Z & T). eauto.
  Qed.
  Lemma search_total : forall f g r0 rho, 0 < r0 -> 0 < rho -> (forall x, 0 < x -> f x = Val (g x) /\ continuous g x) ->
    (forall x, 0 < x -> x <= rho -> g x <= 0) -> (forall x, rho <= x -> 0 <= g x) ->
    exists n, forall fuel, (n <= fuel)%nat -> exists r, search brentq fuel f r0 = Ret r.
  Proof.
    intros f g r0 rho P0 Pr H Lo Hi. assert (P5 : 0 < / 10 ^ 5) by (apply Rinv_0_lt_compat, pow_lt; lra).
    destruct (pow2_beats (2 * r0) rho) as [n1 N1]; [lra|]. destruct (pow2_shrinks rho (2 * / 10 ^ 5) Pr) as [n2 N2].
    exists (S (n1 + n2)). intros fuel Hf. unfold search, findStart.
    destruct (startLoop_up f g rho (2 * r0) (fun x Hx => proj1 (H x Hx)) (fun x Hx _ => Hi x Hx)) with (n := n1) (fuel := fuel) as [b Eb]; try lra; try lia.
    rewrite Eb. cbn [obind]. destruct (startLoop_post _ _ _ _ _ Eb) as (Pb & _ & Sb); [lra|]. destruct (H b Pb) as [Fb _]. rewrite Fb in Sb.
    destruct (H _ P5) as [F5 _]. destruct (brentq f (/ 10 ^ 5) b) as [x|] eqn:E1; [eauto|].
    destruct (startLoop_down f g rho (2 * / 10 ^ 5) (fun x Hx => proj1 (H x Hx)) (fun x A B => Lo x B A)) with (n := n2) (fuel := fuel) as [a Ea]; try lra; try lia.
    rewrite Ea. cbn [obind]. destruct (startLoop_post _ _ _ _ _ Ea) as (Pa & _ & Sa); [lra|]. destruct (H a Pa) as [Fa _]. rewrite Fa in Sa.
    destruct (rf_answers _ _ BQ f a b (g a) (g b) (continuous_between_pos f g a b H Pa Pb) Fa Fb) as [r Er]; [nra|]. rewrite Er. cbn. eauto.
  Qed.
  Lemma finder_answers : forall f g a b, (forall x, between a b x -> f x = Val (g x) /\ continuous g x) -> g a * g b <= 0 -> exists r, brentq f a b = Some r.
  Proof.
    intros f g a b H S. apply (rf_answers _ _ BQ f a b (g a) (g b)); [exists g; exact H| | |exact S].
    - apply H. unfold between. split; [apply Rmin_l|apply Rmax_l].
    - apply H. unfold between. split; [apply Rmin_r|apply Rmax_r].
  Qed.
End Search.


(** ** Loops that double or halve until a sign change or a limit *)
Lemma zLoop_post : forall fuel g zmax z x, zLoop fuel g zmax z = Ret x -> 0 < z -> z <= x /\ (g x <= 0 \/ zmax <= x).
Proof.
  induction fuel as [|n IH]; intros g zmax z x E P; cbn [zLoop] in E; [discriminate|].
  destruct (Rlt_dec 0 (g z)) as [Q|N]; [destruct (Rlt_dec z zmax) as [M|M]|].
  - destruct (IH _ _ _ _ E) as [A B]; [lra|]. split; [lra|exact B].
  - injection E as <-. lra.
  - injection E as <-. lra.
Qed.
Lemma zLoop_total : forall n g zmax z, 0 < z -> zmax <= z * 2 ^ n -> forall fuel, (n < fuel)%nat -> exists x, zLoop fuel g zmax z = Ret x.
Proof.
  induction n as [|n IH]; intros g zmax z P H fuel Hf; destruct fuel as [|fuel]; try lia; cbn [zLoop];
    (destruct (Rlt_dec 0 (g z)); [destruct (Rlt_dec z zmax)|]; eauto).
  - exfalso. cbn in H. lra.
  - apply IH; [lra| |lia]. replace (z * 2 * 2 ^ n) with (z * 2 ^ S n) by (rewrite <- tech_pow_Rmult; ring). exact H.
Qed.
Lemma upLoop_post : forall fuel g rmax r x, upLoop fuel g rmax r = Ret x -> 0 < r -> r <= x /\ (0 <= g x \/ rmax <= x).
Proof.
  induction fuel as [|n IH]; intros g zmax z x E P; cbn [upLoop] in E; [discriminate|].
  destruct (Rlt_dec (g z) 0) as [Q|N]; [destruct (Rlt_dec z zmax) as [M|M]|].
  - destruct (IH _ _ _ _ E) as [A B]; [lra|]. split; [lra|exact B].
  - injection E as <-. lra.
  - injection E as <-. lra.
Qed.
Lemma upLoop_total : forall n g zmax z, 0 < z -> zmax <= z * 2 ^ n -> forall fuel, (n < fuel)%nat -> exists x, upLoop fuel g zmax z = Ret x.
Proof.
  induction n as [|n IH]; intros g zmax z P H fuel Hf; destruct fuel as [|fuel]; try lia; cbn [upLoop];
    (destruct (Rlt_dec (g z) 0); [destruct (Rlt_dec z zmax)|]; eauto).
  - exfalso. cbn in H. lra.
  - apply IH; [lra| |lia]. replace (z * 2 * 2 ^ n) with (z * 2 ^ S n) by (rewrite <- tech_pow_Rmult; ring). exact H.
Qed.
Lemma downLoop_post : forall fuel g rmin r x, downLoop fuel g rmin r = Ret x -> 0 < r -> 0 < x <= r /\ (0 <= g x \/ x <= rmin).
Proof.
  induction fuel as [|n IH]; intros g zmax z x E P; cbn [downLoop] in E; [discriminate|].
  destruct (Rlt_dec (g z) 0) as [Q|N]; [destruct (Rlt_dec zmax z) as [M|M]|].
  - destruct (IH _ _ _ _ E) as [A B]; [lra|]. split; [lra|exact B].
  - injection E as <-. lra.
  - injection E as <-. lra.
Qed.
Lemma halves : forall z n, z / 2 / 2 ^ n = z / 2 ^ S n.
Proof. intros. rewrite <- tech_pow_Rmult. field. apply pow_nonzero. lra. Qed.
Lemma downLoop_total : forall n g rmin r, 0 < r -> r / 2 ^ n <= rmin -> forall fuel, (n < fuel)%nat -> exists x, downLoop fuel g rmin r = Ret x.
Proof.
  induction n as [|n IH]; intros g zmax z P H fuel Hf; destruct fuel as [|fuel]; try lia; cbn [downLoop];
    (destruct (Rlt_dec (g z) 0); [destruct (Rlt_dec zmax z)|]; eauto).
  - exfalso. cbn in H. lra.
  - apply IH; [lra| |lia]. rewrite halves. exact H.
Qed.

(** actionAngleSpherical *)
Lemma rapLoop_up_post : forall fuel f r x, rapLoop fuel f true 1 r = Ret x -> / 10 ^ 9 < r -> r <= x /\ f x <= 0.
Proof.
  induction fuel as [|n IH]; intros f r x E P; cbn [rapLoop] in E; [discriminate|].
  assert (P9 : 0 < / 10 ^ 9) by (apply Rinv_0_lt_compat, pow_lt; lra).
  destruct (Rlt_dec 0 (1 * f r)) as [Q|N].
  - destruct (Rlt_dec (/ 10 ^ 9) r) as [_|]; [|contradiction]. destruct (Rlt_dec 100 r); [discriminate|].
    apply IH in E; [|lra]. destruct E. split; lra.
  - injection E as <-. lra.
Qed.
Lemma rapLoop_up_total : forall n f r, / 10 ^ 9 < r -> 100 < r * 2 ^ n -> forall fuel, (n < fuel)%nat ->
  (exists x, rapLoop fuel f true 1 r = Ret x) \/ rapLoop fuel f true 1 r = UnboundErr.
Proof.
  assert (P9 : 0 < / 10 ^ 9) by (apply Rinv_0_lt_compat, pow_lt; lra).
  induction n as [|n IH]; intros f r P H fuel Hf; destruct fuel as [|fuel]; try lia; cbn [rapLoop];
    (destruct (Rlt_dec 0 (1 * f r)); [destruct (Rlt_dec (/ 10 ^ 9) r); [destruct (Rlt_dec 100 r)|]|]; eauto).
  - exfalso. cbn in H. lra.
  - apply IH; [lra| |lia]. replace (r * 2 * 2 ^ n) with (r * 2 ^ S n) by (rewrite <- tech_pow_Rmult; ring). exact H.
Qed.
Lemma rapLoop_down_post : forall fuel f r x, rapLoop fuel f false 1 r = Ret x -> 0 < r -> 0 < x <= r /\ (f x <= 0 \/ x <= / 10 ^ 9).
Proof.
  induction fuel as [|n IH]; intros f r x E P; cbn [rapLoop] in E; [discriminate|].
  destruct (Rlt_dec 0 (1 * f r)) as [Q|N].
  - destruct (Rlt_dec (/ 10 ^ 9) r) as [M|M].
    + apply IH in E; [|lra]. destruct E as [A B]. split; [lra|exact B].
    + injection E as <-. lra.
  - injection E as <-. lra.
Qed.
Lemma rapLoop_down_grid : forall fuel f r x, rapLoop fuel f false 1 r = Ret x -> exists k, x = r / 2 ^ k.
Proof.
  induction fuel as [|n IH]; intros f r x E; cbn [rapLoop] in E; [discriminate|].
  destruct (Rlt_dec 0 (1 * f r)) as [Q|N]; [destruct (Rlt_dec (/ 10 ^ 9) r) as [M|M]|].
  - apply IH in E. destruct E as [k ->]. exists (S k). apply halves.
  - injection E as <-. exists 0%nat. cbn. field.
  - injection E as <-. exists 0%nat. cbn. field.
Qed.
Lemma rapLoop_unbound : forall fuel f r, rapLoop fuel f true 1 r = UnboundErr -> exists x, 100 < x /\ 0 < f x.
Proof.
  induction fuel as [|n IH]; intros f r E; cbn [rapLoop] in E; [discriminate|].
  destruct (Rlt_dec 0 (1 * f r)) as [Q|N]; [|discriminate]. destruct (Rlt_dec (/ 10 ^ 9) r) as [M|M]; [|discriminate].
  destruct (Rlt_dec 100 r) as [H|H]; [exists r; lra|exact (IH _ _ E)].
Qed.
Lemma rapLoop_down_total : forall n f r, 0 < r -> r / 2 ^ n <= / 10 ^ 9 -> forall fuel, (n < fuel)%nat -> exists x, rapLoop fuel f false 1 r = Ret x.
Proof.
  induction n as [|n IH]; intros f r P H fuel Hf; destruct fuel as [|fuel]; try lia; cbn [rapLoop];
    (destruct (Rlt_dec 0 (1 * f r)); [destruct (Rlt_dec (/ 10 ^ 9) r)|]; eauto).
  - exfalso. cbn in H. lra.
  - apply IH; [lra| |lia]. rewrite halves. exact H.
Qed.

(** actionAngleStaeckel *)
Lemma uLoop_post : forall fuel f umax prevu utry x y, uLoop fuel f umax prevu utry = Ret (x, y) -> 0 < utry -> 0 <= f prevu ->
  (utry = prevu * (if umax then 11 / 10 else 9 / 10)) ->
  0 < x /\ 0 <= f y /\ (f x < 0 \/ x <= / 10 ^ 9) /\ x = y * (if umax then 11 / 10 else 9 / 10) /\ (if umax then prevu <= y else y <= prevu) /\ 0 < y.
Proof.
  induction fuel as [|n IH]; intros f umax prevu utry x y E P Fp Eu; cbn [uLoop] in E; [discriminate|].
  destruct (Rle_dec 0 (f utry)) as [Q|N].
  - destruct (Rlt_dec (/ 10 ^ 9) utry) as [M|M].
    + destruct umax.
      * destruct (Rlt_dec 100 utry); [discriminate|]. destruct (IH _ _ _ _ _ _ E) as (A & B & C & D & F & G); [lra|exact Q|reflexivity|]. repeat split; auto; lra.
      * destruct (IH _ _ _ _ _ _ E) as (A & B & C & D & F & G); [lra|exact Q|reflexivity|]. repeat split; auto; lra.
    + injection E as <- <-. repeat split; auto; destruct umax; lra.
  - injection E as <- <-. repeat split; auto; try (left; lra); destruct umax; lra.
Qed.
Lemma uLoop_up_total : forall n f p r, / 10 ^ 9 < r -> 100 < r * (11 / 10) ^ n -> forall fuel, (n < fuel)%nat ->
  (exists x, uLoop fuel f true p r = Ret x) \/ uLoop fuel f true p r = UnboundErr.
Proof.
  assert (P9 : 0 < / 10 ^ 9) by (apply Rinv_0_lt_compat, pow_lt; lra).
  induction n as [|n IH]; intros f p r P H fuel Hf; destruct fuel as [|fuel]; try lia; cbn [uLoop];
    (destruct (Rle_dec 0 (f r)); [destruct (Rlt_dec (/ 10 ^ 9) r); [destruct (Rlt_dec 100 r)|]|]; eauto).
  - exfalso. cbn in H. lra.
  - apply IH; [lra| |lia]. replace (r * (11 / 10) * (11 / 10) ^ n) with (r * (11 / 10) ^ S n) by (rewrite <- tech_pow_Rmult; ring). exact H.
Qed.
Lemma uLoop_down_total : forall n f p r, 0 < r -> r * (9 / 10) ^ n <= / 10 ^ 9 -> forall fuel, (n < fuel)%nat -> exists x, uLoop fuel f false p r = Ret x.
Proof.
  induction n as [|n IH]; intros f p r P H fuel Hf; destruct fuel as [|fuel]; try lia; cbn [uLoop];
    (destruct (Rle_dec 0 (f r)); [destruct (Rlt_dec (/ 10 ^ 9) r)|]; eauto).
  - exfalso. cbn in H. lra.
  - apply IH; [lra| |lia]. replace (r * (9 / 10) * (9 / 10) ^ n) with (r * (9 / 10) ^ S n) by (rewrite <- tech_pow_Rmult; ring). exact H.
Qed.
Lemma uLoop_unbound : forall fuel f p r, uLoop fuel f true p r = UnboundErr -> exists x, 100 < x /\ 0 <= f x.
Proof.
  induction fuel as [|n IH]; intros f p r E; cbn [uLoop] in E; [discriminate|].
  destruct (Rle_dec 0 (f r)) as [Q|N]; [|discriminate]. destruct (Rlt_dec (/ 10 ^ 9) r) as [M|M]; [|discriminate].
  destruct (Rlt_dec 100 r) as [H|H]; [exists r; lra|exact (IH _ _ _ E)].
Qed.
Lemma uLoop_down_grid : forall fuel f p r x y, uLoop fuel f false p r = Ret (x, y) -> exists k, x = r * (9 / 10) ^ k.
Proof.
  induction fuel as [|n IH]; intros f p r x y E; cbn [uLoop] in E; [discriminate|].
  destruct (Rle_dec 0 (f r)) as [Q|N]; [destruct (Rlt_dec (/ 10 ^ 9) r) as [M|M]|].
  - apply IH in E. destruct E as [k ->]. exists (S k). rewrite <- tech_pow_Rmult. ring.
  - injection E as <- _. exists 0%nat. cbn. ring.
  - injection E as <- _. exists 0%nat. cbn. ring.
Qed.
Lemma vLoop_grid : forall fuel f r x, vLoop fuel f r = Ret x -> exists k, x = r * (9 / 10) ^ k.
Proof.
  induction fuel as [|n IH]; intros f r x E; cbn [vLoop] in E; [discriminate|].
  destruct (Rle_dec 0 (f r)) as [Q|N]; [destruct (Rlt_dec (/ 10 ^ 9) r) as [M|M]|].
  - apply IH in E. destruct E as [k ->]. exists (S k). rewrite <- tech_pow_Rmult. ring.
  - injection E as <-. exists 0%nat. cbn. ring.
  - injection E as <-. exists 0%nat. cbn. ring.
Qed.
Lemma vLoop_post : forall fuel f v x, vLoop fuel f (9 / 10 * v) = Ret x -> 0 < v -> 0 <= f v ->
  0 < x /\ 0 <= f (x / (9 / 10)) /\ (f x < 0 \/ x <= / 10 ^ 9) /\ x / (9 / 10) <= v.
Proof.
  induction fuel as [|n IH]; intros f v x E P Fp; cbn [vLoop] in E; [discriminate|].
  assert (Q0 : 9 / 10 * v / (9 / 10) = v) by field.
  destruct (Rle_dec 0 (f (9 / 10 * v))) as [Q|N].
  - destruct (Rlt_dec (/ 10 ^ 9) (9 / 10 * v)) as [M|M].
    + rewrite (Rmult_comm (9 / 10 * v) (9 / 10)) in E. destruct (IH _ _ _ E) as (A & B & C & D); [lra|exact Q|]. repeat split; auto; lra.
    + injection E as <-. rewrite Q0. split; [lra|]. split; [exact Fp|]. split; [right|]; lra.
  - injection E as <-. rewrite Q0. split; [lra|]. split; [exact Fp|]. split; [left|]; lra.
Qed.
Lemma vLoop_total : forall n f r, 0 < r -> r * (9 / 10) ^ n <= / 10 ^ 9 -> forall fuel, (n < fuel)%nat -> exists x, vLoop fuel f r = Ret x.
Proof.
  induction n as [|n IH]; intros f r P H fuel Hf; destruct fuel as [|fuel]; try lia; cbn [vLoop];
    (destruct (Rle_dec 0 (f r)); [destruct (Rlt_dec (/ 10 ^ 9) r)|]; eauto).
  - exfalso. cbn in H. lra.
  - apply IH; [lra| |lia]. replace (r * (9 / 10) * (9 / 10) ^ n) with (r * (9 / 10) ^ S n) by (rewrite <- tech_pow_Rmult; ring). exact H.
Qed.
Lemma pow_shrinks : forall q a b : RR, 0 < q < 1 -> 0 < a -> 0 < b -> exists n, b * q ^ n <= a.
Proof.
  intros q a b Hq Pa Pb. destruct (pow_lt_1_zero q) with (y := a / b) as [n Hn]. { rewrite Rabs_right; lra. }
  { apply Rdiv_lt_0_compat; lra. }
  exists n. specialize (Hn n (Nat.le_refl n)). rewrite Rabs_right in Hn by (apply Rle_ge, pow_le; lra).
  replace a with (b * (a / b)) by (field; lra). apply Rmult_le_compat_l; lra.
Qed.
