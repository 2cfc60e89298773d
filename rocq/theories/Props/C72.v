(** C72: potentials interpolated on a grid in R and z (potential/interpRZPotential.py). *)
From Coq Require Import Reals Lra List Arith Bool Lia.
Import ListNotations.
From Verif.Model Require Import InterpRZ.
From Verif.Spec Require Import InterpSpec.
From Verif.Proofs Require Import InterpProofs.
Open Scope R_scope.
Notation RR := RbaseSymbolsImpl.R (only parsing).

(** Potential and forces, for numbers and arrays in every combination: each element is the interpolated value inside the grid and that of the original potential
    outside, whatever numpy.empty held. The original potential is evaluated at t = 0. *)
Theorem C72_values : forall G odd interp inner orig junk R z t n, shape R z = Some n -> length junk = n ->
  returns R z n (fun i v => is_value G odd interp inner (fun R z => orig R z 0) (at_ R i) (at_ z i) v) (ev2 G odd interp inner orig junk R z t).
Proof.
  intros G odd interp inner orig junk R z t n S J. eapply returns_impl; [|apply (sv_is (val G odd interp inner orig)); [exact S|]].
  - intros i v ->. apply val_is.
  - intros Rs zs A B. apply wrap_is; congruence.
Qed.
Example C72_values_ex : shape (Ar [1; 2; 3]) (Sc 0) = Some 3%nat. Proof. reflexivity. Qed.
(** Second derivatives: the same when they are interpolated, else the original potential at z itself. *)
Theorem C72_second : forall G odd inner orig junk R z t n, shape R z = Some n -> length junk = n ->
  returns R z n (fun i v => is_value G odd true inner (fun R z => orig R z 0) (at_ R i) (at_ z i) v) (ev2d G odd true inner orig junk R z t) /\
  returns R z n (fun i v => v = orig (at_ R i) (at_ z i) 0) (ev2d G odd false inner orig junk R z t).
Proof.
  intros G odd inner orig junk R z t n S J. split; [apply (C72_values G odd true); auto|apply pass_is; auto].
Qed.
(** Circular velocity and frequencies. *)
Theorem C72_radial : forall G interp spl orig junk,
  (forall R, length junk = 1%nat -> exists v, ev1 G interp spl orig junk (Sc R) = Some (Sc v) /\
     (interp = true -> rlo G <= R <= rhi G -> v = spl (if logR G then ln R else R)) /\ (interp = false \/ ~ rlo G <= R <= rhi G -> v = orig R)) /\
  (forall Rs, length junk = length Rs -> exists l, ev1 G interp spl orig junk (Ar Rs) = Some (Ar l) /\ length l = length Rs /\ forall i, (i < length Rs)%nat ->
     let R := nth i Rs 0 in
     (interp = true -> rlo G <= R <= rhi G -> nth i l 0 = spl (if logR G then ln R else R)) /\ (interp = false \/ ~ rlo G <= R <= rhi G -> nth i l 0 = orig R)).
Proof.
  intros G interp spl orig junk.
  assert (E : forall R, let v := if interp && (leb (rlo G) R && leb R (rhi G)) then spl (sarg G R) else orig R in
    (interp = true -> rlo G <= R <= rhi G -> v = spl (if logR G then ln R else R)) /\ (interp = false \/ ~ rlo G <= R <= rhi G -> v = orig R)).
  { intros R v. unfold v. assert (B : leb (rlo G) R && leb R (rhi G) = true <-> rlo G <= R <= rhi G) by (rewrite andb_true_iff, !leb_iff; tauto). split.
    - intros -> I. apply B in I. rewrite I. reflexivity.
    - intros I. replace (interp && _) with false; auto. symmetry. apply andb_false_iff. destruct I as [I|I]; auto. right. apply not_true_is_false. rewrite B. exact I. }
  split.
  - intros R J. unfold ev1. rewrite core1_is by exact J. simpl. eexists; split; [reflexivity|apply E].
  - intros Rs J. unfold ev1. rewrite core1_is by exact J. eexists; split; [reflexivity|]. split; [apply map_length|]. intros i L. cbv zeta.
    set (f := fun R => if interp && (leb (rlo G) R && leb R (rhi G)) then spl (sarg G R) else orig R).
    assert (NE : nth i (List.map f Rs) 0 = f (nth i Rs 0)) by (rewrite (nth_indep (List.map f Rs) 0 (f 0)) by (rewrite map_length; auto); apply map_nth).
    rewrite NE. apply E.
Qed.
(** Where the spline reproduces its data, and outside the grid, the value is that of the original potential: at every node, at every point outside, and at their
    mirror images if zsym is set and the original has the symmetry. *)
Theorem C72_nodes : forall G odd interp spl orig junk t rgrid zgrid R z, length junk = 1%nat ->
  (forall r h, In r rgrid -> In h zgrid -> spl (if logR G then ln r else r) h = orig r h 0) ->
  (zsym G = true -> forall r h, orig r (- h) 0 = (if odd : bool then -1 else 1) * orig r h 0) ->
  let h := if zsym G then Rabs z else z in
  In R rgrid /\ In h zgrid \/ ~ inside G R h ->
  ev2 G odd interp spl orig junk (Sc R) (Sc z) t = Some (Sc (orig R z 0)).
Proof.
  intros G odd interp spl orig junk t rgrid zgrid R z J N S h K.
  destruct (C72_values G odd interp spl orig junk (Sc R) (Sc z) t 1%nat eq_refl J) as (v & -> & V). simpl in V. f_equal. f_equal.
  destruct V as [V1 V2]. fold h in V1, V2. set (s := if odd && zsym G then if Rlt_dec z 0 then -1 else 1 else 1) in *.
  assert (E : v = s * orig R h 0).
  { assert (D : (interp = true /\ inside G R h) \/ (interp = false \/ ~ inside G R h)).
    { destruct interp; [|auto]. destruct (in_grid G R h) eqn:I; [left; split; auto; apply in_grid_iff; auto|right; right]. rewrite <- in_grid_iff, I. discriminate. }
    destruct D as [[D1 D2]|D]; [|apply V2; exact D]. rewrite (V1 D1 D2). f_equal. apply N; destruct K as [K|K]; tauto. }
  rewrite E. unfold s, h. destruct (zsym G) eqn:Z; [|rewrite andb_false_r; lra]. specialize (S eq_refl). rewrite andb_true_r. destruct (Rlt_dec z 0) as [L|L].
  - rewrite Rabs_left by auto. rewrite S. destruct odd; lra.
  - rewrite Rabs_right by lra. destruct odd; lra.
Qed.
(** The density is interpolated through its logarithm with an offset: the same holds. *)
Theorem C72_dens : forall G interp spl orig junk t rgrid zgrid R z, length junk = 1%nat -> (forall r h, 0 <= orig r h 0) ->
  (forall r h, In r rgrid -> In h zgrid -> spl (if logR G then ln r else r) h = dens_node (orig r h 0)) ->
  (zsym G = true -> forall r h, orig r (- h) 0 = orig r h 0) ->
  let h := if zsym G then Rabs z else z in
  In R rgrid /\ In h zgrid \/ ~ inside G R h ->
  ev_dens G interp spl orig junk (Sc R) (Sc z) t = Some (Sc (orig R z 0)).
Proof.
  intros G interp spl orig junk t rgrid zgrid R z J P N S h K. unfold ev_dens. apply (C72_nodes G false interp (dens_inner spl) orig junk t rgrid zgrid); auto.
  - intros r k A B. unfold dens_inner. rewrite (N r k A B). unfold dens_node. assert (0 < / 10 ^ 10) by (apply Rinv_0_lt_compat; lra).
    pose proof (P r k). rewrite exp_ln; lra.
  - intros Z r k. rewrite S by auto. lra.
Qed.
(** With zsym the interpolated potential is symmetric, whatever the original. *)
Theorem C72_parity : forall G odd interp inner orig junk R z t, length junk = 1%nat -> zsym G = true -> z <> 0 ->
  exists v, ev2 G odd interp inner orig junk (Sc R) (Sc z) t = Some (Sc v) /\
    ev2 G odd interp inner orig junk (Sc R) (Sc (- z)) t = Some (Sc ((if odd then -1 else 1) * v)).
Proof.
  intros G odd interp inner orig junk R z t J Z N. unfold ev2, sv_wrap. rewrite !wrap_is by auto. simpl. eexists; split; [reflexivity|]. f_equal. f_equal.
  unfold val. rewrite Z, andb_true_r, Rabs_Ropp. destruct odd; [|lra]. unfold sign1. destruct (Rlt_dec z 0), (Rlt_dec (- z) 0); lra.
Qed.
(** The hypotheses are met: the potential z^2 on a grid of four nodes, and the vertical force. *)
Example C72_nodes_ex : ev2 (mkGrid 1 2 0 1 false true) true true (fun r h => -2 * h) (fun r h _ => -2 * h) [0] (Sc 2) (Sc (-1)) 5 = Some (Sc 2).
Proof.
  rewrite (C72_nodes (mkGrid 1 2 0 1 false true) true true (fun r h => -2 * h) (fun r h _ => -2 * h) [0] 5 [1; 2] [0; 1] 2 (-1) eq_refl).
  - f_equal; f_equal; lra.
  - reflexivity.
  - intros _ r h. lra.
  - simpl. left. split; auto. right; left. rewrite Rabs_left; lra.
Qed.

(** Findings. The values of a potential that depends on time are those at t = 0 at all times, outside the grid too. *)
Theorem C72_time_refuted : exists G orig R z t, ~ inside G R (Rabs z) /\ zsym G = true /\
  ev2 G false true (fun r h => orig r h 0) orig [0] (Sc R) (Sc z) t <> Some (Sc (orig R z t)).
Proof.
  exists (mkGrid 1 2 0 1 false true), (fun _ _ t => t), 3, 0, 1. assert (I : ~ inside (mkGrid 1 2 0 1 false true) 3 (Rabs 0)) by (unfold inside; simpl; lra).
  split; [exact I|]. split; [reflexivity|].
  rewrite (C72_nodes (mkGrid 1 2 0 1 false true) false true (fun _ _ => 0) (fun _ _ t => t) [0] 1 [] [] 3 0 eq_refl).
  - intros E. injection E. lra.
  - reflexivity.
  - intros _ r h. lra.
  - right. exact I.
Qed.
(** With zsym, which is the default, a quantity that is not interpolated is that of the original at |z|, while second derivatives that are not interpolated are those
    at z: for an asymmetric potential the force and its derivative belong to different potentials. *)
Theorem C72_asymmetric_refuted : exists G orig dorig R z, zsym G = true /\
  ev2 G true false (fun _ _ => 0) orig [0] (Sc R) (Sc z) 0 <> Some (Sc (orig R z 0)) /\
  ev2d G false false (fun _ _ => 0) dorig [0] (Sc R) (Sc z) 0 = Some (Sc (dorig R z 0)).
Proof.
  exists (mkGrid 1 2 0 1 true true), (fun _ z _ => z + 1), (fun _ _ _ => 1), 1, (-1). split; [reflexivity|]. split; [|reflexivity].
  destruct (C72_values (mkGrid 1 2 0 1 true true) true false (fun _ _ => 0) (fun _ z _ => z + 1) [0] (Sc 1) (Sc (-1)) 0 1%nat eq_refl eq_refl) as (v & -> & _ & V).
  simpl in V. intros E. injection E as E. rewrite V in E by auto. destruct (Rlt_dec (-1) 0); [|lra]. rewrite Rabs_left in E; lra.
Qed.

(** The grid of values. If the call on the whole mesh raises, returns another shape or returns right values, every cell is the value of the original potential;
    whatever it returns, the four corners and the cell in the middle are. *)
Theorem C72_grid : forall vec scalar rgrid zgrid,
  let right i j := grid_eval vec scalar rgrid zgrid i j = scalar (nth i rgrid 0) (nth j zgrid 0) in
  (match vec with VGrid g => forall i j, (i < length rgrid)%nat -> (j < length zgrid)%nat -> g i j = scalar (nth i rgrid 0) (nth j zgrid 0) | _ => True end ->
   forall i j, (i < length rgrid)%nat -> (j < length zgrid)%nat -> right i j) /\
  (rgrid <> [] -> zgrid <> [] -> let nR := length rgrid in let nz := length zgrid in
   right 0%nat 0%nat /\ right 0%nat (nz - 1)%nat /\ right (nR - 1)%nat 0%nat /\ right (nR - 1)%nat (nz - 1)%nat /\ right (nR / 2)%nat (nz / 2)%nat).
Proof.
  intros vec scalar rgrid zgrid right. split.
  - intros H i j A B. unfold right, grid_eval. destruct vec as [| |g]; auto. destruct (forallb _ _); auto.
  - intros A B nR nz.
    assert (C : forall i j, In (i, j) (spot_check_cells nR nz) -> right i j).
    { intros i j I. unfold right, grid_eval. destruct vec as [| |g]; auto. destruct (forallb _ _) eqn:F; auto.
      rewrite forallb_forall in F. specialize (F _ I). simpl in F. unfold eqbR in F. destruct (Req_EM_T _ _); [auto|discriminate]. }
    assert (P : (1 <= nR)%nat) by (unfold nR; destruct rgrid; [congruence|simpl; lia]). assert (Q : (1 <= nz)%nat) by (unfold nz; destruct zgrid; [congruence|simpl; lia]).
    unfold spot_check_cells in C. replace (nR <? 1)%nat with false in C by (symmetry; apply Nat.ltb_ge; auto). replace (nz <? 1)%nat with false in C by (symmetry; apply Nat.ltb_ge; auto).
    cbv iota beta delta [orb] in C.
    assert (L : forall i j, In i [0; nR / 2; nR - 1]%nat -> In j [0; nz / 4; nz / 2; 3 * nz / 4; nz - 1]%nat -> right i j).
    { intros i j I K. apply C. apply in_or_app. left. apply in_prod; auto. }
    repeat split; apply L; simpl; auto 8.
Qed.
Example C72_grid_ex : grid_eval VRaise (fun r z => r + z) [1; 2] [0; 1] 1 1 = 3.
Proof. unfold grid_eval. simpl. lra. Qed.
(** All sampled cells are cells of the grid. *)
Theorem C72_cells : forall nR nz i j, In (i, j) (spot_check_cells nR nz) -> (i < nR)%nat /\ (j < nz)%nat.
Proof.
  intros nR nz i j. unfold spot_check_cells. destruct (Nat.ltb_spec nR 1) as [A|A]; [simpl; tauto|]. destruct (Nat.ltb_spec nz 1) as [B|B]; [simpl; tauto|]. simpl orb. cbv iota.
  assert (D3 : forall n k, (1 <= n -> k <= 3 -> k * (n - 1) / 3 < n)%nat).
  { intros n k P Q. apply Nat.le_lt_trans with (3 * (n - 1) / 3)%nat; [apply Nat.div_le_mono; [lia|nia]|]. rewrite Nat.mul_comm, Nat.div_mul; lia. }
  intros I. apply in_app_or in I as [I|I]; [|apply in_app_or in I as [I|I]].
  - apply in_prod_iff in I as [I K].
    assert (H2 : (nR / 2 < nR)%nat) by (apply Nat.div_lt; lia). assert (Z2 : (nz / 2 < nz)%nat) by (apply Nat.div_lt; lia). assert (Z4 : (nz / 4 < nz)%nat) by (apply Nat.div_lt; lia).
    assert (Z34 : (3 * nz / 4 < nz)%nat) by (apply Nat.div_lt_upper_bound; lia).
    split; [destruct I as [<-|[<-|[<-|[]]]]; lia|destruct K as [<-|[<-|[<-|[<-|[<-|[]]]]]]; lia].
  - apply in_map_iff in I as (k & E & K). injection E as <- <-. assert (k <= 3)%nat by (simpl in K; lia). split; apply D3; auto.
  - apply in_map_iff in I as (k & E & K). injection E as <- <-. assert (k <= 3)%nat by (simpl in K; lia). split; [apply D3; auto|apply (D3 nz (3 - k)%nat); [auto|apply Nat.le_sub_l]].
Qed.
(** A disagreement off the sample goes unnoticed: the guard is not a proof (its documentation says so). *)
Theorem C72_grid_refuted : exists g scalar rgrid zgrid i j, (i < length rgrid)%nat /\ (j < length zgrid)%nat /\
  grid_eval (VGrid g) scalar rgrid zgrid i j <> scalar (nth i rgrid 0) (nth j zgrid 0).
Proof.
  exists (fun i j => if (i =? 1)%nat && (j =? 2)%nat then 1 else 0), (fun _ _ => 0), (repeat 0 9), (repeat 0 9), 1%nat, 2%nat. split; [simpl; lia|]. split; [simpl; lia|].
  unfold grid_eval. rewrite !repeat_length.
  assert (F : forallb (fun c => eqbR (if (fst c =? 1)%nat && (snd c =? 2)%nat then 1 else 0) 0) (spot_check_cells 9 9) = true).
  { apply forallb_forall. intros [i j] I. simpl fst. simpl snd. replace ((i =? 1)%nat && (j =? 2)%nat) with false; [unfold eqbR; destruct (Req_EM_T 0 0); [auto|congruence]|].
    symmetry. apply andb_false_iff. left. apply Nat.eqb_neq. intros ->. revert I. cbv. intuition congruence. }
  rewrite F. simpl. lra.
Qed.

Print Assumptions C72_values.
Print Assumptions C72_second.
Print Assumptions C72_radial.
Print Assumptions C72_nodes.
Print Assumptions C72_dens.
Print Assumptions C72_parity.
Print Assumptions C72_time_refuted.
Print Assumptions C72_asymmetric_refuted.
Print Assumptions C72_grid.
Print Assumptions C72_cells.
Print Assumptions C72_grid_refuted.
