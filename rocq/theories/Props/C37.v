(** C37: flipping the velocities of an Orbit. *)
From Coq Require Import Reals List Arith Bool Lra Lia Sorted.
From Verif.Model Require Import OrbitState.
From Verif.Proofs Require Import OrbitProofs.
From Verif.Props Require Import C24.
Import ListNotations.
Open Scope R_scope.
Notation RR := RbaseSymbolsImpl.R (only parsing).

(** ** Specification: position and velocity of a phase-space point in space (rectangular; an orbit without azimuth is seen at azimuth phi) *)
Definition position (phi : RR) (p : point) : list RR :=
  match p with
  | [x; vx] => [x]
  | [R; vR; vT] => [R * cos phi; R * sin phi]
  | [R; vR; vT; f] => [R * cos f; R * sin f]
  | [R; vR; vT; z; vz] => [R * cos phi; R * sin phi; z]
  | [R; vR; vT; z; vz; f] => [R * cos f; R * sin f; z]
  | _ => []
  end.
Definition velocity (phi : RR) (p : point) : list RR :=
  match p with
  | [x; vx] => [vx]
  | [R; vR; vT] => [vR * cos phi - vT * sin phi; vR * sin phi + vT * cos phi]
  | [R; vR; vT; f] => [vR * cos f - vT * sin f; vR * sin f + vT * cos f]
  | [R; vR; vT; z; vz] => [vR * cos phi - vT * sin phi; vR * sin phi + vT * cos phi; vz]
  | [R; vR; vT; z; vz; f] => [vR * cos f - vT * sin f; vR * sin f + vT * cos f; vz]
  | _ => []
  end.
Definition phase_space_point (p : point) : Prop := (2 <= length p <= 6)%nat.
(** Same position, opposite velocity, same number of coordinates *)
Definition reversed (p q : point) : Prop :=
  length q = length p /\ forall phi, position phi q = position phi p /\ velocity phi q = map Ropp (velocity phi p).

(** ** Proofs *)
Ltac points p := destruct p as [|?a [|?b [|?c [|?d [|?e [|?f [|? ?]]]]]]]; unfold phase_space_point in *; cbn [length] in *; try lia.
Lemma flip_columns_point p : phase_space_point p -> flip_point p = Some (flip_columns p).
Proof. intros H. points p; reflexivity. Qed.
Lemma flip_columns_reversed p : phase_space_point p -> reversed p (flip_columns p).
Proof. intros H. points p; (split; [reflexivity|]); intros phi; (split; [reflexivity|]); cbn; repeat (f_equal; try ring). Qed.
Lemma flip_columns_inv p : flip_columns (flip_columns p) = p.
Proof.
  destruct p as [|a [|b [|c [|d [|e p]]]]]; cbn; try rewrite !Ropp_involutive; reflexivity.
Qed.
Lemma flip_columns_dim p : length (flip_columns p) = length p.
Proof. destruct p as [|a [|b [|c [|d [|e p]]]]]; cbn; reflexivity. Qed.
Lemma map_flip_inv l : map flip_columns (map flip_columns l) = l.
Proof. rewrite map_map. erewrite map_ext; [apply map_id|]. apply flip_columns_inv. Qed.
Lemma map_map_flip_inv l : map (map flip_columns) (map (map flip_columns) l) = l.
Proof. rewrite map_map. erewrite map_ext; [apply map_id|]. apply map_flip_inv. Qed.
Lemma flip_value {pot cache} (o : orb pot cache) : List.Forall phase_space_point (vxvv o) -> flip o = Ok (fresh (map flip_columns (vxvv o))).
Proof.
  intros H. unfold flip. rewrite (all_some_total _ flip_columns); [easy|]. intros p Hp. apply flip_columns_point. rewrite Forall_forall in H. now apply H.
Qed.

(** A new, not integrated Orbit at the same position with the opposite velocity; flipping it again gives the point of the original *)
Theorem C37_flip {pot cache : Type} (o : orb pot cache) : List.Forall phase_space_point (vxvv o) ->
  exists o', flip o = Ok o' /\ List.Forall2 reversed (vxvv o) (vxvv o') /\ t_ o' = None /\ orbit_ o' = None /\
  exists o'', flip o' = Ok o'' /\ vxvv o'' = vxvv o.
Proof.
  intros H. eexists. split; [now apply flip_value|]. cbn [vxvv fresh t_ orbit_]. split; [|split; [easy|split; [easy|]]].
  - revert H. generalize (vxvv o). induction l as [|p l IH]; intros H; [constructor|]. inversion H; subst. constructor; [now apply flip_columns_reversed|now apply IH].
  - eexists. split; [apply flip_value|].
    + cbn [vxvv fresh]. apply Forall_forall. intros p Hp. apply in_map_iff in Hp as (q & <- & Hq). rewrite Forall_forall in H.
      unfold phase_space_point. rewrite flip_columns_dim. now apply H.
    + cbn [vxvv fresh]. apply map_flip_inv.
Qed.
Print Assumptions C37_flip.

(** In place: the initial conditions become those of flip(), every stored point is reversed and the times stay; twice is no change at all, except that
    an interpolation of the stored trajectory is forgotten *)
Theorem C37_flip_inplace {pot cache : Type} (o : orb pot cache) : List.Forall phase_space_point (vxvv o) ->
  (forall rows, orbit_ o = Some rows -> List.Forall (List.Forall phase_space_point) rows) ->
  (exists o', flip o = Ok o' /\ vxvv (flip_inplace o) = vxvv o') /\ t_ (flip_inplace o) = t_ o /\
  (forall rows, orbit_ o = Some rows -> exists rows', orbit_ (flip_inplace o) = Some rows' /\ List.Forall2 (List.Forall2 reversed) rows rows' /\
     orbInterp (flip_inplace o) = None) /\
  vxvv (flip_inplace (flip_inplace o)) = vxvv o /\ t_ (flip_inplace (flip_inplace o)) = t_ o /\ orbit_ (flip_inplace (flip_inplace o)) = orbit_ o.
Proof.
  intros H HR. repeat split.
  - eexists. split; [now apply flip_value|easy].
  - intros rows E. specialize (HR rows E). eexists. cbn [flip_inplace orbit_ orbInterp]. rewrite E. cbn [option_map]. split; [reflexivity|]. split; [|easy].
    clear -HR. induction rows as [|r rows IH]; [constructor|]. inversion HR as [|? ? Hr HR']; subst. cbn [map]. constructor; [|now apply IH].
    clear -Hr. induction r as [|p r IH]; [constructor|]. inversion Hr; subst. cbn [map]. constructor; [now apply flip_columns_reversed|now apply IH].
  - cbn [flip_inplace vxvv]. apply map_flip_inv.
  - cbn [flip_inplace orbit_]. destruct (orbit_ o); cbn [option_map]; [|easy]. now rewrite map_map_flip_inv.
Qed.
Print Assumptions C37_flip_inplace.

(** Time reversal: if reversing the velocity and the sign of time is a symmetry of the flow, integrating the flipped orbit over the negated times gives
    the flipped trajectory *)
Definition time_reversible (F : RR -> RR -> point -> point) : Prop := forall s t v, F (- s) (- t) (flip_columns v) = flip_columns (F s t v).
Lemma mono_opp ts : strictly_monotone ts -> strictly_monotone (map Ropp ts).
Proof.
  intros [H|H]; [right|left]; (induction ts as [|x ts IH]; [constructor|]); apply SS_cons_inv in H as [H HF]; cbn [map]; (constructor; [now apply IH|]);
    apply Forall_forall; intros y Hy; apply in_map_iff in Hy as (z & <- & Hz); specialize (HF z Hz); lra.
Qed.
Theorem C37_time_reversal {pot cache : Type} (integ : pot -> list RR -> point -> option (list point)) F p (v0 : list point) ts :
  solves integ F -> time_reversible (F p) -> List.Forall phase_space_point v0 -> ts <> [] -> strictly_monotone ts ->
  exists o' rows, flip (fresh v0 : orb pot cache) = Ok o' /\
    orbit_ (fst (integrate integ (fresh v0 : orb pot cache) (mkCall (Shared ts) p true))) = Some rows /\
    orbit_ (fst (integrate integ o' (mkCall (Shared (map Ropp ts)) p true))) = Some (map (map flip_columns) rows).
Proof.
  intros HS HT HV N M. exists (fresh (map flip_columns v0)). eexists. split; [now apply (flip_value (fresh v0 : orb pot cache))|].
  assert (N' : map Ropp ts <> []) by now destruct ts. pose proof (mono_opp ts M) as M'.
  unfold integrate. cbn [c_valid negb c_times c_pot should_continue cannot_continue fresh t_ vxvv times_of].
  rewrite (all_some_total _ (fun i => map (fun t => F p (hd 0 ts) t (nth i v0 [])) ts)) by (intros i _; now apply HS).
  rewrite (all_some_total _ (fun i => map (fun t => F p (hd 0 (map Ropp ts)) t (nth i (map flip_columns v0) [])) (map Ropp ts))) by (intros i _; now apply HS).
  cbn [fst orbit_]. split; [reflexivity|]. f_equal. rewrite map_length, map_map. apply map_ext_in. intros i Hi. apply in_seq in Hi.
  rewrite !map_map. apply map_ext. intros t. rewrite (nth_map_d flip_columns v0 i []) by lia. destruct ts as [|t0 ts]; [easy|]. cbn [map hd]. apply HT.
Qed.
Print Assumptions C37_time_reversal.
Example C37_nonvacuous : time_reversible (free true) /\ List.Forall phase_space_point [[7; 1]] /\
  flip (fresh [[1; 2; 3; 4; 5; 6]] : orb bool unit) = Ok (fresh [[1; -2; -3; 4; -5; 6]]).
Proof.
  split; [|split; [repeat constructor; cbn; lia|reflexivity]].
  intros s t v. destruct v as [|x [|vx [|a [|b [|c [|d v]]]]]]; try reflexivity. cbn. f_equal. ring.
Qed.

(** Finding: flip(inplace=True) of an integrated orbit keeps the times, so integrating further glues a reversed trajectory to the stored one: the stored
    points are then not one trajectory of the flow *)
Theorem C37_flip_then_continue_refuted :
  exists v0 c1 c2, let o := fst (integrate free_integ (flip_inplace (fst (integrate free_integ (fresh v0 : orb bool unit) c1))) c2) in
  c_pot c1 = c_pot c2 /\ grids_ok (length v0) [c1; c2] /\
  exists ts row, t_ o = Some (Shared ts) /\ orbit_ o = Some [row] /\ length row = length ts /\
  ~ exists t0 v, forall k, (k < length ts)%nat -> nth k row [] = free true t0 (nth k ts 0) v.
Proof.
  exists [[7; 1]], (mkCall (Shared [0; 1]) true true), (mkCall (Shared [1; 2]) true true).
  assert (CC : forall a, isclose a a = true).
  { intros a. apply Rleb_spec. replace (a - a) with 0 by lra. rewrite Rabs_R0. pose proof (Rabs_pos a). lra. }
  assert (Lt : forall a b, a < b -> Rltb a b = true) by (intros; now apply Rltb_spec).
  split; [easy|]. split; [split|].
  - apply Forall_forall. intros c Hc. cbn in Hc. destruct Hc as [<- |[<- |[]]]; cbn; (split; [easy|]); left; repeat constructor; lra.
  - cbn. intros a b Ha Hb H.
    assert (Rabs b <= 6) by (unfold Rabs; repeat destruct Hb as [<- |Hb]; try easy; destruct Rcase_abs; lra).
    assert (Rabs (a - b) < 1) by lra. apply Rabs_def2 in H1. repeat destruct Ha as [<- |Ha]; try easy; repeat destruct Hb as [<- |Hb]; try easy; lra.
  - unfold integrate at 2. cbn -[isclose Rltb integrate]. unfold integrate. cbn -[isclose Rltb]. rewrite CC, !Lt by lra. cbn.
    do 2 eexists. split; [reflexivity|]. split; [reflexivity|]. split; [reflexivity|]. intros (t0 & v & H).
    pose proof (H 0%nat ltac:(cbn; lia)) as H0. pose proof (H 1%nat ltac:(cbn; lia)) as H1. cbn in H0, H1.
    destruct v as [|x [|vx [|? ?]]]; cbn in H0, H1; try discriminate. injection H0 as H0 H0'. injection H1 as H1 H1'. subst vx. nra.
Qed.
Print Assumptions C37_flip_then_continue_refuted.
