(** C61: the disk potentials written as a multipole or basis-function expansion plus pairs 4 pi a Sigma(r) H(z). *)
From Coq Require Import Reals Lra Psatz List Bool String Lia.
From Coquelicot Require Import Coquelicot.
From Verif.Lib Require Import RealAux.
From Verif.Model Require Import PotAPI PotAxi Mass CSerial DiskExpansion.
From Verif.Spec Require Import PotSpec PotApiSpec Catalog DiskExpSpec.
From Verif.Proofs Require Import AxiProofs AxiProofs2 PotLift CatalogProofs DiskExpProofs DiskExpDicts DiskExpC.
Import ListNotations.
Open Scope R_scope.
Notation RR := RbaseSymbolsImpl.R (only parsing).
Ltac rr := match goal with |- ?a = ?b => change (@eq RR a b) end.

(** ** What the constructor makes of the dictionaries *)
Definition usable (q : SDict * HDict) : Prop := known_sigma (fst q) /\ sigma_scale (fst q) <> 0 /\ known_hz (snd q) /\ 0 < hz_scale (snd q).
Definition sfun (d : SDict) : SFun := match Sigma_dict_indiv d with Some f => f | None => {| s_amp := 0; s_f := fun _ => 0; s_d := fun _ => 0; s_d2 := fun _ => 0 |} end.
Definition hfun (d : HDict) : HFun := match hz_dict_indiv d with Some f => f | None => {| h_f := fun _ => 0; h_H := fun _ => 0; h_d := fun _ => 0 |} end.
Definition mk (q : SDict * HDict) : disk_pair := let f := sfun (fst q) in let g := hfun (snd q) in
  {| dp_amp := s_amp f; dp_S := s_f f; dp_dS := s_d f; dp_d2S := s_d2 f; dp_h := h_f g; dp_H := h_H g; dp_dH := h_d g |}.
Lemma known_sigma_some d : known_sigma d <-> Sigma_dict_indiv d <> None.
Proof. destruct (sigma_cases d) as [(A & B & _) | [(_ & A & B & _) | (A & B & _)] ]; rewrite B; split; intros H; try discriminate; try (left; exact A); try (right; exact A); contradiction. Qed.
Lemma known_hz_some d : known_hz d <-> hz_dict_indiv d <> None.
Proof. destruct (hz_cases d) as [(A & B & _) | [(_ & A & B & _) | (A & B & _)] ]; rewrite B; split; intros H; try discriminate; try (left; exact A); try (right; exact A); contradiction. Qed.
Lemma all_dicts_ok {A B} (f : A -> option B) (g : A -> B) l : (forall a x, f a = Some x -> g a = x) -> List.Forall (fun a => f a <> None) l -> all_dicts f l = Ok (List.map g l).
Proof. intros G H. induction H as [|a l Ha _ IH]; [reflexivity|]. simpl. destruct (f a) as [x|] eqn:E; [|contradiction]. rewrite IH, (G a x E). reflexivity. Qed.
Lemma all_dicts_bad {A B} (f : A -> option B) l : ~ List.Forall (fun a => f a <> None) l -> all_dicts f l = Raise EUnbound.
Proof. intros H. induction l as [|a l IH]; [exfalso; apply H; constructor|]. simpl. destruct (f a) as [x|] eqn:E; [|reflexivity]. rewrite IH; [reflexivity|]. intros F. apply H. constructor; [rewrite E; discriminate|exact F]. Qed.
Lemma sfun_some d f : Sigma_dict_indiv d = Some f -> sfun d = f. Proof. unfold sfun. intros ->. reflexivity. Qed.
Lemma hfun_some d f : hz_dict_indiv d = Some f -> hfun d = f. Proof. unfold hfun. intros ->. reflexivity. Qed.
Lemma dict_pair q : usable q -> describes q (mk q) /\ sound (mk q) /\ unit_column (dp_h (mk q)).
Proof.
  intros (K1 & N1 & K2 & N2). destruct q as [sd hd]. cbn [fst snd] in *. unfold mk, describes, sound. cbn [fst snd dp_amp dp_S dp_dS dp_d2S dp_h dp_H dp_dH].
  assert (A : describes_sigma sd (s_amp (sfun sd)) (s_f (sfun sd)) /\ surface_ok (s_f (sfun sd)) (s_d (sfun sd)) (s_d2 (sfun sd))).
  { destruct (sigma_cases sd) as [(A & B & _) | [(A & A' & B & _) | (A & _)] ]; [| |contradiction]; rewrite (sfun_some _ _ B); cbn [s_amp s_f s_d s_d2].
    - split; [|apply exp_surface; exact N1]. split; [reflexivity|]. split; [intros _ R; f_equal; field; exact N1|]. intros H. exfalso. destruct A as [ [A|A] A']; destruct H as [H| [_ H] ]; congruence.
    - split; [|apply hole_surface; exact N1]. split; [reflexivity|]. split; [contradiction|]. intros _ R HR. f_equal. field. split; [exact N1|lra]. }
  assert (B : describes_hz hd (h_f (hfun hd)) /\ vertical_ok (h_f (hfun hd)) (h_H (hfun hd)) (h_d (hfun hd)) /\ unit_column (h_f (hfun hd))).
  { destruct (hz_cases hd) as [(C & B & _) | [(C & C' & B & _) | (C & _)] ]; [| |contradiction]; rewrite (hfun_some _ _ B); cbn [h_f h_H h_d].
    - split; [|split; [apply exp_vertical; exact N2|apply exp_column; exact N2]]. split; [intros _ z; replace (- Rabs z / hz_scale hd) with (- (Rabs z / hz_scale hd)) by (field; lra); field; lra|]. intros H. destruct C; congruence.
    - split; [|split; [apply sech2_vertical; exact N2|apply sech2_column; exact N2]]. split; [contradiction|]. intros _ z. apply sech2_h. exact N2. }
  destruct A as [A1 A2]. destruct B as (B1 & B2 & B3). repeat split; first [apply A1|apply A2|apply B1|apply B2|assumption|idtac]; try assumption.
Qed.
Lemma usable_known pl : List.Forall usable pl -> List.Forall (fun d => Sigma_dict_indiv d <> None) (List.map fst pl) /\ List.Forall (fun d => hz_dict_indiv d <> None) (List.map snd pl).
Proof. intros H. split; apply List.Forall_map; apply List.Forall_impl with (2 := H); intros q (A & _ & B & _); [apply known_sigma_some; exact A|apply known_hz_some; exact B]. Qed.
Definition lists_of (pl : list (SDict * HDict)) : Lists := {| l_amp := List.map s_amp (List.map sfun (List.map fst pl)); l_s := List.map s_f (List.map sfun (List.map fst pl)); l_ds := List.map s_d (List.map sfun (List.map fst pl)); l_d2s := List.map s_d2 (List.map sfun (List.map fst pl));
  l_h := List.map h_f (List.map hfun (List.map snd pl)); l_H := List.map h_H (List.map hfun (List.map snd pl)); l_dH := List.map h_d (List.map hfun (List.map snd pl)); l_Sdict := Some (List.map fst pl); l_hdict := Some (List.map snd pl) |}.
Lemma lists_matched pl : matched (lists_of pl) (List.map mk pl).
Proof. unfold matched, lists_of. cbn [l_amp l_s l_ds l_d2s l_h l_H l_dH]. rewrite !List.map_map. repeat split; reflexivity. Qed.
Lemma parse_own pl : pl <> [] -> List.Forall usable pl -> KD_parse (SDictsL (List.map fst pl)) (HDictsL (List.map snd pl)) = Ok (lists_of pl).
Proof.
  intros N H. destruct (usable_known pl H) as [K1 K2]. destruct pl as [|q pl]; [contradiction|]. pose proof (all_dicts_ok _ sfun _ sfun_some K1) as P1. pose proof (all_dicts_ok _ hfun _ hfun_some K2) as P2.
  unfold KD_parse, parse_Sigma. cbn [List.map] in P1, P2 |- *. rewrite P1. unfold parse_hz. cbn [List.length]. rewrite !List.map_length, PeanoNat.Nat.eqb_refl. cbn [negb andb].
  destruct (Nat.eqb (S (List.length pl)) 1 && Nat.ltb 1 (S (List.length pl)))%bool eqn:E.
  { exfalso. apply andb_prop in E. destruct E as [E1 E2]. apply PeanoNat.Nat.eqb_eq in E1. apply PeanoNat.Nat.ltb_lt in E2. lia. }
  rewrite P2. reflexivity.
Qed.
Lemma parse_one l h : l <> [] -> List.Forall (fun s => usable (s, h)) l -> KD_parse (SDictsL l) (HDicts1 h) = Ok (lists_of (List.map (fun s => (s, h)) l)).
Proof.
  intros N H. assert (H' : List.Forall usable (List.map (fun s => (s, h)) l)) by (apply List.Forall_map; exact H). pose proof (parse_own (List.map (fun s => (s, h)) l)) as P.
  assert (Ef : List.map fst (List.map (fun s : SDict => (s, h)) l) = l) by (rewrite List.map_map; apply List.map_id). assert (Es : forall l : list SDict, List.map snd (List.map (fun s : SDict => (s, h)) l) = repeat h (List.length l)) by (clear; intros l; rewrite List.map_map; induction l; [reflexivity|simpl; f_equal; assumption]).
  rewrite Ef, Es in P. specialize (P ltac:(destruct l; [contradiction|discriminate]) H'). rewrite <- P. destruct (usable_known _ H') as [K1 K2]. rewrite Ef in K1. rewrite Es in K2.
  destruct l as [|s l]; [contradiction|]. pose proof (all_dicts_ok _ sfun _ sfun_some K1) as P1. pose proof (all_dicts_ok _ hfun _ hfun_some K2) as P2. unfold KD_parse, parse_Sigma. rewrite P1. unfold parse_hz. rewrite List.repeat_length, PeanoNat.Nat.eqb_refl. cbn [negb andb].
  cbn [List.length repeat Nat.eqb negb andb]. rewrite Bool.andb_false_r. destruct l as [|s' l]; [reflexivity|]. cbn [List.length Nat.ltb Nat.leb Nat.eqb andb repeat negb]. rewrite ?List.repeat_length, ?PeanoNat.Nat.eqb_refl. reflexivity.
Qed.
(** For lists of dictionaries of the documented types, with positive scale heights: the object is built, holds one pair for each, in order, with the documented surface density and vertical profile, right derivatives and antiderivatives, and a unit of mass per unit area. *)
Theorem C61_dictionaries : forall pl, pl <> [] -> List.Forall usable pl -> exists d ps, KD_parse (SDictsL (List.map fst pl)) (HDictsL (List.map snd pl)) = Ok d /\ matched d ps /\ List.Forall2 describes pl ps /\ List.Forall sound ps /\ List.Forall (fun p => unit_column (dp_h p)) ps /\ KD_hasC d = true.
Proof.
  intros pl N H. exists (lists_of pl), (List.map mk pl). split; [apply parse_own; assumption|]. split; [apply lists_matched|]. split; [|split; [|split; [|reflexivity]]].
  - clear N. induction H as [|q l Hq _ IH]; constructor; [apply dict_pair; exact Hq|exact IH].
  - apply List.Forall_map. apply List.Forall_impl with (2 := H). intros q Hq. apply (dict_pair q Hq).
  - apply List.Forall_map. apply List.Forall_impl with (2 := H). intros q Hq. apply (dict_pair q Hq).
Qed.
(** One vertical profile for all surface densities, and single dictionaries instead of lists. *)
Theorem C61_one_vertical : forall l h, l <> [] -> List.Forall (fun s => usable (s, h)) l ->
  exists d ps, KD_parse (SDictsL l) (HDicts1 h) = Ok d /\ KD_parse (SDictsL l) (HDictsL [h]) = Ok d /\ (forall s, l = [s] -> KD_parse (SDicts1 s) (HDicts1 h) = Ok d) /\
    matched d ps /\ List.Forall2 describes (List.map (fun s => (s, h)) l) ps /\ List.Forall sound ps /\ List.Forall (fun p => unit_column (dp_h p)) ps /\ KD_hasC d = true.
Proof.
  intros l h N H. set (pl := List.map (fun s => (s, h)) l). assert (H' : List.Forall usable pl) by (apply List.Forall_map; exact H). pose proof (parse_one l h N H) as P. exists (lists_of pl), (List.map mk pl).
  split; [exact P|]. split; [exact P|]. split; [intros s ->; exact P|]. split; [apply lists_matched|]. split; [|split; [|split; [|reflexivity]]].
  - clear - H'. induction H' as [|q r Hq _ IH]; constructor; [apply dict_pair; exact Hq|exact IH].
  - apply List.Forall_map. apply List.Forall_impl with (2 := H'). intros q Hq. apply (dict_pair q Hq).
  - apply List.Forall_map. apply List.Forall_impl with (2 := H'). intros q Hq. apply (dict_pair q Hq).
Qed.
Lemma not_none_dec {A} (o : option A) : {o <> None} + {~ o <> None}. Proof. destruct o; [left; discriminate|right; intros X; apply X; reflexivity]. Qed.
(** Exactly these are accepted: known types, and as many vertical profiles as surface densities, or one; the wrong number is a ValueError. *)
Theorem C61_accepted : forall ls lh, ((exists d, KD_parse (SDictsL ls) (HDictsL lh) = Ok d) <-> ls <> [] /\ List.Forall known_sigma ls /\ (List.length lh = List.length ls \/ List.length lh = 1%nat) /\ List.Forall known_hz lh) /\
  (ls <> [] -> List.Forall known_sigma ls -> List.length lh <> List.length ls -> List.length lh <> 1%nat -> KD_parse (SDictsL ls) (HDictsL lh) = Raise EValue).
Proof.
  intros ls lh.
  assert (KS : List.Forall known_sigma ls <-> List.Forall (fun d => Sigma_dict_indiv d <> None) ls) by (split; intros H; apply List.Forall_impl with (2 := H); intros d; apply known_sigma_some).
  assert (KH : forall lh, List.Forall known_hz lh <-> List.Forall (fun d => hz_dict_indiv d <> None) lh) by (intros l'; split; intros H; apply List.Forall_impl with (2 := H); intros d; apply known_hz_some).
  assert (DS : List.Forall (fun d => Sigma_dict_indiv d <> None) ls \/ ~ List.Forall (fun d => Sigma_dict_indiv d <> None) ls). { destruct (List.Forall_Exists_dec (fun d => Sigma_dict_indiv d <> None) (fun d => not_none_dec (Sigma_dict_indiv d)) ls) as [X|X]; [left; exact X|right]. intros Y. apply List.Exists_exists in X. destruct X as (x & I & Nx). rewrite List.Forall_forall in Y. exact (Nx (Y x I)). }
  assert (DH : forall lh : list HDict, List.Forall (fun d => hz_dict_indiv d <> None) lh \/ ~ List.Forall (fun d => hz_dict_indiv d <> None) lh). { intros l'. destruct (List.Forall_Exists_dec (fun d => hz_dict_indiv d <> None) (fun d => not_none_dec (hz_dict_indiv d)) l') as [X|X]; [left; exact X|right]. intros Y. apply List.Exists_exists in X. destruct X as (x & I & Nx). rewrite List.Forall_forall in Y. exact (Nx (Y x I)). }
  rewrite KS, (KH lh). destruct ls as [|s ls]; [split; [split; [intros (d & H); discriminate H|intros (H & _); contradiction]|intros H; contradiction]|].
  unfold KD_parse, parse_Sigma. destruct DS as [DS|DS].
  2: { rewrite (all_dicts_bad _ _ DS). split; [split; [intros (d & H); discriminate H|intros (_ & H & _); contradiction]|intros _ H; contradiction]. }
  rewrite (all_dicts_ok _ sfun _ sfun_some DS). unfold parse_hz. set (n := List.length (s :: ls)). assert (Hn : (1 <= n)%nat) by (unfold n; simpl; lia). clearbody n.
  destruct (Nat.eqb (List.length lh) n) eqn:E1.
  - apply PeanoNat.Nat.eqb_eq in E1. cbn [negb andb]. split; [|intros _ _ H; contradiction]. destruct lh as [|h lh]; [simpl in E1; lia|]. assert (F : (Nat.eqb (List.length (h :: lh)) 1 && Nat.ltb 1 n)%bool = false). { apply Bool.andb_false_iff. destruct (PeanoNat.Nat.eqb_spec (List.length (h :: lh)) 1); [right; apply PeanoNat.Nat.ltb_ge; lia|left; reflexivity]. }
    rewrite F. destruct (DH (h :: lh)) as [K|K]; [rewrite (all_dicts_ok _ hfun _ hfun_some K)|rewrite (all_dicts_bad _ _ K)].
    + split; [intros _|intros _; eexists; reflexivity]. split; [discriminate|]. split; [exact DS|]. split; [left; exact E1|exact K].
    + split; [intros (d & H); discriminate H|intros (_ & _ & _ & H); contradiction].
  - apply PeanoNat.Nat.eqb_neq in E1. destruct (Nat.eqb (List.length lh) 1) eqn:E2; cbn [negb andb].
    + apply PeanoNat.Nat.eqb_eq in E2. split; [|intros _ _ _ H; contradiction]. destruct lh as [|h [|h' lh] ]; [discriminate E2| |discriminate E2]. assert (F : Nat.ltb 1 n = true) by (apply PeanoNat.Nat.ltb_lt; simpl in E1; lia). rewrite F. cbn [List.length Nat.eqb andb].
      assert (R : forall k, List.Forall (fun d => hz_dict_indiv d <> None) [h] <-> List.Forall (fun d => hz_dict_indiv d <> None) (repeat h (S k))). { intros k. split; intros H. - apply List.Forall_forall. intros x Hx. apply List.repeat_spec in Hx. subst x. inversion H; assumption. - constructor; [simpl in H; inversion H; assumption|constructor]. }
      destruct n as [|k]; [lia|]. destruct (DH [h]) as [K|K].
      * rewrite (R k) in K. pose proof (all_dicts_ok _ hfun _ hfun_some K) as Q. cbn [repeat] in Q |- *. rewrite Q. split; [intros _|intros _; eexists; reflexivity]. split; [discriminate|]. split; [exact DS|]. split; [right; reflexivity|]. apply (R k). exact K.
      * assert (K' := K). rewrite (R k) in K'. pose proof (all_dicts_bad _ _ K') as Q. cbn [repeat] in Q |- *. rewrite Q. split; [intros (d & H); discriminate H|intros (_ & _ & _ & H); contradiction].
    + apply PeanoNat.Nat.eqb_neq in E2. split; [|intros; reflexivity]. split; [intros (d & H); discriminate H|intros (_ & _ & [H|H] & _); contradiction].
Qed.
Definition disk1 : SDict := {| sd_type := Some "exp"%string; sd_h := Some (1 / 3); sd_amp := Some 1; sd_Rhole := None |}.
Definition disk2 : SDict := {| sd_type := None; sd_h := Some 2; sd_amp := Some 3; sd_Rhole := Some 4 |}.
Definition thin : HDict := {| hd_type := Some "exp"%string; hd_h := Some (1 / 27) |}.
Definition thick : HDict := {| hd_type := Some "sech2"%string; hd_h := None |}.
Example two_disks : List.Forall usable [(disk1, thin); (disk2, thick)].
Proof.
  constructor; [|constructor; [|constructor]]; unfold usable, sigma_scale, hz_scale, known_sigma, known_hz, exp_like, hole_like, is_exp; cbn.
  - split; [left; split; [right|]; reflexivity|]. split; [lra|]. split; [left; right; reflexivity|lra].
  - split; [right; right; split; [left; reflexivity|discriminate]|]. split; [lra|]. split; [right; reflexivity|lra].
Qed.

(** ** Functions instead of dictionaries: lists of equal length are kept in order *)
Theorem C61_functions : forall ps, ps <> [] -> exists d, KD_parse (SFunL (List.map dp_amp ps) (List.map dp_S ps) (List.map dp_dS ps) (List.map dp_d2S ps)) (HFunL (List.map dp_h ps) (List.map dp_H ps) (List.map dp_dH ps)) = Ok d /\ matched d ps /\ KD_hasC d = false.
Proof.
  intros ps N. destruct ps as [|p ps]; [contradiction|]. unfold KD_parse, parse_Sigma. cbn [List.map]. unfold parse_hz. cbn [List.length]. rewrite !List.map_length, PeanoNat.Nat.eqb_refl. cbn [negb andb].
  destruct (Nat.eqb (S (List.length ps)) 1 && Nat.ltb 1 (S (List.length ps)))%bool eqn:E.
  { exfalso. apply andb_prop in E. destruct E as [E1 E2]. apply PeanoNat.Nat.eqb_eq in E1. apply PeanoNat.Nat.ltb_lt in E2. lia. }
  eexists. split; [reflexivity|]. split; [|reflexivity]. repeat split; reflexivity.
Qed.
(** One vertical function for several surface densities. *)
Theorem C61_functions_one_vertical : forall ps h H dH, ps <> [] -> (forall p, In p ps -> dp_h p = h /\ dp_H p = H /\ dp_dH p = dH) ->
  exists d, KD_parse (SFunL (List.map dp_amp ps) (List.map dp_S ps) (List.map dp_dS ps) (List.map dp_d2S ps)) (HFun1 {| h_f := h; h_H := H; h_d := dH |}) = Ok d /\ matched d ps.
Proof.
  intros ps h H dH N E. assert (Q : forall l, (forall p, In p l -> dp_h p = h /\ dp_H p = H /\ dp_dH p = dH) -> List.map dp_h l = repeat h (List.length l) /\ List.map dp_H l = repeat H (List.length l) /\ List.map dp_dH l = repeat dH (List.length l)).
  { induction l as [|q l IH]; intros F; [repeat split; reflexivity|]. destruct (F q (or_introl eq_refl)) as (A & B & C). destruct IH as (A' & B' & C'); [intros x Hx; apply F; right; exact Hx|]. cbn [List.map List.length repeat]. rewrite A, B, C, A', B', C'. repeat split; reflexivity. }
  destruct (Q ps E) as (Q1 & Q2 & Q3). destruct ps as [|p [|p' ps] ]; [contradiction| |].
  - cbn [List.map List.length repeat] in *. unfold KD_parse, parse_Sigma, parse_hz. cbn. eexists. split; [reflexivity|]. unfold matched. cbn [l_amp l_s l_ds l_d2s l_h l_H l_dH List.map]. rewrite Q1, Q2, Q3. repeat split; reflexivity.
  - unfold KD_parse, parse_Sigma, parse_hz. cbn [List.map List.length Nat.eqb negb andb Nat.ltb Nat.leb h_f h_H h_d]. eexists. split; [reflexivity|]. unfold matched. cbn [l_amp l_s l_ds l_d2s l_h l_H l_dH]. rewrite Q1, Q2, Q3, List.map_length. repeat split; reflexivity.
Qed.

(** ** Forces, second derivatives and density *)
Definition inside (D : Dom) : Prop := slice_open D /\ forall R z phi t, D R z phi t -> away_from_origin R z phi t.
Lemma single_ok (D : Dom) p : inside D -> sound p -> forces_are_gradient D (Single 1 (pr_class p)) /\ hessian_is_correct D (Single 1 (pr_class p)) /\ density_is_source D (Single 1 (pr_class p)).
Proof.
  intros [_ I] H. assert (S : forall R z phi t, D R z phi t -> lift2 D2 R z phi t) by (intros; apply (I _ _ _ _ H0)). split; [|split].
  - apply (forces_mono (lift2 D2) D); [exact S|]. apply axi_forces. apply pair_force. exact H.
  - apply (hessian_mono (lift2 D2) D); [exact S|]. apply axi_hessian. apply pair_hess. exact H.
  - apply (density_mono (lift2 D2) D); [exact S|]. apply axi_density; [apply D2_open|apply pair_force; exact H|apply pair_hess; exact H|apply pair_poisson].
Qed.
Section Derivatives.
  Variables (D : Dom) (d : Lists) (ps : list disk_pair) (me : Pot) (amp : RR) (b : bool).
  Hypotheses (HD : inside D) (M : matched d ps) (Hs : List.Forall sound ps) (Hd : isDiss me = false) (Hf : forces_are_gradient D me).
  Let in_sound q : In q ps -> sound q. Proof. intros I. rewrite List.Forall_forall in Hs. apply Hs. exact I. Qed.
  Lemma KD_forces : forces_are_gradient D (Single amp (KD_class d me b)).
  Proof using HD M Hs Hd Hf in_sound.
    assert (W : forces_are_gradient D (whole amp me ps)). { apply comp_forces. intros p Hp. destruct (in_singles p me ps Hp) as [-> | (q & Iq & ->)]; [split; [exact Hd|exact Hf]|split; [reflexivity|]]. apply (single_ok D q HD (in_sound q Iq)). }
    unfold forces_are_gradient in *. destruct Hf as (f & g & E1 & E2 & _). rewrite (Rf_eq d ps me amp b M), (zf_eq d ps me amp b M), (ev_eq d ps me amp b M Hd f E1), (pt_eq d ps me amp b Hd g E2). exact W.
  Qed.
  Lemma KD_hessian : hessian_is_correct D me -> hessian_is_correct D (Single amp (KD_class d me b)).
  Proof using HD M Hs Hd in_sound.
    intros Hh. assert (W : hessian_is_correct D (whole amp me ps)). { apply comp_hessian. intros p Hp. destruct (in_singles p me ps Hp) as [-> | (q & Iq & ->)]; [split; [exact Hd|exact Hh]|split; [reflexivity|]]. apply (single_ok D q HD (in_sound q Iq)). }
    unfold hessian_is_correct in *. destruct Hh as (f & g & h & E1 & E2 & E3 & _). rewrite (Rf_eq d ps me amp b M), (zf_eq d ps me amp b M), (R2_eq d ps me amp b M Hd f E1), (z2_eq d ps me amp b M Hd g E2), (Rz_eq d ps me amp b M Hd h E3). exact W.
  Qed.
  Lemma KD_density : density_is_source D me -> density_is_source D (Single amp (KD_class d me b)).
  Proof using HD M Hs Hd Hf in_sound.
    intros Hn. assert (W : density_is_source D (whole amp me ps)). { apply comp_density; [apply HD|]. intros p Hp. destruct (in_singles p me ps Hp) as [-> | (q & Iq & ->)]; [split; [exact Hd|split; [exact Hf|exact Hn]]|split; [reflexivity|]]. split; apply (single_ok D q HD (in_sound q Iq)). }
    unfold density_is_source in *. destruct Hn as (f & g & E1 & E2 & _). rewrite (ev_eq d ps me amp b M Hd f E1), (dn_eq d ps me amp b M Hd g E2). exact W.
  Qed.
End Derivatives.
(** Away from the origin, where the expansion's own forces, second derivatives and density are right, those of the whole are: for any sound pairs, any amplitude, axisymmetric or not. *)
Theorem C61_derivatives : forall (D : Dom) d ps me amp nonaxi, inside D -> matched d ps -> List.Forall sound ps -> isDiss me = false -> forces_are_gradient D me -> let p := Single amp (KD_class d me nonaxi) in
  forces_are_gradient D p /\ (hessian_is_correct D me -> hessian_is_correct D p) /\ (density_is_source D me -> density_is_source D p).
Proof. intros D d ps me amp b HD M Hs Hd Hf p. split; [apply (KD_forces D d ps); assumption|]. split; [apply (KD_hessian D d ps); assumption|apply (KD_density D d ps); assumption]. Qed.
Example derivatives_met : exists d ps me, inside away_from_origin /\ matched d ps /\ List.Forall sound ps /\ List.length ps = 2%nat /\ isDiss me = false /\ forces_are_gradient away_from_origin me /\ hessian_is_correct away_from_origin me /\ density_is_source away_from_origin me.
Proof.
  destruct (C61_dictionaries [(disk1, thin); (disk2, thick)] ltac:(discriminate) two_disks) as (d & ps & _ & M & F2 & S & _). exists d, ps, (Single 1 (PotAxi.Hernquist 1)).
  assert (O : slice_open away_from_origin) by exact D2_open. split; [split; [exact O|auto]|]. split; [exact M|]. split; [exact S|]. split; [inversion F2 as [|? ? ? ? _ F3]; inversion F3 as [|? ? ? ? _ F4]; inversion F4; reflexivity|]. split; [reflexivity|].
  assert (C : Catalog off_origin (Single 1 (PotAxi.Hernquist 1))) by (apply cat_single, cat_Hernquist; lra). split; [apply (catalog_forces off_origin); exact C|]. split; [apply (catalog_hessian off_origin); exact C|apply (catalog_density off_origin); exact C].
Qed.

(** ** The density asked for *)
Lemma fold_both {A} (f : A -> RR) l : forall o o', fold_left (fun out x => out + f x) l o - o = o' - fold_left (fun out x => out - f x) l o'.
Proof. induction l as [|x l IH]; intros o o'; simpl; [ring|]. specialize (IH (o + f x) (o' - f x)). lra. Qed.
(** Whatever the lists are: the density of the object differs from (amp times) the density it was given by exactly as much as the expansion's density differs from the density handed to the expansion.  So a perfect expansion gives back the input. *)
Theorem C61_input_density : forall d me amp nonaxi dens_me (dens : RR -> RR -> RR -> RR), apiDens me = Some dens_me -> exists out, apiDens (Single amp (KD_class d me nonaxi)) = Some out /\
  forall R z phi t, out R z phi t - amp * dens R z phi = amp * (dens_me R z phi t - phiME_dens d dens R z phi).
Proof.
  intros d me amp b f dens E. eexists. split; [unfold apiDens at 1; simpl; unfold dens_single; simpl; rewrite E; reflexivity|]. intros R z phi t. unfold scale4, KD_dn, phiME_dens. cbv zeta.
  set (l := combine (l_amp d) _). set (r := rad R z).
  pose proof (fold_both (fun x : RR * ((RR -> RR) * ((RR -> RR) * ((RR -> RR) * ((RR -> RR) * ((RR -> RR) * (RR -> RR)))))) => let '(a, (s, (ds, (d2s, (h, (H, dH)))))) := x in a * (s r * h z + d2s r * H z + 2 / r * ds r * (H z + z * dH z))) l (f R z phi t) (dens R z phi)) as Q.
  assert (E1 : forall o, fold_left (fun out '(a, (s, (ds, (d2s, (h, (H, dH)))))) => out + a * (s r * h z + d2s r * H z + 2 / r * ds r * (H z + z * dH z))) l o = fold_left (fun out x => out + (let '(a, (s, (ds, (d2s, (h, (H, dH)))))) := x in a * (s r * h z + d2s r * H z + 2 / r * ds r * (H z + z * dH z)))) l o) by (clear; induction l as [|[a [s [ds [d2s [h [H dH] ] ] ] ] ] l IH]; intros o; simpl; [reflexivity|apply IH]).
  assert (E2 : forall o, fold_left (fun out '(a, (s, (ds, (d2s, (h, (H, dH)))))) => out - a * (s r * h z + d2s r * H z + 2 / r * ds r * (H z + z * dH z))) l o = fold_left (fun out x => out - (let '(a, (s, (ds, (d2s, (h, (H, dH)))))) := x in a * (s r * h z + d2s r * H z + 2 / r * ds r * (H z + z * dH z)))) l o) by (clear; induction l as [|[a [s [ds [d2s [h [H dH] ] ] ] ] ] l IH]; intros o; simpl; [reflexivity|apply IH]).
  rewrite E1, E2. rewrite <- Rmult_minus_distr_l. f_equal. lra.
Qed.
(** The density handed to the expansion is the input less the source of the pairs, the Laplacian of sum_i 4 pi a_i S_i(r) H_i(z) over 4 pi. *)
Theorem C61_expanded_density : forall d ps dens, matched d ps -> List.Forall sound ps -> (forall R z phi, phiME_dens d dens R z phi = dens R z phi - pairs_density ps R z) /\
  satisfies_poisson away_from_origin (fun R z _ _ => pairs_potential ps R z) (fun R z _ _ => pairs_density ps R z).
Proof.
  intros d ps dens M S. split.
  - intros R z phi. unfold phiME_dens. zips M. rewrite (fold_pairs _ _ (fun p => - pr_dn p R z)) by (intros; unfold pr_dn, rad; cbv beta iota; rr; unfold Rminus; f_equal; ring). unfold Rminus. f_equal. unfold pairs_density. clear. induction ps as [|p ps IH]; simpl; [ring|]. rewrite IH. unfold pr_dn, rad. ring.
  - assert (O : slice_open away_from_origin) by exact D2_open. assert (W : density_is_source away_from_origin (Comp 1 (singles ps))).
    { apply comp_density; [exact O|]. intros p Hp. apply in_map_iff in Hp. destruct Hp as (q & <- & Iq). split; [reflexivity|]. rewrite List.Forall_forall in S. split; apply (single_ok away_from_origin q (conj O (fun _ _ _ _ H => H)) (S q Iq)). }
    destruct W as (Phi & dn & E1 & E2 & P). rewrite apiEv_comp in E1; [|intros p Hp; apply in_map_iff in Hp; destruct Hp as (q & <- & _); reflexivity|intros p Hp; apply in_map_iff in Hp; destruct Hp as (q & <- & _); eexists; reflexivity].
    unfold apiDens in E2. rewrite api2_comp in E2; [|intros p Hp; apply in_map_iff in Hp; destruct Hp as (q & <- & _); reflexivity|intros p Hp; apply in_map_iff in Hp; destruct Hp as (q & <- & _); eexists; reflexivity]. injection E1 as <-. injection E2 as <-.
    intros R z phi t HD HR. specialize (P R z phi t HD HR).
    assert (F1 : scale4 1 (sum4 (List.map (fun p => getF (apiEv p)) (singles ps))) = (fun R z _ _ => pairs_potential ps R z)).
    { apply f4_ext. intros R' z' phi' t'. unfold scale4. rewrite Rmult_1_l. rewrite (sum4_singles _ pr_ev); [|intros p; simpl; unfold scale4; apply Rmult_1_l]. unfold pairs_potential, psum, pr_ev, rad. reflexivity. }
    assert (F2 : scale4 1 (sum4 (List.map (fun p => getF (api2 (dens_single false) p)) (singles ps))) = (fun R z _ _ => pairs_density ps R z)).
    { apply f4_ext. intros R' z' phi' t'. unfold scale4. rewrite Rmult_1_l. rewrite (sum4_singles _ pr_dn); [|intros p; simpl; unfold scale4; apply Rmult_1_l]. unfold pairs_density, psum, pr_dn, rad. reflexivity. }
    rewrite F1, F2 in P. exact P.
Qed.

(** ** In the plane of the disk *)
Lemma psum_zero (c : disk_pair -> RR) ps : (forall p, In p ps -> c p = 0) -> psum c ps = 0.
Proof. induction ps as [|p ps IH]; intros H; simpl; [reflexivity|]. rewrite (H p (or_introl eq_refl)), IH; [ring|]. intros q Hq. apply H. right. exact Hq. Qed.
(** At z = 0 the pairs contribute nothing to the potential, the forces and the radial and mixed second derivatives, and 4 pi a S(R) h(0) each to the vertical one. *)
Theorem C61_plane : forall d ps me amp nonaxi, matched d ps -> List.Forall sound ps -> let p := Single amp (KD_class d me nonaxi) in forall R phi t, 0 < R ->
  (forall Phi, apiEv me = Some Phi -> exists out, apiEv p = Some out /\ out R 0 phi t = amp * Phi R 0 phi t) /\
  apiRf p v0 R 0 phi t = amp * apiRf me v0 R 0 phi t /\ apizf p v0 R 0 phi t = amp * apizf me v0 R 0 phi t /\
  (forall F, apiPt me v0 = Some F -> exists out, apiPt p v0 = Some out /\ forall z, out R z phi t = amp * F R z phi t) /\
  (forall F, apiR2 me = Some F -> exists out, apiR2 p = Some out /\ out R 0 phi t = amp * F R 0 phi t) /\
  (forall F, apiRz me = Some F -> exists out, apiRz p = Some out /\ out R 0 phi t = amp * F R 0 phi t) /\
  (forall F, apiz2 me = Some F -> exists out, apiz2 p = Some out /\ out R 0 phi t = amp * (F R 0 phi t + 4 * PI * fold_right (fun q y => dp_amp q * dp_S q R * dp_h q 0 + y) 0 ps)).
Proof.
  intros d ps me amp b M S p R phi t HR. assert (Z : forall q, In q ps -> dp_H q 0 = 0 /\ dp_dH q 0 = 0). { intros q Hq. rewrite List.Forall_forall in S. destruct (S q Hq) as [_ (A & B & _)]. split; assumption. }
  assert (Er : rad R 0 = R). { unfold rad. replace (R ^ 2 + 0 ^ 2) with (R ^ 2) by ring. apply sqrt_pow2. lra. }
  split; [|split; [|split; [|split; [|split; [|split]]]]].
  - intros Phi E. eexists. split; [simpl; rewrite E; reflexivity|]. unfold scale4. rewrite (ev_sum d ps M). rewrite psum_zero; [ring|]. intros q Hq. unfold pr_ev. rewrite (proj1 (Z q Hq)). ring.
  - simpl. unfold scale4. rewrite (Rf_sum d ps M). rewrite psum_zero; [unfold v0; ring|]. intros q Hq. unfold pr_Rf. rewrite (proj1 (Z q Hq)). unfold Rdiv. ring.
  - simpl. unfold scale4. rewrite (zf_sum d ps M). rewrite psum_zero; [unfold v0; ring|]. intros q Hq. unfold pr_zf. rewrite (proj1 (Z q Hq)), (proj2 (Z q Hq)). unfold Rdiv. ring.
  - intros F E. unfold v0 in *. eexists. split; [simpl; rewrite E; reflexivity|]. intros z. reflexivity.
  - intros F E. eexists. split; [unfold apiR2 at 1; simpl; rewrite E; reflexivity|]. unfold scale4. rewrite (R2_sum d ps M). rewrite psum_zero; [ring|]. intros q Hq. unfold pr_R2. rewrite (proj1 (Z q Hq)). unfold Rdiv. ring.
  - intros F E. eexists. split; [unfold apiRz at 1; simpl; rewrite E; reflexivity|]. unfold scale4. rewrite (Rz_sum d ps M). rewrite psum_zero; [ring|]. intros q Hq. unfold pr_Rz. rewrite (proj1 (Z q Hq)), (proj2 (Z q Hq)). unfold Rdiv. ring.
  - intros F E. eexists. split; [unfold apiz2 at 1; simpl; rewrite E; reflexivity|]. unfold scale4. rewrite (z2_sum d ps M). f_equal. f_equal. clear - Z Er. induction ps as [|q ps IH]; simpl; [ring|]. rewrite IH by (intros x Hx; apply Z; right; exact Hx). unfold pr_z2. destruct (Z q (or_introl eq_refl)) as [A B]. rewrite A, B, Er. unfold Rdiv. ring.
Qed.

(** ** Mixed azimuthal derivatives: zero for an axisymmetric density, refused otherwise although the expansion has them. *)
Theorem C61_azimuthal : forall d me amp, let p := Single amp (KD_class d me false) in apiRp p = Some zero4 /\ apipz p = Some zero4.
Proof. intros; split; reflexivity. Qed.
Theorem C61_mixed_azimuthal_refuted : ~ forall d me amp, azimuthal_hessian_is_correct away_from_origin me -> exists F, apiRp (Single amp (KD_class d me true)) = Some F.
Proof.
  intros H. destruct (H {| l_amp := []; l_s := []; l_ds := []; l_d2s := []; l_h := []; l_H := []; l_dH := []; l_Sdict := None; l_hdict := None |} (Single 1 (PotAxi.Hernquist 1)) 1) as (F & E); [|discriminate E].
  apply (catalog_azimuthal off_origin). apply cat_single, cat_Hernquist. lra.
Qed.
Theorem C61_mixed_azimuthal : forall d me amp, apiRp (Single amp (KD_class d me true)) = None /\ apipz (Single amp (KD_class d me true)) = None.
Proof. intros; split; reflexivity. Qed.

(** ** The enclosed mass *)
Definition shell (p : disk_pair) (r th : RR) : RR := dp_amp p * (dp_dS p r * dp_H p (r * cos th) + dp_S p r * dp_dH p (r * cos th) * cos th).
Lemma rad_sphere r th : 0 < r -> rad (r * sin th) (r * cos th) = r.
Proof. intros H. unfold rad. replace ((r * sin th) ^ 2 + (r * cos th) ^ 2) with (r ^ 2 * (Rsqr (sin th) + Rsqr (cos th))) by (unfold Rsqr; ring). rewrite sin2_cos2, Rmult_1_r. apply sqrt_pow2. lra. Qed.
Lemma psum_lin (c : disk_pair -> RR) k ps : psum (fun p => k * c p) ps = k * psum c ps.
Proof. induction ps as [|p ps IH]; simpl; [ring|]. rewrite IH. ring. Qed.
Lemma psum_lin2 (c e : disk_pair -> RR) k l ps : k * psum c ps + l * psum e ps = psum (fun p => k * c p + l * e p) ps.
Proof. induction ps as [|p ps IH]; simpl; [ring|]. rewrite <- IH. ring. Qed.
Lemma cont_shell ps r th : List.Forall sound ps -> continuous (fun th => psum (fun p => shell p r th) ps) th.
Proof.
  intros S. induction S as [|p ps [_ (_ & _ & HV)] _ IH]; simpl; [apply continuous_const|]. apply (continuous_plus (V := R_NormedModule) (fun th => shell p r th)); [|exact IH].
  apply (ex_derive_continuous (V := R_NormedModule) (fun th => shell p r th)). unfold shell. destruct (HV (r * cos th)) as [H1 H2]. auto_derive. repeat split; eexists; [exact H1|exact H2].
Qed.
(** The mass within radius r is what Gauss' theorem gives from the total force (mass with forceint=True), when the expansion's own mass is. *)
Theorem C61_mass : forall d ps me amp nonaxi r t, matched d ps -> List.Forall sound ps -> 0 < r -> ex_RInt (fun th => apirforce me (r * sin th) (r * cos th) t * sin th) 0 PI ->
  amp * KD_mass d (apiMassInt me r t) r = apiMassInt (Single amp (KD_class d me nonaxi)) r t.
Proof.
  intros d ps me amp b r t M S Hr X.
  set (g := fun th => psum (fun p => shell p r th) ps * sin th).
  assert (XG : ex_RInt g 0 PI). { apply (ex_RInt_continuous (V := R_CompleteNormedModule)). intros th _. apply (continuous_mult (K := R_AbsRing) (fun th => psum (fun p => shell p r th) ps)); [apply cont_shell; exact S|]. apply (ex_derive_continuous (V := R_NormedModule)). auto_derive. exact I. }
  assert (E1 : forall th, apirforce (Single amp (KD_class d me b)) (r * sin th) (r * cos th) t * sin th = amp * (apirforce me (r * sin th) (r * cos th) t * sin th) + - (4 * PI * amp) * g th).
  { intros th. unfold apirforce. cbv zeta. fold (rad (r * sin th) (r * cos th)). rewrite (rad_sphere r th Hr). simpl. unfold scale4. rewrite (Rf_sum d ps M), (zf_sum d ps M). unfold plus, scal, g; simpl; unfold mult; simpl.
    set (fR := apiRf me (0, 0, 0) (r * sin th) (r * cos th) 0 t). set (fz := apizf me (0, 0, 0) (r * sin th) (r * cos th) 0 t).
    assert (Q : psum (fun p => pr_Rf p (r * sin th) (r * cos th)) ps * sin th + psum (fun p => pr_zf p (r * sin th) (r * cos th)) ps * cos th = - (4 * PI) * psum (fun p => shell p r th) ps).
    { rewrite (Rmult_comm (psum _ _) (sin th)), (Rmult_comm (psum _ _) (cos th)), psum_lin2, <- psum_lin. apply psum_ext. intros p. unfold pr_Rf, pr_zf, shell. rewrite (rad_sphere r th Hr).
      transitivity (- (4 * PI * dp_amp p) * (dp_dS p r * dp_H p (r * cos th) * (Rsqr (sin th) + Rsqr (cos th)) + dp_S p r * dp_dH p (r * cos th) * cos th)); [unfold Rsqr; field; lra|]. rewrite sin2_cos2. ring. }
    transitivity ((amp * (fR * sin th + fz * cos th) + amp * (psum (fun p => pr_Rf p (r * sin th) (r * cos th)) ps * sin th + psum (fun p => pr_zf p (r * sin th) (r * cos th)) ps * cos th)) * sin th); [rr; field; lra|]. rewrite Q. rr. field. lra. }
  assert (E2 : forall th, (let tz := r * cos th in let tR := r * sin th in fold_left (fun out '(a, (s, (ds, (H, dH)))) => out + a * ds r * H tz * tR ^ 2 + a * (ds r * H tz * tz / r + s r * dH tz) * tz * r) (combine (l_amp d) (combine (l_s d) (combine (l_ds d) (combine (l_H d) (l_dH d))))) 0 * sin th) = r ^ 2 * g th).
  { intros th. cbv zeta. zips M. rewrite (fold_pairs _ _ (fun p => r ^ 2 * shell p r th)); [rewrite psum_lin; unfold scal, g; simpl; unfold mult; simpl; ring|]. intros o p. unfold shell.
    transitivity (o + dp_amp p * r ^ 2 * (dp_dS p r * dp_H p (r * cos th) * (Rsqr (sin th) + Rsqr (cos th)) + dp_S p r * dp_dH p (r * cos th) * cos th)); [unfold Rsqr; field; lra|]. rewrite sin2_cos2. ring. }
  assert (E4 : RInt (fun th => r ^ 2 * g th) 0 PI = r ^ 2 * RInt g 0 PI) by (apply is_RInt_unique; apply (is_RInt_scal (V := R_NormedModule)); apply (RInt_correct (V := R_CompleteNormedModule)); exact XG).
  assert (E5 : KD_mass d (apiMassInt me r t) r = apiMassInt me r t + 2 * PI * (r ^ 2 * RInt g 0 PI)). { unfold KD_mass. f_equal. f_equal. rewrite <- E4. apply RInt_ext. intros th _. exact (E2 th). }
  rewrite E5.
  unfold apiMassInt. rewrite (RInt_ext _ _ 0 PI (fun th _ => E1 th)). 
  assert (E3 : RInt (fun th => amp * (apirforce me (r * sin th) (r * cos th) t * sin th) + - (4 * PI * amp) * g th) 0 PI = amp * RInt (fun th => apirforce me (r * sin th) (r * cos th) t * sin th) 0 PI + - (4 * PI * amp) * RInt g 0 PI).
  { apply is_RInt_unique. apply (is_RInt_plus (V := R_NormedModule)); apply (is_RInt_scal (V := R_NormedModule)); apply (RInt_correct (V := R_CompleteNormedModule)); assumption. }
  rewrite E3.
  rr. field.
Qed.

Example mass_met : exists d ps me, matched d ps /\ List.Forall sound ps /\ List.length ps = 2%nat /\ (exists r, 0 < r /\ apirforce me r 0 0 <> 0) /\ forall r t, 0 < r -> ex_RInt (fun th => apirforce me (r * sin th) (r * cos th) t * sin th) 0 PI.
Proof.
  destruct derivatives_met as (d & ps & _ & _ & M & S & L & _). exists d, ps, (Single 1 (PotAxi.Hernquist 1)). split; [exact M|]. split; [exact S|]. split; [exact L|]. split.
  - exists 1. split; [lra|]. unfold apirforce. cbv zeta. replace (1 ^ 2 + 0 ^ 2) with 1 by ring. rewrite sqrt_1. cbn [apiRf apizf]. unfold scale4. change (c_Rf (PotAxi.Hernquist 1) 1 0 0 0) with (He_Rf 1 1 0). change (c_zf (PotAxi.Hernquist 1) 1 0 0 0) with (He_zf 1 1 0). unfold He_Rf, He_zf, He_r. replace (1 ^ 2 + 0 ^ 2) with 1 by ring. rewrite sqrt_1. lra.
  - intros r t Hr. pose (K := fun th => apirforce (Single 1 (PotAxi.Hernquist 1)) (r * sin th) (r * cos th) t).
    assert (E : forall th, K th = - 1 / (1 + r) ^ 2 / 2).
    { intros th. unfold K, apirforce. cbv zeta. fold (rad (r * sin th) (r * cos th)). cbn [apiRf apizf]. unfold scale4. change (c_Rf (PotAxi.Hernquist 1) (r * sin th) (r * cos th) 0 t) with (He_Rf 1 (r * sin th) (r * cos th)). change (c_zf (PotAxi.Hernquist 1) (r * sin th) (r * cos th) 0 t) with (He_zf 1 (r * sin th) (r * cos th)). unfold He_Rf, He_zf, He_r. fold (rad (r * sin th) (r * cos th)). rewrite (rad_sphere r th Hr).
      transitivity (- (Rsqr (sin th) + Rsqr (cos th)) / (1 + r) ^ 2 / 2); [unfold Rsqr; field; lra|]. rewrite sin2_cos2. field. lra. }
    apply (ex_RInt_ext (fun th => - 1 / (1 + r) ^ 2 / 2 * sin th)); [intros th _; rewrite <- (E th); reflexivity|]. apply (ex_RInt_continuous (V := R_CompleteNormedModule)). intros th _. apply (ex_derive_continuous (V := R_NormedModule)). auto_derive. exact I.
Qed.

(** ** The C functions *)
Definition csum (F : (nat -> RR) -> RR -> RR -> RR) (amp : RR) (cps : list (sigma_profile * hz_profile)) (R z : RR) : RR := fold_right (fun c y => F (fun i => nth i (pair_args amp c) 0) R z + y) 0 cps.
Definition passed (q : SDict * HDict) (c : sigma_profile * hz_profile) : Prop := c_sigma (fst q) = Some (fst c) /\ c_hz (snd q) = Some (snd c).
Section CPair.
  Variables (q : SDict * HDict) (c : sigma_profile * hz_profile) (amp R z : RR).
  Hypotheses (U : usable q) (P : passed q c) (HD : D2 R z).
  Let arg := arg_of amp c. Let p := mk q. Let r := rad R z.
  Let Hr : 0 < r := rad_pos R z HD.
  Lemma c_parts : (forall x, 0 < x -> cSigma arg x = 4 * PI * dp_amp p * amp * dp_S p x /\ cdSigma arg x = 4 * PI * dp_amp p * amp * dp_dS p x /\ cd2Sigma arg x = 4 * PI * dp_amp p * amp * dp_d2S p x) /\ (forall x, chz arg x = dp_h p x /\ cHz arg x = dp_H p x /\ cdHz arg x = dp_dH p x).
  Proof using U P.
    clear r Hr HD. destruct q as [sd hd]. destruct c as [cs ch]. destruct U as (K1 & N1 & K2 & N2). destruct P as [P1 P2]. cbn [fst snd] in *. unfold p, mk, arg. cbn [fst snd dp_amp dp_S dp_dS dp_d2S dp_h dp_H dp_dH]. split.
    - intros x Hx. pose proof (c_surface amp cs ch) as C. destruct (sigma_cases sd) as [(A & B & E) | [(A & A' & B & E) | (A & _)] ]; [| |contradiction]; cbv zeta in E; rewrite E in P1; injection P1 as <-; rewrite (sfun_some _ _ B); cbn [s_amp s_f s_d s_d2]; cbv zeta in C; apply C; try exact N1; lra.
    - intros x. pose proof (c_vertical amp cs ch) as C. destruct (hz_cases hd) as [(A & B & E) | [(A & A' & B & E) | (A & _)] ]; [| |contradiction]; rewrite E in P2; injection P2 as <-; rewrite (hfun_some _ _ B); cbn [h_f h_H h_d]; cbv zeta in C; apply C; exact N2.
  Qed.
  Lemma c_pair : cD_ev arg R z = amp * pr_ev p R z /\ cD_Rforce arg R z = amp * pr_Rf p R z /\ cD_zforce arg R z = amp * pr_zf p R z /\ cD_R2deriv arg R z = amp * pr_R2 p R z /\ cD_z2deriv arg R z = amp * pr_z2 p R z /\ cD_Rzderiv arg R z = amp * pr_Rz p R z /\ cD_dens arg R z = amp * pr_dn p R z.
  Proof using U P HD Hr.
    destruct c_parts as [A B]. destruct (A r Hr) as (A1 & A2 & A3). destruct (B z) as (B1 & B2 & B3). pose proof PI_RGT_0 as HPI.
    unfold cD_ev, cD_Rforce, cD_zforce, cD_R2deriv, cD_z2deriv, cD_Rzderiv, cD_dens, pr_ev, pr_Rf, pr_zf, pr_R2, pr_z2, pr_Rz, pr_dn. cbv zeta. replace (sqrt (R * R + z * z)) with r by (unfold r, rad; f_equal; ring). fold r. rewrite A1, A2, A3, B1, B2, B3. repeat split; rr; field; repeat split; lra.
  Qed.
End CPair.
(** C is used exactly when every profile was given by name. *)
Theorem C61_hasC : forall s h d, KD_parse s h = Ok d -> (KD_hasC d = true <-> (exists l, s = SDictsL l \/ exists x, s = SDicts1 x) /\ (exists l, h = HDictsL l \/ exists x, h = HDicts1 x)).
Proof.
  assert (PS : forall s r, parse_Sigma s = Ok r -> has (snd (fst r)) = true <-> (exists l, s = SDictsL l \/ exists x, s = SDicts1 x)).
  { intros s r Hr. split.
    - intros Hh. destruct s as [x|l|f|am ss ds d2s]; [exists []; right; exists x; reflexivity|exists l; left; reflexivity| |]; exfalso; cbn in Hr; [|destruct ss; [discriminate|]]; injection Hr as <-; discriminate.
    - intros (l & [->|(x & ->)]); cbn -[all_dicts] in Hr; [destruct l as [|y l]; [discriminate|]|]; match type of Hr with context[all_dicts ?g ?k] => destruct (all_dicts g k) end; try discriminate; injection Hr as <-; reflexivity. }
  assert (PH : forall n h r, parse_hz n h = Ok r -> has (snd r) = true <-> (exists l, h = HDictsL l \/ exists x, h = HDicts1 x)).
  { intros n h r Hr. split.
    - intros Hh. destruct h as [x|l|f|hh HH dH]; [exists []; right; exists x; reflexivity|exists l; left; reflexivity| |]; exfalso; unfold parse_hz in Hr;
        (destruct (negb _ && negb _); [discriminate|]); (destruct (Nat.eqb _ 1 && Nat.ltb 1 n)); cbn in Hr; repeat (match type of Hr with context[match ?k with _ => _ end] => destruct k end; try discriminate); injection Hr as <-; discriminate.
    - intros (l & [->|(x & ->)]); unfold parse_hz in Hr; (destruct (negb _ && negb _); [discriminate|]);
        (match type of Hr with (match ?k with [] => _ | _ => _ end) = _ => destruct k as [|y k'] end; [discriminate|]); match type of Hr with context[all_dicts ?g ?k] => destruct (all_dicts g k) end; try discriminate; injection Hr as <-; reflexivity. }
  intros s h d Hd. unfold KD_parse in Hd. destruct (parse_Sigma s) as [r|e] eqn:E1; [|discriminate]. pose proof (PS s r E1) as P1. destruct r as [[[[[am ss] ds] d2s] sd] n]. destruct (parse_hz n h) as [r|e] eqn:E2; [|discriminate]. pose proof (PH n h r E2) as P2.
  destruct r as [[[hh HH] dH] hd]. injection Hd as <-. unfold KD_hasC. cbn [l_Sdict l_hdict]. cbn [fst snd] in P1, P2. rewrite Bool.andb_true_iff, P1, P2. reflexivity.
Qed.
(** Each value of the object is amp times the expansion's plus the sum of what the C functions return for the pairs passed to them. *)
Theorem C61_C : forall pl, pl <> [] -> List.Forall usable pl -> exists d cps, KD_parse (SDictsL (List.map fst pl)) (HDictsL (List.map snd pl)) = Ok d /\ List.Forall2 passed pl cps /\
  forall me amp nonaxi R z phi t, R <> 0 \/ z <> 0 -> let p := Single amp (KD_class d me nonaxi) in
    (forall F, apiEv me = Some F -> exists out, apiEv p = Some out /\ out R z phi t = amp * F R z phi t + csum cD_ev amp cps R z) /\
    apiRf p v0 R z phi t = amp * apiRf me v0 R z phi t + csum cD_Rforce amp cps R z /\
    apizf p v0 R z phi t = amp * apizf me v0 R z phi t + csum cD_zforce amp cps R z /\
    (forall F, apiR2 me = Some F -> exists out, apiR2 p = Some out /\ out R z phi t = amp * F R z phi t + csum cD_R2deriv amp cps R z) /\
    (forall F, apiz2 me = Some F -> exists out, apiz2 p = Some out /\ out R z phi t = amp * F R z phi t + csum cD_z2deriv amp cps R z) /\
    (forall F, apiRz me = Some F -> exists out, apiRz p = Some out /\ out R z phi t = amp * F R z phi t + csum cD_Rzderiv amp cps R z) /\
    (forall F, apiDens me = Some F -> exists out, apiDens p = Some out /\ out R z phi t = amp * F R z phi t + csum cD_dens amp cps R z).
Proof.
  intros pl N H. assert (X : exists cps, List.Forall2 passed pl cps).
  { clear N. induction H as [|q l (K1 & _ & K2 & _) _ (cps & IH)]; [exists []; constructor|]. destruct (sigma_cases (fst q)) as [(_ & _ & E) | [(_ & _ & _ & E) | (A & _)] ]; [| |contradiction]; destruct (hz_cases (snd q)) as [(_ & _ & E') | [(_ & _ & _ & E') | (A & _)] ]; try contradiction; (eexists (( _, _) :: cps); constructor; [split; [exact E|exact E']|exact IH]). }
  destruct X as [cps X]. exists (lists_of pl), cps. split; [apply parse_own; assumption|]. split; [exact X|]. intros me amp b R z phi t HD p. pose proof (lists_matched pl) as M.
  assert (Sum : forall (F : (nat -> RR) -> RR -> RR -> RR) (f : disk_pair -> RR -> RR -> RR), (forall q c, usable q -> passed q c -> F (fun i => nth i (pair_args amp c) 0) R z = amp * f (mk q) R z) -> csum F amp cps R z = amp * psum (fun p => f p R z) (List.map mk pl)).
  { intros F f E. clear - H X E. induction X as [|q c pl cps Pq X IH]; simpl; [ring|]. inversion H as [|? ? Hq Hl]. rewrite IH by assumption. rewrite (E q c Hq Pq). ring. }
  split; [|split; [|split; [|split; [|split; [|split]]]]].
  - intros F E. eexists. split; [simpl; rewrite E; reflexivity|]. unfold scale4. rewrite (ev_sum _ _ M), (Sum cD_ev pr_ev); [ring|]. intros q c U P. apply (c_pair q c amp R z U P HD).
  - simpl. unfold scale4. rewrite (Rf_sum _ _ M), (Sum cD_Rforce pr_Rf); [unfold v0; ring|]. intros q c U P. apply (c_pair q c amp R z U P HD).
  - simpl. unfold scale4. rewrite (zf_sum _ _ M), (Sum cD_zforce pr_zf); [unfold v0; ring|]. intros q c U P. apply (c_pair q c amp R z U P HD).
  - intros F E. eexists. split; [unfold apiR2 at 1; simpl; rewrite E; reflexivity|]. unfold scale4. rewrite (R2_sum _ _ M), (Sum cD_R2deriv pr_R2); [ring|]. intros q c U P. apply (c_pair q c amp R z U P HD).
  - intros F E. eexists. split; [unfold apiz2 at 1; simpl; rewrite E; reflexivity|]. unfold scale4. rewrite (z2_sum _ _ M), (Sum cD_z2deriv pr_z2); [ring|]. intros q c U P. apply (c_pair q c amp R z U P HD).
  - intros F E. eexists. split; [unfold apiRz at 1; simpl; rewrite E; reflexivity|]. unfold scale4. rewrite (Rz_sum _ _ M), (Sum cD_Rzderiv pr_Rz); [ring|]. intros q c U P. apply (c_pair q c amp R z U P HD).
  - intros F E. eexists. split; [unfold apiDens at 1; simpl; unfold dens_single; simpl; rewrite E; reflexivity|]. unfold scale4. rewrite (dn_sum _ _ M), (Sum cD_dens pr_dn); [ring|]. intros q c U P. apply (c_pair q c amp R z U P HD).
Qed.
(** The planar C functions: the in-plane force and its derivative of a pair vanish. *)
Theorem C61_C_plane : forall q c amp R, usable q -> passed q c -> 0 < R -> let arg i := nth i (pair_args amp c) 0 in cD_PlanarRforce arg R = 0 /\ cD_PlanarR2deriv arg R = 0 /\ cD_PlanarRforce arg R = cD_Rforce arg R 0 /\ cD_PlanarR2deriv arg R = cD_R2deriv arg R 0.
Proof.
  intros q c amp R U P HR arg. destruct (c_parts q c amp U P) as [_ B]. destruct (B 0) as (_ & B2 & _). destruct (dict_pair q U) as (_ & [_ (H0 & _)] & _). rewrite H0 in B2.
  change (arg_of amp c) with arg in B2. unfold cD_PlanarRforce, cD_PlanarR2deriv, cD_Rforce, cD_R2deriv. cbv zeta. rewrite B2. repeat split; unfold Rdiv; ring.
Qed.

(** ** Lists of functions of different lengths are accepted and cut off differently by each method *)
Theorem C61_lengths_refuted : ~ forall amps S dS d2S h H dH d me, KD_parse (SFunL amps S dS d2S) (HFunL h H dH) = Ok d -> forces_are_gradient away_from_origin me -> isDiss me = false ->
  (forall i, (i < List.length dS)%nat -> surface_ok (nth i S (fun _ => 0)) (nth i dS (fun _ => 0)) (nth i d2S (fun _ => 0))) ->
  (forall i, (i < List.length H)%nat -> vertical_ok (nth i h (fun _ => 0)) (nth i H (fun _ => 0)) (nth i dH (fun _ => 0))) -> forces_are_gradient away_from_origin (Single 1 (KD_class d me false)).
Proof.
  intros F. pose (e := fun r : RR => exp (- r / 1)). pose (q := fun z : RR => z ^ 2 / 2).
  specialize (F [1; 1] [e; e] [(fun r : RR => - exp (- r / 1) / 1)] [(fun r : RR => exp (- r / 1) / 1 ^ 2)] [(fun _ => 1); (fun _ => 1)] [q; q] [(fun z => z); (fun z => z)] _ (Single 1 (PotAxi.Hernquist 1)) eq_refl).
  assert (C : Catalog off_origin (Single 1 (PotAxi.Hernquist 1))) by (apply cat_single, cat_Hernquist; lra).
  assert (V : vertical_ok (fun _ => 1) q (fun z => z)) .
  { split; [unfold q; field|split; [reflexivity|]]. intros z. split; [unfold q|]; (eapply is_derive_eq; [auto_derive; [exact I|reflexivity]|]); simpl; field. }
  destruct F as (Phi & Fp & E1 & _ & G); [apply (catalog_forces off_origin); exact C|reflexivity| | |].
  { intros [|i] Hi; [cbn; apply exp_surface; lra|simpl in Hi; lia]. }
  { intros [|[|i]] Hi; [exact V|exact V|simpl in Hi; lia]. }
  destruct (catalog_forces off_origin _ C) as (Phi0 & Fp0 & E0 & _ & G0). simpl in E0. injection E0 as <-. simpl in E1. injection E1 as <-.
  assert (D : away_from_origin 0 1 0 0) by (right; lra). assert (D1 : away_from_origin 1 1 0 0) by (left; lra).
  destruct (G 1 1 0 0 D1) as (GR & _ & _). destruct (G0 1 1 0 0 D1) as (GR0 & _ & _).
  set (f := fun x : RR => e (rad x 1) * q 1).
  assert (P : D2 1 1) by (left; lra). pose proof (rad_pos 1 1 P) as HP.
  assert (Df : is_derive f 1 (- exp (- rad 1 1 / 1) / 1 * (1 / rad 1 1) * q 1)).
  { unfold f. eapply is_derive_eq; [apply is_derive_ext with (f := fun x => q 1 * e (rad x 1)); [intros x; rr; ring|]; apply is_derive_Rscal; apply (d_compR e 1 1 (- exp (- rad 1 1 / 1) / 1) P); apply exp_surface; [lra|exact HP]|]. rr. ring. }
  assert (L : is_derive (fun x => scale4 1 (KD_ev {| l_amp := [1; 1]; l_s := [e; e]; l_ds := [(fun r : RR => - exp (- r / 1) / 1)]; l_d2s := [(fun r : RR => exp (- r / 1) / 1 ^ 2)]; l_h := [(fun _ => 1); (fun _ => 1)]; l_H := [q; q]; l_dH := [(fun z => z); (fun z => z)]; l_Sdict := None; l_hdict := None |} (scale4 1 (c_ev (PotAxi.Hernquist 1)))) x 1 0 0) 1
     (- (1 * c_Rf (PotAxi.Hernquist 1) 1 1 0 0) + 8 * PI * (- exp (- rad 1 1 / 1) / 1 * (1 / rad 1 1) * q 1))).
  { apply is_derive_ext with (f := fun x => scale4 1 (c_ev (PotAxi.Hernquist 1)) x 1 0 0 + 8 * PI * f x); [intros x; unfold KD_ev; cbn [l_amp l_s l_H combine fold_left]; unfold scale4, f; rr; ring|]. exact (is_derive_Rplus _ _ _ _ _ GR0 (is_derive_Rscal _ _ _ _ Df)). }
  pose proof (is_derive_unique _ _ _ L) as U1. pose proof (is_derive_unique _ _ _ GR) as U2. assert (U3 := eq_trans (eq_sym U1) U2). clear - U3 HP. revert U3. cbn [apiRf KD_class c_Rf]. unfold scale4, KD_Rf. cbn [l_amp l_ds l_H combine fold_left apiRf]. cbv zeta. unfold scale4, q.
  set (c := c_Rf (PotAxi.Hernquist 1) 1 1 0 0). set (E := exp (- rad 1 1 / 1)). assert (HE : 0 < E) by apply exp_pos. pose proof PI_RGT_0. intros U2.
  assert (Z : PI * (E * / rad 1 1) = 0) by (unfold Rdiv in U2; rewrite ?Rinv_1 in U2; lra). assert (0 < PI * (E * / rad 1 1)) by (apply Rmult_lt_0_compat; [lra|apply Rmult_lt_0_compat; [exact HE|apply Rinv_0_lt_compat; exact HP]]). lra.
Qed.

Print Assumptions C61_dictionaries.
Print Assumptions C61_one_vertical.
Print Assumptions C61_accepted.
Print Assumptions C61_functions.
Print Assumptions C61_functions_one_vertical.
Print Assumptions C61_derivatives.
Print Assumptions C61_input_density.
Print Assumptions C61_expanded_density.
Print Assumptions C61_plane.
Print Assumptions C61_azimuthal.
Print Assumptions C61_mixed_azimuthal_refuted.
Print Assumptions C61_mixed_azimuthal.
Print Assumptions C61_mass.
Print Assumptions C61_hasC.
Print Assumptions C61_C.
Print Assumptions C61_C_plane.
Print Assumptions C61_lengths_refuted.
