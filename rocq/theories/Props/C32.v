(** C32: configuration files are repaired without losing settings. *)
From Coq Require Import List Bool String Ascii.
From Verif.Model Require Import Config.
Import ListNotations.
Open Scope string_scope.

(** The settings galpy knows, with their defaults *)
Definition known (s k d : string) : Prop := exists t, In (s, t) default_configuration /\ In (k, d) t.
(** What the user's configuration says about a setting: its own section first, then DEFAULT (if the section exists) *)
Definition setting (c : config) (s k : string) : option string :=
  match lookup s (sections c) with
  | None => None
  | Some t => match lookup k t with Some v => Some v | None => lookup k (defaults c) end
  end.
(** Values without % are taken literally *)
Fixpoint has_percent (v : string) : bool := match v with EmptyString => false | String a v => orb (Ascii.eqb a "%") (has_percent v) end.
Definition literal_interpolation (before_get : config -> string -> string -> option string) (before_set : string -> bool) : Prop :=
  (forall c s v, has_percent v = false -> before_get c s v = Some v) /\ (forall v, has_percent v = false -> before_set v = true).
Definition plain (c : config) : Prop := forall s k d v, known s k d -> setting c s k = Some v -> has_percent v = false.

Lemma sequence_ok {A B} (f : A -> result B) (g : A -> B) l : (forall x, In x l -> f x = Ok (g x)) -> sequence (map f l) = Ok (map g l).
Proof. induction l; intros H; cbn; auto. rewrite (H a (or_introl eq_refl)). cbn. rewrite IHl by (intros; apply H; right; auto). reflexivity. Qed.
Section L.
  Variables (bg : config -> string -> string -> option string) (bs : string -> bool).
  Hypothesis HI : literal_interpolation bg bs.
  Definition chosen (c : option config) (s k d : string) : string :=
    match c with None => d | Some c => match setting c s k with Some v => v | None => d end end.
  Definition fixed (c : option config) : config :=
    mkConfig [] (map (fun st => (fst st, map (fun kv => (fst kv, chosen c (fst st) (fst kv) (snd kv))) (snd st))) default_configuration).
  Lemma default_plain s k d : known s k d -> has_percent d = false.
  Proof.
    intros (t & H & K). unfold default_configuration in H. cbn in H.
    repeat (destruct H as [H|H]; [injection H as <- <-; cbn in K; repeat (destruct K as [K|K]; [injection K as <- <-; reflexivity|]); destruct K|]). destruct H.
  Qed.
  Lemma fix_is c : (forall c', c = Some c' -> plain c') -> fix_config bg bs c = Ok (fixed c).
  Proof.
    intros HP. unfold fix_config. rewrite (sequence_ok _ (fun st => (fst st, map (fun kv => (fst kv, chosen c (fst st) (fst kv) (snd kv))) (snd st)))); [reflexivity|].
    intros [s t] Hs. cbn [fst snd]. unfold fix_section. rewrite (sequence_ok _ (fun kv => (fst kv, chosen c s (fst kv) (snd kv)))); [reflexivity|].
    intros [k d] Hk. cbn [fst snd]. assert (K : known s k d) by (exists t; auto). unfold fix_value, chosen.
    destruct c as [c|].
    - unfold has_option, has_section, get, raw. specialize (HP c eq_refl). unfold plain, setting in HP. unfold setting. specialize (HP s k d).
      destruct (lookup s (sections c)) as [t'|] eqn:E; cbn.
      + destruct (match lookup k t' with Some v => Some v | None => lookup k (defaults c) end) as [v|]; cbn.
        * rewrite (proj1 HI) by (apply HP; auto). cbn. rewrite (proj2 HI) by (apply HP; auto). reflexivity.
        * rewrite (proj2 HI) by (apply (default_plain s k); auto). reflexivity.
      + rewrite (proj2 HI) by (apply (default_plain s k); auto). reflexivity.
    - cbn. rewrite (proj2 HI) by (apply (default_plain s k); auto). reflexivity.
  Qed.
  Lemma fixed_setting c s k d : known s k d -> setting (fixed c) s k = Some (chosen c s k d).
  Proof.
    intros (t & H & K). unfold default_configuration in H. cbn in H.
    repeat (destruct H as [H|H]; [injection H as <- <-; cbn in K; repeat (destruct K as [K|K]; [injection K as <- <-; reflexivity|]); destruct K|]). destruct H.
  Qed.
  Lemma check_spec c : check_config c = true <-> forall s k d, known s k d -> setting c s k <> None.
  Proof.
    unfold check_config. rewrite forallb_forall. split.
    - intros H s k d (t & Hs & Hk). specialize (H (s, t) Hs). cbn in H. apply andb_true_iff in H. destruct H as [_ H]. rewrite forallb_forall in H.
      specialize (H (k, d) Hk). cbn in H. unfold has_option, raw in H. unfold setting. intros X. rewrite X in H. discriminate.
    - intros H [s t] Hs. cbn. assert (E : forall kv, In kv t -> has_option c s (fst kv) = true).
      { intros [k d] Hk. specialize (H s k d (ex_intro _ t (conj Hs Hk))). unfold has_option, raw. unfold setting in H. cbn [fst].
        destruct (lookup s (sections c)) as [t'|]; [|congruence]. destruct (match lookup k t' with Some v => Some v | None => lookup k (defaults c) end); [reflexivity|congruence]. }
      apply andb_true_iff. split; [|apply forallb_forall; exact E].
      assert (N : t <> []). { intros ->. cbn in Hs. intuition discriminate. }
      destruct t as [|kv t]; [congruence|]. specialize (E kv (or_introl eq_refl)). unfold has_option, raw in E. unfold has_section. destruct (lookup s (sections c)); [auto|discriminate].
  Qed.
  Lemma fixed_check c : check_config (fixed c) = true.
  Proof. apply check_spec. intros s k d K. rewrite (fixed_setting c s k d K). discriminate. Qed.
  Lemma fixed_plain c : (forall c', c = Some c' -> plain c') -> plain (fixed c).
  Proof.
    intros HP s k d v K E. rewrite (fixed_setting c s k d K) in E. injection E as <-. unfold chosen. destruct c as [c|]; [|apply (default_plain s k); auto].
    destruct (setting c s k) as [v|] eqn:S; [apply (HP c eq_refl s k d); auto|apply (default_plain s k); auto].
  Qed.
  Lemma fixed_fixed c : fixed (Some (fixed c)) = fixed c.
  Proof.
    assert (H : forall g h, (forall s k d, known s k d -> g s k d = h s k d :> string) ->
      map (fun st : string * table => (fst st, map (fun kv => (fst kv, g (fst st) (fst kv) (snd kv))) (snd st))) default_configuration =
      map (fun st : string * table => (fst st, map (fun kv => (fst kv, h (fst st) (fst kv) (snd kv))) (snd st))) default_configuration).
    { intros g h E. apply map_ext_in. intros [s t] Hs. cbn [fst snd]. f_equal. apply map_ext_in. intros [k d] Hk. cbn [fst snd]. rewrite (E s k d); auto. exists t. auto. }
    apply (f_equal (mkConfig [])). apply (H (chosen (Some (fixed c))) (chosen c)). intros s k d K. unfold chosen at 1. rewrite (fixed_setting c s k d K). reflexivity.
  Qed.
End L.

(** fix_config: passes the check, keeps every known setting the user has and supplies the default for the others. *)
Theorem C32_fix_config : forall before_get before_set c, literal_interpolation before_get before_set -> (forall c', c = Some c' -> plain c') ->
  exists f, fix_config before_get before_set c = Ok f /\ check_config f = true /\
    forall s k d, known s k d -> setting f s k = match c with Some c => match setting c s k with Some v => Some v | None => Some d end | None => Some d end.
Proof.
  intros bg bs c HI HP. exists (fixed c). split; [apply fix_is; auto|]. split; [apply fixed_check|]. intros s k d K. rewrite (fixed_setting c s k d K).
  unfold chosen. destruct c as [c|]; auto. destruct (setting c s k); auto.
Qed.
Print Assumptions C32_fix_config.
(** check_config says exactly whether all known settings are there. *)
Theorem C32_check_config : forall c, check_config c = true <-> forall s k d, known s k d -> setting c s k <> None.
Proof. intros c. apply check_spec. Qed.
Print Assumptions C32_check_config.
Theorem C32_fix_idempotent : forall before_get before_set c f, literal_interpolation before_get before_set -> (forall c', c = Some c' -> plain c') ->
  fix_config before_get before_set c = Ok f -> fix_config before_get before_set (Some f) = Ok f.
Proof.
  intros bg bs c f HI HP E. rewrite (fix_is bg bs HI c HP) in E. injection E as <-. rewrite (fix_is bg bs HI (Some (fixed c))).
  - rewrite fixed_fixed. reflexivity.
  - intros c' H. injection H as <-. apply fixed_plain. auto.
Qed.
Print Assumptions C32_fix_idempotent.

(** Importing galpy: which file is used (current directory first, then home, then defaults), what the configuration then says, and that
    complete files are left alone; when the file could be written, importing again changes nothing. *)
Definition user (cwd home : option config) : option config := match cwd with Some c => Some c | None => home end.
Theorem C32_import : forall before_get before_set w cwd home, literal_interpolation before_get before_set ->
  (forall c, user cwd home = Some c -> plain c) ->
  exists c cwd' home', load before_get before_set w cwd home = Ok (c, (cwd', home')) /\
    (forall s k d, known s k d -> setting c s k = match user cwd home with Some u => match setting u s k with Some v => Some v | None => Some d end | None => Some d end) /\
    (forall u, user cwd home = Some u -> check_config u = true -> c = u /\ cwd' = cwd /\ home' = home) /\
    (cwd <> None -> home' = home) /\ (cwd = None -> cwd' = None) /\
    (w = Written -> load before_get before_set w cwd' home' = Ok (c, (cwd', home'))).
Proof.
  intros bg bs w cwd home HI HP.
  assert (L : forall u cwd home, user cwd home = Some u -> check_config u = true -> load bg bs w cwd home = Ok (u, (cwd, home))).
  { intros u cw ho U C. unfold load, user in *. destruct cw as [c|]; [injection U as <-|destruct ho as [c|]; [injection U as <-|discriminate]]; cbn [bind]; rewrite C; reflexivity. }
  destruct (user cwd home) as [u|] eqn:U.
  - destruct (check_config u) eqn:C.
    + exists u, cwd, home. split; [apply L; auto|]. split; [|split; [|split; [|split]]]; auto.
      * intros s k d K. destruct (setting u s k) eqn:S; auto. rewrite check_spec in C. elim (C s k d K S).
      * intros u' E _. injection E as <-. auto.
    + assert (FX : fix_config bg bs (Some u) = Ok (fixed (Some u))) by (apply fix_is; auto; intros c' E; injection E as <-; auto).
      assert (HS : forall s k d, known s k d -> setting (fixed (Some u)) s k = match setting u s k with Some v => Some v | None => Some d end).
      { intros s k d K. rewrite (fixed_setting (Some u) s k d K). unfold chosen. destruct (setting u s k); auto. }
      destruct cwd as [c|].
      * injection U as ->. exists (fixed (Some u)), (write_config w (Some u) (fixed (Some u))), home. split; [unfold load; cbn [bind]; rewrite C, FX; reflexivity|].
        split; [exact HS|]. split; [congruence|]. split; [auto|]. split; [congruence|]. intros ->. apply (L (fixed (Some u))); [reflexivity|apply fixed_check].
      * cbn in U. subst home. exists (fixed (Some u)), None, (write_config w (Some u) (fixed (Some u))). split; [unfold load; cbn [bind]; rewrite C, FX; reflexivity|].
        split; [exact HS|]. split; [congruence|]. split; [congruence|]. split; [auto|]. intros ->. apply (L (fixed (Some u))); [reflexivity|apply fixed_check].
  - destruct cwd; [discriminate|]. cbn in U. subst home. assert (FX : fix_config bg bs None = Ok (fixed None)) by (apply fix_is; auto; discriminate).
    exists (fixed None), None, (write_config w None (fixed None)). split; [unfold load; rewrite FX; cbn [bind]; rewrite fixed_check; reflexivity|].
    split; [intros s k d K; apply (fixed_setting None s k d K)|]. split; [discriminate|]. split; [congruence|]. split; [auto|].
    intros ->. apply (L (fixed None)); [reflexivity|apply fixed_check].
Qed.
Print Assumptions C32_import.

(** set_ro and set_vo change that setting and no other. *)
Lemma lookup_put {A} k (v : A) l k' : lookup k' (put k v l) = if String.eqb k' k then Some v else lookup k' l.
Proof.
  induction l as [|[a b] l IH]; cbn; [reflexivity|]. destruct (String.eqb_spec k a) as [->|N]; cbn.
  - destruct (String.eqb_spec k' a); auto.
  - destruct (String.eqb_spec k' a) as [->|N']; [|exact IH]. destruct (String.eqb_spec a k); [congruence|auto].
Qed.
Theorem C32_set_ro_vo : forall c v s k, check_config c = true ->
  setting (set_ro c v) s k = (if (String.eqb s "normalization" && String.eqb k "ro")%bool then Some v else setting c s k) /\
  setting (set_vo c v) s k = (if (String.eqb s "normalization" && String.eqb k "vo")%bool then Some v else setting c s k).
Proof.
  intros c v s k H. assert (N : lookup "normalization" (sections c) <> None).
  { rewrite check_spec in H. intros X. apply (H "normalization" "ro" "8."); [exists [("ro", "8."); ("vo", "220.")]; cbn; auto|]. unfold setting. rewrite X. auto. }
  unfold set_ro, set_vo, set_option, setting. destruct (lookup "normalization" (sections c)) as [t|] eqn:E; [|congruence]. cbn [sections defaults].
  rewrite !lookup_put. destruct (String.eqb_spec s "normalization") as [->|]; cbn [andb].
  - rewrite !lookup_put, E. split; [destruct (String.eqb k "ro")|destruct (String.eqb k "vo")]; auto.
  - auto.
Qed.
Print Assumptions C32_set_ro_vo.

(** Recording the date of the version check rewrites the file with that setting changed and nothing else. *)
Theorem C32_record_check : forall c today file file' s k, check_config c = true -> record_check Written file c today = Some file' ->
  setting file' s k = (if (String.eqb s "version-check" && String.eqb k "last-non-interactive-check")%bool then Some today else setting c s k).
Proof.
  intros c v file file' s k H E. cbn in E. injection E as <-. assert (N : lookup "version-check" (sections c) <> None).
  { rewrite check_spec in H. intros X. apply (H "version-check" "do-check" "True"); [exists (snd (nth 4 default_configuration ("", []))); cbn; auto 10|]. unfold setting. rewrite X. auto. }
  unfold set_option, setting. destruct (lookup "version-check" (sections c)) as [t|] eqn:E; [|congruence]. cbn [sections defaults].
  rewrite !lookup_put. destruct (String.eqb_spec s "version-check") as [->|]; cbn [andb]; auto.
  rewrite !lookup_put, E. destruct (String.eqb k "last-non-interactive-check"); auto.
Qed.
Print Assumptions C32_record_check.

(** ** What does not hold *)
(** The file is emptied before it is rewritten: a repair (or the recording of the version check) that fails half-way loses the user's
    settings; the next import runs with the defaults. *)
Theorem C32_failed_write_refuted : forall before_get before_set, literal_interpolation before_get before_set ->
  exists u c home' c', plain u /\ setting u "normalization" "ro" = Some "8.2" /\
    load before_get before_set FailedAfterOpen None (Some u) = Ok (c, (None, home')) /\ setting c "normalization" "ro" = Some "8.2" /\
    load before_get before_set Written None home' = Ok (c', (None, Some c')) /\ setting c' "normalization" "ro" = Some "8.".
Proof.
  intros bg bs HI. set (u := mkConfig [] [("normalization", [("ro", "8.2")])]). set (e := mkConfig [] []). exists u, (fixed (Some u)), (Some e), (fixed (Some e)).
  assert (PU : plain u).
  { intros s k d v (t & H & K) S. unfold default_configuration in H. cbn in H.
    repeat (destruct H as [H|H]; [injection H as <- <-; cbn in K; repeat (destruct K as [K|K]; [injection K as <- <-; cbn in S; try discriminate; injection S as <-; reflexivity|]); destruct K|]). destruct H. }
  assert (PE : plain e) by (intros s k d v _ S; discriminate).
  split; [exact PU|]. split; [reflexivity|]. split; [|split; [reflexivity|split; [|reflexivity]]].
  - unfold load. cbn [bind]. change (check_config u) with false. cbv iota. rewrite (fix_is bg bs HI) by (intros c' E; injection E as <-; auto). reflexivity.
  - unfold load. cbn [bind]. change (check_config e) with false. cbv iota. rewrite (fix_is bg bs HI) by (intros c' E; injection E as <-; auto). reflexivity.
Qed.
Print Assumptions C32_failed_write_refuted.
(** Repairing drops settings galpy does not know (the file is rewritten without them). *)
Theorem C32_unknown_settings_refuted : forall before_get before_set, literal_interpolation before_get before_set ->
  exists c c' cwd' home', load before_get before_set Written None (Some c) = Ok (c', (cwd', home')) /\
    setting c "mine" "answer" = Some "42" /\ setting c' "mine" "answer" = None /\ home' = Some c'.
Proof.
  intros bg bs HI. set (c := mkConfig [] [("mine", [("answer", "42")])]). exists c, (fixed (Some c)), None, (Some (fixed (Some c))). split; [|cbn; auto].
  unfold load. cbn [bind]. change (check_config c) with false. cbv iota. rewrite (fix_is bg bs HI); [reflexivity|]. intros c' E. injection E as <-.
  intros s k d v (t & H & K) S. unfold default_configuration in H. cbn in H. repeat (destruct H as [H|H]; [injection H as <- <-; discriminate|]). destruct H.
Qed.
Print Assumptions C32_unknown_settings_refuted.
(** Values with an escaped %: the repair reads the unescaped value and cannot store it, so that importing galpy fails.  With the part of
    BasicInterpolation that concerns %% only: *)
Fixpoint unescape (v : string) : option string :=
  match v with
  | EmptyString => Some EmptyString
  | String "%" (String "%" v) => option_map (String "%") (unescape v)
  | String "%" _ => None
  | String a v => option_map (String a) (unescape v)
  end.
Definition storable (v : string) : bool := match unescape v with Some _ => true | None => false end.
Theorem C32_percent_refuted : literal_interpolation (fun _ _ => unescape) storable /\
  exists c, raw c "normalization" "ro" = Some "8%%" /\ storable "8%%" = true /\ load (fun _ _ => unescape) storable Written None (Some c) = ValueError.
Proof.
  split.
  - assert (U : forall v, has_percent v = false -> unescape v = Some v).
    { induction v as [|a v IH]; cbn; auto. intros H. apply orb_false_iff in H. destruct H as [H1 H2]. rewrite (IH H2).
      destruct a as [[] [] [] [] [] [] [] []]; cbn; try reflexivity; discriminate. }
    split; intros; [auto|]. unfold storable. rewrite U; auto.
  - exists (mkConfig [] [("normalization", [("ro", "8%%")])]). split; [reflexivity|]. split; reflexivity.
Qed.
Print Assumptions C32_percent_refuted.

(** Non-vacuity: an incomplete file with one setting and one in DEFAULT *)
Example C32_nonvacuous : exists c, plain c /\ check_config c = false /\ setting c "normalization" "ro" = Some "8.2" /\
  setting c "normalization" "vo" = Some "229." /\ exists f, fix_config (fun _ _ => unescape) storable (Some c) = Ok f /\
  setting f "normalization" "ro" = Some "8.2" /\ setting f "normalization" "vo" = Some "229." /\ setting f "warnings" "verbose" = Some "False".
Proof.
  exists (mkConfig [("vo", "229.")] [("normalization", [("ro", "8.2")])]). split.
  - intros s k d v (t & H & K) S. unfold default_configuration in H. cbn in H.
    repeat (destruct H as [H|H]; [injection H as <- <-; cbn in K; repeat (destruct K as [K|K]; [injection K as <- <-; cbn in S; try discriminate; injection S as <-; reflexivity|]); destruct K|]). destruct H.
  - split; [reflexivity|]. split; [reflexivity|]. split; [reflexivity|]. eexists. split; [reflexivity|]. split; [reflexivity|]. split; reflexivity.
Qed.
