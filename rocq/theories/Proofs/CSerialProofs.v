(** C35: the C parser undoes the Python serialisation *)
From Coq Require Import Reals String List Bool ZArith Lia Lra.
From Verif Require Import Model.CSerial Model.CView Spec.CSerialSpec.
Import ListNotations.
Open Scope string_scope. Open Scope list_scope. Open Scope R_scope.

Lemma to_int_INR n : to_int (INR n) = n.
Proof. unfold to_int. rewrite Int_part_INR. apply Nat2Z.id. Qed.
Lemma to_int_eq x n : x = INR n -> to_int x = n.
Proof. intros ->. apply to_int_INR. Qed.
Lemma to_int_bool b : to_int (of_bool b) = Nat.b2n b.
Proof. apply to_int_eq. now destruct b. Qed.
Lemma take_len {A} n (a b : list A) : length a = n -> take n (a ++ b) = Some (a, b).
Proof.
  intros H. unfold take. rewrite app_length. replace (n <=? length a + length b)%nat with true by (symmetry; apply Nat.leb_le; lia).
  subst n. rewrite firstn_app, firstn_all, Nat.sub_diag, skipn_app, skipn_all, Nat.sub_diag. cbn. now rewrite app_nil_r.
Qed.
Lemma nth_mid {A} n (a b : list A) x : length a = n -> nth_error (a ++ x :: b) n = Some x.
Proof. intros <-. rewrite nth_error_app2 by lia. now rewrite Nat.sub_diag. Qed.
Lemma nth_app {A} n m (a b : list A) (d : A) : length a = n -> nth (n + m) (a ++ b) d = nth m b d.
Proof. intros <-. now rewrite app_nth2_plus. Qed.
Lemma slice_app {A} n m k (a b c : list A) : n = (length a + m)%nat -> firstn k (skipn n (a ++ b)) = firstn k (skipn m b).
Proof. intros ->. rewrite skipn_app. rewrite skipn_all2 by lia. cbn. now replace (length a + m - length a)%nat with m by lia. Qed.
Lemma slice {A} n k (a b c : list A) : length a = n -> length b = k -> firstn k (skipn n (a ++ b ++ c)) = b.
Proof.
  intros <- <-. rewrite skipn_app, skipn_all, Nat.sub_diag. cbn. rewrite firstn_app, firstn_all, Nat.sub_diag. cbn. apply app_nil_r.
Qed.

(** ** One entry *)
Section Gen.
  Variable nargs_of : Z -> list R -> option nat.
  Variable moving : list R -> option (list (list R) * list R).
  Variable planar : bool.
  Notation parse := (parse_gen nargs_of moving).
  Notation view := (c_view planar).
  Definition agrees (ty : Z) : Prop := forall pa, nargs_of ty pa = c_nargs ty pa.
Definition reads (s : serial) (cs : list carg) : Prop :=
  (n_pot s <= length (pot_type s))%nat /\
  forall fuel n2 types pa tfs, (length (pot_type s) <= fuel)%nat ->
    parse fuel (n_pot s + n2) (pot_type s ++ types) (pot_args s ++ pa) (pot_tfuncs s ++ tfs) =
    (let? (rest, types, pa, tfs) := parse (fuel - n_pot s) n2 types pa tfs in Some (cs ++ rest, types, pa, tfs)).
Lemma parse_S fuel npot ty types pa tfs :
  parse (S fuel) (S npot) (ty :: types) pa tfs =
  (let? nargs := nargs_of ty pa in
   let? ntf := c_ntfuncs ty pa in
   let? (arr1, pa) := c_switch_reads ty pa in
   let? (wrapped, types, pa, tfs) :=
     (if (ty <? 0)%Z then let? (h, pa) := take 1 pa in parse fuel (to_int (nth 0 h 0)) types pa tfs else Some ([], types, pa, tfs)) in
   let? (arr2, pa) := (if (ty =? -6)%Z then moving pa else Some ([], pa)) in
   let? (arr3, pa) := (if ((ty =? -7) || (ty =? -11))%Z%bool then c_chandra pa else Some ([], pa)) in
   let? (arr4, pa) := (if (ty =? 45)%Z then c_frame pa else Some ([], pa)) in
   let? (arr5, bs, pa) := (if (ty =? 44)%Z then c_multipole pa else Some ([], [], pa)) in
   let? (args, pa) := take nargs pa in
   let? (tf, tfs) := take ntf tfs in
   let? (rest, types, pa, tfs) := parse fuel npot types pa tfs in
   Some (CArg ty (arr1 ++ arr2 ++ arr3 ++ arr4 ++ arr5) bs args tf wrapped :: rest, types, pa, tfs)).
Proof. reflexivity. Qed.
Lemma reads_nil : reads null_ser [].
Proof.
  split; [cbn; lia|]. intros fuel n2 types pa tfs _. cbn [n_pot pot_type pot_args pot_tfuncs null_ser app Nat.add]. rewrite Nat.sub_0_r.
  destruct (parse fuel n2 types pa tfs) as [[[[? ?] ?] ?]|]; reflexivity.
Qed.
Lemma reads_app s1 c1 s2 c2 : reads s1 c1 -> reads s2 c2 -> reads (app_ser s1 s2) (c1 ++ c2).
Proof.
  intros [L1 H1] [L2 H2]. unfold app_ser. split; [cbn; rewrite app_length; lia|]. cbn [n_pot pot_type pot_args pot_tfuncs]. intros fuel n2 types pa tfs L. rewrite app_length in L.
  rewrite <- Nat.add_assoc, <- !app_assoc, H1 by lia. rewrite H2 by lia. rewrite Nat.sub_add_distr.
  destruct (parse (fuel - n_pot s1 - n_pot s2) n2 types pa tfs) as [[[[? ?] ?] ?]|]; cbn; [now rewrite <- app_assoc | reflexivity].
Qed.
Lemma reads_leaf0 ty args tf na arr1 mid arr4 mid4 arr5 bs fargs :
  (0 <= ty)%Z -> (forall pa, nargs_of ty (args ++ pa) = Some na) -> (forall pa, c_ntfuncs ty (args ++ pa) = Some (length tf)) ->
  (forall pa, c_switch_reads ty (args ++ pa) = Some (arr1, mid ++ pa)) ->
  (forall pa, (if (ty =? 45)%Z then c_frame (mid ++ pa) else Some ([], mid ++ pa)) = Some (arr4, mid4 ++ pa)) ->
  (forall pa, (if (ty =? 44)%Z then c_multipole (mid4 ++ pa) else Some ([], [], mid4 ++ pa)) = Some (arr5, bs, fargs ++ pa)) ->
  length fargs = na -> reads (mkSer 1 [ty] args tf) [CArg ty (arr1 ++ arr4 ++ arr5) bs fargs tf []].
Proof.
  intros Ht Hn Hf Hs H4 H5 Hl. split; [cbn; lia|]. cbn [n_pot pot_type pot_args pot_tfuncs]. intros fuel n2 types pa tfs L. destruct fuel as [|fuel]; [cbn in L; lia|].
  change (1 + n2)%nat with (S n2). change ([ty] ++ types) with (ty :: types). rewrite parse_S, Hn, Hf, Hs. cbn [obind].
  replace (ty <? 0)%Z with false by (symmetry; apply Z.ltb_ge; lia). cbn [obind].
  replace (ty =? -6)%Z with false by (symmetry; apply Z.eqb_neq; lia). replace (ty =? -7)%Z with false by (symmetry; apply Z.eqb_neq; lia).
  replace (ty =? -11)%Z with false by (symmetry; apply Z.eqb_neq; lia). cbn [obind orb]. rewrite H4. cbn [obind]. rewrite H5. cbn [obind].
  rewrite (take_len na fargs pa Hl). cbn [obind]. rewrite (take_len (length tf) tf tfs eq_refl). cbn [obind]. replace (S fuel - 1)%nat with fuel by lia.
  destruct (parse fuel n2 types pa tfs) as [[[[? ?] ?] ?]|]; reflexivity.
Qed.
Lemma reads_simple0 ty args :
  (0 <= ty)%Z -> (ty =? 45)%Z = false -> (ty =? 44)%Z = false -> (forall pa, c_switch_reads ty pa = Some ([], pa)) -> (forall pa, c_ntfuncs ty pa = Some 0%nat) ->
  (forall pa, nargs_of ty (args ++ pa) = Some (length args)) -> reads (mkSer 1 [ty] args []) [CArg ty [] [] args [] []].
Proof.
  intros Ht H45 H44 Hs Hf Hn. apply (reads_leaf0 ty args [] (length args) [] args [] args [] [] args); auto; intros; rewrite ?H45, ?H44; auto.
Qed.
Lemma reads_leaf ty args tf na arr1 mid arr4 mid4 arr5 bs fargs :
  (0 <= ty)%Z -> agrees ty -> (forall pa, c_nargs ty (args ++ pa) = Some na) -> (forall pa, c_ntfuncs ty (args ++ pa) = Some (length tf)) ->
  (forall pa, c_switch_reads ty (args ++ pa) = Some (arr1, mid ++ pa)) ->
  (forall pa, (if (ty =? 45)%Z then c_frame (mid ++ pa) else Some ([], mid ++ pa)) = Some (arr4, mid4 ++ pa)) ->
  (forall pa, (if (ty =? 44)%Z then c_multipole (mid4 ++ pa) else Some ([], [], mid4 ++ pa)) = Some (arr5, bs, fargs ++ pa)) ->
  length fargs = na -> reads (mkSer 1 [ty] args tf) [CArg ty (arr1 ++ arr4 ++ arr5) bs fargs tf []].
Proof. intros Ht Ag Hn. apply reads_leaf0; auto. intros pa. now rewrite Ag. Qed.
Lemma reads_simple ty args :
  (0 <= ty)%Z -> agrees ty -> (ty =? 45)%Z = false -> (ty =? 44)%Z = false -> (forall pa, c_switch_reads ty pa = Some ([], pa)) -> (forall pa, c_ntfuncs ty pa = Some 0%nat) ->
  (forall pa, c_nargs ty (args ++ pa) = Some (length args)) -> reads (mkSer 1 [ty] args []) [CArg ty [] [] args [] []].
Proof. intros Ht Ag H45 H44 Hs Hf Hn. apply reads_simple0; auto. intros pa. now rewrite Ag. Qed.
Lemma reads_wrap ty s cs after tf arr fargs na :
  (ty < 0)%Z -> (forall pa, nargs_of ty pa = Some na) -> (forall pa, c_ntfuncs ty pa = Some (length tf)) -> (forall pa, c_switch_reads ty pa = Some ([], pa)) ->
  (forall pa, (let? (arr2, pa) := (if (ty =? -6)%Z then moving (after ++ pa) else Some ([], after ++ pa)) in
               let? (arr3, pa) := (if ((ty =? -7) || (ty =? -11))%Z%bool then c_chandra pa else Some ([], pa)) in Some (arr2 ++ arr3, pa)) = Some (arr, fargs ++ pa)) ->
  length fargs = na -> reads s cs ->
  reads (mkSer 1 (ty :: pot_type s) (of_nat (n_pot s) :: pot_args s ++ after) (pot_tfuncs s ++ tf)) [CArg ty arr [] fargs tf cs].
Proof.
  intros Ht Hn Hf Hs Ha Hl [Ls Hr]. split; [cbn; lia|]. cbn [n_pot pot_type pot_args pot_tfuncs]. intros fuel n2 types pa tfs L. destruct fuel as [|fuel]; [cbn in L; lia|]. cbn [length] in L.
  change (1 + n2)%nat with (S n2). cbn [app]. rewrite parse_S, Hn, Hf, Hs. cbn [obind].
  replace (ty <? 0)%Z with true by (symmetry; apply Z.ltb_lt; lia). change (take 1 (of_nat (n_pot s) :: (pot_args s ++ after) ++ pa)) with (Some ([of_nat (n_pot s)], (pot_args s ++ after) ++ pa)). cbn [obind nth].
  unfold of_nat. rewrite to_int_INR. rewrite <- !app_assoc. rewrite <- (Nat.add_0_r (n_pot s)) at 1. rewrite Hr by lia. 
  assert (E : parse (fuel - n_pot s) 0 types (after ++ pa) (tf ++ tfs) = Some ([], types, after ++ pa, tf ++ tfs)) by (destruct (fuel - n_pot s)%nat; reflexivity).
  rewrite E. cbn [obind]. rewrite app_nil_r.
  specialize (Ha pa). destruct (if (ty =? -6)%Z then moving (after ++ pa) else Some ([], after ++ pa)) as [[arr2 pa2]|]; [|discriminate Ha]. cbn [obind] in Ha |- *.
  destruct (if ((ty =? -7) || (ty =? -11))%Z%bool then c_chandra pa2 else Some ([], pa2)) as [[arr3 pa3]|]; [|discriminate Ha]. cbn [obind] in Ha |- *. injection Ha as <- ->.
  replace (ty =? 45)%Z with false by (symmetry; apply Z.eqb_neq; lia). replace (ty =? 44)%Z with false by (symmetry; apply Z.eqb_neq; lia). cbn [obind].
  rewrite (take_len na fargs pa Hl). cbn [obind]. rewrite (take_len (length tf) tf tfs eq_refl). cbn [obind]. replace (S fuel - 1)%nat with fuel by lia.
  destruct (parse fuel n2 types pa tfs) as [[[[? ?] ?] ?]|]; [|reflexivity]. cbn. now rewrite app_nil_r.
Qed.

(** ** The special potentials *)
Ltac norm := rewrite <- ?app_assoc; cbn [app].
Lemma reads_dexp amp x alpha beta x0 x1 w0 w1 : agrees 11 -> length x0 = length x1 -> length w0 = length x1 -> length w1 = length x1 ->
  let args := [amp; x; alpha; beta; of_nat (length x1)] ++ x0 ++ x1 ++ w0 ++ w1 in reads (mkSer 1 [11%Z] args []) [CArg 11 [] [] args [] []].
Proof.
  intros Ag L0 L1 L2. cbv zeta. apply reads_simple; try reflexivity; [lia | exact Ag |]. intros pa. cbn [app c_nargs nth_error obind]. f_equal. apply to_int_eq.
  cbn [length]. rewrite !app_length, L0, L1, L2. unfold of_nat. rewrite !S_INR, !plus_INR. lra.
Qed.
Lemma view_dexp amp x alpha beta x0 x1 w0 w1 : length x0 = length x1 -> length w0 = length x1 -> length w1 = length x1 ->
  view (CArg 11 [] [] ([amp; x; alpha; beta; of_nat (length x1)] ++ x0 ++ x1 ++ w0 ++ w1) [] []) =
  Seen "DoubleExponentialDisk" [("amp", [amp]); ("-4 pi alpha amp", [x]); ("alpha", [alpha]); ("beta", [beta]); ("j0 xs", x0); ("j1 xs", x1); ("j0 weights", w0); ("j1 weights", w1)]%string [] [] [].
Proof.
  intros L0 L1 L2. set (h := [amp; x; alpha; beta; of_nat (length x1)]). cbn [c_view map]. change (nth 4 (h ++ x0 ++ x1 ++ w0 ++ w1) 0) with (of_nat (length x1)). replace (to_int (of_nat (length x1))) with (length x1) by (symmetry; apply to_int_INR).
  change (nth 0 (h ++ x0 ++ x1 ++ w0 ++ w1) 0) with amp. change (nth 1 (h ++ x0 ++ x1 ++ w0 ++ w1) 0) with x. change (nth 2 (h ++ x0 ++ x1 ++ w0 ++ w1) 0) with alpha. change (nth 3 (h ++ x0 ++ x1 ++ w0 ++ w1) 0) with beta.
  rewrite (slice 5 (length x1) h x0) by auto. 
  rewrite (app_assoc h), (slice (5 + length x1) (length x1) (h ++ x0) x1) by (rewrite ?app_length; cbn; lia).
  rewrite (app_assoc _ x1), (slice (5 + 2 * length x1) (length x1) ((h ++ x0) ++ x1) w0) by (rewrite ?app_length; cbn; lia).
  rewrite (app_assoc _ w0), <- (app_nil_r w1) at 1. rewrite (slice (5 + 3 * length x1) (length x1) (((h ++ x0) ++ x1) ++ w0) w1) by (rewrite ?app_length; cbn; lia). reflexivity.
Qed.
Lemma reads_spiral amp N sa ta rref pref Rs H om Cs : agrees 27 ->
  let args := [of_nat (length Cs); amp; N; sa; ta; rref; pref; Rs; H; om] ++ Cs in reads (mkSer 1 [27%Z] args []) [CArg 27 [] [] args [] []].
Proof.
  intros Ag. cbv zeta. apply reads_simple; try reflexivity; [lia | exact Ag |]. intros pa. cbn [app c_nargs nth_error obind]. f_equal. apply to_int_eq. cbn [length]. unfold of_nat. rewrite !S_INR. lra.
Qed.
Lemma reads_pair amp p : agrees 26 -> reads (mkSer 1 [26%Z] (pair_args amp p) []) [CArg 26 [] [] (pair_args amp p) [] []].
Proof.
  intros Ag. apply reads_simple; try reflexivity; [lia | exact Ag |]. intros pa. destruct p as [[? ?|? ? ?] [?|?]]; cbn [app pair_args fst snd c_nargs nth_error obind length]; f_equal.
  1,2: rewrite (to_int_eq 3 3) by (cbn; lra); reflexivity. all: rewrite (to_int_eq 4 4) by (cbn; lra); reflexivity.
Qed.
Lemma view_pair amp p : view (CArg 26 [] [] (pair_args amp p) [] []) = seen_pair amp p.
Proof.
  assert (E0 : to_int 0 = 0%nat) by (now apply to_int_eq). assert (E1 : to_int 1 = 1%nat) by (now apply to_int_eq).
  assert (E3 : to_int 3 = 3%nat) by (apply to_int_eq; cbn; lra). assert (E4 : to_int 4 = 4%nat) by (apply to_int_eq; cbn; lra).
  destruct p as [[? ?|? ? ?] [?|?]]; cbn [c_view map]; unfold view_disk; cbn [pair_args fst snd app nth]; rewrite ?E0, ?E1, ?E3, ?E4; reflexivity.
Qed.
Lemma reads_pairs amp l : (l <> [] -> agrees 26) -> reads (pairs_ser amp l) (map (fun p => CArg 26 [] [] (pair_args amp p) [] []) l).
Proof.
  intros Ag. induction l as [|p l IH]; [exact reads_nil|]. assert (A : agrees 26) by (now apply Ag). exact (reads_app _ _ _ _ (reads_pair amp p A) (IH (fun _ => A))).
Qed.
Lemma in_pairs amp l : l <> [] -> In 26%Z (pot_type (pairs_ser amp l)).
Proof. destruct l; [easy | now left]. Qed.
Lemma view_pairs amp l : map view (map (fun p => CArg 26 [] [] (pair_args amp p) [] []) l) = map (seen_pair amp) l.
Proof. rewrite map_map. apply map_ext. intros p. apply view_pair. Qed.

(** Ellipsoidal potentials *)
Definition ell_names (e : ellipsoid) : list string :=
  match e with TriaxialHernquist _ _ => ["a"; "a4"] | TriaxialNFW _ _ => ["a"; "a3"] | TriaxialJaffe _ _ => ["a"; "a2"] | TwoPowerTriaxial _ _ _ _ _ _ _ => ["a"; "alpha"; "beta"; "beta-alpha"; "2-alpha"; "3-alpha"; "psi_inf"]
             | PerfectEllipsoid _ => ["a2"] | TriaxialGaussian _ => ["-2 sigma^2"] | PowerTriaxial _ => ["alpha"] end%string.
Definition ell_rest b2 c2 al (rot : list R) (glx w : list R) := [b2; c2; al] ++ rot ++ [of_nat (length glx)] ++ glx ++ w.
Lemma ell_args_shape e : exists es, ellipsoid_args e = INR (length es) :: es /\ length es = length (ell_names e).
Proof.
  exists (tl (ellipsoid_args e)). split; [|now destruct e]. destruct e; cbn [ellipsoid_args tl length INR]; f_equal; lra.
Qed.
Lemma ell_nargs_eq e pa : c_nargs (ellipsoid_type e) pa = (let? n := nth_error pa 16 in let? g := nth_error pa (to_int (n + 29)) in Some (to_int (30 + n + 2 * g))).
Proof. now destruct e. Qed.
Lemma ell_nargs e amp b2 c2 al rot glx w pa : length rot = 9%nat -> length w = length glx ->
  c_nargs (ellipsoid_type e) (([amp] ++ repeat 0 15 ++ ellipsoid_args e ++ ell_rest b2 c2 al rot glx w) ++ pa) = Some (length ([amp] ++ repeat 0 15 ++ ellipsoid_args e ++ ell_rest b2 c2 al rot glx w)).
Proof.
  intros Lr Lw. unfold ell_rest.
  assert (G : forall k es, length es = k -> nth_error ([amp] ++ repeat 0 15 ++ (INR k :: es) ++ ([b2; c2; al] ++ rot ++ [of_nat (length glx)] ++ glx ++ w) ++ pa) (to_int (INR k + 29)) = Some (INR (length glx))).
  { intros k es Le. rewrite (to_int_eq (INR k + 29) (k + 29)) by (rewrite plus_INR; f_equal; change 29%nat with (Z.to_nat 29); rewrite INR_IZR_INZ; reflexivity).
    replace ([amp] ++ repeat 0 15 ++ (INR k :: es) ++ ([b2; c2; al] ++ rot ++ [of_nat (length glx)] ++ glx ++ w) ++ pa) with (([amp] ++ repeat 0 15 ++ (INR k :: es) ++ [b2; c2; al] ++ rot) ++ of_nat (length glx) :: (glx ++ w) ++ pa) by (rewrite <- !app_assoc; reflexivity).
    apply nth_mid. rewrite !app_length. cbn [length]. rewrite repeat_length. lia. }
  assert (T : forall k es, length es = k -> to_int (30 + INR k + 2 * INR (length glx)) = length ([amp] ++ repeat 0 15 ++ (INR k :: es) ++ [b2; c2; al] ++ rot ++ [of_nat (length glx)] ++ glx ++ w)).
  { intros k es Le. apply to_int_eq. rewrite !app_length, repeat_length. cbn [length]. rewrite Le, Lr, Lw. replace (1 + (15 + (S k + (3 + (9 + (1 + (length glx + length glx)))))))%nat with (30 + k + 2 * length glx)%nat by lia.
    rewrite !plus_INR, mult_INR. change 30%nat with (Z.to_nat 30). rewrite (INR_IZR_INZ (Z.to_nat 30)). reflexivity. }
  destruct (ell_args_shape e) as [es [Ee Le]]. rewrite Ee, ell_nargs_eq. set (k := length es) in *.
  replace (nth_error (([amp] ++ repeat 0 15 ++ (INR k :: es) ++ [b2; c2; al] ++ rot ++ [of_nat (length glx)] ++ glx ++ w) ++ pa) 16) with (Some (INR k)) by reflexivity.
  cbn [obind]. rewrite <- (app_assoc [amp]), <- (app_assoc (repeat 0 15)), <- (app_assoc (INR k :: es)). rewrite (G k es eq_refl). cbn [obind]. f_equal. exact (T k es eq_refl).
Qed.
Lemma reads_ell e amp b2 c2 al rot glx w : agrees (ellipsoid_type e) -> length rot = 9%nat -> length w = length glx ->
  let args := [amp] ++ repeat 0 15 ++ ellipsoid_args e ++ ell_rest b2 c2 al rot glx w in reads (mkSer 1 [ellipsoid_type e] args []) [CArg (ellipsoid_type e) [] [] args [] []].
Proof. intros Ag Lr Lw. cbv zeta. apply reads_simple; try (destruct e; reflexivity); [destruct e; cbn; lia | exact Ag |]. intros pa. now apply ell_nargs. Qed.
Lemma view_ell_gen psi es (amp b2 c2 al : R) rot glx w : length rot = 9%nat -> length w = length glx -> length es = length psi ->
  let args := [amp] ++ repeat 0 15 ++ (INR (length psi) :: es) ++ ell_rest b2 c2 al rot glx w in
  view_ellipsoid psi (fun i => nth i args 0) (fun i n => firstn n (skipn i args)) =
  ([("amp", [amp])] ++ map (fun p => (snd p, [nth (fst p) es 0])) (combine (seq 0 (length psi)) psi) ++ [("b2", [b2]); ("c2", [c2]); ("aligned", [al]); ("rot", rot); ("nodes", glx); ("weights", w)]).
Proof.
  intros Lr Lw Le. cbv zeta. unfold view_ellipsoid. set (args := [amp] ++ repeat 0 15 ++ (INR (length psi) :: es) ++ ell_rest b2 c2 al rot glx w).
  assert (E16 : nth 16 args 0 = INR (length psi)) by reflexivity. rewrite E16, to_int_INR. set (k := length psi) in *.
  set (h := [amp] ++ repeat 0 15 ++ [INR k] ++ es). assert (Lh : length h = (17 + k)%nat) by (unfold h; rewrite !app_length, repeat_length; cbn; lia).
  assert (Ea : args = h ++ ell_rest b2 c2 al rot glx w) by (unfold args, h; rewrite <- !app_assoc; reflexivity).
  assert (Er : forall m, nth (17 + k + m) args 0 = nth m (ell_rest b2 c2 al rot glx w) 0) by (intros m; rewrite Ea, <- Lh; apply app_nth2_plus).
  rewrite <- (Nat.add_0_r (17 + k)). rewrite !Nat.add_0_r, !Er. rewrite <- (Nat.add_0_r (17 + k)) at 1. rewrite Er.
  assert (E12 : nth 12 (ell_rest b2 c2 al rot glx w) 0 = of_nat (length glx)).
  { unfold ell_rest. change 12%nat with (3 + (9 + 0))%nat. rewrite (nth_app 3) by reflexivity. now rewrite (nth_app 9). }
  rewrite E12. unfold of_nat. rewrite to_int_INR.
  f_equal. f_equal.
  { apply map_ext_in. intros [i n] Hin. apply in_combine_l in Hin. apply in_seq in Hin. cbn [fst snd]. do 2 f_equal. unfold args. rewrite app_assoc, app_assoc_reverse. change ([amp] ++ repeat 0 15 ++ (INR k :: es) ++ ell_rest b2 c2 al rot glx w) with (([amp] ++ repeat 0 15 ++ [INR k]) ++ es ++ ell_rest b2 c2 al rot glx w).
    rewrite (nth_app 17) by reflexivity. apply app_nth1. lia. }
  f_equal. f_equal. f_equal. f_equal; [|f_equal; [|f_equal]]; f_equal.
  - rewrite Ea. unfold ell_rest. rewrite app_assoc. apply slice; [rewrite app_length; cbn; lia | auto].
  - rewrite Ea. unfold ell_rest. rewrite (app_assoc h), (app_assoc _ rot), (app_assoc _ [_]). apply slice; [rewrite !app_length; cbn; lia | auto].
  - rewrite Ea. unfold ell_rest. rewrite (app_assoc h), (app_assoc _ rot), (app_assoc _ [_]), (app_assoc _ glx), <- (app_nil_r w) at 1. apply slice; [rewrite !app_length; cbn; lia | auto].
Qed.

(** Self-consistent-field expansions *)
Lemma INR_lit z : (0 <= z)%Z -> IZR z = INR (Z.to_nat z).
Proof. intros H. rewrite INR_IZR_INZ. now rewrite Z2Nat.id. Qed.
Definition scf_list (a na N L M : R) (Nt : R) (tg A B cache : list R) : list R := [a; na; N; L; M; Nt] ++ tg ++ A ++ B ++ cache.
Lemma scf_args_eq f s : exists tg A B,
  scf_args f s = scf_list (scf_a s) (of_bool (scf_nonaxi s)) (of_nat (scf_N s)) (of_nat (scf_L s)) (of_nat (scf_M s)) (of_nat (length tg)) tg A B [-1; 0; 0; 0; 0; 0; 0; 0; 0; 0; 0] /\
  (tg = [] \/ (1 < length tg)%nat \/ ~ scf_wf s) /\
  (scf_wf s -> let k := ((scf_N s * scf_L s * scf_M s) * match tg with [] => 1 | _ => 4 * (length tg - 1) end)%nat in length A = k /\ length B = if scf_nonaxi s then k else 0%nat) /\
  seen_scf f s = Seen "SCF" [("a", [scf_a s]); ("isNonAxi", [of_bool (scf_nonaxi s)]); ("N", [of_nat (scf_N s)]); ("L", [of_nat (scf_L s)]); ("M", [of_nat (scf_M s)]); ("tgrid", tg); ("Acos", A); ("Asin", B); ("radius of cached force", [-1])] [] [] [].
Proof.
  unfold scf_args, seen_scf, scf_wf, scf_list. destruct (scf_coeffs s) as [Ac As|tg Ac As].
  - exists [], (map (Rmult (f * scf_amp s)) Ac), (if scf_nonaxi s then map (Rmult (f * scf_amp s)) As else []). split; [reflexivity|]. split; [now left|]. split; [|reflexivity].
    intros [H1 H2]. cbv zeta. rewrite map_length. split; [lia|]. destruct (scf_nonaxi s); [rewrite map_length, H2 by auto; lia | reflexivity].
  - exists tg, (map (Rmult (f * scf_amp s)) Ac), (if scf_nonaxi s then map (Rmult (f * scf_amp s)) As else []). split; [reflexivity|]. split.
    { right. destruct (lt_dec 1 (length tg)); [now left | right; intros [H _]; contradiction]. }
    split; [|reflexivity]. intros [Ht [H1 H2]]. cbv zeta. destruct tg as [|t0 tg]; [cbn in Ht; lia|]. rewrite map_length. split; [exact H1|]. destruct (scf_nonaxi s); [rewrite map_length; auto | reflexivity].
Qed.
Lemma reads_scf f s : agrees 24 -> scf_wf s -> reads (mkSer 1 [24%Z] (scf_args f s) []) [CArg 24 [] [] (scf_args f s) [] []].
Proof.
  intros Ag W. destruct (scf_args_eq f s) as [tg [A [B [-> [Ht [Hl _]]]]]]. specialize (Hl W). cbv zeta in Hl. destruct Hl as [LA LB].
  apply reads_simple; try reflexivity; [lia | exact Ag |]. intros pa. unfold scf_list. cbn [app c_nargs nth_error obind]. f_equal. apply to_int_eq. cbn [length]. rewrite !app_length, LA, LB. cbn [length]. unfold of_nat.
  assert (Eb : forall k, INR (if scf_nonaxi s then k else 0)%nat = of_bool (scf_nonaxi s) * INR k) by (intros k; destruct (scf_nonaxi s); cbn; lra).
  destruct tg as [|t0 tg].
  - cbn [length]. destruct (Req_EM_T (INR 0) 0) as [_|n]; [|cbn in n; lra].
    rewrite !S_INR, !plus_INR, Eb, !mult_INR. cbn [INR]. ring.
  - destruct (Req_EM_T (INR (length (t0 :: tg))) 0) as [e|_]; [cbn [length] in e; rewrite S_INR in e; pose proof (pos_INR (length tg)); lra|].
    rewrite !S_INR, !plus_INR, Eb, !mult_INR, minus_INR by (cbn; lia). cbn [INR length]. rewrite ?S_INR. cbn [INR]. ring.
Qed.
Lemma view_scf_ok f s : scf_wf s -> view (CArg 24 [] [] (scf_args f s) [] []) = seen_scf f s.
Proof.
  intros W. destruct (scf_args_eq f s) as [tg [A [B [-> [Ht [Hl ->]]]]]]. specialize (Hl W). cbv zeta in Hl. destruct Hl as [LA LB].
  set (args := scf_list _ _ _ _ _ _ _ _ _ _). cbn [c_view map]. f_equal. unfold view_scf.
  change (nth 0 args 0) with (scf_a s). change (nth 1 args 0) with (of_bool (scf_nonaxi s)). change (nth 2 args 0) with (of_nat (scf_N s)). change (nth 3 args 0) with (of_nat (scf_L s)).
  change (nth 4 args 0) with (of_nat (scf_M s)). change (nth 5 args 0) with (of_nat (length tg)). rewrite to_int_bool.
  replace (to_int (of_nat (scf_N s))) with (scf_N s) by (symmetry; apply to_int_INR). replace (to_int (of_nat (scf_L s))) with (scf_L s) by (symmetry; apply to_int_INR).
  replace (to_int (of_nat (scf_M s))) with (scf_M s) by (symmetry; apply to_int_INR). replace (to_int (of_nat (length tg))) with (length tg) by (symmetry; apply to_int_INR).
  set (h := [scf_a s; of_bool (scf_nonaxi s); of_nat (scf_N s); of_nat (scf_L s); of_nat (scf_M s); of_nat (length tg)]) in *.
  assert (Ea : args = h ++ tg ++ A ++ B ++ [-1; 0; 0; 0; 0; 0; 0; 0; 0; 0; 0]) by reflexivity. clearbody args. set (cache := [-1; 0; 0; 0; 0; 0; 0; 0; 0; 0; 0]) in *.
  set (NLM := (scf_N s * scf_L s * scf_M s)%nat) in *. cbn [app]. do 5 f_equal.
  assert (G : forall k nt, k = (NLM * match tg with [] => 1 | _ => 4 * (length tg - 1) end)%nat -> nt = length tg ->
     [("Acos", firstn k (skipn (6 + nt) args)); ("Asin", if (Nat.b2n (scf_nonaxi s) =? 0)%nat then [] else firstn k (skipn (6 + nt + k) args)); ("radius of cached force", [nth (6 + nt + (Nat.b2n (scf_nonaxi s) + 1) * k) args 0])] =
     [("Acos", A); ("Asin", B); ("radius of cached force", [-1])]).
  { intros k nt -> ->. set (k := (NLM * match tg with [] => 1 | _ => 4 * (length tg - 1) end)%nat) in *. rewrite Ea. f_equal; [f_equal|f_equal; [f_equal|do 3 f_equal]].
    - rewrite (app_assoc h). apply slice; [rewrite app_length; reflexivity | exact LA].
    - destruct (scf_nonaxi s); cbn [Nat.b2n Nat.eqb].
      + rewrite (app_assoc h), (app_assoc _ A). apply slice; [rewrite !app_length, LA; reflexivity | exact LB].
      + destruct B; [reflexivity | discriminate LB].
    - rewrite (app_assoc h), (app_assoc _ A), (app_assoc _ B). rewrite <- (Nat.add_0_r (6 + length tg + (Nat.b2n (scf_nonaxi s) + 1) * k)). rewrite (nth_app (6 + length tg + (Nat.b2n (scf_nonaxi s) + 1) * k)); [reflexivity|].
      rewrite !app_length, LA, LB. cbn [length h]. destruct (scf_nonaxi s); cbn [Nat.b2n]; lia. }
  destruct tg as [|t0 tg].
  - cbn [length Nat.eqb]. f_equal. specialize (G NLM 0%nat). cbn [Nat.add] in G. rewrite <- (G ltac:(lia) eq_refl). reflexivity.
  - replace (length (t0 :: tg) =? 0)%nat with false by reflexivity. f_equal; [f_equal; rewrite Ea; now apply slice|]. apply (G _ (length (t0 :: tg)) eq_refl eq_refl).
Qed.

(** Multipole expansions *)
Lemma c_slots_py L M : c_slots L M = py_slots L M.
Proof.
  unfold c_slots, py_slots. apply flat_map_ext. intros l. replace (if (l + 1 <? M)%nat then (l + 1)%nat else M) with (Nat.min (l + 1) M) by (destruct (Nat.ltb_spec (l + 1) M); lia).
  apply flat_map_ext. intros m. now destruct (0 <? m)%nat.
Qed.
Lemma c_blocks_ok m ni nr slots pa : (forall l mm s, let '(i, o, r) := mul_block m l mm s in length i = ni /\ length o = ni /\ length r = nr) ->
  c_blocks slots ni nr (flat_map (fun s => let '(l, mm, b) := s in block_list (mul_block m l mm b)) slots ++ pa) = Some (map (fun s => (s, let '(l, mm, b) := s in mul_block m l mm b)) slots, pa).
Proof.
  intros W. induction slots as [|[[l mm] b] slots IH]; [reflexivity|]. cbn [flat_map map c_blocks]. specialize (W l mm b). destruct (mul_block m l mm b) as [[i o] r] eqn:Eb. destruct W as [L1 [L2 L3]].
  unfold block_list at 1. rewrite <- !app_assoc. rewrite (take_len ni i) by auto. cbn [obind]. rewrite (take_len ni o) by auto. cbn [obind]. rewrite (take_len nr r) by auto. cbn [obind]. rewrite IH. reflexivity.
Qed.
Definition blocks_of (m : multipole) := map (fun s => (s, let '(l, mm, b) := s in mul_block m l mm b)) (py_slots (mul_L m) (mul_M m)).
Lemma reads_multipole f m : agrees 44 -> mult_wf m ->
  reads (mkSer 1 [44%Z] (multipole_args f m) []) [CArg 44 [[of_bool (mul_nonaxi m)]; mul_rgrid m; [mul_amp m * f]; mul_tgrid m] (blocks_of m) [] [] []].
Proof.
  intros Ag W. apply (reads_leaf 44 (multipole_args f m) [] 0 [] (multipole_args f m) [] (multipole_args f m) [[of_bool (mul_nonaxi m)]; mul_rgrid m; [mul_amp m * f]; mul_tgrid m] (blocks_of m) []); try reflexivity; [lia | exact Ag |].
  intros pa. cbn [Z.eqb Pos.eqb]. unfold c_multipole, multipole_args. rewrite <- !app_assoc. rewrite (take_len 4) by reflexivity. cbn [obind nth]. unfold of_nat. rewrite !to_int_INR.
  rewrite (take_len (length (mul_rgrid m))) by reflexivity. cbn [obind]. rewrite (take_len 2) by reflexivity. cbn [obind nth]. rewrite to_int_INR.
  rewrite (take_len (length (mul_tgrid m))) by reflexivity. cbn [obind]. rewrite c_slots_py.
  rewrite (c_blocks_ok m); [reflexivity|]. intros l mm s. specialize (W l mm s). destruct (mul_block m l mm s) as [[i o] r]. cbv zeta in W. destruct (mul_tgrid m) as [|t0 tg]; exact W.
Qed.
Lemma py_slots_in L M l mm s : In (l, mm, s) (py_slots L M) <-> (l < L /\ mm <= l /\ mm < M /\ (s = true -> 0 < mm))%nat.
Proof.
  unfold py_slots. rewrite in_flat_map. split.
  - intros [l' [Hl H]]. apply in_seq in Hl. rewrite in_flat_map in H. destruct H as [m' [Hm H]]. apply in_seq in Hm. destruct H as [H|H].
    + injection H as -> -> <-. repeat split; try lia; discriminate.
    + destruct (Nat.ltb_spec 0 m'); [|contradiction]. destruct H as [H|[]]. injection H as -> -> <-. repeat split; lia.
  - intros [H1 [H2 [H3 H4]]]. exists l. split; [apply in_seq; lia|]. rewrite in_flat_map. exists mm. split; [apply in_seq; lia|]. destruct s; [|now left]. right. specialize (H4 eq_refl). replace (0 <? mm)%nat with true by (symmetry; now apply Nat.ltb_lt). now left.
Qed.
Lemma NoDup_app_intro {A} (a b : list A) : NoDup a -> NoDup b -> (forall x, In x a -> ~ In x b) -> NoDup (a ++ b).
Proof.
  intros Ha Hb Hd. induction Ha as [|x a Hx Ha IH]; [exact Hb|]. cbn. constructor.
  - rewrite in_app_iff. intros [H|H]; [contradiction|]. apply (Hd x); [now left | exact H].
  - apply IH. intros y Hy. apply Hd. now right.
Qed.
Lemma NoDup_flat_map {A B} (f : A -> list B) (key : B -> A) l : (forall a b, In b (f a) -> key b = a) -> (forall a, NoDup (f a)) -> NoDup l -> NoDup (flat_map f l).
Proof.
  intros K D N. induction N as [|a l Ha N IH]; [constructor|]. cbn. apply NoDup_app_intro; [apply D | exact IH |].
  intros b Hb Hin. apply in_flat_map in Hin. destruct Hin as [a' [Ha' Hb']]. rewrite <- (K a b Hb), (K a' b Hb') in Ha. contradiction.
Qed.
Lemma py_slots_nodup L M : NoDup (py_slots L M).
Proof.
  unfold py_slots. apply (NoDup_flat_map _ (fun b => fst (fst b))).
  - intros l b Hb. apply in_flat_map in Hb. destruct Hb as [m [_ [Hb|Hb]]]; [now subst b|]. destruct (0 <? m)%nat; [|contradiction]. destruct Hb as [Hb|[]]. now subst b.
  - intros l. apply (NoDup_flat_map _ (fun b => snd (fst b))).
    + intros m b [Hb|Hb]; [now subst b|]. destruct (0 <? m)%nat; [|contradiction]. destruct Hb as [Hb|[]]. now subst b.
    + intros m. destruct (0 <? m)%nat; repeat constructor; cbn; intuition discriminate.
    + apply seq_NoDup.
  - apply seq_NoDup.
Qed.
Lemma blocks_expected m : expected_blocks m (blocks_of m).
Proof.
  unfold expected_blocks, blocks_of. rewrite map_map. cbn [fst]. rewrite map_id. split; [|split].
  - intros l mm s b H. apply in_map_iff in H. destruct H as [[[l' mm'] s'] [H _]]. now injection H as -> -> -> <-.
  - intros l mm s. apply py_slots_in.
  - apply py_slots_nodup.
Qed.
Lemma view_multipole f m : view (CArg 44 [[of_bool (mul_nonaxi m)]; mul_rgrid m; [mul_amp m * f]; mul_tgrid m] (blocks_of m) [] [] []) = seen_multipole f m (blocks_of m).
Proof. reflexivity. Qed.

(** Tables on grids *)
Lemma reads_ispherical amp rmin rmax mass P0 Pm rg rf : agrees 36 -> length rf = length rg ->
  reads (mkSer 1 [36%Z] ([of_nat (length rg)] ++ rg ++ rf ++ [amp; rmin; rmax; mass; P0; Pm]) []) [CArg 36 [rg; rf] [] [amp; rmin; rmax; mass; P0; Pm] [] []].
Proof.
  intros Ag Lf. apply (reads_leaf 36 _ [] 6 [rg; rf] [amp; rmin; rmax; mass; P0; Pm] [] [amp; rmin; rmax; mass; P0; Pm] [] [] [amp; rmin; rmax; mass; P0; Pm]); try reflexivity; [lia | exact Ag |].
  intros pa. unfold c_switch_reads. rewrite <- !app_assoc. rewrite (take_len 1) by reflexivity. cbn [obind nth]. unfold of_nat. rewrite to_int_INR.
  rewrite (take_len (length rg)) by reflexivity. cbn [obind]. rewrite (take_len (length rg)) by exact Lf. reflexivity.
Qed.
Definition tabs_of (l : list (option (list R))) : list (list R) := flat_map (fun g => match g with Some g => [g] | None => [] end) l.
Lemma present_int g : (to_int (present g) =? 1)%nat = match g with Some _ => true | None => false end.
Proof. unfold present. rewrite to_int_bool. now destruct g. Qed.
Lemma reads_interp amp logR rg zg p rf zf r2 z2 rz : agrees 13 -> List.Forall (grid_wf (length rg * length zg)) [p; rf; zf; r2; z2; rz] ->
  let ones := repeat 1 (length rg * length zg) in
  reads (mkSer 1 [13%Z] ([of_nat (length rg); of_nat (length zg); present r2; present z2; present rz] ++ rg ++ zg ++ grid_or ones p ++ grid_or ones rf ++ grid_or ones zf ++ grid_or [] r2 ++ grid_or [] z2 ++ grid_or [] rz ++ [amp; of_bool logR]) [])
    [CArg 13 ([[present r2; present z2; present rz]; rg; zg; grid_or ones p; grid_or ones rf; grid_or ones zf] ++ tabs_of [r2; z2; rz]) [] [amp; of_bool logR] [] []].
Proof.
  intros Ag W. cbv zeta. set (n := (length rg * length zg)%nat) in *. set (ones := repeat 1 n). set (tabs := [[present r2; present z2; present rz]; rg; zg; grid_or ones p; grid_or ones rf; grid_or ones zf] ++ tabs_of [r2; z2; rz]).
  rewrite <- (app_nil_r tabs). apply (reads_leaf 13 _ [] 2 tabs [amp; of_bool logR] [] [amp; of_bool logR] [] [] [amp; of_bool logR]); try reflexivity; [lia | exact Ag |].
  inversion W as [|? ? W1 W']; subst. inversion W' as [|? ? W2 W'']; subst. inversion W'' as [|? ? W3 W3']; subst. inversion W3' as [|? ? W4 W4']; subst. inversion W4' as [|? ? W5 W5']; subst. inversion W5' as [|? ? W6 _]; subst.
  assert (Lg : forall g, grid_wf n g -> length (grid_or ones g) = n) by (intros [g|] Hg; [exact Hg | apply repeat_length]).
  intros pa. unfold c_switch_reads. rewrite <- !app_assoc. rewrite (take_len 5) by reflexivity. cbn [obind nth]. unfold of_nat. rewrite !to_int_INR. fold n.
  rewrite (take_len (length rg)) by reflexivity. cbn [obind]. rewrite (take_len (length zg)) by reflexivity. cbn [obind].
  rewrite (take_len n _ _ (Lg p W1)). cbn [obind]. rewrite (take_len n _ _ (Lg rf W2)). cbn [obind]. rewrite (take_len n _ _ (Lg zf W3)). cbn [obind].
  rewrite !present_int.
  assert (Lo : forall g pa, grid_wf n g -> (if match g with Some _ => true | None => false end then (let? (g0, pa0) := take n (grid_or [] g ++ pa) in Some ([g0], pa0)) else Some ([], grid_or [] g ++ pa)) = Some (tabs_of [g], pa)).
  { intros [g|] pa' Hg; cbn [grid_or tabs_of flat_map app]; [rewrite (take_len n g _ Hg); reflexivity | reflexivity]. }
  rewrite (Lo r2 _ W4). cbn [obind]. rewrite (Lo z2 _ W5). cbn [obind]. rewrite (Lo rz _ W6). cbn [obind]. unfold tabs. cbn [tabs_of flat_map]. rewrite ?app_nil_r. reflexivity.
Qed.

(** Non-inertial frames *)
Lemma len1 {A} (l : list A) : length l = 1%nat -> exists a, l = [a].
Proof. destruct l as [|a [|b l]]; try discriminate. eauto. Qed.
Lemma len3 {A} (l : list A) : length l = 3%nat -> exists a b c, l = [a; b; c].
Proof. destruct l as [|a [|b [|c [|d l]]]]; try discriminate. eauto. Qed.
Lemma frame_base_shape f : frame_wf f -> exists o1 o2 o3 o4 o5 o6 o7,
  frame_base f = [f_amp f; 0; 0; 0; 0; 0; 0; 0; 0; 0; 0; of_bool (rot_acc f); of_bool (lin_acc f); of_bool (omegaz_only f); of_bool (const_freq f); of_bool (Omega_as_func f); o1; o2; o3; o4; o5; o6; o7] /\
  frame_fields f = [("amp", [f_amp f]); ("rot_acc", [of_bool (rot_acc f)]); ("lin_acc", [of_bool (lin_acc f)]); ("omegaz_only", [of_bool (omegaz_only f)]); ("const_freq", [of_bool (const_freq f)]); ("Omega_as_func", [of_bool (Omega_as_func f)]);
                    ("Omega", [o1; o2; o3]); ("Omega2", [o4]); ("Omegadot", [o5; o6; o7])].
Proof.
  intros [_ [_ [_ W]]]. unfold frame_base, frame_fields. destruct (Omega_as_func f).
  - do 7 exists 0. split; reflexivity.
  - specialize (W eq_refl). cbv zeta in W. destruct W as [W1 W2].
    destruct (omegaz_only f); destruct (const_freq f).
    + destruct (len1 _ W1) as [a ->]. exists 0, 0, a, (f_Omega2 f), 0, 0, 0. split; reflexivity.
    + destruct (len1 _ W1) as [a ->]. destruct (len1 _ (W2 eq_refl)) as [d ->]. exists 0, 0, a, (f_Omega2 f), 0, 0, d. split; reflexivity.
    + destruct (len3 _ W1) as [a [b [c ->]]]. exists a, b, c, (f_Omega2 f), 0, 0, 0. split; reflexivity.
    + destruct (len3 _ W1) as [a [b [c ->]]]. destruct (len3 _ (W2 eq_refl)) as [d [e [g ->]]]. exists a, b, c, (f_Omega2 f), d, e, g. split; reflexivity.
Qed.
Lemma frame_funcs_length f : frame_wf f -> to_int (3 * of_bool (lin_acc f) * (1 + 2 * of_bool (rot_acc f)) + (6 - 4 * of_bool (omegaz_only f)) * of_bool (Omega_as_func f)) = length (frame_funcs f).
Proof.
  intros [W1 [W2 [W3 _]]]. cbv zeta in W3. apply to_int_eq. unfold frame_funcs.
  destruct (lin_acc f); destruct (rot_acc f); destruct (Omega_as_func f); destruct (omegaz_only f); rewrite ?app_length; cbn [length];
    try (destruct (W3 eq_refl) as [-> ->]); try (rewrite (W1 eq_refl)); try (destruct (W2 eq_refl eq_refl) as [-> ->]); cbn [of_bool length Nat.add]; rewrite ?app_length; cbn; try lra.
Qed.
Lemma reads_frame f : agrees 39 -> frame_wf f -> reads (mkSer 1 [39%Z] (frame_base f) (frame_funcs f)) [CArg 39 [] [] (frame_base f) (frame_funcs f) []].
Proof.
  intros Ag W. destruct (frame_base_shape f W) as [o1 [o2 [o3 [o4 [o5 [o6 [o7 [E _]]]]]]]].
  apply (reads_leaf 39 (frame_base f) (frame_funcs f) 23 [] (frame_base f) [] (frame_base f) [] [] (frame_base f)); try reflexivity; [lia | exact Ag | | now rewrite E].
  intros pa. rewrite <- (frame_funcs_length f W), E. reflexivity.
Qed.
Lemma view_frame_ok f tf : frame_wf f -> view (CArg 39 [] [] (frame_base f) tf []) = Seen "NonInertialFrame" (frame_fields f) [] tf [].
Proof. intros W. destruct (frame_base_shape f W) as [o1 [o2 [o3 [o4 [o5 [o6 [o7 [-> ->]]]]]]]]. reflexivity. Qed.
Lemma takes_ok {A} n (ls : list (list A)) pa : List.Forall (fun l => length l = n) ls -> takes (length ls) n (concat ls ++ pa) = Some (ls, pa).
Proof.
  induction 1 as [|l ls Hl Hls IH]; [reflexivity|]. cbn [length takes concat]. rewrite <- app_assoc, (take_len n l _ Hl). cbn [obind]. rewrite IH. reflexivity.
Qed.
Lemma reads_frame_interp f n (t : list R) tmin tmax : agrees 45 -> frame_wf f -> length t = n ->
  reads (mkSer 1 [45%Z] ([of_nat (length (frame_splines f)); of_nat n] ++ t ++ flat_map (fun g => map g t) (frame_splines f) ++ frame_base f ++ [tmin; tmax]) [])
    [CArg 45 (t :: map (fun g => map g t) (frame_splines f)) [] (frame_base f ++ [tmin; tmax]) [] []].
Proof.
  intros Ag W Lt. destruct (frame_base_shape f W) as [o1 [o2 [o3 [o4 [o5 [o6 [o7 [E _]]]]]]]]. set (arrs := t :: map (fun g => map g t) (frame_splines f)).
  replace (CArg 45 arrs [] (frame_base f ++ [tmin; tmax]) [] []) with (CArg 45 ([] ++ arrs ++ []) [] (frame_base f ++ [tmin; tmax]) [] []) by (now rewrite app_nil_r).
  apply (reads_leaf 45 _ [] 25 [] ([of_nat (length (frame_splines f)); of_nat n] ++ t ++ flat_map (fun g => map g t) (frame_splines f) ++ frame_base f ++ [tmin; tmax]) arrs (frame_base f ++ [tmin; tmax]) [] [] (frame_base f ++ [tmin; tmax])); try reflexivity; [lia | exact Ag | | now rewrite E].
  intros pa. cbn [Z.eqb Pos.eqb]. unfold c_frame. rewrite <- (app_assoc [_; _]), (take_len 2) by reflexivity. cbn [obind nth]. unfold of_nat. rewrite !to_int_INR.
  replace (1 + length (frame_splines f))%nat with (length arrs) by (unfold arrs; cbn; now rewrite map_length).
  replace ((t ++ flat_map (fun g => map g t) (frame_splines f) ++ frame_base f ++ [tmin; tmax]) ++ pa) with (concat arrs ++ (frame_base f ++ [tmin; tmax]) ++ pa).
  2:{ unfold arrs. cbn [concat]. rewrite <- flat_map_concat_map, <- !app_assoc. reflexivity. }
  apply takes_ok. unfold arrs. constructor; [exact Lt|]. apply Forall_forall. intros l Hl. apply in_map_iff in Hl. destruct Hl as [g [<- _]]. now rewrite map_length.
Qed.

(** ** All single potentials *)
Section All.
  Variable nan : R.
  Variable linspace : R -> R -> nat -> list R.
  Variable trange : option (R * R).
  Hypothesis linspace_length : forall a b n, length (linspace a b n) = n.

  Lemma describes_ell amp e b c b2 c2 rot glx glw : agrees (ellipsoid_type e) -> grid_wf 9 rot -> length glx = length glw ->
    exists cs, reads (mkSer 1 [ellipsoid_type e] ([amp] ++ repeat 0 15 ++ ellipsoid_args e ++ [b2; c2; of_bool (match rot with None => true | Some _ => false end)] ++
        (match rot with Some rot => rot | None => eye end) ++ [of_nat (length glx)] ++ glx ++ map (fun xw => gl_weight b c b2 c2 (fst xw) (snd xw)) (combine glx glw)) []) cs /\
      describes linspace trange (Ellipsoidal amp e b c b2 c2 rot glx glw) (map view cs).
  Proof.
    intros Ag Wr Wl. set (al := of_bool (match rot with None => true | Some _ => false end)). set (r := match rot with Some rot => rot | None => eye end).
    assert (Lr : length r = 9%nat) by (unfold r; destruct rot; [exact Wr | reflexivity]).
    set (w := map (fun xw => gl_weight b c b2 c2 (fst xw) (snd xw)) (combine glx glw)). assert (Lw : length w = length glx) by (unfold w; rewrite map_length, combine_length; lia).
    pose proof (reads_ell e amp b2 c2 al r glx w Ag Lr Lw) as H. cbv zeta in H. eexists. split; [exact H|].
    pose proof (d_ell linspace trange amp e b c b2 c2 rot glx glw) as D.
    match type of D with describes _ _ _ ?x => replace (map view _) with x; [exact D|] end. clear D H. cbn [map].
    fold al. change (match rot with Some r0 => r0 | None => [1; 0; 0; 0; 1; 0; 0; 0; 1] end) with r.
    change (map (fun xw : R * R => -4 * PI * snd xw * b * c / sqrt ((1 + (b2 - 1) * fst xw ^ 2) * (1 + (c2 - 1) * fst xw ^ 2))) (combine glx glw)) with w.
    clearbody al r w. f_equal.
    destruct e as [a a4|a a3|a a2|a al0 be ba ta tha ps|a2|s|al0]; cbn [c_view ellipsoid_type ellipsoid_args map]; f_equal; symmetry.
    - exact (view_ell_gen ["a"; "a4"] [a; a4] amp b2 c2 al r glx w Lr Lw eq_refl).
    - exact (view_ell_gen ["a"; "a3"] [a; a3] amp b2 c2 al r glx w Lr Lw eq_refl).
    - exact (view_ell_gen ["a"; "a2"] [a; a2] amp b2 c2 al r glx w Lr Lw eq_refl).
    - pose proof (view_ell_gen ["a"; "alpha"; "beta"; "beta-alpha"; "2-alpha"; "3-alpha"; "psi_inf"] [a; al0; be; ba; ta; tha; ps] amp b2 c2 al r glx w Lr Lw eq_refl) as V. cbv zeta in V.
      replace (INR (length ["a"; "alpha"; "beta"; "beta-alpha"; "2-alpha"; "3-alpha"; "psi_inf"])) with 7 in V by (cbn; lra). exact V.
    - exact (view_ell_gen ["a2"] [a2] amp b2 c2 al r glx w Lr Lw eq_refl).
    - exact (view_ell_gen ["-2 sigma^2"] [- s] amp b2 c2 al r glx w Lr Lw eq_refl).
    - exact (view_ell_gen ["alpha"] [al0] amp b2 c2 al r glx w Lr Lw eq_refl).
  Qed.
  Lemma on_and {A} (a b : bool) (x y z : list A) : (if a then x ++ (if b then y ++ z else []) else []) = on a x ++ on (a && b) y ++ on (a && b) z.
  Proof. destruct a, b; cbn; now rewrite ?app_nil_r. Qed.
  Lemma leaf_ok l s : (planar = true -> match l with FlattenedPower _ _ _ _ => False | _ => True end) -> (forall ty, In ty (pot_type s) -> agrees ty) -> leaf_wf l -> leaf_to_c linspace trange l = Some s -> exists cs, reads s cs /\ describes linspace trange l (map view cs).
  Proof.
    intros Pl Ag W E.
    destruct l; cbn [leaf_to_c leaf_wf] in *; unfold leaf_ser in E;
      try (injection E as <-; eexists; (split; [apply reads_simple; solve [reflexivity | lia | apply Ag; now left] |]); try constructor; try (destruct planar; [destruct (Pl eq_refl) | constructor])).
    - (* logarithmic *) destruct onem1overb2 as [b|]; injection E as <-; eexists; (split; [apply reads_simple; solve [reflexivity | lia | apply Ag; now left]|]); [apply (d_log _ _ amp q core2 (Some b)) | apply (d_log _ _ amp q core2 None)].
    - (* double exponential *) destruct W as [L0 [L1 L2]]. injection E as <-. eexists. split; [exact (reads_dexp _ _ _ _ _ _ _ _ (Ag _ (or_introl eq_refl)) L0 L1 L2)|]. cbn [map]. 
      pose proof (view_dexp amp (-4 * PI * alpha * amp) alpha beta j0_xs j1_xs j0_weights j1_weights L0 L1 L2) as V. cbn [app] in V |- *. rewrite V. constructor.
    - (* table in R and z *) injection E as <-. eexists. split; [exact (reads_interp amp logR rgrid zgrid pot rforce zforce r2deriv z2deriv rzderiv (Ag _ (or_introl eq_refl)) W)|]. cbn [map].
      pose proof (d_interp linspace trange amp logR rgrid zgrid pot rforce zforce r2deriv z2deriv rzderiv) as D. cbv zeta in D.
      match type of D with describes _ _ _ ?x => replace [view _] with x; [exact D|] end. clear. f_equal. cbn [c_view map]. f_equal. unfold view_interpRZ. cbn [nth app skipn]. rewrite !present_int.
      destruct r2deriv, z2deriv, rzderiv; reflexivity.
    - (* three Miyamoto-Nagai disks *) destruct disks as [[[[m1 a1] b1] [[m2 a2] b2]] [[m3 a3] b3]]. injection E as <-. eexists. split.
      { pose proof (fun m a b => reads_simple 5 [m; a; b] ltac:(lia) (Ag _ (or_introl eq_refl)) eq_refl eq_refl (fun _ => eq_refl) (fun _ => eq_refl) (fun _ => eq_refl)) as H.
        exact (reads_app _ _ _ _ (H (amp * m1) a1 b1) (reads_app _ _ _ _ (H (amp * m2) a2 b2) (H (amp * m3) a3 b3))). }
      constructor.
    - (* ellipsoidal *) destruct W as [Wr Wl]. injection E as <-. apply describes_ell; auto. apply Ag. now left.
    - (* SCF *) injection E as <-. eexists. split; [apply reads_scf; auto; apply Ag; now left|]. cbn [map]. rewrite view_scf_ok by exact W. constructor.
    - (* multipole *) injection E as <-. eexists. split; [apply reads_multipole; auto; apply Ag; now left|]. cbn [map]. rewrite view_multipole. constructor. apply blocks_expected.
    - (* disk + multipole *) injection E as <-. eexists. split; [exact (reads_app _ _ _ _ (reads_multipole _ _ (Ag _ (or_introl eq_refl)) W) (reads_pairs amp pairs (fun Hp => Ag _ (or_intror (in_pairs amp pairs Hp)))))|]. cbn [app map]. rewrite view_multipole, view_pairs. constructor. apply blocks_expected.
    - (* disk + SCF *) injection E as <-. eexists. split; [exact (reads_app _ _ _ _ (reads_scf amp _ (Ag _ (or_introl eq_refl)) W) (reads_pairs amp pairs (fun Hp => Ag _ (or_intror (in_pairs amp pairs Hp)))))|]. cbn [app map]. rewrite view_scf_ok by exact W. rewrite view_pairs. constructor.
    - (* spiral arms *) injection E as <-. eexists. split; [exact (reads_spiral _ _ _ _ _ _ _ _ _ _ (Ag _ (or_introl eq_refl)))|]. pose proof (d_spiral linspace trange amp N sin_alpha tan_alpha r_ref phi_ref Rs H omega Cs) as D.
      match type of D with describes _ _ _ ?x => replace (map view _) with x; [exact D|] end. cbn [map]. f_equal. set (h := [of_nat (length Cs); amp; N; sin_alpha; tan_alpha; r_ref; phi_ref; Rs; H; omega]). cbn [c_view map].
      change (nth 0 (h ++ Cs) 0) with (of_nat (length Cs)). unfold of_nat. rewrite to_int_INR. replace (firstn (length Cs) (skipn 10 (h ++ Cs))) with Cs; [reflexivity|].
      symmetry. pose proof (slice 10 (length Cs) h Cs [] eq_refl eq_refl) as V. now rewrite app_nil_r in V.
    - (* table in r *) injection E as <-. eexists. split; [exact (reads_ispherical _ _ _ _ _ _ _ _ (Ag _ (or_introl eq_refl)) W)|]. constructor.
    - (* frame *) unfold frame_ser in E. destruct (cinterp f) as [n|] eqn:Ec; [destruct (genuine f) eqn:Eg; [destruct trange as [[tmin tmax]|] eqn:Et|]|]; try discriminate E.
      + injection E as <-. eexists. split; [exact (reads_frame_interp f n (linspace tmin tmax n) tmin tmax (Ag _ (or_introl eq_refl)) W (linspace_length _ _ _))|].
        pose proof (d_frame_i linspace (Some (tmin, tmax)) f n tmin tmax Ec Eg eq_refl) as D. cbv zeta in D.
        match type of D with describes _ _ _ ?x => replace (map view _) with x; [exact D|] end. clear D.
        set (t := linspace tmin tmax n). unfold frame_splines. rewrite on_and. cbn [map]. f_equal. cbn [c_view map].
        destruct (frame_base_shape f W) as [o1 [o2 [o3 [o4 [o5 [o6 [o7 [-> ->]]]]]]]]. f_equal. unfold view_frame. cbn [nth app firstn skipn]. do 12 f_equal.
        rewrite <- !app_assoc, !map_app. unfold on. rewrite !map_map. 
        destruct (lin_acc f), (rot_acc f), (Omega_as_func f); cbn [andb map app]; reflexivity.
      + injection E as <-. eexists. split; [exact (reads_frame f (Ag _ (or_introl eq_refl)) W)|]. cbn [map]. rewrite view_frame_ok by exact W. unfold frame_funcs. rewrite on_and.
        replace (if Omega_as_func f then f_Omega_funcs f ++ f_Omegadot_funcs f else []) with (on (Omega_as_func f) (f_Omega_funcs f) ++ on (Omega_as_func f) (f_Omegadot_funcs f)) by (now destruct (Omega_as_func f)).
        rewrite <- !app_assoc. apply d_frame. now right.
      + injection E as <-. eexists. split; [exact (reads_frame f (Ag _ (or_introl eq_refl)) W)|]. cbn [map]. rewrite view_frame_ok by exact W. unfold frame_funcs. rewrite on_and.
        replace (if Omega_as_func f then f_Omega_funcs f ++ f_Omegadot_funcs f else []) with (on (Omega_as_func f) (f_Omega_funcs f) ++ on (Omega_as_func f) (f_Omegadot_funcs f)) by (now destruct (Omega_as_func f)).
        rewrite <- !app_assoc. apply d_frame. now left.
  Qed.

  (** ** Lists and wrappers *)
  Lemma friction_read f : friction_wf f -> exists tail,
    friction_args f = ([of_nat (length (fr_rs f))] ++ fr_rs f ++ fr_sigmars f) ++ tail /\ length tail = 16%nat /\
    (forall pa, c_chandra (friction_args f ++ pa) = Some ([scaled (first (fr_rs f)) (final (fr_rs f)) (fr_rs f); fr_sigmars f], tail ++ pa)) /\
    (forall more, view_friction (fun i => nth i (tail ++ more) 0) = friction_fields f).
  Proof.
    intros W. unfold friction_wf in W.
    exists ([fr_amp f] ++ [-1; 0; 0; 0; 0; 0; 0; 0] ++ [fr_ms f; fr_rhm f; fr_gamma f ^ 2; match fr_lnLambda f with Some l => l | None => -1 end; fr_minr f ^ 2] ++ [hd 0 (fr_rs f); last (fr_rs f) 0]).
    split; [unfold friction_args; rewrite <- !app_assoc; reflexivity|]. split; [reflexivity|]. split; [|reflexivity].
    intros pa. unfold c_chandra, friction_args. set (n := length (fr_rs f)) in *. set (t14 := [fr_amp f] ++ [-1; 0; 0; 0; 0; 0; 0; 0] ++ [fr_ms f; fr_rhm f; fr_gamma f ^ 2; match fr_lnLambda f with Some l => l | None => -1 end; fr_minr f ^ 2]).
    assert (L14 : length t14 = 14%nat) by reflexivity.
    set (whole := ([of_nat n] ++ fr_rs f ++ fr_sigmars f ++ [fr_amp f] ++ [-1; 0; 0; 0; 0; 0; 0; 0] ++ [fr_ms f; fr_rhm f; fr_gamma f ^ 2; match fr_lnLambda f with Some l => l | None => -1 end; fr_minr f ^ 2] ++ [hd 0 (fr_rs f); last (fr_rs f) 0]) ++ pa).
    assert (E1 : whole = ([of_nat n] ++ fr_rs f ++ fr_sigmars f ++ t14) ++ hd 0 (fr_rs f) :: last (fr_rs f) 0 :: pa) by (unfold whole, t14; rewrite <- !app_assoc; reflexivity).
    assert (E2 : whole = ([of_nat n] ++ fr_rs f ++ fr_sigmars f ++ t14 ++ [hd 0 (fr_rs f)]) ++ last (fr_rs f) 0 :: pa) by (unfold whole, t14; rewrite <- !app_assoc; reflexivity).
    replace (nth_error whole 0) with (Some (of_nat n)) by reflexivity. cbn [obind]. cbv zeta. replace (to_int (of_nat n)) with n by (symmetry; apply to_int_INR).
    replace (nth_error whole (1 + 2 * n + 14)) with (Some (hd 0 (fr_rs f))).
    2:{ symmetry. rewrite E1. apply nth_mid. rewrite !app_length, L14. cbn [length]. fold n. lia. }
    replace (nth_error whole (1 + 2 * n + 15)) with (Some (last (fr_rs f) 0)).
    2:{ symmetry. rewrite E2. apply nth_mid. rewrite !app_length, L14. cbn [length]. fold n. lia. }
    cbn [obind]. unfold whole. rewrite <- !app_assoc. rewrite (take_len 1) by reflexivity. cbn [obind]. rewrite (take_len n) by reflexivity. cbn [obind]. rewrite (take_len n) by exact W. cbn [obind]. reflexivity.
  Qed.
  Definition wrapped_ser (w : wrapper) (s : serial) : serial :=
    let '(ty, before, after, tfs) := wrapper_ser nan w (n_pot s) in mkSer 1 (ty ++ pot_type s) (before ++ pot_args s ++ after) (pot_tfuncs s ++ tfs).
  Lemma wrap_simple ty s cs after tf : (ty < 0)%Z -> (ty =? -6)%Z = false -> ((ty =? -7) || (ty =? -11))%Z%bool = false -> agrees ty -> (forall pa, c_nargs ty pa = Some (length after)) -> (forall pa, c_ntfuncs ty pa = Some (length tf)) ->
    (forall pa, c_switch_reads ty pa = Some ([], pa)) -> reads s cs -> reads (mkSer 1 (ty :: pot_type s) (of_nat (n_pot s) :: pot_args s ++ after) (pot_tfuncs s ++ tf)) [CArg ty [] [] after tf cs].
  Proof. intros Ht H6 H7 Ag Hn Hf Hs Hr. apply (reads_wrap ty s cs after tf [] after (length after)); auto; [intros pa; rewrite Ag; apply Hn |]. intros pa. rewrite H6, H7. reflexivity. Qed.
  Lemma wrap_ok w s cs : (forall ty, In ty (fst (fst (fst (wrapper_ser nan w (n_pot s))))) -> agrees ty) -> (match w with MovingObject _ _ _ _ _ => planar = false /\ forall pa, moving pa = c_moving pa | _ => True end) ->
    wrapper_wf w -> reads s cs -> exists c, reads (wrapped_ser w s) [c] /\ view c = describes_wrapper nan w (map view cs).
  Proof.
    intros Ag Mo W H. unfold wrapped_ser. destruct w; cbn [wrapper_ser wrapper_wf fst] in *;
      try (eexists; split; [apply (wrap_simple _ s cs); [lia | reflexivity | reflexivity | apply Ag; now left | reflexivity | reflexivity | reflexivity | exact H] | reflexivity]).
    - (* moving object *) destruct W as [Lx [Ly Lz]]. destruct Mo as [Pl Mo]. set (n := length ts) in *. set (after := [of_nat n] ++ ts ++ xs ++ ys ++ zs ++ [amp] ++ [hd 0 ts; last ts 0]).
      exists (CArg (-6) [scaled (first ts) (final ts) ts; xs; ys; zs] [] [amp; hd 0 ts; last ts 0] [] cs). split; [|cbn [c_view]; rewrite Pl; reflexivity].
      apply (reads_wrap (-6) s cs after [] _ [amp; hd 0 ts; last ts 0] 3); try reflexivity; [intros pa; now rewrite (Ag (-6)%Z (or_introl eq_refl))| |exact H]. intros pa. cbn [Z.eqb Pos.eqb orb]. rewrite Mo. unfold c_moving.
      assert (E1 : after ++ pa = ([of_nat n] ++ ts ++ xs ++ ys ++ zs ++ [amp]) ++ hd 0 ts :: last ts 0 :: pa) by (unfold after; rewrite <- !app_assoc; reflexivity).
      assert (E2 : after ++ pa = ([of_nat n] ++ ts ++ xs ++ ys ++ zs ++ [amp] ++ [hd 0 ts]) ++ last ts 0 :: pa) by (unfold after; rewrite <- !app_assoc; reflexivity).
      replace (nth_error (after ++ pa) 0) with (Some (of_nat n)) by reflexivity. cbn [obind]. cbv zeta. replace (to_int (of_nat n)) with n by (symmetry; apply to_int_INR).
      replace (nth_error (after ++ pa) (1 + 4 * n + 1)) with (Some (hd 0 ts)).
      2:{ symmetry. rewrite E1. apply nth_mid. rewrite !app_length. cbn [length]. fold n. lia. }
      replace (nth_error (after ++ pa) (1 + 4 * n + 2)) with (Some (last ts 0)).
      2:{ symmetry. rewrite E2. apply nth_mid. rewrite !app_length. cbn [length]. fold n. lia. }
      cbn [obind]. unfold after. rewrite <- !app_assoc. rewrite (take_len 1) by reflexivity. cbn [obind]. rewrite (take_len n ts) by reflexivity. cbn [obind].
      rewrite (take_len n xs) by exact Lx. cbn [obind]. rewrite (take_len n ys) by exact Ly. cbn [obind]. rewrite (take_len n zs) by exact Lz. reflexivity.
    - (* Chandrasekhar *) destruct (friction_read f W) as [tail [Ef [Lt [Hc Hv]]]].
      exists (CArg (-7) [scaled (first (fr_rs f)) (final (fr_rs f)) (fr_rs f); fr_sigmars f] [] tail [] cs). split.
      + apply (reads_wrap (-7) s cs (friction_args f) [] _ tail 16); try reflexivity; [intros pa; now rewrite (Ag (-7)%Z (or_introl eq_refl))| |exact Lt|exact H]. intros pa. cbn [Z.eqb Pos.eqb orb obind]. now rewrite Hc.
      + cbn [c_view nth]. specialize (Hv []). rewrite app_nil_r in Hv. rewrite Hv. reflexivity.
    - (* FDM *) destruct (friction_read f W) as [tail [Ef [Lt [Hc Hv]]]]. set (extra := [mhbar; match const_FDMfactor with Some c => c | None => -1 end]).
      set (tabs := [scaled (first (fr_rs f)) (final (fr_rs f)) (fr_rs f); fr_sigmars f]). set (c7 := CArg (-7) tabs [] tail [] cs).
      assert (H7 : reads (mkSer 1 (-7 :: pot_type s)%Z (of_nat (n_pot s) :: pot_args s ++ friction_args f) (pot_tfuncs s ++ [])) [c7]).
      { apply (reads_wrap (-7) s cs (friction_args f) [] tabs tail 16); try reflexivity; [intros pa; now rewrite (Ag (-7)%Z (or_intror (or_introl eq_refl)))| |exact Lt|exact H]. intros pa. cbn [Z.eqb Pos.eqb orb obind]. now rewrite Hc. }
      exists (CArg (-11) tabs [] (tail ++ extra) [] [c7]). split.
      + assert (H11 := fun A => reads_wrap (-11) _ [c7] (friction_args f ++ extra) [] tabs (tail ++ extra) 18 ltac:(lia) (Ag (-11)%Z (or_introl eq_refl)) (fun _ => eq_refl) (fun _ => eq_refl) A ltac:(rewrite app_length, Lt; reflexivity) H7).
        cbn [pot_type pot_args pot_tfuncs n_pot] in H11. rewrite app_nil_r in H11. cbn [app] in *.
        assert (EA : of_nat (n_pot s) :: pot_args s ++ friction_args f ++ friction_args f ++ extra = (of_nat (n_pot s) :: pot_args s ++ friction_args f) ++ friction_args f ++ extra) by (cbn [app]; rewrite <- !app_assoc; reflexivity).
        rewrite EA. apply H11. intros pa. cbn [Z.eqb Pos.eqb orb obind]. rewrite <- app_assoc, Hc. cbn [obind app]. now rewrite <- app_assoc.
      + unfold c7. cbn [c_view nth map describes_wrapper]. pose proof (Hv []) as Hv0. rewrite app_nil_r in Hv0. rewrite Hv0, (Hv extra).
        assert (E16 : nth 16 (tail ++ extra) 0 = mhbar) by (rewrite <- (Nat.add_0_r 16); now rewrite (nth_app 16)).
        assert (E17 : nth 17 (tail ++ extra) 0 = match const_FDMfactor with Some c => c | None => -1 end) by (change 17%nat with (16 + 1)%nat; now rewrite (nth_app 16)).
        rewrite E16, E17. reflexivity.
    - (* rotate and tilt *) destruct rot as [|r0 [|r1 [|r2 [|r3 [|r4 [|r5 [|r6 [|r7 [|r8 [|r9 rot]]]]]]]]]]; try discriminate W.
      destruct offset as [[[x y] z]|]; (eexists; split; [apply (wrap_simple _ s cs); [lia | reflexivity | reflexivity | apply Ag; now left | reflexivity | reflexivity | reflexivity | exact H] | reflexivity]).
  Qed.
  Lemma pot_to_c_wrap w inner : pot_to_c nan linspace trange (Wrap w inner) = match pots_to_c nan linspace trange (forallb isNull inner) inner with Some s => Some (wrapped_ser w s) | None => None end.
  Proof.
    cbn [pot_to_c]. set (k := forallb isNull inner).
    assert (E : forall l, (fix go (l : list pot) : option serial := match l with [] => Some null_ser | p :: l => if (isNull p && negb k)%bool then go l else bind_ser (pot_to_c nan linspace trange p) (go l) end) l = pots_to_c nan linspace trange k l).
    { intros l. induction l as [|p l IH]; [reflexivity|]. cbn [pots_to_c]. now rewrite IH. }
    rewrite E. unfold wrapped_ser. destruct (pots_to_c nan linspace trange k inner) as [s|]; [|reflexivity]. now destruct (wrapper_ser nan w (n_pot s)) as [[[ty before] after] tfs].
  Qed.
  Definition ok (p : pot) : Prop := forall s, pot_to_c nan linspace trange p = Some s -> exists cs, reads s cs /\ means nan linspace trange p (map view cs).
  Lemma pots_ok k l : List.Forall ok l -> forall s, pots_to_c nan linspace trange k l = Some s ->
    exists cs, reads s cs /\ means_all nan linspace trange (if k then l else filter (fun p => negb (isNull p)) l) (map view cs).
  Proof.
    induction 1 as [|p l Hp Hl IH]; intros s E.
    - injection E as <-. exists []. split; [exact reads_nil|]. destruct k; constructor.
    - cbn [pots_to_c] in E. destruct (isNull p && negb k)%bool eqn:En.
      + apply andb_true_iff in En. destruct En as [En Ek]. apply negb_true_iff in Ek. subst k. destruct (IH s E) as [cs [Hr Hm]]. exists cs. split; [exact Hr|]. cbn [filter]. now rewrite En.
      + destruct (pot_to_c nan linspace trange p) as [sp|] eqn:Ep; [|discriminate E]. destruct (pots_to_c nan linspace trange k l) as [sl|] eqn:El; [|discriminate E]. cbn in E. injection E as <-.
        destruct (Hp sp Ep) as [c1 [R1 M1]]. destruct (IH sl eq_refl) as [c2 [R2 M2]]. exists (c1 ++ c2). split; [now apply reads_app|]. rewrite map_app.
        destruct k; [now constructor|]. cbn [filter]. rewrite andb_true_r in En. rewrite En. now constructor.
  Qed.
  Lemma pot_ok (Ag : forall ty, agrees ty) (Pl : planar = false) (Mo : forall pa, moving pa = c_moving pa) p : pot_wf p -> ok p.
  Proof.
    revert p. fix IH 2. intros p W. destruct W as [l Wl|w inner Ww Wi].
    - intros s E. destruct (leaf_ok l s ltac:(rewrite Pl; discriminate) (fun ty _ => Ag ty) Wl E) as [cs [Hr Hd]]. exists cs. split; [exact Hr | now constructor].
    - assert (Hi : List.Forall ok inner).
      { induction Wi as [|p l Hp Hl IHl]; constructor; [now apply IH | exact IHl]. }
      clear IH. intros s E. rewrite pot_to_c_wrap in E. destruct (pots_to_c nan linspace trange (forallb isNull inner) inner) as [si|] eqn:Ei; [|discriminate E]. injection E as <-.
      destruct (pots_ok _ _ Hi si Ei) as [cs [Hr Hm]]. destruct (wrap_ok w si cs (fun ty _ => Ag ty) ltac:(destruct w; try exact I; split; [exact Pl | exact Mo]) Ww Hr) as [c [Hc Hv]]. exists [c]. split; [exact Hc|]. cbn [map]. rewrite Hv. constructor. exact Hm.
  Qed.
End All.
End Gen.
