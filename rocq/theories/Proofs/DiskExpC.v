(** The C functions of one pair compute the pair's contribution; what the constructor makes of dictionaries. *)
From Coq Require Import Reals Lra Psatz List Bool String ZArith Lia.
From Coquelicot Require Import Coquelicot.
From Verif.Lib Require Import RealAux.
From Verif.Model Require Import PotAPI CSerial DiskExpansion.
From Verif.Spec Require Import DiskExpSpec.
From Verif.Proofs Require Import DiskExpProofs DiskExpDicts.
Import ListNotations.
Open Scope R_scope.
Notation RR := RbaseSymbolsImpl.R (only parsing).
Ltac rr := match goal with |- ?a = ?b => change (@eq RR a b) end.

Lemma to_int_IZR n : to_int (IZR n) = Z.to_nat n.
Proof. unfold to_int. f_equal. unfold Int_part. rewrite <- (up_tech (IZR n) n); [lia|lra|rewrite plus_IZR; lra]. Qed.
Lemma int0 : to_int 0 = 0%nat. Proof. exact (to_int_IZR 0). Qed.
Lemma int1 : to_int 1 = 1%nat. Proof. exact (to_int_IZR 1). Qed.
Lemma int3 : to_int 3 = 3%nat. Proof. exact (to_int_IZR 3). Qed.
Lemma int4 : to_int 4 = 4%nat. Proof. exact (to_int_IZR 4). Qed.
Definition arg_of (amp : RR) (q : sigma_profile * hz_profile) : nat -> RR := fun i => nth i (pair_args amp q) 0.
Ltac ints := unfold arg_of, pair_args; cbn [fst snd app nth]; rewrite ?int0, ?int1, ?int3, ?int4; cbn [Nat.add plus app nth].
Lemma c_surface amp cs ch : let arg := arg_of amp (cs, ch) in
  match cs with
  | SExp a h => forall R, h <> 0 -> cSigma arg R = 4 * PI * a * amp * exp (- R / h) /\ cdSigma arg R = 4 * PI * a * amp * (- exp (- R / h) / h) /\ cd2Sigma arg R = 4 * PI * a * amp * (exp (- R / h) / h ^ 2)
  | SExpWHole a h m => forall R, h <> 0 -> R <> 0 -> cSigma arg R = 4 * PI * a * amp * exp (- m / R - R / h) /\ cdSigma arg R = 4 * PI * a * amp * ((m / R ^ 2 - 1 / h) * exp (- m / R - R / h)) /\
      cd2Sigma arg R = 4 * PI * a * amp * (((m / R ^ 2 - 1 / h) ^ 2 - 2 * m / R ^ 3) * exp (- m / R - R / h))
  end.
Proof.
  destruct cs as [a h|a h m]; intros arg R; [intros Hh|intros Hh HR]; unfold cSigma, cdSigma, cd2Sigma, arg; ints; (split; [|split]); rr; field; auto.
Qed.
Lemma harg_eq amp cs ch i : harg (arg_of amp (cs, ch)) i = nth i (match ch with HExp h => [0; h] | HSech2 h => [1; h] end) 0.
Proof. unfold harg. destruct cs; destruct ch; ints; destruct i as [|[|[|i]]]; reflexivity. Qed.
Lemma ln_cosh_abs x : ln (1 + exp (- (2 * Rabs x))) + Rabs x - ln 2 = ln (cosh x).
Proof.
  assert (C : cosh x = cosh (Rabs x)). { unfold cosh. destruct (Rle_dec 0 x) as [H|H]; [rewrite Rabs_pos_eq by exact H; reflexivity|]. rewrite Rabs_left by lra. rewrite Ropp_involutive. field. }
  rewrite C. set (y := Rabs x). assert (E : 1 + exp (- (2 * y)) = 2 * cosh y * exp (- y)). { unfold cosh. replace (- (2 * y)) with (- y + - y) by ring. rewrite exp_plus. assert (X : exp y * exp (- y) = 1) by (rewrite <- exp_plus, Rplus_opp_r; apply exp_0). nra. }
  pose proof (cosh_pos y). rewrite E, ln_mult, ln_mult, ln_exp; [ring|lra|assumption|nra|apply exp_pos].
Qed.
Lemma c_vertical amp cs ch : let arg := arg_of amp (cs, ch) in
  match ch with
  | HExp h => forall z, 0 < h -> chz arg z = 1 / 2 / h * exp (- Rabs z / h) /\ cHz arg z = (exp (- Rabs z / h) - 1 + Rabs z / h) * h / 2 /\ cdHz arg z = 1 / 2 * sgn z * (1 - exp (- Rabs z / h))
  | HSech2 h => forall z, 0 < h -> chz arg z = exp (- logsumexp [z / h; - z / h; ln 2 * 1]) / h /\ cHz arg z = h * (logsumexp [z / 2 / h; - z / 2 / h] - ln 2) /\ cdHz arg z = tanh (z / 2 / h) / 2
  end.
Proof.
  destruct ch as [h|h]; intros arg z Hh; unfold chz, cHz, cdHz, arg; rewrite !harg_eq; cbn [nth]; rewrite ?int0, ?int1; (split; [|split]).
  - rr. field. lra.
  - rr. field. lra.
  - unfold copysign. assert (P : 0 <= 1 - exp (- Rabs z / h)). { pose proof (Rabs_pos z). assert (- Rabs z / h <= 0). { unfold Rdiv. pose proof (Rinv_0_lt_compat h Hh). nra. } destruct (Req_dec (- Rabs z / h) 0) as [E|E]; [rewrite E, exp_0; lra|]. left. rewrite <- exp_0. apply Rlt_Rminus. apply exp_increasing. lra. }
    rewrite Rabs_pos_eq by exact P. destruct (Rlt_dec z 0) as [L|L]; [rewrite sgn_neg by exact L; ring|]. destruct (Req_dec z 0) as [->|N]; [rewrite sgn_0, Rabs_R0; replace (- 0 / h) with 0 by (field; lra); rewrite exp_0; ring|]. rewrite sgn_pos by lra. ring.
  - rewrite sech2_h by exact Hh. replace (1 / 2 * z / h) with (z / (2 * h)) by (field; lra). pose proof (cosh_pos (z / (2 * h))). rr. field. split; lra.
  - rewrite sech2_H by lra. rewrite <- ln_cosh_abs. assert (A : Rabs (z / (2 * h)) = Rabs z / (2 * h)). { unfold Rdiv. rewrite Rabs_mult. rewrite (Rabs_pos_eq (/ _)); [reflexivity|]. left. apply Rinv_0_lt_compat. lra. } rewrite A.
    replace (- (2 * (Rabs z / (2 * h)))) with (- Rabs z / h) by (field; lra). replace (1 / 2 * Rabs z / h) with (Rabs z / (2 * h)) by (field; lra). reflexivity.
  - replace (1 / 2 * z / h) with (z / 2 / h) by (field; lra). rr. field.
Qed.

(** ** The dictionaries *)
Lemma exp_eqb t : String.eqb (get t "exp"%string) "exp" = true <-> is_exp t.
Proof. unfold is_exp. destruct t as [t|]; cbn [get]; split; intros H; auto. - right. apply String.eqb_eq in H. rewrite H. reflexivity. - destruct H as [H|H]; [discriminate|]. injection H as ->. reflexivity. Qed.
Lemma name_eqb t n : n <> "exp"%string -> String.eqb (get t "exp"%string) n = true <-> t = Some n.
Proof. intros N. destruct t as [t|]; cbn [get]; split; intros H. - apply String.eqb_eq in H. rewrite H. reflexivity. - injection H as ->. apply String.eqb_refl. - apply String.eqb_eq in H. congruence. - discriminate. Qed.
Lemma get_or (o : option RR) x : get o x = or_default o x. Proof. destruct o; reflexivity. Qed.
Lemma sigma_cases d : exp_like d /\ Sigma_dict_indiv d = Some {| s_amp := or_default (sd_amp d) 1; s_f := fun R => exp (- R / sigma_scale d); s_d := fun R => - exp (- R / sigma_scale d) / sigma_scale d; s_d2 := fun R => exp (- R / sigma_scale d) / sigma_scale d ^ 2 |}
    /\ c_sigma d = Some (SExp (or_default (sd_amp d) 1) (sigma_scale d)) \/
  ~ exp_like d /\ hole_like d /\ (let rd := sigma_scale d in let rm := or_default (sd_Rhole d) (1 / 2) in
    Sigma_dict_indiv d = Some {| s_amp := or_default (sd_amp d) 1; s_f := fun R => exp (- rm / R - R / rd); s_d := fun R => (rm / R ^ 2 - 1 / rd) * exp (- rm / R - R / rd); s_d2 := fun R => ((rm / R ^ 2 - 1 / rd) ^ 2 - 2 * rm / R ^ 3) * exp (- rm / R - R / rd) |}
    /\ c_sigma d = Some (SExpWHole (or_default (sd_amp d) 1) rd rm)) \/
  ~ known_sigma d /\ Sigma_dict_indiv d = None /\ c_sigma d = None.
Proof.
  pose proof (exp_eqb (sd_type d)) as E. pose proof (name_eqb (sd_type d) "expwhole"%string ltac:(discriminate)) as W. unfold Sigma_dict_indiv, c_sigma, known_sigma, exp_like, hole_like.
  rewrite !get_or. fold (sigma_scale d). destruct (String.eqb (get (sd_type d) "exp"%string) "exp"); destruct (String.eqb (get (sd_type d) "exp"%string) "expwhole"); destruct (sd_Rhole d) as [m|]; cbn [has andb orb negb get or_default].
  all: assert (I1 : true = true) by reflexivity; assert (I2 : false <> true) by discriminate.
  all: try (left; split; [split; [apply E; reflexivity|reflexivity]|split; reflexivity]).
  all: try (right; left; split; [intros [X Y]; first [discriminate Y|apply E in X; discriminate X]|split; [first [left; apply W; reflexivity|right; split; [apply E; reflexivity|discriminate]]|split; reflexivity]]).
  all: right; right; split; [intros [ [X Y]| [X| [X Y] ] ]; first [apply E in X; discriminate X|apply W in X; discriminate X]|split; reflexivity].
Qed.
Lemma hz_cases d : is_exp (hd_type d) /\ hz_dict_indiv d = Some {| h_f := fun z => 1 / 2 / hz_scale d * exp (- Rabs z / hz_scale d); h_H := fun z => (exp (- Rabs z / hz_scale d) - 1 + Rabs z / hz_scale d) * hz_scale d / 2; h_d := fun z => 1 / 2 * sgn z * (1 - exp (- Rabs z / hz_scale d)) |}
    /\ c_hz d = Some (HExp (hz_scale d)) \/
  ~ is_exp (hd_type d) /\ hd_type d = Some "sech2"%string /\ hz_dict_indiv d = Some {| h_f := fun z => exp (- logsumexp [z / hz_scale d; - z / hz_scale d; ln 2 * 1]) / hz_scale d; h_H := fun z => hz_scale d * (logsumexp [z / 2 / hz_scale d; - z / 2 / hz_scale d] - ln 2); h_d := fun z => tanh (z / 2 / hz_scale d) / 2 |}
    /\ c_hz d = Some (HSech2 (hz_scale d)) \/
  ~ known_hz d /\ hz_dict_indiv d = None /\ c_hz d = None.
Proof.
  pose proof (exp_eqb (hd_type d)) as E. pose proof (name_eqb (hd_type d) "sech2"%string ltac:(discriminate)) as W. unfold hz_dict_indiv, c_hz, known_hz.
  rewrite !get_or. fold (hz_scale d). destruct (String.eqb (get (hd_type d) "exp"%string) "exp"); [left; split; [apply E; reflexivity|split; reflexivity]|right].
  destruct (String.eqb (get (hd_type d) "exp"%string) "sech2"); [left|right].
  - split; [intros X; apply E in X; discriminate X|]. split; [apply W; reflexivity|split; reflexivity].
  - split; [intros [X|X]; [apply E in X; discriminate X|apply W in X; discriminate X]|split; reflexivity].
Qed.
