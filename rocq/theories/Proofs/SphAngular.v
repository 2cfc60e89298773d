(** The angular functions of the expansion and sums over its terms. *)
From Coq Require Import Reals Lra Lia Arith.
From Coquelicot Require Import Coquelicot.
From Verif.Lib Require Import RealAux.
From Verif.Model Require Import SphHarm.
From Verif.Proofs Require Import Gegenbauer SphRadial.
Open Scope R_scope.
Notation RR := RbaseSymbolsImpl.R (only parsing).
Ltac rr := match goal with |- ?a = ?b => change (@eq RR a b) end.

Section Leg.
  Variables l m : nat.
  Notation am := (INR m + 1 / 2).
  Lemma am_pos : 0 < am. Proof using. pose proof (pos_INR m). lra. Qed.
  Lemma inside x : -1 < x < 1 -> 0 < 1 - x ^ 2. Proof using. intros H. simpl. nra. Qed.
  Definition pw (x : RR) : RR := (- 1) ^ m * odd_fact m * sqrt (1 - x ^ 2) ^ m.
  Notation G x := (geg am x (l - m)).
  Definition dG (x : RR) : RR := match (l - m)%nat with O => 0 | S k => (2 * INR m + 1) * geg (INR m + 3 / 2) x k end.
  Definition ddG (x : RR) : RR := 2 * am * (2 * (am + 1) * g2 (am + 2) x (l - m)).
  Lemma dG_eq x : dG x = 2 * am * g1 (am + 1) x (l - m).
  Proof using. unfold dG, g1. destruct (l - m)%nat; [ring|]. replace (am + 1) with (INR m + 3 / 2) by lra. rr. field. Qed.
  Lemma d_G x : is_derive (fun y => G y) x (dG x). Proof using. rewrite dG_eq. apply d_geg, am_pos. Qed.
  Lemma d_dG x : is_derive dG x (ddG x).
  Proof using.
    apply (is_derive_ext (fun y => 2 * am * g1 (am + 1) y (l - m))); [intros y; symmetry; apply dG_eq|]. unfold ddG. apply is_derive_Rscal.
    destruct (l - m)%nat as [|k]; [cbn [g1 g2]; refine (is_derive_eq _ _ _ _ (is_derive_const (V := R_NormedModule) _ _) _); change (0 = 2 * (am + 1) * 0); ring|].
    cbn [g1]. refine (is_derive_eq _ _ _ _ (d_geg (am + 1) x k _) _); [pose proof am_pos; lra|]. replace (am + 1 + 1) with (am + 2) by ring. reflexivity.
  Qed.
  Lemma d_pw x : -1 < x < 1 -> is_derive pw x (- INR m * x / (1 - x ^ 2) * pw x).
  Proof using.
    intros H. pose proof (inside x H) as W. pose proof (sqrt_lt_R0 _ W) as S. unfold pw.
    assert (D1 : is_derive (fun y => sqrt (1 - y ^ 2)) x (- x / sqrt (1 - x ^ 2))). { assert (Dq : is_derive (fun y => 1 - y ^ 2) x (- 2 * x)) by (auto_derive; [exact I|rr; ring]). refine (is_derive_eq _ _ _ _ (is_derive_comp (V := R_NormedModule) sqrt (fun y => 1 - y ^ 2) x (/ (2 * sqrt (1 - x ^ 2))) _ _ Dq) _); [apply is_derive_Reals, derivable_pt_lim_sqrt; exact W|]. change (- 2 * x * / (2 * sqrt (1 - x ^ 2)) = - x / sqrt (1 - x ^ 2)). field. lra. }
    refine (is_derive_eq _ _ _ _ (is_derive_Rscal _ _ ((- 1) ^ m * odd_fact m) _ (d_pow _ x _ m (Rgt_not_eq _ _ S) D1)) _).
    assert (E : 1 - x ^ 2 = sqrt (1 - x ^ 2) * sqrt (1 - x ^ 2)) by (symmetry; apply sqrt_sqrt; lra). set (s := sqrt (1 - x ^ 2)) in *. rewrite E. set (c := (- 1) ^ m * odd_fact m). set (p := s ^ m). clearbody c p s. rr. field. lra.
  Qed.
  Lemma lpm_eq x : (m <= l)%nat -> lpm l m x = pw x * G x.
  Proof using. intros H. unfold lpm. destruct (Nat.leb_spec m l); [reflexivity|lia]. Qed.
  Lemma dlpm_eq x : (m <= l)%nat -> dlpm l m x = pw x * (dG x - INR m * x / (1 - x ^ 2) * G x).
  Proof using. intros H. unfold dlpm. destruct (Nat.leb_spec m l); [reflexivity|lia]. Qed.
  Lemma d_lpm x : -1 < x < 1 -> is_derive (lpm l m) x (dlpm l m x).
  Proof using.
    intros H. destruct (le_lt_dec m l) as [K|K].
    - apply (is_derive_ext (fun y => pw y * G y)); [intros y; symmetry; apply lpm_eq; exact K|]. rewrite dlpm_eq by exact K. refine (is_derive_eq _ _ _ _ (is_derive_Rmult pw (fun y => G y) x _ _ (d_pw x H) (d_G x)) _). unfold Rdiv. rr. ring.
    - unfold dlpm. destruct (Nat.leb_spec m l); [lia|]. apply (is_derive_ext (fun _ => 0)); [intros y; unfold lpm; destruct (Nat.leb_spec m l); [lia|reflexivity]|]. apply (is_derive_const (V := R_NormedModule)).
  Qed.
  Lemma d_dlpm x : -1 < x < 1 -> is_derive (dlpm l m) x (d2lpm l m x).
  Proof using.
    intros H. pose proof (inside x H) as W. destruct (le_lt_dec m l) as [K|K].
    - apply (is_derive_ext (fun y => pw y * (dG y - INR m * y / (1 - y ^ 2) * G y))); [intros y; symmetry; apply dlpm_eq; exact K|].
      assert (D1 : is_derive (fun y => INR m * y / (1 - y ^ 2)) x (INR m * (1 + x ^ 2) / (1 - x ^ 2) ^ 2)). { auto_derive; [lra|]. rr. field. lra. }
      refine (is_derive_eq _ _ _ _ (is_derive_Rmult pw _ x _ _ (d_pw x H) (is_derive_minus (V := R_NormedModule) _ _ x _ _ (d_dG x) (is_derive_Rmult _ (fun y => G y) x _ _ D1 (d_G x)))) _).
      unfold d2lpm. destruct (Nat.leb_spec m l); [|lia]. rewrite lpm_eq, dlpm_eq by exact K. pose proof (geg_ode am x (l - m) am_pos) as E. rewrite <- dG_eq in E. fold (ddG x) in E. rewrite minus_INR in E by exact K.
      set (g := G x) in *. set (d := dG x) in *. set (e := ddG x) in *. set (p := pw x) in *. clearbody g d e p. set (q := INR m) in *. set (u := INR l) in *. clearbody q u.
      assert (E' : e = ((2 * (q + 1 / 2) + 1) * x * d - (u - q) * (u - q + 2 * (q + 1 / 2)) * g) / (1 - x ^ 2)). { apply (Rmult_eq_reg_l (1 - x ^ 2)); [|lra]. replace ((1 - x ^ 2) * (((2 * (q + 1 / 2) + 1) * x * d - (u - q) * (u - q + 2 * (q + 1 / 2)) * g) / (1 - x ^ 2))) with ((2 * (q + 1 / 2) + 1) * x * d - (u - q) * (u - q + 2 * (q + 1 / 2)) * g) by (field; lra). lra. }
      rewrite E'. change (- q * x / (1 - x ^ 2) * p * (d - q * x / (1 - x ^ 2) * g) + p * (((2 * (q + 1 / 2) + 1) * x * d - (u - q) * (u - q + 2 * (q + 1 / 2)) * g) / (1 - x ^ 2) + - (q * (1 + x ^ 2) / (1 - x ^ 2) ^ 2 * g + q * x / (1 - x ^ 2) * d)) = (2 * x * (p * (d - q * x / (1 - x ^ 2) * g)) - u * (u + 1) * (p * g) + q * q / (1 - x * x) * (p * g)) / (1 - x * x)). field. simpl in W. first [lra | split; lra].
    - unfold d2lpm. destruct (Nat.leb_spec m l); [lia|]. apply (is_derive_ext (fun _ => 0)); [intros y; unfold dlpm; destruct (Nat.leb_spec m l); [lia|reflexivity]|]. apply (is_derive_const (V := R_NormedModule)).
  Qed.
  (** as functions of theta *)
  Definition th0 (th : RR) : RR := lpm l m (cos th).
  Definition th1 (th : RR) : RR := dlpm l m (cos th) * (- sin th).
  Definition th2 (th : RR) : RR := d2lpm l m (cos th) * sin th ^ 2 - dlpm l m (cos th) * cos th.
  Lemma cos_in th : 0 < sin th -> -1 < cos th < 1.
  Proof using. intros H. pose proof (sin2_cos2 th) as E. unfold Rsqr in E. split; nra. Qed.
  Lemma d_th0 th : 0 < sin th -> is_derive th0 th (th1 th).
  Proof using.
    intros H. unfold th0, th1. refine (is_derive_eq _ _ _ _ (is_derive_comp (V := R_NormedModule) (lpm l m) cos th _ (- sin th) (d_lpm _ (cos_in th H)) _) _); [apply is_derive_Reals, derivable_pt_lim_cos|]. change (- sin th * dlpm l m (cos th) = dlpm l m (cos th) * - sin th). ring.
  Qed.
  Lemma d_th1 th : 0 < sin th -> is_derive th1 th (th2 th).
  Proof using.
    intros H. unfold th1, th2. assert (Dc : is_derive cos th (- sin th)) by (apply is_derive_Reals, derivable_pt_lim_cos). assert (Ds : is_derive (fun x => - sin x) th (- cos th)) by (apply (is_derive_opp (V := R_NormedModule)); apply is_derive_Reals, derivable_pt_lim_sin).
    refine (is_derive_eq _ _ _ _ (is_derive_Rmult _ _ th _ _ (is_derive_comp (V := R_NormedModule) (dlpm l m) cos th _ _ (d_dlpm _ (cos_in th H)) Dc) Ds) _). change (- sin th * d2lpm l m (cos th) * - sin th + dlpm l m (cos th) * - cos th = d2lpm l m (cos th) * sin th ^ 2 - dlpm l m (cos th) * cos th). ring.
  Qed.
  Lemma angular th : 0 < sin th -> th2 th + cos th / sin th * th1 th - INR m ^ 2 / sin th ^ 2 * th0 th = - (INR l * (INR l + 1)) * th0 th.
  Proof using.
    intros H. unfold th0, th1, th2. pose proof (sin2_cos2 th) as E. unfold Rsqr in E. unfold d2lpm. destruct (Nat.leb_spec m l) as [K|K].
    - set (p := lpm _ _ _). set (d := dlpm _ _ _). clearbody p d. assert (E' : 1 - cos th * cos th = sin th * sin th) by lra. rewrite !E'. rr. field. lra.
    - unfold lpm, dlpm. destruct (Nat.leb_spec m l); [lia|]. rr. field. lra.
  Qed.
End Leg.
(** ** Sums *)
Lemma sum1_ext N f g : (forall n, f n = g n) -> sum1 N f = sum1 N g.
Proof. intros H. induction N as [|N IH]; simpl; [reflexivity|]. rewrite IH, H. reflexivity. Qed.
Lemma sum1_plus N f g : sum1 N (fun n => f n + g n) = sum1 N f + sum1 N g.
Proof. induction N as [|N IH]; simpl; [ring|]. rewrite IH. ring. Qed.
Lemma sum1_scal N c f : sum1 N (fun n => c * f n) = c * sum1 N f.
Proof. induction N as [|N IH]; simpl; [ring|]. rewrite IH. ring. Qed.
Lemma d_sum1 N (f : nat -> RR -> RR) g x : (forall n, is_derive (f n) x (g n)) -> is_derive (fun y => sum1 N (fun n => f n y)) x (sum1 N g).
Proof.
  intros H. induction N as [|N IH]; simpl; [apply (is_derive_const (V := R_NormedModule))|]. apply is_derive_Rplus; [exact IH|apply H].
Qed.
Section Sum3.
  Variables N L M : nat.
  Notation S3 := (sum3 N L M).
  Lemma s3_ext f g : (forall n l m, f n l m = g n l m) -> S3 f = S3 g.
  Proof using. intros H. unfold sum3. apply sum1_ext. intros n. apply sum1_ext. intros l. apply sum1_ext. intros m. apply H. Qed.
  Lemma s3_plus f g : S3 (fun n l m => f n l m + g n l m) = S3 f + S3 g.
  Proof using. unfold sum3. rewrite <- sum1_plus. apply sum1_ext. intros n. rewrite <- sum1_plus. apply sum1_ext. intros l. apply sum1_plus. Qed.
  Lemma s3_scal c f : S3 (fun n l m => c * f n l m) = c * S3 f.
  Proof using. unfold sum3. rewrite <- sum1_scal. apply sum1_ext. intros n. rewrite <- sum1_scal. apply sum1_ext. intros l. apply sum1_scal. Qed.
  Lemma d_s3 (f : nat -> nat -> nat -> RR -> RR) g x : (forall n l m, is_derive (f n l m) x (g n l m)) -> is_derive (fun y => S3 (fun n l m => f n l m y)) x (S3 g).
  Proof using. intros H. unfold sum3. apply (d_sum1 N (fun n y => sum1 L (fun l => sum1 M (fun m => f n l m y)))). intros n. apply (d_sum1 L (fun l y => sum1 M (fun m => f n l m y))). intros l. apply d_sum1. intros m. apply H. Qed.
End Sum3.
