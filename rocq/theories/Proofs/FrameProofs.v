From Coq Require Import Reals Lra Psatz List Bool.
From Coquelicot Require Import Coquelicot.
From Verif.Lib Require Import RealAux Atan2 Vec3.
From Verif.Model Require Import Coords CoordsVec NonInertial.
From Verif.Spec Require Import CovSpec FrameSpec.
Import ListNotations.
Open Scope R_scope.
Notation RR := RbaseSymbolsImpl.R (only parsing).

Lemma n2_sc w : sqrt (w * w) ^ 2 = w * w.
Proof. rewrite <- Rsqr_pow2. apply Rsqr_sqrt. nra. Qed.
Lemma n2_ve w : vnorm w ^ 2 = vdot w w.
Proof. unfold vnorm, vnorm2. rewrite <- Rsqr_pow2. apply Rsqr_sqrt. unfold vdot. nra. Qed.

Definition eff (a : acc) (x : option (RR -> V3)) (t : RR) : V3 := match a with ANone => vzero | _ => origin x t end.
Definition pure (Om Od : freq) (x0 v0 : option (RR -> V3)) (a0 : acc) (a : ncall) : V3 :=
  let t := call_time a in
  fictitious (rotation_rate Om Od t) (rotation_accel Om Od t) (eff a0 x0 t) (eff a0 v0 t) (origin_acc a0 t) (call_pos a) (call_vel a).

(** What the constructor leaves in the two arrays and no call changes *)
Definition cross_inv {H} (o : nif) (s : nstate H) : Prop :=
  omegaz_only o = false -> Omega_as_func o = false ->
    match n_Omega o with FArr w => Omega_for_cross s = Some (for_cross w) | _ => False end /\
    (const_freq o = false -> match n_Omegadot o with FArr w => Omegadot_for_cross s = Some (for_cross w) | _ => False end).

Lemma compute_ok H amp Om Od x0 v0 a0 o s0 :
  make H amp Om Od x0 v0 a0 = NOk (o, s0) -> same_shape Om Od ->
  cross_inv o s0 /\ force_hash s0 = None /\ n_amp o = amp /\
  forall s a, cross_inv o s -> exists s', compute H o s a = NOk (pure Om Od x0 v0 a0 a, s') /\ cross_inv o s'.
Proof.
  intros M SH. unfold make in M.
  destruct Om as [|w|w|w|f|f]; destruct Od as [|d|d|d|g|g]; try contradiction; cbn in M; try discriminate;
  destruct a0 as [|a|a]; destruct x0 as [x0|]; destruct v0 as [v0|]; cbn in M; try discriminate; injection M as <- <-;
  (split; [unfold cross_inv; cbn; intros; first [discriminate|split; [reflexivity|intros; first [discriminate|reflexivity]]]|]);
  (split; [reflexivity|]); (split; [reflexivity|]);
  intros s [[[[R z] phi] [v1 v2 v3]] t] I;
  unfold cross_inv in I; cbn in I;
  unfold compute, cyl_to_rect, cyl_to_rect_vec; cbn -[vnorm pow sqrt Rplus Rmult Ropp Rminus vadd vsub vscal vdot mulMV for_cross].

  all: try (destruct I as [I1 I2]; [reflexivity|reflexivity|]; rewrite I1; try (rewrite I2 by reflexivity)).
  all: eexists; split;
    [ f_equal; f_equal; unfold pure, fictitious, eff; cbn [call_time call_pos call_vel rotation_rate rotation_accel origin_acc origin about_z];
      rewrite ?n2_sc, ?n2_ve; unfold for_cross, about_z; vunfold; f_equal; ring
    | unfold cross_inv; cbn; intros; try discriminate; auto ].
Qed.
