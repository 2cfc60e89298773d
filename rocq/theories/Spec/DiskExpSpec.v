(** Specification of the disk potentials of Kuijken & Dubinski's technique: pairs of a surface density and a vertical profile, and what a dictionary describes. *)
From Coq Require Import Reals String List.
From Coquelicot Require Import Coquelicot.
From Verif.Model Require Import PotAPI DiskExpansion.
From Verif.Spec Require Import PotSpec PotApiSpec.
Import ListNotations.
Open Scope R_scope.
Notation RR := RbaseSymbolsImpl.R (only parsing).

(** One pair: amplitude, surface density S with its derivatives, vertical profile h with its second antiderivative H and H'. *)
Record disk_pair := { dp_amp : RR; dp_S : RR -> RR; dp_dS : RR -> RR; dp_d2S : RR -> RR; dp_h : RR -> RR; dp_H : RR -> RR; dp_dH : RR -> RR }.
(** The derivatives are right, and H is the second antiderivative of h that vanishes in the plane together with its slope. *)
Definition surface_ok (S dS d2S : RR -> RR) : Prop := forall r, 0 < r -> is_derive S r (dS r) /\ is_derive dS r (d2S r).
Definition vertical_ok (h H dH : RR -> RR) : Prop := H 0 = 0 /\ dH 0 = 0 /\ forall z, is_derive H z (dH z) /\ is_derive dH z (h z).
Definition sound (p : disk_pair) : Prop := surface_ok (dp_S p) (dp_dS p) (dp_d2S p) /\ vertical_ok (dp_h p) (dp_H p) (dp_dH p).
(** The lists kept by the object are those of the pairs, in order. *)
Definition matched (d : Lists) (ps : list disk_pair) : Prop :=
  l_amp d = List.map dp_amp ps /\ l_s d = List.map dp_S ps /\ l_ds d = List.map dp_dS ps /\ l_d2s d = List.map dp_d2S ps /\ l_h d = List.map dp_h ps /\ l_H d = List.map dp_H ps /\ l_dH d = List.map dp_dH ps.
(** The vertical profile holds a unit of mass per unit area. *)
Definition unit_column (h : RR -> RR) : Prop := is_RInt_gen h (Rbar_locally m_infty) (Rbar_locally p_infty) 1.

(** What the dictionaries are documented to mean: {'type':'exp','h':..,'amp':..,'Rhole':..} is amp exp(-Rhole/R - R/h); {'type':'exp','h':..} is exp(-|z|/h)/[2h], 'sech2' is sech^2(z/[2h])/[4h]. *)
Definition or_default (o : option RR) (x : RR) : RR := match o with Some y => y | None => x end.
Definition is_exp (t : option string) : Prop := t = None \/ t = Some "exp"%string.
Definition exp_like (d : SDict) : Prop := is_exp (sd_type d) /\ sd_Rhole d = None.
Definition hole_like (d : SDict) : Prop := sd_type d = Some "expwhole"%string \/ is_exp (sd_type d) /\ sd_Rhole d <> None.
Definition known_sigma (d : SDict) : Prop := exp_like d \/ hole_like d.
Definition known_hz (d : HDict) : Prop := is_exp (hd_type d) \/ hd_type d = Some "sech2"%string.
Definition sigma_scale (d : SDict) : RR := or_default (sd_h d) (1 / 3).
Definition hz_scale (d : HDict) : RR := or_default (hd_h d) (375 / 10000).
Definition describes_sigma (d : SDict) (amp : RR) (S : RR -> RR) : Prop := amp = or_default (sd_amp d) 1 /\
  (exp_like d -> forall R, S R = exp (- (R / sigma_scale d))) /\
  (hole_like d -> forall R, 0 < R -> S R = exp (- (or_default (sd_Rhole d) (1 / 2) / R) - R / sigma_scale d)).
Definition describes_hz (d : HDict) (h : RR -> RR) : Prop := let l := hz_scale d in
  (is_exp (hd_type d) -> forall z, h z = exp (- (Rabs z / l)) / (2 * l)) /\
  (hd_type d = Some "sech2"%string -> forall z, h z = (1 / cosh (z / (2 * l))) ^ 2 / (4 * l)).
Definition describes (d : SDict * HDict) (p : disk_pair) : Prop := describes_sigma (fst d) (dp_amp p) (dp_S p) /\ describes_hz (snd d) (dp_h p).

(** The density of the pairs' potentials sum_i 4 pi a_i S_i(r) H_i(z), r^2 = R^2 + z^2. *)
Definition pairs_potential (ps : list disk_pair) (R z : RR) : RR := fold_right (fun p y => 4 * PI * dp_amp p * dp_S p (sqrt (R ^ 2 + z ^ 2)) * dp_H p z + y) 0 ps.
Definition pairs_density (ps : list disk_pair) (R z : RR) : RR :=
  fold_right (fun p y => let r := sqrt (R ^ 2 + z ^ 2) in dp_amp p * (dp_S p r * dp_h p z + dp_d2S p r * dp_H p z + 2 / r * dp_dS p r * (dp_H p z + z * dp_dH p z)) + y) 0 ps.
Definition away_from_origin : Dom := fun R z _ _ => R <> 0 \/ z <> 0.
