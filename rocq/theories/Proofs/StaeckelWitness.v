(** Two Staeckel potentials with an explicit orbit or explicit second derivatives. *)
From Coq Require Import Reals Lra Lia.
From Coquelicot Require Import Coquelicot.
From Verif.Lib Require Import RealAux.
From Verif.Model Require Import CoordsSpheroid.
From Verif.Spec Require Import StaeckelSpec.
From Verif.Proofs Require Import SpheroidProofs EOMProofs StaeckelProofs.
Open Scope R_scope.
Notation RR := RbaseSymbolsImpl.R (only parsing).
Ltac rr := match goal with |- ?a = ?b => change (@eq RR a b) end.

(** The isotropic harmonic potential (R^2 + z^2) / 2 is a Staeckel potential for every focal distance. *)
Definition ha_Phi (R z : RR) : RR := (R ^ 2 + z ^ 2) / 2.
Definition ha_FR (R z : RR) : RR := - R.
Definition ha_Fz (R z : RR) : RR := - z.
Definition ha_U (delta u : RR) : RR := delta ^ 2 / 2 * (sinh u ^ 4 + sinh u ^ 2).
Definition ha_V (delta v : RR) : RR := delta ^ 2 / 2 * (sin v ^ 4 - sin v ^ 2).
Lemma ha_force : force_of ha_Phi ha_FR ha_Fz.
Proof.
  intros R z s dR dz HR DR Dz. unfold ha_Phi, ha_FR, ha_Fz.
  refine (is_derive_eq _ _ _ _ (is_derive_ext (fun t => / 2 * (R t ^ 2 + z t ^ 2)) _ _ _ _ (d_scale _ s (/ 2) _ (is_derive_Rplus _ _ s _ _ (d_sq R s dR DR) (d_sq z s dz Dz)))) _).
  - intros t. rr. field.
  - rr. field.
Qed.
Lemma ha_staeckel (delta : RR) : staeckel delta ha_Phi (ha_U delta) (ha_V delta).
Proof.
  intros u v Hu Hv. unfold ha_Phi, ha_U, ha_V. replace ((delta * cosh u * cos v) ^ 2) with (delta ^ 2 * cosh u ^ 2 * cos v ^ 2) by ring. rewrite ch2, cv2. field.
Qed.
Lemma ha_mirror : mirror ha_Phi.
Proof. intros R z. unfold ha_Phi. field. Qed.
(** A body on the cylinder R = 1 that oscillates through the plane. *)
Definition ha_z (t : RR) : RR := sqrt (3 / 2) * sin t.
Definition ha_vz (t : RR) : RR := sqrt (3 / 2) * cos t.
Lemma ha_moves (t : RR) : moves ha_FR ha_Fz (fun _ => 1) (fun _ => 0) (fun _ => 1) ha_z ha_vz (fun t => t) t.
Proof.
  unfold moves, ha_FR, ha_Fz, ha_z, ha_vz. split; [lra|]. split; [apply is_derive_cst|].
  split; [refine (is_derive_eq _ _ _ _ (d_scale _ t (sqrt (3 / 2)) _ (d_sin _ t _ (d_id t))) _); rr; ring|].
  split; [refine (is_derive_eq _ _ _ _ (d_id t) _); rr; field|]. split; [refine (is_derive_eq _ _ _ _ (is_derive_cst 0 t) _); rr; field|].
  split; [refine (is_derive_eq _ _ _ _ (is_derive_cst 1 t) _); rr; field|].
  refine (is_derive_eq _ _ _ _ (d_scale _ t (sqrt (3 / 2)) _ (d_cos _ t _ (d_id t))) _); rr; ring.
Qed.

(** (R^2 + z^2 - 1)^2 + R^2 is a Staeckel potential with focal distance 1 whose mixed second derivative is 8 R z. *)
Definition po_Phi (R z : RR) : RR := (R ^ 2 + z ^ 2 - 1) ^ 2 + R ^ 2.
Definition po_FR (R z : RR) : RR := - (4 * R * (R ^ 2 + z ^ 2 - 1) + 2 * R).
Definition po_Fz (R z : RR) : RR := - (4 * z * (R ^ 2 + z ^ 2 - 1)).
Definition po_P2R (R z : RR) : RR := 4 * (R ^ 2 + z ^ 2 - 1) + 8 * R ^ 2 + 2.
Definition po_P2z (R z : RR) : RR := 4 * (R ^ 2 + z ^ 2 - 1) + 8 * z ^ 2.
Definition po_PRz (R z : RR) : RR := 8 * R * z.
Lemma po_force : force_of po_Phi po_FR po_Fz.
Proof.
  intros R z s dR dz HR DR Dz. unfold po_Phi, po_FR, po_Fz. assert (XR : ex_derive R s) by (exists dR; exact DR). assert (Xz : ex_derive z s) by (exists dz; exact Dz).
  auto_derive. { auto. } change (fun x : RR => R x) with R. change (fun x : RR => z x) with z. rewrite (is_derive_unique _ _ _ DR), (is_derive_unique _ _ _ Dz). rr. ring.
Qed.
Lemma po_hessian : hessian_of po_FR po_Fz po_P2R po_P2z po_PRz.
Proof.
  split; intros R z s dR dz HR DR Dz; unfold po_FR, po_Fz, po_P2R, po_P2z, po_PRz; assert (XR : ex_derive R s) by (exists dR; exact DR); assert (Xz : ex_derive z s) by (exists dz; exact Dz);
    (auto_derive; [auto|]); change (fun x : RR => R x) with R; change (fun x : RR => z x) with z; rewrite (is_derive_unique _ _ _ DR), (is_derive_unique _ _ _ Dz); rr; ring.
Qed.
Lemma po_staeckel : staeckel 1 po_Phi (fun u => sinh u ^ 6) (fun v => - sin v ^ 6).
Proof.
  intros u v Hu Hv. unfold po_Phi. replace ((1 * cosh u * cos v) ^ 2) with (cosh u ^ 2 * cos v ^ 2) by ring. rewrite ch2, cv2. ring.
Qed.
