(** Differentiability in several variables, as used for wrapper potentials. *)
From Coq Require Import Reals.
From Coquelicot Require Import Coquelicot.
From Verif.Model Require Import PotAPI.
From Verif.Spec Require Import PotSpec PotApiSpec.
Open Scope R_scope.
Notation RR := RbaseSymbolsImpl.R (only parsing).

(** The chain rule holds for [F], with partial derivatives [FR], [Fz], [Fphi], along every
    differentiable path in (R, z, phi) at fixed time: [F] is differentiable (in the sense of
    Hadamard, the same as the usual total differentiability in finite dimension), which is more
    than having partial derivatives. *)
Definition differentiable_with (D : Dom) (F FR Fz Fphi : Fun4) : Prop :=
  forall t (R z phi : RR -> RR) (s dR dz dphi : RR), D (R s) (z s) (phi s) t ->
    is_derive R s dR -> is_derive z s dz -> is_derive phi s dphi ->
    is_derive (fun u => F (R u) (z u) (phi u) t) s
      (FR (R s) (z s) (phi s) t * dR + Fz (R s) (z s) (phi s) t * dz + Fphi (R s) (z s) (phi s) t * dphi).

Definition neg (F : Fun4) : Fun4 := fun R z phi t => - F R z phi t.

(** Everything the API returns for [p] is defined, and: the forces are minus the derivative of
    the potential, the second derivatives are those of the potential. *)
Record smooth_potential (D : Dom) (p : Pot) (Phi Fphi P2R P2z PRz P2p PRp Ppz : Fun4) : Prop := {
  sm_ev : apiEv p = Some Phi;
  sm_pt : apiPt p v0 = Some Fphi;
  sm_R2 : apiR2 p = Some P2R;
  sm_z2 : apiz2 p = Some P2z;
  sm_Rz : apiRz p = Some PRz;
  sm_p2 : apip2 p = Some P2p;
  sm_Rp : apiRp p = Some PRp;
  sm_pz : apipz p = Some Ppz;
  sm_dPhi : differentiable_with D Phi (neg (apiRf p v0)) (neg (apizf p v0)) (neg Fphi);
  sm_dR : differentiable_with D (neg (apiRf p v0)) P2R PRz PRp;
  sm_dz : differentiable_with D (neg (apizf p v0)) PRz P2z Ppz;
  sm_dp : differentiable_with D (neg Fphi) PRp Ppz P2p }.

Definition smooth (D : Dom) (p : Pot) : Prop :=
  exists Phi Fphi P2R P2z PRz P2p PRp Ppz, smooth_potential D p Phi Fphi P2R P2z PRz P2p PRp Ppz.

(** Values that do not change when the azimuth increases by a full turn. *)
Definition periodic (F : Fun4) : Prop := forall R z phi t, F R z (phi + 2 * PI) t = F R z phi t.

(** Values that do not depend on the azimuth at all. *)
Definition phi_free (F : Fun4) : Prop := forall R z phi phi' t, F R z phi t = F R z phi' t.
Definition phi_independent (p : Pot) : Prop :=
  exists Phi, apiEv p = Some Phi /\ phi_free Phi /\ phi_free (apiRf p v0) /\ phi_free (apizf p v0).

(** Value and forces do not change when the azimuth increases by a full turn. *)
Definition api_periodic (p : Pot) : Prop :=
  (forall F, apiEv p = Some F -> periodic F) /\ periodic (apiRf p v0) /\ periodic (apizf p v0) /\ (forall F, apiPt p v0 = Some F -> periodic F).
