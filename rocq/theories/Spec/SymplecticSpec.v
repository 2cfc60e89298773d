(** What a drift-kick composition is, time reversal, tangent maps and the symplectic form.  Independent of how the code organises its loops. *)
From Coq Require Import Reals List.
From Coquelicot Require Import Coquelicot.
From Verif.Model Require Import Symplectic.
Import ListNotations.
Open Scope R_scope.
Notation RR := RbaseSymbolsImpl.R (only parsing).

(** Drift: q += c dt p and time advances by c dt.  Kick: p += d dt F(t, q). *)
Inductive dk := Drift (c : RR) | Kick (d : RR).
Section Dk.
  Context {J : Type} (F : RR -> vec J -> vec J).
  Definition dk_op (dt : RR) (o : dk) (s : sstate J) : sstate J :=
    let '(q, p, t) := s in
    match o with
    | Drift c => (fun j => q j + c * dt * p j, p, t + c * dt)
    | Kick d => (q, fun j => p j + d * dt * F t q j, t)
    end.
  Definition dk_step (scheme : list dk) (dt : RR) (s : sstate J) : sstate J := fold_left (fun s o => dk_op dt o s) scheme s.
  Definition dk_run (scheme : list dk) (dt : RR) (n : nat) (s : sstate J) : sstate J := Nat.iter n (dk_step scheme dt) s.
End Dk.

Definition palindrome (scheme : list dk) : Prop := rev scheme = scheme.
Definition drift_sum (scheme : list dk) : RR := fold_right (fun o s => match o with Drift c => c + s | Kick _ => s end) 0 scheme.
Definition kick_sum (scheme : list dk) : RR := fold_right (fun o s => match o with Kick d => d + s | Drift _ => s end) 0 scheme.

Definition leapfrog_scheme : list dk := [Drift (1 / 2); Kick 1; Drift (1 / 2)].
(** Forest & Ruth / Kinoshita et al. *)
Definition fr_c1 : RR := 6756035959798289 / 10 ^ 16.
Definition fr_c2 : RR := - (1756035959798288 / 10 ^ 16).
Definition fr_d1 : RR := 13512071919596578 / 10 ^ 16.
Definition fr_d2 : RR := - (17024143839193153 / 10 ^ 16).
Definition fourth_order : list dk := [Drift fr_c1; Kick fr_d1; Drift fr_c2; Kick fr_d2; Drift fr_c2; Kick fr_d1; Drift fr_c1].
(** Yoshida (1990) *)
Definition yo_c1 : RR := 392256805238780 / 10 ^ 15.
Definition yo_c2 : RR := 510043411918458 / 10 ^ 15.
Definition yo_c3 : RR := - (471053385409758 / 10 ^ 15).
Definition yo_c4 : RR := 687531682525198 / 10 ^ 16.
Definition yo_d1 : RR := 784513610477560 / 10 ^ 15.
Definition yo_d2 : RR := 235573213359357 / 10 ^ 15.
Definition yo_d3 : RR := - (117767998417887 / 10 ^ 14).
Definition yo_d4 : RR := 131518632068391 / 10 ^ 14.
Definition sixth_order : list dk :=
  [Drift yo_c1; Kick yo_d1; Drift yo_c2; Kick yo_d2; Drift yo_c3; Kick yo_d3; Drift yo_c4; Kick yo_d4;
   Drift yo_c4; Kick yo_d3; Drift yo_c3; Kick yo_d2; Drift yo_c2; Kick yo_d1; Drift yo_c1].

(** Velocities reversed *)
Definition flipv {J} (s : sstate J) : sstate J := let '(q, p, t) := s in (q, fun j => - p j, t).
Definition pos {J} (s : sstate J) : vec J := fst (fst s).
Definition mom {J} (s : sstate J) : vec J := snd (fst s).
Definition time {J} (s : sstate J) : RR := snd s.

(** Curves of arrays and their derivative, component by component *)
Definition vderive {J} (c : RR -> vec J) (s : RR) (d : vec J) : Prop := forall j, is_derive (fun x => c x j) s (d j).
Definition sum_over {J} (js : list J) (f : J -> RR) : RR := fold_right Rplus 0 (map f js).
(** [K j k] is the derivative at (t, q) of component j of the force with respect to component k of the position: along every curve through
    q the force changes at the rate K times velocity. *)
Definition force_jacobian {J} (js : list J) (F : RR -> vec J -> vec J) (t : RR) (q : vec J) (K : J -> J -> RR) : Prop :=
  forall c s d, c s = q -> vderive c s d -> vderive (fun x => F t (c x)) s (fun j => sum_over js (fun k => K j k * d k)).
(** A force that is the gradient of a potential has a symmetric Jacobian. *)
Definition symmetric {J} (js : list J) (K : J -> J -> RR) : Prop := forall j k, In j js -> In k js -> K j k = K k j.
(** The force is evaluated at (t, q) in the course of n steps from s *)
Definition kicked_at {J} (F : RR -> vec J -> vec J) (scheme : list dk) (dt : RR) (n : nat) (s : sstate J) (t : RR) (q : vec J) : Prop :=
  exists (i : nat) (before : list dk) (d : RR) (after : list dk), (i < n)%nat /\ scheme = (before ++ Kick d :: after)%list /\
    time (dk_step F before dt (dk_run F scheme dt i s)) = t /\ pos (dk_step F before dt (dk_run F scheme dt i s)) = q.
(** The canonical two-form on pairs of deviations (dq, dp) *)
Definition symplectic_form {J} (js : list J) (u v : vec J * vec J) : RR :=
  sum_over js (fun j => fst u j * snd v j - fst v j * snd u j).

(** [v] is the image of the deviation [u] under the derivative of the map M at the point x: whenever a curve passes through x with velocity
    u, its image under M has velocity v. *)
Definition maps_tangent {J} (M : vec J * vec J -> vec J * vec J) (x u v : vec J * vec J) : Prop :=
  forall (c : RR -> vec J * vec J) s, c s = x -> vderive (fun x => fst (c x)) s (fst u) -> vderive (fun x => snd (c x)) s (snd u) ->
    vderive (fun x => fst (M (c x))) s (fst v) /\ vderive (fun x => snd (M (c x))) s (snd v).
(** M is differentiable at x and its derivative preserves the two-form. *)
Definition symplectic_at {J} (js : list J) (M : vec J * vec J -> vec J * vec J) (x : vec J * vec J) : Prop :=
  exists D : vec J * vec J -> vec J * vec J,
    (forall u, maps_tangent M x u (D u)) /\ forall u v, symplectic_form js (D u) (D v) = symplectic_form js u v.

(** Augmented states of the variational integrators: the orbit itself and its deviations *)
Definition base {J} (s : sstate (nat * J)) : sstate J := (block O (pos s), block O (mom s), time s).
Definition column {J} (b : nat) (s : sstate (nat * J)) : vec J * vec J := (block (S b) (pos s), block (S b) (mom s)).
