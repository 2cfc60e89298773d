(** df/streamspraydf.py: the release of one star from a progenitor at relative position x and velocity v (the progenitor minus the centre, 548-560), at one
    stripping time. Not modelled: units, the sampling of stripping times and normal variates (any values), the integration to the present, stream tracks. *)
From Coq Require Import Reals List Lia String Bool.
Import ListNotations.
From Verif.Lib Require Import RealAux Vec3.
From Verif.Model Require Import Coords CoordsVec RotVec.
Open Scope string_scope.
Open Scope list_scope.
Open Scope R_scope.
Notation RR := RbaseSymbolsImpl.R (only parsing).

(** _setup_rot, 609-669. numpy.array([...]).T transposes the matrices that are written out *)
Definition zhat : V3 := mkV 0 0 1.
Definition Lnorm (x v : V3) : V3 := let L := vcross x v in vscal (/ sqrt (vnorm2 L)) L.
Definition z_rot (x v : V3) : M3 := transp (rotate_to_arbitrary_vector true false (Lnorm x v) zhat).
Definition z_rot_inv (x v : V3) : M3 := transp (rotate_to_arbitrary_vector false false (Lnorm x v) zhat).
Definition pa_rot (c s : RR) : M3 := transp (mkM (mkV c (- s) 0) (mkV s c 0) (mkV 0 0 1)).
Definition pa_rot_inv (c s : RR) : M3 := transp (mkM (mkV c s 0) (mkV (- s) c 0) (mkV 0 0 1)).
Definition cos_sin (x v : V3) : RR * RR := let y := mulMV (z_rot x v) x in let Rt := sqrt (vx y ^ 2 + vy y ^ 2) in (vx y / Rt, vy y / Rt).
Definition rot (x v : V3) : M3 := mulMM (let '(c, s) := cos_sin x v in pa_rot c s) (z_rot x v).
Definition rot_inv (x v : V3) : M3 := mulMM (z_rot_inv x v) (let '(c, s) := cos_sin x v in pa_rot_inv c s).

Section Spray.
  (** rtide(rtpot, R, Z, phi) and evaluateRforces(rtpot, R, Z, phi) at the stripping time; the mass of the progenitor then *)
  Variables rtide Rforce : RR -> RR -> RR -> RR.
  Variable mass : RR.
  (** _calc_vc, 700-725 *)
  Definition spray_vc (R z phi : RR) : RR := sqrt (- R * Rforce R z phi).
  (** chen24spraydf.spray_df, 937-966; g: one draw from the normal distribution *)
  Definition chen24 (xp vp : V3) (g : nat -> RR) (leading : bool) : V3 * V3 :=
    let '(Rpt, phipt, Zpt) := rect_to_cyl (vx xp) (vy xp) (vz xp) in
    let rt := rtide Rpt Zpt phipt in
    let Dr := g 0%nat * rt in
    let v_esc := sqrt (2 * mass / Dr) in
    let Dv := g 3%nat * v_esc in
    let Dr := if leading then Dr * -1 else Dr in
    let Dv := if leading then Dv * -1 else Dv in
    let '(dR, dz, dp) := spher_to_cyl Dr (0.5 * PI - g 2%nat) (g 1%nat) in
    let '(dx, dy, dz) := cyl_to_rect dR dp dz in
    let '(dvR, dvz, dvp) := spher_to_cyl Dv (0.5 * PI - g 5%nat) (g 4%nat) in
    let '(dvx, dvy, dvz) := cyl_to_rect dvR dvp dvz in
    (mkV (vx xp + dx) (vy xp + dy) (vz xp + dz), mkV (vx vp + dvx) (vy vp + dvy) (vz vp + dvz)).
  (** fardal15spraydf.spray_df, 1071-1103; g: six standard normal variates *)
  Definition fardal_k (mean sig g : nat -> RR) (leading : bool) (i : nat) : RR := (if leading then - mean i else mean i) + g i * sig i.
  Definition fardal15 (mean sig : nat -> RR) (xp vp : V3) (g : nat -> RR) (leading : bool) : V3 * V3 :=
    let '(Rpt, phipt, Zpt) := rect_to_cyl (vx xp) (vy xp) (vz xp) in
    let rt := rtide Rpt Zpt phipt in
    let vc := spray_vc Rpt Zpt phipt in
    let frac := rt / Rpt in
    let vpt := rect_to_cyl_vec (vx vp) (vy vp) (vz vp) Rpt phipt Zpt true in
    let k := fardal_k mean sig g leading in
    let Rst := Rpt + k 0%nat * rt in
    let pst := phipt + k 5%nat * frac in
    let Zst := k 3%nat * frac in
    let '(xst, yst, zst) := cyl_to_rect Rst pst Zst in
    (mkV xst yst zst, cyl_to_rect_vec (vx vpt * (1 + k 1%nat)) (vy vpt + k 2%nat * vc * frac) (k 4%nat * vc * frac) pst).
  (** _sample_tail, 548-586, for one star released from a progenitor with position P and velocity V: relative to the centre, if there is one, into the frame
      of the progenitor, release, and back *)
  Definition release (spray : V3 -> V3 -> (nat -> RR) -> bool -> V3 * V3) (center : option (V3 * V3)) (P V : V3) (g : nat -> RR) (leading : bool) : V3 * V3 :=
    let '(x, v) := match center with None => (P, V) | Some (c, w) => (vsub P c, vsub V w) end in
    let '(xs, vs) := spray (mulMV (rot x v) x) (mulMV (rot x v) v) g leading in
    let '(xs, vs) := (mulMV (rot_inv x v) xs, mulMV (rot_inv x v) vs) in
    match center with None => (xs, vs) | Some (c, w) => (vadd xs c, vadd vs w) end.
End Spray.
(** fardal15spraydf.__init__, 983-984: the default mean and scatter *)
Definition fardal_mean (i : nat) : RR := match i with 0%nat => 2 | 2%nat => 0.3 | _ => 0 end.
Definition fardal_sig (i : nat) : RR := match i with 0%nat => 0.4 | 2%nat => 0.4 | 3%nat => 0.5 | 4%nat => 0.5 | _ => 0 end.
(** sample, 193-206: for each star in turn, whether it is released into the leading tail. None: ValueError *)
Definition tail_flags (t : option string) (default : string) (n : nat) : option (list bool) :=
  let tail := match t with Some t => t | None => default end in
  if negb (String.eqb tail "leading" || String.eqb tail "trailing" || String.eqb tail "both") then None
  else if String.eqb tail "both" then Some (repeat true (n / 2) ++ repeat false (n - n / 2))
  else Some (repeat (String.eqb tail "leading") n).
