(** What numerical derivatives and approximated disks are measured against; no reference to how the library computes them. *)
From Coq Require Import Reals ZArith List.
Import ListNotations.
From Coquelicot Require Import Coquelicot.
Open Scope R_scope.
Notation RR := RbaseSymbolsImpl.R (only parsing).

(** g 0, g 1, ..., g n are a function and its first n derivatives on [a, b]. *)
Definition derivatives (g : nat -> RR -> RR) (n : nat) (a b : RR) : Prop :=
  forall k x, (k < n)%nat -> a <= x <= b -> is_derive (g k) x (g (S k) x).
(** |h| <= K on [a, b] *)
Definition bounded (h : RR -> RR) (K a b : RR) : Prop := forall x, a <= x <= b -> Rabs (h x) <= K.

(** A function of two variables on [x0, x1] x [y0, y1] with the mixed derivatives the error of a mixed difference is written in:
    [uy k] is the k-th derivative in x of du/dy, for k up to 3; [ux k] the k-th derivative in y of du/dx at x = [x], for k up to 3;
    the two mixed second derivatives agree at x. *)
Definition mixed (u : RR -> RR -> RR) (uy : nat -> RR -> RR -> RR) (ux : nat -> RR -> RR) (x x0 x1 y0 y1 : RR) : Prop :=
  (forall a b, x0 <= a <= x1 -> y0 <= b <= y1 -> is_derive (fun y => u a y) b (uy 0%nat a b)) /\
  (forall k a b, (k < 3)%nat -> x0 <= a <= x1 -> y0 <= b <= y1 -> is_derive (fun s => uy k s b) a (uy (S k) a b)) /\
  (forall b, y0 <= b <= y1 -> is_derive (fun s => u s b) x (ux 0%nat b)) /\
  (forall k b, (k < 3)%nat -> y0 <= b <= y1 -> is_derive (ux k) b (ux (S k) b)) /\
  (forall b, y0 <= b <= y1 -> uy 1%nat x b = ux 1%nat b).

(** The mass of a disk of density amp exp(-R/hr - |z|/hz), or amp exp(-R/hr) sech^2(z/hz). *)
Definition exponential_disk_mass (amp hr hz : RR) : RR := 4 * PI * amp * hr ^ 2 * hz.
(** A potential falls off in the plane like that of a mass M. *)
Definition far_mass (Phi : RR -> RR -> RR -> RR -> RR) (M : RR) : Prop :=
  forall phi t, is_lim (fun R => R * Phi R 0 phi t) p_infty (- M).

(** The published fit of Smith et al. (2015) as data: for each of the three disks the coefficients, in units of 1e-4 and from the fourth power down, of its
    mass and of its scale length, as functions of b / hr; the left table may have negative density, the right one not.  Then b / hr as a function of hz / hr,
    in units of 1e-3 and from the third power down, for exponential and for sech^2 profiles. *)
Definition smith_table (positive_density : bool) : list (list Z * list Z) := if positive_density
  then [([36; -330; 1117; -1335; 1749], [-158; 993; -2070; -7089; 6445]); ([-131; 1090; -3035; 2921; -57976], [-319; 1514; -1279; -9325; 26836]); ([-48; 454; -1425; 1012; 67120], [-326; 1816; -2943; -6329; 23193])]%Z
  else [([-90; 640; -1653; 1164; 19487], [-358; 2610; -6987; -1193; 20074]); ([173; -903; 877; 2029; -13077], [-830; 4992; -7967; -12966; 44441]); ([-51; 287; -361; -544; 2242], [-247; 1718; -4124; -5944; 7333])]%Z.
Definition smith_b (sech2 : bool) : list Z := if sech2 then [-33; 262; 659; 0]%Z else [-269; 1080; 1092; 0]%Z.
(** Horner's rule *)
Definition decimal_poly (unit : RR) (c : list Z) (x : RR) : RR := fold_left (fun acc k => acc * x + IZR k / unit) c 0.
