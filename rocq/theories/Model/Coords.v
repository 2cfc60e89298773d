(** Elementary coordinate transformations of galpy/util/coords.py over exact reals. *)
From Coq Require Import Reals.
From Verif.Lib Require Import Atan2.
Open Scope R_scope.
Notation RR := RbaseSymbolsImpl.R (only parsing).

(** coords.py 1103-1127 *)
Definition rect_to_cyl (X Y Z : RR) : RR * RR * RR := (sqrt (X ^ 2 + Y ^ 2), atan2 Y X, Z).
(** coords.py 1129-1152 *)
Definition cyl_to_rect (R phi Z : RR) : RR * RR * RR := (R * cos phi, R * sin phi, Z).
(** coords.py 1154-1179 *)
Definition cyl_to_spher (R Z phi : RR) : RR * RR * RR := (sqrt (R ^ 2 + Z ^ 2), atan2 R Z, phi).
(** coords.py 1181-1206 *)
Definition spher_to_cyl (r theta phi : RR) : RR * RR * RR := (r * sin theta, r * cos theta, phi).
