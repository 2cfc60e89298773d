(** galpy/util/__init__.py: _rotate_to_arbitrary_vector, for one row of its array argument. *)
From Coq Require Import Reals.
From Verif.Lib Require Import Vec3.
Open Scope R_scope.

(** numpy.cross(rotaxis, e_i) as row i: lines 175-178 *)
Definition crossmatrix (r : V3) : M3 :=
  mkM (vcross r (mkV 1 0 0)) (vcross r (mkV 0 1 0)) (vcross r (mkV 0 0 1)).
(** util/__init__.py 169-194.  A division by a zero norm (v = 0, or v parallel to a) gives nan in the code;
    that value is overwritten by lines 192-193 unless _dontcutsmall is set. *)
Definition rotate_to_arbitrary_vector (inv dontcutsmall : bool) (v a : V3) : M3 :=
  let normv := vscal (/ sqrt (vnorm2 v)) v in
  let rotaxis := vcross normv a in
  let rotaxis := vscal (/ sqrt (vnorm2 rotaxis)) rotaxis in
  let costheta := vdot normv a in
  let sintheta := sqrt (1 - costheta ^ 2) in
  let sgn := if inv then 1 else -1 in
  let out := addM (addM (scalM costheta eye) (scalM (sgn * sintheta) (crossmatrix rotaxis)))
                  (scalM (1 - costheta) (outer rotaxis rotaxis)) in
  if dontcutsmall then out
  else
    let out := if Rlt_dec (Rabs (costheta - 1)) (1 / 10 ^ 10) then eye else out in
    if Rlt_dec (Rabs (costheta + 1)) (1 / 10 ^ 10) then scalM (-1) eye else out.
