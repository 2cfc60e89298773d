(** Adaptive-rejection sampling: galpy/util/ars.py.  Floats are exact reals.  Not modelled: more than one sample per call (a history of attempts is),
    and the special cases that return 100000 or 100000000 instead of raising an error (223, 246), for which [sample_hull] gives None. *)
From Coq Require Import Reals List Arith Bool.
Import ListNotations.
Open Scope R_scope.

Record hull := mkHull { cu : R; xs : list R; hxs : list R; hpxs : list R; zs : list R; scum : list R; hus : list R }.
Record domain := mkDomain { lower : R; upper : R; lower_finite : bool; upper_finite : bool }.
Definition ltb (a b : R) : bool := if Rlt_dec a b then true else false.
Definition eq0 (a : R) : bool := if Req_EM_T a 0 then true else false.
Notation get l i := (nth i l 0).
Notation last_of l := (nth (length l - 1) l 0).

(** numpy.sort *)
Fixpoint insert_sorted (x : R) (l : list R) : list R := match l with [] => [x] | y :: l' => if ltb x y then x :: y :: l' else y :: insert_sorted x l' end.
Definition sort (l : list R) : list R := fold_right insert_sorted [] l.
(** numpy.insert(l, i, x); l[i] = x; numpy.cumsum *)
Definition insert_at (i : nat) (x : R) (l : list R) : list R := firstn i l ++ x :: skipn i l.
Definition set_at (i : nat) (x : R) (l : list R) : list R := firstn i l ++ x :: skipn (S i) l.
Fixpoint cumsum (acc : R) (l : list R) : list R := match l with [] => [] | x :: l => (acc + x) :: cumsum (acc + x) l end.
Definition sum (l : list R) : R := fold_right Rplus 0 l.

(** Mass under the pieces and the total, 138-172 and again 383-425 *)
Definition masses (d : domain) (xs hxs hpxs zs hus : list R) : R * list R :=
  let nx := length xs in
  let first := if lower_finite d then 1 / get hpxs 0 * (exp (get hus 0) - exp (get hpxs 0 * (lower d - get xs 0) + get hxs 0))
               else 1 / get hpxs 0 * exp (get hus 0) in
  let middle := map (fun j => if eq0 (get hpxs (j + 1)) then (get zs (j + 1) - get zs j) * exp (get hxs (j + 1))
                              else 1 / get hpxs (j + 1) * (exp (get hus (j + 1)) - exp (get hus j))) (seq 0 (nx - 2)) in
  let last := if upper_finite d then 1 / get hpxs (nx - 1) * (exp (get hpxs (nx - 1) * (upper d - get xs (nx - 1)) + get hxs (nx - 1)) - exp (get hus (nx - 2)))
              else - 1 / get hpxs (nx - 1) * exp (get hus (nx - 2)) in
  let scum := first :: middle in
  let cu := last + sum scum in
  (cu, map (fun s => s / cu) (cumsum 0 scum)).

(** setup_hull, 75-182; at least two abscissae *)
Definition setup_hull (d : domain) (abcissae : list R) (hx hpx : R -> R) : hull :=
  let nx := length abcissae in
  let xs := sort abcissae in
  let hxs := map hx xs in
  let hpxs := map hpx xs in
  let zs := map (fun j => (get hxs (j + 1) - get hxs j - get xs (j + 1) * get hpxs (j + 1) + get xs j * get hpxs j) / (get hpxs j - get hpxs (j + 1))) (seq 0 (nx - 1)) in
  let hus := map (fun j => get hpxs j * (get zs j - get xs j) + get hxs j) (seq 0 (nx - 1)) in
  let m := masses d xs hxs hpxs zs hus in
  mkHull (fst m) xs hxs hpxs zs (snd m) hus.

(** How many leading elements satisfy the loop condition *)
Fixpoint run (cond : R -> bool) (l : list R) : nat := match l with y :: l => if cond y then S (run cond l) else 0%nat | [] => 0%nat end.

(** sample_hull, 228-296, with the uniform variate u; None: the values returned in place of an error *)
Definition sample_hull (h : hull) (d : domain) (u : R) : option R :=
  if negb (ltb (get (scum h) 0) u) then
    if eq0 (get (hpxs h) 0) then if lower_finite d then Some (lower d + u / get (scum h) 0 * (get (zs h) 0 - lower d)) else None
    else Some (get (zs h) 0 + 1 / get (hpxs h) 0 * ln (1 - get (hpxs h) 0 * cu h * (get (scum h) 0 - u) / exp (get (hus h) 0)))
  else
    let indx := if (length (scum h) =? 1)%nat then 0%nat else (1 + run (fun s => ltb s u) (tl (scum h)) - 1)%nat in
    if eq0 (Rabs (get (hpxs h) (indx + 1))) then
      if negb (indx =? length (scum h) - 1)%nat then
        Some (get (zs h) indx + (u - get (scum h) indx) / (get (scum h) (indx + 1) - get (scum h) indx) * (get (zs h) (indx + 1) - get (zs h) indx))
      else if upper_finite d then Some (get (zs h) indx + (u - get (scum h) indx) / (1 - get (scum h) indx) * (upper d - get (zs h) indx))
      else None
    else Some (get (zs h) indx + 1 / get (hpxs h) (indx + 1) * ln (1 + get (hpxs h) (indx + 1) * cu h * (u - get (scum h) indx) / exp (get (hus h) indx))).

(** evaluate_hull, 299-355: the upper hull and the lower hull at x.  Inner None: minus the largest float (327, "neginf").  Outer None: IndexError. *)
Definition hull_index (x : R) (h : hull) : nat :=
  if ltb x (get (zs h) 0) then 0%nat
  else if (length (scum h) =? 1)%nat then 1%nat
  else (1 + run (fun z => ltb z x) (tl (zs h)) - 1)%nat.
Definition chord (h : hull) (i j : nat) (x : R) : R :=
  ((get (xs h) j - x) * get (hxs h) i + (x - get (xs h) i) * get (hxs h) j) / (get (xs h) j - get (xs h) i).
Definition evaluate_hull (x : R) (h : hull) : option (R * option R) :=
  let indx := hull_index x h in
  let n := length (xs h) in
  let hux := get (hpxs h) indx * (x - get (xs h) indx) + get (hxs h) indx in
  if ltb x (get (xs h) 0) || ltb (last_of (xs h)) x then Some (hux, None)
  else if (indx =? 0)%nat then Some (hux, Some (chord h 0 1 x))
  else if (indx =? length (zs h))%nat then Some (hux, Some (chord h (n - 2) (n - 1) x))
  else if ltb x (get (xs h) (indx + 1)) then Some (hux, Some (chord h indx (indx + 1) x))
  else if (indx + 2 <? n)%nat then Some (hux, Some (chord h (indx + 1) (indx + 2) x))
  else None.

(** update_hull, 358-433 *)
Definition update_hull (h : hull) (d : domain) (newx newhx newhpx : R) : hull :=
  let n := length (xs h) in
  let '(newxs, newhxs, newhpxs, newzs, newhus) :=
    if ltb (last_of (xs h)) newx then
      let newz := (newhx - last_of (hxs h) - newx * newhpx + last_of (xs h) * last_of (hpxs h)) / (last_of (hpxs h) - newhpx) in
      let newhu := last_of (hpxs h) * (newz - last_of (xs h)) + last_of (hxs h) in
      (xs h ++ [newx], hxs h ++ [newhx], hpxs h ++ [newhpx], zs h ++ [newz], hus h ++ [newhu])
    else
      let indx := run (fun y => ltb y newx) (xs h) in
      let newxs := insert_at indx newx (xs h) in
      let newhxs := insert_at indx newhx (hxs h) in
      let newhpxs := insert_at indx newhpx (hpxs h) in
      if ltb newx (get (xs h) 0) then
        let newz := (get (hxs h) 0 - newhx - get (xs h) 0 * get (hpxs h) 0 + newx * newhpx) / (newhpx - get (hpxs h) 0) in
        let newhu := newhpx * (newz - newx) + newhx in
        (newxs, newhxs, newhpxs, insert_at 0 newz (zs h), insert_at 0 newhu (hus h))
      else
        let before l := get l (if (indx =? 0)%nat then length l - 1 else indx - 1)%nat in          (* l[-1] is the last element *)
        let newz1 := (newhx - before (hxs h) - newx * newhpx + before (xs h) * before (hpxs h)) / (before (hpxs h) - newhpx) in
        let newz2 := (get (hxs h) indx - newhx - get (xs h) indx * get (hpxs h) indx + newx * newhpx) / (newhpx - get (hpxs h) indx) in
        let newhu1 := before (hpxs h) * (newz1 - before (xs h)) + before (hxs h) in
        let newhu2 := newhpx * (newz2 - newx) + newhx in
        (newxs, newhxs, newhpxs, set_at indx newz2 (insert_at (indx - 1) newz1 (zs h)), set_at indx newhu2 (insert_at (indx - 1) newhu1 (hus h))) in
  let m := masses d newxs newhxs newhpxs newzs newhus in
  mkHull (fst m) newxs newhxs newhpxs newzs (snd m) newhus.

(** One turn of the loop of sampleone, 185-225, with the two uniform variates it draws: the sample, if one is accepted, the hull and the number of updates.
    None: an error, or a value returned in place of one. *)
Definition attempt (hx hpx : R -> R) (d : domain) (maxn : nat) (st : hull * nat) (u1 u2 : R) : option (option R * (hull * nat)) :=
  let '(h, nupdates) := st in
  match sample_hull h d u1 with
  | None => None
  | Some candidate =>
    match evaluate_hull candidate h with
    | None => None
    | Some (thishux, thishlx) =>
      if match thishlx with Some thishlx => ltb u2 (exp (thishlx - thishux)) | None => false end then Some (Some candidate, (h, nupdates))
      else
        let thishx := hx candidate in
        let sample := if ltb u2 (exp (thishx - thishux)) then Some candidate else None in
        if (nupdates <? maxn)%nat then Some (sample, (update_hull h d candidate thishx (hpx candidate), S nupdates))
        else Some (sample, (h, nupdates))
    end
  end.
