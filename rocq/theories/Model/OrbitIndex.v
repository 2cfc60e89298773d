(** Indexing and reshaping Orbits: galpy/orbit/Orbits.py 1179-1284; arrays of scales, 439-461. *)
From Coq Require Import Reals List Arith Bool ZArith.
From Verif.Model Require Import OrbitState.
Import ListNotations.
Open Scope nat_scope.

(** ** numpy: basic indexing of an array given by its shape and its entries in C order *)
Definition prod (sh : list nat) : nat := fold_right Nat.mul 1 sh.
Definition block {A} (size i : nat) (l : list A) : list A := firstn size (skipn (i * size) l).
(** One component of a key: an integer or a slice start:stop:step *)
Inductive sel := At (z : Z) | Slice (start stop step : option Z).
Definition norm_index (n : nat) (z : Z) : option nat :=
  let z' := (if z <? 0 then z + Z.of_nat n else z)%Z in if ((0 <=? z') && (z' <? Z.of_nat n))%Z then Some (Z.to_nat z') else None.
(** slice.indices and range; None: step 0 (ValueError) *)
Definition clamp (lo hi z : Z) : Z := Z.max lo (Z.min hi z).
Definition slice_range (n : nat) (start stop step : option Z) : option (Z * Z * nat) :=
  let N := Z.of_nat n in
  let st := match step with Some s => s | None => 1%Z end in
  if (st =? 0)%Z then None
  else
    let lo := (if 0 <? st then 0 else -1)%Z in let hi := (if 0 <? st then N else N - 1)%Z in
    let fix_ z := clamp lo hi (if z <? 0 then z + N else z)%Z in
    let a := match start with Some z => fix_ z | None => (if 0 <? st then 0 else N - 1)%Z end in
    let b := match stop with Some z => fix_ z | None => (if 0 <? st then N else -1)%Z end in
    let count := (if 0 <? st then (b - a + st - 1) / st else (a - b - st - 1) / (- st))%Z in
    Some (a, st, Z.to_nat count).
Definition slice_positions (n : nat) (start stop step : option Z) : option (list nat) :=
  match slice_range n start stop step with
  | Some (a, st, count) => Some (map (fun k => Z.to_nat (a + Z.of_nat k * st)) (seq 0 count))
  | None => None
  end.
Fixpoint index_shape (sh : list nat) (ks : list sel) : outcome (list nat) :=
  match sh, ks with
  | _, [] => Ok sh
  | [], _ :: _ => IndexError
  | n :: sh, At z :: ks => match norm_index n z with Some _ => index_shape sh ks | None => IndexError end
  | n :: sh, Slice a b s :: ks =>
    match slice_positions n a b s with
    | None => ValueError
    | Some pos => match index_shape sh ks with Ok sh' => Ok (length pos :: sh') | e => e end
    end
  end.
Fixpoint index_flat {A} (sh : list nat) (ks : list sel) (l : list A) : list A :=
  match sh, ks with
  | n :: sh, At z :: ks => match norm_index n z with Some i => index_flat sh ks (block (prod sh) i l) | None => [] end
  | n :: sh, Slice a b s :: ks =>
    match slice_positions n a b s with
    | None => []
    | Some pos => concat (map (fun i => index_flat sh ks (block (prod sh) i l)) pos)
    end
  | _, _ => l
  end.
(** A key: a tuple of components, a list of integers or a boolean mask along the first axis *)
Inductive key := Basic (ks : list sel) | Fancy (zs : list Z) | Mask (bs : list bool).
Fixpoint where_true (i : nat) (bs : list bool) : list nat := match bs with [] => [] | b :: bs => (if b then [i] else []) ++ where_true (S i) bs end.
Definition index {A} (sh : list nat) (k : key) (l : list A) : outcome (list nat * list A) :=
  match k with
  | Basic ks => match index_shape sh ks with Ok sh' => Ok (sh', index_flat sh ks l) | ValueError => ValueError | _ => IndexError end
  | Fancy zs =>
    match sh with
    | [] => IndexError
    | n :: sh => match all_some (map (norm_index n) zs) with
                 | Some pos => Ok (length pos :: sh, concat (map (fun i => block (prod sh) i l) pos))
                 | None => IndexError end
    end
  | Mask bs =>
    match sh with
    | [] => IndexError
    | n :: sh => if length bs =? n then let pos := where_true 0 bs in Ok (length pos :: sh, concat (map (fun i => block (prod sh) i l) pos)) else IndexError
    end
  end.

(** ** Orbits with a shape, names and scales.  _ro, _vo, _zo may hold one value per member (439-449); so may _solarmotion (450-461), not modelled apart. *)
Inductive scale := One (r : R) | Each (rs : list R).
Definition scale_of (s : scale) (i : nat) : R := match s with One r => r | Each rs => nth i rs 0%R end.
Record orbits (pot cache name : Type) := mkOrbits { shape : list nat; core : orb pot cache; names : option (list name); ro : scale; vo : scale; zo : scale }.
Arguments mkOrbits {pot cache name}. Arguments shape {pot cache name}. Arguments core {pot cache name}. Arguments names {pot cache name}.
Arguments ro {pot cache name}. Arguments vo {pot cache name}. Arguments zo {pot cache name}.

(** __getitem__, 1198-1232 and _from_slice, 1234-1251: the attributes of the new object are set from the selected members.  _orig_pot and
    _cannot_continue_integration are not among them, and the scales are copied whole (1206-1212).  Not modelled: the copy made of the arrays. *)
Definition select {pot cache} (o : orb pot cache) (idx : list nat) : orb pot cache :=
  match orbit_ o with
  | Some rows =>
    mkOrb (take (vxvv o) [] idx)
          (match t_ o with Some (PerOrbit tss) => Some (PerOrbit (take tss [] idx)) | T => T end)
          (Some (take rows [] idx)) (pot_ o) None false None
  | None => fresh (take (vxvv o) [] idx)
  end.
Definition getitem {pot cache name} (dname : name) (o : orbits pot cache name) (k : key) : outcome (orbits pot cache name) :=
  match index (shape o) k (seq 0 (length (vxvv (core o)))) with
  | Ok (sh', idx) => Ok (mkOrbits sh' (select (core o) idx) (option_map (fun ns => take ns dname idx) (names o)) (ro o) (vo o) (zo o))
  | ValueError => ValueError
  | _ => IndexError
  end.
(** reshape, 1253-1284, in place; newshape without -1 *)
Definition reshape {pot cache name} (o : orbits pot cache name) (newshape : list nat) : orbits pot cache name * outcome unit :=
  if prod newshape =? prod (shape o) then (mkOrbits newshape (core o) (names o) (ro o) (vo o) (zo o), Ok tt) else (o, ValueError).
