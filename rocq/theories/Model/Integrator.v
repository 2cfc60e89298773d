(** Which integrator an Orbit uses: galpy/orbit/Orbits.py (check_integrator 1341-1369, _check_method_c_compatible 1371-1391,
    _check_method_dissipative_compatible 1393-1405 and their uses), galpy/potential/Potential.py (_check_c), galpy/potential/DissipativeForce.py
    (_isDissipative) and the dispatch on the method in galpy/orbit/integrate*Orbit.py and integrateFullOrbit.c.  Warnings are left out. *)
From Coq Require Import List Bool String Ascii Arith.
Import ListNotations.
Open Scope string_scope. Open Scope list_scope. Open Scope nat_scope.

(** str.lower for ASCII letters, and [sub in s] *)
Definition lower_char (a : ascii) : ascii := let n := nat_of_ascii a in if (65 <=? n) && (n <=? 90) then ascii_of_nat (n + 32) else a.
Fixpoint lower (s : string) : string := match s with EmptyString => EmptyString | String a s => String (lower_char a) (lower s) end.
Fixpoint contains (sub s : string) : bool := prefix sub s || match s with EmptyString => false | String _ s => contains sub s end.
Definition mem (s : string) (l : list string) : bool := existsb (String.eqb s) l.

(** Forces as far as these functions see them: the four attributes, nesting of wrappers (WrapperPotential.py) and composites *)
Record flags := mkFlags { hasC : bool; hasC_dxdv : bool; hasC_dxdv3d : bool; hasC_dens : bool }.
Inductive force :=
| Leaf (c : flags) (dissipative : bool)
| Wrapper (c : flags) (inner : force)
| Composite (fs : list force).
(** _check_c, Potential.py 4089-4164, with the attribute that the keywords select; a composite's attribute is _check_c of its list
    (CompositePotential.py 85-88, baseCompositePotential.py 76-79) *)
Fixpoint check_c (attr : flags -> bool) (f : force) : bool :=
  match f with
  | Leaf c _ => attr c
  | Wrapper c f => attr c && check_c attr f
  | Composite fs => forallb (check_c attr) fs
  end.
(** _isDissipative, DissipativeForce.py 148-182; a wrapper is a Potential, for which the attribute is False *)
Fixpoint isDissipative (f : force) : bool :=
  match f with
  | Leaf _ d => d
  | Wrapper _ _ => false
  | Composite fs => existsb isDissipative fs
  end.

(** check_integrator *)
Definition all_methods : list string :=
  ["odeint"; "leapfrog"; "dop853"; "leapfrog_c"; "symplec4_c"; "symplec6_c"; "rk4_c"; "rk6_c"; "dopr54_c"; "dop853_c"; "ias15_c"].
Definition valid_methods (no_symplec allow_c_symplec : bool) : list string :=
  if no_symplec
  then filter (fun m => negb (mem m (["leapfrog"; "ias15_c"] ++ if allow_c_symplec then [] else ["leapfrog_c"; "symplec4_c"; "symplec6_c"]))) all_methods
  else all_methods.
Definition check_integrator (method : string) (no_symplec allow_c_symplec : bool) : bool :=
  mem (lower method) (valid_methods no_symplec allow_c_symplec).

Section Methods.
  (** ext_loaded: the compiled library was found *)
  Variable ext_loaded : bool.
  Definition check_method_c_compatible (method : string) (pot : force) : string :=
    if contains "_c" method && (negb ext_loaded || negb (check_c hasC pot))
    then if contains "leapfrog" method || contains "symplec" method then "leapfrog" else "odeint"
    else method.
  Definition check_method_dissipative_compatible (method : string) (pot : force) : string :=
    if isDissipative pot && (contains "leapfrog" method || contains "symplec" method)
    then if contains "_c" method then "dopr54_c" else "odeint"
    else method.

  (** What runs in the end: one of the three Python integrators or the C code with an integrator number *)
  Inductive executed := PyLeapfrog | PyDop853 | PyOdeint | InC (k : nat).
  (** _parse_integrator, integratePlanarOrbit.py 690-709 *)
  Definition parse_integrator (m : string) : nat :=
    let m := lower m in
    if String.eqb m "rk4_c" then 1 else if String.eqb m "rk6_c" then 2 else if String.eqb m "symplec4_c" then 3
    else if String.eqb m "symplec6_c" then 4 else if String.eqb m "dopr54_c" then 5 else if String.eqb m "dop853_c" then 6
    else if String.eqb m "ias15_c" then 7 else 0.
  (** integrateFullOrbit 1096, 1134, 1190; integratePlanarOrbit 1281, 1316, 1368; integrateLinearOrbit 309, 325, 341, 348 *)
  Definition python_integrate (m : string) : executed :=
    if String.eqb (lower m) "leapfrog" then PyLeapfrog
    else if String.eqb (lower m) "dop853" then PyDop853
    else if String.eqb (lower m) "odeint" then PyOdeint
    else InC (parse_integrator m).
  Inductive choice := Runs (e : executed) | ValueError | NotImplemented.
  (** _integrate_impl, 1644, 1730-1733 and 1771: [pot] is the potential after the reduction to the Orbit's dimension *)
  Definition integrate_method (force_map : bool) (pot : force) (method : string) : choice :=
    if negb (check_integrator method false false) then ValueError
    else
      let m := check_method_dissipative_compatible (check_method_c_compatible method pot) pot in
      if negb (contains "_c" m) || negb ext_loaded || force_map then Runs (python_integrate m) else Runs (InC (parse_integrator m)).
  (** integrate_SOS, 2163 and 2194-2198; integrate*Orbit_sos choose between dop853, odeint and C (integrateFullOrbit.py 1415) *)
  Definition sos_method (force_map : bool) (pot : force) (method : string) : choice :=
    if negb (check_integrator method true false) then ValueError
    else
      let m := check_method_dissipative_compatible (check_method_c_compatible method pot) pot in
      if negb (contains "_c" m) || negb ext_loaded || force_map then
        Runs (if negb (contains "_c" m) then if String.eqb (lower m) "dop853" then PyDop853 else PyOdeint else InC (parse_integrator m))
      else Runs (InC (parse_integrator m)).
  (** integrate_dxdv, 2376-2431 and 2445; integrate*Orbit_dxdv run dop853, odeint or C, and in three dimensions refuse dissipative forces in
      Python (integrateFullOrbit.py 947-963).  [phasedim] is 2 to 6 *)
  Definition dxdv_method (phasedim : nat) (pot : force) (method : string) : choice :=
    if negb (check_integrator method true ((phasedim =? 2) || (phasedim =? 4) || (phasedim =? 6))) then ValueError
    else
      let m := check_method_dissipative_compatible method pot in
      let allHasC := check_c hasC pot && check_c (if phasedim =? 6 then hasC_dxdv3d else hasC_dxdv) pot in
      let m := if contains "_c" m && (negb ext_loaded || negb allHasC) then "odeint" else m in
      if String.eqb (lower m) "dop853" || String.eqb (lower m) "odeint" then
        if (4 <? phasedim) && isDissipative pot then NotImplemented
        else Runs (if String.eqb (lower m) "dop853" then PyDop853 else PyOdeint)
      else Runs (InC (parse_integrator m)).
End Methods.

(** integrateFullOrbit.c 1091-1131: which integrators call evalRectDeriv, which passes the velocities to the forces, rather than
    evalRectForce, which calls the forces with the velocity left at its default 0; in Python, _EOM passes the velocities *)
Definition velocity_passed (e : executed) : bool :=
  match e with
  | PyLeapfrog => false | PyDop853 => true | PyOdeint => true
  | InC k => match k with 1 | 2 | 5 | 6 => true | _ => false end
  end.
