(** Units: galpy/util/conversion.py with astropy (constants 29-44; factors 47-419; parsers 600-767; physical_output and physical_conversion 773-1033),
    the amplitude in galpy/potential/Force.py 62-96 and turn_physical_on/off of all classes that have it (e.g. Force.py 237-285, Orbits.py 1287-1339).
    Left out: arrays, the warning of 1025, [pop], parsers' checks of the type of their input (529-587), the decorators for actionAngle. *)
From Coq Require Import Reals List Bool String Ascii ZArith.
Import ListNotations.
Open Scope string_scope. Open Scope list_scope. Open Scope R_scope.

(** ** astropy: units with their value in kg, m, s and their dimension; angles are dimensionless *)
Record dim := mkDim { mass_dim : Z; length_dim : Z; time_dim : Z }.
Definition dim_eqb (a b : dim) : bool := (Z.eqb (mass_dim a) (mass_dim b) && Z.eqb (length_dim a) (length_dim b) && Z.eqb (time_dim a) (time_dim b))%bool.
Record unit_ := mkUnit { value : R; dimension : dim }.
Definition umul (a b : unit_) : unit_ :=
  mkUnit (value a * value b) (mkDim (mass_dim (dimension a) + mass_dim (dimension b)) (length_dim (dimension a) + length_dim (dimension b)) (time_dim (dimension a) + time_dim (dimension b))).
Definition udiv (a b : unit_) : unit_ :=
  mkUnit (value a / value b) (mkDim (mass_dim (dimension a) - mass_dim (dimension b)) (length_dim (dimension a) - length_dim (dimension b)) (time_dim (dimension a) - time_dim (dimension b))).
Definition uone : unit_ := mkUnit 1 (mkDim 0 0 0).
Fixpoint upow (a : unit_) (n : nat) : unit_ := match n with O => uone | S n => umul a (upow a n) end.
Definition uscale (k : R) (a : unit_) : unit_ := mkUnit (k * value a) (dimension a).
(** A Quantity is its value in kg, m, s and its dimension *)
Definition quantity := unit_.
Definition Quantity (x : R) (u : unit_) : quantity := uscale x u.
Inductive result (A : Type) := Ok (a : A) | UnitConversionError | TypeError | KeyError.
Arguments Ok {A}. Arguments UnitConversionError {A}. Arguments TypeError {A}. Arguments KeyError {A}.
Definition to_value (x : quantity) (u : unit_) : result R := if dim_eqb (dimension x) (dimension u) then Ok (value x / value u) else UnitConversionError.
Definition fmap (f : R -> R) (r : result R) : result R := match r with Ok a => Ok (f a) | e => e end.
(** try: ... except UnitConversionError *)
Definition or_else {A} (a b : result A) : result A := match a with UnitConversionError => b | r => r end.

Section Conversion.
  (** The parsec, solar mass, gravitational constant, speed of light and electron volt in kg, m, s *)
  Variables parsec solar grav light evolt : R.
  Definition pc := mkUnit parsec (mkDim 0 1 0).
  Definition kpc := uscale 1000 pc.
  Definition km := mkUnit 1000 (mkDim 0 1 0).
  Definition cm := mkUnit (1 / 100) (mkDim 0 1 0).
  Definition sec := mkUnit 1 (mkDim 0 0 1).
  Definition yr := mkUnit (36525 / 100 * 86400) (mkDim 0 0 1).                    (* astropy's year is the Julian year *)
  Definition Myr := uscale (10 ^ 6) yr.
  Definition Gyr := uscale (10 ^ 9) yr.
  Definition Msun := mkUnit solar (mkDim 1 0 0).
  Definition kg := mkUnit 1 (mkDim 1 0 0).
  Definition kms := udiv km sec.
  Definition Joule := mkUnit 1 (mkDim 1 2 (-2)).
  (** 31-44 *)
  Definition G_ : R := grav / (parsec / solar * 1000 ^ 2).
  Definition kmsInPcMyr : R := value kms / value (udiv pc Myr).
  Definition PCIN10p18CM : R := value pc / value cm / 10 ^ 18.
  Definition CIN10p5KMS : R := light / value kms / 10 ^ 5.
  Definition MSOLAR10p30KG : R := solar / 10 ^ 30.
  Definition EVIN10m19J : R := evolt * 10 ^ 19.
  Definition JIN10p10KM2S2Msun : R := 1 / (1000 ^ 2 * solar) / 10 ^ 10.
  Definition MyrIn1013Sec : R := 365242198 / 10 ^ 8 * (24 / 100) * (36 / 10).
  Definition TWOPI : R := 2 * PI.

  (** 47-419 *)
  Definition dens_in_criticaldens (vo ro H : R) : R := vo ^ 2 / ro ^ 2 * 10 ^ 6 / H ^ 2 * 8 * PI / 3.
  Definition dens_in_meanmatterdens (vo ro H Om : R) : R := dens_in_criticaldens vo ro H / Om.
  Definition dens_in_gevcc (vo ro : R) : R := vo ^ 2 / ro ^ 2 / G_ * MSOLAR10p30KG * CIN10p5KMS ^ 2 / EVIN10m19J / PCIN10p18CM ^ 3 * / 10 ^ 4.
  Definition dens_in_msolpc3 (vo ro : R) : R := vo ^ 2 / ro ^ 2 / G_ * / 10 ^ 6.
  Definition force_in_2piGmsolpc2 (vo ro : R) : R := vo ^ 2 / ro / G_ * / 10 ^ 3 / TWOPI.
  Definition force_in_pcMyr2 (vo ro : R) : R := vo ^ 2 / ro * kmsInPcMyr ^ 2 * / 10 ^ 3.
  Definition force_in_kmsMyr (vo ro : R) : R := vo ^ 2 / ro * kmsInPcMyr * / 10 ^ 3.
  Definition force_in_10m13kms2 (vo ro : R) : R := vo ^ 2 / ro * kmsInPcMyr * / 10 ^ 3 / MyrIn1013Sec.
  Definition freq_in_Gyr (vo ro : R) : R := vo / ro * kmsInPcMyr.
  Definition freq_in_kmskpc (vo ro : R) : R := vo / ro.
  Definition surfdens_in_msolpc2 (vo ro : R) : R := vo ^ 2 / ro / G_ * / 10 ^ 3.
  Definition mass_in_msol (vo ro : R) : R := vo ^ 2 * ro / G_ * 10 ^ 3.
  Definition mass_in_1010msol (vo ro : R) : R := vo ^ 2 * ro / G_ * / 10 ^ 7.
  Definition time_in_Gyr (vo ro : R) : R := ro / vo / kmsInPcMyr.
  Definition velocity_in_kpcGyr (vo ro : R) : R := vo * kmsInPcMyr.

  (** ** Parsers of Quantities, 600-767; a number is returned as it is *)
  Inductive input := Number (x : R) | Q (x : quantity).
  Definition parse (f : quantity -> result R) (x : input) : result R := match x with Number x => Ok x | Q x => f x end.
  Definition parse_length (ro vo : R) := parse (fun x => fmap (fun v => v / ro) (to_value x kpc)).
  Definition parse_length_kpc := parse (fun x => to_value x kpc).
  Definition parse_velocity (ro vo : R) := parse (fun x => fmap (fun v => v / vo) (to_value x kms)).
  Definition parse_velocity_kms := parse (fun x => to_value x kms).
  Definition parse_time (ro vo : R) := parse (fun x => fmap (fun v => v / time_in_Gyr vo ro) (to_value x Gyr)).
  Definition GM_unit := udiv (umul pc (upow km 2)) (upow sec 2).
  Definition parse_mass (ro vo : R) := parse (fun x =>
    or_else (fmap (fun v => v / mass_in_msol vo ro / G_) (to_value x GM_unit))
    (or_else (fmap (fun v => v * JIN10p10KM2S2Msun / CIN10p5KMS ^ 2 * G_ / ro / vo ^ 2 / 1000) (to_value x Joule))
             (fmap (fun v => v / mass_in_1010msol vo ro) (to_value x (uscale (10 ^ 10) Msun))))).
  Definition parse_energy (ro vo : R) := parse (fun x => fmap (fun v => v / vo ^ 2) (to_value x (udiv (upow km 2) (upow sec 2)))).
  Definition parse_angmom (ro vo : R) := parse (fun x => fmap (fun v => v / ro / vo) (to_value x (umul kpc kms))).
  Definition parse_frequency (ro vo : R) := parse (fun x => fmap (fun v => v / freq_in_kmskpc vo ro) (to_value x (udiv kms kpc))).
  Definition parse_force (ro vo : R) := parse (fun x =>
    or_else (fmap (fun v => v / force_in_pcMyr2 vo ro) (to_value x (udiv pc (upow Myr 2))))
            (fmap (fun v => v / force_in_2piGmsolpc2 vo ro) (to_value x (udiv Msun (upow pc 2))))).
  Definition parse_dens (ro vo : R) := parse (fun x =>
    or_else (fmap (fun v => v / dens_in_msolpc3 vo ro) (to_value x (udiv Msun (upow pc 3))))
            (fmap (fun v => v / dens_in_msolpc3 vo ro / G_) (to_value x (udiv (udiv (upow km 2) (upow sec 2)) (upow pc 2))))).
  Definition parse_surfdens (ro vo : R) := parse (fun x =>
    or_else (fmap (fun v => v / surfdens_in_msolpc2 vo ro) (to_value x (udiv Msun (upow pc 2))))
            (fmap (fun v => v / surfdens_in_msolpc2 vo ro / G_) (to_value x (udiv (udiv (upow km 2) (upow sec 2)) pc)))).
  Definition parse_numdens (ro vo : R) := parse (fun x => fmap (fun v => v * ro ^ 3) (to_value x (udiv uone (upow kpc 3)))).

  (** The amplitude of a Force given as a Quantity, Force.py 62-96: the kind of its units is found by trying parsers in this order *)
  Inductive amp_kind := Velocity2 | MassAmp | DensityAmp | SurfaceDensityAmp.
  Definition amp_eqb (a b : amp_kind) : bool :=
    match a, b with Velocity2, Velocity2 | MassAmp, MassAmp | DensityAmp, DensityAmp | SurfaceDensityAmp, SurfaceDensityAmp => true | _, _ => false end.
  Fixpoint try_amp (x : quantity) (amp_units : amp_kind) (l : list (amp_kind * (input -> result R))) : result R :=
    match l with
    | [] => UnitConversionError
    | (k, p) :: l => match p (Q x) with Ok v => if amp_eqb amp_units k then Ok v else UnitConversionError | _ => try_amp x amp_units l end
    end.
  Definition force_amp (ro vo : R) (amp_units : amp_kind) (x : quantity) : result R :=
    try_amp x amp_units [(Velocity2, parse_energy ro vo); (MassAmp, parse_mass ro vo); (DensityAmp, parse_dens ro vo); (SurfaceDensityAmp, parse_surfdens ro vo)].

  (** ** Output in physical units: the factor and the unit, 893-1011; None stands for Python's None: using it raises TypeError *)
  Definition with_ro (f : R -> R) (ro vo : option R) : result R := match ro with Some ro => Ok (f ro) | None => TypeError end.
  Definition with_vo (f : R -> R) (ro vo : option R) : result R := match vo with Some vo => Ok (f vo) | None => TypeError end.
  Definition with_both (f : R -> R -> R) (ro vo : option R) : result R := match ro, vo with Some ro, Some vo => Ok (f vo ro) | _, _ => TypeError end.
  Definition const (x : R) (ro vo : option R) : result R := Ok x.
  Definition mas_yr := udiv (mkUnit (PI / (180 * 3600 * 1000)) (mkDim 0 0 0)) yr.
  Definition deg := mkUnit (PI / 180) (mkDim 0 0 0).
  Definition output_table : list (string * ((option R -> option R -> result R) * unit_)) :=
    [("time", (with_both time_in_Gyr, Gyr));
     ("position", (with_ro (fun ro => ro), kpc));
     ("position_kpc", (const 1, kpc));
     ("velocity", (with_vo (fun vo => vo), kms));
     ("velocity2", (with_vo (fun vo => vo ^ 2), upow kms 2));
     ("velocity_kms", (const 1, kms));
     ("frequency", (with_both freq_in_Gyr, udiv uone Gyr));
     ("frequency-kmskpc", (with_both freq_in_kmskpc, udiv kms kpc));
     ("action", (with_both (fun vo ro => ro * vo), umul kpc kms));
     ("energy", (with_vo (fun vo => vo ^ 2), udiv (upow km 2) (upow sec 2)));
     ("angle", (const 1, uone));
     ("angle_deg", (const 1, deg));
     ("proper-motion_masyr", (const 1, mas_yr));
     ("force", (with_both force_in_kmsMyr, udiv kms Myr));
     ("density", (with_both dens_in_msolpc3, udiv Msun (upow pc 3)));
     ("numberdensity", (with_ro (fun ro => 1 / ro ^ 3), udiv uone (upow kpc 3)));
     ("velocity2surfacedensity", (with_both (fun vo ro => surfdens_in_msolpc2 vo ro * vo ^ 2), umul (udiv Msun (upow pc 2)) (upow kms 2)));
     ("surfacedensity", (with_both surfdens_in_msolpc2, udiv Msun (upow pc 2)));
     ("numbersurfacedensity", (with_ro (fun ro => 1 / ro ^ 2), udiv uone (upow kpc 2)));
     ("surfacedensitydistance", (with_both (fun vo ro => surfdens_in_msolpc2 vo ro * ro * 1000), udiv Msun pc));
     ("mass", (with_both mass_in_msol, Msun));
     ("forcederivative", (with_both (fun vo ro => freq_in_Gyr vo ro ^ 2), udiv uone (upow Gyr 2)));
     ("phasespacedensity", (with_both (fun vo ro => 1 / vo ^ 3 / ro ^ 3), udiv (udiv uone (upow kms 3)) (upow kpc 3)));
     ("phasespacedensity2d", (with_both (fun vo ro => 1 / vo ^ 2 / ro ^ 2), udiv (udiv uone (upow kms 2)) (upow kpc 2)));
     ("phasespacedensityvelocity", (with_both (fun vo ro => 1 / vo ^ 2 / ro ^ 3), udiv (udiv uone (upow kms 2)) (upow kpc 3)));
     ("phasespacedensityvelocity2", (with_both (fun vo ro => 1 / vo / ro ^ 3), udiv (udiv uone kms) (upow kpc 3)));
     ("massphasespacedensity", (with_both (fun vo ro => mass_in_msol vo ro / vo ^ 3 / ro ^ 3), udiv (udiv Msun (upow kms 3)) (upow kpc 3)));
     ("massenergydensity", (with_both (fun vo ro => mass_in_msol vo ro / vo ^ 2), udiv Msun (upow kms 2)));
     ("dimensionless", (const 1, uone))].

  Fixpoint lookup {A} (q : string) (l : list (string * A)) : option A := match l with [] => None | (k, v) :: l => if String.eqb q k then Some v else lookup q l end.
  Definition lower_char (a : ascii) : ascii := let n := nat_of_ascii a in if ((65 <=? n) && (n <=? 90))%nat then ascii_of_nat (n + 32) else a.
  Fixpoint lower (s : string) : string := match s with EmptyString => EmptyString | String a s => String (lower_char a) (lower s) end.
  Fixpoint underscore (s : string) : bool := match s with EmptyString => false | String a s => (Ascii.eqb a "_" || underscore s)%bool end.

  (** 773-814 *)
  Definition roNecessary : list (string * bool) :=
    [("time", true); ("position", true); ("position_kpc", true); ("velocity", false); ("velocity2", false); ("velocity2surfacendensity", false); ("velocity_kms", false);
     ("energy", false); ("density", true); ("numberdensity", true); ("force", true); ("velocity2surfacedensity", true); ("surfacedensity", true);
     ("numbersurfacedensity", true); ("surfacedensitydistance", true); ("mass", true); ("action", true); ("frequency", true); ("frequency-kmskpc", true);
     ("forcederivative", true); ("angle", true); ("angle_deg", true); ("proper-motion_masyr", true); ("phasespacedensity", true); ("phasespacedensity2d", true);
     ("phasespacedensityvelocity", true); ("phasespacedensityvelocity2", true); ("massphasespacedensity", true); ("massenergydensity", false); ("dimensionless", false)].
  Definition voNecessary : list (string * bool) :=
    map (fun kv : string * bool => let (k, v) := kv in
           (k, if existsb (String.eqb k) ["position"; "position_kpc"; "angle"; "angle_deg"] then false
               else if existsb (String.eqb k) ["velocity"; "velocity2"; "velocity_kms"; "energy"; "massenergydensity"] then true else v)) roNecessary.

  (** The attributes _ro, _roSet, _vo, _voSet of an object, and the keywords of a call.  A keyword may be absent, None, a number or a Quantity. *)
  Record scales := mkScales { s_ro : R; s_roSet : bool; s_vo : R; s_voSet : bool }.
  Record keywords := mkKw { use_physical : option bool; kw_ro : option (option input); kw_vo : option (option input); kw_log : bool; kmskpc : bool; kw_quantity : option bool }.
  Definition scale_kw (u : unit_) (kw : option (option input)) (fallback : option R) : result (option R) :=
    match kw with
    | Some (Some (Number x)) => Ok (Some x)
    | Some (Some (Q x)) => match to_value x u with Ok v => Ok (Some v) | UnitConversionError => UnitConversionError | TypeError => TypeError | KeyError => KeyError end
    | _ => Ok fallback
    end.
  (** physical_output, 818-871; [obj] None: an object without these attributes.  (An object without them is only passed for quantities without underscore;
      otherwise AttributeError, here KeyError.) *)
  Definition physical_output (obj : option scales) (kw : keywords) (q : string) : result (bool * option R * option R) :=
    let us := underscore q in
    let use := ((match use_physical kw with Some b => b | None => true end && negb (kw_log kw)) || us)%bool in
    let own (set : scales -> bool) (get : scales -> R) : option R := match obj with Some s => if (us || set s)%bool then Some (get s) else None | None => None end in
    match scale_kw kpc (kw_ro kw) (own s_roSet s_ro), scale_kw kms (kw_vo kw) (own s_voSet s_vo) with
    | Ok ro, Ok vo =>
      match lookup (lower q) voNecessary, lookup (lower q) roNecessary with
      | Some nv, Some nr => Ok ((use && negb (nv && match vo with None => true | _ => false end) && negb (nr && match ro with None => true | _ => false end))%bool, ro, vo)
      | _, _ => KeyError
      end
    | Ok _, e => match e with UnitConversionError => UnitConversionError | _ => TypeError end
    | e, _ => match e with UnitConversionError => UnitConversionError | _ => TypeError end
    end.
  Inductive output := Raw (x : R) | Phys (x : R) | PhysQ (x : quantity).
  (** physical_conversion, 874-1033, around a method that returns [out] in internal units; [apy] is the configured use of Quantities.
      "frequency" with kmskpc and without Quantities is in km/s/kpc, 917-923 *)
  Definition physical_conversion (apy : bool) (obj : option scales) (kw : keywords) (q : string) (out : R) : result output :=
    match physical_output obj kw q with
    | Ok (true, ro, vo) =>
      let apy := match kw_quantity kw with Some b => b | None => apy end in
      match lookup (lower q) output_table with
      | None => KeyError
      | Some (fac, u) =>
        match (if (String.eqb (lower q) "frequency" && kmskpc kw && negb apy)%bool then with_both freq_in_kmskpc ro vo else fac ro vo) with
        | Ok f => Ok (if apy then PhysQ (Quantity (out * f) u) else Phys (out * f))
        | UnitConversionError => UnitConversionError | TypeError => TypeError | KeyError => KeyError
        end
      end
    | Ok (false, _, _) => Ok (Raw out)
    | UnitConversionError => UnitConversionError | TypeError => TypeError | KeyError => KeyError
    end.

  (** ** turn_physical_on(ro, vo) and turn_physical_off().  An argument is False, None (the default), or a scale. *)
  Inductive arg := IsFalse | IsNone | Given (x : input).
  Inductive event := Off | On (ro vo : arg).
  Definition turn1 (p : input -> result R) (a : arg) (cur : R * bool) : result (R * bool) :=
    match a with
    | IsFalse => Ok cur
    | IsNone => Ok (fst cur, true)
    | Given x => match p x with Ok v => Ok (v, true) | UnitConversionError => UnitConversionError | TypeError => TypeError | KeyError => KeyError end
    end.
  (** The flag is set before the argument is parsed, and ro before vo is looked at (Force.py 275-284): a failing call leaves what was done before *)
  Definition turn (s : scales) (e : event) : scales :=
    match e with
    | Off => mkScales (s_ro s) false (s_vo s) false
    | On ro vo =>
      match turn1 parse_length_kpc ro (s_ro s, s_roSet s) with
      | Ok (r, rs) => match turn1 parse_velocity_kms vo (s_vo s, s_voSet s) with
                      | Ok (v, vs) => mkScales r rs v vs
                      | _ => mkScales r rs (s_vo s) true
                      end
      | _ => mkScales (s_ro s) true (s_vo s) (s_voSet s)
      end
    end.
  (** __init__ (Force.py 49-60, df.py 25-36, actionAngle.py 65-76); defaults from the configuration *)
  Definition init (ro_default vo_default : R) (ro vo : option input) : result scales :=
    match (match ro with None => Ok (ro_default, false) | Some x => match parse_length_kpc x with Ok v => Ok (v, true) | _ => UnitConversionError end end),
          (match vo with None => Ok (vo_default, false) | Some x => match parse_velocity_kms x with Ok v => Ok (v, true) | _ => UnitConversionError end end) with
    | Ok (r, rs), Ok (v, vs) => Ok (mkScales r rs v vs)
    | _, _ => UnitConversionError
    end.
End Conversion.
