(** Handing potentials to the C code: galpy/orbit/integrateFullOrbit.py:_parse_pot 43-613 (with _parse_scf_pot, _parse_multipole_expansion_pot, _parse_disk_approx_pairs and
    _parse_noninertial_frame_force of integratePlanarOrbit.py 726-967 and MultipoleExpansionPotential.py:_serialize_for_c 2101-2217), and
    galpy/orbit/orbit_c_ext/integrateFullOrbit.c:parse_leapFuncArgs_Full 70-1047 (with the init functions 1392-1490 and potential_c_ext/MultipoleExpansionPotential.c 183-380).
    Numbers are reals; booleans and counts are passed as numbers.  Not modelled: the dtype conversions of _finalize_pot_args (666-687), memory management in C,
    the GSL objects built from the arrays (here: the arrays themselves), the table cache of NonInertialFrameForce (906-938). *)
From Coq Require Import Reals String List Bool ZArith Lia.
Import ListNotations.
Open Scope string_scope. Open Scope list_scope. Open Scope R_scope.

Definition tfunc := R -> R.
Definition of_nat (n : nat) : R := INR n.
Definition of_bool (b : bool) : R := if b then 1 else 0.
(** C's (int); only applied to numbers that are not negative *)
Definition to_int (x : R) : nat := Z.to_nat (Int_part x).

(** ** Python objects, with the attributes that are passed *)
Inductive ellipsoid := TriaxialHernquist (a a4 : R) | TriaxialNFW (a a3 : R) | TriaxialJaffe (a a2 : R)
| TwoPowerTriaxial (a alpha beta betaminusalpha twominusalpha threeminusalpha psi_inf : R) | PerfectEllipsoid (a2 : R) | TriaxialGaussian (twosigma2 : R) | PowerTriaxial (alpha : R).
Inductive scf_data := Static (Acos Asin : list R) | TimeDep (tgrid Acos_c Asin_c : list R).
Record scf := mkScf { scf_amp : R; scf_a : R; scf_nonaxi : bool; scf_N : nat; scf_L : nat; scf_M : nat; scf_coeffs : scf_data }.
(** blocks: the arrays I_inner, I_outer and rho for each l, m and cos (false) or sin (true), flattened *)
Record multipole := mkMult { mul_amp : R; mul_nonaxi : bool; mul_L : nat; mul_M : nat; mul_rgrid : list R; mul_tgrid : list R; mul_block : nat -> nat -> bool -> list R * list R * list R }.
Inductive sigma_profile := SExp (amp h : R) | SExpWHole (amp h Rhole : R).
Inductive hz_profile := HExp (h : R) | HSech2 (h : R).
Record frame := mkFrame { f_amp : R; rot_acc : bool; lin_acc : bool; omegaz_only : bool; const_freq : bool; Omega_as_func : bool;
  f_Omega : list R; f_Omega2 : R; f_Omegadot : list R;                                       (* one or three numbers *)
  a0_as_func : bool; f_a0 : list tfunc; f_x0 : list tfunc; f_v0 : list tfunc; f_Omega_funcs : list tfunc; f_Omegadot_funcs : list tfunc;
  cinterp : option nat }.                                                                    (* cinterp=True with cinterp_n *)
Inductive leaf :=
| LogarithmicHalo (amp q core2 : R) (onem1overb2 : option R)                                 (* None: axisymmetric *)
| DehnenBar (amp af tform tsteady rb omegab barphi : R)
| MiyamotoNagai (amp a b : R)
| PowerSpherical (amp alpha : R)
| Hernquist (amp a : R) | NFW (amp a : R) | Jaffe (amp a : R)
| DoubleExponentialDisk (amp alpha beta : R) (j0_xs j1_xs j0_weights j1_weights : list R)
| FlattenedPower (amp alpha q2 core2 : R)
| InterpRZ (amp : R) (logR : bool) (rgrid zgrid : list R) (pot rforce zforce : option (list R)) (r2deriv z2deriv rzderiv : option (list R))
| Isochrone (amp b : R)
| PowerSphericalwCutoff (amp alpha rc : R)
| MN3 (amp : R) (disks : (R * R * R) * (R * R * R) * (R * R * R))
| KuzminKutuzovStaeckel (amp ac Delta : R)
| Plummer (amp b : R) | PseudoIsothermal (amp a : R) | KuzminDisk (amp a : R) | Burkert (amp a : R)
| Ellipsoidal (amp : R) (e : ellipsoid) (b c b2 c2 : R) (rot : option (list R)) (glx glw : list R)     (* rot None: aligned *)
| SCF (s : scf)
| Multipole (m : multipole)
| SoftenedNeedleBar (amp a b c2 pa omegab : R)
| DiskMultipole (amp : R) (m : multipole) (pairs : list (sigma_profile * hz_profile))
| DiskSCF (amp : R) (s : scf) (pairs : list (sigma_profile * hz_profile))
| SpiralArms (amp N sin_alpha tan_alpha r_ref phi_ref Rs H omega : R) (Cs : list R)
| DehnenCoreSpherical (amp a : R) | DehnenSpherical (amp a alpha : R)
| HomogeneousSphere (amp R2 R3 : R)
| InterpSpherical (amp rmin rmax total_mass Phi0 Phimax : R) (rgrid rforce_grid : list R)
| NonInertialFrame (f : frame)
| NullPot
| Einasto (amp h n : R) | ExpTruncNFW (amp a rc : R) | TwoPowerSpherical (amp a alpha beta : R).
Record friction := mkFric { fr_amp : R; fr_rs : list R; fr_sigmars : list R; fr_ms : R; fr_rhm : R; fr_gamma : R; fr_lnLambda : option R; fr_minr : R }.
Inductive wrapper :=
| DehnenSmooth (amp tform tsteady : R) (grow : bool)
| SolidBodyRotation (amp omega pa : R)
| OblateStaeckel (amp delta u0 v0 refpot : R)
| CorotatingRotation (amp vpo beta pa to : R)
| GaussianAmplitude (amp to sigma2 : R)
| MovingObject (amp : R) (ts xs ys zs : list R)
| Chandrasekhar (f : friction)
| FDM (f : friction) (mhbar : R) (const_FDMfactor : option R)
| RotateAndTilt (amp : R) (rot : list R) (norot : bool) (offset : option (R * R * R))
| TimeDependentAmplitude (amp : R) (A : tfunc)
| KuzminLike (amp a b2 : R)
| CylindricallySeparable (amp Rp refpot : R).
Inductive pot := Leaf (l : leaf) | Wrap (w : wrapper) (inner : list pot).
Definition isNull (p : pot) : bool := match p with Leaf NullPot => true | _ => false end.

(** ** Python: how many potentials C will see, their types, their arguments and their time functions *)
Section Python.
  Variable nan : R.
  Variable linspace : R -> R -> nat -> list R.
  (** the integration times' range; None: surface-of-section integration, for which 887-894 raise *)
  Variable trange : option (R * R).
  Record serial := mkSer { n_pot : nat; pot_type : list Z; pot_args : list R; pot_tfuncs : list tfunc }.
  Definition leaf_ser (ty : Z) (args : list R) : option serial := Some (mkSer 1 [ty] args []).
  Definition app_ser (a b : serial) : serial := mkSer (n_pot a + n_pot b) (pot_type a ++ pot_type b) (pot_args a ++ pot_args b) (pot_tfuncs a ++ pot_tfuncs b).
  Definition bind_ser (a b : option serial) : option serial := match a, b with Some a, Some b => Some (app_ser a b) | _, _ => None end.
  Definition null_ser : serial := mkSer 0 [] [] [].
  (** 726-762; extra_amp for a component of another potential *)
  Definition scf_args (extra_amp : R) (s : scf) : list R :=
    let amp := extra_amp * scf_amp s in
    let head := [scf_a s; of_bool (scf_nonaxi s); of_nat (scf_N s); of_nat (scf_L s); of_nat (scf_M s)] in
    let cache := [-1; 0; 0; 0; 0; 0; 0; 0; 0; 0; 0] in
    match scf_coeffs s with
    | Static Ac As => head ++ [0] ++ map (Rmult amp) Ac ++ (if scf_nonaxi s then map (Rmult amp) As else []) ++ cache
    | TimeDep tg Ac As => head ++ [of_nat (length tg)] ++ tg ++ map (Rmult amp) Ac ++ (if scf_nonaxi s then map (Rmult amp) As else []) ++ cache
    end.
  (** MultipoleExpansionPotential.py 2141-2217, for m in range(min(l + 1, M)), cos and for m > 0 sin; and 765-775 *)
  Definition py_slots (L M : nat) : list (nat * nat * bool) :=
    flat_map (fun l => flat_map (fun m => (l, m, false) :: (if (0 <? m)%nat then [(l, m, true)] else [])) (seq 0 (Nat.min (l + 1) M))) (seq 0 L).
  Definition block_list (b : list R * list R * list R) : list R := let '(i, o, r) := b in i ++ o ++ r.
  Definition multipole_args (extra_amp : R) (m : multipole) : list R :=
    [of_nat (length (mul_rgrid m)); of_nat (mul_L m); of_nat (mul_M m); of_bool (mul_nonaxi m)] ++ mul_rgrid m ++ [mul_amp m * extra_amp; of_nat (length (mul_tgrid m))] ++ mul_tgrid m ++
    flat_map (fun s => let '(l, mm, b) := s in block_list (mul_block m l mm b)) (py_slots (mul_L m) (mul_M m)).
  (** 778-812 *)
  Definition pair_args (extra_amp : R) (p : sigma_profile * hz_profile) : list R :=
    match fst p with SExp amp h => [3; 0; 4 * PI * amp * extra_amp; h] | SExpWHole amp h Rh => [4; 1; 4 * PI * amp * extra_amp; h; Rh] end ++
    match snd p with HExp h => [0; h] | HSech2 h => [1; h] end.
  Definition pairs_ser (extra_amp : R) (l : list (sigma_profile * hz_profile)) : serial :=
    mkSer (length l) (repeat 26%Z (length l)) (flat_map (pair_args extra_amp) l) [].
  (** 835-967 *)
  Definition frame_base (f : frame) : list R :=
    [f_amp f] ++ repeat 0 10 ++ [of_bool (rot_acc f); of_bool (lin_acc f); of_bool (omegaz_only f); of_bool (const_freq f); of_bool (Omega_as_func f)] ++
    (if Omega_as_func f then repeat 0 7
     else (if omegaz_only f then [0; 0] ++ f_Omega f else f_Omega f) ++ [f_Omega2 f] ++
          (if (negb (const_freq f) && omegaz_only f)%bool then [0; 0] ++ f_Omegadot f else if negb (const_freq f) then f_Omegadot f else [0; 0; 0])).
  Definition frame_funcs (f : frame) : list tfunc :=
    (if lin_acc f then f_a0 f ++ (if rot_acc f then f_x0 f ++ f_v0 f else []) else []) ++ (if Omega_as_func f then f_Omega_funcs f ++ f_Omegadot_funcs f else []).
  Definition frame_splines (f : frame) : list tfunc :=
    (if lin_acc f then f_a0 f ++ (if rot_acc f then f_x0 f ++ f_v0 f else []) else []) ++ (if Omega_as_func f then f_Omega_funcs f else []).
  Definition genuine (f : frame) : bool := ((lin_acc f && a0_as_func f) || (lin_acc f && rot_acc f) || Omega_as_func f)%bool.
  Definition frame_ser (f : frame) : option serial :=
    match cinterp f with
    | Some n =>
      if genuine f then
        match trange with
        | None => None
        | Some (tmin, tmax) =>
          let tgrid := linspace tmin tmax n in
          Some (mkSer 1 [45%Z] ([of_nat (length (frame_splines f)); of_nat n] ++ tgrid ++ flat_map (fun g => map g tgrid) (frame_splines f) ++ frame_base f ++ [tmin; tmax]) [])
        end
      else Some (mkSer 1 [39%Z] (frame_base f) (frame_funcs f))
    | None => Some (mkSer 1 [39%Z] (frame_base f) (frame_funcs f))
    end.
  Definition ellipsoid_type (e : ellipsoid) : Z :=
    match e with TriaxialHernquist _ _ => 21 | TriaxialNFW _ _ => 22 | TriaxialJaffe _ _ => 23 | TwoPowerTriaxial _ _ _ _ _ _ _ => 43 | PerfectEllipsoid _ => 30 | TriaxialGaussian _ => 37 | PowerTriaxial _ => 38 end.
  Definition ellipsoid_args (e : ellipsoid) : list R :=
    match e with
    | TriaxialHernquist a a4 => [2; a; a4] | TriaxialNFW a a3 => [2; a; a3] | TriaxialJaffe a a2 => [2; a; a2]
    | TwoPowerTriaxial a al be ba ta tha p => [7; a; al; be; ba; ta; tha; p]
    | PerfectEllipsoid a2 => [1; a2] | TriaxialGaussian s => [1; - s] | PowerTriaxial al => [1; al]
    end.
  Definition eye : list R := [1; 0; 0; 0; 1; 0; 0; 0; 1].
  Definition gl_weight (b c b2 c2 x w : R) : R := -4 * PI * w * b * c / sqrt ((1 + (b2 - 1) * x ^ 2) * (1 + (c2 - 1) * x ^ 2)).
  Definition present (g : option (list R)) : R := of_bool (match g with Some _ => true | None => false end).
  Definition grid_or (dflt : list R) (g : option (list R)) : list R := match g with Some g => g | None => dflt end.
  (** 66-395 *)
  Definition leaf_to_c (l : leaf) : option serial :=
    match l with
    | LogarithmicHalo amp q core2 (Some b) => leaf_ser 0 [amp; q; core2; b]
    | LogarithmicHalo amp q core2 None => leaf_ser 0 [amp; q; core2; 2]
    | DehnenBar amp af tform tsteady rb omegab barphi => leaf_ser 1 [amp * af; tform; tsteady; rb; omegab; barphi]
    | MiyamotoNagai amp a b => leaf_ser 5 [amp; a; b]
    | PowerSpherical amp alpha => leaf_ser 7 [amp; alpha]
    | Hernquist amp a => leaf_ser 8 [amp; a]
    | NFW amp a => leaf_ser 9 [amp; a]
    | Jaffe amp a => leaf_ser 10 [amp; a]
    | DoubleExponentialDisk amp alpha beta x0 x1 w0 w1 => leaf_ser 11 ([amp; -4 * PI * alpha * amp; alpha; beta; of_nat (length x1)] ++ x0 ++ x1 ++ w0 ++ w1)
    | FlattenedPower amp alpha q2 core2 => leaf_ser 12 [amp; alpha; q2; core2]
    | InterpRZ amp logR rgrid zgrid p rf zf r2 z2 rz =>
      let ones := repeat 1 (length rgrid * length zgrid) in
      leaf_ser 13 ([of_nat (length rgrid); of_nat (length zgrid); present r2; present z2; present rz] ++ rgrid ++ zgrid ++
        grid_or ones p ++ grid_or ones rf ++ grid_or ones zf ++ grid_or [] r2 ++ grid_or [] z2 ++ grid_or [] rz ++ [amp; of_bool logR])
    | Isochrone amp b => leaf_ser 14 [amp; b]
    | PowerSphericalwCutoff amp alpha rc => leaf_ser 15 [amp; alpha; rc; 0; 0]
    | MN3 amp ((m1, a1, b1), (m2, a2, b2), (m3, a3, b3)) =>
      Some (mkSer 3 [5; 5; 5]%Z [amp * m1; a1; b1; amp * m2; a2; b2; amp * m3; a3; b3] [])
    | KuzminKutuzovStaeckel amp ac Delta => leaf_ser 16 [amp; ac; Delta]
    | Plummer amp b => leaf_ser 17 [amp; b]
    | PseudoIsothermal amp a => leaf_ser 18 [amp; a]
    | KuzminDisk amp a => leaf_ser 19 [amp; a]
    | Burkert amp a => leaf_ser 20 [amp; a]
    | Ellipsoidal amp e b c b2 c2 rot glx glw =>
      leaf_ser (ellipsoid_type e) ([amp] ++ repeat 0 15 ++ ellipsoid_args e ++ [b2; c2; of_bool (match rot with None => true | Some _ => false end)] ++
        (match rot with Some rot => rot | None => eye end) ++ [of_nat (length glx)] ++ glx ++ map (fun xw => gl_weight b c b2 c2 (fst xw) (snd xw)) (combine glx glw))
    | Multipole m => leaf_ser 44 (multipole_args 1 m)
    | SCF s => leaf_ser 24 (scf_args 1 s)
    | SoftenedNeedleBar amp a b c2 pa omegab => leaf_ser 25 ([amp; a; b; c2; pa; omegab] ++ repeat 0 7)
    | DiskMultipole amp m pairs => bind_ser (leaf_ser 44 (multipole_args amp m)) (Some (pairs_ser amp pairs))
    | DiskSCF amp s pairs => bind_ser (leaf_ser 24 (scf_args amp s)) (Some (pairs_ser amp pairs))
    | SpiralArms amp N sa ta rref phiref Rs H omega Cs => leaf_ser 27 ([of_nat (length Cs); amp; N; sa; ta; rref; phiref; Rs; H; omega] ++ Cs)
    | DehnenCoreSpherical amp a => leaf_ser 33 [amp; a]
    | DehnenSpherical amp a alpha => leaf_ser 34 [amp; a; alpha]
    | HomogeneousSphere amp R2 R3 => leaf_ser 35 [amp; R2; R3]
    | InterpSpherical amp rmin rmax mass Phi0 Phimax rgrid rf => leaf_ser 36 ([of_nat (length rgrid)] ++ rgrid ++ rf ++ [amp; rmin; rmax; mass; Phi0; Phimax])
    | NonInertialFrame f => frame_ser f
    | NullPot => leaf_ser 40 []
    | Einasto amp h n => leaf_ser 41 [amp; h; n]
    | ExpTruncNFW amp a rc => leaf_ser 46 [amp; a; rc]
    | TwoPowerSpherical amp a alpha beta => leaf_ser 42 [amp; a; alpha; beta]
    end.
  (** 480-496 *)
  Definition friction_args (f : friction) : list R :=
    [of_nat (length (fr_rs f))] ++ fr_rs f ++ fr_sigmars f ++ [fr_amp f] ++ [-1; 0; 0; 0; 0; 0; 0; 0] ++
    [fr_ms f; fr_rhm f; fr_gamma f ^ 2; match fr_lnLambda f with Some l => l | None => -1 end; fr_minr f ^ 2] ++ [hd 0 (fr_rs f); last (fr_rs f) 0].
  (** Each wrapper: its types before those of what it wraps, its arguments before (the count [n] of wrapped potentials) and after theirs, its time functions (396-602) *)
  Definition wrapper_ser (w : wrapper) (n : nat) : list Z * list R * list R * list tfunc :=
    match w with
    | DehnenSmooth amp tform tsteady grow => ([-1]%Z, [of_nat n], [amp; tform; tsteady; of_bool grow], [])
    | SolidBodyRotation amp omega pa => ([-2]%Z, [of_nat n], [amp; omega; pa], [])
    | OblateStaeckel amp delta u0 v0 refpot => ([-3]%Z, [of_nat n], [amp; delta; u0; v0; refpot], [])
    | CorotatingRotation amp vpo beta pa to => ([-4]%Z, [of_nat n], [amp; vpo; beta; pa; to], [])
    | GaussianAmplitude amp to sigma2 => ([-5]%Z, [of_nat n], [amp; to; sigma2], [])
    | MovingObject amp ts xs ys zs => ([-6]%Z, [of_nat n], [of_nat (length ts)] ++ ts ++ xs ++ ys ++ zs ++ [amp] ++ [hd 0 ts; last ts 0], [])
    | FDM f mhbar cf => ([-11; -7]%Z, [1; of_nat n], friction_args f ++ friction_args f ++ [mhbar; match cf with Some c => c | None => -1 end], [])
    | Chandrasekhar f => ([-7]%Z, [of_nat n], friction_args f, [])
    | RotateAndTilt amp rot norot offset =>
      ([-8]%Z, [of_nat n], [amp] ++ repeat 0 7 ++ rot ++ [of_bool (negb norot)] ++ [of_bool (match offset with Some _ => true | None => false end)] ++
        (match offset with Some (x, y, z) => [x; y; z] | None => [0; 0; 0] end) ++ repeat nan 4 ++ repeat 0 6, [])
    | TimeDependentAmplitude amp A => ([-9]%Z, [of_nat n], [amp], [A])
    | KuzminLike amp a b2 => ([-10]%Z, [of_nat n], [amp; a; b2], [])
    | CylindricallySeparable amp Rp refpot => ([-12]%Z, [of_nat n], [amp; Rp; refpot], [])
    end.
  (** The loop over the list, after the NullPotentials have been taken out if there is anything else (51-54) *)
  Fixpoint pot_to_c (p : pot) : option serial :=
    match p with
    | Leaf l => leaf_to_c l
    | Wrap w inner =>
      let keep_null := forallb isNull inner in
      match (fix go (l : list pot) : option serial :=
               match l with [] => Some null_ser | p :: l => if (isNull p && negb keep_null)%bool then go l else bind_ser (pot_to_c p) (go l) end) inner with
      | Some s => let '(ty, before, after, tfs) := wrapper_ser w (n_pot s) in Some (mkSer 1 (ty ++ pot_type s) (before ++ pot_args s ++ after) (pot_tfuncs s ++ tfs))
      | None => None
      end
    end.
  Fixpoint pots_to_c (keep_null : bool) (l : list pot) : option serial :=
    match l with [] => Some null_ser | p :: l => if (isNull p && negb keep_null)%bool then pots_to_c keep_null l else bind_ser (pot_to_c p) (pots_to_c keep_null l) end.
  Definition parse_pot (l : list pot) : option serial := pots_to_c (forallb isNull l) l.
End Python.

(** ** C *)
(** struct potentialArg: which functions are attached (the type), arrays that were read into splines or tables, blocks of a multipole expansion, arguments, time functions, wrapped potentials *)
Inductive carg := CArg (type : Z) (arrays : list (list R)) (blocks : list (nat * nat * bool * (list R * list R * list R))) (args : list R) (tfuncs : list tfunc) (wrapped : list carg).
(** Reading beyond the end of an array is None *)
Definition take {A} (n : nat) (l : list A) : option (list A * list A) := if (n <=? length l)%nat then Some (firstn n l, skipn n l) else None.
Definition obind {A B} (a : option A) (f : A -> option B) : option B := match a with Some a => f a | None => None end.
Notation "'let?' x ':=' a 'in' b" := (obind a (fun x => b)) (at level 200, x pattern, right associativity).
(** nargs, as set in the switch: 80-1003; [pa] is *pot_args there *)
Definition c_nargs (ty : Z) (pa : list R) : option nat :=
  match ty with
  | 0 => Some 4%nat | 1 => Some 6%nat | 5 => Some 3%nat | 7 => Some 2%nat | 8 => Some 2%nat | 9 => Some 2%nat | 10 => Some 2%nat
  | 11 => let? n := nth_error pa 4%nat in Some (to_int (5 + 4 * n)%R)
  | 12 => Some 4%nat | 13 => Some 2%nat | 14 => Some 2%nat | 15 => Some 5%nat | 16 => Some 3%nat | 17 => Some 2%nat | 18 => Some 2%nat | 19 => Some 2%nat | 20 => Some 2%nat
  | 21 | 22 | 23 | 30 | 37 | 38 | 43 => let? n := nth_error pa 16%nat in let? g := nth_error pa (to_int (n + 29)%R) in Some (to_int (30 + n + 2 * g)%R)
  | 24 =>
    let? na := nth_error pa 1%nat in let? N := nth_error pa 2%nat in let? L := nth_error pa 3%nat in let? M := nth_error pa 4%nat in let? Nt := nth_error pa 5%nat in
    Some (to_int (if Req_EM_T Nt 0 then 6 + (1 + na) * N * L * M + 11 else 6 + Nt + (1 + na) * N * L * M * 4 * (Nt - 1) + 11)%R)
  | 25 => Some 13%nat
  | 26 => let? n := nth_error pa 0%nat in Some (to_int n + 3)%nat
  | 27 => let? n := nth_error pa 0%nat in Some (to_int (10 + n)%R)
  | 33 => Some 2%nat | 34 => Some 3%nat | 35 => Some 3%nat | 36 => Some 6%nat | 39 => Some 23%nat | 45 => Some 25%nat | 40 => Some 0%nat | 41 => Some 3%nat | 42 => Some 4%nat | 44 => Some 0%nat | 46 => Some 3%nat
  | -1 => Some 4%nat | -2 => Some 3%nat | -3 => Some 5%nat | -4 => Some 5%nat | -5 => Some 3%nat | -6 => Some 3%nat | -7 => Some 16%nat | -8 => Some 32%nat | -9 => Some 1%nat | -10 => Some 3%nat | -11 => Some 18%nat | -12 => Some 3%nat
  | _ => None
  end%Z.
Definition c_ntfuncs (ty : Z) (pa : list R) : option nat :=
  match ty with
  | 39 =>
    let? rot := nth_error pa 11%nat in let? lin := nth_error pa 12%nat in let? oz := nth_error pa 13%nat in let? asf := nth_error pa 15%nat in
    Some (to_int (3 * lin * (1 + 2 * rot) + (6 - 4 * oz) * asf)%R)
  | -9 => Some 1%nat
  | _ => Some 0%nat
  end%Z.
(** What the switch itself reads: the tables of interpRZPotential (162-243) and the spline of interpSphericalPotential (573-601) *)
Definition c_switch_reads (ty : Z) (pa : list R) : option (list (list R) * list R) :=
  match ty with
  | 13 =>
    let? (h, pa) := take 5%nat pa in
    let nR := to_int (nth 0%nat h 0%R) in let nz := to_int (nth 1%nat h 0%R) in
    let? (rg, pa) := take nR pa in let? (zg, pa) := take nz pa in
    let? (p, pa) := take (nR * nz)%nat pa in let? (rf, pa) := take (nR * nz)%nat pa in let? (zf, pa) := take (nR * nz)%nat pa in
    let opt (f : R) (pa : list R) := if (to_int f =? 1)%nat then (let? (g, pa) := take (nR * nz)%nat pa in Some ([g], pa)) else Some ([], pa) in
    let? (g1, pa) := opt (nth 2%nat h 0%R) pa in let? (g2, pa) := opt (nth 3%nat h 0%R) pa in let? (g3, pa) := opt (nth 4%nat h 0%R) pa in
    Some ([firstn 3%nat (skipn 2%nat h); rg; zg; p; rf; zf] ++ g1 ++ g2 ++ g3, pa)
  | 36 =>
    let? (h, pa) := take 1%nat pa in let nr := to_int (nth 0%nat h 0%R) in
    let? (r, pa) := take nr pa in let? (f, pa) := take nr pa in Some ([r; f], pa)
  | _ => Some ([], pa)
  end%Z.
(** initMovingObjectSplines 1392-1433: the times are scaled with the arguments that follow *)
Definition c_moving (pa : list R) : option (list (list R) * list R) :=
  let? n := nth_error pa 0 in let n := to_int n in
  let? to := nth_error pa (1 + 4 * n + 1) in let? tf := nth_error pa (1 + 4 * n + 2) in
  let? (_, pa) := take 1 pa in
  let? (t, pa) := take n pa in let? (x, pa) := take n pa in let? (y, pa) := take n pa in let? (z, pa) := take n pa in
  Some ([map (fun t => (t - to) / (tf - to)) t; x; y; z], pa).
(** initChandrasekharDynamicalFrictionSplines 1464-1496 *)
Definition c_chandra (pa : list R) : option (list (list R) * list R) :=
  let? n := nth_error pa 0 in let n := to_int n in
  let? ro := nth_error pa (1 + 2 * n + 14) in let? rf := nth_error pa (1 + 2 * n + 15) in
  let? (_, pa) := take 1 pa in let? (r, pa) := take n pa in let? (s, pa) := take n pa in
  Some ([map (fun r => (r - ro) / (rf - ro)) r; s], pa).
(** initNonInertialFrameForceSplines 1435-1462 *)
Fixpoint takes {A} (k n : nat) (l : list A) : option (list (list A) * list A) :=
  match k with O => Some ([], l) | S k => let? (a, l) := take n l in let? (b, l) := takes k n l in Some (a :: b, l) end.
Definition c_frame (pa : list R) : option (list (list R) * list R) :=
  let? (h, pa) := take 2 pa in takes (1 + to_int (nth 0 h 0)) (to_int (nth 1 h 0)) pa.
(** initMultipoleExpansionPotentialArgs: loops over l, m < mmax = l + 1 < M ? l + 1 : M, and cos, and sin for m > 0 *)
Definition c_slots (L M : nat) : list (nat * nat * bool) :=
  flat_map (fun l => flat_map (fun m => map (fun trig => (l, m, trig)) (if (0 <? m)%nat then [false; true] else [false])) (seq 0 (if (l + 1 <? M)%nat then l + 1 else M))) (seq 0 L).
Fixpoint c_blocks (slots : list (nat * nat * bool)) (ni nr : nat) (pa : list R) : option (list (nat * nat * bool * (list R * list R * list R)) * list R) :=
  match slots with
  | [] => Some ([], pa)
  | s :: slots => let? (i, pa) := take ni pa in let? (o, pa) := take ni pa in let? (r, pa) := take nr pa in let? (bs, pa) := c_blocks slots ni nr pa in Some ((s, (i, o, r)) :: bs, pa)
  end.
Definition c_multipole (pa : list R) : option (list (list R) * list (nat * nat * bool * (list R * list R * list R)) * list R) :=
  let? (h, pa) := take 4 pa in
  let Nr := to_int (nth 0 h 0) in let L := to_int (nth 1 h 0) in let M := to_int (nth 2 h 0) in
  let? (rg, pa) := take Nr pa in let? (at_, pa) := take 2 pa in
  let Nt := to_int (nth 1 at_ 0) in
  let? (tg, pa) := take Nt pa in
  let k := if (0 <? Nt)%nat then (4 * (Nt - 1))%nat else 1%nat in
  let? (bs, pa) := c_blocks (c_slots L M) (k * (6 * (Nr - 1))) (k * Nr) pa in
  Some ([skipn 3 h; rg; firstn 1 at_; tg], bs, pa).
Section CParse.
  (** the parts in which the parsers for three-dimensional and planar orbits differ *)
  Variable nargs_of : Z -> list R -> option nat.
  Variable moving : list R -> option (list (list R) * list R).
(** 78-1047.  [fuel] bounds the recursion: every round consumes an entry of pot_type, so its length is enough *)
Fixpoint parse_gen (fuel npot : nat) (types : list Z) (pa : list R) (tfs : list tfunc) : option (list carg * list Z * list R * list tfunc) :=
  match npot with
  | O => Some ([], types, pa, tfs)
  | S npot =>
    match fuel, types with
    | S fuel, ty :: types =>
      let? nargs := nargs_of ty pa in
      let? ntf := c_ntfuncs ty pa in
      let? (arr1, pa) := c_switch_reads ty pa in
      let? (wrapped, types, pa, tfs) :=
        (if (ty <? 0)%Z then let? (h, pa) := take 1 pa in parse_gen fuel (to_int (nth 0 h 0)) types pa tfs else Some ([], types, pa, tfs)) in
      let? (arr2, pa) := (if (ty =? -6)%Z then moving pa else Some ([], pa)) in
      let? (arr3, pa) := (if ((ty =? -7) || (ty =? -11))%Z%bool then c_chandra pa else Some ([], pa)) in
      let? (arr4, pa) := (if (ty =? 45)%Z then c_frame pa else Some ([], pa)) in
      let? (arr5, bs, pa) := (if (ty =? 44)%Z then c_multipole pa else Some ([], [], pa)) in
      let? (args, pa) := take nargs pa in
      let? (tf, tfs) := take ntf tfs in
      let? (rest, types, pa, tfs) := parse_gen fuel npot types pa tfs in
      Some (CArg ty (arr1 ++ arr2 ++ arr3 ++ arr4 ++ arr5) bs args tf wrapped :: rest, types, pa, tfs)
    | _, _ => None
    end
  end.
End CParse.
Definition parse_c := parse_gen c_nargs c_moving.
