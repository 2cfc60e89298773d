(** C35 specification: what the C code should end up working with for a list of Python potentials: for every potential the quantities by name, the interpolation tables by name, the time
    functions, and what it wraps.  Potentials that are sums in Python (three Miyamoto-Nagai disks; a basis-function expansion plus disk approximations) are those sums; potentials that are
    identically zero are left out unless there is nothing else. *)
From Coq Require Import Reals String List Bool ZArith Lia.
From Verif Require Import Model.CSerial.
Import ListNotations.
Open Scope string_scope. Open Scope list_scope. Open Scope R_scope.

Inductive seen := Seen (name : string) (fields : list (string * list R)) (blocks : list (nat * nat * bool * (list R * list R * list R))) (funcs : list tfunc) (inner : list seen).
Definition one (f : string * R) : string * list R := (fst f, [snd f]).
Definition flat (name : string) (fields : list (string * R)) : seen := Seen name (map one fields) [] [] [].

(** ** Python's potentials in these terms *)
Definition seen_scf (factor : R) (s : scf) : seen :=
  let amp := factor * scf_amp s in
  let common := [("a", [scf_a s]); ("isNonAxi", [of_bool (scf_nonaxi s)]); ("N", [of_nat (scf_N s)]); ("L", [of_nat (scf_L s)]); ("M", [of_nat (scf_M s)])] in
  let sin_part A := if scf_nonaxi s then map (fun x => amp * x) A else [] in
  match scf_coeffs s with
  | Static Ac As => Seen "SCF" (common ++ [("tgrid", []); ("Acos", map (fun x => amp * x) Ac); ("Asin", sin_part As); ("radius of cached force", [-1])]) [] [] []
  | TimeDep tg Ac As => Seen "SCF" (common ++ [("tgrid", tg); ("Acos", map (fun x => amp * x) Ac); ("Asin", sin_part As); ("radius of cached force", [-1])]) [] [] []
  end.
(** every l < L, m <= l with m < M, in order; the sine part only for m > 0 *)
Definition expected_blocks (m : multipole) (bs : list (nat * nat * bool * (list R * list R * list R))) : Prop :=
  (forall l mm s b, In (l, mm, s, b) bs -> b = mul_block m l mm s) /\
  (forall l mm s, In (l, mm, s) (map fst bs) <-> (l < mul_L m /\ mm <= l /\ mm < mul_M m /\ (s = true -> 0 < mm))%nat) /\ NoDup (map fst bs).
Definition seen_multipole (factor : R) (m : multipole) (bs : list (nat * nat * bool * (list R * list R * list R))) : seen :=
  Seen "MultipoleExpansion" [("isNonAxi", [of_bool (mul_nonaxi m)]); ("rgrid", mul_rgrid m); ("amp", [mul_amp m * factor]); ("tgrid", mul_tgrid m)] bs [] [].
Definition seen_pair (factor : R) (p : sigma_profile * hz_profile) : seen :=
  let '(s, h) := p in
  flat "DiskApprox"
    (match s with SExp amp h => [("Sigma type", 0); ("Sigma amp", 4 * PI * amp * factor); ("Sigma h", h)]
                | SExpWHole amp h Rh => [("Sigma type", 1); ("Sigma amp", 4 * PI * amp * factor); ("Sigma h", h); ("Sigma Rhole", Rh)] end ++
     match h with HExp h => [("hz type", 0); ("hz h", h)] | HSech2 h => [("hz type", 1); ("hz h", h)] end).
Definition scaled (x0 x1 : R) (l : list R) : list R := map (fun x => (x - x0) / (x1 - x0)) l.
Definition first (l : list R) : R := hd 0 l.
Definition final (l : list R) : R := last l 0.

Section Spec.
  Variable nan : R.
  Variable linspace : R -> R -> nat -> list R.
  Variable trange : option (R * R).
  (** the rotation frequency and its derivative as three numbers each; a rotation about z only has one *)
  Definition vec3 (only_z : bool) (l : list R) : list R := if only_z then [0; 0; nth 0%nat l 0] else l.
  Definition frame_fields (f : frame) : list (string * list R) :=
    [("amp", [f_amp f]); ("rot_acc", [of_bool (rot_acc f)]); ("lin_acc", [of_bool (lin_acc f)]); ("omegaz_only", [of_bool (omegaz_only f)]); ("const_freq", [of_bool (const_freq f)]); ("Omega_as_func", [of_bool (Omega_as_func f)])] ++
    (if Omega_as_func f then [("Omega", [0; 0; 0]); ("Omega2", [0]); ("Omegadot", [0; 0; 0])]
     else [("Omega", vec3 (omegaz_only f) (f_Omega f)); ("Omega2", [f_Omega2 f]); ("Omegadot", if const_freq f then [0; 0; 0] else vec3 (omegaz_only f) (f_Omegadot f))]).
  Definition on (b : bool) {A} (l : list A) : list A := if b then l else [].
  (** does [s] describe potential [l]? *)
  Inductive describes : leaf -> list seen -> Prop :=
  | d_log amp q core2 b : describes (LogarithmicHalo amp q core2 b) [flat "LogarithmicHalo" [("amp", amp); ("q", q); ("core2", core2); ("1-1/b^2 (2: axisymmetric)", match b with Some x => x | None => 2 end)]]
  | d_bar amp af tform tsteady rb omegab barphi : describes (DehnenBar amp af tform tsteady rb omegab barphi)
      [flat "DehnenBar" [("amp", amp * af); ("tform", tform); ("tsteady", tsteady); ("rb", rb); ("omegab", omegab); ("barphi", barphi)]]
  | d_mn amp a b : describes (MiyamotoNagai amp a b) [flat "MiyamotoNagai" [("amp", amp); ("a", a); ("b", b)]]
  | d_ps amp alpha : describes (PowerSpherical amp alpha) [flat "PowerSpherical" [("amp", amp); ("alpha", alpha)]]
  | d_hern amp a : describes (Hernquist amp a) [flat "Hernquist" [("amp", amp); ("a", a)]]
  | d_nfw amp a : describes (NFW amp a) [flat "NFW" [("amp", amp); ("a", a)]]
  | d_jaffe amp a : describes (Jaffe amp a) [flat "Jaffe" [("amp", amp); ("a", a)]]
  | d_dexp amp alpha beta x0 x1 w0 w1 : describes (DoubleExponentialDisk amp alpha beta x0 x1 w0 w1)
      [Seen "DoubleExponentialDisk" [("amp", [amp]); ("-4 pi alpha amp", [-4 * PI * alpha * amp]); ("alpha", [alpha]); ("beta", [beta]); ("j0 xs", x0); ("j1 xs", x1); ("j0 weights", w0); ("j1 weights", w1)] [] [] []]
  | d_fp amp alpha q2 core2 : describes (FlattenedPower amp alpha q2 core2) [flat "FlattenedPower" [("amp", amp); ("alpha", alpha); ("q2", q2); ("core2", core2)]]
  | d_interp amp logR rg zg p rf zf r2 z2 rz :
      let ones := repeat 1 (length rg * length zg) in let tab n g := match g with Some g => [(n, g)] | None => [] end in
      describes (InterpRZ amp logR rg zg p rf zf r2 z2 rz)
        [Seen "interpRZ" ([("amp", [amp]); ("logR", [of_bool logR]); ("R", rg); ("z", zg); ("pot", match p with Some g => g | None => ones end); ("rforce", match rf with Some g => g | None => ones end);
                           ("zforce", match zf with Some g => g | None => ones end)] ++ tab "r2deriv" r2 ++ tab "z2deriv" z2 ++ tab "rzderiv" rz) [] [] []]
  | d_iso amp b : describes (Isochrone amp b) [flat "Isochrone" [("amp", amp); ("b", b)]]
  | d_psc amp alpha rc : describes (PowerSphericalwCutoff amp alpha rc) [flat "PowerSphericalwCutoff" [("amp", amp); ("alpha", alpha); ("rc", rc)]]
  | d_mn3 amp m1 a1 b1 m2 a2 b2 m3 a3 b3 : describes (MN3 amp ((m1, a1, b1), (m2, a2, b2), (m3, a3, b3)))
      [flat "MiyamotoNagai" [("amp", amp * m1); ("a", a1); ("b", b1)]; flat "MiyamotoNagai" [("amp", amp * m2); ("a", a2); ("b", b2)]; flat "MiyamotoNagai" [("amp", amp * m3); ("a", a3); ("b", b3)]]
  | d_kks amp ac D : describes (KuzminKutuzovStaeckel amp ac D) [flat "KuzminKutuzovStaeckel" [("amp", amp); ("ac", ac); ("Delta", D)]]
  | d_plum amp b : describes (Plummer amp b) [flat "Plummer" [("amp", amp); ("b", b)]]
  | d_pi amp a : describes (PseudoIsothermal amp a) [flat "PseudoIsothermal" [("amp", amp); ("a", a)]]
  | d_kuz amp a : describes (KuzminDisk amp a) [flat "KuzminDisk" [("amp", amp); ("a", a)]]
  | d_burk amp a : describes (Burkert amp a) [flat "Burkert" [("amp", amp); ("a", a)]]
  | d_ell amp e b c b2 c2 rot glx glw :
      describes (Ellipsoidal amp e b c b2 c2 rot glx glw)
        [Seen (match e with TriaxialHernquist _ _ => "TriaxialHernquist" | TriaxialNFW _ _ => "TriaxialNFW" | TriaxialJaffe _ _ => "TriaxialJaffe" | TwoPowerTriaxial _ _ _ _ _ _ _ => "TwoPowerTriaxial"
                          | PerfectEllipsoid _ => "PerfectEllipsoid" | TriaxialGaussian _ => "TriaxialGaussian" | PowerTriaxial _ => "PowerTriaxial" end)
           ([("amp", [amp])] ++
            match e with
            | TriaxialHernquist a a4 => [("a", [a]); ("a4", [a4])] | TriaxialNFW a a3 => [("a", [a]); ("a3", [a3])] | TriaxialJaffe a a2 => [("a", [a]); ("a2", [a2])]
            | TwoPowerTriaxial a al be ba ta tha p => [("a", [a]); ("alpha", [al]); ("beta", [be]); ("beta-alpha", [ba]); ("2-alpha", [ta]); ("3-alpha", [tha]); ("psi_inf", [p])]
            | PerfectEllipsoid a2 => [("a2", [a2])] | TriaxialGaussian s => [("-2 sigma^2", [- s])] | PowerTriaxial al => [("alpha", [al])]
            end ++
            [("b2", [b2]); ("c2", [c2]); ("aligned", [of_bool (match rot with None => true | _ => false end)]); ("rot", match rot with Some r => r | None => [1; 0; 0; 0; 1; 0; 0; 0; 1] end); ("nodes", glx);
             ("weights", map (fun xw => -4 * PI * snd xw * b * c / sqrt ((1 + (b2 - 1) * fst xw ^ 2) * (1 + (c2 - 1) * fst xw ^ 2))) (combine glx glw))]) [] [] []]
  | d_scf s : describes (SCF s) [seen_scf 1 s]
  | d_mult m bs : expected_blocks m bs -> describes (Multipole m) [seen_multipole 1 m bs]
  | d_bar2 amp a b c2 pa omegab : describes (SoftenedNeedleBar amp a b c2 pa omegab) [flat "SoftenedNeedleBar" [("amp", amp); ("a", a); ("b", b); ("c2", c2); ("pa", pa); ("omegab", omegab)]]
  | d_dmult amp m pairs bs : expected_blocks m bs -> describes (DiskMultipole amp m pairs) (seen_multipole amp m bs :: map (seen_pair amp) pairs)
  | d_dscf amp s pairs : describes (DiskSCF amp s pairs) (seen_scf amp s :: map (seen_pair amp) pairs)
  | d_spiral amp N sa ta rref pref Rs H om Cs : describes (SpiralArms amp N sa ta rref pref Rs H om Cs)
      [Seen "SpiralArms" [("amp", [amp]); ("N", [N]); ("sin alpha", [sa]); ("tan alpha", [ta]); ("r_ref", [rref]); ("phi_ref", [pref]); ("Rs", [Rs]); ("H", [H]); ("omega", [om]); ("Cs", Cs)] [] [] []]
  | d_dc amp a : describes (DehnenCoreSpherical amp a) [flat "DehnenCoreSpherical" [("amp", amp); ("a", a)]]
  | d_ds amp a alpha : describes (DehnenSpherical amp a alpha) [flat "DehnenSpherical" [("amp", amp); ("a", a); ("alpha", alpha)]]
  | d_hs amp R2 R3 : describes (HomogeneousSphere amp R2 R3) [flat "HomogeneousSphere" [("amp", amp); ("R2", R2); ("R3", R3)]]
  | d_is amp rmin rmax mass Phi0 Phimax rg rf : describes (InterpSpherical amp rmin rmax mass Phi0 Phimax rg rf)
      [Seen "interpSpherical" [("amp", [amp]); ("rmin", [rmin]); ("rmax", [rmax]); ("total_mass", [mass]); ("Phi0", [Phi0]); ("Phimax", [Phimax]); ("r", rg); ("rforce", rf)] [] [] []]
  | d_frame f : (cinterp f = None \/ genuine f = false) ->
      describes (NonInertialFrame f)
        [Seen "NonInertialFrame" (frame_fields f) []
           (on (lin_acc f) (f_a0 f) ++ on (lin_acc f && rot_acc f) (f_x0 f) ++ on (lin_acc f && rot_acc f) (f_v0 f) ++ on (Omega_as_func f) (f_Omega_funcs f) ++ on (Omega_as_func f) (f_Omegadot_funcs f)) []]
  | d_frame_i f n tmin tmax : cinterp f = Some n -> genuine f = true -> trange = Some (tmin, tmax) ->
      let t := linspace tmin tmax n in let tab b g := on b (map (fun h : tfunc => ("table", map h t)) g) in
      describes (NonInertialFrame f)
        [Seen "NonInertialFrame, interpolated"
           (frame_fields f ++ [("tmin", [tmin]); ("tmax", [tmax]); ("table", t)] ++
            tab (lin_acc f) (f_a0 f) ++ tab (lin_acc f && rot_acc f)%bool (f_x0 f) ++ tab (lin_acc f && rot_acc f)%bool (f_v0 f) ++ tab (Omega_as_func f) (f_Omega_funcs f)) [] [] []]
  | d_null : describes NullPot [flat "Null" []]
  | d_ein amp h n : describes (Einasto amp h n) [flat "Einasto" [("amp", amp); ("h", h); ("n", n)]]
  | d_enfw amp a rc : describes (ExpTruncNFW amp a rc) [flat "ExpTruncNFW" [("amp", amp); ("a", a); ("rc", rc)]]
  | d_tp amp a alpha beta : describes (TwoPowerSpherical amp a alpha beta) [flat "TwoPowerSpherical" [("amp", amp); ("a", a); ("alpha", alpha); ("beta", beta)]].
  Definition friction_fields (f : friction) : list (string * list R) :=
    [("amp", [fr_amp f]); ("radius of cached force", [-1]); ("ms", [fr_ms f]); ("rhm", [fr_rhm f]); ("gamma^2", [fr_gamma f ^ 2]); ("lnLambda", [match fr_lnLambda f with Some l => l | None => -1 end]); ("minr^2", [fr_minr f ^ 2]);
     ("r0", [first (fr_rs f)]); ("rf", [final (fr_rs f)])].
  Definition friction_tables (f : friction) : list (string * list R) := [("r, scaled", scaled (first (fr_rs f)) (final (fr_rs f)) (fr_rs f)); ("sigma_r", fr_sigmars f)].
  Definition describes_wrapper (w : wrapper) (inner : list seen) : seen :=
    let plain n f := Seen n (map one f) [] [] inner in
    match w with
    | DehnenSmooth amp tform tsteady grow => plain "DehnenSmooth" [("amp", amp); ("tform", tform); ("tsteady", tsteady); ("grow", of_bool grow)]
    | SolidBodyRotation amp omega pa => plain "SolidBodyRotation" [("amp", amp); ("omega", omega); ("pa", pa)]
    | OblateStaeckel amp delta u0 v0 refpot => plain "OblateStaeckel" [("amp", amp); ("delta", delta); ("u0", u0); ("v0", v0); ("refpot", refpot)]
    | CorotatingRotation amp vpo beta pa to => plain "CorotatingRotation" [("amp", amp); ("vpo", vpo); ("beta", beta); ("pa", pa); ("to", to)]
    | GaussianAmplitude amp to sigma2 => plain "GaussianAmplitude" [("amp", amp); ("to", to); ("sigma2", sigma2)]
    | MovingObject amp ts xs ys zs =>
        Seen "MovingObject" [("amp", [amp]); ("t0", [first ts]); ("tf", [final ts]); ("t, scaled", scaled (first ts) (final ts) ts); ("x", xs); ("y", ys); ("z", zs)] [] [] inner
    | Chandrasekhar f => Seen "Chandrasekhar" (friction_fields f ++ friction_tables f) [] [] inner
    | FDM f mhbar cf =>
        Seen "FDM" (friction_fields f ++ [("mhbar", [mhbar]); ("const_FDMfactor", [match cf with Some c => c | None => -1 end])] ++ friction_tables f) [] []
             [Seen "Chandrasekhar" (friction_fields f ++ friction_tables f) [] [] inner]
    | RotateAndTilt amp rot norot offset =>
        Seen "RotateAndTilt" [("amp", [amp]); ("rot", rot); ("rotate", [of_bool (negb norot)]); ("offset set", [of_bool (match offset with Some _ => true | None => false end)]);
                              ("offset", match offset with Some (x, y, z) => [x; y; z] | None => [0; 0; 0] end); ("place of cached second derivatives", [nan; nan; nan; nan])] [] [] inner
    | TimeDependentAmplitude amp A => Seen "TimeDependentAmplitude" [("amp", [amp])] [] [A] inner
    | KuzminLike amp a b2 => plain "KuzminLike" [("amp", amp); ("a", a); ("b2", b2)]
    | CylindricallySeparable amp Rp refpot => plain "CylindricallySeparable" [("amp", amp); ("Rp", Rp); ("refpot", refpot)]
    end.
  (** Zero potentials are left out of a list that contains anything else *)
  Definition relevant (l : list pot) : list pot := if forallb isNull l then l else filter (fun p => negb (isNull p)) l.
  Inductive means : pot -> list seen -> Prop :=
  | m_leaf l s : describes l s -> means (Leaf l) s
  | m_wrap w inner s : means_all (relevant inner) s -> means (Wrap w inner) [describes_wrapper w s]
  with means_all : list pot -> list seen -> Prop :=
  | m_nil : means_all [] []
  | m_cons p l s s' : means p s -> means_all l s' -> means_all (p :: l) (s ++ s').

  (** Arrays that go together have matching lengths, as the Python constructors guarantee *)
  Definition scf_wf (s : scf) : Prop :=
    match scf_coeffs s with
    | Static Ac As => length Ac = (scf_N s * scf_L s * scf_M s)%nat /\ (scf_nonaxi s = true -> length As = (scf_N s * scf_L s * scf_M s)%nat)
    | TimeDep tg Ac As => (1 < length tg)%nat /\ length Ac = (scf_N s * scf_L s * scf_M s * (4 * (length tg - 1)))%nat /\ (scf_nonaxi s = true -> length As = (scf_N s * scf_L s * scf_M s * (4 * (length tg - 1)))%nat)
    end.
  Definition mult_wf (m : multipole) : Prop :=
    forall l mm s, let '(i, o, r) := mul_block m l mm s in
      let k := match mul_tgrid m with [] => 1%nat | _ => (4 * (length (mul_tgrid m) - 1))%nat end in
      length i = (k * (6 * (length (mul_rgrid m) - 1)))%nat /\ length o = (k * (6 * (length (mul_rgrid m) - 1)))%nat /\ length r = (k * length (mul_rgrid m))%nat.
  Definition frame_wf (f : frame) : Prop :=
    (lin_acc f = true -> length (f_a0 f) = 3%nat) /\ (lin_acc f = true -> rot_acc f = true -> length (f_x0 f) = 3%nat /\ length (f_v0 f) = 3%nat) /\
    (Omega_as_func f = true -> let k := if omegaz_only f then 1%nat else 3%nat in length (f_Omega_funcs f) = k /\ length (f_Omegadot_funcs f) = k) /\
    (Omega_as_func f = false -> let k := if omegaz_only f then 1%nat else 3%nat in length (f_Omega f) = k /\ (const_freq f = false -> length (f_Omegadot f) = k)).
  Definition grid_wf (n : nat) (g : option (list R)) : Prop := match g with Some g => length g = n | None => True end.
  Definition leaf_wf (l : leaf) : Prop :=
    match l with
    | DoubleExponentialDisk _ _ _ x0 x1 w0 w1 => length x0 = length x1 /\ length w0 = length x1 /\ length w1 = length x1
    | InterpRZ _ _ rg zg p rf zf r2 z2 rz => let n := (length rg * length zg)%nat in List.Forall (grid_wf n) [p; rf; zf; r2; z2; rz]
    | Ellipsoidal _ _ _ _ _ _ rot glx glw => grid_wf 9 rot /\ length glx = length glw
    | SCF s | DiskSCF _ s _ => scf_wf s
    | Multipole m | DiskMultipole _ m _ => mult_wf m
    | InterpSpherical _ _ _ _ _ _ rg rf => length rf = length rg
    | NonInertialFrame f => frame_wf f
    | _ => True
    end.
  Definition friction_wf (f : friction) : Prop := length (fr_sigmars f) = length (fr_rs f) .
  Definition wrapper_wf (w : wrapper) : Prop :=
    match w with
    | MovingObject _ ts xs ys zs => length xs = length ts /\ length ys = length ts /\ length zs = length ts
    | Chandrasekhar f | FDM f _ _ => friction_wf f
    | RotateAndTilt _ rot _ _ => length rot = 9%nat
    | _ => True
    end.
  Inductive pot_wf : pot -> Prop :=
  | wf_leaf l : leaf_wf l -> pot_wf (Leaf l)
  | wf_wrap w inner : wrapper_wf w -> List.Forall pot_wf inner -> pot_wf (Wrap w inner).
End Spec.
