(** What the C functions evaluating potentials read from struct potentialArg, by position: the first lines of the functions in galpy/potential/potential_c_ext, named by the C variables.
    (That they use these in the formulas of the Python class is not part of this file.) *)
From Coq Require Import Reals String List Bool ZArith Lia.
From Verif Require Import Model.CSerial Spec.CSerialSpec.
Import ListNotations.
Open Scope string_scope. Open Scope list_scope. Open Scope R_scope.

(** DiskSCFPotential.c 40-130; Sigma type 1 reads one more *)
Definition view_disk (a : nat -> R) : list (string * list R) :=
  let n := to_int (a 0%nat) in
  [("Sigma type", [a 1%nat]); ("Sigma amp", [a 2%nat]); ("Sigma h", [a 3%nat])] ++ (if (to_int (a 1%nat) =? 1)%nat then [("Sigma Rhole", [a 4%nat])] else []) ++
  [("hz type", [a (1 + n)%nat]); ("hz h", [a (1 + n + 1)%nat])].
(** NonInertialFrameForce.c 40-175 *)
Definition view_frame (a : nat -> R) (sl : nat -> nat -> list R) : list (string * list R) :=
  [("amp", [a 0%nat]); ("rot_acc", [a 11%nat]); ("lin_acc", [a 12%nat]); ("omegaz_only", [a 13%nat]); ("const_freq", [a 14%nat]); ("Omega_as_func", [a 15%nat]); ("Omega", sl 16%nat 3%nat); ("Omega2", sl 19%nat 1%nat); ("Omegadot", sl 20%nat 3%nat)].
(** ChandrasekharDynamicalFrictionForce.c 22-28, 68, 71; FDMDynamicalFrictionForce.c 25-33, 119, 122 *)
Definition view_friction (a : nat -> R) : list (string * list R) :=
  [("amp", [a 0%nat]); ("radius of cached force", [a 1%nat]); ("ms", [a 9%nat]); ("rhm", [a 10%nat]); ("gamma^2", [a 11%nat]); ("lnLambda", [a 12%nat]); ("minr^2", [a 13%nat]); ("r0", [a 14%nat]); ("rf", [a 15%nat])].
(** EllipsoidalPotential.c 13-22 and the psi functions *)
Definition view_ellipsoid (psi : list string) (a : nat -> R) (sl : nat -> nat -> list R) : list (string * list R) :=
  let n := to_int (a 16%nat) in let e := (17 + n)%nat in let g := to_int (a (e + 12)%nat) in
  [("amp", [a 0%nat])] ++ map (fun p => (snd p, [a (17 + fst p)%nat])) (combine (seq 0 (length psi)) psi) ++
  [("b2", [a e]); ("c2", [a (e + 1)%nat]); ("aligned", [a (e + 2)%nat]); ("rot", sl (e + 3)%nat 9%nat); ("nodes", sl (e + 13)%nat g); ("weights", sl (e + 13 + g)%nat g)].
(** SCFPotential.c 66-103 *)
Definition view_scf (a : nat -> R) (sl : nat -> nat -> list R) : list (string * list R) :=
  let na := to_int (a 1%nat) in let NLM := (to_int (a 2%nat) * to_int (a 3%nat) * to_int (a 4%nat))%nat in let Nt := to_int (a 5%nat) in
  [("a", [a 0%nat]); ("isNonAxi", [a 1%nat]); ("N", [a 2%nat]); ("L", [a 3%nat]); ("M", [a 4%nat])] ++
  (if (Nt =? 0)%nat then [("tgrid", []); ("Acos", sl 6%nat NLM); ("Asin", if (na =? 0)%nat then [] else sl (6 + NLM)%nat NLM); ("radius of cached force", [a (6 + (na + 1) * NLM)%nat])]
   else let k := (NLM * (4 * (Nt - 1)))%nat in
        [("tgrid", sl 6%nat Nt); ("Acos", sl (6 + Nt)%nat k); ("Asin", if (na =? 0)%nat then [] else sl (6 + Nt + k)%nat k); ("radius of cached force", [a (6 + Nt + (na + 1) * k)%nat])]).
(** interpRZPotential.c 12-13 and integrateFullOrbit.c 162-243 *)
Definition view_interpRZ (a : nat -> R) (arr : nat -> list R) (tabs : list (list R)) : list (string * list R) :=
  let has i (n : string) := if (to_int (nth i (arr 0%nat) 0%R) =? 1)%nat then [n] else [] in
  [("amp", [a 0%nat]); ("logR", [a 1%nat]); ("R", arr 1%nat); ("z", arr 2%nat); ("pot", arr 3%nat); ("rforce", arr 4%nat); ("zforce", arr 5%nat)] ++
  combine (has 0%nat "r2deriv" ++ has 1%nat "z2deriv" ++ has 2%nat "rzderiv") tabs.
(** [planar]: the planar force functions; the types 2, 3, 4, 6, 28 and 29 only exist there, and FlattenedPowerPotential.c 47-49 and MovingObjectPotential.c 160-170 read fewer arguments *)
Fixpoint c_view (planar : bool) (c : carg) : seen :=
  match c with
  | CArg ty arrs bs args tfs wrapped =>
    let a i := nth i args 0 in let sl i n := firstn n (skipn i args) in let arr i := nth i arrs [] in let w := map (c_view planar) wrapped in
    let named n names := Seen n (map (fun p => (snd p, [a (fst p)])) (combine (seq 0%nat (length names)) names)) [] [] w in
    match ty with
    | 0 => named "LogarithmicHalo" ["amp"; "q"; "core2"; "1-1/b^2 (2: axisymmetric)"]
    | 1 => named "DehnenBar" ["amp"; "tform"; "tsteady"; "rb"; "omegab"; "barphi"]
    | 5 => named "MiyamotoNagai" ["amp"; "a"; "b"]
    | 7 => named "PowerSpherical" ["amp"; "alpha"]
    | 8 => named "Hernquist" ["amp"; "a"] | 9 => named "NFW" ["amp"; "a"] | 10 => named "Jaffe" ["amp"; "a"]
    | 11 =>
      let n := to_int (a 4%nat) in
      Seen "DoubleExponentialDisk" [("amp", [a 0%nat]); ("-4 pi alpha amp", [a 1%nat]); ("alpha", [a 2%nat]); ("beta", [a 3%nat]); ("j0 xs", sl 5%nat n); ("j1 xs", sl (5 + n)%nat n); ("j0 weights", sl (5 + 2 * n)%nat n); ("j1 weights", sl (5 + 3 * n)%nat n)] [] [] w
    | 2 => named "TransientLogSpiral" ["amp"; "A"; "to"; "sigma2"; "alpha"; "m"; "omegas"; "gamma"]
    | 3 => named "SteadyLogSpiral" ["amp"; "tform"; "tsteady"; "A"; "alpha"; "m"; "omegas"; "gamma"]
    | 4 => named "EllipticalDisk" ["amp"; "tform"; "tsteady"; "twophio"; "p"; "phib"]
    | 6 => named "LopsidedDisk" ["amp"; "mphio"; "p"; "phib"]
    | 28 => named "CosmphiDisk" ["amp"; "mphio"; "p"; "mphib"; "m"; "rb"; "rbp"; "rb2p"; "r1p"]
    | 29 => named "HenonHeiles" ["amp"]
    | 12 => named "FlattenedPower" (if planar then ["amp"; "alpha"; "core2"] else ["amp"; "alpha"; "q2"; "core2"])
    | 13 => Seen "interpRZ" (view_interpRZ a arr (skipn 6%nat arrs)) [] [] w
    | 14 => named "Isochrone" ["amp"; "b"]
    | 15 => named "PowerSphericalwCutoff" ["amp"; "alpha"; "rc"]
    | 16 => named "KuzminKutuzovStaeckel" ["amp"; "ac"; "Delta"]
    | 17 => named "Plummer" ["amp"; "b"] | 18 => named "PseudoIsothermal" ["amp"; "a"] | 19 => named "KuzminDisk" ["amp"; "a"] | 20 => named "Burkert" ["amp"; "a"]
    | 21 => Seen "TriaxialHernquist" (view_ellipsoid ["a"; "a4"] a sl) [] [] w
    | 22 => Seen "TriaxialNFW" (view_ellipsoid ["a"; "a3"] a sl) [] [] w
    | 23 => Seen "TriaxialJaffe" (view_ellipsoid ["a"; "a2"] a sl) [] [] w
    | 43 => Seen "TwoPowerTriaxial" (view_ellipsoid ["a"; "alpha"; "beta"; "beta-alpha"; "2-alpha"; "3-alpha"; "psi_inf"] a sl) [] [] w
    | 30 => Seen "PerfectEllipsoid" (view_ellipsoid ["a2"] a sl) [] [] w
    | 37 => Seen "TriaxialGaussian" (view_ellipsoid ["-2 sigma^2"] a sl) [] [] w
    | 38 => Seen "PowerTriaxial" (view_ellipsoid ["alpha"] a sl) [] [] w
    | 24 => Seen "SCF" (view_scf a sl) [] [] w
    | 25 => named "SoftenedNeedleBar" ["amp"; "a"; "b"; "c2"; "pa"; "omegab"]
    | 26 => Seen "DiskApprox" (view_disk a) [] [] w
    | 27 =>
      Seen "SpiralArms" [("amp", [a 1%nat]); ("N", [a 2%nat]); ("sin alpha", [a 3%nat]); ("tan alpha", [a 4%nat]); ("r_ref", [a 5%nat]); ("phi_ref", [a 6%nat]); ("Rs", [a 7%nat]); ("H", [a 8%nat]); ("omega", [a 9%nat]); ("Cs", sl 10%nat (to_int (a 0%nat)))] [] [] w
    | 33 => named "DehnenCoreSpherical" ["amp"; "a"] | 34 => named "DehnenSpherical" ["amp"; "a"; "alpha"]
    | 35 => named "HomogeneousSphere" ["amp"; "R2"; "R3"]
    | 36 => Seen "interpSpherical" [("amp", [a 0%nat]); ("rmin", [a 1%nat]); ("rmax", [a 2%nat]); ("total_mass", [a 3%nat]); ("Phi0", [a 4%nat]); ("Phimax", [a 5%nat]); ("r", arr 0%nat); ("rforce", arr 1%nat)] [] [] w
    | 39 => Seen "NonInertialFrame" (view_frame a sl) [] tfs w
    | 45 => Seen "NonInertialFrame, interpolated" (view_frame a sl ++ [("tmin", [a 23%nat]); ("tmax", [a 24%nat])] ++ map (fun t => ("table", t)) arrs) [] [] w
    | 40 => named "Null" []
    | 41 => named "Einasto" ["amp"; "h"; "n"]
    | 42 => named "TwoPowerSpherical" ["amp"; "a"; "alpha"; "beta"]
    | 46 => named "ExpTruncNFW" ["amp"; "a"; "rc"]
    | 44 => Seen "MultipoleExpansion" [("isNonAxi", arr 0%nat); ("rgrid", arr 1%nat); ("amp", arr 2%nat); ("tgrid", arr 3%nat)] bs [] w
    | -1 => named "DehnenSmooth" ["amp"; "tform"; "tsteady"; "grow"]
    | -2 => named "SolidBodyRotation" ["amp"; "omega"; "pa"]
    | -3 => named "OblateStaeckel" ["amp"; "delta"; "u0"; "v0"; "refpot"]
    | -4 => named "CorotatingRotation" ["amp"; "vpo"; "beta"; "pa"; "to"]
    | -5 => named "GaussianAmplitude" ["amp"; "to"; "sigma2"]
    | -6 => Seen "MovingObject" ([("amp", [a 0%nat]); ("t0", [a 1%nat]); ("tf", [a 2%nat]); ("t, scaled", arr 0%nat); ("x", arr 1%nat); ("y", arr 2%nat)] ++ (if planar then [] else [("z", arr 3%nat)])) [] [] w
    | -7 => Seen "Chandrasekhar" (view_friction a ++ [("r, scaled", arr 0%nat); ("sigma_r", arr 1%nat)]) [] [] w
    | -11 => Seen "FDM" (view_friction a ++ [("mhbar", [a 16%nat]); ("const_FDMfactor", [a 17%nat]); ("r, scaled", arr 0%nat); ("sigma_r", arr 1%nat)]) [] [] w
    | -8 => Seen "RotateAndTilt" [("amp", [a 0%nat]); ("rot", sl 8%nat 9%nat); ("rotate", [a 17%nat]); ("offset set", [a 18%nat]); ("offset", sl 19%nat 3%nat); ("place of cached second derivatives", sl 22%nat 4%nat)] [] [] w
    | -9 => Seen "TimeDependentAmplitude" [("amp", [a 0%nat])] [] tfs w
    | -10 => named "KuzminLike" ["amp"; "a"; "b2"]
    | -12 => named "CylindricallySeparable" ["amp"; "Rp"; "refpot"]
    | _ => Seen "?" [] [] [] []
    end%Z
  end.
