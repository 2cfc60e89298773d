# Formal model of galpy in Rocq

## Approach

Two kinds of model.

* **Exact-real models** (Coq.Reals and Coquelicot). A Python function on floats is
  modelled by the same expression over the real numbers. Rounding, overflow, NaN and
  infinities are not modelled. `numpy` scalar and array calls are modelled pointwise.
  These models cover potentials, wrappers, coordinate transformations, unit factors,
  integrators and action-angle formulas.
* **Discrete models** (nat, Z, list, string, option, inductive objects). Exceptions are
  values of a result type. These cover control flow and state: composition of
  potentials, unit decisions, indexing, continuation of integrations, method selection,
  parallel map, file writing, configuration repair, serialisation to C.

External calls (scipy root finders, integrators as such, numpy random numbers, the
C extension where it is not modelled) are parameters quantified in the theorem, with
their contract as a hypothesis of that theorem.

A property is *refuted* when the faithful model does not satisfy it. Then the theorem
`..._refuted` proves the negation with a concrete witness, and where possible a second
theorem proves the property on the part of the domain where it does hold.

## Plan per property

| id | modelled | how proved |
|----|----------|-----------|
| C01-C03 | `_evaluate`, `_Rforce`, `_zforce`, `_phitorque`, second derivatives and `_dens` of the closed-form potentials, plus the public layer that multiplies by the amplitude and falls back to Poisson | `is_derive` for each field, over all parameters and points; Poisson by algebra on the derived Hessian |
| C04 | `_mass` of the spherical potentials | `is_derive` of the mass, and the identity with the force |
| C05-C06 | composites, `flatten`, `__mul__`, `__add__` on an inductive type of nested lists | induction on lists and nesting |
| C07 | unit state and compatibility checks of `+`, list constructor and item assignment | invariant over construction histories; counterexamples where the check is skipped |
| C08-C09 | wrapper classes as functions from potentials to potentials | chain rule for an arbitrary wrapped potential |
| C10 | `NonInertialFrameForce._force` and its cache | vector algebra, invariant over call sequences |
| C11 | planar and vertical reductions | derivative of a restriction, induction on lists |
| C12 | `ttensor`, `vcirc`, `dvcircdR`, `epifreq`, `rtide`, `flattening`, `vterm` ... | chain rule |
| C13 | bracket loops with fuel | loop invariant; fuel as the number of iterations |
| C14-C20 | `util/coords.py` | trigonometric identities with a model of arctan2; matrix algebra; `is_derive` |
| C21-C22 | `util/conversion.py` factors, parsers and the decision logic of the decorators | field identities; case analysis over all states |
| C23, C24, C25, C37, C38 | `orbit/Orbits.py` control flow | list lemmas; induction over call histories |
| C26-C29 | `util/symplecticode.py`, `util/bovy_symplecticode.c`, `snapshot/directnbody.py` | induction on steps, particles |
| C30-C32 | `util/multi.py`, `util/__init__.py`, `util/config.py` | small-step semantics, induction over schedules; prefix closure for crash points |
| C33-C34 | forward and inverse action-angle maps of the harmonic oscillator and the isochrone potential | round trips by trigonometry; angles along an arbitrary solution of the equations of motion by a vanishing-derivative argument; Kepler equation solver constructed for non-vacuity |
| C35 | serialiser and C parser on an inductive type of potentials | induction on trees |
| C36 | state with the velocity dispersion function; the force formula of both classes | induction over histories, unfolding against a formula written separately; counterexample plus partial theorem |
| C39 | hull evaluation and update | convexity |
| C40 | rotation matrix | matrix algebra |
| C41 | triangle branches of dl_to_rphi_2d and rphi_to_dl_2d | trigonometry on each branch |
| C42 | augmented drift-kick maps, rectangular force and its derivative matrix | the augmented map acts on the deviation block as the derivative of the base map (induction over drift-kick operations); chain rule through the cylindrical coordinates |

## Trusted base

1. The kernel of Coq 8.16.1 (and `coqchk`, which re-checks the compiled files).
2. The axioms printed by `Print Assumptions` after every theorem in `rocq/theories/Props`. They are the
   standard library's and no others; `ASSUMPTIONS.md` lists them theorem by theorem:
   * `ClassicalDedekindReals.sig_forall_dec`, `ClassicalDedekindReals.sig_not_dec` and
     `FunctionalExtensionality.functional_extensionality_dep`, which the real numbers of the standard library rest on;
   * `Classical_Prop.classic`, used by Coquelicot and by parts of the standard library's real analysis.
   Theorems about discrete models are closed under the global context unless noted there.
3. The correspondence between the program text and the Gallina definitions. It is by reading: every
   definition in `rocq/theories/Model` cites the file and lines it models and says what it leaves out.
4. The small specifications in `rocq/theories/Spec` and the theorem statements themselves.

No axiom, parameter, functor or module type is declared. External behaviour (root finders, the splines of
scipy, the solver of Kepler's equation, random numbers, workers' schedules, crash points) is quantified over
in each theorem, with its contract as an explicit hypothesis.

### Common idealisations

* Floats are real numbers: no rounding, overflow, NaN, infinities or signed zero. Where the code relies on NaN
  or infinity (`isfinite` tests, `0/0`) the model has an explicit branch or an option type, and says so.
* numpy arrays are treated element by element; broadcasting is modelled only where a property is about shapes.
* A power `x**y` with non-integer `y` is `Rpower`, faithful for positive `x`; theorems assume the positivity
  that the domain of the function gives.

### What is modelled

| model | code |
|-------|------|
| PotAxi, PotNonAxi, Mass | `_evaluate`, forces, second derivatives, densities and masses of the closed-form potentials |
| PotAPI, UnitCompat | `Potential`, `Force`, `CompositePotential`, `flatten`, the evaluate functions; scales and their compatibility |
| Wrappers | wrapper potentials around an arbitrary 3D potential |
| Reduce, Derived, Brackets | reductions to the plane and to the vertical; tidal tensor and frequencies; root searches |
| NonInertial, Friction | velocity-dependent forces with caches and tables |
| Coords, CoordsVec, CoordsSky, CoordsJac, CoordsCov, CoordsSpheroid, RotVec | `util/coords.py` and the rotation helper of `util/__init__.py` |
| Conversion | unit factors, parsers, output decorators |
| OrbitIndex, OrbitState, Integrator | indexing, integration state, evaluation, method selection of `Orbit` |
| Symplectic, RectForce | Python and C symplectic integrators with variational equations, Cartesian forces of the C code |
| CSerial, CSerialPlanar, CView | serialisation of potentials to C, the C parsers, and the parameters each C force reads |
| C43 | the classes of `planarPotential` and `linearPotential` that have no 3D parent | real derivatives per class and branch; gluing at the break radius; induction over sums; documented formulas as separate definitions |
| NBody, Multi, SavePickles, Config, Ars | `snapshot/directnbody.py`, `util/multi.py`, `save_pickles`, configuration, rejection sampling |
| ActionAngle | harmonic and isochrone action-angle maps and inverses |
| Stream track assignment | df/streamTrack.py 16-45 (bins and counts), 135-182; not modelled: means, covariances, splines, the fit and its iteration, the class StreamTrack |
| Isochrone approximation | actionAngle/actionAngleIsochroneApprox.py 301-324, 343-458, 965-970; not modelled: integration, warnings, median, non-axisymmetric potentials, plots, estimateBIsochrone |
| Interpolated potentials | potential/interpRZPotential.py 19-182, 457-480, 603-917, 1296-1299; not modelled: C evaluation, units, not-a-number values, construction of the splines |
| Stream-spray distribution functions | df/streamspraydf.py 193-206, 548-586, 609-669, 700-725, 937-966, 983-984, 1071-1103; not modelled: units, stripping times, random numbers, integration, stream tracks |
| Evolved distribution functions | df/evolveddiskdf.py 60-64, 104-135, 166-230, 351-427, 2949-2969; not modelled: units, derivatives, marginalisation, moments, not-a-number values |
| Adiabatic contraction | potential/AdiabaticContractionWrapperPotential.py 93-172; not modelled: units, the masses of the potentials, the virial radius, the sorting in interp1d |
| Power-law distribution functions | df/constantbetaPowerLawdf.py 63-152, df/osipkovmerrittPowerLawdf.py 70-163, df/constantbetadf.py 50-72, df/osipkovmerrittdf.py 51-73; not modelled: units, the choice of rmin, the sampling of velocities |
| Multipole expansions | potential/MultipoleExpansionPotential.py 1105-1190, 1345-1467, 1632-1695, 1766-2078, potential/SphericalHarmonicPotentialMixin.py 56-203; not modelled: units, the constructor's checks, the time-dependent path, the caches, points at infinity, from_density, from_scf, the C version |
| Basis-function expansions | potential/SCFPotential.py 113, 140-197, 826-1144, 1150-1289, potential/SphericalHarmonicPotentialMixin.py 56-203, util/special.py 16-149; not modelled: units, interpolation of the coefficients in time, caches, the computation of coefficients from densities or particles, the C version |
| King model | df/kingdf.py 9-10, 57-104, 123-124, 135-138, 152-155, 174-191, potential/KingPotential.py 60-73; not modelled: units, the integration of the King equation and the splines of its solution, the samples |
| Rings and razor-thin disks | potential/RingPotential.py 45-154, potential/AnyAxisymmetricRazorThinDiskPotential.py 30-398; not modelled: units, values in the plane away from the centre (there the integrands are unbounded), the test for an infinite radius, the accuracy of the quadratures |
| Adiabatic action-angles | actionAngle/actionAngleAdiabatic.py 1-470, actionAngleSpherical.py (calls with _gamma and _Jz), actionAngle_c_ext/actionAngleAdiabatic.c 71-274, 580-585; not modelled: units, the root finders, the failure value of C beyond the tests for it |
| Oblate Staeckel wrapper | potential/OblateStaeckelWrapperPotential.py 1-492, potential_c_ext/OblateStaeckelWrapperPotential.c; not modelled: units, the refusal of non-axisymmetric potentials |
| Disk expansions | potential/KuijkenDubinskiDiskExpansionPotential.py 1-410, potential_c_ext/DiskSCFPotential.c; not modelled: the computation of the expansion coefficients (SCF, multipole), unit conversion of the dictionaries' values |
| Impulse kicks | df/streamgapdf.py 1282-1661, 1844-2086; not modelled: impulse_deltav_general_orbitintegration and _fullplummerintegration, the streamgapdf class itself |
| Mixin, three-disk and null potentials | NumericalPotentialDerivativesMixin.py, MN3ExponentialDiskPotential.py, NullPotential.py; not modelled: unit conversion of hr and hz, normalize, the NEMO parameter strings |
| Density potentials | AnySphericalPotential.py, EinastoPotential.py, PowerSphericalPotentialwCutoff.py, ExpTruncNFWPotential.py, interpSphericalPotential.py; not modelled: unit handling of user-supplied densities, warnings of from_nfw, the spline construction itself |
| Quasi-isothermal DF | quasiisothermaldf.py: evaluation, guiding radii, Gauss-Legendre, Monte-Carlo and direct moments, marginals, samplers, scale lengths; not modelled: the grid/spline construction of sampleV_interpolate and of the guiding-radius table, pvX with _return_actions/_return_freqs caches |
| Disk DFs | diskdf.py: the three distribution functions, their derivatives, moments, marginals, draws; surfaceSigmaProfile.py; not modelled: DFcorrection iteration, target* helper surfaces, ROMBERG/ _oned switches, kinematics output units |
| Jeans | jeans.py: sigmar, sigmalos, all forms of their arguments; Force.rforce |
| RungeKutta | bovy_rk.c: the steps of rk4, rk6 and dopr54, the loops over steps and output times, the step estimates, the adaptive loop and the number of steps in double precision |
| PotEllipsoidal | EllipsoidalPotential: orientation, quadrature, potential, forces, second derivatives, density and mass; the profiles, amplitudes and masses of its seven subclasses |
| PotBars | DehnenBarPotential with its construction, growth and array evaluation; SoftenedNeedleBarPotential |
| PotSpiral | SpiralArmsPotential: all derivatives and the density, as a sum over the harmonics |
| Spherical | actionAngleSpherical and actionAngleVertical: quadratures, angle branches, node, extent |
| SphericalDF | evaluation, moments, closed forms and sampling of the spherical distribution functions |
| KuzminKutuzov | KuzminKutuzovStaeckelPotential with forces and second derivatives |
| Staeckel | momenta, integrals, integrands, actions, frequencies and angles of actionAngleStaeckel, Python and C; estimateDeltaStaeckel |
| EOM | equations of motion of all integrators, conversions, integrals of the motion |
| SOS | surface-of-section equations and the SOS method |
| WrappersPlanar | wrappers of two-dimensional objects |
| CPotPlanar | planar C potential functions, pointer table and sums |
| CPot | C potential functions, pointer table and sums |
| C44 | the C functions of sixteen potentials and seven wrappers, the six classes of the plane, the tables of function pointers (full and planar), the sums `calcRforce` ... `calcPhi2deriv`, `calcPlanarRforce` ... , `evaluatePotentials` | per class: both formulas are equal reals, and the planar C function is the three-dimensional one at z = 0; then mutual induction over potentials, wrapped objects and sums; composed with the serialisation proofs of C34 and C35 |
| C45 | the right-hand sides in the angle (Python and C, space and plane), the conversions to and from them, the macros that pass velocities, the two legs of `Orbit.SOS` and its list of angles | derivative of A sin psi and A cos psi along a solution; inverse of the time; for the points: intermediate value theorem for the amplitude, gluing of the two legs at the crossing |
| C46 | the right-hand sides in cylindrical, meridional, polar, radial and rectangular coordinates, the conversions before and after, the formulas for E, L, Lz, ER, Ez and Jacobi | derivatives of rotating vectors and their converse; uniqueness of polar coordinates; the azimuth of orbits without one as an integral; zero derivative along the orbit with the chain rule in Cartesian coordinates |
| C47 | spheroidal momenta, third integrals, integrands in Python and C, quadratures in chi, `estimateDeltaStaeckel`, Kuzmin-Kutuzov potential | chain rule along curves, separation of the Hamilton-Jacobi equation, substitution in the integrals |
| C48 | evaluation, velocity moments, closed forms of the distribution functions | substitution and Wallis integrals, Gamma recurrences, integrals along orbits from C46 |
| C49 | inverse cumulative distributions, rows, caches keyed by rmin | inverse-distribution statements as equivalences, invariants over histories |
| C50 | `calcdJR`, `calcdJz`, `calcFreqs`, `calcAngles`, the fallback frequencies of `_actionsFreqsAngles` | primitives of the chi integrals, four-branch angle variable along a libration, a locally constant offset is constant, orbits stay in the well because velocities are Lipschitz |
| C51 | `sphericalAA`, `sphericalEcc`, `verticalAA` | the substitutions r = rperi + t^2 and rap - t^2 give one continuous primitive across the well; the angle in the orbital plane as a rotating unit vector plus a libration; the node is constant; the p_theta integral in closed form |
| C52 | `SpiralArms`, `DehnenBar`, `SoftenedNeedleBar` | each harmonic differentiated with a syntax-directed derivative tactic; the two formulas of the Dehnen bar glued at the sphere where they meet; Poisson's equation as an algebraic identity in K, B, D, sech and tanh; the density with the unsquared term refuted through uniqueness of the Laplacian |
| C53 | `EllipsoidalPotential` with any profile; the seven subclasses as profiles | per node the integrand is differentiated in Cartesian coordinates and the sum taken; for the exact integral differentiation under the integral sign with the integrand continued to the centre; Poisson's equation by integrating a total derivative in s over [0, 1]; cylindrical derivatives and rotations by the chain rule with an orthogonal matrix; masses by differentiation and the limit at the centre |
| C54 | `bovy_rk.c` function by function with an arbitrary right-hand side on arrays; the error estimate of dopr54 as an arbitrary function | a calculus of remainders O(h^k) uniform in time; Taylor expansion of the stages with the Jacobian and its derivatives along the orbit gives local errors of order 5, 7, 6 and 3; stability of a step by induction over the stages; sum of the errors along the run with a Groenwall factor; the loops by induction, termination of the adaptive loop by the time left and the halvings of the step |
| C55 | `df/jeans.py` with improper Riemann integrals for quad | the integrating factor turns the Jeans equation into an exact derivative; uniqueness because the difference of two solutions is constant and vanishes at infinity; the projection by the substitution z = sqrt(x^2 - R^2) under the improper integral |
| C56 | `df/diskdf.py` and `df/surfaceSigmaProfile.py` over the reals, with an abstract differentiable profile and correction, integrals as iterated Riemann integrals | closed forms by algebra of powers; derivatives by the chain rule; moments by affine substitution of the box and differentiation under the integral with a compact-box continuity theorem proved here; draws by the expectation of a unit uniform |
| C57 | `df/quasiisothermaldf.py` over the reals with an abstract potential (circular velocity, frequencies, guiding radius) and abstract action-angle object that may raise UnboundError; nodes and weights an arbitrary Gauss-Legendre rule | closed form by logarithms; product-quadrature error bound by induction on polynomial terms; Cauchy-Schwarz for weighted sums; importance weights; loop invariants of the samplers; refutations with a constant distribution function |
| C58 | the five potential files over the reals, scipy.special's functions as their defining improper integrals and power series, quad exact, root finders return an exact root | improper fundamental theorem of calculus at 0 and infinity; Kummer's series for the lower incomplete Gamma function; Taylor bounds for the series branch; monotonicity of the total mass for uniqueness of the root; gluing at the end of the table |
| C59 | the three potential files over the reals; the mixin over any _evaluate; the tables of Smith et al. as exact decimals | Taylor remainders by repeated integration of derivative bounds (mean value theorem, induction on the order); mixed differences by reduction to one variable; Bernstein coefficients for the positivity of the quartics; limits for the mass; unboundedness at a point for the refutation |
| C60 | the impulse functions for one star, over the reals, on top of the model of the rotation of C40; quad as the exact integral; option for a vanishing divisor | antiderivatives and their limits at both infinities (a rational substitution for the Hernquist sphere), substitution in improper integrals, equivariance of dot and cross products under the rotation, linearity of the integral |
| C61 | the parsing of the dictionaries and lists, the methods as folds over zipped lists on top of an arbitrary expansion potential, and the C functions on their argument arrays | algebra of one pair (chain rule through the radius), lifting over the list, closed integrals of the profiles (logarithm of cosh), uniqueness of derivatives for the refutations |
| C62 | the methods and C functions branch by branch over the wrapped potential's functions, with 1e-12 as a parameter | spheroidal coordinates of C47 and their motion along a curve; algebra of the separable form and of its first and second derivatives; bounds linear in the small number; C47 for the orbits |
| C63 | the Python methods branch by branch over the planar and vertical one-dimensional parts, and the C integrands | the spherical and vertical results of C51 for an orbit in the plane and across it, mirror images for retrograde orbits, substitution for the C integrals |
| C64 | elliptic integrals as integrals, the formulas of the ring, the integrands and quadrature branches of the disk | derivatives of E and K by differentiation under the integral sign, the ring integral by substitution, the quadratures by substitution and splitting, then the disk by differentiation under its integral |
| C65 | the density as a function of W, the two right-hand sides, the repair of the cumulative mass, the scales, fE and the potential built from the force | the velocity integral by an explicit antiderivative with erf, monotonicity by the mean value theorem, the potential by integrating the force, lists by induction |
| C66 | Gegenbauer recurrence, radial functions and their two derivatives, associated Legendre functions, the triple sums, the chain rule to cylindrical coordinates, the clipping at the poles, the constructor's checks | Gegenbauer derivative and differential equation by induction on the degree, radial and angular equations term by term, sums by induction on the sizes, the sphere integral by the Legendre equation; a witness for the finding |
| C67 | the node values of the radial integrals, the radial functions below, within and above the grid, the sums, the chain rule to cylindrical coordinates, the clipping at the poles | radial derivatives and the radial equation in each range, angular equation of C66, sums by induction on the sizes, Poisson's equation pointwise at the nodes; an exact family of splines as witness for hypotheses and findings |
| C68 | the two constructors with their assertions, fE, fQ, the calls with (E, L), the largest speed, the inverse mass function | velocity integral in polar coordinates as improper integrals; substitution to Euler's beta integral, which with Gam(1/2) and positivity is all that is asked of the gamma function; exact small cases as witnesses |
| C69 | linear interpolation, the three contraction formulas as fixed points, the default baryon fraction, the table of forces with its central point and the potential at the centre | invariants by algebra on the fixed-point equation, uniqueness by monotonicity, interpolation by induction on the nodes; the interpolated potential of C58 |
| C70 | the call for one time, for one time with log, for lists with odeint and with the other integrators, the integration times of lists; orbits as an exact flow | cocycle and time-translation laws of the flow, induction on the list; uniform motion and a time-dependent push as witnesses |
| C71 | the frame, both releases for one star, the centre, the flags of the tails; tidal radius and radial force as arbitrary functions, random draws as arbitrary numbers | rotation lemmas of C40, components along an orthonormal basis, polar coordinates; planar and inclined orbits as witnesses |
| C72 | decorators, masked assignment, spline arguments, pass-through, one-dimensional quantities, the spot check; splines and the original as arbitrary functions | gather/scatter induction on the mask, element-wise specification, case analysis |
| C73 | averages, dePeriod, the normal equations, the list of vectors n; orbits as lists, the inverse and the sign of the azimuthal frequency as arguments | induction along the orbit with the number of turns as invariant, finite-sum algebra, list lemmas |
| C74 | the loop over neighbours with its mask, bin edges and search; the neighbour tree is an oracle returning points in order of distance | loop invariant over the stars that remain with a fuel bound, first allowed element of a sorted list, midpoints of increasing nodes |
| PotPlanar | planar and linear potentials without a 3D parent |

### What is not modelled

The rows of the table above say, part by part, which lines are modelled and what is left out of each. Not
modelled at all: the isochrone-approximation and vertical-inverse action angles, stream modelling (streamdf,
streamgapdf beyond the impulse kicks, streamspraydf), the numerical inversions (Eddington,
constant-anisotropy and Osipkov-Merritt for a general potential), the evolving-disk distribution function, interpolated
potentials (interpRZPotential) and the computation of expansion coefficients from densities or particles, the finite-part
branch of the razor-thin disks in the plane, plotting, catalogue downloads, name resolution and the astropy
code paths of coordinate transformations.
