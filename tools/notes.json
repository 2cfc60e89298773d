{
 "C01": {
  "note": "closed-form potentials listed in Model/PotAxi.v and Model/PotNonAxi.v, over exact reals; numerically integrated potentials are not modelled"
 },
 "C02": {
  "note": "same potentials as C01"
 },
 "C03": {
  "note": "same potentials as C01; own densities and the Poisson fallback"
 },
 "C04": {
  "note": "spherical potentials with a closed-form mass in Model/Mass.v"
 },
 "C05": {
  "note": "where the property fails, theorems ending in _refuted prove it: a combination that has been normalised loses its own amplitude when multiplied or combined again"
 },
 "C06": {
  "note": "Python lists as finite trees; sharing and cyclic lists are not modelled"
 },
 "C07": {
  "note": "agreement of any two members is proved when the first member has both scales set; otherwise it is refuted; where the property fails, theorems ending in _refuted prove it: a combination whose first member has a scale unset; replacing the first member by item assignment",
  "status": "partial"
 },
 "C08": {
  "note": "wrappers in Model/Wrappers.v; SphericalReduction is not modelled; where the property fails, theorems ending in _refuted prove it: second derivatives of KuzminLikeWrapperPotential around an object with physical output switched on"
 },
 "C09": {
  "note": "where the property fails, theorems ending in _refuted prove it: without a tsteady and with positive tform the growth ends before it begins, and the switch is a jump"
 },
 "C10": {
  "note": "the cache key is an MD5 hash assumed free of collisions; Omegadot obtained by finite differences is approximate and not claimed; where the property fails, theorems ending in _refuted prove it: the documented list of three numbers; a position of the origin without its acceleration; a scalar rate with a vector derivative"
 },
 "C11": {
  "note": "where the property fails, theorems ending in _refuted prove it: normalised combinations; a planar dissipative force cannot be reduced again"
 },
 "C12": {
  "note": "the eigenval option of ttensor is not modelled; where the property fails, theorems ending in _refuted prove it: the module function dvcircdR for non-axisymmetric potentials; module functions applied to a normalised combination"
 },
 "C13": {
  "note": "brentq is an oracle with a contract; a non-zero gamma in zero-velocity curves is not modelled; where the property fails, theorems ending in _refuted prove it: lindbladR misses large radii; nearly circular orbits raise; bound orbits with a far apocentre are called unbound; LcE ignores the time"
 },
 "C14": {
  "note": ""
 },
 "C15": {
  "note": ""
 },
 "C16": {
  "note": "the code path without astropy"
 },
 "C17": {
  "note": "the extra rotation is assumed orthogonal, as its construction intends; where the property fails, theorems ending in _refuted prove it: Xsun = 0"
 },
 "C18": {
  "note": "where the property fails, theorems ending in _refuted prove it: the sign of z is lost in the oblate conversion"
 },
 "C19": {
  "note": "where the property fails, theorems ending in _refuted prove it: galcenrect_to_XYZ_jac ignores the extra rotation; galsky_to_sky_jac with epoch 1950"
 },
 "C20": {
  "note": "where the property fails, theorems ending in _refuted prove it: cov_vxyz_to_galcenrect has the signs of two covariances reversed"
 },
 "C21": {
  "note": "where the property fails, theorems ending in _refuted prove it: force_in_10m13kms2 is off by the ratio of the Julian to the tropical year"
 },
 "C22": {
  "note": "where the property fails, theorems ending in _refuted prove it: number densities, surfacedensitydistance and angle ask for a scale they do not need"
 },
 "C23": {
  "note": "where the property fails, theorems ending in _refuted prove it: scales given per orbit; integrating a selection further"
 },
 "C24": {
  "note": "where the property fails, theorems ending in _refuted prove it: grids shorter than the tolerance of the start-time comparison; a continuation that fails"
 },
 "C25": {
  "note": "where the property fails, theorems ending in _refuted prove it: method names in upper case; ias15_c with dissipative forces"
 },
 "C26": {
  "note": "reversal is conditional on the same substep being chosen on the way back; where the property fails, theorems ending in _refuted prove it: reversal for runs in which the same substep is chosen both ways"
 },
 "C27": {
  "note": "where the property fails, theorems ending in _refuted prove it: uneven grids; a given step that is truncated or has the wrong sign; the limit on reductions"
 },
 "C28": {
  "note": "where the property fails, theorems ending in _refuted prove it: the printed coefficients do not sum to one exactly; the deviation is bounded"
 },
 "C29": {
  "note": "where the property fails, theorems ending in _refuted prove it: coincident particles; uneven output grids"
 },
 "C30": {
  "note": "where the property fails, theorems ending in _refuted prove it: an empty sequence is an error; a single element returns an unevaluated iterator"
 },
 "C31": {
  "note": "POSIX rename is atomic on one file system: part of the model; where the property fails, theorems ending in _refuted prove it: a temporary directory on another file system; an interrupt before the file is open; the temporary file can be left behind"
 },
 "C32": {
  "note": "where the property fails, theorems ending in _refuted prove it: settings galpy does not know; values with a percent sign; a write that fails half-way"
 },
 "C33": {
  "note": ""
 },
 "C34": {
  "note": "the solver of Kepler's equation is an oracle with a contract, shown to exist; the tangent at pi/2 is taken as its float limit; where the property fails, theorems ending in _refuted prove it: circular orbits have no angles; orbits through the axis do not round-trip; retrograde orbits in the plane z=0 turn the wrong way"
 },
 "C35": {
  "note": "the meaning of floats crossing ctypes is identity; where the property fails, theorems ending in _refuted prove it: planar TimeDependentAmplitudeWrapperPotential"
 },
 "C36": {
  "note": "where the property fails, theorems ending in _refuted prove it: a user-given velocity dispersion beyond the range of the table"
 },
 "C37": {
  "note": "where the property fails, theorems ending in _refuted prove it: integrating further after flip(inplace=True) of an integrated orbit"
 },
 "C38": {
  "note": "one array of times shared by all orbits; scipy's splines are oracles that interpolate; where the property fails, theorems ending in _refuted prove it: evaluation reorders short backward grids; azimuths come back in (-pi,pi]"
 },
 "C39": {
  "note": "upper hull proved exact for two abscissae and ordering for all; lower hull proved except between the second and third abscissa, where it is refuted; outermost slopes non-zero and candidates generic; where the property fails, theorems ending in _refuted prove it: between the second and third of three or more abscissae; a candidate equal to the largest abscissa",
  "status": "partial"
 },
 "C40": {
  "note": "where the property fails, theorems ending in _refuted prove it: within 1.5e-5 of the two poles the direction is reached only approximately; the antiparallel direction is a point reflection"
 },
 "C41": {
  "note": ""
 },
 "C42": {
  "note": ""
 },
 "C43": {
  "note": "parameters after unit parsing; where the property fails, theorems ending in _refuted prove it: Rphideriv of the cos(m phi) disk inside the break for m other than one; r1 other than one inside the break, where the potential jumps; r1 of the lopsided disk is ignored; negative cp with m>=2; growth of spirals with negative pattern speed; tsteady without tform"
 },
 "C44": {
  "note": "C arithmetic as exact reals; double, int and pow as the mathematical functions; parameters in the constructors' ranges; DehnenSpherical with alpha other than 2 and 3; points off the centre for the spherical potentials, whose C second derivatives divide by r; in the plane, nan is any real that no growth time equals, and the amplitude given by a function of time is excluded (C35 shows it is misread); the remaining C potentials (double exponential, SCF, ellipsoidal, bars, spirals, moving objects, friction, frames, tilts) are not modelled; where the property fails, theorems ending in _refuted prove it: a combination that was normalised is integrated in C without its own factor; no energy in C inside a rotating wrapper (function pointer never set); in the plane the second derivative of the Kuzmin disk has the wrong sign, Miyamoto-Nagai with negative b has another force, the multipole disk at its break radius takes the other branch"
 },
 "C45": {
  "note": "the solver is exact; amplitude and rate of the angle nonzero along the solution; points off the axis; where the property fails, theorems ending in _refuted prove it: SOS restarts at t0 for its second leg, so in a time-dependent potential the returned points are not on one orbit; the C equations in space leave out every velocity-dependent force when |vR| < 1 and evaluate it at the wrong velocities otherwise"
 },
 "C46": {
  "note": "the solver is exact; points off the axis; the potential is differentiable along the orbit; where the property fails, theorems ending in _refuted prove it: when a Python integration passes through the axis the returned row is another point (pi is added to z instead of phi; in the plane vR is not turned); Jacobi without a pattern speed uses 1 and is not constant in a static potential that is not axisymmetric"
 },
 "C47": {
  "note": "Gauss-Legendre sums are replaced by the integrals; the linear expansion within 1e-6 of the turning points is replaced by its limit; turning points are arguments (C13 models their search); where the property fails, theorems ending in _refuted prove it: estimateDeltaStaeckel called with arrays changes the caller's array z wherever it is zero"
 },
 "C48": {
  "note": "quad is the Riemann integral; beta is a half-integer at most 1/2 and 2s an integer (closed forms of Gamma); the hypergeometric branch and the numerical inversions (eddingtondf, constantbetadf) are not modelled; where the property fails, theorems ending in _refuted prove it: Orbits with several rows share one angular momentum; odd moments of the tangential speed are returned as 0; arrays of energies with two axes have whole rows set to 0"
 },
 "C49": {
  "note": "random numbers are arguments; the splines of the mass and speed samplers are oracles; _sample_eta of constantbetadf is not modelled; where the property fails, theorems ending in _refuted prove it: sample(rmin=) is ignored by the classes with a closed-form inverse mass profile"
 },
 "C50": {
  "note": "the linear expansion within 1e-6 of the turning points is replaced by its limit and the Gauss-Legendre sums by the integrals; the turning points are arguments; that the derivatives are those of the action integrals is not proved; where the property fails, theorems ending in _refuted prove it: orbits in the plane get the epicycle frequencies of their present radius, which change along an eccentric orbit, and no angles"
 },
 "C51": {
  "note": "quadratures are integrals (the improper one of actionAngleVertical is the limit at the turning point) and the turning points are arguments; circular orbits, orbits retrograde in the plane z = 0, `_gamma`, `fixed_quad` errors, `_actionsFreqs` of actionAngleVertical and its 1e-6 guard are not covered"
 },
 "C52": {
  "note": "the C versions and the caches of the needle bar are not covered; `omegab` given directly to the Dehnen bar is covered by the theorems about every DBar; where the property fails, theorems ending in _refuted prove it: the analytic density of the spiral arms is not the source of the potential, while with one term squared it is; an array of positions on the axis does not give the values of its entries"
 },
 "C53": {
  "note": "the Gauss-Legendre nodes and weights of numpy, `hyp2f1` and `erf` of scipy enter as oracles with their derivative law; `glorder=None` is the exact integral instead of `integrate.quad`; the C versions and the `isNonAxi` decision are not covered; where the property fails, theorems ending in _refuted prove it: the mass of the perfect ellipsoid for a different from 1, and the amplitude of the triaxial power law for alpha = 3, which comes out as 0"
 },
 "C54": {
  "note": "exact real arithmetic except in the theorem about the number of steps, where the two divisions are rounded by Flocq's binary64; the power of two from the error estimate of dopr54, `pow` and the error scale are arbitrary; SIGINT handling and the error flag are left out; the decimal coefficients of symplec4 and symplec6 satisfy their order conditions only up to rounding, so that no order is claimed for them; where the property fails, theorems ending in _refuted prove it: in double precision the number of steps can be one too small (output step 0.1 and 11 steps give 10), so that every output interval is cut short; and a given step of the wrong sign, which the check of Orbit.integrate accepts, makes dopr54_c run for ever and rk4_c step the wrong way"
 },
 "C55": {
  "note": "`scipy.integrate.quad` is the exact improper integral; evaluateSurfaceDensities(Pot, R, inf) is an arbitrary function that may return NaN and otherwise the surface density; where the property fails, theorems ending in _refuted prove it: "
 },
 "C56": {
  "note": "`scipy.integrate.dblquad`/`quad` are exact iterated Riemann integrals; the spline through the table of corrections is an arbitrary function of radius; the adaptive rejection sampler is C39; where the property fails, theorems ending in _refuted prove it: "
 },
 "C57": {
  "note": "the tables of numpy's leggauss are arbitrary rules exact to degree 2n-1; tplquad is an exact iterated Riemann integral; the optimiser's maxVT is an arbitrary number; where the property fails, theorems ending in _refuted prove it: "
 },
 "C58": {
  "note": "scipy.special's gamma, gammainc, gammaincc, hyp1f1, exp1 are the mathematical functions; quad is the exact improper integral; splines are any functions with the stated derivatives; where the property fails, theorems ending in _refuted prove it: "
 },
 "C59": {
  "note": "rounding in R + dR is not modelled, so the roundoff part of the error of a numerical derivative is outside the bounds; where the property fails, theorems ending in _refuted prove it: "
 },
 "C60": {
  "note": "scipy quad is the exact integral over the open interval; the accuracy of quadrature and the array handling of several stars are not modelled; the orbit of a curved stream is any pair of functions; where the property fails, theorems ending in _refuted prove it: "
 },
 "C61": {
  "note": "the expansion itself (SCF or multipole) is any potential object; numpy.sign, logsumexp and tanh are their real functions; scipy quad in the mass is the exact integral; where the property fails, theorems ending in _refuted prove it: "
 },
 "C62": {
  "note": "R0z[1]*tan(v) and 1/tan(v) are their limits at v = pi/2; the wrapped potential is any axisymmetric potential object; where the property fails, theorems ending in _refuted prove it: "
 },
 "C63": {
  "note": "turning points are given by the equations they solve; quadratures are integrals; for a retrograde orbit in the plane the code relies on the float arccos(-1) not being a zero of the sine, which the model states as a branch; where the property fails, theorems ending in _refuted prove it: "
 },
 "C64": {
  "note": "quadratures are integrals; the surface density of a disk vanishes beyond a radius, so that an integral up to infinity is one up to that radius; where the property fails, theorems ending in _refuted prove it: "
 },
 "C65": {
  "note": "the scale-free solution of the King equation and its derivative, which the code tabulates and interpolates, are a pair of functions W, W'; erf is its integral; where the property fails, theorems ending in _refuted prove it: "
 },
 "C66": {
  "note": "scipy's associated Legendre functions and their first derivative are those of the definition through derivatives of the Legendre polynomials; where the property fails, theorems ending in _refuted prove it: "
 },
 "C67": {
  "note": "scipy's BPoly.from_derivatives gives twice differentiable splines through the given values and derivatives; InterpolatedUnivariateSpline.integral is the integral of the spline; where the property fails, theorems ending in _refuted prove it: Between grid radii the splines only interpolate the integrals, so Poisson's equation is stated at the grid radii and outside the grid."
 },
 "C68": {
  "note": "scipy.special.gamma satisfies Euler's beta integral, equals sqrt(pi) at 1/2, is positive on positive reals and negative between -1 and 0; where the property fails, theorems ending in _refuted prove it: The gamma function is a parameter constrained by the beta integrals at the exponents in use."
 },
 "C69": {
  "note": "scipy.optimize.fixed_point returns a fixed point; interp1d and numpy.interp interpolate linearly; the spline passes through the table; where the property fails, theorems ending in _refuted prove it: scipy's fixed_point is taken to return exact fixed points; the new radii of the shells are taken to be increasing (interp1d sorts them)."
 },
 "C70": {
  "note": "Orbit.integrate follows the flow of the potential from the first of the given times; where the property fails, theorems ending in _refuted prove it: Derivatives, marginalised values and velocity moments are not modelled."
 },
 "C71": {
  "note": "random draws are arbitrary numbers; the tidal radius and force are arbitrary functions of the cylindrical coordinates; where the property fails, theorems ending in _refuted prove it: Sampling of times and normal variates, integration to the present and stream tracks are not modelled."
 },
 "C72": {
  "note": "scipy splines reproduce their data at the nodes (hypothesis of the node theorems only); where the property fails, theorems ending in _refuted prove it: C evaluation, units and not-a-number values are not modelled."
 },
 "C73": {
  "note": "the matrix inverse is a left inverse of the normal matrix (hypothesis); where the property fails, theorems ending in _refuted prove it: Orbit integration, the median test, plots and non-axisymmetric potentials are not modelled."
 },
 "C74": {
  "note": "scipy's cKDTree returns every point once in order of distance, ties in any order (hypothesis); where the property fails, theorems ending in _refuted prove it: Means, covariances, smoothing splines and the iteration of the fit are not modelled."
 }
}