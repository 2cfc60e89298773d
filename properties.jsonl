{"id": "C01", "title": "Forces are minus the gradient of the potential", "statement": "For every built-in closed-form potential the values returned by evaluateRforces, evaluatezforces and evaluatephitorques are exactly minus the partial derivatives with respect to R, z and phi of the value returned by evaluatePotentials, at every point of the potential's domain.", "quantifier": "every potential parameter in its legal range, every (R,z,phi,t) in the domain", "why_tests_cant": "tests compare with finite differences at a few points and with a tolerance; a wrong branch or a coefficient that only matters elsewhere in the continuum is not seen", "anchors": ["galpy/potential/MiyamotoNagaiPotential.py", "galpy/potential/PlummerPotential.py", "galpy/potential/IsochronePotential.py", "galpy/potential/KuzminDiskPotential.py", "galpy/potential/LogarithmicHaloPotential.py", "galpy/potential/TwoPowerSphericalPotential.py", "galpy/potential/PowerSphericalPotential.py", "galpy/potential/BurkertPotential.py", "galpy/potential/PseudoIsothermalPotential.py", "galpy/potential/HomogeneousSpherePotential.py", "galpy/potential/FlattenedPowerPotential.py", "galpy/potential/HenonHeilesPotential.py", "galpy/potential/DehnenBarPotential.py", "galpy/potential/SoftenedNeedleBarPotential.py"]}
{"id": "C02", "title": "Second derivatives are derivatives of the forces", "statement": "R2deriv, z2deriv, Rzderiv (and phi2deriv, Rphideriv, phizderiv where provided) of the built-in closed-form potentials are the exact second partial derivatives of the potential value; in particular the mixed derivative is the same whichever force is differentiated.", "quantifier": "every parameter in range, every point of the domain", "why_tests_cant": "finite-difference tests of second derivatives are few and loose; the claim is about a continuum of points", "anchors": ["galpy/potential/MiyamotoNagaiPotential.py", "galpy/potential/PlummerPotential.py", "galpy/potential/IsochronePotential.py", "galpy/potential/LogarithmicHaloPotential.py", "galpy/potential/TwoPowerSphericalPotential.py", "galpy/potential/PowerSphericalPotential.py"]}
{"id": "C03", "title": "Densities satisfy Poisson's equation", "statement": "The density returned by evaluateDensities for a built-in closed-form potential equals the Laplacian of the potential value divided by 4 pi, whether it comes from the class's own density or from the generic fallback that combines the radial force and the second derivatives.", "quantifier": "every parameter in range, every point with R>0 of the domain", "why_tests_cant": "tests check a handful of radii with tolerance", "anchors": ["galpy/potential/Potential.py:Potential.dens", "galpy/potential/PlummerPotential.py:_dens", "galpy/potential/MiyamotoNagaiPotential.py:_dens", "galpy/potential/IsochronePotential.py:_dens", "galpy/potential/TwoPowerSphericalPotential.py:_dens"]}
{"id": "C04", "title": "Enclosed mass is consistent with force and density", "statement": "For the spherical potentials with a closed-form enclosed mass, mass(r) equals r^2 times the inward radial force and its derivative in r is 4 pi r^2 times the density.", "quantifier": "every parameter in range, every r>0", "why_tests_cant": "tests integrate the density numerically for a few r", "anchors": ["galpy/potential/PlummerPotential.py:_mass", "galpy/potential/TwoPowerSphericalPotential.py:HernquistPotential._mass,JaffePotential._mass,NFWPotential._mass", "galpy/potential/IsochronePotential.py", "galpy/potential/BurkertPotential.py:_mass"]}
{"id": "C05", "title": "Superposition and amplitude scaling", "statement": "Potential, forces, second derivatives and density of a combination pot1+pot2+... (built with +, with a list, or nested in any way) are the sums of those of the constituents; multiplying a potential or combination by a number multiplies every one of them by that number; multiplying and dividing by the same non-zero number gives back the original values.", "quantifier": "every finite list of potentials, every nesting, every scalar, every point | exception (proved to fail): a combination that has been normalised loses its own amplitude when multiplied or combined again", "why_tests_cant": "combinations are unbounded in size and nesting; tests exercise a handful", "anchors": ["galpy/potential/CompositePotential.py", "galpy/potential/baseCompositePotential.py", "galpy/potential/Force.py:Force.__mul__,Force.__add__", "galpy/potential/Potential.py:flatten"]}
{"id": "C06", "title": "Flattening a nested list of potentials keeps every potential, once, in order", "statement": "flatten returns a list without nested lists that contains exactly the potentials of the input in reading order, is idempotent, and evaluating the flattened list gives the same values.", "quantifier": "every finitely nested list", "why_tests_cant": "nesting depth is unbounded", "anchors": ["galpy/potential/Potential.py:flatten"]}
{"id": "C07", "title": "Objects with incompatible physical units are refused", "statement": "Adding two forces, or adding a force to a combination, raises unless their distance and velocity scales agree wherever both are set; as a consequence any two members of a combination built with + agree on those scales.", "quantifier": "every sequence of + operations and constructor calls | exceptions (proved to fail): a combination whose first member has a scale unset; replacing the first member by item assignment", "why_tests_cant": "the guarantee is an invariant over all construction histories", "anchors": ["galpy/potential/Force.py:Force.__add__", "galpy/potential/CompositePotential.py", "galpy/potential/baseCompositePotential.py:__setitem__", "galpy/util/conversion.py:physical_compatible"]}
{"id": "C08", "title": "Wrapped potentials obey the chain rule", "statement": "For the wrapper potentials (time-dependent amplitudes, solid-body rotation, corotating rotation, Kuzmin-like, rotate-and-tilt, moving object, spherical reduction) the forces and second derivatives of the wrapper are the exact derivatives of the wrapper's value whenever the wrapped potential's are, for every wrapped potential.", "quantifier": "every wrapped potential whose own derivatives are right, all wrapper parameters, every point and time | exception (proved to fail): second derivatives of KuzminLikeWrapperPotential around an object with physical output switched on", "why_tests_cant": "wrappers are functors: tests instantiate a few wrapped potentials", "anchors": ["galpy/potential/DehnenSmoothWrapperPotential.py", "galpy/potential/GaussianAmplitudeWrapperPotential.py", "galpy/potential/SolidBodyRotationWrapperPotential.py", "galpy/potential/CorotatingRotationWrapperPotential.py", "galpy/potential/KuzminLikeWrapperPotential.py", "galpy/potential/RotateAndTiltWrapperPotential.py", "galpy/potential/MovingObjectPotential.py", "galpy/potential/SphericalPotential.py"]}
{"id": "C09", "title": "Smooth growth is a monotone switch", "statement": "The Dehnen smoothing amplitude is 0 before tform, 1 after tform+tsteady, stays in [0,1], is non-decreasing in between, is continuously differentiable at the two joins, and the decaying version is one minus the growing one.", "quantifier": "all tform, tsteady>0, all t | exception (proved to fail): without a tsteady and with positive tform the growth ends before it begins, and the switch is a jump", "why_tests_cant": "continuum of times and parameters, joins have measure zero", "anchors": ["galpy/potential/DehnenSmoothWrapperPotential.py:_smooth", "galpy/potential/DehnenBarPotential.py:_smooth"]}
{"id": "C10", "title": "Non-inertial frame forces are the textbook fictitious forces", "statement": "NonInertialFrameForce returns -a0 - 2 Omega x v - Omega x (Omega x x) - dOmega/dt x x, in every configuration of scalar, vector, constant, linear or function-valued rotation; the result of a call depends only on its arguments and never on earlier calls (cache).", "quantifier": "every rotation specification, position, velocity, time, and every sequence of earlier calls | exceptions (proved to fail): the documented list of three numbers; a position of the origin without its acceleration; a scalar rate with a vector derivative", "why_tests_cant": "the cache makes correctness a property of call histories; configurations multiply", "anchors": ["galpy/potential/NonInertialFrameForce.py"]}
{"id": "C11", "title": "Reductions to the plane and to the vertical direction", "statement": "Potentials obtained by toPlanarPotential and toVerticalPotential give the value, forces and second derivatives of the full potential restricted to z=0, or to the given (R,phi) with the midplane value subtracted; reducing a list reduces each member, and reduction of something already planar is the identity.", "quantifier": "every potential, every list, every point | exceptions (proved to fail): normalised combinations; a planar dissipative force cannot be reduced again", "why_tests_cant": "functor over all potentials; unbounded lists", "anchors": ["galpy/potential/planarPotential.py", "galpy/potential/verticalPotential.py"]}
{"id": "C12", "title": "Tidal tensor and derived frequencies", "statement": "ttensor is minus the Hessian of the potential in Cartesian coordinates, symmetric, with trace minus 4 pi times the density; vcirc squared is R times the inward force, dvcircdR is its derivative, omegac, epifreq and verticalfreq obey their definitions. rtide is the cube root of M over the square of the angular frequency minus the second radial derivative, flattening returns q for a potential of R^2 + z^2/q^2, vterm is the line-of-sight velocity of the tangent point.", "quantifier": "every axisymmetric potential with correct second derivatives, every point | exceptions (proved to fail): the module function dvcircdR for non-axisymmetric potentials; module functions applied to a normalised combination", "why_tests_cant": "continuum, functor over potentials", "anchors": ["galpy/potential/Potential.py:ttensor,vcirc,dvcircdR,omegac,epifreq,verticalfreq"]}
{"id": "C13", "title": "Bracket searches return valid brackets", "statement": "When the bracket-expansion loops used to locate radii (guiding-centre radius, circular radius at energy, zero-velocity curves, Lindblad radii, half-mass radius) return, the function has changed sign over the returned bracket, for every potential; the returned root is inside.", "quantifier": "every potential, angular momentum, energy; loops of unbounded length | the root finder is any function meeting the contract of brentq; exceptions (proved to fail): lindbladR misses large radii; nearly circular orbits raise; bound orbits with a far apocentre are called unbound; LcE ignores the time", "why_tests_cant": "loop length depends on the input without bound", "anchors": ["galpy/potential/Potential.py:_rlFindStart,rl,rE,lindbladR,zvc_range,rhalf"]}
{"id": "C14", "title": "Positions round-trip between rectangular, cylindrical and spherical coordinates", "statement": "cyl_to_rect after rect_to_cyl is the identity everywhere; rect_to_cyl after cyl_to_rect is the identity for R>0 and phi in (-pi,pi]; the same for the spherical pair; radii and heights are preserved.", "quantifier": "all reals", "why_tests_cant": "arctan2 branch cuts have measure zero and are missed by sampling", "anchors": ["galpy/util/coords.py:rect_to_cyl,cyl_to_rect,cyl_to_spher,spher_to_cyl"]}
{"id": "C15", "title": "Velocity transformations are inverse and preserve speed", "statement": "rect_to_cyl_vec/cyl_to_rect_vec, cyl_to_spher_vec/spher_to_cyl_vec and vrpmllpmbb_to_vxvyvz/vxvyvz_to_vrpmllpmbb are mutually inverse at every position and preserve the speed.", "quantifier": "all positions and velocities", "why_tests_cant": "continuum", "anchors": ["galpy/util/coords.py"]}
{"id": "C16", "title": "Sky coordinates round-trip", "statement": "Converting (ra,dec) to (l,b) and back, (l,b,d) to (X,Y,Z) and back, and proper motions with them, recovers the input; proper-motion magnitude is preserved; custom sky frames given by a rotation matrix round-trip.", "quantifier": "all angles away from the poles where longitude is undefined; all distances; any epoch", "why_tests_cant": "branch cuts and the full circle", "anchors": ["galpy/util/coords.py:radec_to_lb,lb_to_radec,lbd_to_XYZ,XYZ_to_lbd,pmrapmdec_to_pmllpmbb,pmllpmbb_to_pmrapmdec,radec_to_custom,custom_to_radec"]}
{"id": "C17", "title": "Heliocentric and Galactocentric frames are inverse", "statement": "galcenrect_to_XYZ inverts XYZ_to_galcenrect and galcenrect_to_vxvyvz inverts vxvyvz_to_galcenrect for any solar position, height and motion.", "quantifier": "all positions, velocities and solar parameters | exception (proved to fail): Xsun = 0", "why_tests_cant": "continuum of frames", "anchors": ["galpy/util/coords.py:XYZ_to_galcenrect,galcenrect_to_XYZ,vxvyvz_to_galcenrect,galcenrect_to_vxvyvz"]}
{"id": "C18", "title": "Prolate and oblate spheroidal coordinates round-trip", "statement": "uv_to_Rz inverts Rz_to_uv (prolate) and recovers R and |z| (oblate); lambdanu_to_Rz inverts Rz_to_lambdanu up to sign; pupv_to_vRvz inverts vRvz_to_pupv.", "quantifier": "all R>0,z and all focal parameters | exception (proved to fail): the sign of z is lost in the oblate conversion", "why_tests_cant": "continuum; sign loss only on half of the space", "anchors": ["galpy/util/coords.py:Rz_to_uv,uv_to_Rz,Rz_to_lambdanu,lambdanu_to_Rz,vRvz_to_pupv,pupv_to_vRvz"]}
{"id": "C19", "title": "Jacobians are the derivatives of the transformations", "statement": "The matrices returned by cyl_to_rect_jac, galcenrect_to_XYZ_jac, lbd_to_XYZ_jac, XYZ_to_lbd_jac, galcenrect_to_galcencyl_jac, galsky_to_sky_jac, sky_to_customsky_jac and Rz_to_lambdanu_jac/_hess are the exact derivatives of the transformations they belong to.", "quantifier": "all points of the domains | away from the poles and the half-line of zero longitude; exceptions (proved to fail): galcenrect_to_XYZ_jac ignores the extra rotation; galsky_to_sky_jac with epoch 1950", "why_tests_cant": "continuum", "anchors": ["galpy/util/coords.py"]}
{"id": "C20", "title": "Covariance transformations are congruences", "statement": "cov_pmrapmdec_to_pmllpmbb, cov_dvrpmllbb_to_vxyz and relatives map a covariance matrix C to J C J^T; symmetric positive semi-definite input gives symmetric positive semi-definite output.", "quantifier": "all covariance matrices and sky positions | exception (proved to fail): cov_vxyz_to_galcenrect has the signs of two covariances reversed", "why_tests_cant": "continuum", "anchors": ["galpy/util/coords.py:cov_pmrapmdec_to_pmllpmbb,cov_dvrpmllbb_to_vxyz"]}
{"id": "C21", "title": "Unit conversion factors are dimensionally coherent", "statement": "The conversion factors for time, mass, density, surface density, force, frequency, energy, action and so on satisfy the relations that make output in physical units independent of the choice of ro and vo: the physical value of a converted quantity obeys the same physical law, and parsing a physical quantity and converting it back is the identity for any positive ro and vo.", "quantifier": "all positive ro, vo; all quantities | exception (proved to fail): force_in_10m13kms2 is off by the ratio of the Julian to the tropical year", "why_tests_cant": "continuum of scales; tests use one or two", "anchors": ["galpy/util/conversion.py"]}
{"id": "C22", "title": "Whether output is physical follows a fixed precedence", "statement": "A quantity is returned in physical units exactly when use_physical is not False, and each scale the quantity needs is available, where call keywords ro/vo take precedence over the object's own and over the defaults; the scale used is the one with the highest precedence; quantities that need only one of the scales convert when only that scale is known.", "quantifier": "every combination of keyword, object state, and quantity type, every sequence of turn_physical_on/off | exception (proved to fail): number densities, surfacedensitydistance and angle ask for a scale they do not need", "why_tests_cant": "combinatorial explosion of settings and histories", "anchors": ["galpy/util/conversion.py:physical_output,physical_conversion,_roNecessary,_voNecessary", "galpy/potential/Force.py:turn_physical_on,turn_physical_off"]}
{"id": "C23", "title": "Indexing an Orbit is numpy indexing of each of its orbits", "statement": "o[key] is the Orbit whose i-th member has the phase-space point, the integrated trajectory, the times and the per-orbit scales of the member of o that key selects; reshape only changes the shape.", "quantifier": "every shape, key, integration state | exceptions (proved to fail): scales given per orbit; integrating a selection further", "why_tests_cant": "unbounded shapes and keys; history dependent", "anchors": ["galpy/orbit/Orbits.py:Orbit.__getitem__,Orbit._from_slice,Orbit.reshape"]}
{"id": "C24", "title": "Continued integration extends the trajectory and keeps the initial condition", "statement": "After any sequence of integrate calls on one Orbit the stored times are strictly monotone, the trajectory has one point per stored time, the initial condition reported at the start is unchanged, and in an autonomous flow every stored point is the flow of the initial condition to its time.", "quantifier": "every sequence of integrate calls with arbitrary time grids | exceptions (proved to fail): grids shorter than the tolerance of the start-time comparison; a continuation that fails", "why_tests_cant": "a property of unbounded call histories", "anchors": ["galpy/orbit/Orbits.py:Orbit._should_continue_integration,Orbit._integrate_impl"]}
{"id": "C25", "title": "The integrator that runs is allowed for the potential", "statement": "Whatever method is requested, the method that runs is implemented for every force (C methods only when all forces have C), and is never a symplectic method when a dissipative force is present; a requested method that is already allowed is the one that runs.", "quantifier": "every method string, every combination of forces, extension present or not | exceptions (proved to fail): method names in upper case; ias15_c with dissipative forces", "why_tests_cant": "combinatorial", "anchors": ["galpy/orbit/Orbits.py:check_integrator,_check_method_c_compatible,_check_method_dissipative_compatible", "galpy/potential/Potential.py:_check_c,_isDissipative"]}
{"id": "C26", "title": "Leapfrog is time-reversible and symplectic", "statement": "Integrating with leapfrog and then, with velocities reversed, over the reversed time grid returns exactly to the initial condition; each step preserves phase-space volume; for any force field and any number of steps and substeps.", "quantifier": "every force field, step, number of steps | reversal for runs in which the same substep is chosen both ways", "why_tests_cant": "unbounded number of steps, arbitrary force", "anchors": ["galpy/util/symplecticode.py:leapfrog,leapq,leapp"]}
{"id": "C27", "title": "Leapfrog step-size estimation terminates with a divisor of the output step", "statement": "The automatic step-size estimate always terminates, returns the output step divided by a power of two, and the number of halvings is bounded; the substeps exactly cover the output interval.", "quantifier": "every force field, initial condition, tolerance | exceptions (proved to fail): uneven grids; a given step that is truncated or has the wrong sign; the limit on reductions", "why_tests_cant": "loop length depends on the force", "anchors": ["galpy/util/symplecticode.py:_leapfrog_estimate_step,leapfrog"]}
{"id": "C28", "title": "The C symplectic integrators are consistent palindromic compositions", "statement": "The drift and kick coefficients of the 4th- and 6th-order C integrators sum to one, form a palindrome, hence each step is inverted by the step with negated dt for every force field; the merged half-drifts between steps do not change the result.", "quantifier": "every force field, number of steps | exception (proved to fail): the printed coefficients do not sum to one exactly; the deviation is bounded", "why_tests_cant": "algebraic identity over arbitrary force and step count", "anchors": ["galpy/util/bovy_symplecticode.c"]}
{"id": "C29", "title": "Direct N-body integration conserves momentum and angular momentum", "statement": "With no external potential direct_nbody conserves total momentum exactly at every step, and total angular momentum, for any number of particles, masses, softening and any number of steps; centre of mass moves uniformly.", "quantifier": "any N, masses, initial conditions, number of steps | exceptions (proved to fail): coincident particles; uneven output grids", "why_tests_cant": "unbounded N and steps", "anchors": ["galpy/snapshot/directnbody.py"]}
{"id": "C30", "title": "parallel_map is map, whatever the schedule", "statement": "parallel_map(f, xs) returns [f(x) for x in xs] in order when no call raises, under every interleaving of worker completions and any number of cores; when a call raises, an exception is raised and no partial result is returned.", "quantifier": "every list, every numcores, every schedule | exceptions (proved to fail): an empty sequence is an error; a single element returns an unevaluated iterator", "why_tests_cant": "schedules", "anchors": ["galpy/util/multi.py:worker,run_tasks,parallel_map"]}
{"id": "C31", "title": "save_pickles never leaves a half-written target", "statement": "At every crash point during save_pickles the target file holds either its old content or the complete new content.", "quantifier": "every crash point, every content | exceptions (proved to fail): a temporary directory on another file system; an interrupt before the file is open; the temporary file can be left behind", "why_tests_cant": "crash points cannot be sampled reliably", "anchors": ["galpy/util/__init__.py:save_pickles"]}
{"id": "C32", "title": "Configuration files are repaired without losing settings", "statement": "Whatever configuration file is found, after fix_config the configuration passes check_config, keeps every known setting the user had and has defaults for the others; repairing twice is the same as once.", "quantifier": "every configuration content | exceptions (proved to fail): settings galpy does not know; values with a percent sign; a write that fails half-way", "why_tests_cant": "unbounded inputs", "anchors": ["galpy/util/config.py"]}
{"id": "C33", "title": "Harmonic-oscillator action-angle round trip", "statement": "actionAngleHarmonicInverse composed with actionAngleHarmonic gives back the phase-space point; the action equals energy over frequency; angles advance linearly along the exact orbit; the map is canonical (unit Jacobian).", "quantifier": "every frequency and phase-space point", "why_tests_cant": "continuum", "anchors": ["galpy/actionAngle/actionAngleHarmonic.py", "galpy/actionAngle/actionAngleHarmonicInverse.py"]}
{"id": "C34", "title": "Isochrone actions, frequencies, angles and inverse are consistent", "statement": "The Hamiltonian expressed in the returned actions equals the energy, and the returned frequencies are the derivatives of that Hamiltonian. The returned peri- and apocentre are where the radial speed vanishes and every height along the orbit stays below zmax. Evaluating the inverse at the returned actions and angles gives back the phase-space point. Along every orbit of the potential actions and frequencies are constant and the angles advance at the frequencies; turning the orbit about the axis turns only the azimuthal angle.", "quantifier": "every bound orbit, every isochrone (including Kepler), every time along every orbit | exceptions (proved to fail): circular orbits have no angles; orbits through the axis do not round-trip; retrograde orbits in the plane z=0 turn the wrong way", "why_tests_cant": "continuum", "anchors": ["galpy/actionAngle/actionAngleIsochrone.py", "galpy/actionAngle/actionAngleIsochroneInverse.py"]}
{"id": "C35", "title": "The C code reads back exactly the potential that Python serialised", "statement": "For every tree of supported potentials and wrappers, parsing on the C side the arrays produced on the Python side consumes them exactly and assigns to each potential its own arguments.", "quantifier": "every finite tree | exception (proved to fail): planar TimeDependentAmplitudeWrapperPotential", "why_tests_cant": "nesting is unbounded; a mis-count only shows for particular combinations", "anchors": ["galpy/orbit/integrateFullOrbit.py:_parse_pot", "galpy/orbit/orbit_c_ext/integrateFullOrbit.c:parse_leapFuncArgs_Full"]}
{"id": "C36", "title": "Copying or unpickling a dynamical-friction force does not change it", "statement": "A ChandrasekharDynamicalFrictionForce gives the same force after copy, pickling or multiplication by 1 as before. The force points along minus the velocity and has the size of Chandrasekhar's formula (Coulomb logarithm with the larger of the size and GM/v^2), or of its fuzzy-dark-matter version, whose coefficient never exceeds Chandrasekhar's; it vanishes inside minr.", "quantifier": "every configuration, every point | exception (proved to fail): a user-given velocity dispersion beyond the range of the table", "why_tests_cant": "the difference only shows outside the interpolation range", "anchors": ["galpy/potential/ChandrasekharDynamicalFrictionForce.py:__getstate__,__setstate__"]}
{"id": "C37", "title": "Flipping velocities is an involution compatible with time reversal", "statement": "o.flip().flip() has the phase-space point of o in every phase-space dimension, positions unchanged and all velocity components negated.", "quantifier": "every phase-space dimension and point | exception (proved to fail): integrating further after flip(inplace=True) of an integrated orbit", "why_tests_cant": "index bookkeeping per dimension", "anchors": ["galpy/orbit/Orbits.py:Orbit.flip"]}
{"id": "C38", "title": "Evaluating an integrated Orbit at stored times returns the stored points", "statement": "For an integrated orbit, evaluation at any time of the stored grid returns the stored phase-space point whatever the order of the requested times, times outside the integrated interval are refused, and evaluation never changes the stored trajectory.", "quantifier": "every grid, every request | exceptions (proved to fail): evaluation reorders short backward grids; azimuths come back in (-pi,pi]", "why_tests_cant": "sort/unsort bookkeeping for all grids", "anchors": ["galpy/orbit/Orbits.py:Orbit._call_internal,Orbit._setupOrbitInterp"]}
{"id": "C39", "title": "Adaptive-rejection sampling hulls bound the target", "statement": "For a log-concave target the upper hull lies above and the lower hull below the log density at every point, after any number of updates; the hull stays sorted.", "quantifier": "every log-concave function, every sequence of updates | exceptions (proved to fail): between the second and third of three or more abscissae; a candidate equal to the largest abscissa", "why_tests_cant": "unbounded update histories", "anchors": ["galpy/util/ars.py"]}
{"id": "C40", "title": "Rotation onto a direction", "statement": "The rotation built from two directions maps one to the other, preserves lengths and orientation.", "quantifier": "every direction, including the antiparallel one | exceptions (proved to fail): within 1.5e-5 of the two poles the direction is reached only approximately; the antiparallel direction is a point reflection", "why_tests_cant": "degenerate directions have measure zero", "anchors": ["galpy/util/__init__.py:_rotate_to_arbitrary_vector"]}
{"id": "C41", "title": "In-plane heliocentric and Galactocentric polar coordinates describe the same point", "statement": "dl_to_rphi_2d and rphi_to_dl_2d solve the Sun-centre-star triangle: the returned (R,phi) is the point seen at distance d and longitude l, in every quadrant including behind the centre, and the two functions are inverse to each other, with and without degrees and with any solar azimuth.", "quantifier": "all distances, longitudes, solar radii and azimuths", "why_tests_cant": "the correct branch of arcsin depends on the quadrant and on whether the star is beyond the centre; samples cannot cover the continuum of triangles", "anchors": ["galpy/util/coords.py:dl_to_rphi_2d,rphi_to_dl_2d"]}
{"id": "C42", "title": "Integrated orbit deviations are the exact derivative of the computed orbit", "statement": "With the symplectic integrators, integrate_dxdv returns the same orbit as integrate (same step size, same rows), and each returned deviation is the exact derivative of the computed (discrete) orbit with respect to the initial condition along the given deviation; the matrix of force derivatives used is the Jacobian of the rectangular force for 3D, planar and linear orbits; hence the canonical two-form of any two deviations is conserved exactly and phase-space volume with it.", "quantifier": "every potential and composite that provides derivatives, every initial condition and deviation, every number of steps", "why_tests_cant": "finite differences of integrated orbits only bound the error at sample points; exact tangency and conservation must hold at every step for every potential", "anchors": ["galpy/util/bovy_symplecticode.c:leapfrog_dxdv,symplec4_dxdv,symplec6_dxdv", "galpy/orbit/orbit_c_ext/integrateFullOrbit.c:evalRectForce,evalRectDeriv_dxdv", "galpy/orbit/integratePlanarOrbit.py:_planarEOM_dxdv", "galpy/orbit/Orbits.py:Orbit.integrate_dxdv"]}
{"id": "C43", "title": "Potentials of the plane and of one dimension are consistent and as documented", "statement": "For the elliptical disk, cos(m phi) disk with or without a break, steady and transient logarithmic spirals, Henon-Heiles, isothermal sheet and the Kuijken-Gilmore vertical potential: forces are minus the gradient of the potential, second derivatives are those of the forces, sums of any depth and wrappers that change the amplitude with time or rotate rigidly inherit both; the values are the documented formulas; strengths given as (cp, sp) are the cosine and sine coefficients; the pitch angle is that of the crest; the growth factor is smooth and monotone from zero to one.", "quantifier": "every parameter, every R>0 off the break (and at it when r1=1), azimuth and time; every nesting of sums | exceptions (proved to fail): Rphideriv of the cos(m phi) disk inside the break for m other than one; r1 other than one inside the break, where the potential jumps; r1 of the lopsided disk is ignored; negative cp with m>=2; growth of spirals with negative pattern speed; tsteady without tform", "why_tests_cant": "tests take finite differences at a few points with default parameters; errors confined to one branch or to one combination of signs and m are missed", "anchors": ["galpy/potential/EllipticalDiskPotential.py", "galpy/potential/CosmphiDiskPotential.py", "galpy/potential/SteadyLogSpiralPotential.py", "galpy/potential/TransientLogSpiralPotential.py", "galpy/potential/HenonHeilesPotential.py", "galpy/potential/IsothermalDiskPotential.py", "galpy/potential/KGPotential.py"]}
{"id": "C44", "title": "The compiled integrators integrate the same potential as the Python methods describe", "statement": "For potentials of sixteen three-dimensional classes and six classes of the plane, in sums and in wrappers nested to any depth: the arrays that Python hands to C are read back as an array of function pointers whose sums are, at every point where the formulas are defined, the radial force, vertical force, torque, all second derivatives, and (where C has them) potential and density that the Python methods of the same object return. In the plane the same holds for the planar forces, torques and second derivatives, for two-dimensional objects and for three-dimensional ones taken at z = 0. Hence orbits and orbit deviations obey the same equations of motion in both.", "quantifier": "every list of modelled potentials, every parameter in the constructors' ranges, every nesting of wrappers, every point of the domain and every time | exceptions (proved to fail): a combination that was normalised is integrated in C without its own factor; no energy in C inside a rotating wrapper (function pointer never set); in the plane the second derivative of the Kuzmin disk has the wrong sign, Miyamoto-Nagai with negative b has another force, the multipole disk at its break radius takes the other branch", "why_tests_cant": "tests compare one orbit per class in C and in Python to a tolerance; a wrong term in a derivative used only by orbit deviations, or a combination of wrappers, is not exercised", "anchors": ["galpy/potential/potential_c_ext/*.c", "galpy/potential/potential_c_ext/galpy_potentials.c", "galpy/orbit/orbit_c_ext/integrateFullOrbit.c:parse_leapFuncArgs_Full", "galpy/orbit/integrateFullOrbit.py:_parse_pot", "galpy/orbit/orbit_c_ext/integratePlanarOrbit.c:parse_leapFuncArgs", "galpy/orbit/integratePlanarOrbit.py:_parse_pot"]}
{"id": "C45", "title": "Surface-of-section integration follows the orbit and returns its crossings", "statement": "Orbit.integrate_SOS integrates in an angle instead of time. Whatever the potential (time-dependent and velocity-dependent forces included) a solution of the equations it integrates, read as a function of its own time output, obeys the equations of motion, starting at the given point; conversely every orbit solves these equations. The C and Python versions integrate the same equations for forces that do not depend on velocity, in three dimensions and for both surfaces in the plane. Orbit.SOS returns exactly ncross points, all on the surface z=0 moving up, from any starting point off the surface or on it; for forces that do not depend on time they are successive crossings of the orbit through the starting point.", "quantifier": "all lists of force components (position-, time- and velocity-dependent functions with period 2 pi in azimuth), all solutions of the equations, all starting points, all numbers of crossings and sub-steps, all exact solvers | exceptions (proved to fail): SOS restarts at t0 for its second leg, so in a time-dependent potential the returned points are not on one orbit; the C equations in space leave out every velocity-dependent force when |vR| < 1 and evaluate it at the wrong velocities otherwise", "why_tests_cant": "tests integrate a few orbits in a few static axisymmetric potentials; the change of variable must be right for every force law, and that the second leg restarts the clock, or that C drops friction, only shows for potentials tests do not use", "anchors": ["galpy/orbit/Orbits.py: Orbit.integrate_SOS, Orbit.SOS", "galpy/orbit/integrateFullOrbit.py: integrateFullOrbit_sos, _SOSEOM, _rectForce", "galpy/orbit/integratePlanarOrbit.py: integratePlanarOrbit_sos, _planarSOSEOMx, _planarSOSEOMy, _planarRectForce", "galpy/orbit/orbit_c_ext/integrateFullOrbit.c: evalSOSDeriv", "galpy/orbit/orbit_c_ext/integratePlanarOrbit.c: evalPlanarSOSDerivx, evalPlanarSOSDerivy", "galpy/util/bovy_coords.c: cyl_to_sos_galpy, sos_to_cyl_galpy, polar_to_sos_galpy, sos_to_polar_galpy", "galpy/potential/potential_c_ext/galpy_potentials.h: calcRforce, calczforce, calcphitorque"]}
{"id": "C46", "title": "Integrated orbits obey Newton's second law and conserve their integrals", "statement": "Orbit.integrate in Python and in C, in space, in the plane and on the line, with or without azimuth: every solution of the differential equation handed to the solver, converted to the rows an Orbit returns, obeys Newton's second law in Cartesian coordinates for the forces of the potential, and every orbit off the axis is such a solution; the first row is the initial condition. Along every orbit Orbit.E is constant in a potential that does not depend on time, Orbit.Lz without torque, all of Orbit.L in central forces, Orbit.Jacobi with the pattern speed of a rigidly rotating potential, Orbit.ER and Orbit.Ez in a separable one.", "quantifier": "all lists of force components (position-, time- and velocity-dependent functions with period 2 pi in azimuth), all solutions, all times; the energy also for every combination of the potentials of the catalogue | exceptions (proved to fail): when a Python integration passes through the axis the returned row is another point (pi is added to z instead of phi; in the plane vR is not turned); Jacobi without a pattern speed uses 1 and is not constant in a static potential that is not axisymmetric", "why_tests_cant": "tests check conservation to some tolerance along a few integrated orbits; an error of the equations that only shows for some force laws, such as velocity-dependent or non-axisymmetric ones, or on the far side of the axis, is not seen", "anchors": ["galpy/orbit/Orbits.py: Orbit.integrate, Orbit.E, Orbit.L, Orbit.Lz, Orbit.ER, Orbit.Ez, Orbit.Jacobi", "galpy/orbit/integrateFullOrbit.py: integrateFullOrbit, _EOM, _RZEOM, _rectForce", "galpy/orbit/integratePlanarOrbit.py: integratePlanarOrbit, _planarEOM, _planarREOM", "galpy/orbit/integrateLinearOrbit.py: _linearEOM", "galpy/orbit/orbit_c_ext/integrateFullOrbit.c: evalRectDeriv, evalRectForce", "galpy/orbit/orbit_c_ext/integratePlanarOrbit.c: evalPlanarRectDeriv", "galpy/util/bovy_coords.c: cyl_to_rect_galpy, rect_to_cyl_galpy, polar_to_rect_galpy, rect_to_polar_galpy"]}
{"id": "C47", "title": "The Staeckel actions are the actions of the orbit", "statement": "actionAngleStaeckel with focal distance delta: the momenta it computes are conjugate to the spheroidal coordinates, and the integrands of its actions at the present position are the squared momenta, in every axisymmetric potential. In a Staeckel potential with that focal distance the integrands are the squared momenta of the orbit everywhere, do not depend on the reference points, and energy, Lz, third integral, integrands and actions are constant along every orbit; the actions are the closed-loop integrals of the momenta over 2 pi, with and without fixed_quad; the derivatives used for the frequencies are the derivatives of the integrands; the C code computes the same. estimateDeltaStaeckel returns the focal distance of every Staeckel potential, for points, arrays and medians. KuzminKutuzovStaeckelPotential is a Staeckel potential with the focal distance it was given.", "quantifier": "all differentiable axisymmetric potentials, all Staeckel potentials, all focal distances, all points off the axis, all orbits and times, all reference points u0 and v0 | exception (proved to fail): estimateDeltaStaeckel called with arrays changes the caller's array z wherever it is zero", "why_tests_cant": "tests check constancy of the actions along a few orbits in the Kuzmin-Kutuzov potential to a tolerance; an error in a term that vanishes there, or for one choice of reference point, is not seen", "anchors": ["galpy/actionAngle/actionAngleStaeckel.py: actionAngleStaeckelSingle, _JRStaeckelIntegrandSquared, _JzStaeckelIntegrandSquared, estimateDeltaStaeckel, potentialStaeckel", "galpy/actionAngle/actionAngle_c_ext/actionAngleStaeckel.c", "galpy/potential/KuzminKutuzovStaeckelPotential.py"]}
{"id": "C48", "title": "Spherical distribution functions follow the integrals of the motion and give the density and moments of their model", "statement": "Calling a spherical distribution function with coordinates or with an Orbit gives the same value, which is constant along every orbit in the potential. vmomentdensity(r,0,0) of the Plummer, Hernquist, constant-anisotropy Hernquist (beta = 1/2, 0, -1/2), Osipkov-Merritt Hernquist and power-law distribution functions is the density of the potential. vmomentdensity of the isotropic, constant-anisotropy and Osipkov-Merritt classes is the velocity moment of the function that calling the object evaluates, and beta is 0, beta and r^2/(r^2+ra^2).", "quantifier": "all amplitudes, scales, anisotropy radii and radii, all even orders of the moments, all distribution functions of the three families, all orbits and times | exceptions (proved to fail): Orbits with several rows share one angular momentum; odd moments of the tangential speed are returned as 0; arrays of energies with two axes have whole rows set to 0", "why_tests_cant": "tests compare the density and the dispersions at a few radii of samples or of numerical integrals to a tolerance of percent; identities between the closed forms and the integrals over all velocities must hold for all radii and parameters", "anchors": ["galpy/df/sphericaldf.py: sphericaldf.__call__, vmomentdensity, sigmar, sigmat, beta", "galpy/df/isotropicPlummerdf.py", "galpy/df/isotropicHernquistdf.py", "galpy/df/constantbetadf.py", "galpy/df/constantbetaHernquistdf.py", "galpy/df/osipkovmerrittdf.py", "galpy/df/osipkovmerrittHernquistdf.py", "galpy/df/isotropicPowerLawdf.py"]}
{"id": "C49", "title": "Samples of spherical distribution functions follow them", "statement": "The radii that sample() draws from a uniform mass fraction lie within r exactly with the fraction of the mass within r; positions are isotropic; the angle and the speed of the velocity follow the distribution function at that radius (isotropic and Osipkov-Merritt); the rows have the radius, speed, radial velocity and angular momentum drawn, and sample(R=,z=) keeps the position; after any history of calls the interpolators used are those for the rmin of the call.", "quantifier": "all random numbers, all parameters, all radii and angles, all distribution functions of the two families, all histories of sample calls | exception (proved to fail): sample(rmin=) is ignored by the classes with a closed-form inverse mass profile", "why_tests_cant": "tests compare histograms of finite samples; a wrong tail, a wrong sign or a stale interpolator after a particular sequence of calls is within the noise or never exercised", "anchors": ["galpy/df/sphericaldf.py: sample, _sample_r, _sample_position_angles, _sample_velocity_angles, _sample_v", "galpy/df/osipkovmerrittdf.py: _sample_eta, _sample_v", "galpy/df/isotropicPlummerdf.py: _icmf", "galpy/df/isotropicHernquistdf.py: _icmf", "galpy/df/isotropicPowerLawdf.py: _icmf"]}
{"id": "C50", "title": "Staeckel frequencies and angles follow the orbit", "statement": "In a Staeckel potential symmetric about the plane, actionsFreqsAngles of actionAngleStaeckel gives every point of an orbit the same three frequencies, angles in [0, 2 pi) that advance at exactly these frequencies, and angles 0, phi, 0 where the orbit crosses the plane upwards at its inner turning point. The orbit never leaves the region between its turning points.", "quantifier": "all Staeckel potentials and focal distances, all orbits between simple turning points that are not within 1e-6 of circular or planar, all times | exception (proved to fail): orbits in the plane get the epicycle frequencies of their present radius, which change along an eccentric orbit, and no angles", "why_tests_cant": "tests follow a few orbits over a finite time and fit straight lines to the angles with a tolerance; the sign conventions of four branches, the wrapping and the linear advance must hold for every phase of every orbit", "anchors": ["galpy/actionAngle/actionAngleStaeckel.py: actionAngleStaeckel._actionsFreqs, _actionsFreqsAngles", "galpy/actionAngle/actionAngleStaeckel.py: actionAngleStaeckelSingle.calcFreqs, calcAngles, u0Equation", "galpy/actionAngle/actionAngle_c_ext/actionAngleStaeckel.c: calcFreqsFromDerivsStaeckel"]}
{"id": "C51", "title": "Spherical and vertical action-angle variables follow the orbit", "statement": "In a spherical potential, actionsFreqsAngles of actionAngleSpherical gives every point of an orbit the same actions and frequencies and angles in [0, 2 pi) that advance at exactly these frequencies from pericentre and ascending node; Jr and Omega_r are the integral of vr dr and the time from pericentre to apocentre over pi, Jz is the loop integral of p_theta, and the orbit stays within the reported rperi, rap and zmax. The same holds for actionAngleVertical in one dimension.", "quantifier": "all spherical potentials and all even one-dimensional potentials, all orbits between simple turning points, all times; in three dimensions orbits with Jr at least 1e-9 that are not retrograde in the plane", "why_tests_cant": "tests follow a few orbits in two or three potentials over a finite time and fit straight lines to the angles with a tolerance; the branch of each angle must be right at every phase, inclination and sense of rotation", "anchors": ["galpy/actionAngle/actionAngleSpherical.py: actionAngleSpherical._actionsFreqsAngles, _EccZmaxRperiRap, _calc_jr, _calc_or, _calc_op, _calc_angler, _calc_anglez, _calc_long_asc", "galpy/actionAngle/actionAngleVertical.py: actionAngleVertical._actionsFreqsAngles"]}
{"id": "C52", "title": "Spiral arms and bars: forces, second derivatives, densities and pattern rotation", "statement": "For SpiralArmsPotential, DehnenBarPotential and SoftenedNeedleBarPotential the forces are minus the gradient of the potential, the six second derivatives are its second derivatives, dens is its source in Poisson's equation, and the pattern turns rigidly with the pattern speed. The Dehnen bar grows from nothing at tform to full strength at tsteady, and given by its outer Lindblad resonance it has the pattern speed, the length and the radial force that the arguments ask for; an array of positions gives the values of its entries.", "quantifier": "all parameters in range, any number of spiral harmonics, all positions off the axis (everywhere for the needle bar; off the sphere at the bar's end for the second derivatives of the Dehnen bar), all times | the analytic density of the spiral arms is not the source of the potential, while with one term squared it is; an array of positions on the axis does not give the values of its entries", "why_tests_cant": "tests compare with finite differences at a few radii and azimuths and with loose tolerances for these classes; a missing power in one of a dozen terms of a density, or a branch that is wrong only on the axis, stays below them", "anchors": ["galpy/potential/SpiralArmsPotential.py: SpiralArmsPotential._evaluate, _Rforce, _zforce, _phitorque, _R2deriv, _z2deriv, _phi2deriv, _Rzderiv, _Rphideriv, _phizderiv, _dens", "galpy/potential/DehnenBarPotential.py: DehnenBarPotential.__init__, _smooth, _evaluate and derivatives", "galpy/potential/SoftenedNeedleBarPotential.py: SoftenedNeedleBarPotential"]}
{"id": "C53", "title": "Ellipsoidal potentials: forces, second derivatives, densities, masses and orientation", "statement": "For the potentials of densities on similar ellipsoids (perfect ellipsoid, triaxial power law, Gaussian, Hernquist, Jaffe, NFW, two-power) the forces are minus the gradient of the potential in every orientation and with every quadrature order, the six second derivatives are those of the potential when it is aligned with the axes, and dens is its source in Poisson's equation. mass(R) is the mass inside the ellipsoid, zvec and pa turn the body axes to where they point, and the amplitude gives the documented density.", "quantifier": "all axis ratios, scale lengths, exponents in range, orientations, quadrature rules with nodes inside the interval, all positions except the centre, every density profile whose psi and derivative are consistent | exception (proved to fail): the mass of the perfect ellipsoid for a different from 1, and the amplitude of the triaxial power law for alpha = 3, which comes out as 0", "why_tests_cant": "tests compare with finite differences at a few points for a few axis ratios with 50 nodes and mass only for a = 1 or for spherical cases; a wrong scale in a mass, a singular exponent or a quadrature that is consistent only for one order is not seen", "anchors": ["galpy/potential/EllipsoidalPotential.py: EllipsoidalPotential.__init__, _setup_zvec_pa, _setup_gl, _evaluate, _Rforce, _phitorque, _zforce, _force_xyz, _R2deriv, _Rzderiv, _z2deriv, _phi2deriv, _Rphideriv, _phizderiv, _2ndderiv_xyz, _dens, _mass", "galpy/potential/PerfectEllipsoidPotential.py: PerfectEllipsoidPotential", "galpy/potential/PowerTriaxialPotential.py: PowerTriaxialPotential", "galpy/potential/TriaxialGaussianPotential.py: TriaxialGaussianPotential", "galpy/potential/TwoPowerTriaxialPotential.py: TwoPowerTriaxialPotential, TriaxialHernquistPotential, TriaxialJaffePotential, TriaxialNFWPotential"]}
{"id": "C54", "title": "The Runge-Kutta and leapfrog integrators converge to the orbit at their order", "statement": "Integrating an orbit with rk4_c, rk6_c or dopr54_c returns one row per requested time, and the row differs from the exact orbit at that time by at most a constant times h^4, h^6 or dt^5, where h is the step and dt the output step; leapfrog differs by at most a constant times h^2. This holds forwards and backwards in time, with a given step and with the step the integrator finds itself, which always divides the output interval into a whole number of steps. dopr54_c always reaches every output time, whatever its error estimate is.", "quantifier": "all dimensions, all right-hand sides and orbits that are smooth near the orbit (5, 7, 6 or 3 derivatives, a Jacobian with quadratic remainder), all initial times, both directions, all numbers of steps and rows, all tolerances and error estimates, all sequences of accepted and rejected steps | exception (proved to fail): in double precision the number of steps can be one too small (output step 0.1 and 11 steps give 10), so that every output interval is cut short; and a given step of the wrong sign, which the check of Orbit.integrate accepts, makes dopr54_c run for ever and rk4_c step the wrong way", "why_tests_cant": "the order of a method is a statement about the limit of small steps for every smooth field; tests compare a few orbits with energy conservation at fixed tolerances, where one wrong coefficient lowers the order without failing the tolerance", "anchors": ["galpy/util/bovy_rk.c: bovy_rk4, bovy_rk4_onestep, bovy_rk6, bovy_rk6_onestep, rk4_estimate_step, rk6_estimate_step, bovy_dopr54, bovy_dopr54_onestep, bovy_dopr54_actualstep", "galpy/util/symplecticode.py: leapfrog", "galpy/util/bovy_symplecticode.c: leapfrog", "galpy/orbit/Orbits.py: _check_integrate_dt"]}
{"id": "C55", "title": "The Jeans dispersions solve the spherical Jeans equation and its projection", "statement": "jeans.sigmar returns the square root of the one solution of d(nu s2)/dr + 2 beta/r nu s2 = nu F_r whose pressure vanishes at infinity, for the density of the potential or a given one and for a number or a function as the anisotropy; it does not depend on the normalisation of the density, and a number means the constant function. jeans.sigmalos returns the square root of the line-of-sight velocity variance, averaged with the density along the line of sight, for every way of giving the surface density and the radial dispersion.", "quantifier": "all spherical potentials and compositions, all positive continuous densities, all continuous anisotropy profiles for which the pressure integral converges, all radii | ", "why_tests_cant": "tests compare a few potentials at a few radii with a tolerance of the quadrature; that the integral is the solution of the differential equation, and the only admissible one, is a statement about every profile", "anchors": ["galpy/df/jeans.py: sigmar, sigmalos", "galpy/potential/Force.py: rforce", "galpy/potential/Potential.py: evaluaterforces, evaluateDensities"]}
{"id": "C56", "title": "The disk distribution functions, their moments, marginals and draws belong to one and the same function", "statement": "dehnendf, shudf and schwarzschilddf evaluate the textbook form at the circular orbit of the star's energy or angular momentum; the first two are constant along every orbit of the disk. The logarithmic derivatives used by the moments are the derivatives of that function. surfacemass, sigma2surfacemass, vmomentsurfacemass, meanvR, meanvT, sigmaR2, sigmaT2, sigma2, skew, kurtosis and the Oort functions are the velocity moments (and their radial derivatives) of the function over the stated box, and calling it with marginalizeVperp or marginalizeVlos integrates it over the other velocity component. The rejection density of the sampler, the draws of energy and angular momentum and the expected number of copies are those of the function. Where the code departs from this the departure is stated as a refutation.", "quantifier": "all power-law rotation curves with beta > -1, all surface-density and dispersion profiles, all corrections, all phase-space points, all integration boxes, all uniform variates | ", "why_tests_cant": "tests compare moments at one radius with asymptotic values to a few per cent; that the derivative, moment and draw belong to the same function is a statement about every profile, radius and velocity", "anchors": ["galpy/df/diskdf.py: diskdf.__call__, surfacemass, sigma2surfacemass, vmomentsurfacemass, oortA, oortB, oortC, oortK, meanvT, skewvT, kurtosisvR, sampleVRVT, sampledSurfacemassLOS, sample", "galpy/df/diskdf.py: dehnendf.eval, shudf.eval, schwarzschilddf.eval, _dlnfdvR, _dlnfdvT, _dlnfdR", "galpy/df/surfaceSigmaProfile.py: expSurfaceSigmaProfile", "galpy/df/diskdf.py: axipotential, _dlToRphi, vRvTRToEL, _ars_hx, _ars_hpx"]}
{"id": "C57", "title": "The quasi-isothermal distribution function has its textbook form, and its moments, marginals and velocity samples belong to that function", "statement": "quasiisothermaldf evaluates the textbook quasi-isothermal form at the guiding radius of the star, with log=True its logarithm, and 0 for counter-rotating stars with cutcounter and for unbound stars; integrated over the radial and vertical actions it gives the star count per angular momentum of a disk with the input surface density. An array gives what its elements give. The Gauss-Legendre moments are product rules for the velocity integrals with the error of the best polynomial; dispersions are non-negative, obey Cauchy-Schwarz, tilt diagonalises them; the six marginals are the rules for the partial integrals. Monte-Carlo ratios are self-normalised importance sampling of the same function, and velocities returned by sampleV follow it. Scale-length estimates are exact for exponential profiles. Departures of the code (array guiding radii outside the table, one unbound star in an array, ignored nsigma and zmax, the missing factors 4 and (2 pi)^(3/2) in densities, sigmaT2 with gl=False and mc=False, the width of the sampling envelope) are stated as refutations.", "quantifier": "all disk parameters, all potentials given by circular velocity and frequencies, all action-angle objects, all phase-space points, all Gauss-Legendre orders and boxes, all samples of normal and uniform variates | ", "why_tests_cant": "tests compare moments at a few radii with each other to a few per cent; that a rule, a marginal and a sampler belong to the same function is a statement about every potential, action-angle object and box", "anchors": ["galpy/df/quasiisothermaldf.py: quasiisothermaldf.__init__, __call__, _call_marg, _rg, estimate_hr, estimate_hz, estimate_hsr, estimate_hsz, surfacemass_z", "galpy/df/quasiisothermaldf.py: vmomentdensity, _vmomentdensity, jmomentdensity, density, sigmaR2, sigmaRz, tilt, sigmaz2, meanvR, meanvT, meanvz, meanjr, meanlz, meanjz, sigmaT2", "galpy/df/quasiisothermaldf.py: pvR, pvT, pvz, pvRvT, pvTvz, pvRvz, sampleV, sampleV_interpolate, _sampleV_preoptimized"]}
{"id": "C58", "title": "Spherical potentials given by a density through special functions, or by a table of forces", "statement": "AnySphericalPotential, EinastoPotential, PowerSphericalPotentialwCutoff, ExpTruncNFWPotential and interpSphericalPotential return a potential, forces, second derivatives, a density and an enclosed mass that belong together: the force is minus the gradient, the density is the source in Poisson's equation, the mass is the integral of the density, the potential is the sum of the shells, and the values at the centre, at infinity and the total mass are the limits. The special functions (incomplete Gamma, confluent hypergeometric, exponential integral) enter only through their textbook integrals and series. Series, tables and constructor variants agree with the exact functions: the small-radius series of the truncated NFW profile is within 1e-11 of the mass, a table's potential follows the true one as closely as the spline follows the force, given masses and half-mass radii are obtained, from_nfw finds the only truncation radius. Departures are refutations: the Einasto amplitude with rs or rm2, the value at infinity for divergent mass, the upper limit on from_nfw's mass.", "quantifier": "all continuous densities with finite inner mass and outer shells; all scale lengths, indices, exponents, truncation radii, amplitudes; all splines and grids; all positions | ", "why_tests_cant": "tests integrate a density numerically at a few radii with a few parameters and tolerances; that a closed form in special functions is the integral for every index and radius is an identity", "anchors": ["galpy/potential/AnySphericalPotential.py: AnySphericalPotential", "galpy/potential/EinastoPotential.py: EinastoPotential", "galpy/potential/PowerSphericalPotentialwCutoff.py: PowerSphericalPotentialwCutoff", "galpy/potential/ExpTruncNFWPotential.py: ExpTruncNFWPotential, from_nfw", "galpy/potential/interpSphericalPotential.py: interpSphericalPotential"]}
{"id": "C59", "title": "Potentials completed by numerical derivatives, and disks made of three Miyamoto-Nagai disks", "statement": "A potential class that only defines its value and takes its forces and second derivatives from NumericalPotentialDerivativesMixin returns the true derivatives up to explicit multiples of the squares of the steps, for every smooth potential, position, amplitude and step; its density is the Laplacian up to the sum of those errors; azimuthal derivatives are exactly zero for an axisymmetric class, and the vertical force of a potential symmetric about the plane is exactly zero in the plane; the six step keywords are taken out of the caller's keywords and nothing else is. MN3ExponentialDiskPotential inside the range of its fit is smooth everywhere, with forces, second derivatives and density that belong to its potential, is the sum of the three Miyamoto-Nagai potentials the C code is given, and has the mass of the exponential disk within the stated per cents; outside the range it only warns and may be infinite on the axis. NullPotential is a constant without forces.", "quantifier": "all potentials with the stated number of bounded derivatives, all positions, times, amplitudes and positive steps; all keyword dictionaries; all scale lengths and heights, both vertical profiles, both tables | ", "why_tests_cant": "tests compare the differences with analytic derivatives of a few potentials at a few points with a loose tolerance; an error bound and the absence of singular points are statements about all functions, positions and thicknesses", "anchors": ["galpy/potential/NumericalPotentialDerivativesMixin.py: NumericalPotentialDerivativesMixin", "galpy/potential/MN3ExponentialDiskPotential.py: MN3ExponentialDiskPotential", "galpy/potential/NullPotential.py: NullPotential"]}
{"id": "C60", "title": "Velocity kicks of a fly-by in the impulse approximation", "statement": "The kick returned for a star of a stream that a subhalo flies past is the integral over all times of the subhalo's acceleration along the two straight paths: for a Plummer sphere and for a Hernquist sphere in closed form, for any spherical potential by the integral over -1 < T < 1, for a curved stream (positions given) and for a straight one (distance along the stream given), with the subhalo passing the impact point at distance |b| at time 0; the functions agree with each other wherever two of them apply; the kick of a perturbing stream is the integral of the kicks of its parts. Exceptions shown: a stream moving along -y gets the kick of a subhalo on the other side; a subhalo moving along the stream gets a kick whose square is doubled, or no value; a star that passes at exactly the Hernquist scale radius gets nan; a missing tmin is not refused; the curved-stream function works only for tmax = -tmin.", "quantifier": "all positions and velocities of star, impact point and subhalo, all impact parameters, masses and sizes, all radial force laws continuous outside the centre, all surface densities and time ranges | ", "why_tests_cant": "tests compare a few encounters of two of the functions with each other at a tolerance; that a closed formula is the value of an improper integral for all geometries, and where divisors vanish, is a statement about a continuum of encounters", "anchors": ["galpy/df/streamgapdf.py: impulse_deltav_plummer, impulse_deltav_plummer_curvedstream, HernquistX, impulse_deltav_hernquist, impulse_deltav_hernquist_curvedstream, impulse_deltav_general, impulse_deltav_general_curvedstream, impulse_deltav_plummerstream, impulse_deltav_plummerstream_curvedstream, _rotation_vy"]}
{"id": "C61", "title": "Disk potentials from a density split into surface and vertical profiles", "statement": "A disk expansion potential (DiskSCFPotential, DiskMultipoleExpansionPotential, KuijkenDubinskiDiskExpansionPotential) adds to the expansion it is given one term 4 pi a Sigma(r) H(z) per pair of a surface profile and a vertical profile. Profiles named by dictionaries (exponential, exponential with a hole; exponential, sech^2 in z) are twice integrated and twice differentiated correctly, each vertical one has unit column and a named pair has the requested surface density; a single vertical profile serves all surface ones. The forces are then minus the gradient of the potential, the second derivatives are its Hessian, and the density is its Laplacian over 4 pi, whenever the same holds for the expansion; the density given to the expansion is the input density less the source of the pairs, so that the total density is the input density when the expansion reproduces what it is given. In the plane the pairs add no force in R and their vertical frequency is that of the vertical profile; the mass inside r is the one Gauss' theorem gives; the C functions compute the same values. The mixed derivative in R and azimuth is not available for a non-axisymmetric expansion, and lists of functions of unequal length are accepted although the forces are then not the gradient.", "quantifier": "all lists of pairs, all amplitudes, scales and profile functions with the stated derivatives, all expansions, all points away from the centre | ", "why_tests_cant": "tests difference a handful of profiles at a few points; the profiles are user functions of a continuum, and the cancellation between what the expansion is given and what the pairs add must hold for all of them", "anchors": ["galpy/potential/KuijkenDubinskiDiskExpansionPotential.py: KuijkenDubinskiDiskExpansionPotential, phiME_dens", "galpy/potential/DiskSCFPotential.py: DiskSCFPotential", "galpy/potential/DiskMultipoleExpansionPotential.py: DiskMultipoleExpansionPotential", "galpy/potential/potential_c_ext/DiskSCFPotential.c"]}
{"id": "C62", "title": "Wrapping a potential as an oblate Staeckel potential", "statement": "OblateStaeckelWrapperPotential(pot, delta, u0) is a Staeckel potential with focal distance delta whose function of u is cosh^2 u times pot in the plane. It equals pot in the plane and on the spheroid u = u0 (in particular at the point given as u0), is unchanged when wrapped again, leaves a potential that already is a Staeckel potential with that focal distance unchanged, and is mirror symmetric when pot is. Its forces are minus its gradient and its second derivatives its Hessian up to the number 1e-12 added to tanh u, whose effect is at most the stated multiple of 1e-12 of the force in the plane; because of that number the force is not exactly the gradient. The class returns its amplitude times these values for every azimuth and time; the time is not passed to pot, so a time-dependent pot is frozen at t = 0. The C functions, planar and three-dimensional, compute the same values. Orbits in it have the third integral of a Staeckel potential.", "quantifier": "all differentiable wrapped potentials, all positive focal distances, all reference spheroids u0 > 0 and the segment u0 = 0, all points off the axis, all azimuths and times, all orbits | ", "why_tests_cant": "tests compare a few potentials at a few points to finite differences with tolerances that hide both the wrapper's small number and a wrong term; that the result separates in u and v is a statement about all points at once", "anchors": ["galpy/potential/OblateStaeckelWrapperPotential.py: OblateStaeckelWrapperPotential, _staeckel_prefactor, _dstaeckel_prefactordudv, _dstaeckel_prefactord2ud2v", "galpy/potential/potential_c_ext/OblateStaeckelWrapperPotential.c"]}
{"id": "C63", "title": "Action-angle variables in the adiabatic approximation", "statement": "actionAngleAdiabatic with gamma = 0 is exact in a potential f(R) + g(z): along every orbit with simple turning points, prograde or retrograde, the actions and frequencies are constant, the angles lie in [0, 2 pi), advance linearly at their frequencies and are counted from pericentre and from the upward passage through the plane; eccentricity, zmax, rperi and rap enclose the orbit. For orbits in the plane of any potential the variables of the planar motion are exact for every gamma. With gamma the planar motion is that of the angular momentum |Lz| + gamma Jz. A potential in the plane gives Jz = 0 and no frequencies. The C code returns the same actions outside its tolerances. The default gamma = 1 does not conserve the radial action in a separable potential, the vertical frequency of a planar orbit is that at the present radius, and C returns 0 below its tolerance.", "quantifier": "all separable potentials with differentiable parts, all orbits between simple turning points and all times on them; for planar orbits all potentials and all gamma; all points for the relations between methods and with C | ", "why_tests_cant": "tests follow a few orbits in a few potentials and accept a scatter of the actions; that the quantities are constant and the angles linear is a statement about every time on every orbit", "anchors": ["galpy/actionAngle/actionAngleAdiabatic.py: actionAngleAdiabatic", "galpy/actionAngle/actionAngleAdiabatic_c.py", "galpy/actionAngle/actionAngleSpherical.py (_gamma, fixed_quad)", "galpy/actionAngle/actionAngle_c_ext/actionAngleAdiabatic.c"]}
{"id": "C64", "title": "Circular rings and razor-thin disks", "statement": "RingPotential(amp, a) is the Newtonian potential of a ring of mass amp and radius a at every point off the ring and off the axis; its forces and second derivatives are the derivatives of that potential, Laplace's equation holds and dens returns 0 there. normalize gives a unit radial force -norm at R = 1 for a < 1 and raises for a > 1, where the ring pulls outwards. AnyAxisymmetricRazorThinDiskPotential is the Newtonian potential of its surface density off the plane and at the centre, whichever of its quadratures is used; its forces are the gradient everywhere off the plane, its second derivatives are right above the height below which they are replaced by those in the plane, and dens returns 0 there. Just above the disk the vertical force tends to -2 pi times the surface density that surfdens returns. Everything is symmetric about the plane.", "quantifier": "all ring radii and masses, all continuous surface densities that vanish beyond some radius, all points off the ring or off the plane | ", "why_tests_cant": "tests compare derivatives with finite differences at a few points for a few disks; the elliptic-integral formulas, the split of the quadratures near the peak and the finite-part quadrature must be right at every point for every surface density", "anchors": ["galpy/potential/RingPotential.py: RingPotential", "galpy/potential/AnyAxisymmetricRazorThinDiskPotential.py: AnyAxisymmetricRazorThinDiskPotential, _quad_apeak, _finite_part_quad"]}
{"id": "C65", "title": "The King model", "statement": "kingdf(W0, M, rt).fE is the lowered Maxwellian with the model's sigma and rho1, zero at and above the energy of the tidal radius and positive below it, and its integral over velocities is the density that dens returns at every radius inside the tidal radius. KingPotential is -sigma^2 W - M/rt inside and -M/r from the tidal radius on, its force is minus its derivative, continuous at the tidal radius, the mass inside a radius is the cumulative mass behind the sampled radii, and Poisson's equation holds with the density of the potential. That density differs from the density of the stars by exactly rho1/(4 pi) times what the tabulated solution misses of the King equation, so the model is self-consistent when the solution is exact. The two forms of the equation that the code integrates agree. The parameters rho0, r0, sigma satisfy r0^2 = 9 sigma^2 / (4 pi rho0) and sigma^2 W0 is the depth of the potential. Findings: fE fails on a Python float, and dens just outside the tidal radius is not a number.", "quantifier": "all masses and tidal radii, all energies, radii and velocities, all scale-free solutions W(r) that fall from the centre to zero, exact or not, all tables of cumulative mass | ", "why_tests_cant": "tests check the density and the dispersions at a few radii for a few W0; the identity of velocity integral, density and Poisson's equation must hold at every radius for every model, and the effect of an inexact solution cannot be sampled", "anchors": ["galpy/df/kingdf.py: kingdf, _scalefreekingdf", "galpy/potential/KingPotential.py: KingPotential", "galpy/potential/interpSphericalPotential.py: interpSphericalPotential"]}
{"id": "C66", "title": "Basis-function expansions in spherical harmonics", "statement": "SCFPotential(amp, Acos, Asin, a) is the documented expansion: its potential and its density are amp/2 times the sums over n, l, m of the coefficients times normalised real spherical harmonics times the Hernquist & Ostriker radial functions (Gegenbauer polynomials). Forces and torque are minus the gradient of the potential, R2deriv, z2deriv, Rzderiv, phi2deriv, Rphideriv and phizderiv are its second derivatives, Poisson's equation holds with dens, and mass(r) is the mass of dens within the sphere of radius r whatever the non-spherical coefficients. A potential that is marked axisymmetric does not depend on azimuth and has no torque; the constructor accepts no coefficient with m > l. The default coefficients give the Hernquist potential of mass amp/2. Finding: when the arrays have m > 0 columns, even if all are zero, the second derivatives within 1e-7 radian of the symmetry axis are those at a clipped angle and are not the derivatives of the forces.", "quantifier": "all sizes N, L, M of the coefficient arrays, all coefficients at all times, all amplitudes and scale radii, all points off the axis (for second derivatives with m > 0 columns: further than 1e-7 radian from it) | ", "why_tests_cant": "tests compare with a handful of known potentials and finite differences at sampled points; the identities of forces, second derivatives, density and mass must hold for every truncation order and every coefficient array", "anchors": ["galpy/potential/SCFPotential.py: SCFPotential, _C, _dC, _d2C, _RToxi", "galpy/potential/SphericalHarmonicPotentialMixin.py: SphericalHarmonicPotentialMixin", "galpy/util/special.py: compute_legendre, sph_harm_normalization"]}
{"id": "C67", "title": "Multipole expansions tabulated on a radial grid", "statement": "MultipoleExpansionPotential(amp, rho_cos_splines, rho_sin_splines, rgrid) is the documented expansion: at the grid radii the potential is amp times the sum over l, m of P_l^m (cos, sin) times -4 pi/(2l+1) (r^-(l+1) times the integral of s^(l+2) rho_lm over the grid below r + r^l times the integral of s^(1-l) rho_lm over the grid above r); beyond the grid it is that of the mass within the grid; dens is the sum over the density splines, constant below the grid and zero above. Forces and torque are minus the gradient of the potential and the six second derivatives are its second derivatives, below, within and above the grid. Poisson's equation holds with dens below the grid, at every inner grid radius and above the grid. Findings: the mass that dens has below the first grid radius is left out of the integrals inside and above the grid but used below it, so the potential jumps at the first grid radius, its value at the centre is not its limit there, and the force outside is not that of the mass of dens.", "quantifier": "all sizes L, M, all grids, all density splines, all twice differentiable splines of the integrals that take the precomputed values at the grid radii, all amplitudes, all points off the axis and off the first and last grid radius (for second derivatives with m > 0 terms: further than 1e-7 radian from the axis) | Between grid radii the splines only interpolate the integrals, so Poisson's equation is stated at the grid radii and outside the grid.", "why_tests_cant": "tests compare with known potentials at sampled points to a tolerance that hides the missing core; the identities must hold for every density, order and grid, and in every radial range", "anchors": ["galpy/potential/MultipoleExpansionPotential.py: MultipoleExpansionPotential, _precompute_radial_integrals, _eval_R_lm, _eval_dR_lm, _eval_d2R_lm", "galpy/potential/SphericalHarmonicPotentialMixin.py: SphericalHarmonicPotentialMixin"]}
{"id": "C68", "title": "Power-law distribution functions with anisotropy", "statement": "constantbetaPowerLawdf(pot, denspot, beta) and osipkovmerrittPowerLawdf(pot, denspot, ra) are distribution functions of their tracers: the integral of df(E, L) over all velocities at any radius is the density of denspot there (the Osipkov-Merritt one whenever gamma > alpha/2 + 1, in particular when denspot is not given). The constant-anisotropy one is non-zero exactly below the largest sampled speed, and sampled radii invert the fraction of the tracers' mass between rmin and rmax. Finding: the Osipkov-Merritt constructor accepts gamma > alpha/2, and for 3 - alpha/2 < gamma < alpha/2 + 1 its distribution function is negative at small Q.", "quantifier": "all amplitudes, exponents, anisotropies and anisotropy radii the constructors accept, all radii, all speeds and mass fractions | The gamma function is a parameter constrained by the beta integrals at the exponents in use.", "why_tests_cant": "tests integrate numerically for a few exponents; the normalisation holds for real exponents and the accepted range contains parameters for which the function is not positive", "anchors": ["galpy/df/constantbetaPowerLawdf.py: constantbetaPowerLawdf", "galpy/df/osipkovmerrittPowerLawdf.py: osipkovmerrittPowerLawdf", "galpy/df/constantbetadf.py: _constantbetadf", "galpy/df/osipkovmerrittdf.py: _osipkovmerrittdf"]}
{"id": "C69", "title": "Adiabatic contraction of halos", "statement": "AdiabaticContractionWrapperPotential gives the potential of the contracted halo: with method 'cautun' the mass within each grid radius is the only solution of the relation of Cautun et al. (2020); with 'blumenthal' each shell keeps the product of its radius and the mass within it, with its own dark mass and the baryons within its new radius, and the mass within a grid radius is interpolated between the shells; with 'gnedin' the same holds with the masses at orbit-averaged radii. Where there are at least the expected baryons the Blumenthal shells move inwards and the mass within every grid radius does not decrease; with no baryons the Blumenthal and Gnedin halos are unchanged; f_bar=None leaves the last shell in place. The force at grid radii is minus mass over radius squared, it is minus the derivative of the potential, and beyond the grid it is that of the last mass. Findings: amp has no effect on the potential; with no baryons the 'cautun' halo is still more massive than the halo it was given.", "quantifier": "all grids, all non-decreasing halo and baryon masses on them, all baryon fractions below one, all virial radii, all radii, every spline through the table | scipy's fixed_point is taken to return exact fixed points; the new radii of the shells are taken to be increasing (interp1d sorts them).", "why_tests_cant": "tests compare with one published rotation curve; the conservation of the invariant and the monotonicity hold for every pair of mass profiles, and no test sets the amplitude", "anchors": ["galpy/potential/AdiabaticContractionWrapperPotential.py: AdiabaticContractionWrapperPotential, _contraction_Cautun2020, _contraction_Blumenthal1986, _contraction_Gnedin2004"]}
{"id": "C70", "title": "Evolved disk distribution functions", "statement": "evolveddiskdf(initdf, pot, to)(o, t) is initdf at the point where the orbit through o at time t was at time to: it equals initdf at t = to and is constant along the orbits of pot, time-dependent or not; log=True gives the logarithm wherever it is positive. With a list of descending times in a static potential the values are those of the single times, with odeint when all times are at or after to, with the other integrators when the list ends with to; a list of one time at or after to is as the single time, and times that are not descending raise an exception. Findings: with the other integrators a list that does not end with to is evolved back to its last time instead of to; in a time-dependent potential lists give wrong values with every integrator; a list that begins with to gives a single value; a list of one time before to is integrated in the wrong direction.", "quantifier": "all initial distribution functions, all flows of static or time-dependent potentials, all times to and t, all lists of times, all phase-space points | Derivatives, marginalised values and velocity moments are not modelled.", "why_tests_cant": "tests compare lists with single times only for lists that end with to in a potential they take as static; the claim is for all potentials and lists", "anchors": ["galpy/df/evolveddiskdf.py: evolveddiskdf.__call__, evolveddiskdf._create_ts_tlist"]}
{"id": "C71", "title": "Stars released into a stream by the stream-spray distribution functions", "statement": "sample(n, tail) gives n stars, half of them (rounded down) leading and first for 'both', and raises ValueError for other tails. Each star is released in the frame of the progenitor (outward, forward, along the angular momentum, relative to the centre), which the code builds as a proper rotation whose inverse it also has. chen24spraydf: the star starts at the distance g0 r_t from the progenitor in the direction (g1, g2) and moves relative to it with g3 times the escape speed at that distance in the direction (g4, g5); the leading star mirrors the trailing star. fardal15spraydf: the star starts at radius r + k0 r_t, azimuth k5 r_t/r, height k3 r_t/r and velocities v_R (1 + k1), v_T + k2 v_c r_t/r, k4 v_c r_t/r. Findings: the height is a ratio rather than a length, so it does not scale with the orbit; the tidal radius and circular velocity are those of the place at the same distance in the plane at azimuth zero, not of the progenitor's place; for an orbit in z = 0 with negative angular momentum the frame is improper and the trailing star starts slower than the progenitor instead of faster.", "quantifier": "all tidal-radius and force functions, progenitor positions and velocities with a defined orbital plane whose pole is +z or not within 1.4e-5 rad of the z axis, centres, masses, random draws, both tails, all n | Sampling of times and normal variates, integration to the present and stream tracks are not modelled.", "why_tests_cant": "tests look at means and scatters of samples on a few orbits that are inclined or prograde, in units where the radius is near one", "anchors": ["galpy/df/streamspraydf.py: basestreamspraydf.sample, _sample_tail, _setup_rot, _calc_vc, chen24spraydf.spray_df, fardal15spraydf.spray_df"]}
{"id": "C72", "title": "Potentials interpolated on a grid in R and z", "statement": "interpRZPotential returns, for numbers and arrays in every combination and element by element, the interpolated value inside the grid and the original potential's value outside, with zsym at |z| and with the sign of z for the vertical force and the mixed derivative. So at the nodes, outside the grid and at their mirror images it is the original potential (density through its offset logarithm too), and with zsym it is symmetric. Second derivatives that are not interpolated are the original's; circular velocity and frequencies likewise in R. The grid of values is right in every cell if the vectorised call raises, has a wrong shape or is right, and in the corners and the middle whatever it returns. Findings: a time-dependent potential is frozen at t = 0 even outside the grid; with the default zsym an asymmetric potential is changed even where nothing is interpolated, but its second derivatives are not; a vectorised call that is wrong off the sampled cells goes unnoticed.", "quantifier": "all grids, options, splines, original potentials, scalar and array arguments of any length, contents of uninitialised memory, results of the vectorised call | C evaluation, units and not-a-number values are not modelled.", "why_tests_cant": "tests evaluate a few potentials at random points and on the grid; the claim is for every mask pattern, array shape and potential", "anchors": ["galpy/potential/interpRZPotential.py: interpRZPotential._evaluate, _Rforce, _zforce, _R2deriv, _z2deriv, _Rzderiv, _dens, vcirc, epifreq, scalarVectorDecorator, zsymDecorator, _grid_eval, _spot_check_cells"]}
{"id": "C73", "title": "Actions, frequencies and angles from an isochrone approximation", "statement": "actionAngleIsochroneApprox: the action is an average of the toy actions along the orbit, within their range, and the toy action itself when that is constant. The unwrapping of the toy angles only adds whole turns and recovers every angle that does not decrease and advances by less than 2 pi - 6 between outputs, up to one whole number of turns. The fit returns the exact frequency, and the angle modulo 2 pi, whenever the toy angle is a constant plus frequency times time plus the fitted sines, for increasing and decreasing azimuth. The sines use exactly one of n and -n for every n within the limits, and as many as there is room for. Findings: more than twelve outputs per turn are not enough for the unwrapping; an angle that decreases through zero by however little is not recovered; the first angle can move by a turn because it is compared with the last.", "quantifier": "all orbits, numbers of times, toy actions and angles, sampling steps, numbers of sines, left inverses of the normal matrix | Orbit integration, the median test, plots and non-axisymmetric potentials are not modelled.", "why_tests_cant": "tests use a few potentials with fine output and compare within tolerances", "anchors": ["galpy/actionAngle/actionAngleIsochroneApprox.py: actionAngleIsochroneApprox._evaluate, _actionsFreqsAngles, dePeriod"]}
{"id": "C74", "title": "Assigning stars to the points and nodes of a stream track", "statement": "Fitting a stream track: when each star may only be assigned to some points of the curve, the growing search for neighbours ends and gives each star the time of the nearest point among those it is allowed, and zero when it is allowed none; without the restriction it gives the time of the nearest point. The distance counts velocities with the given weight when there are six coordinates and ignores the weight otherwise. Stars are then counted at the node nearest in time, the lower one when halfway, also beyond the first and last node and for uneven nodes, and every star is counted exactly once.", "quantifier": "all numbers of stars and of curve points, masks, distances (with ties), curve times, weights, increasing nodes and times of stars | Means, covariances, smoothing splines and the iteration of the fit are not modelled.", "why_tests_cant": "tests fit a few streams and look at the smooth track, not at the assignment of each star for every mask", "anchors": ["galpy/df/streamTrack.py: _closest_point_on_curve, _bin_by_tp"]}
