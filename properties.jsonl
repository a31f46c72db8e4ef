{"id": "C01", "title": "Analytic four-velocity is normalised", "statement": "The four-velocity returned by KerrSpacetime.four_velocity / Orbit.four_velocity has metric norm exactly -1 (KerrSpacetime.norm) at every Mino time at which the radial and polar potentials are non-negative, whatever the signs chosen by the phases.", "quantifier": "every spin a, every constants (E,L,Q), every radius/polar angle off the horizons, the ring and the axis with R(r)>=0 and Z(cos theta)>=0, every frequency, phase and Mino time", "why_tests_cant": "a polynomial identity over a continuum of spins, constants and points; tests sample a handful and only to 1e-6", "anchors": ["kerrgeopy/spacetime.py:KerrSpacetime.four_velocity", "kerrgeopy/spacetime.py:KerrSpacetime.norm", "kerrgeopy/orbit.py:Orbit.four_velocity"]}
{"id": "C02", "title": "norm is the Kerr line element", "statement": "KerrSpacetime.norm(t,r,theta,phi,v) equals the Kerr line element in Carter's canonical form evaluated on v; in particular it is quadratic in v and independent of t and phi.", "quantifier": "every spin, every point with Sigma, Delta != 0, every vector v", "why_tests_cant": "an identity over all points and vectors", "anchors": ["kerrgeopy/spacetime.py:KerrSpacetime.metric", "kerrgeopy/spacetime.py:KerrSpacetime.norm"]}
{"id": "C03", "title": "metric is a symmetric non-degenerate Lorentzian tensor and horizons are its coordinate singularities", "statement": "KerrSpacetime.metric is symmetric, block diagonal, has determinant -Sigma^2 sin^2 theta, and (outside the outer horizon) is positive on the r,theta directions; inner_horizon <= outer_horizon are exactly the two roots of Delta.", "quantifier": "every spin |a|<=1 and every point off the axis/horizons/ring", "why_tests_cant": "identity over a continuum of points", "anchors": ["kerrgeopy/spacetime.py:KerrSpacetime.metric", "kerrgeopy/spacetime.py:KerrSpacetime.__init__"]}
{"id": "C04", "title": "constants_from_initial_conditions inverts four_velocity", "statement": "If the initial velocity handed to constants_from_initial_conditions is the value of four_velocity for constants (E,L,Q) at that point, then exactly (E,L,Q) is returned.", "quantifier": "every spin, every point off the axis and horizons, every (E,L,Q) with Z(cos theta)>=0, both signs of u_r,u_theta", "why_tests_cant": "round trip over a continuum, sign cases and 2x2 linear solve", "anchors": ["kerrgeopy/initial_conditions.py:constants_from_initial_conditions", "kerrgeopy/spacetime.py:KerrSpacetime.four_velocity"]}
{"id": "C05", "title": "Recovered constants are the conserved momenta", "statement": "constants_from_initial_conditions returns E = -g_{t mu}u^mu, L = g_{phi mu}u^mu and the Q for which the polar equation (Sigma u^theta)^2 sin^2 = Z holds; the returned constants regenerate the t, theta and phi velocities and, for a normalised velocity, also |u^r|.", "quantifier": "every point off the axis/horizons and every velocity", "why_tests_cant": "identity over all positions/velocities", "anchors": ["kerrgeopy/initial_conditions.py:constants_from_initial_conditions"]}
{"id": "C06", "title": "Orbit refuses unphysical initial velocities", "statement": "Orbit(a, position, velocity) raises ValueError whenever the velocity is not timelike (norm >= 0) or its norm differs from -1 by more than 1e-6, before anything else is computed, and never raises these errors otherwise.", "quantifier": "every position/velocity with a defined norm", "why_tests_cant": "must hold on both sides of the tolerance boundary for every input", "anchors": ["kerrgeopy/orbit.py:Orbit.__init__"]}
{"id": "C07", "title": "Accepted initial data lie in the classically allowed region", "statement": "For normalised initial data the constants recovered by Orbit satisfy R(r0) = (Sigma u^r)^2 >= 0 and Z(cos theta0) = (Sigma u^theta sin theta0)^2 >= 0; for data accepted within tolerance R(r0) differs from (Sigma u^r)^2 by at most Delta*Sigma*1e-6.", "quantifier": "every accepted position/velocity", "why_tests_cant": "identity over all accepted inputs", "anchors": ["kerrgeopy/orbit.py:Orbit.__init__", "kerrgeopy/initial_conditions.py:constants_from_initial_conditions"]}
{"id": "C08", "title": "Input validation of the constants API", "statement": "energy, angular_momentum, carter_constant and constants_of_motion raise ValueError for |a|=1 (extreme Kerr), for |a|>1, e outside [0,1], |x|>1, and for every p <= separatrix; for every other input no ValueError is raised.", "quantifier": "every (a,p,e,x)", "why_tests_cant": "the accepted region is a continuum with a curved boundary; its exact extent and the order of the checks must hold everywhere", "anchors": ["kerrgeopy/constants.py:energy", "kerrgeopy/constants.py:angular_momentum", "kerrgeopy/constants.py:carter_constant", "kerrgeopy/constants.py:constants_of_motion", "kerrgeopy/constants.py:valid_params"]}
{"id": "C09", "title": "Input validation of the frequency API", "statement": "r_frequency, theta_frequency, phi_frequency, gamma, mino_frequencies and fundamental_frequencies reject (ValueError) extreme Kerr, polar, marginally bound, out-of-range and unstable parameters, and in particular never divide by L=0 of a polar orbit.", "quantifier": "every (a,p,e,x)", "why_tests_cant": "needs all inputs, including the interplay of checks", "anchors": ["kerrgeopy/frequencies.py:r_frequency", "kerrgeopy/frequencies.py:theta_frequency", "kerrgeopy/frequencies.py:phi_frequency", "kerrgeopy/frequencies.py:gamma", "kerrgeopy/frequencies.py:mino_frequencies"]}
{"id": "C10", "title": "Spin-reversal symmetry", "statement": "Constants of motion and frequencies are unchanged under (a,x) -> (-a,-x): same values and same exceptions.", "quantifier": "every (a,p,e,x) with a != 0", "why_tests_cant": "symmetry over the whole parameter space", "anchors": ["kerrgeopy/constants.py:_standardize_params", "kerrgeopy/constants.py:constants_of_motion", "kerrgeopy/frequencies.py:mino_frequencies"]}
{"id": "C11", "title": "Optional cached arguments never change results", "statement": "Passing the already known E / L / constants / upsilon_r / upsilon_theta to angular_momentum, carter_constant, stable_radial_roots, stable_polar_roots, r/theta/phi_frequency and gamma gives the same result as omitting them.", "quantifier": "every (a,p,e,x) for which the values exist", "why_tests_cant": "relational property over all inputs", "anchors": ["kerrgeopy/constants.py:angular_momentum", "kerrgeopy/constants.py:carter_constant", "kerrgeopy/frequencies.py:phi_frequency", "kerrgeopy/frequencies.py:gamma"]}
{"id": "C12", "title": "Limiting cases of the constants", "statement": "Marginally bound (e=1) orbits have E=1; polar (x=0) orbits have L=0; equatorial (|x|=1) orbits have Q=0; circular/eccentric Schwarzschild orbits have the textbook E and L.", "quantifier": "every accepted (a,p,e,x) in the limiting family", "why_tests_cant": "continuum of inputs", "anchors": ["kerrgeopy/constants.py:energy", "kerrgeopy/constants.py:angular_momentum", "kerrgeopy/constants.py:carter_constant"]}
{"id": "C13", "title": "p and e are the radial turning points", "statement": "The constants returned by constants_of_motion(a,p,e,x) make r = p/(1-e) and r = p/(1+e) zeros of the radial potential (a double zero r=p when e=0; r=p/2 and E=1 when e=1).", "quantifier": "every accepted (a,p,e,x) whose computation is finite", "why_tests_cant": "nested radicals with branch choices; correctness of the chosen branch must hold on the whole parameter space", "anchors": ["kerrgeopy/constants.py:energy", "kerrgeopy/constants.py:angular_momentum", "kerrgeopy/constants.py:carter_constant", "kerrgeopy/constants.py:_coefficients", "kerrgeopy/constants.py:_coefficients_derivative"]}
{"id": "C14", "title": "x is the polar turning point", "statement": "The constants returned by constants_of_motion make cos^2 theta = 1-x^2 a zero of the polar potential and sign(L)=sign(x) orientation.", "quantifier": "every accepted (a,p,e,x)", "why_tests_cant": "continuum of inputs", "anchors": ["kerrgeopy/constants.py:carter_constant"]}
{"id": "C15", "title": "stable_radial_roots returns all four roots", "statement": "The four values returned by stable_radial_roots are the complete factorisation of the radial potential: R(r) = (1-E^2)(r1-r)(r-r2)(r-r3)(r-r4) for every r.", "quantifier": "every accepted (a,p,e<1,x) with finite result, every r", "why_tests_cant": "polynomial identity for all r and all parameters", "anchors": ["kerrgeopy/constants.py:stable_radial_roots"]}
{"id": "C16", "title": "stable_polar_roots returns both polar roots", "statement": "Z(z) = a^2(1-E^2)(z_minus - z)(z_plus - z) for every z; for a=0 the polar potential is linear with root z_minus.", "quantifier": "every accepted non-polar (a,p,e,x), every z", "why_tests_cant": "polynomial identity for all z and all parameters", "anchors": ["kerrgeopy/constants.py:stable_polar_roots"]}
{"id": "C17", "title": "apex_from_constants inverts constants_of_motion", "statement": "apex_from_constants(a, *constants_of_motion(a,p,e,x)) returns (a,p,e,x).", "quantifier": "every accepted (a,p,e<1,x) with 0<a<1 and x != 0", "why_tests_cant": "round trip over a continuum through a root finder with an ordering convention", "anchors": ["kerrgeopy/constants.py:apex_from_constants", "kerrgeopy/constants.py:constants_of_motion"]}
{"id": "C18", "title": "Schwarzschild separatrix", "statement": "separatrix(0,e,x) = 6+2e for all e,x, and is_stable(0,p,e,x) iff p > 6+2e.", "quantifier": "all e in [0,1], x in [-1,1], all p", "why_tests_cant": "continuum", "anchors": ["kerrgeopy/constants.py:separatrix", "kerrgeopy/constants.py:is_stable"]}
{"id": "C19", "title": "separatrix is total on its documented domain", "statement": "For 0<=a<1, 0<=e<=1, -1<=x<=1 separatrix never raises: every bracket handed to the bracketing root finder has a sign change, and the value returned is a zero of the separatrix polynomial inside the bracket (in particular 1+e < p < 12).", "quantifier": "all (a,e,x) in the documented domain", "why_tests_cant": "needs polynomial sign analysis over a continuum; a missing sign change anywhere is an exception", "anchors": ["kerrgeopy/constants.py:separatrix", "kerrgeopy/constants.py:_S", "kerrgeopy/constants.py:_S_polar", "kerrgeopy/constants.py:_S_equatorial"]}
{"id": "C20", "title": "The three separatrix polynomials agree", "statement": "The full polynomial is even in x, equals p^8 times the equatorial polynomial at x=+-1 and the square of the polar polynomial at x=0, and all of them have the Schwarzschild separatrix as root at a=0.", "quantifier": "all p,a,e,x", "why_tests_cant": "degree-12 polynomial identity in four variables", "anchors": ["kerrgeopy/constants.py:_S", "kerrgeopy/constants.py:_S_polar", "kerrgeopy/constants.py:_S_equatorial"]}
{"id": "C21", "title": "The separatrix is where the inner turning point merges", "statement": "A zero of the separatrix polynomial is exactly where the periastron becomes a double root of the radial potential (last stable orbit).", "quantifier": "all (a,p,e,x) on the separatrix", "why_tests_cant": "algebraic equivalence over a continuum", "anchors": ["kerrgeopy/constants.py:_S", "kerrgeopy/constants.py:_S_equatorial", "kerrgeopy/constants.py:_S_polar"]}
{"id": "C22", "title": "is_stable is the half-line above the separatrix", "statement": "is_stable(a,p,e,x) is True iff p > separatrix(a,e,x) and raises exactly when separatrix does; it is upward closed in p.", "quantifier": "all (a,p,e,x)", "why_tests_cant": "continuum", "anchors": ["kerrgeopy/constants.py:is_stable", "kerrgeopy/spacetime.py:KerrSpacetime.is_stable"]}
{"id": "C23", "title": "Bound orbits have E<1 and non-negative Q", "statement": "Accepted orbits with e<1 have 0 < E < 1, Q >= 0 and the radial potential opens downward.", "quantifier": "every accepted (a,p,e,x) with finite constants", "why_tests_cant": "continuum", "anchors": ["kerrgeopy/constants.py:constants_of_motion"]}
{"id": "C24", "title": "Trajectories start at the requested t and phi", "statement": "trajectory()'s t and phi satisfy t(0)=q_t0 (in the requested time unit) and phi(0)=q_phi0, for stable, complex-root plunging and real-root plunging orbits.", "quantifier": "every orbit and every initial phases", "why_tests_cant": "every phases/units combination", "anchors": ["kerrgeopy/stable.py:stable_trajectory", "kerrgeopy/plunge.py:_complex_plunge_trajectory", "kerrgeopy/plunge.py:_real_plunge_trajectory"]}
{"id": "C25", "title": "Bound motion stays between its turning points", "statement": "For every Mino time r(lambda) lies in [p/(1+e), p/(1-e)] and theta(lambda) in [theta_min, pi-theta_min].", "quantifier": "every Mino time in R, every phases, every stable orbit", "why_tests_cant": "unbounded time", "anchors": ["kerrgeopy/stable.py:radial_solutions", "kerrgeopy/stable.py:polar_solutions", "kerrgeopy/stable.py:stable_trajectory"]}
{"id": "C26", "title": "Phase conventions", "statement": "Phase q_r=0 is periastron, q_r=pi apoastron, q_theta=0 is theta_min, q_theta=pi is pi-theta_min, q_theta=pi/2 the equatorial plane; so the default trajectory starts at periastron and theta_min.", "quantifier": "every stable orbit", "why_tests_cant": "continuum", "anchors": ["kerrgeopy/stable.py:radial_solutions", "kerrgeopy/stable.py:polar_solutions", "kerrgeopy/stable.py:StableOrbit.trajectory"]}
{"id": "C27", "title": "Radial and polar motion are periodic", "statement": "r has Mino period 2 pi/Upsilon_r, theta has Mino period 2 pi/Upsilon_theta, and the oscillating parts of t and phi (trajectory_deltas) are 2 pi periodic in their phases.", "quantifier": "every Mino time, every number of periods, every stable orbit", "why_tests_cant": "unbounded time", "anchors": ["kerrgeopy/stable.py:radial_solutions", "kerrgeopy/stable.py:polar_solutions", "kerrgeopy/stable.py:StableOrbit.trajectory_deltas"]}
{"id": "C28", "title": "Stable trajectories satisfy the r and theta geodesic equations", "statement": "(dr/dlambda)^2 = R(r) and (dtheta/dlambda)^2 = Z/sin^2 for all Mino times.", "quantifier": "every Mino time, stable orbit and phases", "why_tests_cant": "differential identity at every time", "anchors": ["kerrgeopy/stable.py:radial_solutions", "kerrgeopy/stable.py:polar_solutions", "kerrgeopy/frequencies.py:r_frequency", "kerrgeopy/frequencies.py:theta_frequency"]}
{"id": "C29", "title": "Stable trajectories satisfy the t and phi geodesic equations", "statement": "dt/dlambda and dphi/dlambda equal the Kerr geodesic expressions in r(lambda), theta(lambda), i.e. Sigma times the analytic four-velocity components.", "quantifier": "every Mino time, stable orbit and phases", "why_tests_cant": "differential identity at every time, with elliptic integrals of three kinds", "anchors": ["kerrgeopy/stable.py:radial_solutions", "kerrgeopy/stable.py:polar_solutions", "kerrgeopy/frequencies.py:phi_frequency", "kerrgeopy/frequencies.py:gamma"]}
{"id": "C30", "title": "Gamma and Upsilon_phi are long-time averages", "statement": "t(lambda)/lambda -> Gamma and phi(lambda)/lambda -> Upsilon_phi as lambda -> infinity; over a common radial/polar period the increments are exactly Gamma*period and Upsilon_phi*period.", "quantifier": "every stable orbit, all phases", "why_tests_cant": "limit over unbounded time", "anchors": ["kerrgeopy/frequencies.py:gamma", "kerrgeopy/frequencies.py:phi_frequency", "kerrgeopy/stable.py:stable_trajectory"]}
{"id": "C31", "title": "Incomplete elliptic integrals are correct for every argument", "statement": "The library's incomplete elliptic integrals of the second and third kind (used by every trajectory) equal the defining integrals from 0 to phi for every real phi, including all quadrants and negative phi.", "quantifier": "all phi in R, 0<=m<1, n<1", "why_tests_cant": "quadrant/parity bookkeeping over the whole real line", "anchors": ["kerrgeopy/frequencies.py:_ellipeinc", "kerrgeopy/frequencies.py:_ellippiinc", "kerrgeopy/frequencies.py:_ellippi"]}
{"id": "C32", "title": "Unit conversions are mutually consistent", "statement": "All conversions are linear in the converted quantity; cm = 100 m, km = m/1000, erg = 1e7 J, cgs/mks angular momentum 1e7, Carter 1e14, mHz = 1e3 Hz, days = s/86400; frequency_in_Hz inverts time_in_seconds; distance = c * time; E*time = L dimensionally.", "quantifier": "all values, all M != 0", "why_tests_cant": "continuum", "anchors": ["kerrgeopy/units.py"]}
{"id": "C33", "title": "Unit handling of frequencies and trajectories", "statement": "Requesting physical units without M (and mu) raises ValueError; an unknown unit raises ValueError (frequencies, constants) or KeyError when the returned function is called (trajectories); Mino frequencies in mks divided by Gamma in mks equal the fundamental frequencies in Hz.", "quantifier": "every orbit and every unit string", "why_tests_cant": "every unit string (not just the listed ones)", "anchors": ["kerrgeopy/stable.py:StableOrbit.mino_frequencies", "kerrgeopy/stable.py:StableOrbit.fundamental_frequencies", "kerrgeopy/stable.py:stable_trajectory", "kerrgeopy/orbit.py:Orbit.constants_of_motion"]}
{"id": "C34", "title": "Physical-unit constants of motion", "statement": "Orbit.constants_of_motion('mks') returns E*mu*c^2, L*G*mu*M/c, Q*(G mu M/c)^2 with mu, M in kg.", "quantifier": "every orbit, every M, mu", "why_tests_cant": "continuum", "anchors": ["kerrgeopy/orbit.py:Orbit.constants_of_motion", "kerrgeopy/constants.py:scale_constants"]}
{"id": "C35", "title": "Fundamental frequencies are Mino frequencies over Gamma", "statement": "fundamental_frequencies = (Upsilon_r, |Upsilon_theta|, Upsilon_phi)/Gamma component-wise, for the functions and for the StableOrbit methods.", "quantifier": "every (a,p,e,x)", "why_tests_cant": "relational over all inputs", "anchors": ["kerrgeopy/frequencies.py:fundamental_frequencies", "kerrgeopy/frequencies.py:mino_frequencies", "kerrgeopy/stable.py:StableOrbit.fundamental_frequencies"]}
{"id": "C36", "title": "plunging_radial_roots returns the roots of the radial potential in the documented order", "statement": "For bound energies (E^2<1, a^2<=1) the call returns: when the radial quartic has four real roots, those roots in decreasing order or with the two pairs swapped so that the motion is between r1 and r2; with two complex roots, r1<=r2 the real ones and r3,r4 a conjugate pair. For E^2=1 (three roots) the call fails with an exception rather than returning wrong roots.", "quantifier": "every (a,E,L,Q)", "why_tests_cant": "all root configurations", "anchors": ["kerrgeopy/constants.py:plunging_radial_roots"]}
{"id": "C37", "title": "Stability classification of initial conditions", "statement": "initial_conditions.is_stable answers True exactly when r0 lies (within tol) between the two outermost of four real roots lying outside the inner horizon, False for the plunge configurations, ValueError otherwise; real initial data (radial potential non-negative at r0, r0 outside the inner horizon, E^2<1) are never rejected, except when an orbit's turning point lies exactly on the inner horizon (2 E r_- = a L), where a rejection does occur.", "quantifier": "all initial positions/velocities", "why_tests_cant": "all root configurations and boundary cases", "anchors": ["kerrgeopy/initial_conditions.py:is_stable"]}
{"id": "C38", "title": "Plunging-orbit errors", "statement": "PlungingOrbit and Orbit refuse Schwarzschild plunges with ValueError; asking a plunging trajectory for physical units without M never returns a trajectory: it raises ValueError.", "quantifier": "all inputs", "why_tests_cant": "all inputs", "anchors": ["kerrgeopy/plunge.py:PlungingOrbit.__init__", "kerrgeopy/orbit.py:Orbit.__init__", "kerrgeopy/plunge.py:plunging_trajectory"]}
{"id": "C39", "title": "Plunging motion stays between its turning points", "statement": "Complex-root plunging trajectories keep r within [r1,r2] and cos(theta) within [-z1,z1] for all Mino times, starting at r1 when q_r0=0.", "quantifier": "all Mino times, all phases, all complex-root plunges", "why_tests_cant": "unbounded time", "anchors": ["kerrgeopy/plunge.py:plunging_radial_solutions_complex", "kerrgeopy/plunge.py:plunging_polar_solutions"]}
{"id": "C40", "title": "Plunging trajectories satisfy the geodesic equations", "statement": "(dr/dlambda)^2=R(r), (dtheta/dlambda)^2 = Z/sin^2 and the polar parts of dt/dlambda and dphi/dlambda hold for complex-root plunges.", "quantifier": "all Mino times, all complex-root plunges", "why_tests_cant": "differential identity at every time", "anchors": ["kerrgeopy/plunge.py:plunging_radial_solutions_complex", "kerrgeopy/plunge.py:plunging_polar_solutions", "kerrgeopy/frequencies.py:plunging_mino_frequencies"]}
{"id": "C41", "title": "Plunging polar roots", "statement": "z1^2 and z2^2/(a^2(1-E^2)) computed for plunging orbits are the two roots of the polar polynomial, 0<=z1<=1 and k_theta^2<1.", "quantifier": "all a != 0, E^2<1, L != 0, Q>=0", "why_tests_cant": "continuum", "anchors": ["kerrgeopy/plunge.py:plunging_polar_solutions", "kerrgeopy/frequencies.py:plunging_mino_frequencies", "kerrgeopy/initial_conditions.py:plunging_orbit_initial_phases"]}
{"id": "C42", "title": "Numerical four-velocity approximates the derivative", "statement": "numerical_four_velocity is exactly (derivative)/Sigma on trajectories that are polynomials of degree at most 4 in Mino time, for every step dx != 0, and converges to (derivative)/Sigma as dx -> 0 for every differentiable trajectory.", "quantifier": "every trajectory, every dx", "why_tests_cant": "every function and step size", "anchors": ["kerrgeopy/orbit.py:Orbit.numerical_four_velocity"]}
{"id": "C43", "title": "Initial phases reproduce the initial position", "statement": "For a stable orbit built from initial conditions away from turning points, evaluating the radial/polar solution at the recovered phase returns r0 and theta0, with the correct direction of motion.", "quantifier": "all initial conditions of stable non-degenerate orbits", "why_tests_cant": "round trip through an inverse elliptic function", "anchors": ["kerrgeopy/initial_conditions.py:stable_orbit_initial_phases", "kerrgeopy/stable.py:radial_solutions", "kerrgeopy/stable.py:polar_solutions"]}
{"id": "C44", "title": "trajectory_deltas works for every orbit", "statement": "trajectory_deltas returns the oscillating parts consistent with trajectory() for stable and for plunging orbits.", "quantifier": "all orbits", "why_tests_cant": "all root configurations", "anchors": ["kerrgeopy/orbit.py:Orbit.trajectory_deltas", "kerrgeopy/plunge.py:PlungingOrbit.trajectory_deltas"]}
{"id": "C45", "title": "is_visible hides exactly the points behind or inside the horizon sphere", "statement": "A trajectory point is reported visible iff it is in front of the viewing plane or projects outside the horizon disc, and it is outside the horizon; the answer for one point does not depend on the other points.", "quantifier": "all point lists and viewing angles", "why_tests_cant": "all inputs", "anchors": ["kerrgeopy/orbit.py:Orbit.is_visible"]}
{"id": "C46", "title": "fast_separatrix tabulates separatrix at its own grid nodes", "statement": "The table handed to the interpolator has at row i, column j the separatrix at the i-th e node and j-th x node.", "quantifier": "all a, all grid sizes, all i,j", "why_tests_cant": "every grid size (transposed meshgrid indexing)", "anchors": ["kerrgeopy/constants.py:fast_separatrix"]}
{"id": "C47", "title": "animate never indexes outside its arrays", "statement": "Every frame index i < num_frames gives an array index j inside the sampled trajectory and 0 <= j0 <= j.", "quantifier": "all durations, speeds, tail lengths", "why_tests_cant": "all integer parameters", "anchors": ["kerrgeopy/orbit.py:Orbit.animate"]}
{"id": "C48", "title": "Negative spins are interchangeable with reversed inclination everywhere", "statement": "StableOrbit(a,p,e,x) and StableOrbit(-a,p,e,-x) describe the same orbit; stable_trajectory(a,...,x) and stable_trajectory(-a,...,-x) return the same trajectory; separatrix/is_stable accept the same spins as energy.", "quantifier": "all (a,p,e,x) with a != 0", "why_tests_cant": "symmetry over all inputs", "anchors": ["kerrgeopy/stable.py:StableOrbit.__init__", "kerrgeopy/stable.py:stable_trajectory", "kerrgeopy/constants.py:separatrix"]}
{"id": "C49", "title": "stable_orbit_initial_phases is total on Schwarzschild orbits", "statement": "For a=0 stable initial data the polar phase is finite and does not depend on whether radial_roots is supplied.", "quantifier": "all a=0 stable initial data", "why_tests_cant": "all inputs of the a=0 family", "anchors": ["kerrgeopy/initial_conditions.py:stable_orbit_initial_phases", "kerrgeopy/frequencies.py:_theta_frequency_from_constants"]}
{"id": "C50", "title": "constants_of_motion is finite on every accepted orbit", "statement": "Every (a,p,e,x) passing validation yields finite E, L, Q.", "quantifier": "every accepted (a,p,e,x)", "why_tests_cant": "exceptional points have measure zero and are invisible to sampling", "anchors": ["kerrgeopy/constants.py:energy", "kerrgeopy/constants.py:angular_momentum"]}
{"id": "C51", "title": "The analytic four-velocity is the derivative of the trajectory", "statement": "For a stable orbit, the functions returned by four_velocity, evaluated along the returned trajectory and multiplied by Sigma, are the Mino-time derivatives of t, r, theta and phi, including the signs of the radial and polar components, and the vector has norm -1 at every Mino time.", "quantifier": "every stable orbit, all initial phases, every Mino time", "why_tests_cant": "differential identity with sign at every time", "anchors": ["kerrgeopy/spacetime.py:KerrSpacetime.four_velocity", "kerrgeopy/orbit.py:Orbit.four_velocity", "kerrgeopy/stable.py:stable_trajectory"]}
{"id": "C52", "title": "Exactly which accepted orbits have finite constants of motion", "statement": "For every spin sign, (a,p,e,x) accepted by validation yields finite E, L, Q except when the orbit is prograde around a rotating hole and its apastron lies on the static limit at the latitude of the polar turning point (for e=1: its periastron), or its turning points satisfy the light-ring equation of the opposite rotation sense; in those cases it does not. In particular the result is finite for a=0, for polar and retrograde orbits, and whenever the periastron is at least 4.", "quantifier": "every accepted (a,p,e,x)", "why_tests_cant": "the exceptional set has measure zero and the claim covers its complement", "anchors": ["kerrgeopy/constants.py:energy", "kerrgeopy/constants.py:angular_momentum", "kerrgeopy/constants.py:carter_constant"]}
{"id": "C53", "title": "Exactly which accepted orbits have finite frequencies", "statement": "If the constants of motion E, L, Q of an accepted orbit with e<1 and x<>0 are finite, then mino_frequencies returns four finite numbers exactly when |a| L <> 2 E r_+ (r_+ the outer horizon radius); when |a| L = 2 E r_+ (a curve of accepted prograde orbits, e.g. a=sqrt(65)/9, p=65/9, e=0, x=1) the third radial root is on the horizon and the result is 0/0.", "quantifier": "every accepted (a,p,e,x) of either spin sign with e<1, x<>0", "why_tests_cant": "the exceptional set has measure zero; the claim is an equivalence over all inputs", "anchors": ["kerrgeopy/frequencies.py:mino_frequencies", "kerrgeopy/frequencies.py:_phi_frequency", "kerrgeopy/frequencies.py:gamma"]}
{"id": "C54", "title": "Every accepted orbit runs and solves the geodesic equations", "statement": "For 0<=a, e<1, x<>0, an orbit accepted by validation and outside the exceptional set of C52 has finite constants with 0<E<1, Q>=0; unless aL=2E r_+ its frequencies are finite with positive radial and polar ones, and for all initial phases stable_trajectory returns functions defined at every Mino time, starting at the given t and phi, staying between p/(1+e) and p/(1-e) and within the polar turning points, and solving all four first-order geodesic equations for these constants.", "quantifier": "every accepted (a,p,e,x), all initial phases, every Mino time", "why_tests_cant": "end-to-end statement over all inputs and times", "anchors": ["kerrgeopy/stable.py:stable_trajectory", "kerrgeopy/constants.py:constants_of_motion", "kerrgeopy/frequencies.py:mino_frequencies"]}
{"id": "C55", "title": "Restarting from any point of a trajectory continues it", "statement": "Take a stable orbit with a>0 and finite frequencies, any initial phases and any Mino time l at which r and theta are either exactly at or at least tol away from their turning points. Building Orbit(a, position(l), four_velocity(l)) succeeds, recovers (p,e,x), and its trajectory is the time shift of the original one: all four coordinates at s equal the original ones at l+s, for every s.", "quantifier": "all orbits, phases, Mino times l and s", "why_tests_cant": "flow property over a continuum of states and times, through two inverse elliptic functions", "anchors": ["kerrgeopy/orbit.py:Orbit.__init__", "kerrgeopy/initial_conditions.py:stable_orbit_initial_phases", "kerrgeopy/stable.py:stable_trajectory", "kerrgeopy/spacetime.py:KerrSpacetime.four_velocity"]}
{"id": "C56", "title": "Third-kind elliptic integral past its pole", "statement": "For characteristic n>1 and parameter 0<=m<1 the package's incomplete elliptic integral of the third kind is defined at every real amplitude phi with n sin^2 phi != 1 and is the Cauchy principal value: it vanishes at 0, its derivative is 1/((1-n sin^2)sqrt(1-m sin^2)), and the singular jumps across the poles cancel symmetrically; the complete integral is its value at pi/2.", "quantifier": "all n>1, 0<=m<1, all amplitudes off the poles", "why_tests_cant": "continuum of arguments, value defined by a limit", "anchors": ["kerrgeopy/frequencies.py:_ellippi", "kerrgeopy/frequencies.py:_ellippiinc"]}
{"id": "C57", "title": "Plunging trajectories obey the time and azimuth geodesic equations", "statement": "For a plunge with two complex radial roots (0<|a|<1, E^2<1, L!=0, Q>=0, no turning point on a horizon, r1+r2 != 1/(1-E^2), radius at radial phase pi/2 not a horizon), the t and phi returned by plunging_trajectory start at the given phases q_t, q_phi, and at every Mino time at which neither the particle nor the point half a radial period away is on a horizon they are defined in a neighbourhood and dt/dlambda, dphi/dlambda are the Kerr geodesic equations at (r, theta), inside and outside both horizons.", "quantifier": "all such constants, all initial phases, all such Mino times", "why_tests_cant": "derivative identities over a continuum, with logarithmic singularities at the horizons", "anchors": ["kerrgeopy/plunge.py:plunging_trajectory", "kerrgeopy/plunge.py:plunging_radial_integrals", "kerrgeopy/plunge.py:plunging_radial_solutions_complex"]}
{"id": "C58", "title": "Plunges with four real radial roots follow the geodesic equations; those reaching r = 0 have no time coordinate", "statement": "For 0<|a|<1, E^2<1, L!=0, Q>=0 where plunging_radial_roots returns four real roots with r1, r2 simple, plunging_trajectory returns r and theta defined at every Mino time, r oscillating between exactly r2 and r1, both obeying (dr/dlambda)^2=R(r), (dtheta/dlambda)^2=Theta(theta). Both horizons lie strictly between r2 and r1, and wherever r is off the horizons (and was at lambda=0) t and phi are defined and obey their first-order geodesic equations with the requested initial values. The exception: when r2=0 - which is every equatorial plunge below a bound orbit - the time coordinate is undefined (inf/nan) at every Mino time, because the frequency code takes the zero root for a marginally bound orbit (e=1).", "quantifier": "all spins 0<|a|<1, all bound constants E, L, Q with four real roots, all initial phases, all Mino times", "why_tests_cant": "a continuum of constants, phases and times; the third-kind integrals have poles at both horizon crossings and only a proof covers all of them", "anchors": ["kerrgeopy/plunge.py:_real_plunge_trajectory", "kerrgeopy/stable.py:radial_solutions/polar_solutions", "kerrgeopy/frequencies.py:_gamma_from_constants"]}
{"id": "C59", "title": "An Orbit built from plunging initial conditions starts at these initial conditions", "statement": "For 0<|a|<1, E^2<1, L!=0, Q>0 where plunging_radial_roots returns a complex pair, and any timelike normalised initial position and velocity with these constants (off the horizons and off the axis), plunging_orbit_initial_phases returns finite phases, Orbit(a, position, velocity) is classified as plunging and carries the constants and Mino frequencies of that plunge, and its trajectory at Mino time 0 is exactly the given r and theta, moving with exactly Sigma times the given radial and polar velocity (no tolerance, turning points included). The exception: for an equatorial plunge (Q=0) the computed polar phase is not a number, and with it t, theta and phi at every Mino time.", "quantifier": "all spins 0<|a|<1, all complex-root plunges, all initial positions and velocities, all Mino times", "why_tests_cant": "a continuum of initial data; the sign choices at and near turning points and the inverse elliptic integrals hold or fail on measure-zero sets no sampling hits", "anchors": ["kerrgeopy/initial_conditions.py:plunging_orbit_initial_phases", "kerrgeopy/orbit.py:Orbit.__init__", "kerrgeopy/plunge.py:_complex_plunge_trajectory"]}
{"id": "C60", "title": "The analytic four-velocity of a plunge is the derivative of its trajectory", "statement": "Along every complex-root plunging trajectory (0<|a|, E^2<1, L!=0, Q>=0, any phases), at every Mino time where the particle is off the horizons and the ring, the r and theta components returned by four_velocity times Sigma are exactly the derivatives of r and theta - including the sign -, the t and phi components are the right-hand sides of their geodesic equations, and the vector has norm -1.", "quantifier": "all complex-root plunges, all phases, all Mino times off the horizons", "why_tests_cant": "the direction of motion is chosen from the sign of a sine of the phase while the trajectory uses elliptic amplitudes with a shifted polar phase; agreement for every phase is a proof about monotone amplitudes", "anchors": ["kerrgeopy/spacetime.py:KerrSpacetime.four_velocity", "kerrgeopy/plunge.py:PlungingOrbit", "kerrgeopy/orbit.py:Orbit.four_velocity"]}
{"id": "C61", "title": "Restarting a plunge from any of its points continues it", "statement": "For every non-equatorial complex-root plunge and every Mino time l at which the particle is off the horizons, Orbit(a, position at l, four_velocity at l) succeeds, has the same constants of motion, and the radial and polar coordinates of its trajectory at every Mino time s are those of the original trajectory at l+s.", "quantifier": "all non-equatorial complex-root plunges, all phases, all restart times l, all later and earlier times s", "why_tests_cant": "histories: any point of any trajectory, to all later times", "anchors": ["kerrgeopy/orbit.py:Orbit.__init__", "kerrgeopy/initial_conditions.py:plunging_orbit_initial_phases", "kerrgeopy/plunge.py:_complex_plunge_trajectory"]}
{"id": "C62", "title": "Initial conditions of a plunge with four real radial roots are reproduced", "statement": "For every normalised initial position and velocity off the horizons whose constants have four real radial roots and whose radius lies in the inner (plunging) region (0<|a|<1, E^2<1, L!=0, Q>=0, equatorial included), the phases returned by plunging_orbit_initial_phases give a trajectory that passes through the initial r and theta to within the 1e-4 tolerance, and exactly, with the initial dr/dlambda and dtheta/dlambda, unless the point is within 1e-4 of a turning point without being one; and Orbit(a, position, velocity) - provided the constants are not marginal and the gap to the outer region exceeds 1e-4 - is classified as plunging, keeps E, L, Q and has such a trajectory.", "quantifier": "all initial positions and velocities of inner-region plunges with four real roots, both root orderings", "why_tests_cant": "inverting an incomplete elliptic integral and an elliptic sine for every initial point and velocity direction is a statement about a continuum of inputs", "anchors": ["kerrgeopy/initial_conditions.py:plunging_orbit_initial_phases", "kerrgeopy/plunge.py:PlungingOrbit", "kerrgeopy/orbit.py:Orbit.__init__"]}
{"id": "C63", "title": "apex_from_constants inverts constants_of_motion on every set of bound constants", "statement": "For 0<=a<1, 0<E, E^2<1, Q>=0 such that the radial potential has a bound region r2<=r<=r1 lying above its two other roots and above the inner horizon, apex_from_constants returns (a,p,e,x) with 0<=e<1, |x|<=1, p/(1+e)=r2, p/(1-e)=r1 and the sign of x equal to that of L; is_stable is true for these, constants_of_motion accepts them and - outside the 0/0 exceptional set - returns the original (E,L,Q).", "quantifier": "all constants of motion with a bound region outside the horizon, circular, equatorial and polar limits included", "why_tests_cant": "inverting the Schmidt formulas and the separatrix comparison for a continuum of (a,E,L,Q) needs an algebraic argument", "anchors": ["kerrgeopy/constants.py:apex_from_constants", "kerrgeopy/constants.py:constants_of_motion", "kerrgeopy/stable.py:is_stable"]}
{"id": "C64", "title": "Every bound initial condition is accepted and reproduced", "statement": "For every normalised four-velocity at a point outside the outer horizon of a spinning black hole (0<a<1) whose constants satisfy 0<E<1, L!=0 and that lies in a bound region of the radial potential (and outside the 0/0 cases), Orbit(a, position, velocity) succeeds, is classified as stable, has turning points p/(1+e), p/(1-e) equal to those of the initial motion, keeps E, L, Q, its (p,e,x) give these same constants, and its trajectory passes through the initial point with the initial velocity (within the 1e-4 snapping tolerance of turning points).", "quantifier": "all bound initial positions and velocities", "why_tests_cant": "a continuum of initial data; failure would be a spurious ValueError or a wrong orbit on a region tests do not sample", "anchors": ["kerrgeopy/orbit.py:Orbit.__init__", "kerrgeopy/initial_conditions.py:stable_orbit_initial_phases", "kerrgeopy/constants.py:apex_from_constants"]}
{"id": "C65", "title": "Coordinate time runs forward on every bound orbit", "statement": "Along every stable trajectory with 0<=a the coordinate time is strictly increasing, indeed dt/dlambda >= r^2, and gamma >= r_min^2 > 0; consequently fundamental_frequencies never divides by zero: for spins of either sign it returns finite values whenever mino_frequencies does, with positive radial and polar components; prograde orbits have strictly increasing phi and a positive azimuthal frequency.", "quantifier": "all parameters whose Mino frequencies are finite, all initial phases, all Mino times", "why_tests_cant": "positivity of gamma over the whole parameter space, including orbits deep in the ergosphere of a near-extremal hole, is an inequality over a continuum", "anchors": ["kerrgeopy/frequencies.py:gamma", "kerrgeopy/frequencies.py:fundamental_frequencies", "kerrgeopy/stable.py:stable_trajectory"]}
{"id": "C66", "title": "The constructors return complete, self-consistent orbits", "statement": "StableOrbit(a,p,e,x,...) succeeds whenever the Mino frequencies are finite (either sign of a), StableOrbit.from_constants(a,E,L,Q,...) for every set of bound constants (0<=a<1, L!=0, outside the 0/0 cases), and PlungingOrbit(a,E,L,Q,...) for every 0<|a|<1, E^2<1, L!=0, Q>=0 with simple turning points; the attributes are those of the arguments (from_constants keeps E, L, Q), the trajectory method describes a geodesic with these constants between its turning points, four_velocity() is its derivative divided by Sigma, and the internal _four_velocity_norm() equals -1 at every Mino time off the horizons.", "quantifier": "all constructor arguments, initial phases, masses and Mino times", "why_tests_cant": "universally quantified over all parameters and times; tests sample a few orbits", "anchors": ["kerrgeopy/stable.py:StableOrbit.__init__", "kerrgeopy/stable.py:StableOrbit.from_constants", "kerrgeopy/plunge.py:PlungingOrbit.__init__", "kerrgeopy/orbit.py:Orbit.four_velocity", "kerrgeopy/orbit.py:Orbit._four_velocity_norm"]}
{"id": "C67", "title": "Orbit handles every generic initial condition with E<1 outside the horizon", "statement": "For 0<a<1 and every normalised initial velocity at a point outside the outer horizon with 0<E<1 and L!=0 - excluding only the degenerate data listed (marginal constants, within 1e-4 of the separatrix, equatorial data with complex roots, the 0/0 set of constants_of_motion) - Orbit(a, position, velocity) succeeds, keeps E, L, Q, is classified as a plunge exactly when the radial potential has no barrier between the initial radius and the outer horizon, and its trajectory starts within 1e-4 of the initial r and theta, exactly and with the initial dr/dlambda and dtheta/dlambda when the point is at least 1e-4 away from the turning points.", "quantifier": "all initial positions and velocities", "why_tests_cant": "totality and correct classification over a continuum of initial data, across all three root configurations", "anchors": ["kerrgeopy/orbit.py:Orbit.__init__", "kerrgeopy/initial_conditions.py:is_stable", "kerrgeopy/initial_conditions.py:stable_orbit_initial_phases", "kerrgeopy/initial_conditions.py:plunging_orbit_initial_phases"]}
{"id": "C68", "title": "Stable trajectories have the symmetries of the spacetime", "statement": "For every stable orbit with finite frequencies and all initial phases: adding constants to the initial t and phi shifts t and phi and nothing else; negating all four phases gives the time-reversed trajectory; adding pi to the polar phase reflects the orbit in the equatorial plane and leaves t, r, phi unchanged; advancing the radial and polar phases by s times the Mino frequencies gives the same orbit started at Mino time s; adding whole turns to the phases changes nothing.", "quantifier": "all spins, orbital parameters, initial phases and Mino times", "why_tests_cant": "identities between functions, for all phases and all times", "anchors": ["kerrgeopy/stable.py:stable_trajectory", "kerrgeopy/stable.py:radial_solutions", "kerrgeopy/stable.py:polar_solutions"]}
{"id": "C69", "title": "Circular equatorial orbits have the textbook constants and frequencies", "statement": "For e=0 and x=+-1, whenever the frequencies are finite: E and L are the Bardeen-Press-Teukolsky expressions, Omega_phi = +-1/(p^(3/2) +- a) (Kepler's third law), Omega_r^2 and Omega_theta^2 are the epicyclic frequencies Omega_phi^2 (1-6/p+-8a/p^(3/2)-3a^2/p^2) and Omega_phi^2 (1-+4a/p^(3/2)+3a^2/p^2); r and theta are constant along the trajectory (r for every e=0 orbit, theta for every equatorial one) and t, phi grow linearly at the rates Gamma and Upsilon_phi.", "quantifier": "all spins (both signs), radii and senses of rotation; all phases and times", "why_tests_cant": "closed forms over a continuum of radii and spins, against elliptic-integral code in its degenerate limit", "anchors": ["kerrgeopy/constants.py:energy", "kerrgeopy/constants.py:angular_momentum", "kerrgeopy/frequencies.py:fundamental_frequencies", "kerrgeopy/frequencies.py:mino_frequencies", "kerrgeopy/stable.py:stable_trajectory"]}
{"id": "C70", "title": "Schwarzschild orbits: closed-form frequencies and no precession of the orbital plane", "statement": "For a=0, whenever the frequencies are finite: Upsilon_theta = p/sqrt(p-3-e^2), Upsilon_phi = +-Upsilon_theta with the sign of x, Upsilon_r = (pi/2) sqrt(p(p-6+2e)/(p-3-e^2)) / K(4e/(p-6+2e)), and over every polar period the azimuth advances by exactly 2 pi.", "quantifier": "all p, e, x, phases and times", "why_tests_cant": "closed forms over a continuum of parameters", "anchors": ["kerrgeopy/frequencies.py:mino_frequencies", "kerrgeopy/frequencies.py:phi_frequency", "kerrgeopy/stable.py:stable_trajectory"]}
{"id": "C71", "title": "plot draws the trajectory", "statement": "For every orbit and every interval: plot(lambda0, lambda1, point_density=d) draws a chain of n-1 segments (n = int((lambda1-lambda0)d)) through the Cartesian positions returned by trajectory() at n equally spaced Mino times, the first at lambda0 and the last at lambda1, puts the body marker on the last one, gives a segment the width 0.1 + lw exp(-age/tau), between 0.1 and 0.1+lw and growing towards the body, draws the black hole as a sphere of the horizon's radius and chooses axis limits containing all of it. For bound orbits every point lies between the periapsis and apoapsis spheres and outside the black hole, and is masked exactly when the black hole is in front of it. n=0 raises IndexError, n<0 ValueError.", "quantifier": "all orbits, intervals, densities, phases and camera angles", "why_tests_cant": "ranges over every orbit and every sampling of it; a figure shows one case", "anchors": ["kerrgeopy/orbit.py:Orbit.plot", "kerrgeopy/orbit.py:Orbit.is_visible"]}
{"id": "C72", "title": "animate shows the orbit in every frame", "statement": "For an integer tail_length, speed s/8 and n = int(240(lambda1-lambda0)) samples the film has int(n/s) frames; frame i has the body at sample j = s i, seen from the camera angles and axis limit of that Mino time, followed by a tail through the last min(j, 240 tail_length) samples, masked as by is_visible, whose opacity is 0.1 + 0.9 exp(-age/tau); the initial axis cube contains every sampled position and the black hole; at 30 frames per second Mino time advances at `speed` per second times n/(n-1).", "quantifier": "all orbits, intervals, speeds, tails, camera functions and frames", "why_tests_cant": "index arithmetic over every frame of every film", "anchors": ["kerrgeopy/orbit.py:Orbit.animate"]}
{"id": "C73", "title": "animate accepts every tail_length", "statement": "animate works for every tail_length of the documented type (double).", "quantifier": "all tail lengths", "why_tests_cant": "the failure depends on the number type and on the length of the film, not only on the value", "anchors": ["kerrgeopy/orbit.py:Orbit.animate"]}
{"id": "C74", "title": "precomputed values may be passed to stable_orbit_initial_phases", "statement": "Passing the orbit's own constants, radial roots, upsilon_r or upsilon_theta to stable_orbit_initial_phases gives the same phases as letting it compute them. True for constants, roots and upsilon_r of every orbit and for upsilon_theta of prograde orbits; for retrograde orbits the upsilon_theta that mino_frequencies returns is the absolute value while the internally computed one carries the sign of L, and the returned phase starts the trajectory at the mirror image pi - theta0 of the supplied point.", "quantifier": "all bound orbits, all initial data on them, all combinations of the optional arguments", "why_tests_cant": "ranges over all initial data and all combinations of cached arguments; the tests never pass them", "anchors": ["kerrgeopy/initial_conditions.py:stable_orbit_initial_phases", "kerrgeopy/frequencies.py:_theta_frequency_from_constants"]}
{"id": "C75", "title": "Orbit follows the supplied four-velocity in either direction of time", "statement": "An Orbit created from a timelike normalised initial velocity has a trajectory with that velocity (or is refused). False of the code for past-directed velocities: reversing the velocity of a particle on any bound orbit (a,p,e,x) passes the checks and, when (a,p,e,-x) is stable too, gives an Orbit with energy -E whose parameters (a,p,e,-x) belong to another geodesic with positive energy and whose coordinate time increases although u^t<0 was supplied.", "quantifier": "all bound orbits and all initial data on them", "why_tests_cant": "the tests only use future-directed data; the failure is systematic over an open set of inputs", "anchors": ["kerrgeopy/orbit.py:Orbit.__init__", "kerrgeopy/constants.py:apex_from_constants"]}
{"id": "C76", "title": "equatorial initial data reproduce their trajectory for every spin including zero", "statement": "For every a >= 0 (Schwarzschild included) and every initial position and velocity on a stable orbit that lies within 1e-4 of a polar turning point - in particular for all equatorial data - Orbit(a, position, velocity) is created as stable with the orbit's constants and parameters, and its trajectory starts at the given t, phi and (away from the radial turning points) r with exactly the given velocity. For equatorial data all four coordinates and all four velocity components are reproduced.", "quantifier": "all a >= 0, all orbits, all initial data near a polar turning point", "why_tests_cant": "ranges over all initial data; the a=0 case goes through different branches from a>0", "anchors": ["kerrgeopy/orbit.py:Orbit.__init__", "kerrgeopy/initial_conditions.py:stable_orbit_initial_phases"]}
{"id": "C77", "title": "the periapsis advances on every bound orbit", "statement": "For every stable orbit the radial frequency is smaller than the polar frequency, 0 < upsilon_r < upsilon_theta and 0 < omega_r < omega_theta; in Schwarzschild spacetime also upsilon_r < |upsilon_phi|, so the particle goes around more than once between two passages of periapsis.", "quantifier": "all accepted orbital parameters", "why_tests_cant": "an inequality between elliptic integrals over the whole parameter space", "anchors": ["kerrgeopy/frequencies.py:mino_frequencies", "kerrgeopy/frequencies.py:fundamental_frequencies"]}
{"id": "C78", "title": "a rotating hole drags the nodes of every orbit forward", "statement": "For every stable orbit around a hole with spin a > 0: on prograde orbits (x > 0) upsilon_phi > upsilon_theta, on retrograde orbits (x < 0) upsilon_phi > - upsilon_theta, and the same for the coordinate-time frequencies omega. The orbital plane precesses in the direction of rotation of the hole (Lense-Thirring), never backwards.", "quantifier": "all accepted orbital parameters with a > 0", "why_tests_cant": "an inequality between elliptic integrals of the first and third kind over the whole parameter space, tight as a -> 0", "anchors": ["kerrgeopy/frequencies.py:mino_frequencies", "kerrgeopy/frequencies.py:fundamental_frequencies"]}
{"id": "C79", "title": "the returned trajectories are geodesics of the returned metric", "statement": "Every trajectory returned by stable_trajectory (a >= 0) is a timelike geodesic of the metric KerrSpacetime(a).metric at every Mino time: with proper time d tau = Sigma d lambda, the four-velocity has norm -1 and the second-order geodesic equations hold. The same holds for every trajectory returned by plunging_trajectory away from the horizons (and, for plunges with two complex radial roots, away from the points half a radial period from a horizon; for equatorial plunges away from r = 0).", "quantifier": "all accepted orbital parameters and initial phases, all constants of motion of plunging orbits, all Mino times", "why_tests_cant": "a differential equation at every point of every trajectory; the metric and the trajectories are computed by unrelated code paths", "anchors": ["kerrgeopy/spacetime.py:KerrSpacetime.metric", "kerrgeopy/stable.py:stable_trajectory", "kerrgeopy/plunge.py:plunging_trajectory"]}
{"id": "C80", "title": "the equatorial separatrix has the textbook values", "statement": "For every spin 0 <= a < 1, separatrix(a,0,1) and separatrix(a,0,-1) are the prograde and retrograde innermost stable circular orbit of Bardeen, Press & Teukolsky (the Z1, Z2 formula), so circular equatorial orbits are stable exactly outside it; separatrix(a,1,+-1) is twice the radius of the marginally bound orbit 2 -+ a + 2 sqrt(1 -+ a); and for every eccentricity the equatorial separatrix solves (1+e) z^4 - (6+2e) z^2 + 8 a x z - (3-e) a^2 = 0 with z^2 = s/(1+e) the periapsis.", "quantifier": "all spins 0 <= a < 1, all eccentricities 0 <= e <= 1", "why_tests_cant": "closed-form values of a root-finder over a continuum of spins", "anchors": ["kerrgeopy/constants.py:separatrix", "kerrgeopy/constants.py:is_stable"]}
{"id": "C81", "title": "the numerical four-velocity converges to the analytic one", "statement": "For every StableOrbit with defined frequencies, orbit.numerical_four_velocity(dx) is defined for every step dx != 0 and tends, component by component and at every Mino time, to orbit.four_velocity() as dx -> 0; the norm computed from it tends to -1.", "quantifier": "all accepted orbital parameters (both signs of a), all initial phases, all Mino times", "why_tests_cant": "a limit, at every time of every orbit", "anchors": ["kerrgeopy/orbit.py:Orbit.numerical_four_velocity", "kerrgeopy/orbit.py:Orbit._numerical_four_velocity_norm", "kerrgeopy/stable.py:StableOrbit"]}
{"id": "C82", "title": "the four frequency functions agree with mino_frequencies", "statement": "r_frequency, theta_frequency, phi_frequency and gamma, called on their own with only (a,p,e,x), return the four numbers mino_frequencies returns for the same orbit. What holds: all four do, except that theta_frequency returns the polar frequency with a sign: that of L when a != 0 or e = 0, but always positive when a = 0 and e != 0; so theta_frequency and mino_frequencies disagree for retrograde orbits around rotating holes.", "quantifier": "all accepted orbital parameters with defined frequencies (both signs of a)", "why_tests_cant": "an identity over all orbital parameters; the sign depends on which branch is taken", "anchors": ["kerrgeopy/frequencies.py:r_frequency", "kerrgeopy/frequencies.py:theta_frequency", "kerrgeopy/frequencies.py:phi_frequency", "kerrgeopy/frequencies.py:gamma", "kerrgeopy/frequencies.py:mino_frequencies"]}
{"id": "C83", "title": "frequencies from constants and roots agree with frequencies from (a,p,e,x)", "statement": "For 0 <= a, computing the Mino or fundamental frequencies from the constants of motion and the radial and polar roots of an orbit (as Orbit does when it is built from an initial position and velocity) gives exactly what mino_frequencies and fundamental_frequencies give for (a,p,e,x).", "quantifier": "all accepted orbital parameters with a >= 0 and defined frequencies", "why_tests_cant": "two code paths with separate special cases, equal for all parameters", "anchors": ["kerrgeopy/frequencies.py:_mino_frequencies_from_constants", "kerrgeopy/frequencies.py:_fundamental_frequencies_from_constants", "kerrgeopy/frequencies.py:mino_frequencies", "kerrgeopy/orbit.py:Orbit.__init__"]}
{"id": "C84", "title": "the constants of motion depend continuously on the orbital parameters", "statement": "If accepted parameters (a_n,p_n,e_n,x_n) tend to accepted (a,p,e,x), energy and Carter constant tend to those of the limit, whichever special cases (a=0, e=0, e=1, x=0, x=+-1) the code uses along the way or at the limit; so does the angular momentum, except that it is reversed when zero spin is approached through negative spins.", "quantifier": "all convergent sequences of accepted parameters (both signs of a) with finite constants", "why_tests_cant": "limits; the special-case branches meet the general formula only on sets of measure zero", "anchors": ["kerrgeopy/constants.py:energy", "kerrgeopy/constants.py:angular_momentum", "kerrgeopy/constants.py:carter_constant", "kerrgeopy/constants.py:constants_of_motion"]}
{"id": "C85", "title": "the separatrix is continuous, acceptance is robust, and rotation orders the equatorial separatrix", "statement": "separatrix(a,e,x) is continuous on 0<=a<1, 0<=e<1, -1<=x<=1, across all special cases it uses (a=0, x=0, |x|=1); hence an accepted orbit stays accepted under every small enough change of its parameters; and for equatorial orbits a larger spin strictly lowers the prograde and strictly raises the retrograde separatrix at every eccentricity.", "quantifier": "all convergent sequences of parameters in range with e<1; all spins a<a' and eccentricities", "why_tests_cant": "limits and strict monotonicity over a continuum; the special cases are measure-zero sets", "anchors": ["kerrgeopy/constants.py:separatrix", "kerrgeopy/constants.py:is_stable"]}
{"id": "C86", "title": "the frequencies depend continuously on the orbital parameters", "statement": "If accepted parameters (a_n,p_n,e_n,x_n) with finite Mino frequencies tend to accepted (a,p,e,x) with finite Mino frequencies, then all four Mino frequencies and all three fundamental frequencies tend to those of the limit, whichever special cases (a=0, e=0, x=+-1) are used on the way or at the limit (zero spin approached through non-negative spins).", "quantifier": "all convergent sequences of bound non-polar parameters, both signs of spin", "why_tests_cant": "limits; a wrong special-case branch shows only on a measure-zero set", "anchors": ["kerrgeopy/frequencies.py:mino_frequencies", "kerrgeopy/frequencies.py:fundamental_frequencies", "kerrgeopy/frequencies.py:gamma", "kerrgeopy/frequencies.py:phi_frequency"]}
{"id": "C87", "title": "apex_from_constants inverts constants_of_motion for spins of either sign", "statement": "For every accepted orbit, of either sign of the spin, apex_from_constants(a, *constants_of_motion(a,p,e,x)) returns (a,p,e,x).", "quantifier": "all accepted bound orbits with a<0 (a>=0 is C17)", "why_tests_cant": "universal over parameters; the two functions use different conventions for negative spin", "anchors": ["kerrgeopy/constants.py:apex_from_constants", "kerrgeopy/constants.py:constants_of_motion"]}
{"id": "C88", "title": "a plunge reaches the outer horizon in finite Mino time and infinite coordinate time", "statement": "Whenever a plunging trajectory is outside the outer horizon 1+sqrt(1-a^2) at some Mino time, there is a next finite Mino time at which its radius equals the horizon radius, staying outside until then; and the coordinate time returned by the trajectory is defined and strictly monotone before that time and tends to +infinity (to -infinity for a past-directed motion) as it is approached.", "quantifier": "all inclined plunges (with four real radial roots or a complex pair) of non-zero spin, all initial phases, all Mino times outside the horizon", "why_tests_cant": "a divergence and its sign can only be proved; numerically it is a large number next to a nan", "anchors": ["kerrgeopy/plunge.py:PlungingOrbit.trajectory", "kerrgeopy/plunge.py:plunging_trajectory", "kerrgeopy/plunge.py:plunging_radial_solutions_complex"]}
{"id": "C89", "title": "at the separatrix the radial motion stops", "statement": "Along any sequence of stable orbits (bound, non-negative spin) whose parameters (a,p,e,x) converge to a point on the separatrix, i.e. p tends to separatrix(a,e,x), the third radial root tends to the periapsis while the apoapsis stays away from it (for e>0), and the radial frequencies in Mino time and in coordinate time are positive and tend to 0.", "quantifier": "all convergent sequences of accepted orbits whose limit is on the separatrix with 0<=a<1, 0<=e<1, -1<=x<=1", "why_tests_cant": "a limit (a logarithmic divergence of the period) over all approaches to the separatrix", "anchors": ["kerrgeopy/frequencies.py:r_frequency", "kerrgeopy/frequencies.py:mino_frequencies", "kerrgeopy/frequencies.py:fundamental_frequencies", "kerrgeopy/constants.py:separatrix", "kerrgeopy/constants.py:stable_radial_roots"]}
{"id": "C90", "title": "sharp bounds on the energy and angular momentum of bound orbits", "statement": "Every accepted orbit with e<1 has E^2 > 1 - 2/(3(1+sqrt(1-a^2))) >= 1/3 (so at most 42.3 percent of the rest mass is ever radiated) and L^2+Q > 4/3, whatever the sign of the spin; and the constants 1/3 and 4/3 are the best possible: accepted circular orbits come arbitrarily close to both.", "quantifier": "all (a,p,e,x) for which constants_of_motion returns finite constants with e<1; for sharpness all tolerances eps>0", "why_tests_cant": "an inequality over a four-dimensional domain whose infimum is not attained", "anchors": ["kerrgeopy/constants.py:constants_of_motion", "kerrgeopy/constants.py:energy", "kerrgeopy/constants.py:angular_momentum", "kerrgeopy/constants.py:separatrix"]}
{"id": "C91", "title": "at the horizon every plunge corotates with the hole", "statement": "As a plunging trajectory reaches the outer horizon r_+ = 1+sqrt(1-a^2), the returned azimuth and coordinate time both diverge but phi - t a/(2 r_+) tends to a finite limit, and hence phi/t tends to a/(2 r_+), the angular velocity of the horizon, whatever the constants of motion.", "quantifier": "all inclined plunges (with four real radial roots or a complex pair) of non-zero spin, all initial phases, every crossing from outside", "why_tests_cant": "the limit of a difference of two divergent quantities; floating point loses all digits there", "anchors": ["kerrgeopy/plunge.py:plunging_trajectory", "kerrgeopy/plunge.py:plunging_radial_solutions_complex", "kerrgeopy/plunge.py:PlungingOrbit.trajectory"]}
{"id": "C92", "title": "KerrSpacetime decides which orbits exist", "statement": "For a spin in [0,1), KerrSpacetime(a).separatrix(e,x) is the threshold in p above which KerrSpacetime(a).is_stable(p,e,x) is True, and is_stable is True exactly when constants_of_motion(a,p,e,x) does not raise; such an orbit has its periapsis outside the outer_horizon attribute. (For a negative spin both methods raise ValueError although constants_of_motion accepts the orbit.)", "quantifier": "all 0<=a<1, 0<=e<=1, -1<=x<=1 and all p; all negative spins for the second part", "why_tests_cant": "equivalence of two deciders over a four-dimensional domain", "anchors": ["kerrgeopy/spacetime.py:KerrSpacetime.separatrix", "kerrgeopy/spacetime.py:KerrSpacetime.is_stable", "kerrgeopy/spacetime.py:KerrSpacetime.__init__", "kerrgeopy/constants.py:constants_of_motion"]}
{"id": "C93", "title": "Kepler limit of the frequencies", "statement": "For any sequence of accepted orbits whose semilatus rectum grows without bound while the eccentricity converges to some e<1 (spins and inclinations may vary arbitrarily), the three Mino frequencies divided by sqrt(p) tend to 1 (the azimuthal one in absolute value), Gamma/p^2 tends to (1-e^2)^(-3/2), and the frequencies returned by fundamental_frequencies satisfy Kepler's third law Omega^2 A^3 -> 1 with A = p/(1-e^2), in each of the three coordinates.", "quantifier": "all sequences of parameters with 0<=a, p -> infinity, e -> e0 < 1", "why_tests_cant": "a limit, uniform in spin and inclination; far orbits lose precision numerically", "anchors": ["kerrgeopy/frequencies.py:mino_frequencies", "kerrgeopy/frequencies.py:fundamental_frequencies", "kerrgeopy/frequencies.py:_gamma"]}
{"id": "C94", "title": "the frequencies of a plunge are the frequencies of its motion", "statement": "For a plunging orbit (complex or four real radial roots) plunging_mino_frequencies(a,E,L,Q) = (Upsilon_r, Upsilon_theta) are the true Mino frequencies of the returned trajectory: r has period 2pi/Upsilon_r and is at its inner turning point exactly when Upsilon_r*lambda+q_r is a multiple of 2pi, theta is reflected in the equatorial plane after pi/Upsilon_theta and periodic with 2pi/Upsilon_theta. Advancing the initial phases by Upsilon*s moves along the same orbit, reversing both phases runs it backwards, and adding pi to the polar phase reflects it.", "quantifier": "all plunging parameters with a and L nonzero, E^2<1, Q>=0, all initial phases, all Mino times", "why_tests_cant": "continuous families of trajectories and all times", "anchors": ["kerrgeopy/frequencies.py:plunging_mino_frequencies", "kerrgeopy/plunge.py:plunging_trajectory", "kerrgeopy/plunge.py:plunging_radial_solutions_complex", "kerrgeopy/plunge.py:plunging_polar_solutions"]}
{"id": "C95", "title": "circular equatorial orbits: E and |L| grow outwards and dE = Omega dL", "statement": "For a fixed spin and direction (x = 1 or -1), constants_of_motion(a,p,0,x) is strictly monotone over all accepted p: a larger p gives a larger energy and a larger |L|, so no two accepted circular equatorial orbits share an energy or an angular momentum. Energy and angular momentum are differentiable in p and dE/dp = Omega_phi dL/dp with Omega_phi the azimuthal frequency returned by fundamental_frequencies (the first law for a test particle).", "quantifier": "all spins of either sign, both directions, all accepted p (and all sequences of accepted p converging to p)", "why_tests_cant": "monotonicity over a continuum, a limit, and a relation between two independent code paths (constants.py and frequencies.py)", "anchors": ["kerrgeopy/constants.py:constants_of_motion", "kerrgeopy/constants.py:energy", "kerrgeopy/constants.py:angular_momentum", "kerrgeopy/frequencies.py:fundamental_frequencies"]}
{"id": "C96", "title": "resonant orbits close, non-resonant orbits fill their box", "statement": "If T is at once a whole number of radial and of polar Mino periods (2pi/Upsilon_r, 2pi/Upsilon_theta as returned by mino_frequencies), the trajectory repeats after T: r and theta return and t and phi have advanced by exactly Gamma*T and Upsilon_phi*T. If Upsilon_r and Upsilon_theta satisfy no integer relation, the trajectory is dense in its box: for every radius r0 in [p/(1+e),p/(1-e)], every polar angle th0 in the range of the orbit, every tolerance and every time, at some later time r = r0 exactly and theta is within the tolerance of th0.", "quantifier": "all stable orbits with finite frequencies (a>=0), all initial phases, all Mino times", "why_tests_cant": "density of an infinite trajectory and the arithmetic nature of a frequency ratio", "anchors": ["kerrgeopy/stable.py:stable_trajectory", "kerrgeopy/frequencies.py:mino_frequencies"]}
{"id": "C97", "title": "the orbits without finite frequencies are removable", "statement": "At every bound orbit with finite constants of motion (e<1, x not 0), including the isolated ones where mino_frequencies returns no finite numbers because r+ makes the phi formula 0/0, the frequencies of the neighbouring orbits converge: there are four numbers, with the radial and the polar one positive, which are the limit of the frequencies along every sequence of orbits tending to it on which frequencies are finite. The limit does not depend on the sequence.", "quantifier": "all bound orbits with finite constants and all sequences of orbits tending to them", "why_tests_cant": "a limit at points where the program itself returns no number", "anchors": ["kerrgeopy/frequencies.py:mino_frequencies", "kerrgeopy/frequencies.py:phi_frequency", "kerrgeopy/frequencies.py:gamma"]}
{"id": "C98", "title": "animate's component panels and label agree with the orbit", "statement": "With plot_components=True, animate first draws t, r, theta, phi over the whole sampled interval; in frame i the four panels show exactly the samples before the one at which the body is drawn (0 .. s*i-1, s = int(8*speed)), of the same trajectory as the 3d panel; the label gives a, p, e, x for bound orbits and a, E, L, Q for plunging ones, and the Mino time of the body. For a StableOrbit created with spin a the label shows |a| and x with the sign of a.", "quantifier": "all orbits with a defined trajectory, intervals, speeds >= 1/8, frames", "why_tests_cant": "every frame of every interval and speed", "anchors": ["kerrgeopy/orbit.py:Orbit.animate"]}
{"id": "C99", "title": "trajectories depend continuously on the orbit and on the initial phases", "statement": "If the parameters (a,p,e,x) and the initial phases of a sequence of bound orbits with a>=0 converge to those of a bound orbit, all with finite frequencies, then the trajectories t, r, theta, phi returned for the sequence converge to the trajectory of the limit, uniformly on every bounded interval of Mino time.", "quantifier": "all convergent sequences of orbits and phases (a>=0), all bounded intervals of Mino time", "why_tests_cant": "a limit over arbitrary sequences, uniform over a continuum of times; branch switches of the code (e=0, a=0, x=+-1) lie on the way", "anchors": ["kerrgeopy/stable.py:stable_trajectory", "kerrgeopy/stable.py:radial_solutions", "kerrgeopy/stable.py:polar_solutions"]}
{"id": "C100", "title": "spherical and equatorial orbits have the epicyclic frequencies", "statement": "For a spherical orbit (e=0, any inclination) the radius p is a double root of the radial potential of the returned constants and Upsilon_r is the frequency of small radial oscillations: R''(p) = -2 Upsilon_r^2. For an equatorial orbit (x=1 or -1, any eccentricity) Upsilon_theta is the frequency of small oscillations out of the plane: Theta''(pi/2) = -2 Upsilon_theta^2, and Upsilon_theta^2 = L^2 + a^2(1-E^2).", "quantifier": "all spherical and all equatorial bound orbits with finite frequencies, spins of either sign", "why_tests_cant": "an identity between two independent formulas over a continuum of orbits", "anchors": ["kerrgeopy/frequencies.py:mino_frequencies", "kerrgeopy/frequencies.py:r_frequency", "kerrgeopy/frequencies.py:theta_frequency", "kerrgeopy/constants.py:constants_of_motion"]}
{"id": "C101", "title": "Schwarzschild orbits are planar great circles swept at constant Mino rate", "statement": "For a=0 the direction (sin theta cos phi, sin theta sin phi, cos theta) of the returned trajectory is cos(Upsilon_theta*lambda) u + sin(Upsilon_theta*lambda) v for two fixed orthonormal vectors u, v; the particle never leaves the plane they span, and the cosine of the inclination of the plane (the z component of u x v) is x, sign included.", "quantifier": "all bound Schwarzschild orbits with finite frequencies, all phases, all Mino times", "why_tests_cant": "an identity at every time of every orbit", "anchors": ["kerrgeopy/stable.py:stable_trajectory", "kerrgeopy/stable.py:polar_solutions", "kerrgeopy/frequencies.py:theta_frequency"]}
{"id": "C102", "title": "The radius never changes faster than light, so radial periods exceed the light travel time", "statement": "Along every bound trajectory |r(m)-r(l)| < t(m)-t(l) for Mino times l<m; hence fundamental_frequencies returns a radial frequency with 2*pi/Omega_r >= 2*(p/(1-e) - p/(1+e)), which forces Omega_r to 0 as e tends to 1.", "quantifier": "all bound orbits with finite frequencies and 0<=a, all phases, all pairs of times", "why_tests_cant": "an inequality at every pair of times of every orbit", "anchors": ["kerrgeopy/stable.py:stable_trajectory", "kerrgeopy/frequencies.py:fundamental_frequencies"]}
{"id": "C103", "title": "Clocks outside the hole run slow", "statement": "Every four-velocity that norm values at -1 outside the outer horizon has |u^t| > 1, more precisely (u^t)^2 >= ((r^2+a^2)^2 - a^2 Delta sin^2 theta)/(Sigma Delta) with equality for the zero-angular-momentum observer; the analytic four-velocity of every bound orbit has u^t > 1 and the coordinate time between two events on it exceeds the proper time, the Mino-time integral of r^2 + a^2 cos^2 theta.", "quantifier": "all spins |a|<=1, all points outside the outer horizon, all four-velocities; all bound orbits with finite frequencies, 0<=a", "why_tests_cant": "an inequality over all points and velocities", "anchors": ["kerrgeopy/spacetime.py:KerrSpacetime.norm", "kerrgeopy/spacetime.py:KerrSpacetime.four_velocity", "kerrgeopy/stable.py:stable_trajectory"]}
{"id": "C104", "title": "Inside the ergosphere nothing stands still; outside it energy is positive", "statement": "Inside the ergosphere (and outside the horizon) every four-velocity with norm -1 has a*u^phi*u^t > 0; Orbit raises ValueError for every initial velocity violating this; every bound orbit, prograde or retrograde, has increasing phi while in the ergosphere (a>=0). Outside the ergosphere constants_from_initial_conditions returns an energy with the sign of u^t.", "quantifier": "all spins |a|<=1, all points outside the outer horizon, all velocities; all bound orbits with finite frequencies, 0<=a, all times", "why_tests_cant": "inequalities over all points and velocities", "anchors": ["kerrgeopy/spacetime.py:KerrSpacetime.norm", "kerrgeopy/orbit.py:Orbit.__init__", "kerrgeopy/initial_conditions.py:constants_from_initial_conditions", "kerrgeopy/stable.py:stable_trajectory"]}
{"id": "C105", "title": "Initial time and azimuth are pure offsets of every trajectory", "statement": "Changing only the initial time and azimuth phases of stable_trajectory or plunging_trajectory (time in natural units) adds exactly these changes to t and phi at every Mino time and leaves r and theta unchanged; if the call raises an error or a coordinate is undefined at some time, the same happens with the changed phases.", "quantifier": "all parameters (accepted or not), all masses and distance units, all phases and offsets, all Mino times including those where a coordinate is undefined; no hypothesis on the special functions", "why_tests_cant": "holds for all parameters, including error outcomes", "anchors": ["kerrgeopy/stable.py:stable_trajectory", "kerrgeopy/plunge.py:plunging_trajectory", "kerrgeopy/plunge.py:_complex_plunge_trajectory", "kerrgeopy/plunge.py:_real_plunge_trajectory"]}
{"id": "C106", "title": "The separatrix decreases strictly from retrograde to prograde inclinations", "statement": "For 0<a<1 and e<1, separatrix(a,e,x) is strictly decreasing in x on [-1,1]; the equatorial prograde and retrograde separatrices bound all inclined ones; an orbit accepted by is_stable at inclination x is accepted at every more prograde inclination.", "quantifier": "all spins 0<a<1, eccentricities 0<=e<1 and pairs of inclinations", "why_tests_cant": "monotonicity over a continuum of a root of a degree-12 polynomial", "anchors": ["kerrgeopy/constants.py:separatrix", "kerrgeopy/constants.py:is_stable", "kerrgeopy/constants.py:_S"]}
{"id": "C107", "title": "The separatrix moves strictly outwards as the eccentricity grows", "statement": "For 0<=a<1 and every inclination, separatrix(a,e,x) is strictly increasing in e on [0,1); an orbit accepted by is_stable is accepted at the same p with every smaller eccentricity; at or below the circular separatrix of an inclination is_stable refuses every eccentricity.", "quantifier": "all spins 0<=a<1, inclinations -1<=x<=1 and pairs of eccentricities in [0,1)", "why_tests_cant": "monotonicity over a continuum of a root of a degree-12 polynomial", "anchors": ["kerrgeopy/constants.py:separatrix", "kerrgeopy/constants.py:is_stable", "kerrgeopy/constants.py:_S"]}
{"id": "C108", "title": "Bounds on the separatrix valid for every spin and inclination", "statement": "For 0<=a<1 and every inclination, 1+e < separatrix(a,e,x) < 5+e+4 sqrt(1+e), so is_stable refuses every p<=1+e and accepts every p>=5+e+4 sqrt(1+e) (in particular every p>=12); both bounds are sharp. For 0<a<1 and polar or prograde inclinations the separatrix is below its Schwarzschild value 6+2e.", "quantifier": "all spins 0<=a<1, eccentricities 0<=e<1, inclinations -1<=x<=1 and all p", "why_tests_cant": "bounds uniform over a three-parameter continuum of roots", "anchors": ["kerrgeopy/constants.py:separatrix", "kerrgeopy/constants.py:is_stable"]}
{"id": "C109", "title": "Faster rotation lets every polar or prograde orbit come closer", "statement": "For every inclination 0<=x<=1 the separatrix is strictly decreasing in the spin on [0,1); an orbit accepted at one spin is accepted at every larger spin below 1.", "quantifier": "all pairs of spins in [0,1), eccentricities 0<=e<1 and inclinations 0<=x<=1", "why_tests_cant": "monotonicity over a continuum", "anchors": ["kerrgeopy/constants.py:separatrix", "kerrgeopy/constants.py:is_stable"]}
{"id": "C110", "title": "Critical inclination, eccentricity and spin", "statement": "For p strictly between the prograde and retrograde equatorial separatrices there is exactly one inclination whose separatrix is p, and is_stable accepts exactly the more prograde ones; for p=6+2e it is retrograde. Likewise there is one critical eccentricity (exactly the rounder orbits are accepted) and, for polar and prograde orbits, one critical spin (exactly the faster holes accept the orbit).", "quantifier": "all parameters with p between the end values of the separatrix", "why_tests_cant": "existence and an equivalence over a continuum of parameters", "anchors": ["kerrgeopy/constants.py:separatrix", "kerrgeopy/constants.py:is_stable"]}
{"id": "C111", "title": "Every resonance exists; in Schwarzschild every closed orbit exists", "statement": "For every retrograde or Schwarzschild (a,e,x) and every ratio rho>1 there is a p above the separatrix with Upsilon_theta = rho Upsilon_r; for integers 0<j<k there is a p and a Mino time after which r and theta of every trajectory repeat, t and phi having advanced by Gamma and Upsilon_phi times it; in Schwarzschild phi advances by exactly k whole turns, so the orbit closes in space.", "quantifier": "all 0<=a<1 with a=0 or x<0, x<>0, 0<=e<1, all rho>1, all integers 0<j<k, all initial phases", "why_tests_cant": "existence for every real ratio, from limits at the separatrix and at infinity", "anchors": ["kerrgeopy/frequencies.py:mino_frequencies", "kerrgeopy/stable.py:stable_trajectory", "kerrgeopy/constants.py:separatrix"]}
{"id": "C112", "title": "Schwarzschild orbits: energy, angular momentum and periapsis advance are monotonic", "statement": "Around a non-rotating hole: a wider orbit (larger p, same e and x) has more energy (if bound), more |L| and more Q; a more eccentric one (same p) too; Upsilon_theta/Upsilon_r is (2/pi) times the integral of 1/sqrt(1-(6-2 e cos 2chi)/p) over a quarter period, strictly decreases with p and strictly increases with e, lies between the circular value 1/sqrt(1-6/p) and 1/sqrt(1-(6+2e)/p), and obeys Einstein's perihelion formula: the advance per orbit is at least 6 pi/p and exceeds it by at most 128 pi/p^2 (p>=16); at most one p realises a given periapsis advance for a given e.", "quantifier": "all pairs of orbits with a=0 accepted by constants_of_motion (0<=e<=1) resp. mino_frequencies (0<=e<1)", "why_tests_cant": "strict inequalities for every pair of real parameters, about complete elliptic integrals", "anchors": ["kerrgeopy/constants.py:constants_of_motion", "kerrgeopy/frequencies.py:mino_frequencies"]}
{"id": "C113", "title": "Einstein and Lense-Thirring precession of circular equatorial orbits", "statement": "For every circular equatorial orbit of radius p with frequencies, the nodes advance per revolution by 2 pi (1 - Omega_theta/|Omega_phi|) = 4 pi x a / p^(3/2) up to 54 pi a^2/p^2 (Lense-Thirring), and the periapsis by 2 pi (1 - Omega_r/|Omega_phi|) = 6 pi/p - 8 pi x a/p^(3/2) up to 292 pi/p^2; x a > 0 means prograde.", "quantifier": "every spin of either sign, x = 1 or -1, every p for which the frequencies are defined", "why_tests_cant": "quantitative weak-field limit for every spin and radius", "anchors": ["kerrgeopy/frequencies.py:fundamental_frequencies", "kerrgeopy/frequencies.py:mino_frequencies"]}
