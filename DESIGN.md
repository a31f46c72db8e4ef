# Formal model of KerrGeoPy in Rocq/Coq — design

## 1. How the code is modelled

* The Python functions are mirrored branch by branch by Gallina functions that are
  polymorphic in a class `Num T` of arithmetic operations (`theories/Num.v`). Three
  instances exist:
  * `RNum : Num R` — exact real arithmetic, total (x/0 as in Coq's `Rdiv`). Only used
    as the *value* companion of the next instance (`Transfer.v`).
  * `CNum : Num (option R)` — **checked** real arithmetic: division by zero, square
    root of a negative number, arccos/arcsin outside [-1,1], log of a non-positive
    number and every comparison with an undefined number are `None`. A `Some v`
    result certifies that the code computed a finite number without
    `ZeroDivisionError`/`nan`/`inf`. The property theorems about numbers are stated on
    this instance, so none is true because of a totalised operation.
  * `FNum : Num float` (`FloatNum.v`) — Coq's primitive binary64 floats, with which the
    transcription can be run in a scratch file and compared with the repository's own
    reference data. Nothing else depends on this file; it is testing, not proof.
* Exceptions are values: `outcome A := Ret a | Raise exn | Undef` (`Outcome.v`). `Undef`
  is "the branch taken depends on an undefined number"; theorems never conclude
  anything from it.
* Functions of Mino time that the Python code returns as closures are Coq functions in
  the result.
* External libraries are the fields of one class `External T` (`External.v`):
  `scipy.optimize.root_scalar(bracket=...)`, `numpy.polynomial.Polynomial.roots`,
  `scipy.special.{ellipk,ellipe,ellipj,ellipkinc,ellipeinc,elliprf,elliprd,elliprj}`.
  `numpy.linalg.solve` (2x2) is Cramer's rule. What is assumed of an `External R` is
  stated in `ExternalSpec.v` (`root_spec`, `polyroots_spec`) and `SpecElliptic.v`
  (`special_spec`); these are explicit hypotheses of the theorems that need them, and
  `all_specs_satisfiable` (`Props_Elliptic.v`) constructs an instance that meets all of
  them together. On checked numbers the external functions are defined only on the
  domain where scipy documents a finite real value (`checked` in `ExternalSpec.v`).

## 2. What is modelled, what is not

Modelled, function by function, each definition citing file and lines:

| /repo/kerrgeopy | model |
|---|---|
| `units.py` | all of it (`Model_Units.v`) |
| `constants.py` | all of it, with the decorator of `_standardize_params` (`Model_Constants.v`) |
| `frequencies.py` | all of it, with the elliptic wrappers (`Model_Frequencies.v`) |
| `spacetime.py` | `KerrSpacetime` (`Model_Spacetime.v`) |
| `initial_conditions.py` | all of it (`Model_InitialConditions.v`) |
| `stable.py` | functions (`Model_Stable.v`), class `StableOrbit` (`Model_Orbit.v`) |
| `plunge.py` | functions (`Model_Plunge.v`), class `PlungingOrbit` (`Model_Orbit.v`) |
| `orbit.py` | class `Orbit` (`Model_Orbit.v`); `plot` and `animate` up to the data handed to matplotlib, without colours (`Model_Plot.v`); side panels and label of `animate` (`Model_Components.v`) |

Not modelled:

* floating-point rounding: the theorems are about the exact real-number semantics of the
  formulas (consequently: no statement about accuracy, overflow, catastrophic
  cancellation, or termination tolerances of `brentq`);
* numpy broadcasting: parameters and times are scalars (`is_visible` takes a list of points);
* `matplotlib`, `tqdm`, `ffmpeg`: rendering of the segments, markers, limits and camera angles that `plot` and `animate` compute;
* the values of Carlson's functions outside x>=0, y,z>0, p<>0 (for p<0: Cauchy principal value), and of the
  Legendre integrals for m>1 (nan in scipy);
* warnings, docstrings, package metadata.

## 3. Trusted base

* Coq 8.16.1's kernel and `coqc` (no plugin of ours, no kernel check switched off;
  `vm_compute` is used in the reflective polynomial test of `Bernstein.v`/`SepPoly.v`).
* The reading of the Python source: the transcription in `Model_*.v` and the
  specification files `Spec.v`, `SpecElliptic.v`, `ExternalSpec.v`, `Outcome.v`, `Num.v`.
* Hypotheses on scipy/numpy (`root_spec`, `polyroots_spec`, `special_spec`), visible in the
  statements that use them.
* Standard-library axioms, exactly as printed by `Print Assumptions` for each theorem
  (table below). Letters:
  A = `ClassicalDedekindReals.sig_forall_dec`, B = `ClassicalDedekindReals.sig_not_dec`
  (both: the Reals library), C = `Classical_Prop.classic`,
  D = `FunctionalExtensionality.functional_extensionality_dep`,
  E = `ClassicalEpsilon.constructive_indefinite_description` (used for the decidability of
  "lies in the domain" in the checked external functions, and through Coquelicot-style
  choice). No axiom of ours, none of another library. `FloatNum.v` uses the primitive
  float/int63 types of the standard library; no theorem depends on them.

| property | axioms | theorems |
|---|---|---|
| C01 | ABCD | `C01_four_velocity_normalised`, `C01_four_velocity_geodesic_equations` |
| C02 | ABCD | `C02_norm_is_kerr_line_element`, `C02_norm_undefined_on_singularity` |
| C03 | ABCD | `C03_metric`, `C03_lorentzian_signature`, `C03_horizons`, `C03_no_horizon_for_large_spin` |
| C04 | ABCD | `C04_constants_roundtrip` |
| C05 | ABCD | `C05_recovered_constants_are_momenta` |
| C06 | ABCDE | `C06_orbit_checks_velocity`, `C06_singular_points` |
| C07 | ABCD | `C07_allowed_region` |
| C08 | ABCDE | `C08_constants_validation` |
| C09 | ABCDE | `C09_frequency_validation` |
| C10 | ABCDE | `C10_spin_reversal` |
| C11 | ABCDE | `C11_cached_arguments` |
| C12 | ABCDE | `C12_marginally_bound`, `C12_polar`, `C12_equatorial`, `C12_schwarzschild` |
| C13 | ABCDE | `C13_turning_points` |
| C14 | ABCDE | `C14_polar_turning_point`, `C14_theta_min` |
| C15 | ABCDE | `C15_radial_roots`, `C15_roots_defined` |
| C16 | ABCDE | `C16_polar_roots` |
| C17 | ABCDE | `C17_apex_inverts_constants` |
| C18 | ABCDE | `C18_schwarzschild_separatrix` |
| C19 | ABCDE | `C19_separatrix_total`, `C19_separatrix_rejects` |
| C20 | ABCD | `C20_polynomials_agree` |
| C21 | ABCD | `C21_separatrix_is_last_stable`, `C21_double_root_is_separatrix` |
| C22 | ABCDE | `C22_is_stable_above_separatrix`, `C22_upward_closed`, `C22_raises_as_separatrix` |
| C23 | ABCDE | `C23_bound_orbits` |
| C24 | ABCD | `C24_stable_trajectory_start`, `C24_plunging_trajectory_start`, `C24_orbit_trajectory_start` |
| C25 | ABCDE | `C25_bound_motion` |
| C26 | ABCDE | `C26_phases`, `C26_default_start`, `C26_stable_orbit_trajectory` |
| C27 | ABCDE | `C27_periodic`, `C27_deltas_periodic` |
| C28 | ABCDE | `C28_radial_and_polar_equations` |
| C29 | ABCDE | `C29_time_and_azimuth_equations` |
| C30 | ABCDE | `C30_long_time_averages`, `C30_common_period` |
| C31 | ABCDE | `C31_ellipeinc`, `C31_ellippi`, `C31_ellippiinc` |
| C32 | ABCD | `C32_conversions`, `C32_consistency` |
| C33 | ABCD | `C33_mks_consistency`, `C33_stable_trajectory_physical`, `C33_plunging_trajectory_physical` |
| C33 | none | `C33_stable_trajectory_needs_M`, `C33_plunging_trajectory_needs_M`, `C33_units_with_M`, `C33_trajectory_unknown_units`, `C33_mino_frequency_units`, `C33_fundamental_frequency_units`, `C33_constants_units_errors` |
| C33 | AD | `C33_unit_sizes` |
| C34 | ABCD | `C34_actual_values_partial`, `C34_refuted` |
| C35 | none | `C35_fundamental_is_mino_over_gamma`, `C35_from_constants`, `C35_stable_orbit_methods` |
| C36 | ABCDE | `C36_returned_roots`, `C36_total`, `C36_parabolic_refused` |
| C37 | ABCDE | `C37_four_real_roots`, `C37_two_complex_roots`, `C37_real_data_are_classified`, `C37_exception` |
| C38 | ABCDE | `C38_schwarzschild_plunges_refused` |
| C38 | none | `C33_plunging_trajectory_needs_M` |
| C39 | ABCDE | `C39_plunges_are_defined`, `C39_plunge_bounds`, `C39_plunge_phases` |
| C40 | ABCDE | `C40_radial_and_polar_equations`, `C40_polar_parts` |
| C41 | ABCD | `C41_plunging_polar_roots` |
| C42 | ABCD | `C42_exact_on_quartics` |
| C42 | ABCDE | `C42_numerical_four_velocity` |
| C42 | AD | `C42_converges` |
| C43 | ABCDE | `C43_phases_reproduce_initial_conditions`, `C43_orbit_reproduces_initial_conditions` |
| C44 | ABCD | `C44_stable_deltas_partial`, `C44_complex_plunge_deltas_partial` |
| C44 | ABCDE | `C44_refuted` |
| C45 | ABCD | `C45_outside_points_partial`, `C45_single_point_partial`, `C45_refuted` |
| C46 | ABCD | `C46_table_matches_nodes`, `C46_table_total` |
| C47 | none | `C47_frames_in_range`, `C47_zero_speed`, `C47_tail_alpha_length` |
| C48 | ABCDE | `C48_stable_orbit_spin_reversal_partial`, `C48_circular_trajectory_partial`, `C48_refuted`, `C48_refuted_trajectory` |
| C49 | ABCDE | `C49_polar_phase_undefined`, `C49_refuted` |
| C50 | ABCDE | `C50_refuted_angular_momentum`, `C50_refuted_energy` |
| C51 | ABCDE | `C51_four_velocity_is_derivative` |
| C52 | ABCDE | `C50_finite_exactly`, `C50_finite_retrograde`, `C50_finite_far` |
| C53 | ABCDE | `C53_frequencies_exactly`, `C53_refuted` |
| C54 | ABCDE | `C54_every_accepted_orbit` |
| C55 | ABCDE | `C55_restart` |
| C56 | ABCDE | `C56_ellippiinc_principal_value` |
| C57 | ABCDE | `C57_time_and_azimuth_equations` |
| C58 | ABCDE | `C58_radial_and_polar_equations`, `C58_time_and_azimuth_equations`, `C58_refuted_time_at_zero_root`, `C58_equatorial_reaches_zero` |
| C59 | ABCDE | `C59_phases_reproduce_initial_conditions`, `C59_orbit_reproduces_initial_conditions`, `C59_refuted_equatorial` |
| C60 | ABCDE | `C60_four_velocity_is_derivative`, `C60_real_four_velocity_is_derivative` |
| C61 | ABCDE | `C61_plunge_restart`, `C61_real_plunge_restart` |
| C62 | ABCDE | `C62_phases_reproduce_initial_conditions`, `C62_orbit_reproduces_initial_conditions` |
| C63 | ABCDE | `C63_apex_of_bound_constants` |
| C64 | ABCDE | `C64_every_bound_initial_condition` |
| C65 | ABCDE | `C65_time_runs_forward`, `C65_fundamental_frequencies` |
| C66 | ABCDE | `C66_stable_orbit`, `C66_from_constants`, `C66_plunging_orbit` |
| C67 | ABCDE | `C67_every_initial_condition` |
| C68 | ABCDE | `C68_stationary_and_axisymmetric`, `C68_time_reversal`, `C68_equatorial_reflection`, `C68_flow`, `C68_whole_turns` |
| C69 | ABCDE | `C69_degenerate_motion`, `C69_circular_equatorial` |
| C70 | ABCDE | `C70_schwarzschild_frequencies` |
| C71 | ABCD | `C71_widths` |
| C71 | ABCDE | `C71_plot_draws_trajectory`, `C71_bound_orbits`, `C71_reversed_interval`, `C71_short_interval` |
| C71 | AD | `C71_endpoints` |
| C72 | ABCDE | `C72_animate_frames` |
| C72 | AD | `C72_playback_speed` |
| C73 | ABCDE | `C73_float_tail_refuted`, `C72_animate_frames` |
| C74 | ABCDE | `C74_cached_arguments_partial`, `C74_refuted_retrograde` |
| C75 | ABCDE | `C75_past_directed_refuted`, `C43_orbit_reproduces_initial_conditions` |
| C76 | ABCDE | `C76_polar_turning_point`, `C76_equatorial_data` |
| C77 | ABCDE | `C77_periapsis_advances`, `C77_schwarzschild` |
| C78 | ABCDE | `C78_nodes_dragged_forward`, `C78_case` |
| C79 | ABCDE | `C79_stable_orbits_are_geodesics`, `C79_complex_plunges_are_geodesics`, `C79_real_plunges_are_geodesics`, `C79_case` |
| C80 | ABCDE | `C80_isco`, `C80_marginally_bound`, `C80_equatorial`, `C80_case` |
| C81 | ABCDE | `C81_numerical_velocity_converges`, `C81_case` |
| C82 | ABCDE | `C82_separate_functions_partial`, `C82_refuted_polar_sign` |
| C83 | ABCDE | `C83_frequencies_from_constants` |
| C84 | ABCDE | `C84_constants_continuous`, `C84_refuted_across_zero_spin` |
| C85 | ABCDE | `C85_separatrix_continuous`, `C85_acceptance_is_open`, `C85_equatorial_monotone` |
| C86 | ABCDE | `C86_frequencies_continuous`, `C86_fundamental_frequencies_continuous` |
| C87 | ABCDE | `C87_reversed_round_trip_partial`, `C87_refuted_negative_spin` |
| C88 | ABCDE | `C88_real_plunge_reaches_horizon`, `C88_complex_plunge_reaches_horizon` |
| C89 | ABCDE | `C89_roots_merge`, `C89_radial_frequency_vanishes` |
| C90 | ABCDE | `C90_binding_energy`, `C90_bounds_are_sharp` |
| C91 | ABCDE | `C91_real_plunge_corotates`, `C91_complex_plunge_corotates` |
| C92 | ABCDE | `C92_spacetime_decides`, `C92_negative_spin_raises` |
| C93 | ABCDE | `C93_kepler_limit`, `C93_keplers_third_law` |
| C94 | ABCDE | `C94_complex_plunge`, `C94_real_plunge` |
| C95 | ABCDE | `C95_grows_outwards`, `C95_no_two_orbits_share_an_energy`, `C95_first_law` |
| C96 | ABCDE | `C96_resonant_orbits_close`, `C96_other_orbits_fill_the_box` |
| C97 | ABCDE | `C97_frequencies_extend` |
| C98 | ABCDE | `C98_side_panels`, `C98_bound_orbits` |
| C99 | ABCDE | `C99_continuous_dependence` |
| C100 | ABCDE | `C100_radial_epicyclic`, `C100_polar_epicyclic` |
| C101 | ABCDE | `C101_schwarzschild_orbits_are_planar` |
| C102 | ABCDE | `C102_radius_slower_than_light`, `C102_radial_period` |
| C103 | ABCD | `C103_moving_clocks_run_slow`, `C103_bound_is_sharp` |
| C103 | ABCDE | `C103_bound_orbits` |
| C104 | ABCD | `C104_nothing_stands_still`, `C104_energy_positive_outside` |
| C104 | ABCDE | `C104_orbit_refuses`, `C104_bound_orbits` |
| C105 | ABCDE | `C105_stable`, `C105_plunging` |
| C106 | ABCDE | `C106_separatrix_decreases_with_inclination`, `C106_stability_grows_with_inclination`, `C106_equatorial_bounds` |
| C107 | ABCDE | `C107_separatrix_increases_with_eccentricity`, `C107_stability_of_rounder_orbits`, `C107_nothing_stable_below_circular` |
| C108 | ABCDE | `C108_separatrix_between_extremal_limits`, `C108_prograde_below_schwarzschild`, `C108_always_stable`, `C108_never_stable`, `C108_always_stable_prograde`, `C108_twelve_is_enough`, `C108_upper_bound_sharp`, `C108_lower_bound_sharp` |
| C109 | ABCDE | `C109_separatrix_decreases_with_spin`, `C109_stability_grows_with_spin` |
| C110 | ABCDE | `C110_critical_inclination`, `C110_schwarzschild_inclination`, `C110_critical_eccentricity`, `C110_critical_spin` |
| C111 | ABCDE | `C111_every_resonance_exists`, `C111_periodic_orbits_exist`, `C111_schwarzschild_closed_orbits` |
| C112 | ABCDE | `C112_wider_orbits`, `C112_more_eccentric_orbits`, `C112_advance_integral`, `C112_advance_shrinks_with_p`, `C112_advance_grows_with_e`, `C112_advance_bounds`, `C112_einstein_precession`, `C112_closed_orbit_unique` |
| C113 | ABCDE | `C113_precessions` |

## 4. Per-property plan

| id | model | how it is proved |
|----|-------|------|
| C01–C03 | `KerrSpacetime` methods | field identities against a separate Carter-form specification |
| C04,C05,C07 | `constants_from_initial_conditions`, `four_velocity` | Cramer's rule + field identities |
| C06 | `Orbit.__init__` | case analysis on outcome |
| C08,C09,C22 | validation prefix of constants/frequency functions | case analysis; separatrix as a function of the oracle |
| C10,C11,C35 | whole constants/frequencies call graph | standardisation lemma; unfolding |
| C12,C14,C18 | constants, separatrix | direct |
| C13 | energy/L/Q | algebra: Schmidt's resolvent, branch analysis of the square roots |
| C15,C16 | roots | coefficient comparison from C13/C14, ordering from C23 |
| C17 | `apex_from_constants` | uniqueness of sorted root lists |
| C19,C20,C21 | separatrix polynomials | ring identities; sign at the brackets by reflective Bernstein expansion; IVT spec of brentq; monotonicity of the critical spin in the periastron |
| C23 | constants | from the factorisation and the stability analysis (`P_Stability*.v`) |
| C24 | trajectories | cancellation of the constants C_t, C_phi |
| C25–C30, C51 | radial/polar solutions | Jacobi amplitude as inverse of the elliptic integral; derivatives |
| C31 | elliptic wrappers | floor/parity case analysis, periodicity of integrals, Carlson's substitution |
| C32–C34 | units | field; refutation for C34 |
| C36,C37 | root ordering | real factorisation of quartics, case analysis on sorted root lists |
| C38,C44 | exceptions | case analysis; refutation for C44 (real-root plunges) |
| C39–C41 | plunge solutions | algebra + Jacobi functions |
| C56 | elliptic wrappers, n>1 | Carlson RJ with p<0 as a principal value; reduction to F, Pi(m/n) and a logarithm |
| C57 | plunge solutions (t, phi) | derivative of each of the four integrals I_r, I_r2, I_r+, I_r-; partial fractions |
| C58 | real-root plunges (`_real_plunge_trajectory`) | root location (R>0 between the horizons), the principal-value third-kind integrals of C56 along the phase, partial fractions; the undefined time coordinate is read off the e=1 branch |
| C59 | `plunging_orbit_initial_phases` (complex roots), `Orbit.__init__` plunging branch | the arcsines invert the radial and polar solutions exactly (amplitude uniqueness), the sign of the velocity selects the half period; with Q=0 the division by z1=0 is followed through |
| C60 | `four_velocity` along complex-root plunges | sign of sin(amplitude) = sign of sin(phase) by monotonicity and quasi-periodicity of the amplitude |
| C61 | `Orbit.__init__` at a later point of a plunge | equal position and velocity force equal phases modulo 2 pi (injectivity of radius/amplitude), then C59 |
| C62 | `plunging_orbit_initial_phases` and `Orbit.__init__` for plunges with four real roots (either ordering); C60/C61 also proved for them | inversion of the Legendre integral at the initial point; snapping treated as in C43/C59 |
| C63 | `apex_from_constants`, `constants_of_motion`, `is_stable` on arbitrary bound constants (converse of C17) | the double-root discriminant argument of P_Apex: the solution of the two turning-point equations is unique and lies above the separatrix |
| C64 | `Orbit.__init__` on arbitrary bound initial data, with no hypothesis about (p,e,x) | C63 composed with C43 |
| C65 | `fundamental_frequencies`, `gamma`, `stable_trajectory` | future-directedness from the sign of R'(r_min); dt/dlambda >= r^2 by Cauchy-Schwarz; C30 for the averages |
| C66 | `StableOrbit_init`, `StableOrbit_from_constants`, `PlungingOrbit_init`, `Orbit_four_velocity`, `Orbit_four_velocity_norm` | composition of C51, C60, C63, C53, C58, C39 |
| C67 | `Orbit.__init__` on arbitrary generic initial data | case analysis on the roots (C36), then C64, C62 or C59; barrier criterion from the sign pattern of the potential |
| C68 | the four returned functions for transformed phases | parity and shift of the Jacobi amplitude for r, theta; uniqueness for dt/dlambda, dphi/dlambda (C29) for t, phi |
| C69 | `constants_of_motion`, `fundamental_frequencies` at e=0, x=+-1 | Phi and Gamma as rates of the linear motion (C29, C30); double root of the radial potential for the constants and Upsilon_r |
| C70 | `mino_frequencies` and trajectories at a=0 | explicit roots of the radial potential; complete third-kind integral at modulus 0 by an explicit antiderivative |
| C71 | `Orbit.plot` up to the calls of matplotlib (Model_Plot) | list induction; C25 for the shell, C45 for the masking |
| C72 | `Orbit.animate` up to the calls of matplotlib (Model_Plot) | list induction over frames |
| C73 | `draw_frame`'s slice bounds | direct evaluation |
| C74 | `stable_orbit_initial_phases` with every optional argument | run of the function with general arguments; the wrong sign gives the mirror image by the symmetry of theta(q) |
| C75 | `Orbit.__init__` on reversed velocities | parity of the radial and polar polynomials in (E,L); C65 for the direction of time |
| C76 | `Orbit.__init__` and `stable_orbit_initial_phases` with the polar snap | the proof of C43 without the z_plus branch |
| C77 | `mino_frequencies` | pi/2 <= K(m) <= pi/2/sqrt(1-m), Vieta's formula for the radial roots, r3 >= r_+ (C15) |
| C78 | `mino_frequencies` | the radial part of upsilon_phi is a value of a(2Er-aL)/Delta (mean value theorem on the periodic function of C25), which exceeds a(1-E) in the allowed region; the polar part is compared with upsilon_theta pointwise under the integral |
| C79 | `KerrSpacetime.metric`, `stable_trajectory`, `plunging_trajectory` | second derivatives of the Jacobi-function solutions give R'/2 and the polar force; these with C25, C29, C57, C58 give the Euler-Lagrange equations of the Kerr metric (SpecGeodesic) coefficient by coefficient |
| C80 | `separatrix`, `is_stable` | the separatrix polynomial at e = 0 factors through Z1, Z2 (Cardano); a rational parametrisation of Z2/Z1 isolates the two real roots on either side of 6; C19 says on which side the returned root lies |
| C81 | `Orbit.numerical_four_velocity`, `Orbit._numerical_four_velocity_norm` | the five-point stencil converges to the derivative (C42), which is Sigma times the analytic velocity (C66); the norm is continuous in the velocity |
| C82 | the four functions and `mino_frequencies` | shapes of the functions (C11) and the closed form of the polar frequency; the sign is computed exactly |
| C83 | the `_from_constants` functions of frequencies.py | branch-by-branch equality; in the a = 0 branch (p, e) recovered from the roots |
| C84 | `constants_of_motion` with all its branches | one formula without special cases in the variables 1/r1, 1/r2, a^2, x^2, a x (the common factor 1/r1 - 1/r2 of all five determinants cancels); the parabolic limit uses the periapsis equation and the sign of dphi/dlambda there |
| C85 | `separatrix`, `is_stable` | the separatrix is the unique zero of a strictly decreasing function of p (C21); that function is continuous in the parameters, so its zero is |
| C86 | `mino_frequencies`, `fundamental_frequencies` | closed forms of the frequencies, continuity of the complete elliptic integrals (uniform convergence), continuity of the constants (C84) and of the roots |
| C87 | `apex_from_constants`, `constants_of_motion` | the radial polynomial contains a L; constants_of_motion flips x but not L back for a<0, so the two polynomials differ by 8 a E L r at the apoapsis |
| C88 | `PlungingOrbit.trajectory` | the proved derivative equations (C57, C58), first crossing by completeness of R, and a logarithmic lower bound of the time near the horizon |
| C89 | `separatrix`, `r_frequency`, `mino_frequencies`, `stable_radial_roots` | an explicit upper bound of (r2-r3)(r2-r4)(1-E^2) by the distance from criticality, which is zero exactly at the root returned by `separatrix`, and K(1-k^2) >= -ln k |
| C90 | `constants_of_motion` | Vieta's formulas for the four real roots (C15), three of which lie outside the outer horizon; sharpness by the explicit family a=1-d^3, p=(1+d)^2 |
| C91 | `plunging_trajectory` | the poles of dt/dlambda and dphi/dlambda cancel in the corotating combination, whose derivative extends continuously across the horizon |
| C92 | `KerrSpacetime` | composition of C08, C19, C22 and the bounds of accepted orbits |
| C93 | frequencies of the model over sequences of orbits | Vieta bounds keep the inner roots below 6M; explicit formulas for the radial and polar frequencies rescaled by p; Mino-time average of r^2 identified through an explicit oscillating primitive, then long-time averages; continuity of the complete elliptic integrals |
| C94 | plunging trajectories and frequencies of the model | parity and quasi-periodicity of the Jacobi amplitude; uniqueness of its zeros |
| C95 | constants_of_motion and fundamental_frequencies of the model at e = 0, x = +-1 | closed forms in sqrt p, their derivatives, convexity of the stability quartic, mean value theorem |
| C96 | stable trajectories and frequencies of the model | flow and whole-turn symmetries (C68) with bounded deviation (C30); Kronecker's theorem on irrational rotations |
| C97 | constants and frequencies of the model | the singular factor of the horizon average is cancelled algebraically; the rest is continuous (C84) |
| C98 | `animate` with the data of the side panels and the label | induction over frames on top of C72 |
| C99 | stable trajectories of the model | Gronwall's inequality for the second-order equations of r and cos theta (from C79), continuity of constants (C84) and frequencies (C86); t and phi by integrating uniformly convergent rates |
| C100 | constants and frequencies of the model | the elliptic modulus vanishes; second derivative of the factorised potential |
| C101 | stable trajectories of the model | the three components of the direction are harmonic oscillators (second-order polar equation, C79; azimuth equation, C29) |
| C102 | stable trajectories and fundamental frequencies of the model | dt/dlambda > E(r^2+a^2)-aL > |dr/dlambda| outside the horizon from both potentials being nonnegative, integrated by the mean value theorem; the period bound by averaging over n oscillations (C26, C30) |
| C103 | norm, four_velocity and stable trajectories of the model | reverse Cauchy-Schwarz in the (t,phi) plane of Carter's form of the line element; C51 and the mean value theorem for the orbits |
| C104 | norm, Orbit.__init__, constants_from_initial_conditions, stable trajectories | g_tt changes sign at Sigma = 2r, the spatial part of the line element is nonnegative outside the horizon |
| C105 | both trajectory functions of the model, all outcomes | bind-by-bind comparison of the two calls; the offset comes out of the final sum |
| C106 | separatrix and is_stable of the model | the separatrix solves bc(c,k,q) = a x with k = a^2(1-x^2) (C21, C85); bc decreases in k and, where bc>=0, bc^2+k increases in k, by an explicit derivative |
| C107 | separatrix and is_stable of the model | slope of bc(c,k,q) in c at fixed p is positive where a<1 (a degree-7 polynomial inequality with a Bernstein certificate, P_SepEccPoly), so the separatrix grows locally on both sides of every eccentricity; a supremum argument makes that global |
| C108 | separatrix and is_stable of the model | C106 reduces to the equatorial separatrices, where the extremal values solve bc = -1 and bc = 1; the polar comparison uses that y grows with k |
| C109 | separatrix and is_stable of the model | bc decreases in q and in k (C106), and both k and a x grow with a |
| C110 | separatrix and is_stable of the model | intermediate value argument from continuity (C85) and strict monotonicity (C106, C107, C109) |
| C111 | mino_frequencies and stable_trajectory of the model | Upsilon_r/Upsilon_theta tends to 0 at the separatrix (C89 with a lower bound on Upsilon_theta from C90) and to 1 at infinity (C93), and is continuous between (C86): intermediate value theorem; then C96. Prograde orbits are left out because isolated members of each family have no finite frequencies (C52, C53, C97) |
| C112 | constants_of_motion and mino_frequencies of the model at a=0 | closed forms C12 and C70; differences factor into positive pieces; K rewritten as an integral whose integrand is pointwise monotone in p, and, folded onto (0,pi/4), in e |
| C113 | fundamental_frequencies of the model | from the closed forms C69: a square-root remainder estimate with explicit constants |
| C42 | stencil | polynomial identity; derivative limit |
| C43, C55 | initial phases | inverse elliptic integral; uniqueness of the phase of a point |
| C45–C47 | helpers | lists/integers; C45 refuted by the missing axis= argument |
| C48–C50 | findings | refutations with witnesses |
| C52 | constants | exact characterisation of the 0/0 cases (replaces the false C50) |
| C53, C54 | frequencies | exact characterisation of the finite cases; trajectory theorems restated for every such accepted orbit |


Claims found **false of the code** are kept in the list, marked `partial`, with a machine-checked
refutation and the true part: C34, C44, C45, C48, C49, C50.

## 5. Findings (deviations of the code from its documentation)

Machine-checked, theorem in parentheses:
1. `StableOrbit.mino_frequencies`/`fundamental_frequencies` units (`C34_refuted`).
2. `PlungingOrbit.trajectory_deltas` always raises for plunges with four real roots (`C44_refuted`).
3. `is_visible`: `np.linalg.norm` without `axis=` (`C45_refuted`).
4. `separatrix`/`is_stable` and negative spin (`C48_refuted`).
5. Polar phase of inclined orbits is nan for a=0 (`C49_refuted`).
6. `constants_of_motion` is 0/0 for accepted orbits on the exceptional set (`C50_refuted_*`, exactly characterised by C52).
7. Frequencies are 0/0 when aL = 2Er+ (`C53_refuted`).
8. E=1 exactly is refused with an `UnboundLocalError` (`C36_parabolic_refused`).
9. Two real roots on the inner horizon are rejected (`C37_exception`).
10. Plunges with a radial root at r=0 - every equatorial plunge below a bound orbit - have no time coordinate at any Mino time (`C58_refuted_time_at_zero_root`, `C58_equatorial_reaches_zero`).
11. `stable_trajectory(-a,p,e,-x)` differs from `stable_trajectory(a,p,e,x)` in t and phi for every eccentric bound orbit: radial_solutions gets the unstandardized spin (`C48_refuted_trajectory`; circular orbits agree, `C48_circular_trajectory_partial`).
12. An equatorial complex-root plunge built from initial conditions has an undefined (nan) polar phase, so t, theta and phi are undefined at every Mino time (`C59_refuted_equatorial`; z1 = 0 is divided by).

Read off the code, not (all) formalised: `apex_from_constants` round trip fails for a<0;
`stable_orbit_initial_phases` with `radial_roots` supplied uses a wrong k_theta for a=0;
`_phi_frequency`/`_gamma_from_constants` with `upsilon_r=None` raise `TypeError`;
past-directed velocities pass the norm check of `Orbit`; points within 1e-4 of a turning
point are snapped to it (hence `settled` in C55); `animate` divides by zero for speed<1/8 and raises TypeError for a float tail_length (C73).

## 6. File map

`Model_*` transcribe the code, `Spec*`/`ExternalSpec` are specifications, `Props_*` hold the
property theorems, everything else supports the proofs.

| file | content |
|---|---|
| `Num.v` | Arithmetic interface of the model. |
| `Outcome.v` | Results of Python calls: a value, an exception, or "unspecified". |
| `External.v` | External library functions used by the code (class of oracles). |
| `Model_Units.v` | Model of /repo/kerrgeopy/units.py |
| `Model_Constants.v` | Model of /repo/kerrgeopy/constants.py |
| `Model_Frequencies.v` | Model of /repo/kerrgeopy/frequencies.py |
| `Model_Spacetime.v` | Model of /repo/kerrgeopy/spacetime.py |
| `Model_InitialConditions.v` | Model of /repo/kerrgeopy/initial_conditions.py |
| `Model_Stable.v` | Model of /repo/kerrgeopy/stable.py (functions; the class is in Model_Orbit.v) |
| `Model_Plunge.v` | Model of /repo/kerrgeopy/plunge.py (functions; the class is in Model_Orbit.v) |
| `Model_Orbit.v` | Model of /repo/kerrgeopy/orbit.py and of the classes StableOrbit (stable.py:11-269) and PlungingOrbit (plunge.py:12-147). Drawing (plot, animate) is modelled in Model_Plot.v; here only the index arithmetic of animate and is_visible. |
| `FloatNum.v` | Primitive-float instance with which the model can be RUN (by hand, in a scratch file). |
| `Spec.v` | Independent specifications, in textbook notation. |
| `Checked.v` | Evaluating the model on checked reals |
| `ExternalSpec.v` | Specification of the numerical libraries (exact-arithmetic idealisation) |
| `Transfer.v` | Checked runs approximate exact runs |
| `P_Spacetime.v` | Proofs about spacetime.py and constants_from_initial_conditions |
| `Props_Spacetime.v` | Properties C01-C05, C07: geometry, four-velocity, initial conditions |
| `Props_Units.v` | Properties C32-C35: units and frequencies in physical units |
| `Bernstein.v` | A reflective test for non-negativity of polynomials on the unit box |
| `SepPoly.v` | Sign of the separatrix polynomials at the ends of the search brackets |
| `P_Validation.v` | Lemmas: the separatrix and the parameter checks on checked reals |
| `Props_Separatrix.v` | Properties C18, C19, C20, C22: the separatrix |
| `Props_Validation.v` | Properties C08-C11: input validation, spin reversal, cached arguments |
| `P_Poly.v` | Lemmas: what [polyroots] returns on factored polynomials |
| `P_Roots.v` | Lemmas: splitting root lists |
| `Props_Orbit.v` | Properties of the orbit classes: C06, C24, C38, C42, C44-C49 |
| `Props_Orbit2.v` | Properties C44-C49 |
| `P_Schmidt.v` | The algebra behind energy and angular_momentum |
| `P_Bounds.v` | Where accepted orbits lie: bounds on p implied by the parameter checks |
| `P_Constants.v` | Lemmas about the constants of motion (C12-C16, C50) |
| `Props_Constants.v` | Properties C12-C16, C50: the constants of motion |
| `P_Stability.v` | The last stable orbit as a function of the periastron |
| `P_Stability2.v` | Orbits beyond the last stable orbit |
| `P_Stability3.v` | Accepted orbits lie beyond the last stable orbit |
| `P_Stability4.v` | From the returned constants to the stability equations |
| `P_Stability5.v` | The separatrix is exactly the last stable orbit |
| `Props_Stability.v` | Properties C23 and C15 (completed): accepted orbits are bound, with four ordered real roots |
| `Props_Stability2.v` | Property C21: the separatrix is where the periastron becomes a double root |
| `Props_Stability3.v` | Property C17: apex_from_constants inverts constants_of_motion |
| `SpecElliptic.v` | Specification of the special functions (exact-arithmetic idealisation) |
| `Elliptic.v` | Theory of the Legendre integrals and of Jacobi's amplitude |
| `Carlson.v` | Carlson's integrals and the Legendre integrals (DLMF 19.25(i)) |
| `Carlson2.v` | Carlson's integral of the third kind with a negative fourth argument (principal value), and Legendre's third integral with characteristic n > 1 (DLMF 19.7.8, 19.20.14) |
| `Props_Elliptic.v` | The incomplete elliptic integrals of frequencies.py (C31) |
| `Props_Elliptic2.v` | C56: the incomplete integral of the third kind with characteristic n > 1 |
| `P_Radial.v` | Analysis of the radial solution (pure reals) |
| `P_Polar.v` | Analysis of the polar solution, and of the amplitude function (pure reals) |
| `P_Traj.v` | The model's trajectory functions evaluate to the analysed real functions |
| `P_Traj2.v` | The model's polar functions and frequencies evaluate to the analysed real functions |
| `P_Traj3.v` | What a run of mino_frequencies that returns four numbers tells us |
| `P_Traj4.v` | When mino_frequencies returns four numbers |
| `Props_Trajectory.v` | Bound (stable) trajectories: C25 - C30 |
| `Props_Trajectory2.v` | Stable trajectories, continued: deltas (C27), averages (C30), four-velocity (C51) |
| `Props_Trajectory3.v` | Stable trajectories: the StableOrbit class, and concrete cases for C25 - C30, C51 |
| `P_Quartic.v` | Lemmas: a real polynomial of degree four (or three) factors over the reals into linear factors and irreducible quadratics. Used to discuss EVERY input of the root finders. |
| `Props_Plunge.v` | Properties C36, C37: the radial roots found from constants of motion and the classification of initial data |
| `P_Plunge.v` | The complex-root plunge: real analysis of the functions of plunge.py |
| `P_Plunge2.v` | Runs of the complex-root plunge functions, and the derivatives of its integrals |
| `P_Plunge3.v` | The complex-root plunge: polar functions, frequencies and the assembled trajectory |
| `P_Plunge4.v` | The complex-root plunge: the integrals of 1/(r - r_horizon) (plunge.py:235-313) |
| `Props_Plunge2.v` | Properties C39, C40, C41: complex-root plunging trajectories |
| `Props_Plunge3.v` | Property C57: time and azimuth of complex-root plunges |
| `P_RealPlunge.v` | Real-root plunges: the radial functions when the horizons lie between the turning points (stable.py:240-375 called from plunge.py:614-713) |
| `Props_RealPlunge.v` | Property C58: plunges whose four radial roots are real (plunge.py:614-713) |
| `P_Finite.v` | When the constants of motion are finite numbers (C50) |
| `Props_Finite.v` | C50: exactly when the constants of motion are finite numbers |
| `Props_Frequencies.v` | C53, C54: which accepted orbits have finite frequencies, and their trajectories |
| `P_Phases.v` | Inverting the radial and polar solutions: the phase of a given position |
| `Props_Phases.v` | C43: an Orbit built from initial conditions starts at these initial conditions |
| `P_Restart.v` | The phase of a point of a stable orbit is unique (support for C55) |
| `Props_Restart.v` | C55: restarting from a point of a trajectory continues the same trajectory |
| `Props_SpinReversal.v` | C48, trajectories: stable_trajectory(-a,p,e,-x) against stable_trajectory(a,p,e,x) |
| `Props_PlungePhases.v` | C59: an Orbit built from the initial conditions of a plunge starts at these initial conditions |
| `Props_PlungeRestart.v` | C60, C61: the four-velocity of a plunge is its derivative; restarting a plunge continues it |
| `Props_RealPhases.v` | C62: initial phases of plunges with four real radial roots; C60 and C61 for these plunges |
| `P_Apex.v` | Bound orbits are determined by their turning points |
| `Props_Apex.v` | Property C63: the constants of every bound orbit come back from its apex parameters |
| `Props_AllBound.v` | Property C64: every bound initial condition gives a working Orbit |
| `Props_Future.v` | C65: coordinate time runs forward along every bound orbit, and Gamma > 0 |
| `Props_Constructors.v` | C66: the constructors StableOrbit, StableOrbit.from_constants and PlungingOrbit return complete, self-consistent orbits |
| `Props_EveryOrbit.v` | C67: Orbit accepts every generic bound-energy initial condition outside the horizon, classifies it correctly and starts there |
| `Props_Symmetry.v` | C68: stable trajectories have the symmetries of Kerr spacetime |
| `Props_Circular.v` | C69: circular equatorial orbits have the textbook energy, angular momentum and frequencies |
| `Props_Schwarzschild.v` | C70: Schwarzschild orbits: closed-form frequencies, no precession of the orbital plane |
| `Model_Plot.v` | Model of Orbit.plot (orbit.py:419-543) and Orbit.animate (orbit.py:590-880). |
| `Props_Plot.v` | C71: what Orbit.plot draws |
| `Props_Animate.v` | C72: what Orbit.animate puts in each frame |
| `Props_Plot2.v` | C71 for bound orbits: the curve stays in its spherical shell, outside the black hole, and exactly the points hidden by the black hole are masked |
| `Props_Cached.v` | C74: passing precomputed values to stable_orbit_initial_phases |
| `Props_PastDirected.v` | C75: past-directed initial velocities |
| `Props_TurningPoint.v` | C76: initial data at a polar turning point, in particular equatorial Schwarzschild data |
| `Props_Precession.v` | C77: the periapsis always advances |
| `Props_Nodal.v` | C78: the nodes of an orbit are dragged forward by the spin |
| `SpecGeodesic.v` | What a geodesic is (independent of the model) |
| `P_Accel.v` | Second derivatives of the radial and polar solutions (pure reals) |
| `P_Geodesic.v` | From the first-order equations to the geodesic equation of the metric (pure reals, and [metric]) |
| `Props_Geodesic.v` | C79: the trajectories returned by stable_trajectory are timelike geodesics of the metric returned by KerrSpacetime.metric (second-order equations included) |
| `Props_Geodesic2.v` | C79 for plunges: the trajectories returned by plunging_trajectory are timelike geodesics of the metric returned by KerrSpacetime.metric, off the horizons |
| `Props_ISCO.v` | C80: the equatorial separatrix has the textbook values: the innermost stable circular orbit at e = 0 and the marginally bound orbit at e = 1 |
| `Props_Numerical.v` | C81: the numerical four-velocity of a stable orbit converges to the analytic one, and its norm to -1 |
| `Props_Separate.v` | C82: r_frequency, theta_frequency, phi_frequency and gamma against mino_frequencies |
| `Props_FromConstants.v` | C83: frequencies from the constants of motion agree with frequencies from the orbital parameters |
| `P_Continuity.v` | Unified formulas for the constants of motion, free of special cases, in u = 1/r1 and v = 1/r2 |
| `Props_Continuity.v` | C84: the constants of motion depend continuously on the orbital parameters |
| `Props_SepContinuity.v` | C85: the separatrix is continuous, acceptance is robust, and the equatorial separatrix is monotone in the spin |
| `Props_FreqContinuity.v` | C86: the frequencies depend continuously on the orbital parameters |
| `Props_ApexSign.v` | C87: apex_from_constants and constants_of_motion disagree about the orientation for negative spin |
| `P_Horizon.v` | Approach of a geodesic to the outer horizon: finite Mino time, infinite coordinate time |
| `Props_HorizonTime.v` | C88: a plunging particle reaches the outer horizon in finite Mino time but infinite coordinate time |
| `P_Whirl.v` | Near the separatrix: the third radial root approaches the periapsis |
| `Props_Whirl.v` | C89: at the separatrix the radial motion stops |
| `Props_Binding.v` | C90: sharp bounds on the energy and the total angular momentum of bound orbits |
| `Props_Spacetime2.v` | C92: the methods of KerrSpacetime decide which orbits exist |
| `P_Kepler.v` | The Mino-time average of r^2 along a bound orbit, and wide orbits |
| `Props_Kepler.v` | C93: far from the hole the orbits become Keplerian |
| `Props_PlungeSymmetry.v` | C94: the frequencies of a plunge are the frequencies of its motion, and plunges have the symmetries of the spacetime |
| `Props_CircularFamily.v` | C95: along circular equatorial orbits energy and angular momentum grow outwards, and dE = Omega dL |
| `Kronecker.v` | Irrational rotations are dense (used by C96) |
| `Props_Resonance.v` | C96: resonant orbits close, non-resonant orbits fill their box |
| `Props_Removable.v` | C97: the isolated orbits without finite frequencies are removable |
| `Model_Components.v` | Model of the side panels and the label of Orbit.animate(plot_components=True) (orbit.py:675-710 and 851-866). |
| `Props_Components.v` | C98: the side panels and the label of Orbit.animate |
| `P_Gronwall.v` | Continuous dependence for second-order equations with a cubic force |
| `Props_Dependence.v` | C99: trajectories depend continuously on the orbit and on the initial phases |
| `Props_Epicyclic.v` | C100: spherical and equatorial orbits oscillate with the epicyclic frequencies of the potentials |
| `Props_Planar.v` | C101: around a non-rotating hole every bound orbit lies in a plane and sweeps it at a constant rate of Mino time |
| `Props_Causal.v` | C102: the radius never changes faster than light; radial periods exceed the light travel time |
| `Props_Clocks.v` | C103: clocks in motion outside the hole run slow |
| `Props_Ergosphere.v` | C104: the ergosphere: nothing stands still inside, energy is positive outside |
| `Props_Offsets.v` | C105: initial time and azimuth are pure offsets of every trajectory, bound or plunging |
| `P_SepIncl.v` | Monotonicity of the separatrix function in the inclination (auxiliary for C106) |
| `Props_SepIncl.v` | C106: the separatrix decreases from retrograde to prograde inclinations |
| `P_SepEccPoly.v` | A polynomial inequality behind the growth of the separatrix with the eccentricity (auxiliary for C107) |
| `P_SepEcc.v` | Monotonicity of the separatrix function in the eccentricity at fixed p (auxiliary for C107) |
| `Props_SepEcc.v` | C107: the separatrix moves outwards as the eccentricity grows |
| `Props_SepBounds.v` | C108: bounds on the separatrix that hold for every spin and inclination |
| `Props_SepSpin.v` | C109: faster rotation lets every polar or prograde orbit come closer; C110: critical inclination, eccentricity and spin |
| `Props_ResExist.v` | C111: every resonance, and in Schwarzschild every closed orbit, exists |
| `Props_SchwMono.v` | C112: Schwarzschild orbits: energy, angular momentum and periapsis advance are monotonic; closed orbits are unique |
| `Props_LenseThirring.v` | C113: Lense-Thirring and Einstein precession of circular equatorial orbits around a rotating hole |

## 7. Mutation testing

`seeded/LOG.jsonl` has one line per wrong program tried against the theorems.
