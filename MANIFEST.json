{
 "claims": [
  {
   "property": "C01",
   "status": "proved",
   "theorems": [
    "C01_four_velocity_normalised",
    "C01_four_velocity_geodesic_equations"
   ],
   "note": ""
  },
  {
   "property": "C02",
   "status": "proved",
   "theorems": [
    "C02_norm_is_kerr_line_element",
    "C02_norm_undefined_on_singularity"
   ],
   "note": ""
  },
  {
   "property": "C03",
   "status": "proved",
   "theorems": [
    "C03_metric",
    "C03_lorentzian_signature",
    "C03_horizons",
    "C03_no_horizon_for_large_spin"
   ],
   "note": ""
  },
  {
   "property": "C04",
   "status": "proved",
   "theorems": [
    "C04_constants_roundtrip"
   ],
   "note": ""
  },
  {
   "property": "C05",
   "status": "proved",
   "theorems": [
    "C05_recovered_constants_are_momenta"
   ],
   "note": ""
  },
  {
   "property": "C06",
   "status": "proved",
   "theorems": [
    "C06_orbit_checks_velocity",
    "C06_singular_points"
   ],
   "note": ""
  },
  {
   "property": "C07",
   "status": "proved",
   "theorems": [
    "C07_allowed_region"
   ],
   "note": ""
  },
  {
   "property": "C08",
   "status": "proved",
   "theorems": [
    "C08_constants_validation"
   ],
   "note": ""
  },
  {
   "property": "C09",
   "status": "proved",
   "theorems": [
    "C09_frequency_validation"
   ],
   "note": ""
  },
  {
   "property": "C10",
   "status": "proved",
   "theorems": [
    "C10_spin_reversal"
   ],
   "note": ""
  },
  {
   "property": "C11",
   "status": "proved",
   "theorems": [
    "C11_cached_arguments"
   ],
   "note": ""
  },
  {
   "property": "C12",
   "status": "proved",
   "theorems": [
    "C12_marginally_bound",
    "C12_polar",
    "C12_equatorial",
    "C12_schwarzschild"
   ],
   "note": ""
  },
  {
   "property": "C13",
   "status": "proved",
   "theorems": [
    "C13_turning_points"
   ],
   "note": ""
  },
  {
   "property": "C14",
   "status": "proved",
   "theorems": [
    "C14_polar_turning_point",
    "C14_theta_min"
   ],
   "note": ""
  },
  {
   "property": "C15",
   "status": "proved",
   "theorems": [
    "C15_radial_roots",
    "C15_roots_defined"
   ],
   "note": ""
  },
  {
   "property": "C16",
   "status": "proved",
   "theorems": [
    "C16_polar_roots"
   ],
   "note": ""
  },
  {
   "property": "C17",
   "status": "proved",
   "theorems": [
    "C17_apex_inverts_constants"
   ],
   "note": "every accepted orbit with a>=0 and e<1, polar, equatorial, circular included"
  },
  {
   "property": "C18",
   "status": "proved",
   "theorems": [
    "C18_schwarzschild_separatrix"
   ],
   "note": ""
  },
  {
   "property": "C19",
   "status": "proved",
   "theorems": [
    "C19_separatrix_total",
    "C19_separatrix_rejects"
   ],
   "note": ""
  },
  {
   "property": "C20",
   "status": "proved",
   "theorems": [
    "C20_polynomials_agree"
   ],
   "note": ""
  },
  {
   "property": "C21",
   "status": "proved",
   "theorems": [
    "C21_separatrix_is_last_stable",
    "C21_double_root_is_separatrix"
   ],
   "note": "both directions: a double root makes the separatrix polynomial vanish; at the returned value the potential factors with a double root at the periastron"
  },
  {
   "property": "C22",
   "status": "proved",
   "theorems": [
    "C22_is_stable_above_separatrix",
    "C22_upward_closed",
    "C22_raises_as_separatrix"
   ],
   "note": ""
  },
  {
   "property": "C23",
   "status": "proved",
   "theorems": [
    "C23_bound_orbits"
   ],
   "note": "also: the potential is positive between the turning points and negative on both sides"
  },
  {
   "property": "C24",
   "status": "proved",
   "theorems": [
    "C24_stable_trajectory_start",
    "C24_plunging_trajectory_start",
    "C24_orbit_trajectory_start"
   ],
   "note": ""
  },
  {
   "property": "C25",
   "status": "proved",
   "theorems": [
    "C25_bound_motion"
   ],
   "note": "quantifies over every (a,p,e,x), a>=0, for which mino_frequencies returns four numbers; cases: trajectory_case_schwarzschild, trajectory_case_kerr"
  },
  {
   "property": "C26",
   "status": "proved",
   "theorems": [
    "C26_phases",
    "C26_default_start",
    "C26_stable_orbit_trajectory"
   ],
   "note": "quantifies over every (a,p,e,x), a>=0, for which mino_frequencies returns four numbers; cases: trajectory_case_schwarzschild, trajectory_case_kerr"
  },
  {
   "property": "C27",
   "status": "proved",
   "theorems": [
    "C27_periodic",
    "C27_deltas_periodic"
   ],
   "note": "quantifies over every (a,p,e,x), a>=0, for which mino_frequencies returns four numbers; cases: trajectory_case_schwarzschild, trajectory_case_kerr"
  },
  {
   "property": "C28",
   "status": "proved",
   "theorems": [
    "C28_radial_and_polar_equations"
   ],
   "note": "quantifies over every (a,p,e,x), a>=0, for which mino_frequencies returns four numbers; cases: trajectory_case_schwarzschild, trajectory_case_kerr"
  },
  {
   "property": "C29",
   "status": "proved",
   "theorems": [
    "C29_time_and_azimuth_equations"
   ],
   "note": "quantifies over every (a,p,e,x), a>=0, for which mino_frequencies returns four numbers; cases: trajectory_case_schwarzschild, trajectory_case_kerr"
  },
  {
   "property": "C30",
   "status": "proved",
   "theorems": [
    "C30_long_time_averages",
    "C30_common_period"
   ],
   "note": "quantifies over every (a,p,e,x), a>=0, for which mino_frequencies returns four numbers; cases: trajectory_case_schwarzschild, trajectory_case_kerr"
  },
  {
   "property": "C31",
   "status": "proved",
   "theorems": [
    "C31_ellipeinc",
    "C31_ellippi",
    "C31_ellippiinc"
   ],
   "note": ""
  },
  {
   "property": "C32",
   "status": "proved",
   "theorems": [
    "C32_conversions",
    "C32_consistency"
   ],
   "note": ""
  },
  {
   "property": "C33",
   "status": "proved",
   "theorems": [
    "C33_stable_trajectory_needs_M",
    "C33_plunging_trajectory_needs_M",
    "C33_units_with_M",
    "C33_trajectory_unknown_units",
    "C33_mino_frequency_units",
    "C33_fundamental_frequency_units",
    "C33_constants_units_errors",
    "C33_mks_consistency",
    "C33_stable_trajectory_physical",
    "C33_plunging_trajectory_physical",
    "C33_unit_sizes"
   ],
   "note": ""
  },
  {
   "property": "C34",
   "status": "partial",
   "theorems": [
    "C34_actual_values_partial",
    "C34_refuted"
   ],
   "note": "the claim is false of the code: C34_refuted is the witness, C34_actual_values_partial states what is returned instead"
  },
  {
   "property": "C35",
   "status": "proved",
   "theorems": [
    "C35_fundamental_is_mino_over_gamma",
    "C35_from_constants",
    "C35_stable_orbit_methods"
   ],
   "note": ""
  },
  {
   "property": "C36",
   "status": "proved",
   "theorems": [
    "C36_returned_roots",
    "C36_total",
    "C36_parabolic_refused"
   ],
   "note": ""
  },
  {
   "property": "C37",
   "status": "proved",
   "theorems": [
    "C37_four_real_roots",
    "C37_two_complex_roots",
    "C37_real_data_are_classified",
    "C37_exception"
   ],
   "note": ""
  },
  {
   "property": "C38",
   "status": "proved",
   "theorems": [
    "C38_schwarzschild_plunges_refused",
    "C33_plunging_trajectory_needs_M"
   ],
   "note": ""
  },
  {
   "property": "C39",
   "status": "proved",
   "theorems": [
    "C39_plunges_are_defined",
    "C39_plunge_bounds",
    "C39_plunge_phases"
   ],
   "note": "for a<>0, E^2<1, L<>0, Q>=0; case: plunge_case"
  },
  {
   "property": "C40",
   "status": "proved",
   "theorems": [
    "C40_radial_and_polar_equations",
    "C40_polar_parts"
   ],
   "note": "for a<>0, E^2<1, L<>0, Q>=0; case: plunge_case"
  },
  {
   "property": "C41",
   "status": "proved",
   "theorems": [
    "C41_plunging_polar_roots"
   ],
   "note": ""
  },
  {
   "property": "C42",
   "status": "proved",
   "theorems": [
    "C42_numerical_four_velocity",
    "C42_exact_on_quartics",
    "C42_converges"
   ],
   "note": ""
  },
  {
   "property": "C43",
   "status": "proved",
   "theorems": [
    "C43_phases_reproduce_initial_conditions",
    "C43_orbit_reproduces_initial_conditions"
   ],
   "note": "for a>0 and stable orbits with finite frequencies; a=0 fails (C49), a<0 fails (C48)"
  },
  {
   "property": "C44",
   "status": "partial",
   "theorems": [
    "C44_stable_deltas_partial",
    "C44_complex_plunge_deltas_partial",
    "C44_refuted"
   ],
   "note": "proved for stable and complex-root plunging orbits; false of the code for real-root plunges, where the call always raises (C44_refuted)"
  },
  {
   "property": "C45",
   "status": "partial",
   "theorems": [
    "C45_outside_points_partial",
    "C45_single_point_partial",
    "C45_refuted"
   ],
   "note": "proved for points outside the horizon sphere and for single points; false of the code for inner points of longer lists (C45_refuted)"
  },
  {
   "property": "C46",
   "status": "proved",
   "theorems": [
    "C46_table_matches_nodes",
    "C46_table_total"
   ],
   "note": ""
  },
  {
   "property": "C47",
   "status": "proved",
   "theorems": [
    "C47_frames_in_range",
    "C47_zero_speed",
    "C47_tail_alpha_length"
   ],
   "note": ""
  },
  {
   "property": "C48",
   "status": "partial",
   "theorems": [
    "C48_stable_orbit_spin_reversal_partial",
    "C48_circular_trajectory_partial",
    "C48_refuted",
    "C48_refuted_trajectory"
   ],
   "note": "proved for StableOrbit and for circular trajectories; false of the code for separatrix/is_stable (C48_refuted) and for stable_trajectory on every eccentric orbit (C48_refuted_trajectory: same r and theta, different t and phi)"
  },
  {
   "property": "C49",
   "status": "partial",
   "theorems": [
    "C49_polar_phase_undefined",
    "C49_refuted"
   ],
   "note": "the claim is false of the code: the polar phase is nan (C49_refuted)"
  },
  {
   "property": "C50",
   "status": "partial",
   "theorems": [
    "C50_refuted_angular_momentum",
    "C50_refuted_energy"
   ],
   "note": "the claim is false of the code: two accepted orbits with a 0/0 are exhibited; C52 states exactly where it holds"
  },
  {
   "property": "C51",
   "status": "proved",
   "theorems": [
    "C51_four_velocity_is_derivative"
   ],
   "note": "quantifies over every (a,p,e,x), a>=0, for which mino_frequencies returns four numbers; cases: trajectory_case_schwarzschild, trajectory_case_kerr"
  },
  {
   "property": "C52",
   "status": "proved",
   "theorems": [
    "C50_finite_exactly",
    "C50_finite_retrograde",
    "C50_finite_far"
   ],
   "note": "equivalence, both directions; replaces the false C50"
  },
  {
   "property": "C53",
   "status": "proved",
   "theorems": [
    "C53_frequencies_exactly",
    "C53_refuted"
   ],
   "note": "C53_refuted shows the excluded case is accepted"
  },
  {
   "property": "C54",
   "status": "proved",
   "theorems": [
    "C54_every_accepted_orbit"
   ],
   "note": "hypotheses met: C54_example"
  },
  {
   "property": "C55",
   "status": "proved",
   "theorems": [
    "C55_restart"
   ],
   "note": "hypotheses met on an inclined eccentric orbit: C55_case; far_retrograde gives a whole region"
  },
  {
   "property": "C56",
   "status": "proved",
   "theorems": [
    "C56_ellippiinc_principal_value"
   ],
   "note": "non-vacuous: C56_case"
  },
  {
   "property": "C57",
   "status": "proved",
   "theorems": [
    "C57_time_and_azimuth_equations"
   ],
   "note": "hypotheses met on a concrete inclined plunge: C57_case. The excluded cases are real: A=B divides by zero, phases mirrored at a horizon give inf-inf"
  },
  {
   "property": "C58",
   "status": "proved",
   "theorems": [
    "C58_radial_and_polar_equations",
    "C58_time_and_azimuth_equations",
    "C58_refuted_time_at_zero_root",
    "C58_equatorial_reaches_zero"
   ],
   "note": "concrete inclined plunge below a spherical orbit: C58_case; equatorial plunge below the circular orbit r=4, a=9/16 with no time coordinate: C58_refuted_case"
  },
  {
   "property": "C59",
   "status": "proved",
   "theorems": [
    "C59_phases_reproduce_initial_conditions",
    "C59_orbit_reproduces_initial_conditions",
    "C59_refuted_equatorial"
   ],
   "note": "concrete initial data: C59_case; equatorial exception with concrete data: C59_equatorial_case"
  },
  {
   "property": "C60",
   "status": "proved",
   "theorems": [
    "C60_four_velocity_is_derivative",
    "C60_real_four_velocity_is_derivative"
   ],
   "note": "complex-root and real-root plunges; concrete cases: C61_case, C62_case"
  },
  {
   "property": "C61",
   "status": "proved",
   "theorems": [
    "C61_plunge_restart",
    "C61_real_plunge_restart"
   ],
   "note": "complex-root and real-root plunges; radial and polar coordinates; t and phi jump at horizon crossings and are covered by C57; concrete case: C61_case"
  },
  {
   "property": "C62",
   "status": "proved",
   "theorems": [
    "C62_phases_reproduce_initial_conditions",
    "C62_orbit_reproduces_initial_conditions"
   ],
   "note": "concrete case: C62_case"
  },
  {
   "property": "C63",
   "status": "proved",
   "theorems": [
    "C63_apex_of_bound_constants"
   ],
   "note": "concrete cases: every accepted stable orbit meets the hypotheses (accepted_bound_region) and C64_case"
  },
  {
   "property": "C64",
   "status": "proved",
   "theorems": [
    "C64_every_bound_initial_condition"
   ],
   "note": "concrete case: C64_case"
  },
  {
   "property": "C65",
   "status": "proved",
   "theorems": [
    "C65_time_runs_forward",
    "C65_fundamental_frequencies"
   ],
   "note": "concrete case: C65_C66_case"
  },
  {
   "property": "C66",
   "status": "proved",
   "theorems": [
    "C66_stable_orbit",
    "C66_from_constants",
    "C66_plunging_orbit"
   ],
   "note": "concrete cases: C65_C66_case (stable), C64_case (from_constants), C61_case and C62_case (plunging)"
  },
  {
   "property": "C67",
   "status": "proved",
   "theorems": [
    "C67_every_initial_condition"
   ],
   "note": "concrete case: C67_case (particle at r=2 below a stable orbit with the same constants)"
  },
  {
   "property": "C68",
   "status": "proved",
   "theorems": [
    "C68_stationary_and_axisymmetric",
    "C68_time_reversal",
    "C68_equatorial_reflection",
    "C68_flow",
    "C68_whole_turns"
   ],
   "note": "concrete case: C68_case"
  },
  {
   "property": "C69",
   "status": "proved",
   "theorems": [
    "C69_degenerate_motion",
    "C69_circular_equatorial"
   ],
   "note": "concrete cases: C69_case (both senses of rotation at radius 16)"
  },
  {
   "property": "C70",
   "status": "proved",
   "theorems": [
    "C70_schwarzschild_frequencies"
   ],
   "note": "concrete case: C70_case (p=10, e=x=1/2)"
  },
  {
   "property": "C71",
   "status": "proved",
   "theorems": [
    "C71_plot_draws_trajectory",
    "C71_endpoints",
    "C71_widths",
    "C71_bound_orbits",
    "C71_reversed_interval",
    "C71_short_interval"
   ],
   "note": "concrete case: C71_example (the default call, 2000 points)"
  },
  {
   "property": "C72",
   "status": "proved",
   "theorems": [
    "C72_animate_frames",
    "C72_playback_speed"
   ],
   "note": "concrete case: C72_example (default call, 300 frames)"
  },
  {
   "property": "C73",
   "status": "partial",
   "theorems": [
    "C73_float_tail_refuted",
    "C72_animate_frames"
   ],
   "note": "false of the code: a float tail_length (even 5.0) makes the slice bounds floats and raises TypeError at the first frame past the tail (C73_float_tail_refuted); integer lengths work (C72_animate_frames)"
  },
  {
   "property": "C74",
   "status": "partial",
   "theorems": [
    "C74_cached_arguments_partial",
    "C74_refuted_retrograde"
   ],
   "note": "proved for everything except upsilon_theta of retrograde orbits, where it is false of the code (C74_refuted_retrograde); concrete case: C74_case"
  },
  {
   "property": "C75",
   "status": "partial",
   "theorems": [
    "C75_past_directed_refuted",
    "C43_orbit_reproduces_initial_conditions"
   ],
   "note": "true for future-directed bound data (C43, C64); false for past-directed ones (C75_past_directed_refuted); concrete case: C75_case"
  },
  {
   "property": "C76",
   "status": "proved",
   "theorems": [
    "C76_polar_turning_point",
    "C76_equatorial_data"
   ],
   "note": "complements C43 (a>0) and C49 (a=0, inclined: nan); concrete case: C76_case"
  },
  {
   "property": "C77",
   "status": "proved",
   "theorems": [
    "C77_periapsis_advances",
    "C77_schwarzschild"
   ],
   "note": "cases: C54_example, C70_case, far_retrograde meet the hypothesis"
  },
  {
   "property": "C78",
   "status": "proved",
   "theorems": [
    "C78_nodes_dragged_forward",
    "C78_case"
   ],
   "note": ""
  },
  {
   "property": "C79",
   "status": "proved",
   "theorems": [
    "C79_stable_orbits_are_geodesics",
    "C79_complex_plunges_are_geodesics",
    "C79_real_plunges_are_geodesics",
    "C79_case"
   ],
   "note": "stable orbits for a >= 0 (for a < 0 the trajectories are wrong, C48); plunges under the hypotheses of C57 and C58"
  },
  {
   "property": "C80",
   "status": "proved",
   "theorems": [
    "C80_isco",
    "C80_marginally_bound",
    "C80_equatorial",
    "C80_case"
   ],
   "note": ""
  },
  {
   "property": "C81",
   "status": "proved",
   "theorems": [
    "C81_numerical_velocity_converges",
    "C81_case"
   ],
   "note": ""
  },
  {
   "property": "C82",
   "status": "partial",
   "theorems": [
    "C82_separate_functions_partial",
    "C82_refuted_polar_sign"
   ],
   "note": "exact values of all four functions proved; the claim as stated is false for theta_frequency (sign), proved on concrete orbits"
  },
  {
   "property": "C83",
   "status": "proved",
   "theorems": [
    "C83_frequencies_from_constants"
   ],
   "note": ""
  },
  {
   "property": "C84",
   "status": "proved",
   "theorems": [
    "C84_constants_continuous",
    "C84_refuted_across_zero_spin"
   ],
   "note": "C84_refuted_across_zero_spin proves the exception (sign of L at a = 0-) on a concrete sequence"
  },
  {
   "property": "C85",
   "status": "proved",
   "theorems": [
    "C85_separatrix_continuous",
    "C85_acceptance_is_open",
    "C85_equatorial_monotone"
   ],
   "note": "continuity at e=1 itself is not claimed"
  },
  {
   "property": "C86",
   "status": "proved",
   "theorems": [
    "C86_frequencies_continuous",
    "C86_fundamental_frequencies_continuous"
   ],
   "note": "zero spin approached through negative spins is excluded because the code's orientation jumps there (C84)"
  },
  {
   "property": "C87",
   "status": "partial",
   "theorems": [
    "C87_reversed_round_trip_partial",
    "C87_refuted_negative_spin"
   ],
   "note": "the code violates the property for every a<0 and every non-polar orbit (C87_refuted_negative_spin); the round trip is exact if L is negated in between (C87_reversed_round_trip_partial)"
  },
  {
   "property": "C88",
   "status": "proved",
   "theorems": [
    "C88_real_plunge_reaches_horizon",
    "C88_complex_plunge_reaches_horizon"
   ],
   "note": "for complex roots the coordinate time is claimed on a final interval before the crossing, because the code's t is nan at the isolated mirror phases of C57"
  },
  {
   "property": "C89",
   "status": "proved",
   "theorems": [
    "C89_roots_merge",
    "C89_radial_frequency_vanishes"
   ],
   "note": "the separatrix returned by the code is the exact boundary, not an approximation of it"
  },
  {
   "property": "C90",
   "status": "proved",
   "theorems": [
    "C90_binding_energy",
    "C90_bounds_are_sharp"
   ],
   "note": ""
  },
  {
   "property": "C91",
   "status": "proved",
   "theorems": [
    "C91_real_plunge_corotates",
    "C91_complex_plunge_corotates"
   ],
   "note": "hypotheses met by the plunges of C88_case"
  },
  {
   "property": "C92",
   "status": "proved",
   "theorems": [
    "C92_spacetime_decides",
    "C92_negative_spin_raises"
   ],
   "note": ""
  },
  {
   "property": "C93",
   "status": "proved",
   "theorems": [
    "C93_kepler_limit",
    "C93_keplers_third_law"
   ],
   "note": ""
  },
  {
   "property": "C94",
   "status": "proved",
   "theorems": [
    "C94_complex_plunge",
    "C94_real_plunge"
   ],
   "note": ""
  },
  {
   "property": "C95",
   "status": "proved",
   "theorems": [
    "C95_grows_outwards",
    "C95_no_two_orbits_share_an_energy",
    "C95_first_law"
   ],
   "note": ""
  },
  {
   "property": "C96",
   "status": "proved",
   "theorems": [
    "C96_resonant_orbits_close",
    "C96_other_orbits_fill_the_box"
   ],
   "note": ""
  },
  {
   "property": "C97",
   "status": "proved",
   "theorems": [
    "C97_frequencies_extend"
   ],
   "note": ""
  },
  {
   "property": "C98",
   "status": "proved",
   "theorems": [
    "C98_side_panels",
    "C98_bound_orbits"
   ],
   "note": ""
  },
  {
   "property": "C99",
   "status": "proved",
   "theorems": [
    "C99_continuous_dependence"
   ],
   "note": ""
  },
  {
   "property": "C100",
   "status": "proved",
   "theorems": [
    "C100_radial_epicyclic",
    "C100_polar_epicyclic"
   ],
   "note": ""
  },
  {
   "property": "C101",
   "status": "proved",
   "theorems": [
    "C101_schwarzschild_orbits_are_planar"
   ],
   "note": ""
  },
  {
   "property": "C102",
   "status": "proved",
   "theorems": [
    "C102_radius_slower_than_light",
    "C102_radial_period"
   ],
   "note": ""
  },
  {
   "property": "C103",
   "status": "proved",
   "theorems": [
    "C103_moving_clocks_run_slow",
    "C103_bound_is_sharp",
    "C103_bound_orbits"
   ],
   "note": ""
  },
  {
   "property": "C104",
   "status": "proved",
   "theorems": [
    "C104_nothing_stands_still",
    "C104_orbit_refuses",
    "C104_energy_positive_outside",
    "C104_bound_orbits"
   ],
   "note": ""
  },
  {
   "property": "C105",
   "status": "proved",
   "theorems": [
    "C105_stable",
    "C105_plunging"
   ],
   "note": ""
  },
  {
   "property": "C106",
   "status": "proved",
   "theorems": [
    "C106_separatrix_decreases_with_inclination",
    "C106_stability_grows_with_inclination",
    "C106_equatorial_bounds"
   ],
   "note": ""
  },
  {
   "property": "C107",
   "status": "proved",
   "theorems": [
    "C107_separatrix_increases_with_eccentricity",
    "C107_stability_of_rounder_orbits",
    "C107_nothing_stable_below_circular"
   ],
   "note": ""
  },
  {
   "property": "C108",
   "status": "proved",
   "theorems": [
    "C108_separatrix_between_extremal_limits",
    "C108_prograde_below_schwarzschild",
    "C108_always_stable",
    "C108_never_stable",
    "C108_always_stable_prograde",
    "C108_twelve_is_enough",
    "C108_upper_bound_sharp",
    "C108_lower_bound_sharp"
   ],
   "note": ""
  },
  {
   "property": "C109",
   "status": "proved",
   "theorems": [
    "C109_separatrix_decreases_with_spin",
    "C109_stability_grows_with_spin"
   ],
   "note": ""
  },
  {
   "property": "C110",
   "status": "proved",
   "theorems": [
    "C110_critical_inclination",
    "C110_schwarzschild_inclination",
    "C110_critical_eccentricity",
    "C110_critical_spin"
   ],
   "note": ""
  },
  {
   "property": "C111",
   "status": "proved",
   "theorems": [
    "C111_every_resonance_exists",
    "C111_periodic_orbits_exist",
    "C111_schwarzschild_closed_orbits"
   ],
   "note": ""
  },
  {
   "property": "C112",
   "status": "proved",
   "theorems": [
    "C112_wider_orbits",
    "C112_more_eccentric_orbits",
    "C112_advance_integral",
    "C112_advance_shrinks_with_p",
    "C112_advance_grows_with_e",
    "C112_advance_bounds",
    "C112_einstein_precession",
    "C112_closed_orbit_unique"
   ],
   "note": ""
  },
  {
   "property": "C113",
   "status": "proved",
   "theorems": [
    "C113_precessions"
   ],
   "note": ""
  }
 ]
}