-Q theories Verif
theories/Num.v
theories/Outcome.v
theories/External.v
theories/Model_Units.v
theories/Model_Constants.v
theories/Model_Frequencies.v
theories/Model_Spacetime.v
theories/Model_InitialConditions.v
theories/Model_Stable.v
theories/Model_Plunge.v
theories/Model_Orbit.v
theories/FloatNum.v
theories/Spec.v
theories/Checked.v
theories/ExternalSpec.v
theories/Transfer.v
theories/P_Spacetime.v
theories/Props_Spacetime.v
theories/Props_Units.v
theories/Bernstein.v
theories/SepPoly.v
theories/P_Validation.v
theories/Props_Separatrix.v
theories/Props_Validation.v
theories/P_Poly.v
theories/P_Roots.v
theories/Props_Orbit.v
theories/Props_Orbit2.v
theories/P_Schmidt.v
theories/P_Bounds.v
theories/P_Constants.v
theories/Props_Constants.v
theories/P_Stability.v
theories/P_Stability2.v
theories/P_Stability3.v
theories/P_Stability4.v
theories/P_Stability5.v
theories/Props_Stability.v
theories/Props_Stability2.v
theories/Props_Stability3.v
theories/SpecElliptic.v
theories/Elliptic.v
theories/Carlson.v
theories/Carlson2.v
theories/Props_Elliptic.v
theories/Props_Elliptic2.v
theories/P_Radial.v
theories/P_Polar.v
theories/P_Traj.v
theories/P_Traj2.v
theories/P_Traj3.v
theories/P_Traj4.v
theories/Props_Trajectory.v
theories/Props_Trajectory2.v
theories/Props_Trajectory3.v
theories/P_Quartic.v
theories/Props_Plunge.v
theories/P_Plunge.v
theories/P_Plunge2.v
theories/P_Plunge3.v
theories/P_Plunge4.v
theories/Props_Plunge2.v
theories/Props_Plunge3.v
theories/P_RealPlunge.v
theories/Props_RealPlunge.v
theories/P_Finite.v
theories/Props_Finite.v
theories/Props_Frequencies.v
theories/P_Phases.v
theories/Props_Phases.v
theories/P_Restart.v
theories/Props_Restart.v
theories/Props_SpinReversal.v
theories/Props_PlungePhases.v
theories/Props_PlungeRestart.v
theories/Props_RealPhases.v
theories/P_Apex.v
theories/Props_Apex.v
theories/Props_AllBound.v
theories/Props_Future.v
theories/Props_Constructors.v
theories/Props_EveryOrbit.v
theories/Props_Symmetry.v
theories/Props_Circular.v
theories/Props_Schwarzschild.v
theories/Model_Plot.v
theories/Props_Plot.v
theories/Props_Animate.v
theories/Props_Plot2.v
theories/Props_Cached.v
theories/Props_PastDirected.v
theories/Props_TurningPoint.v
theories/Props_Precession.v
theories/Props_Nodal.v
theories/SpecGeodesic.v
theories/P_Accel.v
theories/P_Geodesic.v
theories/Props_Geodesic.v
theories/Props_Geodesic2.v
theories/Props_ISCO.v
theories/Props_Numerical.v
theories/Props_Separate.v
theories/Props_FromConstants.v
theories/P_Continuity.v
theories/Props_Continuity.v
theories/Props_SepContinuity.v
theories/Props_FreqContinuity.v
theories/Props_ApexSign.v
theories/P_Horizon.v
theories/Props_HorizonTime.v
theories/P_Whirl.v
theories/Props_Whirl.v
theories/Props_Binding.v
theories/Props_Spacetime2.v
theories/P_Kepler.v
theories/Props_Kepler.v
theories/Props_PlungeSymmetry.v
theories/Props_CircularFamily.v
theories/Kronecker.v
theories/Props_Resonance.v
theories/Props_Removable.v
theories/Model_Components.v
theories/Props_Components.v
theories/P_Gronwall.v
theories/Props_Dependence.v
theories/Props_Epicyclic.v
theories/Props_Planar.v
theories/Props_Causal.v
theories/Props_Clocks.v
theories/Props_Ergosphere.v
theories/Props_Offsets.v
theories/P_SepIncl.v
theories/Props_SepIncl.v
theories/P_SepEccPoly.v
theories/P_SepEcc.v
theories/Props_SepEcc.v
theories/Props_SepBounds.v
theories/Props_SepSpin.v
theories/Props_ResExist.v
theories/Props_SchwMono.v
theories/Props_LenseThirring.v
