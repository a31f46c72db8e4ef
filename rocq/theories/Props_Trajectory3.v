(** * Stable trajectories: the StableOrbit class, and concrete cases for C25 - C30, C51 *)
From Coq Require Import Reals Lra Lia ZArith String List.
From Coquelicot Require Import Coquelicot.
From Verif Require Import Num Outcome External Checked ExternalSpec.
From Verif Require Import Model_Constants Model_Frequencies Model_Spacetime Model_Stable Model_Orbit.
From Verif Require Import Spec SpecElliptic Elliptic P_Validation Props_Validation P_Bounds P_Constants Props_Constants.
From Verif Require Import P_Radial P_Polar P_Traj P_Traj2 P_Traj3 P_Traj4 Props_Trajectory Props_Trajectory2.
Import ListNotations.
Open Scope R_scope.

Section Class.
Context {X : External R} (HX : special_spec X) (HR : root_spec X).

(** A StableOrbit, for a spin of either sign: trajectory() with the phases given to the
    constructor is the trajectory of the orbit with spin |a| and inclination +-x. *)
Theorem C26_stable_orbit_trajectory a p e x qt qr qth qph M mu o :
  StableOrbit_init (Some a) (Some p) (Some e) (Some x) (Some qt, Some qr, Some qth, Some qph) M mu = Ret o ->
  let b := Rabs a in let y := x * spin_sign a in
  exists E L Q,
  constants_of_motion (Some b) (Some p) (Some e) (Some y) = Ret (E, L, Q) /\
  (o_E o, o_L o, o_Q o) = (E, L, Q) /\ o_a o = Some b /\ o_apex o = Some (Some p, Some e, Some y) /\
  mino_frequencies (Some b) (Some p) (Some e) (Some y) = StableOrbit_mino_frequencies o "natural" /\
  Orbit_trajectory o None "natural" "natural"
  = stable_trajectory (Some b) (Some p) (Some e) (Some y) (Some qt, Some qr, Some qth, Some qph) M "natural" "natural".
Proof.
  intros H b y. unfold StableOrbit_init in H. rewrite std_some in H.
  apply bind_inv in H as ([[E L] Q] & HC & H). apply bind_inv in H as ([[[ur ut] up] g] & HF & H).
  apply bind_inv in H as (om & HO & H). apply bind_inv in H as (us & _ & H). apply bind_inv in H as (tr & _ & H).
  apply Ret_inj in H. subst o. exists E, L, Q.
  refine (conj HC (conj eq_refl (conj eq_refl (conj eq_refl (conj _ _))))).
  - exact HF.
  - reflexivity.
Qed.

(** ** concrete cases meeting the hypotheses of C25 - C30 and C51 *)

(** every Schwarzschild orbit with p > 6 + 2e (any eccentricity e < 1, any inclination x <> 0) *)
Example trajectory_case_schwarzschild p e x qt qr qth qph :
  0 <= e < 1 -> 6 + 2 * e < p -> -1 <= x <= 1 -> x <> 0 ->
  exists ur uth uph gam t r theta phi,
  mino_frequencies (Some 0) (Some p) (Some e) (Some x) = Ret (Some ur, Some uth, Some uph, Some gam) /\
  runs_as (stable_trajectory (Some 0) (Some p) (Some e) (Some x) (Some qt, Some qr, Some qth, Some qph) None "natural" "natural")
    t r theta phi.
Proof.
  intros He Hp Hx Nx. destruct (schwarzschild_frequencies_defined HX HR p e x He Hp Hx Nx) as (ur & uth & uph & gam & HF).
  destruct (trajectory_defined HX HR 0 p e x ur uth uph gam (Rle_refl 0) HF qt qr qth qph) as (t & r & theta & phi & H).
  exists ur, uth, uph, gam, t, r, theta, phi. auto.
Qed.
(** and a Kerr orbit *)
Example trajectory_case_kerr qt qr qth qph :
  exists ur uth uph gam t r theta phi,
  mino_frequencies (Some (1/2)) (Some 16) (Some 0) (Some 1) = Ret (Some ur, Some uth, Some uph, Some gam) /\
  runs_as (stable_trajectory (Some (1/2)) (Some 16) (Some 0) (Some 1) (Some qt, Some qr, Some qth, Some qph) None "natural" "natural")
    t r theta phi.
Proof.
  destruct (kerr_frequencies_defined HX HR) as (ur & uth & uph & gam & HF).
  destruct (trajectory_defined HX HR (1/2) 16 0 1 ur uth uph gam ltac:(lra) HF qt qr qth qph) as (t & r & theta & phi & H).
  exists ur, uth, uph, gam, t, r, theta, phi. auto.
Qed.
End Class.
Print Assumptions C25_bound_motion.
Print Assumptions C26_phases.
Print Assumptions C27_periodic.
Print Assumptions C27_deltas_periodic.
Print Assumptions C28_radial_and_polar_equations.
Print Assumptions C29_time_and_azimuth_equations.
Print Assumptions C30_long_time_averages.
Print Assumptions C51_four_velocity_is_derivative.
Print Assumptions trajectory_case_kerr.
