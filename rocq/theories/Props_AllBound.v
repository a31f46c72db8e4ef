(** * Property C64: every bound initial condition gives a working Orbit

    C43 starts from apex parameters; with C63 the apex parameters are no longer assumed:
    any initial position and velocity whose constants of motion leave room for a bound orbit
    around the initial radius is turned into an Orbit with these constants, which starts at
    the given position with the given velocity. *)
From Coq Require Import Reals Lra Lia ZArith String List.
From Coquelicot Require Import Coquelicot.
From Verif Require Import Num Outcome External Checked ExternalSpec.
From Verif Require Import Model_Units Model_Constants Model_Frequencies Model_Spacetime Model_InitialConditions Model_Stable Model_Orbit.
From Verif Require Import Spec SpecElliptic Elliptic P_Roots P_Poly P_Validation Props_Validation P_Bounds P_Constants Props_Constants.
From Verif Require Import P_Spacetime Props_Spacetime Props_Plunge Props_Orbit.
From Verif Require Import P_Radial P_Polar P_Traj P_Traj2 P_Traj3 P_Traj4 Props_Trajectory Props_Trajectory2 Props_Trajectory3.
From Verif Require Import Props_Separatrix Props_Finite Props_Frequencies Props_Stability Props_Stability3 P_Phases Props_Phases P_Restart Props_Restart.
From Verif Require Import Props_PlungePhases Props_Apex.
Import ListNotations.
Open Scope R_scope.

Section S.
Context {X : External R} (HX : special_spec X) (HR : root_spec X) (HP : polyroots_spec X).

Lemma carter_nonneg a E L Q th : E^2 < 1 -> sin th <> 0 -> 0 <= polar_potential a E L Q th -> 0 <= Q.
Proof.
  intros HE Hs H. unfold polar_potential in H. pose proof (pow2_ge_0 (cos th)). pose proof (pow2_ge_0 a). pose proof (pow2_ge_0 L).
  assert (0 < sin th ^ 2) by (apply pow2_gt_0; exact Hs).
  assert (0 <= L^2 / sin th ^ 2) by (apply Rmult_le_pos; [lra | left; apply Rinv_0_lt_compat; lra]).
  assert (0 <= a^2 * (1 - E^2)) by (apply Rmult_le_pos; lra).
  assert (0 <= cos th ^ 2 * (a^2 * (1 - E^2) + L^2 / sin th ^ 2)) by (apply Rmult_le_pos; lra). lra.
Qed.

Theorem C64_every_bound_initial_condition :
  forall a E L Q t0 r0 th0 ph0 dt dr dth dph r1 r2 r3 r4 M mu,
  0 < a < 1 -> 0 < th0 < PI ->
  kerr_line_element a r0 th0 dt dr dth dph = -1 ->
  let pos := (Some t0, Some r0, Some th0, Some ph0) in
  let vel := (Some dt, Some dr, Some dth, Some dph) in
  constants_from_initial_conditions (Some a) pos vel = Ret (Some E, Some L, Some Q) ->
  (* bound, between the turning points r2 and r1 outside the horizon *)
  0 < E -> E^2 < 1 -> L <> 0 -> bound_region a E L Q r1 r2 r3 r4 -> r2 <= r0 <= r1 ->
  1 + sqrt (1 - a^2) < r0 ->
  (* not one of the 0/0 cases of C50 and C53, which need a prograde orbit *)
  (0 < L -> 2 * E * (1 + sqrt (1 - a^2)) <> a * L /\
     forall p e x, apex_from_constants (Some a) (Some E) (Some L) (Some Q) = Ret (Some a, Some p, Some e, Some x) ->
     ~ exceptional a p e x) ->
  exists o p e x, Orbit_init (Some a) pos vel M mu = Ret o /\
  p / (1 + e) = r2 /\ p / (1 - e) = r1 /\ 0 <= e < 1 /\ -1 <= x <= 1 /\
  let thmin := acos (sqrt (1 - x^2)) in
  let r_away := tol <= Rabs (r0 - r2) /\ tol <= Rabs (r0 - r1) in
  let th_away := tol <= Rabs (th0 - thmin) /\ tol <= Rabs (th0 - (PI - thmin)) in
  let Sg := Sigma a r0 th0 in
  o_stable o = true /\ o_a o = Some a /\ o_apex o = Some (Some p, Some e, Some x) /\
  o_E o = Some E /\ o_L o = Some L /\ o_Q o = Some Q /\
  (* the orbit's own parameters give these constants *)
  constants_of_motion (Some a) (Some p) (Some e) (Some x) = Ret (Some E, Some L, Some Q) /\
  exists t r theta phi, runs_as (Orbit_trajectory o None "natural" "natural") t r theta phi /\
  t 0 = t0 /\ phi 0 = ph0 /\ Rabs (r 0 - r0) < tol /\ Rabs (theta 0 - th0) < tol /\
  (r_away -> r 0 = r0 /\ is_derive r 0 (Sg * dr)) /\
  (th_away -> theta 0 = th0 /\ is_derive theta 0 (Sg * dth)) /\
  (r_away -> th_away -> is_derive t 0 (Sg * dt) /\ is_derive phi 0 (Sg * dph)).
Proof.
  intros a E L Q t0 r0 th0 ph0 dt dr dth dph r1 r2 r3 r4 M mu Ha Hth HN pos vel HI HE HE1 HL HB Hr Hout HX0.
  pose proof (sin_gt_0 th0 (proj1 Hth) (proj2 Hth)) as S0.
  pose proof HB as (_ & _ & _ & _ & Hm).
  assert (A2 : 0 < a^2 < 1) by nra.
  assert (S2 : 0 < sqrt (1 - a^2)) by (apply sqrt_lt_R0; lra).
  assert (S3 : sqrt (1 - a^2) ^ 2 = 1 - a^2) by (apply pow2_sqrt; lra).
  assert (HD : Delta a r0 <> 0) by (apply Rgt_not_eq; unfold Delta; nra).
  assert (HS : Sigma a r0 th0 <> 0).
  { apply Rgt_not_eq. unfold Sigma. assert (0 < r0^2) by (apply pow_lt; lra). pose proof (pow2_ge_0 (a * cos th0)).
    replace (a^2 * cos th0 ^ 2) with ((a * cos th0)^2) by ring. lra. }
  assert (HQ : 0 <= Q).
  { destruct (C05_recovered_constants_are_momenta a t0 r0 th0 ph0 dt dr dth dph HS HD ltac:(lra)) as (E' & L' & Q' & K & _ & M1 & _).
    unfold pos, vel in HI. rewrite HI in K. apply Ret_inj in K. assert (E = E' /\ L = L' /\ Q = Q') as (<- & <- & <-) by (repeat split; congruence).
    apply (carter_nonneg a E L Q th0 HE1); [lra|]. rewrite <- M1. apply pow2_ge_0. }
  destruct (C63_apex_of_bound_constants HR HP a E L Q r1 r2 r3 r4 ltac:(lra) HE HE1 HQ HB)
    as (p & e & x & AP & He & Hx & Q2 & Q1 & X1 & X2 & X3 & _ & CK & HC).
  assert (X0 : x <> 0) by (intros K; apply HL, X3, K).
  assert (HC' : constants_of_motion (Some a) (Some p) (Some e) (Some x) = Ret (Some E, Some L, Some Q)).
  { apply HC. intros EX. pose proof EX as (_ & Hxp & _). exact (proj2 (HX0 (X1 Hxp)) p e x AP EX). }
  assert (S1 : spin_sign a = 1) by (unfold spin_sign; destruct (Rlt_dec a 0); [lra | reflexivity]).
  assert (NH : 2 * E * (1 + sqrt (1 - a^2)) <> Rabs a * L).
  { rewrite Rabs_right by lra. destruct (Rtotal_order L 0) as [K|[K|K]]; [|contradiction|apply HX0; exact K].
    pose proof (sqrt_pos (1 - a^2)). apply Rgt_not_eq. assert (0 < E * (1 + sqrt (1 - a^2))) by (apply Rmult_lt_0_compat; lra).
    assert (0 < a * - L) by (apply Rmult_lt_0_compat; lra). lra. }
  destruct (proj2 (C53_frequencies_exactly HX HR a p e x E L Q (proj2 He) X0 HC') NH) as (ur & uth & uph & gam & HF).
  pose proof (C43_orbit_reproduces_initial_conditions HX HR HP a p e x ur uth uph gam E L Q t0 r0 th0 ph0 dt dr dth dph M mu
    (proj1 Ha) HF HC' Hth ltac:(lra) HN HI) as K. cbv zeta in K. rewrite Q1, Q2 in K.
  destruct K as (o & HO & O1 & O2 & O3 & O4 & O5 & O6 & O7 & O8 & O9 & t & r & theta & phi & HRu & T0 & P0 & R0 & Th0 & D1 & D2 & D3).
  exists o, p, e, x. cbv zeta.
  refine (conj HO (conj Q2 (conj Q1 (conj He (conj Hx (conj O1 (conj O2 (conj O3 (conj O4 (conj O5 (conj O6 (conj HC' _)))))))))))).
  exists t, r, theta, phi.
  refine (conj HRu (conj T0 (conj P0 (conj R0 (conj Th0 (conj D1 (conj D2 D3))))))).
Qed.

(** every accepted orbit satisfies the hypotheses of C63 *)
Lemma accepted_bound_region a p e x E L Q : 0 <= a -> e < 1 ->
  constants_of_motion (Some a) (Some p) (Some e) (Some x) = Ret (Some E, Some L, Some Q) ->
  0 < E /\ E^2 < 1 /\ 0 <= Q /\ exists r3 r4, bound_region a E L Q (p / (1 - e)) (p / (1 + e)) r3 r4.
Proof.
  intros Ha He HC. destruct (C23_bound_orbits HR a p e x E L Q HC He) as (HE & HQ & _).
  destruct (C15_roots_defined HR a p e x E L Q None HC He ltac:(auto)) as (r1 & r2 & r3 & r4 & _ & -> & -> & R4 & R3 & R21 & HF).
  pose proof (sqrt_pos (1 - a^2)). rewrite Rabs_right in HF by lra.
  refine (conj _ (conj _ (conj HQ _))); [lra | nra |]. exists r3, r4. unfold bound_region. repeat split; try lra. exact HF.
Qed.

(** the hypotheses of C64 are met by a particle at r = 30 in the equatorial plane, moving
    inwards on the inclined retrograde orbit a = 1/2, p = 20, e = 1/2, x = -1/2 *)
Example C64_case : exists E L Q dt dr dth dph r3 r4,
  kerr_line_element (1/2) 30 (PI / 2) dt dr dth dph = -1 /\
  constants_from_initial_conditions (Some (1/2)) (Some 0, Some 30, Some (PI / 2), Some 0) (Some dt, Some dr, Some dth, Some dph)
    = Ret (Some E, Some L, Some Q) /\
  0 < E /\ E^2 < 1 /\ L < 0 /\ 0 < Q /\ bound_region (1/2) E L Q 40 (40/3) r3 r4 /\ dr < 0 /\ 0 < dth /\ 1 + sqrt (1 - (1/2)^2) < 30.
Proof.
  destruct (far_retrograde HX HR (1/2) 20 (1/2) (-1/2)) as (E & L & Q & ur & uth & uph & gam & HC & HF); try lra.
  destruct (accepted_bound_region (1/2) 20 (1/2) (-1/2) E L Q ltac:(lra) ltac:(lra) HC) as (E0 & E1 & Q0 & r3 & r4 & BR).
  replace (20 / (1 - 1/2)) with 40 in BR by field. replace (20 / (1 + 1/2)) with (40/3) in BR by field.
  destruct (C14_polar_turning_point HR (1/2) 20 (1/2) (-1/2) E L Q HC) as (PT & _ & HN & _).
  unfold spin_sign in HN. destruct (Rlt_dec (1/2) 0); [lra|]. specialize (HN ltac:(lra)).
  assert (QP : 0 < Q).
  { unfold polar_polynomial in PT. assert (0 < L^2) by (apply pow2_gt_0; lra). nra. }
  assert (HS : Sigma (1/2) 30 (PI / 2) = 900) by (unfold Sigma; rewrite cos_PI2; ring).
  assert (R2 : 0 < radial_potential (1/2) E L Q 30).
  { destruct BR as (F & O4 & O3 & O2 & _). rewrite F. repeat apply Rmult_lt_0_compat; lra. }
  assert (P2 : polar_potential (1/2) E L Q (PI / 2) = Q) by (unfold polar_potential; rewrite cos_PI2; unfold Rdiv; ring).
  destruct (data_with_constants (1/2) E L Q 0 30 (PI / 2) 0 (- sqrt (radial_potential (1/2) E L Q 30)) (sqrt Q)) as (dt & dph & N & I).
  - rewrite HS. lra.
  - unfold Delta. lra.
  - rewrite sin_PI2. lra.
  - rewrite <- Rsqr_pow2, <- Rsqr_neg, Rsqr_sqrt; lra.
  - rewrite P2. apply pow2_sqrt. lra.
  - exists E, L, Q, dt. do 2 eexists. exists dph, r3, r4.
    refine (conj N (conj I (conj E0 (conj E1 (conj HN (conj QP (conj BR (conj _ (conj _ _))))))))).
    + rewrite HS. pose proof (sqrt_lt_R0 _ R2). lra.
    + rewrite HS. assert (0 < sqrt Q) by (apply sqrt_lt_R0; lra). lra.
    + assert (sqrt (1 - (1/2)^2) <= sqrt 1) by (apply sqrt_le_1; lra). rewrite sqrt_1 in H. lra.
Qed.
End S.
Print Assumptions C64_every_bound_initial_condition.
