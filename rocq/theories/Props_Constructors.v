(** * C66: the constructors StableOrbit, StableOrbit.from_constants and PlungingOrbit
      return complete, self-consistent orbits *)
From Coq Require Import Reals Lra Lia ZArith String List.
From Coquelicot Require Import Coquelicot.
From Verif Require Import Num Outcome External Checked ExternalSpec.
From Verif Require Import Model_Units Model_Constants Model_Frequencies Model_Spacetime Model_InitialConditions Model_Stable Model_Plunge Model_Orbit.
From Verif Require Import Spec SpecElliptic Elliptic P_Validation Props_Validation P_Bounds P_Schmidt P_Constants Props_Constants.
From Verif Require Import P_Radial P_Polar P_Traj P_Traj2 P_Traj3 P_Traj4 Props_Trajectory Props_Trajectory2.
From Verif Require Import Props_Stability Props_Finite Props_Frequencies Props_Units Props_Plunge Props_Plunge2.
From Verif Require Import Props_RealPlunge Props_PlungePhases Props_PlungeRestart Props_RealPhases Props_Restart Props_Apex Props_AllBound Props_Future.
Import ListNotations.
Open Scope R_scope.

(** ** Specification: what it means for an orbit object's methods to describe one
    geodesic with constants E, L, Q at the Mino times satisfying [ok] *)
Definition describes_geodesic {X : External R} (o : orbit (T := option R)) (a E L Q : R) (ok : R -> Prop)
    (r theta : R -> R) : Prop :=
  exists T1 T2 T3 T4 U1 U2 U3 U4 nrm,
  (* orbit.trajectory(), orbit.four_velocity(), orbit._four_velocity_norm() *)
  Orbit_trajectory o None "natural" "natural" = Ret (T1, T2, T3, T4) /\
  Orbit_four_velocity o None = Ret (U1, U2, U3, U4) /\
  Orbit_four_velocity_norm o None = Ret nrm /\
  (forall l, T2 (Some l) = Ret (Some (r l)) /\ T3 (Some l) = Ret (Some (theta l))) /\
  forall l, ok l ->
  exists vt vr vth vph,
    U1 (Some l) = Ret (Some vt) /\ U2 (Some l) = Ret (Some vr) /\ U3 (Some l) = Ret (Some vth) /\ U4 (Some l) = Ret (Some vph) /\
    is_derive r l (Sigma a (r l) (theta l) * vr) /\ is_derive theta l (Sigma a (r l) (theta l) * vth) /\
    Sigma a (r l) (theta l) * vt = dt_dlambda a E L (r l) (theta l) /\
    Sigma a (r l) (theta l) * vph = dphi_dlambda a E L (r l) (theta l) /\
    (Sigma a (r l) (theta l) * vr)^2 = radial_potential a E L Q (r l) /\
    nrm (Some l) = Ret (Some (-1)).

Lemma norm_ignores (a t t' r th ph ph' : option R) v : norm a t r th ph v = norm a t' r th ph' v.
Proof. destruct v as [[[? ?] ?] ?]. reflexivity. Qed.

Section S.
Context {X : External R} (HX : special_spec X) (HR : root_spec X) (HP : polyroots_spec X).

(** the two functions that are not constrained by [coordinates] return something *)
Lemma stable_total a p e x ph T1 T2 T3 T4 : stable_trajectory a p e x ph None "natural" "natural" = Ret (T1, T2, T3, T4) ->
  forall s : option R, (exists y, T1 s = Ret y) /\ exists y, T4 s = Ret y.
Proof.
  destruct ph as [[[q1 q2] q3] q4]. unfold stable_trajectory.
  destruct (check_units None "natural" "natural"); cbn [bind]; try discriminate.
  destruct (mino_frequencies a p e x) as [[[[ur ut] up] g]| |]; cbn [bind]; try discriminate.
  destruct (constants_of_motion a p e x) as [c| |]; cbn [bind]; try discriminate.
  destruct (stable_radial_roots a p e x (Some c)) as [rr| |]; cbn [bind]; try discriminate.
  destruct (stable_polar_roots a p e x (Some c)) as [zz| |]; cbn [bind]; try discriminate.
  destruct (radial_solutions a c rr) as [[rp t_r] phi_r].
  destruct (polar_solutions a c [fst zz; snd zz]) as [[[thp tth] pth]| |]; cbn [bind]; try discriminate.
  intros H s. unfold assemble_trajectory in H. apply Ret_inj in H. apply pair_equal_spec in H as [H <-]. apply pair_equal_spec in H as [H _].
  apply pair_equal_spec in H as [<- _]. split; eexists; reflexivity.
Qed.

Lemma stable_ignores_M (a p e x : option R) ph (M : option (option R)) :
  stable_trajectory a p e x ph M "natural" "natural" = stable_trajectory a p e x ph None "natural" "natural".
Proof.
  reflexivity.
Qed.
Lemma plunge_total a E L Q ph T1 T2 T3 T4 : plunging_trajectory a E L Q ph None "natural" "natural" = Ret (T1, T2, T3, T4) ->
  forall s : option R, (exists y, T1 s = Ret y) /\ exists y, T4 s = Ret y.
Proof.
  destruct ph as [[[q1 q2] q3] q4]. unfold plunging_trajectory.
  destruct (plunging_radial_roots a E L Q) as [[r1 r2 r3 r4|r1 r2 r3 r4]| |] eqn:Hr; cbn [bind]; try discriminate.
  - unfold real_plunge_trajectory. rewrite Hr.
    destruct (check_units None "natural" "natural"); cbn [bind]; try discriminate.
    destruct (polar_roots_of a E L Q) as [zz| |]; cbn [bind]; try discriminate.
    destruct (mino_frequencies_from_constants a (E, L, Q) (r1, r2, r3, r4) zz) as [[[[ur ut] up] g]| |]; cbn [bind]; try discriminate.
    destruct (radial_solutions a (E, L, Q) (r1, r2, r3, r4)) as [[rp t_r] phi_r].
    destruct (polar_solutions a (E, L, Q) [fst zz; snd zz]) as [[[thp tth] pth]| |]; cbn [bind]; try discriminate.
    intros H s. unfold assemble_trajectory in H. apply Ret_inj in H. apply pair_equal_spec in H as [H <-]. apply pair_equal_spec in H as [H _].
    apply pair_equal_spec in H as [<- _]. split; eexists; reflexivity.
  - unfold complex_plunge_trajectory.
    destruct (check_units None "natural" "natural"); cbn [bind]; try discriminate.
    destruct (plunging_mino_frequencies a E L Q) as [[ur ut]| |]; cbn [bind]; try discriminate.
    destruct (plunging_radial_solutions_complex a E L Q) as [[[rp t_r] phi_r]| |]; cbn [bind]; try discriminate.
    destruct (plunging_polar_solutions a E L Q) as [[[thp tth] pth]| |]; cbn [bind]; try discriminate.
    intros H s. apply Ret_inj in H. apply pair_equal_spec in H as [H <-]. apply pair_equal_spec in H as [H _].
    apply pair_equal_spec in H as [<- _]. split; eexists; reflexivity.
Qed.

(** evaluating the norm method *)
Lemma norm_method (o : orbit (T := option R)) T1 T2 T3 T4 U1 U2 U3 U4 :
  Orbit_trajectory o None "natural" "natural" = Ret (T1, T2, T3, T4) ->
  Orbit_four_velocity o None = Ret (U1, U2, U3, U4) ->
  (forall s, (exists y, T1 s = Ret y) /\ exists y, T4 s = Ret y) ->
  exists nrm, Orbit_four_velocity_norm o None = Ret nrm /\
  forall l r th vt vr vth vph, T2 (Some l) = Ret (Some r) -> T3 (Some l) = Ret (Some th) ->
  U1 (Some l) = Ret (Some vt) -> U2 (Some l) = Ret (Some vr) -> U3 (Some l) = Ret (Some vth) -> U4 (Some l) = Ret (Some vph) ->
  nrm (Some l) = Ret (norm (o_a o) (Some 0) (Some r) (Some th) (Some 0) (Some vt, Some vr, Some vth, Some vph)).
Proof.
  intros HT HU HO. unfold Orbit_four_velocity_norm.
  assert (HT' : Orbit_trajectory o (Some (o_phases o)) "natural" "natural" = Ret (T1, T2, T3, T4)) by exact HT.
  assert (HU' : Orbit_four_velocity o (Some (o_phases o)) = Ret (U1, U2, U3, U4)) by exact HU.
  rewrite HT'. cbn [bind]. rewrite HU'. cbn [bind]. eexists. split; [reflexivity|].
  intros l r th vt vr vth vph A1 A2 A3 A4 A5 A6. cbv beta. rewrite A3, A4, A5, A6. cbn [bind].
  destruct (HO (Some l)) as [(y & ->) (z & ->)]. rewrite A1, A2. cbn [bind]. reflexivity.
Qed.

(** ** StableOrbit(a, p, e, x, initial_phases, M, mu), spins of either sign *)
Theorem C66_stable_orbit a p e x qt qr qth qph M mu ur uth uph gam :
  mino_frequencies (Some a) (Some p) (Some e) (Some x) = Ret (Some ur, Some uth, Some uph, Some gam) ->
  exists o E L Q r theta,
  StableOrbit_init (Some a) (Some p) (Some e) (Some x) (Some qt, Some qr, Some qth, Some qph) M mu = Ret o /\
  constants_of_motion (Some a) (Some p) (Some e) (Some x) = Ret (Some E, Some L, Some Q) /\
  o_a o = Some (Rabs a) /\ o_apex o = Some (Some p, Some e, Some (x * spin_sign a)) /\
  o_E o = Some E /\ o_L o = Some L /\ o_Q o = Some Q /\ o_M o = M /\ o_mu o = mu /\
  o_stable o = true /\ o_phases o = (Some qt, Some qr, Some qth, Some qph) /\
  o_upsilon_r o = Some ur /\ o_upsilon_theta o = Some uth /\ o_mino o = Some (Some uph, Some gam) /\
  o_omega o = Some (Some (ur / gam), Some (uth / gam), Some (uph / gam)) /\
  describes_geodesic o (Rabs a) E L Q (fun _ => True) r theta /\
  (forall l, p / (1 + e) <= r l <= p / (1 - e)) /\
  exists t phi, runs_as (Orbit_trajectory o None "natural" "natural") t r theta phi /\ t 0 = qt /\ phi 0 = qph /\
  forall l, is_derive t l (dt_dlambda (Rabs a) E L (r l) (theta l)) /\ is_derive phi l (dphi_dlambda (Rabs a) E L (r l) (theta l)).
Proof.
  intros HF. destruct (C65_fundamental_frequencies HX HR a p e x ur uth uph gam HF) as (G0 & HO & _).
  pose proof HF as HF'. rewrite mino_std in HF'. set (a' := Rabs a) in *. set (x' := x * spin_sign a) in *.
  pose proof (Rabs_pos a) as Ha. fold a' in Ha.
  destruct (mino_facts HX HR a' p e x' ur uth uph gam Ha HF') as (E & L & Q & r1 & r2 & r3 & r4 & zp & beta & a2s & FA).
  pose proof (of_constants _ _ _ _ _ _ _ _ _ _ _ _ _ _ _ _ _ _ FA) as HC.
  destruct (trajectory_defined HX HR a' p e x' ur uth uph gam Ha HF' qt qr qth qph) as (t & r & theta & phi & H).
  pose proof H as (T1 & T2 & T3 & T4 & HT & HV).
  pose proof (C51_four_velocity_is_derivative HX HR a' p e x' ur uth uph gam Ha HF' qt qr qth qph T1 T2 T3 T4 t r theta phi E L Q HT H HC) as V.
  destruct (four_velocity (Some a') T2 T3 (Some E, Some L, Some Q) (Some ur) (Some uth) (Some qt, Some qr, Some qth, Some qph))
    as [[[U1 U2] U3] U4] eqn:EU.
  assert (HO' : fundamental_frequencies (Some a') (Some p) (Some e) (Some x') = Ret (Some (ur / gam), Some (uth / gam), Some (uph / gam))).
  { destruct (C65_fundamental_frequencies HX HR a' p e x' ur uth uph gam HF') as (_ & K & _). exact K. }
  set (o := mkOrbit (Some a') M mu (Some E) (Some L) (Some Q) true (Some (Some p, Some e, Some x')) (Some ur) (Some uth)
              (Some (Some uph, Some gam)) (Some (Some (ur / gam), Some (uth / gam), Some (uph / gam))) (Some qt, Some qr, Some qth, Some qph)).
  assert (TRo : Orbit_trajectory o None "natural" "natural" = Ret (T1, T2, T3, T4)).
  { unfold Orbit_trajectory, o. cbn [o_apex o_a o_phases o_M]. rewrite stable_ignores_M. exact HT. }
  assert (FVo : Orbit_four_velocity o None = Ret (U1, U2, U3, U4)).
  { unfold Orbit_four_velocity.
    assert (K : Orbit_trajectory o (Some (o_phases o)) "natural" "natural" = Ret (T1, T2, T3, T4)) by exact TRo.
    rewrite K. cbn [bind]. unfold o. cbn [o_a o_E o_L o_Q o_upsilon_r o_upsilon_theta o_phases]. rewrite EU. reflexivity. }
  exists o, E, L, Q, r, theta.
  assert (IN : StableOrbit_init (Some a) (Some p) (Some e) (Some x) (Some qt, Some qr, Some qth, Some qph) M mu = Ret o).
  { unfold StableOrbit_init. rewrite std_some. fold a' x'. rewrite HC. cbn [bind]. rewrite HF'. cbn [bind]. rewrite HO'. cbn [bind].
    fold o. rewrite FVo. cbn [bind]. rewrite TRo. reflexivity. }
  assert (D34 : forall l, is_derive t l (dt_dlambda a' E L (r l) (theta l)) /\ is_derive phi l (dphi_dlambda a' E L (r l) (theta l))).
  { intros l. destruct (C29_time_and_azimuth_equations HX HR a' p e x' ur uth uph gam Ha HF' qt qr qth qph t r theta phi H E L Q HC l) as (_ & _ & D3 & D4). auto. }
  refine (conj IN (conj _ _)). { rewrite constants_std. exact HC. }
  do 13 (refine (conj eq_refl _)).
  destruct (norm_method o T1 T2 T3 T4 U1 U2 U3 U4 TRo FVo (stable_total _ _ _ _ _ _ _ _ _ HT)) as (nrm & HN & NV).
  split; [|split].
  - exists T1, T2, T3, T4, U1, U2, U3, U4, nrm.
    refine (conj TRo (conj FVo (conj HN (conj _ _)))). { intros l. destruct (HV l) as (_ & K2 & K3 & _). auto. }
    intros l _. destruct (V l) as (vt & vr & vth & vph & A1 & A2 & A3 & A4 & B1 & B2 & B3 & B4 & NM).
    exists vt, vr, vth, vph. destruct (D34 l) as [D3 D4].
    destruct (C28_radial_and_polar_equations HX HR a' p e x' ur uth uph gam Ha HF' qt qr qth qph t r theta phi H E L Q HC l)
      as (r' & th' & D1 & _ & O1 & _).
    refine (conj A1 (conj A2 (conj A3 (conj A4 (conj B2 (conj B3 (conj _ (conj _ (conj _ _))))))))).
    + rewrite <- (is_derive_unique _ _ _ B1). apply is_derive_unique, D3.
    + rewrite <- (is_derive_unique _ _ _ B4). apply is_derive_unique, D4.
    + rewrite <- (is_derive_unique _ _ _ B2), (is_derive_unique _ _ _ D1). exact O1.
    + destruct (HV l) as (_ & K2 & K3 & _). rewrite (NV l _ _ _ _ _ _ K2 K3 A1 A2 A3 A4). f_equal.
      rewrite <- NM. apply norm_ignores.
  - intros l. apply (C25_bound_motion HX HR a' p e x' ur uth uph gam Ha HF' qt qr qth qph t r theta phi H l).
  - exists t, phi. destruct (C26_start HX HR a' p e x' ur uth uph gam Ha HF' qt qr qth qph t r theta phi H) as (S1 & S2).
    refine (conj _ (conj S1 (conj S2 D34))). rewrite TRo. exists T1, T2, T3, T4. split; [reflexivity | exact HV].
Qed.

(** ** StableOrbit.from_constants(a, E, L, Q): for every set of bound constants *)
Theorem C66_from_constants a E L Q qt qr qth qph M mu r1 r2 r3 r4 :
  0 <= a < 1 -> 0 < E -> E^2 < 1 -> 0 <= Q -> L <> 0 -> bound_region a E L Q r1 r2 r3 r4 ->
  (0 < L -> 2 * E * (1 + sqrt (1 - a^2)) <> a * L /\
     forall p e x, apex_from_constants (Some a) (Some E) (Some L) (Some Q) = Ret (Some a, Some p, Some e, Some x) ->
     ~ exceptional a p e x) ->
  exists o p e x r theta,
  StableOrbit_from_constants (Some a) (Some E) (Some L) (Some Q) (Some qt, Some qr, Some qth, Some qph) M mu = Ret o /\
  p / (1 + e) = r2 /\ p / (1 - e) = r1 /\ 0 <= e < 1 /\
  o_a o = Some a /\ o_apex o = Some (Some p, Some e, Some x) /\ o_E o = Some E /\ o_L o = Some L /\ o_Q o = Some Q /\
  StableOrbit_init (Some a) (Some p) (Some e) (Some x) (Some qt, Some qr, Some qth, Some qph) M mu = Ret o /\
  describes_geodesic o a E L Q (fun _ => True) r theta /\ forall l, r2 <= r l <= r1.
Proof.
  intros Ha HE HE1 HQ HL HB HX0.
  destruct (C63_apex_of_bound_constants HR HP a E L Q r1 r2 r3 r4 Ha HE HE1 HQ HB)
    as (p & e & x & AP & He & Hx & Q2 & Q1 & X1 & X2 & X3 & _ & CK & HC).
  assert (X0 : x <> 0) by tauto.
  assert (HC' : constants_of_motion (Some a) (Some p) (Some e) (Some x) = Ret (Some E, Some L, Some Q)).
  { apply HC. intros EX. pose proof EX as (_ & Hxp & _). exact (proj2 (HX0 (X1 Hxp)) p e x AP EX). }
  assert (S1 : spin_sign a = 1) by (unfold spin_sign; destruct (Rlt_dec a 0); [lra | reflexivity]).
  assert (NH : 2 * E * (1 + sqrt (1 - a^2)) <> Rabs a * L).
  { rewrite Rabs_right by lra. destruct (Rtotal_order L 0) as [K|[K|K]]; [|contradiction|apply HX0; exact K].
    pose proof (sqrt_pos (1 - a^2)). apply Rgt_not_eq. assert (0 < E * (1 + sqrt (1 - a^2))) by (apply Rmult_lt_0_compat; lra).
    assert (0 <= a * - L) by (apply Rmult_le_pos; lra). lra. }
  destruct (proj2 (C53_frequencies_exactly HX HR a p e x E L Q (proj2 He) X0 HC') NH) as (ur & uth & uph & gam & HF).
  destruct (C66_stable_orbit a p e x qt qr qth qph M mu ur uth uph gam HF)
    as (o & E' & L' & Q' & r & theta & I & C & A1 & A2 & A3 & A4 & A5 & _ & _ & _ & _ & _ & _ & _ & _ & DG & B & _).
  rewrite HC' in C. apply Ret_inj in C. assert (E = E' /\ L = L' /\ Q = Q') as (<- & <- & <-) by (repeat split; congruence).
  rewrite Rabs_right in A1, DG by lra. rewrite S1, Rmult_1_r in A2. rewrite Q1, Q2 in B.
  exists o, p, e, x, r, theta.
  refine (conj _ (conj Q2 (conj Q1 (conj He (conj A1 (conj A2 (conj A3 (conj A4 (conj A5 (conj I (conj DG B))))))))))).
  unfold StableOrbit_from_constants. rewrite AP. cbn [bind]. exact I.
Qed.

(** ** PlungingOrbit(a, E, L, Q, initial_phases, M, mu) *)
Lemma plunging_orbit_common a E L Q qt qr qth qph M mu ur ut T1 T2 T3 T4 r theta : a <> 0 ->
  plunge_run a E L Q qt qr qth qph = Ret (T1, T2, T3, T4) ->
  (forall l, T2 (Some l) = Ret (Some (r l)) /\ T3 (Some l) = Ret (Some (theta l))) ->
  plunging_mino_frequencies (Some a) (Some E) (Some L) (Some Q) = Ret (Some ur, Some ut) ->
  (let '(u_t, u_r, u_theta, u_phi) :=
    four_velocity (Some a) T2 T3 (Some E, Some L, Some Q) (Some ur) (Some ut) (Some qt, Some qr, Some qth, Some qph) in
  forall l, Delta a (r l) <> 0 -> Sigma a (r l) (theta l) <> 0 ->
  exists vt vr vth vph,
    u_t (Some l) = Ret (Some vt) /\ u_r (Some l) = Ret (Some vr) /\
    u_theta (Some l) = Ret (Some vth) /\ u_phi (Some l) = Ret (Some vph) /\
    is_derive r l (Sigma a (r l) (theta l) * vr) /\ is_derive theta l (Sigma a (r l) (theta l) * vth) /\
    Sigma a (r l) (theta l) * vt = dt_dlambda a E L (r l) (theta l) /\
    Sigma a (r l) (theta l) * vph = dphi_dlambda a E L (r l) (theta l) /\
    forall t phi, norm (Some a) (Some t) (Some (r l)) (Some (theta l)) (Some phi) (Some vt, Some vr, Some vth, Some vph) = Some (-1)) ->
  (forall l, exists d, is_derive r l d /\ d^2 = radial_potential a E L Q (r l)) ->
  exists o, PlungingOrbit_init (Some a) (Some E) (Some L) (Some Q) (Some qt, Some qr, Some qth, Some qph) M mu = Ret o /\
  o_a o = Some a /\ o_E o = Some E /\ o_L o = Some L /\ o_Q o = Some Q /\ o_M o = M /\ o_mu o = mu /\
  o_stable o = false /\ o_apex o = None /\ o_phases o = (Some qt, Some qr, Some qth, Some qph) /\
  o_upsilon_r o = Some ur /\ o_upsilon_theta o = Some ut /\
  describes_geodesic o a E L Q (fun l => Delta a (r l) <> 0 /\ Sigma a (r l) (theta l) <> 0) r theta.
Proof.
  intros Ha HT HV HF V DR.
  destruct (four_velocity (Some a) T2 T3 (Some E, Some L, Some Q) (Some ur) (Some ut) (Some qt, Some qr, Some qth, Some qph))
    as [[[U1 U2] U3] U4] eqn:EU.
  set (o := mkOrbit (Some a) M mu (Some E) (Some L) (Some Q) false None (Some ur) (Some ut) None None (Some qt, Some qr, Some qth, Some qph)).
  assert (TRo : Orbit_trajectory o None "natural" "natural" = Ret (T1, T2, T3, T4)).
  { unfold Orbit_trajectory, o. cbn [o_apex o_a o_phases o_M o_E o_L o_Q]. rewrite plunge_ignores_M. exact HT. }
  assert (FVo : Orbit_four_velocity o None = Ret (U1, U2, U3, U4)).
  { unfold Orbit_four_velocity.
    assert (K : Orbit_trajectory o (Some (o_phases o)) "natural" "natural" = Ret (T1, T2, T3, T4)) by exact TRo.
    rewrite K. cbn [bind]. unfold o. cbn [o_a o_E o_L o_Q o_upsilon_r o_upsilon_theta o_phases]. rewrite EU. reflexivity. }
  exists o.
  assert (E0 : neqb (Some a) (nZ 0) = Some false). { cnum. now rewrite Reqb_false. }
  split. { unfold PlungingOrbit_init. rewrite E0. cbn [ifo]. rewrite HF. cbn [bind]. fold o. rewrite FVo. cbn [bind]. rewrite TRo. reflexivity. }
  do 11 (refine (conj eq_refl _)).
  destruct (norm_method o T1 T2 T3 T4 U1 U2 U3 U4 TRo FVo (plunge_total _ _ _ _ _ _ _ _ _ HT)) as (nrm & HN & NV).
  exists T1, T2, T3, T4, U1, U2, U3, U4, nrm. refine (conj TRo (conj FVo (conj HN (conj HV _)))).
  intros l [HD HS]. destruct (V l HD HS) as (vt & vr & vth & vph & A1 & A2 & A3 & A4 & B2 & B3 & B1 & B4 & NM).
  exists vt, vr, vth, vph. destruct (DR l) as (d & D1 & O1).
  refine (conj A1 (conj A2 (conj A3 (conj A4 (conj B2 (conj B3 (conj B1 (conj B4 (conj _ _))))))))).
  - rewrite <- (is_derive_unique _ _ _ B2), (is_derive_unique _ _ _ D1). exact O1.
  - destruct (HV l) as (K2 & K3). rewrite (NV l _ _ _ _ _ _ K2 K3 A1 A2 A3 A4). unfold o. cbn [o_a]. rewrite NM. reflexivity.
Qed.

Theorem C66_plunging_orbit a E L Q qt qr qth qph M mu : 0 < a^2 < 1 -> E^2 < 1 -> L <> 0 -> 0 <= Q ->
  (* when there are four real roots, the two turning points of the plunge are simple *)
  (forall r1 r2 r3 r4, plunging_radial_roots (Some a) (Some E) (Some L) (Some Q)
     = Ret (RealRoots (Some r1) (Some r2) (Some r3) (Some r4)) -> r1 <> r4 /\ r2 <> r3) ->
  exists o rin rout r theta,
  PlungingOrbit_init (Some a) (Some E) (Some L) (Some Q) (Some qt, Some qr, Some qth, Some qph) M mu = Ret o /\
  o_a o = Some a /\ o_E o = Some E /\ o_L o = Some L /\ o_Q o = Some Q /\ o_M o = M /\ o_mu o = mu /\
  o_stable o = false /\ o_apex o = None /\ o_phases o = (Some qt, Some qr, Some qth, Some qph) /\
  describes_geodesic o a E L Q (fun l => Delta a (r l) <> 0 /\ Sigma a (r l) (theta l) <> 0) r theta /\
  (* the motion is between two turning points, both of which are reached *)
  radial_potential a E L Q rin = 0 /\ radial_potential a E L Q rout = 0 /\
  (forall l, rin <= r l <= rout) /\ (exists l, r l = rin) /\ (exists l, r l = rout).
Proof.
  intros Ha HE HL HQ ND. assert (An : a <> 0) by (intros ->; lra). pose proof PI_RGT_0.
  destruct (C36_total HP a E L Q ltac:(lra) HE) as (rts & HRt).
  destruct (C36_returned_roots HP a E L Q rts HRt) as (_ & [(r1 & r2 & r3 & r4 & -> & F & _)|(r1 & r2 & u & v & -> & F & O & Hv)]).
  - assert (HC : real_plunge a E L Q r1 r2 r3 r4). { split; [exact HRt | apply (ND _ _ _ _ HRt)]. }
    destruct (C58_radial_and_polar_equations HP HX a E L Q Ha HE HL HQ r1 r2 r3 r4 HC qt qr qth qph) as (r & theta & CC & _ & _ & X1 & X2 & B).
    pose proof CC as (T1 & T2 & T3 & T4 & HT & HV).
    assert (FQ : exists ur ut, plunging_mino_frequencies (Some a) (Some E) (Some L) (Some Q) = Ret (Some ur, Some ut)).
    { destruct (freqs_real HP HX a E L Q Ha HE HL HQ r1 r2 r3 r4 HC) as (up & ga & Fr & _).
      unfold plunging_mino_frequencies. rewrite HRt. cbn [bind]. rewrite (polar_roots_run HP a E L Q Ha HE HL HQ). cbn [bind].
      rewrite Fr. cbn [bind]. do 2 eexists; reflexivity. }
    destruct FQ as (ur & ut & FQ).
    pose proof (C60_real_four_velocity_is_derivative HP HX a E L Q Ha HE HL HQ r1 r2 r3 r4 HC qt qr qth qph r theta ur ut T1 T2 T3 T4 HT CC FQ) as V.
    destruct (plunging_orbit_common a E L Q qt qr qth qph M mu ur ut T1 T2 T3 T4 r theta An HT HV FQ V) as (o & I & A1 & A2 & A3 & A4 & A5 & A6 & A7 & A8 & A9 & _ & _ & DG).
    { intros l. apply B. }
    exists o, r2, r1, r, theta.
    refine (conj I (conj A1 (conj A2 (conj A3 (conj A4 (conj A5 (conj A6 (conj A7 (conj A8 (conj A9 (conj DG (conj _ (conj _ (conj _ (conj X2 X1))))))))))))))); [rewrite F; ring ..|].
    intros l. apply B.
  - assert (HC : complex_plunge a E L Q r1 r2). { do 2 eexists. exact HRt. }
    destruct (C39_plunges_are_defined HP HX a E L Q An HE HL HQ r1 r2 qt qr qth qph HC) as ((ur & ut & FQ & U1 & U2) & r & theta & CC).
    pose proof CC as (T1 & T2 & T3 & T4 & HT & HV).
    pose proof (C60_four_velocity_is_derivative HP HX a E L Q An HE HL HQ r1 r2 qt qr qth qph r theta ur ut T1 T2 T3 T4 HC HT CC FQ) as V.
    destruct (plunging_orbit_common a E L Q qt qr qth qph M mu ur ut T1 T2 T3 T4 r theta An HT HV FQ V) as (o & I & A1 & A2 & A3 & A4 & A5 & A6 & A7 & A8 & A9 & _ & _ & DG).
    { intros l. destruct (C40_radial_and_polar_equations HP HX a E L Q An HE HL HQ r1 r2 qt qr qth qph r theta HC CC l) as (r' & th' & D1 & _ & O1 & _). eauto. }
    exists o, r1, r2, r, theta.
    pose proof (C39_plunge_phases HP HX a E L Q An HE HL HQ r1 r2 qt qr qth qph r theta ur ut HC CC FQ) as PH.
    refine (conj I (conj A1 (conj A2 (conj A3 (conj A4 (conj A5 (conj A6 (conj A7 (conj A8 (conj A9 (conj DG (conj _ (conj _ (conj _ (conj _ _))))))))))))))); [rewrite F; ring ..| | |].
    + intros l. apply (C39_plunge_bounds HP HX a E L Q An HE HL HQ r1 r2 qt qr qth qph r theta HC CC l).
    + exists (- qr / ur). apply (PH _ 0%Z). field. lra.
    + exists ((PI - qr) / ur). apply (PH _ 0%Z). field. lra.
Qed.
End S.

(** ** concrete cases *)
Example C65_C66_case {X : External R} (HX : special_spec X) (HR : root_spec X) :
  exists ur uth uph gam,
  mino_frequencies (Some (1/2)) (Some 16) (Some 0) (Some 1) = Ret (Some ur, Some uth, Some uph, Some gam).
Proof.
  destruct (C54_example X HR) as (_ & _ & NM). pose proof (constants_example X HR) as HC. cbv zeta in HC.
  assert (S1 : 2 * (113 / (16 * sqrt 53)) * (1 + sqrt (1 - (1/2)^2)) <> Rabs (1/2) * (1009 / (32 * sqrt 53))).
  { rewrite Rabs_right by lra. exact NM. }
  exact (proj2 (C53_frequencies_exactly HX HR (1/2) 16 0 1 _ _ _ Rlt_0_1 R1_neq_R0 HC) S1).
Qed.
Print Assumptions C66_stable_orbit.
Print Assumptions C66_from_constants.
Print Assumptions C66_plunging_orbit.
