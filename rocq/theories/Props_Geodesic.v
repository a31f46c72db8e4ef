(** * C79: the trajectories returned by stable_trajectory are timelike geodesics of the metric
    returned by KerrSpacetime.metric (second-order equations included) *)
From Coq Require Import Reals Lra Lia ZArith String List.
From Coquelicot Require Import Coquelicot.
From Verif Require Import Num Outcome External Checked ExternalSpec.
From Verif Require Import Model_Units Model_Constants Model_Frequencies Model_Spacetime Model_Stable.
From Verif Require Import Spec SpecElliptic SpecGeodesic Elliptic P_Validation Props_Validation P_Bounds P_Constants Props_Constants.
From Verif Require Import P_Radial P_Polar P_Accel P_Geodesic P_Traj P_Traj2 P_Traj3 P_Traj4 Props_Trajectory Props_Trajectory2 Props_Restart.
Open Scope R_scope.

(** R'/2 from the factorised potential *)
Lemma radial_force_roots a E L Q r1 r2 r3 r4 :
  (forall r, radial_potential a E L Q r = (1 - E^2) * (r1 - r) * (r - r2) * (r - r3) * (r - r4)) ->
  forall r, radial_force a E L Q r =
   (1 - E^2) / 2 * (- (r - r2) * (r - r3) * (r - r4) + (r1 - r) * ((r - r3) * (r - r4) + (r - r2) * (r - r4) + (r - r2) * (r - r3))).
Proof.
  intros H r.
  assert (D : is_derive (radial_potential a E L Q) r (2 * radial_force a E L Q r)).
  { unfold radial_potential, radial_force, Delta. auto_derive; [trivial|]. ring. }
  assert (D' : is_derive (radial_potential a E L Q) r
     ((1 - E^2) * (- (r - r2) * (r - r3) * (r - r4) + (r1 - r) * ((r - r3) * (r - r4) + (r - r2) * (r - r4) + (r - r2) * (r - r3))))).
  { eapply is_derive_ext; [intros t; symmetry; apply H|]. auto_derive; [trivial|]. ring. }
  pose proof (is_derive_unique _ _ _ D) as U1. pose proof (is_derive_unique _ _ _ D') as U2. rewrite U1 in U2. lra.
Qed.
Lemma polar_force_roots a E L Q zm beta :
  (forall z, polar_polynomial a E L Q z = (zm - z) * (beta - a^2 * (1 - E^2) * z)) ->
  forall th, sin th <> 0 -> polar_force a E L th =
   cos th / sin th ^3 * ((beta - a^2 * (1 - E^2) * cos th^2 + a^2 * (1 - E^2) * (zm - cos th^2)) * sin th^2
     - (zm - cos th^2) * (beta - a^2 * (1 - E^2) * cos th^2)).
Proof.
  intros H th Hs. pose proof (H (cos th^2)) as H1.
  assert (B : beta + a^2 * (1 - E^2) * zm = Q + a^2 * (1 - E^2) + L^2).
  { pose proof (H 0) as F0. pose proof (H 1) as F1. pose proof (H (-1)) as F2. unfold polar_polynomial in *. lra. }
  rewrite <- H1. unfold polar_force, polar_polynomial.
  assert (P : sin th ^2 = 1 - cos th ^2) by (pose proof (sin2_cos2 th) as Z; unfold Rsqr in Z; lra).
  replace (beta - a^2 * (1 - E^2) * cos th^2 + a^2 * (1 - E^2) * (zm - cos th^2)) with (Q + a^2 * (1 - E^2) + L^2 - 2 * a^2 * (1 - E^2) * cos th^2) by lra.
  replace (Q * (1 - cos th^2) - cos th^2 * (a^2 * (1 - E^2) * (1 - cos th^2) + L^2)) with (Q * sin th^2 - cos th^2 * (a^2 * (1 - E^2) * sin th^2 + L^2)) by (rewrite P; ring).
  apply (Rmult_eq_reg_r (sin th ^3)); [|now apply pow_nonzero].
  transitivity (cos th * (a^2 * (1 - E^2) * (sin th^2)^2 + L^2)); [field; assumption|].
  transitivity (cos th * ((Q + a^2 * (1 - E^2) + L^2 - 2 * a^2 * (1 - E^2) * cos th^2) * sin th ^2 - (Q * sin th^2 - cos th^2 * (a^2 * (1 - E^2) * sin th^2 + L^2)))); [|field; assumption].
  rewrite P. ring.
Qed.

Section S.
Context {X : External R} (HX : special_spec X) (HR : root_spec X).
Context (a p e x ur uth uph gam E L Q r1 r2 r3 r4 : R) (zp : option R) (beta a2s : R).
Context (F : orbit_facts a p e x ur uth uph gam E L Q r1 r2 r3 r4 zp beta a2s).
Definition svr (qr l : R) : R := ur * rho' r1 r2 r3 r4 (ellK (kr2 r1 r2 r3 r4) / PI) (psi_r r1 r2 r3 r4) (ur * l + qr).
Definition svth (qth l : R) : R := uth * th' (a^2 * (1 - E^2)) (1 - x^2) beta (2 * ellK (kt2 (a^2 * (1 - E^2)) (1 - x^2) beta) / PI) (psi_t a E (1 - x^2) beta) (uth * l + qth).
Lemma ur_w : (ur * (ellK (kr2 r1 r2 r3 r4) / PI))^2 = sr2 (1 - E^2) r1 r2 r3 r4 / 4.
Proof.
  destruct F. pose proof PI_RGT_0. pose proof (K_pos _ _ _ _ of_kr).
  rewrite of_ur. replace (PI * sqrt (sr2 (1 - E ^ 2) r1 r2 r3 r4) / (2 * ellK (kr2 r1 r2 r3 r4)) * (ellK (kr2 r1 r2 r3 r4) / PI))
    with (sqrt (sr2 (1 - E ^ 2) r1 r2 r3 r4) / 2) by (field; lra).
  rewrite <- (pow2_sqrt (sr2 (1 - E^2) r1 r2 r3 r4)) at 2 by lra. field.
Qed.
Lemma uth_w : (uth * (2 * ellK (kt2 (a^2 * (1 - E^2)) (1 - x^2) beta) / PI))^2 = beta.
Proof.
  destruct F. pose proof PI_RGT_0. pose proof (Kt_pos _ _ _ _ of_z of_kt).
  rewrite of_uth. set (KK := ellK (kt2 (a^2 * (1 - E^2)) (1 - x^2) beta)) in *. clearbody KK.
  replace (PI * sqrt beta / (2 * KK) * (2 * KK / PI)) with (sqrt beta) by (field; lra). apply pow2_sqrt. lra.
Qed.
Lemma svr_derive qr l : is_derive (svr qr) l (radial_force a E L Q (sr ur r1 r2 r3 r4 qr l)).
Proof.
  unfold svr.
  replace (radial_force a E L Q (sr ur r1 r2 r3 r4 qr l)) with (ur * (ur * rho'' r1 r2 r3 r4 (ellK (kr2 r1 r2 r3 r4) / PI) (psi_r r1 r2 r3 r4) (ur * l + qr))).
  - apply (is_derive_scal (fun l => rho' r1 r2 r3 r4 (ellK (kr2 r1 r2 r3 r4) / PI) (psi_r r1 r2 r3 r4) (ur * l + qr))).
    apply (comp_lin (rho' r1 r2 r3 r4 (ellK (kr2 r1 r2 r3 r4) / PI) (psi_r r1 r2 r3 r4))).
    destruct F. apply (rho_derive2 (1 - E^2)); try assumption. intros q'. now apply (psi_r_derive HX).
  - pose proof ur_w as W. destruct F. rewrite (radial_force_roots _ _ _ _ _ _ _ _ of_R).
    rewrite <- Rmult_assoc. replace (ur * ur) with (ur^2) by ring.
    apply (rho_ode2 (1 - E^2) r1 r2 r3 r4 of_s of_ord _ (psi_r r1 r2 r3 r4) (ur * l + qr) ur W).
Qed.
Lemma svth_derive qth l : is_derive (svth qth) l (polar_force a E L (sth a x uth E beta qth l)).
Proof.
  destruct F.
  destruct (th_derive2 (a^2 * (1 - E^2)) (1 - x^2) beta of_z of_b of_kt (2 * ellK (kt2 (a^2 * (1 - E^2)) (1 - x^2) beta) / PI) (psi_t a E (1 - x^2) beta)
     ltac:(intros q'; now apply (psi_t_derive HX)) (uth * l + qth) uth uth_w) as (d & D & O).
  pose proof (sin_th_pos (1 - x^2) of_z (psi_t a E (1 - x^2) beta) (uth * l + qth)) as SP.
  replace (polar_force a E L (sth a x uth E beta qth l)) with (uth * (uth * d)).
  - unfold svth. apply (is_derive_scal (fun l => th' (a^2 * (1 - E^2)) (1 - x^2) beta (2 * ellK (kt2 (a^2 * (1 - E^2)) (1 - x^2) beta) / PI) (psi_t a E (1 - x^2) beta) (uth * l + qth))).
    apply (comp_lin (th' (a^2 * (1 - E^2)) (1 - x^2) beta (2 * ellK (kt2 (a^2 * (1 - E^2)) (1 - x^2) beta) / PI) (psi_t a E (1 - x^2) beta))). exact D.
  - rewrite <- Rmult_assoc. replace (uth * uth) with (uth^2) by ring. rewrite O. symmetry.
    apply (polar_force_roots a E L Q (1 - x^2) beta of_Z). unfold sth, fth. lra.
Qed.
End S.

Section T.
Context {X : External R} (HX : special_spec X) (HR : root_spec X).
Theorem C79_stable_orbits_are_geodesics a p e x ur uth uph gam : 0 <= a ->
  mino_frequencies (Some a) (Some p) (Some e) (Some x) = Ret (Some ur, Some uth, Some uph, Some gam) ->
  forall qt qr qth qph t r theta phi,
  runs_as (stable_trajectory (Some a) (Some p) (Some e) (Some x) (Some qt, Some qr, Some qth, Some qph) None "natural" "natural") t r theta phi ->
  timelike_geodesic (metric_at a) (fun _ => True) (coords t r theta phi) (fun l => Sigma a (r l) (theta l)).
Proof.
  intros Ha HF qt qr qth qph t r theta phi H.
  destruct (mino_facts HX HR a p e x ur uth uph gam Ha HF) as (E & L & Q & r1 & r2 & r3 & r4 & zp & beta & a2s & F).
  pose proof (trajectory_runs HX _ _ _ _ _ _ _ _ _ _ _ _ _ _ _ _ _ _ F qt qr qth qph HF) as R1.
  pose proof (runs_as_unique _ _ _ _ _ _ _ _ _ H R1) as EQ.
  pose proof (of_constants _ _ _ _ _ _ _ _ _ _ _ _ _ _ _ _ _ _ F) as HC.
  pose proof (C25_bound_motion HX HR a p e x ur uth uph gam Ha HF _ _ _ _ _ _ _ _ H) as BD.
  pose proof (C29_time_and_azimuth_equations HX HR a p e x ur uth uph gam Ha HF _ _ _ _ _ _ _ _ H E L Q HC) as TA.
  assert (Er : forall l, r l = sr ur r1 r2 r3 r4 qr l) by (intros l; apply EQ).
  assert (Eth : forall l, theta l = sth a x uth E beta qth l) by (intros l; apply EQ).
  apply (geodesic_from_first_order a E L Q t r theta phi (svr ur r1 r2 r3 r4 qr) (svth a x uth E beta qth)).
  - intros l _. apply filter_forall. trivial.
  - intros l _. destruct (TA l) as (N1 & N2 & _). destruct (BD l) as (B & _). refine (conj _ (conj N1 N2)).
    assert (0 < r l). { destruct F. rewrite <- of_r2 in B. lra. }
    unfold Sigma. pose proof (pow2_ge_0 (a * cos (theta l))). rewrite Rpow_mult_distr in H1. assert (0 < r l ^2) by (apply pow_lt; lra). lra.
  - intros l _. destruct (TA l) as (_ & _ & T1 & T2). refine (conj T1 (conj T2 (conj _ _))).
    + apply (is_derive_ext (sr ur r1 r2 r3 r4 qr)); [intros s; symmetry; apply Er|]. unfold svr. apply comp_lin. exact (fr_derive HX _ _ _ _ _ _ _ _ _ _ _ _ _ _ _ _ _ _ F _).
    + apply (is_derive_ext (sth a x uth E beta qth)); [intros s; symmetry; apply Eth|]. unfold svth. apply comp_lin. exact (fth_derive HX _ _ _ _ _ _ _ _ _ _ _ _ _ _ _ _ _ _ F _).
  - intros l _. split.
    + rewrite Er. pose proof (ur_w _ _ _ _ _ _ _ _ _ _ _ _ _ _ _ _ _ _ F) as W. destruct F. rewrite of_R. apply (rho_ode _ _ _ _ _ of_s of_kr of_ord). exact W.
    + rewrite Eth. pose proof (uth_w _ _ _ _ _ _ _ _ _ _ _ _ _ _ _ _ _ _ F) as W.
      pose proof (sth_sin_pos _ _ _ _ _ _ _ _ _ _ _ _ _ _ _ _ _ _ F qth l) as Sn. destruct F.
      unfold svth. rewrite (th_ode _ _ _ of_z of_b of_kt _ _ _ _ W).
      change (th (1 - x^2) (psi_t a E (1 - x^2) beta) (uth * l + qth)) with (sth a x uth E beta qth l).
      unfold polar_potential. pose proof (of_Z (cos (sth a x uth E beta qth l)^2)) as Z. unfold polar_polynomial in Z. rewrite <- Z.
      replace (1 - cos (sth a x uth E beta qth l) ^ 2) with (sin (sth a x uth E beta qth l) ^ 2) by (rewrite cos2_sin2; ring). field. lra.
  - intros l _. rewrite Er, Eth. split; [exact (svr_derive HX _ _ _ _ _ _ _ _ _ _ _ _ _ _ _ _ _ _ F qr l) | exact (svth_derive HX _ _ _ _ _ _ _ _ _ _ _ _ _ _ _ _ _ _ F qth l)].
Qed.
End T.
