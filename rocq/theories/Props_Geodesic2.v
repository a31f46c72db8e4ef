(** * C79 for plunges: the trajectories returned by plunging_trajectory are timelike geodesics of the metric
    returned by KerrSpacetime.metric, off the horizons *)
From Coq Require Import Reals Lra Lia ZArith String List.
From Coquelicot Require Import Coquelicot.
From Verif Require Import Num Outcome External Checked ExternalSpec.
From Verif Require Import Model_Units Model_Constants Model_Frequencies Model_Spacetime Model_Stable Model_Plunge.
From Verif Require Import Spec SpecElliptic SpecGeodesic Elliptic Props_Constants.
From Verif Require Import P_Radial P_Polar P_Traj P_Accel P_Geodesic P_Plunge P_Plunge2 P_Plunge3 P_Plunge4 P_Traj2 P_Traj3 P_Traj4 P_RealPlunge.
From Verif Require Import Props_Trajectory Props_Trajectory2 Props_Restart Props_Plunge Props_Plunge2 Props_Plunge3 Props_RealPlunge Props_Geodesic.
Open Scope R_scope.

(** R'/2 from the potential with two complex roots *)
Lemma radial_force_complex a E L Q r1 r2 u v :
  (forall r, radial_potential a E L Q r = (1 - E^2) * (r2 - r) * (r - r1) * ((r - u)^2 + v^2)) ->
  forall r, radial_force a E L Q r =
   (1 - E^2) / 2 * ((- (r - r1) + (r2 - r)) * ((r - u)^2 + v^2) + (r2 - r) * (r - r1) * (2 * (r - u))).
Proof.
  intros H r.
  assert (D : is_derive (radial_potential a E L Q) r (2 * radial_force a E L Q r)).
  { unfold radial_potential, radial_force, Delta. auto_derive; [trivial|]. ring. }
  assert (D' : is_derive (radial_potential a E L Q) r
     ((1 - E^2) * ((- (r - r1) + (r2 - r)) * ((r - u)^2 + v^2) + (r2 - r) * (r - r1) * (2 * (r - u))))).
  { eapply is_derive_ext; [intros t; symmetry; apply H|]. auto_derive; [trivial|]. ring. }
  pose proof (is_derive_unique _ _ _ D) as U1. pose proof (is_derive_unique _ _ _ D') as U2. rewrite U1 in U2. lra.
Qed.
Lemma sigma_open a (r th : R -> R) l : (exists d, is_derive r l d) -> (exists d, is_derive th l d) ->
  0 < Sigma a (r l) (th l) -> locally l (fun s => 0 < Sigma a (r s) (th s)).
Proof.
  intros [d D] [d' D'] H.
  assert (C : continuous (fun s => Sigma a (r s) (th s)) l).
  { apply (ex_derive_continuous (V := R_NormedModule) (fun s => Sigma a (r s) (th s)) l).
    unfold Sigma. auto_derive. repeat split; [exists d; exact D | exists d'; exact D']. }
  apply (C (fun y => 0 < y)). now apply open_gt.
Qed.
Lemma Delta_open a (r : R -> R) l : (exists d, is_derive r l d) -> Delta a (r l) <> 0 -> locally l (fun s => Delta a (r s) <> 0).
Proof.
  intros [d D] H.
  assert (C : continuous (fun s => Delta a (r s)) l).
  { apply (ex_derive_continuous (V := R_NormedModule) (fun s => Delta a (r s)) l).
    unfold Delta. auto_derive. repeat split; exists d; exact D. }
  apply (C (fun y => y <> 0)). now apply open_neq.
Qed.

Section Complex.
Context {X : External R} (HP : polyroots_spec X) (HX : special_spec X).
Context (a E L Q : R) (Ha : a <> 0) (Ha1 : a^2 < 1) (HE : E^2 < 1) (HL : L <> 0) (HQ : 0 <= Q).
Theorem C79_complex_plunges_are_geodesics r1 r2 qt qr qth qph r theta ur ut :
  complex_plunge a E L Q r1 r2 ->
  coordinates (plunge_run a E L Q qt qr qth qph) r theta ->
  plunging_mino_frequencies (Some a) (Some E) (Some L) (Some Q) = Ret (Some ur, Some ut) ->
  Delta a r1 <> 0 -> Delta a r2 <> 0 -> r1 + r2 <> 1 / (1 - E^2) ->
  (forall l, ur * l + qr = PI / 2 -> Delta a (r l) <> 0) ->
  clear_of_horizons a r ur 0 ->
  exists T1 T2 T3 T4 t phi, plunge_run a E L Q qt qr qth qph = Ret (T1, T2, T3, T4) /\
  t 0 = qt /\ phi 0 = qph /\
  (forall l, T2 (Some l) = Ret (Some (r l)) /\ T3 (Some l) = Ret (Some (theta l))) /\
  (forall l, clear_of_horizons a r ur l -> T1 (Some l) = Ret (Some (t l)) /\ T4 (Some l) = Ret (Some (phi l))) /\
  timelike_geodesic (metric_at a) (fun l => clear_of_horizons a r ur l /\ 0 < Sigma a (r l) (theta l))
    (coords t r theta phi) (fun l => Sigma a (r l) (theta l)).
Proof.
  intros C H F N1 N2 N12 Nq N0.
  destruct (C57_time_and_azimuth_equations HP HX a E L Q Ha Ha1 HE HL HQ r1 r2 qt qr qth qph r theta ur ut C H F N1 N2 N12 Nq N0)
    as (T1 & T2 & T3 & T4 & t & phi & RUN & t0 & ph0 & TA).
  exists T1, T2, T3, T4, t, phi. refine (conj RUN (conj t0 (conj ph0 (conj _ (conj _ _))))).
  { destruct H as (U1 & U2 & U3 & U4 & H' & K). rewrite RUN in H'. apply Ret_inj in H'.
    apply pair_equal_spec in H' as [H' _]. apply pair_equal_spec in H' as [H' E3]. apply pair_equal_spec in H' as [_ E2]. subst U2 U3. exact K. }
  { intros l Hl. destruct (TA l Hl) as (Lc & _). exact (locally_singleton _ _ Lc). }
  destruct (complex_plunge_inv HP a E L Q r1 r2 C) as (u & v & Hr & Hv & HR & HF).
  pose proof (coordinates_are HX a E L Q Ha HE HL HQ r1 r2 u v qt qr qth qph r theta Hr Hv HR H) as Eq.
  rewrite (freq_run HX a E L Q Ha HE HL HQ r1 r2 u v Hr Hv HR) in F. apply Ret_inj in F. apply pair_equal_spec in F as [F1 F2].
  assert (ur = pur r1 r2 u v E) as Eur by congruence. assert (ut = put a E L Q) as Eut by congruence. clear F1 F2.
  pose proof (strict a E L Q HE r1 r2 u v Hr Hv HF N1 N2) as St.
  assert (S12 : r1 < r2). { pose proof (St _ (rp_h a Ha1)). lra. }
  set (K := ellK (pk2 r1 r2 u v)). set (Kt := ellK (kt2 (a^2 * (1 - E^2)) (pzm a E L Q) (pbeta a E L Q))).
  pose proof (pHz a E L Q Ha HE HL HQ) as Hz. pose proof (pHb a E L Q Ha HE HL HQ) as Hb. pose proof (pHm a E L Q Ha HE HL HQ) as Hm.
  pose proof (xi_derive HX r1 r2 u v Hr Hv) as Dxi. fold K in Dxi.
  pose proof (psi_p_derive HX a E L Q Ha HE HL HQ) as Dpsi. fold Kt in Dpsi.
  assert (W1 : (ur * (2 * K / PI))^2 = pA r2 u v * pB r1 u v * (1 - E^2)).
  { rewrite Eur. pose proof (w_pur r1 r2 u v Hr Hv E) as W. fold K in W. rewrite Rmult_comm, W.
    apply pow2_sqrt. left. exact (ABc_pos r1 r2 u v Hv E HE). }
  assert (W2 : (ut * (2 * Kt / PI))^2 = pbeta a E L Q).
  { rewrite Eut. unfold Kt. rewrite (put_w a E L Q Ha HE HL HQ). apply pow2_sqrt. lra. }
  set (vr := fun l => ur * pr' r1 r2 u v (2 * K / PI) (xi (X := X) r1 r2 u v) (ur * l + qr)).
  set (vth := fun l => ut * th' (a^2 * (1 - E^2)) (pzm a E L Q) (pbeta a E L Q) (2 * Kt / PI) (psi_p (X := X) a E L Q) (ut * l + (qth + PI / 2))).
  assert (Dr : forall l, is_derive r l (vr l)).
  { intros l. apply (is_derive_ext (plr (X := X) E r1 r2 u v qr)); [intros s; symmetry; apply Eq|]. unfold plr, vr. rewrite <- Eur.
    apply (comp_lin (pr r1 r2 u v (xi (X := X) r1 r2 u v))). exact (pr_derive r1 r2 u v Hv _ _ Dxi _). }
  assert (Dth : forall l, is_derive theta l (vth l)).
  { intros l. apply (is_derive_ext (plth (X := X) a E L Q qth)); [intros s; symmetry; apply Eq|]. unfold plth, vth. rewrite <- Eut.
    apply (comp_lin (th (pzm a E L Q) (psi_p (X := X) a E L Q))). exact (th_derive _ _ _ Hz _ _ Dpsi _). }
  apply (geodesic_from_first_order a E L Q t r theta phi vr vth).
  - intros l [Cl Sl]. apply filter_and; [apply clear_open; [intros s; exists (vr s); apply Dr | exact Cl]|].
    apply sigma_open; [exists (vr l); apply Dr | exists (vth l); apply Dth | exact Sl].
  - intros l [[Cl _] Sl]. refine (conj Sl (conj Cl _)). destruct (Eq l) as [_ ->]. unfold plth.
    pose proof (sin_th_pos _ Hz (psi_p (X := X) a E L Q) (put a E L Q * l + (qth + PI / 2))). lra.
  - intros l [Cl Sl]. destruct (TA l Cl) as (_ & T5 & T6). exact (conj T5 (conj T6 (conj (Dr l) (Dth l)))).
  - intros l _. destruct (Eq l) as [-> ->]. split.
    + rewrite HF. unfold plr, vr. rewrite <- Eur. exact (pr_ode r1 r2 u v Hr Hv _ _ _ (1 - E^2) ur W1).
    + unfold plth, vth. rewrite Eut. exact (th_eq a E L Q Ha HE HL HQ _).
  - intros l _. destruct (Eq l) as [-> ->]. split.
    + rewrite (radial_force_complex _ _ _ _ _ _ _ _ HF). unfold plr. rewrite <- Eur.
      rewrite <- (pr_ode2 r1 r2 u v S12 Hv (2 * K / PI) (xi (X := X) r1 r2 u v) (ur * l + qr) (1 - E^2) ur W1).
      replace (ur^2 * pr'' r1 r2 u v (2 * K / PI) (xi (X := X) r1 r2 u v) (ur * l + qr))
        with (ur * (ur * pr'' r1 r2 u v (2 * K / PI) (xi (X := X) r1 r2 u v) (ur * l + qr))) by ring.
      unfold vr. apply (is_derive_scal (fun l => pr' r1 r2 u v (2 * K / PI) (xi (X := X) r1 r2 u v) (ur * l + qr))).
      apply (comp_lin (pr' r1 r2 u v (2 * K / PI) (xi (X := X) r1 r2 u v))). exact (pr_derive2 r1 r2 u v S12 Hv _ _ Dxi _).
    + destruct (th_derive2 _ _ _ Hz Hb Hm _ _ Dpsi (ut * l + (qth + PI / 2)) ut W2) as (d & D & O).
      pose proof (sin_th_pos _ Hz (psi_p (X := X) a E L Q) (ut * l + (qth + PI / 2))) as SP.
      unfold plth. rewrite <- Eut. rewrite (polar_force_roots a E L Q _ _ (p_factor a E L Q Ha HE HL HQ)) by lra. rewrite <- O.
      replace (ut^2 * d) with (ut * (ut * d)) by ring.
      unfold vth. apply (is_derive_scal (fun l => th' (a^2 * (1 - E^2)) (pzm a E L Q) (pbeta a E L Q) (2 * Kt / PI) (psi_p (X := X) a E L Q) (ut * l + (qth + PI / 2)))).
      apply (comp_lin (th' (a^2 * (1 - E^2)) (pzm a E L Q) (pbeta a E L Q) (2 * Kt / PI) (psi_p (X := X) a E L Q))). exact D.
Qed.
End Complex.

Section Real.
Context {X : External R} (HP : polyroots_spec X) (HX : special_spec X).
Context (a E L Q : R) (Ha : 0 < a^2 < 1) (HE : E^2 < 1) (HL : L <> 0) (HQ : 0 <= Q).
Theorem C79_real_plunges_are_geodesics r1 r2 r3 r4 qt qr qth qph r theta :
  real_plunge a E L Q r1 r2 r3 r4 -> not_marginal a E L -> r2 <> 0 ->
  coordinates (plunge_run a E L Q qt qr qth qph) r theta -> Delta a (r 0) <> 0 ->
  exists T1 T2 T3 T4 t phi, plunge_run a E L Q qt qr qth qph = Ret (T1, T2, T3, T4) /\
  t 0 = qt /\ phi 0 = qph /\
  (forall l, T2 (Some l) = Ret (Some (r l)) /\ T3 (Some l) = Ret (Some (theta l))) /\
  (forall l, Delta a (r l) <> 0 -> T1 (Some l) = Ret (Some (t l)) /\ T4 (Some l) = Ret (Some (phi l))) /\
  timelike_geodesic (metric_at a) (fun l => Delta a (r l) <> 0) (coords t r theta phi) (fun l => Sigma a (r l) (theta l)).
Proof.
  intros C HN N2 H N0.
  destruct (C58_time_and_azimuth_equations HP HX a E L Q Ha HE HL HQ r1 r2 r3 r4 C qt qr qth qph r theta HN N2 H N0)
    as (_ & T1 & T2 & T3 & T4 & t & phi & RUN & t0 & ph0 & TA).
  exists T1, T2, T3, T4, t, phi. refine (conj RUN (conj t0 (conj ph0 (conj _ (conj _ _))))).
  { destruct H as (U1 & U2 & U3 & U4 & H' & K). rewrite RUN in H'. apply Ret_inj in H'.
    apply pair_equal_spec in H' as [H' _]. apply pair_equal_spec in H' as [H' E3]. apply pair_equal_spec in H' as [_ E2]. subst U2 U3. exact K. }
  { intros l Hl. destruct (TA l Hl) as (Lc & _). exact (locally_singleton _ _ Lc). }
  pose proof (coords_real HP HX a E L Q Ha HE HL HQ r1 r2 r3 r4 C qt qr qth qph r theta H) as Eq.
  assert (An : a <> 0) by (intros ->; lra).
  destruct (Props_RealPlunge.real_order HP a E L Q Ha _ _ _ _ C) as [HF _]. destruct (real_signs HP a E L Q Ha HE HQ _ _ _ _ C) as (H2 & H1 & H3 & Hs & Hm & Ho).
  set (K := ellK (kr2 r1 r2 r3 r4)). set (Kt := ellK (kt2 (a^2 * (1 - E^2)) (pzm a E L Q) (pbeta a E L Q))).
  pose proof (pHz a E L Q An HE HL HQ) as Hz. pose proof (pHb a E L Q An HE HL HQ) as Hb. pose proof (pHm a E L Q An HE HL HQ) as Hkt.
  assert (Dpr : forall q, is_derive (psi_r (X := X) r1 r2 r3 r4) q (K / PI * sqrt (dl (kr2 r1 r2 r3 r4) (psi_r (X := X) r1 r2 r3 r4 q))))
    by (intros q; now apply (psi_r_derive HX)).
  assert (Dpt : forall q, is_derive (psi_t (X := X) a E (pzm a E L Q) (pbeta a E L Q)) q (2 * Kt / PI * sqrt (dl (kt2 (a^2 * (1 - E^2)) (pzm a E L Q) (pbeta a E L Q)) (psi_t (X := X) a E (pzm a E L Q) (pbeta a E L Q) q))))
    by (intros q; now apply (psi_t_derive HX)).
  set (ur := rur E r1 r2 r3 r4). set (ut := rut a E L Q).
  assert (W1 : (ur * (K / PI))^2 = sr2 (1 - E^2) r1 r2 r3 r4 / 4).
  { pose proof PI_RGT_0. pose proof (K_pos _ _ _ _ Hm). unfold ur, rur. fold K. fold K in H4.
    replace (PI * sqrt (sr2 (1 - E^2) r1 r2 r3 r4) / (2 * K) * (K / PI))
      with (sqrt (sr2 (1 - E^2) r1 r2 r3 r4) / 2) by (field; lra).
    rewrite <- (pow2_sqrt (sr2 (1 - E^2) r1 r2 r3 r4)) at 2 by lra. field. }
  assert (W2 : (ut * (2 * Kt / PI))^2 = pbeta a E L Q).
  { pose proof PI_RGT_0. pose proof (Kt_pos' a E L Q Ha HE HL HQ). unfold ut, rut. fold Kt. fold Kt in H4.
    replace (PI * sqrt (pbeta a E L Q) / (2 * Kt) * (2 * Kt / PI)) with (sqrt (pbeta a E L Q)) by (field; lra). apply pow2_sqrt. lra. }
  set (vr := fun l => ur * rho' r1 r2 r3 r4 (K / PI) (psi_r (X := X) r1 r2 r3 r4) (ur * l + qr)).
  set (vth := fun l => ut * th' (a^2 * (1 - E^2)) (pzm a E L Q) (pbeta a E L Q) (2 * Kt / PI) (psi_t (X := X) a E (pzm a E L Q) (pbeta a E L Q)) (ut * l + qth)).
  assert (Dr : forall l, is_derive r l (vr l)).
  { intros l. apply (is_derive_ext (rlr (X := X) E r1 r2 r3 r4 qr)); [intros s; symmetry; apply Eq|]. unfold rlr, vr. fold ur.
    apply (comp_lin (rho r1 r2 r3 (psi_r (X := X) r1 r2 r3 r4))). exact (rho_derive (1 - E^2) _ _ _ _ Hs Ho _ _ Dpr _). }
  assert (Dth : forall l, is_derive theta l (vth l)).
  { intros l. apply (is_derive_ext (rlth (X := X) a E L Q qth)); [intros s; symmetry; apply Eq|]. unfold rlth, vth. fold ut.
    apply (comp_lin (th (pzm a E L Q) (psi_t (X := X) a E (pzm a E L Q) (pbeta a E L Q)))). exact (th_derive _ _ _ Hz _ _ Dpt _). }
  apply (geodesic_from_first_order a E L Q t r theta phi vr vth).
  - intros l Cl. apply Delta_open; [exists (vr l); apply Dr | exact Cl].
  - intros l Cl. refine (conj _ (conj Cl _)); destruct (Eq l) as [E1 E2].
    + assert (P : 0 < r l).
      { rewrite E1. unfold rlr. assert (B : r2 <= rho r1 r2 r3 (psi_r (X := X) r1 r2 r3 r4) (rur E r1 r2 r3 r4 * l + qr) <= r1) by (apply (rx_bounds (1 - E^2) _ _ _ _ Hs Ho); [tauto|]; apply sn2_bound).
        lra. }
      unfold Sigma. pose proof (pow2_ge_0 (a * cos (theta l))) as G. rewrite Rpow_mult_distr in G. assert (0 < r l ^2) by (apply pow_lt; lra). lra.
    + rewrite E2. unfold rlth. pose proof (sin_th_pos _ Hz (psi_t (X := X) a E (pzm a E L Q) (pbeta a E L Q)) (rut a E L Q * l + qth)). lra.
  - intros l Cl. destruct (TA l Cl) as (_ & T5 & T6). exact (conj T5 (conj T6 (conj (Dr l) (Dth l)))).
  - intros l _. destruct (Eq l) as [-> ->]. split.
    + rewrite HF. unfold rlr, vr. fold ur. exact (rho_ode _ _ _ _ _ Hs Hm Ho _ _ _ _ W1).
    + unfold vth. rewrite (th_ode _ _ _ Hz Hb Hkt _ _ _ _ W2).
      change (th (pzm a E L Q) (psi_t (X := X) a E (pzm a E L Q) (pbeta a E L Q)) (ut * l + qth)) with (rlth (X := X) a E L Q qth l).
      assert (Sn : 0 < sin (rlth (X := X) a E L Q qth l)) by (unfold rlth; apply sin_th_pos, Hz).
      unfold polar_potential. rewrite <- (p_factor a E L Q An HE HL HQ). unfold polar_polynomial.
      replace (cos (rlth (X := X) a E L Q qth l) ^ 2) with (1 - sin (rlth (X := X) a E L Q qth l) ^ 2) by (rewrite cos2_sin2; ring). field. lra.
  - intros l _. destruct (Eq l) as [-> ->]. split.
    + rewrite (radial_force_roots _ _ _ _ _ _ _ _ HF). unfold rlr. fold ur.
      rewrite <- (rho_ode2 (1 - E^2) r1 r2 r3 r4 Hs Ho _ (psi_r (X := X) r1 r2 r3 r4) (ur * l + qr) ur W1).
      replace (ur^2 * rho'' r1 r2 r3 r4 (K / PI) (psi_r (X := X) r1 r2 r3 r4) (ur * l + qr))
        with (ur * (ur * rho'' r1 r2 r3 r4 (K / PI) (psi_r (X := X) r1 r2 r3 r4) (ur * l + qr))) by ring.
      unfold vr. apply (is_derive_scal (fun l => rho' r1 r2 r3 r4 (K / PI) (psi_r (X := X) r1 r2 r3 r4) (ur * l + qr))).
      apply (comp_lin (rho' r1 r2 r3 r4 (K / PI) (psi_r (X := X) r1 r2 r3 r4))). exact (rho_derive2 (1 - E^2) _ _ _ _ Hs Hm Ho _ _ Dpr _).
    + destruct (th_derive2 _ _ _ Hz Hb Hkt _ _ Dpt (ut * l + qth) ut W2) as (d & D & O).
      pose proof (sin_th_pos _ Hz (psi_t (X := X) a E (pzm a E L Q) (pbeta a E L Q)) (ut * l + qth)) as SP.
      unfold rlth. fold ut. rewrite (polar_force_roots a E L Q _ _ (p_factor a E L Q An HE HL HQ)) by lra. rewrite <- O.
      replace (ut^2 * d) with (ut * (ut * d)) by ring.
      unfold vth. apply (is_derive_scal (fun l => th' (a^2 * (1 - E^2)) (pzm a E L Q) (pbeta a E L Q) (2 * Kt / PI) (psi_t (X := X) a E (pzm a E L Q) (pbeta a E L Q)) (ut * l + qth))).
      apply (comp_lin (th' (a^2 * (1 - E^2)) (pzm a E L Q) (pbeta a E L Q) (2 * Kt / PI) (psi_t (X := X) a E (pzm a E L Q) (pbeta a E L Q)))). exact D.
Qed.
End Real.

(** the hypotheses of the three theorems are met: an inclined eccentric retrograde orbit, the plunge of C57_case and the plunge of C58_case *)
Theorem C79_case {X : External R} (HX : special_spec X) (HR : root_spec X) (HP : polyroots_spec X) :
  (exists t r theta phi, runs_as (stable_trajectory (Some (1/2)) (Some 20) (Some (1/2)) (Some (-1/2)) (Some 0, Some 0, Some 0, Some 0) None "natural" "natural") t r theta phi /\
     timelike_geodesic (metric_at (1/2)) (fun _ => True) (coords t r theta phi) (fun l => Sigma (1/2) (r l) (theta l))) /\
  (exists t r theta phi ur, clear_of_horizons (3/5) r ur 0 /\ 0 < Sigma (3/5) (r 0) (theta 0) /\
     timelike_geodesic (metric_at (3/5)) (fun l => clear_of_horizons (3/5) r ur l /\ 0 < Sigma (3/5) (r l) (theta l))
       (coords t r theta phi) (fun l => Sigma (3/5) (r l) (theta l))) /\
  (exists t r theta phi, Delta (1/2) (r 0) <> 0 /\
     timelike_geodesic (metric_at (1/2)) (fun l => Delta (1/2) (r l) <> 0) (coords t r theta phi) (fun l => Sigma (1/2) (r l) (theta l))).
Proof.
  refine (conj _ (conj _ _)).
  - destruct (far_retrograde HX HR (1/2) 20 (1/2) (-1/2)) as (E & L & Q & ur & uth & uph & gam & HC & HF); try lra.
    assert (Ha : 0 <= 1/2) by lra.
    destruct (trajectory_defined HX HR (1/2) 20 (1/2) (-1/2) ur uth uph gam Ha HF 0 0 0 0) as (t & r & th & ph & H).
    exists t, r, th, ph. split; [exact H|]. exact (C79_stable_orbits_are_geodesics HX HR _ _ _ _ _ _ _ _ Ha HF _ _ _ _ _ _ _ _ H).
  - destruct (C57_case HP HX) as (r & th & ur & ut & C & H & F & N1 & N2 & N12 & Nq & N0).
    assert (Ha : 3/5 <> 0) by lra. assert (Ha1 : (3/5)^2 < 1) by lra. assert (HE : (3/5)^2 < 1) by lra. assert (HL : 2/75 <> 0) by lra. assert (HQ : 0 <= 2/9) by lra.
    destruct (C79_complex_plunges_are_geodesics HP HX (3/5) (3/5) (2/75) (2/9) Ha Ha1 HE HL HQ (1/8) 3 0 0 0 0 r th ur ut C H F N1 N2 N12 Nq N0)
      as (T1 & T2 & T3 & T4 & t & phi & _ & _ & _ & _ & _ & G).
    exists t, r, th, phi, ur. refine (conj N0 (conj _ G)).
    destruct (C39_plunge_phases HP HX (3/5) (3/5) (2/75) (2/9) Ha HE HL HQ (1/8) 3 0 0 0 0 r th ur ut C H F 0 0) as (Z1 & _).
    rewrite Z1 by ring. unfold Sigma. pose proof (pow2_ge_0 (3/5 * cos (th 0))) as K. rewrite Rpow_mult_distr in K. lra.
  - destruct (C58_case HP HX) as (A1 & A2 & A3 & A4 & M & r1 & r2 & N2 & C & r & th & H & N0).
    destruct (C79_real_plunges_are_geodesics HP HX (1/2) (67/72) (403/144) (5/3) A1 A2 A3 A4 r1 r2 6 6 0 0 0 0 r th C M N2 H N0)
      as (T1 & T2 & T3 & T4 & t & phi & _ & _ & _ & _ & _ & G).
    exists t, r, th, phi. exact (conj N0 G).
Qed.
