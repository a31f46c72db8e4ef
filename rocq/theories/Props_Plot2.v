(** * C71 for bound orbits: the curve stays in its spherical shell, outside the black hole,
      and exactly the points hidden by the black hole are masked *)
From Coq Require Import Reals Lra Lia ZArith String List.
From Coquelicot Require Import Coquelicot.
From Verif Require Import Num Outcome External Checked ExternalSpec.
From Verif Require Import Model_Constants Model_Frequencies Model_Spacetime Model_Stable Model_Orbit Model_Plot.
From Verif Require Import Num Outcome External Checked ExternalSpec.
From Verif Require Import Model_Units Model_Constants Model_Frequencies Model_Spacetime Model_InitialConditions Model_Stable Model_Plunge Model_Orbit.
From Verif Require Import Spec SpecElliptic Elliptic P_Validation Props_Validation P_Bounds P_Schmidt P_Constants Props_Constants.
From Verif Require Import P_Radial P_Polar P_Traj P_Traj2 P_Traj3 P_Traj4 Props_Trajectory Props_Trajectory2.
From Verif Require Import Props_Stability Props_Finite Props_Frequencies Props_Units Props_Plunge Props_Plunge2.
From Verif Require Import Props_RealPlunge Props_PlungePhases Props_PlungeRestart Props_RealPhases Props_Restart Props_Apex Props_AllBound Props_Future.
From Verif Require Import Props_Orbit2 Props_Plot Props_Animate Props_Constructors Props_Restart.
Import ListNotations.
Open Scope R_scope.

Lemma cart_length r th ph : 0 <= r -> lengthR (cart r th ph) = r.
Proof.
  intros H. unfold lengthR, cart, dotR.
  replace (r * sin th * cos ph * (r * sin th * cos ph) + r * sin th * sin ph * (r * sin th * sin ph) + r * cos th * (r * cos th))
    with (r^2); [now apply sqrt_pow2|].
  pose proof (sin2_cos2 th) as U. pose proof (sin2_cos2 ph) as V. unfold Rsqr in U, V.
  transitivity (r^2 * (sin th * sin th * (sin ph * sin ph + cos ph * cos ph) + cos th * cos th)); [|ring].
  rewrite V, Rmult_1_r, U. ring.
Qed.

Section Bound.
Context {X : External R} (HX : special_spec X) (HR : root_spec X).
Context (a p e x ur uth uph gam : R) (qt qr qth qph : R) (M mu : option (option R)) (o : orbit (T := option R)).
Context (HF : mino_frequencies (Some a) (Some p) (Some e) (Some x) = Ret (Some ur, Some uth, Some uph, Some gam)).
Context (HI : StableOrbit_init (Some a) (Some p) (Some e) (Some x) (Some qt, Some qr, Some qth, Some qph) M mu = Ret o).

Lemma bound_runs st sr sth sph : exists t r th ph,
  runs_as (Orbit_trajectory o (Some (Some st, Some sr, Some sth, Some sph)) "natural" "natural") t r th ph /\
  o_a o = Some (Rabs a) /\ o_phases o = (Some qt, Some qr, Some qth, Some qph) /\ Rabs a < 1 /\ horizon a < p / (1 + e) /\
  forall l, p / (1 + e) <= r l <= p / (1 - e).
Proof.
  destruct (C66_stable_orbit HX HR a p e x qt qr qth qph M mu ur uth uph gam HF)
    as (o' & E & L & Q & r & theta & I & HC & A1 & A2 & _ & _ & _ & _ & _ & _ & A3 & _).
  rewrite HI in I. apply Ret_inj in I. subst o'.
  pose proof HF as HF'. rewrite mino_std in HF'.
  destruct (trajectory_defined HX HR (Rabs a) p e (x * spin_sign a) ur uth uph gam (Rabs_pos a) HF' st sr sth sph) as (t & r' & th & ph & H).
  exists t, r', th, ph. 
  rewrite constants_std in HC.
  destruct (constants_inv _ _ _ _ _ _ _ (Rabs_pos a) HC) as [HCK _].
  destruct (accepted_bounds HR _ _ _ _ (Rabs_pos a) HCK) as (Ha1 & He & Hx & Hr2 & HD & _ & _).
  refine (conj _ (conj A1 (conj A3 (conj (proj2 Ha1) (conj _ _))))).
  - unfold Orbit_trajectory. rewrite A2, A1. rewrite stable_ignores_M. exact H.
  - unfold horizon. unfold Delta in HD. rewrite pow2_abs in HD.
    apply Rnot_le_lt. intros K. set (r2 := p / (1 + e)) in *.
    assert (a^2 <= 1) by (rewrite <- pow2_abs; pose proof (Rabs_pos a); nra).
    assert (S : sqrt (1 - a^2) ^2 = 1 - a^2) by (apply pow2_sqrt; lra).
    pose proof (sqrt_pos (1 - a^2)). nra.
  - intros l. apply (C25_bound_motion HX HR _ _ _ _ _ _ _ _ (Rabs_pos a) HF' _ _ _ _ _ _ _ _ H l).
Qed.

(** every sampled point of a bound orbit is drawn at the orbit's distance, between the
    periapsis and apoapsis spheres and outside the black hole; it is masked exactly when the
    black hole is in front of it; the marker of the body is never inside the black hole *)
Theorem C71_bound_orbits (ip : option (R * R * R * R)) l0 l1 el az lw d tau grid axes n :
  (1 <= n)%nat -> INR n <= (l1 - l0) * d < INR n + 1 -> tau_ok tau ->
  let q := match ip with Some q => q | None => (qt, qr, qth, qph) end in
  let some4 := fun q : R * R * R * R => let '(w, x, y, z) := q in (Some w, Some x, Some y, Some z) in
  exists t r th ph fig,
  runs_as (Orbit_trajectory o (Some (some4 q)) "natural" "natural") t r th ph /\
  plot o (Some l0) (Some l1) (Some el) (Some az) (option_map some4 ip) grid axes (Some lw) (option_map Some tau) (Some d) = Ret fig /\
  let P k := let l := sample_time l0 l1 n k in cart (r l) (th l) (ph l) in
  (forall k, p / (1 + e) <= lengthR (P k) <= p / (1 - e) /\ horizon a < lengthR (P k)) /\
  length (f_segments fig) = (n - 1)%nat /\
  (forall k, (S k < n)%nat -> exists v w, nth_error (f_segments fig) k = Some (v, w) /\
     drawn_iff (unobstructed a el az (P k)) (P k) v /\ drawn_iff (unobstructed a el az (P (S k))) (P (S k)) w) /\
  f_body fig = some3 (P (n - 1)%nat).
Proof.
  intros Hn Hd HT q some4. destruct q as [[[st sr] sth] sph] eqn:Eq.
  destruct (bound_runs st sr sth sph) as (t & r & th & ph & H & A1 & A2 & A3 & A4 & B).
  destruct H as (T1 & T2 & T3 & T4 & H & HV).
  assert (UP : used_phases o (option_map some4 ip) = some4 (st, sr, sth, sph)).
  { unfold used_phases. destruct ip as [[[[w1 w2] w3] w4]|]; cbn [option_map]; unfold q in Eq; rewrite <- Eq; [reflexivity|].
    rewrite A2. reflexivity. }
  assert (AA : forall b el az P, unobstructed (Rabs b) el az P <-> unobstructed b el az P).
  { intros b el' az' P. unfold unobstructed. rewrite pow2_abs. tauto. }
  assert (HH : horizon (Rabs a) = horizon a) by (unfold horizon; now rewrite pow2_abs).
  destruct (C71_plot_draws_trajectory o (option_map some4 ip) (Rabs a) l0 l1 el az lw d tau grid axes n T1 T2 T3 T4 r th ph A1)
    as (fig & PL & LS & SG & _ & _ & BD & _); try assumption.
  { pose proof (Rabs_pos a). lra. }
  { rewrite UP. exact H. }
  { intros k _. destruct (HV (sample_time l0 l1 n k)) as (_ & K). exact K. }
  exists t, r, th, ph, fig. refine (conj _ (conj PL _)). { exists T1, T2, T3, T4. auto. }
  intros P.
  assert (LP : forall k, p / (1 + e) <= lengthR (P k) <= p / (1 - e) /\ horizon a < lengthR (P k)).
  { intros k. unfold P. cbv zeta. specialize (B (sample_time l0 l1 n k)).
    assert (0 < horizon a) by (unfold horizon; pose proof (sqrt_pos (1 - a^2)); lra).
    rewrite cart_length by lra. lra. }
  refine (conj LP (conj LS (conj _ BD))).
  intros k Hk. destruct (SG k Hk) as (v & w & E & D1 & D2). exists v, w. split; [exact E|].
  assert (FR : forall k, (k < n)%nat -> horizon (Rabs a) < frobenius (pointsR l0 l1 n r th ph)).
  { intros j Hj. rewrite HH. destruct (LP j) as [_ K]. apply (Rlt_le_trans _ _ _ K). apply frobenius_ge.
    apply (nth_error_In _ j). apply pointsR_nth; assumption. }
  assert (W : forall j v, (j < n)%nat -> drawn_iff (unobstructed (Rabs a) el az (P j) /\ horizon (Rabs a) < frobenius (pointsR l0 l1 n r th ph)) (P j) v ->
     drawn_iff (unobstructed a el az (P j)) (P j) v).
  { intros j v' Hj D. specialize (FR j Hj). unfold drawn_iff in *. pose proof (AA a el az (P j)) as AP. destruct (P j) as [[xx yy] zz].
    destruct D as [Da Db]. split; intros C; [apply Da; tauto | apply Db; tauto]. }
  split; apply W; try assumption; lia.
Qed.
End Bound.
Print Assumptions C71_bound_orbits.

(** the hypotheses are met: the default call on an inclined eccentric retrograde orbit, 2000 points *)
Section Ex.
Context {X : External R} (HX : special_spec X) (HR : root_spec X).
Example C71_example : exists o t r th ph fig,
  StableOrbit_init (Some (1/2)) (Some 20) (Some (1/2)) (Some (-1/2)) (Some 0, Some 0, Some 0, Some 0) None None = Ret o /\
  runs_as (Orbit_trajectory o (Some (Some 0, Some 0, Some 0, Some 0)) "natural" "natural") t r th ph /\
  plot o (Some 0) (Some 10) (Some 30) (Some (-60)) None true true (Some 1) None (Some 200) = Ret fig /\
  length (f_segments fig) = 1999%nat /\ f_body fig = some3 (cart (r 10) (th 10) (ph 10)) /\
  40/3 <= lengthR (cart (r 10) (th 10) (ph 10)) <= 40.
Proof.
  destruct (far_retrograde HX HR (1/2) 20 (1/2) (-1/2)) as (E & L & Q & ur & uth & uph & gam & HC & HF); try lra.
  destruct (C66_stable_orbit HX HR (1/2) 20 (1/2) (-1/2) 0 0 0 0 None None ur uth uph gam HF) as (o & E' & L' & Q' & rr & tt & I & _).
  assert (N : INR 2000 = 2000) by (rewrite INR_IZR_INZ; reflexivity).
  destruct (C71_bound_orbits HX HR (1/2) 20 (1/2) (-1/2) ur uth uph gam 0 0 0 0 None None o HF I None 0 10 30 (-60) 1 200 None true true 2000)
    as (t & r & th & ph & fig & H & PL & B & LS & _ & BD).
  { lia. } { rewrite N. lra. } { exact Logic.I. }
  exists o, t, r, th, ph, fig. refine (conj I (conj H (conj PL (conj LS _)))).
  destruct (C71_endpoints 0 10 2000 ltac:(lia)) as (_ & E1 & _). specialize (B (2000 - 1)%nat). cbv zeta in BD, B.
  rewrite E1 in BD, B. split; [exact BD|]. destruct B as [B _].
  replace (20 / (1 + 1/2)) with (40/3) in B by lra. replace (20 / (1 - 1/2)) with 40 in B by lra. exact B.
Qed.

(** the default animation of the same orbit: 300 frames with the integer default
    tail_length=5, TypeError with tail_length=5.0 *)
Example C72_example : exists o t r th ph m,
  StableOrbit_init (Some (1/2)) (Some 20) (Some (1/2)) (Some (-1/2)) (Some 0, Some 0, Some 0, Some 0) None None = Ret o /\
  runs_as (Orbit_trajectory o (Some (Some 0, Some 0, Some 0, Some 0)) "natural" "natural") t r th ph /\
  animate o (Some 0) (Some 10) (Some 30) (Some (-60)) None (Some (Some 2)) (PyInt 5) None None None (Some 1) None = Ret m /\
  length (m_frames m) = 300%nat /\
  animate o (Some 0) (Some 10) (Some 30) (Some (-60)) None (Some (Some 2)) (PyFloat (Some 5)) None None None (Some 1) None = Raise TypeError.
Proof.
  destruct (far_retrograde HX HR (1/2) 20 (1/2) (-1/2)) as (E & L & Q & ur & uth & uph & gam & HC & HF); try lra.
  destruct (C66_stable_orbit HX HR (1/2) 20 (1/2) (-1/2) 0 0 0 0 None None ur uth uph gam HF) as (o & E' & L' & Q' & rr & tt & I & _).
  destruct (bound_runs HX HR (1/2) 20 (1/2) (-1/2) ur uth uph gam 0 0 0 0 None None o HF I 0 0 0 0) as (t & r & th & ph & H & A1 & A2 & A3 & _).
  pose proof H as (T1 & T2 & T3 & T4 & HT & HV).
  assert (N : INR 2400 = 2400) by (rewrite INR_IZR_INZ; reflexivity).
  assert (UP : Orbit_trajectory o (Some (used_phases o None)) "natural" "natural" = Ret (T1, T2, T3, T4)).
  { unfold used_phases. rewrite A2. exact HT. }
  pose proof (Rabs_pos (1/2)) as B0.
  destruct (C72_animate_frames o None (Rabs (1/2)) 0 10 30 (-60) 1 (Some 2) None None None None 2400 8 T1 T2 T3 T4 r th ph A1) with (tail := 5%nat)
    as (m & AN & LN & _); try assumption; try lia; try lra.
  { intros k _. destruct (HV (sample_time 0 10 2400 k)) as (_ & K). exact K. }
  all: try (rewrite N; lra). all: try (unfold tau_ok; lra). all: try (replace (INR 8) with 8 by (cbn [INR]; lra); lra).
  exists o, t, r, th, ph, m. refine (conj I (conj H (conj AN (conj LN _)))).
  refine (C73_float_tail_refuted o None (Rabs (1/2)) 0 10 30 (-60) 1 (Some 2) None None None None 2400 8 T1 T2 T3 T4 r th ph A1 _ UP _ _ _ _ _ _ 5 299 _ _); try lia; try lra.
  { intros k _. destruct (HV (sample_time 0 10 2400 k)) as (_ & K). exact K. }
  all: try (rewrite N; lra). all: try (unfold tau_ok; lra). all: try (replace (INR 8) with 8 by (cbn [INR]; lra); lra).
  all: try (apply Nat.ltb_lt; vm_compute; reflexivity).
  assert (N2 : INR (8 * 299) = 2392) by (rewrite INR_IZR_INZ; reflexivity). rewrite N2. lra.
Qed.
End Ex.
