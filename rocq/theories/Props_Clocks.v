(** * C103: clocks in motion outside the hole run slow *)
From Coq Require Import Reals Lra Lia ZArith String List.
From Coquelicot Require Import Coquelicot.
From Verif Require Import Num Outcome External Checked ExternalSpec.
From Verif Require Import Model_Constants Model_Frequencies Model_Spacetime Model_Stable Model_Orbit.
From Verif Require Import Spec SpecElliptic Elliptic P_Validation Props_Validation P_Bounds P_Schmidt P_Constants Props_Constants Props_Spacetime.
From Verif Require Import P_Radial P_Polar P_Traj P_Traj2 P_Traj3 P_Traj4 Props_Trajectory Props_Trajectory2.
From Verif Require Import Props_Stability Props_Finite Props_Frequencies Props_Units Props_Future Props_Schwarzschild.
Import ListNotations.
Open Scope R_scope.

(** the square of the rate dt/dtau of the observers with zero angular momentum (the slowest-running
    coordinate time per proper time at the given point) *)
Definition zamo_rate2 (a r th : R) : R :=
  ((r^2 + a^2)^2 - a^2 * Delta a r * sin th ^2) / (Sigma a r th * Delta a r).

Lemma zamo_gt_1 a r th : 0 < Delta a r -> 0 < r -> 1 < zamo_rate2 a r th.
Proof.
  intros HD Hr. unfold zamo_rate2.
  assert (R2 : 0 < r^2) by (apply pow_lt; lra).
  assert (C2 : sin th ^2 = 1 - cos th ^2) by (pose proof (sin2_cos2 th) as Z; unfold Rsqr in Z; lra).
  assert (A2 : 0 <= a^2) by apply pow2_ge_0.
  assert (S0 : 0 < Sigma a r th). { unfold Sigma. assert (0 <= a^2 * cos th ^2) by (apply Rmult_le_pos; apply pow2_ge_0). lra. }
  assert (SD : 0 < Sigma a r th * Delta a r) by (apply Rmult_lt_0_compat; lra).
  apply (Rmult_lt_reg_r (Sigma a r th * Delta a r)); [exact SD|].
  replace (((r ^ 2 + a ^ 2) ^ 2 - a ^ 2 * Delta a r * sin th ^ 2) / (Sigma a r th * Delta a r) * (Sigma a r th * Delta a r))
    with ((r ^ 2 + a ^ 2) ^ 2 - a ^ 2 * Delta a r * sin th ^ 2) by (field; split; lra).
  rewrite C2.
  assert ((r ^ 2 + a ^ 2) ^ 2 - a ^ 2 * Delta a r * (1 - cos th ^ 2) - Sigma a r th * Delta a r = 2 * r * (r^2 + a^2)) by (unfold Sigma, Delta; ring).
  assert (0 < 2 * r * (r^2 + a^2)) by (apply Rmult_lt_0_compat; lra). lra.
Qed.

(** every unit timelike vector outside the outer horizon has at least the rate of the ZAMO *)
Lemma unit_timelike_rate a r th vt vr vth vph : 0 < Delta a r -> 0 < r ->
  kerr_line_element a r th vt vr vth vph = -1 -> zamo_rate2 a r th <= vt^2.
Proof.
  intros HD Hr HN.
  assert (R2 : 0 < r^2) by (apply pow_lt; lra).
  assert (S0 : 0 < Sigma a r th). { unfold Sigma. assert (0 <= a^2 * cos th ^2) by (apply Rmult_le_pos; apply pow2_ge_0). lra. }
  assert (SD : 0 < Sigma a r th * Delta a r) by (apply Rmult_lt_0_compat; lra).
  assert (C2 : Sigma a r th = r^2 + a^2 - a^2 * sin th ^2).
  { unfold Sigma. pose proof (sin2_cos2 th) as Z; unfold Rsqr in Z. replace (cos th ^2) with (1 - sin th ^2) by lra. ring. }
  unfold kerr_line_element in HN. unfold zamo_rate2.
  set (D := Delta a r) in *. set (Sg := Sigma a r th) in *. set (s2 := sin th ^2) in *. set (A := r^2 + a^2) in *.
  set (U := vt - a * s2 * vph) in *. set (Y := A * vph - a * vt) in *.
  assert (s0 : 0 <= s2) by apply pow2_ge_0.
  assert (K1 : 0 <= Sg / D * vr^2) by (apply Rmult_le_pos; [apply Rlt_le, Rdiv_lt_0_compat; lra | apply pow2_ge_0]).
  assert (K2 : 0 <= Sg * vth^2) by (apply Rmult_le_pos; [lra | apply pow2_ge_0]).
  assert (K3 : Sg <= D * U^2 - s2 * Y^2).
  { assert (I : Sg * (- (D / Sg) * U^2 + s2 / Sg * Y^2) = - (D * U^2 - s2 * Y^2)) by (field; lra).
    assert (- (D / Sg) * U^2 + s2 / Sg * Y^2 <= -1) by lra.
    assert (Sg * (- (D / Sg) * U^2 + s2 / Sg * Y^2) <= Sg * -1) by (apply Rmult_le_compat_l; lra). lra. }
  assert (VT : Sg * vt = A * U + a * s2 * Y) by (unfold U, Y; rewrite C2; ring).
  assert (CS : (Sg * vt)^2 = (A^2 - a^2 * D * s2) / D * (D * U^2 - s2 * Y^2) + s2 / D * (A * Y + a * D * U)^2).
  { rewrite VT. field. lra. }
  assert (K4 : 0 <= s2 / D * (A * Y + a * D * U)^2).
  { apply Rmult_le_pos; [|apply pow2_ge_0]. apply Rmult_le_pos; [lra | apply Rlt_le, Rinv_0_lt_compat; lra]. }
  assert (K5 : 0 < A^2 - a^2 * D * s2).
  { pose proof (zamo_gt_1 a r th HD Hr) as Z. unfold zamo_rate2 in Z. fold D Sg s2 A in Z.
    apply (Rmult_lt_compat_r (Sg * D)) in Z; [|exact SD].
    replace ((A ^ 2 - a ^ 2 * D * s2) / (Sg * D) * (Sg * D)) with (A ^ 2 - a ^ 2 * D * s2) in Z by (field; split; lra). lra. }
  apply (Rmult_le_reg_l (Sg^2)); [apply pow_lt; exact S0|].
  replace (Sg^2 * ((A ^ 2 - a ^ 2 * D * s2) / (Sg * D))) with ((A ^ 2 - a ^ 2 * D * s2) / D * Sg) by (field; split; lra).
  replace (Sg^2 * vt^2) with ((Sg * vt)^2) by ring. rewrite CS.
  assert ((A ^ 2 - a ^ 2 * D * s2) / D * Sg <= (A ^ 2 - a ^ 2 * D * s2) / D * (D * U ^ 2 - s2 * Y ^ 2)); [|lra].
  apply Rmult_le_compat_l; [apply Rlt_le, Rdiv_lt_0_compat; lra | exact K3].
Qed.

Lemma outside_horizon a r : a^2 <= 1 -> 1 + sqrt (1 - a^2) < r -> 0 < Delta a r /\ 0 < r.
Proof.
  intros Ha H. assert (SS : sqrt (1 - a^2) ^2 = 1 - a^2) by (apply pow2_sqrt; lra). pose proof (sqrt_pos (1 - a^2)).
  split; [unfold Delta; nra | lra].
Qed.

(** ** C103: whatever four-velocity [norm] accepts as that of a particle (norm -1), outside the
    outer horizon its time component exceeds 1 in absolute value *)
Theorem C103_moving_clocks_run_slow a t r th ph vt vr vth vph : a^2 <= 1 -> 1 + sqrt (1 - a^2) < r ->
  norm (Some a) (Some t) (Some r) (Some th) (Some ph) (Some vt, Some vr, Some vth, Some vph) = Some (-1) ->
  zamo_rate2 a r th <= vt^2 /\ 1 < Rabs vt.
Proof.
  intros Ha Hr HN. destruct (outside_horizon a r Ha Hr) as (HD & R0).
  assert (S0 : 0 < Sigma a r th). { unfold Sigma. assert (0 <= a^2 * cos th ^2) by (apply Rmult_le_pos; apply pow2_ge_0). assert (0 < r^2) by (apply pow_lt; lra). lra. }
  rewrite C02_norm_is_kerr_line_element in HN by lra. injection HN as HN.
  pose proof (unit_timelike_rate a r th vt vr vth vph HD R0 HN) as U. split; [exact U|].
  pose proof (zamo_gt_1 a r th HD R0). pose proof (Rabs_pos vt). pose proof (pow2_abs vt). nra.
Qed.

(** the bound is attained, by the observer with zero angular momentum *)
Theorem C103_bound_is_sharp a t r th ph : a^2 <= 1 -> 1 + sqrt (1 - a^2) < r ->
  exists vt vph, norm (Some a) (Some t) (Some r) (Some th) (Some ph) (Some vt, Some 0, Some 0, Some vph) = Some (-1) /\
  vt^2 = zamo_rate2 a r th.
Proof.
  intros Ha Hr. destruct (outside_horizon a r Ha Hr) as (HD & R0).
  assert (R2 : 0 < r^2) by (apply pow_lt; lra).
  assert (S0 : 0 < Sigma a r th). { unfold Sigma. assert (0 <= a^2 * cos th ^2) by (apply Rmult_le_pos; apply pow2_ge_0). lra. }
  assert (C2 : cos th ^2 = 1 - sin th ^2) by (pose proof (sin2_cos2 th) as Z; unfold Rsqr in Z; lra).
  pose proof (zamo_gt_1 a r th HD R0) as Z. set (w := zamo_rate2 a r th) in *.
  assert (G : 0 < (r ^ 2 + a ^ 2) ^ 2 - a ^ 2 * Delta a r * sin th ^ 2).
  { replace ((r ^ 2 + a ^ 2) ^ 2 - a ^ 2 * Delta a r * sin th ^ 2) with (w * (Sigma a r th * Delta a r))
      by (unfold w, zamo_rate2; field; split; lra).
    apply Rmult_lt_0_compat; [lra|]. now apply Rmult_lt_0_compat. }
  set (W := sqrt w). assert (W2 : W * W = w) by (apply sqrt_sqrt; lra).
  exists W, (2 * a * r / ((r ^ 2 + a ^ 2) ^ 2 - a ^ 2 * Delta a r * sin th ^ 2) * W).
  split; [|rewrite <- W2; ring].
  rewrite C02_norm_is_kerr_line_element by lra. f_equal. unfold kerr_line_element.
  set (g := (r ^ 2 + a ^ 2) ^ 2 - a ^ 2 * Delta a r * sin th ^ 2) in *.
  transitivity (- (W * W) * ((Delta a r / Sigma a r th) * (1 - a * sin th ^2 * (2 * a * r / g))^2
     - sin th ^ 2 / Sigma a r th * ((r ^ 2 + a ^ 2) * (2 * a * r / g) - a)^2)); [field; lra|].
  rewrite W2. unfold w, zamo_rate2. fold g.
  assert (g0 : g <> 0) by lra. unfold Sigma in *. rewrite C2 in *. set (s2 := sin th ^2) in *.
  unfold g, Delta in *. field. repeat split; lra.
Qed.

Section S.
Context {X : External R} (HX : special_spec X) (HR : root_spec X).

(** ... hence the analytic four-velocity of every bound orbit has u_t > 1, and the coordinate time
    between two events on it exceeds the proper time, the integral of Sigma over Mino time *)
Theorem C103_bound_orbits a p e x ur uth uph gam E L Q : 0 <= a ->
  mino_frequencies (Some a) (Some p) (Some e) (Some x) = Ret (Some ur, Some uth, Some uph, Some gam) ->
  constants_of_motion (Some a) (Some p) (Some e) (Some x) = Ret (Some E, Some L, Some Q) ->
  forall qt qr qth qph T1 T2 T3 T4 t r theta phi,
  stable_trajectory (Some a) (Some p) (Some e) (Some x) (Some qt, Some qr, Some qth, Some qph) None "natural" "natural" = Ret (T1, T2, T3, T4) ->
  runs_as (stable_trajectory (Some a) (Some p) (Some e) (Some x) (Some qt, Some qr, Some qth, Some qph) None "natural" "natural")
    t r theta phi ->
  (forall l, exists vt, fst (fst (fst (four_velocity (Some a) T2 T3 (Some E, Some L, Some Q) (Some ur) (Some uth)
     (Some qt, Some qr, Some qth, Some qph)))) (Some l) = Ret (Some vt) /\ 1 < vt) /\
  forall l m, l < m -> ex_RInt (fun u => Sigma a (r u) (theta u)) l m /\
    RInt (fun u => Sigma a (r u) (theta u)) l m < t m - t l.
Proof.
  intros Ha HF HC qt qr qth qph T1 T2 T3 T4 t r theta phi HT H.
  assert (He1 : e < 1).
  { destruct (mino_facts HX HR a p e x ur uth uph gam Ha HF) as (E' & L' & Q' & r1 & r2 & r3 & r4 & zp & beta & a2s & FA). destruct FA. lra. }
  destruct (constants_inv _ _ _ _ _ _ _ Ha HC) as [HCK _].
  destruct (accepted_bounds HR a p e x Ha HCK) as (Ha1 & He & Hx & Hr2 & HD & _ & _).
  destruct (C15_roots_defined HR a p e x E L Q (Some (Some E, Some L, Some Q)) HC He1 (or_intror eq_refl))
    as (s1 & s2 & s3 & s4 & _ & Q1 & Q2 & _ & _ & _ & _).
  pose proof (C51_four_velocity_is_derivative HX HR a p e x ur uth uph gam Ha HF qt qr qth qph T1 T2 T3 T4 t r theta phi E L Q HT H HC) as V.
  destruct (four_velocity (Some a) T2 T3 (Some E, Some L, Some Q) (Some ur) (Some uth) (Some qt, Some qr, Some qth, Some qph)) as [[[u_t u_r] u_th] u_ph].
  simpl fst.
  destruct (C65_time_runs_forward HX HR a p e x ur uth uph gam Ha HF) as (_ & FW).
  destruct (FW qt qr qth qph t r theta phi H) as (FW1 & _).
  assert (OUT : forall l, 1 + sqrt (1 - a^2) < r l).
  { intros l. destruct (C25_bound_motion HX HR a p e x ur uth uph gam Ha HF qt qr qth qph t r theta phi H l) as ((B1 & _) & _).
    apply Rlt_le_trans with (p / (1 + e)); [|exact B1].
    assert (SS : sqrt (1 - a^2) ^2 = 1 - a^2) by (apply pow2_sqrt; nra). pose proof (sqrt_pos (1 - a^2)).
    unfold Delta in HD. nra. }
  assert (S0 : forall l, 0 < Sigma a (r l) (theta l)).
  { intros l. pose proof (OUT l). pose proof (sqrt_pos (1 - a^2)). unfold Sigma.
    assert (0 <= a^2 * cos (theta l) ^2) by (apply Rmult_le_pos; apply pow2_ge_0). assert (0 < r l ^2) by (apply pow_lt; lra). lra. }
  assert (K : forall l, exists vt, u_t (Some l) = Ret (Some vt) /\ 1 < vt /\ is_derive t l (Sigma a (r l) (theta l) * vt) /\
     ex_derive r l /\ ex_derive theta l).
  { intros l. destruct (V l) as (vt & vr & vth & vph & V1 & _ & _ & _ & D1 & D2 & D3 & _ & N). exists vt. split; [exact V1|].
    refine (conj _ (conj D1 (conj (ex_intro _ _ D2) (ex_intro _ _ D3)))).
    destruct (C103_moving_clocks_run_slow a (t l) (r l) (theta l) (phi l) vt vr vth vph ltac:(nra) (OUT l) N) as (_ & G).
    destruct (FW1 l) as (t' & DT & B). pose proof (is_derive_unique _ _ _ D1) as E1. pose proof (is_derive_unique _ _ _ DT) as E2.
    assert (EQ : Sigma a (r l) (theta l) * vt = t') by congruence.
    assert (0 < r l ^2). { pose proof (OUT l). pose proof (sqrt_pos (1 - a^2)). apply pow_lt; lra. }
    assert (0 < vt). { apply Rnot_le_lt. intros N0. pose proof (S0 l). assert (Sigma a (r l) (theta l) * vt <= 0) by nra. lra. }
    rewrite Rabs_pos_eq in G by lra. exact G. }
  split. { intros l. destruct (K l) as (vt & K1 & K2 & _). exists vt. split; assumption. }
  assert (CS : forall u, continuous (fun u => Sigma a (r u) (theta u)) u).
  { intros u. destruct (K u) as (_ & _ & _ & _ & X1 & X2). apply (ex_derive_continuous (V := R_NormedModule) (fun u => Sigma a (r u) (theta u)) u).
    unfold Sigma. auto_derive. repeat split; assumption. }
  intros l m Hl.
  assert (EX : ex_RInt (fun u => Sigma a (r u) (theta u)) l m) by (apply (ex_RInt_continuous (V := R_CompleteNormedModule)); intros; apply CS).
  split; [exact EX|].
  set (F := fun u : R => RInt (fun v => Sigma a (r v) (theta v)) l u).
  assert (DF : forall u, is_derive F u (Sigma a (r u) (theta u))).
  { intros u. apply (is_derive_RInt (V := R_NormedModule) (fun v => Sigma a (r v) (theta v)) F l u); [|apply CS].
    apply filter_forall. intros y. apply (RInt_correct (V := R_CompleteNormedModule)). apply (ex_RInt_continuous (V := R_CompleteNormedModule)); intros; apply CS. }
  assert (F0 : F l = 0) by (unfold F; apply (RInt_point (V := R_CompleteNormedModule))).
  change (F m < t m - t l).
  destruct (MVT_gen (fun u => t u - F u) l m (fun u => Derive t u - Sigma a (r u) (theta u))) as (z & _ & Z).
  - intros u _. destruct (K u) as (vt & _ & _ & D & _). apply (is_derive_minus t F); [|apply DF]. rewrite (is_derive_unique _ _ _ D). exact D.
  - intros u _. apply continuity_pt_filterlim. apply (ex_derive_continuous (V := R_NormedModule) (fun v => t v - F v) u).
    destruct (K u) as (vt & _ & _ & D & _). eexists. apply (is_derive_minus t F); [exact D | apply DF].
  - destruct (K z) as (vt & _ & G & D & _). pose proof (is_derive_unique _ _ _ D) as DU.
    change (Derive (fun x : R => t x) z) with (Derive t z) in DU. rewrite DU in Z. pose proof (S0 z).
    assert (0 < (Sigma a (r z) (theta z) * vt - Sigma a (r z) (theta z)) * (m - l)) by (apply Rmult_lt_0_compat; [nra | lra]).
    rewrite F0 in Z. lra.
Qed.

Example C103_case : exists ur uth uph gam E L Q t r theta phi,
  mino_frequencies (Some 0) (Some 10) (Some (1/2)) (Some (1/2)) = Ret (Some ur, Some uth, Some uph, Some gam) /\
  constants_of_motion (Some 0) (Some 10) (Some (1/2)) (Some (1/2)) = Ret (Some E, Some L, Some Q) /\
  runs_as (stable_trajectory (Some 0) (Some 10) (Some (1/2)) (Some (1/2)) (Some 0, Some 1, Some 2, Some 3) None "natural" "natural") t r theta phi.
Proof.
  destruct (C70_case HX HR) as (ur & uth & uph & gam & HF & _).
  destruct (trajectory_defined HX HR 0 10 (1/2) (1/2) ur uth uph gam ltac:(lra) HF 0 1 2 3) as (t & r & theta & phi & H).
  destruct (mino_facts HX HR 0 10 (1/2) (1/2) ur uth uph gam ltac:(lra) HF) as (E & L & Q & r1 & r2 & r3 & r4 & zp & beta & a2s & FA).
  exists ur, uth, uph, gam, E, L, Q, t, r, theta, phi. refine (conj HF (conj _ H)). exact (of_constants _ _ _ _ _ _ _ _ _ _ _ _ _ _ _ _ _ _ FA).
Qed.
End S.
