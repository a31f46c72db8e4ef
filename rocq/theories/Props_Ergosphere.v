(** * C104: the ergosphere: nothing stands still inside, energy is positive outside *)
From Coq Require Import Reals Lra Lia ZArith String List.
From Coquelicot Require Import Coquelicot.
From Verif Require Import Num Outcome External Checked ExternalSpec.
From Verif Require Import Model_Constants Model_Frequencies Model_Spacetime Model_Stable Model_InitialConditions Model_Orbit.
From Verif Require Import Spec SpecElliptic Elliptic P_Validation Props_Validation P_Bounds P_Schmidt P_Constants Props_Constants Props_Spacetime.
From Verif Require Import P_Radial P_Polar P_Traj P_Traj2 P_Traj3 P_Traj4 Props_Trajectory Props_Trajectory2.
From Verif Require Import Props_Stability Props_Finite Props_Frequencies Props_Units Props_Future Props_Schwarzschild Props_Orbit Props_Clocks.
Import ListNotations.
Open Scope R_scope.

(** the ergosphere: the region where [Sigma <= 2 r], i.e. r <= 1 + sqrt(1 - a^2 cos^2 theta) *)
Definition in_ergosphere (a r th : R) : Prop := r <= 1 + sqrt (1 - a^2 * cos th ^2).
Lemma ergosphere_spec a r th : a^2 <= 1 -> 1 <= r -> (in_ergosphere a r th <-> Sigma a r th <= 2 * r).
Proof.
  intros Ha Hr. unfold in_ergosphere, Sigma.
  assert (C : cos th ^2 <= 1) by (pose proof (COS_bound th); nra). pose proof (pow2_ge_0 (cos th)).
  assert (K : 0 <= 1 - a^2 * cos th ^2) by nra.
  pose proof (sqrt_pos (1 - a^2 * cos th ^2)). pose proof (pow2_sqrt _ K) as S. split; intros; nra.
Qed.

Lemma off_axis a r th : a^2 <= 1 -> 1 + sqrt (1 - a^2) < r -> Sigma a r th <= 2 * r -> 0 < a^2 * sin th ^2.
Proof.
  intros Ha Hr HS. destruct (outside_horizon a r Ha Hr) as (HD & _).
  assert (C2 : cos th ^2 = 1 - sin th ^2) by (pose proof (sin2_cos2 th) as Z; unfold Rsqr in Z; lra).
  unfold Sigma in HS. rewrite C2 in HS. unfold Delta in HD. lra.
Qed.

(** the line element of vectors in the (t, phi) plane and the spatial part *)
Lemma line_expand a r th vt vr vth vph : 0 < Sigma a r th -> 0 < Delta a r ->
  kerr_line_element a r th vt vr vth vph =
    - (1 - 2 * r / Sigma a r th) * vt^2 - 4 * r * sin th ^2 / Sigma a r th * (a * vph * vt)
    + kerr_line_element a r th 0 vr vth vph.
Proof.
  intros HS HD. assert (C2 : cos th ^2 = 1 - sin th ^2) by (pose proof (sin2_cos2 th) as Z; unfold Rsqr in Z; lra).
  unfold kerr_line_element. unfold Sigma in *. rewrite C2 in *. set (s2 := sin th ^2) in *. unfold Delta in *. field. split; lra.
Qed.
Lemma spatial_nonneg a r th vr vth vph : 0 < r -> 0 < Delta a r -> 0 <= kerr_line_element a r th 0 vr vth vph.
Proof.
  intros Hr HD.
  assert (R2 : 0 < r^2) by (apply pow_lt; lra).
  assert (S0 : 0 < Sigma a r th). { unfold Sigma. assert (0 <= a^2 * cos th ^2) by (apply Rmult_le_pos; apply pow2_ge_0). lra. }
  unfold kerr_line_element. set (Sg := Sigma a r th) in *. set (D := Delta a r) in *. set (s2 := sin th ^2).
  assert (s0 : 0 <= s2) by apply pow2_ge_0.
  assert (s1 : s2 <= 1) by (unfold s2; pose proof (SIN_bound th); nra).
  assert (K1 : 0 <= Sg / D * vr^2) by (apply Rmult_le_pos; [apply Rlt_le, Rdiv_lt_0_compat; lra | apply pow2_ge_0]).
  assert (K2 : 0 <= Sg * vth^2) by (apply Rmult_le_pos; [lra | apply pow2_ge_0]).
  assert (K3 : - (D / Sg) * (0 - a * s2 * vph)^2 + s2 / Sg * ((r^2 + a^2) * vph - a * 0)^2
     = s2 * vph^2 / Sg * ((r^2 + a^2)^2 - D * a^2 * s2)) by (field; lra).
  assert (K4 : 0 <= (r^2 + a^2)^2 - D * a^2 * s2).
  { assert (A2 : 0 <= a^2) by apply pow2_ge_0. assert (D <= r^2 + a^2) by (unfold D, Delta; lra).
    assert (D * (a^2 * s2) <= (r^2 + a^2) * (r^2 + a^2)); [|lra].
    apply Rmult_le_compat; try lra; [apply Rmult_le_pos; lra|]. assert (a^2 * s2 <= a^2 * 1) by (apply Rmult_le_compat_l; lra). lra. }
  assert (0 <= s2 * vph^2 / Sg * ((r^2 + a^2)^2 - D * a^2 * s2)).
  { apply Rmult_le_pos; [|exact K4]. apply Rmult_le_pos; [|apply Rlt_le, Rinv_0_lt_compat; lra]. apply Rmult_le_pos; [lra | apply pow2_ge_0]. }
  lra.
Qed.

Section Point.
Context (a t r th ph vt vr vth vph : R) (Ha : a^2 <= 1) (Hr : 1 + sqrt (1 - a^2) < r).
Notation pos := (Some t, Some r, Some th, Some ph).
Notation vel := (Some vt, Some vr, Some vth, Some vph).

Lemma dragged : in_ergosphere a r th -> kerr_line_element a r th vt vr vth vph < 0 -> 0 < a * vph * vt.
Proof.
  intros HE HN. destruct (outside_horizon a r Ha Hr) as (HD & R0). pose proof (sqrt_pos (1 - a^2)).
  apply ergosphere_spec in HE; [|assumption | lra].
  assert (S0 : 0 < Sigma a r th). { unfold Sigma. assert (0 <= a^2 * cos th ^2) by (apply Rmult_le_pos; apply pow2_ge_0). assert (0 < r^2) by (apply pow_lt; lra). lra. }
  rewrite line_expand in HN by assumption. pose proof (spatial_nonneg a r th vr vth vph R0 HD) as P.
  assert (K : 0 <= 2 * r / Sigma a r th - 1).
  { assert (1 <= 2 * r / Sigma a r th); [|lra]. apply (proj1 (Rle_div_r _ _ _ S0)). lra. }
  assert (0 <= (2 * r / Sigma a r th - 1) * vt^2) by (apply Rmult_le_pos; [exact K | apply pow2_ge_0]).
  apply Rnot_le_lt. intros N.
  assert (C0 : 0 <= 4 * r * sin th ^2 / Sigma a r th).
  { apply Rmult_le_pos; [|apply Rlt_le, Rinv_0_lt_compat; lra]. apply Rmult_le_pos; [lra | apply pow2_ge_0]. }
  assert (4 * r * sin th ^2 / Sigma a r th * (a * vph * vt) <= 0) by nra. lra.
Qed.

(** ** C104: inside the ergosphere every particle ([norm] = -1) is dragged along by the hole *)
Theorem C104_nothing_stands_still : in_ergosphere a r th ->
  norm (Some a) (Some t) (Some r) (Some th) (Some ph) vel = Some (-1) -> 0 < a * vph * vt.
Proof.
  intros HE HN. destruct (outside_horizon a r Ha Hr) as (HD & R0).
  assert (S0 : 0 < Sigma a r th). { unfold Sigma. assert (0 <= a^2 * cos th ^2) by (apply Rmult_le_pos; apply pow2_ge_0). assert (0 < r^2) by (apply pow_lt; lra). lra. }
  rewrite C02_norm_is_kerr_line_element in HN by lra. injection HN as HN. apply dragged; [exact HE | lra].
Qed.

(** ... and Orbit refuses every initial velocity that violates this *)
Theorem C104_orbit_refuses {X : External R} (HR : root_spec X) M mu : in_ergosphere a r th -> a * vph * vt <= 0 ->
  Orbit_init (Some a) pos vel M mu = Raise (ValueError msg_not_timelike).
Proof.
  intros HE HV. destruct (outside_horizon a r Ha Hr) as (HD & R0).
  assert (S0 : 0 < Sigma a r th). { unfold Sigma. assert (0 <= a^2 * cos th ^2) by (apply Rmult_le_pos; apply pow2_ge_0). assert (0 < r^2) by (apply pow_lt; lra). lra. }
  apply (proj1 (C06_orbit_checks_velocity HR a t r th ph vt vr vth vph M mu ltac:(lra) ltac:(lra))).
  apply Rnot_lt_le. intros N. pose proof (dragged HE N). lra.
Qed.

(** outside the ergosphere the recovered energy has the sign of the time component: particles that
    move forward in time have positive energy *)
Theorem C104_energy_positive_outside : ~ in_ergosphere a r th -> sin th <> 0 ->
  norm (Some a) (Some t) (Some r) (Some th) (Some ph) vel = Some (-1) ->
  exists E L Q, constants_from_initial_conditions (Some a) pos vel = Ret (Some E, Some L, Some Q) /\
  1 + (1 - 2 * r / Sigma a r th) * vt^2 <= 2 * (E * vt) /\ 0 < E * vt.
Proof.
  intros HE Hs HN. destruct (outside_horizon a r Ha Hr) as (HD & R0). pose proof (sqrt_pos (1 - a^2)).
  rewrite ergosphere_spec in HE by (assumption || lra). apply Rnot_le_lt in HE.
  rewrite C02_norm_is_kerr_line_element in HN by lra. injection HN as HN.
  destruct (C05_recovered_constants_are_momenta a t r th ph vt vr vth vph ltac:(lra) ltac:(lra) Hs) as (E & L & Q & HC & P & _).
  exists E, L, Q. split; [exact HC|].
  pose proof (P (- vt) 0) as P1. rewrite HN in P1. replace (vt + - vt) with 0 in P1 by ring. rewrite Rplus_0_r in P1.
  pose proof (spatial_nonneg a r th vr vth vph R0 HD) as SP.
  assert (LT : kerr_line_element a r th (- vt) 0 0 0 = - (1 - 2 * r / Sigma a r th) * vt^2).
  { rewrite line_expand by lra. unfold kerr_line_element, Rdiv. ring. }
  rewrite LT in P1.
  assert (h0 : 0 < 1 - 2 * r / Sigma a r th).
  { assert (SG : 0 < Sigma a r th) by lra. assert (2 * r / Sigma a r th < 1); [|lra]. apply (proj2 (Rlt_div_l _ _ _ SG)). lra. }
  assert (0 <= (1 - 2 * r / Sigma a r th) * vt^2) by (apply Rmult_le_pos; [lra | apply pow2_ge_0]). lra.
Qed.
End Point.

Section S.
Context {X : External R} (HX : special_spec X) (HR : root_spec X).

(** ... so while a bound orbit, prograde or retrograde, is inside the ergosphere, its azimuth advances
    in the direction in which the hole spins *)
Theorem C104_bound_orbits a p e x ur uth uph gam : 0 <= a ->
  mino_frequencies (Some a) (Some p) (Some e) (Some x) = Ret (Some ur, Some uth, Some uph, Some gam) ->
  forall qt qr qth qph t r theta phi,
  runs_as (stable_trajectory (Some a) (Some p) (Some e) (Some x) (Some qt, Some qr, Some qth, Some qph) None "natural" "natural")
    t r theta phi ->
  forall l, in_ergosphere a (r l) (theta l) -> exists phi', is_derive phi l phi' /\ 0 < phi'.
Proof.
  intros Ha HF qt qr qth qph t r theta phi H l HE.
  destruct (mino_facts HX HR a p e x ur uth uph gam Ha HF) as (E & L & Q & r1 & r2 & r3 & r4 & zp & beta & a2s & FA).
  pose proof (of_constants _ _ _ _ _ _ _ _ _ _ _ _ _ _ _ _ _ _ FA) as HC. clear FA.
  destruct (constants_inv _ _ _ _ _ _ _ Ha HC) as [HCK _].
  destruct (accepted_bounds HR a p e x Ha HCK) as (Ha1 & He & Hx & Hr2 & HD & _ & _).
  pose proof H as (T1 & T2 & T3 & T4 & HT & _).
  pose proof (C51_four_velocity_is_derivative HX HR a p e x ur uth uph gam Ha HF qt qr qth qph T1 T2 T3 T4 t r theta phi E L Q HT H HC) as V.
  destruct (four_velocity (Some a) T2 T3 (Some E, Some L, Some Q) (Some ur) (Some uth) (Some qt, Some qr, Some qth, Some qph)) as [[[u_t u_r] u_th] u_ph].
  destruct (V l) as (vt & vr & vth & vph & _ & _ & _ & _ & D1 & _ & _ & D4 & N).
  assert (OUT : 1 + sqrt (1 - a^2) < r l).
  { destruct (C25_bound_motion HX HR a p e x ur uth uph gam Ha HF qt qr qth qph t r theta phi H l) as ((B1 & _) & _).
    apply Rlt_le_trans with (p / (1 + e)); [|exact B1].
    assert (SS : sqrt (1 - a^2) ^2 = 1 - a^2) by (apply pow2_sqrt; nra). pose proof (sqrt_pos (1 - a^2)).
    unfold Delta in HD. nra. }
  pose proof (C104_nothing_stands_still a (t l) (r l) (theta l) (phi l) vt vr vth vph ltac:(nra) OUT HE N) as G.
  exists (Sigma a (r l) (theta l) * vph). split; [exact D4|].
  destruct (C65_time_runs_forward HX HR a p e x ur uth uph gam Ha HF) as (_ & FW).
  destruct (FW qt qr qth qph t r theta phi H) as (FW1 & _). destruct (FW1 l) as (t' & DT & B).
  assert (EQ : Sigma a (r l) (theta l) * vt = t') by (pose proof (is_derive_unique _ _ _ D1) as E1; pose proof (is_derive_unique _ _ _ DT) as E2; congruence).
  pose proof (sqrt_pos (1 - a^2)). assert (R2 : 0 < r l ^2) by (apply pow_lt; lra).
  assert (S0 : 0 < Sigma a (r l) (theta l)). { unfold Sigma. assert (0 <= a^2 * cos (theta l) ^2) by (apply Rmult_le_pos; apply pow2_ge_0). lra. }
  assert (0 < vt). { apply Rnot_le_lt. intros N0. assert (Sigma a (r l) (theta l) * vt <= 0) by nra. lra. }
  apply Rmult_lt_0_compat; [exact S0|]. apply Rnot_le_lt. intros N0.
  assert (0 <= a * vt) by (apply Rmult_le_pos; lra). assert (a * vph * vt <= 0) by nra. lra.
Qed.
End S.

(** concrete case: a = 3/5, equatorial plane, r = 19/10 is outside the horizon 9/5 and inside the
    ergosphere, and there is a particle there *)
Example C104_case : 1 + sqrt (1 - (3/5)^2) < 19/10 /\ in_ergosphere (3/5) (19/10) (PI/2) /\
  (exists vt vph, norm (Some (3/5)) (Some 0) (Some (19/10)) (Some (PI/2)) (Some 0) (Some vt, Some 0, Some 0, Some vph) = Some (-1)) /\
  ~ in_ergosphere (3/5) 3 (PI/2) /\
  (exists vt vph, norm (Some (3/5)) (Some 0) (Some 3) (Some (PI/2)) (Some 0) (Some vt, Some 0, Some 0, Some vph) = Some (-1)).
Proof.
  assert (S : sqrt (1 - (3/5)^2) = 4/5) by (replace (1 - (3/5)^2) with ((4/5) * (4/5)) by field; apply sqrt_square; lra).
  assert (E : forall r, in_ergosphere (3/5) r (PI/2) <-> r <= 2).
  { intros r. unfold in_ergosphere. rewrite cos_PI2. replace (1 - (3/5)^2 * 0^2) with 1 by ring. rewrite sqrt_1. lra. }
  refine (conj _ (conj _ (conj _ (conj _ _)))).
  - rewrite S; lra.
  - apply E; lra.
  - destruct (C103_bound_is_sharp (3/5) 0 (19/10) (PI/2) 0 ltac:(lra) ltac:(rewrite S; lra)) as (vt & vph & N & _). exists vt, vph. exact N.
  - rewrite E. lra.
  - destruct (C103_bound_is_sharp (3/5) 0 3 (PI/2) 0 ltac:(lra) ltac:(rewrite S; lra)) as (vt & vph & N & _). exists vt, vph. exact N.
Qed.
