(** * C43: an Orbit built from initial conditions starts at these initial conditions *)
From Coq Require Import Reals Lra Lia ZArith String List.
From Coquelicot Require Import Coquelicot.
From Verif Require Import Num Outcome External Checked ExternalSpec.
From Verif Require Import Model_Units Model_Constants Model_Frequencies Model_Spacetime Model_InitialConditions Model_Stable Model_Orbit.
From Verif Require Import Spec SpecElliptic Elliptic P_Roots P_Poly P_Validation Props_Validation P_Bounds P_Constants Props_Constants.
From Verif Require Import P_Spacetime Props_Spacetime Props_Plunge Props_Orbit.
From Verif Require Import P_Radial P_Polar P_Traj P_Traj2 P_Traj3 P_Traj4 Props_Trajectory Props_Trajectory2.
From Verif Require Import Props_Stability Props_Stability3 P_Phases.
Import ListNotations.
Open Scope R_scope.

(** the tolerance of the turning-point tests *)
Definition tol : R := 1 / 10000.
Lemma default_tol_value : default_tol = Some tol.
Proof. reflexivity. Qed.
Lemma tol_pos : 0 < tol. Proof. unfold tol. lra. Qed.

Section S.
Context {X : External R} (HX : special_spec X) (HR : root_spec X) (HP : polyroots_spec X).
Context (a p e x ur uth uph gam : R) (Ha : 0 < a).
Context (HF : mino_frequencies (Some a) (Some p) (Some e) (Some x) = Ret (Some ur, Some uth, Some uph, Some gam)).

Lemma orbit_polynomials E L Q r1 r2 r3 r4 zp beta a2s :
  orbit_facts a p e x ur uth uph gam E L Q r1 r2 r3 r4 zp beta a2s ->
  0 < E < 1 /\ r4 <= rm a /\ rm a < rp a /\ rp a <= r3 /\ r3 < r2 /\
  real_of_roots (polyroots (radial_poly (Some a) (Some E) (Some L) (Some Q))) = Ret [Some r4; Some r3; Some r2; Some r1] /\
  polar_roots_of (Some a) (Some E) (Some L) (Some Q) = Ret (Some (1 - x^2), Some (beta / (a^2 * (1 - E^2)))) /\
  0 < a^2 * (1 - E^2) < beta.
Proof.
  intros F. destruct F. pose proof of_constants as HC.
  destruct (C15_roots_defined HR a p e x E L Q (Some (Some E, Some L, Some Q)) HC (proj2 of_e) (or_intror eq_refl))
    as (r1' & r2' & r3' & r4' & Hrr & Q1 & Q2 & R4 & R3 & R21 & _).
  rewrite of_roots in Hrr. apply Ret_inj in Hrr.
  assert (r1 = r1' /\ r2 = r2' /\ r3 = r3' /\ r4 = r4') as (<- & <- & <- & <-) by (repeat split; congruence).
  destruct (C23_bound_orbits HR a p e x E L Q HC (proj2 of_e)) as (HE & HQ & _).
  fold (rm a) in R4. fold (rp a) in R3.
  assert (RM : rm a < rp a). { assert (0 < 1 - a^2) by (clear - Ha of_a; nra). pose proof (sqrt_lt_R0 _ H). unfold rm, rp. lra. }
  assert (A2 : 0 < a^2 * (1 - E^2)) by (apply Rmult_lt_0_compat; [apply pow_lt; lra | clear - HE; nra]).
  assert (BA : a^2 * (1 - E^2) < beta).
  { rewrite of_beta. apply (Rlt_div_r _ _ (1 - (1 - x^2))); [lra|]. assert (0 < L^2) by now apply pow2_gt_0. lra. }
  refine (conj HE (conj (proj2 R4) (conj RM (conj (proj1 R3) (conj (proj2 R3) (conj _ (conj _ (conj A2 BA)))))))).
  - rewrite radial_poly_some. apply (real_of_roots_some _ [r4; r3; r2; r1]).
    pose proof (of_R 0) as F0. pose proof (of_R 1) as F1. pose proof (of_R (-1)) as F2.
    pose proof (of_R 2) as F3. pose proof (of_R (-2)) as F4. unfold radial_potential, Delta in *.
    cbn [map]. unfold radial_poly. rnum.
    apply (poly4_real HP (E^2 - 1)); try lra.
  - unfold polar_roots_of. rewrite polar_poly_some.
    change (neqb (Some a) (nZ 0)) with (Some (Reqb a 0)). rewrite Reqb_false by lra.
    rewrite (real_of_roots_some _ [1 - x^2; beta / (a^2 * (1 - E^2))]); [reflexivity|].
    pose proof (of_Z 0) as F0. pose proof (of_Z 1) as F1. pose proof (of_Z (-1)) as F2. unfold polar_polynomial in *.
    cbn [map]. unfold polar_poly. rnum. set (A := a^2 * (1 - E^2)) in *. clearbody A.
    assert (ZA : A * (beta / A) = beta) by (field; lra).
    apply (poly2_real HP A).
    + lra.
    + apply Rle_trans with 1; [lra|]. apply Rle_div_r; lra.
    + replace (A * ((1 - x^2) * (beta / A))) with ((1 - x^2) * (A * (beta / A))) by ring. rewrite ZA. lra.
    + replace (- A * (1 - x^2 + beta / A)) with (- A * (1 - x^2) - A * (beta / A)) by ring. rewrite ZA. lra.
    + ring.
Qed.

Context (E L Q t0 r0 th0 ph0 dt dr dth dph : R).
Context (HC : constants_of_motion (Some a) (Some p) (Some e) (Some x) = Ret (Some E, Some L, Some Q)).
Context (Hth : 0 < th0 < PI) (Hr : p / (1 + e) <= r0 <= p / (1 - e)).
Local Notation pos := (Some t0, Some r0, Some th0, Some ph0).
Local Notation vel := (Some dt, Some dr, Some dth, Some dph).
Context (HN : kerr_line_element a r0 th0 dt dr dth dph = -1).
Context (HI : constants_from_initial_conditions (Some a) pos vel = Ret (Some E, Some L, Some Q)).

Local Notation r_away := (tol <= Rabs (r0 - p / (1 + e)) /\ tol <= Rabs (r0 - p / (1 - e))).
Local Notation thmin := (acos (sqrt (1 - x^2))).
Local Notation th_away := (tol <= Rabs (th0 - thmin) /\ tol <= Rabs (th0 - (PI - thmin))).
Local Notation Sg := (Sigma a r0 th0).

Section F.
Context (r1 r2 r3 r4 : R) (zp : option R) (beta a2s : R).
Context (F : orbit_facts a p e x ur uth uph gam E L Q r1 r2 r3 r4 zp beta a2s).

Lemma sigma_pos : 0 < Sg.
Proof.
  destruct F. rewrite <- of_r2 in Hr. unfold Sigma. pose proof (pow2_ge_0 (cos th0)).
  assert (0 < r0^2) by (apply pow_lt; lra). pose proof (pow2_ge_0 a). nra.
Qed.
Lemma delta_nz : Delta a r0 <> 0.
Proof.
  destruct (orbit_polynomials _ _ _ _ _ _ _ _ _ _ F) as (_ & _ & RM & R3 & R2 & _).
  destruct F. rewrite <- of_r2 in Hr. rewrite Delta_rpm by assumption.
  apply Rmult_integral_contrapositive. split; lra.
Qed.
Lemma momenta : (Sg * dth)^2 = polar_potential a E L Q th0 /\ (Sg * dr)^2 = radial_potential a E L Q r0 /\
  dt_dlambda a E L r0 th0 = Sg * dt /\ dphi_dlambda a E L r0 th0 = Sg * dph.
Proof.
  pose proof sigma_pos. pose proof (sin_gt_0 th0 (proj1 Hth) (proj2 Hth)).
  destruct (C05_recovered_constants_are_momenta a t0 r0 th0 ph0 dt dr dth dph) as (E' & L' & Q' & K & _ & M1 & M2 & M3 & M4);
    [lra | exact delta_nz | lra |].
  rewrite HI in K. apply Ret_inj in K. assert (E = E' /\ L = L' /\ Q = Q') as (<- & <- & <-) by (repeat split; congruence).
  auto.
Qed.
Lemma away_strict : r_away -> r2 < r0 < r1 /\ dr <> 0.
Proof.
  intros [A1 A2]. pose proof tol_pos. pose proof sigma_pos.
  assert (B : r2 < r0 < r1).
  { destruct F. rewrite <- of_r2 in A1, Hr. rewrite <- of_r1 in A2, Hr.
    assert (r0 <> r2) by (intros ->; rewrite Rminus_diag_eq, Rabs_R0 in A1 by reflexivity; lra).
    assert (r0 <> r1) by (intros ->; rewrite Rminus_diag_eq, Rabs_R0 in A2 by reflexivity; lra). lra. }
  split; [exact B|]. intros Z. destruct momenta as (_ & M & _).
  destruct (orbit_polynomials _ _ _ _ _ _ _ _ _ _ F) as (HE & R4 & RM & R3 & R2 & _). rewrite (of_R _ _ _ _ _ _ _ _ _ _ _ _ _ _ _ _ _ _ F) in M.
  assert (0 < (1 - E^2) * (r1 - r0) * (r0 - r2) * (r0 - r3) * (r0 - r4)).
  { assert (0 < 1 - E^2) by (clear - HE; nra). repeat apply Rmult_lt_0_compat; lra. }
  rewrite <- M, Z, Rmult_0_r in H1. lra.
Qed.
Lemma polar_inside : th_away -> cos th0 ^ 2 < 1 - x^2 /\ dth <> 0.
Proof.
  intros [A1 A2]. pose proof tol_pos. pose proof sigma_pos as SP. destruct momenta as (M & _).
  destruct (orbit_polynomials _ _ _ _ _ _ _ _ _ _ F) as (HE & _ & _ & _ & _ & _ & _ & AB).
  pose proof (sin_gt_0 th0 (proj1 Hth) (proj2 Hth)) as S0.
  destruct F. pose proof (of_Z (cos th0 ^ 2)) as Z.
  assert (PP : polar_potential a E L Q th0 * sin th0 ^ 2 = polar_polynomial a E L Q (cos th0 ^ 2)).
  { unfold polar_potential, polar_polynomial. replace (cos th0 ^ 2) with (1 - sin th0 ^ 2) by (rewrite cos2_sin2; ring). field. lra. }
  rewrite <- M, Z in PP.
  assert (C1 : cos th0 ^ 2 <= 1) by (rewrite cos2_sin2; pose proof (pow2_ge_0 (sin th0)); lra).
  assert (BB : 0 < beta - a^2 * (1 - E^2) * cos th0 ^ 2) by (clear - AB C1; nra).
  assert (NE : cos th0 ^ 2 <> 1 - x^2).
  { intros K. pose proof (sqrt_zm _ of_z) as Z2.
    assert (K2 : (cos th0 - sqrt (1 - x^2)) * (cos th0 + sqrt (1 - x^2)) = 0).
    { replace ((cos th0 - sqrt (1 - x^2)) * (cos th0 + sqrt (1 - x^2))) with (cos th0 ^ 2 - sqrt (1 - x^2) ^ 2) by ring.
      rewrite pow2_sqrt by lra. lra. }
    apply Rmult_integral in K2 as [K2|K2].
    - assert (th0 = thmin) as K3. { rewrite <- (acos_cos th0) by lra. f_equal. lra. }
      rewrite <- K3, Rminus_diag_eq, Rabs_R0 in A1 by reflexivity. lra.
    - assert (th0 = PI - thmin) as K3. { rewrite <- acos_opp. rewrite <- (acos_cos th0) by lra. f_equal. lra. }
      rewrite <- K3, Rminus_diag_eq, Rabs_R0 in A2 by reflexivity. lra. }
  assert (GE : 0 <= (Sg * dth)^2 * sin th0 ^ 2) by (apply Rmult_le_pos; apply pow2_ge_0).
  split.
  - destruct (Rtotal_order (cos th0 ^ 2) (1 - x^2)) as [K|[K|K]]; [assumption | contradiction | exfalso].
    rewrite PP in GE. assert (0 < (cos th0 ^ 2 - (1 - x^2)) * (beta - a^2 * (1 - E^2) * cos th0 ^ 2)) by (apply Rmult_lt_0_compat; lra). lra.
  - intros Z0. rewrite Z0 in PP. assert (K : (1 - x ^ 2 - cos th0 ^ 2) * (beta - a ^ 2 * (1 - E ^ 2) * cos th0 ^ 2) = 0) by (rewrite <- PP; ring).
    apply Rmult_integral in K as [K|K]; lra.
Qed.

(** the phases that are returned *)
Definition q_r : R :=
  if Rlt_dec (Rabs (r0 - r2)) tol then 0 else if Rlt_dec (Rabs (r0 - r1)) tol then PI else
  if Rlt_dec 0 dr then q0 r1 r2 r3 r4 r0 else 2 * PI - q0 r1 r2 r3 r4 r0.
Definition q_th : R :=
  if Rlt_dec (Rabs (th0 - thmin)) tol then 0 else if Rlt_dec (Rabs (th0 - (PI - thmin))) tol then PI else
  if Rlt_dec 0 dth then PI / 2 - st0 a E (1 - x^2) beta th0 else st0 a E (1 - x^2) beta th0 + 3 * PI / 2.

Lemma phases_run c : c = None \/ c = Some (Some E, Some L, Some Q) ->
  stable_orbit_initial_phases (Some a) pos vel c None None None default_tol
  = Ret (Some t0, Some q_r, Some q_th, Some ph0).
Proof.
  intros Hc. unfold stable_orbit_initial_phases.
  assert (DC : default c (constants_from_initial_conditions (Some a) pos vel) = Ret (Some E, Some L, Some Q)).
  { destruct Hc as [-> | ->]; [exact HI | reflexivity]. }
  rewrite DC. cbn [bind].
  destruct (orbit_polynomials _ _ _ _ _ _ _ _ _ _ F) as (HE & R4 & RM & R3 & R2 & RR & PR & AB).
  rewrite PR, RR. cbn [bind unpack4]. rewrite default_tol_value.
  assert (QR : (If nltb (nabs (Some r0 - Some r2)%num) (Some tol) Then Ret (nZ 0) Else
     (If nltb (nabs (Some r0 - Some r1)%num) (Some tol) Then Ret npi Else
     (do ur <- default None (Ret (r_frequency_from_constants (Some E, Some L, Some Q) (Some r4, Some r3, Some r2, Some r1)));
     radial_phase (Some E) (Some r0) (Some dr) (Some r1) (Some r2) (Some r3) (Some r4) ur)))%outcome = Ret (Some q_r)).
  { change (nltb (nabs (Some r0 - Some r2)%num) (Some tol)) with (Some (Rltb (Rabs (r0 - r2)) tol)).
    change (nltb (nabs (Some r0 - Some r1)%num) (Some tol)) with (Some (Rltb (Rabs (r0 - r1)) tol)).
    unfold q_r, Rltb. destruct (Rlt_dec (Rabs (r0 - r2)) tol) as [D|D]; cbn [ifo]; [reflexivity|].
    destruct (Rlt_dec (Rabs (r0 - r1)) tol) as [D'|D']; cbn [ifo]; [reflexivity|].
    cbn [default bind]. unfold r_frequency_from_constants.
    destruct away_strict as [B _]. { destruct F. rewrite <- of_r1, <- of_r2. lra. }
    destruct F. assert (0 < 1 - E^2) by (clear - HE; nra).
    rewrite (freq_reversed HX) by assumption. apply (radial_phase_run HX); try assumption; lra. }
  rewrite QR. cbn [bind].
  assert (TM : nacos (nsqrt (Some (1 - x^2))) = Some thmin).
  { destruct F. pose proof (sqrt_zm _ of_z). cnum. rewrite csqrt_some by lra. unfold cunit.
    destruct (Rle_dec (-1) (sqrt (1 - x^2))); [|lra]. destruct (Rle_dec (sqrt (1 - x^2)) 1); [reflexivity | lra]. }
  rewrite TM.
  match goal with |- bind ?m _ = _ => assert (QT : m = Ret (Some q_th)) end.
  { change (nltb (nabs (Some th0 - Some thmin)%num) (Some tol)) with (Some (Rltb (Rabs (th0 - thmin)) tol)).
    change (nltb (nabs (Some th0 - (npi - Some thmin))%num) (Some tol)) with (Some (Rltb (Rabs (th0 - (PI - thmin))) tol)).
    unfold q_th, Rltb. destruct (Rlt_dec (Rabs (th0 - thmin)) tol) as [D|D]; cbn [ifo]; [reflexivity|].
    destruct (Rlt_dec (Rabs (th0 - (PI - thmin))) tol) as [D'|D']; cbn [ifo]; [reflexivity|].
    destruct polar_inside as [B Bd]; [lra|].
    cbn [default]. unfold theta_frequency_from_constants.
    change (neqb (Some a) (nZ 0)) with (Some (Reqb a 0)). rewrite Reqb_false by lra. cbn [ifo].
    destruct F. rewrite (theta_freq_value HX a E L (1 - x^2) beta th0) by (assumption || lra). cbn [bind]. cbv zeta.
    rewrite (lambda_theta HX a E L (1 - x^2) beta th0) by (assumption || lra).
    apply (polar_phase_run a E L (1 - x^2) beta th0); assumption || lra. }
  rewrite QT. reflexivity.
Qed.

Lemma fr_q_r : fr r1 r2 r3 r4 q_r = if Rlt_dec (Rabs (r0 - r2)) tol then r2 else if Rlt_dec (Rabs (r0 - r1)) tol then r1 else r0.
Proof.
  destruct (orbit_polynomials _ _ _ _ _ _ _ _ _ _ F) as (HE & R4 & RM & R3 & R2 & _).
  unfold fr, q_r. destruct (Rlt_dec (Rabs (r0 - r2)) tol) as [D|D].
  - destruct F. now apply (rho_0 HX E).
  - destruct (Rlt_dec (Rabs (r0 - r1)) tol) as [D'|D']; [destruct F; now apply (rho_PI HX E)|].
    destruct away_strict as [B _]. { destruct F. rewrite <- of_r1, <- of_r2. lra. }
    destruct F. assert (0 < 1 - E^2) by (clear - HE; nra).
    destruct (Rlt_dec 0 dr); [apply (rho_q0 HX) | apply (rho_q0' HX)]; try assumption; lra.
Qed.
Lemma fth_q_th : fth a x E beta q_th = if Rlt_dec (Rabs (th0 - thmin)) tol then thmin else if Rlt_dec (Rabs (th0 - (PI - thmin))) tol then PI - thmin else th0.
Proof.
  destruct (orbit_polynomials _ _ _ _ _ _ _ _ _ _ F) as (HE & _ & _ & _ & _ & _ & _ & AB).
  unfold fth, q_th. destruct (Rlt_dec (Rabs (th0 - thmin)) tol) as [D|D].
  - destruct F. unfold th, cth. rewrite psi_t_0, sin_PI2 by assumption. f_equal. ring.
  - destruct (Rlt_dec (Rabs (th0 - (PI - thmin))) tol) as [D'|D'].
    + destruct F. unfold th, cth. rewrite psi_t_PI by assumption. rewrite <- acos_opp. f_equal. rewrite neg_sin, sin_PI2. ring.
    + destruct polar_inside as [B Bd]; [lra|]. destruct F.
      destruct (Rlt_dec 0 dth); [apply (th_up HX) | apply (th_down HX)]; try assumption; lra.
Qed.
End F.

(** The phases are always computed.  The trajectory with these phases starts at the given
    t and phi, and within [tol] of the given r and theta.  Away from the turning points it
    starts exactly at the given r (theta) and moves with exactly the given velocity. *)
Theorem C43_phases_reproduce_initial_conditions :
  exists qr qth,
  stable_orbit_initial_phases (Some a) pos vel None None None None default_tol
    = Ret (Some t0, Some qr, Some qth, Some ph0) /\
  forall t r theta phi,
  runs_as (stable_trajectory (Some a) (Some p) (Some e) (Some x) (Some t0, Some qr, Some qth, Some ph0) None "natural" "natural")
    t r theta phi ->
  t 0 = t0 /\ phi 0 = ph0 /\ Rabs (r 0 - r0) < tol /\ Rabs (theta 0 - th0) < tol /\
  (r_away -> r 0 = r0 /\ is_derive r 0 (Sg * dr)) /\
  (th_away -> theta 0 = th0 /\ is_derive theta 0 (Sg * dth)) /\
  (r_away -> th_away -> is_derive t 0 (Sg * dt) /\ is_derive phi 0 (Sg * dph)).
Proof.
  destruct (mino_facts HX HR a p e x ur uth uph gam (Rlt_le _ _ Ha) HF) as (E' & L' & Q' & r1 & r2 & r3 & r4 & zp & beta & a2s & F).
  assert (E' = E /\ L' = L /\ Q' = Q) as (-> & -> & ->).
  { pose proof (of_constants _ _ _ _ _ _ _ _ _ _ _ _ _ _ _ _ _ _ F) as K. rewrite HC in K. apply Ret_inj in K. repeat split; congruence. }
  exists (q_r r1 r2 r3 r4), (q_th beta). split; [apply (phases_run _ _ _ _ _ _ _ F); now left|].
  intros t r theta phi H.
  pose proof tol_pos as TP.
  pose proof (runs_as_unique _ _ _ _ _ _ _ _ _ H (trajectory_runs HX a p e x ur uth uph gam _ _ _ _ _ _ _ _ _ _ F _ _ _ _ HF)) as Eq.
  destruct (C26_start HX HR a p e x ur uth uph gam (Rlt_le _ _ Ha) HF _ _ _ _ _ _ _ _ H) as (T0 & P0).
  destruct (Eq 0) as (_ & R0 & Th0 & _). unfold sr, sth in R0, Th0. rewrite Rmult_0_r, Rplus_0_l in R0, Th0.
  pose proof (fr_q_r _ _ _ _ _ _ _ F) as FR. pose proof (fth_q_th _ _ _ _ _ _ _ F) as FT.
  destruct (momenta _ _ _ _ _ _ _ F) as (M1 & M2 & M3 & M4).
  pose proof (sigma_pos _ _ _ _ _ _ _ F) as SP.
  destruct (C28_radial_and_polar_equations HX HR a p e x ur uth uph gam (Rlt_le _ _ Ha) HF _ _ _ _ _ _ _ _ H E L Q HC 0)
    as (r' & th' & D1 & D2 & O1 & _ & O2).
  destruct (C29_time_and_azimuth_equations HX HR a p e x ur uth uph gam (Rlt_le _ _ Ha) HF _ _ _ _ _ _ _ _ H E L Q HC 0)
    as (_ & _ & D3 & D4).
  pose proof (of_r1 _ _ _ _ _ _ _ _ _ _ _ _ _ _ _ _ _ _ F) as Q1. pose proof (of_r2 _ _ _ _ _ _ _ _ _ _ _ _ _ _ _ _ _ _ F) as Q2.
  pose proof (ur_pos _ _ _ _ _ _ _ _ _ _ _ _ _ _ _ _ _ _ F) as U1. pose proof (uth_pos _ _ _ _ _ _ _ _ _ _ _ _ _ _ _ _ _ _ F) as U2.
  assert (RA : r_away -> r 0 = r0).
  { rewrite <- Q1, <- Q2. intros [A1 A2]. rewrite R0, FR. destruct (Rlt_dec (Rabs (r0 - r2)) tol); [lra|]. destruct (Rlt_dec (Rabs (r0 - r1)) tol); lra. }
  assert (TA : th_away -> theta 0 = th0).
  { intros [A1 A2]. rewrite Th0, FT. destruct (Rlt_dec (Rabs (th0 - thmin)) tol); [lra|]. destruct (Rlt_dec (Rabs (th0 - (PI - thmin))) tol); lra. }
  refine (conj T0 (conj P0 (conj _ (conj _ (conj _ (conj _ _)))))).
  - rewrite R0, FR, Rabs_minus_sym. destruct (Rlt_dec (Rabs (r0 - r2)) tol); [assumption|]. destruct (Rlt_dec (Rabs (r0 - r1)) tol); [assumption|].
    rewrite Rminus_diag_eq, Rabs_R0 by reflexivity. assumption.
  - rewrite Th0, FT, Rabs_minus_sym. destruct (Rlt_dec (Rabs (th0 - thmin)) tol); [assumption|]. destruct (Rlt_dec (Rabs (th0 - (PI - thmin))) tol); [assumption|].
    rewrite Rminus_diag_eq, Rabs_R0 by reflexivity. assumption.
  - intros A. split; [auto|]. replace (Sg * dr) with r'; [assumption|].
    pose proof (fr_derive HX _ _ _ _ _ _ _ _ _ _ _ _ _ _ _ _ _ _ F) as Fr.
    destruct (rho'_sign HX _ _ _ _ _ _ _ _ _ _ _ _ _ _ _ _ _ _ F (ur * 0 + q_r r1 r2 r3 r4)) as [S1 S2].
    assert (Rr : r' = ur * rho' r1 r2 r3 r4 (ellK (kr2 r1 r2 r3 r4) / PI) (psi_r r1 r2 r3 r4) (ur * 0 + q_r r1 r2 r3 r4)).
    { rewrite <- (is_derive_unique _ _ _ D1). apply is_derive_unique.
      eapply is_derive_ext; [|apply comp_lin, Fr]. intros s. symmetry. apply Eq. }
    rewrite (RA A), <- M2 in O1.
    destruct (away_strict r1 r2 r3 r4 zp beta a2s F A) as [B Nd]. rewrite <- Q1, <- Q2 in A.
    destruct (orbit_polynomials _ _ _ _ _ _ _ _ _ _ F) as (HE & R4 & RM & R3 & R2 & _).
    assert (QB : 0 < q0 r1 r2 r3 r4 r0 < PI). { destruct F. apply q0_bound; try assumption; lra. }
    assert (SQ : 0 < dr /\ 0 < sin (q_r r1 r2 r3 r4) \/ dr < 0 /\ sin (q_r r1 r2 r3 r4) < 0).
    { unfold q_r. destruct (Rlt_dec (Rabs (r0 - r2)) tol); [lra|]. destruct (Rlt_dec (Rabs (r0 - r1)) tol); [lra|].
      destruct (Rlt_dec 0 dr); [left | right]; (split; [lra|]).
      - apply sin_gt_0; lra.
      - apply sin_lt_0; lra. }
    rewrite Rmult_0_r, Rplus_0_l in *.
    apply (signed_eq _ _ (sin (q_r r1 r2 r3 r4))); [exact O1 | | | |]; intros S.
    + rewrite Rr. apply mul_nonneg; auto.
    + rewrite Rr. apply mul_nonpos; auto.
    + apply Rmult_le_pos; lra.
    + apply mul_nonpos; lra.
  - intros A. split; [auto|]. replace (Sg * dth) with th'; [assumption|].
    pose proof (fth_derive HX _ _ _ _ _ _ _ _ _ _ _ _ _ _ _ _ _ _ F) as Ft.
    destruct (th'_sign HX _ _ _ _ _ _ _ _ _ _ _ _ _ _ _ _ _ _ F (uth * 0 + q_th beta)) as [S1 S2].
    assert (Rr : th' = uth * P_Polar.th' (a^2 * (1 - E^2)) (1 - x^2) beta (2 * ellK (kt2 (a^2 * (1 - E^2)) (1 - x^2) beta) / PI) (psi_t a E (1 - x^2) beta) (uth * 0 + q_th beta)).
    { rewrite <- (is_derive_unique _ _ _ D2). apply is_derive_unique.
      eapply is_derive_ext; [|apply comp_lin, Ft]. intros s. symmetry. apply Eq. }
    rewrite (TA A) in O2. rewrite <- M1 in O2.
    destruct (polar_inside r1 r2 r3 r4 zp beta a2s F A) as [B Nd].
    destruct (orbit_polynomials _ _ _ _ _ _ _ _ _ _ F) as (HE & _ & _ & _ & _ & _ & _ & AB).
    assert (QB : - (PI / 2) < st0 a E (1 - x^2) beta th0 < PI / 2).
    { destruct F. apply (st0_bound a E (1 - x^2) beta th0); try assumption; lra. }
    assert (SQ : 0 < dth /\ 0 < sin (q_th beta) \/ dth < 0 /\ sin (q_th beta) < 0).
    { unfold q_th. destruct (Rlt_dec (Rabs (th0 - thmin)) tol); [lra|]. destruct (Rlt_dec (Rabs (th0 - (PI - thmin))) tol); [lra|].
      destruct (Rlt_dec 0 dth); [left | right]; (split; [lra|]).
      - apply sin_gt_0; lra.
      - apply sin_lt_0; lra. }
    rewrite Rmult_0_r, Rplus_0_l in *.
    apply (signed_eq _ _ (sin (q_th beta))); [exact O2 | | | |]; intros S.
    + rewrite Rr. apply mul_nonneg; auto.
    + rewrite Rr. apply mul_nonpos; auto.
    + apply Rmult_le_pos; lra.
    + apply mul_nonpos; lra.
  - intros A1 A2. rewrite (RA A1), (TA A2) in D3, D4. rewrite M3 in D3. rewrite M4 in D4. auto.
Qed.
End S.

(** Orbit(a, initial_position, initial_velocity) itself: it is recognised as stable, carries
    the constants, the parameters and the frequencies of the orbit through the initial
    position, and its trajectory starts at the initial conditions. *)
Section Orbit.
Context {X : External R} (HX : special_spec X) (HR : root_spec X) (HP : polyroots_spec X).

Lemma natural_ignores_M (a p e x : option R) ph (M : option (option R)) t r theta phi :
  runs_as (stable_trajectory a p e x ph None "natural" "natural") t r theta phi ->
  runs_as (stable_trajectory a p e x ph M "natural" "natural") t r theta phi.
Proof.
  destruct ph as [[[qt qr] qth] qph].
  intros (T1 & T2 & T3 & T4 & EqT & H). unfold stable_trajectory in *.
  change (check_units M "natural" "natural") with (Ret (A := unit) tt).
  change (check_units None "natural" "natural") with (Ret (A := unit) tt) in EqT. cbn [bind] in *.
  destruct (mino_frequencies a p e x) as [[[[ur uth] uph] gam]| |]; cbn [bind] in *; try discriminate.
  destruct (constants_of_motion a p e x) as [c| |]; cbn [bind] in *; try discriminate.
  destruct (stable_radial_roots a p e x (Some c)) as [rr| |]; cbn [bind] in *; try discriminate.
  destruct (stable_polar_roots a p e x (Some c)) as [zz| |]; cbn [bind] in *; try discriminate.
  destruct (radial_solutions a c rr) as [[rp_ tr_] pr_].
  destruct (polar_solutions a c [fst zz; snd zz]) as [[[tp tt_] pt]| |]; cbn [bind] in *; try discriminate.
  unfold assemble_trajectory in *.
  change (distance_conversion "natural") with (Ret (fun (d : option R) (_ : option (option R)) => d)) in *.
  change (time_conversion "natural") with (Ret (fun (d : option R) (_ : option (option R)) => d)) in *.
  cbn [bind] in *. exists T1, T2, T3, T4. split; [exact EqT | exact H].
Qed.

Lemma fundamental_defined (a p e x : option R) f : mino_frequencies a p e x = Ret f ->
  exists om, fundamental_frequencies a p e x = Ret om.
Proof.
  unfold mino_frequencies, fundamental_frequencies. intros H.
  destruct (constants_of_motion a p e x) as [c| |]; cbn [bind] in *; try discriminate.
  destruct (r_frequency a p e x (Some c)) as [u1| |]; cbn [bind] in *; try discriminate.
  destruct (theta_frequency a p e x (Some c)) as [u2| |]; cbn [bind] in *; try discriminate.
  destruct (phi_frequency a p e x (Some c) (Some u1) (Some u2)) as [u3| |]; cbn [bind] in *; try discriminate.
  destruct (gamma a p e x (Some c) (Some u1) (Some u2)) as [u4| |]; cbn [bind] in *; try discriminate.
  eauto.
Qed.

Theorem C43_orbit_reproduces_initial_conditions :
  forall a p e x ur uth uph gam E L Q t0 r0 th0 ph0 dt dr dth dph M mu,
  (* a stable orbit with positive spin *)
  0 < a ->
  mino_frequencies (Some a) (Some p) (Some e) (Some x) = Ret (Some ur, Some uth, Some uph, Some gam) ->
  constants_of_motion (Some a) (Some p) (Some e) (Some x) = Ret (Some E, Some L, Some Q) ->
  (* initial data with these constants, in the radial range of the orbit *)
  0 < th0 < PI -> p / (1 + e) <= r0 <= p / (1 - e) ->
  kerr_line_element a r0 th0 dt dr dth dph = -1 ->
  let pos := (Some t0, Some r0, Some th0, Some ph0) in
  let vel := (Some dt, Some dr, Some dth, Some dph) in
  constants_from_initial_conditions (Some a) pos vel = Ret (Some E, Some L, Some Q) ->
  let thmin := acos (sqrt (1 - x^2)) in
  let r_away := tol <= Rabs (r0 - p / (1 + e)) /\ tol <= Rabs (r0 - p / (1 - e)) in
  let th_away := tol <= Rabs (th0 - thmin) /\ tol <= Rabs (th0 - (PI - thmin)) in
  let Sg := Sigma a r0 th0 in
  exists o, Orbit_init (Some a) pos vel M mu = Ret o /\
  o_stable o = true /\ o_a o = Some a /\ o_apex o = Some (Some p, Some e, Some x) /\
  o_E o = Some E /\ o_L o = Some L /\ o_Q o = Some Q /\
  o_upsilon_r o = Some ur /\ o_upsilon_theta o = Some uth /\ o_mino o = Some (Some uph, Some gam) /\
  exists t r theta phi, runs_as (Orbit_trajectory o None "natural" "natural") t r theta phi /\
  t 0 = t0 /\ phi 0 = ph0 /\ Rabs (r 0 - r0) < tol /\ Rabs (theta 0 - th0) < tol /\
  (r_away -> r 0 = r0 /\ is_derive r 0 (Sg * dr)) /\
  (th_away -> theta 0 = th0 /\ is_derive theta 0 (Sg * dth)) /\
  (r_away -> th_away -> is_derive t 0 (Sg * dt) /\ is_derive phi 0 (Sg * dph)).
Proof.
  intros a p e x ur uth uph gam E L Q t0 r0 th0 ph0 dt dr dth dph M mu Ha HF HC Hth Hr HN pos vel HI thmin r_away th_away Sg.
  destruct (C43_phases_reproduce_initial_conditions HX HR HP a p e x ur uth uph gam Ha HF E L Q t0 r0 th0 ph0 dt dr dth dph HC Hth Hr HN HI)
    as (qr & qth & HPh & HT).
  destruct (mino_facts HX HR a p e x ur uth uph gam (Rlt_le _ _ Ha) HF) as (E' & L' & Q' & r1 & r2 & r3 & r4 & zp & beta & a2s & F).
  assert (E' = E /\ L' = L /\ Q' = Q) as (-> & -> & ->).
  { pose proof (of_constants _ _ _ _ _ _ _ _ _ _ _ _ _ _ _ _ _ _ F) as K. rewrite HC in K. apply Ret_inj in K. repeat split; congruence. }
  destruct (orbit_polynomials HR HP a p e x ur uth uph gam Ha _ _ _ _ _ _ _ _ _ _ F) as (HE & R4 & RM & R3 & R2 & _).
  pose proof (sigma_pos a p e x ur uth uph gam E L Q r0 th0 Hr r1 r2 r3 r4 zp beta a2s F) as SP.
  pose proof (delta_nz HR HP a p e x ur uth uph gam Ha E L Q r0 Hr r1 r2 r3 r4 zp beta a2s F) as DN.
  destruct (fundamental_defined _ _ _ _ _ HF) as (om & HO).
  assert (ST : ic_is_stable (Some a) pos vel None default_tol = Ret true).
  { transitivity (ic_is_stable (Some a) pos vel (Some (Some E, Some L, Some Q)) default_tol).
    - unfold ic_is_stable, pos. cbn [default]. fold pos. now rewrite HI.
    - rewrite default_tol_value. pose proof tol_pos.
      assert (A2 : a^2 <= 1) by (destruct F; clear - of_a; nra).
      assert (E2 : E^2 <> 1) by (apply Rlt_not_eq; clear - HE; nra).
      assert (O1 : r4 <= r3) by lra. assert (O2 : r3 <= r2) by lra. assert (O3 : r2 <= r1) by (destruct F; lra).
      destruct (C37_four_real_roots HP a E L Q t0 r0 th0 ph0 vel tol r1 r2 r3 r4 A2 E2 O1 O2 O3
        (of_R _ _ _ _ _ _ _ _ _ _ _ _ _ _ _ _ _ _ F)) as (W & _).
      apply W. fold (rm a). split; [lra|]. unfold within. destruct F. rewrite <- of_r1, <- of_r2 in Hr. lra. }
  assert (HA : apex_from_constants (Some a) (Some E) (Some L) (Some Q) = Ret (Some a, Some p, Some e, Some x)).
  { destruct F. apply (C17_apex_inverts_constants HR HP a p e x E L Q); try assumption; lra. }
  assert (NM : norm (Some a) (Some t0) (Some r0) (Some th0) (Some ph0) vel = Some (-1)).
  { rewrite <- HN. apply C02_norm_is_kerr_line_element; [lra | exact DN]. }
  eexists. split.
  { unfold Orbit_init, pos. rewrite NM.
    change (nleb (nZ 0) (Some (-1))) with (Some (Rleb 0 (-1))). rewrite Rleb_false by lra. cbn [ifo].
    change (nltb (nQ 1 1000000) (nabs (Some (-1) + nZ 1)%num)) with (Some (Rltb (1/1000000) (Rabs (-1 + 1)))).
    replace (-1 + 1) with 0 by ring. rewrite Rabs_R0, Rltb_false by lra. cbn [ifo].
    fold pos. rewrite HI. cbn [bind]. rewrite ST. cbn [bind]. rewrite HA. cbn [bind]. rewrite HF. cbn [bind].
    rewrite HO. cbn [bind]. unfold pos, vel. rewrite HPh. cbn [bind]. reflexivity. }
  cbn [o_stable o_a o_apex o_E o_L o_Q o_upsilon_r o_upsilon_theta o_mino].
  do 9 (split; [reflexivity|]).
  destruct (trajectory_defined HX HR a p e x ur uth uph gam (Rlt_le _ _ Ha) HF t0 qr qth ph0) as (t & r & theta & phi & HRun).
  exists t, r, theta, phi. split; [|exact (HT t r theta phi HRun)].
  unfold Orbit_trajectory. cbn [o_phases o_apex o_a o_M]. now apply natural_ignores_M.
Qed.
End Orbit.
