(** * C76: initial data at a polar turning point, in particular equatorial Schwarzschild data

    For a = 0 the polar phase is nan (C49) unless the particle is within tol of its polar
    turning point.  There the phases are right for every spin, a = 0 included; this covers all
    equatorial data. *)
From Coq Require Import Reals Lra Lia ZArith String List.
From Coquelicot Require Import Coquelicot.
From Verif Require Import Num Outcome External Checked ExternalSpec.
From Verif Require Import Model_Units Model_Constants Model_Frequencies Model_Spacetime Model_InitialConditions Model_Stable Model_Orbit.
From Verif Require Import Spec SpecElliptic Elliptic P_Roots P_Poly P_Validation Props_Validation P_Bounds P_Constants Props_Constants.
From Verif Require Import P_Spacetime Props_Spacetime Props_Plunge Props_Orbit.
From Verif Require Import P_Radial P_Polar P_Traj P_Traj2 P_Traj3 P_Traj4 Props_Trajectory Props_Trajectory2.
From Verif Require Import Props_Stability Props_Stability3 P_Phases.
From Verif Require Import Props_Phases Props_Restart Props_Frequencies Props_PlungePhases.
Import ListNotations.
Open Scope R_scope.

(** the tolerance of the turning-point tests *)

Section S.
Context {X : External R} (HX : special_spec X) (HR : root_spec X) (HP : polyroots_spec X).
Context (a p e x ur uth uph gam : R) (Ha : 0 <= a).
Context (HF : mino_frequencies (Some a) (Some p) (Some e) (Some x) = Ret (Some ur, Some uth, Some uph, Some gam)).

Lemma orbit_polynomials E L Q r1 r2 r3 r4 zp beta a2s :
  orbit_facts a p e x ur uth uph gam E L Q r1 r2 r3 r4 zp beta a2s ->
  0 < E < 1 /\ r4 <= rm a /\ rm a < rp a /\ rp a <= r3 /\ r3 < r2 /\
  real_of_roots (polyroots (radial_poly (Some a) (Some E) (Some L) (Some Q))) = Ret [Some r4; Some r3; Some r2; Some r1] /\
  (exists zq, polar_roots_of (Some a) (Some E) (Some L) (Some Q) = Ret (Some (1 - x^2), zq)) /\ True.
Proof.
  intros F. destruct F. pose proof of_constants as HC.
  destruct (C15_roots_defined HR a p e x E L Q (Some (Some E, Some L, Some Q)) HC (proj2 of_e) (or_intror eq_refl))
    as (r1' & r2' & r3' & r4' & Hrr & Q1 & Q2 & R4 & R3 & R21 & _).
  rewrite of_roots in Hrr. apply Ret_inj in Hrr.
  assert (r1 = r1' /\ r2 = r2' /\ r3 = r3' /\ r4 = r4') as (<- & <- & <- & <-) by (repeat split; congruence).
  destruct (C23_bound_orbits HR a p e x E L Q HC (proj2 of_e)) as (HE & HQ & _).
  fold (rm a) in R4. fold (rp a) in R3.
  assert (RM : rm a < rp a). { assert (0 < 1 - a^2) by (clear - Ha of_a; nra). pose proof (sqrt_lt_R0 _ H). unfold rm, rp. lra. }
  refine (conj HE (conj (proj2 R4) (conj RM (conj (proj1 R3) (conj (proj2 R3) (conj _ (conj _ I))))))).
  - rewrite radial_poly_some. apply (real_of_roots_some _ [r4; r3; r2; r1]).
    pose proof (of_R 0) as F0. pose proof (of_R 1) as F1. pose proof (of_R (-1)) as F2.
    pose proof (of_R 2) as F3. pose proof (of_R (-2)) as F4. unfold radial_potential, Delta in *.
    cbn [map]. unfold radial_poly. rnum.
    apply (poly4_real HP (E^2 - 1)); try lra.
  - apply (constants_polar_roots HR HP a p e x E L Q); assumption || lra.
Qed.

Context (E L Q t0 r0 th0 ph0 dt dr dth dph : R).
Context (HC : constants_of_motion (Some a) (Some p) (Some e) (Some x) = Ret (Some E, Some L, Some Q)).
Context (Hth : 0 < th0 < PI) (Hr : p / (1 + e) <= r0 <= p / (1 - e)).
Local Notation pos := (Some t0, Some r0, Some th0, Some ph0).
Local Notation vel := (Some dt, Some dr, Some dth, Some dph).
Context (HN : kerr_line_element a r0 th0 dt dr dth dph = -1).
Context (HI : constants_from_initial_conditions (Some a) pos vel = Ret (Some E, Some L, Some Q)).

Local Notation r_away := (tol <= Rabs (r0 - p / (1 + e)) /\ tol <= Rabs (r0 - p / (1 - e))).
Local Notation thmin := (acos (sqrt (1 - x^2))).
Context (NEAR : Rabs (th0 - thmin) < tol \/ Rabs (th0 - (PI - thmin)) < tol).
Local Notation Sg := (Sigma a r0 th0).

Section F.
Context (r1 r2 r3 r4 : R) (zp : option R) (beta a2s : R).
Context (F : orbit_facts a p e x ur uth uph gam E L Q r1 r2 r3 r4 zp beta a2s).

Lemma sigma_pos : 0 < Sg.
Proof.
  destruct F. rewrite <- of_r2 in Hr. unfold Sigma. pose proof (pow2_ge_0 (cos th0)).
  assert (0 < r0^2) by (apply pow_lt; lra). pose proof (pow2_ge_0 a). nra.
Qed.
Lemma delta_nz : Delta a r0 <> 0.
Proof.
  destruct (orbit_polynomials _ _ _ _ _ _ _ _ _ _ F) as (_ & _ & RM & R3 & R2 & _).
  destruct F. rewrite <- of_r2 in Hr. rewrite Delta_rpm by assumption.
  apply Rmult_integral_contrapositive. split; lra.
Qed.
Lemma momenta : (Sg * dth)^2 = polar_potential a E L Q th0 /\ (Sg * dr)^2 = radial_potential a E L Q r0 /\
  dt_dlambda a E L r0 th0 = Sg * dt /\ dphi_dlambda a E L r0 th0 = Sg * dph.
Proof.
  pose proof sigma_pos. pose proof (sin_gt_0 th0 (proj1 Hth) (proj2 Hth)).
  destruct (C05_recovered_constants_are_momenta a t0 r0 th0 ph0 dt dr dth dph) as (E' & L' & Q' & K & _ & M1 & M2 & M3 & M4);
    [lra | exact delta_nz | lra |].
  rewrite HI in K. apply Ret_inj in K. assert (E = E' /\ L = L' /\ Q = Q') as (<- & <- & <-) by (repeat split; congruence).
  auto.
Qed.
Lemma away_strict : r_away -> r2 < r0 < r1 /\ dr <> 0.
Proof.
  intros [A1 A2]. pose proof tol_pos. pose proof sigma_pos.
  assert (B : r2 < r0 < r1).
  { destruct F. rewrite <- of_r2 in A1, Hr. rewrite <- of_r1 in A2, Hr.
    assert (r0 <> r2) by (intros ->; rewrite Rminus_diag_eq, Rabs_R0 in A1 by reflexivity; lra).
    assert (r0 <> r1) by (intros ->; rewrite Rminus_diag_eq, Rabs_R0 in A2 by reflexivity; lra). lra. }
  split; [exact B|]. intros Z. destruct momenta as (_ & M & _).
  destruct (orbit_polynomials _ _ _ _ _ _ _ _ _ _ F) as (HE & R4 & RM & R3 & R2 & _). rewrite (of_R _ _ _ _ _ _ _ _ _ _ _ _ _ _ _ _ _ _ F) in M.
  assert (0 < (1 - E^2) * (r1 - r0) * (r0 - r2) * (r0 - r3) * (r0 - r4)).
  { assert (0 < 1 - E^2) by (clear - HE; nra). repeat apply Rmult_lt_0_compat; lra. }
  rewrite <- M, Z, Rmult_0_r in H1. lra.
Qed.
(** the phases that are returned *)
Definition q_r : R :=
  if Rlt_dec (Rabs (r0 - r2)) tol then 0 else if Rlt_dec (Rabs (r0 - r1)) tol then PI else
  if Rlt_dec 0 dr then q0 r1 r2 r3 r4 r0 else 2 * PI - q0 r1 r2 r3 r4 r0.
Definition q_th : R := if Rlt_dec (Rabs (th0 - thmin)) tol then 0 else PI.

Lemma phases_run c : c = None \/ c = Some (Some E, Some L, Some Q) ->
  stable_orbit_initial_phases (Some a) pos vel c None None None default_tol
  = Ret (Some t0, Some q_r, Some q_th, Some ph0).
Proof.
  intros Hc. unfold stable_orbit_initial_phases.
  assert (DC : default c (constants_from_initial_conditions (Some a) pos vel) = Ret (Some E, Some L, Some Q)).
  { destruct Hc as [-> | ->]; [exact HI | reflexivity]. }
  rewrite DC. cbn [bind].
  destruct (orbit_polynomials _ _ _ _ _ _ _ _ _ _ F) as (HE & R4 & RM & R3 & R2 & RR & (zq & PR) & _).
  rewrite PR, RR. cbn [bind unpack4]. rewrite default_tol_value.
  assert (QR : (If nltb (nabs (Some r0 - Some r2)%num) (Some tol) Then Ret (nZ 0) Else
     (If nltb (nabs (Some r0 - Some r1)%num) (Some tol) Then Ret npi Else
     (do ur <- default None (Ret (r_frequency_from_constants (Some E, Some L, Some Q) (Some r4, Some r3, Some r2, Some r1)));
     radial_phase (Some E) (Some r0) (Some dr) (Some r1) (Some r2) (Some r3) (Some r4) ur)))%outcome = Ret (Some q_r)).
  { change (nltb (nabs (Some r0 - Some r2)%num) (Some tol)) with (Some (Rltb (Rabs (r0 - r2)) tol)).
    change (nltb (nabs (Some r0 - Some r1)%num) (Some tol)) with (Some (Rltb (Rabs (r0 - r1)) tol)).
    unfold q_r, Rltb. destruct (Rlt_dec (Rabs (r0 - r2)) tol) as [D|D]; cbn [ifo]; [reflexivity|].
    destruct (Rlt_dec (Rabs (r0 - r1)) tol) as [D'|D']; cbn [ifo]; [reflexivity|].
    cbn [default bind]. unfold r_frequency_from_constants.
    destruct away_strict as [B _]. { destruct F. rewrite <- of_r1, <- of_r2. lra. }
    destruct F. assert (0 < 1 - E^2) by (clear - HE; nra).
    rewrite (freq_reversed HX) by assumption. apply (radial_phase_run HX); try assumption; lra. }
  rewrite QR. cbn [bind].
  assert (TM : nacos (nsqrt (Some (1 - x^2))) = Some thmin).
  { destruct F. pose proof (sqrt_zm _ of_z). cnum. rewrite csqrt_some by lra. unfold cunit.
    destruct (Rle_dec (-1) (sqrt (1 - x^2))); [|lra]. destruct (Rle_dec (sqrt (1 - x^2)) 1); [reflexivity | lra]. }
  rewrite TM.
  match goal with |- bind ?m _ = _ => assert (QT : m = Ret (Some q_th)) end.
  { change (nltb (nabs (Some th0 - Some thmin)%num) (Some tol)) with (Some (Rltb (Rabs (th0 - thmin)) tol)).
    change (nltb (nabs (Some th0 - (npi - Some thmin))%num) (Some tol)) with (Some (Rltb (Rabs (th0 - (PI - thmin))) tol)).
    unfold q_th, Rltb. destruct (Rlt_dec (Rabs (th0 - thmin)) tol) as [D|D]; cbn [ifo]; [reflexivity|].
    destruct (Rlt_dec (Rabs (th0 - (PI - thmin))) tol) as [D'|D']; cbn [ifo]; [reflexivity|]. lra. }
  rewrite QT. reflexivity.
Qed.

Lemma fr_q_r : fr r1 r2 r3 r4 q_r = if Rlt_dec (Rabs (r0 - r2)) tol then r2 else if Rlt_dec (Rabs (r0 - r1)) tol then r1 else r0.
Proof.
  destruct (orbit_polynomials _ _ _ _ _ _ _ _ _ _ F) as (HE & R4 & RM & R3 & R2 & _).
  unfold fr, q_r. destruct (Rlt_dec (Rabs (r0 - r2)) tol) as [D|D].
  - destruct F. now apply (rho_0 HX E).
  - destruct (Rlt_dec (Rabs (r0 - r1)) tol) as [D'|D']; [destruct F; now apply (rho_PI HX E)|].
    destruct away_strict as [B _]. { destruct F. rewrite <- of_r1, <- of_r2. lra. }
    destruct F. assert (0 < 1 - E^2) by (clear - HE; nra).
    destruct (Rlt_dec 0 dr); [apply (rho_q0 HX) | apply (rho_q0' HX)]; try assumption; lra.
Qed.

Lemma fth_q_th : fth a x E beta q_th = if Rlt_dec (Rabs (th0 - thmin)) tol then thmin else PI - thmin.
Proof.
  unfold fth, q_th. destruct (Rlt_dec (Rabs (th0 - thmin)) tol) as [D|D].
  - destruct F. unfold th, cth. rewrite psi_t_0, sin_PI2 by assumption. f_equal. ring.
  - destruct F. unfold th, cth. rewrite psi_t_PI by assumption. rewrite <- acos_opp. f_equal. rewrite neg_sin, sin_PI2. ring.
Qed.
End F.

Lemma phases_at_turning_point :
  exists qr qth,
  stable_orbit_initial_phases (Some a) pos vel None None None None default_tol
    = Ret (Some t0, Some qr, Some qth, Some ph0) /\
  forall t r theta phi,
  runs_as (stable_trajectory (Some a) (Some p) (Some e) (Some x) (Some t0, Some qr, Some qth, Some ph0) None "natural" "natural")
    t r theta phi ->
  t 0 = t0 /\ phi 0 = ph0 /\ Rabs (r 0 - r0) < tol /\ Rabs (theta 0 - th0) < tol /\ is_derive theta 0 0 /\
  (r_away -> r 0 = r0 /\ is_derive r 0 (Sg * dr)) /\
  (r_away -> th0 = thmin \/ (th0 = PI - thmin /\ tol <= Rabs (th0 - thmin)) -> theta 0 = th0 /\ dth = 0 /\ is_derive t 0 (Sg * dt) /\ is_derive phi 0 (Sg * dph)).
Proof.
  destruct (mino_facts HX HR a p e x ur uth uph gam Ha HF) as (E' & L' & Q' & r1 & r2 & r3 & r4 & zp & beta & a2s & F).
  assert (E' = E /\ L' = L /\ Q' = Q) as (-> & -> & ->).
  { pose proof (of_constants _ _ _ _ _ _ _ _ _ _ _ _ _ _ _ _ _ _ F) as K. rewrite HC in K. apply Ret_inj in K. repeat split; congruence. }
  exists (q_r r1 r2 r3 r4), q_th. split; [apply (phases_run _ _ _ _ _ _ _ F); now left|].
  intros t r theta phi H.
  pose proof tol_pos as TP.
  pose proof (runs_as_unique _ _ _ _ _ _ _ _ _ H (trajectory_runs HX a p e x ur uth uph gam _ _ _ _ _ _ _ _ _ _ F _ _ _ _ HF)) as Eq.
  destruct (C26_start HX HR a p e x ur uth uph gam Ha HF _ _ _ _ _ _ _ _ H) as (T0 & P0).
  destruct (Eq 0) as (_ & R0 & Th0 & _). unfold sr, sth in R0, Th0. rewrite Rmult_0_r, Rplus_0_l in R0, Th0.
  pose proof (fr_q_r _ _ _ _ _ _ _ F) as FR. pose proof (fth_q_th _ _ _ _ _ _ _ F) as FT.
  destruct (momenta _ _ _ _ _ _ _ F) as (M1 & M2 & M3 & M4).
  pose proof (sigma_pos _ _ _ _ _ _ _ F) as SP.
  destruct (C28_radial_and_polar_equations HX HR a p e x ur uth uph gam Ha HF _ _ _ _ _ _ _ _ H E L Q HC 0)
    as (r' & th' & D1 & D2 & O1 & _ & O2).
  destruct (C29_time_and_azimuth_equations HX HR a p e x ur uth uph gam Ha HF _ _ _ _ _ _ _ _ H E L Q HC 0)
    as (_ & _ & D3 & D4).
  pose proof (of_r1 _ _ _ _ _ _ _ _ _ _ _ _ _ _ _ _ _ _ F) as Q1. pose proof (of_r2 _ _ _ _ _ _ _ _ _ _ _ _ _ _ _ _ _ _ F) as Q2.
  pose proof (ur_pos _ _ _ _ _ _ _ _ _ _ _ _ _ _ _ _ _ _ F) as U1. pose proof (uth_pos _ _ _ _ _ _ _ _ _ _ _ _ _ _ _ _ _ _ F) as U2.
  assert (RA : r_away -> r 0 = r0).
  { rewrite <- Q1, <- Q2. intros [A1 A2]. rewrite R0, FR. destruct (Rlt_dec (Rabs (r0 - r2)) tol); [lra|]. destruct (Rlt_dec (Rabs (r0 - r1)) tol); lra. }

  assert (TH : Rabs (theta 0 - th0) < tol).
  { rewrite Th0, FT, Rabs_minus_sym. destruct (Rlt_dec (Rabs (th0 - thmin)) tol); lra. }
  assert (TD : is_derive theta 0 0).
  { replace 0 with th' at 2; [exact D2|].
    assert (K : polar_potential a E L Q (theta 0) = 0).
    { assert (C : cos (theta 0) ^ 2 = 1 - x^2).
      { rewrite Th0, FT. pose proof (of_z _ _ _ _ _ _ _ _ _ _ _ _ _ _ _ _ _ _ F) as Z. pose proof (sqrt_zm _ Z) as Z2. pose proof (acos_bound (sqrt (1 - x^2))).
        destruct (Rlt_dec (Rabs (th0 - thmin)) tol).
        - rewrite cos_acos by lra. apply pow2_sqrt; lra.
        - rewrite Rtrigo_facts.cos_pi_minus, cos_acos by lra. rewrite <- Rsqr_pow2, <- Rsqr_neg, Rsqr_pow2. apply pow2_sqrt; lra. }
      pose proof (of_Z _ _ _ _ _ _ _ _ _ _ _ _ _ _ _ _ _ _ F (cos (theta 0) ^ 2)) as Z. rewrite C in Z.
      assert (S2 : sin (theta 0) ^ 2 = x^2) by (pose proof (sin2_cos2 (theta 0)) as W; unfold Rsqr in W; lra).
      unfold polar_polynomial in Z. unfold polar_potential. rewrite C, S2.
      assert (X0 : x <> 0) by (destruct F; lra). assert (0 < x^2) by (apply pow2_gt_0; exact X0).
      assert (x^2 * (Q - (1 - x^2) * (a^2 * (1 - E^2) + L^2 / x^2)) = 0).
      { transitivity (Q * (1 - (1 - x^2)) - (1 - x^2) * (a ^ 2 * (1 - E ^ 2) * (1 - (1 - x^2)) + L ^ 2)); [field; lra | rewrite Z; ring]. }
      apply Rmult_integral in H1 as [W|W]; lra. }
    rewrite K in O2. apply Rsqr_0_uniq. rewrite Rsqr_pow2. exact O2. }
  refine (conj T0 (conj P0 (conj _ (conj TH (conj TD (conj _ _)))))).
  - rewrite R0, FR, Rabs_minus_sym. destruct (Rlt_dec (Rabs (r0 - r2)) tol); [assumption|]. destruct (Rlt_dec (Rabs (r0 - r1)) tol); [assumption|].
    rewrite Rminus_diag_eq, Rabs_R0 by reflexivity. assumption.
  - intros A. split; [auto|]. replace (Sg * dr) with r'; [assumption|].
    pose proof (fr_derive HX _ _ _ _ _ _ _ _ _ _ _ _ _ _ _ _ _ _ F) as Fr.
    destruct (rho'_sign HX _ _ _ _ _ _ _ _ _ _ _ _ _ _ _ _ _ _ F (ur * 0 + q_r r1 r2 r3 r4)) as [S1 S2].
    assert (Rr : r' = ur * rho' r1 r2 r3 r4 (ellK (kr2 r1 r2 r3 r4) / PI) (psi_r r1 r2 r3 r4) (ur * 0 + q_r r1 r2 r3 r4)).
    { rewrite <- (is_derive_unique _ _ _ D1). apply is_derive_unique.
      eapply is_derive_ext; [|apply comp_lin, Fr]. intros s. symmetry. apply Eq. }
    rewrite (RA A), <- M2 in O1.
    destruct (away_strict r1 r2 r3 r4 zp beta a2s F A) as [B Nd]. rewrite <- Q1, <- Q2 in A.
    destruct (orbit_polynomials _ _ _ _ _ _ _ _ _ _ F) as (HE & R4 & RM & R3 & R2 & _).
    assert (QB : 0 < q0 r1 r2 r3 r4 r0 < PI). { destruct F. apply q0_bound; try assumption; lra. }
    assert (SQ : 0 < dr /\ 0 < sin (q_r r1 r2 r3 r4) \/ dr < 0 /\ sin (q_r r1 r2 r3 r4) < 0).
    { unfold q_r. destruct (Rlt_dec (Rabs (r0 - r2)) tol); [lra|]. destruct (Rlt_dec (Rabs (r0 - r1)) tol); [lra|].
      destruct (Rlt_dec 0 dr); [left | right]; (split; [lra|]).
      - apply sin_gt_0; lra.
      - apply sin_lt_0; lra. }
    rewrite Rmult_0_r, Rplus_0_l in *.
    apply (signed_eq _ _ (sin (q_r r1 r2 r3 r4))); [exact O1 | | | |]; intros S.
    + rewrite Rr. apply mul_nonneg; auto.
    + rewrite Rr. apply mul_nonpos; auto.
    + apply Rmult_le_pos; lra.
    + apply mul_nonpos; lra.
  - intros A1 A2.
    assert (TE : theta 0 = th0).
    { rewrite Th0, FT. destruct (Rlt_dec (Rabs (th0 - thmin)) tol) as [D|D].
      - destruct A2 as [A2|A2]; [auto|]. lra.
      - destruct A2 as [A2|[A2 _]]; [|auto]. exfalso. apply D. rewrite A2, Rminus_diag_eq, Rabs_R0 by reflexivity. exact TP. }
    rewrite (RA A1), TE in D3, D4. rewrite M3 in D3. rewrite M4 in D4. refine (conj TE (conj _ (conj D3 D4))).
    assert (TZ : th' = 0). { rewrite <- (is_derive_unique _ _ _ D2). now apply is_derive_unique. }
    rewrite TE, <- M1, TZ in O2. assert (SZ : Sg * dth = 0). { apply Rsqr_0_uniq. rewrite Rsqr_pow2, <- O2. ring. }
    apply Rmult_integral in SZ as [K|K]; [lra | exact K].
Qed.
End S.

Section Orbit.
Context {X : External R} (HX : special_spec X) (HR : root_spec X) (HP : polyroots_spec X).

Theorem C76_polar_turning_point :
  forall a p e x ur uth uph gam E L Q t0 r0 th0 ph0 dt dr dth dph M mu,
  (* a stable orbit, a = 0 included *)
  0 <= a ->
  mino_frequencies (Some a) (Some p) (Some e) (Some x) = Ret (Some ur, Some uth, Some uph, Some gam) ->
  constants_of_motion (Some a) (Some p) (Some e) (Some x) = Ret (Some E, Some L, Some Q) ->
  (* initial data with these constants, in the radial range of the orbit and near a polar turning point *)
  0 < th0 < PI -> p / (1 + e) <= r0 <= p / (1 - e) ->
  kerr_line_element a r0 th0 dt dr dth dph = -1 ->
  let pos := (Some t0, Some r0, Some th0, Some ph0) in
  let vel := (Some dt, Some dr, Some dth, Some dph) in
  constants_from_initial_conditions (Some a) pos vel = Ret (Some E, Some L, Some Q) ->
  let thmin := acos (sqrt (1 - x^2)) in
  Rabs (th0 - thmin) < tol \/ Rabs (th0 - (PI - thmin)) < tol ->
  let r_away := tol <= Rabs (r0 - p / (1 + e)) /\ tol <= Rabs (r0 - p / (1 - e)) in
  let Sg := Sigma a r0 th0 in
  exists o, Orbit_init (Some a) pos vel M mu = Ret o /\
  o_stable o = true /\ o_a o = Some a /\ o_apex o = Some (Some p, Some e, Some x) /\
  o_E o = Some E /\ o_L o = Some L /\ o_Q o = Some Q /\
  exists t r theta phi, runs_as (Orbit_trajectory o None "natural" "natural") t r theta phi /\
  t 0 = t0 /\ phi 0 = ph0 /\ Rabs (r 0 - r0) < tol /\ Rabs (theta 0 - th0) < tol /\ is_derive theta 0 0 /\
  (r_away -> r 0 = r0 /\ is_derive r 0 (Sg * dr)) /\
  (r_away -> th0 = thmin \/ (th0 = PI - thmin /\ tol <= Rabs (th0 - thmin)) ->
     theta 0 = th0 /\ dth = 0 /\ is_derive t 0 (Sg * dt) /\ is_derive phi 0 (Sg * dph)).
Proof.
  intros a p e x ur uth uph gam E L Q t0 r0 th0 ph0 dt dr dth dph M mu Ha HF HC Hth Hr HN pos vel HI thmin NEAR r_away Sg.
  destruct (phases_at_turning_point HX HR HP a p e x ur uth uph gam Ha HF E L Q t0 r0 th0 ph0 dt dr dth dph HC Hth Hr HN HI NEAR)
    as (qr & qth & HPh & HT).
  destruct (mino_facts HX HR a p e x ur uth uph gam Ha HF) as (E' & L' & Q' & r1 & r2 & r3 & r4 & zp & beta & a2s & F).
  assert (E' = E /\ L' = L /\ Q' = Q) as (-> & -> & ->).
  { pose proof (of_constants _ _ _ _ _ _ _ _ _ _ _ _ _ _ _ _ _ _ F) as K. rewrite HC in K. apply Ret_inj in K. repeat split; congruence. }
  destruct (orbit_polynomials HR HP a p e x ur uth uph gam Ha _ _ _ _ _ _ _ _ _ _ F) as (HE & R4 & RM & R3 & R2 & _).
  pose proof (sigma_pos a p e x ur uth uph gam E L Q r0 th0 Hr r1 r2 r3 r4 zp beta a2s F) as SP.
  pose proof (delta_nz HR HP a p e x ur uth uph gam Ha E L Q r0 Hr r1 r2 r3 r4 zp beta a2s F) as DN.
  destruct (fundamental_defined _ _ _ _ _ HF) as (om & HO).
  assert (ST : ic_is_stable (Some a) pos vel None default_tol = Ret true).
  { transitivity (ic_is_stable (Some a) pos vel (Some (Some E, Some L, Some Q)) default_tol).
    - unfold ic_is_stable, pos. cbn [default]. fold pos. now rewrite HI.
    - rewrite default_tol_value. pose proof tol_pos.
      assert (A2 : a^2 <= 1) by (destruct F; clear - of_a; nra).
      assert (E2 : E^2 <> 1) by (apply Rlt_not_eq; clear - HE; nra).
      assert (O1 : r4 <= r3) by lra. assert (O2 : r3 <= r2) by lra. assert (O3 : r2 <= r1) by (destruct F; lra).
      destruct (C37_four_real_roots HP a E L Q t0 r0 th0 ph0 vel tol r1 r2 r3 r4 A2 E2 O1 O2 O3
        (of_R _ _ _ _ _ _ _ _ _ _ _ _ _ _ _ _ _ _ F)) as (W & _).
      apply W. fold (rm a). split; [lra|]. unfold within. destruct F. rewrite <- of_r1, <- of_r2 in Hr. lra. }
  assert (HA : apex_from_constants (Some a) (Some E) (Some L) (Some Q) = Ret (Some a, Some p, Some e, Some x)).
  { destruct F. apply (C17_apex_inverts_constants HR HP a p e x E L Q); try assumption; lra. }
  assert (NM : norm (Some a) (Some t0) (Some r0) (Some th0) (Some ph0) vel = Some (-1)).
  { rewrite <- HN. apply C02_norm_is_kerr_line_element; [lra | exact DN]. }
  eexists. split.
  { unfold Orbit_init, pos. rewrite NM.
    change (nleb (nZ 0) (Some (-1))) with (Some (Rleb 0 (-1))). rewrite Rleb_false by lra. cbn [ifo].
    change (nltb (nQ 1 1000000) (nabs (Some (-1) + nZ 1)%num)) with (Some (Rltb (1/1000000) (Rabs (-1 + 1)))).
    replace (-1 + 1) with 0 by ring. rewrite Rabs_R0, Rltb_false by lra. cbn [ifo].
    fold pos. rewrite HI. cbn [bind]. rewrite ST. cbn [bind]. rewrite HA. cbn [bind]. rewrite HF. cbn [bind].
    rewrite HO. cbn [bind]. unfold pos, vel. rewrite HPh. cbn [bind]. reflexivity. }
  cbn [o_stable o_a o_apex o_E o_L o_Q ].
  do 6 (split; [reflexivity|]).
  destruct (trajectory_defined HX HR a p e x ur uth uph gam Ha HF t0 qr qth ph0) as (t & r & theta & phi & HRun).
  exists t, r, theta, phi. split; [|exact (HT t r theta phi HRun)].
  unfold Orbit_trajectory. cbn [o_phases o_apex o_a o_M]. now apply natural_ignores_M.
Qed.

(** all equatorial data: the trajectory starts with the given position and velocity *)
Theorem C76_equatorial_data :
  forall a p e x ur uth uph gam E L Q t0 r0 th0 ph0 dt dr dth dph M mu,
  0 <= a -> x = 1 \/ x = -1 ->
  mino_frequencies (Some a) (Some p) (Some e) (Some x) = Ret (Some ur, Some uth, Some uph, Some gam) ->
  constants_of_motion (Some a) (Some p) (Some e) (Some x) = Ret (Some E, Some L, Some Q) ->
  0 < th0 < PI -> p / (1 + e) <= r0 <= p / (1 - e) ->
  kerr_line_element a r0 th0 dt dr dth dph = -1 ->
  let pos := (Some t0, Some r0, Some th0, Some ph0) in
  let vel := (Some dt, Some dr, Some dth, Some dph) in
  constants_from_initial_conditions (Some a) pos vel = Ret (Some E, Some L, Some Q) ->
  tol <= Rabs (r0 - p / (1 + e)) -> tol <= Rabs (r0 - p / (1 - e)) ->
  th0 = PI / 2 /\ dth = 0 /\
  exists o t r theta phi, Orbit_init (Some a) pos vel M mu = Ret o /\ o_stable o = true /\
  o_apex o = Some (Some p, Some e, Some x) /\
  runs_as (Orbit_trajectory o None "natural" "natural") t r theta phi /\
  t 0 = t0 /\ r 0 = r0 /\ theta 0 = th0 /\ phi 0 = ph0 /\
  is_derive t 0 (r0^2 * dt) /\ is_derive r 0 (r0^2 * dr) /\ is_derive theta 0 0 /\ is_derive phi 0 (r0^2 * dph).
Proof.
  intros a p e x ur uth uph gam E L Q t0 r0 th0 ph0 dt dr dth dph M mu Ha Hx HF HC Hth Hr HN pos vel HI A1 A2.
  assert (X2 : x^2 = 1) by (destruct Hx as [-> | ->]; ring).
  assert (TM : acos (sqrt (1 - x^2)) = PI / 2).
  { rewrite X2. replace (1 - 1) with 0 by ring. rewrite sqrt_0. apply acos_0. }
  destruct (mino_facts HX HR a p e x ur uth uph gam Ha HF) as (E' & L' & Q' & r1 & r2 & r3 & r4 & zp & beta & a2s & F).
  assert (E' = E /\ L' = L /\ Q' = Q) as (-> & -> & ->).
  { pose proof (of_constants _ _ _ _ _ _ _ _ _ _ _ _ _ _ _ _ _ _ F) as K. rewrite HC in K. apply Ret_inj in K. repeat split; congruence. }
  destruct (momenta HR HP a p e x ur uth uph gam Ha E L Q t0 r0 th0 ph0 dt dr dth dph Hth Hr HN HI r1 r2 r3 r4 zp beta a2s F) as (M1 & _).
  destruct (orbit_polynomials HR HP a p e x ur uth uph gam Ha _ _ _ _ _ _ _ _ _ _ F) as (HE & _).
  pose proof (sin_gt_0 th0 (proj1 Hth) (proj2 Hth)) as S0.
  assert (TH : th0 = PI / 2).
  { pose proof (of_Z _ _ _ _ _ _ _ _ _ _ _ _ _ _ _ _ _ _ F 0) as Z0. unfold polar_polynomial in Z0. rewrite X2 in Z0.
    assert (Q0 : Q = 0) by lra. unfold polar_potential in M1. rewrite Q0 in M1.
    assert (0 < L^2 / sin th0 ^2). { apply Rdiv_lt_0_compat; [apply pow2_gt_0; destruct F; assumption | apply pow_lt; lra]. }
    assert (0 <= a^2 * (1 - E^2)). { apply Rmult_le_pos; [apply pow2_ge_0|]. clear - HE. nra. }
    pose proof (pow2_ge_0 (Sigma a r0 th0 * dth)) as P. pose proof (pow2_ge_0 (cos th0)).
    assert (C0 : cos th0 ^2 = 0).
    { apply Rle_antisym; [|assumption]. apply Rnot_lt_le. intros K.
      assert (0 < cos th0 ^2 * (a^2 * (1 - E^2) + L^2 / sin th0^2)) by (apply Rmult_lt_0_compat; lra). lra. }
    assert (cos th0 = 0) by (apply Rsqr_0_uniq; rewrite Rsqr_pow2; exact C0).
    rewrite <- (acos_cos th0), H2 by lra. apply acos_0. }
  destruct (C76_polar_turning_point a p e x ur uth uph gam E L Q t0 r0 th0 ph0 dt dr dth dph M mu Ha HF HC Hth Hr HN HI)
    as (o & O & O1 & _ & O2 & _ & _ & _ & t & r & theta & phi & Ru & T0 & P0 & _ & _ & TD & K1 & K2).
  { left. rewrite TM, TH, Rminus_diag_eq, Rabs_R0 by reflexivity. exact tol_pos. }
  destruct (K1 (conj A1 A2)) as (R0 & RD). destruct (K2 (conj A1 A2)) as (Th & D0 & D1 & D3). { left. now rewrite TM. }
  assert (SG : Sigma a r0 th0 = r0^2) by (rewrite TH; unfold Sigma; rewrite cos_PI2; ring). rewrite SG in *.
  refine (conj TH (conj D0 _)). exists o, t, r, theta, phi.
  exact (conj O (conj O1 (conj O2 (conj Ru (conj T0 (conj R0 (conj Th (conj P0 (conj D1 (conj RD (conj TD D3))))))))))).
Qed.

(** the hypotheses are met by a particle at r = 10 on the Schwarzschild orbit p = 10, e = 1/2 *)
Example C76_case : exists ur uth uph gam E L Q dt dr dth dph,
  mino_frequencies (Some 0) (Some 10) (Some (1/2)) (Some 1) = Ret (Some ur, Some uth, Some uph, Some gam) /\
  constants_of_motion (Some 0) (Some 10) (Some (1/2)) (Some 1) = Ret (Some E, Some L, Some Q) /\
  kerr_line_element 0 10 (PI / 2) dt dr dth dph = -1 /\ 0 < dr /\
  constants_from_initial_conditions (Some 0) (Some 0, Some 10, Some (PI / 2), Some 0) (Some dt, Some dr, Some dth, Some dph)
    = Ret (Some E, Some L, Some Q) /\
  10 / (1 + 1/2) <= 10 <= 10 / (1 - 1/2) /\ tol <= Rabs (10 - 10 / (1 + 1/2)) /\ tol <= Rabs (10 - 10 / (1 - 1/2)).
Proof.
  assert (CK : check_constants_params 0 10 (1/2) 1 = Ret tt) by (apply accepts_schwarzschild; lra).
  destruct (C54_every_accepted_orbit HX HR 0 10 (1/2) 1 ltac:(lra) ltac:(lra) ltac:(lra) CK) as (E & L & Q & HC & HE & _ & FR).
  { intros (K & _). lra. }
  destruct FR as (ur & uth & uph & gam & HF & _).
  { rewrite Rmult_0_l. apply Rgt_not_eq. pose proof (sqrt_pos (1 - 0^2)). apply Rmult_lt_0_compat; lra. }
  assert (Q0 : Q = 0) by (apply (C12_equatorial 0 10 (1/2) 1 E L Q); auto). subst Q.
  destruct (C23_bound_orbits HR 0 10 (1/2) 1 E L 0 HC ltac:(lra)) as (_ & _ & RP & _).
  rewrite Rabs_R0 in RP. replace (10 / (1 + 1/2)) with (20/3) in * by field. replace (10 / (1 - 1/2)) with 20 in * by field.
  specialize (RP 10 ltac:(lra)).
  assert (HS : Sigma 0 10 (PI / 2) = 100) by (unfold Sigma; rewrite cos_PI2; ring).
  destruct (data_with_constants 0 E L 0 0 10 (PI / 2) 0 (sqrt (radial_potential 0 E L 0 10)) 0) as (dt & dph & N & I).
  - lra.
  - unfold Delta. lra.
  - rewrite sin_PI2. lra.
  - apply pow2_sqrt. lra.
  - unfold polar_potential. rewrite cos_PI2. ring.
  - exists ur, uth, uph, gam, E, L, 0, dt. do 2 eexists. exists dph.
    refine (conj HF (conj HC (conj N (conj _ (conj I _))))).
    + rewrite HS. pose proof (sqrt_lt_R0 _ RP). lra.
    + unfold tol. rewrite Rabs_right, Rabs_left by lra. lra.
Qed.
End Orbit.
Print Assumptions C76_polar_turning_point.
Print Assumptions C76_equatorial_data.
