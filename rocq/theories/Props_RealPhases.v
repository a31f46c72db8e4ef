(** * C62: initial phases of plunges with four real radial roots; C60 and C61 for these plunges *)
From Coq Require Import Reals Lra Lia ZArith String List.
From Coquelicot Require Import Coquelicot.
From Verif Require Import Num Outcome External Checked ExternalSpec.
From Verif Require Import Model_Units Model_Constants Model_Frequencies Model_Spacetime Model_InitialConditions Model_Stable Model_Plunge Model_Orbit.
From Verif Require Import Spec SpecElliptic Elliptic Props_Elliptic Props_Constants P_Spacetime Props_Spacetime Props_Orbit.
From Verif Require Import P_Validation P_Radial P_Polar P_Traj P_Traj2 P_Plunge P_Plunge2 P_Plunge3 P_RealPlunge P_Phases Props_Trajectory Props_Trajectory2 Props_Plunge Props_Plunge2 Props_Plunge3.
From Verif Require Import Props_RealPlunge Props_Phases Props_PlungePhases Props_PlungeRestart.
Import ListNotations.
Open Scope R_scope.

(** ** the radial motion between r2 and r1 as a function of its phase *)
Section Radial.
Context {X : External R} (HX : special_spec X).
Context (E r1 r2 r3 r4 : R).
Local Notation c := (1 - E^2).
Local Notation m := (kr2 r1 r2 r3 r4).
Local Notation K := (ellK m).
Local Notation psi := (psi_r (X := X) r1 r2 r3 r4).
Context (Hs : 0 < sr2 c r1 r2 r3 r4) (Hm : 0 <= m < 1) (Ho : 0 < (r1 - r3) * (r2 - r3)) (Hr : r2 <= r1).
Lemma g_le q q' : q <= q' -> psi q <= psi q'.
Proof.
  intros H. unfold psi_r. apply (amX_le HX); [assumption|]. pose proof (K_pos _ _ _ _ Hm). pose proof PI_RGT_0.
  assert (0 < K / PI) by now apply Rdiv_lt_0_compat. apply Rplus_le_compat_r, Rmult_le_compat_l; lra.
Qed.
Lemma g_inj q q' : psi q = psi q' -> q = q'.
Proof.
  intros H. pose proof PI_RGT_0. pose proof (K_pos _ _ _ _ Hm).
  unfold psi_r in H. apply (f_equal (fun y => ellF y m)) in H. rewrite !(proj1 (amX_spec HX m _ Hm)) in H.
  assert (Z : K / PI * (q - q') = 0) by lra. apply Rmult_integral in Z as [Z|Z]; [|lra].
  assert (0 < K / PI) by now apply Rdiv_lt_0_compat. lra.
Qed.
Lemma g_sign q : (0 <= sin q -> 0 <= sin (psi q) * cos (psi q)) /\ (sin q < 0 -> sin (psi q) * cos (psi q) <= 0).
Proof.
  pose proof PI_RGT_0. destruct (reduce_phase (2 * PI) q ltac:(lra)) as (q0 & k & -> & B).
  rewrite (psi_r_shift HX) by assumption. rewrite sin_red, sincos_shift.
  destruct (half_turn q0 B) as [H1 H2]. split; intros S.
  - specialize (H1 S). pose proof (g_le 0 q0 (proj1 B)) as P1. pose proof (g_le q0 PI H1) as P2.
    rewrite (psi_r_0 HX) in P1 by assumption. rewrite (psi_r_PI HX) in P2 by assumption.
    apply Rmult_le_pos; [apply sin_ge_0 | apply cos_ge_0]; lra.
  - specialize (H2 S). pose proof (g_le PI q0 ltac:(lra)) as P1. pose proof (g_le q0 (2 * PI) ltac:(lra)) as P2.
    rewrite (psi_r_PI HX) in P1 by assumption. replace (2 * PI) with (0 + 1 * (2 * PI)) in P2 by ring.
    rewrite (psi_r_shift HX _ _ _ _ Hm 0 1), (psi_r_0 HX) in P2 by assumption.
    apply mul_np; [apply sin_ge_0; lra | apply cos_le_0; lra].
Qed.
(** the radial velocity is a positive multiple of sin psi cos psi *)
Definition gc (s : R) : R := K / PI * (2 * (r1 - r2) * ((r1 - r3) * (r2 - r3)) * sqrt (1 - m * s) / rden r1 r2 r3 s ^ 2).
Lemma gden s : 0 <= s <= 1 -> rden r1 r2 r3 s <> 0.
Proof. intros H. now apply (rden_nz c r1 r2 r3 r4 Hs Ho). Qed.
Lemma g_form q : rho' r1 r2 r3 r4 (K / PI) psi q = gc (sin (psi q) ^ 2) * (sin (psi q) * cos (psi q)).
Proof.
  pose proof PI_RGT_0. pose proof (gden _ (sn2_bound psi q)) as D. unfold sn2 in D.
  unfold rho', gc, dl, sn2. field. split; [exact D | lra].
Qed.
Lemma gc_nonneg s : 0 <= s <= 1 -> 0 <= gc s.
Proof.
  intros H. pose proof PI_RGT_0. pose proof (K_pos _ _ _ _ Hm). pose proof (gden s H) as D.
  unfold gc. apply Rmult_le_pos; [apply Rlt_le, Rdiv_lt_0_compat; lra|].
  apply Rdiv_le_0_compat; [|now apply pow2_gt_0]. apply Rmult_le_pos; [|apply sqrt_pos]. apply Rmult_le_pos; lra.
Qed.
Lemma gc_pos s : r2 < r1 -> 0 <= s <= 1 -> 0 < gc s.
Proof.
  intros H' H. pose proof PI_RGT_0. pose proof (K_pos _ _ _ _ Hm). pose proof (gden s H) as D.
  unfold gc. apply Rmult_lt_0_compat; [apply Rdiv_lt_0_compat; lra|].
  apply Rdiv_lt_0_compat; [|now apply pow2_gt_0]. apply Rmult_lt_0_compat; [|apply sqrt_lt_R0; clear - Hm H; nra]. apply Rmult_lt_0_compat; lra.
Qed.
Lemma g_rho q q' : r2 < r1 -> rho r1 r2 r3 psi q = rho r1 r2 r3 psi q' -> sin (psi q) ^ 2 = sin (psi q') ^ 2.
Proof.
  intros N H. unfold rho in H.
  destruct (rad_nz _ _ _ _ _ Hs Ho) as (N1 & N2 & N3 & N4).
  pose proof (sn2_bound psi q) as B. pose proof (sn2_bound psi q') as B'.
  rewrite !(rx_alt c _ _ _ r4 Hs Ho) in H by assumption.
  pose proof (hden (hr r1 r2 r3) _ (hr_lt1 c _ _ _ _ Hs Ho) B) as D.
  pose proof (hden (hr r1 r2 r3) _ (hr_lt1 c _ _ _ _ Hs Ho) B') as D'.
  assert (HN : hr r1 r2 r3 <> 0).
  { unfold hr. intros Z. apply Rmult_integral in Z as [Z|Z]; [lra|]. pose proof (Rinv_neq_0_compat _ N1). contradiction. }
  unfold sn2 in *. set (u := sin (psi q) ^ 2) in *. set (v := sin (psi q') ^ 2) in *. set (h := hr r1 r2 r3) in *. clearbody u v h.
  assert (Z : (r2 - r3) / (1 - h * u) = (r2 - r3) / (1 - h * v)) by lra.
  assert (K2 : (r2 - r3) * (h * (u - v)) = 0).
  { apply (f_equal (fun y => y * (1 - h * u) * (1 - h * v))) in Z. field_simplify in Z; try lra. }
  apply Rmult_integral in K2 as [K2|K2]; [lra|]. apply Rmult_integral in K2 as [K2|K2]; lra.
Qed.
(** radius and radial velocity determine the phase modulo a full turn *)
Lemma g_state q q' : r2 < r1 -> rho r1 r2 r3 psi q = rho r1 r2 r3 psi q' ->
  rho' r1 r2 r3 r4 (K / PI) psi q = rho' r1 r2 r3 r4 (K / PI) psi q' -> exists k, q = q' + IZR k * (2 * PI).
Proof.
  intros H' H1 H2. apply g_rho in H1; [|assumption]. rewrite !g_form, H1 in H2.
  pose proof (gc_pos (sin (psi q') ^ 2) H' (sn2_bound psi q')) as P. apply Rmult_eq_reg_l in H2; [|lra].
  destruct (same_angle (2 * psi q) (2 * psi q')) as [k Hk].
  - rewrite !cos_2a_sin. lra.
  - rewrite !sin_2a. lra.
  - exists k. apply g_inj. rewrite (psi_r_shift HX) by assumption. lra.
Qed.
End Radial.

Lemma sq0 x : x^2 = 0 -> x = 0.
Proof. intros H. destruct (Req_dec x 0) as [Z|Z]; [exact Z|]. pose proof (pow2_gt_0 _ Z). lra. Qed.
(** the polar angles at which the polar motion turns *)
Definition polar_turning (a E L Q z : R) : Prop := 0 < z < PI /\ polar_potential a E L Q z = 0.

Section S.
Context {X : External R} (HP : polyroots_spec X) (HX : special_spec X).
Context (a E L Q : R) (Ha : 0 < a^2 < 1) (HE : E^2 < 1) (HL : L <> 0) (HQ : 0 <= Q).
Context (r1 r2 r3 r4 : R) (HC : real_plunge a E L Q r1 r2 r3 r4).
Local Notation An := (a_nz a Ha).
Local Notation A2 := (a^2 * (1 - E^2)).
Local Notation zm := (pzm a E L Q).
Local Notation zp := (pzp a E L Q).
Local Notation be := (pbeta a E L Q).
Local Notation c := (1 - E^2).
Local Notation ur := (rur E r1 r2 r3 r4).
Local Notation psi := (psi_r (X := X) r1 r2 r3 r4).
Local Notation psit := (psi_t (X := X) a E zm be).
Local Notation mt := (kt2 A2 zm be).
Local Notation thmin := (acos (sqrt zm)).
Local Notation Hz := (Hz a E L Q Ha HE HL HQ).
Local Notation Hkt := (Hkt a E L Q Ha HE HL HQ).
Local Notation Hb := (Hb a E L Q Ha HE HL HQ).

Lemma r_signs : 0 <= r2 <= r1 /\ 0 < r1 /\ 0 <= r3 /\ 0 < sr2 c r1 r2 r3 r4 /\ 0 <= kr2 r1 r2 r3 r4 < 1 /\ 0 < (r1 - r3) * (r2 - r3).
Proof. exact (real_signs HP a E L Q Ha HE HQ r1 r2 r3 r4 HC). Qed.
(** the polar motion is that of the plunges with two complex roots *)
Lemma psi_tp q : psit q = psi_p (X := X) a E L Q (q + PI / 2).
Proof. pose proof PI_RGT_0. unfold psi_t, psi_p. f_equal. field. lra. Qed.
Lemma rut_put : rut a E L Q = put a E L Q.
Proof. pose proof (ellK_pos mt (proj2 Hkt)). unfold rut, put. field. lra. Qed.
Lemma rlth_plth qth l : rlth (X := X) a E L Q qth l = plth (X := X) a E L Q qth l.
Proof. unfold rlth, plth, th, cth. rewrite psi_tp, rut_put, Rplus_assoc. reflexivity. Qed.
Lemma rlr_signed qr l : is_derive (rlr (X := X) E r1 r2 r3 r4 qr) l (ur * rho' r1 r2 r3 r4 (ellK (kr2 r1 r2 r3 r4) / PI) psi (ur * l + qr)).
Proof.
  destruct r_signs as (H2 & H1 & H3 & Hs & Hm & Ho).
  unfold rlr. apply comp_lin. apply (rho_derive c _ _ _ _ Hs Ho). intros q'. now apply (psi_r_derive HX).
Qed.
Lemma strict : r2 < r1.
Proof.
  destruct (real_order HP a E L Q Ha r1 r2 r3 r4 HC) as [F O]. destruct r_signs as (H2 & _).
  destruct (Req_dec r1 r2) as [Z|Z]; [exfalso|lra]. subst r2.
  assert (P1 : 0 < radial_potential a E L Q 1).
  { unfold radial_potential, Delta. pose proof (pow2_ge_0 (E * (1^2 + a^2) - a * L)). pose proof (pow2_ge_0 (L - a * E)).
    assert (0 < (1 - a^2) * (1 + (L - a * E)^2 + Q)) by (apply Rmult_lt_0_compat; lra). lra. }
  assert (Pm : 0 <= radial_potential a E L Q (rm a)).
  { rewrite (potential_on_horizon a E L Q (rm a) (Delta_rm a Ha)). apply pow2_ge_0. }
  destruct (rpm' a (proj2 Ha)) as (S0 & S1 & S2 & _). assert (RM : rm a < 1) by (unfold rm; lra).
  rewrite F in P1, Pm. destruct O as [O|O].
  - assert (0 <= c * (1 - r1)^2 * ((1 - r3) * (1 - r4))).
    { apply Rmult_le_pos; [apply Rmult_le_pos; [lra | apply pow2_ge_0] | apply Rmult_le_pos; lra]. }
    lra.
  - assert (0 < c * (rm a - r1)^2 * ((r3 - rm a) * (r4 - rm a))).
    { apply Rmult_lt_0_compat; [apply Rmult_lt_0_compat; [lra | apply pow2_gt_0; lra] | apply Rmult_lt_0_compat; lra]. }
    lra.
Qed.
Lemma sz : 0 <= sqrt zm < 1.
Proof. pose proof Hz. split; [apply sqrt_pos|]. rewrite <- sqrt_1. apply sqrt_lt_1; lra. Qed.
Lemma turning z : sin z <> 0 -> cos z ^ 2 = zm -> polar_potential a E L Q z = 0.
Proof.
  intros S C. pose proof (p_factor a E L Q An HE HL HQ zm) as F. rewrite Rminus_diag_eq, Rmult_0_l in F by reflexivity.
  unfold polar_polynomial in F. rewrite <- C in F. replace (cos z ^ 2) with (1 - sin z ^ 2) in F by (rewrite cos2_sin2; ring).
  unfold polar_potential. replace (cos z ^ 2) with (1 - sin z ^ 2) by (rewrite cos2_sin2; ring).
  apply Rmult_eq_reg_r with (sin z ^ 2); [|now apply pow_nonzero]. rewrite Rmult_0_l, <- F. field. exact S.
Qed.
Lemma thmin_bounds : 0 < thmin <= PI / 2.
Proof.
  pose proof sz as S. pose proof (acos_bound (sqrt zm)) as B. assert (C : cos thmin = sqrt zm) by (apply cos_acos; lra). split.
  - destruct (Req_dec thmin 0) as [Z|Z]; [|lra]. rewrite Z, cos_0 in C. lra.
  - apply Rnot_lt_le. intros G. assert (cos thmin < 0) by (apply cos_lt_0; lra). lra.
Qed.
Lemma turning_points : polar_turning a E L Q thmin /\ polar_turning a E L Q (PI - thmin).
Proof.
  pose proof thmin_bounds as B. pose proof PI_RGT_0. pose proof sz as S. assert (C : cos thmin = sqrt zm) by (apply cos_acos; lra).
  assert (C2 : cos thmin ^ 2 = zm) by (rewrite C; apply pow2_sqrt, Hz).
  assert (Sn : 0 < sin thmin) by (apply sin_gt_0; lra).
  split; (split; [lra|]); apply turning; try lra.
  - rewrite sin_PI_x. lra.
  - rewrite Rtrigo_facts.cos_pi_minus. replace ((- cos thmin)^2) with (cos thmin ^ 2) by ring. exact C2.
Qed.

Section Data.
Context (t0 r0 th0 ph0 dt dr dth dph : R).
Context (Hr0 : r2 <= r0 <= r1) (Hth : 0 < th0 < PI) (HD : Delta a r0 <> 0) (HS : Sigma a r0 th0 <> 0).
Local Notation pos := (Some t0, Some r0, Some th0, Some ph0).
Local Notation vel := (Some dt, Some dr, Some dth, Some dph).
Context (HN : kerr_line_element a r0 th0 dt dr dth dph = -1).
Context (HI : constants_from_initial_conditions (Some a) pos vel = Ret (Some E, Some L, Some Q)).
Local Notation Sg := (Sigma a r0 th0).

Definition rq_th : R :=
  if Rlt_dec (Rabs (th0 - thmin)) tol then 0 else if Rlt_dec (Rabs (th0 - (PI - thmin))) tol then PI else
  if Rlt_dec 0 dth then PI / 2 - st0 a E zm be th0 else st0 a E zm be th0 + 3 * PI / 2.

Lemma r_inside : ~ Rabs (r0 - r2) < tol -> ~ Rabs (r0 - r1) < tol -> r2 < r0 /\ r0 < r1.
Proof.
  intros D1 D2. pose proof tol_pos. split; apply Rnot_le_lt; intros G.
  - apply D1. replace r0 with r2 by lra. rewrite Rminus_diag_eq, Rabs_R0 by reflexivity. lra.
  - apply D2. replace r0 with r1 by lra. rewrite Rminus_diag_eq, Rabs_R0 by reflexivity. lra.
Qed.
Lemma th_inside : ~ Rabs (th0 - thmin) < tol -> ~ Rabs (th0 - (PI - thmin)) < tol -> cos th0 ^ 2 < zm /\ dth <> 0.
Proof.
  intros D1 D2. pose proof tol_pos. pose proof sz as S. pose proof Hz as Z.
  assert (ZC : cos th0 ^ 2 <> zm).
  { intros K. assert (K' : (cos th0 - sqrt zm) * (cos th0 + sqrt zm) = 0).
    { replace ((cos th0 - sqrt zm) * (cos th0 + sqrt zm)) with (cos th0 ^ 2 - sqrt zm ^ 2) by ring. rewrite pow2_sqrt by lra. lra. }
    apply Rmult_integral in K' as [K'|K'].
    - assert (th0 = thmin) as K3. { rewrite <- (acos_cos th0) by lra. f_equal. lra. }
      apply D1. rewrite <- K3, Rminus_diag_eq, Rabs_R0 by reflexivity. lra.
    - assert (th0 = PI - thmin) as K3. { rewrite <- acos_opp. rewrite <- (acos_cos th0) by lra. f_equal. lra. }
      apply D2. rewrite <- K3, Rminus_diag_eq, Rabs_R0 by reflexivity. lra. }
  pose proof (p_polar a E L Q t0 r0 th0 ph0 dt dr dth dph An HE HL HQ Hth HD HS HN HI) as Hc.
  split; [lra|]. intros Zd. destruct (p_momenta a E L Q t0 r0 th0 ph0 dt dr dth dph Hth HD HS HN HI) as (M & _).
  rewrite Zd in M. assert (M0 : polar_potential a E L Q th0 = 0) by (rewrite <- M; ring).
  pose proof (sin_gt_0 th0 (proj1 Hth) (proj2 Hth)) as S0.
  assert (PP : polar_polynomial a E L Q (cos th0 ^ 2) = 0).
  { replace (polar_polynomial a E L Q (cos th0 ^ 2)) with (polar_potential a E L Q th0 * sin th0 ^ 2); [rewrite M0; ring|].
    unfold polar_potential, polar_polynomial. replace (cos th0 ^ 2) with (1 - sin th0 ^ 2) by (rewrite cos2_sin2; ring). field. lra. }
  rewrite (p_factor a E L Q An HE HL HQ) in PP. pose proof (pz_order a E L Q An HE HL HQ) as [_ Z2]. pose proof (A2_pos a E Ha HE) as AP.
  apply Rmult_integral in PP as [PP|PP]; [lra|]. unfold pbeta in PP.
  assert (0 < A2 * (zp - cos th0 ^ 2)) by (apply Rmult_lt_0_compat; lra). lra.
Qed.
Lemma zp_val : zp = be / A2.
Proof. pose proof (A2_pos a E Ha HE). unfold pbeta. field. split; [lra|]. apply An. Qed.

Lemma real_phases_run :
  plunging_orbit_initial_phases (Some a) pos vel None None default_tol = Ret (Some t0, Some (q_r r0 dr r1 r2 r3 r4), Some rq_th, Some ph0).
Proof.
  destruct r_signs as (H2 & H1 & H3 & Hs & Hm & Ho).
  unfold plunging_orbit_initial_phases. cbn [default]. rewrite HI. cbn [bind]. rewrite (proj1 HC). cbn [bind].
  unfold stable_orbit_initial_phases. cbn [default bind]. rewrite (polar_roots_run HP a E L Q Ha HE HL HQ). cbn [bind]. rewrite default_tol_value.
  match goal with |- bind ?m _ = _ => assert (QR : m = Ret (Some (q_r r0 dr r1 r2 r3 r4))) end.
  { change (nltb (nabs (Some r0 - Some r2)%num) (Some tol)) with (Some (Rltb (Rabs (r0 - r2)) tol)).
    change (nltb (nabs (Some r0 - Some r1)%num) (Some tol)) with (Some (Rltb (Rabs (r0 - r1)) tol)).
    unfold q_r, Rltb. destruct (Rlt_dec (Rabs (r0 - r2)) tol) as [D|D]; cbn [ifo]; [reflexivity|].
    destruct (Rlt_dec (Rabs (r0 - r1)) tol) as [D'|D']; cbn [ifo]; [reflexivity|].
    cbn [default bind]. unfold r_frequency_from_constants. destruct (r_inside D D') as [B1 B2].
    rewrite (r_freq_run HX E r1 r2 r3 r4 Hs Hm Ho). apply (radial_phase_run HX); try assumption; lra. }
  rewrite QR. cbn [bind].
  assert (TM : nacos (nsqrt (Some zm)) = Some thmin).
  { pose proof sz. pose proof Hz. cnum. rewrite csqrt_some by lra. unfold cunit.
    destruct (Rle_dec (-1) (sqrt zm)); [|lra]. destruct (Rle_dec (sqrt zm) 1); [reflexivity | lra]. }
  rewrite TM.
  match goal with |- bind ?m _ = _ => assert (QT : m = Ret (Some rq_th)) end.
  { change (nltb (nabs (Some th0 - Some thmin)%num) (Some tol)) with (Some (Rltb (Rabs (th0 - thmin)) tol)).
    change (nltb (nabs (Some th0 - (npi - Some thmin))%num) (Some tol)) with (Some (Rltb (Rabs (th0 - (PI - thmin))) tol)).
    unfold rq_th, Rltb. destruct (Rlt_dec (Rabs (th0 - thmin)) tol) as [D|D]; cbn [ifo]; [reflexivity|].
    destruct (Rlt_dec (Rabs (th0 - (PI - thmin))) tol) as [D'|D']; cbn [ifo]; [reflexivity|].
    destruct (th_inside D D') as [B Bd].
    cbn [default]. rewrite (theta_freq_real HX a E L Q Ha HE HL HQ). cbn [bind]. cbv zeta.
    pose proof (A2_pos a E Ha HE) as AP. pose proof (Hbeta a E L Q Ha HE HL HQ) as HB.
    pose proof (lambda_theta HX a E L zm be th0 Hz AP HL Hb Hkt Hth B HB) as LT. rewrite <- zp_val in LT. rewrite LT.
    apply (polar_phase_run a E L zm be th0 HL Hb Hkt dth Bd). }
  rewrite QT. reflexivity.
Qed.

Lemma rho_at : rho r1 r2 r3 psi (q_r r0 dr r1 r2 r3 r4) = if Rlt_dec (Rabs (r0 - r2)) tol then r2 else if Rlt_dec (Rabs (r0 - r1)) tol then r1 else r0.
Proof.
  destruct r_signs as (H2 & H1 & H3 & Hs & Hm & Ho). unfold q_r.
  destruct (Rlt_dec (Rabs (r0 - r2)) tol) as [D|D]; [now apply (rho_0 HX E)|].
  destruct (Rlt_dec (Rabs (r0 - r1)) tol) as [D'|D']; [now apply (rho_PI HX E)|].
  destruct (r_inside D D') as [B1 B2]. destruct (Rlt_dec 0 dr); [apply (rho_q0 HX) | apply (rho_q0' HX)]; assumption.
Qed.
Lemma th_at_r : th zm psit rq_th = if Rlt_dec (Rabs (th0 - thmin)) tol then thmin else if Rlt_dec (Rabs (th0 - (PI - thmin))) tol then PI - thmin else th0.
Proof.
  unfold rq_th. destruct (Rlt_dec (Rabs (th0 - thmin)) tol) as [D|D].
  - unfold th, cth. rewrite (psi_t_0 HX), sin_PI2 by apply Hkt. f_equal. ring.
  - destruct (Rlt_dec (Rabs (th0 - (PI - thmin))) tol) as [D'|D'].
    + unfold th, cth. rewrite (psi_t_PI HX) by apply Hkt. rewrite <- acos_opp. f_equal. rewrite neg_sin, sin_PI2. ring.
    + destruct (th_inside D D') as [B Bd].
      destruct (Rlt_dec 0 dth); [apply (th_up HX) | apply (th_down HX)]; (assumption || apply Hz || apply Hkt).
Qed.
(** r0 (th0) is not strictly between a turning point and the tolerance of the code: it is a turning point, or at least [tol] away *)
Definition r_settled : Prop := (Rabs (r0 - r1) < tol -> r0 = r1) /\ (Rabs (r0 - r2) < tol -> r0 = r2).
Definition th_settled : Prop := forall z, polar_turning a E L Q z -> Rabs (th0 - z) < tol -> th0 = z.

(** the computed phases: the plunge with these phases starts within [tol] of the given r and theta; unless it was
    snapped to a turning point, exactly there, with exactly the given velocity *)
Theorem C62_phases_reproduce_initial_conditions :
  exists qr qth,
  plunging_orbit_initial_phases (Some a) pos vel None None default_tol = Ret (Some t0, Some qr, Some qth, Some ph0) /\
  forall r theta, coordinates (plunge_run a E L Q t0 qr qth ph0) r theta ->
  Rabs (r 0 - r0) < tol /\ Rabs (theta 0 - th0) < tol /\
  (r_settled -> r 0 = r0 /\ is_derive r 0 (Sg * dr)) /\
  (th_settled -> theta 0 = th0 /\ is_derive theta 0 (Sg * dth)).
Proof.
  exists (q_r r0 dr r1 r2 r3 r4), rq_th. split; [exact real_phases_run|].
  intros r theta H. pose proof tol_pos as TP. pose proof PI_RGT_0 as PP.
  destruct r_signs as (H2 & H1 & H3 & Hs & Hm & Ho).
  pose proof (coords_real HP HX a E L Q Ha HE HL HQ r1 r2 r3 r4 HC t0 _ _ ph0 r theta H) as Eq.
  destruct (p_momenta a E L Q t0 r0 th0 ph0 dt dr dth dph Hth HD HS HN HI) as (M1 & M2 & _).
  pose proof (p_sigma_pos a r0 th0 HS) as SP.
  destruct (Eq 0) as [R0 T0]. unfold rlr in R0. unfold rlth in T0. rewrite Rmult_0_r, Rplus_0_l in R0, T0. rewrite rho_at in R0. rewrite th_at_r in T0.
  assert (RA : r_settled -> r 0 = r0).
  { intros [A1 A2']. rewrite R0. destruct (Rlt_dec (Rabs (r0 - r2)) tol); [symmetry; auto|]. destruct (Rlt_dec (Rabs (r0 - r1)) tol); [symmetry; auto | reflexivity]. }
  assert (TA : th_settled -> theta 0 = th0).
  { intros A. destruct turning_points as [U1 U2]. apply A in U1, U2. rewrite T0.
    destruct (Rlt_dec (Rabs (th0 - thmin)) tol); [symmetry; auto|]. destruct (Rlt_dec (Rabs (th0 - (PI - thmin))) tol); [symmetry; auto | reflexivity]. }
  refine (conj _ (conj _ (conj _ _))).
  - rewrite R0, Rabs_minus_sym. destruct (Rlt_dec (Rabs (r0 - r2)) tol); [assumption|]. destruct (Rlt_dec (Rabs (r0 - r1)) tol); [assumption|].
    rewrite Rminus_diag_eq, Rabs_R0 by reflexivity. assumption.
  - rewrite T0, Rabs_minus_sym. destruct (Rlt_dec (Rabs (th0 - thmin)) tol); [assumption|]. destruct (Rlt_dec (Rabs (th0 - (PI - thmin))) tol); [assumption|].
    rewrite Rminus_diag_eq, Rabs_R0 by reflexivity. assumption.
  - intros A. split; [auto|]. set (q := q_r r0 dr r1 r2 r3 r4) in *.
    pose proof (rlr_signed q 0) as D. rewrite Rmult_0_r, Rplus_0_l in D.
    match type of D with is_derive _ _ ?x => set (d := x) in * end.
    assert (D1 : is_derive r 0 d) by (eapply is_derive_ext; [|exact D]; intros s; symmetry; apply Eq).
    replace (Sg * dr) with d; [exact D1|].
    destruct (rlr_ode HP HX a E L Q Ha HE HQ r1 r2 r3 r4 HC q 0) as (d' & D' & O).
    assert (d' = d) as -> by (rewrite <- (is_derive_unique _ _ _ D'); now apply is_derive_unique).
    destruct (Eq 0) as [R0' _]. rewrite <- R0', (RA A), <- M2 in O.
    pose proof (rur_pos HP a E L Q Ha HE HQ r1 r2 r3 r4 HC) as U.
    destruct A as [A1 A2'].
    assert (TZ : radial_potential a E L Q r0 = 0 -> d = Sg * dr).
    { intros Z. rewrite M2, Z in O. rewrite Z in M2. rewrite (sq0 _ O). symmetry. exact (sq0 _ M2). }
    destruct (real_order HP a E L Q Ha r1 r2 r3 r4 HC) as [F _].
    destruct (Rlt_dec (Rabs (r0 - r2)) tol) as [N2|N2]; [apply TZ; rewrite (A2' N2), F; ring|].
    destruct (Rlt_dec (Rabs (r0 - r1)) tol) as [N1|N1]; [apply TZ; rewrite (A1 N1), F; ring|].
    destruct (r_inside N2 N1) as [B1 B2].
    pose proof (q0_bound r1 r2 r3 r4 r0 Hm Ho B1 B2) as QB.
    assert (SQ : 0 < dr /\ 0 <= sin q \/ dr <= 0 /\ sin q < 0).
    { unfold q, q_r. destruct (Rlt_dec (Rabs (r0 - r2)) tol); [lra|]. destruct (Rlt_dec (Rabs (r0 - r1)) tol); [lra|].
      destruct (Rlt_dec 0 dr); [left | right]; (split; [lra|]).
      - apply sin_ge_0; lra.
      - apply sin_lt_0; lra. }
    destruct (g_sign HX r1 r2 r3 r4 Hm q) as [G1 G2].
    pose proof (gc_nonneg E r1 r2 r3 r4 Hs Hm Ho (proj2 H2) _ (sn2_bound psi q)) as GC. unfold sn2 in GC.
    apply (signed_eq _ _ (sin q)); [exact O | | | |]; intros S.
    + unfold d. rewrite (g_form E r1 r2 r3 r4 Hs Ho). apply mul_nonneg; [exact U|]. apply Rmult_le_pos; auto.
    + unfold d. rewrite (g_form E r1 r2 r3 r4 Hs Ho). apply mul_nonpos; [exact U|]. apply mul_np; auto.
    + apply Rmult_le_pos; lra.
    + apply mul_nonpos; lra.
  - intros A. split; [auto|]. set (q := rq_th) in *.
    pose proof (plth_signed HX a E L Q An HE HL HQ q 0) as D. rewrite Rmult_0_r, Rplus_0_l in D.
    match type of D with is_derive _ _ ?x => set (d := x) in * end.
    assert (D1 : is_derive theta 0 d).
    { eapply is_derive_ext; [|exact D]. intros s. destruct (Eq s) as [_ Es]. rewrite Es. symmetry. apply rlth_plth. }
    replace (Sg * dth) with d; [exact D1|].
    destruct (plth_derive HX a E L Q An HE HL HQ q 0) as (d' & D' & O).
    assert (d' = d) as -> by (rewrite <- (is_derive_unique _ _ _ D'); now apply is_derive_unique).
    destruct (Eq 0) as [_ T0']. rewrite rlth_plth in T0'. rewrite <- T0', (TA A), <- M1 in O.
    pose proof (put_pos a E L Q An HE HL HQ) as U.
    destruct turning_points as [U1 U2]. pose proof (A _ U1) as A1. pose proof (A _ U2) as A2'.
    assert (TZ : polar_potential a E L Q th0 = 0 -> d = Sg * dth).
    { intros Z. rewrite M1, Z in O. rewrite Z in M1. rewrite (sq0 _ O). symmetry. exact (sq0 _ M1). }
    destruct (Rlt_dec (Rabs (th0 - thmin)) tol) as [N1|N1]; [apply TZ; rewrite (A1 N1); apply U1|].
    destruct (Rlt_dec (Rabs (th0 - (PI - thmin))) tol) as [N2|N2]; [apply TZ; rewrite (A2' N2); apply U2|].
    destruct (th_inside N1 N2) as [B Bd].
    pose proof (st0_bound a E zm be th0 Hz Hkt B) as QB.
    assert (SQ : 0 < dth /\ 0 <= sin q \/ dth <= 0 /\ sin q < 0).
    { unfold q, rq_th. destruct (Rlt_dec (Rabs (th0 - thmin)) tol); [lra|]. destruct (Rlt_dec (Rabs (th0 - (PI - thmin))) tol); [lra|].
      destruct (Rlt_dec 0 dth); [left | right]; (split; [lra|]).
      - apply sin_ge_0; lra.
      - apply sin_lt_0; lra. }
    destruct (psi_sign HX a E L Q An HE HL HQ q) as [X1 X2].
    pose proof (tc_nonneg a E L Q An HE HL HQ (sin (psi_p (X := X) a E L Q (q + PI / 2))) (proj2 (sin2_bound _))) as TC.
    apply (signed_eq _ _ (sin q)); [exact O | | | |]; intros S.
    + unfold d. rewrite (th'_form a E L Q An HE HL HQ). apply mul_nonneg; [exact U|]. apply Rmult_le_pos; [exact TC|]. specialize (X1 S). lra.
    + unfold d. rewrite (th'_form a E L Q An HE HL HQ). apply mul_nonpos; [exact U|]. apply mul_np; [exact TC|]. specialize (X2 S). lra.
    + apply Rmult_le_pos; lra.
    + apply mul_nonpos; lra.
Qed.
(** ** Orbit(a, initial_position, initial_velocity) of such a plunge *)
Context (HM : not_marginal a E L) (Hgap : r1 < r4 -> r1 + tol < r4).
Lemma classed_as_plunge : ic_is_stable (Some a) pos vel None default_tol = Ret false.
Proof.
  transitivity (ic_is_stable (Some a) pos vel (Some (Some E, Some L, Some Q)) default_tol).
  { unfold ic_is_stable. cbn [default]. now rewrite HI. }
  rewrite default_tol_value. pose proof tol_pos as TP.
  destruct (real_order HP a E L Q Ha r1 r2 r3 r4 HC) as [F O].
  destruct (horizons_inside HP a E L Q Ha HE HQ r1 r2 r3 r4 HC HM) as (I2 & I3 & I4 & _).
  fold (rm a) in *. destruct O as [O|O].
  - apply (C37_four_real_roots HP a E L Q t0 r0 th0 ph0 vel tol r1 r2 r3 r4); try lra; [exact F|].
    left. unfold within. fold (rm a). lra.
  - apply (C37_four_real_roots HP a E L Q t0 r0 th0 ph0 vel tol r3 r4 r1 r2); try lra.
    { intros r. rewrite F. ring. }
    right. unfold within. fold (rm a). lra.
Qed.
Theorem C62_orbit_reproduces_initial_conditions M mu :
  exists o, Orbit_init (Some a) pos vel M mu = Ret o /\
  o_stable o = false /\ o_a o = Some a /\ o_apex o = None /\
  o_E o = Some E /\ o_L o = Some L /\ o_Q o = Some Q /\
  plunging_mino_frequencies (Some a) (Some E) (Some L) (Some Q) = Ret (o_upsilon_r o, o_upsilon_theta o) /\
  exists qr qth, o_phases o = (Some t0, Some qr, Some qth, Some ph0) /\
  Orbit_trajectory o None "natural" "natural" = plunge_run a E L Q t0 qr qth ph0 /\
  exists r theta, coordinates (Orbit_trajectory o None "natural" "natural") r theta /\
  Rabs (r 0 - r0) < tol /\ Rabs (theta 0 - th0) < tol /\
  (r_settled -> r 0 = r0 /\ is_derive r 0 (Sg * dr)) /\
  (th_settled -> theta 0 = th0 /\ is_derive theta 0 (Sg * dth)).
Proof.
  destruct C62_phases_reproduce_initial_conditions as (qr & qth & HPh & HT).
  destruct (freqs_real HP HX a E L Q Ha HE HL HQ r1 r2 r3 r4 HC) as (up & ga & Fr & _).
  assert (PF : plunging_mino_frequencies (Some a) (Some E) (Some L) (Some Q) = Ret (Some ur, Some (rut a E L Q))).
  { unfold plunging_mino_frequencies. rewrite (proj1 HC). cbn [bind]. rewrite (polar_roots_run HP a E L Q Ha HE HL HQ). cbn [bind]. rewrite Fr. reflexivity. }
  assert (NM : norm (Some a) (Some t0) (Some r0) (Some th0) (Some ph0) vel = Some (-1)).
  { rewrite <- HN. apply C02_norm_is_kerr_line_element; assumption. }
  eexists. split.
  { unfold Orbit_init. rewrite NM.
    change (nleb (nZ 0) (Some (-1))) with (Some (Rleb 0 (-1))). rewrite Rleb_false by lra. cbn [ifo].
    change (nltb (nQ 1 1000000) (nabs (Some (-1) + nZ 1)%num)) with (Some (Rltb (1/1000000) (Rabs (-1 + 1)))).
    replace (-1 + 1) with 0 by ring. rewrite Rabs_R0, Rltb_false by lra. cbn [ifo].
    rewrite HI. cbn [bind]. rewrite classed_as_plunge. cbn [bind].
    change (neqb (Some a) (nZ 0)) with (Some (Reqb a 0)). rewrite (Reqb_false a 0 An). cbn [ifo].
    rewrite PF. cbn [bind]. rewrite HPh. cbn [bind]. reflexivity. }
  cbn [o_stable o_a o_apex o_E o_L o_Q o_upsilon_r o_upsilon_theta o_phases].
  do 6 (split; [reflexivity|]). split; [exact PF|]. exists qr, qth. split; [reflexivity|].
  split; [reflexivity|].
  destruct (C58_radial_and_polar_equations HP HX a E L Q Ha HE HL HQ r1 r2 r3 r4 HC t0 qr qth ph0) as (r & theta & CC & _).
  exists r, theta. split; [exact CC | exact (HT r theta CC)].
Qed.
End Data.

(** ** C60 for plunges with four real roots *)
Theorem C60_real_four_velocity_is_derivative qt qr qth qph r theta ur' ut T1 T2 T3 T4 :
  plunge_run a E L Q qt qr qth qph = Ret (T1, T2, T3, T4) ->
  coordinates (plunge_run a E L Q qt qr qth qph) r theta ->
  plunging_mino_frequencies (Some a) (Some E) (Some L) (Some Q) = Ret (Some ur', Some ut) ->
  let '(u_t, u_r, u_theta, u_phi) :=
    four_velocity (Some a) T2 T3 (Some E, Some L, Some Q) (Some ur') (Some ut) (Some qt, Some qr, Some qth, Some qph) in
  forall l, Delta a (r l) <> 0 -> Sigma a (r l) (theta l) <> 0 ->
  exists vt vr vth vph,
    u_t (Some l) = Ret (Some vt) /\ u_r (Some l) = Ret (Some vr) /\
    u_theta (Some l) = Ret (Some vth) /\ u_phi (Some l) = Ret (Some vph) /\
    is_derive r l (Sigma a (r l) (theta l) * vr) /\ is_derive theta l (Sigma a (r l) (theta l) * vth) /\
    Sigma a (r l) (theta l) * vt = dt_dlambda a E L (r l) (theta l) /\
    Sigma a (r l) (theta l) * vph = dphi_dlambda a E L (r l) (theta l) /\
    forall t phi, norm (Some a) (Some t) (Some (r l)) (Some (theta l)) (Some phi) (Some vt, Some vr, Some vth, Some vph) = Some (-1).
Proof.
  intros HT H F. destruct r_signs as (H2 & H1 & H3 & Hs & Hm & Ho).
  pose proof (coords_real HP HX a E L Q Ha HE HL HQ r1 r2 r3 r4 HC qt qr qth qph r theta H) as Eq.
  assert (Eqp : forall s, theta s = plth (X := X) a E L Q qth s) by (intros s; destruct (Eq s) as [_ ->]; apply rlth_plth).
  destruct (freqs_real HP HX a E L Q Ha HE HL HQ r1 r2 r3 r4 HC) as (up & ga & Fr & _).
  unfold plunging_mino_frequencies in F. rewrite (proj1 HC) in F. cbn [bind] in F. rewrite (polar_roots_run HP a E L Q Ha HE HL HQ) in F. cbn [bind] in F.
  rewrite Fr in F. cbn [bind] in F. apply Ret_inj in F. apply pair_equal_spec in F as [F1 F2].
  assert (ur' = ur) as -> by congruence. assert (ut = put a E L Q) as -> by (rewrite <- rut_put; congruence). clear F1 F2.
  destruct H as (U1 & U2 & U3 & U4 & EqU & HU). rewrite HT in EqU.
  apply Ret_inj in EqU. apply pair_equal_spec in EqU as [EqU ->]. apply pair_equal_spec in EqU as [EqU ->]. apply pair_equal_spec in EqU as [-> ->].
  destruct (four_velocity (Some a) U2 U3 (Some E, Some L, Some Q) (Some ur) (Some (put a E L Q)) (Some qt, Some qr, Some qth, Some qph))
    as [[[u_t u_r] u_theta] u_phi] eqn:V.
  intros l HD HS. destruct (HU l) as (E2 & E3). destruct (Eq l) as [Rl _]. pose proof (Eqp l) as Tl.
  destruct (rlr_ode HP HX a E L Q Ha HE HQ r1 r2 r3 r4 HC qr l) as (d1 & D1 & O1).
  destruct (plth_derive HX a E L Q An HE HL HQ qth l) as (d2 & D2 & O2).
  rewrite <- Rl in O1. rewrite <- Tl in O2.
  assert (Sn : 0 < sin (theta l)). { rewrite Tl. apply sin_th_pos, Hz. }
  assert (P1 : 0 <= radial_potential a E L Q (r l)) by (rewrite <- O1; apply pow2_ge_0).
  assert (P2 : 0 <= polar_potential a E L Q (theta l)) by (rewrite <- O2; apply pow2_ge_0).
  assert (Sn' : sin (theta l) <> 0) by lra.
  pose proof (C01_four_velocity_geodesic_equations a U2 U3 E L Q ur (put a E L Q) qt qr qth qph l (r l) (theta l) E2 E3 HS HD Sn' P1 P2) as G.
  rewrite V in G. destruct G as (vt & vr & vth & vph & V1 & V2 & V3 & V4 & G1 & G2 & G3 & G4 & S1 & S2 & S3 & S4).
  exists vt, vr, vth, vph. refine (conj V1 (conj V2 (conj V3 (conj V4 (conj _ (conj _ (conj G1 (conj G2 _)))))))).
  - pose proof (rlr_signed qr l) as D.
    set (q := ur * l + qr) in *. match type of D with is_derive _ _ ?x => set (d := x) in * end.
    replace (Sigma a (r l) (theta l) * vr) with d.
    { eapply is_derive_ext; [|exact D]. intros s. symmetry. apply Eq. }
    assert (d = d1) as Ed. { rewrite <- (is_derive_unique _ _ _ D). now apply is_derive_unique. }
    pose proof (rur_pos HP a E L Q Ha HE HQ r1 r2 r3 r4 HC) as U. destruct (g_sign HX r1 r2 r3 r4 Hm q) as [X1 X2].
    pose proof (gc_nonneg E r1 r2 r3 r4 Hs Hm Ho (proj2 H2) _ (sn2_bound psi q)) as GC. unfold sn2 in GC.
    apply (signed_eq _ _ (sin q)); [rewrite Ed; lra | | | exact S1 | exact S2]; intros S; unfold d; rewrite (g_form E r1 r2 r3 r4 Hs Ho).
    + apply mul_nonneg; [exact U|]. apply Rmult_le_pos; auto.
    + apply mul_nonpos; [exact U|]. apply mul_np; auto.
  - pose proof (plth_signed HX a E L Q An HE HL HQ qth l) as D.
    set (q := put a E L Q * l + qth) in *. replace (put a E L Q * l + (qth + PI / 2)) with (q + PI / 2) in D by (unfold q; ring).
    match type of D with is_derive _ _ ?x => set (d := x) in * end.
    replace (Sigma a (r l) (theta l) * vth) with d.
    { eapply is_derive_ext; [|exact D]. intros s. symmetry. apply Eqp. }
    assert (d = d2) as Ed. { rewrite <- (is_derive_unique _ _ _ D). now apply is_derive_unique. }
    pose proof (put_pos a E L Q An HE HL HQ) as U. destruct (psi_sign HX a E L Q An HE HL HQ q) as [X1 X2].
    pose proof (tc_nonneg a E L Q An HE HL HQ (sin (psi_p (X := X) a E L Q (q + PI / 2))) (proj2 (sin2_bound _))) as TC.
    apply (signed_eq _ _ (sin q)); [rewrite Ed; lra | | | exact (S3 Sn) | exact (S4 Sn)]; intros S; unfold d; rewrite (th'_form a E L Q An HE HL HQ).
    + apply Rmult_le_pos; [lra|]. apply Rmult_le_pos; [assumption|]. specialize (X1 S). lra.
    + apply mul_np; [lra|]. apply mul_np; [assumption|]. specialize (X2 S). lra.
  - intros t phi. pose proof (C01_four_velocity_normalised a U2 U3 E L Q ur (put a E L Q) qt qr qth qph l (r l) (theta l) t phi E2 E3 HS HD Sn' P1 P2) as N.
    rewrite V in N. destruct N as (vt' & vr' & vth' & vph' & V1' & V2' & V3' & V4' & N).
    assert (vt' = vt /\ vr' = vr /\ vth' = vth /\ vph' = vph) as (-> & -> & -> & ->) by (repeat split; congruence). exact N.
Qed.

(** ** C61 for plunges with four real roots *)
Theorem C61_real_plunge_restart qt qr qth qph r theta ur' ut T1 T2 T3 T4 :
  0 < Q -> not_marginal a E L -> (r1 < r4 -> r1 + tol < r4) ->
  plunge_run a E L Q qt qr qth qph = Ret (T1, T2, T3, T4) ->
  coordinates (plunge_run a E L Q qt qr qth qph) r theta ->
  plunging_mino_frequencies (Some a) (Some E) (Some L) (Some Q) = Ret (Some ur', Some ut) ->
  let '(u_t, u_r, u_theta, u_phi) :=
    four_velocity (Some a) T2 T3 (Some E, Some L, Some Q) (Some ur') (Some ut) (Some qt, Some qr, Some qth, Some qph) in
  forall l t phi M mu vt vr vth vph, Delta a (r l) <> 0 -> Sigma a (r l) (theta l) <> 0 ->
  r_settled (r l) -> th_settled (theta l) ->
  u_t (Some l) = Ret vt -> u_r (Some l) = Ret vr -> u_theta (Some l) = Ret vth -> u_phi (Some l) = Ret vph ->
  exists o,
  Orbit_init (Some a) (Some t, Some (r l), Some (theta l), Some phi) (vt, vr, vth, vph) M mu = Ret o /\
  o_E o = Some E /\ o_L o = Some L /\ o_Q o = Some Q /\
  coordinates (Orbit_trajectory o None "natural" "natural") (fun s => r (l + s)) (fun s => theta (l + s)).
Proof.
  intros HQ' HM Hgap HT H F.
  pose proof (C60_real_four_velocity_is_derivative qt qr qth qph r theta ur' ut T1 T2 T3 T4 HT H F) as V.
  destruct r_signs as (H2 & H1 & H3 & Hs & Hm & Ho).
  pose proof (coords_real HP HX a E L Q Ha HE HL HQ r1 r2 r3 r4 HC qt qr qth qph r theta H) as Eq.
  assert (Eqp : forall s, theta s = plth (X := X) a E L Q qth s) by (intros s; destruct (Eq s) as [_ ->]; apply rlth_plth).
  destruct H as (U1 & U2 & U3 & U4 & EqU & HU). rewrite HT in EqU.
  apply Ret_inj in EqU. apply pair_equal_spec in EqU as [EqU ->]. apply pair_equal_spec in EqU as [EqU ->]. apply pair_equal_spec in EqU as [-> ->].
  assert (CR : forall l t phi, Sigma a (r l) (theta l) <> 0 -> Delta a (r l) <> 0 -> sin (theta l) <> 0 ->
     0 <= radial_potential a E L Q (r l) -> 0 <= polar_potential a E L Q (theta l) ->
     let '(u_t, u_r, u_theta, u_phi) :=
    four_velocity (Some a) U2 U3 (Some E, Some L, Some Q) (Some ur') (Some ut) (Some qt, Some qr, Some qth, Some qph) in
      forall vt vr vth vph,
    u_t (Some l) = Ret vt -> u_r (Some l) = Ret vr ->
    u_theta (Some l) = Ret vth -> u_phi (Some l) = Ret vph ->
    constants_from_initial_conditions (Some a) (Some t, Some (r l), Some (theta l), Some phi)
      (vt, vr, vth, vph) = Ret (Some E, Some L, Some Q)).
  { intros l t phi. destruct (HU l) as (E2 & E3). now apply C04_constants_roundtrip. }
  destruct (four_velocity (Some a) U2 U3 (Some E, Some L, Some Q) (Some ur') (Some ut) (Some qt, Some qr, Some qth, Some qph))
    as [[[u_t u_r] u_theta] u_phi].
  intros l t phi M mu vt' vr' vth' vph' HD HS RS TS K1 K2 K3 K4. destruct (Eq l) as [Rl _]. pose proof (Eqp l) as Tl.
  destruct (rlr_ode HP HX a E L Q Ha HE HQ r1 r2 r3 r4 HC qr l) as (d1 & D1 & O1).
  destruct (plth_derive HX a E L Q An HE HL HQ qth l) as (d2 & D2 & O2).
  rewrite <- Rl in O1. rewrite <- Tl in O2.
  assert (Sn : 0 < sin (theta l)). { rewrite Tl. apply sin_th_pos, Hz. }
  assert (P1 : 0 <= radial_potential a E L Q (r l)) by (rewrite <- O1; apply pow2_ge_0).
  assert (P2 : 0 <= polar_potential a E L Q (theta l)) by (rewrite <- O2; apply pow2_ge_0).
  pose proof (CR l t phi HS HD (Rgt_not_eq _ _ Sn) P1 P2 vt' vr' vth' vph' K1 K2 K3 K4) as HI.
  destruct (V l HD HS) as (vt & vr & vth & vph & V1 & V2 & V3 & V4 & W2 & W3 & _ & _ & NM).
  rewrite V1 in K1. rewrite V2 in K2. rewrite V3 in K3. rewrite V4 in K4.
  apply Ret_inj in K1, K2, K3, K4. subst vt' vr' vth' vph'.
  assert (HN : kerr_line_element a (r l) (theta l) vt vr vth vph = -1).
  { specialize (NM t phi). rewrite C02_norm_is_kerr_line_element in NM by assumption. congruence. }
  assert (Ht : 0 < theta l < PI).
  { pose proof (acos_bound (cth (pzm a E L Q) (psi_p (X := X) a E L Q) (put a E L Q * l + (qth + PI / 2)))) as B.
    fold (th (pzm a E L Q) (psi_p (X := X) a E L Q) (put a E L Q * l + (qth + PI / 2))) in B. fold (plth (X := X) a E L Q qth l) in B. rewrite <- Tl in B.
    set (y := theta l) in *. clearbody y. clear - B Sn.
    split; apply Rnot_le_lt; intros G.
    + replace y with 0 in Sn by lra. rewrite sin_0 in Sn. lra.
    + replace y with PI in Sn by lra. rewrite sin_PI in Sn. lra. }
  assert (Rb : r2 <= r l <= r1).
  { rewrite Rl. unfold rlr, rho. apply (rx_bounds c _ _ _ _ Hs Ho); [tauto|]. apply sn2_bound. }
  destruct (C62_orbit_reproduces_initial_conditions t (r l) (theta l) phi vt vr vth vph Rb Ht HD HS HN HI HM Hgap M mu)
    as (o & HO & _ & _ & _ & OE & OL & OQ & _ & qr' & qth' & _ & OT & r' & theta' & CC & _ & _ & CR' & CT').
  destruct (CR' RS) as [R0 DR]. destruct (CT' TS) as [T0 DT].
  exists o. refine (conj HO (conj OE (conj OL (conj OQ _)))). rewrite OT in *.
  pose proof (coords_real HP HX a E L Q Ha HE HL HQ r1 r2 r3 r4 HC t qr' qth' phi r' theta' CC) as Eq'.
  assert (Eqp' : forall s, theta' s = plth (X := X) a E L Q qth' s) by (intros s; destruct (Eq' s) as [_ ->]; apply rlth_plth).
  destruct (g_state HX E r1 r2 r3 r4 Hs Hm Ho (ur * l + qr) qr' strict) as [k Hk].
  { fold (rlr (X := X) E r1 r2 r3 r4 qr l). rewrite <- Rl, <- R0. destruct (Eq' 0) as [-> _]. unfold rlr. f_equal. ring. }
  { pose proof (rur_pos HP a E L Q Ha HE HQ r1 r2 r3 r4 HC) as U. apply Rmult_eq_reg_l with ur; [|lra].
    transitivity (Sigma a (r l) (theta l) * vr).
    - rewrite <- (is_derive_unique _ _ _ W2). symmetry. apply is_derive_unique.
      eapply is_derive_ext; [|exact (rlr_signed qr l)]. intros s. symmetry. apply Eq.
    - rewrite <- (is_derive_unique _ _ _ DR). apply is_derive_unique.
      eapply is_derive_ext; [intros s; symmetry; apply Eq'|]. pose proof (rlr_signed qr' 0) as D.
      rewrite Rmult_0_r, Rplus_0_l in D. exact D. }
  destruct (polar_state HX a E L Q An HE HL HQ (put a E L Q * l + (qth + PI / 2)) (qth' + PI / 2) HQ') as [j Hj].
  { fold (plth (X := X) a E L Q qth l). rewrite <- Tl, <- T0. rewrite (Eqp' 0). unfold plth. f_equal. ring. }
  { pose proof (put_pos a E L Q An HE HL HQ) as U. apply Rmult_eq_reg_l with (put a E L Q); [|lra].
    transitivity (Sigma a (r l) (theta l) * vth).
    - rewrite <- (is_derive_unique _ _ _ W3). symmetry. apply is_derive_unique.
      eapply is_derive_ext; [|exact (plth_signed HX a E L Q An HE HL HQ qth l)]. intros s. symmetry. apply Eqp.
    - rewrite <- (is_derive_unique _ _ _ DT). apply is_derive_unique.
      eapply is_derive_ext; [intros s; symmetry; apply Eqp'|]. pose proof (plth_signed HX a E L Q An HE HL HQ qth' 0) as D.
      rewrite Rmult_0_r, Rplus_0_l in D. exact D. }
  destruct CC as (W1' & W2' & W3' & W4' & HW & HW'). exists W1', W2', W3', W4'. split; [exact HW|].
  intros s. destruct (HW' s) as [-> ->]. destruct (Eq' s) as [-> _]. destruct (Eq (l + s)) as [-> _]. rewrite (Eqp (l + s)), (Eqp' s). unfold rlr, plth. split; do 2 f_equal.
  - rewrite <- (rho_shift HX r1 r2 r3 r4 Hm (ur * s + qr') k). f_equal. lra.
  - rewrite <- (th_pshift HX a E L Q An HE HL HQ (put a E L Q * s + (qth' + PI / 2)) j). f_equal. lra.
Qed.
End S.
Print Assumptions C62_phases_reproduce_initial_conditions.
Print Assumptions C62_orbit_reproduces_initial_conditions.
Print Assumptions C60_real_four_velocity_is_derivative.
Print Assumptions C61_real_plunge_restart.

(** a particle at radius 2 of the inclined plunge of [C58_case], below the stable spherical orbit of radius 6, moving
    inwards and away from the equator, meets the hypotheses *)
Example C62_case {X : External R} (HP : polyroots_spec X) :
  exists r1 r2 dt dr dth dph,
  real_plunge (1/2) (67/72) (403/144) (5/3) r1 r2 6 6 /\ r2 <= 2 <= r1 /\ r1 + tol < 6 /\
  not_marginal (1/2) (67/72) (403/144) /\ Delta (1/2) 2 <> 0 /\ Sigma (1/2) 2 (PI / 2) <> 0 /\ dr < 0 /\ 0 < dth /\
  r_settled r1 r2 2 /\ th_settled (1/2) (67/72) (403/144) (5/3) (PI / 2) /\
  kerr_line_element (1/2) 2 (PI / 2) dt dr dth dph = -1 /\
  constants_from_initial_conditions (Some (1/2)) (Some 0, Some 2, Some (PI / 2), Some 0) (Some dt, Some dr, Some dth, Some dph)
    = Ret (Some (67/72), Some (403/144), Some (5/3)).
Proof.
  assert (W2 : w_case^2 = (2028/695)^2 - 4 * (12/139)) by (apply pow2_sqrt; lra).
  assert (W0 : 0 <= w_case) by apply sqrt_pos.
  assert (WB : 28/10 < w_case < 29/10) by (clear - W0 W2; split; nra).
  set (r1 := (2028/695 + w_case) / 2). set (r2 := (2028/695 - w_case) / 2).
  assert (F : forall r, radial_potential (1/2) (67/72) (403/144) (5/3) r = (1 - (67/72)^2) * (r1 - r) * (r - r2) * (r - 6) * (r - 6)).
  { intros r. unfold r1, r2. replace ((1 - (67/72)^2) * ((2028/695 + w_case) / 2 - r) * (r - (2028/695 - w_case) / 2) * (r - 6) * (r - 6))
      with ((1 - (67/72)^2) * (- r^2 + 2028/695 * r - ((2028/695)^2 - w_case^2) / 4) * (r - 6) * (r - 6)) by field.
    rewrite W2. unfold radial_potential, Delta. field. }
  assert (C : real_plunge (1/2) (67/72) (403/144) (5/3) r1 r2 6 6).
  { split; [|unfold r1, r2; split; lra]. apply (real_roots_inner HP); unfold r1, r2 in *; try lra. exact F. }
  assert (HS : Sigma (1/2) 2 (PI / 2) = 4) by (unfold Sigma; rewrite cos_PI2; ring).
  assert (HD : Delta (1/2) 2 <> 0) by (unfold Delta; lra).
  assert (R2 : 0 < radial_potential (1/2) (67/72) (403/144) (5/3) 2).
  { unfold radial_potential, Delta. lra. }
  assert (P2 : polar_potential (1/2) (67/72) (403/144) (5/3) (PI / 2) = 5/3).
  { unfold polar_potential. rewrite cos_PI2. unfold Rdiv. ring. }
  set (wr := - sqrt (radial_potential (1/2) (67/72) (403/144) (5/3) 2)). set (wth := sqrt (5/3)).
  assert (K1 : wr^2 = radial_potential (1/2) (67/72) (403/144) (5/3) 2).
  { unfold wr. rewrite <- Rsqr_pow2, <- Rsqr_neg, Rsqr_pow2. apply pow2_sqrt. lra. }
  assert (K2 : wth^2 = polar_potential (1/2) (67/72) (403/144) (5/3) (PI / 2)) by (rewrite P2; apply pow2_sqrt; lra).
  destruct (data_with_constants (1/2) (67/72) (403/144) (5/3) 0 2 (PI / 2) 0 wr wth) as (dt & dph & N & I); try assumption; try (rewrite ?HS, ?sin_PI2; lra).
  exists r1, r2, dt, (wr / Sigma (1/2) 2 (PI / 2)), (wth / Sigma (1/2) 2 (PI / 2)), dph.
  assert (T : tol = 1/10000) by reflexivity.
  refine (conj C (conj _ (conj _ (conj _ (conj HD (conj _ (conj _ (conj _ (conj _ (conj _ (conj N I))))))))))).
  - unfold r1, r2. lra.
  - unfold r1. lra.
  - intros h D Z. assert (h = 403/536) by lra. subst h. unfold Delta in D. lra.
  - rewrite HS. lra.
  - rewrite HS. unfold wr. pose proof (sqrt_lt_R0 _ R2). lra.
  - rewrite HS. unfold wth. pose proof (sqrt_lt_R0 (5/3)). lra.
  - unfold r_settled. split; intros A; exfalso; apply Rabs_lt_between in A; unfold r1, r2 in A; lra.
  - intros z [Bz Z] A. exfalso. apply Rabs_lt_between in A.
    assert (Cz : cos z ^ 2 <= 1/100).
    { pose proof PI_RGT_0. assert (CA : Rabs (cos z) <= 1/10000).
      { replace z with (PI / 2 - (PI / 2 - z)) by ring. rewrite cos_shift.
        assert (SL : forall y, Rabs y <= 1/10000 -> Rabs (sin y) <= 1/10000).
        { intros y Hy. destruct (Rle_dec 0 y) as [G|G].
          - rewrite (Rabs_pos_eq y G) in Hy. destruct (Req_dec y 0) as [->|Ny]; [rewrite sin_0, Rabs_R0; lra|].
            pose proof PI_4. pose proof PI2_1. assert (0 < sin y) by (apply sin_gt_0; lra).
            rewrite Rabs_pos_eq by lra. pose proof (sin_lt_x y). lra.
          - rewrite (Rabs_left1 y) in Hy by lra. pose proof PI2_1. assert (0 < sin (- y)) by (apply sin_gt_0; lra).
            pose proof (sin_lt_x (- y)). rewrite sin_neg in *. rewrite Rabs_left by lra. lra. }
        apply SL. apply Rabs_le. lra. }
      apply Rabs_le_between in CA. clear - CA. nra. }
    unfold polar_potential in Z. assert (S2 : 99/100 <= sin z ^ 2) by (pose proof (sin2_cos2 z) as K; rewrite !Rsqr_pow2 in K; lra).
    assert (QZ : cos z ^ 2 * ((1/2)^2 * (1 - (67/72)^2) + (403/144)^2 / sin z ^ 2) <= 1/100 * (1/4 + 8)).
    { apply Rmult_le_compat; [apply pow2_ge_0 | | exact Cz |].
      - assert (0 <= (403/144)^2 / sin z ^ 2) by (apply Rdiv_le_0_compat; lra). lra.
      - assert ((403/144)^2 / sin z ^ 2 <= 8) by (apply Rle_div_l; lra). lra. }
    lra.
Qed.
