(** * C60, C61: the four-velocity of a plunge is its derivative; restarting a plunge continues it *)
From Coq Require Import Reals Lra Lia ZArith String List.
From Coquelicot Require Import Coquelicot.
From Verif Require Import Num Outcome External Checked ExternalSpec.
From Verif Require Import Model_Units Model_Constants Model_Frequencies Model_Spacetime Model_InitialConditions Model_Stable Model_Plunge Model_Orbit.
From Verif Require Import Spec SpecElliptic Elliptic Props_Elliptic Props_Constants P_Spacetime Props_Spacetime Props_Orbit.
From Verif Require Import P_Radial P_Polar P_Traj P_Plunge P_Plunge2 P_Plunge3 P_Phases Props_Trajectory Props_Trajectory2 Props_Plunge Props_Plunge2 Props_Plunge3 Props_PlungePhases.
Import ListNotations.
Open Scope R_scope.

Lemma same_angle x y : cos x = cos y -> sin x = sin y -> exists k, x = y + IZR k * (2 * PI).
Proof.
  intros C S. assert (K : sin ((x - y) / 2) = 0).
  { assert (Q : cos (x - y) = 1) by (rewrite cos_minus, C, S; pose proof (sin2_cos2 y) as K; unfold Rsqr in K; lra).
    replace (x - y) with (2 * ((x - y) / 2)) in Q by field. rewrite cos_2a_sin in Q.
    assert (Z : sin ((x - y) / 2) * sin ((x - y) / 2) = 0) by lra. apply Rmult_integral in Z. tauto. }
  apply sin_eq_0_0 in K as [k K]. exists k. lra.
Qed.

Section Signs.
Context {X : External R} (HX : special_spec X).
Section R.
Context (r1 r2 u v : R) (Hr : r1 <= r2) (Hv : 0 < v).
Local Notation m := (pk2 r1 r2 u v).
Local Notation K := (ellK m).
Local Notation X' := (xi (X := X) r1 r2 u v).
Lemma KP : 0 < K. Proof. apply ellK_pos, pk2_bounds; assumption. Qed.
Lemma xi_shift q k : X' (q + IZR k * PI) = X' q + IZR k * PI.
Proof. pose proof PI_RGT_0. unfold xi. rewrite <- (amX_shift HX) by now apply pk2_bounds. f_equal. field. lra. Qed.
Lemma xi_0 : X' 0 = 0.
Proof. unfold xi. rewrite Rmult_0_r, Rplus_0_l. apply (amX_0 HX), pk2_bounds; assumption. Qed.
Lemma xi_le q q' : q <= q' -> X' q <= X' q'.
Proof.
  intros H. unfold xi. apply (amX_le HX); [now apply pk2_bounds|]. pose proof KP. pose proof PI_RGT_0.
  assert (0 < 2 * K / PI) by (apply Rdiv_lt_0_compat; lra). apply Rplus_le_compat_r, Rmult_le_compat_l; lra.
Qed.
Lemma xi_inj q q' : X' q = X' q' -> q = q'.
Proof.
  intros H. pose proof KP. pose proof PI_RGT_0. pose proof (pk2_bounds r1 r2 u v Hr Hv) as Km. unfold xi in H.
  apply (f_equal (fun y => ellF y m)) in H. rewrite !(proj1 (amX_spec HX m _ Km)) in H.
  apply Rmult_eq_reg_l with (2 * K / PI); [lra|]. apply Rgt_not_eq, Rdiv_lt_0_compat; lra.
Qed.
Lemma xi_sign q : (0 <= sin q -> 0 <= sin (X' q)) /\ (sin q < 0 -> sin (X' q) <= 0).
Proof.
  pose proof PI_RGT_0. destruct (reduce_phase (2 * PI) q ltac:(lra)) as (q0 & k & -> & B).
  rewrite sin_red. replace (q0 + IZR k * (2 * PI)) with (q0 + IZR (2 * k) * PI) by (rewrite mult_IZR; ring).
  rewrite xi_shift, mult_IZR. replace (2 * IZR k * PI) with (IZR k * (2 * PI)) by ring. rewrite sin_red.
  pose proof xi_0 as Z. assert (XP : X' PI = PI) by (replace PI with (0 + 1 * PI) at 1 by ring; rewrite (xi_shift 0 1), Z; ring).
  assert (X2 : X' (2 * PI) = 2 * PI) by (replace (2 * PI) with (0 + 2 * PI) at 1 by ring; rewrite (xi_shift 0 2), Z; ring).
  destruct (half_turn q0 B) as [H1 H2]. split; intros S.
  - specialize (H1 S). pose proof (xi_le 0 q0 (proj1 B)). pose proof (xi_le q0 PI H1). apply sin_ge_0; lra.
  - specialize (H2 S). pose proof (xi_le PI q0 ltac:(lra)). pose proof (xi_le q0 (2 * PI) ltac:(lra)). apply sin_le_0; lra.
Qed.
(** the radial velocity is a positive multiple of sin(xi) *)
Definition rc (c : R) : R := 2 * K / PI * sqrt (1 - m * (1 - c^2)) * (2 * pA r2 u v * pB r1 u v * (r2 - r1)) / pden r1 r2 u v c ^ 2.
Lemma pr'_form q : pr' r1 r2 u v (2 * K / PI) X' q = rc (cos (X' q)) * sin (X' q).
Proof.
  pose proof PI_RGT_0. pose proof (pden_pos r1 r2 u v Hv (cos (X' q)) (COS_bound _)) as Pd.
  unfold pr', rc, dl. replace (1 - cos (X' q) ^ 2) with (sin (X' q) ^ 2) by (rewrite cos2_sin2; ring).
  field. split; lra.
Qed.
Lemma rc_arg c : -1 <= c <= 1 -> 0 < 1 - m * (1 - c^2).
Proof. intros H. pose proof (pk2_bounds r1 r2 u v Hr Hv). nra. Qed.
Lemma rc_nonneg c : -1 <= c <= 1 -> 0 <= rc c.
Proof.
  intros H. pose proof PI_RGT_0. pose proof KP. pose proof (pden_pos r1 r2 u v Hv c H) as Pd. pose proof (pA_pos r2 u v Hv). pose proof (pB_pos r1 u v Hv).
  unfold rc. apply Rdiv_le_0_compat; [|apply pow_lt; exact Pd].
  apply Rmult_le_pos; [apply Rmult_le_pos; [apply Rdiv_le_0_compat; lra | apply sqrt_pos] | repeat apply Rmult_le_pos; lra].
Qed.
Lemma rc_pos c : r1 < r2 -> -1 <= c <= 1 -> 0 < rc c.
Proof.
  intros H' H. pose proof PI_RGT_0. pose proof KP. pose proof (pden_pos r1 r2 u v Hv c H) as Pd. pose proof (pA_pos r2 u v Hv). pose proof (pB_pos r1 u v Hv).
  unfold rc. apply Rdiv_lt_0_compat; [|apply pow_lt; exact Pd].
  apply Rmult_lt_0_compat; [apply Rmult_lt_0_compat; [apply Rdiv_lt_0_compat; lra | apply sqrt_lt_R0, rc_arg, H] | repeat apply Rmult_lt_0_compat; lra].
Qed.
Lemma prx_inj c c' : r1 < r2 -> -1 <= c <= 1 -> -1 <= c' <= 1 -> prx r1 r2 u v c = prx r1 r2 u v c' -> c = c'.
Proof.
  intros H' H1 H2 H. pose proof (pden_pos r1 r2 u v Hv c H1) as P1. pose proof (pden_pos r1 r2 u v Hv c' H2) as P2.
  pose proof (pA_pos r2 u v Hv) as PA. pose proof (pB_pos r1 u v Hv) as PB. unfold prx in H.
  assert (G : (pA r2 u v * r1 * (1 + c) + pB r1 u v * r2 * (1 - c)) * pden r1 r2 u v c' = (pA r2 u v * r1 * (1 + c') + pB r1 u v * r2 * (1 - c')) * pden r1 r2 u v c).
  { apply (f_equal (fun y => y * (pden r1 r2 u v c * pden r1 r2 u v c'))) in H. field_simplify in H; [|lra|lra]. lra. }
  unfold pden in G. set (A := pA r2 u v) in *. set (B := pB r1 u v) in *. clearbody A B.
  assert (Z : (2 * A * B * (r2 - r1)) * (c - c') = 0) by lra. apply Rmult_integral in Z as [Z|Z]; [|lra].
  exfalso. assert (0 < 2 * A * B * (r2 - r1)) by (repeat apply Rmult_lt_0_compat; lra). lra.
Qed.
Lemma radial_state q q' : r1 < r2 -> pr r1 r2 u v X' q = pr r1 r2 u v X' q' ->
  pr' r1 r2 u v (2 * K / PI) X' q = pr' r1 r2 u v (2 * K / PI) X' q' -> exists k, q = q' + IZR k * (2 * PI).
Proof.
  intros H' H1 H2. unfold pr in H1. apply prx_inj in H1; try apply COS_bound; [|exact H'].
  rewrite !pr'_form, H1 in H2. pose proof (rc_pos (cos (X' q')) H' (COS_bound _)) as P.
  apply Rmult_eq_reg_l in H2; [|lra]. destruct (same_angle _ _ H1 H2) as [k Hk]. exists k.
  replace (IZR k * (2 * PI)) with (IZR (2 * k) * PI) in * by (rewrite mult_IZR; ring).
  rewrite <- xi_shift in Hk. now apply xi_inj in Hk.
Qed.
Lemma pr_shift q k : pr r1 r2 u v X' (q + IZR k * (2 * PI)) = pr r1 r2 u v X' q.
Proof.
  unfold pr. replace (q + IZR k * (2 * PI)) with (q + IZR (2 * k) * PI) by (rewrite mult_IZR; ring).
  rewrite xi_shift, mult_IZR. replace (2 * IZR k * PI) with (IZR k * (2 * PI)) by ring. now rewrite cos_red.
Qed.
End R.
Section P.
Context (a E L Q : R) (Ha : a <> 0) (HE : E^2 < 1) (HL : L <> 0) (HQ : 0 <= Q).
Local Notation zm := (pzm a E L Q).
Local Notation m := (kt2 (a^2 * (1 - E^2)) zm (pbeta a E L Q)).
Local Notation K := (ellK m).
Local Notation P' := (psi_p (X := X) a E L Q).
Lemma Hm' : 0 <= m < 1. Proof. now apply pHm. Qed.
Lemma KP' : 0 < K. Proof. apply ellK_pos, Hm'. Qed.
Lemma psi_shift q k : P' (q + IZR k * PI) = P' q + IZR k * PI.
Proof. pose proof PI_RGT_0. unfold psi_p. rewrite <- (amX_shift HX) by exact Hm'. f_equal. field. lra. Qed.
Lemma psi_0 : P' 0 = 0.
Proof. unfold psi_p. rewrite Rmult_0_r, Rplus_0_l. apply (amX_0 HX), Hm'. Qed.
Lemma psi_half : P' (PI / 2) = PI / 2.
Proof. pose proof PI_RGT_0. unfold psi_p. etransitivity; [|exact (amX_K HX _ Hm')]. f_equal. field. lra. Qed.
Lemma psi_le q q' : q <= q' -> P' q <= P' q'.
Proof.
  intros H. unfold psi_p. apply (amX_le HX); [exact Hm'|]. pose proof KP'. pose proof PI_RGT_0.
  assert (0 < 2 * K / PI) by (apply Rdiv_lt_0_compat; lra). apply Rplus_le_compat_r, Rmult_le_compat_l; lra.
Qed.
Lemma psi_inj q q' : P' q = P' q' -> q = q'.
Proof.
  intros H. pose proof KP'. pose proof PI_RGT_0. unfold psi_p in H.
  apply (f_equal (fun y => ellF y m)) in H. rewrite !(proj1 (amX_spec HX m _ Hm')) in H.
  apply Rmult_eq_reg_l with (2 * K / PI); [lra|]. apply Rgt_not_eq, Rdiv_lt_0_compat; lra.
Qed.
Lemma psi_sign q : (0 <= sin q -> cos (P' (q + PI / 2)) <= 0) /\ (sin q < 0 -> 0 <= cos (P' (q + PI / 2))).
Proof.
  pose proof PI_RGT_0. destruct (reduce_phase (2 * PI) q ltac:(lra)) as (q0 & k & -> & B).
  rewrite sin_red. replace (q0 + IZR k * (2 * PI) + PI / 2) with (q0 + PI / 2 + IZR (2 * k) * PI) by (rewrite mult_IZR; ring).
  rewrite psi_shift, mult_IZR. replace (2 * IZR k * PI) with (IZR k * (2 * PI)) by ring. rewrite cos_red.
  pose proof psi_half as Z.
  assert (X1 : P' (3 * (PI / 2)) = 3 * (PI / 2)) by (replace (3 * (PI / 2)) with (PI / 2 + 1 * PI) at 1 by field; rewrite (psi_shift (PI / 2) 1), Z; field).
  assert (X2 : P' (5 * (PI / 2)) = 5 * (PI / 2)) by (replace (5 * (PI / 2)) with (PI / 2 + 2 * PI) at 1 by field; rewrite (psi_shift (PI / 2) 2), Z; field).
  destruct (half_turn q0 B) as [H1 H2]. split; intros S.
  - specialize (H1 S). pose proof (psi_le (PI / 2) (q0 + PI / 2) ltac:(lra)). pose proof (psi_le (q0 + PI / 2) (3 * (PI / 2)) ltac:(lra)). apply cos_le_0; lra.
  - specialize (H2 S). pose proof (psi_le (3 * (PI / 2)) (q0 + PI / 2) ltac:(lra)). pose proof (psi_le (q0 + PI / 2) (5 * (PI / 2)) ltac:(lra)).
    replace (P' (q0 + PI / 2)) with (P' (q0 + PI / 2) - 2 * PI + 1 * (2 * PI)) by ring. rewrite (cos_red _ 1). apply cos_ge_0; lra.
Qed.
Definition tc (s : R) : R := sqrt zm * (2 * K / PI * sqrt (1 - m * s^2)) / sqrt (1 - zm * s^2).
Lemma th'_form q : P_Polar.th' (a^2 * (1 - E^2)) zm (pbeta a E L Q) (2 * K / PI) P' q = tc (sin (P' q)) * - cos (P' q).
Proof.
  pose proof PI_RGT_0. pose proof (pHz a E L Q Ha HE HL HQ) as Hz. pose proof (sin_th_pos zm Hz P' q) as ST.
  assert (SE : sqrt (1 - zm * sin (P' q) ^ 2) = sin (th zm P' q)).
  { rewrite <- (cth_sq zm Hz P' q), <- (sin_th_sq zm Hz P' q). apply sqrt_pow2. lra. }
  unfold P_Polar.th', tc, dl. rewrite SE. field. split; lra.
Qed.
Lemma ta_arg s : s^2 <= 1 -> 0 < 1 - m * s^2 /\ 0 < 1 - zm * s^2.
Proof. intros H. pose proof Hm'. pose proof (pHz a E L Q Ha HE HL HQ). pose proof (pow2_ge_0 s). split; nra. Qed.
Lemma tc_nonneg s : s^2 <= 1 -> 0 <= tc s.
Proof.
  intros H. destruct (ta_arg s H) as [A1 A2]. pose proof PI_RGT_0. pose proof KP'. unfold tc. apply Rdiv_le_0_compat; [|apply sqrt_lt_R0, A2].
  apply Rmult_le_pos; [apply sqrt_pos|]. apply Rmult_le_pos; [apply Rdiv_le_0_compat; lra | apply sqrt_pos].
Qed.
Lemma tc_pos s : 0 < Q -> s^2 <= 1 -> 0 < tc s.
Proof.
  intros HQ' H. destruct (ta_arg s H) as [A1 A2]. pose proof PI_RGT_0. pose proof KP'. unfold tc. apply Rdiv_lt_0_compat; [|apply sqrt_lt_R0, A2].
  apply Rmult_lt_0_compat; [apply sqrt_lt_R0; now apply pzm_pos|]. apply Rmult_lt_0_compat; [apply Rdiv_lt_0_compat; lra | now apply sqrt_lt_R0].
Qed.
Lemma polar_state q q' : 0 < Q -> th zm P' q = th zm P' q' ->
  P_Polar.th' (a^2 * (1 - E^2)) zm (pbeta a E L Q) (2 * K / PI) P' q = P_Polar.th' (a^2 * (1 - E^2)) zm (pbeta a E L Q) (2 * K / PI) P' q' ->
  exists k, q = q' + IZR k * (2 * PI).
Proof.
  intros HQ' H1 H2. pose proof (pHz a E L Q Ha HE HL HQ) as Hz. apply (f_equal cos) in H1. rewrite !cos_th in H1 by exact Hz.
  unfold cth in H1. pose proof (sqrt_lt_R0 _ (pzm_pos a E L Q Ha HE HL HQ')) as SZ. apply Rmult_eq_reg_l in H1; [|lra].
  rewrite !th'_form, H1 in H2. pose proof (tc_pos (sin (P' q')) HQ' (proj2 (sin2_bound _))) as Pt. apply Rmult_eq_reg_l in H2; [|lra].
  destruct (same_angle (P' q) (P' q') ltac:(lra) H1) as [k Hk]. exists k.
  replace (IZR k * (2 * PI)) with (IZR (2 * k) * PI) in * by (rewrite mult_IZR; ring).
  rewrite <- psi_shift in Hk. now apply psi_inj in Hk.
Qed.
Lemma th_pshift q k : th zm P' (q + IZR k * (2 * PI)) = th zm P' q.
Proof.
  unfold th, cth. replace (q + IZR k * (2 * PI)) with (q + IZR (2 * k) * PI) by (rewrite mult_IZR; ring).
  rewrite psi_shift, mult_IZR. replace (2 * IZR k * PI) with (IZR k * (2 * PI)) by ring. now rewrite sin_red.
Qed.
End P.
End Signs.

Section Plunge.
Context {X : External R} (HP : polyroots_spec X) (HX : special_spec X).
Context (a E L Q : R) (Ha : a <> 0) (HE : E^2 < 1) (HL : L <> 0) (HQ : 0 <= Q).

Lemma plr_signed r1 r2 u v (Hr : r1 <= r2) (Hv : 0 < v) qr l :
  is_derive (plr (X := X) E r1 r2 u v qr) l (pur r1 r2 u v E * pr' r1 r2 u v (2 * ellK (pk2 r1 r2 u v) / PI) (xi (X := X) r1 r2 u v) (pur r1 r2 u v E * l + qr)).
Proof.
  unfold plr. apply (is_derive_comp (pr r1 r2 u v (xi r1 r2 u v)) (fun l => pur r1 r2 u v E * l + qr)).
  - apply (pr_derive r1 r2 u v Hv _ _ (xi_derive HX r1 r2 u v Hr Hv)).
  - auto_derive; [trivial|ring].
Qed.
Lemma plth_signed qth l :
  is_derive (plth (X := X) a E L Q qth) l (put a E L Q * P_Polar.th' (a^2 * (1 - E^2)) (pzm a E L Q) (pbeta a E L Q)
    (2 * ellK (kt2 (a^2 * (1 - E^2)) (pzm a E L Q) (pbeta a E L Q)) / PI) (psi_p (X := X) a E L Q) (put a E L Q * l + (qth + PI / 2))).
Proof.
  unfold plth. apply (is_derive_comp (th (pzm a E L Q) (psi_p a E L Q)) (fun l => put a E L Q * l + (qth + PI / 2))).
  - apply (th_derive _ _ _ (pHz a E L Q Ha HE HL HQ) _ _ (psi_p_derive HX a E L Q Ha HE HL HQ)).
  - auto_derive; [trivial|ring].
Qed.

(** ** C60: the four component functions returned by four_velocity, along a plunging trajectory *)
Theorem C60_four_velocity_is_derivative r1 r2 qt qr qth qph r theta ur ut T1 T2 T3 T4 :
  complex_plunge a E L Q r1 r2 ->
  plunge_run a E L Q qt qr qth qph = Ret (T1, T2, T3, T4) ->
  coordinates (plunge_run a E L Q qt qr qth qph) r theta ->
  plunging_mino_frequencies (Some a) (Some E) (Some L) (Some Q) = Ret (Some ur, Some ut) ->
  let '(u_t, u_r, u_theta, u_phi) :=
    four_velocity (Some a) T2 T3 (Some E, Some L, Some Q) (Some ur) (Some ut) (Some qt, Some qr, Some qth, Some qph) in
  forall l, Delta a (r l) <> 0 -> Sigma a (r l) (theta l) <> 0 ->
  exists vt vr vth vph,
    u_t (Some l) = Ret (Some vt) /\ u_r (Some l) = Ret (Some vr) /\
    u_theta (Some l) = Ret (Some vth) /\ u_phi (Some l) = Ret (Some vph) /\
    is_derive r l (Sigma a (r l) (theta l) * vr) /\ is_derive theta l (Sigma a (r l) (theta l) * vth) /\
    Sigma a (r l) (theta l) * vt = dt_dlambda a E L (r l) (theta l) /\
    Sigma a (r l) (theta l) * vph = dphi_dlambda a E L (r l) (theta l) /\
    forall t phi, norm (Some a) (Some t) (Some (r l)) (Some (theta l)) (Some phi) (Some vt, Some vr, Some vth, Some vph) = Some (-1).
Proof.
  intros C HT H F.
  destruct (complex_plunge_inv HP a E L Q r1 r2 C) as (u & v & Hr & Hv & HR & HF).
  pose proof (coordinates_are HX a E L Q Ha HE HL HQ r1 r2 u v qt qr qth qph r theta Hr Hv HR H) as Eq.
  rewrite (freq_run HX a E L Q Ha HE HL HQ r1 r2 u v Hr Hv HR) in F. apply Ret_inj in F. apply pair_equal_spec in F as [F1 F2].
  assert (ur = pur r1 r2 u v E) as -> by congruence. assert (ut = put a E L Q) as -> by congruence. clear F1 F2.
  destruct H as (U1 & U2 & U3 & U4 & EqU & HU). rewrite HT in EqU.
  apply Ret_inj in EqU. apply pair_equal_spec in EqU as [EqU ->]. apply pair_equal_spec in EqU as [EqU ->]. apply pair_equal_spec in EqU as [-> ->].
  destruct (four_velocity (Some a) U2 U3 (Some E, Some L, Some Q) (Some (pur r1 r2 u v E)) (Some (put a E L Q)) (Some qt, Some qr, Some qth, Some qph))
    as [[[u_t u_r] u_theta] u_phi] eqn:V.
  intros l HD HS. destruct (HU l) as (E2 & E3). destruct (Eq l) as [Rl Tl].
  destruct (plr_derive HX a E L Q HE r1 r2 u v Hr Hv HF qr l) as (d1 & D1 & O1).
  destruct (plth_derive HX a E L Q Ha HE HL HQ qth l) as (d2 & D2 & O2).
  rewrite <- Rl in O1. rewrite <- Tl in O2.
  assert (Sn : 0 < sin (theta l)). { rewrite Tl. apply sin_th_pos, pHz; assumption. }
  assert (P1 : 0 <= radial_potential a E L Q (r l)) by (rewrite <- O1; apply pow2_ge_0).
  assert (P2 : 0 <= polar_potential a E L Q (theta l)) by (rewrite <- O2; apply pow2_ge_0).
  assert (Sn' : sin (theta l) <> 0) by lra.
  pose proof (C01_four_velocity_geodesic_equations a U2 U3 E L Q (pur r1 r2 u v E) (put a E L Q) qt qr qth qph l (r l) (theta l) E2 E3 HS HD Sn' P1 P2) as G.
  rewrite V in G. destruct G as (vt & vr & vth & vph & V1 & V2 & V3 & V4 & G1 & G2 & G3 & G4 & S1 & S2 & S3 & S4).
  exists vt, vr, vth, vph. refine (conj V1 (conj V2 (conj V3 (conj V4 (conj _ (conj _ (conj G1 (conj G2 _)))))))).
  - pose proof (plr_signed r1 r2 u v Hr Hv qr l) as D.
    set (q := pur r1 r2 u v E * l + qr) in *. set (d := pur r1 r2 u v E * pr' r1 r2 u v (2 * ellK (pk2 r1 r2 u v) / PI) (xi (X := X) r1 r2 u v) q) in *.
    replace (Sigma a (r l) (theta l) * vr) with d.
    { eapply is_derive_ext; [|exact D]. intros s. symmetry. apply Eq. }
    assert (d = d1) as Ed. { rewrite <- (is_derive_unique _ _ _ D). now apply is_derive_unique. }
    pose proof (pur_pos r1 r2 u v Hr Hv E HE) as U. destruct (xi_sign HX r1 r2 u v Hr Hv q) as [X1 X2].
    pose proof (rc_nonneg r1 r2 u v Hr Hv (cos (xi (X := X) r1 r2 u v q)) (COS_bound _)) as RC.
    apply (signed_eq _ _ (sin q)); [rewrite Ed; lra | | | exact S1 | exact S2]; intros S; unfold d; rewrite (pr'_form r1 r2 u v Hv).
    + apply Rmult_le_pos; [lra|]. apply Rmult_le_pos; auto.
    + apply mul_np; [lra|]. apply mul_np; auto.
  - pose proof (plth_signed qth l) as D.
    set (q := put a E L Q * l + qth) in *. replace (put a E L Q * l + (qth + PI / 2)) with (q + PI / 2) in D by (unfold q; ring).
    match type of D with is_derive _ _ ?x => set (d := x) in * end.
    replace (Sigma a (r l) (theta l) * vth) with d.
    { eapply is_derive_ext; [|exact D]. intros s. symmetry. apply Eq. }
    assert (d = d2) as Ed. { rewrite <- (is_derive_unique _ _ _ D). now apply is_derive_unique. }
    pose proof (put_pos a E L Q Ha HE HL HQ) as U. destruct (psi_sign HX a E L Q Ha HE HL HQ q) as [X1 X2].
    pose proof (tc_nonneg a E L Q Ha HE HL HQ (sin (psi_p (X := X) a E L Q (q + PI / 2))) (proj2 (sin2_bound _))) as TC.
    apply (signed_eq _ _ (sin q)); [rewrite Ed; lra | | | exact (S3 Sn) | exact (S4 Sn)]; intros S; unfold d; rewrite (th'_form a E L Q Ha HE HL HQ).
    + apply Rmult_le_pos; [lra|]. apply Rmult_le_pos; [assumption|]. specialize (X1 S). lra.
    + apply mul_np; [lra|]. apply mul_np; [assumption|]. specialize (X2 S). lra.
  - intros t phi. pose proof (C01_four_velocity_normalised a U2 U3 E L Q (pur r1 r2 u v E) (put a E L Q) qt qr qth qph l (r l) (theta l) t phi E2 E3 HS HD Sn' P1 P2) as N.
    rewrite V in N. destruct N as (vt' & vr' & vth' & vph' & V1' & V2' & V3' & V4' & N).
    assert (vt' = vt /\ vr' = vr /\ vth' = vth /\ vph' = vph) as (-> & -> & -> & ->) by (repeat split; congruence). exact N.
Qed.

(** ** C61: an Orbit built from the position and four-velocity of a plunge at any Mino time
    off the horizons continues the radial and polar motion of that plunge *)
Theorem C61_plunge_restart r1 r2 qt qr qth qph r theta ur ut T1 T2 T3 T4 :
  a^2 < 1 -> 0 < Q ->
  complex_plunge a E L Q r1 r2 ->
  plunge_run a E L Q qt qr qth qph = Ret (T1, T2, T3, T4) ->
  coordinates (plunge_run a E L Q qt qr qth qph) r theta ->
  plunging_mino_frequencies (Some a) (Some E) (Some L) (Some Q) = Ret (Some ur, Some ut) ->
  let '(u_t, u_r, u_theta, u_phi) :=
    four_velocity (Some a) T2 T3 (Some E, Some L, Some Q) (Some ur) (Some ut) (Some qt, Some qr, Some qth, Some qph) in
  forall l t phi M mu vt vr vth vph, Delta a (r l) <> 0 -> Sigma a (r l) (theta l) <> 0 ->
  u_t (Some l) = Ret vt -> u_r (Some l) = Ret vr -> u_theta (Some l) = Ret vth -> u_phi (Some l) = Ret vph ->
  exists o,
  Orbit_init (Some a) (Some t, Some (r l), Some (theta l), Some phi) (vt, vr, vth, vph) M mu = Ret o /\
  o_E o = Some E /\ o_L o = Some L /\ o_Q o = Some Q /\
  coordinates (Orbit_trajectory o None "natural" "natural") (fun s => r (l + s)) (fun s => theta (l + s)).
Proof.
  intros Ha1 HQ' C HT H F.
  pose proof (C60_four_velocity_is_derivative r1 r2 qt qr qth qph r theta ur ut T1 T2 T3 T4 C HT H F) as V.
  destruct (complex_plunge_inv HP a E L Q r1 r2 C) as (u & v & Hr & Hv & HR & HF).
  pose proof (coordinates_are HX a E L Q Ha HE HL HQ r1 r2 u v qt qr qth qph r theta Hr Hv HR H) as Eq.
  pose proof F as F0.
  rewrite (freq_run HX a E L Q Ha HE HL HQ r1 r2 u v Hr Hv HR) in F0. apply Ret_inj in F0. apply pair_equal_spec in F0 as [F1 F2].
  assert (ur = pur r1 r2 u v E) as Eu by congruence. assert (ut = put a E L Q) as Et by congruence. clear F1 F2.
  destruct H as (U1 & U2 & U3 & U4 & EqU & HU). rewrite HT in EqU.
  apply Ret_inj in EqU. apply pair_equal_spec in EqU as [EqU ->]. apply pair_equal_spec in EqU as [EqU ->]. apply pair_equal_spec in EqU as [-> ->].
  assert (CR : forall l t phi, Sigma a (r l) (theta l) <> 0 -> Delta a (r l) <> 0 -> sin (theta l) <> 0 ->
     0 <= radial_potential a E L Q (r l) -> 0 <= polar_potential a E L Q (theta l) ->
     let '(u_t, u_r, u_theta, u_phi) :=
    four_velocity (Some a) U2 U3 (Some E, Some L, Some Q) (Some ur) (Some ut) (Some qt, Some qr, Some qth, Some qph) in
      forall vt vr vth vph,
    u_t (Some l) = Ret vt -> u_r (Some l) = Ret vr ->
    u_theta (Some l) = Ret vth -> u_phi (Some l) = Ret vph ->
    constants_from_initial_conditions (Some a) (Some t, Some (r l), Some (theta l), Some phi)
      (vt, vr, vth, vph) = Ret (Some E, Some L, Some Q)).
  { intros l t phi. destruct (HU l) as (E2 & E3). now apply C04_constants_roundtrip. }
  destruct (four_velocity (Some a) U2 U3 (Some E, Some L, Some Q) (Some ur) (Some ut) (Some qt, Some qr, Some qth, Some qph))
    as [[[u_t u_r] u_theta] u_phi].
  intros l t phi M mu vt' vr' vth' vph' HD HS K1 K2 K3 K4. destruct (Eq l) as [Rl Tl].
  destruct (plr_derive HX a E L Q HE r1 r2 u v Hr Hv HF qr l) as (d1 & D1 & O1).
  destruct (plth_derive HX a E L Q Ha HE HL HQ qth l) as (d2 & D2 & O2).
  rewrite <- Rl in O1. rewrite <- Tl in O2.
  assert (Sn : 0 < sin (theta l)). { rewrite Tl. apply sin_th_pos, pHz; assumption. }
  assert (P1 : 0 <= radial_potential a E L Q (r l)) by (rewrite <- O1; apply pow2_ge_0).
  assert (P2 : 0 <= polar_potential a E L Q (theta l)) by (rewrite <- O2; apply pow2_ge_0).
  pose proof (CR l t phi HS HD (Rgt_not_eq _ _ Sn) P1 P2 vt' vr' vth' vph' K1 K2 K3 K4) as HI.
  destruct (V l HD HS) as (vt & vr & vth & vph & V1 & V2 & V3 & V4 & W2 & W3 & _ & _ & NM).
  rewrite V1 in K1. rewrite V2 in K2. rewrite V3 in K3. rewrite V4 in K4.
  apply Ret_inj in K1, K2, K3, K4. subst vt' vr' vth' vph'.
  assert (HN : kerr_line_element a (r l) (theta l) vt vr vth vph = -1).
  { specialize (NM t phi). rewrite C02_norm_is_kerr_line_element in NM by assumption. congruence. }
  assert (Ht : 0 < theta l < PI).
  { pose proof (acos_bound (cth (pzm a E L Q) (psi_p (X := X) a E L Q) (put a E L Q * l + (qth + PI / 2)))) as B.
    fold (th (pzm a E L Q) (psi_p (X := X) a E L Q) (put a E L Q * l + (qth + PI / 2))) in B. fold (plth (X := X) a E L Q qth l) in B. rewrite <- Tl in B.
    set (y := theta l) in *. clearbody y. clear - B Sn.
    split; apply Rnot_le_lt; intros G.
    + replace y with 0 in Sn by lra. rewrite sin_0 in Sn. lra.
    + replace y with PI in Sn by lra. rewrite sin_PI in Sn. lra. }
  destruct (C59_orbit_reproduces_initial_conditions HP HX a E L Q r1 r2 t (r l) (theta l) phi vt vr vth vph M mu Ha Ha1 HE HL HQ' C Ht HD HS HN HI)
    as (o & HO & _ & _ & _ & OE & OL & OQ & _ & qr' & qth' & _ & OT & r' & theta' & CC & R0 & T0 & DR & DT).
  exists o. refine (conj HO (conj OE (conj OL (conj OQ _)))). rewrite OT in *.
  pose proof (coordinates_are HX a E L Q Ha HE HL HQ r1 r2 u v t qr' qth' phi r' theta' Hr Hv HR CC) as Eq'.
  destruct (p_radial a E L Q r1 r2 t (r l) (theta l) phi vt vr vth vph Ha1 HE Ht HD HS HN HI u v Hv Hr HF) as [Hr' _].
  destruct (radial_state HX r1 r2 u v Hr Hv (pur r1 r2 u v E * l + qr) qr' Hr') as [k Hk].
  { fold (plr (X := X) E r1 r2 u v qr l). rewrite <- Rl, <- R0. destruct (Eq' 0) as [-> _]. unfold plr. f_equal. ring. }
  { pose proof (pur_pos r1 r2 u v Hr Hv E HE) as U. apply Rmult_eq_reg_l with (pur r1 r2 u v E); [|lra].
    transitivity (Sigma a (r l) (theta l) * vr).
    - rewrite <- (is_derive_unique _ _ _ W2). symmetry. apply is_derive_unique.
      eapply is_derive_ext; [|exact (plr_signed r1 r2 u v Hr Hv qr l)]. intros s. symmetry. apply Eq.
    - rewrite <- (is_derive_unique _ _ _ DR). apply is_derive_unique.
      eapply is_derive_ext; [intros s; symmetry; apply Eq'|]. pose proof (plr_signed r1 r2 u v Hr Hv qr' 0) as D.
      rewrite Rmult_0_r, Rplus_0_l in D. exact D. }
  destruct (polar_state HX a E L Q Ha HE HL HQ (put a E L Q * l + (qth + PI / 2)) (qth' + PI / 2) HQ') as [j Hj].
  { fold (plth (X := X) a E L Q qth l). rewrite <- Tl, <- T0. destruct (Eq' 0) as [_ ->]. unfold plth. f_equal. ring. }
  { pose proof (put_pos a E L Q Ha HE HL HQ) as U. apply Rmult_eq_reg_l with (put a E L Q); [|lra].
    transitivity (Sigma a (r l) (theta l) * vth).
    - rewrite <- (is_derive_unique _ _ _ W3). symmetry. apply is_derive_unique.
      eapply is_derive_ext; [|exact (plth_signed qth l)]. intros s. symmetry. apply Eq.
    - rewrite <- (is_derive_unique _ _ _ DT). apply is_derive_unique.
      eapply is_derive_ext; [intros s; symmetry; apply Eq'|]. pose proof (plth_signed qth' 0) as D.
      rewrite Rmult_0_r, Rplus_0_l in D. exact D. }
  destruct CC as (W1' & W2' & W3' & W4' & HW & HW'). exists W1', W2', W3', W4'. split; [exact HW|].
  intros s. destruct (HW' s) as [-> ->]. destruct (Eq' s) as [-> ->]. destruct (Eq (l + s)) as [-> ->]. unfold plr, plth. split; do 2 f_equal.
  - rewrite <- (pr_shift HX r1 r2 u v Hr Hv (pur r1 r2 u v E * s + qr') k). f_equal. lra.
  - rewrite <- (th_pshift HX a E L Q Ha HE HL HQ (put a E L Q * s + (qth' + PI / 2)) j). f_equal. lra.
Qed.
End Plunge.
Print Assumptions C60_four_velocity_is_derivative.
Print Assumptions C61_plunge_restart.
(** the plunge of [plunge_case], observed at its inner turning point, meets the hypotheses *)
Example C61_case {X : External R} (HP : polyroots_spec X) (HX : special_spec X) :
  exists r theta ur ut T1 T2 T3 T4,
  complex_plunge (3/5) (3/5) (2/75) (2/9) (1/8) 3 /\
  plunge_run (3/5) (3/5) (2/75) (2/9) 0 0 0 0 = Ret (T1, T2, T3, T4) /\
  coordinates (plunge_run (3/5) (3/5) (2/75) (2/9) 0 0 0 0) r theta /\
  plunging_mino_frequencies (Some (3/5)) (Some (3/5)) (Some (2/75)) (Some (2/9)) = Ret (Some ur, Some ut) /\
  r 0 = 1/8 /\ Delta (3/5) (r 0) <> 0 /\ Sigma (3/5) (r 0) (theta 0) <> 0.
Proof.
  destruct (plunge_case HP) as [C F0]. assert (Ha : 3/5 <> 0) by lra. assert (HE : (3/5)^2 < 1) by lra. assert (HL : 2/75 <> 0) by lra. assert (HQ : 0 <= 2/9) by lra.
  destruct (C39_plunges_are_defined HP HX (3/5) (3/5) (2/75) (2/9) Ha HE HL HQ (1/8) 3 0 0 0 0 C) as [(ur & ut & F & U & _) (r & theta & H)].
  destruct (C39_plunge_phases HP HX (3/5) (3/5) (2/75) (2/9) Ha HE HL HQ (1/8) 3 0 0 0 0 r theta ur ut C H F 0 0) as (Z1 & _).
  assert (R0 : r 0 = 1/8) by (apply Z1; ring).
  pose proof H as (T1 & T2 & T3 & T4 & HT & _).
  exists r, theta, ur, ut, T1, T2, T3, T4. refine (conj C (conj HT (conj H (conj F (conj R0 (conj _ _)))))); rewrite R0.
  - unfold Delta. lra.
  - unfold Sigma. pose proof (pow2_ge_0 (cos (theta 0))). apply Rgt_not_eq. nra.
Qed.
