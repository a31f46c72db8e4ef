(** * Stable trajectories, continued: deltas (C27), averages (C30), four-velocity (C51) *)
From Coq Require Import Reals Lra Lia ZArith String List.
From Coquelicot Require Import Coquelicot.
From Verif Require Import Num Outcome External Checked ExternalSpec.
From Verif Require Import Model_Constants Model_Frequencies Model_Spacetime Model_Stable Model_Orbit.
From Verif Require Import Spec SpecElliptic Elliptic P_Validation Props_Validation P_Bounds P_Constants Props_Constants.
From Verif Require Import P_Spacetime Props_Spacetime Props_Elliptic P_Radial P_Polar P_Traj P_Traj2 P_Traj3 Props_Trajectory.
Import ListNotations.
Open Scope R_scope.

(** ** periodic functions *)
Definition periodic (f : R -> R) (P : R) : Prop := forall q (k : Z), f (q + IZR k * P) = f q.
Lemma reduce_phase P q : 0 < P -> exists q0 (k : Z), q = q0 + IZR k * P /\ 0 <= q0 < P.
Proof.
  intros HP. exists (q - IZR (Int_part (q / P)) * P), (Int_part (q / P)). split; [ring|].
  destruct (base_Int_part (q / P)) as [B1 B2].
  assert (q / P * P = q) by (field; lra). split; nra.
Qed.
Lemma periodic_bounded f P : 0 < P -> periodic f P -> (forall q, continuous f q) ->
  exists C, forall q, Rabs (f q) <= C.
Proof.
  intros HP Hf Hc.
  destruct (continuity_ab_maj f 0 P) as (xM & HM & _); [lra | intros; apply continuity_pt_filterlim, Hc|].
  destruct (continuity_ab_min f 0 P) as (xm & Hm & _); [lra | intros; apply continuity_pt_filterlim, Hc|].
  exists (Rmax (f xM) (- f xm)). intros q. destruct (reduce_phase P q HP) as (q0 & k & -> & B).
  rewrite Hf. assert (0 <= q0 <= P) as B' by lra. pose proof (HM q0 B'). pose proof (Hm q0 B').
  apply Rabs_le. pose proof (Rmax_l (f xM) (- f xm)). pose proof (Rmax_r (f xM) (- f xm)). lra.
Qed.
Lemma average_limit (f : R -> R) (g C : R) : (forall l, Rabs (f l - g * l) <= C) ->
  is_lim (fun l => f l / l) p_infty g.
Proof.
  intros H. apply is_lim_spec. intros eps. assert (HC : 0 <= C) by (eapply Rle_trans; [apply Rabs_pos | apply (H 0)]).
  exists ((C + 1) / eps). intros l Hl. pose proof (cond_pos eps) as He.
  assert (Hl0 : 0 < l). { eapply Rlt_trans; [|exact Hl]. apply Rdiv_lt_0_compat; lra. }
  replace (f l / l - g) with ((f l - g * l) / l) by (field; lra).
  unfold Rdiv. rewrite Rabs_mult, Rabs_inv, (Rabs_pos_eq l) by lra.
  apply (Rmult_lt_reg_r l); [assumption|]. rewrite Rmult_assoc, Rinv_l, Rmult_1_r by lra.
  eapply Rle_lt_trans; [apply H|]. apply (Rmult_lt_compat_l eps) in Hl; [|assumption].
  replace (eps * ((C + 1) / eps)) with (C + 1) in Hl by (field; lra). lra.
Qed.

Section Deltas.
Context {X : External R} (HX : special_spec X) (HR : root_spec X).
Context (a p e x ur uth uph gam : R).
Hypothesis Ha : 0 <= a.
Hypothesis HF : mino_frequencies (Some a) (Some p) (Some e) (Some x) = Ret (Some ur, Some uth, Some uph, Some gam).
Local Notation run qt qr qth qph :=
  (stable_trajectory (Some a) (Some p) (Some e) (Some x) (Some qt, Some qr, Some qth, Some qph) None "natural" "natural").

Section F.
Context (E L Q r1 r2 r3 r4 : R) (zp : option R) (beta a2s : R).
Context (F : orbit_facts a p e x ur uth uph gam E L Q r1 r2 r3 r4 zp beta a2s).
Lemma ftr_periodic : periodic (ftr a E L r1 r2 r3 r4) (2 * PI).
Proof. destruct F. intros q k. now apply tr_shift. Qed.
Lemma fpr_periodic : periodic (fpr a E L r1 r2 r3 r4) (2 * PI).
Proof. destruct F. intros q k. now apply phr_shift. Qed.
Lemma ftt_periodic : periodic (ftt a x E L beta a2s) (2 * PI).
Proof. destruct F. intros q k. now apply tth_shift. Qed.
Lemma fpt_periodic : periodic (fpt a x E L beta) (2 * PI).
Proof. destruct F. intros q k. now apply pth_shift. Qed.
Ltac cont D := apply (ex_derive_continuous (V := R_NormedModule)); eexists; exact D.
Lemma ftr_cont q : continuous (ftr a E L r1 r2 r3 r4) q.
Proof. destruct F. cont (tr_derive HX a E L r1 r2 r3 r4 of_s of_kr of_ord of_a of_p2 of_m2 of_p3 of_m3 q). Qed.
Lemma fpr_cont q : continuous (fpr a E L r1 r2 r3 r4) q.
Proof. destruct F. cont (phr_derive HX a E L r1 r2 r3 r4 of_s of_kr of_ord of_a of_p2 of_m2 of_p3 of_m3 q). Qed.
Lemma ftt_cont q : continuous (ftt a x E L beta a2s) q.
Proof. destruct F. cont (tth_derive HX a E L (1 - x^2) beta a2s of_z of_L of_b of_kt of_HA q). Qed.
Lemma fpt_cont q : continuous (fpt a x E L beta) q.
Proof. destruct F. cont (pth_derive HX a E L (1 - x^2) beta of_z of_b of_kt q). Qed.
End F.

Ltac factsH H :=
  let F := fresh "F" in
  destruct (mino_facts HX HR a p e x ur uth uph gam Ha HF) as (?E & ?L & ?Q & r1 & r2 & r3 & r4 & zp & beta & a2s & F);
  match type of H with runs_as (run ?qt ?qr ?qth ?qph) _ _ _ _ =>
    pose proof (runs_as_unique _ _ _ _ _ _ _ _ _ H (trajectory_runs HX a p e x ur uth uph gam _ _ _ _ _ _ _ _ _ _ F qt qr qth qph HF)) as Eq end.

(** ** C27: trajectory_deltas of a stable orbit are 2 pi periodic in their phase, and the
    trajectory is the linear growth plus these deltas *)
Theorem C27_deltas_periodic (o : orbit (T := option R)) qt qr qth qph E L Q t r theta phi :
  o_a o = Some a -> o_apex o = Some (Some p, Some e, Some x) ->
  (o_E o, o_L o, o_Q o) = (Some E, Some L, Some Q) ->
  constants_of_motion (Some a) (Some p) (Some e) (Some x) = Ret (Some E, Some L, Some Q) ->
  runs_as (run qt qr qth qph) t r theta phi ->
  exists T1 T2 T3 T4 dt_r dt_th dphi_r dphi_th,
  Orbit_trajectory_deltas o (Some (Some qt, Some qr, Some qth, Some qph)) = Ret (T1, T2, T3, T4) /\
  computes T1 dt_r /\ computes T2 dt_th /\ computes T3 dphi_r /\ computes T4 dphi_th /\
  periodic dt_r (2 * PI) /\ periodic dt_th (2 * PI) /\ periodic dphi_r (2 * PI) /\ periodic dphi_th (2 * PI) /\
  forall l, t l = qt + gam * l + (dt_r (ur * l) - dt_r 0) + (dt_th (uth * l) - dt_th 0) /\
            phi l = qph + uph * l + (dphi_r (ur * l) - dphi_r 0) + (dphi_th (uth * l) - dphi_th 0).
Proof.
  intros Oa Oap Oc HC H. factsH H.
  pose proof (of_constants _ _ _ _ _ _ _ _ _ _ _ _ _ _ _ _ _ _ F) as HC'. rewrite HC in HC'.
  assert (E0 = E /\ L0 = L /\ Q0 = Q) as (-> & -> & ->) by (apply Ret_inj in HC'; repeat split; congruence). clear HC'.
  unfold Orbit_trajectory_deltas. rewrite Oap, Oc, Oa.
  rewrite (of_roots _ _ _ _ _ _ _ _ _ _ _ _ _ _ _ _ _ _ F). cbn [bind].
  rewrite (of_polar _ _ _ _ _ _ _ _ _ _ _ _ _ _ _ _ _ _ F). cbn [bind fst snd].
  unfold radial_solutions, polar_solutions, unpack2. cbn [bind].
  eexists _, _, _, _, (fun q => ftr a E L r1 r2 r3 r4 (q + qr)), (fun q => ftt a x E L beta a2s (q + qth)),
    (fun q => fpr a E L r1 r2 r3 r4 (q + qr)), (fun q => fpt a x E L beta (q + qth)).
  split; [reflexivity|].
  refine (conj _ (conj _ (conj _ (conj _ (conj _ (conj _ (conj _ (conj _ _)))))))).
  - intros q. cnum. apply (run_tr HX a p e x ur uth uph gam _ _ _ _ _ _ _ _ _ _ F).
  - intros q. cnum. apply (run_tt HX a p e x ur uth uph gam _ _ _ _ _ _ _ _ _ _ F).
  - intros q. cnum. apply (run_pr HX a p e x ur uth uph gam _ _ _ _ _ _ _ _ _ _ F).
  - intros q. cnum. apply (run_pt HX a p e x ur uth uph gam _ _ _ _ _ _ _ _ _ _ F).
  - intros q k. rewrite <- (ftr_periodic _ _ _ _ _ _ _ _ _ _ F (q + qr) k). f_equal. ring.
  - intros q k. rewrite <- (ftt_periodic _ _ _ _ _ _ _ _ _ _ F (q + qth) k). f_equal. ring.
  - intros q k. rewrite <- (fpr_periodic _ _ _ _ _ _ _ _ _ _ F (q + qr) k). f_equal. ring.
  - intros q k. rewrite <- (fpt_periodic _ _ _ _ _ _ _ _ _ _ F (q + qth) k). f_equal. ring.
  - intros l. destruct (Eq l) as (-> & _ & _ & ->). unfold st, sph. rewrite !Rplus_0_l. split; ring.
Qed.

(** ** C30 *)
Theorem C30_long_time_averages qt qr qth qph t r theta phi : runs_as (run qt qr qth qph) t r theta phi ->
  is_lim (fun l => t l / l) p_infty gam /\ is_lim (fun l => phi l / l) p_infty uph /\
  (exists C, forall l, Rabs (t l - gam * l) <= C /\ Rabs (phi l - uph * l) <= C).
Proof.
  intros H. factsH H. pose proof PI_RGT_0.
  destruct (periodic_bounded _ (2 * PI) ltac:(lra) (ftr_periodic _ _ _ _ _ _ _ _ _ _ F) (ftr_cont _ _ _ _ _ _ _ _ _ _ F)) as (C1 & B1).
  destruct (periodic_bounded _ (2 * PI) ltac:(lra) (ftt_periodic _ _ _ _ _ _ _ _ _ _ F) (ftt_cont _ _ _ _ _ _ _ _ _ _ F)) as (C2 & B2).
  destruct (periodic_bounded _ (2 * PI) ltac:(lra) (fpr_periodic _ _ _ _ _ _ _ _ _ _ F) (fpr_cont _ _ _ _ _ _ _ _ _ _ F)) as (C3 & B3).
  destruct (periodic_bounded _ (2 * PI) ltac:(lra) (fpt_periodic _ _ _ _ _ _ _ _ _ _ F) (fpt_cont _ _ _ _ _ _ _ _ _ _ F)) as (C4 & B4).
  assert (T : forall l, Rabs (t l - gam * l) <= Rabs qt + 2 * C1 + 2 * C2).
  { intros l. destruct (Eq l) as (-> & _). unfold st.
    pose proof (B1 (ur * l + qr)) as K1. pose proof (B1 qr) as K2. pose proof (B2 (uth * l + qth)) as K3. pose proof (B2 qth) as K4.
    apply Rabs_le_between in K1, K2, K3, K4. pose proof (Rle_abs qt). pose proof (Rle_abs (- qt)). rewrite Rabs_Ropp in *.
    apply Rabs_le. lra. }
  assert (P : forall l, Rabs (phi l - uph * l) <= Rabs qph + 2 * C3 + 2 * C4).
  { intros l. destruct (Eq l) as (_ & _ & _ & ->). unfold sph.
    pose proof (B3 (ur * l + qr)) as K1. pose proof (B3 qr) as K2. pose proof (B4 (uth * l + qth)) as K3. pose proof (B4 qth) as K4.
    apply Rabs_le_between in K1, K2, K3, K4. pose proof (Rle_abs qph). pose proof (Rle_abs (- qph)). rewrite Rabs_Ropp in *.
    apply Rabs_le. lra. }
  refine (conj _ (conj _ _)).
  - eapply average_limit, T.
  - eapply average_limit, P.
  - exists (Rmax (Rabs qt + 2 * C1 + 2 * C2) (Rabs qph + 2 * C3 + 2 * C4)). intros l. split.
    + eapply Rle_trans; [apply T | apply Rmax_l].
    + eapply Rle_trans; [apply P | apply Rmax_r].
Qed.
Theorem C30_common_period qt qr qth qph t r theta phi : runs_as (run qt qr qth qph) t r theta phi ->
  forall (n k : Z) P, P = IZR n * (2 * PI / ur) -> P = IZR k * (2 * PI / uth) ->
  forall l, t (l + P) - t l = gam * P /\ phi (l + P) - phi l = uph * P.
Proof.
  intros H n k P P1 P2 l. factsH H. pose proof PI_RGT_0.
  pose proof (ur_pos _ _ _ _ _ _ _ _ _ _ _ _ _ _ _ _ _ _ F) as U1. pose proof (uth_pos _ _ _ _ _ _ _ _ _ _ _ _ _ _ _ _ _ _ F) as U2.
  destruct (Eq l) as (-> & _ & _ & ->). destruct (Eq (l + P)) as (-> & _ & _ & ->). unfold st, sph.
  assert (Q1 : ur * (l + P) + qr = ur * l + qr + IZR n * (2 * PI)) by (rewrite P1; field; lra).
  assert (Q2 : uth * (l + P) + qth = uth * l + qth + IZR k * (2 * PI)) by (rewrite P2; field; lra).
  rewrite Q1, Q2, (ftr_periodic _ _ _ _ _ _ _ _ _ _ F), (ftt_periodic _ _ _ _ _ _ _ _ _ _ F),
    (fpr_periodic _ _ _ _ _ _ _ _ _ _ F), (fpt_periodic _ _ _ _ _ _ _ _ _ _ F).
  split; ring.
Qed.

(** ** C51: the analytic four-velocity is the derivative of the trajectory *)
Lemma amX_le m u v : 0 <= m < 1 -> u <= v -> amX m u <= amX m v.
Proof.
  intros Hm H. destruct (Rle_dec (amX m u) (amX m v)); [assumption|]. exfalso.
  assert (K : amX m v < amX m u) by lra. apply (ellF_lt m) in K; [|lra].
  rewrite !(proj1 (amX_spec HX m _ Hm)) in K. lra.
Qed.
Lemma sin_red q0 k : sin (q0 + IZR k * (2 * PI)) = sin q0.
Proof.
  rewrite sin_plus. replace (IZR k * (2 * PI)) with (2 * (IZR k * PI)) by ring.
  rewrite cos_2a_sin, sin_2a, (sin_eq_0_1 (IZR k * PI)) by eauto. ring.
Qed.
Lemma cos_red q0 k : cos (q0 + IZR k * (2 * PI)) = cos q0.
Proof.
  rewrite cos_plus. replace (IZR k * (2 * PI)) with (2 * (IZR k * PI)) by ring.
  rewrite cos_2a_sin, sin_2a, (sin_eq_0_1 (IZR k * PI)) by eauto. ring.
Qed.
Lemma half_turn q : 0 <= q < 2 * PI -> (0 <= sin q -> q <= PI) /\ (sin q < 0 -> PI < q).
Proof.
  intros B. split; intros H.
  - destruct (Rle_dec q PI); [assumption|]. exfalso. assert (PI < q < 2 * PI) as [K1 K2] by lra.
    pose proof (sin_lt_0 q K1 K2). lra.
  - destruct (Rle_dec q PI) as [K|K]; [|lra]. exfalso. pose proof (sin_ge_0 q (proj1 B) K). lra.
Qed.
Section Signs.
Context (E L Q r1 r2 r3 r4 : R) (zp : option R) (beta a2s : R).
Context (F : orbit_facts a p e x ur uth uph gam E L Q r1 r2 r3 r4 zp beta a2s).
Local Notation m := (kr2 r1 r2 r3 r4).
Lemma psi_r_le q q' : q <= q' -> psi_r r1 r2 r3 r4 q <= psi_r r1 r2 r3 r4 q'.
Proof.
  intros H. destruct F. unfold psi_r. apply amX_le; [assumption|]. pose proof (K_pos _ _ _ _ of_kr). pose proof PI_RGT_0.
  assert (0 < ellK m / PI) by now apply Rdiv_lt_0_compat. apply Rplus_le_compat_r, Rmult_le_compat_l; lra.
Qed.
Lemma psi_t_le q q' : q <= q' -> psi_t a E (1 - x^2) beta q <= psi_t a E (1 - x^2) beta q'.
Proof.
  intros H. destruct F. unfold psi_t. apply amX_le; [assumption|]. pose proof (Kt_pos _ _ _ _ of_z of_kt) as K. pose proof PI_RGT_0.
  set (KK := ellK (kt2 (a^2 * (1 - E^2)) (1 - x^2) beta)) in *.
  assert (0 < 2 * KK / PI) by (apply Rdiv_lt_0_compat; lra). apply Rplus_le_compat_r, Rmult_le_compat_l; lra.
Qed.
Lemma sincos_sign q :
  (0 <= sin q -> 0 <= sin (psi_r r1 r2 r3 r4 q) * cos (psi_r r1 r2 r3 r4 q)) /\
  (sin q < 0 -> sin (psi_r r1 r2 r3 r4 q) * cos (psi_r r1 r2 r3 r4 q) <= 0).
Proof.
  pose proof PI_RGT_0. destruct (reduce_phase (2 * PI) q ltac:(lra)) as (q0 & k & -> & B).
  pose proof (of_kr _ _ _ _ _ _ _ _ _ _ _ _ _ _ _ _ _ _ F) as Hm.
  rewrite (psi_r_shift HX) by assumption. rewrite sin_red, sincos_shift.
  destruct (half_turn q0 B) as [H1 H2]. split; intros S.
  - specialize (H1 S). pose proof (psi_r_le 0 q0 (proj1 B)) as P1. pose proof (psi_r_le q0 PI H1) as P2.
    rewrite (psi_r_0 HX) in P1 by assumption. rewrite (psi_r_PI HX) in P2 by assumption.
    apply Rmult_le_pos; [apply sin_ge_0 | apply cos_ge_0]; lra.
  - specialize (H2 S). pose proof (psi_r_le PI q0 ltac:(lra)) as P1. pose proof (psi_r_le q0 (2 * PI) ltac:(lra)) as P2.
    rewrite (psi_r_PI HX) in P1 by assumption. replace (2 * PI) with (0 + 1 * (2 * PI)) in P2 by ring.
    rewrite (psi_r_shift HX _ _ _ _ Hm 0 1), (psi_r_0 HX) in P2 by assumption.
    assert (0 <= sin (psi_r r1 r2 r3 r4 q0)) by (apply sin_ge_0; lra).
    assert (cos (psi_r r1 r2 r3 r4 q0) <= 0) by (apply cos_le_0; lra). nra.
Qed.
Lemma cos_sign q :
  (0 <= sin q -> cos (psi_t a E (1 - x^2) beta q) <= 0) /\ (sin q < 0 -> 0 <= cos (psi_t a E (1 - x^2) beta q)).
Proof.
  pose proof PI_RGT_0. destruct (reduce_phase (2 * PI) q ltac:(lra)) as (q0 & k & -> & B).
  pose proof (of_kt _ _ _ _ _ _ _ _ _ _ _ _ _ _ _ _ _ _ F) as Hm.
  rewrite sin_red. replace (q0 + IZR k * (2 * PI)) with (q0 + IZR (2 * k) * PI) by (rewrite mult_IZR; ring).
  rewrite (psi_t_shift HX) by assumption. rewrite mult_IZR. replace (2 * IZR k * PI) with (IZR k * (2 * PI)) by ring. rewrite cos_red.
  destruct (half_turn q0 B) as [H1 H2]. split; intros S.
  - specialize (H1 S). pose proof (psi_t_le 0 q0 (proj1 B)) as P1. pose proof (psi_t_le q0 PI H1) as P2.
    rewrite (psi_t_0 HX) in P1 by assumption. rewrite (psi_t_PI HX) in P2 by assumption. apply cos_le_0; lra.
  - specialize (H2 S). pose proof (psi_t_le PI q0 ltac:(lra)) as P1. pose proof (psi_t_le q0 (2 * PI) ltac:(lra)) as P2.
    rewrite (psi_t_PI HX) in P1 by assumption. replace (2 * PI) with (0 + 2 * PI) in P2 by ring.
    rewrite (psi_t_shift HX _ _ _ _ Hm 0 2), (psi_t_0 HX) in P2 by assumption.
    replace (psi_t a E (1 - x^2) beta q0) with ((psi_t a E (1 - x^2) beta q0 - 2 * PI) + 1 * (2 * PI)) by ring.
    rewrite (cos_red _ 1). apply cos_ge_0; lra.
Qed.
Lemma rho'_sign q :
  (0 <= sin q -> 0 <= rho' r1 r2 r3 r4 (ellK m / PI) (psi_r r1 r2 r3 r4) q) /\
  (sin q < 0 -> rho' r1 r2 r3 r4 (ellK m / PI) (psi_r r1 r2 r3 r4) q <= 0).
Proof.
  destruct (sincos_sign q) as [S1 S2]. pose proof PI_RGT_0. destruct F. pose proof (K_pos _ _ _ _ of_kr).
  set (y := sin (psi_r r1 r2 r3 r4 q) * cos (psi_r r1 r2 r3 r4 q)) in *.
  set (C := ellK m / PI * (2 * (r1 - r2) * ((r1 - r3) * (r2 - r3)) * sqrt (dl m (psi_r r1 r2 r3 r4 q)) / rden r1 r2 r3 (sn2 (psi_r r1 r2 r3 r4) q) ^ 2)).
  assert (HC : 0 <= C).
  { unfold C. apply Rmult_le_pos; [apply Rlt_le, Rdiv_lt_0_compat; lra|].
    apply Rdiv_le_0_compat.
    - apply Rmult_le_pos; [|apply sqrt_pos]. apply Rmult_le_pos; lra.
    - apply pow2_gt_0. apply (rden_nz (1 - E^2) _ _ _ _ of_s of_ord). apply sn2_bound. }
  assert (R : rho' r1 r2 r3 r4 (ellK m / PI) (psi_r r1 r2 r3 r4) q = C * y).
  { unfold rho', C, y. field. split; [|lra]. apply (rden_nz (1 - E^2) _ _ _ _ of_s of_ord). apply sn2_bound. }
  rewrite R. clearbody C y. clear - HC S1 S2. split; intros S; [specialize (S1 S) | specialize (S2 S)]; nra.
Qed.
Local Notation mt := (kt2 (a^2 * (1 - E^2)) (1 - x^2) beta).
Lemma th'_sign q :
  (0 <= sin q -> 0 <= th' (a^2 * (1 - E^2)) (1 - x^2) beta (2 * ellK mt / PI) (psi_t a E (1 - x^2) beta) q) /\
  (sin q < 0 -> th' (a^2 * (1 - E^2)) (1 - x^2) beta (2 * ellK mt / PI) (psi_t a E (1 - x^2) beta) q <= 0).
Proof.
  destruct (cos_sign q) as [S1 S2]. pose proof PI_RGT_0. destruct F. pose proof (Kt_pos _ _ _ _ of_z of_kt) as Kp.
  pose proof (sin_th_pos _ of_z (psi_t a E (1 - x^2) beta) q) as Sp.
  set (y := cos (psi_t a E (1 - x^2) beta q)) in *.
  set (C := sqrt (1 - x^2) * (2 * ellK mt / PI * sqrt (dl mt (psi_t a E (1 - x^2) beta q))) / sin (th (1 - x^2) (psi_t a E (1 - x^2) beta) q)).
  assert (HC : 0 <= C).
  { unfold C. apply Rdiv_le_0_compat; [|assumption]. apply Rmult_le_pos; [apply sqrt_pos|].
    apply Rmult_le_pos; [apply Rlt_le, Rdiv_lt_0_compat; lra | apply sqrt_pos]. }
  assert (R : th' (a^2 * (1 - E^2)) (1 - x^2) beta (2 * ellK mt / PI) (psi_t a E (1 - x^2) beta) q = C * - y).
  { unfold th', C, y. field. lra. }
  rewrite R. clearbody C y. clear - HC S1 S2. split; intros S; [specialize (S1 S) | specialize (S2 S)]; nra.
Qed.
End Signs.
Lemma signed_eq v w s : v^2 = w^2 -> (0 <= s -> 0 <= v) -> (s < 0 -> v <= 0) -> (0 <= s -> 0 <= w) -> (s < 0 -> w <= 0) -> v = w.
Proof.
  intros H A B C D. assert (K : (v - w) * (v + w) = 0) by (ring_simplify; lra).
  apply Rmult_integral in K as [K|K]; [lra|].
  destruct (Rle_dec 0 s) as [S|S]; [specialize (A S); specialize (C S) | assert (S' : s < 0) by lra; specialize (B S'); specialize (D S')]; lra.
Qed.

Lemma mul_nonneg u y : 0 < u -> 0 <= y -> 0 <= u * y.
Proof. intros. apply Rmult_le_pos; lra. Qed.
Lemma mul_nonpos u y : 0 < u -> y <= 0 -> u * y <= 0.
Proof. intros. assert (0 <= u * - y) by (apply Rmult_le_pos; lra). lra. Qed.
(** The four component functions returned by four_velocity, evaluated along the returned
    trajectory, times Sigma, are the Mino-time derivatives of t, r, theta, phi -- with the
    right signs -- and the vector has norm -1, at every Mino time. *)
Theorem C51_four_velocity_is_derivative qt qr qth qph T1 T2 T3 T4 t r theta phi E L Q :
  run qt qr qth qph = Ret (T1, T2, T3, T4) -> runs_as (run qt qr qth qph) t r theta phi ->
  constants_of_motion (Some a) (Some p) (Some e) (Some x) = Ret (Some E, Some L, Some Q) ->
  let '(u_t, u_r, u_theta, u_phi) :=
    four_velocity (Some a) T2 T3 (Some E, Some L, Some Q) (Some ur) (Some uth) (Some qt, Some qr, Some qth, Some qph) in
  forall l, exists vt vr vth vph,
    u_t (Some l) = Ret (Some vt) /\ u_r (Some l) = Ret (Some vr) /\
    u_theta (Some l) = Ret (Some vth) /\ u_phi (Some l) = Ret (Some vph) /\
    is_derive t l (Sigma a (r l) (theta l) * vt) /\ is_derive r l (Sigma a (r l) (theta l) * vr) /\
    is_derive theta l (Sigma a (r l) (theta l) * vth) /\ is_derive phi l (Sigma a (r l) (theta l) * vph) /\
    norm (Some a) (Some (t l)) (Some (r l)) (Some (theta l)) (Some (phi l)) (Some vt, Some vr, Some vth, Some vph) = Some (-1).
Proof.
  intros HT H HC.
  destruct (four_velocity (Some a) T2 T3 (Some E, Some L, Some Q) (Some ur) (Some uth) (Some qt, Some qr, Some qth, Some qph))
    as [[[u_t u_r] u_theta] u_phi] eqn:V.
  intros l.
  pose proof (C28_radial_and_polar_equations HX HR a p e x ur uth uph gam Ha HF _ _ _ _ _ _ _ _ H E L Q HC l) as (r' & theta' & D1 & D2 & O1 & Sn & O2).
  pose proof (C29_time_and_azimuth_equations HX HR a p e x ur uth uph gam Ha HF _ _ _ _ _ _ _ _ H E L Q HC l) as (Dn & _ & D3 & D4).
  pose proof (C25_bound_motion HX HR a p e x ur uth uph gam Ha HF _ _ _ _ _ _ _ _ H l) as (B & B').
  pose proof H as (U1 & U2 & U3 & U4 & EqU & HU). rewrite HT in EqU.
  apply Ret_inj in EqU. apply pair_equal_spec in EqU as [EqU ->]. apply pair_equal_spec in EqU as [EqU ->]. apply pair_equal_spec in EqU as [-> ->].
  destruct (HU l) as (E1 & E2 & E3 & E4).
  factsH H. pose proof (of_constants _ _ _ _ _ _ _ _ _ _ _ _ _ _ _ _ _ _ F) as HC'. rewrite HC in HC'.
  assert (E0 = E /\ L0 = L /\ Q0 = Q) as (-> & -> & ->) by (apply Ret_inj in HC'; repeat split; congruence). clear HC'.
  assert (Sg : Sigma a (r l) (theta l) <> 0).
  { assert (0 < r l). { destruct F. rewrite <- of_r2 in B. lra. } unfold Sigma.
    pose proof (pow2_ge_0 a). pose proof (pow2_ge_0 (cos (theta l))). assert (0 < r l ^ 2) by nra. nra. }
  assert (P1 : 0 <= radial_potential a E L Q (r l)) by (rewrite <- O1; apply pow2_ge_0).
  assert (P2 : 0 <= polar_potential a E L Q (theta l)) by (rewrite <- O2; apply pow2_ge_0).
  pose proof (C01_four_velocity_geodesic_equations a U2 U3 E L Q ur uth qt qr qth qph l (r l) (theta l) E2 E3 Sg Dn Sn P1 P2) as G.
  pose proof (C01_four_velocity_normalised a U2 U3 E L Q ur uth qt qr qth qph l (r l) (theta l) (t l) (phi l) E2 E3 Sg Dn Sn P1 P2) as N.
  rewrite V in G, N. destruct G as (vt & vr & vth & vph & V1 & V2 & V3 & V4 & G1 & G2 & G3 & G4 & S1 & S2 & S3 & S4).
  destruct N as (vt' & vr' & vth' & vph' & V1' & V2' & V3' & V4' & N).
  assert (vt' = vt /\ vr' = vr /\ vth' = vth /\ vph' = vph) as (-> & -> & -> & ->) by (repeat split; congruence).
  exists vt, vr, vth, vph.
  pose proof (fr_derive HX _ _ _ _ _ _ _ _ _ _ _ _ _ _ _ _ _ _ F) as Fr.
  pose proof (fth_derive HX _ _ _ _ _ _ _ _ _ _ _ _ _ _ _ _ _ _ F) as Ft.
  pose proof (ur_pos _ _ _ _ _ _ _ _ _ _ _ _ _ _ _ _ _ _ F) as Up. pose proof (uth_pos _ _ _ _ _ _ _ _ _ _ _ _ _ _ _ _ _ _ F) as Up'.
  pose proof (sth_sin_pos _ _ _ _ _ _ _ _ _ _ _ _ _ _ _ _ _ _ F qth l) as Spos.
  destruct (rho'_sign _ _ _ _ _ _ _ _ _ _ F (ur * l + qr)) as [R1 R2].
  destruct (th'_sign _ _ _ _ _ _ _ _ _ _ F (uth * l + qth)) as [R3 R4].
  assert (X1 : r' = Sigma a (r l) (theta l) * vr).
  { assert (r' = ur * rho' r1 r2 r3 r4 (ellK (kr2 r1 r2 r3 r4) / PI) (psi_r r1 r2 r3 r4) (ur * l + qr)) as Rr.
    { rewrite <- (is_derive_unique _ _ _ D1). apply is_derive_unique.
      eapply is_derive_ext; [|apply comp_lin, Fr]. intros s. symmetry. apply Eq. }
    apply (signed_eq _ _ (sin (ur * l + qr))); try assumption; [lra| |]; intros S; rewrite Rr;
      [apply mul_nonneg; auto | apply mul_nonpos; auto]. }
  assert (X2 : theta' = Sigma a (r l) (theta l) * vth).
  { assert (theta' = uth * th' (a^2 * (1 - E^2)) (1 - x^2) beta (2 * ellK (kt2 (a^2 * (1 - E^2)) (1 - x^2) beta) / PI) (psi_t a E (1 - x^2) beta) (uth * l + qth)) as Rt.
    { rewrite <- (is_derive_unique _ _ _ D2). apply is_derive_unique.
      eapply is_derive_ext; [|apply comp_lin, Ft]. intros s. symmetry. apply Eq. }
    assert (H0 : 0 < sin (theta l)) by (destruct (Eq l) as (_ & _ & -> & _); exact Spos).
    apply (signed_eq _ _ (sin (uth * l + qth))); [lra| | |exact (S3 H0)|exact (S4 H0)]; intros S; rewrite Rt;
      [apply mul_nonneg; auto | apply mul_nonpos; auto]. }
  rewrite G1, G2, <- X1, <- X2.
  exact (conj V1 (conj V2 (conj V3 (conj V4 (conj D3 (conj D1 (conj D2 (conj D4 N)))))))).
Qed.
End Deltas.
