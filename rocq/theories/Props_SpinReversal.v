(** * C48, trajectories: stable_trajectory(-a,p,e,-x) against stable_trajectory(a,p,e,x)

    stable_trajectory (stable.py:464-559) computes its frequencies, constants and roots with
    functions that first replace (a,x) by (|a|,+-x), but hands the spin it was given to
    radial_solutions.  For a negative spin the radial parts of t and phi are therefore those
    of a hole spinning the other way. *)
From Coq Require Import Reals Lra Lia ZArith String List.
From Coquelicot Require Import Coquelicot.
From Verif Require Import Num Outcome External Checked ExternalSpec.
From Verif Require Import Model_Constants Model_Frequencies Model_Spacetime Model_Stable Model_Orbit.
From Verif Require Import Spec SpecElliptic Elliptic P_Validation Props_Validation P_Bounds P_Constants Props_Constants.
From Verif Require Import P_Radial P_Polar P_Traj P_Traj2 P_Traj3 P_Traj4 Props_Elliptic Props_Trajectory Props_Trajectory2 Props_Trajectory3.
From Verif Require Import Props_Restart Props_Phases Props_Stability3.
Import ListNotations.
Open Scope R_scope.

Section S.
Context {X : External R} (HX : special_spec X) (HR : root_spec X).

Lemma sq_opp a : (- a) ^ 2 = a ^ 2. Proof. ring. Qed.
Lemma Reqb_opp a : Reqb (- a) 0 = Reqb a 0.
Proof. destruct (Req_dec a 0). { rewrite !Reqb_true by lra. reflexivity. } rewrite !Reqb_false by lra. reflexivity. Qed.

Lemma polar_roots_even a p e x c : stable_polar_roots (Some (- a)) p e (Some (- x)) (Some c) = stable_polar_roots (Some a) p e (Some x) (Some c).
Proof. destruct c as [[E L] Q]. unfold stable_polar_roots. cbn [default bind]. cnum. now rewrite !sq_opp, Reqb_opp. Qed.
Lemma radial_roots_even a p e x c : stable_radial_roots (Some (- a)) p e (Some (- x)) (Some c) = stable_radial_roots (Some a) p e (Some x) (Some c).
Proof. destruct c as [[E L] Q]. unfold stable_radial_roots. cbn [default bind]. cnum. now rewrite !sq_opp. Qed.
Lemma ktheta_even a zm zp : ktheta_of (Some (- a)) zm zp = ktheta_of (Some a) zm zp.
Proof. unfold ktheta_of. cnum. now rewrite Reqb_opp. Qed.
Lemma a2sqrt_even a E L zm zp : a2sqrt_of (Some (- a)) E L zm zp = a2sqrt_of (Some a) E L zm zp.
Proof. unfold a2sqrt_of. cnum. now rewrite Reqb_opp, sq_opp. Qed.
Lemma e0zp_even a E L zm : e0zp_of (Some (- a)) E L zm = e0zp_of (Some a) E L zm.
Proof. unfold e0zp_of. cnum. now rewrite !sq_opp. Qed.
Lemma polar_theta_even a zz q : polar_theta (Some (- a)) zz q = polar_theta (Some a) zz q.
Proof. destruct zz. unfold polar_theta. now rewrite ktheta_even. Qed.
Lemma polar_t_even a E L zz q : polar_t (Some (- a)) E L zz q = polar_t (Some a) E L zz q.
Proof. destruct zz. unfold polar_t. now rewrite ktheta_even, a2sqrt_even. Qed.
Lemma polar_phi_even a E L zz q : polar_phi (Some (- a)) E L zz q = polar_phi (Some a) E L zz q.
Proof. destruct zz. unfold polar_phi. now rewrite ktheta_even, e0zp_even. Qed.
Lemma radial_t_opp a E L rr q : radial_t (Some (- a)) E (Some L) rr q = radial_t (Some a) E (Some (- L)) rr q.
Proof.
  destruct rr as [[[r1 r2] r3] r4]. unfold radial_t. cnum. rewrite !sq_opp.
  now replace (- a * L) with (a * - L) by ring.
Qed.

Ltac nzs := repeat match goal with
  | |- _ /\ _ => split
  | |- _ * _ <> 0 => apply Rmult_integral_contrapositive; split
  end; try assumption; try lra.

Section Facts.
Context (a p e x ur uth uph gam E L Q r1 r2 r3 r4 : R) (zp : option R) (beta a2s : R).
Context (F : orbit_facts a p e x ur uth uph gam E L Q r1 r2 r3 r4 zp beta a2s).
Local Notation rrs := (Some r1, Some r2, Some r3, Some r4).
Lemma radial_phi_opp q : radial_phi (Some (- a)) (Some E) (Some L) rrs (Some q) = Some (- phr a E (- L) r1 r2 r3 r4 q).
Proof.
  destruct F. pose proof PI_RGT_0. pose proof (s_pos E r1 r2 r3 r4 of_s) as Sp. pose proof (K_pos r1 r2 r3 r4 of_kr) as Kp.
  destruct (rpm a of_a) as (S0 & S1 & S2 & S3).
  destruct (radial_nz a E r1 r2 r3 r4 of_s of_ord of_p2 of_m2) as (N1 & N2 & N3 & N4 & N5).
  destruct (h_cond a E r1 r2 r3 r4 of_s of_ord of_p2 of_m2) as [[H1 H2] H3].
  unfold radial_phi. rewrite (kr_run E r1 r2 r3 r4 of_s of_kr of_ord). cnum. rewrite (kr_sq r1 r2 r3 r4 of_kr). rewrite sq_opp, (csqrt_a a of_a). fold (rp a) (rm a).
  rewrite (ellipk_checked HX) by tauto. rewrite (csqrt_s E r1 r2 r3 r4 of_s).
  rewrite (cdiv_some _ ((r1 - r3) * (r2 - rp a))) by assumption. fold (hb r1 r2 r3 (rp a)).
  rewrite (cdiv_some _ ((r1 - r3) * (r2 - rm a))) by assumption. fold (hb r1 r2 r3 (rm a)).
  rewrite (cdiv_some (ellK (kr2 r1 r2 r3 r4) * q) PI) by lra.
  rewrite ellipj_checked by assumption. rewrite (u_arg r1 r2 r3 r4). fold (psi_r r1 r2 r3 r4 q).
  rewrite !(C31_ellippiinc HX), !(C31_ellippi HX) by (assumption || tauto).
  assert (Z : rp a - rm a <> 0 /\ r3 - rp a <> 0 /\ r3 - rm a <> 0) by (repeat split; assumption).
  rewrite !cdiv_some by nzs. cbn [c2]. f_equal. unfold phr, Bp.
  set (P1 := ellPi _ (psi_r r1 r2 r3 r4 q) _ - _). set (P2 := ellPi _ (psi_r r1 r2 r3 r4 q) _ - _).
  clearbody P1 P2. field. repeat split; tauto || lra.
Qed.

Local Notation zm := (1 - x ^ 2).
Local Notation trm := (tr a E (- L) r1 r2 r3 r4).
Local Notation phm := (phr a E (- L) r1 r2 r3 r4).
Definition st_rev qt qr qth (l : R) : R :=
  qt + gam * l + trm (ur * l + qr) + ftt a x E L beta a2s (uth * l + qth) - (trm qr + ftt a x E L beta a2s qth).
Definition sph_rev qr qth qph (l : R) : R :=
  qph + uph * l + - phm (ur * l + qr) + fpt a x E L beta (uth * l + qth) - (- phm qr + fpt a x E L beta qth).

Lemma reversed_runs qt qr qth qph : 0 < a ->
  mino_frequencies (Some a) (Some p) (Some e) (Some x) = Ret (Some ur, Some uth, Some uph, Some gam) ->
  runs_as (stable_trajectory (Some (- a)) (Some p) (Some e) (Some (- x)) (Some qt, Some qr, Some qth, Some qph) None "natural" "natural")
    (st_rev qt qr qth) (sr ur r1 r2 r3 r4 qr) (sth a x uth E beta qth) (sph_rev qr qth qph).
Proof.
  intros Ha HF.
  destruct (C10_spin_reversal a p e x (Rgt_not_eq _ _ Ha)) as (_ & _ & _ & C1 & _ & _ & _ & _ & C2 & _).
  unfold stable_trajectory. change (check_units None "natural" "natural") with (Ret (A := unit) tt). cbn [bind].
  rewrite C2, HF. cbn [bind]. rewrite C1, (of_constants _ _ _ _ _ _ _ _ _ _ _ _ _ _ _ _ _ _ F). cbn [bind].
  rewrite radial_roots_even, (of_roots _ _ _ _ _ _ _ _ _ _ _ _ _ _ _ _ _ _ F). cbn [bind].
  rewrite polar_roots_even, (of_polar _ _ _ _ _ _ _ _ _ _ _ _ _ _ _ _ _ _ F). cbn [bind fst snd].
  unfold radial_solutions, polar_solutions, unpack2. cbn [bind].
  unfold assemble_trajectory.
  change (distance_conversion "natural") with (Ret (fun (d : option R) (_ : option (option R)) => d)).
  change (time_conversion "natural") with (Ret (fun (d : option R) (_ : option (option R)) => d)).
  cbn [bind].
  eexists _, _, _, _. split; [reflexivity|]. intros l.
  assert (Rt : computes (radial_t (Some a) (Some E) (Some (- L)) (Some r1, Some r2, Some r3, Some r4)) trm).
  { destruct F. intros q. now apply (radial_t_run HX). }
  cnum. rewrite !polar_theta_even, !polar_t_even, !polar_phi_even, !radial_t_opp, !radial_phi_opp, !Rt.
  rewrite !(run_r HX _ _ _ _ _ _ _ _ _ _ _ _ _ _ _ _ _ _ F), !(run_th HX _ _ _ _ _ _ _ _ _ _ _ _ _ _ _ _ _ _ F),
    !(run_tt HX _ _ _ _ _ _ _ _ _ _ _ _ _ _ _ _ _ _ F), !(run_pt HX _ _ _ _ _ _ _ _ _ _ _ _ _ _ _ _ _ _ F). cbn [c2].
  refine (conj _ (conj _ (conj _ _))); reflexivity.
Qed.

Lemma r_at q : (q = 0 -> rho r1 r2 r3 (psi_r r1 r2 r3 r4) q = r2) /\ (q = PI -> rho r1 r2 r3 (psi_r r1 r2 r3 r4) q = r1).
Proof. destruct F. split; intros ->; [now apply (rho_0 HX E) | now apply (rho_PI HX E)]. Qed.

Lemma Vt_diff r : r - rp a <> 0 -> r - rm a <> 0 -> Vt a E (- L) r - Vt a E L r = 4 * a * L * r / Delta a r.
Proof.
  intros N1 N2. destruct F. pose proof (Vt_dt a E L r1 r2 r3 of_a of_m2 of_p3 of_m3 r 0 N1 N2) as V1.
  pose proof (Vt_dt a E (- L) r1 r2 r3 of_a of_m2 of_p3 of_m3 r 0 N1 N2) as V2.
  unfold dt_dlambda in *. assert (D : Delta a r <> 0) by (rewrite (Delta_rpm a of_a); apply Rmult_integral_contrapositive; now split).
  apply (Rplus_eq_reg_l (4 * E + a ^ 2 * E * cos 0 ^ 2)).
  replace (4 * E + a ^ 2 * E * cos 0 ^ 2 + (Vt a E (- L) r - Vt a E L r)) with
    (4 * E + a ^ 2 * E * cos 0 ^ 2 + ((4 * E + Vt a E (- L) r + a ^ 2 * E * cos 0 ^ 2) - (4 * E + Vt a E L r + a ^ 2 * E * cos 0 ^ 2))) by ring.
  rewrite V1, V2. unfold Delta in *. field. exact D.
Qed.
Lemma Vph_sum r : r - rp a <> 0 -> r - rm a <> 0 -> Vph a E (- L) r + Vph a E L r = 4 * a * E * r / Delta a r.
Proof.
  intros N1 N2. destruct F. pose proof (Vph_dphi a E L r1 r2 r3 of_a of_m2 of_p3 of_m3 r (PI / 2) N1 N2) as V1.
  pose proof (Vph_dphi a E (- L) r1 r2 r3 of_a of_m2 of_p3 of_m3 r (PI / 2) N1 N2) as V2.
  unfold dphi_dlambda in *. assert (D : Delta a r <> 0) by (rewrite (Delta_rpm a of_a); apply Rmult_integral_contrapositive; now split).
  rewrite sin_PI2 in *.
  replace (Vph a E (- L) r + Vph a E L r) with ((Vph a E (- L) r + - L / 1 ^ 2) + (Vph a E L r + L / 1 ^ 2)) by field.
  rewrite V1, V2. unfold Delta in *. field. exact D.
Qed.
End Facts.

Lemma not_proportional a r1 r2 : 0 <= a < 1 -> 1 < r2 < r1 -> 0 < Delta a r2 -> r1 / Delta a r1 <> r2 / Delta a r2.
Proof.
  intros Ha Hr HD H. assert (HD1 : 0 < Delta a r1) by (unfold Delta in *; nra).
  assert (r1 * Delta a r2 = r2 * Delta a r1).
  { apply (Rmult_eq_compat_r (Delta a r1 * Delta a r2)) in H.
    replace (r1 / Delta a r1 * (Delta a r1 * Delta a r2)) with (r1 * Delta a r2) in H by (field; lra).
    replace (r2 / Delta a r2 * (Delta a r1 * Delta a r2)) with (r2 * Delta a r1) in H by (field; lra). exact H. }
  unfold Delta in *. assert ((r1 - r2) * (r1 * r2 - a ^ 2) = 0) by nra. 
  apply Rmult_integral in H1 as [?|?]; [lra|]. nra.
Qed.

(** agreement of two functions everywhere gives agreement of their derivatives *)
Lemma const_diff (f g : R -> R) (k u b : R) (df dg : R -> R) : u <> 0 -> (forall q : R, is_derive f q (df q)) -> (forall q : R, is_derive g q (dg q)) ->
  (forall l, f (u * l + b) - f b = g (u * l + b) - g b + k) -> forall q, df q = dg q.
Proof.
  intros Hu Df Dg H q.
  assert (Eq : forall y, f y = g y + (f b - g b + k)).
  { intros y. specialize (H ((y - b) / u)). replace (u * ((y - b) / u) + b) with y in H by (field; assumption). lra. }
  rewrite <- (is_derive_unique f q _ (Df q)). symmetry. rewrite <- (is_derive_unique g q _ (Dg q)).
  rewrite (Derive_ext f (fun y => g y + (f b - g b + k)) q Eq).
  rewrite (is_derive_unique g q _ (Dg q)). symmetry. apply is_derive_unique.
  replace (dg q) with (dg q + 0) by ring. apply (is_derive_plus g (fun _ => f b - g b + k)); [apply Dg|].
  apply (is_derive_const (K := R_AbsRing) (V := R_NormedModule)).
Qed.
Lemma const_periodic (f : R -> R) (c : R) : (forall q : R, is_derive f q c) -> f (2 * PI) = f 0 -> forall q b, f q = f b.
Proof.
  intros D P q b. pose proof PI_RGT_0.
  assert (c = 0).
  { destruct (MVT_gen f 0 (2 * PI) (fun _ => c)) as (z & _ & Hz).
    - intros. apply D.
    - intros. apply derivable_continuous_pt. exists c. apply is_derive_Reals, D.
    - assert (c * (2 * PI) = 0) by lra. apply Rmult_integral in H0 as [?|?]; lra. }
  destruct (MVT_gen f b q (fun _ => c)) as (z & _ & Hz).
  - intros. apply D.
  - intros. apply derivable_continuous_pt. exists c. apply is_derive_Reals, D.
  - rewrite H0 in Hz. lra.
Qed.

Section Final.
Context (a p e x ur uth uph gam : R) (Ha : 0 < a).
Context (HF : mino_frequencies (Some a) (Some p) (Some e) (Some x) = Ret (Some ur, Some uth, Some uph, Some gam)).
Local Notation run a x qt qr qth qph :=
  (stable_trajectory (Some a) (Some p) (Some e) (Some x) (Some qt, Some qr, Some qth, Some qph) None "natural" "natural").

(** Every bound orbit of non-zero eccentricity around a spinning hole is a counterexample:
    with the signs of both a and x reversed, stable_trajectory returns the same r and theta
    but a different t and a different phi, whatever the initial phases. *)
Theorem C48_refuted_trajectory qt qr qth qph : e <> 0 ->
  exists t r theta phi t' phi',
  runs_as (run a x qt qr qth qph) t r theta phi /\
  runs_as (run (- a) (- x) qt qr qth qph) t' r theta phi' /\
  (exists l, t' l <> t l) /\ (exists l, phi' l <> phi l).
Proof.
  intros Ne.
  destruct (mino_facts HX HR a p e x ur uth uph gam (Rlt_le _ _ Ha) HF) as (E & L & Q & r1 & r2 & r3 & r4 & zp & beta & a2s & F).
  pose proof (trajectory_runs HX _ _ _ _ _ _ _ _ _ _ _ _ _ _ _ _ _ _ F qt qr qth qph HF) as R1.
  pose proof (reversed_runs _ _ _ _ _ _ _ _ _ _ _ _ _ _ _ _ _ _ F qt qr qth qph Ha HF) as R2.
  do 6 eexists. refine (conj R1 (conj R2 _)).
  pose proof (ur_pos _ _ _ _ _ _ _ _ _ _ _ _ _ _ _ _ _ _ F) as Up.
  pose proof (of_constants _ _ _ _ _ _ _ _ _ _ _ _ _ _ _ _ _ _ F) as HC.
  destruct (C13_turning_points HR _ _ _ _ _ _ _ HC) as (HE & _).
  assert (HB : 1 < p / (1 + e) /\ 0 < Delta a (p / (1 + e))).
  { pose proof HC as HC'. apply constants_inv in HC' as [CK _]; [|lra].
    destruct (accepted_bounds HR a p e x (Rlt_le _ _ Ha) CK) as (_ & _ & _ & B1 & B2 & _). auto. }
  pose proof (of_r1 _ _ _ _ _ _ _ _ _ _ _ _ _ _ _ _ _ _ F) as Q1. pose proof (of_r2 _ _ _ _ _ _ _ _ _ _ _ _ _ _ _ _ _ _ F) as Q2.
  pose proof (of_e _ _ _ _ _ _ _ _ _ _ _ _ _ _ _ _ _ _ F) as He.
  rewrite <- Q2 in HB. destruct HB as [HB HD].
  assert (H12 : r2 < r1).
  { rewrite Q1, Q2 in *. unfold Rdiv in *. assert (0 < p).
    { replace p with (p * / (1 + e) * (1 + e)) by (field; lra). apply Rmult_lt_0_compat; lra. }
    apply Rmult_lt_compat_l; [assumption|]. apply Rinv_lt_contravar; [apply Rmult_lt_0_compat|]; lra. }
  pose proof (not_proportional a r1 r2 (of_a _ _ _ _ _ _ _ _ _ _ _ _ _ _ _ _ _ _ F) (conj HB H12) HD) as NP.
  pose proof (fun q => proj1 (r_at _ _ _ _ _ _ _ _ _ _ _ _ _ _ _ _ _ _ F q)) as A2.
  pose proof (fun q => proj2 (r_at _ _ _ _ _ _ _ _ _ _ _ _ _ _ _ _ _ _ F q)) as A1.
  specialize (A2 0 eq_refl). specialize (A1 PI eq_refl).
  pose proof (Vt_diff _ _ _ _ _ _ _ _ _ _ _ _ _ _ _ _ _ _ F) as VT. pose proof (Vph_sum _ _ _ _ _ _ _ _ _ _ _ _ _ _ _ _ _ _ F) as VP.
  pose proof (of_L _ _ _ _ _ _ _ _ _ _ _ _ _ _ _ _ _ _ F) as NL.
  assert (NZ : r1 - rp a <> 0 /\ r1 - rm a <> 0 /\ r2 - rp a <> 0 /\ r2 - rm a <> 0).
  { destruct F. repeat split; intros K; rewrite K in *; lra. }
  destruct NZ as (Z1 & Z2 & Z3 & Z4).
  pose proof (VT r1 Z1 Z2) as T1. pose proof (VT r2 Z3 Z4) as T2. pose proof (VP r1 Z1 Z2) as P1. pose proof (VP r2 Z3 Z4) as P2.
  assert (DT : forall M q, is_derive (tr a E M r1 r2 r3 r4) q ((Vt a E M (rho r1 r2 r3 (psi_r r1 r2 r3 r4) q) - Gt a E M r1 r2 r3 r4) / ur)).
  { intros M q. destruct F. rewrite of_ur. now apply (tr_derive HX). }
  assert (DP : forall M q, is_derive (phr a E M r1 r2 r3 r4) q ((Vph a E M (rho r1 r2 r3 (psi_r r1 r2 r3 r4) q) - Gph a E M r1 r2 r3 r4) / ur)).
  { intros M q. destruct F. rewrite of_ur. now apply (phr_derive HX). }
  split; apply Classical_Pred_Type.not_all_ex_not; intros K.
  - assert (EQ : forall q, (Vt a E (- L) (rho r1 r2 r3 (psi_r r1 r2 r3 r4) q) - Gt a E (- L) r1 r2 r3 r4) / ur =
                          (Vt a E L (rho r1 r2 r3 (psi_r r1 r2 r3 r4) q) - Gt a E L r1 r2 r3 r4) / ur).
    { apply (const_diff (tr a E (- L) r1 r2 r3 r4) (tr a E L r1 r2 r3 r4) 0 ur qr _ _ (Rgt_not_eq _ _ Up) (DT (- L)) (DT L)).
      intros l. specialize (K l). unfold st_rev, st, ftr in K. lra. }
    pose proof (EQ 0) as E2. pose proof (EQ PI) as E1. rewrite A1 in E1. rewrite A2 in E2.
    apply (Rmult_eq_compat_r ur) in E1. apply (Rmult_eq_compat_r ur) in E2.
    unfold Rdiv in E1, E2. rewrite !Rmult_assoc, !Rinv_l, !Rmult_1_r in E1, E2 by lra.
    apply NP. apply (Rmult_eq_reg_l (4 * a * L)); [unfold Rdiv in *; lra|].
    apply Rmult_integral_contrapositive; split; [lra | assumption].
  - assert (EQ : forall q, (fun q => - ((Vph a E (- L) (rho r1 r2 r3 (psi_r r1 r2 r3 r4) q) - Gph a E (- L) r1 r2 r3 r4) / ur)) q =
                          (Vph a E L (rho r1 r2 r3 (psi_r r1 r2 r3 r4) q) - Gph a E L r1 r2 r3 r4) / ur).
    { apply (const_diff (fun q => - phr a E (- L) r1 r2 r3 r4 q) (phr a E L r1 r2 r3 r4) 0 ur qr _ _ (Rgt_not_eq _ _ Up)); [|exact (DP L)|].
      - intros q. apply (is_derive_opp (phr a E (- L) r1 r2 r3 r4)), DP.
      - intros l. specialize (K l). unfold sph_rev, sph, fpr in K. lra. }
    cbv beta in EQ. pose proof (EQ 0) as E2. pose proof (EQ PI) as E1. rewrite A1 in E1. rewrite A2 in E2.
    apply (Rmult_eq_compat_r ur) in E1. apply (Rmult_eq_compat_r ur) in E2.
    unfold Rdiv in E1, E2. rewrite !Ropp_mult_distr_l, !Rmult_assoc, !Rinv_l, !Rmult_1_r in E1, E2 by lra.
    apply NP. apply (Rmult_eq_reg_l (4 * a * E)); [unfold Rdiv in *; lra|].
    apply Rmult_integral_contrapositive; split; lra.
Qed.

(** Circular orbits are the exception: both calls return the same trajectory. *)
Theorem C48_circular_trajectory_partial qt qr qth qph : e = 0 ->
  exists t r theta phi,
  runs_as (run a x qt qr qth qph) t r theta phi /\
  runs_as (run (- a) (- x) qt qr qth qph) t r theta phi.
Proof.
  intros Ne.
  destruct (mino_facts HX HR a p e x ur uth uph gam (Rlt_le _ _ Ha) HF) as (E & L & Q & r1 & r2 & r3 & r4 & zp & beta & a2s & F).
  pose proof (trajectory_runs HX _ _ _ _ _ _ _ _ _ _ _ _ _ _ _ _ _ _ F qt qr qth qph HF) as R1.
  pose proof (reversed_runs _ _ _ _ _ _ _ _ _ _ _ _ _ _ _ _ _ _ F qt qr qth qph Ha HF) as (T1 & T2 & T3 & T4 & ET & HT).
  do 4 eexists. refine (conj R1 _). exists T1, T2, T3, T4. refine (conj ET _). intros l.
  destruct (HT l) as (S1 & S2 & S3 & S4).
  assert (RC : forall q, rho r1 r2 r3 (psi_r r1 r2 r3 r4) q = p).
  { intros q. pose proof (fr_bounds _ _ _ _ _ _ _ _ _ _ _ _ _ _ _ _ _ _ F q) as B. unfold fr in B. rewrite Ne in B.
    replace (p / (1 + 0)) with p in B by field. replace (p / (1 - 0)) with p in B by field. lra. }
  assert (DT : forall M q, is_derive (tr a E M r1 r2 r3 r4) q ((Vt a E M p - Gt a E M r1 r2 r3 r4) / ur)).
  { intros M q. rewrite <- (RC q). destruct F. rewrite of_ur. now apply (tr_derive HX). }
  assert (DP : forall M q, is_derive (phr a E M r1 r2 r3 r4) q ((Vph a E M p - Gph a E M r1 r2 r3 r4) / ur)).
  { intros M q. rewrite <- (RC q). destruct F. rewrite of_ur. now apply (phr_derive HX). }
  assert (CT : forall M q b, tr a E M r1 r2 r3 r4 q = tr a E M r1 r2 r3 r4 b).
  { intros M. apply (const_periodic _ _ (DT M)). replace (2 * PI) with (0 + 1 * (2 * PI)) by ring. destruct F. now apply (tr_shift HX a E M r1 r2 r3 r4) with (k := 1%Z). }
  assert (CP : forall M q b, phr a E M r1 r2 r3 r4 q = phr a E M r1 r2 r3 r4 b).
  { intros M. apply (const_periodic _ _ (DP M)). replace (2 * PI) with (0 + 1 * (2 * PI)) by ring. destruct F. now apply (phr_shift HX a E M r1 r2 r3 r4) with (k := 1%Z). }
  refine (conj _ (conj S2 (conj S3 _))).
  - rewrite S1. f_equal. f_equal. unfold st_rev, st, ftr. rewrite (CT (- L) _ qr), (CT L _ qr). ring.
  - rewrite S4. f_equal. f_equal. unfold sph_rev, sph, fpr. rewrite (CP (- L) _ qr), (CP L _ qr). ring.
Qed.
End Final.

(** the hypotheses are met by every retrograde orbit with p >= 12 (and both theorems apply
    to it with the initial phases of the user's choice) *)
Example C48_trajectory_case a p e x : 0 < a < 1 -> 12 <= p -> 0 < e < 1 -> -1 <= x < 0 -> forall qt qr qth qph,
  exists t r theta phi t' phi',
  runs_as (stable_trajectory (Some a) (Some p) (Some e) (Some x) (Some qt, Some qr, Some qth, Some qph) None "natural" "natural") t r theta phi /\
  runs_as (stable_trajectory (Some (- a)) (Some p) (Some e) (Some (- x)) (Some qt, Some qr, Some qth, Some qph) None "natural" "natural") t' r theta phi' /\
  (exists l, t' l <> t l) /\ (exists l, phi' l <> phi l).
Proof.
  intros Ha Hp He Hx qt qr qth qph.
  destruct (far_retrograde HX HR a p e x) as (E & L & Q & ur & uth & uph & gam & _ & HF); try lra.
  apply (C48_refuted_trajectory a p e x ur uth uph gam); [lra | assumption | lra].
Qed.
End S.
Print Assumptions C48_refuted_trajectory.
Print Assumptions C48_circular_trajectory_partial.
