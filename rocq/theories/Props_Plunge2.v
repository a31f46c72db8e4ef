(** * Properties C39, C40, C41: complex-root plunging trajectories *)
From Coq Require Import Reals Lra Lia ZArith String List Psatz.
From Coquelicot Require Import Coquelicot.
From Verif Require Import Num Outcome External Checked ExternalSpec Spec SpecElliptic Elliptic
  Model_Units Model_Constants Model_Frequencies Model_Stable Model_Plunge
  Props_Elliptic P_Radial P_Polar P_Traj P_Plunge P_Plunge2 P_Plunge3 Props_Constants Props_Trajectory Props_Plunge.
Import ListNotations.
Open Scope R_scope.

Lemma cos_period_Z x k : cos (x + 2 * IZR k * PI) = cos x.
Proof.
  destruct (Z_le_gt_dec 0 k).
  - rewrite <- (Z2Nat.id k) by lia. rewrite <- INR_IZR_INZ. apply cos_period.
  - rewrite <- (cos_period (x + 2 * IZR k * PI) (Z.to_nat (- k))). f_equal. rewrite INR_IZR_INZ, Z2Nat.id by lia. rewrite opp_IZR. ring.
Qed.
Lemma sin_period_Z x k : sin (x + 2 * IZR k * PI) = sin x.
Proof.
  destruct (Z_le_gt_dec 0 k).
  - rewrite <- (Z2Nat.id k) by lia. rewrite <- INR_IZR_INZ. apply sin_period.
  - rewrite <- (sin_period (x + 2 * IZR k * PI) (Z.to_nat (- k))). f_equal. rewrite INR_IZR_INZ, Z2Nat.id by lia. rewrite opp_IZR. ring.
Qed.
(** ** C41: the polar roots computed for plunging orbits *)
Theorem C41_plunging_polar_roots :
  forall a E L Q, a <> 0 -> E^2 < 1 -> L <> 0 -> 0 <= Q ->
  exists z1 z2 k,
  plunge_z1 (Some a) (Some E) (Some L) (Some Q) = Some z1 /\
  plunge_z2 (Some a) (Some E) (Some L) (Some Q) = Some z2 /\
  plunge_k_theta (Some a) (Some E) (Some L) (Some Q) = Some k /\
  0 <= z1 < 1 /\ a^2 * (1 - E^2) < z2^2 /\ 0 <= k^2 < 1 /\
  forall z, polar_polynomial a E L Q z = (z1^2 - z) * (z2^2 - a^2 * (1 - E^2) * z).
Proof.
  intros a E L Q Ha HE HL HQ. pose proof (pz_order a E L Q Ha HE HL HQ) as [Z0 Z1].
  pose proof (pbeta_pos a E L Q Ha HE HL HQ) as B. pose proof (pb_pos a E Ha HE) as B0.
  do 3 eexists. refine (conj (z1_run a E L Q Ha HE HL HQ) (conj (z2_run a E L Q Ha HE HL HQ) (conj (k_run a E L Q Ha HE HL HQ) _))).
  fold (pbeta a E L Q). rewrite (k_sq a E L Q Ha HE HL HQ), !pow2_sqrt by lra.
  refine (conj (sqrt_zm _ Z0) (conj _ (conj (pkt a E L Q Ha HE HL HQ) (p_factor a E L Q Ha HE HL HQ)))).
  unfold pbeta. rewrite <- (Rmult_1_r (a^2 * (1 - E^2))) at 1. apply Rmult_lt_compat_l; lra.
Qed.

Section Plunge.
Context {X : External R} (HP : polyroots_spec X) (HX : special_spec X).
Context (a E L Q : R) (Ha : a <> 0) (HE : E^2 < 1) (HL : L <> 0) (HQ : 0 <= Q).
Section Sol.
Context (r1 r2 u v : R) (Hr : r1 <= r2) (Hv : 0 < v).
Context (HR : plunging_radial_roots (Some a) (Some E) (Some L) (Some Q)
              = Ret (ComplexRoots (Some r1) (Some r2) (Some u, Some (- v)) (Some u, Some v))).
Context (HF : forall r, radial_potential a E L Q r = (1 - E^2) * (r2 - r) * (r - r1) * ((r - u)^2 + v^2)).
Local Notation ur := (pur r1 r2 u v E).
Local Notation ut := (put a E L Q).
Lemma freq_run : plunging_mino_frequencies (Some a) (Some E) (Some L) (Some Q) = Ret (Some ur, Some ut).
Proof.
  pose proof (pk2_bounds r1 r2 u v Hr Hv) as Km. pose proof (pA_pos r2 u v Hv) as PA. pose proof (pB_pos r1 u v Hv) as PB.
  pose proof (pK_pos r1 r2 u v Hr Hv) as Kp. pose proof (ABc_pos r1 r2 u v Hv E HE) as Cp.
  pose proof (Kt_pos a E L Q Ha HE HL HQ) as Ktp.
  unfold plunging_mino_frequencies. rewrite HR. cbn [bind fst snd]. cbv zeta.
  rewrite (A_run r1 r2 u v Hv), (B_run r1 r2 u v Hv), (z2_run a E L Q Ha HE HL HQ), (k_run a E L Q Ha HE HL HQ).
  fold (pbeta a E L Q). cnum.
  rewrite (cdiv_some _ (4 * pA r2 u v * pB r1 u v)) by (apply Rgt_not_eq, den_pos, Hv).
  rewrite (csqrt_some (pA r2 u v * pB r1 u v * (1 - E^2))) by lra.
  fold (pk2 r1 r2 u v). rewrite (Rabs_pos_eq (pk2 r1 r2 u v)) by apply Km.
  rewrite csqrt_some by apply Km. rewrite pow2_sqrt by apply Km. rewrite (k_sq a E L Q Ha HE HL HQ).
  rewrite !(ellipk_checked HX) by (apply Km || apply (pkt a E L Q Ha HE HL HQ)). cnum.
  rewrite !cdiv_some by lra. reflexivity.
Qed.
Definition plr (qr l : R) : R := pr r1 r2 u v (xi (X := X) r1 r2 u v) (ur * l + qr).
Definition plth (qth l : R) : R := th (pzm a E L Q) (psi_p (X := X) a E L Q) (put a E L Q * l + (qth + PI / 2)).
Lemma plr_derive qr l : exists d, is_derive (plr qr) l d /\ d^2 = radial_potential a E L Q (plr qr l).
Proof.
  set (K := ellK (pk2 r1 r2 u v)).
  pose proof (pr_derive r1 r2 u v Hv (2 * K / PI) (xi (X := X) r1 r2 u v) (xi_derive HX r1 r2 u v Hr Hv) (ur * l + qr)) as D.
  eexists. split.
  - unfold plr. apply (is_derive_comp (pr r1 r2 u v (xi r1 r2 u v)) (fun l => ur * l + qr)); [exact D|].
    instantiate (1 := ur). auto_derive; [trivial|ring].
  - rewrite HF. unfold plr.
    rewrite <- (pr_ode r1 r2 u v Hr Hv (2 * K / PI) (xi (X := X) r1 r2 u v) (ur * l + qr) (1 - E^2) ur).
    + reflexivity.
    + pose proof (w_pur r1 r2 u v Hr Hv E) as W. fold K in W. rewrite Rmult_comm, W.
      apply pow2_sqrt. left. exact (ABc_pos r1 r2 u v Hv E HE).
Qed.
Lemma plth_derive qth l : exists d, is_derive (plth qth) l d /\ d^2 = polar_potential a E L Q (plth qth l).
Proof.
  set (K := ellK (kt2 (a^2 * (1 - E^2)) (pzm a E L Q) (pbeta a E L Q))).
  pose proof (pHz a E L Q Ha HE HL HQ) as Hz. pose proof (pHb a E L Q Ha HE HL HQ) as Hb. pose proof (pHm a E L Q Ha HE HL HQ) as Hm.
  pose proof (th_derive _ _ _ Hz _ _ (psi_p_derive HX a E L Q Ha HE HL HQ) (ut * l + (qth + PI / 2))) as D.
  eexists. split.
  - unfold plth. apply (is_derive_comp (th (pzm a E L Q) (psi_p a E L Q)) (fun l => ut * l + (qth + PI / 2))); [exact D|].
    instantiate (1 := ut). auto_derive; [trivial|ring].
  - unfold plth. rewrite <- (th_eq a E L Q Ha HE HL HQ). reflexivity.
Qed.
Lemma traj_run qt qr qth qph : exists T1 T2 T3 T4,
  plunging_trajectory (Some a) (Some E) (Some L) (Some Q) (Some qt, Some qr, Some qth, Some qph) None "natural" "natural"
  = Ret (T1, T2, T3, T4) /\
  forall l, T2 (Some l) = Ret (Some (plr qr l)) /\ T3 (Some l) = Ret (Some (plth qth l)).
Proof.
  unfold plunging_trajectory. rewrite HR. cbn [bind]. unfold complex_plunge_trajectory.
  change (check_units None "natural" "natural") with (Ret tt). cbn [bind]. rewrite freq_run. cbn [bind].
  unfold plunging_radial_solutions_complex. rewrite HR. cbn [bind fst snd]. cbv zeta. rewrite freq_run. cbn [bind].
  unfold plunging_polar_solutions. rewrite freq_run. cbn [bind].
  do 4 eexists. split; [reflexivity|]. intros l. cbv beta. split.
  - change (distance_conversion (T := option R) "natural") with (Ret (fun (d : option R) (_ : option (option R)) => d)). cbn [bind].
    rewrite (A_run r1 r2 u v Hv), (B_run r1 r2 u v Hv). cnum. f_equal.
    apply (plunge_r_run HX r1 r2 u v Hr Hv).
  - cnum. rewrite cdiv_some by lra. f_equal. apply (theta_run HX a E L Q Ha HE HL HQ).
Qed.
End Sol.

(** a complex-root plunge of a bound particle *)
Definition complex_plunge (r1 r2 : R) : Prop :=
  exists c3 c4, plunging_radial_roots (Some a) (Some E) (Some L) (Some Q) = Ret (ComplexRoots (Some r1) (Some r2) c3 c4).
Lemma complex_plunge_inv r1 r2 : complex_plunge r1 r2 -> exists u v, r1 <= r2 /\ 0 < v /\
  plunging_radial_roots (Some a) (Some E) (Some L) (Some Q)
    = Ret (ComplexRoots (Some r1) (Some r2) (Some u, Some (- v)) (Some u, Some v)) /\
  forall r, radial_potential a E L Q r = (1 - E^2) * (r2 - r) * (r - r1) * ((r - u)^2 + v^2).
Proof.
  intros (c3 & c4 & H). destruct (C36_returned_roots HP a E L Q _ H) as (_ & [(s1 & s2 & s3 & s4 & K & _)|(s1 & s2 & u & v & K & F & O & Hv)]).
  - discriminate.
  - assert (s1 = r1 /\ s2 = r2) as [-> ->] by (split; congruence). exists u, v. rewrite H, K. auto.
Qed.

Definition plunge_run qt qr qth qph :=
  plunging_trajectory (Some a) (Some E) (Some L) (Some Q) (Some qt, Some qr, Some qth, Some qph) None "natural" "natural".
(** the radial and polar coordinates of the returned trajectory are defined at every Mino time *)
Definition coordinates (out : outcome ((@traj (option R)) * (@traj (option R)) * (@traj (option R)) * (@traj (option R))))
    (r theta : R -> R) : Prop :=
  exists T1 T2 T3 T4, out = Ret (T1, T2, T3, T4) /\
  forall l, T2 (Some l) = Ret (Some (r l)) /\ T3 (Some l) = Ret (Some (theta l)).
Theorem C39_plunges_are_defined r1 r2 qt qr qth qph : complex_plunge r1 r2 ->
  (exists ur ut, plunging_mino_frequencies (Some a) (Some E) (Some L) (Some Q) = Ret (Some ur, Some ut) /\ 0 < ur /\ 0 < ut) /\
  exists r theta, coordinates (plunge_run qt qr qth qph) r theta.
Proof.
  intros C. destruct (complex_plunge_inv r1 r2 C) as (u & v & Hr & Hv & HR & HF). split.
  - do 2 eexists. refine (conj (freq_run r1 r2 u v Hr Hv HR) (conj _ _)).
    + exact (pur_pos r1 r2 u v Hr Hv E HE).
    + exact (put_pos a E L Q Ha HE HL HQ).
  - do 2 eexists. exact (traj_run r1 r2 u v Hr Hv HR qt qr qth qph).
Qed.
Lemma coordinates_are r1 r2 u v qt qr qth qph r theta (Hr : r1 <= r2) (Hv : 0 < v)
  (HR : plunging_radial_roots (Some a) (Some E) (Some L) (Some Q)
              = Ret (ComplexRoots (Some r1) (Some r2) (Some u, Some (- v)) (Some u, Some v))) :
  coordinates (plunge_run qt qr qth qph) r theta ->
  forall l, r l = plr r1 r2 u v qr l /\ theta l = plth qth l.
Proof.
  intros (T1 & T2 & T3 & T4 & H & K) l. destruct (traj_run r1 r2 u v Hr Hv HR qt qr qth qph) as (U1 & U2 & U3 & U4 & H' & K').
  unfold plunge_run in H. rewrite H in H'. apply Ret_inj in H'. apply pair_equal_spec in H' as [H' _]. apply pair_equal_spec in H' as [H' E3].
  apply pair_equal_spec in H' as [_ E2]. subst U2 U3. destruct (K l) as [K1 K2], (K' l) as [K1' K2'].
  rewrite K1 in K1'. rewrite K2 in K2'. split; congruence.
Qed.
Theorem C39_plunge_bounds r1 r2 qt qr qth qph r theta : complex_plunge r1 r2 ->
  coordinates (plunge_run qt qr qth qph) r theta ->
  forall l, r1 <= r l <= r2 /\ 0 < theta l < PI /\
  forall z, 0 <= z <= 1 -> polar_polynomial a E L Q z = 0 -> cos (theta l) ^ 2 <= z.
Proof.
  intros C H l. destruct (complex_plunge_inv r1 r2 C) as (u & v & Hr & Hv & HR & HF).
  destruct (coordinates_are r1 r2 u v qt qr qth qph r theta Hr Hv HR H l) as [-> ->].
  pose proof (pHz a E L Q Ha HE HL HQ) as Hz. split; [|split].
  - apply pr_bounds; assumption.
  - unfold plth. set (q := put a E L Q * l + (qth + PI / 2)).
    pose proof (sin_th_pos _ Hz (psi_p (X := X) a E L Q) q) as S. pose proof (acos_bound (cth (pzm a E L Q) (psi_p (X := X) a E L Q) q)) as B.
    fold (th (pzm a E L Q) (psi_p (X := X) a E L Q) q) in B. set (t := th (pzm a E L Q) (psi_p (X := X) a E L Q) q) in *. clearbody t.
    split; apply Rnot_le_lt; intros G.
    + replace t with 0 in S by lra. rewrite sin_0 in S. lra.
    + replace t with PI in S by lra. rewrite sin_PI in S. lra.
  - intros z Z0 Z. unfold plth. rewrite cos_th by exact Hz. rewrite (p_factor a E L Q Ha HE HL HQ) in Z.
    pose proof (cth_sq_bound _ Hz (psi_p (X := X) a E L Q) (put a E L Q * l + (qth + PI / 2))) as B.
    apply Rmult_integral in Z as [Z|Z]; [lra|]. exfalso.
    pose proof (pz_order a E L Q Ha HE HL HQ) as [_ Z1]. pose proof (pb_pos a E Ha HE) as B0. unfold pbeta in Z.
    assert (0 < a^2 * (1 - E^2) * (pzp a E L Q - z)) by (apply Rmult_lt_0_compat; lra). lra.
Qed.
(** where the phases put the particle *)
Theorem C39_plunge_phases r1 r2 qt qr qth qph r theta ur ut : complex_plunge r1 r2 ->
  coordinates (plunge_run qt qr qth qph) r theta ->
  plunging_mino_frequencies (Some a) (Some E) (Some L) (Some Q) = Ret (Some ur, Some ut) ->
  forall (l : R) (k : Z),
  (ur * l + qr = IZR k * (2 * PI) -> r l = r1) /\
  (ur * l + qr = PI + IZR k * (2 * PI) -> r l = r2) /\
  (ut * l + qth = IZR k * (2 * PI) -> 0 <= cos (theta l) /\ polar_polynomial a E L Q (cos (theta l) ^ 2) = 0) /\
  (ut * l + qth = PI / 2 + IZR k * (2 * PI) -> theta l = PI / 2).
Proof.
  intros C H F l k. destruct (complex_plunge_inv r1 r2 C) as (u & v & Hr & Hv & HR & HF).
  destruct (coordinates_are r1 r2 u v qt qr qth qph r theta Hr Hv HR H l) as [-> ->].
  rewrite (freq_run r1 r2 u v Hr Hv HR) in F. apply Ret_inj in F. apply pair_equal_spec in F as [F1 F2].
  assert (ur = pur r1 r2 u v E) as -> by congruence. assert (ut = put a E L Q) as -> by congruence. clear F1 F2.
  pose proof (pHz a E L Q Ha HE HL HQ) as Hz. pose proof (pHm a E L Q Ha HE HL HQ) as Hm. pose proof PI_RGT_0 as HPI.
  pose proof (pk2_bounds r1 r2 u v Hr Hv) as Km.
  assert (PS : forall q k, xi (X := X) r1 r2 u v (q + IZR k * PI) = xi (X := X) r1 r2 u v q + IZR k * PI).
  { intros q j. unfold xi. rewrite <- (amX_shift HX) by exact Km. f_equal. field. lra. }
  assert (P0 : xi (X := X) r1 r2 u v 0 = 0).
  { unfold xi. rewrite Rmult_0_r, Rplus_0_l. apply (amX_0 HX), Km. }
  assert (TS : forall q k, psi_p (X := X) a E L Q (q + IZR k * PI) = psi_p (X := X) a E L Q q + IZR k * PI).
  { intros q j. unfold psi_p. rewrite <- (amX_shift HX) by exact Hm. f_equal. field. lra. }
  assert (T0 : psi_p (X := X) a E L Q 0 = 0).
  { unfold psi_p. rewrite Rmult_0_r, Rplus_0_l. apply (amX_0 HX), Hm. }
  assert (T1 : psi_p (X := X) a E L Q (PI / 2) = PI / 2).
  { unfold psi_p. etransitivity; [|exact (amX_K HX _ Hm)]. f_equal. field. lra. }
  refine (conj _ (conj _ (conj _ _))); intros G.
  - unfold plr. rewrite G. unfold pr. replace (IZR k * (2 * PI)) with (0 + IZR (2 * k) * PI) by (rewrite mult_IZR; ring).
    rewrite PS, P0, Rplus_0_l. rewrite mult_IZR. replace (2 * IZR k * PI) with (0 + 2 * IZR k * PI) by ring. rewrite cos_period_Z, cos_0.
    pose proof (prx_low r1 r2 u v Hv 1 ltac:(lra)) as Z. replace (pB r1 u v * (1 - 1) * (r2 - r1)) with 0 in Z by ring. unfold Rdiv in Z. lra.
  - unfold plr. rewrite G. unfold pr. replace (PI + IZR k * (2 * PI)) with (0 + IZR (2 * k + 1) * PI) by (rewrite plus_IZR, mult_IZR; ring).
    rewrite PS, P0, Rplus_0_l. rewrite plus_IZR, mult_IZR. replace ((2 * IZR k + 1) * PI) with (PI + 2 * IZR k * PI) by ring. rewrite cos_period_Z, cos_PI.
    pose proof (prx_high r1 r2 u v Hv (-1) ltac:(lra)) as Z. replace (pA r2 u v * (1 + -1) * (r2 - r1)) with 0 in Z by ring. unfold Rdiv in Z. lra.
  - unfold plth. rewrite cos_th by exact Hz. replace (put a E L Q * l + (qth + PI / 2)) with (PI / 2 + IZR (2 * k) * PI) by (rewrite mult_IZR; lra).
    unfold cth. rewrite TS, T1, mult_IZR. replace (PI / 2 + 2 * IZR k * PI) with (PI / 2 + 2 * IZR k * PI) by ring. rewrite sin_period_Z, sin_PI2, Rmult_1_r.
    split; [apply sqrt_pos|]. rewrite pow2_sqrt by apply Hz. rewrite (p_factor a E L Q Ha HE HL HQ). ring.
  - unfold plth, th. replace (put a E L Q * l + (qth + PI / 2)) with (0 + IZR (2 * k + 1) * PI) by (rewrite plus_IZR, mult_IZR; lra).
    unfold cth. rewrite TS, T0, plus_IZR, mult_IZR. replace (0 + (2 * IZR k + 1) * PI) with (PI + 2 * IZR k * PI) by ring.
    rewrite sin_period_Z, sin_PI, Rmult_0_r. apply acos_0.
Qed.
(** ** C40 *)
Theorem C40_radial_and_polar_equations r1 r2 qt qr qth qph r theta : complex_plunge r1 r2 ->
  coordinates (plunge_run qt qr qth qph) r theta ->
  forall l, exists r' theta', is_derive r l r' /\ is_derive theta l theta' /\
  r' ^ 2 = radial_potential a E L Q (r l) /\
  sin (theta l) <> 0 /\ theta' ^ 2 = polar_potential a E L Q (theta l).
Proof.
  intros C H l. destruct (complex_plunge_inv r1 r2 C) as (u & v & Hr & Hv & HR & HF).
  pose proof (coordinates_are r1 r2 u v qt qr qth qph r theta Hr Hv HR H) as Eq.
  destruct (plr_derive r1 r2 u v Hr Hv HF qr l) as (d1' & D1 & O1). destruct (plth_derive qth l) as (d2' & D2 & O2).
  exists d1', d2'. destruct (Eq l) as [-> ->].
  refine (conj _ (conj _ (conj O1 (conj _ O2)))).
  - eapply is_derive_ext; [|exact D1]. intros s. now destruct (Eq s) as [-> _].
  - eapply is_derive_ext; [|exact D2]. intros s. now destruct (Eq s) as [_ ->].
  - apply Rgt_not_eq. apply sin_th_pos, pHz; assumption.
Qed.
(** the polar parts of the time and azimuth equations: derivatives with respect to the
    polar phase q = upsilon_theta * lambda + const *)
Theorem C40_polar_parts r1 r2 : complex_plunge r1 r2 ->
  exists ur ut Th Tt Tp theta t phi,
  plunging_mino_frequencies (Some a) (Some E) (Some L) (Some Q) = Ret (Some ur, Some ut) /\
  plunging_polar_solutions (Some a) (Some E) (Some L) (Some Q) = Ret (Th, Tt, Tp) /\
  computes Th theta /\ computes Tt t /\ computes Tp phi /\
  forall q, sin (theta q) <> 0 /\
  is_derive t q (- a^2 * E * sin (theta q) ^ 2 / ut) /\
  is_derive phi q (L / sin (theta q) ^ 2 / ut).
Proof.
  intros C. destruct (complex_plunge_inv r1 r2 C) as (u & v & Hr & Hv & HR & HF).
  pose proof (freq_run r1 r2 u v Hr Hv HR) as F. do 8 eexists. split; [exact F|]. unfold plunging_polar_solutions. rewrite F. cbn [bind].
  split; [reflexivity|]. split; [|split; [|split]].
  - intros q. apply (theta_run HX a E L Q Ha HE HL HQ).
  - intros q. apply (t_theta_run HX a E L Q Ha HE HL HQ).
  - intros q. apply (phi_theta_run HX a E L Q Ha HE HL HQ).
  - intros q. split; [|split].
    + apply Rgt_not_eq, sin_th_pos, pHz; assumption.
    + exact (ptth_derive HX a E L Q Ha HE HL HQ q).
    + exact (pphth_derive HX a E L Q Ha HE HL HQ q).
Qed.
End Plunge.

(** a non-equatorial complex-root plunge meeting the hypotheses *)
Example plunge_case {X : External R} (HP : polyroots_spec X) :
  complex_plunge (3/5) (3/5) (2/75) (2/9) (1/8) 3 /\
  forall r, radial_potential (3/5) (3/5) (2/75) (2/9) r = (1 - (3/5)^2) * (3 - r) * (r - 1/8) * ((r - 0)^2 + (sqrt (1/3))^2).
Proof.
  assert (V : sqrt (1/3) ^ 2 = 1/3) by (apply pow2_sqrt; lra).
  assert (F : forall r, radial_potential (3/5) (3/5) (2/75) (2/9) r = (1 - (3/5)^2) * (3 - r) * (r - 1/8) * ((r - 0)^2 + (sqrt (1/3))^2)).
  { intros r. rewrite V. unfold radial_potential, Delta. field. }
  split; [|exact F]. do 2 eexists. unfold plunging_radial_roots.
  rewrite (split_two HP (3/5) (3/5) (2/75) (2/9) (1/8) 3 0 (sqrt (1/3))); [reflexivity|lra|lra|apply sqrt_lt_R0; lra|exact F].
Qed.
Print Assumptions C39_plunge_bounds.
Print Assumptions C40_radial_and_polar_equations.
Print Assumptions C40_polar_parts.
Print Assumptions C41_plunging_polar_roots.
