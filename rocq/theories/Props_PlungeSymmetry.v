(** * C94: the frequencies of a plunge are the frequencies of its motion, and plunges have the symmetries of the spacetime *)
From Coq Require Import Reals Lra Lia ZArith String List.
From Coquelicot Require Import Coquelicot.
From Verif Require Import Num Outcome External Checked ExternalSpec.
From Verif Require Import Model_Constants Model_Frequencies Model_Stable Model_Plunge.
From Verif Require Import Spec SpecElliptic Elliptic Props_Constants P_Radial P_Polar P_Traj P_Traj2 Props_Trajectory Props_Trajectory2.
From Verif Require Import P_Plunge P_Plunge2 P_Plunge3 Props_Plunge2 Props_Plunge3 Props_RealPlunge Props_Symmetry Props_PlungeRestart Props_HorizonTime.
Open Scope R_scope.

(** the symmetries, stated on the functions returned by plunging_trajectory for all initial phases.
    rin is the inner turning point. *)
Definition plunge_symmetries {X : External R} (a E L Q ur ut rin : R) : Prop :=
  0 < ur /\ 0 < ut /\
  forall qt qr qth qph r theta, coordinates (plunge_run a E L Q qt qr qth qph) r theta ->
  (* ur and ut are the frequencies of the radial and of the polar motion *)
  (forall l (k : Z), r (l + IZR k * (2 * PI / ur)) = r l /\ theta (l + IZR k * (2 * PI / ut)) = theta l) /\
  (forall l, theta (l + PI / ut) = PI - theta l) /\
  (forall l, r l = rin <-> exists k : Z, ur * l + qr = IZR k * (2 * PI)) /\
  (* advancing the phases moves along the same orbit *)
  (forall s qt' qph', coordinates (plunge_run a E L Q qt' (qr + ur * s) (qth + ut * s) qph') (fun l => r (l + s)) (fun l => theta (l + s))) /\
  (* reversing them runs it backwards *)
  (forall qt' qph', coordinates (plunge_run a E L Q qt' (- qr) (- qth) qph') (fun l => r (- l)) (fun l => theta (- l))) /\
  (* half a polar turn reflects it in the equatorial plane *)
  (forall qt' qph', coordinates (plunge_run a E L Q qt' qr (qth + PI) qph') r (fun l => PI - theta l)).

Section Gen.
Context {X : External R} (a E L Q ur ut rin : R) (f g : R -> R).
Context (U1 : 0 < ur) (U2 : 0 < ut).
Context (Fs : forall q k, f (q + IZR k * (2 * PI)) = f q) (Fe : forall q, f (- q) = f q) (Fi : forall q, f q = rin <-> exists k, q = IZR k * (2 * PI)).
Context (Gh : forall q, g (q + PI) = PI - g q) (Ge : forall q, g (- q) = g q) (Gs : forall q k, g (q + IZR k * (2 * PI)) = g q).
Context (Run : forall qt qr qth qph, exists T1 T2 T3 T4, plunge_run a E L Q qt qr qth qph = Ret (T1, T2, T3, T4) /\
   forall l, T2 (Some l) = Ret (Some (f (ur * l + qr))) /\ T3 (Some l) = Ret (Some (g (ut * l + qth)))).
Context (Are : forall qt qr qth qph r theta, coordinates (plunge_run a E L Q qt qr qth qph) r theta -> forall l, r l = f (ur * l + qr) /\ theta l = g (ut * l + qth)).

Lemma coordinates_ext out (r r' th th' : R -> R) : (forall l, r l = r' l /\ th l = th' l) -> coordinates out r th -> coordinates out r' th'.
Proof. intros H (T1 & T2 & T3 & T4 & O & K). exists T1, T2, T3, T4. split; [exact O|]. intros l. destruct (H l) as (<- & <-). apply K. Qed.

Lemma gen_symmetries : plunge_symmetries a E L Q ur ut rin.
Proof.
  refine (conj U1 (conj U2 _)). intros qt qr qth qph r theta H. pose proof (Are _ _ _ _ _ _ H) as A.
  assert (R0 : forall qt' qr' qth' qph', coordinates (plunge_run a E L Q qt' qr' qth' qph') (fun l => f (ur * l + qr')) (fun l => g (ut * l + qth'))) by (intros; apply Run).
  refine (conj _ (conj _ (conj _ (conj _ (conj _ _))))).
  - intros l k. destruct (A l) as (-> & ->). destruct (A (l + IZR k * (2 * PI / ur))) as (-> & _). destruct (A (l + IZR k * (2 * PI / ut))) as (_ & ->).
    replace (ur * (l + IZR k * (2 * PI / ur)) + qr) with (ur * l + qr + IZR k * (2 * PI)) by (field; lra).
    replace (ut * (l + IZR k * (2 * PI / ut)) + qth) with (ut * l + qth + IZR k * (2 * PI)) by (field; lra). now rewrite Fs, Gs.
  - intros l. destruct (A l) as (_ & ->). destruct (A (l + PI / ut)) as (_ & ->). rewrite <- Gh. f_equal. field. lra.
  - intros l. destruct (A l) as (-> & _). apply Fi.
  - intros s qt' qph'. eapply coordinates_ext; [|apply R0]. intros l. destruct (A (l + s)) as (-> & ->). split; f_equal; ring.
  - intros qt' qph'. eapply coordinates_ext; [|apply R0]. intros l. destruct (A (- l)) as (-> & ->). rewrite <- Fe, <- Ge. split; f_equal; ring.
  - intros qt' qph'. eapply coordinates_ext; [|apply R0]. intros l. destruct (A l) as (-> & ->). rewrite <- Gh. split; f_equal; ring.
Qed.
End Gen.

Section S.
Context {X : External R} (HX : special_spec X) (HP : polyroots_spec X).

Lemma amX_turns m w j : 0 <= m < 1 -> amX m w = IZR j * PI -> w = IZR j * (2 * ellK m).
Proof.
  intros Hm H. destruct (amX_spec HX m w Hm) as (A & _). rewrite H in A. rewrite <- A, <- (Rplus_0_l (IZR j * PI)), ellF_shift, ellF_0 by lra. ring.
Qed.
Lemma sin_zero y : sin y = 0 -> exists j : Z, y = IZR j * PI.
Proof. intros H. apply sin_eq_0_0 in H. exact H. Qed.

(** ** C94 *)
Theorem C94_complex_plunge a E L Q r1 r2 : a <> 0 -> E^2 < 1 -> L <> 0 -> 0 <= Q -> r1 < r2 -> complex_plunge a E L Q r1 r2 ->
  exists ur ut, plunging_mino_frequencies (Some a) (Some E) (Some L) (Some Q) = Ret (Some ur, Some ut) /\
  plunge_symmetries a E L Q ur ut r1.
Proof.
  intros Ha HE HL HQ R12 C. destruct (complex_plunge_inv HP a E L Q r1 r2 C) as (u & v & Hr & Hv & HR & HF).
  do 2 eexists. split; [exact (freq_run HX a E L Q Ha HE HL HQ r1 r2 u v Hr Hv HR)|].
  pose proof (pk2_bounds r1 r2 u v Hr Hv) as Km. pose proof (pHm a E L Q Ha HE HL HQ) as Hm. pose proof PI_RGT_0 as Pp.
  set (K := ellK (pk2 r1 r2 u v)). assert (Kp : 0 < K) by (apply ellK_pos; lra).
  set (g := fun q => th (pzm a E L Q) (psi_p (X := X) a E L Q) (q + PI / 2)).
  assert (XO : forall q, xi (X := X) r1 r2 u v (- q) = - xi (X := X) r1 r2 u v q).
  { intros q. unfold xi. rewrite <- (amX_odd HX) by exact Km. f_equal. ring. }
  assert (PO : forall q, psi_p (X := X) a E L Q (- q) = - psi_p (X := X) a E L Q q).
  { intros q. unfold psi_p. rewrite <- (amX_odd HX) by exact Hm. f_equal. ring. }
  assert (GH : forall q, g (q + PI) = PI - g q).
  { intros q. unfold g, th, cth. replace (q + PI + PI / 2) with (q + PI / 2 + IZR 1 * PI) by ring. rewrite (psi_shift HX a E L Q Ha HE HL HQ), Rmult_1_l, neg_sin.
    rewrite Ropp_mult_distr_r_reverse. apply acos_opp. }
  apply (gen_symmetries a E L Q _ _ r1 (fun q => pr r1 r2 u v (xi (X := X) r1 r2 u v) q) g).
  - exact (pur_pos r1 r2 u v Hr Hv E HE).
  - exact (put_pos a E L Q Ha HE HL HQ).
  - intros q k. exact (pr_shift HX r1 r2 u v Hr Hv q k).
  - intros q. unfold pr. rewrite XO, cos_neg. reflexivity.
  - intros q. unfold pr. set (y := xi (X := X) r1 r2 u v q). pose proof (prx_low r1 r2 u v Hv (cos y) (COS_bound y)) as PL. pose proof (pden_pos r1 r2 u v Hv (cos y) (COS_bound y)) as PD. pose proof (pB_pos r1 u v Hv) as PB.
    split.
    + intros Z. rewrite Z in PL. assert (C1 : cos y = 1).
      { assert (N : pB r1 u v * (1 - cos y) * (r2 - r1) = 0). { apply (Rmult_eq_reg_r (/ pden r1 r2 u v (cos y))); [|apply Rinv_neq_0_compat; lra]. unfold Rdiv in PL. lra. }
        apply Rmult_integral in N as [N|N]; [apply Rmult_integral in N as [N|N]|]; lra. }
      assert (S1 : sin y = 0). { pose proof (sin2_cos2 y) as SC. rewrite C1 in SC. unfold Rsqr in SC. apply Rsqr_0_uniq. unfold Rsqr. lra. }
      destruct (same_angle y 0) as (k & Hk); [now rewrite cos_0 | now rewrite sin_0|]. exists k.
      assert (T : amX (X := X) (pk2 r1 r2 u v) (2 * K / PI * q + 0) = IZR (2 * k) * PI) by (rewrite mult_IZR; unfold y, xi in Hk; fold K in Hk; lra).
      apply amX_turns in T; [|exact Km]. fold K in T. rewrite mult_IZR in T. apply (Rmult_eq_reg_l (2 * K / PI)); [|apply Rgt_not_eq, Rdiv_lt_0_compat; lra].
      transitivity (2 * IZR k * (2 * K)); [lra | field; lra].
    + intros (k & Hk). assert (Y0 : cos y = 1). { unfold y. rewrite Hk. replace (IZR k * (2 * PI)) with (0 + IZR k * (2 * PI)) by ring. replace (IZR k * (2 * PI)) with (IZR (2 * k) * PI) by (rewrite mult_IZR; ring). rewrite (xi_shift HX r1 r2 u v Hr Hv).
        unfold xi. rewrite Rmult_0_r, Rplus_0_r, (amX_0 HX) by exact Km. rewrite mult_IZR. replace (0 + 2 * IZR k * PI) with (0 + IZR k * (2 * PI)) by ring. rewrite cos_red. apply cos_0. }
      rewrite Y0 in *. replace (1 - 1) with 0 in PL by ring. unfold Rdiv in PL. rewrite Rmult_0_r, !Rmult_0_l in PL. lra.
  - exact GH.
  - intros q. unfold g, th, cth. do 2 f_equal. replace (- q + PI / 2) with (- (q + PI / 2) + IZR 1 * PI) by (simpl; field).
    rewrite (psi_shift HX a E L Q Ha HE HL HQ), PO, Rmult_1_l, Rplus_comm. apply sin_PI_x.
  - intros q k. replace (q + IZR k * (2 * PI)) with (q + IZR (2 * k) * PI) by (rewrite mult_IZR; ring). unfold g, th, cth. do 2 f_equal.
    replace (q + IZR (2 * k) * PI + PI / 2) with (q + PI / 2 + IZR (2 * k) * PI) by ring. rewrite (psi_shift HX a E L Q Ha HE HL HQ), mult_IZR. replace (2 * IZR k * PI) with (IZR k * (2 * PI)) by ring. now rewrite sin_red.
  - intros qt qr qth qph. destruct (traj_run HX a E L Q Ha HE HL HQ r1 r2 u v Hr Hv HR qt qr qth qph) as (T1 & T2 & T3 & T4 & O & Kk).
    exists T1, T2, T3, T4. split; [exact O|]. intros l. destruct (Kk l) as (-> & ->). unfold g. rewrite Rplus_assoc. split; reflexivity.
  - intros qt qr qth qph r theta H l. destruct (coordinates_are HX a E L Q Ha HE HL HQ r1 r2 u v qt qr qth qph r theta Hr Hv HR H l) as (-> & ->).
    unfold g. rewrite Rplus_assoc. split; reflexivity.
Qed.

Theorem C94_real_plunge a E L Q r1 r2 r3 r4 : 0 < a^2 < 1 -> E^2 < 1 -> L <> 0 -> 0 <= Q -> real_plunge a E L Q r1 r2 r3 r4 -> r2 < r1 ->
  exists ur ut, plunging_mino_frequencies (Some a) (Some E) (Some L) (Some Q) = Ret (Some ur, Some ut) /\
  plunge_symmetries a E L Q ur ut r2.
Proof.
  intros Ha HE HL HQ HC R12. destruct (real_signs HP a E L Q Ha HE HQ _ _ _ _ HC) as (H2 & H1 & H3 & Hs & Hm & Ho).
  assert (An : a <> 0) by (intros ->; lra). pose proof PI_RGT_0 as Pp.
  exists (rur E r1 r2 r3 r4), (rut a E L Q). split.
  { destruct (freqs_real HP HX a E L Q Ha HE HL HQ r1 r2 r3 r4 HC) as (up & ga & Fr & _).
    unfold plunging_mino_frequencies. rewrite (proj1 HC). cbn [bind]. rewrite (polar_roots_run HP a E L Q Ha HE HL HQ). cbn [bind]. rewrite Fr. reflexivity. }
  pose proof (Hkt a E L Q Ha HE HL HQ) as Kt.
  set (zm := pzm a E L Q) in *. set (be := pbeta a E L Q) in *.
  set (K := ellK (kr2 r1 r2 r3 r4)). assert (Kp : 0 < K) by (apply ellK_pos; lra).
  set (g := th zm (psi_t (X := X) a E zm be)).
  set (m := kt2 (a^2 * (1 - E^2)) zm be) in *.
  apply (gen_symmetries a E L Q _ _ r2 (rho r1 r2 r3 (psi_r (X := X) r1 r2 r3 r4)) g).
  - exact (rur_pos HP a E L Q Ha HE HQ r1 r2 r3 r4 HC).
  - exact (rut_pos a E L Q Ha HE HL HQ).
  - intros q k. apply rho_shift; assumption.
  - intros q. unfold rho, sn2, psi_r. f_equal. fold K. replace (K / PI * - q + 0) with (- (K / PI * q + 0)) by ring. rewrite (amX_odd HX) by assumption. rewrite sin_neg. ring.
  - intros q. unfold rho. pose proof (rx_alt (1 - E^2) r1 r2 r3 r4 Hs Ho (sn2 (psi_r (X := X) r1 r2 r3 r4) q) (sn2_bound _ _)) as RA.
    pose proof (hr_lt1 (1 - E^2) r1 r2 r3 r4 Hs Ho) as H1'. set (w := sn2 (psi_r (X := X) r1 r2 r3 r4) q) in *. assert (W : 0 <= w <= 1) by apply sn2_bound.
    pose proof (hden _ w H1' W) as HD. assert (N23 : r2 - r3 <> 0) by (intros Z; rewrite Z in Ho; lra). assert (N13 : r1 - r3 <> 0) by (intros Z; rewrite Z in Ho; lra).
    assert (EQ : rx r1 r2 r3 w = r2 <-> w = 0).
    { rewrite RA. split; intros Z.
      - assert (Z' : (r2 - r3) * (hr r1 r2 r3 * w) = 0). { apply (f_equal (fun y => (y - r3) * (1 - hr r1 r2 r3 * w))) in Z. field_simplify in Z; [|lra]. lra. }
        apply Rmult_integral in Z' as [Z'|Z']; [lra|]. apply Rmult_integral in Z' as [Z'|Z']; [|exact Z']. exfalso. unfold hr in Z'. apply Rmult_integral in Z' as [Z'|Z']; [lra|]. now apply (Rinv_neq_0_compat _ N13).
      - rewrite Z, Rmult_0_r. field. }
    rewrite EQ. unfold w, sn2. split.
    + intros Z. assert (S0 : sin (psi_r (X := X) r1 r2 r3 r4 q) = 0) by (apply Rsqr_0_uniq; rewrite Rsqr_pow2; exact Z).
      apply sin_zero in S0 as (j & Hj). exists j. unfold psi_r in Hj. fold K in Hj. apply amX_turns in Hj; [|exact Hm]. fold K in Hj.
      apply (Rmult_eq_reg_l (K / PI)); [|apply Rgt_not_eq, Rdiv_lt_0_compat; lra]. transitivity (IZR j * (2 * K)); [lra | field; lra].
    + intros (k & ->). unfold psi_r. fold K. replace (K / PI * (IZR k * (2 * PI)) + 0) with (0 + IZR k * (2 * K)) by (field; lra).
      unfold K. rewrite (amX_shift HX), (amX_0 HX) by exact Hm. rewrite Rplus_0_l. rewrite (sin_eq_0_1 (IZR k * PI)) by (now exists k). ring.
  - intros q. unfold g, th, cth. replace (q + PI) with (q + IZR 1 * PI) by ring. rewrite (psi_t_shift HX a E zm be Kt), Rmult_1_l, neg_sin, Ropp_mult_distr_r_reverse. apply acos_opp.
  - intros q. unfold g, th, cth, psi_t. do 2 f_equal. fold m. replace (2 * ellK m / PI * - q + ellK m) with (- (2 * ellK m / PI * q + ellK m) + IZR 1 * (2 * ellK m)) by (simpl; ring).
    rewrite (amX_shift HX) by assumption. rewrite (amX_odd HX) by assumption. rewrite Rmult_1_l, Rplus_comm. apply sin_PI_x.
  - intros q k. apply th_shift; assumption.
  - intros qt qr qth qph. destruct (run_real HP HX a E L Q Ha HE HL HQ r1 r2 r3 r4 HC qt qr qth qph) as (T1 & T2 & T3 & T4 & O & Kk & _). exists T1, T2, T3, T4. split; [exact O | exact Kk].
  - intros qt qr qth qph r theta H. exact (coords_real HP HX a E L Q Ha HE HL HQ r1 r2 r3 r4 HC qt qr qth qph r theta H).
Qed.
End S.

(** both kinds of plunge occur *)
Example C94_case {X : External R} (HP : polyroots_spec X) (HX : special_spec X) :
  (exists r1 r2, real_plunge (1/2) (67/72) (403/144) (5/3) r1 r2 6 6 /\ r2 < r1) /\
  complex_plunge (3/5) (3/5) (2/75) (2/9) (1/8) 3.
Proof.
  split.
  - destruct (C88_case HP HX) as ((r1 & r2 & r & th & l0 & C & M & Z2 & K & D & B) & _). exists r1, r2. split; [exact C|].
    destruct (C58_case HP HX) as (A1 & A2 & A3 & A4 & _).
    destruct (C58_radial_and_polar_equations HP HX _ _ _ _ A1 A2 A3 A4 r1 r2 6 6 C 0 0 0 0) as (r' & th' & K' & Z0 & _ & _ & _ & BB).
    destruct (real_signs HP _ _ _ _ A1 A2 A4 r1 r2 6 6 C) as (H2 & _).
    destruct (Req_dec r1 r2) as [Q|Q]; [|lra]. exfalso.
    destruct (C58_time_and_azimuth_equations HP HX _ _ _ _ A1 A2 A3 A4 r1 r2 6 6 C 0 0 0 0 r th M Z2 K D) as (HH & _).
    pose proof (HH _ (outer_Delta (1/2) A1)). lra.
  - destruct (C88_case HP HX) as (_ & (r & th & ur & ut & l0 & C & _)). exact C.
Qed.
