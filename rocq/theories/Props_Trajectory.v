(** * Bound (stable) trajectories: C25 - C30 *)
From Coq Require Import Reals Lra Lia ZArith String List.
From Coquelicot Require Import Coquelicot.
From Verif Require Import Num Outcome External Checked ExternalSpec.
From Verif Require Import Model_Constants Model_Frequencies Model_Stable.
From Verif Require Import Spec SpecElliptic Elliptic P_Validation Props_Validation P_Bounds P_Constants Props_Constants.
From Verif Require Import Props_Elliptic P_Radial P_Polar P_Traj P_Traj2 P_Traj3.
Import ListNotations.
Open Scope R_scope.

(** A returned trajectory, i.e. four Python callables, computes the real functions
    [t], [r], [th], [ph] at every Mino time (and in particular never fails and never
    leaves the domain of a square root, division or special function). *)
Definition runs_as (out : outcome ((@traj (option R)) * (@traj (option R)) * (@traj (option R)) * (@traj (option R))))
    (t r th ph : R -> R) : Prop :=
  exists T1 T2 T3 T4, out = Ret (T1, T2, T3, T4) /\
  forall l, T1 (Some l) = Ret (Some (t l)) /\ T2 (Some l) = Ret (Some (r l)) /\
            T3 (Some l) = Ret (Some (th l)) /\ T4 (Some l) = Ret (Some (ph l)).

(** the oscillating part of a solution: what the run of a function of one phase computes *)
Definition computes (f : option R -> option R) (g : R -> R) : Prop := forall q, f (Some q) = Some (g q).

Lemma runs_as_unique out t r th ph t' r' th' ph' :
  runs_as out t r th ph -> runs_as out t' r' th' ph' ->
  forall l, t l = t' l /\ r l = r' l /\ th l = th' l /\ ph l = ph' l.
Proof.
  intros (T1 & T2 & T3 & T4 & -> & H) (U1 & U2 & U3 & U4 & Eq & H') l.
  apply Ret_inj in Eq. apply pair_equal_spec in Eq as [Eq ->]. apply pair_equal_spec in Eq as [Eq ->].
  apply pair_equal_spec in Eq as [-> ->].
  destruct (H l) as (A1 & A2 & A3 & A4). destruct (H' l) as (B1 & B2 & B3 & B4). repeat split; congruence.
Qed.

Section Periods.
Context {X : External R} (HX : special_spec X).

(** ** shifts of the amplitudes *)
Lemma amX_shift m u k : 0 <= m < 1 -> amX m (u + IZR k * (2 * ellK m)) = amX m u + IZR k * PI.
Proof.
  intros Hm. apply (amX_unique HX); [assumption|]. rewrite ellF_shift by lra.
  now rewrite (proj1 (amX_spec HX m u Hm)).
Qed.
Lemma amX_0 m : 0 <= m < 1 -> amX m 0 = 0.
Proof. intros Hm. apply (amX_unique HX); [assumption|]. apply ellF_0. Qed.
Lemma amX_K m : 0 <= m < 1 -> amX m (ellK m) = PI / 2.
Proof. intros Hm. now apply (amX_unique HX). Qed.

Section R.
Context (a E L r1 r2 r3 r4 : R).
Local Notation c := (1 - E ^ 2).
Local Notation m := (kr2 r1 r2 r3 r4).
Context (Hs : 0 < sr2 c r1 r2 r3 r4) (Hm : 0 <= m < 1) (Ho : 0 < (r1 - r3) * (r2 - r3)).
Local Notation psi := (psi_r r1 r2 r3 r4).
Lemma psi_r_shift q k : psi (q + IZR k * (2 * PI)) = psi q + IZR k * PI.
Proof.
  pose proof PI_RGT_0. unfold psi_r. rewrite <- amX_shift by assumption. f_equal. field. lra.
Qed.
Lemma psi_r_0 : psi 0 = 0.
Proof. unfold psi_r. rewrite Rmult_0_r, Rplus_0_l. now apply amX_0. Qed.
Lemma psi_r_PI : psi PI = PI / 2.
Proof.
  pose proof PI_RGT_0. unfold psi_r. replace (ellK m / PI * PI + 0) with (ellK m) by (field; lra). now apply amX_K.
Qed.
Lemma sin_shift2 y k : sin (y + IZR k * PI) ^ 2 = sin y ^ 2.
Proof.
  rewrite sin_plus, (sin_eq_0_1 (IZR k * PI)) by eauto.
  pose proof (sin2_cos2 (IZR k * PI)) as H. rewrite (sin_eq_0_1 (IZR k * PI)) in H by eauto. unfold Rsqr in H.
  replace ((sin y * cos (IZR k * PI) + cos y * 0) ^ 2) with (sin y ^ 2 * (cos (IZR k * PI) * cos (IZR k * PI))) by ring.
  replace (cos (IZR k * PI) * cos (IZR k * PI)) with 1 by lra. ring.
Qed.
Lemma sincos_shift y k : sin (y + IZR k * PI) * cos (y + IZR k * PI) = sin y * cos y.
Proof.
  assert (sin (2 * (y + IZR k * PI)) = sin (2 * y)).
  { replace (2 * (y + IZR k * PI)) with (2 * y + 2 * IZR k * PI) by ring.
    rewrite sin_plus. rewrite (sin_eq_0_1 (2 * IZR k * PI)) by (exists (2 * k)%Z; rewrite mult_IZR; ring).
    replace (2 * IZR k * PI) with (2 * (IZR k * PI)) by ring. rewrite cos_2a_sin.
    rewrite (sin_eq_0_1 (IZR k * PI)) by eauto. ring. }
  rewrite !sin_2a in H. lra.
Qed.
Lemma rho_shift q k : rho r1 r2 r3 psi (q + IZR k * (2 * PI)) = rho r1 r2 r3 psi q.
Proof. unfold rho, sn2. now rewrite psi_r_shift, sin_shift2. Qed.
Lemma rho_0 : rho r1 r2 r3 psi 0 = r2.
Proof.
  destruct (rad_nz _ _ _ _ _ Hs Ho) as (N1 & _ & N3 & _).
  unfold rho, sn2, rx. rewrite psi_r_0, sin_0. field. lra.
Qed.
Lemma rho_PI : rho r1 r2 r3 psi PI = r1.
Proof.
  destruct (rad_nz _ _ _ _ _ Hs Ho) as (N1 & _ & N3 & _).
  unfold rho, sn2, rx. rewrite psi_r_PI, sin_PI2. field. lra.
Qed.
Lemma third_shift n q k : n < 1 ->
  ellPi n (psi (q + IZR k * (2 * PI))) m - (q + IZR k * (2 * PI)) / PI * ellPi n (PI / 2) m
  = ellPi n (psi q) m - q / PI * ellPi n (PI / 2) m.
Proof.
  intros Hn. pose proof PI_RGT_0. rewrite psi_r_shift, ellPi_shift by lra. field. lra.
Qed.
Lemma second_shift q k :
  second r1 r2 r3 r4 psi (q + IZR k * (2 * PI)) - (q + IZR k * (2 * PI)) / PI * ellE (PI / 2) m
  = second r1 r2 r3 r4 psi q - q / PI * ellE (PI / 2) m.
Proof.
  pose proof PI_RGT_0. unfold second, sn2. rewrite psi_r_shift, ellE_shift by lra.
  replace (hr r1 r2 r3 * sin (psi q + IZR k * PI) * cos (psi q + IZR k * PI))
    with (hr r1 r2 r3 * (sin (psi q + IZR k * PI) * cos (psi q + IZR k * PI))) by ring.
  unfold dl. rewrite sincos_shift, !sin_shift2.
  replace (hr r1 r2 r3 * sin (psi q) * cos (psi q)) with (hr r1 r2 r3 * (sin (psi q) * cos (psi q))) by ring.
  set (w := (hr r1 r2 r3 * (sin (psi q) * cos (psi q)) * sqrt (1 - m * sin (psi q) ^ 2) / (hr r1 r2 r3 * sin (psi q) ^ 2 - 1))).
  field. lra.
Qed.
Context (Ha : 0 <= a < 1).
Context (Hp2 : 0 < (r1 - rp a) * (r2 - rp a)) (Hm2 : 0 < (r1 - rm a) * (r2 - rm a)).
Lemma tr_shift q k : tr a E L r1 r2 r3 r4 (q + IZR k * (2 * PI)) = tr a E L r1 r2 r3 r4 q.
Proof.
  destruct (h_cond a E r1 r2 r3 r4 Hs Ho Hp2 Hm2) as [[H1 H2] H3].
  unfold tr. now rewrite !third_shift, second_shift by assumption.
Qed.
Lemma phr_shift q k : phr a E L r1 r2 r3 r4 (q + IZR k * (2 * PI)) = phr a E L r1 r2 r3 r4 q.
Proof.
  destruct (h_cond a E r1 r2 r3 r4 Hs Ho Hp2 Hm2) as [[H1 H2] H3].
  unfold phr. now rewrite !third_shift by assumption.
Qed.
End R.

Section T.
Context (a E L zm beta a2s : R).
Local Notation A2 := (a ^ 2 * (1 - E ^ 2)).
Local Notation m := (kt2 A2 zm beta).
Context (Hz : 0 <= zm < 1) (Hm : 0 <= m < 1).
Local Notation psi := (psi_t a E zm beta).
Lemma psi_t_shift q k : psi (q + IZR k * PI) = psi q + IZR k * PI.
Proof.
  pose proof PI_RGT_0. unfold psi_t. rewrite <- amX_shift by assumption. f_equal. field. lra.
Qed.
Lemma psi_t_0 : psi 0 = PI / 2.
Proof. unfold psi_t. rewrite Rmult_0_r, Rplus_0_l. now apply amX_K. Qed.
Lemma psi_t_PI : psi PI = PI / 2 + PI.
Proof. replace PI with (0 + 1 * PI) at 1 by ring. rewrite (psi_t_shift 0 1), psi_t_0. ring. Qed.
Lemma psi_t_PI2 : psi (PI / 2) = PI.
Proof.
  pose proof PI_RGT_0. unfold psi_t. replace (2 * ellK m / PI * (PI / 2) + ellK m) with (0 + 1 * (2 * ellK m)) by (field; lra).
  rewrite (amX_shift m 0 1) by assumption. rewrite amX_0 by assumption. ring.
Qed.
Lemma th_shift q k : th zm psi (q + IZR k * (2 * PI)) = th zm psi q.
Proof.
  unfold th, cth. replace (q + IZR k * (2 * PI)) with (q + IZR (2 * k) * PI) by (rewrite mult_IZR; ring).
  rewrite psi_t_shift. rewrite mult_IZR.
  rewrite sin_plus. rewrite (sin_eq_0_1 (2 * IZR k * PI)) by (exists (2 * k)%Z; rewrite mult_IZR; ring).
  replace (2 * IZR k * PI) with (2 * (IZR k * PI)) by ring. rewrite cos_2a_sin.
  rewrite (sin_eq_0_1 (IZR k * PI)) by eauto. do 2 f_equal. ring.
Qed.
Lemma tth_shift q k : tth a E L zm beta a2s (q + IZR k * (2 * PI)) = tth a E L zm beta a2s q.
Proof.
  pose proof PI_RGT_0. unfold tth. replace (q + IZR k * (2 * PI)) with (q + IZR (2 * k) * PI) by (rewrite mult_IZR; ring).
  rewrite psi_t_shift, ellE_shift by lra. f_equal. field. lra.
Qed.
Lemma pth_shift q k : pth a E L zm beta (q + IZR k * (2 * PI)) = pth a E L zm beta q.
Proof.
  pose proof PI_RGT_0. unfold pth. replace (q + IZR k * (2 * PI)) with (q + IZR (2 * k) * PI) by (rewrite mult_IZR; ring).
  rewrite psi_t_shift, ellPi_shift by lra. f_equal. field. lra.
Qed.
End T.
End Periods.

Section Main.
Context {X : External R} (HX : special_spec X) (HR : root_spec X).
Context (a p e x ur uth uph gam : R).

(** the four functions, built from the phases *)
Section Facts.
Context (E L Q r1 r2 r3 r4 : R) (zp : option R) (beta a2s : R).
Context (F : orbit_facts a p e x ur uth uph gam E L Q r1 r2 r3 r4 zp beta a2s).
Local Notation zm := (1 - x ^ 2).
Definition fr (q : R) : R := rho r1 r2 r3 (psi_r r1 r2 r3 r4) q.
Definition fth (q : R) : R := th zm (psi_t a E zm beta) q.
Definition ftr (q : R) : R := tr a E L r1 r2 r3 r4 q.
Definition ftt (q : R) : R := tth a E L zm beta a2s q.
Definition fpr (q : R) : R := phr a E L r1 r2 r3 r4 q.
Definition fpt (q : R) : R := pth a E L zm beta q.

Lemma run_r : computes (radial_r (Some r1, Some r2, Some r3, Some r4)) fr.
Proof. destruct F. intros q. unfold fr. now apply (radial_r_run HX E). Qed.
Lemma run_tr : computes (radial_t (Some a) (Some E) (Some L) (Some r1, Some r2, Some r3, Some r4)) ftr.
Proof. destruct F. intros q. now apply (radial_t_run HX). Qed.
Lemma run_pr : computes (radial_phi (Some a) (Some E) (Some L) (Some r1, Some r2, Some r3, Some r4)) fpr.
Proof. destruct F. intros q. now apply (radial_phi_run HX). Qed.
Lemma run_th : computes (polar_theta (Some a) (Some zm, zp)) fth.
Proof. destruct F. intros q. now apply (polar_theta_run HX). Qed.
Lemma run_tt : computes (polar_t (Some a) (Some E) (Some L) (Some zm, zp)) ftt.
Proof. destruct F. intros q. now apply (polar_t_run HX). Qed.
Lemma run_pt : computes (polar_phi (Some a) (Some E) (Some L) (Some zm, zp)) fpt.
Proof. destruct F. intros q. now apply (polar_phi_run HX). Qed.

Context (qt qr qth qph : R).
Definition st (l : R) : R := qt + gam * l + ftr (ur * l + qr) + ftt (uth * l + qth) - (ftr qr + ftt qth).
Definition sr (l : R) : R := fr (ur * l + qr).
Definition sth (l : R) : R := fth (uth * l + qth).
Definition sph (l : R) : R := qph + uph * l + fpr (ur * l + qr) + fpt (uth * l + qth) - (fpr qr + fpt qth).

Hypothesis HF : mino_frequencies (Some a) (Some p) (Some e) (Some x) = Ret (Some ur, Some uth, Some uph, Some gam).
Lemma trajectory_runs :
  runs_as (stable_trajectory (Some a) (Some p) (Some e) (Some x) (Some qt, Some qr, Some qth, Some qph) None "natural" "natural")
    st sr sth sph.
Proof.
  unfold stable_trajectory. change (check_units None "natural" "natural") with (Ret (A := unit) tt). cbn [bind].
  rewrite HF. cbn [bind]. rewrite (of_constants _ _ _ _ _ _ _ _ _ _ _ _ _ _ _ _ _ _ F). cbn [bind].
  rewrite (of_roots _ _ _ _ _ _ _ _ _ _ _ _ _ _ _ _ _ _ F). cbn [bind].
  rewrite (of_polar _ _ _ _ _ _ _ _ _ _ _ _ _ _ _ _ _ _ F). cbn [bind fst snd].
  unfold radial_solutions, polar_solutions, unpack2. cbn [bind].
  unfold assemble_trajectory.
  change (distance_conversion "natural") with (Ret (fun (d : option R) (_ : option (option R)) => d)).
  change (time_conversion "natural") with (Ret (fun (d : option R) (_ : option (option R)) => d)).
  cbn [bind].
  eexists _, _, _, _. split; [reflexivity|]. intros l.
  cnum. rewrite !run_r, !run_tr, !run_pr, !run_th, !run_tt, !run_pt. cbn [c2].
  refine (conj _ (conj _ (conj _ _))); reflexivity.
Qed.

Lemma ur_pos : 0 < ur.
Proof.
  destruct F. pose proof PI_RGT_0. rewrite of_ur. pose proof (s_pos _ _ _ _ _ of_s). pose proof (K_pos _ _ _ _ of_kr).
  apply Rdiv_lt_0_compat; [now apply Rmult_lt_0_compat | lra].
Qed.
Lemma uth_pos : 0 < uth.
Proof.
  destruct F. pose proof PI_RGT_0. rewrite of_uth. pose proof (b_pos _ of_b). pose proof (Kt_pos _ _ _ _ of_z of_kt).
  apply Rdiv_lt_0_compat; [now apply Rmult_lt_0_compat | lra].
Qed.
Lemma fr_bounds q : p / (1 + e) <= fr q <= p / (1 - e).
Proof.
  destruct F. unfold fr, rho. rewrite <- of_r1, <- of_r2.
  apply (rx_bounds (1 - E^2) _ _ _ _ of_s of_ord); [tauto|]. apply sn2_bound.
Qed.
Lemma theta_min_val : acos (sqrt zm) = PI / 2 - asin (sqrt zm).
Proof. apply acos_asin. destruct F. pose proof (sqrt_zm _ of_z). lra. Qed.
Lemma fth_bounds q : acos (sqrt zm) <= fth q <= PI - acos (sqrt zm).
Proof.
  destruct F. pose proof (sqrt_zm _ of_z) as Z. pose proof (cth_bound zm of_z (psi_t a E zm beta) q) as B.
  unfold fth, th. rewrite <- acos_opp. split.
  - destruct (Req_dec (cth zm (psi_t a E zm beta) q) (sqrt zm)) as [->|N]; [lra|].
    apply Rlt_le; apply cos_decreasing_0; rewrite ?cos_acos; try lra; apply acos_bound.
  - destruct (Req_dec (cth zm (psi_t a E zm beta) q) (- sqrt zm)) as [->|N]; [lra|].
    apply Rlt_le; apply cos_decreasing_0; rewrite ?cos_acos; try lra; apply acos_bound.
Qed.
Lemma fr_derive q : is_derive fr q (rho' r1 r2 r3 r4 (ellK (kr2 r1 r2 r3 r4) / PI) (psi_r r1 r2 r3 r4) q).
Proof.
  destruct F. apply (rho_derive (1 - E^2) _ _ _ _ of_s of_ord). intros q'. now apply (psi_r_derive HX).
Qed.
Lemma fth_derive q : is_derive fth q (th' (a^2 * (1 - E^2)) zm beta (2 * ellK (kt2 (a^2 * (1 - E^2)) zm beta) / PI) (psi_t a E zm beta) q).
Proof.
  destruct F. apply (th_derive _ _ _ of_z). intros q'. now apply (psi_t_derive HX).
Qed.
Lemma comp_lin f u b l d : is_derive f (u * l + b) d -> is_derive (fun l : R => f (u * l + b)) l (u * d).
Proof.
  intros D. apply (is_derive_comp f (fun l => u * l + b)); [exact D|]. auto_derive; [trivial | ring].
Qed.
Lemma sr_ode l : exists d, is_derive sr l d /\ d^2 = radial_potential a E L Q (sr l).
Proof.
  exists (ur * rho' r1 r2 r3 r4 (ellK (kr2 r1 r2 r3 r4) / PI) (psi_r r1 r2 r3 r4) (ur * l + qr)). split.
  - apply comp_lin, fr_derive.
  - destruct F. rewrite of_R. apply (rho_ode _ _ _ _ _ of_s of_kr of_ord).
    pose proof PI_RGT_0. pose proof (K_pos _ _ _ _ of_kr).
    rewrite of_ur. replace (PI * sqrt (sr2 (1 - E ^ 2) r1 r2 r3 r4) / (2 * ellK (kr2 r1 r2 r3 r4)) * (ellK (kr2 r1 r2 r3 r4) / PI))
      with (sqrt (sr2 (1 - E ^ 2) r1 r2 r3 r4) / 2) by (field; lra).
    rewrite <- (pow2_sqrt (sr2 (1 - E^2) r1 r2 r3 r4)) at 2 by lra. field.
Qed.
Lemma sth_sin_pos l : 0 < sin (sth l).
Proof. destruct F. unfold sth, fth. now apply sin_th_pos. Qed.
Lemma sth_ode l : exists d, is_derive sth l d /\ d^2 = polar_potential a E L Q (sth l).
Proof.
  exists (uth * th' (a^2 * (1 - E^2)) zm beta (2 * ellK (kt2 (a^2 * (1 - E^2)) zm beta) / PI) (psi_t a E zm beta) (uth * l + qth)). split.
  - apply comp_lin, fth_derive.
  - pose proof (sth_sin_pos l) as Sn. destruct F.
    rewrite (th_ode _ _ _ of_z of_b of_kt).
    + fold (fth (uth * l + qth)). fold (sth l).
      unfold polar_potential. pose proof (of_Z (cos (sth l)^2)) as Z. unfold polar_polynomial in Z. rewrite <- Z.
      replace (1 - cos (sth l) ^ 2) with (sin (sth l) ^ 2) by (rewrite cos2_sin2; ring). field. lra.
    + pose proof PI_RGT_0. pose proof (Kt_pos _ _ _ _ of_z of_kt).
      rewrite of_uth. set (KK := ellK (kt2 (a^2 * (1 - E^2)) zm beta)) in *. clearbody KK.
      replace (PI * sqrt beta / (2 * KK) * (2 * KK / PI)) with (sqrt beta) by (field; lra). apply pow2_sqrt. lra.
Qed.
Lemma Delta_nz l : Delta a (sr l) <> 0.
Proof.
  destruct F. rewrite (Delta_rpm a of_a). unfold sr, fr.
  destruct (rho_nz a E r1 r2 r3 r4 of_s of_ord of_p2 of_m2 of_p3 of_m3 (ur * l + qr)) as [N1 N2].
  apply Rmult_integral_contrapositive. now split.
Qed.
Lemma st_derive l : is_derive st l (dt_dlambda a E L (sr l) (sth l)).
Proof.
  pose proof ur_pos. pose proof uth_pos.
  assert (D1 : is_derive ftr (ur * l + qr) ((Vt a E L (sr l) - Gt a E L r1 r2 r3 r4) / ur)).
  { destruct F. unfold sr, fr. 
    pose proof (tr_derive HX a E L r1 r2 r3 r4 of_s of_kr of_ord of_a of_p2 of_m2 of_p3 of_m3 (ur * l + qr)) as D.
    rewrite <- of_ur in D. exact D. }
  assert (D2 : is_derive ftt (uth * l + qth) ((a^2 * E * cos (sth l) ^ 2 - Gth a E L zm beta a2s) / uth)).
  { destruct F. unfold sth, fth.
    pose proof (tth_derive HX a E L zm beta a2s of_z of_L of_b of_kt of_HA (uth * l + qth)) as D.
    rewrite <- of_uth in D. exact D. }
  destruct F.
  assert (V : 4 * E + Vt a E L (sr l) + a ^ 2 * E * cos (sth l) ^ 2 = dt_dlambda a E L (sr l) (sth l)).
  { destruct (rho_nz a E r1 r2 r3 r4 of_s of_ord of_p2 of_m2 of_p3 of_m3 (ur * l + qr)) as [N1 N2]. now apply (Vt_dt a E L r1 r2 r3). }
  unfold st. auto_derive.
  - repeat split; eexists; (exact D1 || exact D2).
  - rewrite (is_derive_unique (fun x : R => ftr x) _ _ D1), (is_derive_unique (fun x : R => ftt x) _ _ D2). rewrite <- V, of_gam. field. lra.
Qed.
Lemma sph_derive l : is_derive sph l (dphi_dlambda a E L (sr l) (sth l)).
Proof.
  pose proof ur_pos. pose proof uth_pos.
  assert (D1 : is_derive fpr (ur * l + qr) ((Vph a E L (sr l) - Gph a E L r1 r2 r3 r4) / ur)).
  { destruct F. unfold sr, fr. 
    pose proof (phr_derive HX a E L r1 r2 r3 r4 of_s of_kr of_ord of_a of_p2 of_m2 of_p3 of_m3 (ur * l + qr)) as D.
    rewrite <- of_ur in D. exact D. }
  assert (D2 : is_derive fpt (uth * l + qth) ((L / sin (sth l) ^ 2 - 
       L * ellPi zm (PI / 2) (kt2 (a^2 * (1 - E^2)) zm beta) / ellK (kt2 (a^2 * (1 - E^2)) zm beta)) / uth)).
  { destruct F. unfold sth, fth.
    pose proof (pth_derive HX a E L zm beta of_z of_b of_kt (uth * l + qth)) as D.
    rewrite <- of_uth in D. exact D. }
  destruct F.
  assert (V : Vph a E L (sr l) + L / sin (sth l) ^ 2 = dphi_dlambda a E L (sr l) (sth l)).
  { destruct (rho_nz a E r1 r2 r3 r4 of_s of_ord of_p2 of_m2 of_p3 of_m3 (ur * l + qr)) as [N1 N2]. now apply (Vph_dphi a E L r1 r2 r3). }
  unfold sph. auto_derive.
  - repeat split; eexists; (exact D1 || exact D2).
  - rewrite (is_derive_unique (fun x : R => fpr x) _ _ D1), (is_derive_unique (fun x : R => fpt x) _ _ D2). rewrite <- V, of_uph.
    set (KK := ellK (kt2 (a^2 * (1 - E^2)) zm beta)) in *. set (PP := ellPi _ _ _) in *. clearbody KK PP. 
    set (Y := L / sin (sth l)^2) in *. clearbody Y. set (Z := L * PP / KK) in *. clearbody Z. field. lra.
Qed.
End Facts.

(** ** The theorems

    [a] in [0,1) (StableOrbit flips the signs of [a] and [x] when a < 0, see C48) and
    (p, e, x) such that mino_frequencies returns four numbers.  Nothing else is assumed
    about the orbit. *)
Section Final.
Hypothesis Ha : 0 <= a.
Hypothesis HF : mino_frequencies (Some a) (Some p) (Some e) (Some x) = Ret (Some ur, Some uth, Some uph, Some gam).
Local Notation run qt qr qth qph :=
  (stable_trajectory (Some a) (Some p) (Some e) (Some x) (Some qt, Some qr, Some qth, Some qph) None "natural" "natural").

(** The trajectory is defined at every Mino time, for all initial phases. *)
Theorem trajectory_defined qt qr qth qph : exists t r theta phi, runs_as (run qt qr qth qph) t r theta phi.
Proof.
  destruct (mino_facts HX HR a p e x ur uth uph gam Ha HF) as (E & L & Q & r1 & r2 & r3 & r4 & zp & beta & a2s & F).
  do 4 eexists. exact (trajectory_runs _ _ _ _ _ _ _ _ _ _ F qt qr qth qph HF).
Qed.

Ltac facts H :=
  destruct (mino_facts HX HR a p e x ur uth uph gam Ha HF) as (E & L & Q & r1 & r2 & r3 & r4 & zp & beta & a2s & F);
  match type of H with runs_as (run ?qt ?qr ?qth ?qph) _ _ _ _ =>
    pose proof (runs_as_unique _ _ _ _ _ _ _ _ _ H (trajectory_runs _ _ _ _ _ _ _ _ _ _ F qt qr qth qph HF)) as Eq end.

(** *** C25 *)
Theorem C25_bound_motion qt qr qth qph t r theta phi : runs_as (run qt qr qth qph) t r theta phi ->
  forall l, p / (1 + e) <= r l <= p / (1 - e) /\
  acos (sqrt (1 - x ^ 2)) <= theta l <= PI - acos (sqrt (1 - x ^ 2)).
Proof.
  intros H. facts H. intros l. destruct (Eq l) as (_ & -> & -> & _). split.
  - exact (fr_bounds _ _ _ _ _ _ _ _ _ _ F _).
  - exact (fth_bounds _ _ _ _ _ _ _ _ _ _ F _).
Qed.

(** *** C26: what the phases mean.  [qr], [qth] are arbitrary; the statement is about the
    Mino times at which the phase reaches 0, pi (and pi/2 for theta) modulo 2 pi. *)
Theorem C26_phases qt qr qth qph t r theta phi : runs_as (run qt qr qth qph) t r theta phi ->
  forall (l : R) (k : Z),
  (ur * l + qr = IZR k * (2 * PI) -> r l = p / (1 + e)) /\
  (ur * l + qr = PI + IZR k * (2 * PI) -> r l = p / (1 - e)) /\
  (uth * l + qth = IZR k * (2 * PI) -> theta l = acos (sqrt (1 - x ^ 2))) /\
  (uth * l + qth = PI + IZR k * (2 * PI) -> theta l = PI - acos (sqrt (1 - x ^ 2))) /\
  (uth * l + qth = PI / 2 + IZR k * (2 * PI) -> theta l = PI / 2).
Proof.
  intros H. facts H. intros l k. destruct (Eq l) as (_ & -> & -> & _). unfold sr, sth, fr, fth.
  destruct F.
  refine (conj _ (conj _ (conj _ (conj _ _)))); intros ->.
  - rewrite <- (Rplus_0_l (IZR k * (2 * PI))), rho_shift, <- of_r2 by assumption. now apply (rho_0 HX E).
  - rewrite rho_shift, <- of_r1 by assumption. now apply (rho_PI HX E).
  - rewrite <- (Rplus_0_l (IZR k * (2 * PI))), th_shift by assumption.
    unfold th, cth. rewrite psi_t_0, sin_PI2 by assumption. f_equal. ring.
  - rewrite th_shift by assumption. unfold th, cth. rewrite psi_t_PI by assumption.
    rewrite <- acos_opp. f_equal. rewrite neg_sin, sin_PI2. ring.
  - rewrite th_shift by assumption. unfold th, cth. rewrite psi_t_PI2, sin_PI by assumption.
    rewrite Rmult_0_r. apply acos_0.
Qed.
Corollary C26_default_start qt qph t r theta phi : runs_as (run qt 0 0 qph) t r theta phi ->
  t 0 = qt /\ r 0 = p / (1 + e) /\ theta 0 = acos (sqrt (1 - x ^ 2)) /\ phi 0 = qph.
Proof.
  intros H. destruct (C26_phases _ _ _ _ _ _ _ _ H 0 0) as (A & _ & B & _).
  rewrite A, B by ring.
  facts H. destruct (Eq 0) as (-> & _ & _ & ->). unfold st, sph. rewrite !Rmult_0_r, !Rplus_0_r.
  repeat split; try reflexivity; ring.
Qed.

Corollary C26_start qt qr qth qph t r theta phi : runs_as (run qt qr qth qph) t r theta phi ->
  t 0 = qt /\ phi 0 = qph.
Proof.
  intros H. facts H. destruct (Eq 0) as (-> & _ & _ & ->). unfold st, sph. rewrite !Rmult_0_r, !Rplus_0_l.
  split; ring.
Qed.

(** *** C27 *)
Theorem C27_periodic qt qr qth qph t r theta phi : runs_as (run qt qr qth qph) t r theta phi ->
  0 < ur /\ 0 < uth /\ forall (l : R) (k : Z),
  r (l + IZR k * (2 * PI / ur)) = r l /\ theta (l + IZR k * (2 * PI / uth)) = theta l.
Proof.
  intros H. facts H. pose proof (ur_pos _ _ _ _ _ _ _ _ _ _ F) as U1. pose proof (uth_pos _ _ _ _ _ _ _ _ _ _ F) as U2.
  refine (conj U1 (conj U2 _)). intros l k. split.
  - destruct (Eq l) as (_ & -> & _). destruct (Eq (l + IZR k * (2 * PI / ur))) as (_ & -> & _).
    unfold sr, fr. replace (ur * (l + IZR k * (2 * PI / ur)) + qr) with (ur * l + qr + IZR k * (2 * PI)) by (field; lra).
    destruct F. now apply rho_shift.
  - destruct (Eq l) as (_ & _ & -> & _). destruct (Eq (l + IZR k * (2 * PI / uth))) as (_ & _ & -> & _).
    unfold sth, fth. replace (uth * (l + IZR k * (2 * PI / uth)) + qth) with (uth * l + qth + IZR k * (2 * PI)) by (field; lra).
    destruct F. now apply th_shift.
Qed.

(** *** C28, C29 *)
Theorem C28_radial_and_polar_equations qt qr qth qph t r theta phi : runs_as (run qt qr qth qph) t r theta phi ->
  forall E L Q, constants_of_motion (Some a) (Some p) (Some e) (Some x) = Ret (Some E, Some L, Some Q) ->
  forall l, exists r' theta', is_derive r l r' /\ is_derive theta l theta' /\
  r' ^ 2 = radial_potential a E L Q (r l) /\
  sin (theta l) <> 0 /\ theta' ^ 2 = polar_potential a E L Q (theta l).
Proof.
  intros H E0 L0 Q0 HC. facts H. rewrite (of_constants _ _ _ _ _ _ _ _ _ _ _ _ _ _ _ _ _ _ F) in HC.
  assert (E0 = E /\ L0 = L /\ Q0 = Q) as (-> & -> & ->) by (apply Ret_inj in HC; repeat split; congruence).
  intros l. destruct (sr_ode _ _ _ _ _ _ _ _ _ _ F qr l) as (d1 & D1 & O1).
  destruct (sth_ode _ _ _ _ _ _ _ _ _ _ F qth l) as (d2 & D2 & O2).
  pose proof (sth_sin_pos _ _ _ _ _ _ _ _ _ _ F qth l) as Sn.
  exists d1, d2. destruct (Eq l) as (_ & -> & -> & _).
  refine (conj _ (conj _ (conj O1 (conj (Rgt_not_eq _ _ Sn) O2)))).
  - eapply is_derive_ext; [|exact D1]. intros s. destruct (Eq s) as (_ & -> & _). reflexivity.
  - eapply is_derive_ext; [|exact D2]. intros s. destruct (Eq s) as (_ & _ & -> & _). reflexivity.
Qed.
Theorem C29_time_and_azimuth_equations qt qr qth qph t r theta phi : runs_as (run qt qr qth qph) t r theta phi ->
  forall E L Q, constants_of_motion (Some a) (Some p) (Some e) (Some x) = Ret (Some E, Some L, Some Q) ->
  forall l, Delta a (r l) <> 0 /\ sin (theta l) <> 0 /\
  is_derive t l (dt_dlambda a E L (r l) (theta l)) /\ is_derive phi l (dphi_dlambda a E L (r l) (theta l)).
Proof.
  intros H E0 L0 Q0 HC. facts H. rewrite (of_constants _ _ _ _ _ _ _ _ _ _ _ _ _ _ _ _ _ _ F) in HC.
  assert (E0 = E /\ L0 = L /\ Q0 = Q) as (-> & -> & ->) by (apply Ret_inj in HC; repeat split; congruence).
  intros l. pose proof (sth_sin_pos _ _ _ _ _ _ _ _ _ _ F qth l) as Sn.
  pose proof (Delta_nz _ _ _ _ _ _ _ _ _ _ F qr l) as Dn.
  pose proof (st_derive _ _ _ _ _ _ _ _ _ _ F qt qr qth l) as D1.
  pose proof (sph_derive _ _ _ _ _ _ _ _ _ _ F qr qth qph l) as D2.
  destruct (Eq l) as (_ & -> & -> & _).
  refine (conj Dn (conj (Rgt_not_eq _ _ Sn) (conj _ _))).
  - eapply is_derive_ext; [|exact D1]. intros s. destruct (Eq s) as (-> & _). reflexivity.
  - eapply is_derive_ext; [|exact D2]. intros s. destruct (Eq s) as (_ & _ & _ & ->). reflexivity.
Qed.
End Final.
End Main.
