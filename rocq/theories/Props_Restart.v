(** * C55: restarting from a point of a trajectory continues the same trajectory *)
From Coq Require Import Reals Lra Lia ZArith String List.
From Coquelicot Require Import Coquelicot.
From Verif Require Import Num Outcome External Checked ExternalSpec.
From Verif Require Import Model_Units Model_Constants Model_Frequencies Model_Spacetime Model_InitialConditions Model_Stable Model_Orbit.
From Verif Require Import Spec SpecElliptic Elliptic P_Roots P_Poly P_Validation Props_Validation P_Bounds P_Constants Props_Constants.
From Verif Require Import P_Spacetime Props_Spacetime Props_Plunge Props_Orbit.
From Verif Require Import P_Radial P_Polar P_Traj P_Traj2 P_Traj3 P_Traj4 Props_Trajectory Props_Trajectory2 Props_Trajectory3.
From Verif Require Import Props_Separatrix Props_Finite Props_Frequencies Props_Stability Props_Stability3 P_Phases Props_Phases P_Restart.
Import ListNotations.
Open Scope R_scope.

Section S.
Context {X : External R} (HX : special_spec X) (HR : root_spec X) (HP : polyroots_spec X).

(** A coordinate is "settled" when it is not strictly between a turning point and the
    distance [tol] from it: the code snaps such points to the turning point. *)
Definition settled (lo hi y : R) : Prop :=
  (Rabs (y - lo) < tol -> y = lo) /\ (Rabs (y - hi) < tol -> y = hi).

Theorem C55_restart : forall a p e x ur uth uph gam E L Q qt qr qth qph T1 T2 T3 T4 t r theta phi l M mu,
  0 < a ->
  mino_frequencies (Some a) (Some p) (Some e) (Some x) = Ret (Some ur, Some uth, Some uph, Some gam) ->
  constants_of_motion (Some a) (Some p) (Some e) (Some x) = Ret (Some E, Some L, Some Q) ->
  let run := stable_trajectory (Some a) (Some p) (Some e) (Some x) (Some qt, Some qr, Some qth, Some qph) None "natural" "natural" in
  run = Ret (T1, T2, T3, T4) -> runs_as run t r theta phi ->
  settled (p / (1 + e)) (p / (1 - e)) (r l) ->
  settled (acos (sqrt (1 - x^2))) (PI - acos (sqrt (1 - x^2))) (theta l) ->
  let '(u_t, u_r, u_theta, u_phi) :=
    four_velocity (Some a) T2 T3 (Some E, Some L, Some Q) (Some ur) (Some uth) (Some qt, Some qr, Some qth, Some qph) in
  forall vt vr vth vph,
  u_t (Some l) = Ret vt -> u_r (Some l) = Ret vr -> u_theta (Some l) = Ret vth -> u_phi (Some l) = Ret vph ->
  exists o,
  Orbit_init (Some a) (Some (t l), Some (r l), Some (theta l), Some (phi l)) (vt, vr, vth, vph) M mu = Ret o /\
  o_apex o = Some (Some p, Some e, Some x) /\
  runs_as (Orbit_trajectory o None "natural" "natural")
    (fun s => t (l + s)) (fun s => r (l + s)) (fun s => theta (l + s)) (fun s => phi (l + s)).
Proof.
  intros a p e x ur uth uph gam E L Q qt qr qth qph T1 T2 T3 T4 t r theta phi l M mu Ha HF HC run HT H SR ST.
  pose proof (C51_four_velocity_is_derivative HX HR a p e x ur uth uph gam (Rlt_le _ _ Ha) HF qt qr qth qph T1 T2 T3 T4 t r theta phi E L Q HT H HC) as V.
  pose proof (C25_bound_motion HX HR a p e x ur uth uph gam (Rlt_le _ _ Ha) HF _ _ _ _ _ _ _ _ H l) as (B & B').
  pose proof (C28_radial_and_polar_equations HX HR a p e x ur uth uph gam (Rlt_le _ _ Ha) HF _ _ _ _ _ _ _ _ H E L Q HC l) as (r' & theta' & D1 & D2 & O1 & Sn & O2).
  pose proof (C29_time_and_azimuth_equations HX HR a p e x ur uth uph gam (Rlt_le _ _ Ha) HF _ _ _ _ _ _ _ _ H E L Q HC l) as (Dn & _ & D3 & D4).
  destruct (mino_facts HX HR a p e x ur uth uph gam (Rlt_le _ _ Ha) HF) as (E' & L' & Q' & r1 & r2 & r3 & r4 & zp & beta & a2s & F).
  assert (E' = E /\ L' = L /\ Q' = Q) as (-> & -> & ->).
  { pose proof (of_constants _ _ _ _ _ _ _ _ _ _ _ _ _ _ _ _ _ _ F) as K. rewrite HC in K. apply Ret_inj in K. repeat split; congruence. }
  pose proof (runs_as_unique _ _ _ _ _ _ _ _ _ H (trajectory_runs HX a p e x ur uth uph gam _ _ _ _ _ _ _ _ _ _ F _ _ _ _ HF)) as Eq.
  pose proof (sigma_pos a p e x ur uth uph gam E L Q (r l) (theta l) B r1 r2 r3 r4 zp beta a2s F) as SP.
  pose proof (of_z _ _ _ _ _ _ _ _ _ _ _ _ _ _ _ _ _ _ F) as Hz. pose proof (sqrt_zm _ Hz) as Hsz.
  assert (Ht : 0 < theta l < PI).
  { assert (0 < acos (sqrt (1 - x^2))); [|lra]. rewrite <- acos_1. apply acos_decreasing_1 || idtac.
    pose proof (acos_bound (sqrt (1 - x^2))) as AB. destruct (Req_dec (acos (sqrt (1 - x^2))) 0) as [K|K]; [|rewrite acos_1; lra].
    apply (f_equal cos) in K. rewrite cos_acos, cos_0 in K by lra. lra. }
  assert (Ts : 0 < sin (theta l)) by (apply sin_gt_0; tauto).
  destruct (H) as (U1 & U2 & U3 & U4 & EqU & HU). rewrite HT in EqU.
  apply Ret_inj in EqU. apply pair_equal_spec in EqU as [EqU E4]. apply pair_equal_spec in EqU as [EqU E3]. apply pair_equal_spec in EqU as [E1 E2].
  subst U1 U2 U3 U4. destruct (HU l) as (E1 & E2 & E3 & E4). 
  assert (P1 : 0 <= radial_potential a E L Q (r l)) by (rewrite <- O1; apply pow2_ge_0).
  assert (P2 : 0 <= polar_potential a E L Q (theta l)) by (rewrite <- O2; apply pow2_ge_0).
  pose proof (C04_constants_roundtrip a T2 T3 E L Q ur uth qt qr qth qph l (r l) (theta l) (t l) (phi l) E2 E3
    ltac:(lra) Dn Sn P1 P2) as HI.
  destruct (four_velocity (Some a) T2 T3 (Some E, Some L, Some Q) (Some ur) (Some uth) (Some qt, Some qr, Some qth, Some qph))
    as [[[u_t u_r] u_theta] u_phi].
  intros vt' vr' vth' vph' K1 K2 K3 K4.
  destruct (V l) as (vt & vr & vth & vph & V1 & V2 & V3 & V4 & W1 & W2 & W3 & W4 & NM).
  specialize (HI vt' vr' vth' vph' K1 K2 K3 K4).
  rewrite V1 in K1. rewrite V2 in K2. rewrite V3 in K3. rewrite V4 in K4.
  apply Ret_inj in K1, K2, K3, K4. subst vt' vr' vth' vph'.
  assert (HN : kerr_line_element a (r l) (theta l) vt vr vth vph = -1).
  { rewrite C02_norm_is_kerr_line_element in NM by (assumption || lra). congruence. }
  (* the new orbit *)
  pose proof (C43_orbit_reproduces_initial_conditions HX HR HP a p e x ur uth uph gam E L Q (t l) (r l) (theta l) (phi l) vt vr vth vph M mu
    Ha HF HC Ht B HN HI) as (o & HO & _ & _ & HA & _).
  exists o. refine (conj HO (conj HA _)).
  pose proof (phases_run HX HR HP a p e x ur uth uph gam Ha E L Q (t l) (r l) (theta l) (phi l) vt vr vth vph Ht B HN HI r1 r2 r3 r4 zp beta a2s F None (or_introl eq_refl)) as HPh.
  assert (HTr : runs_as (Orbit_trajectory o None "natural" "natural")
      (st a x ur uth gam E L r1 r2 r3 r4 beta a2s (t l) (q_r (r l) vr r1 r2 r3 r4) (q_th a x E (theta l) vth beta))
      (sr ur r1 r2 r3 r4 (q_r (r l) vr r1 r2 r3 r4))
      (sth a x uth E beta (q_th a x E (theta l) vth beta))
      (sph a x ur uth uph E L r1 r2 r3 r4 beta (q_r (r l) vr r1 r2 r3 r4) (q_th a x E (theta l) vth beta) (phi l))).
  { pose proof (trajectory_runs HX a p e x ur uth uph gam _ _ _ _ _ _ _ _ _ _ F (t l) (q_r (r l) vr r1 r2 r3 r4) (q_th a x E (theta l) vth beta) (phi l) HF) as TR.
    unfold Orbit_init in HO.
    match type of HO with ifo ?b _ _ = _ => destruct b as [[|]|]; cbn [ifo] in HO; try discriminate end.
    match type of HO with ifo ?b _ _ = _ => destruct b as [[|]|]; cbn [ifo] in HO; try discriminate end.
    rewrite HI in HO. cbn [bind] in HO.
    match type of HO with bind ?b _ = _ => destruct b as [[|]| |]; cbn [bind] in HO; try discriminate end.
    - assert (HAp : apex_from_constants (Some a) (Some E) (Some L) (Some Q) = Ret (Some a, Some p, Some e, Some x)).
      { destruct F. apply (C17_apex_inverts_constants HR HP a p e x E L Q); try assumption; lra. }
      rewrite HAp in HO. cbn [bind] in HO. rewrite HF in HO. cbn [bind] in HO.
      destruct (fundamental_frequencies (Some a) (Some p) (Some e) (Some x)) as [om| |]; cbn [bind] in HO; try discriminate.
      rewrite HPh in HO. cbn [bind] in HO. apply Ret_inj in HO. subst o.
      unfold Orbit_trajectory. cbn [o_phases o_apex o_a o_M]. now apply natural_ignores_M.
    - exfalso. clear - HO HA. destruct (neqb (Some a) (nZ 0)) as [[|]|]; cbn [ifo] in HO; try discriminate.
      destruct (plunging_mino_frequencies (Some a) (Some E) (Some L) (Some Q)) as [[u1 u2]| |]; cbn [bind] in HO; try discriminate.
      destruct (plunging_orbit_initial_phases _ _ _ _ _ _) as [ph| |]; cbn [bind] in HO; try discriminate.
      apply Ret_inj in HO. subst o. cbn [o_apex] in HA. discriminate. }
  destruct (orbit_polynomials HR HP a p e x ur uth uph gam Ha _ _ _ _ _ _ _ _ _ _ F) as (HE & R4 & RM & R3 & R2 & _).
  pose proof (momenta HR HP a p e x ur uth uph gam Ha E L Q (t l) (r l) (theta l) (phi l) vt vr vth vph Ht B HN HI r1 r2 r3 r4 zp beta a2s F) as (M1 & M2 & _).
  pose proof (ur_pos _ _ _ _ _ _ _ _ _ _ _ _ _ _ _ _ _ _ F) as Up. pose proof (uth_pos _ _ _ _ _ _ _ _ _ _ _ _ _ _ _ _ _ _ F) as Up'.
  pose proof PI_RGT_0 as PP.
  pose proof (of_r1 _ _ _ _ _ _ _ _ _ _ _ _ _ _ _ _ _ _ F) as Q1. pose proof (of_r2 _ _ _ _ _ _ _ _ _ _ _ _ _ _ _ _ _ _ F) as Q2.
  rewrite <- Q1, <- Q2 in SR. destruct SR as [SR1 SR2]. destruct ST as [ST1 ST2].
  destruct (Eq l) as (Tl & Rl & THl & PHl).
  (* the radial phase *)
  assert (PR : forall s, fr r1 r2 r3 r4 (ur * (l + s) + qr) = fr r1 r2 r3 r4 (ur * s + q_r (r l) vr r1 r2 r3 r4) /\
    ftr a E L r1 r2 r3 r4 (ur * (l + s) + qr) - ftr a E L r1 r2 r3 r4 (ur * l + qr)
      = ftr a E L r1 r2 r3 r4 (ur * s + q_r (r l) vr r1 r2 r3 r4) - ftr a E L r1 r2 r3 r4 (q_r (r l) vr r1 r2 r3 r4) /\
    fpr a E L r1 r2 r3 r4 (ur * (l + s) + qr) - fpr a E L r1 r2 r3 r4 (ur * l + qr)
      = fpr a E L r1 r2 r3 r4 (ur * s + q_r (r l) vr r1 r2 r3 r4) - fpr a E L r1 r2 r3 r4 (q_r (r l) vr r1 r2 r3 r4)).
  { destruct (Req_dec r1 r2) as [N|N].
    - pose proof (radial_constant HX _ _ _ _ _ _ _ _ _ _ _ _ _ _ _ _ _ _ F N) as RC. intros s.
      assert (RC1 := fun q => proj1 (RC q)). assert (RC2 := fun q => proj1 (proj2 (RC q))). assert (RC3 := fun q => proj2 (proj2 (RC q))). cbv beta in *.
      match goal with |- ?f ?u = ?f ?v /\ ?g _ - ?g ?w = _ - ?g ?z /\ ?h _ - _ = _ => 
        rewrite (RC1 u), (RC1 v), (RC2 u), (RC2 v), (RC2 w), (RC2 z), (RC3 u), (RC3 v), (RC3 w), (RC3 z) end. lra.
    - destruct (reduce_phase (2 * PI) (ur * l + qr) ltac:(lra)) as (q & k & HQ & BQ).
      destruct (rho'_sign HX _ _ _ _ _ _ _ _ _ _ _ _ _ _ _ _ _ _ F (ur * l + qr)) as [S1 S2].
      assert (DR : Sigma a (r l) (theta l) * vr = ur * rho' r1 r2 r3 r4 (ellK (kr2 r1 r2 r3 r4) / PI) (psi_r r1 r2 r3 r4) (ur * l + qr)).
      { rewrite <- (is_derive_unique _ _ _ W2). apply is_derive_unique.
        eapply is_derive_ext; [|apply comp_lin, (fr_derive HX _ _ _ _ _ _ _ _ _ _ _ _ _ _ _ _ _ _ F)]. intros s. symmetry. apply Eq. }
      set (rho1 := rho' r1 r2 r3 r4 (ellK (kr2 r1 r2 r3 r4) / PI) (psi_r r1 r2 r3 r4) (ur * l + qr)) in *. clearbody rho1.
      assert (QR : q_r (r l) vr r1 r2 r3 r4 = q).
      { apply (radial_phase_unique HX _ _ _ _ _ _ _ _ _ _ _ _ _ _ _ _ _ _ F); try assumption.
        - rewrite Rl. unfold sr. rewrite HQ. unfold fr. rewrite (rho_shift HX) by apply F. reflexivity.
        - intros S. rewrite HQ, sin_red in S2. specialize (S2 S). clear - S2 DR SP Up.
          assert (ur * rho1 <= 0) by (apply mul_nonpos; assumption). rewrite <- DR in H. nra.
        - intros S. rewrite HQ, sin_red in S1. specialize (S1 S). clear - S1 DR SP Up.
          assert (0 <= ur * rho1) by (apply mul_nonneg; assumption). rewrite <- DR in H. nra.
        - intros BS Z. rewrite Z, Rmult_0_r in M2. rewrite (of_R _ _ _ _ _ _ _ _ _ _ _ _ _ _ _ _ _ _ F) in M2.
          assert (0 < 1 - E^2) by (clear - HE; nra).
          assert (0 < (1 - E^2) * (r1 - r l) * (r l - r2) * (r l - r3) * (r l - r4)) by (repeat apply Rmult_lt_0_compat; lra). lra. }
      intros s. rewrite QR. replace (ur * (l + s) + qr) with ((ur * s + q) + IZR k * (2 * PI)) by lra.
      rewrite HQ.
      rewrite !(ftr_periodic HX _ _ _ _ _ _ _ _ _ _ _ _ _ _ _ _ _ _ F), !(fpr_periodic HX _ _ _ _ _ _ _ _ _ _ _ _ _ _ _ _ _ _ F).
      refine (conj _ (conj _ _)); try lra. unfold fr. now rewrite (rho_shift HX) by apply F. }
  assert (PT : forall s, fth a x E beta (uth * (l + s) + qth) = fth a x E beta (uth * s + q_th a x E (theta l) vth beta) /\
    ftt a x E L beta a2s (uth * (l + s) + qth) - ftt a x E L beta a2s (uth * l + qth)
      = ftt a x E L beta a2s (uth * s + q_th a x E (theta l) vth beta) - ftt a x E L beta a2s (q_th a x E (theta l) vth beta) /\
    fpt a x E L beta (uth * (l + s) + qth) - fpt a x E L beta (uth * l + qth)
      = fpt a x E L beta (uth * s + q_th a x E (theta l) vth beta) - fpt a x E L beta (q_th a x E (theta l) vth beta)).
  { destruct (Req_dec (1 - x^2) 0) as [N|N].
    - pose proof (polar_constant HX _ _ _ _ _ _ _ _ _ _ _ _ _ _ _ _ _ _ F N) as RC. intros s.
      assert (RC1 := fun q => proj1 (RC q)). assert (RC2 := fun q => proj1 (proj2 (RC q))). assert (RC3 := fun q => proj2 (proj2 (RC q))). cbv beta in *.
      match goal with |- ?f ?u = ?f ?v /\ ?g _ - ?g ?w = _ - ?g ?z /\ ?h _ - _ = _ => 
        rewrite (RC1 u), (RC1 v), (RC2 u), (RC2 v), (RC2 w), (RC2 z), (RC3 u), (RC3 v), (RC3 w), (RC3 z) end. lra.
    - destruct (reduce_phase (2 * PI) (uth * l + qth) ltac:(lra)) as (q & k & HQ & BQ).
      destruct (th'_sign HX _ _ _ _ _ _ _ _ _ _ _ _ _ _ _ _ _ _ F (uth * l + qth)) as [S1 S2].
      assert (DR : Sigma a (r l) (theta l) * vth = uth * P_Polar.th' (a^2 * (1 - E^2)) (1 - x^2) beta (2 * ellK (kt2 (a^2 * (1 - E^2)) (1 - x^2) beta) / PI) (psi_t a E (1 - x^2) beta) (uth * l + qth)).
      { rewrite <- (is_derive_unique _ _ _ W3). apply is_derive_unique.
        eapply is_derive_ext; [|apply comp_lin, (fth_derive HX _ _ _ _ _ _ _ _ _ _ _ _ _ _ _ _ _ _ F)]. intros s. symmetry. apply Eq. }
      set (th1 := P_Polar.th' _ _ _ _ _ _) in *. clearbody th1.
      assert (QR : q_th a x E (theta l) vth beta = q).
      { apply (polar_phase_unique HX _ _ _ _ _ _ _ _ _ _ _ _ _ _ _ _ _ _ F); try assumption.
        - rewrite THl. unfold sth. rewrite HQ. unfold fth. now rewrite (th_shift HX) by apply F.
        - intros S. rewrite HQ, sin_red in S2. specialize (S2 S). clear - S2 DR SP Up'.
          assert (uth * th1 <= 0) by (apply mul_nonpos; assumption). rewrite <- DR in H. nra.
        - intros S. rewrite HQ, sin_red in S1. specialize (S1 S). clear - S1 DR SP Up'.
          assert (0 <= uth * th1) by (apply mul_nonneg; assumption). rewrite <- DR in H. nra.
        - intros CS Z. rewrite Z, Rmult_0_r in M1.
          destruct (orbit_polynomials HR HP a p e x ur uth uph gam Ha _ _ _ _ _ _ _ _ _ _ F) as (_ & _ & _ & _ & _ & _ & _ & AB).
          assert (PQ : polar_potential a E L Q (theta l) * sin (theta l) ^ 2 = polar_polynomial a E L Q (cos (theta l) ^ 2)).
          { unfold polar_potential, polar_polynomial. replace (cos (theta l) ^ 2) with (1 - sin (theta l) ^ 2) by (rewrite cos2_sin2; ring). field. lra. }
          rewrite <- M1, (of_Z _ _ _ _ _ _ _ _ _ _ _ _ _ _ _ _ _ _ F) in PQ.
          assert (C1 : cos (theta l) ^ 2 <= 1) by lra.
          assert (BB : 0 < beta - a^2 * (1 - E^2) * cos (theta l) ^ 2) by (clear - AB C1; nra).
          assert (0 < (1 - x^2 - cos (theta l) ^ 2) * (beta - a^2 * (1 - E^2) * cos (theta l) ^ 2)) by (apply Rmult_lt_0_compat; lra). lra. }
      intros s. rewrite QR. replace (uth * (l + s) + qth) with ((uth * s + q) + IZR k * (2 * PI)) by lra.
      rewrite HQ.
      rewrite !(ftt_periodic HX _ _ _ _ _ _ _ _ _ _ _ _ _ _ _ _ _ _ F), !(fpt_periodic HX _ _ _ _ _ _ _ _ _ _ _ _ _ _ _ _ _ _ F).
      refine (conj _ (conj _ _)); try lra. unfold fth. now rewrite (th_shift HX) by apply F. }
  destruct HTr as (Y1 & Y2 & Y3 & Y4 & EqY & HY). exists Y1, Y2, Y3, Y4. split; [exact EqY|].
  intros s. destruct (HY s) as (-> & -> & -> & ->). destruct (Eq (l + s)) as (-> & -> & -> & ->).
  destruct (PR s) as (A1 & A2 & A3). destruct (PT s) as (A4 & A5 & A6).
  unfold sr, sth. rewrite A1, A4. refine (conj _ (conj eq_refl (conj eq_refl _))).
  - do 2 f_equal. unfold st at 1. rewrite Tl. unfold st at 1. unfold st. lra.
  - do 2 f_equal. unfold sph at 1. rewrite PHl. unfold sph. lra.
Qed.

(** Non-vacuity: every retrograde orbit with p >= 12 has finite constants and frequencies, ... *)
Lemma far_retrograde a p e x : 0 < a < 1 -> 12 <= p -> 0 <= e < 1 -> -1 <= x < 0 ->
  exists E L Q ur uth uph gam, constants_of_motion (Some a) (Some p) (Some e) (Some x) = Ret (Some E, Some L, Some Q) /\
  mino_frequencies (Some a) (Some p) (Some e) (Some x) = Ret (Some ur, Some uth, Some uph, Some gam).
Proof.
  intros Ha Hp He Hx.
  assert (CK : check_constants_params a p e x = Ret tt).
  { destruct (check_constants_cases a p e x ltac:(lra)) as [_ [_ H]].
    destruct (separatrix_total HR a e x) as (s & Es & Bs & _); try lra.
    rewrite (H s); [|lra|exact Es]. destruct (Rlt_dec s p); [reflexivity | lra]. }
  assert (S1 : spin_sign a = 1) by (unfold spin_sign; destruct (Rlt_dec a 0); lra).
  destruct (C50_finite_retrograde HR a p e x) as (E & L & Q & HC).
  { rewrite Rabs_pos_eq, S1, Rmult_1_r by lra. exact CK. }
  { right. rewrite S1. lra. }
  exists E, L, Q. destruct (proj2 (C53_frequencies_exactly HX HR a p e x E L Q ltac:(lra) ltac:(lra) HC)) as (ur & uth & uph & gam & HF).
  - destruct (C23_bound_orbits HR a p e x E L Q HC ltac:(lra)) as (HE & HQ & HL & _).
    rewrite Rabs_pos_eq by lra. pose proof (sqrt_pos (1 - a^2)).
    destruct (C14_polar_turning_point HR a p e x E L Q HC) as (_ & _ & HN & _). rewrite S1, Rmult_1_r in HN. specialize (HN (proj2 Hx)).
    apply Rgt_not_eq. clear - HN HE Ha H. nra.
  - exists ur, uth, uph, gam. auto.
Qed.

(** ... and on the inclined eccentric retrograde orbit a = 1/2, p = 20, e = 1/2, x = -1/2
    there is a trajectory through r = 30 in the equatorial plane, far from all turning points. *)
Example C55_case : exists E L Q ur uth uph gam qr qth t r theta phi,
  constants_of_motion (Some (1/2)) (Some 20) (Some (1/2)) (Some (-1/2)) = Ret (Some E, Some L, Some Q) /\
  mino_frequencies (Some (1/2)) (Some 20) (Some (1/2)) (Some (-1/2)) = Ret (Some ur, Some uth, Some uph, Some gam) /\
  runs_as (stable_trajectory (Some (1/2)) (Some 20) (Some (1/2)) (Some (-1/2)) (Some 0, Some qr, Some qth, Some 0) None "natural" "natural") t r theta phi /\
  r 0 = 30 /\ theta 0 = PI / 2 /\
  settled (20 / (1 + 1/2)) (20 / (1 - 1/2)) (r 0) /\
  settled (acos (sqrt (1 - (-1/2)^2))) (PI - acos (sqrt (1 - (-1/2)^2))) (theta 0).
Proof.
  destruct (far_retrograde (1/2) 20 (1/2) (-1/2)) as (E & L & Q & ur & uth & uph & gam & HC & HF); try lra.
  destruct (mino_facts HX HR (1/2) 20 (1/2) (-1/2) ur uth uph gam ltac:(lra) HF) as (E' & L' & Q' & r1 & r2 & r3 & r4 & zp & beta & a2s & F).
  assert (E' = E /\ L' = L /\ Q' = Q) as (-> & -> & ->).
  { pose proof (of_constants _ _ _ _ _ _ _ _ _ _ _ _ _ _ _ _ _ _ F) as K. rewrite HC in K. apply Ret_inj in K. repeat split; congruence. }
  exists E, L, Q, ur, uth, uph, gam, (q0 r1 r2 r3 r4 30), (PI / 2).
  destruct (trajectory_defined HX HR (1/2) 20 (1/2) (-1/2) ur uth uph gam ltac:(lra) HF 0 (q0 r1 r2 r3 r4 30) (PI / 2) 0) as (t & r & theta & phi & H).
  exists t, r, theta, phi. refine (conj HC (conj HF (conj H _))).
  pose proof (runs_as_unique _ _ _ _ _ _ _ _ _ H (trajectory_runs HX _ _ _ _ ur uth uph gam _ _ _ _ _ _ _ _ _ _ F _ _ _ _ HF) 0) as (_ & R0 & T0 & _).
  unfold sr, sth in R0, T0. rewrite Rmult_0_r, Rplus_0_l in R0, T0.
  destruct (orbit_polynomials HR HP (1/2) 20 (1/2) (-1/2) ur uth uph gam ltac:(lra) _ _ _ _ _ _ _ _ _ _ F) as (HE & R4 & RM & R3 & R2 & _).
  pose proof (of_r1 _ _ _ _ _ _ _ _ _ _ _ _ _ _ _ _ _ _ F) as Q1. pose proof (of_r2 _ _ _ _ _ _ _ _ _ _ _ _ _ _ _ _ _ _ F) as Q2.
  assert (Rv : r 0 = 30).
  { rewrite R0. unfold fr. apply (rho_q0 HX); try apply F; lra. }
  assert (Tv : theta 0 = PI / 2).
  { rewrite T0. unfold fth, th, cth. rewrite (psi_t_PI2 HX) by apply F. rewrite sin_PI, Rmult_0_r. apply acos_0. }
  assert (A6 : acos (sqrt (1 - (-1/2)^2)) = PI / 6).
  { replace (1 - (-1/2)^2) with (3 / 4) by field. rewrite sqrt_div by lra.
    replace (sqrt 4) with 2 by (replace 4 with (2 * 2) by ring; rewrite sqrt_square; lra).
    rewrite <- cos_PI6. apply acos_cos. pose proof PI_RGT_0. lra. }
  replace (20 / (1 + 1/2)) with (40/3) in * by field. replace (20 / (1 - 1/2)) with 40 in * by field.
  assert (PB : 3 < PI) by (pose proof PI2_3_2; lra).
  refine (conj Rv (conj Tv (conj _ _))); unfold settled.
  - rewrite Rv. unfold tol, Rabs. split; intros K; destruct (Rcase_abs _) in K; lra.
  - rewrite Tv, A6. unfold tol, Rabs. split; intros K; destruct (Rcase_abs _) in K; lra.
Qed.
End S.
Print Assumptions C55_restart.
