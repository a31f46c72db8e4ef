(** * C74: passing precomputed values to stable_orbit_initial_phases *)
From Coq Require Import Reals Lra Lia ZArith String List.
From Coquelicot Require Import Coquelicot.
From Verif Require Import Num Outcome External Checked ExternalSpec.
From Verif Require Import Model_Units Model_Constants Model_Frequencies Model_Spacetime Model_InitialConditions Model_Stable Model_Orbit.
From Verif Require Import Spec SpecElliptic Elliptic P_Roots P_Poly P_Validation Props_Validation P_Bounds P_Constants Props_Constants.
From Verif Require Import P_Spacetime Props_Spacetime Props_Plunge Props_Orbit.
From Verif Require Import P_Radial P_Polar P_Traj P_Traj2 P_Traj3 P_Traj4 Props_Trajectory Props_Trajectory2.
From Verif Require Import Props_Stability Props_Stability3 P_Phases Props_Phases Props_Restart Props_Symmetry Props_PlungePhases Props_AllBound.
Import ListNotations.
Open Scope R_scope.

Lemma polar_phase_general th0 dth l u : dth <> 0 ->
  polar_phase (Some th0) (Some dth) (Some l) (Some u)
  = Ret (Some (if Rlt_dec 0 dth then PI / 2 - l * u else l * u + 3 * PI / 2)).
Proof.
  intros Hd. unfold polar_phase. cnum. rewrite !cdiv_some by lra.
  destruct (Rlt_dec 0 dth) as [D|D].
  - rewrite Rleb_true by lra. cbn [ifo]. reflexivity.
  - rewrite Rleb_false by lra. rewrite (Reqb_false dth 0) by assumption. cbn [ifo oand andb].
    rewrite Rltb_true by lra. cbn [ifo]. reflexivity.
Qed.

Lemma theta_from_constants {X : External R} a E L Q s1 s2 s3 s4 zz : a <> 0 ->
  theta_frequency_from_constants (Some a) (E, L, Q) (s1, s2, s3, s4) zz = Ret (theta_freq_formula (Some a) E L zz).
Proof.
  intros Ha. unfold theta_frequency_from_constants.
  change (neqb (Some a) (nZ 0)) with (Some (Reqb a 0)). rewrite Reqb_false by exact Ha. reflexivity.
Qed.

Section S.
Context {X : External R} (HX : special_spec X) (HR : root_spec X) (HP : polyroots_spec X).
Context (a p e x ur uth uph gam : R) (Ha : 0 < a).
Context (HF : mino_frequencies (Some a) (Some p) (Some e) (Some x) = Ret (Some ur, Some uth, Some uph, Some gam)).
Context (E L Q t0 r0 th0 ph0 dt dr dth dph : R).
Context (HC : constants_of_motion (Some a) (Some p) (Some e) (Some x) = Ret (Some E, Some L, Some Q)).
Context (Hth : 0 < th0 < PI) (Hr : p / (1 + e) <= r0 <= p / (1 - e)).
Local Notation pos := (Some t0, Some r0, Some th0, Some ph0).
Local Notation vel := (Some dt, Some dr, Some dth, Some dph).
Context (HN : kerr_line_element a r0 th0 dt dr dth dph = -1).
Context (HI : constants_from_initial_conditions (Some a) pos vel = Ret (Some E, Some L, Some Q)).
Local Notation thmin := (acos (sqrt (1 - x^2))).
Local Notation th_away := (tol <= Rabs (th0 - thmin) /\ tol <= Rabs (th0 - (PI - thmin))).

Section F.
Context (r1 r2 r3 r4 : R) (zp : option R) (beta a2s : R).
Context (F : orbit_facts a p e x ur uth uph gam E L Q r1 r2 r3 r4 zp beta a2s).

(** polar phase computed with the sign [s] of the product lambda_theta0 * upsilon_theta *)
Definition q_th_signed (s : R) : R :=
  if Rlt_dec (Rabs (th0 - thmin)) tol then 0 else if Rlt_dec (Rabs (th0 - (PI - thmin))) tol then PI else
  if Rlt_dec 0 dth then PI / 2 - s * st0 a E (1 - x^2) beta th0 else s * st0 a E (1 - x^2) beta th0 + 3 * PI / 2.

Lemma phases_cached c rr our out s :
  c = None \/ c = Some (Some E, Some L, Some Q) ->
  rr = None \/ rr = Some (Some r1, Some r2, Some r3, Some r4) ->
  our = None \/ our = Some (Some ur) ->
  (out = None /\ s = 1) \/ (out = Some (Some uth) /\ s = L / Rabs L) ->
  stable_orbit_initial_phases (Some a) pos vel c rr our out default_tol
  = Ret (Some t0, Some (q_r r0 dr r1 r2 r3 r4), Some (q_th_signed s), Some ph0).
Proof.
  intros Hc Hrr Hour Hout. unfold stable_orbit_initial_phases.
  assert (DC : default c (constants_from_initial_conditions (Some a) pos vel) = Ret (Some E, Some L, Some Q)).
  { destruct Hc as [-> | ->]; [exact HI | reflexivity]. }
  rewrite DC. cbn [bind].
  destruct (orbit_polynomials HR HP _ _ _ _ _ _ _ _ Ha _ _ _ _ _ _ _ _ _ _ F) as (HE & R4 & RM & R3 & R2 & RR & PR & AB).
  rewrite PR. cbn [bind]. rewrite default_tol_value.
  set (T := (Some r1, Some r2, Some r3, Some r4)) in *.
  assert (RRS : exists rt, (rt = (Some r4, Some r3, Some r2, Some r1) \/ rt = T) /\
    match rr with
    | None => do rs <- real_of_roots (polyroots (radial_poly (Some a) (Some E) (Some L) (Some Q)));
              do r <- unpack4 rs; let '(r4, r3, r2, r1) := r in Ret (r, (r1, r2, r3, r4))
    | Some rr => Ret (rr, rr) end = Ret (rt, T)).
  { destruct Hrr as [-> | ->].
    - exists (Some r4, Some r3, Some r2, Some r1). split; [now left|]. rewrite RR. reflexivity.
    - exists T. split; [now right | reflexivity]. }
  destruct RRS as (rt & HRT & RRS). rewrite RRS. cbn [bind]. clear RRS. subst T. cbv beta iota.
  assert (FQ : r_frequency_from_constants (Some E, Some L, Some Q) rt = Some ur).
  { unfold r_frequency_from_constants. destruct F. rewrite of_ur.
    destruct HRT as [-> | ->]; [apply (freq_reversed HX) | apply (r_freq_run HX)]; assumption. }
  match goal with |- bind ?m _ = _ => assert (QR : m = Ret (Some (q_r r0 dr r1 r2 r3 r4))) end.
  { change (nltb (nabs (Some r0 - Some r2)%num) (Some tol)) with (Some (Rltb (Rabs (r0 - r2)) tol)).
    change (nltb (nabs (Some r0 - Some r1)%num) (Some tol)) with (Some (Rltb (Rabs (r0 - r1)) tol)).
    unfold q_r, Rltb. destruct (Rlt_dec (Rabs (r0 - r2)) tol) as [D|D]; cbn [ifo]; [reflexivity|].
    destruct (Rlt_dec (Rabs (r0 - r1)) tol) as [D'|D']; cbn [ifo]; [reflexivity|].
    rewrite FQ. assert (DU : default our (Ret (Some ur)) = Ret (Some ur)) by (destruct Hour as [-> | ->]; reflexivity).
    rewrite DU. cbn [bind].
    destruct (away_strict HR HP a p e x ur uth uph gam Ha E L Q t0 r0 th0 ph0 dt dr dth dph Hth Hr HN HI r1 r2 r3 r4 zp beta a2s F) as [B _].
    { destruct F. rewrite <- of_r1, <- of_r2. lra. }
    destruct F. assert (0 < 1 - E^2) by (clear - HE; nra).
    rewrite of_ur. apply (radial_phase_run HX); try assumption; lra. }
  rewrite QR. cbn [bind].
  assert (TM : nacos (nsqrt (Some (1 - x^2))) = Some thmin).
  { destruct F. pose proof (sqrt_zm _ of_z). cnum. rewrite csqrt_some by lra. unfold cunit.
    destruct (Rle_dec (-1) (sqrt (1 - x^2))); [|lra]. destruct (Rle_dec (sqrt (1 - x^2)) 1); [reflexivity | lra]. }
  rewrite TM.
  match goal with |- bind ?m _ = _ => assert (QT : m = Ret (Some (q_th_signed s))) end.
  { change (nltb (nabs (Some th0 - Some thmin)%num) (Some tol)) with (Some (Rltb (Rabs (th0 - thmin)) tol)).
    change (nltb (nabs (Some th0 - (npi - Some thmin))%num) (Some tol)) with (Some (Rltb (Rabs (th0 - (PI - thmin))) tol)).
    unfold q_th_signed, Rltb. destruct (Rlt_dec (Rabs (th0 - thmin)) tol) as [D|D]; cbn [ifo]; [reflexivity|].
    destruct (Rlt_dec (Rabs (th0 - (PI - thmin))) tol) as [D'|D']; cbn [ifo]; [reflexivity|].
    destruct (polar_inside HR HP a p e x ur uth uph gam Ha E L Q t0 r0 th0 ph0 dt dr dth dph Hth Hr HN HI r1 r2 r3 r4 zp beta a2s F) as [B Bd]; [lra|].
    pose proof F as F'. destruct F'.
    assert (KP : 0 < ellK (kt2 (a^2 * (1 - E^2)) (1 - x^2) beta)) by (apply ellK_pos; lra).
    pose proof (Rabs_pos_lt L of_L) as AL. pose proof (sqrt_lt_R0 _ of_b) as SB.
    assert (FT : exists u, default out (theta_frequency_from_constants (Some a) (Some E, Some L, Some Q) rt
         (Some (1 - x^2), Some (beta / (a^2 * (1 - E^2))))) = Ret (Some u) /\
       1 / (L * (sqrt beta / Rabs L)) * ellF (phit (1 - x^2) th0) (kt2 (a^2 * (1 - E^2)) (1 - x^2) beta) * u
        = s * st0 a E (1 - x^2) beta th0).
    { destruct Hout as [[-> ->]|[-> ->]].
      - exists (PI * L * (sqrt beta / Rabs L) / (2 * ellK (kt2 (a^2 * (1 - E^2)) (1 - x^2) beta))). split.
        + cbn [default].
          assert (TF : theta_frequency_from_constants (Some a) (Some E, Some L, Some Q) rt (Some (1 - x^2), Some (beta / (a^2 * (1 - E^2))))
             = Ret (theta_freq_formula (Some a) (Some E) (Some L) (Some (1 - x^2), Some (beta / (a^2 * (1 - E^2)))))).
          { destruct HRT as [-> | ->]; apply theta_from_constants; lra. }
          rewrite TF. rewrite (theta_freq_value HX a E L (1 - x^2) beta th0) by (assumption || lra). reflexivity.
        + unfold st0. field. refine (conj _ (conj _ (conj _ _))); try assumption; lra.
      - exists uth. split; [reflexivity|]. rewrite of_uth. unfold st0.
        transitivity (/ L * Rabs L * (PI / (2 * ellK (kt2 (a^2 * (1 - E^2)) (1 - x^2) beta)) * ellF (phit (1 - x^2) th0) (kt2 (a^2 * (1 - E^2)) (1 - x^2) beta))).
        { field. refine (conj _ (conj _ (conj _ _))); try assumption; lra. }
        f_equal. destruct (Rcase_abs L) as [K|K].
        + rewrite (Rabs_left L) by lra. field. assumption.
        + rewrite (Rabs_right L) by lra. field. assumption. }
    destruct FT as (u & -> & EQ). cbn [bind]. cbv zeta.
    rewrite (lambda_theta HX a E L (1 - x^2) beta th0) by (assumption || lra).
    rewrite polar_phase_general by exact Bd. rewrite EQ. reflexivity. }
  rewrite QT. reflexivity.
Qed.

Lemma signed_mirror : th_away -> fth a x E beta (q_th_signed (-1)) = PI - th0.
Proof.
  intros TA. pose proof (fth_q_th HX HR HP a p e x ur uth uph gam Ha E L Q t0 r0 th0 ph0 dt dr dth dph Hth Hr HN HI r1 r2 r3 r4 zp beta a2s F) as FT.
  unfold q_th in FT. unfold q_th_signed.
  destruct (Rlt_dec (Rabs (th0 - thmin)) tol); [lra|]. destruct (Rlt_dec (Rabs (th0 - (PI - thmin))) tol); [lra|].
  set (s := st0 a E (1 - x^2) beta th0) in *.
  pose proof (fth_half HX _ _ _ _ _ _ _ _ _ _ _ _ _ _ _ _ _ _ F) as FH.
  pose proof (fth_even HX _ _ _ _ _ _ _ _ _ _ _ _ _ _ _ _ _ _ F) as FE.
  destruct (Rlt_dec 0 dth).
  - rewrite <- FT. rewrite <- FE. pose proof (FH (- (PI / 2 - -1 * s))) as K.
    replace (- (PI / 2 - -1 * s) + PI) with (PI / 2 - s) in K by field. lra.
  - rewrite <- FT. rewrite <- FE. pose proof (FH (- (-1 * s + 3 * PI / 2))) as K1.
    pose proof (FH (- (-1 * s + 3 * PI / 2) + PI)) as K2. pose proof (FH (- (-1 * s + 3 * PI / 2) + PI + PI)) as K3.
    replace (- (-1 * s + 3 * PI / 2) + PI + PI + PI) with (s + 3 * PI / 2) in K3 by field. lra.
Qed.
End F.

(** passing any of the constants, the radial roots, the radial frequency, and for prograde
    orbits the polar frequency, as returned by the library, does not change the result *)
Theorem C74_cached_arguments_partial rr c our out :
  c = None \/ c = Some (Some E, Some L, Some Q) ->
  rr = None \/ (exists rs, rr = Some rs /\ stable_radial_roots (Some a) (Some p) (Some e) (Some x) None = Ret rs) ->
  our = None \/ our = Some (Some ur) ->
  out = None \/ (out = Some (Some uth) /\ 0 < x) ->
  stable_orbit_initial_phases (Some a) pos vel c rr our out default_tol
  = stable_orbit_initial_phases (Some a) pos vel None None None None default_tol.
Proof.
  intros Hc Hrr Hour Hout.
  destruct (mino_facts HX HR a p e x ur uth uph gam (Rlt_le _ _ Ha) HF) as (E' & L' & Q' & r1 & r2 & r3 & r4 & zp & beta & a2s & F).
  assert (E' = E /\ L' = L /\ Q' = Q) as (-> & -> & ->).
  { pose proof (of_constants _ _ _ _ _ _ _ _ _ _ _ _ _ _ _ _ _ _ F) as K. rewrite HC in K. apply Ret_inj in K. repeat split; congruence. }
  rewrite (phases_cached r1 r2 r3 r4 zp beta a2s F None None None None 1) by auto.
  apply (phases_cached r1 r2 r3 r4 zp beta a2s F); auto.
  - destruct Hrr as [->|(rs & -> & K)]; [now left|]. right. f_equal.
    pose proof (of_roots _ _ _ _ _ _ _ _ _ _ _ _ _ _ _ _ _ _ F) as K2.
    unfold stable_radial_roots in K, K2. cbn [default] in K, K2. 
    rewrite HC in K. cbn [bind] in K, K2. congruence.
  - destruct Hout as [-> | (-> & Hx)]; [now left|]. right. split; [reflexivity|].
    assert (0 < L). { pose proof (of_Lx _ _ _ _ _ _ _ _ _ _ _ _ _ _ _ _ _ _ F). nra. }
    rewrite Rabs_right by lra. field. lra.
Qed.

(** refuted for retrograde orbits: with the orbit's own polar frequency the phases belong to
    the mirror image of the given position *)
Theorem C74_refuted_retrograde c rr our qt qr qth qph t r theta phi : x < 0 -> th_away ->
  c = None \/ c = Some (Some E, Some L, Some Q) -> rr = None -> our = None \/ our = Some (Some ur) ->
  stable_orbit_initial_phases (Some a) pos vel c rr our (Some (Some uth)) default_tol = Ret (Some qt, Some qr, Some qth, Some qph) ->
  runs_as (stable_trajectory (Some a) (Some p) (Some e) (Some x) (Some qt, Some qr, Some qth, Some qph) None "natural" "natural") t r theta phi ->
  theta 0 = PI - th0.
Proof.
  intros Hx TA Hc Hrr Hour H HV.
  destruct (mino_facts HX HR a p e x ur uth uph gam (Rlt_le _ _ Ha) HF) as (E' & L' & Q' & r1 & r2 & r3 & r4 & zp & beta & a2s & F).
  assert (E' = E /\ L' = L /\ Q' = Q) as (-> & -> & ->).
  { pose proof (of_constants _ _ _ _ _ _ _ _ _ _ _ _ _ _ _ _ _ _ F) as K. rewrite HC in K. apply Ret_inj in K. repeat split; congruence. }
  assert (LN : L < 0). { pose proof (of_Lx _ _ _ _ _ _ _ _ _ _ _ _ _ _ _ _ _ _ F). nra. }
  rewrite (phases_cached r1 r2 r3 r4 zp beta a2s F c rr our _ (-1)) in H; auto.
  2:{ right. split; [reflexivity|]. rewrite Rabs_left by lra. field. lra. }
  apply Ret_inj in H. assert (qth = q_th_signed beta (-1)) as -> by congruence.
  pose proof (runs_as_unique _ _ _ _ _ _ _ _ _ HV (trajectory_runs HX a p e x ur uth uph gam _ _ _ _ _ _ _ _ _ _ F _ _ _ _ HF) 0) as (_ & _ & Th0 & _).
  unfold sth in Th0. rewrite Rmult_0_r, Rplus_0_l in Th0. rewrite Th0.
  apply (signed_mirror r1 r2 r3 r4 zp beta a2s F TA).
Qed.
End S.

(** the hypotheses are met by a particle at r = 30, theta = pi/3 on the inclined retrograde orbit
    a = 1/2, p = 20, e = 1/2, x = -1/2 (which oscillates between pi/6 and 5 pi/6) *)
Example C74_case {X : External R} (HX : special_spec X) (HR : root_spec X) : exists E L Q ur uth uph gam dt dr dth dph,
  mino_frequencies (Some (1/2)) (Some 20) (Some (1/2)) (Some (-1/2)) = Ret (Some ur, Some uth, Some uph, Some gam) /\
  constants_of_motion (Some (1/2)) (Some 20) (Some (1/2)) (Some (-1/2)) = Ret (Some E, Some L, Some Q) /\
  kerr_line_element (1/2) 30 (PI / 3) dt dr dth dph = -1 /\
  constants_from_initial_conditions (Some (1/2)) (Some 0, Some 30, Some (PI / 3), Some 0) (Some dt, Some dr, Some dth, Some dph)
    = Ret (Some E, Some L, Some Q) /\
  tol <= Rabs (PI / 3 - acos (sqrt (1 - (-1/2)^2))) /\ tol <= Rabs (PI / 3 - (PI - acos (sqrt (1 - (-1/2)^2)))).
Proof.
  destruct (far_retrograde HX HR (1/2) 20 (1/2) (-1/2)) as (E & L & Q & ur & uth & uph & gam & HC & HF); try lra.
  destruct (accepted_bound_region HR (1/2) 20 (1/2) (-1/2) E L Q ltac:(lra) ltac:(lra) HC) as (E0 & E1 & Q0 & r3 & r4 & BR).
  replace (20 / (1 - 1/2)) with 40 in BR by field. replace (20 / (1 + 1/2)) with (40/3) in BR by field.
  destruct (C14_polar_turning_point HR (1/2) 20 (1/2) (-1/2) E L Q HC) as (PT & _ & HN & _).
  unfold spin_sign in HN. destruct (Rlt_dec (1/2) 0); [lra|]. specialize (HN ltac:(lra)).
  assert (LP : 0 < L^2) by (apply pow2_gt_0; lra).
  assert (R2 : 0 < radial_potential (1/2) E L Q 30).
  { destruct BR as (FF & O4 & O3 & O2 & _). rewrite FF. repeat apply Rmult_lt_0_compat; lra. }
  assert (S2 : sin (PI / 3) ^ 2 = 3/4). { rewrite sin_PI3. unfold Rdiv. rewrite Rpow_mult_distr, pow2_sqrt by lra. field. }
  assert (P2 : 0 < polar_potential (1/2) E L Q (PI / 3)).
  { unfold polar_polynomial in PT. unfold polar_potential. rewrite cos_PI3, S2. 
    replace (L^2 / (3/4)) with (4/3 * L^2) by field. nra. }
  assert (HS : Sigma (1/2) 30 (PI / 3) = 900 + 1/16) by (unfold Sigma; rewrite cos_PI3; field).
  destruct (data_with_constants (1/2) E L Q 0 30 (PI / 3) 0 (sqrt (radial_potential (1/2) E L Q 30)) (sqrt (polar_potential (1/2) E L Q (PI / 3)))) as (dt & dph & N & I).
  - rewrite HS. lra.
  - unfold Delta. lra.
  - intros K. rewrite K in S2. lra.
  - apply pow2_sqrt. lra.
  - apply pow2_sqrt. lra.
  - exists E, L, Q, ur, uth, uph, gam, dt. do 2 eexists. exists dph.
    refine (conj HF (conj HC (conj N (conj I _)))).
    assert (TM : acos (sqrt (1 - (-1/2)^2)) = PI / 6).
    { replace (sqrt (1 - (-1/2)^2)) with (cos (PI / 6)). { apply acos_cos. pose proof PI_RGT_0. lra. }
      rewrite cos_PI6. symmetry. apply sqrt_lem_1; [lra | pose proof (sqrt_pos 3); lra |].
      assert (sqrt 3 * sqrt 3 = 3) by (apply sqrt_sqrt; lra). nra. }
    rewrite TM. pose proof PI2_3_2. unfold PI2 in *. unfold tol.
    rewrite Rabs_right, Rabs_left1 by lra. lra.
Qed.
Print Assumptions C74_cached_arguments_partial.
Print Assumptions C74_refuted_retrograde.
