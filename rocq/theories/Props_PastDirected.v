(** * C75: past-directed initial velocities

    Orbit checks that the initial velocity is timelike and normalised but not that it points to
    the future.  Reversing the velocity of a particle on a bound orbit (a,p,e,x) negates E and L
    and leaves Q; the radial and polar polynomials do not change, so the reversed data are
    classified as stable, and apex_from_constants, which reads the direction off the sign of L
    alone, returns (a,p,e,-x): the parameters of a different geodesic. *)
From Coq Require Import Reals Lra Lia ZArith String List.
From Coquelicot Require Import Coquelicot.
From Verif Require Import Num Outcome External Checked ExternalSpec.
From Verif Require Import Model_Units Model_Constants Model_Frequencies Model_Spacetime Model_InitialConditions Model_Stable Model_Orbit.
From Verif Require Import Spec SpecElliptic Elliptic P_Roots P_Poly P_Validation Props_Validation P_Bounds P_Constants Props_Constants.
From Verif Require Import P_Spacetime Props_Spacetime Props_Plunge Props_Orbit.
From Verif Require Import P_Radial P_Polar P_Traj P_Traj2 P_Traj3 P_Traj4 Props_Trajectory Props_Trajectory2.
From Verif Require Import Props_Stability Props_Stability3 P_Phases Props_Phases Props_Restart Props_Future Props_Cached Props_Frequencies Props_PlungePhases.
Import ListNotations.
Open Scope R_scope.

(** negating the velocity negates E and L and keeps Q *)
Lemma reversed_constants a t0 r0 th0 ph0 dt dr dth dph E L Q s1 s2 s3 :
  Sigma a r0 th0 <> 0 -> Delta a r0 <> 0 -> sin th0 <> 0 -> s1^2 = 1 -> s2^2 = 1 -> s3^2 = 1 ->
  constants_from_initial_conditions (Some a) (Some t0, Some r0, Some th0, Some ph0) (Some dt, Some dr, Some dth, Some dph)
    = Ret (Some E, Some L, Some Q) ->
  constants_from_initial_conditions (Some a) (Some t0, Some r0, Some th0, Some ph0) (Some (s1 * dt), Some (s2 * dr), Some (s3 * dth), Some (s1 * dph))
    = Ret (Some (s1 * E), Some (s1 * L), Some Q).
Proof.
  intros HS HD Hs Q1 Q2 Q3 H.
  destruct (constants_from_ic_checked a t0 r0 th0 ph0 dt dr dth dph HS HD Hs) as (q1 & K1 & P1).
  destruct (constants_from_ic_checked a t0 r0 th0 ph0 (s1 * dt) (s2 * dr) (s3 * dth) (s1 * dph) HS HD Hs) as (q2 & K2 & P2).
  rewrite H in K1. apply Ret_inj in K1.
  assert (Q = q1) as -> by congruence. assert (EE : E = - p_t a r0 th0 dt dph) by congruence. assert (EL : L = p_phi a r0 th0 dt dph) by congruence.
  assert (T1 : - p_t a r0 th0 (s1 * dt) (s1 * dph) = s1 * E) by (rewrite EE; unfold p_t; ring).
  assert (T2 : p_phi a r0 th0 (s1 * dt) (s1 * dph) = s1 * L) by (rewrite EL; unfold p_phi; ring).
  rewrite <- EE, <- EL in P1. rewrite T1, T2 in P2, K2. rewrite K2.
  replace q2 with q1; [reflexivity|].
  unfold polar_potential in *.
  replace ((s1 * E)^2) with (s1^2 * E^2) in P2 by ring. replace ((s1 * L)^2) with (s1^2 * L^2) in P2 by ring. rewrite Q1 in P2.
  replace ((Sigma a r0 th0 * (s3 * dth))^2) with (s3^2 * (Sigma a r0 th0 * dth)^2) in P2 by ring. rewrite Q3 in P2. lra.
Qed.

Lemma radial_poly_even (a E L Q : R) : radial_poly a (- E) (- L) Q = radial_poly a E L Q.
Proof. unfold radial_poly. rnum. repeat (apply f_equal2; [ring|]). reflexivity. Qed.
Lemma polar_poly_even (a E L Q : R) : polar_poly a (- E) (- L) Q = polar_poly a E L Q.
Proof. unfold polar_poly. rnum. repeat (apply f_equal2; [ring|]). reflexivity. Qed.

Lemma oopp_oopp (x y : option R) : (nopp x * nopp y = x * y)%num.
Proof. destruct x as [x|], y as [y|]; cnum; try reflexivity. f_equal. ring. Qed.
Lemma omul_opp_l (x y : option R) : (nopp x * y = nopp (x * y))%num.
Proof. destruct x as [x|], y as [y|]; cnum; try reflexivity. f_equal. ring. Qed.
Lemma omul_opp_r (x y : option R) : (x * nopp y = nopp (x * y))%num.
Proof. destruct x as [x|], y as [y|]; cnum; try reflexivity. f_equal. ring. Qed.
Lemma odiv_opp_l (x y : option R) : (nopp x / y = nopp (x / y))%num.
Proof. destruct x as [x|], y as [y|]; cnum; unfold cdiv; try reflexivity. destruct (Req_EM_T y 0); [reflexivity|]. f_equal. field. assumption. Qed.
Lemma odiv_opp_r (x y : option R) : (x / nopp y = nopp (x / y))%num.
Proof.
  destruct x as [x|], y as [y|]; cnum; unfold cdiv; try reflexivity.
  destruct (Req_EM_T (- y) 0) as [K|K], (Req_EM_T y 0) as [K'|K']; try reflexivity; try lra. f_equal. field. assumption.
Qed.
Lemma opow2_opp (x : R) : ((Some (- x)) ^ 2 = (Some x) ^ 2)%num.
Proof. change (Some ((- x)^2) = Some (x^2)). f_equal. ring. Qed.

Section S.
Context {X : External R} (HX : special_spec X) (HR : root_spec X) (HP : polyroots_spec X).

Lemma e0zp_even a E L z : e0zp_of (Some a) (Some (- E)) (Some (- L)) z = e0zp_of (Some a) (Some E) (Some L) z.
Proof. unfold e0zp_of. now rewrite !opow2_opp. Qed.

(** the phases depend on (E, L) only up to a common sign *)
Lemma phases_even a E L Q pos vel : a <> 0 ->
  stable_orbit_initial_phases (Some a) pos vel (Some (Some (- E), Some (- L), Some Q)) None None None default_tol
  = stable_orbit_initial_phases (Some a) pos vel (Some (Some E, Some L, Some Q)) None None None default_tol.
Proof.
  intros Ha. destruct pos as [[[t0 r0] th0] ph0], vel as [[[dt dr] dth] dph].
  unfold stable_orbit_initial_phases. cbn [default bind].
  unfold polar_roots_of. rewrite !polar_poly_some, !radial_poly_some, radial_poly_even, polar_poly_even.
  destruct (real_of_roots (polyroots (map Some (polar_poly a E L Q)))) as [zs| |]; cbn [bind]; try reflexivity.
  change (neqb (Some a) (nZ 0)) with (Some (Reqb a 0)). rewrite Reqb_false by exact Ha. cbn [ifo].
  destruct (unpack2 zs) as [[zm zp]| |]; cbn [bind]; try reflexivity.
  destruct (real_of_roots (polyroots (map Some (radial_poly a E L Q)))) as [rs| |]; cbn [bind]; try reflexivity.
  destruct (unpack4 rs) as [[[[r4 r3] r2] r1]| |]; cbn [bind]; try reflexivity.
  rewrite !theta_from_constants by exact Ha. cbn [bind default].
  assert (K1 : r_frequency_from_constants (Some (- E), Some (- L), Some Q) (r4, r3, r2, r1) = r_frequency_from_constants (Some E, Some L, Some Q) (r4, r3, r2, r1)).
  { unfold r_frequency_from_constants, r_freq_formula. now rewrite opow2_opp. }
  rewrite K1.
  assert (K2 : forall u, radial_phase (Some (- E)) r0 dr r1 r2 r3 r4 u = radial_phase (Some E) r0 dr r1 r2 r3 r4 u).
  { intros u. unfold radial_phase. now rewrite opow2_opp. }
  rewrite K2.
  assert (K3 : forall w, polar_phase th0 dth (nZ 1 / (Some (- L) * w) * ellipkinc (nasin (ncos th0 / nsqrt zm)) (nsqrt (zm / zp) ^ 2))%num
      (theta_freq_formula (Some a) (Some (- E)) (Some (- L)) (zm, zp))
    = polar_phase th0 dth (nZ 1 / (Some L * w) * ellipkinc (nasin (ncos th0 / nsqrt zm)) (nsqrt (zm / zp) ^ 2))%num
      (theta_freq_formula (Some a) (Some E) (Some L) (zm, zp))).
  { intros w. unfold theta_freq_formula. rewrite e0zp_even.
    change (Some (- L)) with (nopp (Some L)).
    rewrite (omul_opp_l (Some L)), odiv_opp_r, omul_opp_l, omul_opp_r, omul_opp_l, odiv_opp_l.
    unfold polar_phase. rewrite oopp_oopp. reflexivity. }
  rewrite e0zp_even, K3. reflexivity.
Qed.

(** a particle on a bound orbit moves to the future *)
Lemma future_on_orbit a p e x E L Q r th : 0 <= a -> e < 1 ->
  constants_of_motion (Some a) (Some p) (Some e) (Some x) = Ret (Some E, Some L, Some Q) ->
  p / (1 + e) <= r -> 0 < sin th -> 0 <= radial_potential a E L Q r -> 0 <= polar_potential a E L Q th ->
  r^2 <= dt_dlambda a E L r th.
Proof.
  intros Ha He1 HC Hr Hs HRp HTp.
  destruct (constants_inv _ _ _ _ _ _ _ Ha HC) as [HCK _].
  destruct (accepted_bounds HR a p e x Ha HCK) as (Ha1 & He & Hx & Hr2 & HD & _ & _).
  destruct (C15_roots_defined HR a p e x E L Q (Some (Some E, Some L, Some Q)) HC He1 (or_intror eq_refl))
    as (s1 & s2 & s3 & s4 & _ & Q1 & Q2 & R4 & R3 & R21 & F).
  destruct (C23_bound_orbits HR a p e x E L Q HC He1) as (HE & HQ & _).
  rewrite (Rabs_pos_eq a Ha) in F.
  assert (SQ : 0 < sqrt (1 - a^2)) by (apply sqrt_lt_R0; nra).
  assert (SS : sqrt (1 - a^2) ^2 = 1 - a^2) by (apply pow2_sqrt; nra).
  assert (DP : forall r, s2 <= r -> 0 < Delta a r).
  { intros r' K. unfold Delta. assert (1 + sqrt (1 - a^2) < r') by lra. nra. }
  rewrite <- Q2 in Hr.
  apply (dt_lower a E L Q); try assumption; try lra; [apply DP; lra |].
  apply (P_pos a E L Q s1 s2 s3 s4); try assumption; try lra; [nra | apply DP; lra].
Qed.

(** ** The reversed data are accepted and turned into the orbit (a,p,e,-x)

    [HF'] says that (a,p,e,-x) is itself a stable orbit; otherwise Orbit raises. *)
Theorem C75_past_directed_refuted :
  forall a p e x ur uth uph gam ur' uth' uph' gam' E L Q t0 r0 th0 ph0 dt dr dth dph M mu,
  0 < a ->
  mino_frequencies (Some a) (Some p) (Some e) (Some x) = Ret (Some ur, Some uth, Some uph, Some gam) ->
  mino_frequencies (Some a) (Some p) (Some e) (Some (- x)) = Ret (Some ur', Some uth', Some uph', Some gam') ->
  constants_of_motion (Some a) (Some p) (Some e) (Some x) = Ret (Some E, Some L, Some Q) ->
  0 < th0 < PI -> p / (1 + e) <= r0 <= p / (1 - e) ->
  kerr_line_element a r0 th0 dt dr dth dph = -1 ->
  let pos := (Some t0, Some r0, Some th0, Some ph0) in
  constants_from_initial_conditions (Some a) pos (Some dt, Some dr, Some dth, Some dph) = Ret (Some E, Some L, Some Q) ->
  (* the particle moves to the future; the reversed velocity is as normalised as the original *)
  0 < dt /\ kerr_line_element a r0 th0 (- dt) (- dr) (- dth) (- dph) = -1 /\
  exists o, Orbit_init (Some a) pos (Some (- dt), Some (- dr), Some (- dth), Some (- dph)) M mu = Ret o /\
  o_stable o = true /\ o_E o = Some (- E) /\ o_L o = Some (- L) /\ o_Q o = Some Q /\
  (* the attributes do not belong together ... *)
  o_apex o = Some (Some p, Some e, Some (- x)) /\
  (forall E' L' Q', constants_of_motion (Some a) (Some p) (Some e) (Some (- x)) = Ret (Some E', Some L', Some Q') -> o_E o <> Some E') /\
  (* ... and the trajectory runs to the future: it does not have the given u^t = -dt < 0 *)
  exists t r theta phi, runs_as (Orbit_trajectory o None "natural" "natural") t r theta phi /\
  (forall l m, l < m -> t l < t m) /\ exists t', is_derive t 0 t' /\ Sigma a r0 th0 * (- dt) < 0 < t'.
Proof.
  intros a p e x ur uth uph gam ur' uth' uph' gam' E L Q t0 r0 th0 ph0 dt dr dth dph M mu Ha HF HF' HC Hth Hr HN pos HI.
  pose proof (sin_gt_0 th0 (proj1 Hth) (proj2 Hth)) as S0.
  destruct (mino_facts HX HR a p e x ur uth uph gam (Rlt_le _ _ Ha) HF) as (E' & L' & Q' & r1 & r2 & r3 & r4 & zp & beta & a2s & F).
  assert (E' = E /\ L' = L /\ Q' = Q) as (-> & -> & ->).
  { pose proof (of_constants _ _ _ _ _ _ _ _ _ _ _ _ _ _ _ _ _ _ F) as K. rewrite HC in K. apply Ret_inj in K. repeat split; congruence. }
  destruct (orbit_polynomials HR HP a p e x ur uth uph gam Ha _ _ _ _ _ _ _ _ _ _ F) as (HE & R4 & RM & R3 & R2 & _).
  pose proof (sigma_pos a p e x ur uth uph gam E L Q r0 th0 Hr r1 r2 r3 r4 zp beta a2s F) as SP.
  pose proof (delta_nz HR HP a p e x ur uth uph gam Ha E L Q r0 Hr r1 r2 r3 r4 zp beta a2s F) as DN.
  assert (REV : constants_from_initial_conditions (Some a) pos (Some (- dt), Some (- dr), Some (- dth), Some (- dph)) = Ret (Some (- E), Some (- L), Some Q)).
  { pose proof (reversed_constants a t0 r0 th0 ph0 dt dr dth dph E L Q (-1) (-1) (-1) ltac:(lra) DN ltac:(lra) ltac:(ring) ltac:(ring) ltac:(ring) HI) as K.
    replace (-1 * dt) with (- dt) in K by ring. replace (-1 * dr) with (- dr) in K by ring. replace (-1 * dth) with (- dth) in K by ring.
    replace (-1 * dph) with (- dph) in K by ring. replace (-1 * E) with (- E) in K by ring. replace (-1 * L) with (- L) in K by ring. exact K. }
  assert (MIR : constants_from_initial_conditions (Some a) pos (Some dt, Some (- dr), Some (- dth), Some dph) = Ret (Some E, Some L, Some Q)).
  { pose proof (reversed_constants a t0 r0 th0 ph0 dt dr dth dph E L Q 1 (-1) (-1) ltac:(lra) DN ltac:(lra) ltac:(ring) ltac:(ring) ltac:(ring) HI) as K.
    rewrite !Rmult_1_l in K. replace (-1 * dr) with (- dr) in K by ring. replace (-1 * dth) with (- dth) in K by ring. exact K. }
  assert (NMir : kerr_line_element a r0 th0 dt (- dr) (- dth) dph = -1) by (rewrite <- HN; unfold kerr_line_element; field; split; lra).
  assert (NRev : kerr_line_element a r0 th0 (- dt) (- dr) (- dth) (- dph) = -1) by (rewrite <- HN; unfold kerr_line_element; field; split; lra).
  (* dt > 0 *)
  assert (DT : 0 < dt).
  { destruct (C05_recovered_constants_are_momenta a t0 r0 th0 ph0 dt dr dth dph ltac:(lra) DN ltac:(lra)) as (E1 & L1 & Q1 & K & _ & M1 & M2 & M3 & M4).
    unfold pos in HI. rewrite HI in K. apply Ret_inj in K. assert (E = E1 /\ L = L1 /\ Q = Q1) as (<- & <- & <-) by (repeat split; congruence).
    assert (e < 1) by (destruct F; lra).
    pose proof (future_on_orbit a p e x E L Q r0 th0 ltac:(lra) ltac:(lra) HC (proj1 Hr) S0) as D.
    rewrite <- M1, <- (M4 HN), M2 in D. specialize (D (pow2_ge_0 _) (pow2_ge_0 _)).
    assert (0 < r0^2) by (destruct F; rewrite <- of_r2 in Hr; apply pow_lt; lra).
    apply Rmult_lt_reg_l with (Sigma a r0 th0); lra. }
  refine (conj DT (conj NRev _)).
  destruct (C43_phases_reproduce_initial_conditions HX HR HP a p e x ur uth uph gam Ha HF E L Q t0 r0 th0 ph0 dt (- dr) (- dth) dph HC Hth Hr NMir MIR)
    as (qr & qth & HPh & _).
  assert (PH : stable_orbit_initial_phases (Some a) pos (Some (- dt), Some (- dr), Some (- dth), Some (- dph)) None None None None default_tol
    = Ret (Some t0, Some qr, Some qth, Some ph0)).
  { rewrite <- HPh.
    transitivity (stable_orbit_initial_phases (Some a) pos (Some (- dt), Some (- dr), Some (- dth), Some (- dph)) (Some (Some (- E), Some (- L), Some Q)) None None None default_tol).
    { unfold stable_orbit_initial_phases, pos. cbn [default]. fold pos. now rewrite REV. }
    rewrite phases_even by lra.
    unfold stable_orbit_initial_phases, pos. cbn [default]. fold pos. now rewrite MIR. }
  assert (ST : ic_is_stable (Some a) pos (Some (- dt), Some (- dr), Some (- dth), Some (- dph)) None default_tol = Ret true).
  { transitivity (ic_is_stable (Some a) pos (Some (- dt), Some (- dr), Some (- dth), Some (- dph)) (Some (Some E, Some L, Some Q)) default_tol).
    - unfold ic_is_stable, pos. cbn [default]. fold pos. rewrite REV. cbn [bind]. rewrite !radial_poly_some, radial_poly_even. reflexivity.
    - rewrite default_tol_value. pose proof tol_pos.
      assert (A2 : a^2 <= 1) by (destruct F; clear - of_a; nra).
      assert (E2 : E^2 <> 1) by (apply Rlt_not_eq; clear - HE; nra).
      assert (O1 : r4 <= r3) by lra. assert (O2 : r3 <= r2) by lra. assert (O3 : r2 <= r1) by (destruct F; lra).
      destruct (C37_four_real_roots HP a E L Q t0 r0 th0 ph0 (Some (- dt), Some (- dr), Some (- dth), Some (- dph)) tol r1 r2 r3 r4 A2 E2 O1 O2 O3
        (of_R _ _ _ _ _ _ _ _ _ _ _ _ _ _ _ _ _ _ F)) as (W & _).
      apply W. fold (rm a). split; [lra|]. unfold within. destruct F. rewrite <- of_r1, <- of_r2 in Hr. lra. }
  assert (HA : apex_from_constants (Some a) (Some (- E)) (Some (- L)) (Some Q) = Ret (Some a, Some p, Some e, Some (- x))).
  { assert (HA : apex_from_constants (Some a) (Some E) (Some L) (Some Q) = Ret (Some a, Some p, Some e, Some x)).
    { destruct F. apply (C17_apex_inverts_constants HR HP a p e x E L Q); try assumption; lra. }
    unfold apex_from_constants, polar_roots_of in *. rewrite !radial_poly_some, !polar_poly_some in *. rewrite radial_poly_even, polar_poly_even.
    destruct (real_of_roots (polyroots (map Some (radial_poly a E L Q)))) as [rs| |]; cbn [bind] in *; try discriminate.
    destruct (unpack4 rs) as [[[[s4 s3] s2] s1]| |]; cbn [bind] in *; try discriminate.
    match type of HA with bind ?z _ = _ => destruct z as [[zm zq]| |]; cbn [bind] in *; try discriminate end.
    apply Ret_inj in HA.
    assert (K : (nsign (Some L) * nsqrt (nZ 1 - zm))%num = Some x) by congruence.
    assert (K' : (nsign (Some (- L)) * nsqrt (nZ 1 - zm))%num = Some (- x)).
    { replace (nsign (Some (- L))) with (nopp (nsign (Some L))).
      - rewrite omul_opp_l, K. reflexivity.
      - change (Some (- Rsgn L) = Some (Rsgn (- L))). f_equal. unfold Rsgn. destruct F.
        destruct (Rlt_dec 0 L), (Rlt_dec L 0), (Rlt_dec 0 (- L)), (Rlt_dec (- L) 0); lra. }
    apply f_equal, f_equal2; [congruence | exact K']. }
  assert (NM : norm (Some a) (Some t0) (Some r0) (Some th0) (Some ph0) (Some (- dt), Some (- dr), Some (- dth), Some (- dph)) = Some (-1)).
  { rewrite <- NRev. apply C02_norm_is_kerr_line_element; [lra | exact DN]. }
  destruct (fundamental_defined _ _ _ _ _ HF') as (om & HO).
  eexists. split.
  { unfold Orbit_init, pos. rewrite NM.
    change (nleb (nZ 0) (Some (-1))) with (Some (Rleb 0 (-1))). rewrite Rleb_false by lra. cbn [ifo].
    change (nltb (nQ 1 1000000) (nabs (Some (-1) + nZ 1)%num)) with (Some (Rltb (1/1000000) (Rabs (-1 + 1)))).
    replace (-1 + 1) with 0 by ring. rewrite Rabs_R0, Rltb_false by lra. cbn [ifo].
    fold pos. rewrite REV. cbn [bind]. rewrite ST. cbn [bind]. rewrite HA. cbn [bind]. rewrite HF'. cbn [bind].
    rewrite HO. cbn [bind]. rewrite PH. cbn [bind]. reflexivity. }
  cbn [o_stable o_a o_apex o_E o_L o_Q o_upsilon_r o_upsilon_theta o_mino].
  do 5 (split; [reflexivity|]). split.
  { intros E' L' Q' K. assert (e < 1) by (destruct F; lra).
    destruct (C23_bound_orbits HR a p e _ E' L' Q' K H) as (HE' & _). intros Z. assert (- E = E') by congruence. lra. }
  destruct (trajectory_defined HX HR a p e (- x) ur' uth' uph' gam' (Rlt_le _ _ Ha) HF' t0 qr qth ph0) as (t & r & theta & phi & HRun).
  exists t, r, theta, phi. split; [unfold Orbit_trajectory; cbn [o_phases o_apex o_a o_M]; now apply natural_ignores_M|].
  destruct (C65_time_runs_forward HX HR a p e (- x) ur' uth' uph' gam' (Rlt_le _ _ Ha) HF') as (_ & TR).
  destruct (TR _ _ _ _ _ _ _ _ HRun) as (TD & TM & _). split; [exact TM|].
  destruct (TD 0) as (t' & D & B). exists t'. split; [exact D|].
  destruct (C25_bound_motion HX HR a p e (- x) ur' uth' uph' gam' (Rlt_le _ _ Ha) HF' _ _ _ _ _ _ _ _ HRun 0) as ((B1 & B2) & _).
  assert (0 < p / (1 + e)) by (destruct F; lra).
  assert (0 < r 0 ^2) by (apply pow_lt; lra). split; [|lra].
  assert (0 < Sigma a r0 th0 * dt) by (apply Rmult_lt_0_compat; lra). lra.
Qed.

(** the hypotheses are met by a particle on the prograde circular orbit a = 1/2, p = 16 *)
Example C75_case : exists ur uth uph gam ur' uth' uph' gam' E L Q dt dr dth dph,
  mino_frequencies (Some (1/2)) (Some 16) (Some 0) (Some 1) = Ret (Some ur, Some uth, Some uph, Some gam) /\
  mino_frequencies (Some (1/2)) (Some 16) (Some 0) (Some (- (1))) = Ret (Some ur', Some uth', Some uph', Some gam') /\
  constants_of_motion (Some (1/2)) (Some 16) (Some 0) (Some 1) = Ret (Some E, Some L, Some Q) /\
  16 / (1 + 0) <= 16 <= 16 / (1 - 0) /\
  kerr_line_element (1/2) 16 (PI / 2) dt dr dth dph = -1 /\
  constants_from_initial_conditions (Some (1/2)) (Some 0, Some 16, Some (PI / 2), Some 0) (Some dt, Some dr, Some dth, Some dph)
    = Ret (Some E, Some L, Some Q).
Proof.
  pose proof (constants_example X HR) as HC. cbv zeta in HC. destruct (C54_example X HR) as (_ & _ & NH).
  set (E := 113 / (16 * sqrt 53)) in *. set (L := 1009 / (32 * sqrt 53)) in *.
  assert (NH' : 2 * E * (1 + sqrt (1 - (1/2)^2)) <> Rabs (1/2) * L) by (rewrite Rabs_right by lra; exact NH).
  destruct (proj2 (C53_frequencies_exactly HX HR (1/2) 16 0 1 E L 0 ltac:(lra) ltac:(lra) HC) NH') as (ur & uth & uph & gam & HF).
  destruct (far_retrograde HX HR (1/2) 16 0 (-1)) as (E' & L' & Q' & ur' & uth' & uph' & gam' & HC' & HF'); try lra.
  destruct (C15_roots_defined HR (1/2) 16 0 1 E L 0 None HC ltac:(lra) ltac:(auto)) as (s1 & s2 & s3 & s4 & _ & Q1 & Q2 & R4 & R3 & R21 & F).
  rewrite Rabs_right in F by lra. replace (16 / (1 + 0)) with 16 in Q2 by field.
  destruct (data_with_constants (1/2) E L 0 0 16 (PI / 2) 0 0 0) as (dt & dph & N & I).
  - unfold Sigma. rewrite cos_PI2. lra.
  - unfold Delta. lra.
  - rewrite sin_PI2. lra.
  - rewrite F, Q2. ring.
  - unfold polar_potential. rewrite cos_PI2. ring.
  - exists ur, uth, uph, gam, ur', uth', uph', gam', E, L, 0, dt. do 2 eexists. exists dph.
    refine (conj HF (conj _ (conj HC (conj _ (conj N I))))); [exact HF' | lra].
Qed.
End S.
Print Assumptions C75_past_directed_refuted.
