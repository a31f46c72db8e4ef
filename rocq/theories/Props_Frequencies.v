(** * C53, C54: which accepted orbits have finite frequencies, and their trajectories *)
From Coq Require Import Reals Lra Lia ZArith String List.
From Coquelicot Require Import Coquelicot.
From Verif Require Import Num Outcome External Checked ExternalSpec.
From Verif Require Import Model_Constants Model_Frequencies Model_Spacetime Model_Stable Model_Orbit.
From Verif Require Import Spec SpecElliptic Elliptic P_Validation Props_Validation P_Bounds P_Schmidt P_Constants Props_Constants.
From Verif Require Import P_Radial P_Polar P_Traj P_Traj2 P_Traj3 P_Traj4 Props_Trajectory Props_Trajectory2.
From Verif Require Import Props_Stability Props_Finite.
Import ListNotations.
Open Scope R_scope.

Lemma rp_rm_bounds a : 0 <= a < 1 -> Delta a (rp a) = 0 /\ rm a < rp a /\ rp a ^ 2 + a^2 = 2 * rp a.
Proof.
  intros H. assert (0 < 1 - a^2) by nra. pose proof (sqrt_lt_R0 _ H0).
  assert (S : sqrt (1 - a^2) ^ 2 = 1 - a^2) by (apply pow2_sqrt; lra).
  unfold Delta, rp, rm. set (s := sqrt (1 - a^2)) in *. refine (conj _ (conj _ _)); [|lra|].
  - replace ((1 + s)^2 - 2 * (1 + s) + a^2) with (s^2 - 1 + a^2) by ring. rewrite S. ring.
  - replace ((1 + s)^2 + a^2) with (1 + 2 * s + s^2 + a^2) by ring. rewrite S. ring.
Qed.

Lemma mino_std {X : External R} a p e x :
  mino_frequencies (Some a) (Some p) (Some e) (Some x)
  = mino_frequencies (Some (Rabs a)) (Some p) (Some e) (Some (x * spin_sign a)).
Proof.
  unfold mino_frequencies, r_frequency, theta_frequency, phi_frequency, gamma.
  rewrite (constants_std a p e x), !std_some, Rabs_Rabsolu, spin_sign_abs, Rmult_1_r. reflexivity.
Qed.

Section S.
Context {X : External R} (HX : special_spec X) (HR : root_spec X).

(** the third radial root is the horizon radius exactly for L/E = 2 r_+ / a *)
Lemma r3_horizon a E L Q r1 r2 r3 r4 : 0 <= a < 1 -> 0 < E < 1 ->
  (forall r, radial_potential a E L Q r = (1 - E^2) * (r1 - r) * (r - r2) * (r - r3) * (r - r4)) ->
  r4 <= rm a -> rp a < r2 -> r2 <= r1 ->
  (r3 = rp a <-> 2 * E * rp a = a * L).
Proof.
  intros Ha HE HF H4 H2 H1. destruct (rp_rm_bounds a Ha) as (HD & Hm & HS).
  pose proof (HF (rp a)) as K.
  assert (K' : radial_potential a E L Q (rp a) = (2 * E * rp a - a * L)^2).
  { unfold radial_potential. rewrite HD, HS. ring. }
  rewrite K' in K. clear K'.
  assert (0 < 1 - E^2) by nra.
  split; intros Z.
  - subst r3. assert (Z : Rsqr (2 * E * rp a - a * L) = 0) by (rewrite Rsqr_pow2, K; ring).
    apply Rsqr_0_uniq in Z. lra.
  - rewrite (Rminus_diag_eq _ _ Z) in K.
    assert (K2 : (1 - E^2) * (r1 - rp a) * (r2 - rp a) * (rp a - r4) * (rp a - r3) = 0) by (transitivity (- 0^2); [rewrite K|]; ring).
    apply Rmult_integral in K2 as [K2|K2]; [exfalso|lra].
    assert (0 < (1 - E^2) * (r1 - rp a) * (r2 - rp a) * (rp a - r4)) by (repeat apply Rmult_lt_0_compat; lra). lra.
Qed.

(** C53: given finite constants, the four Mino frequencies are finite exactly when a L <> 2 E r_+ *)
Theorem C53_frequencies_exactly a p e x E L Q : e < 1 -> x <> 0 ->
  constants_of_motion (Some a) (Some p) (Some e) (Some x) = Ret (Some E, Some L, Some Q) ->
  ((exists ur uth uph gam,
      mino_frequencies (Some a) (Some p) (Some e) (Some x) = Ret (Some ur, Some uth, Some uph, Some gam))
   <-> 2 * E * (1 + sqrt (1 - a^2)) <> Rabs a * L).
Proof.
  rewrite mino_std, constants_std. rewrite <- (pow2_abs a).
  intros He1 Hx0'. assert (Hx0 : x * spin_sign a <> 0).
  { destruct (spin_sign_cases a) as [-> | ->]; lra. }
  clear Hx0'. revert Hx0. generalize (Rabs_pos a). generalize (x * spin_sign a). generalize (Rabs a). clear a x.
  intros a x Ha Hx0 HC. fold (rp a).
  destruct (constants_inv _ _ _ _ _ _ _ Ha HC) as [HCK _].
  destruct (accepted_bounds HR a p e x Ha HCK) as (Ha1 & He & Hx & Hr2 & HD & _ & _).
  destruct (C15_roots_defined HR a p e x E L Q (Some (Some E, Some L, Some Q)) HC He1 (or_intror eq_refl))
    as (r1 & r2 & r3 & r4 & Hrr & Q1 & Q2 & R4 & R3 & R21 & HF).
  rewrite (Rabs_pos_eq a Ha) in HF.
  fold (rm a) in R4. fold (rp a) in R3.
  destruct (C23_bound_orbits HR a p e x E L Q HC He1) as (HE & _).
  assert (r2 <= r1 /\ rp a < r2 /\ r4 <= rm a) as (K1 & K2 & K3) by lra.
  pose proof (r3_horizon a E L Q r1 r2 r3 r4 Ha1 HE HF K3 K2 K1) as EQ.
  destruct (rp_rm_bounds a Ha1) as (_ & Hm & _).
  split.
  - intros (ur & uth & uph & gam & HM) Z. apply EQ in Z.
    destruct (mino_facts HX HR a p e x ur uth uph gam Ha HM) as (E' & L' & Q' & r1' & r2' & r3' & r4' & zp & beta & a2s & F).
    pose proof (of_constants _ _ _ _ _ _ _ _ _ _ _ _ _ _ _ _ _ _ F) as HC'.
    rewrite HC in HC'. apply Ret_inj in HC'.
    assert (E = E' /\ L = L' /\ Q = Q') as (<- & <- & <-) by (repeat split; congruence).
    pose proof (of_roots _ _ _ _ _ _ _ _ _ _ _ _ _ _ _ _ _ _ F) as Hrr'.
    rewrite Hrr in Hrr'. apply Ret_inj in Hrr'. assert (r3 = r3') as <- by congruence.
    apply (of_p3 _ _ _ _ _ _ _ _ _ _ _ _ _ _ _ _ _ _ F). lra.
  - intros NZ. apply (mino_defined HX HR a p e x E L Q r1 r2 r3 r4); try assumption; try lra; try nra.
Qed.

(** C54: for every accepted inclined or equatorial bound orbit with finite constants and
    frequencies, the trajectory is defined at every Mino time and solves the geodesic equations *)
Theorem C54_every_accepted_orbit a p e x : 0 <= a -> e < 1 -> x <> 0 ->
  check_constants_params a p e x = Ret tt -> ~ exceptional a p e x ->
  exists E L Q, constants_of_motion (Some a) (Some p) (Some e) (Some x) = Ret (Some E, Some L, Some Q) /\
  0 < E < 1 /\ 0 <= Q /\
  (2 * E * (1 + sqrt (1 - a^2)) <> a * L ->
   exists ur uth uph gam,
   mino_frequencies (Some a) (Some p) (Some e) (Some x) = Ret (Some ur, Some uth, Some uph, Some gam) /\
   0 < ur /\ 0 < uth /\
   forall qt qr qth qph, exists t r theta phi,
   runs_as (stable_trajectory (Some a) (Some p) (Some e) (Some x) (Some qt, Some qr, Some qth, Some qph) None "natural" "natural")
     t r theta phi /\
   t 0 = qt /\ phi 0 = qph /\
   forall l, p / (1 + e) <= r l <= p / (1 - e) /\
     acos (sqrt (1 - x^2)) <= theta l <= PI - acos (sqrt (1 - x^2)) /\
     (exists r' theta', is_derive r l r' /\ is_derive theta l theta' /\
        r'^2 = radial_potential a E L Q (r l) /\ theta'^2 = polar_potential a E L Q (theta l)) /\
     is_derive t l (dt_dlambda a E L (r l) (theta l)) /\ is_derive phi l (dphi_dlambda a E L (r l) (theta l))).
Proof.
  intros Ha He1 Hx0 HCK NX.
  assert (S1 : spin_sign a = 1) by (unfold spin_sign; destruct (Rlt_dec a 0); lra).
  destruct (C50_finite_exactly HR a p e x) as [_ CF].
  { rewrite Rabs_pos_eq, S1, Rmult_1_r by assumption. exact HCK. }
  destruct CF as (E & L & Q & HC). { rewrite Rabs_pos_eq, S1, Rmult_1_r by assumption. exact NX. }
  exists E, L, Q. destruct (C23_bound_orbits HR a p e x E L Q HC He1) as (HE & HQ & _).
  refine (conj HC (conj HE (conj HQ _))). intros NZ.
  destruct (proj2 (C53_frequencies_exactly a p e x E L Q He1 Hx0 HC)) as (ur & uth & uph & gam & HF).
  { rewrite Rabs_pos_eq by assumption. exact NZ. }
  exists ur, uth, uph, gam. refine (conj HF _).
  assert (P : 0 < ur /\ 0 < uth).
  { destruct (trajectory_defined HX HR a p e x ur uth uph gam Ha HF 0 0 0 0) as (t & r & th & ph & H).
    destruct (C27_periodic HX HR a p e x ur uth uph gam Ha HF 0 0 0 0 t r th ph H) as (P1 & P2 & _). auto. }
  refine (conj (proj1 P) (conj (proj2 P) _)). intros qt qr qth qph.
  destruct (trajectory_defined HX HR a p e x ur uth uph gam Ha HF qt qr qth qph) as (t & r & theta & phi & H).
  exists t, r, theta, phi. refine (conj H _).
  destruct (C26_start HX HR a p e x ur uth uph gam Ha HF qt qr qth qph t r theta phi H) as (T0 & P0).
  refine (conj T0 (conj P0 _)). intros l.
  destruct (C25_bound_motion HX HR a p e x ur uth uph gam Ha HF qt qr qth qph t r theta phi H l) as (B1 & B2).
  destruct (C28_radial_and_polar_equations HX HR a p e x ur uth uph gam Ha HF qt qr qth qph t r theta phi H E L Q HC l)
    as (r' & th' & D1 & D2 & O1 & _ & O2).
  destruct (C29_time_and_azimuth_equations HX HR a p e x ur uth uph gam Ha HF qt qr qth qph t r theta phi H E L Q HC l)
    as (_ & _ & D3 & D4).
  refine (conj B1 (conj B2 (conj _ (conj D3 D4)))). exists r', th'. auto.
Qed.
End S.


(** ** C53's exceptional orbits are really accepted: the circular equatorial orbit of
    radius 65/9 around a hole with a = sqrt 65 / 9 has finite constants of motion and
    no finite frequencies *)
Example C53_constants (X : External R) (HX : root_spec X) :
  constants_of_motion (Some (sqrt 65 / 9)) (Some (65/9)) (Some 0) (Some 1)
  = Ret (Some (25 / sqrt 715), Some (10 / sqrt 11), Some 0).
Proof.
  assert (S0 : 0 < sqrt 65) by (apply sqrt_lt_R0; lra).
  assert (S2 : sqrt 65 ^ 2 = 65) by (apply pow2_sqrt; lra).
  assert (T0 : 0 < sqrt 11) by (apply sqrt_lt_R0; lra).
  assert (T2 : sqrt 11 ^ 2 = 11) by (apply pow2_sqrt; lra).
  replace 715 with (65 * 11) by lra. rewrite sqrt_mult by lra.
  set (s := sqrt 65) in *. set (t := sqrt 11) in *. clearbody s t.
  assert (HC : check_constants_params (s/9) (65/9) 0 1 = Ret tt).
  { apply (accepts_equatorial_6 HX); try lra. split; nra. }
  assert (V1 : cf (s/9) (1^2) (65/9) = 6067100/2187) by (unfold cf; replace ((s/9)^2) with (s^2/81) by field; rewrite S2; field).
  assert (V2 : ch (s/9) (1^2) (65/9) = 3055/81) by (unfold ch; field).
  assert (V3 : cd (s/9) (1^2) (65/9) = 4394000/2187) by (unfold cd; replace ((s/9)^2) with (s^2/81) by field; rewrite S2; field).
  assert (V4 : cf' (s/9) (1^2) (65/9) = 1108120/729) by (unfold cf'; replace ((s/9)^2) with (s^2/81) by field; rewrite S2; field).
  assert (V5 : ch' (1^2) (65/9) = 112/9) by (unfold ch'; field).
  assert (V6 : cd' (s/9) (1^2) (65/9) = 878800/729) by (unfold cd'; replace ((s/9)^2) with (s^2/81) by field; rewrite S2; field).
  assert (V7 : cg (s/9) (65/9) = 130/81 * s) by (unfold cg; field).
  assert (V8 : cg' (s/9) = 2/9 * s) by (unfold cg'; field).
  assert (S4 : s * s = 65) by (rewrite <- S2; ring).
  unfold constants_of_motion. rewrite energy_run by (assumption || lra).
  rewrite (Reqb_false 0 1), (Reqb_false 1 0), (Reqb_true 0 0) by lra. cbn [bind].
  rewrite coefficients_some, coefficients_derivative_some by lra.
  rewrite V1, V2, V3, V4, V5, V6, V7, V8.
  match goal with |- context [schmidt_energy ?c ?d (Some 1)] =>
    assert (HE : schmidt_energy c d (Some 1) = Some (25 / (s * t))) end.
  { rewrite (schmidt_energy_val _ _ _ _ _ _ _ _ 1 (125/143)).
    - f_equal. apply sqrt_lem_1; [lra | apply Rlt_le, Rdiv_lt_0_compat; nra |].
      transitivity (625 / (s^2 * t^2)); [field; lra | rewrite S2, T2; field].
    - match goal with |- ?l <> 0 => assert (HN : l = 1794607586200000000/3486784401) by field [S4] end. rewrite HN. lra.
    - match goal with |- 0 <= ?l => assert (HN : l = 98434409642482225000000000000/1853020188851841) by field [S4] end. rewrite HN. lra.
    - match goal with |- context [sqrt ?t] => assert (HD : sqrt t = 313742585000000/43046721) end.
      { match goal with |- sqrt ?l = _ => assert (HN : l = 98434409642482225000000000000/1853020188851841) by field [S4] end.
        rewrite HN. apply sqrt_lem_1; lra. }
      rewrite HD. rewrite Rsgn_pos by lra. field [S4].
    - lra. }
  rewrite HE. rewrite angular_momentum_run by (assumption || lra).
  rewrite (Reqb_false 0 1), (Reqb_false 1 0) by lra. cbn [bind].
  rewrite cdiv_some by lra. replace (65/9 / (1 - 0)) with (65/9) by field.
  rewrite coefficients_some by lra. rewrite V1, V2, V3, V7.
  assert (P : 0 < 25 / (s * t)) by (apply Rdiv_lt_0_compat; nra).
  assert (P2 : 0 < 10 / t) by (apply Rdiv_lt_0_compat; nra).
  rewrite (schmidt_L_val _ _ _ _ 1 _ ((3055/81 * (10 / t) + 25 / (s * t) * (130/81 * s))^2)).
  - rewrite sqrt_pow2.
    2:{ apply Rplus_le_le_0_compat; repeat apply Rmult_le_pos; lra. }
    rewrite Rsgn_pos by lra.
    match goal with |- context [Some ((?u + 1 * (?v + ?w)) / ?t')] =>
      replace ((u + 1 * (v + w)) / t') with (10 / t) end.
    2:{ field. lra. }
    rewrite carter_run by (assumption || lra). cbn [bind]. rewrite (Reqb_false 1 0) by lra.
    rewrite carter_value by lra. do 3 f_equal. field. lra.
  - lra.
  - assert (E2 : (25 / (s * t))^2 = 125/143).
    { transitivity (625 / (s^2 * t^2)); [field; lra | rewrite S2, T2; field]. }
    transitivity ((3055/81 * 10 + 25 * (130/81))^2 / t^2); [field; lra|]. rewrite T2.
    rewrite E2. field [S4].
  - apply pow2_ge_0.
Qed.

Theorem C53_refuted (X : External R) : special_spec X -> root_spec X ->
  check_constants_params (Some (sqrt 65 / 9)) (Some (65/9)) (Some 0) (Some 1) = Ret tt /\
  constants_of_motion (Some (sqrt 65 / 9)) (Some (65/9)) (Some 0) (Some 1)
  = Ret (Some (25 / sqrt 715), Some (10 / sqrt 11), Some 0) /\
  ~ exists ur uth uph gam,
    mino_frequencies (Some (sqrt 65 / 9)) (Some (65/9)) (Some 0) (Some 1) = Ret (Some ur, Some uth, Some uph, Some gam).
Proof.
  intros HX HR. pose proof (C53_constants X HR) as HC.
  assert (S0 : 0 < sqrt 65) by (apply sqrt_lt_R0; lra).
  assert (S2 : sqrt 65 ^ 2 = 65) by (apply pow2_sqrt; lra).
  refine (conj _ (conj HC _)).
  - rewrite check_constants_some. apply (accepts_equatorial_6 HR); try lra. split; nra.
  - intros K. pose proof (C53_frequencies_exactly HX HR _ _ 0 1 _ _ _ Rlt_0_1 R1_neq_R0 HC) as [K2 _]. apply (K2 K).
    rewrite Rabs_pos_eq by lra.
    replace (1 - (sqrt 65 / 9)^2) with ((4/9)^2) by (replace ((sqrt 65 / 9)^2) with (sqrt 65 ^2 / 81) by field; rewrite S2; field).
    rewrite sqrt_pow2 by lra.
    replace 715 with (65 * 11) by lra. rewrite sqrt_mult by lra.
    assert (T0 : 0 < sqrt 11) by (apply sqrt_lt_R0; lra).
    apply (Rmult_eq_reg_r (sqrt 65 * sqrt 11)); [|apply Rgt_not_eq, Rmult_lt_0_compat; assumption].
    transitivity (50 * (13/9)); [field; lra|].
    transitivity (10/9 * sqrt 65 ^ 2); [rewrite S2; field | field; lra].
Qed.

(** the hypotheses of C53 and C54 are met by the orbit of [constants_example] *)
Example C54_example (X : External R) (HX : root_spec X) :
  check_constants_params (Some (1/2)) (Some 16) (Some 0) (Some 1) = Ret tt /\
  ~ exceptional (1/2) 16 0 1 /\
  2 * (113 / (16 * sqrt 53)) * (1 + sqrt (1 - (1/2)^2)) <> 1/2 * (1009 / (32 * sqrt 53)).
Proof.
  refine (conj _ (conj _ _)).
  - rewrite check_constants_some. apply (accepts_equatorial_6 HX); lra.
  - intros K.
    destruct K as (_ & _ & [(_ & [K|K]) | (K & _)]); [| |lra].
    + unfold on_static_limit in K. lra.
    + replace (16 / (1 - 0)) with 16 in K by field. replace (16 / (1 + 0)) with 16 in K by field.
      apply (light_ring_equatorial (1/2) 16) in K; lra.
  - assert (1/2 <= sqrt (1 - (1/2)^2)) by (apply Rle_trans with (sqrt ((1/2)^2)); [rewrite sqrt_pow2; lra | apply sqrt_le_1; lra]). assert (S0 : 0 < / sqrt 53) by (apply Rinv_0_lt_compat, sqrt_lt_R0; lra).
    replace (113 / (16 * sqrt 53)) with (113/16 * / sqrt 53) by (field; apply Rgt_not_eq, sqrt_lt_R0; lra).
    replace (1009 / (32 * sqrt 53)) with (1009/32 * / sqrt 53) by (field; apply Rgt_not_eq, sqrt_lt_R0; lra). apply Rgt_not_eq. nra.
Qed.
