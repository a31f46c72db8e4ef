(** * C102: the radius never changes faster than light; radial periods exceed the light travel time *)
From Coq Require Import Reals Lra Lia ZArith String List.
From Coquelicot Require Import Coquelicot.
From Verif Require Import Num Outcome External Checked ExternalSpec.
From Verif Require Import Model_Constants Model_Frequencies Model_Spacetime Model_Stable Model_Orbit.
From Verif Require Import Spec SpecElliptic Elliptic P_Validation Props_Validation P_Bounds P_Schmidt P_Constants Props_Constants.
From Verif Require Import P_Radial P_Polar P_Traj P_Traj2 P_Traj3 P_Traj4 Props_Trajectory Props_Trajectory2.
From Verif Require Import Props_Stability Props_Finite Props_Frequencies Props_Units Props_Future Props_Schwarzschild.
Import ListNotations.
Open Scope R_scope.

(** in the allowed region outside the horizon, dt/dlambda > E (r^2 + a^2) - a L > |dr/dlambda| *)
Lemma dt_above_dr a E L Q r th r' : 0 <= a < 1 -> 0 < Delta a r -> 1 < r -> 0 < sin th -> 0 <= Q ->
  0 < E * (r^2 + a^2) - a * L -> r'^2 = radial_potential a E L Q r -> 0 <= polar_potential a E L Q th ->
  Rabs r' < dt_dlambda a E L r th.
Proof.
  intros Ha HD Hr Hs HQ HP HR HT.
  set (K := (L - a * E)^2 + Q). assert (K0 : 0 <= K) by (unfold K; pose proof (pow2_ge_0 (L - a * E)); lra).
  set (P := E * (r^2 + a^2) - a * L) in *. set (D := Delta a r) in *.
  assert (R2 : 0 < r^2) by (apply pow_lt; lra).
  assert (RP0 : r'^2 = P^2 - D * (r^2 + K)) by (rewrite HR; unfold radial_potential; fold D P; unfold K; lra).
  assert (RP : D * (r^2 + K) <= P^2) by (pose proof (pow2_ge_0 r'); lra).
  assert (TP : (L - a * E * sin th ^2)^2 <= sin th^2 * K).
  { assert (C2 : cos th ^2 = 1 - sin th ^2) by (pose proof (sin2_cos2 th) as Z; unfold Rsqr in Z; lra).
    unfold polar_potential in HT. rewrite C2 in HT.
    assert (S2 : 0 < sin th ^2) by (apply pow_lt; lra).
    assert (I : sin th ^2 * (Q - (1 - sin th^2) * (a^2 * (1 - E^2) + L^2 / sin th^2)) =
       sin th^2 * K - (L - a * E * sin th ^2)^2 - a^2 * (1 - sin th^2) * sin th ^2) by (unfold K; field; lra).
    assert (0 <= sin th ^2 * (Q - (1 - sin th^2) * (a^2 * (1 - E^2) + L^2 / sin th^2))) by (apply Rmult_le_pos; lra).
    assert (0 <= a^2 * (1 - sin th^2) * sin th ^2).
    { apply Rmult_le_pos; [|lra]. apply Rmult_le_pos; [apply pow2_ge_0|]. rewrite <- C2. apply pow2_ge_0. }
    lra. }
  assert (S1 : sin th ^2 <= 1) by (pose proof (sin2_cos2 th) as Z; unfold Rsqr in Z; pose proof (pow2_ge_0 (cos th)); simpl in *; lra).
  assert (TP' : (L - a * E * sin th ^2)^2 <= K) by nra.
  set (w := L - a * E * sin th ^2) in *.
  assert (A1 : a^2 <= 1) by nra.
  assert (DR : D <= r^2) by (unfold D, Delta; lra).
  assert (V : r'^2 < P^2).
  { assert (0 < D * (r^2 + K)) by (apply Rmult_lt_0_compat; lra). lra. }
  assert (W : w^2 * D <= P^2). { assert (w^2 * D <= (r^2 + K) * D) by (apply Rmult_le_compat_r; lra). lra. }
  assert (AW : Rabs (a * w * D) <= r * P).
  { apply Rabs_le. assert (0 < r * P) by (apply Rmult_lt_0_compat; lra).
    assert ((a * w * D)^2 <= (r * P)^2).
    { replace ((a * w * D)^2) with (a^2 * D * (w^2 * D)) by ring. replace ((r * P)^2) with (r^2 * P^2) by ring.
      apply Rmult_le_compat; [apply Rmult_le_pos; [apply pow2_ge_0 | lra] | apply Rmult_le_pos; [apply pow2_ge_0 | lra] | | exact W].
      assert (a^2 * D <= 1 * D) by (apply Rmult_le_compat_r; lra). lra. }
    split; nra. }
  apply Rabs_le_between in AW.
  apply Rlt_trans with P.
  { apply Rabs_lt_between. split; nra. }
  unfold dt_dlambda. fold P D w.
  apply (Rmult_lt_reg_r D); [exact HD|].
  replace (((r ^ 2 + a ^ 2) / D * P + a * w) * D) with ((r^2 + a^2) * P + a * w * D) by (field; lra).
  replace (P * D) with ((r^2 + a^2) * P - 2 * (r * P)) by (unfold D, Delta; ring).
  assert (0 < r * P) by (apply Rmult_lt_0_compat; lra). lra.
Qed.

(** [|r'| < t'] everywhere integrates to [|r m - r l| < t m - t l] *)
Lemma integrate_speed (t r t' r' : R -> R) :
  (forall l, is_derive t l (t' l)) -> (forall l, is_derive r l (r' l)) -> (forall l, Rabs (r' l) < t' l) ->
  forall l m, l < m -> Rabs (r m - r l) < t m - t l.
Proof.
  intros Dt Dr B l m Hl.
  assert (G : forall s : R, s = 1 \/ s = -1 -> 0 < (t m + s * r m) - (t l + s * r l)).
  { intros s Hs. destruct (MVT_gen (fun u => t u + s * r u) l m (fun u => t' u + s * r' u)) as (z & _ & Z).
    - intros u _. apply (is_derive_plus t (fun v => s * r v)); [apply Dt|]. apply (is_derive_scal r u s). apply Dr.
    - intros u _. apply continuity_pt_filterlim. apply (ex_derive_continuous (V := R_NormedModule) (fun v => t v + s * r v) u). eexists.
      apply (is_derive_plus t (fun v => s * r v)); [apply Dt|]. apply (is_derive_scal r u s). apply Dr.
    - rewrite Z. apply Rmult_lt_0_compat; [|lra]. pose proof (B z) as K. apply Rabs_lt_between in K. destruct Hs; subst s; lra. }
  pose proof (G 1 ltac:(lra)). pose proof (G (-1) ltac:(lra)). apply Rabs_lt_between. lra.
Qed.

Section S.
Context {X : External R} (HX : special_spec X) (HR : root_spec X).

(** ** C102 *)
Theorem C102_radius_slower_than_light a p e x ur uth uph gam : 0 <= a ->
  mino_frequencies (Some a) (Some p) (Some e) (Some x) = Ret (Some ur, Some uth, Some uph, Some gam) ->
  forall qt qr qth qph t r theta phi,
  runs_as (stable_trajectory (Some a) (Some p) (Some e) (Some x) (Some qt, Some qr, Some qth, Some qph) None "natural" "natural")
    t r theta phi ->
  forall l m, l < m -> Rabs (r m - r l) < t m - t l.
Proof.
  intros Ha HF qt qr qth qph t r theta phi H.
  destruct (mino_facts HX HR a p e x ur uth uph gam Ha HF) as (E & L & Q & r1 & r2 & r3 & r4 & zp & beta & a2s & FA).
  pose proof (of_constants _ _ _ _ _ _ _ _ _ _ _ _ _ _ _ _ _ _ FA) as HC.
  assert (He1 : e < 1). { destruct FA. lra. }
  destruct (constants_inv _ _ _ _ _ _ _ Ha HC) as [HCK _].
  destruct (accepted_bounds HR a p e x Ha HCK) as (Ha1 & He & Hx & Hr2 & HD & _ & _).
  destruct (C15_roots_defined HR a p e x E L Q (Some (Some E, Some L, Some Q)) HC He1 (or_intror eq_refl))
    as (s1 & s2 & s3 & s4 & _ & Q1 & Q2 & R4 & R3 & R21 & F).
  destruct (C23_bound_orbits HR a p e x E L Q HC He1) as (HE & HQ & _).
  rewrite (Rabs_pos_eq a Ha) in F. clear FA r1 r2 r3 r4.
  assert (SQ : 0 < sqrt (1 - a^2)) by (apply sqrt_lt_R0; nra).
  assert (SS : sqrt (1 - a^2) ^2 = 1 - a^2) by (apply pow2_sqrt; nra).
  assert (DP : forall r, s2 <= r -> 0 < Delta a r).
  { intros r0 K. unfold Delta. assert (1 + sqrt (1 - a^2) < r0) by lra. nra. }
  assert (PP : forall r, s2 <= r -> 0 < E * (r^2 + a^2) - a * L).
  { apply (P_pos a E L Q s1 s2 s3 s4); try assumption; try lra; [nra|]. apply DP; lra. }
  assert (K : forall l, is_derive t l (Derive t l) /\ is_derive r l (Derive r l) /\ Rabs (Derive r l) < Derive t l).
  { intros l.
    destruct (C25_bound_motion HX HR a p e x ur uth uph gam Ha HF qt qr qth qph t r theta phi H l) as ((B1 & B2) & B3).
    destruct (C28_radial_and_polar_equations HX HR a p e x ur uth uph gam Ha HF qt qr qth qph t r theta phi H E L Q HC l)
      as (r' & th' & D1 & _ & O1 & Sn & O2).
    destruct (C29_time_and_azimuth_equations HX HR a p e x ur uth uph gam Ha HF qt qr qth qph t r theta phi H E L Q HC l)
      as (_ & _ & D3 & _).
    rewrite <- Q2 in B1.
    assert (S0 : 0 < sin (theta l)).
    { pose proof (acos_bound (sqrt (1 - x^2))). assert (0 <= theta l <= PI) as [T1 T2] by lra.
      pose proof (sin_ge_0 _ T1 T2). lra. }
    assert (TP : 0 <= polar_potential a E L Q (theta l)) by (rewrite <- O2; apply pow2_ge_0).
    rewrite (is_derive_unique _ _ _ D1), (is_derive_unique _ _ _ D3).
    refine (conj D3 (conj D1 _)).
    apply (dt_above_dr a E L Q); try assumption; [apply DP; lra | lra | apply PP; lra]. }
  apply (integrate_speed t r (Derive t) (Derive r)); intros l; apply (K l).
Qed.

(** one radial oscillation, in and out, takes at least as long as light takes to travel
    twice the distance between the turning points at unit coordinate speed *)
Theorem C102_radial_period a p e x ur uth uph gam : 0 <= a ->
  mino_frequencies (Some a) (Some p) (Some e) (Some x) = Ret (Some ur, Some uth, Some uph, Some gam) ->
  exists wr wth wph, fundamental_frequencies (Some a) (Some p) (Some e) (Some x) = Ret (Some wr, Some wth, Some wph) /\
  0 < wr /\ 2 * (p / (1 - e) - p / (1 + e)) <= 2 * PI / wr.
Proof.
  intros Ha HF.
  destruct (C65_fundamental_frequencies HX HR a p e x ur uth uph gam HF) as (G0 & FF & W0 & _).
  exists (ur / gam), (uth / gam), (uph / gam). refine (conj FF (conj W0 _)).
  assert (U0 : 0 < ur). { replace ur with (ur / gam * gam) by (field; lra). apply Rmult_lt_0_compat; lra. }
  destruct (trajectory_defined HX HR a p e x ur uth uph gam Ha HF 0 0 0 0) as (t & r & th & ph & H).
  pose proof (C102_radius_slower_than_light a p e x ur uth uph gam Ha HF 0 0 0 0 t r th ph H) as C.
  destruct (C30_long_time_averages HX HR a p e x ur uth uph gam Ha HF 0 0 0 0 t r th ph H) as (_ & _ & B & HB).
  set (d := p / (1 - e) - p / (1 + e)). pose proof PI_RGT_0 as P0.
  assert (ST : forall k : nat, INR k * (2 * d) <= t (INR k * (2 * PI / ur)) - t 0).
  { induction k.
    - simpl INR. rewrite !Rmult_0_l. lra.
    - rewrite S_INR. set (l := INR k * (2 * PI / ur)) in *.
      set (m := l + PI / ur). set (n := l + 2 * PI / ur).
      replace ((INR k + 1) * (2 * PI / ur)) with n by (unfold n, l; ring).
      assert (PU : 0 < PI / ur) by (apply Rdiv_lt_0_compat; lra).
      pose proof (C l m ltac:(unfold m; lra)) as C1. pose proof (C m n ltac:(unfold m, n; lra)) as C2.
      assert (Rl : r l = p / (1 + e)).
      { apply (proj1 (C26_phases HX HR a p e x ur uth uph gam Ha HF 0 0 0 0 t r th ph H l (Z.of_nat k))).
        rewrite <- INR_IZR_INZ. unfold l. field. lra. }
      assert (Rm : r m = p / (1 - e)).
      { apply (proj1 (proj2 (C26_phases HX HR a p e x ur uth uph gam Ha HF 0 0 0 0 t r th ph H m (Z.of_nat k)))).
        rewrite <- INR_IZR_INZ. unfold m, l. field. lra. }
      assert (Rn : r n = p / (1 + e)).
      { apply (proj1 (C26_phases HX HR a p e x ur uth uph gam Ha HF 0 0 0 0 t r th ph H n (Z.of_nat k + 1))).
        rewrite plus_IZR, <- INR_IZR_INZ. unfold n, l. field. lra. }
      rewrite Rl, Rm in C1. rewrite Rm, Rn in C2. apply Rabs_lt_between in C1, C2. unfold d in *. lra. }
  replace (2 * PI / (ur / gam)) with (gam * (2 * PI / ur)) by (field; lra).
  apply Rnot_lt_le. intros N.
  set (h := 2 * d - gam * (2 * PI / ur)). assert (h0 : 0 < h) by (unfold h; lra).
  destruct (archimed_cor1 (h / (2 * Rabs B + 1))) as (k & K1 & K2).
  { apply Rdiv_lt_0_compat; [lra|]. pose proof (Rabs_pos B). lra. }
  pose proof (ST k) as S. pose proof (proj1 (HB (INR k * (2 * PI / ur)))) as B1. pose proof (proj1 (HB 0)) as B0.
  apply Rabs_le_between in B1, B0. pose proof (Rle_abs B). pose proof (Rabs_pos B).
  assert (INR k * h <= 2 * Rabs B). { unfold h. lra. }
  assert (k0 : 0 < INR k) by (apply lt_0_INR; exact K2).
  assert (1 < INR k * (h / (2 * Rabs B + 1))).
  { apply (Rmult_lt_compat_l (INR k)) in K1; [|exact k0]. rewrite Rinv_r in K1 by lra. exact K1. }
  assert (INR k * (h / (2 * Rabs B + 1)) * (2 * Rabs B + 1) = INR k * h) by (field; lra).
  nra.
Qed.

(** concrete case: p = 10, e = 1/2 around a Schwarzschild hole; the radial period is at least 80/3 M *)
Example C102_case : exists wr wth wph,
  fundamental_frequencies (Some 0) (Some 10) (Some (1/2)) (Some (1/2)) = Ret (Some wr, Some wth, Some wph) /\
  0 < wr /\ 80 / 3 <= 2 * PI / wr.
Proof.
  destruct (C70_case HX HR) as (ur & uth & uph & gam & HF & _).
  destruct (C102_radial_period 0 10 (1/2) (1/2) ur uth uph gam ltac:(lra) HF) as (wr & wth & wph & A & B & C).
  exists wr, wth, wph. refine (conj A (conj B _)). lra.
Qed.
End S.
