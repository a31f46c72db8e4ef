(** * C65: coordinate time runs forward along every bound orbit, and Gamma > 0 *)
From Coq Require Import Reals Lra Lia ZArith String List.
From Coquelicot Require Import Coquelicot.
From Verif Require Import Num Outcome External Checked ExternalSpec.
From Verif Require Import Model_Constants Model_Frequencies Model_Spacetime Model_Stable Model_Orbit.
From Verif Require Import Spec SpecElliptic Elliptic P_Validation Props_Validation P_Bounds P_Schmidt P_Constants Props_Constants.
From Verif Require Import P_Radial P_Polar P_Traj P_Traj2 P_Traj3 P_Traj4 Props_Trajectory Props_Trajectory2.
From Verif Require Import Props_Stability Props_Finite Props_Frequencies Props_Units.
Import ListNotations.
Open Scope R_scope.

(** ** Future-directedness *)
Section F.
Context (a E L Q r1 r2 r3 r4 : R) (Ha : 0 <= a) (HE : 0 < E) (HE1 : E^2 < 1) (HQ : 0 <= Q).
Context (HF : forall r, radial_potential a E L Q r = (1 - E^2) * (r1 - r) * (r - r2) * (r - r3) * (r - r4)).
Context (H3 : r3 < r2) (H4 : r4 < r2) (H1 : r2 <= r1) (R1 : 1 < r2) (D2 : 0 < Delta a r2).

Lemma P_pos_r2 : 0 < E * (r2^2 + a^2) - a * L.
Proof.
  set (S := r2^2 + (L - a * E)^2 + Q).
  assert (S0 : 0 < S) by (unfold S; pose proof (pow2_ge_0 (L - a * E)); nra).
  assert (D : is_derive (radial_potential a E L Q) r2
     (4 * E * r2 * (E * (r2^2 + a^2) - a * L) - (2 * r2 - 2) * S - Delta a r2 * (2 * r2))).
  { unfold radial_potential, Delta, S. auto_derive; [trivial|]. ring. }
  assert (D' : is_derive (radial_potential a E L Q) r2 ((1 - E^2) * (r1 - r2) * (r2 - r3) * (r2 - r4))).
  { eapply is_derive_ext; [intros t; symmetry; apply HF|]. auto_derive; [trivial|]. ring. }
  pose proof (is_derive_unique _ _ _ D) as U1. pose proof (is_derive_unique _ _ _ D') as U2. rewrite U1 in U2.
  assert (G : 0 <= (1 - E^2) * (r1 - r2) * (r2 - r3) * (r2 - r4)) by (repeat apply Rmult_le_pos; lra).
  rewrite <- U2 in G. apply Rnot_le_lt. intros K.
  assert (0 <= E * r2 * - (E * (r2^2 + a^2) - a * L)) by (repeat apply Rmult_le_pos; lra).
  assert (0 < (2 * r2 - 2) * S) by (apply Rmult_lt_0_compat; lra).
  assert (0 < Delta a r2 * (2 * r2)) by (apply Rmult_lt_0_compat; lra). lra.
Qed.
Lemma P_pos r : r2 <= r -> 0 < E * (r^2 + a^2) - a * L.
Proof. intros K. pose proof P_pos_r2. assert (E * r2^2 <= E * r^2) by (apply Rmult_le_compat_l; [lra|]; nra). lra. Qed.
End F.

(** in the allowed region, with E (r^2 + a^2) - a L > 0, time runs forward: dt/dlambda >= r^2 *)
Lemma dt_lower a E L Q r th : 0 < Delta a r -> 0 < r -> 0 < sin th -> 0 <= Q ->
  0 < E * (r^2 + a^2) - a * L -> 0 <= radial_potential a E L Q r -> 0 <= polar_potential a E L Q th ->
  r^2 <= dt_dlambda a E L r th.
Proof.
  intros HD Hr Hs HQ HP HR HT.
  set (K := (L - a * E)^2 + Q). assert (K0 : 0 <= K) by (unfold K; pose proof (pow2_ge_0 (L - a * E)); lra).
  set (P := E * (r^2 + a^2) - a * L) in *. set (D := Delta a r) in *.
  assert (RP : D * (r^2 + K) <= P^2) by (unfold radial_potential in HR; fold D P in HR; unfold K; lra).
  assert (TP : (L - a * E * sin th ^2)^2 <= sin th^2 * K).
  { assert (C2 : cos th ^2 = 1 - sin th ^2) by (pose proof (sin2_cos2 th) as Z; unfold Rsqr in Z; lra).
    unfold polar_potential in HT. rewrite C2 in HT.
    assert (S2 : 0 < sin th ^2) by (apply pow_lt; lra).
    assert (I : sin th ^2 * (Q - (1 - sin th^2) * (a^2 * (1 - E^2) + L^2 / sin th^2)) =
       sin th^2 * K - (L - a * E * sin th ^2)^2 - a^2 * (1 - sin th^2) * sin th ^2) by (unfold K; field; lra).
    assert (0 <= sin th ^2 * (Q - (1 - sin th^2) * (a^2 * (1 - E^2) + L^2 / sin th^2))) by (apply Rmult_le_pos; lra).
    assert (0 <= a^2 * (1 - sin th^2) * sin th ^2).
    { apply Rmult_le_pos; [|lra]. apply Rmult_le_pos; [apply pow2_ge_0|]. rewrite <- C2. apply pow2_ge_0. }
    lra. }
  assert (S1 : sin th ^2 <= 1) by (pose proof (sin2_cos2 th) as Z; unfold Rsqr in Z; pose proof (pow2_ge_0 (cos th)); simpl in *; lra).
  assert (TP' : (L - a * E * sin th ^2)^2 <= K) by nra.
  set (w := L - a * E * sin th ^2) in *.
  unfold dt_dlambda. fold P D w.
  (* (r^2+a^2)/D*P >= sqrt(r^2+a^2) sqrt(r^2+K), since D <= r^2+a^2 *)
  set (A := r^2 + a^2). assert (A0 : 0 < A) by (unfold A; pose proof (pow2_ge_0 a); assert (0 < r^2) by (apply pow_lt; lra); lra).
  assert (DA : D <= A) by (unfold D, Delta, A; lra).
  assert (B0 : 0 < r^2 + K) by (assert (0 < r^2) by (apply pow_lt; lra); lra).
  assert (F : sqrt (A * (r^2 + K)) <= A / D * P).
  { assert (0 < A / D * P) by (apply Rmult_lt_0_compat; [apply Rdiv_lt_0_compat|]; lra).
    rewrite <- (sqrt_pow2 (A / D * P)) by lra. apply sqrt_le_1_alt.
    replace ((A / D * P)^2) with (A * (A / D * (P^2 / D))) by (field; lra).
    apply Rmult_le_compat_l; [lra|].
    assert (r^2 + K <= P^2 / D) by (apply (proj1 (Rle_div_r _ _ _ HD)); lra).
    assert (1 <= A / D) by (apply (proj1 (Rle_div_r _ _ _ HD)); lra).
    apply Rle_trans with (1 * (r^2 + K)); [lra|]. apply Rmult_le_compat; lra. }
  assert (G : r^2 - a * w <= sqrt (A * (r^2 + K))).
  { destruct (Rle_dec (r^2 - a * w) 0) as [N|N]; [pose proof (sqrt_pos (A * (r^2 + K))); lra|].
    rewrite <- (sqrt_pow2 (r^2 - a * w)) by lra. apply sqrt_le_1_alt. unfold A.
    assert (a^2 * w^2 <= a^2 * K) by (apply Rmult_le_compat_l; [apply pow2_ge_0 | lra]).
    assert (r^2 * w^2 <= r^2 * K) by (apply Rmult_le_compat_l; [apply pow2_ge_0 | lra]).
    pose proof (pow2_ge_0 (r * (w + a))).
    replace ((r^2 - a * w)^2) with (r^2 * r^2 + a^2 * r^2 + r^2 * w^2 + a^2 * w^2 - (r * (w + a))^2) by ring. 
    replace ((r^2 + a^2) * (r^2 + K)) with (r^2 * r^2 + a^2 * r^2 + r^2 * K + a^2 * K) by ring. lra. }
  lra.
Qed.

(** ... and a particle with L >= 0 is dragged forward around the hole *)
Lemma dphi_lower a E L Q r th : 0 <= a -> 0 < Delta a r -> a <= r -> 0 < r -> 0 < sin th -> 0 <= Q -> 0 <= L ->
  0 < E * (r^2 + a^2) - a * L -> 0 <= radial_potential a E L Q r -> 0 <= polar_potential a E L Q th ->
  L / 4 <= dphi_dlambda a E L r th.
Proof.
  intros Ha HD Har Hr Hs HQ HL HP HR HT.
  pose proof (dt_lower a E L Q r th HD Hr Hs HQ HP HR HT) as HT'.
  set (s2 := sin th ^2). assert (S0 : 0 < s2) by (unfold s2; apply pow_lt; lra).
  assert (C2 : cos th ^2 = 1 - s2) by (pose proof (sin2_cos2 th) as Z; unfold Rsqr in Z; unfold s2; lra).
  assert (S1 : s2 <= 1) by (pose proof (pow2_ge_0 (cos th)); lra).
  set (Sg := r^2 + a^2 * (1 - s2)). set (D := Delta a r) in *.
  set (G := (r^2 + a^2)^2 - D * a^2 * s2).
  assert (R2 : 0 < r^2) by (apply pow_lt; lra). assert (A2 : 0 <= a^2 <= r^2) by nra.
  assert (X1 : 0 <= a^2 * (1 - s2)) by (apply Rmult_le_pos; lra).
  assert (Sg0 : r^2 <= Sg) by (unfold Sg; lra).
  assert (DA : D <= r^2 + a^2) by (unfold D, Delta; lra).
  assert (X2 : 0 <= D * a^2 * s2) by (repeat apply Rmult_le_pos; lra).
  assert (X3 : D * a^2 * s2 <= (r^2 + a^2) * a^2).
  { rewrite <- (Rmult_1_r ((r^2 + a^2) * a^2)). apply Rmult_le_compat; try lra; [apply Rmult_le_pos; lra|]. apply Rmult_le_compat; lra. }
  assert (G1 : 0 < G) by (unfold G; nra).
  assert (G2 : G <= 4 * Sg^2).
  { unfold G. assert (r^2 * r^2 <= Sg * Sg) by (apply Rmult_le_compat; lra).
    assert ((r^2 + a^2) * (r^2 + a^2) <= (2 * r^2) * (2 * r^2)) by (apply Rmult_le_compat; lra). nra. }
  assert (I : s2 * G * dphi_dlambda a E L r th = L * Sg^2 + 2 * a * r * s2 * dt_dlambda a E L r th).
  { unfold dphi_dlambda, dt_dlambda. fold D s2. unfold G, Sg. unfold D, Delta in HD |- *. field. split; lra. }
  assert (X4 : 0 <= 2 * a * r * s2 * dt_dlambda a E L r th) by (repeat apply Rmult_le_pos; lra).
  assert (X5 : 0 < s2 * G) by (apply Rmult_lt_0_compat; lra).
  apply (Rmult_le_reg_l (s2 * G)); [exact X5|]. rewrite I.
  assert (X6 : s2 * G <= 4 * Sg^2). { assert (s2 * G <= 1 * G) by (apply Rmult_le_compat_r; lra). lra. }
  assert (s2 * G * (L / 4) <= 4 * Sg^2 * (L / 4)) by (apply Rmult_le_compat_r; lra). lra.
Qed.

(** a function with derivative at least c grows at least linearly *)
Lemma growth (f f' : R -> R) c : (forall l, is_derive f l (f' l)) -> (forall l, c <= f' l) ->
  forall l m, l <= m -> f l + c * (m - l) <= f m.
Proof.
  intros D B l m Hl. destruct (MVT_gen f l m f') as (z & _ & Z).
  - intros; apply D.
  - intros u _. apply continuity_pt_filterlim. apply (ex_derive_continuous (V := R_NormedModule) f u). eexists; apply D.
  - assert (c * (m - l) <= f' z * (m - l)) by (apply Rmult_le_compat_r; [lra | apply B]). lra.
Qed.
Lemma average_lower (f : R -> R) g c C : (forall l, Rabs (f l - g * l) <= C) ->
  (forall l m, l <= m -> f l + c * (m - l) <= f m) -> c <= g.
Proof.
  intros B G. apply Rnot_lt_le. intros K.
  set (l := (2 * C + 1) / (c - g)). assert (C0 : 0 <= C) by (pose proof (Rabs_pos (f 0 - g * 0)); specialize (B 0); lra).
  assert (L0 : 0 < l) by (apply Rdiv_lt_0_compat; lra).
  pose proof (G 0 l ltac:(lra)) as G1. pose proof (B l) as B1. pose proof (B 0) as B0.
  apply Rabs_le_between in B1, B0.
  assert ((c - g) * l = 2 * C + 1) by (unfold l; field; lra). lra.
Qed.

Section S.
Context {X : External R} (HX : special_spec X) (HR : root_spec X).

(** ** C65 *)
Theorem C65_time_runs_forward a p e x ur uth uph gam : 0 <= a ->
  mino_frequencies (Some a) (Some p) (Some e) (Some x) = Ret (Some ur, Some uth, Some uph, Some gam) ->
  (p / (1 + e))^2 <= gam /\
  forall qt qr qth qph t r theta phi,
  runs_as (stable_trajectory (Some a) (Some p) (Some e) (Some x) (Some qt, Some qr, Some qth, Some qph) None "natural" "natural")
    t r theta phi ->
  (forall l, exists t', is_derive t l t' /\ r l ^ 2 <= t') /\
  (forall l m, l < m -> t l < t m) /\
  (* prograde orbits go around in the direction of the spin *)
  (0 < x -> 0 < uph /\ forall l m, l < m -> phi l < phi m).
Proof.
  intros Ha HF.
  destruct (mino_facts HX HR a p e x ur uth uph gam Ha HF) as (E & L & Q & r1 & r2 & r3 & r4 & zp & beta & a2s & FA).
  pose proof (of_constants _ _ _ _ _ _ _ _ _ _ _ _ _ _ _ _ _ _ FA) as HC.
  assert (He1 : e < 1). { destruct FA. lra. }
  destruct (constants_inv _ _ _ _ _ _ _ Ha HC) as [HCK _].
  destruct (accepted_bounds HR a p e x Ha HCK) as (Ha1 & He & Hx & Hr2 & HD & _ & _).
  destruct (C15_roots_defined HR a p e x E L Q (Some (Some E, Some L, Some Q)) HC He1 (or_intror eq_refl))
    as (s1 & s2 & s3 & s4 & _ & Q1 & Q2 & R4 & R3 & R21 & F).
  destruct (C23_bound_orbits HR a p e x E L Q HC He1) as (HE & HQ & _).
  rewrite (Rabs_pos_eq a Ha) in F. clear FA r1 r2 r3 r4.
  assert (SQ : 0 < sqrt (1 - a^2)) by (apply sqrt_lt_R0; nra).
  assert (SS : sqrt (1 - a^2) ^2 = 1 - a^2) by (apply pow2_sqrt; nra).
  assert (DP : forall r, s2 <= r -> 0 < Delta a r).
  { intros r K. unfold Delta. assert (1 + sqrt (1 - a^2) < r) by lra. nra. }
  assert (PP : forall r, s2 <= r -> 0 < E * (r^2 + a^2) - a * L).
  { apply (P_pos a E L Q s1 s2 s3 s4); try assumption; try lra; [nra|]. apply DP; lra. }
  assert (LX : 0 < x -> 0 < L).
  { destruct (C14_polar_turning_point HR a p e x E L Q HC) as (_ & HN & _). unfold spin_sign in HN. destruct (Rlt_dec a 0); [lra|]. intros; apply HN; lra. }
  assert (TR : forall qt qr qth qph t r theta phi,
    runs_as (stable_trajectory (Some a) (Some p) (Some e) (Some x) (Some qt, Some qr, Some qth, Some qph) None "natural" "natural") t r theta phi ->
    forall l, s2 <= r l /\ is_derive t l (dt_dlambda a E L (r l) (theta l)) /\ is_derive phi l (dphi_dlambda a E L (r l) (theta l)) /\
      r l ^2 <= dt_dlambda a E L (r l) (theta l) /\ (0 < x -> L / 4 <= dphi_dlambda a E L (r l) (theta l))).
  { intros qt qr qth qph t r theta phi H l.
    destruct (C25_bound_motion HX HR a p e x ur uth uph gam Ha HF qt qr qth qph t r theta phi H l) as ((B1 & B2) & B3).
    destruct (C28_radial_and_polar_equations HX HR a p e x ur uth uph gam Ha HF qt qr qth qph t r theta phi H E L Q HC l)
      as (r' & th' & _ & _ & O1 & Sn & O2).
    destruct (C29_time_and_azimuth_equations HX HR a p e x ur uth uph gam Ha HF qt qr qth qph t r theta phi H E L Q HC l)
      as (_ & _ & D3 & D4).
    rewrite <- Q2 in B1.
    assert (S0 : 0 < sin (theta l)).
    { pose proof (acos_bound (sqrt (1 - x^2))). assert (0 <= theta l <= PI) as [T1 T2] by lra.
      pose proof (sin_ge_0 _ T1 T2). lra. }
    assert (RP : 0 <= radial_potential a E L Q (r l)) by (rewrite <- O1; apply pow2_ge_0).
    assert (TP : 0 <= polar_potential a E L Q (theta l)) by (rewrite <- O2; apply pow2_ge_0).
    refine (conj B1 (conj D3 (conj D4 (conj _ _)))).
    - apply (dt_lower a E L Q); try assumption; [apply DP; lra | lra | apply PP; lra].
    - intros Hx0. apply (dphi_lower a E L Q); try assumption; [apply DP; lra | lra | lra | apply Rlt_le, LX, Hx0 | apply PP; lra]. }
  split.
  - destruct (trajectory_defined HX HR a p e x ur uth uph gam Ha HF 0 0 0 0) as (t & r & th & ph & H).
    destruct (C30_long_time_averages HX HR a p e x ur uth uph gam Ha HF 0 0 0 0 t r th ph H) as (_ & _ & C & B).
    rewrite <- Q2. apply (average_lower t gam (s2^2) C); [intros l; apply B|].
    apply (growth t (fun l => dt_dlambda a E L (r l) (th l))); [intros l; apply (TR _ _ _ _ _ _ _ _ H l)|].
    intros l. destruct (TR _ _ _ _ _ _ _ _ H l) as (B1 & _ & _ & B2 & _). assert (s2^2 <= r l ^2) by (apply pow_incr; lra). lra.
  - intros qt qr qth qph t r theta phi H. pose proof (TR _ _ _ _ _ _ _ _ H) as K. refine (conj _ (conj _ _)).
    + intros l. destruct (K l) as (_ & D & _ & B & _). eexists; split; [exact D | exact B].
    + intros l m Hl. pose proof (growth t (fun l => dt_dlambda a E L (r l) (theta l)) (s2^2)) as G.
      specialize (G ltac:(intros; apply K)). assert (P2 : 0 < s2^2) by (apply pow_lt; lra).
      assert (G0 : forall l, s2^2 <= dt_dlambda a E L (r l) (theta l)).
      { intros u. destruct (K u) as (B1 & _ & _ & B2 & _). assert (s2^2 <= r u ^2) by (apply pow_incr; lra). lra. }
      specialize (G G0 l m ltac:(lra)). assert (0 < s2^2 * (m - l)) by (apply Rmult_lt_0_compat; lra). lra.
    + intros Hx0. specialize (LX Hx0).
      pose proof (growth phi (fun l => dphi_dlambda a E L (r l) (theta l)) (L / 4) ltac:(intros; apply K) ltac:(intros u; apply K; exact Hx0)) as G. split.
      * destruct (C30_long_time_averages HX HR a p e x ur uth uph gam Ha HF qt qr qth qph t r theta phi H) as (_ & _ & C & B).
        pose proof (average_lower phi uph (L / 4) C (fun l => proj2 (B l)) G). lra.
      * intros l m Hl. specialize (G l m ltac:(lra)). assert (0 < L / 4 * (m - l)) by (apply Rmult_lt_0_compat; lra). lra.
Qed.

(** the fundamental (Boyer-Lindquist time) frequencies are finite whenever the Mino
    frequencies are, and positive; spins of either sign *)
Theorem C65_fundamental_frequencies a p e x ur uth uph gam :
  mino_frequencies (Some a) (Some p) (Some e) (Some x) = Ret (Some ur, Some uth, Some uph, Some gam) ->
  0 < gam /\
  fundamental_frequencies (Some a) (Some p) (Some e) (Some x) = Ret (Some (ur / gam), Some (uth / gam), Some (uph / gam)) /\
  0 < ur / gam /\ 0 < uth / gam /\ (0 < x * spin_sign a -> 0 < uph / gam).
Proof.
  intros HF. pose proof HF as HF'. rewrite mino_std in HF'.
  destruct (C65_time_runs_forward _ _ _ _ _ _ _ _ (Rabs_pos a) HF') as (G & T).
  assert (R0 : 0 < p / (1 + e)).
  { destruct (mino_facts HX HR _ p e _ ur uth uph gam (Rabs_pos a) HF') as (E & L & Q & r1 & r2 & r3 & r4 & zp & beta & a2s & FA).
    pose proof (of_constants _ _ _ _ _ _ _ _ _ _ _ _ _ _ _ _ _ _ FA) as HC.
    destruct (constants_inv _ _ _ _ _ _ _ (Rabs_pos a) HC) as [HCK _].
    destruct (accepted_bounds HR _ p e _ (Rabs_pos a) HCK) as (Ha1 & He & Hx & Hr2 & HD & _ & _). lra. }
  assert (G0 : 0 < gam) by (assert (0 < (p / (1 + e))^2) by (apply pow_lt; lra); lra).
  destruct (trajectory_defined HX HR _ p e _ ur uth uph gam (Rabs_pos a) HF' 0 0 0 0) as (t & r & th & ph & H).
  destruct (C27_periodic HX HR _ p e _ ur uth uph gam (Rabs_pos a) HF' 0 0 0 0 t r th ph H) as (P1 & P2 & _).
  refine (conj G0 (conj _ (conj _ (conj _ _)))); [| apply Rdiv_lt_0_compat; lra ..|].
  - pose proof (C35_fundamental_is_mino_over_gamma (Some a) (Some p) (Some e) (Some x)) as K. rewrite HF in K. rewrite K. cnum.
    rewrite !cdiv_some by lra. reflexivity.
  - intros Hx. destruct (T 0 0 0 0 t r th ph H) as (_ & _ & K). apply Rdiv_lt_0_compat; [apply K; exact Hx | exact G0].
Qed.
End S.

(** the hypotheses are met: a = 1/2, p = 16, e = 0, x = 1 *)
Print Assumptions C65_time_runs_forward.
Print Assumptions C65_fundamental_frequencies.
