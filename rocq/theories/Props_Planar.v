(** * C101: around a non-rotating hole every bound orbit lies in a plane and sweeps it at a
      constant rate of Mino time *)
From Coq Require Import Reals Lra Lia String.
From Coquelicot Require Import Coquelicot.
From Verif Require Import Num Outcome External Checked ExternalSpec.
From Verif Require Import Model_Constants Model_Frequencies Model_Stable.
From Verif Require Import Spec SpecElliptic Elliptic P_Validation Props_Validation P_Bounds P_Schmidt P_Constants Props_Constants.
From Verif Require Import P_Radial P_Polar P_Traj P_Traj2 P_Traj3 P_Traj4 Props_Trajectory Props_Frequencies.
From Verif Require Import SpecGeodesic P_Geodesic Props_Geodesic Props_Symmetry Props_Restart Props_Schwarzschild.
Open Scope R_scope.

(** vectors of space *)
Definition vec := (R * R * R)%type.
Definition vdot (u v : vec) : R := let '(x, y, z) := u in let '(x', y', z') := v in x * x' + y * y' + z * z'.
Definition vcross (u v : vec) : vec := let '(x, y, z) := u in let '(x', y', z') := v in (y * z' - z * y', z * x' - x * z', x * y' - y * x').
Definition vz (u : vec) : R := let '(_, _, z) := u in z.
Definition vcomb (s : R) (u : vec) (t : R) (v : vec) : vec := let '(x, y, z) := u in let '(x', y', z') := v in (s * x + t * x', s * y + t * y', s * z + t * z').
(** the direction of the point with Boyer-Lindquist angles theta, phi *)
Definition direction (th ph : R) : vec := (sin th * cos ph, sin th * sin ph, cos th).

(** the harmonic oscillator *)
Lemma harmonic (f g : R -> R) (k : R) : k <> 0 -> (forall l, is_derive f l (g l)) -> (forall l, is_derive g l (- k^2 * f l)) ->
  forall l, f l = cos (k * l) * f 0 + sin (k * l) * (g 0 / k).
Proof.
  intros Hk D1 D2. set (A := fun l => cos (k * l) * f l - sin (k * l) * (g l / k)). set (B := fun l => sin (k * l) * f l + cos (k * l) * (g l / k)).
  assert (ex1 : forall u, ex_derive (fun x : R => f x) u) by (intros u; exists (g u); apply D1).
  assert (ex2 : forall u, ex_derive (fun x : R => g x) u) by (intros u; eexists; apply D2).
  assert (C : forall h : R -> R, (forall u, is_derive h u 0) -> forall l, h l = h 0).
  { intros h H l. destruct (MVT_gen h 0 l (fun _ => 0)) as (c & _ & K); [intros; apply H | intros u _; apply continuity_pt_filterlim, (ex_derive_continuous (V := R_NormedModule)); exists 0; apply H|]. lra. }
  assert (CA : forall l, A l = A 0).
  { apply C. intros u. unfold A. auto_derive; [repeat split; auto|]. rewrite (is_derive_unique (fun x : R => f x) _ _ (D1 u)), (is_derive_unique (fun x : R => g x) _ _ (D2 u)). field. exact Hk. }
  assert (CB : forall l, B l = B 0).
  { apply C. intros u. unfold B. auto_derive; [repeat split; auto|]. rewrite (is_derive_unique (fun x : R => f x) _ _ (D1 u)), (is_derive_unique (fun x : R => g x) _ _ (D2 u)). field. exact Hk. }
  intros l. pose proof (CA l) as KA. pose proof (CB l) as KB. unfold A, B in KA, KB. rewrite Rmult_0_r, cos_0, sin_0 in KA, KB.
  pose proof (sin2_cos2 (k * l)) as U. unfold Rsqr in U.
  replace (f 0) with (cos (k * l) * f l - sin (k * l) * (g l / k)) by lra. replace (g 0 / k) with (sin (k * l) * f l + cos (k * l) * (g l / k)) by lra.
  transitivity ((sin (k * l) * sin (k * l) + cos (k * l) * cos (k * l)) * f l); [rewrite U; ring | ring].
Qed.

Section Planar.
Context {X : External R} (HX : special_spec X) (HR : root_spec X).

Theorem C101_schwarzschild_orbits_are_planar p e x ur uth uph gam qt qr qth qph t r theta phi :
  mino_frequencies (Some 0) (Some p) (Some e) (Some x) = Ret (Some ur, Some uth, Some uph, Some gam) ->
  runs_as (stable_trajectory (Some 0) (Some p) (Some e) (Some x) (Some qt, Some qr, Some qth, Some qph) None "natural" "natural") t r theta phi ->
  exists u v : vec, vdot u u = 1 /\ vdot v v = 1 /\ vdot u v = 0 /\
  (* the inclination of the plane is the documented one *)
  vz (vcross u v) = x /\
  (* constant angular rate within the plane *)
  (forall l, direction (theta l) (phi l) = vcomb (cos (uth * l)) u (sin (uth * l)) v) /\
  (* in particular the particle never leaves the plane orthogonal to u x v *)
  (forall l, vdot (vcross u v) (direction (theta l) (phi l)) = 0).
Proof.
  intros HF H. assert (Ha : 0 <= 0) by lra.
  destruct (mino_facts HX HR 0 p e x ur uth uph gam Ha HF) as (E & L & Q & r1 & r2 & r3 & r4 & zp & beta & a2s & F).
  pose proof (trajectory_runs HX _ _ _ _ _ _ _ _ _ _ _ _ _ _ _ _ _ _ F qt qr qth qph HF) as R1.
  pose proof (runs_as_unique _ _ _ _ _ _ _ _ _ H R1) as EQ.
  pose proof (of_constants _ _ _ _ _ _ _ _ _ _ _ _ _ _ _ _ _ _ F) as HC.
  assert (Eth : forall l, theta l = sth 0 x uth E beta qth l) by (intros l; apply EQ).
  set (w := svth 0 x uth E beta qth).
  assert (Dt : forall l, is_derive theta l (w l)).
  { intros l. apply (is_derive_ext (sth 0 x uth E beta qth)); [intros s; symmetry; apply Eth|]. unfold w, svth. apply comp_lin. exact (fth_derive HX _ _ _ _ _ _ _ _ _ _ _ _ _ _ _ _ _ _ F _). }
  assert (Dw : forall l, is_derive w l (polar_force 0 E L (theta l))) by (intros l; rewrite Eth; exact (svth_derive HX _ _ _ _ _ _ _ _ _ _ _ _ _ _ _ _ _ _ F qth l)).
  assert (Sn : forall l, 0 < sin (theta l)) by (intros l; rewrite Eth; exact (sth_sin_pos _ _ _ _ _ _ _ _ _ _ _ _ _ _ _ _ _ _ F qth l)).
  assert (Dp : forall l, is_derive phi l (L / sin (theta l)^2)).
  { intros l. destruct (C29_time_and_azimuth_equations HX HR 0 p e x ur uth uph gam Ha HF _ _ _ _ _ _ _ _ H E L Q HC l) as (_ & _ & _ & K).
    replace (L / sin (theta l)^2) with (dphi_dlambda 0 E L (r l) (theta l)) by (unfold dphi_dlambda; unfold Rdiv; ring). exact K. }
  assert (W2 : forall l, w l ^2 = Q - cos (theta l)^2 * (L^2 / sin (theta l)^2)).
  { intros l. pose proof (uth_w _ _ _ _ _ _ _ _ _ _ _ _ _ _ _ _ _ _ F) as W. pose proof (Sn l) as S. rewrite Eth in *. destruct F.
    unfold w, svth. rewrite (th_ode _ _ _ of_z of_b of_kt _ _ _ _ W).
    change (th (1 - x^2) (psi_t 0 E (1 - x^2) beta) (uth * l + qth)) with (sth 0 x uth E beta qth l).
    pose proof (of_Z (cos (sth 0 x uth E beta qth l)^2)) as Z. unfold polar_polynomial in Z. rewrite <- Z.
    replace (1 - cos (sth 0 x uth E beta qth l) ^ 2) with (sin (sth 0 x uth E beta qth l) ^ 2) by (rewrite cos2_sin2; ring). field. lra. }
  assert (XL : x^2 * (Q + L^2) = L^2). { destruct F. pose proof (of_Z (1 - x^2)) as Z. rewrite Rminus_eq_0, Rmult_0_l in Z. unfold polar_polynomial in Z. lra. }
  assert (X0 : x <> 0 /\ 0 < x * L) by (destruct F; tauto). destruct X0 as [X0 XP].
  assert (UT : 0 < uth /\ uth^2 = Q + L^2).
  { destruct F. assert (BB : beta = Q + L^2). { rewrite of_beta. apply (Rmult_eq_reg_l (x^2)); [|now apply pow_nonzero]. rewrite XL. replace (1 - (1 - x^2)) with (x^2) by ring. field. exact X0. }
    pose proof PI_RGT_0 as HPI.
    assert (UU : uth = sqrt beta). { rewrite of_uth. replace (kt2 (0 ^2 * (1 - E^2)) (1 - x^2) beta) with 0 by (unfold kt2, Rdiv; ring). rewrite (proj1 ellK_E_0). field. lra. }
    rewrite UU, <- BB. split; [now apply sqrt_lt_R0 | apply pow2_sqrt; lra]. }
  destruct UT as [U0 U2].
  assert (ext : forall u, ex_derive (fun x : R => theta x) u) by (intros u; eexists; apply Dt).
  assert (exw : forall u, ex_derive (fun x : R => w x) u) by (intros u; eexists; apply Dw).
  assert (exp' : forall u, ex_derive (fun x : R => phi x) u) by (intros u; eexists; apply Dp).
  assert (ET : forall u, Derive (fun x : R => theta x) u = w u) by (intros u; exact (is_derive_unique _ _ _ (Dt u))).
  assert (EW : forall u, Derive (fun x : R => w x) u = L^2 * cos (theta u) / sin (theta u)^3).
  { intros u. transitivity (polar_force 0 E L (theta u)); [exact (is_derive_unique (fun x : R => w x) _ _ (Dw u))|]. unfold polar_force. unfold Rdiv. ring. }
  assert (EP : forall u, Derive (fun x : R => phi x) u = L / sin (theta u)^2) by (intros u; exact (is_derive_unique _ _ _ (Dp u))).
  set (X1 := fun l => sin (theta l) * cos (phi l)). set (X2 := fun l => sin (theta l) * sin (phi l)). set (X3 := fun l => cos (theta l)).
  set (V1 := fun l => cos (theta l) * w l * cos (phi l) - sin (phi l) * (L / sin (theta l))).
  set (V2 := fun l => cos (theta l) * w l * sin (phi l) + cos (phi l) * (L / sin (theta l))).
  set (V3 := fun l => - sin (theta l) * w l).
  assert (KEY : forall l, w l ^2 * sin (theta l)^2 + L^2 = (Q + L^2) * sin (theta l)^2).
  { intros l. rewrite W2. pose proof (Sn l) as S. assert (C2 : cos (theta l)^2 = 1 - sin (theta l)^2) by (pose proof (sin2_cos2 (theta l)) as U; unfold Rsqr in U; lra). rewrite C2. field. lra. }
  assert (N : forall l, sin (theta l) <> 0) by (intros l; apply Rgt_not_eq, Sn).
  assert (H1 : forall l, is_derive X1 l (V1 l)) by (intros l; unfold X1, V1; auto_derive; [repeat split; auto|]; rewrite ET, EP; field; apply N).
  assert (H2 : forall l, is_derive X2 l (V2 l)) by (intros l; unfold X2, V2; auto_derive; [repeat split; auto|]; rewrite ET, EP; field; apply N).
  assert (H3 : forall l, is_derive X3 l (V3 l)) by (intros l; unfold X3, V3; auto_derive; [auto|]; rewrite ET; ring).
  assert (G1 : forall l, is_derive V1 l (- uth^2 * X1 l)).
  { intros l. unfold V1, X1. auto_derive; [repeat split; auto|]. rewrite ET, EP, EW, U2. pose proof (KEY l) as K. pose proof (N l) as Z.
    assert (C2 : cos (theta l)^2 = 1 - sin (theta l)^2) by (pose proof (sin2_cos2 (theta l)) as U; unfold Rsqr in U; lra).
    apply (Rmult_eq_reg_r (sin (theta l)^3)); [|now apply pow_nonzero].
    match goal with |- _ = ?rhs => transitivity (cos (phi l) * sin (theta l)^2 * (- (w l ^2 * sin (theta l)^2 + L^2) + L^2 * (cos (theta l)^2 + sin (theta l)^2 - 1) / sin (theta l)^2)) end.
    - field. exact Z.
    - rewrite K, C2. field. exact Z. }
  assert (G2 : forall l, is_derive V2 l (- uth^2 * X2 l)).
  { intros l. unfold V2, X2. auto_derive; [repeat split; auto|]. rewrite ET, EP, EW, U2. pose proof (KEY l) as K. pose proof (N l) as Z.
    assert (C2 : cos (theta l)^2 = 1 - sin (theta l)^2) by (pose proof (sin2_cos2 (theta l)) as U; unfold Rsqr in U; lra).
    apply (Rmult_eq_reg_r (sin (theta l)^3)); [|now apply pow_nonzero].
    match goal with |- _ = ?rhs => transitivity (sin (phi l) * sin (theta l)^2 * (- (w l ^2 * sin (theta l)^2 + L^2) + L^2 * (cos (theta l)^2 + sin (theta l)^2 - 1) / sin (theta l)^2)) end.
    - field. exact Z.
    - rewrite K, C2. field. exact Z. }
  assert (G3 : forall l, is_derive V3 l (- uth^2 * X3 l)).
  { intros l. unfold V3, X3. auto_derive; [repeat split; auto|]. rewrite ET, EW, U2. pose proof (KEY l) as K. pose proof (N l) as Z.
    apply (Rmult_eq_reg_r (sin (theta l)^2)); [|now apply pow_nonzero].
    transitivity (- cos (theta l) * (w l ^2 * sin (theta l)^2 + L^2)); [field; exact Z | rewrite K; ring]. }
  assert (NU : uth <> 0) by lra.
  exists (X1 0, X2 0, X3 0), (V1 0 / uth, V2 0 / uth, V3 0 / uth).
  pose proof (sin2_cos2 (theta 0)) as UT. pose proof (sin2_cos2 (phi 0)) as UP. unfold Rsqr in UT, UP. pose proof (KEY 0) as K0. pose proof (N 0) as Z0.
  set (s := sin (theta 0)) in *. set (c := cos (theta 0)) in *. set (sp := sin (phi 0)) in *. set (cp := cos (phi 0)) in *.
  assert (KV : V1 0 = c * w 0 * cp - sp * (L / s) /\ V2 0 = c * w 0 * sp + cp * (L / s) /\ V3 0 = - s * w 0 /\ X1 0 = s * cp /\ X2 0 = s * sp /\ X3 0 = c) by (repeat split).
  destruct KV as (v1 & v2 & v3 & x1 & x2 & x3).
  assert (DIR : forall l, direction (theta l) (phi l) = vcomb (cos (uth * l)) (X1 0, X2 0, X3 0) (sin (uth * l)) (V1 0 / uth, V2 0 / uth, V3 0 / uth)).
  { intros l. unfold direction, vcomb. f_equal; [f_equal|].
    - exact (harmonic X1 V1 uth NU H1 G1 l).
    - exact (harmonic X2 V2 uth NU H2 G2 l).
    - exact (harmonic X3 V3 uth NU H3 G3 l). }
  refine (conj _ (conj _ (conj _ (conj _ (conj DIR _))))).
  - unfold vdot. rewrite x1, x2, x3. transitivity (s * s * (sp * sp + cp * cp) + c * c); [ring|]. rewrite UP. lra.
  - unfold vdot. rewrite v1, v2, v3. transitivity ((w 0 ^2 * (c * c * (sp * sp + cp * cp) + s * s) * s^2 + L^2 * (sp * sp + cp * cp)) / (s^2 * uth^2)); [field; tauto|].
    rewrite UP. replace (c * c * 1 + s * s) with 1 by lra. rewrite !Rmult_1_r, K0, U2. field. split; [rewrite <- U2; now apply pow_nonzero | exact Z0].
  - unfold vdot. rewrite v1, v2, v3, x1, x2, x3. transitivity (s * c * w 0 * (sp * sp + cp * cp - 1) / uth); [field; tauto|]. rewrite UP. unfold Rdiv. ring.
  - unfold vcross, vz. rewrite v1, v2, x1, x2. transitivity (L * (sp * sp + cp * cp) / uth); [field; tauto|]. rewrite UP, Rmult_1_r.
    apply (Rmult_eq_reg_r uth); [|exact NU]. transitivity L; [field; exact NU|].
    assert (SQ : (x * uth)^2 = L^2) by (rewrite Rpow_mult_distr, U2; exact XL).
    assert (FA : (L - x * uth) * (L + x * uth) = 0) by (replace ((L - x * uth) * (L + x * uth)) with (L^2 - (x * uth)^2) by ring; rewrite SQ; ring).
    apply Rmult_integral in FA as [FA|FA]; [lra|]. exfalso. assert (L = - (x * uth)) by lra. assert (0 < x * - (x * uth)) by (rewrite <- H0; exact XP).
    assert (0 < x^2) by (rewrite <- Rsqr_pow2; now apply Rlt_0_sqr). nra.
  - intros l. rewrite DIR. unfold vdot, vcross, vcomb. ring.
Qed.

(** concrete case: an eccentric orbit inclined by 60 degrees *)
Example C101_case : exists ur uth uph gam t r theta phi,
  mino_frequencies (Some 0) (Some 10) (Some (1/2)) (Some (1/2)) = Ret (Some ur, Some uth, Some uph, Some gam) /\
  runs_as (stable_trajectory (Some 0) (Some 10) (Some (1/2)) (Some (1/2)) (Some 0, Some 1, Some 2, Some 3) None "natural" "natural") t r theta phi.
Proof.
  destruct (C70_case HX HR) as (ur & uth & uph & gam & HF & _).
  destruct (trajectory_defined HX HR 0 10 (1/2) (1/2) ur uth uph gam ltac:(lra) HF 0 1 2 3) as (t & r & theta & phi & H).
  exists ur, uth, uph, gam, t, r, theta, phi. exact (conj HF H).
Qed.
End Planar.
