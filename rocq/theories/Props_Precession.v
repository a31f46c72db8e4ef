(** * C77: the periapsis always advances

    For every stable orbit the radial frequency is smaller than the polar frequency (in Mino
    and in coordinate time): by the time the particle is back at periapsis it has gone through
    more than one polar cycle. *)
From Coq Require Import Reals Lra Lia ZArith String List.
From Coquelicot Require Import Coquelicot.
From Verif Require Import Num Outcome External Checked ExternalSpec.
From Verif Require Import Model_Units Model_Constants Model_Frequencies Model_Stable.
From Verif Require Import Spec SpecElliptic Elliptic P_Roots P_Poly P_Validation Props_Validation P_Bounds P_Constants Props_Constants.
From Verif Require Import P_Radial P_Polar P_Traj P_Traj2 P_Traj3 P_Traj4 Props_Trajectory Props_Trajectory2.
From Verif Require Import Props_Stability Props_Stability3 Props_Phases Props_Restart Props_Future Props_Frequencies Props_Constructors Props_Schwarzschild.
Open Scope R_scope.

(** pi/2 <= K(m) <= pi/2 / sqrt(1-m) *)
Lemma ellK_bounds m : 0 <= m < 1 -> PI / 2 <= ellK m <= PI / 2 / sqrt (1 - m).
Proof.
  intros Hm. pose proof PI_RGT_0 as PP. unfold ellK, ellF.
  assert (C : forall c, is_RInt (fun _ : R => c) 0 (PI / 2) (PI / 2 * c)).
  { intros c. replace (PI / 2 * c) with (scal (PI / 2 - 0) c) by (cbv [scal]; simpl; unfold mult; simpl; ring). apply (is_RInt_const 0 (PI / 2) c). }
  assert (B : forall t, 0 <= m * sin t ^2 <= m).
  { intros t. pose proof (pow2_ge_0 (sin t)). assert (sin t ^2 <= 1) by (pose proof (sin2_cos2 t) as W; unfold Rsqr in W; pose proof (pow2_ge_0 (cos t)); lra). nra. }
  assert (I : ex_RInt (fun t => / sqrt (1 - m * sin t ^2)) 0 (PI / 2)).
  { apply (ex_RInt_continuous (V := R_CompleteNormedModule)). intros t _. apply (ex_derive_continuous (V := R_NormedModule)).
    pose proof (B t). assert (0 < 1 - m * sin t ^2) by lra.
    auto_derive; replace (1 + - (m * (sin t * (sin t * 1)))) with (1 - m * sin t ^2) by ring.
    refine (conj _ (conj _ Logic.I)); [assumption | now apply Rgt_not_eq, sqrt_lt_R0]. }
  assert (P : forall t, 0 < sqrt (1 - m) <= sqrt (1 - m * sin t ^2) /\ sqrt (1 - m * sin t ^2) <= 1).
  { intros t. pose proof (B t). split; [split|].
    - apply sqrt_lt_R0. lra.
    - apply sqrt_le_1; lra.
    - apply Rle_trans with (sqrt 1); [apply sqrt_le_1; lra | rewrite sqrt_1; lra]. }
  split.
  - rewrite <- (Rmult_1_r (PI / 2)) at 1. rewrite <- (is_RInt_unique _ _ _ _ (C 1)).
    apply RInt_le; [lra | eexists; apply C | exact I |]. intros t _. destruct (P t). apply Rle_trans with (/ 1); [rewrite Rinv_1; lra | apply Rinv_le_contravar; lra].
  - unfold Rdiv at 2. rewrite <- (is_RInt_unique _ _ _ _ (C (/ sqrt (1 - m)))).
    apply RInt_le; [lra | exact I | eexists; apply C |]. intros t _. destruct (P t). apply Rinv_le_contravar; lra.
Qed.

Section S.
Context {X : External R} (HX : special_spec X) (HR : root_spec X).

Theorem C77_periapsis_advances a p e x ur uth uph gam :
  mino_frequencies (Some a) (Some p) (Some e) (Some x) = Ret (Some ur, Some uth, Some uph, Some gam) ->
  0 < ur < uth /\ 0 < ur / gam < uth / gam.
Proof.
  intros HF.
  destruct (C65_fundamental_frequencies HX HR a p e x ur uth uph gam HF) as (G0 & _ & UR & UT & _).
  assert (K : 0 < ur < uth).
  2:{ split; [exact K|]. split; [exact UR|]. apply Rmult_lt_compat_r; [apply Rinv_0_lt_compat; lra | lra]. }
  rewrite mino_std in HF. pose proof (Rabs_pos a) as Ha. set (b := Rabs a) in *. set (y := x * spin_sign a) in *. clearbody b y.
  destruct (mino_facts HX HR b p e y ur uth uph gam Ha HF) as (E & L & Q & r1 & r2 & r3 & r4 & zp & beta & a2s & F).
  pose proof (ur_pos _ _ _ _ _ _ _ _ _ _ _ _ _ _ _ _ _ _ F) as U1. pose proof (uth_pos _ _ _ _ _ _ _ _ _ _ _ _ _ _ _ _ _ _ F) as U2.
  split; [exact U1|].
  destruct F. pose proof of_constants as HC.
  destruct (C15_roots_defined HR b p e y E L Q (Some (Some E, Some L, Some Q)) HC (proj2 of_e) (or_intror eq_refl))
    as (r1' & r2' & r3' & r4' & Hrr & Q1 & Q2 & R4 & R3 & R21 & _).
  rewrite of_roots in Hrr. apply Ret_inj in Hrr.
  assert (r1 = r1' /\ r2 = r2' /\ r3 = r3' /\ r4 = r4') as (<- & <- & <- & <-) by (repeat split; congruence).
  destruct (C23_bound_orbits HR b p e y E L Q HC (proj2 of_e)) as (HE & HQ & _).
  pose proof (sqrt_pos (1 - b^2)) as SB.
  assert (E2 : 0 < 1 - E^2) by (clear - HE; nra).
  assert (B1 : 0 <= b^2 <= 1) by (clear - of_a; nra).
  set (A := b^2 * (1 - E^2)) in *. assert (A0 : 0 <= A) by (unfold A; apply Rmult_le_pos; lra).
  set (z := 1 - y^2) in *.
  (* Vieta: the sum of the products of the roots *)
  assert (V : (1 - E^2) * (r1 * r2 + r1 * r3 + r1 * r4 + r2 * r3 + r2 * r4 + r3 * r4) = A + L^2 + Q).
  { pose proof (of_R 0) as F0. pose proof (of_R 1) as F1. pose proof (of_R (-1)) as F2. unfold radial_potential, Delta in *. unfold A. lra. }
  assert (W : A + L^2 + Q = z * A + beta).
  { pose proof (of_Z 0) as F0. pose proof (of_Z 1) as F1. pose proof (of_Z (-1)) as F2. unfold polar_polynomial in *. fold A in F0, F1, F2. lra. }
  set (s := sr2 (1 - E^2) r1 r2 r3 r4) in *. set (mr := kr2 r1 r2 r3 r4) in *. set (mt := kt2 A z beta) in *.
  assert (Es : s = (1 - E^2) * (r1 - r3) * (r2 - r4)) by reflexivity.
  assert (Em : mt * beta = A * z) by (unfold mt, kt2; field; lra).
  assert (GAP : s < beta - A * z).
  { assert (K : 2 * (b^2 * z) < r1 * r3 + 2 * (r1 * r4) + 2 * (r2 * r3) + r2 * r4).
    { assert (1 <= r3) by lra. assert (1 < r2) by lra. assert (1 < r1) by lra. assert (0 <= r4) by lra.
      assert (1 < r1 * r3) by (clear - H H1; nra). assert (1 < r2 * r3) by (clear - H H0; nra). assert (0 <= r1 * r4) by (apply Rmult_le_pos; lra). assert (0 <= r2 * r4) by (apply Rmult_le_pos; lra).
      assert (b^2 * z <= 1) by (clear - B1 of_z; nra). lra. }
    assert (K' : (1 - E^2) * (2 * (b^2 * z)) < (1 - E^2) * (r1 * r3 + 2 * (r1 * r4) + 2 * (r2 * r3) + r2 * r4)) by (apply Rmult_lt_compat_l; lra).
    rewrite Es. unfold A in *. lra. }
  destruct (ellK_bounds mr of_kr) as [KR _]. destruct (ellK_bounds mt of_kt) as [KT1 KT2].
  pose proof PI_RGT_0 as PP.
  assert (UR' : ur <= sqrt s).
  { rewrite of_ur. pose proof (sqrt_pos s). apply Rle_div_l; [lra|]. clear - H KR. nra. }
  assert (SM : 0 < sqrt (1 - mt)) by (apply sqrt_lt_R0; lra).
  assert (UT' : sqrt (beta - A * z) <= uth).
  { rewrite of_uth. apply Rle_div_r; [lra|].
    replace (beta - A * z) with (beta * (1 - mt)) by lra. rewrite sqrt_mult by lra.
    assert (2 * ellK mt * sqrt (1 - mt) <= PI).
    { apply Rle_trans with (2 * (PI / 2 / sqrt (1 - mt)) * sqrt (1 - mt)); [apply Rmult_le_compat_r; lra | right; field; lra]. }
    pose proof (sqrt_pos beta). clear - H H0. nra. }
  assert (sqrt s < sqrt (beta - A * z)) by (apply sqrt_lt_1; lra). lra.
Qed.

(** Schwarzschild: the motion is planar and the particle goes round more than once between
    two passages of periapsis *)
Theorem C77_schwarzschild p e x ur uth uph gam :
  mino_frequencies (Some 0) (Some p) (Some e) (Some x) = Ret (Some ur, Some uth, Some uph, Some gam) ->
  ur < Rabs uph.
Proof.
  intros HF. destruct (C77_periapsis_advances _ _ _ _ _ _ _ _ HF) as ((U0 & U) & _).
  destruct (C70_schwarzschild_frequencies HX HR _ _ _ _ _ _ _ HF) as (_ & _ & _ & _ & P1 & P2 & _).
  destruct (mino_facts HX HR 0 p e x ur uth uph gam (Rle_refl 0) HF) as (E & L & Q & r1 & r2 & r3 & r4 & zp & beta & a2s & F).
  destruct (of_x _ _ _ _ _ _ _ _ _ _ _ _ _ _ _ _ _ _ F) as (_ & X0).
  destruct (Rtotal_order x 0) as [K|[K|K]]; [| contradiction |].
  - rewrite (P2 K), Rabs_Ropp, Rabs_right; lra.
  - rewrite (P1 K), Rabs_right; lra.
Qed.
End S.
