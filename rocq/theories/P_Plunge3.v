(** * The complex-root plunge: polar functions, frequencies and the assembled trajectory *)
From Coq Require Import Reals Lra Lia ZArith String List Psatz.
From Coquelicot Require Import Coquelicot.
From Verif Require Import Num Outcome External Checked ExternalSpec Spec SpecElliptic Elliptic
  Model_Units Model_Constants Model_Frequencies Model_Stable Model_Plunge
  Props_Elliptic P_Radial P_Polar P_Traj P_Plunge P_Plunge2.
Import ListNotations.
Open Scope R_scope.

Lemma lin2 (g1 g2 : R -> R) q x1 x2 k0 k1 k2 : is_derive g1 q x1 -> is_derive g2 q x2 ->
  is_derive (fun q => k0 * (k1 * g1 q - k2 * g2 q)) q (k0 * (k1 * x1 - k2 * x2)).
Proof.
  intros D1 D2. auto_derive; [repeat split; now eexists; eassumption|].
  rewrite (is_derive_unique (fun x : R => g1 x) _ _ D1), (is_derive_unique (fun x : R => g2 x) _ _ D2). ring.
Qed.
Section PolarRun.
Context {X : External R} (HX : special_spec X).
Context (a E L Q : R) (Ha : a <> 0) (HE : E^2 < 1) (HL : L <> 0) (HQ : 0 <= Q).
Local Notation b := (a^2 * (1 - E^2)).
Local Notation zm := (pzm a E L Q).
Local Notation be := (pbeta a E L Q).
Local Notation m := (kt2 b zm be).
Local Notation K := (ellK m).
Lemma pHz : 0 <= zm < 1. Proof. exact (proj1 (pz_order a E L Q Ha HE HL HQ)). Qed.
Lemma pHb : 0 < be. Proof. exact (pbeta_pos a E L Q Ha HE HL HQ). Qed.
Lemma pHm : 0 <= m < 1. Proof. exact (pkt a E L Q Ha HE HL HQ). Qed.
Definition psi_p (q : R) : R := amX (X := X) m (2 * K / PI * q + 0).
Definition put : R := PI / 2 * sqrt be / K.
Lemma Kt_pos : 0 < K. Proof. apply ellK_pos, pHm. Qed.
Lemma sb_pos : 0 < sqrt be. Proof. apply sqrt_lt_R0, pHb. Qed.
Lemma put_pos : 0 < put.
Proof.
  pose proof PI_RGT_0. pose proof Kt_pos. pose proof sb_pos. unfold put.
  apply Rdiv_lt_0_compat; [apply Rmult_lt_0_compat; lra | assumption].
Qed.
Lemma psi_p_derive q : is_derive psi_p q (2 * K / PI * sqrt (dl m (psi_p q))).
Proof. exact (amX_derive HX m (2 * K / PI) 0 pHm q). Qed.
Lemma put_w : put * (2 * K / PI) = sqrt be.
Proof. pose proof PI_RGT_0. pose proof Kt_pos. unfold put. field. lra. Qed.
Lemma u_run q : sqrt be * (q / put) = 2 * K / PI * q + 0.
Proof. pose proof put_pos. rewrite <- put_w. field. pose proof PI_RGT_0. lra. Qed.
Lemma theta_run q : plunge_theta (Some a) (Some E) (Some L) (Some Q) (Some put) (Some q) = Some (th zm psi_p q).
Proof.
  pose proof put_pos. unfold plunge_theta.
  rewrite (z1_run a E L Q), (z2_run a E L Q), (k_run a E L Q) by assumption. cnum. rewrite cdiv_some by lra.
  rewrite (k_sq a E L Q) by assumption. fold (pbeta a E L Q). rewrite u_run, (ellipj_checked HX) by exact pHm. fold (psi_p q).
  unfold cunit. pose proof (cth_bound zm pHz psi_p q). pose proof (sqrt_zm zm pHz). unfold cth in *.
  destruct (Rle_dec (-1) (sqrt zm * sin (psi_p q))); [|lra].
  destruct (Rle_dec (sqrt zm * sin (psi_p q)) 1); [reflexivity | lra].
Qed.
Definition ptth (q : R) : R := E / (1 - E^2) * ((sqrt be ^ 2 - b) * (q / put) - sqrt be * ellE (psi_p q) m).
Lemma t_theta_run q : plunge_t_theta (Some a) (Some E) (Some L) (Some Q) (Some put) (Some q) = Some (ptth q).
Proof.
  pose proof put_pos. unfold plunge_t_theta.
  rewrite (z2_run a E L Q), (k_run a E L Q) by assumption. cnum. rewrite !cdiv_some by lra.
  rewrite (k_sq a E L Q) by assumption. fold (pbeta a E L Q). rewrite u_run, (ellipj_checked HX) by exact pHm. fold (psi_p q).
  rewrite (ellipeinc_checked HX) by apply pHm. reflexivity.
Qed.
Definition pphth (q : R) : R := L / sqrt be * ellPi zm (psi_p q) m.
Lemma phi_theta_run q : plunge_phi_theta (Some a) (Some E) (Some L) (Some Q) (Some put) (Some q) = Some (pphth q).
Proof.
  pose proof put_pos. pose proof sb_pos. unfold plunge_phi_theta.
  rewrite (z1_run a E L Q), (z2_run a E L Q), (k_run a E L Q) by assumption. cnum. fold (pbeta a E L Q). rewrite !cdiv_some by lra.
  rewrite (k_sq a E L Q) by assumption. rewrite u_run, (ellipj_checked HX) by exact pHm. fold (psi_p q).
  rewrite pow2_sqrt by apply pHz. rewrite (C31_ellippiinc HX) by (apply pHz || apply pHm). reflexivity.
Qed.
Lemma th_eq q : (put * th' b zm be (2 * K / PI) psi_p q)^2 = polar_potential a E L Q (th zm psi_p q).
Proof.
  pose proof (sin_th_pos zm pHz psi_p q) as S. pose proof sb_pos.
  rewrite (th_ode b zm be pHz pHb pHm (2 * K / PI) psi_p).
  - rewrite <- (p_factor a E L Q) by assumption. unfold polar_polynomial, polar_potential.
    replace (cos (th zm psi_p q) ^ 2) with (1 - sin (th zm psi_p q) ^ 2) by (rewrite (cos2_sin2 (th zm psi_p q)); ring).
    field. lra.
  - rewrite put_w. apply pow2_sqrt. left. apply pHb.
Qed.
Lemma ptth_derive q : is_derive ptth q (- a^2 * E * sin (th zm psi_p q) ^ 2 / put).
Proof.
  pose proof (ellE_along b zm be pHz pHm (2 * K / PI) psi_p psi_p_derive q) as D. pose proof put_pos as U. pose proof PI_RGT_0.
  unfold ptth. evar_last.
  - refine (lin2 (fun q => q / put) _ q (/ put) _ _ _ _ _ D). auto_derive; [trivial|field; lra].
  - rewrite (sin_th_sq zm pHz), cth_sq by apply pHz.
    assert (W : 2 * K / PI = sqrt be / put) by (rewrite <- put_w; field; lra). rewrite W.
    pose proof (pow2_sqrt be (Rlt_le _ _ pHb)) as S2. pose proof sb_pos as S0. pose proof pHb as B0.
    transitivity (E / (1 - E^2) * (sqrt be ^ 2 * (m * sin (psi_p q) ^ 2) - b) / put); [field; lra|].
    rewrite S2. unfold kt2. field. repeat split; lra.
Qed.
Lemma pphth_derive (q : R) : is_derive pphth q (L / sin (th zm psi_p q) ^ 2 / put).
Proof.
  pose proof (ellPi_along_th b zm be pHz pHm (2 * K / PI) psi_p psi_p_derive zm q (proj2 pHz)) as D. pose proof put_pos as U.
  unfold pphth. evar_last; [apply is_derive_scal, D|].
  pose proof PI_RGT_0. pose proof (sin_th_pos zm pHz psi_p q) as S. pose proof (pow_lt _ 2 S) as S'. pose proof sb_pos as S0.
  rewrite (sin_th_sq zm pHz), cth_sq in * by apply pHz.
  assert (W : 2 * K / PI = sqrt be / put) by (rewrite <- put_w; field; lra). rewrite W.
  clear D W. set (w := sqrt be) in *. set (z := 1 - zm * sin (psi_p q) ^ 2) in *. clearbody w z. field. repeat split; lra.
Qed.
End PolarRun.
