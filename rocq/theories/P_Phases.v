(** * Inverting the radial and polar solutions: the phase of a given position *)
From Coq Require Import Reals Lra Lia ZArith String List.
From Coquelicot Require Import Coquelicot.
From Verif Require Import Num Outcome External Checked ExternalSpec.
From Verif Require Import Model_Constants Model_Frequencies Model_InitialConditions Model_Stable.
From Verif Require Import Spec SpecElliptic Elliptic Props_Elliptic.
From Verif Require Import P_Radial P_Polar P_Traj P_Traj2 P_Traj3 Props_Trajectory.
Import ListNotations.
Open Scope R_scope.

Lemma ellF_odd m q : m < 1 -> ellF (- q) m = - ellF q m.
Proof. intros H. rewrite !ellF_prim. apply prim_odd; intros; [now apply hF_cont | now apply hF_ev]. Qed.
Lemma casin_some y : -1 <= y <= 1 -> nasin (Some y) = Some (asin y).
Proof.
  intros H. cnum. unfold cunit. destruct (Rle_dec (-1) y); [|lra]. destruct (Rle_dec y 1); [reflexivity|lra].
Qed.

Section S.
Context {X : External R} (HX : special_spec X).

Lemma ellipkinc_some q m : m < 1 -> ellipkinc (Some q) (Some m) = Some (ellF q m).
Proof.
  intros H. change (ellipkinc (Some q) (Some m)) with (guard (Rltb m 1 || (Reqb m 1 && Rltb (Rabs q) (PI / 2)))%bool (ellipkinc q m)).
  rewrite Rltb_true by assumption. cbn [guard orb]. now rewrite (sp_ellipkinc X HX).
Qed.

Section Radial.
Context (E r1 r2 r3 r4 r0 : R).
Local Notation c := (1 - E ^ 2).
Local Notation m := (kr2 r1 r2 r3 r4).
Context (Hs : 0 < sr2 c r1 r2 r3 r4) (Hm : 0 <= m < 1) (Ho : 0 < (r1 - r3) * (r2 - r3)).
Context (Hc : 0 < c) (H20 : r2 < r0) (H01 : r0 < r1).
Local Notation psi := (psi_r r1 r2 r3 r4).
Local Notation K := (ellK m).

Definition y2 : R := (r1 - r3) * (r0 - r2) / ((r1 - r2) * (r0 - r3)).
Lemma order3 : r3 < r2 \/ r1 < r3.
Proof. destruct (Rlt_le_dec r3 r2) as [C|C]; [now left|]. right. apply Rnot_le_lt. intros C'. 
  assert (0 <= (r1 - r3) * (r3 - r2)) by (apply Rmult_le_pos; lra). lra. Qed.
Lemma y2_bound : 0 < y2 < 1.
Proof.
  destruct order3 as [C|C].
  - assert (0 < (r1 - r2) * (r0 - r3)) by (apply Rmult_lt_0_compat; lra).
    unfold y2. split; [apply Rdiv_lt_0_compat; [apply Rmult_lt_0_compat; lra | assumption]|].
    apply Rlt_div_l; [assumption|]. assert (0 < (r1 - r0) * (r2 - r3)) by (apply Rmult_lt_0_compat; lra). lra.
  - assert (0 < (r1 - r2) * (r3 - r0)) by (apply Rmult_lt_0_compat; lra).
    assert (Y : y2 = (r3 - r1) * (r0 - r2) / ((r1 - r2) * (r3 - r0))) by (unfold y2; field; lra). rewrite Y.
    split; [apply Rdiv_lt_0_compat; [apply Rmult_lt_0_compat; lra | assumption]|].
    apply Rlt_div_l; [assumption|]. assert (0 < (r1 - r0) * (r3 - r2)) by (apply Rmult_lt_0_compat; lra). lra.
Qed.
Lemma rx_y2 : rx r1 r2 r3 y2 = r0.
Proof.
  unfold rx, y2. field.
  assert (r0 - r3 <> 0) by (destruct order3; lra). assert (r1 - r2 <> 0) by lra. assert (r1 - r3 <> 0) by (destruct order3; lra).
  assert (r2 - r3 <> 0) by (destruct order3; lra).
  refine (conj _ (conj _ _)); try lra.
Qed.
Definition phi0 : R := asin (sqrt y2).
Lemma sqrt_y2 : 0 < sqrt y2 < 1.
Proof.
  pose proof y2_bound. split; [apply sqrt_lt_R0; lra|]. rewrite <- sqrt_1. apply sqrt_lt_1; lra.
Qed.
Lemma phi0_bound : 0 < phi0 < PI / 2.
Proof.
  pose proof sqrt_y2 as Y. unfold phi0. pose proof (asin_bound_lt (sqrt y2) ltac:(lra)) as B. split; [|lra].
  destruct (Rlt_le_dec 0 (asin (sqrt y2))) as [K|K]; [assumption|exfalso].
  apply (sin_incr_1 _ 0) in K; try lra. rewrite sin_asin, sin_0 in K by lra. lra.
Qed.
Lemma sin_phi0 : sin phi0 ^ 2 = y2.
Proof. pose proof sqrt_y2. pose proof y2_bound. unfold phi0. rewrite sin_asin by lra. apply pow2_sqrt. lra. Qed.
Definition q0 : R := PI / K * ellF phi0 m.
Lemma q0_bound : 0 < q0 < PI.
Proof.
  pose proof PI_RGT_0. pose proof (K_pos _ _ _ _ Hm) as KP. pose proof phi0_bound as B.
  assert (0 < ellF phi0 m < K).
  { split; [rewrite <- (ellF_0 m) at 1|]; apply ellF_lt; lra. }
  unfold q0. assert (0 < PI / K) by (apply Rdiv_lt_0_compat; lra). split; [apply Rmult_lt_0_compat; lra|].
  replace PI with (PI / K * K) at 2 by (field; lra). apply Rmult_lt_compat_l; lra.
Qed.
Lemma psi_q0 : psi q0 = phi0.
Proof.
  pose proof PI_RGT_0. pose proof (K_pos _ _ _ _ Hm) as KP. unfold psi_r, q0. apply (amX_unique HX); [assumption|].
  field. lra.
Qed.
Lemma psi_q0' : psi (2 * PI - q0) = PI - phi0.
Proof.
  pose proof PI_RGT_0. pose proof (K_pos _ _ _ _ Hm) as KP. unfold psi_r, q0. apply (amX_unique HX); [assumption|].
  replace (PI - phi0) with (- phi0 + 1 * PI) by ring. rewrite (ellF_shift m (- phi0) 1) by lra.
  rewrite ellF_odd by lra. field. lra.
Qed.
Lemma rho_q0 : rho r1 r2 r3 psi q0 = r0.
Proof. unfold rho, sn2. rewrite psi_q0, sin_phi0. apply rx_y2. Qed.
Lemma rho_q0' : rho r1 r2 r3 psi (2 * PI - q0) = r0.
Proof. unfold rho, sn2. rewrite psi_q0', sin_PI_x, sin_phi0. apply rx_y2. Qed.

Lemma freq_reversed : r_freq_formula (Some E) (Some r4, Some r3, Some r2, Some r1)
  = Some (PI * sqrt (sr2 c r1 r2 r3 r4) / (2 * K)).
Proof.
  rewrite <- (r_freq_run HX E r1 r2 r3 r4 Hs Hm Ho).
  unfold r_freq_formula, kr_of. cnum.
  replace ((r4 - r3) * (r2 - r1)) with ((r1 - r2) * (r3 - r4)) by ring.
  replace ((r4 - r2) * (r3 - r1)) with ((r1 - r3) * (r2 - r4)) by ring.
  replace ((1 - E^2) * (r4 - r2) * (r3 - r1)) with ((1 - E^2) * (r1 - r3) * (r2 - r4)) by ring. reflexivity.
Qed.

Lemma radial_phase_run dr : 
  radial_phase (Some E) (Some r0) (Some dr) (Some r1) (Some r2) (Some r3) (Some r4)
    (Some (PI * sqrt (sr2 c r1 r2 r3 r4) / (2 * K)))
  = Ret (Some (if Rlt_dec 0 dr then q0 else 2 * PI - q0)).
Proof.
  pose proof PI_RGT_0. pose proof (K_pos _ _ _ _ Hm) as KP. pose proof sqrt_y2 as SY. pose proof y2_bound as Y.
  assert (P1 : 0 < (r1 - r3) * (r2 - r4)).
  { unfold sr2 in Hs. rewrite Rmult_assoc in Hs. apply Rmult_lt_reg_l with c; lra. }
  assert (P2 : (r1 - r2) * (r0 - r3) <> 0).
  { apply Rmult_integral_contrapositive. split; destruct order3; lra. }
  unfold radial_phase. cbv zeta.
  assert (EK : (nsqrt ((Some r1 - Some r2) * (Some r3 - Some r4) / ((Some r1 - Some r3) * (Some r2 - Some r4))))%num = Some (sqrt m)).
  { apply (kr_run E); assumption. }
  rewrite EK.
  assert (EY : (nsqrt ((Some r1 - Some r3) * (Some r0 - Some r2) / ((Some r1 - Some r2) * (Some r0 - Some r3))))%num = Some (sqrt y2)).
  { cnum. rewrite cdiv_some by lra. apply (csqrt_some y2). lra. }
  rewrite EY, casin_some by lra. fold phi0.
  assert (EM : npow (Some (sqrt m)) 2 = Some m) by (cnum; now rewrite pow2_sqrt by tauto).
  change (npow (Some (sqrt m)) 2) with (Some (sqrt m) ^ 2)%num in EM. rewrite EM.
  rewrite ellipkinc_some by tauto.
  assert (SC : 0 < sqrt c) by now apply sqrt_lt_R0. assert (SP : 0 < sqrt ((r1 - r3) * (r2 - r4))) by now apply sqrt_lt_R0.
  cnum. rewrite !csqrt_some by lra. rewrite (cdiv_some _ (sqrt c)) by lra. rewrite (cdiv_some _ (sqrt ((r1 - r3) * (r2 - r4)))) by lra.
  assert (EQ : 1 / sqrt c * 2 / sqrt ((r1 - r3) * (r2 - r4)) * ellF phi0 m * (PI * sqrt (sr2 c r1 r2 r3 r4) / (2 * K)) = q0).
  { assert (ES : sqrt (sr2 c r1 r2 r3 r4) = sqrt c * sqrt ((r1 - r3) * (r2 - r4))).
    { rewrite <- sqrt_mult by lra. f_equal. unfold sr2. ring. }
    unfold q0. rewrite ES. field. lra. }
  rewrite EQ. unfold Rltb. destruct (Rlt_dec 0 dr); cbn [ifo]; reflexivity.
Qed.
End Radial.

Section Polar.
Context (a E L zm beta th0 : R).
Local Notation A2 := (a ^ 2 * (1 - E ^ 2)).
Local Notation m := (kt2 A2 zm beta).
Context (Hz : 0 <= zm < 1) (HA : 0 < A2) (HL : L <> 0) (Hb : 0 < beta) (Hm : 0 <= m < 1) (Ht : 0 < th0 < PI) (Hc : cos th0 ^ 2 < zm).
Context (Hbeta : beta = (a^2 * (1 - E^2) * (1 - zm) + L^2) / (1 - zm)).
Local Notation psi := (psi_t a E zm beta).
Local Notation K := (ellK m).

Definition yt : R := cos th0 / sqrt zm.
Lemma szm : 0 < sqrt zm.
Proof. apply sqrt_lt_R0. pose proof (pow2_ge_0 (cos th0)). lra. Qed.
Lemma yt_bound : -1 < yt < 1.
Proof.
  pose proof szm. assert (yt ^ 2 < 1).
  { unfold yt. replace ((cos th0 / sqrt zm)^2) with (cos th0 ^ 2 / sqrt zm ^ 2) by (field; lra).
    rewrite pow2_sqrt by lra. apply Rlt_div_l; pose proof (pow2_ge_0 (cos th0)); lra. }
  split; nra.
Qed.
Definition phit : R := asin yt.
Lemma phit_bound : - (PI / 2) < phit < PI / 2.
Proof. pose proof yt_bound. unfold phit. pose proof (asin_bound_lt yt ltac:(lra)). lra. Qed.
Lemma sin_phit : sqrt zm * sin phit = cos th0.
Proof. pose proof szm. pose proof yt_bound. unfold phit. rewrite sin_asin by lra. unfold yt. field. lra. Qed.
Definition st0 : R := PI / (2 * K) * ellF phit m.
Lemma st0_bound : - (PI / 2) < st0 < PI / 2.
Proof.
  pose proof PI_RGT_0. assert (KP : 0 < K) by (apply ellK_pos; lra). pose proof phit_bound as B.
  assert (- K < ellF phit m < K).
  { split; [|apply ellF_lt; lra]. unfold ellK. rewrite <- ellF_odd by lra. apply ellF_lt; lra. }
  unfold st0. assert (0 < PI / (2 * K)) by (apply Rdiv_lt_0_compat; lra).
  replace (PI / 2) with (PI / (2 * K) * K) by (field; lra). split; [|apply Rmult_lt_compat_l; lra].
  rewrite <- Ropp_mult_distr_r_reverse. apply Rmult_lt_compat_l; lra.
Qed.
(** growing polar angle *)
Lemma th_up : th zm psi (PI / 2 - st0) = th0.
Proof.
  pose proof PI_RGT_0. assert (KP : 0 < K) by (apply ellK_pos; lra).
  assert (EP : psi (PI / 2 - st0) = PI - phit).
  { unfold psi_t, st0. apply (amX_unique HX); [assumption|].
    replace (PI - phit) with (- phit + 1 * PI) by ring. rewrite (ellF_shift m (- phit) 1) by lra.
    rewrite ellF_odd by lra. field. lra. }
  unfold th, cth. rewrite EP, sin_PI_x, sin_phit. apply acos_cos. lra.
Qed.
Lemma th_down : th zm psi (st0 + 3 * PI / 2) = th0.
Proof.
  pose proof PI_RGT_0. assert (KP : 0 < K) by (apply ellK_pos; lra).
  assert (EP : psi (st0 + 3 * PI / 2) = phit + 2 * PI).
  { unfold psi_t, st0. apply (amX_unique HX); [assumption|].
    rewrite (ellF_shift m phit 2) by lra. field. lra. }
  unfold th, cth. rewrite EP, sin_plus, sin_2PI, cos_2PI.
  replace (sin phit * 1 + cos phit * 0) with (sin phit) by ring. rewrite sin_phit. apply acos_cos. lra.
Qed.

Local Notation zp := (beta / A2).
Lemma ktheta_sqrt : nsqrt (Some zm / Some zp)%num = Some (sqrt m).
Proof.
  assert (0 < zp) by now apply Rdiv_lt_0_compat.
  cnum. rewrite cdiv_some by lra. rewrite csqrt_some.
  - do 2 f_equal. unfold kt2. field. split; [lra|]. split; intros K; rewrite K in HA; lra.
  - apply Rdiv_le_0_compat; lra.
Qed.
Lemma theta_freq_value : theta_freq_formula (Some a) (Some E) (Some L) (Some zm, Some zp)
  = Some (PI * L * (sqrt beta / Rabs L) / (2 * K)).
Proof.
  assert (KP : 0 < K) by (apply ellK_pos; lra).
  unfold theta_freq_formula. rewrite ktheta_sqrt. rewrite (e0zp_run a E L zm beta Hz HL Hbeta).
  assert (EM : npow (Some (sqrt m)) 2 = Some m) by (cnum; now rewrite pow2_sqrt by tauto).
  change (npow (Some (sqrt m)) 2) with (Some (sqrt m) ^ 2)%num in EM. rewrite EM.
  rewrite (ellipk_checked HX) by tauto. cnum. rewrite sqrt_e0zp by assumption.
  rewrite cdiv_some by lra. reflexivity.
Qed.
Lemma lambda_theta : (nZ 1 / (Some L * nsqrt (e0zp_of (Some a) (Some E) (Some L) (Some zm)))
    * ellipkinc (nasin (ncos (Some th0) / nsqrt (Some zm))) (nsqrt (Some zm / Some zp) ^ 2))%num
  = Some (1 / (L * (sqrt beta / Rabs L)) * ellF phit m).
Proof.
  pose proof szm. pose proof yt_bound.
  rewrite ktheta_sqrt. rewrite (e0zp_run a E L zm beta Hz HL Hbeta).
  assert (EM : npow (Some (sqrt m)) 2 = Some m) by (cnum; now rewrite pow2_sqrt by tauto).
  change (npow (Some (sqrt m)) 2) with (Some (sqrt m) ^ 2)%num in EM. rewrite EM.
  assert (EY : (ncos (Some th0) / nsqrt (Some zm))%num = Some yt).
  { cnum. rewrite csqrt_some by lra. rewrite cdiv_some by lra. reflexivity. }
  rewrite EY, casin_some by lra. rewrite ellipkinc_some by tauto. cnum. rewrite sqrt_e0zp by assumption.
  rewrite cdiv_some; [reflexivity|].
  pose proof (Rabs_pos_lt L HL). pose proof (sqrt_lt_R0 _ Hb).
  apply Rmult_integral_contrapositive. split; [assumption|]. apply Rgt_not_eq, Rdiv_lt_0_compat; assumption.
Qed.
Lemma polar_phase_run dth : dth <> 0 ->
  polar_phase (Some th0) (Some dth) (Some (1 / (L * (sqrt beta / Rabs L)) * ellF phit m))
    (Some (PI * L * (sqrt beta / Rabs L) / (2 * K)))
  = Ret (Some (if Rlt_dec 0 dth then PI / 2 - st0 else st0 + 3 * PI / 2)).
Proof.
  intros Hd. assert (KP : 0 < K) by (apply ellK_pos; lra).
  pose proof (Rabs_pos_lt L HL). pose proof (sqrt_lt_R0 _ Hb).
  assert (EQ : 1 / (L * (sqrt beta / Rabs L)) * ellF phit m * (PI * L * (sqrt beta / Rabs L) / (2 * K)) = st0).
  { unfold st0. field. refine (conj _ (conj _ (conj _ _))); try assumption; lra. }
  unfold polar_phase. cnum. rewrite EQ. rewrite !cdiv_some by lra.
  destruct (Rlt_dec 0 dth) as [D|D].
  - rewrite Rleb_true by lra. cbn [ifo]. reflexivity.
  - rewrite Rleb_false by lra. rewrite (Reqb_false dth 0) by assumption. cbn [ifo oand andb].
    rewrite Rltb_true by lra. cbn [ifo]. reflexivity.
Qed.
End Polar.
End S.
