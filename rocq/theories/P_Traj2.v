(** * The model's polar functions and frequencies evaluate to the analysed real functions *)
From Coq Require Import Reals Lra Lia ZArith List String.
From Coquelicot Require Import Coquelicot.
From Verif Require Import Num Outcome External Checked ExternalSpec.
From Verif Require Import Model_Constants Model_Frequencies Model_Stable.
From Verif Require Import Spec SpecElliptic Elliptic Props_Elliptic P_Radial P_Polar P_Traj.
Open Scope R_scope.

Lemma Rsgn_abs L : L <> 0 -> Rsgn L * Rabs L = L /\ Rsgn L / L = / Rabs L /\ 0 < Rabs L /\ Rsgn L * Rsgn L = 1.
Proof.
  intros H. destruct (Rlt_dec 0 L) as [P|P].
  - rewrite (Rsgn_pos L P), (Rabs_pos_eq L) by lra. repeat split; try field; lra.
  - assert (L < 0) by lra. rewrite (Rsgn_neg L H0), (Rabs_left L H0). repeat split; try field; lra.
Qed.
Lemma ellK_E_0 : ellK 0 = PI / 2 /\ ellE (PI / 2) 0 = PI / 2.
Proof.
  assert (A : ellE (PI / 2) 0 = PI / 2).
  { unfold ellE. rewrite (RInt_ext _ (fun _ => 1)).
    - rewrite RInt_const. unfold scal; simpl; unfold mult; simpl. ring.
    - intros x _. replace (1 - 0 * sin x ^ 2) with 1 by ring. apply sqrt_1. }
  split; [|exact A]. unfold ellK, ellF. rewrite (RInt_ext _ (fun _ => 1)).
  - rewrite RInt_const. unfold scal; simpl; unfold mult; simpl. ring.
  - intros x _. replace (1 - 0 * sin x ^ 2) with 1 by ring. rewrite sqrt_1. apply Rinv_1.
Qed.

Section Polar.
Context {X : External R} (HX : special_spec X).
Context (a E L zm : R) (zp : option R) (beta a2s : R).
Local Notation A2 := (a ^ 2 * (1 - E ^ 2)).
Local Notation m := (kt2 A2 zm beta).
Context (Hz : 0 <= zm < 1) (HL : L <> 0) (Hb : 0 < beta) (Hm : 0 <= m < 1).
Context (Hbeta : beta = (A2 * (1 - zm) + L ^ 2) / (1 - zm)).
Context (Hk : ktheta_of (Some a) (Some zm) zp = Some (sqrt m)).
Context (Ha : a2sqrt_of (Some a) (Some E) (Some L) (Some zm) zp = Some a2s).
Context (HA : a2s * sqrt beta / Rabs L * m = a ^ 2 * zm).
Local Notation K := (ellK m).
Local Notation Ec := (ellE (PI / 2) m).
Local Notation Pc := (ellPi zm (PI / 2) m).

Lemma kt_sq : sqrt m ^ 2 = m. Proof. apply pow2_sqrt. tauto. Qed.
Lemma Kt_pos : 0 < K. Proof. apply ellK_pos. tauto. Qed.
Lemma b_pos : 0 < sqrt beta. Proof. now apply sqrt_lt_R0. Qed.
Definition psi_t (q : R) : R := amX (X := X) m (2 * K / PI * q + K).
Lemma psi_t_derive q : is_derive psi_t q (2 * K / PI * sqrt (dl m (psi_t q))).
Proof. exact (amX_derive HX m (2 * K / PI) K Hm q). Qed.
Lemma u_theta_run q : u_theta_of (Some (sqrt m)) (Some q) = Some (2 * K / PI * q + K).
Proof.
  pose proof PI_RGT_0. unfold u_theta_of. cnum. rewrite kt_sq, (ellipk_checked HX) by tauto.
  rewrite !cdiv_some by lra. f_equal. field. lra.
Qed.
Lemma polar_theta_run q : polar_theta (Some a) (Some zm, zp) (Some q) = Some (th zm psi_t q).
Proof.
  unfold polar_theta. rewrite Hk, u_theta_run. cnum. rewrite kt_sq, (ellipj_checked HX) by assumption.
  rewrite csqrt_some by tauto. fold (psi_t q). unfold cunit.
  pose proof (cth_bound zm Hz psi_t q). pose proof (sqrt_zm zm Hz). unfold cth in *.
  destruct (Rle_dec (-1) (sqrt zm * sin (psi_t q))); [|lra].
  destruct (Rle_dec (sqrt zm * sin (psi_t q)) 1); [reflexivity | lra].
Qed.
Definition tth (q : R) : R := a2s * E / Rabs L * (2 / PI * Ec * (q + PI / 2) - ellE (psi_t q) m).
Lemma polar_t_run q : polar_t (Some a) (Some E) (Some L) (Some zm, zp) (Some q) = Some (tth q).
Proof.
  pose proof PI_RGT_0. unfold polar_t. rewrite Ha, Hk, u_theta_run. cnum.
  rewrite kt_sq, (ellipj_checked HX) by assumption. fold (psi_t q).
  rewrite (C31_ellipeinc HX), (ellipe_checked HX) by tauto. rewrite !cdiv_some by lra.
  unfold tth. f_equal. destruct (Rsgn_abs L HL) as (S1 & S2 & S3 & S4).
  transitivity (a2s * E * (Rsgn L / L) * (2 / PI * Ec * (q + PI / 2) - ellE (psi_t q) m)); [field; lra|].
  rewrite S2. field. lra.
Qed.
Lemma e0zp_run : e0zp_of (Some a) (Some E) (Some L) (Some zm) = Some (beta / L ^ 2).
Proof.
  unfold e0zp_of. cnum. rewrite cdiv_some.
  - f_equal. rewrite Hbeta. field. repeat split; try assumption; lra.
  - apply Rmult_integral_contrapositive. split; [|lra]. now apply pow_nonzero.
Qed.
Lemma sqrt_e0zp : csqrt (Some (beta / L ^ 2)) = Some (sqrt beta / Rabs L).
Proof.
  assert (0 < L ^ 2) by now apply pow2_gt_0.
  rewrite csqrt_some by (apply Rlt_le, Rdiv_lt_0_compat; assumption).
  rewrite sqrt_div by lra. now rewrite <- Rsqr_pow2, sqrt_Rsqr_abs.
Qed.
Definition pth (q : R) : R := L / sqrt beta * (ellPi zm (psi_t q) m - 2 / PI * Pc * (q + PI / 2)).
Lemma polar_phi_run q : polar_phi (Some a) (Some E) (Some L) (Some zm, zp) (Some q) = Some (pth q).
Proof.
  pose proof PI_RGT_0. pose proof b_pos as B. destruct (Rsgn_abs L HL) as (S1 & S2 & S3 & S4).
  unfold polar_phi. rewrite e0zp_run, Hk, u_theta_run. cnum.
  rewrite kt_sq, (ellipj_checked HX) by assumption. fold (psi_t q). rewrite sqrt_e0zp.
  rewrite (C31_ellippiinc HX), (C31_ellippi HX) by tauto.
  rewrite !cdiv_some; try lra.
  2: { apply Rgt_not_eq. now apply Rdiv_lt_0_compat. }
  unfold pth. f_equal. rewrite <- S1 at 3. field. split; lra.
Qed.
Local Notation ut := (PI * sqrt beta / (2 * K)).
Definition Gth : R := a2s * E * sqrt beta / Rabs L * (1 - Ec / K).
Lemma tth_derive q : is_derive tth q ((a ^ 2 * E * cos (th zm psi_t q) ^ 2 - Gth) / ut).
Proof.
  pose proof PI_RGT_0. pose proof b_pos as B. pose proof Kt_pos as Kp. destruct (Rsgn_abs L HL) as (S1 & S2 & S3 & S4).
  pose proof (ellE_along _ _ _ Hz Hm _ _ psi_t_derive q) as D.
  rewrite (cos_th zm Hz), (cth_sq zm Hz). unfold tth, Gth.
  replace (a ^ 2 * E * (zm * sin (psi_t q) ^ 2)) with ((a2s * sqrt beta / Rabs L * m) * E * sin (psi_t q) ^ 2) by (rewrite HA; ring).
  set (P := fun q => ellE (psi_t q) m) in *.
  change (is_derive (fun q => a2s * E / Rabs L * (2 / PI * Ec * (q + PI / 2) - P q)) q 
    ((a2s * sqrt beta / Rabs L * m * E * sin (psi_t q) ^ 2 - a2s * E * sqrt beta / Rabs L * (1 - Ec / K)) / ut)).
  set (x := sin (psi_t q) ^ 2) in *. assert (D' : is_derive P q (2 * K / PI * (1 - m * x))) by exact D. clear D. rename D' into D. clearbody P x.
  set (l := Rabs L) in *. set (b := sqrt beta) in *. set (ec := Ec) in *. set (k0 := K) in *. set (m0 := m) in *. clearbody l b ec k0 m0.
  auto_derive.
  - repeat split; eexists; eassumption.
  - rewrite (is_derive_unique (fun x : R => P x) _ _ D). field. repeat split; lra.
Qed.
Lemma pth_derive q : is_derive pth q ((L / sin (th zm psi_t q) ^ 2 - L * Pc / K) / ut).
Proof.
  pose proof PI_RGT_0. pose proof b_pos as B. pose proof Kt_pos as Kp.
  pose proof (ellPi_along_th _ _ _ Hz Hm _ _ psi_t_derive zm q (proj2 Hz)) as D.
  rewrite (sin_th_sq zm Hz), (cth_sq zm Hz). unfold pth.
  pose proof (hden zm _ (proj2 Hz) (sin2_bound (psi_t q))) as Dn.
  set (P := fun q => ellPi zm (psi_t q) m) in *.
  change (is_derive (fun q => L / sqrt beta * (P q - 2 / PI * Pc * (q + PI / 2))) q 
    ((L / (1 - zm * sin (psi_t q) ^ 2) - L * Pc / K) / ut)).
  set (d := 1 - zm * sin (psi_t q) ^ 2) in *. assert (D' : is_derive P q (2 * K / PI / d)) by exact D. clear D. rename D' into D. clearbody P d.
  set (b := sqrt beta) in *. set (pc := Pc) in *. set (k0 := K) in *. clearbody b pc k0.
  auto_derive.
  - repeat split; eexists; eassumption.
  - rewrite (is_derive_unique (fun x : R => P x) _ _ D). field. repeat split; lra.
Qed.

(** ** the frequencies *)
Section Freq.
Context (r1 r2 r3 r4 : R).
Local Notation c := (1 - E ^ 2).
Local Notation mr := (kr2 r1 r2 r3 r4).
Context (Hs : 0 < sr2 c r1 r2 r3 r4) (Hmr : 0 <= mr < 1) (Ho : 0 < (r1 - r3) * (r2 - r3)).
Context (Haa : 0 <= a < 1).
Context (Hp2 : 0 < (r1 - rp a) * (r2 - rp a)) (Hm2 : 0 < (r1 - rm a) * (r2 - rm a)).
Context (Hp3 : r3 - rp a <> 0) (Hm3 : r3 - rm a <> 0).
Local Notation rrs := (Some r1, Some r2, Some r3, Some r4).
Local Notation Kr := (ellK mr).
Local Notation s := (sqrt (sr2 c r1 r2 r3 r4)).
Ltac nzs := repeat match goal with
  | |- _ /\ _ => split
  | |- _ * _ <> 0 => apply Rmult_integral_contrapositive; split
  end; try assumption; try lra.
Lemma gamma_run v :
  2 * a2s * E * v * (K - Ec) / (PI * L) = Gth ->
  gamma_formula (Some a) (Some E) (Some L) rrs (Some zm, zp) (Some (PI * s / (2 * Kr))) (Some v)
  = Some (4 * E + Gth + Gt a E L r1 r2 r3 r4).
Proof.
  intros HG. pose proof PI_RGT_0. pose proof (s_pos _ _ _ _ _ Hs) as Sp. pose proof (K_pos _ _ _ _ Hmr) as Kp.
  destruct (rpm a Haa) as (S0 & S1 & S2 & S3).
  destruct (radial_nz a E r1 r2 r3 r4 Hs Ho Hp2 Hm2) as (N1 & N2 & N3 & N4 & N5).
  destruct (h_cond a E r1 r2 r3 r4 Hs Ho Hp2 Hm2) as [[H1 H2] H3].
  unfold gamma_formula. rewrite Ha. change (nif (neqb (Some a) (nZ 0)) (nZ 0) (nsqrt (ndiv (Some zm) zp))) with (ktheta_of (Some a) (Some zm) zp).
  rewrite Hk, (kr_run E) by assumption. cnum. rewrite (kr_sq _ _ _ _ Hmr), kt_sq, (csqrt_a a Haa). fold (rp a) (rm a).
  rewrite !(ellipk_checked HX), !(ellipe_checked HX) by tauto. rewrite (csqrt_s _ _ _ _ _ Hs).
  rewrite (cdiv_some (r1 - r2) (r1 - r3)) by assumption. fold (hr r1 r2 r3).
  rewrite (cdiv_some _ ((r1 - r3) * (r2 - rp a))) by assumption. fold (hb r1 r2 r3 (rp a)).
  rewrite (cdiv_some _ ((r1 - r3) * (r2 - rm a))) by assumption. fold (hb r1 r2 r3 (rm a)).
  rewrite !(C31_ellippi HX) by (assumption || tauto).
  rewrite !cdiv_some by nzs. f_equal. unfold Gt, Ap. rewrite HG.
  set (k0 := Kr) in *. set (s0 := s) in *. set (p1 := ellPi (hr r1 r2 r3) (PI / 2) mr).
  set (p2 := ellPi (hb r1 r2 r3 (rp a)) (PI / 2) mr). set (p3 := ellPi (hb r1 r2 r3 (rm a)) (PI / 2) mr).
  set (e0 := ellE (PI / 2) mr). clearbody k0 s0 p1 p2 p3 e0.
  set (b1 := rp a) in *. set (b2 := rm a) in *. clearbody b1 b2.
  replace (2 * (PI * s0 / (2 * k0)) / (PI * s0)) with (/ k0) by (field; lra).
  field. repeat split; nzs.
Qed.
Lemma phi_run v :
  2 * v / (PI * (sqrt beta / Rabs L)) * Pc = L * Pc / K -> a <> 0 ->
  phi_freq_formula (Some a) (Some E) (Some L) rrs (Some zm, zp) (Some (PI * s / (2 * Kr))) (Some v)
  = Some (L * Pc / K + Gph a E L r1 r2 r3 r4).
Proof.
  intros HG Han. pose proof PI_RGT_0. pose proof (s_pos _ _ _ _ _ Hs) as Sp. pose proof (K_pos _ _ _ _ Hmr) as Kp.
  pose proof b_pos as B. destruct (Rsgn_abs L HL) as (T1 & T2 & T3 & T4).
  destruct (rpm a Haa) as (S0 & S1 & S2 & S3).
  destruct (radial_nz a E r1 r2 r3 r4 Hs Ho Hp2 Hm2) as (N1 & N2 & N3 & N4 & N5).
  destruct (h_cond a E r1 r2 r3 r4 Hs Ho Hp2 Hm2) as [[H1 H2] H3].
  pose proof Hk as Hk'. unfold ktheta_of in Hk'. cnum_in Hk'. rewrite Reqb_false in Hk' by assumption. cbn [nif] in Hk'.
  unfold phi_freq_formula. rewrite e0zp_run. rewrite (kr_run E) by assumption. cnum.
  rewrite Hk', (kr_sq _ _ _ _ Hmr), kt_sq, (csqrt_a a Haa). fold (rp a) (rm a).
  rewrite !(ellipk_checked HX) by tauto. rewrite (csqrt_s _ _ _ _ _ Hs), sqrt_e0zp.
  rewrite (cdiv_some _ ((r1 - r3) * (r2 - rp a))) by assumption. fold (hb r1 r2 r3 (rp a)).
  rewrite (cdiv_some _ ((r1 - r3) * (r2 - rm a))) by assumption. fold (hb r1 r2 r3 (rm a)).
  rewrite !(C31_ellippi HX) by (assumption || tauto).
  assert (0 < sqrt beta / Rabs L) by (now apply Rdiv_lt_0_compat).
  rewrite !cdiv_some by nzs. f_equal. unfold Gph, Bp. rewrite HG.
  set (k0 := Kr) in *. set (s0 := s) in *. set (Z := L * Pc / K).
  set (p2 := ellPi (hb r1 r2 r3 (rp a)) (PI / 2) mr). set (p3 := ellPi (hb r1 r2 r3 (rm a)) (PI / 2) mr).
  clearbody k0 s0 p2 p3 Z.
  set (b1 := rp a) in *. set (b2 := rm a) in *. clearbody b1 b2.
  field. repeat split; nzs.
Qed.
End Freq.
End Polar.
