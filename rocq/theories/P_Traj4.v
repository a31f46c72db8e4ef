(** * When mino_frequencies returns four numbers *)
From Coq Require Import Reals Lra Lia ZArith List String.
From Coquelicot Require Import Coquelicot.
From Verif Require Import Num Outcome External Checked ExternalSpec.
From Verif Require Import Model_Constants Model_Frequencies Model_Stable.
From Verif Require Import Spec SpecElliptic Elliptic P_Validation Props_Validation P_Bounds P_Constants Props_Constants.
From Verif Require Import Props_Elliptic P_Radial P_Polar P_Traj P_Traj2 P_Traj3.
Open Scope R_scope.

Lemma order_defined E r1 r2 r3 r4 : E^2 < 1 -> r4 <= r3 -> r3 < r2 -> r2 <= r1 ->
  0 < sr2 (1 - E^2) r1 r2 r3 r4 /\ 0 <= kr2 r1 r2 r3 r4 < 1 /\ 0 < (r1 - r3) * (r2 - r3).
Proof.
  intros HE H1 H2 H3. unfold sr2.
  assert (0 < (r1 - r3) * (r2 - r4)) by (apply Rmult_lt_0_compat; lra).
  refine (conj _ (conj _ _)).
  - rewrite Rmult_assoc. apply Rmult_lt_0_compat; lra.
  - unfold kr2. split.
    + apply Rdiv_le_0_compat; [|assumption]. apply Rmult_le_pos; lra.
    + apply Rlt_div_l; [assumption|]. rewrite Rmult_1_l.
      assert (0 < (r1 - r4) * (r2 - r3)) by (apply Rmult_lt_0_compat; lra). lra.
  - apply Rmult_lt_0_compat; lra.
Qed.

(** the roots that stable_radial_roots computes, from their sum and product *)
Lemma roots_run {X : External R} a p e x E L Q r3 r4 : 0 <= e < 1 -> 0 < p -> 1 - E^2 <> 0 ->
  r4 <= r3 -> r3 <> 0 -> r3 + r4 = 2 / (1 - E^2) - p / (1 - e) - p / (1 + e) ->
  r3 * r4 = a^2 * Q / (p / (1 - e) * (p / (1 + e)) * (1 - E^2)) ->
  stable_radial_roots (Some a) (Some p) (Some e) (Some x) (Some (Some E, Some L, Some Q))
  = Ret (Some (p / (1 - e)), Some (p / (1 + e)), Some r3, Some r4).
Proof.
  intros He Hp HE H34 H3 S P. unfold stable_radial_roots. cbn [default bind]. cnum.
  rewrite (cdiv_some p (1 - e)), (cdiv_some p (1 + e)) by lra. rewrite (cdiv_some 2) by assumption.
  assert (0 < p / (1 - e)) by (apply Rdiv_lt_0_compat; lra). assert (0 < p / (1 + e)) by (apply Rdiv_lt_0_compat; lra).
  assert (N : p / (1 - e) * (p / (1 + e)) * (1 - E^2) <> 0).
  { apply Rmult_integral_contrapositive; split; [|assumption]. apply Rgt_not_eq. now apply Rmult_lt_0_compat. }
  cbn [c1 c2]. rewrite (cdiv_some (a^2 * Q)) by assumption. rewrite <- S, <- P.
  assert (D : csqrt (c2 Rminus (c1 (fun a => a^2) (Some (r3 + r4))) (c2 Rmult (Some 4) (Some (r3 * r4)))) = Some (r3 - r4)).
  { cbn [c1 c2]. replace ((r3 + r4)^2 - 4 * (r3 * r4)) with ((r3 - r4)^2) by ring.
    rewrite csqrt_some by apply pow2_ge_0. f_equal. apply sqrt_pow2. lra. }
  cbn [c1 c2] in D |- *. rewrite D. rewrite cdiv_some by lra.
  replace ((r3 + r4 + (r3 - r4)) / 2) with r3 by field. cbn [c1 c2]. rewrite cdiv_some by assumption.
  repeat f_equal. field. assumption.
Qed.

Section Defined.
Context {X : External R} (HX : special_spec X) (HR : root_spec X).
Theorem mino_defined a p e x E L Q r1 r2 r3 r4 :
  0 <= a -> x <> 0 -> e <> 1 -> check_constants_params a p e x = Ret tt ->
  constants_of_motion (Some a) (Some p) (Some e) (Some x) = Ret (Some E, Some L, Some Q) ->
  stable_radial_roots (Some a) (Some p) (Some e) (Some x) (Some (Some E, Some L, Some Q)) = Ret (Some r1, Some r2, Some r3, Some r4) ->
  E^2 < 1 -> r3 < r2 -> r3 <> rp a -> r3 <> rm a ->
  exists ur uth uph gam,
  mino_frequencies (Some a) (Some p) (Some e) (Some x) = Ret (Some ur, Some uth, Some uph, Some gam).
Proof.
  intros Ha Nx Ne HCK HC Hrr HE H32 Hp3' Hm3'.
  destruct (accepted_bounds HR a p e x Ha HCK) as (Ha1 & He & Hx & Hr2 & HD & _ & Hp0).
  assert (He1 : 0 <= e < 1) by lra.
  destruct (stable_radial_roots_inv _ _ _ _ E L Q _ _ Hrr eq_refl _ _ _ _ eq_refl)
    as (K1 & K2 & K3 & Q1 & Q2 & N1 & N2 & N3 & Sm & Pr & Le).
  assert (Hp : 0 < p).
  { replace p with (p / (1 + e) * (1 + e)) by (field; lra). apply Rmult_lt_0_compat; lra. }
  assert (H12 : 0 < r2 <= r1).
  { rewrite Q1, Q2. split; [apply Rdiv_lt_0_compat; lra|]. unfold Rdiv. apply Rmult_le_compat_l; [lra|].
    apply Rinv_le_contravar; lra. }
  destruct (order_defined E r1 r2 r3 r4 HE Le H32 (proj2 H12)) as (Hsp & Hkr & Hord).
  rewrite <- Q2 in Hr2, HD.
  destruct (horizon_order a r1 r2 Ha1 ltac:(lra) HD) as [Hp2 Hm2].
  assert (Hp3 : r3 - rp a <> 0) by lra. assert (Hm3 : r3 - rm a <> 0) by lra.
  destruct (C14_polar_turning_point HR _ _ _ _ _ _ _ HC) as (_ & Lp & Ln & _).
  assert (SS : spin_sign a = 1) by (unfold spin_sign; destruct (Rlt_dec a 0); lra).
  rewrite SS, Rmult_1_r in Lp, Ln.
  assert (HLx : 0 < x * L).
  { destruct (Rlt_dec 0 x) as [P|P]; [specialize (Lp P); now apply Rmult_lt_0_compat|].
    assert (x < 0) by lra. specialize (Ln H). clear - H Ln. nra. }
  assert (HL : L <> 0) by (intros ->; lra).
  assert (Hx2 : 0 < x^2) by now apply pow2_gt_0.
  assert (Hz : 0 <= 1 - x^2 < 1) by (clear - Hx Hx2; nra).
  pose proof PI_RGT_0 as HPI.
  pose proof (s_pos _ _ _ _ _ Hsp) as Spos. pose proof (K_pos _ _ _ _ Hkr) as Kpos.
  assert (HK : check_frequency_params (Some a) (Some p) (Some e) (Some x) = Ret tt).
  { apply check_frequency_fwd; [assumption | assumption|]. now rewrite check_constants_some. }
  assert (HL2 : 0 < L^2) by now apply pow2_gt_0.
  destruct (Rsgn_abs L HL) as (T1 & T2 & T3 & T4).
  unfold mino_frequencies. rewrite HC. cbn [bind].
  unfold r_frequency. rewrite std_nonneg by assumption. rewrite HK. cbn [bind default]. rewrite Hrr. cbn [bind].
  rewrite (r_freq_run HX E r1 r2 r3 r4 Hsp Hkr Hord). cbn [bind].
  unfold theta_frequency. rewrite std_nonneg by assumption. rewrite HK. cbn [bind default].
  unfold phi_frequency. rewrite std_nonneg by assumption. rewrite HK. cbn [bind default]. rewrite Hrr. cbn [bind].
  unfold gamma. rewrite std_nonneg by assumption. rewrite HK. cbn [bind default]. rewrite Hrr. cbn [bind].
  change (neqb (Some a) (nZ 0)) with (Some (Reqb a 0)).
  destruct (Req_dec a 0) as [A0|A0].
  - rewrite (Reqb_true a 0 A0). cbn [ifo]. subst a. specialize (Hp0 eq_refl).
    assert (Hq : 0 < p - 3 - e^2) by (apply sch_pos; assumption).
    set (q := sqrt (p - 3 - e^2)). assert (Hq0 : 0 < q) by now apply sqrt_lt_R0.
    assert (Rqe : csqrt (Some (-3 - e^2 + p)) = Some q).
    { unfold q. replace (p - 3 - e^2) with (-3 - e^2 + p) in * by ring. apply csqrt_some. lra. }
    assert (Hzz : stable_polar_roots (Some 0) (Some p) (Some e) (Some x) (Some (Some E, Some L, Some Q)) = Ret (Some (1 - x^2), None)).
    { unfold stable_polar_roots. cbn [default bind]. change (neqb (Some 0) (nZ 0)) with (Some (Reqb 0 0)).
      rewrite Reqb_true by reflexivity. cbn [ifo]. reflexivity. }
    rewrite Hzz. cbn [bind].
    assert (Hut : exists ut, (ndiv (Some p) (nsqrt (nadd (nsub (nopp (nZ 3)) (npow (Some e) 2)) (Some p))) * nif (neqb (Some e) (nZ 0)) (nsign (Some x)) (nZ 1))%num = Some ut).
    { cnum. change (- (3)) with (-3). rewrite Rqe. rewrite cdiv_some by lra. destruct (Reqb e 0); cbn [nif c2]; eauto. }
    destruct Hut as [ut Hut]. rewrite Hut. cbn [bind].
    assert (Hup : exists up, ndiv (nmul (nsign (Some x)) (Some p)) (nsqrt (nadd (nsub (nopp (nZ 3)) (npow (Some e) 2)) (Some p))) = Some up).
    { cnum. change (- (3)) with (-3). rewrite Rqe. rewrite cdiv_some by lra. eauto. }
    destruct Hup as [up Hup]. rewrite Hup. cbn [bind].
    set (beta := L^2 / x^2).
    assert (Hm0 : kt2 (0^2 * (1 - E^2)) (1 - x^2) beta = 0) by (unfold kt2, beta; field; split; assumption).
    assert (Hkt : 0 <= kt2 (0^2 * (1 - E^2)) (1 - x^2) beta < 1) by (rewrite Hm0; lra).
    assert (Hk : ktheta_of (Some 0) (Some (1 - x^2)) None = Some (sqrt (kt2 (0^2 * (1 - E^2)) (1 - x^2) beta))).
    { rewrite Hm0, sqrt_0. unfold ktheta_of. cnum. rewrite Reqb_true by reflexivity. reflexivity. }
    assert (exists a2s, a2sqrt_of (Some 0) (Some E) (Some L) (Some (1 - x^2)) None = Some a2s) as [a2s Ha2].
    { unfold a2sqrt_of. cnum. rewrite Reqb_true by reflexivity. cbn [nif].
      rewrite csqrt_some by lra. cbn [c2].
      assert (0 < sqrt (1 - (1 - x^2))) by (apply sqrt_lt_R0; lra).
      rewrite cdiv_some; [eauto|]. apply Rmult_integral_contrapositive; lra. }
    destruct ellK_E_0 as [HK0 HE0].
    do 4 eexists. rewrite (gamma_run HX 0 E L (1 - x^2) None beta a2s Hz HL Hkt Hk Ha2 r1 r2 r3 r4 Hsp Hkr Hord Ha1 Hp2 Hm2 Hp3 Hm3 ut).
    + reflexivity.
    + unfold Gth. rewrite Hm0, HK0, HE0. field. repeat split; lra.
  - rewrite (Reqb_false a 0 A0). cbn [ifo].
    assert (0 < a^2) by now apply pow2_gt_0.
    set (zp' := 1 + 1 / (a^2 * (1 - E^2) / L^2 * (1 - (1 - x^2)))).
    assert (NN : a^2 * (1 - E^2) / L^2 * (1 - (1 - x^2)) <> 0).
    { apply Rgt_not_eq. apply Rmult_lt_0_compat; [|lra]. apply Rdiv_lt_0_compat; [|lra]. apply Rmult_lt_0_compat; lra. }
    assert (Hzz : stable_polar_roots (Some a) (Some p) (Some e) (Some x) (Some (Some E, Some L, Some Q)) = Ret (Some (1 - x^2), Some zp')).
    { unfold stable_polar_roots. cbn [default bind].
      change (neqb (Some a) (nZ 0)) with (Some (Reqb a 0)). rewrite (Reqb_false a 0 A0). cbn [ifo].
      cnum. rewrite (cdiv_some _ (L^2)) by lra. rewrite cdiv_some by assumption. reflexivity. }
    rewrite Hzz. cbn [bind].
    set (A2 := a^2 * (1 - E^2)) in *.
    assert (HA2 : 0 < A2) by (apply Rmult_lt_0_compat; lra).
    set (beta := A2 * zp').
    assert (Hzp : beta = (A2 * (1 - (1 - x^2)) + L^2) / (1 - (1 - x^2))).
    { unfold beta, zp'. field. repeat split; lra. }
    assert (Hb : 0 < beta). { rewrite Hzp. apply Rdiv_lt_0_compat; [|lra]. assert (0 < A2 * (1 - (1 - x^2))) by (apply Rmult_lt_0_compat; lra). lra. }
    assert (Hzp0 : 0 < zp'). { apply (Rmult_lt_reg_l A2); [assumption|]. rewrite Rmult_0_r. exact Hb. }
    assert (Hm0 : kt2 A2 (1 - x^2) beta = (1 - x^2) / zp') by (unfold kt2, beta; field; split; lra).
    assert (Hkt : 0 <= kt2 A2 (1 - x^2) beta < 1).
    { unfold kt2. split; [apply Rdiv_le_0_compat; [apply Rmult_le_pos; lra | assumption]|].
      apply Rlt_div_l; [assumption|]. rewrite Rmult_1_l, Hzp.
      replace ((A2 * (1 - (1 - x^2)) + L^2) / (1 - (1 - x^2))) with (A2 + L^2 / x^2) by (field; repeat split; lra).
      assert (0 < L^2 / x^2) by now apply Rdiv_lt_0_compat. assert (0 < A2 * x^2) by now apply Rmult_lt_0_compat. lra. }
    assert (Hk : ktheta_of (Some a) (Some (1 - x^2)) (Some zp') = Some (sqrt (kt2 A2 (1 - x^2) beta))).
    { rewrite Hm0. unfold ktheta_of. cnum. rewrite (Reqb_false a 0 A0). cbn [nif]. rewrite cdiv_some by lra.
      apply csqrt_some. rewrite <- Hm0. tauto. }
    pose proof (sqrt_e0zp L beta HL Hb) as Sq.
    pose proof (b_pos beta Hb) as Bp.
    set (a2s := a^2 * zp' / (sqrt beta / Rabs L)).
    assert (Ha2 : a2sqrt_of (Some a) (Some E) (Some L) (Some (1 - x^2)) (Some zp') = Some a2s).
    { unfold a2sqrt_of. cnum. rewrite (Reqb_false a 0 A0). cbn [nif].
      rewrite (cdiv_some _ (L^2)) by lra. fold A2. cbn [c2].
      replace (A2 / L^2 * zp') with (beta / L^2) by (unfold beta; field; assumption).
      rewrite Sq. rewrite cdiv_some; [reflexivity|]. apply Rgt_not_eq. now apply Rdiv_lt_0_compat. }
    pose proof (Kt_pos a E (1 - x^2) beta Hz Hkt) as Ktp. fold A2 in Ktp.
    assert (Hut : theta_freq_formula (Some a) (Some E) (Some L) (Some (1 - x^2), Some zp')
                = Some (PI * L * (sqrt beta / Rabs L) / (2 * ellK (kt2 A2 (1 - x^2) beta)))).
    { unfold theta_freq_formula. rewrite (e0zp_run a E L (1 - x^2) beta Hz HL Hzp).
      unfold ktheta_of in Hk. change (neqb (Some a) (nZ 0)) with (Some (Reqb a 0)) in Hk. rewrite (Reqb_false a 0 A0) in Hk. cbn [nif] in Hk.
      rewrite Hk. cnum. rewrite Sq, pow2_sqrt by tauto. rewrite (ellipk_checked HX) by tauto. rewrite cdiv_some by lra. reflexivity. }
    rewrite Hut. cbn [bind].
    rewrite (phi_run HX a E L (1 - x^2) (Some zp') beta Hz HL Hb Hkt Hzp Hk r1 r2 r3 r4 Hsp Hkr Hord Ha1 Hp2 Hm2 Hp3 Hm3).
    + cbn [bind].
      rewrite (gamma_run HX a E L (1 - x^2) (Some zp') beta a2s Hz HL Hkt Hk Ha2 r1 r2 r3 r4 Hsp Hkr Hord Ha1 Hp2 Hm2 Hp3 Hm3).
      * cbn [bind]. do 4 eexists. reflexivity.
      * unfold Gth. fold A2. set (KK := ellK (kt2 A2 (1 - x^2) beta)) in *. clearbody KK. field. repeat split; lra.
    + fold A2. set (KK := ellK (kt2 A2 (1 - x^2) beta)) in *. clearbody KK. field. repeat split; lra.
    + assumption.
Qed.

(** every bound Schwarzschild orbit outside the separatrix has well-defined frequencies *)
Theorem schwarzschild_frequencies_defined p e x : 0 <= e < 1 -> 6 + 2 * e < p -> -1 <= x <= 1 -> x <> 0 ->
  exists ur uth uph gam,
  mino_frequencies (Some 0) (Some p) (Some e) (Some x) = Ret (Some ur, Some uth, Some uph, Some gam).
Proof.
  intros He Hp Hx Nx.
  pose proof (schwarzschild_constants p e x Hp ltac:(lra) Hx) as HC.
  pose proof (accepts_schwarzschild p e x Hp ltac:(lra) Hx) as HCK.
  pose proof (sch_pos p e He Hp) as Hq.
  assert (Hpq : 0 < p * (p - 3 - e^2)) by (apply Rmult_lt_0_compat; lra).
  set (y := ((p - 2)^2 - 4 * e^2) / (p * (p - 3 - e^2))) in *.
  assert (Hy : 0 <= y). { unfold y. apply Rlt_le, Rdiv_lt_0_compat; [nra | assumption]. }
  assert (HE : 1 - sqrt y ^ 2 = (p - 4) * (1 - e^2) / (p * (p - 3 - e^2))).
  { rewrite pow2_sqrt by assumption. unfold y. field. lra. }
  assert (H1 : 0 < 1 - e^2) by nra.
  assert (HE' : 0 < 1 - sqrt y ^ 2). { rewrite HE. apply Rdiv_lt_0_compat; [|assumption]. apply Rmult_lt_0_compat; lra. }
  assert (H4 : 0 < p - 4) by lra.
  set (E := sqrt y) in *. clearbody E.
  assert (H3 : 2 < 2 * p / (p - 4)). { apply Rlt_div_r; lra. }
  assert (H3' : 2 * p / (p - 4) < p / (1 + e)).
  { apply Rlt_div_l; [assumption|]. replace (p / (1 + e) * (p - 4)) with (p * (p - 4) / (1 + e)) by (field; lra).
    apply (Rlt_div_r (2 * p) (p * (p - 4)) (1 + e)); [lra|]. assert (0 < p * (p - 6 - 2 * e)) by (apply Rmult_lt_0_compat; lra); lra. }
  eapply (mino_defined 0 p e x); try eassumption; try lra.
  - apply (roots_run 0 p e x E _ _ (2 * p / (p - 4)) 0); try lra.
    rewrite HE. field. repeat split; lra.
  - unfold rp. replace (1 - 0^2) with 1 by ring. rewrite sqrt_1. lra.
  - unfold rm. replace (1 - 0^2) with 1 by ring. rewrite sqrt_1. lra.
Qed.

(** a Kerr orbit: a = 1/2, p = 16, circular, equatorial *)
Example kerr_frequencies_defined : exists ur uth uph gam,
  mino_frequencies (Some (1/2)) (Some 16) (Some 0) (Some 1) = Ret (Some ur, Some uth, Some uph, Some gam).
Proof.
  pose proof (constants_example X HR) as HC. cbv zeta in HC.
  destruct (roots_example X HR) as [Hr _].
  assert (S2 : sqrt 53 ^ 2 = 53) by (apply pow2_sqrt; lra).
  assert (S0 : 0 < sqrt 53) by (apply sqrt_lt_R0; lra).
  assert (S3 : sqrt (1 - (1/2)^2) ^ 2 = 1 - (1/2)^2) by (apply pow2_sqrt; lra).
  assert (S4 : 0 <= sqrt (1 - (1/2)^2)) by apply sqrt_pos.
  eapply (mino_defined (1/2) 16 0 1 _ _ _ 16 16 (1568/799) 0); try eassumption; try lra.
  - apply (accepts_equatorial_6 HR); lra.
  - unfold stable_radial_roots in *. cbn [default] in Hr |- *. rewrite HC in Hr. exact Hr.
  - replace ((113 / (16 * sqrt 53))^2) with (12769 / (256 * sqrt 53 ^ 2)) by (field; lra). rewrite S2. lra.
  - unfold rp. intros K. assert (K' : sqrt (1 - (1/2)^2) = 769/799) by lra. rewrite K' in S3. lra.
  - unfold rm. lra.
Qed.
End Defined.
