(** * The phase of a point of a stable orbit is unique (support for C55) *)
From Coq Require Import Reals Lra Lia ZArith.
From Coquelicot Require Import Coquelicot.
From Verif Require Import Num Outcome External Checked ExternalSpec.
From Verif Require Import Spec SpecElliptic Elliptic.
From Verif Require Import P_Radial P_Polar P_Traj P_Traj2 P_Traj3 Props_Trajectory Props_Trajectory2 P_Phases Props_Phases.
Open Scope R_scope.

Lemma const_of_derive0 (f : R -> R) c : (forall q, is_derive f q c) -> periodic f (2 * PI) -> forall q, f q = f 0.
Proof.
  intros D P.
  assert (Dz : forall q, is_derive (fun q => f q - c * q) q 0).
  { intros q. replace 0 with (c - c) by ring. apply @is_derive_minus; [apply D|]. auto_derive; [trivial | ring]. }
  assert (C : forall q q', f q - c * q = f q' - c * q').
  { intros q q'. destruct (Req_dec q q') as [->|N]; [reflexivity|].
    destruct (Rtotal_order q q') as [H|[H|H]]; [|contradiction|].
    - apply (eq_is_derive (fun q => f q - c * q) q q'); [intros; apply Dz | lra].
    - symmetry. apply (eq_is_derive (fun q => f q - c * q) q' q); [intros; apply Dz | lra]. }
  assert (c = 0).
  { pose proof PI_RGT_0. pose proof (P 0 1%Z) as P1. pose proof (C 0 (0 + 1 * (2 * PI))) as C1. rewrite P1 in C1.
    assert (c * (2 * PI) = 0) by lra. apply Rmult_integral in H0 as [H0|H0]; lra. }
  subst c. intros q. pose proof (C q 0). lra.
Qed.

Lemma cos_1_small u : -2 * PI < u < 2 * PI -> cos u = 1 -> u = 0.
Proof.
  intros B H. replace u with (2 * (u / 2)) in H by field. rewrite cos_2a_sin in H. assert (S : sin (u / 2) = 0) by nra.
  destruct (Rtotal_order u 0) as [K|[K|K]]; [exfalso | assumption | exfalso].
  - assert (0 < sin (- (u / 2))) by (apply sin_gt_0; lra). rewrite sin_neg in H0. lra.
  - assert (0 < sin (u / 2)) by (apply sin_gt_0; lra). lra.
Qed.
Lemma sin_0_half u : 0 <= u < PI -> sin u = 0 -> u = 0.
Proof. intros B H. destruct (Req_dec u 0); [assumption|]. assert (0 < sin u) by (apply sin_gt_0; lra). lra. Qed.

Section S.
Context {X : External R} (HX : special_spec X).
Context (a p e x ur uth uph gam E L Q r1 r2 r3 r4 : R) (zp : option R) (beta a2s : R).
Context (F : orbit_facts a p e x ur uth uph gam E L Q r1 r2 r3 r4 zp beta a2s).
Local Notation psi := (psi_r r1 r2 r3 r4).
Local Notation m := (kr2 r1 r2 r3 r4).
Local Notation zm := (1 - x^2).
Local Notation phi := (psi_t a E zm beta).
Local Notation mt := (kt2 (a^2 * (1 - E^2)) zm beta).

Lemma psi_r_inj q q' : psi q = psi q' -> q = q'.
Proof.
  destruct F. intros H. pose proof PI_RGT_0. pose proof (K_pos _ _ _ _ of_kr).
  unfold psi_r in H. apply (f_equal (fun y => ellF y m)) in H. rewrite !(proj1 (amX_spec HX m _ of_kr)) in H.
  assert (K : ellK m / PI * (q - q') = 0) by lra. apply Rmult_integral in K as [K|K]; [|lra].
  assert (0 < ellK m / PI) by now apply Rdiv_lt_0_compat. lra.
Qed.
Lemma psi_t_inj q q' : phi q = phi q' -> q = q'.
Proof.
  destruct F. intros H. pose proof PI_RGT_0. pose proof (Kt_pos _ _ _ _ of_z of_kt) as Kp.
  unfold psi_t in H. apply (f_equal (fun y => ellF y mt)) in H. rewrite !(proj1 (amX_spec HX mt _ of_kt)) in H.
  set (KK := ellK mt) in *.
  assert (K : 2 * KK / PI * (q - q') = 0) by lra. apply Rmult_integral in K as [K|K]; [|lra].
  assert (0 < 2 * KK / PI) by (apply Rdiv_lt_0_compat; lra). lra.
Qed.
Lemma psi_r_turn q : 0 <= q < 2 * PI -> 0 <= psi q < PI.
Proof.
  intros B. pose proof (psi_r_le HX _ _ _ _ _ _ _ _ _ _ _ _ _ _ _ _ _ _ F 0 q (proj1 B)) as P1.
  pose proof (psi_r_le HX _ _ _ _ _ _ _ _ _ _ _ _ _ _ _ _ _ _ F q (2 * PI) (Rlt_le _ _ (proj2 B))) as P2.
  pose proof (of_kr _ _ _ _ _ _ _ _ _ _ _ _ _ _ _ _ _ _ F) as Hm.
  rewrite (psi_r_0 HX) in P1 by assumption.
  assert (P3 : psi (2 * PI) = PI).
  { replace (2 * PI) with (0 + 1 * (2 * PI)) by ring. rewrite (psi_r_shift HX _ _ _ _ Hm 0 1), (psi_r_0 HX) by assumption. ring. }
  rewrite P3 in P2. split; [assumption|]. destruct (Req_dec (psi q) PI) as [K|K]; [|lra].
  rewrite <- P3 in K. apply psi_r_inj in K. lra.
Qed.
Lemma psi_t_turn q : 0 <= q < 2 * PI -> PI / 2 <= phi q < PI / 2 + 2 * PI.
Proof.
  intros B. pose proof (psi_t_le HX _ _ _ _ _ _ _ _ _ _ _ _ _ _ _ _ _ _ F 0 q (proj1 B)) as P1.
  pose proof (psi_t_le HX _ _ _ _ _ _ _ _ _ _ _ _ _ _ _ _ _ _ F q (2 * PI) (Rlt_le _ _ (proj2 B))) as P2.
  pose proof (of_kt _ _ _ _ _ _ _ _ _ _ _ _ _ _ _ _ _ _ F) as Hm.
  rewrite (psi_t_0 HX) in P1 by assumption.
  assert (P3 : phi (2 * PI) = PI / 2 + 2 * PI).
  { replace (2 * PI) with (0 + 2 * PI) at 1 by ring. rewrite (psi_t_shift HX _ _ _ _ Hm 0 2), (psi_t_0 HX) by assumption. reflexivity. }
  rewrite P3 in P2. split; [assumption|]. destruct (Req_dec (phi q) (PI / 2 + 2 * PI)) as [K|K]; [|lra].
  rewrite <- P3 in K. apply psi_t_inj in K. lra.
Qed.

Lemma rho_inj q q' : r1 <> r2 -> rho r1 r2 r3 psi q = rho r1 r2 r3 psi q' -> sin (psi q) ^ 2 = sin (psi q') ^ 2.
Proof.
  intros N H. destruct F. unfold rho in H.
  destruct (rad_nz _ _ _ _ _ of_s of_ord) as (N1 & N2 & N3 & N4).
  pose proof (sn2_bound psi q) as B. pose proof (sn2_bound psi q') as B'.
  rewrite !(rx_alt (1 - E^2) _ _ _ r4 of_s of_ord) in H by assumption.
  pose proof (hden (hr r1 r2 r3) _ (hr_lt1 (1 - E^2) _ _ _ _ of_s of_ord) B) as D.
  pose proof (hden (hr r1 r2 r3) _ (hr_lt1 (1 - E^2) _ _ _ _ of_s of_ord) B') as D'.
  assert (HN : hr r1 r2 r3 <> 0).
  { unfold hr. intros K. apply Rmult_integral in K as [K|K]; [lra|]. pose proof (Rinv_neq_0_compat _ N1). contradiction. }
  unfold sn2 in *. set (u := sin (psi q) ^ 2) in *. set (v := sin (psi q') ^ 2) in *. set (h := hr r1 r2 r3) in *. clearbody u v h.
  assert (K : (r2 - r3) / (1 - h * u) = (r2 - r3) / (1 - h * v)) by lra.
  assert (K2 : (r2 - r3) * (h * (u - v)) = 0).
  { apply (f_equal (fun y => y * (1 - h * u) * (1 - h * v))) in K. field_simplify in K; try lra. }
  apply Rmult_integral in K2 as [K2|K2]; [lra|]. apply Rmult_integral in K2 as [K2|K2]; lra.
Qed.

Lemma radial_phase_unique q r0 dr : r1 <> r2 -> 0 <= q < 2 * PI -> fr r1 r2 r3 r4 q = r0 -> r3 < r2 ->
  (Rabs (r0 - r2) < tol -> r0 = r2) -> (Rabs (r0 - r1) < tol -> r0 = r1) ->
  (sin q < 0 -> dr <= 0) -> (0 <= sin q -> 0 <= dr) -> (r2 < r0 < r1 -> dr <> 0) ->
  q_r r0 dr r1 r2 r3 r4 = q.
Proof.
  intros N B H H32 S1 S2 D1 D2 D3. pose proof PI_RGT_0 as PP. pose proof (psi_r_turn q B) as T.
  pose proof (of_kr _ _ _ _ _ _ _ _ _ _ _ _ _ _ _ _ _ _ F) as Hm.
  pose proof (of_s _ _ _ _ _ _ _ _ _ _ _ _ _ _ _ _ _ _ F) as Hs. pose proof (of_ord _ _ _ _ _ _ _ _ _ _ _ _ _ _ _ _ _ _ F) as Ho.
  assert (SP : 0 <= sin (psi q)) by (apply sin_ge_0; lra).
  assert (BR : r2 <= r0 <= r1).
  { rewrite <- H. unfold fr, rho. apply (rx_bounds (1 - E^2) _ _ _ r4 Hs Ho); [apply F | apply sn2_bound]. }
  unfold q_r. destruct (Rlt_dec (Rabs (r0 - r2)) tol) as [A|A].
  - specialize (S1 A). rewrite S1 in H. symmetry. apply psi_r_inj. rewrite (psi_r_0 HX) by assumption.
    pose proof (rho_inj q 0 N) as K. rewrite (rho_0 HX E _ _ _ _ Hs Hm Ho) in K. specialize (K H).
    rewrite (psi_r_0 HX), sin_0 in K by assumption.
    apply sin_0_half; [assumption|]. nra.
  - destruct (Rlt_dec (Rabs (r0 - r1)) tol) as [A'|A'].
    + specialize (S2 A'). rewrite S2 in H. symmetry. apply psi_r_inj. rewrite (psi_r_PI HX) by assumption.
      pose proof (rho_inj q PI N) as K. rewrite (rho_PI HX E _ _ _ _ Hs Hm Ho) in K. specialize (K H).
      rewrite (psi_r_PI HX), sin_PI2 in K by assumption.
      pose proof (sin2_cos2 (psi q)) as SC. unfold Rsqr in SC.
      assert (C0 : cos (psi q) = 0) by nra. rewrite <- (acos_cos (psi q)) by lra. rewrite C0. apply acos_0.
    + pose proof tol_pos.
      assert (BS : r2 < r0 < r1).
      { assert (r0 <> r2) by (intros ->; rewrite Rminus_diag_eq, Rabs_R0 in A by reflexivity; lra).
        assert (r0 <> r1) by (intros ->; rewrite Rminus_diag_eq, Rabs_R0 in A' by reflexivity; lra). lra. }
      destruct BS as [BS1 BS2]. specialize (D3 (conj BS1 BS2)).
      pose proof (phi0_bound r1 r2 r3 r0 Ho BS1 BS2) as PB.
      pose proof (sqrt_y2 r1 r2 r3 r0 Ho BS1 BS2) as YB.
      pose proof (psi_q0 HX r1 r2 r3 r4 r0 Hm) as PQ.
      pose proof (psi_q0' HX r1 r2 r3 r4 r0 Hm) as PQ'.
      pose proof (rho_inj q (q0 r1 r2 r3 r4 r0) N) as K.
      rewrite (rho_q0 HX) in K by assumption. specialize (K H). rewrite PQ in K.
      assert (SP0 : 0 < sin (phi0 r1 r2 r3 r0)) by (apply sin_gt_0; lra).
      assert (K1 : sin (psi q) = sin (phi0 r1 r2 r3 r0)) by nra.
      destruct (half_turn q B) as [H1 H2].
      destruct (Rlt_dec 0 dr) as [P|P].
      * assert (q <= PI) as QP. { apply H1. destruct (Rlt_le_dec (sin q) 0) as [S|S]; [specialize (D1 S); lra | lra]. }
        pose proof (psi_r_le HX _ _ _ _ _ _ _ _ _ _ _ _ _ _ _ _ _ _ F q PI QP) as P1. rewrite (psi_r_PI HX) in P1 by assumption.
        apply psi_r_inj. rewrite PQ. rewrite <- (asin_sin (phi0 r1 r2 r3 r0)), <- K1 by lra. apply asin_sin. lra.
      * assert (PI <= q) as QP. { destruct (Rlt_le_dec (sin q) 0) as [S|S]; [specialize (H2 S); lra | specialize (D2 S); lra]. }
        pose proof (psi_r_le HX _ _ _ _ _ _ _ _ _ _ _ _ _ _ _ _ _ _ F PI q QP) as P1. rewrite (psi_r_PI HX) in P1 by assumption.
        apply psi_r_inj. rewrite PQ'. rewrite <- (asin_sin (phi0 r1 r2 r3 r0)), <- K1 by lra.
        rewrite <- (sin_PI_x (psi q)). rewrite asin_sin by lra. ring.
Qed.

Lemma polar_phase_unique q th0 dth : zm <> 0 -> 0 <= q < 2 * PI -> fth a x E beta q = th0 -> 0 < th0 < PI ->
  (Rabs (th0 - acos (sqrt zm)) < tol -> th0 = acos (sqrt zm)) ->
  (Rabs (th0 - (PI - acos (sqrt zm))) < tol -> th0 = PI - acos (sqrt zm)) ->
  (sin q < 0 -> dth <= 0) -> (0 <= sin q -> 0 <= dth) -> (cos th0 ^ 2 < zm -> dth <> 0) ->
  q_th a x E th0 dth beta = q.
Proof.
  intros N B H Ht S1 S2 D1 D2 D3. pose proof PI_RGT_0 as PP. pose proof (psi_t_turn q B) as T.
  pose proof (of_kt _ _ _ _ _ _ _ _ _ _ _ _ _ _ _ _ _ _ F) as Hm.
  pose proof (of_z _ _ _ _ _ _ _ _ _ _ _ _ _ _ _ _ _ _ F) as Hz.
  assert (SZ : 0 < sqrt zm) by (apply sqrt_lt_R0; lra). pose proof (sqrt_zm _ Hz) as SZ1.
  assert (C : sqrt zm * sin (phi q) = cos th0).
  { rewrite <- H. unfold fth. now rewrite (cos_th zm Hz). }
  unfold q_th. destruct (Rlt_dec (Rabs (th0 - acos (sqrt zm))) tol) as [A|A].
  - specialize (S1 A). rewrite S1, cos_acos in C by lra. assert (S : sin (phi q) = 1) by nra.
    symmetry. apply psi_t_inj. rewrite (psi_t_0 HX) by assumption.
    assert (phi q - PI / 2 = 0); [|lra]. apply cos_1_small; [lra|]. rewrite cos_minus, cos_PI2, sin_PI2. lra.
  - destruct (Rlt_dec (Rabs (th0 - (PI - acos (sqrt zm)))) tol) as [A'|A'].
    + specialize (S2 A'). rewrite S2 in C. rewrite Rtrigo_facts.cos_pi_minus, cos_acos in C by lra.
      assert (S : sin (phi q) = -1) by nra.
      symmetry. apply psi_t_inj. rewrite (psi_t_PI HX) by assumption.
      assert (phi q - 3 * (PI / 2) = 0); [|lra]. apply cos_1_small; [lra|]. rewrite cos_minus, cos_3PI2, sin_3PI2. lra.
    + pose proof tol_pos.
      assert (S11 : -1 < sin (phi q) < 1).
      { pose proof (SIN_bound (phi q)) as SB.
        assert (sin (phi q) <> 1).
        { intros K. rewrite K, Rmult_1_r in C. assert (th0 = acos (sqrt zm)) by (rewrite C; symmetry; apply acos_cos; lra).
          rewrite H1, Rminus_diag_eq, Rabs_R0 in A by reflexivity. lra. }
        assert (sin (phi q) <> -1).
        { intros K. rewrite K in C. replace (sqrt zm * -1) with (- sqrt zm) in C by ring.
          assert (th0 = PI - acos (sqrt zm)). { rewrite <- acos_opp, C. symmetry. apply acos_cos. lra. }
          rewrite H2, Rminus_diag_eq, Rabs_R0 in A' by reflexivity. lra. }
        lra. }
      assert (CZ : cos th0 ^ 2 < zm).
      { rewrite <- C. replace ((sqrt zm * sin (phi q))^2) with (sqrt zm ^ 2 * sin (phi q) ^ 2) by ring.
        rewrite pow2_sqrt by lra. assert (sin (phi q) ^ 2 < 1) by (clear - S11; nra). nra. }
      specialize (D3 CZ).
      assert (PH : phit zm th0 = asin (sin (phi q))).
      { unfold phit, yt. f_equal. rewrite <- C. field. lra. }
      destruct (half_turn q B) as [H1 H2].
      destruct (Rlt_dec 0 dth) as [P|P].
      * assert (q <= PI) as QP. { apply H1. destruct (Rlt_le_dec (sin q) 0) as [S|S]; [specialize (D1 S); lra | lra]. }
        pose proof (psi_t_le HX _ _ _ _ _ _ _ _ _ _ _ _ _ _ _ _ _ _ F q PI QP) as P1. rewrite (psi_t_PI HX) in P1 by assumption.
        assert (PE : phit zm th0 = PI - phi q). { rewrite PH, <- sin_PI_x. apply asin_sin. lra. }
        unfold st0. rewrite PE.
        replace (PI - phi q) with (- phi q + 1 * PI) by ring. rewrite (ellF_shift mt (- phi q) 1) by lra. rewrite ellF_odd by lra.
        unfold psi_t. rewrite (proj1 (amX_spec HX mt _ Hm)). assert (0 < ellK mt) by (apply ellK_pos; lra). field. lra.
      * assert (PI <= q) as QP. { destruct (Rlt_le_dec (sin q) 0) as [S|S]; [specialize (H2 S); lra | specialize (D2 S); lra]. }
        pose proof (psi_t_le HX _ _ _ _ _ _ _ _ _ _ _ _ _ _ _ _ _ _ F PI q QP) as P1. rewrite (psi_t_PI HX) in P1 by assumption.
        assert (PE : phit zm th0 = phi q - 2 * PI).
        { rewrite PH. replace (sin (phi q)) with (sin (phi q - 2 * PI)). apply asin_sin; lra.
          rewrite <- (sin_red (phi q - 2 * PI) 1). f_equal. ring. }
        unfold st0. rewrite PE.
        replace (phi q - 2 * PI) with (phi q + -2 * PI) by ring. rewrite (ellF_shift mt (phi q) (-2)) by lra.
        unfold psi_t. rewrite (proj1 (amX_spec HX mt _ Hm)). assert (0 < ellK mt) by (apply ellK_pos; lra). field. lra.
Qed.

(** circular and equatorial orbits: the oscillating parts are constant *)
Lemma radial_constant : r1 = r2 -> forall q, fr r1 r2 r3 r4 q = r2 /\ ftr a E L r1 r2 r3 r4 q = ftr a E L r1 r2 r3 r4 0 /\
  fpr a E L r1 r2 r3 r4 q = fpr a E L r1 r2 r3 r4 0.
Proof.
  intros H. 
  assert (FR : forall q, fr r1 r2 r3 r4 q = r2).
  { intros q. pose proof (fr_bounds _ _ _ _ _ _ _ _ _ _ _ _ _ _ _ _ _ _ F q) as B. destruct F. rewrite <- of_r1, <- of_r2 in B. lra. }
  intros q. refine (conj (FR q) (conj _ _)).
  - revert q. apply const_of_derive0 with ((Vt a E L r2 - Gt a E L r1 r2 r3 r4) / ur);
      [|exact (ftr_periodic HX _ _ _ _ _ _ _ _ _ _ _ _ _ _ _ _ _ _ F)].
    intros q. pose proof (FR q) as Fq. destruct F.
    pose proof (tr_derive HX a E L r1 r2 r3 r4 of_s of_kr of_ord of_a of_p2 of_m2 of_p3 of_m3 q) as D.
    rewrite <- of_ur in D. unfold fr in Fq. rewrite Fq in D. exact D.
  - revert q. apply const_of_derive0 with ((Vph a E L r2 - Gph a E L r1 r2 r3 r4) / ur);
      [|exact (fpr_periodic HX _ _ _ _ _ _ _ _ _ _ _ _ _ _ _ _ _ _ F)].
    intros q. pose proof (FR q) as Fq. destruct F.
    pose proof (phr_derive HX a E L r1 r2 r3 r4 of_s of_kr of_ord of_a of_p2 of_m2 of_p3 of_m3 q) as D.
    rewrite <- of_ur in D. unfold fr in Fq. rewrite Fq in D. exact D.
Qed.
Lemma polar_constant : zm = 0 -> forall q, fth a x E beta q = PI / 2 /\ ftt a x E L beta a2s q = ftt a x E L beta a2s 0 /\
  fpt a x E L beta q = fpt a x E L beta 0.
Proof.
  intros H.
  assert (FR : forall q, fth a x E beta q = PI / 2).
  { intros q. pose proof (fth_bounds _ _ _ _ _ _ _ _ _ _ _ _ _ _ _ _ _ _ F q) as B. rewrite H, sqrt_0, acos_0 in B. lra. }
  intros q. refine (conj (FR q) (conj _ _)).
  - revert q. apply const_of_derive0 with ((a ^ 2 * E * cos (PI / 2) ^ 2 - Gth a E L zm beta a2s) / uth);
      [|exact (ftt_periodic HX _ _ _ _ _ _ _ _ _ _ _ _ _ _ _ _ _ _ F)].
    intros q. pose proof (FR q) as Fq. destruct F.
    pose proof (tth_derive HX a E L zm beta a2s of_z of_L of_b of_kt of_HA q) as D.
    rewrite <- of_uth in D. unfold fth in Fq. rewrite Fq in D. exact D.
  - revert q. apply const_of_derive0 with ((L / sin (PI / 2) ^ 2 - 
       L * ellPi zm (PI / 2) mt / ellK mt) / uth);
      [|exact (fpt_periodic HX _ _ _ _ _ _ _ _ _ _ _ _ _ _ _ _ _ _ F)].
    intros q. pose proof (FR q) as Fq. destruct F.
    pose proof (pth_derive HX a E L zm beta of_z of_b of_kt q) as D.
    rewrite <- of_uth in D. unfold fth in Fq. rewrite Fq in D. exact D.
Qed.
End S.
