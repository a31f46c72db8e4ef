(** * C93: far from the hole the orbits become Keplerian *)
From Coq Require Import Reals Lra Lia ZArith String List ClassicalEpsilon.
From Coquelicot Require Import Coquelicot.
From Verif Require Import Num Outcome External Checked ExternalSpec.
From Verif Require Import Model_Constants Model_Frequencies Model_Stable.
From Verif Require Import Spec SpecElliptic Elliptic P_Validation Props_Validation P_Bounds P_Constants Props_Constants.
From Verif Require Import P_Radial P_Polar P_Traj P_Traj2 P_Traj3 P_Traj4 Props_Trajectory Props_Trajectory2.
From Verif Require Import Props_Continuity Props_FreqContinuity Props_Frequencies Props_Restart Props_Units P_Kepler.
Open Scope R_scope.

Lemma squeeze0 (f g : nat -> R) : (forall n, 0 <= f n <= g n) -> is_lim_seq g 0 -> is_lim_seq f 0.
Proof. intros H G. apply (is_lim_seq_le_le (fun _ => 0) f g 0 H); [apply is_lim_seq_const | exact G]. Qed.

(** the limits of wide orbits, in terms of the bounds of P_Kepler *)
Section Wide.
Context {X : External R}.
Context (an pn en xn urn uthn uphn gamn En Ln r3n r4n : nat -> R) (e : R).
Context (He : 0 <= e < 1) (Lp : is_lim_seq pn p_infty) (Le : is_lim_seq en e) (P32 : forall n, 32 <= pn n).
Context (W : forall n, wide_facts (an n) (pn n) (en n) (xn n) (urn n) (uthn n) (uphn n) (gamn n) (En n) (Ln n) (r3n n) (r4n n)).

Definition ep (n : nat) := / pn n.
Definition u1 (n : nat) := 1 / (1 - en n).
Definition u2 (n : nat) := 1 / (1 + en n).
Definition v3 (n : nat) := r3n n * ep n.
Definition v4 (n : nat) := r4n n * ep n.
Definition gp (n : nat) := 2 / (u1 n + u2 n + v3 n + v4 n).
Definition gg (n : nat) := gp n * ep n.
Definition ww (n : nat) := (an n ^ 2 * (1 - xn n ^ 2)) * ep n.
Definition bb (n : nat) := gp n * (an n ^ 2 * ep n).
Definition km (n : nat) := (u1 n - u2 n) * (v3 n - v4 n) / ((u1 n - v3 n) * (u2 n - v4 n)).
Definition hh (n : nat) := (u1 n - u2 n) / (u1 n - v3 n).
Definition bt (n : nat) := gp n * (u1 n * u2 n + u1 n * v3 n + u1 n * v4 n + u2 n * v3 n + u2 n * v4 n + v3 n * v4 n - ww n * ep n).
Definition mt (n : nat) := ww n * gg n / bt n.
Definition av (n : nat) := ((v3 n * (u1 n + u2 n + v3 n) - u1 n * u2 n) * ellK (km n) + (u2 n - v3 n) * (u1 n + u2 n + v3 n + v4 n) * ellPi (hh n) (PI / 2) (km n)
  + (u1 n - v3 n) * (u2 n - v4 n) * ellE (PI / 2) (km n)) / (2 * ellK (km n)).

Lemma ep_pos n : 0 < ep n. Proof. apply Rinv_0_lt_compat. pose proof (P32 n). lra. Qed.
Lemma ep_p n : ep n * pn n = 1. Proof. unfold ep. pose proof (P32 n). field. lra. Qed.
Lemma l_ep : is_lim_seq ep 0.
Proof. exact (is_lim_seq_inv pn p_infty Lp ltac:(discriminate)). Qed.
Lemma l_scaled (f : nat -> R) c : (forall n, 0 <= f n <= c) -> is_lim_seq (fun n => f n * ep n) 0.
Proof.
  intros B. apply (squeeze0 _ (fun n => c * ep n)).
  - intros n. pose proof (ep_pos n). pose proof (B n). split; [apply Rmult_le_pos; lra | apply Rmult_le_compat_r; lra].
  - replace 0 with (c * 0) at 1 by ring. pose proof l_ep. lim.
Qed.
Lemma l_v3 : is_lim_seq v3 0.
Proof. apply (l_scaled r3n 6). intros n. destruct (W n) as (K & _). lra. Qed.
Lemma l_v4 : is_lim_seq v4 0.
Proof. apply (l_scaled r4n 6). intros n. destruct (W n) as (K & _). lra. Qed.
Lemma a2_bound n : 0 <= an n ^ 2 <= 1. Proof. destruct (W n) as (K & _). nra. Qed.
Lemma l_ww : is_lim_seq ww 0.
Proof. apply (l_scaled (fun n => an n ^ 2 * (1 - xn n ^ 2)) 1). intros n. pose proof (a2_bound n). destruct (W n) as (K & _). pose proof (pow2_ge_0 (xn n)). nra. Qed.
Lemma l_a2 : is_lim_seq (fun n => an n ^ 2 * ep n) 0.
Proof. apply (l_scaled (fun n => an n ^ 2) 1), a2_bound. Qed.
Lemma l_u1 : is_lim_seq u1 (1 / (1 - e)).
Proof. unfold u1. assert (1 - e <> 0) by lra. limd. Qed.
Lemma l_u2 : is_lim_seq u2 (1 / (1 + e)).
Proof. unfold u2. assert (1 + e <> 0) by lra. limd. Qed.
Local Notation U1 := (1 / (1 - e)).
Local Notation U2 := (1 / (1 + e)).
Lemma sums : U1 + U2 + 0 + 0 <> 0 /\ 0 < U1 /\ 0 < U2 /\ U2 <= U1.
Proof.
  assert (0 < U1) by (apply Rdiv_lt_0_compat; lra). assert (0 < U2) by (apply Rdiv_lt_0_compat; lra).
  assert (U2 <= U1). { unfold Rdiv. rewrite !Rmult_1_l. apply Rinv_le_contravar; lra. }
  repeat split; lra.
Qed.
Lemma l_gp : is_lim_seq gp (1 - e ^ 2).
Proof.
  pose proof l_u1. pose proof l_u2. pose proof l_v3. pose proof l_v4. destruct sums as (S & _).
  replace (1 - e^2) with (2 / (U1 + U2 + 0 + 0)) by (field; repeat split; lra). unfold gp. limd.
Qed.
Lemma l_gg : is_lim_seq gg 0.
Proof. pose proof l_gp. pose proof l_ep. replace 0 with ((1 - e^2) * 0) by ring. unfold gg. lim. Qed.
Lemma l_bb : is_lim_seq bb 0.
Proof. pose proof l_gp. pose proof l_a2 as L2. replace 0 with ((1 - e^2) * 0) by ring. unfold bb. refine (is_lim_seq_mult' gp _ _ _ _ L2). assumption. Qed.
Lemma l_km : is_lim_seq km 0.
Proof.
  pose proof l_u1. pose proof l_u2. pose proof l_v3. pose proof l_v4. destruct sums as (S & P1 & P2 & _).
  assert (N : (U1 - 0) * (U2 - 0) <> 0) by (apply Rgt_not_eq, Rmult_lt_0_compat; lra).
  replace 0 with ((U1 - U2) * (0 - 0) / ((U1 - 0) * (U2 - 0))) at 1 by (field; split; lra). unfold km. limd.
Qed.
Lemma l_hh : is_lim_seq hh (2 * e / (1 + e)).
Proof.
  pose proof l_u1. pose proof l_u2. pose proof l_v3. destruct sums as (S & P1 & P2 & _).
  assert (N : U1 - 0 <> 0) by lra.
  replace (2 * e / (1 + e)) with ((U1 - U2) / (U1 - 0)) by (field; repeat split; lra). unfold hh. limd.
Qed.
Lemma l_bt : is_lim_seq bt 1.
Proof.
  pose proof l_u1. pose proof l_u2. pose proof l_v3. pose proof l_v4. pose proof l_gp. pose proof l_ww. pose proof l_ep.
  replace 1 with ((1 - e^2) * (U1 * U2 + U1 * 0 + U1 * 0 + U2 * 0 + U2 * 0 + 0 * 0 - 0 * 0)) by (field; split; lra). unfold bt. lim.
Qed.
Lemma l_mt : is_lim_seq mt 0.
Proof. pose proof l_ww. pose proof l_gg. pose proof l_bt. assert (1 <> 0) by lra. replace 0 with (0 * 0 / 1) by field. unfold mt. limd. Qed.
Lemma l_K : is_lim_seq (fun n => ellK (km n)) (PI / 2).
Proof. rewrite <- (proj1 ellK_E_0). apply lim_ellK; [apply l_km | lra]. Qed.
Lemma l_Kt : is_lim_seq (fun n => ellK (mt n)) (PI / 2).
Proof. rewrite <- (proj1 ellK_E_0). apply lim_ellK; [apply l_mt | lra]. Qed.
Lemma l_E : is_lim_seq (fun n => ellE (PI / 2) (km n)) (PI / 2).
Proof. rewrite <- (proj2 ellK_E_0) at 1. apply lim_ellE; [apply l_km | lra]. Qed.
Lemma l_Pi : is_lim_seq (fun n => ellPi (hh n) (PI / 2) (km n)) (PI / 2 / sqrt (1 - 2 * e / (1 + e))).
Proof.
  assert (2 * e / (1 + e) < 1) by (apply Rlt_div_l; lra).
  rewrite <- ellPi_m0 by assumption. apply lim_ellPi; [apply l_hh | apply l_km | assumption | lra].
Qed.
Lemma kepler_value : (PI / 2 / sqrt (1 - 2 * e / (1 + e))) * (U2 * (U1 + U2)) / PI = 1 / ((1 - e^2) * sqrt (1 - e^2)).
Proof.
  pose proof PI_RGT_0. assert (Q : 0 < 1 - e^2) by nra. pose proof (sqrt_lt_R0 _ Q) as SP. assert (SS : sqrt (1 - e^2) ^2 = 1 - e^2) by (apply pow2_sqrt; lra).
  replace (1 - 2 * e / (1 + e)) with ((1 - e^2) / (1 + e)^2) by (field; lra).
  rewrite sqrt_div_alt by (apply pow_lt; lra). rewrite sqrt_pow2 by lra. set (s := sqrt (1 - e^2)) in *.
  replace (U2 * (U1 + U2)) with (2 / ((1 + e) * (1 - e^2))) by (field; repeat split; nra).
  field. repeat split; nra.
Qed.
Lemma l_av : is_lim_seq av (1 / ((1 - e^2) * sqrt (1 - e^2))).
Proof.
  pose proof PI_RGT_0. pose proof l_u1. pose proof l_u2. pose proof l_v3. pose proof l_v4. pose proof l_K. pose proof l_E. pose proof l_Pi.
  set (pi0 := PI / 2 / sqrt (1 - 2 * e / (1 + e))) in *.
  replace (1 / ((1 - e^2) * sqrt (1 - e^2))) with (((0 * (U1 + U2 + 0) - U1 * U2) * (PI / 2) + (U2 - 0) * (U1 + U2 + 0 + 0) * pi0 + (U1 - 0) * (U2 - 0) * (PI / 2)) / (2 * (PI / 2))).
  - assert (2 * (PI / 2) <> 0) by lra. unfold av. limd.
  - rewrite <- kepler_value. fold pi0. clearbody pi0. field. repeat split; lra.
Qed.

(** the exact rescaling *)
Lemma en_b n : 0 <= en n < 1. Proof. destruct (W n) as (K & _). lra. Qed.
Lemma r1_u n : pn n / (1 - en n) = u1 n * pn n. Proof. pose proof (en_b n). unfold u1. field. lra. Qed.
Lemma r2_u n : pn n / (1 + en n) = u2 n * pn n. Proof. pose proof (en_b n). unfold u2. field. lra. Qed.
Lemma r3_v n : r3n n = v3 n * pn n. Proof. unfold v3. rewrite Rmult_assoc, ep_p. ring. Qed.
Lemma r4_v n : r4n n = v4 n * pn n. Proof. unfold v4. rewrite Rmult_assoc, ep_p. ring. Qed.
Lemma uv n : 0 <= v4 n /\ 0 < v3 n /\ v3 n + v4 n < u2 n /\ u2 n <= u1 n /\ 1/2 <= u2 n /\ 0 < u1 n.
Proof.
  pose proof (en_b n) as Eb. destruct (W n) as (K & _). pose proof (ep_pos n) as E0. pose proof (P32 n).
  assert (0 <= v4 n) by (unfold v4; apply Rmult_le_pos; lra). assert (0 < v3 n) by (unfold v3; apply Rmult_lt_0_compat; lra).
  assert (B : 1/2 <= u2 n). { unfold u2, Rdiv. rewrite !Rmult_1_l. apply Rinv_le_contravar; lra. }
  assert (u2 n <= u1 n). { unfold u1, u2, Rdiv. rewrite !Rmult_1_l. apply Rinv_le_contravar; lra. }
  assert (v3 n + v4 n <= 6 * ep n) by (unfold v3, v4; rewrite <- Rmult_plus_distr_r; apply Rmult_le_compat_r; lra).
  assert (ep n <= / 32) by (unfold ep; apply Rinv_le_contravar; lra).
  repeat split; lra.
Qed.
Lemma g_gp n : (1 - En n ^ 2) = gg n.
Proof.
  destruct (W n) as (_ & V & _). rewrite r1_u, r2_u in V. rewrite (r3_v n), (r4_v n) in V. pose proof (uv n) as U. unfold gg, gp, ep. pose proof (P32 n).
  apply (Rmult_eq_reg_r ((u1 n + u2 n + v3 n + v4 n) * pn n)); [|apply Rgt_not_eq, Rmult_lt_0_compat; lra].
  transitivity 2; [rewrite <- V; ring | field; split; lra].
Qed.
Lemma gp_pos n : 0 < gp n. Proof. pose proof (uv n). unfold gp. apply Rdiv_lt_0_compat; lra. Qed.
Lemma kr_km n : kr2 (pn n / (1 - en n)) (pn n / (1 + en n)) (r3n n) (r4n n) = km n.
Proof. rewrite r1_u, r2_u, r3_v, r4_v. pose proof (uv n). pose proof (P32 n). unfold kr2, km. rewrite <- !Rmult_minus_distr_r. field. repeat split; lra. Qed.
Lemma hr_hh n : hr (pn n / (1 - en n)) (pn n / (1 + en n)) (r3n n) = hh n.
Proof. rewrite r1_u, r2_u, r3_v. pose proof (uv n). pose proof (P32 n). unfold hr, hh. rewrite <- !Rmult_minus_distr_r. field. repeat split; lra. Qed.
Lemma beta_bt n : beta_of (an n) (En n) (xn n) (pn n / (1 - en n)) (pn n / (1 + en n)) (r3n n) (r4n n) = bt n * pn n.
Proof. unfold beta_of. rewrite r1_u, r2_u, g_gp. rewrite (r3_v n), (r4_v n). unfold bt, ww, gg. set (w := an n ^2 * (1 - xn n ^2)).
  pose proof (ep_p n) as EP. replace (ep n) with (/ pn n) by reflexivity. pose proof (P32 n). field. lra. Qed.
Lemma avg_av n : sq_avg (pn n / (1 - en n)) (pn n / (1 + en n)) (r3n n) (r4n n) = av n * pn n ^ 2.
Proof.
  unfold sq_avg. rewrite kr_km, hr_hh, r1_u, r2_u. rewrite (r3_v n), (r4_v n). unfold av, Rdiv. ring.
Qed.
Lemma sp_pos n : 0 < sqrt (pn n). Proof. apply sqrt_lt_R0. pose proof (P32 n). lra. Qed.
Lemma sp_sq n : sqrt (pn n) * sqrt (pn n) = pn n. Proof. apply sqrt_sqrt. pose proof (P32 n). lra. Qed.

Lemma lim_ur : is_lim_seq (fun n => urn n / sqrt (pn n)) 1.
Proof.
  pose proof PI_RGT_0 as Pp.
  apply (is_lim_seq_ext (fun n => PI * sqrt (gp n * (u1 n - v3 n) * (u2 n - v4 n)) / (2 * ellK (km n)))).
  - intros n. destruct (W n) as (_ & _ & EU & _). rewrite EU, kr_km, g_gp, r1_u, r2_u. rewrite (r3_v n), (r4_v n).
    pose proof (P32 n). pose proof (gp_pos n). pose proof (uv n). pose proof (sp_pos n) as SP.
    replace (gg n * (u1 n * pn n - v3 n * pn n) * (u2 n * pn n - v4 n * pn n)) with (gp n * (u1 n - v3 n) * (u2 n - v4 n) * pn n) by (unfold gg; replace (ep n) with (/ pn n) by reflexivity; field; lra).
    rewrite (sqrt_mult_alt (gp n * (u1 n - v3 n) * (u2 n - v4 n)) (pn n)) by (apply Rmult_le_pos; [apply Rmult_le_pos|]; lra). unfold Rdiv. set (k := / (2 * ellK (km n))). field. lra.
  - pose proof l_u1. pose proof l_u2. pose proof l_v3. pose proof l_v4. pose proof l_gp. pose proof l_K.
    replace 1 with (PI * sqrt ((1 - e^2) * (U1 - 0) * (U2 - 0)) / (2 * (PI / 2))).
    + assert (2 * (PI / 2) <> 0) by lra. limd.
    + replace ((1 - e^2) * (U1 - 0) * (U2 - 0)) with 1 by (field; lra). rewrite sqrt_1. field. lra.
Qed.
Lemma lim_uth : is_lim_seq (fun n => uthn n / sqrt (pn n)) 1.
Proof.
  pose proof PI_RGT_0 as Pp.
  apply (is_lim_seq_ext (fun n => PI * sqrt (bt n) / (2 * ellK (mt n)))).
  - intros n. destruct (W n) as (_ & _ & _ & EU & LB & _). rewrite beta_bt in LB. rewrite EU, beta_bt, g_gp. pose proof (sp_pos n) as SP. pose proof (P32 n).
    assert (B0 : 0 <= bt n). { apply Rnot_lt_le. intros N. pose proof (pow2_ge_0 (Ln n)). nra. }
    replace (an n ^ 2 * gg n * (1 - xn n ^ 2) / (bt n * pn n)) with (mt n).
    + rewrite sqrt_mult_alt by assumption. unfold Rdiv. set (k := / (2 * ellK (mt n))). field. lra.
    + unfold mt, ww, Rdiv. rewrite Rinv_mult. unfold ep. ring.
  - pose proof l_bt. pose proof l_Kt.
    replace 1 with (PI * sqrt 1 / (2 * (PI / 2))) by (rewrite sqrt_1; field; lra). assert (2 * (PI / 2) <> 0) by lra. limd.
Qed.
Lemma L_bound n : 0 <= bt n /\ Rabs (Ln n) <= sqrt (bt n) * sqrt (pn n).
Proof.
  destruct (W n) as (_ & _ & _ & _ & LB & _). rewrite beta_bt in LB. pose proof (P32 n).
  assert (B0 : 0 <= bt n). { apply Rnot_lt_le. intros N. pose proof (pow2_ge_0 (Ln n)). nra. }
  split; [exact B0|]. rewrite <- sqrt_mult_alt by assumption. rewrite <- sqrt_Rsqr_abs. apply sqrt_le_1_alt. rewrite Rsqr_pow2. exact LB.
Qed.
Lemma l_se : is_lim_seq (fun n => / sqrt (pn n)) 0.
Proof.
  pose proof l_ep as K. apply (is_lim_seq_ext (fun n => sqrt (ep n))).
  - intros n. unfold ep. apply sqrt_inv.
  - rewrite <- sqrt_0. exact (lim_sqrt ep 0 K).
Qed.
Lemma lim_uph : is_lim_seq (fun n => Rabs (uphn n) / sqrt (pn n)) 1.
Proof.
  pose proof lim_uth as LT.
  assert (D : is_lim_seq (fun n => Rabs (Rabs (uphn n) - uthn n) / sqrt (pn n)) 0).
  { apply (squeeze0 _ (fun n => 3 * (ep n * / sqrt (pn n)) / u2 n + 2 * sqrt (bt n) * (ep n * ep n) / u2 n ^ 2 + bb n * ep n / (2 * sqrt (bt n - bb n * ep n)))).
    - intros n. pose proof (sp_pos n) as SP. pose proof (sp_sq n) as SS. pose proof (P32 n) as P3. pose proof (uv n) as U.
      split; [apply Rmult_le_pos; [apply Rabs_pos | left; now apply Rinv_0_lt_compat]|].
      destruct (W n) as (_ & _ & _ & _ & _ & BB & BP & _). rewrite beta_bt, g_gp in BB, BP. rewrite r2_u in BP.
      replace (an n ^2 * gg n) with (bb n) in BB, BP by (unfold bb, gg; ring).
      apply (Rle_div_l _ _ (sqrt (pn n))); [lra|]. eapply Rle_trans; [exact BP|].
      destruct (L_bound n) as (B0 & LB). pose proof (ep_pos n) as E0. pose proof (ep_p n) as EP.
      assert (X0 : 0 < bt n - bb n * ep n). { apply (Rmult_lt_reg_r (pn n)); [lra|]. replace ((bt n - bb n * ep n) * pn n) with (bt n * pn n - bb n * (ep n * pn n)) by ring. rewrite EP. lra. }
      replace (bt n * pn n - bb n) with ((bt n - bb n * ep n) * pn n) by (replace ((bt n - bb n * ep n) * pn n) with (bt n * pn n - bb n * (ep n * pn n)) by ring; rewrite EP; ring).
      rewrite sqrt_mult_alt by lra. pose proof (sqrt_lt_R0 _ X0) as SX. set (sx := sqrt (bt n - bb n * ep n)) in *.
      assert (EQ : ep n = / (sqrt (pn n) * sqrt (pn n))) by (rewrite SS; reflexivity).
      rewrite !Rmult_plus_distr_r. apply Rplus_le_compat; [apply Rplus_le_compat|].
      + right. rewrite EQ, <- SS at 1. field. split; lra.
      + unfold Rdiv. replace (2 * sqrt (bt n) * (ep n * ep n) * / u2 n ^ 2 * sqrt (pn n)) with (2 * (sqrt (bt n) * sqrt (pn n)) * / (u2 n * pn n)^2) by (unfold ep; field; split; lra).
        apply Rmult_le_compat_r; [left; apply Rinv_0_lt_compat, pow_lt, Rmult_lt_0_compat; lra | lra].
      + right. rewrite EQ. field. split; lra.
    - pose proof l_ep. pose proof l_se. pose proof l_u2. pose proof l_bt. pose proof l_bb. destruct sums as (_ & _ & P2 & _).
      assert (N1 : U2 <> 0) by lra. assert (N2 : U2 ^2 <> 0) by (apply pow_nonzero; lra).
      assert (N3 : 2 * sqrt (1 - 0 * 0) <> 0). { replace (1 - 0 * 0) with 1 by ring. rewrite sqrt_1. lra. }
      replace 0 with (3 * (0 * 0) / U2 + 2 * sqrt 1 * (0 * 0) / U2 ^ 2 + 0 * 0 / (2 * sqrt (1 - 0 * 0))) at 1 by (unfold Rdiv; ring). limd. }
  apply is_lim_seq_spec in D. apply is_lim_seq_spec in LT. apply is_lim_seq_spec. intros eps.
  destruct (D (pos_div_2 eps)) as (N1 & K1). destruct (LT (pos_div_2 eps)) as (N2 & K2). exists (N1 + N2)%nat. intros n Hn.
  specialize (K1 n ltac:(lia)). specialize (K2 n ltac:(lia)). destruct eps as [eps Ee]. cbn [pos pos_div_2] in *.
  pose proof (sp_pos n) as SP. rewrite Rminus_0_r in K1. unfold Rdiv in K1 at 1. rewrite Rabs_mult, Rabs_Rabsolu, <- Rabs_mult in K1.
  replace (Rabs (uphn n) / sqrt (pn n) - 1) with ((Rabs (uphn n) - uthn n) * / sqrt (pn n) + (uthn n / sqrt (pn n) - 1)) by (field; lra).
  eapply Rle_lt_trans; [apply Rabs_triang|]. lra.
Qed.
Lemma lim_En : is_lim_seq En 1.
Proof.
  apply (is_lim_seq_ext (fun n => sqrt (1 - gg n))).
  - intros n. rewrite <- g_gp. replace (1 - (1 - En n^2)) with (En n^2) by ring. destruct (W n) as (K & _). apply sqrt_pow2. lra.
  - pose proof l_gg. assert (Q : is_lim_seq (fun n => sqrt (1 - gg n)) (sqrt (1 - 0))) by lim. rewrite Rminus_0_r, sqrt_1 in Q. exact Q.
Qed.
Lemma lim_gam : is_lim_seq (fun n => gamn n / pn n ^ 2) (1 / ((1 - e^2) * sqrt (1 - e^2))).
Proof.
  pose proof l_av as LA. pose proof lim_En as LE.
  apply (is_lim_seq_le_le (fun n => En n * av n) _ (fun n => En n * av n + (ep n * ep n + 3 * (u1 n * ep n + ep n * ep n + sqrt (bt n) * (ep n * / sqrt (pn n)))))).
  - intros n. destruct (W n) as (K & _ & _ & _ & _ & _ & _ & G & _). rewrite avg_av, r1_u in G. pose proof (P32 n) as P3. assert (P0 : 0 < pn n ^2) by (apply pow_lt; lra).
    destruct (L_bound n) as (B0 & LB). pose proof (sp_pos n) as SP. pose proof (sp_sq n) as SS. pose proof (ep_p n) as EP.
    split; [apply (Rle_div_r _ _ (pn n ^2)); [exact P0|] | apply (Rle_div_l _ _ (pn n ^2)); [exact P0|]]; [lra|].
    eapply Rle_trans; [apply G|].
    replace ((En n * av n + (ep n * ep n + 3 * (u1 n * ep n + ep n * ep n + sqrt (bt n) * (ep n * / sqrt (pn n))))) * pn n ^ 2)
      with (En n * (av n * pn n ^2) + (ep n * pn n) * (ep n * pn n) + 3 * (u1 n * pn n * (ep n * pn n) + (ep n * pn n) * (ep n * pn n) + (ep n * pn n) * (sqrt (bt n) * (pn n * / sqrt (pn n))))) by ring.
    rewrite EP. replace (pn n * / sqrt (pn n)) with (sqrt (pn n)) by (rewrite <- SS at 2; field; lra). lra.
  - set (k := 1 / ((1 - e^2) * sqrt (1 - e^2))) in *. replace k with (1 * k) by ring. lim.
  - pose proof l_ep. pose proof l_se. pose proof l_bt. pose proof l_u1. set (k := 1 / ((1 - e^2) * sqrt (1 - e^2))) in *.
    replace k with (1 * k + (0 * 0 + 3 * (U1 * 0 + 0 * 0 + sqrt 1 * (0 * 0)))) by ring. lim.
Qed.
End Wide.

Section S.
Context {X : External R} (HX : special_spec X) (HR : root_spec X).

(** ** C93: the Kepler limit.  Take any sequence of orbits whose semilatus recta grow without bound and whose
    eccentricities converge to some e < 1; spins and inclinations may vary arbitrarily.  Then the three Mino frequencies
    all grow like sqrt p, the energy tends to the rest mass, the time factor grows like p^2 / (1 - e^2)^(3/2), and the
    fundamental frequencies all obey Kepler's third law Omega^2 A^3 = 1 with semi-major axis A = p / (1 - e^2)
    (M = 1). *)
Theorem C93_kepler_limit (an pn en xn urn uthn uphn gamn : nat -> R) (e : R) : 0 <= e < 1 ->
  is_lim_seq pn p_infty -> is_lim_seq en e -> (forall n, 0 <= an n) ->
  (forall n, mino_frequencies (Some (an n)) (Some (pn n)) (Some (en n)) (Some (xn n)) = Ret (Some (urn n), Some (uthn n), Some (uphn n), Some (gamn n))) ->
  is_lim_seq (fun n => urn n / sqrt (pn n)) 1 /\ is_lim_seq (fun n => uthn n / sqrt (pn n)) 1 /\
  is_lim_seq (fun n => Rabs (uphn n) / sqrt (pn n)) 1 /\
  is_lim_seq (fun n => gamn n / pn n ^ 2) (1 / ((1 - e^2) * sqrt (1 - e^2))).
Proof.
  intros He Lp Le Ha HF.
  assert (EV : exists N, forall n, 32 <= pn (n + N)%nat).
  { apply is_lim_seq_spec in Lp. destruct (Lp 32) as (N & K). exists N. intros n. specialize (K (n + N)%nat ltac:(lia)). lra. }
  destruct EV as (N & P32).
  assert (CH : forall n, { c : R * R * R * R | let '(E, L, r3, r4) := c in
    wide_facts (an (n + N)%nat) (pn (n + N)%nat) (en (n + N)%nat) (xn (n + N)%nat) (urn (n + N)%nat) (uthn (n + N)%nat) (uphn (n + N)%nat) (gamn (n + N)%nat) E L r3 r4 }).
  { intros n. apply constructive_indefinite_description.
    destruct (wide_orbit HX HR _ _ _ _ _ _ _ _ (Ha (n + N)%nat) (P32 n) (HF (n + N)%nat)) as (E & L & r3 & r4 & K). now exists (E, L, r3, r4). }
  set (c := fun n => proj1_sig (CH n)).
  assert (W : forall n, wide_facts (an (n + N)%nat) (pn (n + N)%nat) (en (n + N)%nat) (xn (n + N)%nat) (urn (n + N)%nat) (uthn (n + N)%nat) (uphn (n + N)%nat) (gamn (n + N)%nat)
    (fst (fst (fst (c n)))) (snd (fst (fst (c n)))) (snd (fst (c n))) (snd (c n))).
  { intros n. unfold c. destruct (CH n) as ((((E, L), r3), r4) & K). exact K. }
  apply (is_lim_seq_incr_n pn N) in Lp. apply (is_lim_seq_incr_n en N) in Le. cbv beta in *.
  pose proof (lim_ur (fun n => an (n + N)%nat) (fun n => pn (n + N)%nat) (fun n => en (n + N)%nat) (fun n => xn (n + N)%nat) (fun n => urn (n + N)%nat) (fun n => uthn (n + N)%nat) (fun n => uphn (n + N)%nat) (fun n => gamn (n + N)%nat) _ _ _ _ e He Lp Le P32 W) as T1.
  pose proof (lim_uth (fun n => an (n + N)%nat) (fun n => pn (n + N)%nat) (fun n => en (n + N)%nat) (fun n => xn (n + N)%nat) (fun n => urn (n + N)%nat) (fun n => uthn (n + N)%nat) (fun n => uphn (n + N)%nat) (fun n => gamn (n + N)%nat) _ _ _ _ e He Lp Le P32 W) as T2.
  pose proof (lim_uph (fun n => an (n + N)%nat) (fun n => pn (n + N)%nat) (fun n => en (n + N)%nat) (fun n => xn (n + N)%nat) (fun n => urn (n + N)%nat) (fun n => uthn (n + N)%nat) (fun n => uphn (n + N)%nat) (fun n => gamn (n + N)%nat) _ _ _ _ e He Lp Le P32 W) as T3.
  pose proof (lim_gam (fun n => an (n + N)%nat) (fun n => pn (n + N)%nat) (fun n => en (n + N)%nat) (fun n => xn (n + N)%nat) (fun n => urn (n + N)%nat) (fun n => uthn (n + N)%nat) (fun n => uphn (n + N)%nat) (fun n => gamn (n + N)%nat) _ _ _ _ e He Lp Le P32 W) as T4.
  cbv beta in *.
  refine (conj _ (conj _ (conj _ _))).
  - exact (proj2 (is_lim_seq_incr_n (fun n => urn n / sqrt (pn n)) N _) T1).
  - exact (proj2 (is_lim_seq_incr_n (fun n => uthn n / sqrt (pn n)) N _) T2).
  - exact (proj2 (is_lim_seq_incr_n (fun n => Rabs (uphn n) / sqrt (pn n)) N _) T3).
  - exact (proj2 (is_lim_seq_incr_n (fun n => gamn n / pn n ^ 2) N _) T4).
Qed.

Theorem C93_keplers_third_law (an pn en xn Wr Wth Wph : nat -> R) (e : R) : 0 <= e < 1 ->
  is_lim_seq pn p_infty -> is_lim_seq en e -> (forall n, 0 <= an n) -> (forall n, 0 <= en n < 1) ->
  (forall n, fundamental_frequencies (Some (an n)) (Some (pn n)) (Some (en n)) (Some (xn n)) = Ret (Some (Wr n), Some (Wth n), Some (Wph n))) ->
  let A := fun n => pn n / (1 - en n ^ 2) in
  is_lim_seq (fun n => Wr n ^ 2 * A n ^ 3) 1 /\ is_lim_seq (fun n => Wth n ^ 2 * A n ^ 3) 1 /\ is_lim_seq (fun n => Wph n ^ 2 * A n ^ 3) 1.
Proof.
  intros He Lp Le Ha Hen HF A.
  assert (CH : forall n, { c : R * R * R * R | let '(ur, uth, uph, gam) := c in
     mino_frequencies (Some (an n)) (Some (pn n)) (Some (en n)) (Some (xn n)) = Ret (Some ur, Some uth, Some uph, Some gam) /\
     gam <> 0 /\ Wr n = ur / gam /\ Wth n = uth / gam /\ Wph n = uph / gam }).
  { intros n. apply constructive_indefinite_description. pose proof (C35_fundamental_is_mino_over_gamma (Some (an n)) (Some (pn n)) (Some (en n)) (Some (xn n))) as K.
    destruct (mino_frequencies (Some (an n)) (Some (pn n)) (Some (en n)) (Some (xn n))) as [(((ur, uth), uph), gam)| |]; rewrite HF in K; try discriminate K.
    apply Ret_inj in K. assert (K1 : Some (Wr n) = ndiv ur gam) by congruence. assert (K2 : Some (Wth n) = ndiv uth gam) by congruence. assert (K3 : Some (Wph n) = ndiv uph gam) by congruence.
    clear K HF. destruct ur as [ur|], uth as [uth|], uph as [uph|], gam as [gam|]; try discriminate.
    change (Some (Wr n) = cdiv (Some ur) (Some gam)) in K1. change (Some (Wth n) = cdiv (Some uth) (Some gam)) in K2. change (Some (Wph n) = cdiv (Some uph) (Some gam)) in K3.
    unfold cdiv in *. destruct (Req_EM_T gam 0) as [G|G]; try discriminate. exists (ur, uth, uph, gam). repeat split; try assumption; congruence. }
  set (c := fun n => proj1_sig (CH n)).
  set (ur := fun n => fst (fst (fst (c n)))). set (uth := fun n => snd (fst (fst (c n)))). set (uph := fun n => snd (fst (c n))). set (gam := fun n => snd (c n)).
  assert (M : forall n, mino_frequencies (Some (an n)) (Some (pn n)) (Some (en n)) (Some (xn n)) = Ret (Some (ur n), Some (uth n), Some (uph n), Some (gam n)) /\
     gam n <> 0 /\ Wr n = ur n / gam n /\ Wth n = uth n / gam n /\ Wph n = uph n / gam n).
  { intros n. unfold ur, uth, uph, gam, c. destruct (CH n) as ((((u, v), w), g) & K). exact K. }
  clearbody ur uth uph gam. clear c CH.
  destruct (C93_kepler_limit an pn en xn ur uth uph gam e He Lp Le Ha (fun n => proj1 (M n))) as (T1 & T2 & T3 & T4).
  assert (Q : 0 < 1 - e^2) by nra. assert (SQ : 0 < sqrt (1 - e^2)) by now apply sqrt_lt_R0. assert (SS : sqrt (1 - e^2) ^2 = 1 - e^2) by (apply pow2_sqrt; lra).
  set (k := 1 / ((1 - e^2) * sqrt (1 - e^2))) in *. assert (K0 : k <> 0) by (apply Rgt_not_eq, Rdiv_lt_0_compat; [lra | now apply Rmult_lt_0_compat]).
  assert (GEN : forall (u W : nat -> R), (forall n, W n ^ 2 = (u n / gam n) ^ 2) -> is_lim_seq (fun n => u n / sqrt (pn n)) 1 -> is_lim_seq (fun n => W n ^ 2 * A n ^ 3) 1).
  { intros u W EW T. apply (is_lim_seq_ext_loc (fun n => (u n / sqrt (pn n))^2 / (gam n / pn n ^2)^2 / (1 - en n ^2)^3)).
    - pose proof Lp as Lp'. apply is_lim_seq_spec in Lp'. destruct (Lp' 1) as (N & K). exists N. intros n Hn. specialize (K n Hn). rewrite EW. destruct (M n) as (_ & G & _). pose proof (Hen n).
      assert (P0 : 0 < sqrt (pn n)) by (apply sqrt_lt_R0; lra). assert (P2 : sqrt (pn n) ^2 = pn n) by (apply pow2_sqrt; lra). unfold A.
      replace ((u n / sqrt (pn n))^2) with (u n ^2 / pn n) by (rewrite <- P2 at 1; field; lra). field. repeat split; try lra; nra.
    - assert (k^2 <> 0) by now apply pow_nonzero. assert ((1 - e^2)^3 <> 0) by (apply pow_nonzero; lra).
      assert (EV : 1 ^ 2 / k ^ 2 / (1 - e^2)^3 = 1).
      { unfold k. replace ((1 / ((1 - e^2) * sqrt (1 - e^2)))^2) with (1 / ((1 - e^2)^2 * sqrt (1 - e^2)^2)) by (field; split; lra). rewrite SS. field. lra. }
      assert (Z : is_lim_seq (fun n => (u n / sqrt (pn n))^2 / (gam n / pn n ^2)^2 / (1 - en n ^2)^3) (1 ^ 2 / k ^ 2 / (1 - e^2)^3)) by limd.
      rewrite EV in Z. exact Z. }
  refine (conj _ (conj _ _)).
  - apply (GEN ur); [intros n; now destruct (M n) as (_ & _ & -> & _) | exact T1].
  - apply (GEN uth); [intros n; now destruct (M n) as (_ & _ & _ & -> & _) | exact T2].
  - apply (GEN (fun n => Rabs (uph n))); [|exact T3]. intros n. destruct (M n) as (_ & G & _ & _ & ->). unfold Rdiv. rewrite !Rpow_mult_distr, pow2_abs. reflexivity.
Qed.

(** the hypotheses are met by orbits of every size: retrograde orbits of eccentricity 1/3 about a hole of spin 1/2 *)
Example C93_case : exists ur uth uph gam : nat -> R, is_lim_seq (fun n => INR n + 40) p_infty /\
  forall n, mino_frequencies (Some (1/2)) (Some (INR n + 40)) (Some (1/3)) (Some (-1/2)) = Ret (Some (ur n), Some (uth n), Some (uph n), Some (gam n)).
Proof.
  assert (CH : forall n, { c : R * R * R * R | let '(ur, uth, uph, gam) := c in
     mino_frequencies (Some (1/2)) (Some (INR n + 40)) (Some (1/3)) (Some (-1/2)) = Ret (Some ur, Some uth, Some uph, Some gam) }).
  { intros n. apply constructive_indefinite_description. pose proof (pos_INR n).
    destruct (far_retrograde HX HR (1/2) (INR n + 40) (1/3) (-1/2)) as (E & L & Q & ur & uth & uph & gam & _ & K); try lra. now exists (ur, uth, uph, gam). }
  exists (fun n => fst (fst (fst (proj1_sig (CH n))))), (fun n => snd (fst (fst (proj1_sig (CH n))))), (fun n => snd (fst (proj1_sig (CH n)))), (fun n => snd (proj1_sig (CH n))).
  split.
  - refine (is_lim_seq_plus INR (fun _ => 40) p_infty 40 _ is_lim_seq_INR (is_lim_seq_const 40) _). reflexivity.
  - intros n. destruct (CH n) as ((((u, v), w), g) & K). exact K.
Qed.
End S.
