(** * The separatrix is exactly the last stable orbit *)
From Coq Require Import Reals Lra ZArith String List Psatz.
From Coquelicot Require Import Coquelicot.
From Verif Require Import Num Outcome External Checked ExternalSpec Spec Model_Units Model_Constants
  P_Validation SepPoly Props_Separatrix P_Bounds P_Schmidt P_Constants Props_Constants
  P_Stability P_Stability2 P_Stability3 P_Stability4.
Open Scope R_scope.

Lemma UU_gt1 c k q : 1 < q -> dom c (k / q^2) -> 1 < sqrt (UU c k q).
Proof.
  intros Hq H. rewrite <- sqrt_1. apply sqrt_lt_1_alt. split; [lra|].
  pose proof (dom_dd _ _ H) as Hd. pose proof (dom_third _ _ H) as H3. destruct H as [Hc [Ht Hv]].
  unfold UU. set (t := k / q^2) in *. clearbody t.
  apply (Rlt_div_r 1 _ (dd c t ^ 2)); [apply pow_lt; assumption|]. rewrite Rmult_1_l.
  assert (A1 : dd c t < 2 * (c + 1) * (c - t) * (1 - t)).
  { unfold dd. apply Rminus_lt_0.
    replace (2 * (c + 1) * (c - t) * (1 - t) - (c ^ 2 + 2 * c - t * (c ^ 2 + 2 * c + 3) - t ^ 2))
      with (c * (1 - t) * (c - 2 * t) + t + 3 * t^2) by ring.
    assert (0 < c * (1 - t) * (c - 2 * t)) by (repeat apply Rmult_lt_0_compat; lra). nra. }
  set (G := 2 * (c + 1) * (c - t)) in *.
  assert (HG : 0 < G) by (unfold G; repeat apply Rmult_lt_0_compat; lra).
  replace (4 * (c + 1) ^ 2 * (c - t) ^ 2 * (1 - t) * q) with (G^2 * (1 - t) * q) by (unfold G; ring).
  clearbody G.
  assert (dd c t ^ 2 < (G * (1 - t))^2) by (apply Rsqr_incrst_1 in A1; [unfold Rsqr in A1; lra|lra|nra]).
  assert (0 < G^2) by (apply pow_lt; lra).
  assert ((G * (1 - t))^2 <= G^2 * (1 - t)) by nra.
  assert (0 < G^2 * (1 - t)) by (apply Rmult_lt_0_compat; lra). nra.
Qed.

Lemma SS_zero_pos c k q b : 1 < q -> dom c (k / q^2) -> 0 <= b < 1 -> - b < bc c k q \/ b = 0 ->
  SS c (k / q^2) q (b^2) = 0 -> bc c k q = b.
Proof.
  intros Hq H Hb Hlow HS. pose proof (UU_gt1 c k q Hq H) as HU.
  rewrite SS_factor in HS by (assumption || lra).
  pose proof (dom_dd _ _ H) as Hd. pose proof (VV_pos c k q ltac:(lra) H) as HV.
  pose proof (sqrt_lt_R0 _ HV) as Hw.
  assert (HD : dd c (k / q^2) ^ 2 <> 0) by (apply pow_nonzero; lra).
  apply Rmult_integral in HS as [HS|HS]; [contradiction|].
  unfold bc in *. set (u := sqrt (UU c k q)) in *. set (w := sqrt (VV c k q)) in *. clearbody u w.
  apply Rmult_integral in HS as [HS|HS].
  - assert (K : (u - (b + w)) * (u + (b + w)) = 0) by lra. apply Rmult_integral in K as [K|K]; lra.
  - assert (K : (u - (b - w)) * (u + (b - w)) = 0) by lra. apply Rmult_integral in K as [K|K]; lra.
Qed.

Lemma SS_neg_low c k q b : 1 < q -> dom c (k / q^2) -> 0 <= b ->
  SS c (k / q^2) q (b^2) < 0 -> - b < bc c k q.
Proof.
  intros Hq H Hb HS. pose proof (UU_gt1 c k q Hq H) as HU.
  rewrite SS_factor in HS by (assumption || lra).
  pose proof (dom_dd _ _ H) as Hd. pose proof (VV_pos c k q ltac:(lra) H) as HV.
  pose proof (sqrt_lt_R0 _ HV) as Hw.
  assert (HD : 0 < dd c (k / q^2) ^ 2) by (apply pow_lt; lra).
  unfold bc in *. set (u := sqrt (UU c k q)) in *. set (w := sqrt (VV c k q)) in *. clearbody u w.
  set (D := dd c (k / q^2) ^ 2) in *. clearbody D.
  apply Rnot_le_lt. intros K.
  assert (0 <= (b + w)^2 - u^2) by nra. assert (0 <= (b - w)^2 - u^2) by nra.
  assert (0 <= D * (((b + w)^2 - u^2) * ((b - w)^2 - u^2))) by (repeat apply Rmult_le_pos; lra). lra.
Qed.

Lemma bc_schwarzschild e : 0 <= e < 1 -> bc (cc e) 0 ((6 + 2 * e) / (1 + e)) = 0.
Proof.
  intros He. unfold bc.
  replace (UU (cc e) 0 ((6 + 2 * e) / (1 + e))) with (VV (cc e) 0 ((6 + 2 * e) / (1 + e))); [ring|].
  unfold UU, VV, dd. cbv zeta.
  replace (0 / ((6 + 2 * e) / (1 + e))^2) with 0 by (field; lra).
  unfold cc. field. repeat split; try lra. 
  apply Rgt_not_eq. nra.
Qed.

Section S.
Context {X : External R} (HX : root_spec X).

Lemma dom_equatorial c q : 1 <= c -> q <> 0 -> dom c (0 / q^2).
Proof.
  intros Hc Hq. replace (0 / q^2) with 0 by (unfold Rdiv; ring).
  refine (conj Hc (conj _ _)); [lra|]. unfold vg. lra.
Qed.

Lemma SS_of_S_full p a e x : 0 <= e < 1 -> 0 < p ->
  exists K, 0 < K /\ S_full p a e x = K * SS (cc e) (a^2 * (1 - x^2) / (p / (1 + e))^2) (p / (1 + e)) ((a * x)^2).
Proof.
  intros He Hp. exists ((p^4 * (1 - e)^2)^2). split; [|apply S_full_SS; lra].
  apply pow_lt. apply Rmult_lt_0_compat; apply pow_lt; lra.
Qed.

(* the prograde equatorial root *)
Lemma equatorial_exact a e pe : 0 < a < 1 -> 0 <= e < 1 -> 1 + e < pe <= 6 + 2 * e -> S_equatorial pe a e = 0 ->
  bc (cc e) 0 (pe / (1 + e)) = a.
Proof.
  intros Ha He Hpe HS. pose proof (cc_ge e He) as Hc.
  assert (Hq : 1 < pe / (1 + e)) by (apply Rlt_div_r; lra).
  destruct (C20_polynomials_agree pe a e 0) as (_ & Ze & _).
  destruct (SS_of_S_full pe a e 1 He ltac:(lra)) as [K [HK EK]].
  rewrite Ze, HS in EK. replace (a^2 * (1 - 1^2)) with 0 in EK by ring. rewrite Rmult_1_r in EK.
  apply SS_zero_pos; try lra.
  - apply dom_equatorial; lra.
  - left. assert (Hq2 : pe / (1 + e) <= (6 + 2 * e) / (1 + e)) by (apply Rmult_le_compat_r; [left; apply Rinv_0_lt_compat|]; lra).
    pose proof (bc_schwarzschild e He) as Z.
    destruct Hq2 as [Hq2|Hq2]; [|rewrite Hq2; lra].
    assert (bc (cc e) 0 ((6 + 2 * e) / (1 + e)) < bc (cc e) 0 (pe / (1 + e))); [|lra].
    apply bc_decreases; [lra|lra|apply dom_equatorial; lra].
  - symmetry in EK. rewrite Rmult_0_r in EK. apply Rmult_integral in EK as [EK|EK]; [lra|exact EK].
Qed.

Lemma separatrix_pro a e x s : 0 < a < 1 -> 0 <= e < 1 -> 0 < x <= 1 ->
  separatrix a e x = Ret s ->
  S_full s a e x = 0 /\ (x = 1 -> s <= 6 + 2 * e) /\
  (x < 1 -> exists m, 26/5 < m /\ s <= m /\ S_full m a e x < 0).
Proof.
  intros Ha He Hx Hs. pose proof polar_lo_52 as Hlo. pose proof polar_lo_bounds as Hlo2.
  destruct (separatrix_total HX a e x ltac:(lra) ltac:(lra) ltac:(lra)) as [s' [Hs' [Hb [Hz _]]]].
  rewrite Hs in Hs'. injection Hs' as <-.
  split; [exact Hz|]. revert Hs.
  rewrite separatrix_R. rewrite valid_params_true by (unfold in_range; lra).
  rewrite (Reqb_false a 1), (Reqb_false a 0) by lra. cbn [onot negb ifo].
  destruct (root_ok HX (fun p => S_polar p a e) polar_lo 8 (cont_S_polar a e)) as [pp [R1 [R2 R3]]].
  { assert (S_polar polar_lo a e <= 0) by (apply S_polar_lo; lra).
    assert (0 <= S_polar 8 a e) by (apply S_polar_8; lra). nra. }
  rewrite Rmin_left, Rmax_right in R3 by lra.
  rewrite R1. cbn [bind]. rewrite (Reqb_false x 0) by lra. cbn [ifo].
  destruct (root_ok HX (fun p => S_equatorial p a e) (1 + e) (6 + 2 * e) (cont_S_equatorial a e))
    as [pe [Q1 [Q2 Q3]]].
  { assert (0 <= S_equatorial (1 + e) a e) by (apply S_equatorial_lo; lra).
    assert (S_equatorial (6 + 2 * e) a e <= 0) by (apply S_equatorial_hi; lra). nra. }
  rewrite Rmin_left, Rmax_right in Q3 by lra.
  assert (Q4 : 1 + e < pe).
  { destruct (Req_dec pe (1 + e)) as [->|]; [|lra].
    pose proof (S_equatorial_lo_pos a e ltac:(lra) ltac:(lra)). lra. }
  rewrite Q1. cbn [bind].
  destruct (Reqb_spec x 1) as [->|Hx1]; cbn [ifo].
  { intros H. injection H as <-. split; [intros; lra|intros; lra]. }
  rewrite (Reqb_false x (-1)) by lra. cbn [ifo].
  assert (HP : S_full pp a e x < 0) by (apply S_full_at_polar_both; lra).
  rewrite Rltb_true by lra. cbn [ifo].
  destruct (root_ok HX (fun p => S_full p a e x) pe pp (cont_S_full a e x)) as [ps [P1 [P2 P3]]].
  { assert (0 <= S_full pe a e x) by (apply S_full_at_equatorial; lra). nra. }
  rewrite P1. intros H. injection H as <-. split; [intros; lra|]. intros _. exists pp.
  assert (K : pe <= pp).
  { apply Rnot_lt_le. intros K. pose proof (equatorial_exact a e pe Ha He ltac:(lra) Q2) as EX.
    assert (HP1 : S_full pp a e 1 < 0) by (apply S_full_at_polar_both; lra).
    destruct (SS_of_S_full pp a e 1 He ltac:(lra)) as [KK [HKK EK]]. rewrite EK in HP1.
    replace (a^2 * (1 - 1^2)) with 0 in HP1 by ring. rewrite Rmult_1_r in HP1.
    assert (Hq : 1 < pp / (1 + e)) by (apply Rlt_div_r; lra).
    pose proof (cc_ge e He) as Hc.
    assert (D : dom (cc e) (0 / (pp / (1 + e))^2)) by (apply dom_equatorial; lra).
    assert (bc (cc e) 0 (pp / (1 + e)) < a) by (apply SS_nonpos; [lra|exact D|lra|nra]).
    assert (pp / (1 + e) < pe / (1 + e)) by (apply Rmult_lt_compat_r; [apply Rinv_0_lt_compat|]; lra).
    assert (bc (cc e) 0 (pe / (1 + e)) < bc (cc e) 0 (pp / (1 + e))) by (apply bc_decreases; [lra|lra|exact D]). lra. }
  rewrite Rmin_left, Rmax_right in P3 by lra.
  refine (conj _ (conj _ HP)); lra.
Qed.

(** the returned separatrix is the unique radius where the critical spin component equals a x *)
Theorem separatrix_exact a e x s : 0 <= a < 1 -> 0 <= e < 1 -> -1 <= x <= 1 ->
  separatrix a e x = Ret s ->
  1 < s / (1 + e) /\ dom (cc e) (a^2 * (1 - x^2) / (s / (1 + e))^2) /\
  bc (cc e) (a^2 * (1 - x^2)) (s / (1 + e)) = a * x.
Proof.
  intros Ha He Hx Hs.
  destruct (separatrix_critical HX a e x s Ha He Hx Hs) as [Hq [D C]].
  refine (conj Hq (conj D _)).
  destruct (separatrix_total HX a e x Ha ltac:(lra) Hx) as [s' [Hs' [Hb [Hz _]]]].
  rewrite Hs in Hs'. injection Hs' as <-.
  destruct (SS_of_S_full s a e x He ltac:(lra)) as [K [HK EK]]. rewrite Hz in EK.
  assert (Z : SS (cc e) (a^2 * (1 - x^2) / (s / (1 + e))^2) (s / (1 + e)) ((a * x)^2) = 0).
  { symmetry in EK. apply Rmult_integral in EK as [EK|EK]; [lra|exact EK]. }
  assert (Hx2 : 0 <= x^2 <= 1) by nra. assert (Ha2 : 0 <= a^2 < 1) by nra.
  assert (Hk : 0 <= a^2 * (1 - x^2) < 1) by nra.
  pose proof (cc_ge e He) as Hc.
  destruct (Req_EM_T (a * x) 0) as [B0|B0].
  { apply SS_zero_pos; try assumption; lra. }
  assert (Ha0 : 0 < a). { destruct (Req_EM_T a 0) as [->|]; [exfalso; apply B0; ring|lra]. }
  destruct (Rtotal_order x 0) as [Kx|[Kx|Kx]]; [|exfalso; apply B0; rewrite Kx; ring|].
  - (* retrograde *)
    destruct (separatrix_retro HX a e x s ltac:(lra) ltac:(lra) ltac:(lra) Hs) as [_ [m [Hm Sm]]].
    assert (Q1 : 13/5 <= m / (1 + e)) by (apply (Rle_div_r (13/5) m (1 + e)); lra).
    assert (Q2 : m / (1 + e) <= s / (1 + e)) by (apply Rmult_le_compat_r; [left; apply Rinv_0_lt_compat|]; lra).
    assert (D1 : dom (cc e) (a^2 * (1 - x^2) / (m / (1 + e))^2)) by (apply dom_far; lra).
    destruct (SS_of_S_full m a e x He ltac:(lra)) as [K2 [HK2 EK2]]. rewrite EK2 in Sm.
    assert (Sm' : SS (cc e) (a^2 * (1 - x^2) / (m / (1 + e))^2) (m / (1 + e)) ((- (a * x))^2) < 0).
    { replace ((- (a * x))^2) with ((a * x)^2) by ring. nra. }
    assert (Hax : a * x < 0) by nra.
    apply (proj2 (SS_nonpos (cc e) (a^2 * (1 - x^2)) (m / (1 + e)) (- (a * x)) ltac:(lra) D1 ltac:(lra))) in Sm'.
    apply SS_zero_neg; try assumption; try lra.
    split; [nra|lra].
  - destruct (separatrix_pro a e x s ltac:(lra) He ltac:(lra) Hs) as [_ [S1 S2]].
    assert (Hax : 0 < a * x) by (apply Rmult_lt_0_compat; lra).
    apply SS_zero_pos; try assumption; try lra; [split; [lra|nra]|]. left.
    destruct (Req_EM_T x 1) as [->|Hx1].
    + specialize (S1 eq_refl). pose proof (bc_schwarzschild e He) as Z0.
      replace (a^2 * (1 - 1^2)) with 0 in * by ring.
      assert (Q2 : s / (1 + e) <= (6 + 2 * e) / (1 + e)) by (apply Rmult_le_compat_r; [left; apply Rinv_0_lt_compat|]; lra).
      destruct Q2 as [Q2|Q2]; [|rewrite Q2; lra].
      assert (bc (cc e) 0 ((6 + 2 * e) / (1 + e)) < bc (cc e) 0 (s / (1 + e))) by (apply bc_decreases; [lra|lra|exact D]). lra.
    + destruct (S2 ltac:(lra)) as [m [Hm [Hsm Sm]]].
      assert (Q1 : 13/5 <= m / (1 + e)) by (apply (Rle_div_r (13/5) m (1 + e)); lra).
      assert (Q2 : s / (1 + e) <= m / (1 + e)) by (apply Rmult_le_compat_r; [left; apply Rinv_0_lt_compat|]; lra).
      assert (D1 : dom (cc e) (a^2 * (1 - x^2) / (m / (1 + e))^2)) by (apply dom_far; lra).
      destruct (SS_of_S_full m a e x He ltac:(lra)) as [K2 [HK2 EK2]]. rewrite EK2 in Sm.
      assert (Sm' : SS (cc e) (a^2 * (1 - x^2) / (m / (1 + e))^2) (m / (1 + e)) ((a * x)^2) < 0) by nra.
      apply SS_neg_low in Sm'; try assumption; try lra.
      destruct Q2 as [Q2|Q2]; [|rewrite Q2; exact Sm'].
      apply Rlt_trans with (1 := Sm'). apply bc_decreases; try assumption; lra.
Qed.
End S.
