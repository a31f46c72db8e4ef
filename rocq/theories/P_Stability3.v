(** * Accepted orbits lie beyond the last stable orbit *)
From Coq Require Import Reals Lra ZArith String List Psatz.
From Coquelicot Require Import Coquelicot.
From Verif Require Import Num Outcome External Checked ExternalSpec Spec Model_Units Model_Constants
  P_Validation SepPoly Props_Separatrix P_Bounds P_Stability P_Stability2.
Open Scope R_scope.

Definition cc (e : R) : R := (1 + e) / (1 - e).
Lemma cc_ge e : 0 <= e < 1 -> 1 <= cc e.
Proof. intros H. unfold cc. apply (Rle_div_r 1 (1 + e) (1 - e)); lra. Qed.

Lemma S_full_SS p a e x : 0 <= e < 1 -> p <> 0 ->
  S_full p a e x = (p^4 * (1 - e)^2)^2 *
    SS (cc e) (a^2 * (1 - x^2) / (p / (1 + e))^2) (p / (1 + e)) ((a * x)^2).
Proof.
  intros He Hp. apply (Rmult_eq_reg_l 4); [|lra]. rewrite S_full_squares.
  unfold NW_, NE_, Nl_, w1_, w2_, SS, Mt, At, Yt, om, dd, cc. cbv zeta. field. repeat split; lra.
Qed.

Lemma dom_far c k q : 1 <= c -> 0 <= k < 1 -> 13/5 <= q -> dom c (k / q^2).
Proof.
  intros Hc Hk Hq. assert (Q : 27/4 <= q^2) by nra.
  assert (T : 0 <= k / q^2 <= 4/27).
  { split; [apply Rmult_le_pos; [lra|left; apply Rinv_0_lt_compat; lra]|]. apply (Rle_div_l k (4/27) (q^2)); nra. }
  set (t := k / q^2) in *. clearbody t. refine (conj Hc (conj _ _)); [lra|]. unfold vg. nra.
Qed.

Section S.
Context {X : External R} (HX : root_spec X).

(** retrograde: the polynomial is negative somewhere below the root returned *)
Lemma separatrix_retro a e x s : 0 < a < 1 -> 0 <= e <= 1 -> -1 <= x < 0 ->
  separatrix a e x = Ret s ->
  S_full s a e x = 0 /\ exists m, 26/5 < m <= s /\ S_full m a e x < 0.
Proof.
  intros Ha He Hx. pose proof polar_lo_52 as Hlo. pose proof polar_lo_bounds as Hlo2.
  rewrite separatrix_R. rewrite valid_params_true by (unfold in_range; lra).
  rewrite (Reqb_false a 1), (Reqb_false a 0) by lra. cbn [onot negb ifo].
  destruct (root_ok HX (fun p => S_polar p a e) polar_lo 8 (cont_S_polar a e)) as [pp [R1 [R2 R3]]].
  { assert (S_polar polar_lo a e <= 0) by (apply S_polar_lo; lra).
    assert (0 <= S_polar 8 a e) by (apply S_polar_8; lra). nra. }
  rewrite Rmin_left, Rmax_right in R3 by lra.
  rewrite R1. cbn [bind]. rewrite (Reqb_false x 0) by lra. cbn [ifo].
  destruct (root_ok HX (fun p => S_equatorial p a e) (1 + e) (6 + 2 * e) (cont_S_equatorial a e))
    as [pe [Q1 [Q2 Q3]]].
  { assert (0 <= S_equatorial (1 + e) a e) by (apply S_equatorial_lo; lra).
    assert (S_equatorial (6 + 2 * e) a e <= 0) by (apply S_equatorial_hi; lra). nra. }
  rewrite Q1. cbn [bind]. rewrite (Reqb_false x 1) by lra. cbn [ifo].
  destruct (Reqb_spec x (-1)) as [->|Hxm]; cbn [ifo].
  { assert (Hsq : 1 <= sqrt (1 + e)).
    { rewrite <- sqrt_1 at 1. apply sqrt_le_1_alt. lra. }
    assert (Hsq2 : sqrt (1 + e) * sqrt (1 + e) = 1 + e) by (apply sqrt_sqrt; lra).
    assert (Hret : 6 + 2 * e <= 5 + e + 4 * sqrt (1 + e)) by nra.
    destruct (root_ok HX (fun p => S_equatorial p a e) (6 + 2 * e) (5 + e + 4 * sqrt (1 + e))
      (cont_S_equatorial a e)) as [pr [P1 [P2 P3]]].
    { assert (0 <= S_equatorial (5 + e + 4 * sqrt (1 + e)) a e) by (apply S_equatorial_retro; lra).
      assert (S_equatorial (6 + 2 * e) a e <= 0) by (apply S_equatorial_hi; lra). nra. }
    rewrite Rmin_left, Rmax_right in P3 by lra.
    rewrite P1. intros H. injection H as <-.
    destruct (C20_polynomials_agree pr a e 0) as (_ & _ & Ze & _).
    destruct (C20_polynomials_agree (6 + 2 * e) a e 0) as (_ & _ & Ze' & _).
    split; [rewrite Ze, P2; ring|]. exists (6 + 2 * e). split; [lra|]. rewrite Ze'.
    assert (K : S_equatorial (6 + 2 * e) a e < 0).
    { replace (S_equatorial (6 + 2 * e) a e)
        with (- (a^2 * (384 + 512 * e + 128 * e^2 + a^2 * (-9 - 12 * e + 2 * e^2 + 4 * e^3 - e^4))))
        by (unfold S_equatorial; rnum; ring).
      assert (0 < a^2 < 1) by nra. assert (0 <= e^2 <= 1) by nra. assert (0 <= e^3 <= 1) by nra. assert (0 <= e^4 <= 1) by nra.
      assert (0 < 384 + 512 * e + 128 * e ^ 2 + a ^ 2 * (-9 - 12 * e + 2 * e ^ 2 + 4 * e ^ 3 - e ^ 4)) by nra. nra. }
    assert (0 < (6 + 2 * e)^8) by (apply pow_lt; lra). nra. }
  assert (HP : S_full pp a e x < 0) by (apply S_full_at_polar_both; lra).
  rewrite (Rltb_false 0 x) by lra. rewrite Rltb_true by lra. cbn [ifo].
  destruct (root_ok HX (fun p => S_full p a e x) pp 12 (cont_S_full a e x)) as [ps [P1 [P2 P3]]].
  { assert (0 <= S_full 12 a e x) by (apply S_full_12; lra). nra. }
  rewrite Rmin_left, Rmax_right in P3 by lra.
  rewrite P1. intros H. injection H as <-. split; [exact P2|]. exists pp. split; [lra|exact HP].
Qed.

Lemma separatrix_critical a e x s : 0 <= a < 1 -> 0 <= e < 1 -> -1 <= x <= 1 ->
  separatrix a e x = Ret s ->
  let q := s / (1 + e) in let k := a^2 * (1 - x^2) in
  1 < q /\ dom (cc e) (k / q^2) /\ bc (cc e) k q <= a * x.
Proof.
  intros Ha He Hx Hs. cbv zeta.
  pose proof (cc_ge e He) as Hc.
  destruct (separatrix_total HX a e x Ha ltac:(lra) Hx) as [s' [Hs' [Hb [Hz [Z0 [Zx _]]]]]].
  rewrite Hs in Hs'. injection Hs' as <-.
  assert (Hx2 : 0 <= x^2 <= 1) by nra. assert (Ha2 : 0 <= a^2 < 1) by nra.
  assert (Hk : 0 <= a^2 * (1 - x^2) < 1) by nra.
  assert (Hq1 : 1 < s / (1 + e)) by (apply Rlt_div_r; lra).
  assert (Hq0 : 0 < s^4 * (1 - e)^2).
  { apply Rmult_lt_0_compat; apply pow_lt; lra. }
  assert (Hsc : 0 < (s^4 * (1 - e)^2)^2) by (apply pow_lt; exact Hq0).
  rewrite S_full_SS in Hz by lra.
  assert (HSS : SS (cc e) (a^2 * (1 - x^2) / (s / (1 + e))^2) (s / (1 + e)) ((a * x)^2) = 0).
  { apply Rmult_integral in Hz as [Hz|Hz]; [lra|exact Hz]. }
  split; [exact Hq1|].
  destruct (Rlt_dec (a * x) 0) as [Hneg|Hpos].
  - (* retrograde *)
    assert (Ha0 : 0 < a). { destruct (Req_EM_T a 0) as [K|K]; [rewrite K in Hneg; lra|lra]. }
    assert (Hxn : x < 0) by nra.
    destruct (separatrix_retro a e x s ltac:(lra) ltac:(lra) ltac:(lra) Hs) as [_ [m [Hm Sm]]].
    assert (Q1 : 13/5 <= m / (1 + e)) by (apply (Rle_div_r (13/5) m (1 + e)); lra).
    assert (Q2 : m / (1 + e) <= s / (1 + e)) by (apply Rmult_le_compat_r; [left; apply Rinv_0_lt_compat|]; lra).
    assert (D1 : dom (cc e) (a^2 * (1 - x^2) / (m / (1 + e))^2)) by (apply dom_far; lra).
    assert (D2 : dom (cc e) (a^2 * (1 - x^2) / (s / (1 + e))^2)) by (apply dom_far; lra).
    split; [exact D2|].
    rewrite S_full_SS in Sm by lra.
    assert (Sm' : SS (cc e) (a^2 * (1 - x^2) / (m / (1 + e))^2) (m / (1 + e)) ((- (a * x))^2) < 0).
    { replace ((- (a * x))^2) with ((a * x)^2) by ring.
      assert (0 <= (m^4 * (1 - e)^2)^2) by apply pow2_ge_0. nra. }
    apply (proj2 (SS_nonpos (cc e) (a^2 * (1 - x^2)) (m / (1 + e)) (- (a * x)) ltac:(lra) D1 ltac:(lra))) in Sm'.
    right. apply SS_zero_neg; try assumption; try lra.
    + split; [nra|lra].
    + destruct Q2 as [Q2|Q2]; [|rewrite <- Q2; exact Sm'].
      apply Rlt_trans with (2 := Sm'). apply bc_decreases; try assumption; lra.
  - assert (D : dom (cc e) (a^2 * (1 - x^2) / (s / (1 + e))^2)).
    { destruct (Req_EM_T a 0) as [K|K].
      - rewrite K. replace (0^2 * (1 - x^2) / (s / (1 + e))^2) with 0 by (unfold Rdiv; ring).
        refine (conj Hc (conj _ _)); [lra|]. unfold vg. lra.
      - destruct (separatrix_lower HX a e x s ltac:(lra) ltac:(lra) Hx Hs) as [B1 [B2 B3]].
        destruct (Rle_dec x 0) as [Kx|Kx].
        + apply dom_far; try lra. apply (Rle_div_r (13/5) s (1 + e)); [lra|]. specialize (B3 Kx). lra.
        + assert (HA2 : (a * x)^2 + a^2 * (1 - x^2) = a^2) by ring.
          apply zero_dom with (b := a * x); try assumption; try lra; try (rewrite HA2; first [lra | exact B2]).
          apply Rmult_integral_contrapositive. split; [assumption|apply Rgt_not_eq; lra]. }
    split; [exact D|].
    apply (proj1 (SS_nonpos (cc e) (a^2 * (1 - x^2)) (s / (1 + e)) (a * x) ltac:(lra) D ltac:(lra))). lra.
Qed.

Lemma accepted_separatrix a p e x : 0 <= a -> check_constants_params a p e x = Ret tt ->
  exists s, separatrix a e x = Ret s /\ s < p.
Proof.
  intros Ha H. destruct (accepted_bounds HX a p e x Ha H) as (Ha1 & He & Hx & _).
  assert (U : check_constants_params a p e x =
    ifo (Some (Reqb a 1)) (Raise (ValueError msg_extreme)) (
    ifo (onot (valid_params a e x)) (Raise (ValueError msg_range)) (
    bind (is_stable a p e x) (fun st : bool => if st then Ret tt else Raise (ValueError msg_unstable)))))
    by reflexivity.
  rewrite U in H. clear U. rewrite Reqb_false in H by lra. cbn [ifo] in H.
  rewrite valid_params_true in H by (unfold in_range; lra). cbn [onot negb ifo] in H.
  unfold is_stable in H.
  destruct (separatrix a e x) as [s| |] eqn:Es; cbn [bind] in H; try discriminate.
  change (nltb s p) with (Some (Rltb s p)) in H. cbn [ifo] in H.
  destruct (Rltb_spec s p) as [Hp|]; cbn [bind] in H; try discriminate. eauto.
Qed.

Lemma accepted_stable a p e x : 0 <= a -> e < 1 -> check_constants_params a p e x = Ret tt ->
  let q := p / (1 + e) in let k := a^2 * (1 - x^2) in
  dom (cc e) (k / q^2) /\ bc (cc e) k q < a * x.
Proof.
  intros Ha He1 H. cbv zeta. destruct (accepted_bounds HX a p e x Ha H) as (Ha1 & He & Hx & _).
  destruct (accepted_separatrix a p e x Ha H) as [s [Hs Hp]].
  destruct (separatrix_critical a e x s Ha1 ltac:(lra) Hx Hs) as [Q [D B]].
  assert (Hx2 : 0 <= x^2 <= 1) by nra. assert (Ha2 : 0 <= a^2 < 1) by nra.
  assert (Hk : 0 <= a^2 * (1 - x^2) < 1) by nra.
  assert (L : s / (1 + e) < p / (1 + e)) by (apply Rmult_lt_compat_r; [apply Rinv_0_lt_compat|]; lra).
  split.
  - apply dom_down with (1 := D). apply t_down; lra.
  - apply Rlt_le_trans with (2 := B). apply bc_decreases; try assumption; lra.
Qed.
End S.
