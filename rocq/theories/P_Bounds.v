(** * Where accepted orbits lie: bounds on p implied by the parameter checks *)
From Coq Require Import Reals Lra ZArith String List Psatz.
From Coquelicot Require Import Coquelicot.
From Verif Require Import Num Outcome External Checked ExternalSpec Spec Model_Units Model_Constants
  P_Validation SepPoly Props_Separatrix.
Open Scope R_scope.

Lemma polar_lo_52 : 26/5 < polar_lo.
Proof.
  unfold polar_lo.
  assert (H1 : 173/100 < sqrt 3).
  { apply Rsqr_incrst_0; [|lra|apply sqrt_pos]. rewrite Rsqr_sqrt by lra. unfold Rsqr. lra. }
  assert (H2 : 254/100 < sqrt (3 + 2 * sqrt 3)).
  { apply Rsqr_incrst_0; [|lra|apply sqrt_pos]. rewrite Rsqr_sqrt by lra. unfold Rsqr. lra. }
  lra.
Qed.

(** inside the horizon the equatorial separatrix polynomial is positive *)
Lemma S_equatorial_inside a e r : 0 <= a < 1 -> 0 <= e <= 1 -> 1 <= r ->
  Delta a r <= 0 -> 0 < S_equatorial ((1 + e) * r) a e.
Proof.
  intros Ha He Hr HD. unfold Delta in HD.
  set (A := a^2) in *. assert (HA : 0 <= A < 1) by (unfold A; nra).
  set (A0 := 2 * r - r^2). assert (HA0 : A <= A0) by (unfold A0; lra).
  assert (E : S_equatorial ((1 + e) * r) a e
    = (1 + e)^2 * (16 * (r * (r - 1))^2
        + (A0 - A) * (2 * r * (14 + 2 * e^2 + (3 - e) * (1 + e) * r) - (3 - e)^2 * (A + A0)))).
  { unfold A, A0, S_equatorial. rnum. ring. }
  rewrite E. apply Rmult_lt_0_compat; [apply pow_lt; lra|].
  assert (B : 0 < 2 * r * (14 + 2 * e^2 + (3 - e) * (1 + e) * r) - (3 - e)^2 * (A + A0)).
  { assert ((3 - e)^2 <= 9) by nra. assert (0 <= (3 - e)^2) by nra.
    assert (0 <= A + A0 <= 2 * r) by (unfold A0 in *; nra).
    assert ((3 - e)^2 * (A + A0) <= 9 * (2 * r)) by nra.
    assert (0 <= (3 - e) * (1 + e) * r) by (repeat apply Rmult_le_pos; lra).
    assert (0 <= e^2) by nra. nra. }
  destruct (Rle_lt_or_eq_dec _ _ Hr) as [H1|H1].
  - assert (0 < (r * (r - 1))^2) by (apply pow_lt; nra). nra.
  - subst r. assert (0 < A0 - A) by (unfold A0; lra). nra.
Qed.
Lemma Delta_mono a r r' : 1 <= r <= r' -> Delta a r <= Delta a r'.
Proof. unfold Delta. nra. Qed.

Section B.
Context {X : External R} (HX : root_spec X).

Lemma separatrix_lower a e x s : 0 < a < 1 -> 0 <= e <= 1 -> -1 <= x <= 1 ->
  separatrix a e x = Ret s ->
  1 < s / (1 + e) /\ 0 < Delta a (s / (1 + e)) /\ (x <= 0 -> 26/5 < s).
Proof.
  intros Ha He Hx. pose proof polar_lo_52 as Hlo. pose proof polar_lo_bounds as Hlo2.
  rewrite separatrix_R. rewrite valid_params_true by (unfold in_range; lra).
  rewrite (Reqb_false a 1), (Reqb_false a 0) by lra. cbn [onot negb ifo].
  destruct (root_ok HX (fun p => S_polar p a e) polar_lo 8 (cont_S_polar a e)) as [pp [R1 [R2 R3]]].
  { assert (S_polar polar_lo a e <= 0) by (apply S_polar_lo; lra).
    assert (0 <= S_polar 8 a e) by (apply S_polar_8; lra). nra. }
  rewrite Rmin_left, Rmax_right in R3 by lra.
  rewrite R1. cbn [bind].
  (* far out everything is fine *)
  assert (Far : forall q, 26/5 < q -> 1 < q / (1 + e) /\ 0 < Delta a (q / (1 + e)) /\ (x <= 0 -> 26/5 < q)).
  { intros q Hq. assert (26/10 < q / (1 + e)) by (apply (Rlt_div_r (26/10) q (1 + e)); lra).
    split; [lra|]. split; [unfold Delta; nra | intros; lra]. }
  destruct (Reqb_spec x 0) as [->|Hx0]; cbn [ifo].
  { intros H. injection H as <-. apply Far. lra. }
  destruct (root_ok HX (fun p => S_equatorial p a e) (1 + e) (6 + 2 * e) (cont_S_equatorial a e))
    as [pe [Q1 [Q2 Q3]]].
  { assert (0 <= S_equatorial (1 + e) a e) by (apply S_equatorial_lo; lra).
    assert (S_equatorial (6 + 2 * e) a e <= 0) by (apply S_equatorial_hi; lra). nra. }
  rewrite Rmin_left, Rmax_right in Q3 by lra.
  rewrite Q1. cbn [bind].
  (* above the prograde equatorial root *)
  assert (Near : forall q, pe <= q -> 1 < q / (1 + e) /\ 0 < Delta a (q / (1 + e))).
  { intros q Hq.
    assert (M : 1 <= pe / (1 + e) <= q / (1 + e)).
    { split; [apply Rle_div_r; lra|]. apply Rmult_le_compat_r; [apply Rlt_le, Rinv_0_lt_compat; lra | lra]. }
    assert (P : 0 < Delta a (pe / (1 + e))).
    { apply Rnot_le_lt. intros H.
      pose proof (S_equatorial_inside a e (pe / (1 + e)) ltac:(lra) He (proj1 M) H) as K.
      replace ((1 + e) * (pe / (1 + e))) with pe in K by (field; lra). lra. }
    assert (M1 : 1 < pe / (1 + e)).
    { destruct M as [[M|M] _]; [assumption|]. rewrite <- M in P. unfold Delta in P. nra. }
    split; [lra|]. pose proof (Delta_mono a _ _ M). lra. }
  destruct (Reqb_spec x 1) as [->|Hx1]; cbn [ifo].
  { intros H. injection H as <-. destruct (Near pe ltac:(lra)). repeat split; auto. lra. }
  destruct (Reqb_spec x (-1)) as [->|Hxm]; cbn [ifo].
  { assert (Hsq : 1 <= sqrt (1 + e)).
    { rewrite <- sqrt_1 at 1. apply sqrt_le_1_alt. lra. }
    assert (Hsq2 : sqrt (1 + e) * sqrt (1 + e) = 1 + e) by (apply sqrt_sqrt; lra).
    assert (Hret : 6 + 2 * e <= 5 + e + 4 * sqrt (1 + e)) by nra.
    destruct (root_ok HX (fun p => S_equatorial p a e) (6 + 2 * e) (5 + e + 4 * sqrt (1 + e))
      (cont_S_equatorial a e)) as [pr [P1 [P2 P3]]].
    { assert (0 <= S_equatorial (5 + e + 4 * sqrt (1 + e)) a e) by (apply S_equatorial_retro; lra).
      assert (S_equatorial (6 + 2 * e) a e <= 0) by (apply S_equatorial_hi; lra). nra. }
    rewrite Rmin_left, Rmax_right in P3 by lra.
    rewrite P1. intros H. injection H as <-. apply Far. lra. }
  assert (HP : S_full pp a e x <= 0) by (apply S_full_at_polar; lra).
  destruct (Rltb_spec 0 x) as [Hpos|Hneg]; cbn [ifo].
  { destruct (root_ok HX (fun p => S_full p a e x) pe pp (cont_S_full a e x)) as [ps [P1 [P2 P3]]].
    { assert (0 <= S_full pe a e x) by (apply S_full_at_equatorial; lra). nra. }
    rewrite P1. intros H. injection H as <-.
    destruct (Rle_dec pe pp) as [L|L].
    - rewrite Rmin_left in P3 by lra. destruct (Near ps ltac:(lra)). repeat split; auto. lra.
    - rewrite Rmin_right in P3 by lra. apply Far. lra. }
  rewrite Rltb_true by lra. cbn [ifo].
  destruct (root_ok HX (fun p => S_full p a e x) pp 12 (cont_S_full a e x)) as [ps [P1 [P2 P3]]].
  { assert (0 <= S_full 12 a e x) by (apply S_full_12; lra). nra. }
  rewrite Rmin_left, Rmax_right in P3 by lra.
  rewrite P1. intros H. injection H as <-. apply Far. lra.
Qed.

(** what the common prologue establishes *)
Lemma accepted_bounds a p e x : 0 <= a ->
  check_constants_params a p e x = Ret tt ->
  0 <= a < 1 /\ 0 <= e <= 1 /\ -1 <= x <= 1 /\
  1 < p / (1 + e) /\ 0 < Delta a (p / (1 + e)) /\ (x <= 0 -> 26/5 < p) /\ (a = 0 -> 6 + 2 * e < p).
Proof.
  intros Ha H.
  assert (U : check_constants_params a p e x =
    ifo (Some (Reqb a 1)) (Raise (ValueError msg_extreme)) (
    ifo (onot (valid_params a e x)) (Raise (ValueError msg_range)) (
    bind (is_stable a p e x) (fun st : bool => if st then Ret tt else Raise (ValueError msg_unstable)))))
    by reflexivity.
  rewrite U in H. clear U.
  destruct (Reqb_spec a 1) as [|H1]; cbn [ifo] in H; try discriminate.
  destruct (in_range_dec a e x) as [Hr|Hr];
    [rewrite valid_params_true in H by assumption | rewrite valid_params_false in H by assumption; discriminate].
  cbn [onot negb ifo] in H. destruct Hr as [_ [He Hx]]. unfold in_range in *.
  assert (Ha1 : 0 <= a <= 1).
  { destruct (Rle_dec a 1); [lra|]. exfalso.
    assert (E : separatrix a e x = Raise (ValueError msg_range)).
    { rewrite separatrix_R, Reqb_false by assumption. cbn [ifo]. rewrite valid_params_false; [reflexivity|].
      unfold in_range. lra. }
    unfold is_stable in H. rewrite E in H. discriminate. }
  unfold is_stable in H.
  destruct (separatrix a e x) as [s| |] eqn:Es; cbn [bind] in H; try discriminate.
  change (nltb s p) with (Some (Rltb s p)) in H. cbn [ifo] in H.
  destruct (Rltb_spec s p) as [Hp|]; cbn [bind] in H; try discriminate.
  repeat split; try lra.
  - destruct (Req_EM_T a 0) as [->|Hnz].
    + rewrite separatrix_R, valid_params_true in Es by (unfold in_range; lra).
      rewrite Reqb_false, Reqb_true in Es by lra. injection Es as <-. apply Rlt_div_r; lra.
    + destruct (separatrix_lower a e x s ltac:(lra) He Hx Es) as [B _].
      apply Rlt_le_trans with (1 := B). apply Rmult_le_compat_r; [apply Rlt_le, Rinv_0_lt_compat|]; lra.
  - destruct (Req_EM_T a 0) as [->|Hnz].
    + rewrite separatrix_R, valid_params_true in Es by (unfold in_range; lra).
      rewrite Reqb_false, Reqb_true in Es by lra. injection Es as <-.
      assert (2 < p / (1 + e)) by (apply Rlt_div_r; lra). unfold Delta. nra.
    + destruct (separatrix_lower a e x s ltac:(lra) He Hx Es) as [B [B' _]].
      apply Rlt_le_trans with (1 := B'). apply Delta_mono. split; [lra|].
      apply Rmult_le_compat_r; [apply Rlt_le, Rinv_0_lt_compat|]; lra.
  - intros Hx0. destruct (Req_EM_T a 0) as [->|Hnz].
    + rewrite separatrix_R, valid_params_true in Es by (unfold in_range; lra).
      rewrite Reqb_false, Reqb_true in Es by lra. injection Es as <-. lra.
    + destruct (separatrix_lower a e x s ltac:(lra) He Hx Es) as [_ [_ B]]. specialize (B Hx0). lra.
  - intros ->. rewrite separatrix_R, valid_params_true in Es by (unfold in_range; lra).
    rewrite Reqb_false, Reqb_true in Es by lra. injection Es as <-. lra.
Qed.
End B.
