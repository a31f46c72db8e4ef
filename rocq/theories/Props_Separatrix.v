(** * Properties C18, C19, C20, C22: the separatrix *)
From Coq Require Import Reals Lra ZArith String List Psatz.
From Coquelicot Require Import Coquelicot.
From Verif Require Import Num Outcome External Checked ExternalSpec Model_Units Model_Constants
  P_Validation Bernstein SepPoly.
Import ListNotations.
Open Scope R_scope.

Lemma S_full_12_pos a e x : 0 <= a <= 1 -> 0 <= e <= 1 -> -1 <= x <= 1 -> 0 < S_full 12 a e x.
Proof.
  intros Ha He Hx.
  assert (H1 : 0 <= ev 3 (madd 3 b_full12 [[[-1]]]%Z) [a^2; e; x^2]).
  { apply chk3; [vm_compute; reflexivity | apply unit_sq; lra | lra | split; nra]. }
  rewrite ev_madd in H1.
  replace (ev 3 b_full12 [a^2; e; x^2]) with (S_full 12 a e x) in H1.
  - cbv [ev hd tl] in H1. lra.
  - cbv [ev hd tl b_full12]. unfold S_full. rnum. ring.
Qed.
Lemma S_equatorial_lo_pos a e : 0 <= a < 1 -> 0 <= e <= 1 -> 0 < S_equatorial (1 + e) a e.
Proof.
  intros Ha He.
  replace (S_equatorial (1 + e) a e)
    with ((1 + e)^2 * ((1 - a^2) * ((5 + e)^2 - a^2 * (3 - e)^2)))
    by (unfold S_equatorial; rnum; ring).
  assert (0 < 1 - a^2) by nra.
  assert (0 < (5 + e)^2 - a^2 * (3 - e)^2).
  { replace ((5 + e)^2 - a^2 * (3 - e)^2) with ((5+e)^2 - (3-e)^2 + (1 - a^2)*(3-e)^2) by ring.
    assert (0 <= (1 - a^2)*(3-e)^2) by (apply Rmult_le_pos; [lra | apply pow2_ge_0]).
    nra. }
  apply Rmult_lt_0_compat; [apply pow_lt; lra|]. now apply Rmult_lt_0_compat.
Qed.

(** ** C20: the three polynomials agree *)
Theorem C20_polynomials_agree :
  forall p a e x : R,
  S_full p a e (- x) = S_full p a e x /\
  S_full p a e 1 = p^8 * S_equatorial p a e /\
  S_full p a e (-1) = p^8 * S_equatorial p a e /\
  S_full p a e 0 = S_polar p a e ^ 2 /\
  S_full p 0 e x = p^10 * (p - (6 + 2*e))^2 /\
  S_polar p 0 e = p^5 * (p - (6 + 2*e)) /\
  S_equatorial p 0 e = p^2 * (p - (6 + 2*e))^2.
Proof.
  intros p a e x. repeat split.
  - unfold S_full. rnum. ring.
  - unfold S_full, S_equatorial. rnum. ring.
  - unfold S_full, S_equatorial. rnum. ring.
  - unfold S_full, S_polar. rnum. ring.
  - unfold S_full. rnum. ring.
  - unfold S_polar. rnum. ring.
  - unfold S_equatorial. rnum. ring.
Qed.
Print Assumptions C20_polynomials_agree.

Section S.
Context {X : External R}.

(** ** C18 *)
Theorem C18_schwarzschild_separatrix :
  forall e x p, 0 <= e <= 1 -> -1 <= x <= 1 ->
  separatrix (Some 0) (Some e) (Some x) = Ret (Some (6 + 2 * e)) /\
  exists b, is_stable (Some 0) (Some p) (Some e) (Some x) = Ret b /\ (b = true <-> 6 + 2 * e < p).
Proof.
  intros e x p He Hx.
  assert (E : separatrix (Some 0) (Some e) (Some x) = Ret (Some (6 + 2 * e))).
  { rewrite separatrix_lift. unfold separatrix. rewrite valid_params_true by (unfold in_range; lra).
    rnum. rewrite Reqb_false by lra. rewrite Reqb_true by reflexivity. reflexivity. }
  split; [exact E|]. unfold is_stable. rewrite E. cbn [bind]. cnum.
  destruct (Rltb_spec (6 + 2 * e) p); cbn [ifo]; eexists; (split; [reflexivity|]); split; intros; auto; lra || discriminate.
Qed.

(** ** C19 *)
Lemma separatrix_R (a e x : R) : separatrix a e x =
  ifo (Some (Reqb a 1)) (Raise (ValueError msg_extreme)) (
  ifo (onot (valid_params a e x)) (Raise (ValueError msg_range)) (
  ifo (Some (Reqb a 0)) (Ret (6 + 2 * e)) (
  bind (root_scalar (fun p => S_polar p a e) polar_lo 8) (fun p_polar =>
  ifo (Some (Reqb x 0)) (Ret p_polar) (
  bind (root_scalar (fun p => S_equatorial p a e) (1 + e) (6 + 2 * e)) (fun p_equatorial_prograde =>
  ifo (Some (Reqb x 1)) (Ret p_equatorial_prograde) (
  ifo (Some (Reqb x (-1)))
    (root_scalar (fun p => S_equatorial p a e) (6 + 2 * e) (5 + e + 4 * sqrt (1 + e))) (
  ifo (Some (Rltb 0 x)) (root_scalar (fun p => S_full p a e x) p_equatorial_prograde p_polar) (
  ifo (Some (Rltb x 0)) (root_scalar (fun p => S_full p a e x) p_polar 12) Undef))))))))).
Proof. reflexivity. Qed.
Context (HX : root_spec X).

Lemma separatrix_total a e x :
  0 <= a < 1 -> 0 <= e <= 1 -> -1 <= x <= 1 ->
  exists p, separatrix a e x = Ret p /\ 1 + e < p < 12 /\ S_full p a e x = 0 /\
    (a = 0 -> p = 6 + 2 * e) /\
    (x = 0 -> S_polar p a e = 0 /\ polar_lo <= p <= 8) /\
    (x = 1 -> S_equatorial p a e = 0 /\ 1 + e < p <= 6 + 2 * e) /\
    (x = -1 -> S_equatorial p a e = 0 /\ 6 + 2 * e <= p <= 5 + e + 4 * sqrt (1 + e)).
Proof.
  intros Ha He Hx.
  pose proof polar_lo_bounds as Hlo.
  assert (Hsq : 1 <= sqrt (1 + e) <= 15/10).
  { assert (sqrt (1+e) * sqrt (1+e) = 1 + e) by (apply sqrt_sqrt; lra).
    pose proof (sqrt_pos (1 + e)). split; nra. }
  assert (Hsq2 : sqrt (1 + e) * sqrt (1 + e) = 1 + e) by (apply sqrt_sqrt; lra).
  assert (Hret : 6 + 2 * e <= 5 + e + 4 * sqrt (1 + e) < 12) by nra.
  rewrite separatrix_R. rewrite valid_params_true by (unfold in_range; lra).
  rewrite (Reqb_false a 1) by lra. cbn [onot negb ifo].
  destruct (Reqb_spec a 0) as [->|Ha0]; cbn [ifo].
  { exists (6 + 2 * e). destruct (C20_polynomials_agree (6 + 2 * e) 0 e x) as (_ & _ & _ & _ & Z1 & Z2 & Z3).
    split; [reflexivity|]. split; [lra|]. split; [rewrite Z1; ring|]. split; [lra|].
    rewrite Z2, Z3. repeat split; intros; try lra. }
  destruct (root_ok HX (fun p => S_polar p a e) polar_lo 8 (cont_S_polar a e)) as [pp [R1 [R2 R3]]].
  { assert (H1 := S_polar_lo a e). assert (H2 := S_polar_8 a e).
    assert (S_polar polar_lo a e <= 0) by (apply H1; lra).
    assert (0 <= S_polar 8 a e) by (apply H2; lra). nra. }
  rewrite Rmin_left, Rmax_right in R3 by lra.
  rewrite R1. cbn [bind].
  destruct (C20_polynomials_agree pp a e 0) as (_ & _ & _ & Zp & _ & _ & _).
  destruct (Reqb_spec x 0) as [->|Hx0]; cbn [ifo].
  { exists pp. split; [reflexivity|]. split; [lra|]. split; [rewrite Zp, R2; ring|].
    repeat split; intros; try lra; assumption. }
  destruct (root_ok HX (fun p => S_equatorial p a e) (1 + e) (6 + 2 * e) (cont_S_equatorial a e))
    as [pe [Q1 [Q2 Q3]]].
  { assert (0 <= S_equatorial (1 + e) a e) by (apply S_equatorial_lo; lra).
    assert (S_equatorial (6 + 2 * e) a e <= 0) by (apply S_equatorial_hi; lra). nra. }
  rewrite Rmin_left, Rmax_right in Q3 by lra.
  rewrite Q1. cbn [bind].
  assert (Q4 : 1 + e < pe).
  { destruct (Req_dec pe (1 + e)) as [->|]; [|lra].
    pose proof (S_equatorial_lo_pos a e ltac:(lra) He). lra. }
  destruct (C20_polynomials_agree pe a e 0) as (_ & Ze & _ & _ & _ & _ & _).
  destruct (Reqb_spec x 1) as [->|Hx1]; cbn [ifo].
  { exists pe. split; [reflexivity|]. split; [lra|]. split; [rewrite Ze, Q2; ring|].
    repeat split; intros; try lra; assumption. }
  destruct (Reqb_spec x (-1)) as [->|Hxm]; cbn [ifo].
  { destruct (root_ok HX (fun p => S_equatorial p a e) (6 + 2 * e) (5 + e + 4 * sqrt (1 + e))
      (cont_S_equatorial a e)) as [pr [P1 [P2 P3]]].
    { assert (0 <= S_equatorial (5 + e + 4 * sqrt (1 + e)) a e) by (apply S_equatorial_retro; lra).
      assert (S_equatorial (6 + 2 * e) a e <= 0) by (apply S_equatorial_hi; lra). nra. }
    rewrite Rmin_left, Rmax_right in P3 by lra.
    destruct (C20_polynomials_agree pr a e 0) as (_ & _ & Ze' & _ & _ & _ & _).
    exists pr. split; [assumption|]. split; [lra|]. split; [rewrite Ze', P2; ring|].
    repeat split; intros; try lra; assumption. }
  assert (HP : S_full pp a e x <= 0) by (apply S_full_at_polar; lra).
  destruct (Rltb_spec 0 x) as [Hpos|Hneg]; cbn [ifo].
  { destruct (root_ok HX (fun p => S_full p a e x) pe pp (cont_S_full a e x)) as [ps [P1 [P2 P3]]].
    { assert (0 <= S_full pe a e x) by (apply S_full_at_equatorial; lra). nra. }
    exists ps. split; [assumption|].
    assert (1 + e < ps < 12).
    { split; [apply Rlt_le_trans with (Rmin pe pp); [apply Rmin_glb_lt; lra | lra]
             | apply Rle_lt_trans with (Rmax pe pp); [lra | apply Rmax_lub_lt; lra]]. }
    split; [assumption|]. repeat split; intros; try lra; assumption. }
  rewrite Rltb_true by lra. cbn [ifo].
  destruct (root_ok HX (fun p => S_full p a e x) pp 12 (cont_S_full a e x)) as [ps [P1 [P2 P3]]].
  { assert (0 <= S_full 12 a e x) by (apply S_full_12; lra). nra. }
  rewrite Rmin_left, Rmax_right in P3 by lra.
  exists ps. split; [assumption|].
  assert (ps <> 12).
  { intros ->. pose proof (S_full_12_pos a e x ltac:(lra) He Hx). lra. }
  split; [lra|]. repeat split; intros; try lra; assumption.
Qed.

Theorem C19_separatrix_total :
  forall a e x, 0 <= a < 1 -> 0 <= e <= 1 -> -1 <= x <= 1 ->
  exists p, separatrix (Some a) (Some e) (Some x) = Ret (Some p) /\
    1 + e < p < 12 /\ S_full p a e x = 0 /\
    (a = 0 -> p = 6 + 2 * e) /\
    (x = 0 -> S_polar p a e = 0 /\ polar_lo <= p <= 8) /\
    (x = 1 -> S_equatorial p a e = 0 /\ 1 + e < p <= 6 + 2 * e) /\
    (x = -1 -> S_equatorial p a e = 0 /\ 6 + 2 * e <= p <= 5 + e + 4 * sqrt (1 + e)).
Proof.
  intros a e x Ha He Hx. destruct (separatrix_total a e x Ha He Hx) as [p [E H]].
  exists p. rewrite separatrix_lift, E. auto.
Qed.

(** outside the domain: ValueError, never a number *)
Theorem C19_separatrix_rejects :
  forall a e x, ~ (0 <= a < 1 /\ 0 <= e <= 1 /\ -1 <= x <= 1) ->
  separatrix (Some a) (Some e) (Some x)
  = Raise (ValueError (if Req_EM_T a 1 then msg_extreme else msg_range)).
Proof.
  intros a e x H. rewrite separatrix_lift, separatrix_R.
  destruct (Req_EM_T a 1) as [->|Ha].
  - rewrite Reqb_true by reflexivity. reflexivity.
  - rewrite Reqb_false by assumption. cbn [ifo].
    rewrite valid_params_false by (unfold in_range; lra). reflexivity.
Qed.

(** ** C22 *)
Theorem C22_is_stable_above_separatrix :
  forall a e x, 0 <= a < 1 -> 0 <= e <= 1 -> -1 <= x <= 1 ->
  exists s, separatrix (Some a) (Some e) (Some x) = Ret (Some s) /\
    forall p, is_stable (Some a) (Some p) (Some e) (Some x)
              = Ret (if Rlt_dec s p then true else false).
Proof.
  intros a e x Ha He Hx. destruct (C19_separatrix_total a e x Ha He Hx) as [s [E _]].
  exists s. split; [exact E|]. intros p. unfold is_stable. rewrite E. cbn [bind]. cnum.
  unfold Rltb. destruct (Rlt_dec s p); reflexivity.
Qed.

Theorem C22_upward_closed :
  forall a p p' e x,
  is_stable (Some a) (Some p) (Some e) (Some x) = Ret true -> p <= p' ->
  is_stable (Some a) (Some p') (Some e) (Some x) = Ret true.
Proof.
  intros a p p' e x. unfold is_stable. rewrite separatrix_lift.
  destruct (separatrix a e x) as [s| |]; cbn [lift bind]; try discriminate.
  cnum. destruct (Rltb_spec s p); cbn [ifo]; try discriminate.
  intros _ Hp. rewrite Rltb_true by lra. reflexivity.
Qed.

(** for arguments of any kind, is_stable fails exactly as separatrix does *)
Theorem C22_raises_as_separatrix :
  forall a e x, ~ (0 <= a < 1 /\ 0 <= e <= 1 /\ -1 <= x <= 1) ->
  exists msg, separatrix (Some a) (Some e) (Some x) = Raise (ValueError msg) /\
  forall p, is_stable (Some a) (Some p) (Some e) (Some x) = Raise (ValueError msg).
Proof.
  intros a e x H. eexists. split; [now apply C19_separatrix_rejects|].
  intros p. unfold is_stable. rewrite C19_separatrix_rejects by assumption. reflexivity.
Qed.
End S.
Print Assumptions C18_schwarzschild_separatrix.
Print Assumptions C19_separatrix_total.
Print Assumptions C19_separatrix_rejects.
Print Assumptions C22_is_stable_above_separatrix.
Print Assumptions C22_upward_closed.
Print Assumptions C22_raises_as_separatrix.

(** the hypotheses are met: a root finder with [root_spec] exists and the domain
    contains e.g. a = 0.9, e = 0.3, x = 0.5 *)
Example C19_example (X : External R) :
  exists Y : External R, root_spec Y /\
  exists p, @separatrix _ _ (checked Y) (Some (9/10)) (Some (3/10)) (Some (1/2)) = Ret (Some p)
            /\ 13/10 < p < 12.
Proof.
  exists (with_choice X). split; [apply root_spec_satisfiable|].
  destruct (C19_separatrix_total (X := with_choice X) (root_spec_satisfiable X)
    (9/10) (3/10) (1/2)) as [p [E [H _]]]; try lra.
  exists p. split; [exact E | lra].
Qed.
