(** * The complex-root plunge: real analysis of the functions of plunge.py *)
From Coq Require Import Reals Lra Lia ZArith String List Psatz.
From Coquelicot Require Import Coquelicot.
From Verif Require Import Num Outcome External Checked ExternalSpec Spec SpecElliptic Elliptic
  Model_Units Model_Constants Model_Frequencies Model_Stable Model_Plunge
  Props_Elliptic P_Radial P_Polar P_Traj.
Import ListNotations.
Open Scope R_scope.

Lemma sqrt_sq_le x y : 0 <= x -> 0 <= y -> x^2 <= y^2 -> x <= y.
Proof. intros. nra. Qed.

(** ** radial motion between two real roots with a complex pair *)
Section PRadial.
Context (r1 r2 u v : R) (Hr : r1 <= r2) (Hv : 0 < v).
Definition pA : R := sqrt ((r2 - u)^2 + v^2).
Definition pB : R := sqrt ((r1 - u)^2 + v^2).
Lemma vsq : 0 < v^2. Proof. apply pow_lt. assumption. Qed.
Lemma A_arg : 0 < (r2 - u)^2 + v^2. Proof. pose proof (pow2_ge_0 (r2 - u)). pose proof vsq. lra. Qed.
Lemma B_arg : 0 < (r1 - u)^2 + v^2. Proof. pose proof (pow2_ge_0 (r1 - u)). pose proof vsq. lra. Qed.
Lemma pA_pos : 0 < pA. Proof. apply sqrt_lt_R0, A_arg. Qed.
Lemma pB_pos : 0 < pB. Proof. apply sqrt_lt_R0, B_arg. Qed.
Lemma pA_sq : pA^2 = (r2 - u)^2 + v^2. Proof. apply pow2_sqrt, Rlt_le, A_arg. Qed.
Lemma pB_sq : pB^2 = (r1 - u)^2 + v^2. Proof. apply pow2_sqrt, Rlt_le, B_arg. Qed.
Local Notation W := ((r1 - u) * (r2 - u) + v^2).
Lemma AB_sq : (pA * pB)^2 = W^2 + v^2 * (r2 - r1)^2.
Proof. rewrite Rpow_mult_distr, pA_sq, pB_sq. ring. Qed.
Lemma AB_ge : W <= pA * pB.
Proof.
  pose proof AB_sq as H. pose proof (Rmult_lt_0_compat _ _ pA_pos pB_pos) as P.
  assert (0 <= v^2 * (r2 - r1)^2) by (apply Rmult_le_pos; apply pow2_ge_0).
  destruct (Rle_dec W 0); [lra|]. apply sqrt_sq_le; lra.
Qed.
Lemma AB_gt : 0 < pA * pB + W.
Proof.
  pose proof AB_sq as H. pose proof (Rmult_lt_0_compat _ _ pA_pos pB_pos) as P.
  destruct (Rle_dec 0 W) as [Q|Q]; [lra|].
  assert (N : r1 <> r2).
  { intros ->. pose proof (pow2_ge_0 (r2 - u)). pose proof vsq. apply Q. simpl in *. lra. }
  assert (K : 0 < v^2 * (r2 - r1)^2) by (apply Rmult_lt_0_compat; [apply vsq | apply pow2_gt_0; lra]).
  set (w := W) in *. set (z := pA * pB) in *. clearbody w z. nra.
Qed.
Definition pk2 : R := ((r2 - r1)^2 - (pA - pB)^2) / (4 * pA * pB).
Lemma den_pos : 0 < 4 * pA * pB. Proof. pose proof (Rmult_lt_0_compat _ _ pA_pos pB_pos). lra. Qed.
Lemma pk2_bounds : 0 <= pk2 < 1.
Proof.
  pose proof den_pos as D. pose proof AB_ge as G. pose proof AB_gt as G'. pose proof pA_sq as A2. pose proof pB_sq as B2.
  unfold pk2. split.
  - apply Rdiv_le_0_compat; [|assumption]. replace ((pA - pB)^2) with (pA^2 + pB^2 - 2 * (pA * pB)) by ring.
    rewrite A2, B2. lra.
  - apply (Rmult_lt_reg_r (4 * pA * pB)); [assumption|]. unfold Rdiv. rewrite Rmult_assoc, Rinv_l, Rmult_1_r by lra.
    replace ((pA - pB)^2) with (pA^2 + pB^2 - 2 * (pA * pB)) by ring. rewrite A2, B2. lra.
Qed.
Definition pden (c : R) : R := pA * (1 + c) + pB * (1 - c).
Lemma pden_pos c : -1 <= c <= 1 -> 0 < pden c.
Proof. intros H. unfold pden. pose proof pA_pos. pose proof pB_pos. nra. Qed.
(** the radius as a function of cos(xi) *)
Definition prx (c : R) : R := (pA * r1 * (1 + c) + pB * r2 * (1 - c)) / pden c.
Lemma prx_low c : -1 <= c <= 1 -> prx c - r1 = pB * (1 - c) * (r2 - r1) / pden c.
Proof. intros H. pose proof (pden_pos c H). unfold prx, pden in *. field. lra. Qed.
Lemma prx_high c : -1 <= c <= 1 -> r2 - prx c = pA * (1 + c) * (r2 - r1) / pden c.
Proof. intros H. pose proof (pden_pos c H). unfold prx, pden in *. field. lra. Qed.
Lemma prx_bounds c : -1 <= c <= 1 -> r1 <= prx c <= r2.
Proof.
  intros H. pose proof (pden_pos c H) as D. pose proof pA_pos. pose proof pB_pos.
  pose proof (prx_low c H) as L. pose proof (prx_high c H) as G.
  assert (0 <= pB * (1 - c) * (r2 - r1) / pden c).
  { apply Rdiv_le_0_compat; [|assumption]. repeat apply Rmult_le_pos; lra. }
  assert (0 <= pA * (1 + c) * (r2 - r1) / pden c).
  { apply Rdiv_le_0_compat; [|assumption]. repeat apply Rmult_le_pos; lra. }
  lra.
Qed.
Lemma prx_quad c : -1 <= c <= 1 ->
  (prx c - u)^2 + v^2 = 4 * pA^2 * pB^2 * (1 - pk2 * (1 - c^2)) / pden c ^ 2.
Proof.
  intros H. pose proof (pden_pos c H) as D. pose proof den_pos as D4. pose proof pA_pos. pose proof pB_pos.
  assert (K : 4 * pA * pB * pk2 = (r2 - r1)^2 - (pA - pB)^2) by (unfold pk2; field; lra).
  assert (S : 2 * W = pA^2 + pB^2 - (r2 - r1)^2) by (rewrite pA_sq, pB_sq; ring).
  transitivity (((pA * (1 + c) * (r1 - u) + pB * (1 - c) * (r2 - u))^2 + v^2 * (pden c)^2) / pden c ^ 2).
  { unfold prx, pden in *. field. lra. }
  f_equal.
  transitivity ((1 + c)^2 * pA^2 * ((r1 - u)^2 + v^2) + (1 - c)^2 * pB^2 * ((r2 - u)^2 + v^2)
    + pA * pB * (1 - c^2) * (2 * W)); [unfold pden; ring|].
  rewrite <- pA_sq, <- pB_sq, S.
  transitivity (4 * pA^2 * pB^2 - pA * pB * (1 - c^2) * (4 * pA * pB * pk2)); [rewrite K; ring | ring].
Qed.
(** the expression of the code (equation 49) *)
Lemma prx_code s c : s^2 = 1 - c^2 -> -1 <= c <= 1 ->
  4 * pA * pB + (pA - pB)^2 * s^2 <> 0 /\
  ((pA - pB) * (pA * r1 - pB * r2) * s^2 + 2 * pA * pB * (r1 + r2) - 2 * pA * pB * (r2 - r1) * c)
  / (4 * pA * pB + (pA - pB)^2 * s^2) = prx c.
Proof.
  intros Hs H. pose proof (pden_pos c H) as D. pose proof (pden_pos (- c) ltac:(lra)) as D'.
  assert (F : 4 * pA * pB + (pA - pB)^2 * s^2 = pden c * pden (- c)) by (rewrite Hs; unfold pden; ring).
  rewrite F. split; [apply Rgt_not_eq; now apply Rmult_lt_0_compat|].
  rewrite Hs. unfold prx. apply Rmult_eq_reg_r with (pden c * pden (-c)); [|apply Rgt_not_eq; now apply Rmult_lt_0_compat].
  transitivity ((pA * r1 * (1 + c) + pB * r2 * (1 - c)) * pden (-c)).
  - unfold Rdiv. rewrite Rmult_assoc, Rinv_l, Rmult_1_r by (apply Rgt_not_eq; now apply Rmult_lt_0_compat).
    unfold pden. ring.
  - field. lra.
Qed.
Context (w : R) (xi : R -> R) (Hxi : forall q, is_derive xi q (w * sqrt (dl pk2 (xi q)))).
Definition pr (q : R) : R := prx (cos (xi q)).
Lemma pr_bounds q : r1 <= pr q <= r2.
Proof. apply prx_bounds, COS_bound. Qed.
Definition pr' (q : R) : R := w * sqrt (dl pk2 (xi q)) * sin (xi q) * (2 * pA * pB * (r2 - r1)) / pden (cos (xi q)) ^ 2.
Lemma pr_derive q : is_derive pr q (pr' q).
Proof.
  pose proof (pden_pos (cos (xi q)) (COS_bound _)) as D. specialize (Hxi q).
  set (dx := w * sqrt (dl pk2 (xi q))) in *.
  unfold pr, prx, pden in *. auto_derive.
  - repeat split; try (eexists; exact Hxi); try lra.
  - rewrite (is_derive_unique (fun x : R => xi x) _ _ Hxi). unfold pr', pden. fold dx. field. lra.
Qed.
Lemma pr_ode q c f : (f * w)^2 = pA * pB * c ->
  (f * pr' q)^2 = c * (r2 - pr q) * (pr q - r1) * ((pr q - u)^2 + v^2).
Proof.
  intros Hf. unfold pr. pose proof (COS_bound (xi q)) as B. pose proof (pden_pos _ B) as D.
  rewrite prx_high, prx_low, prx_quad by assumption.
  pose proof (pow2_sqrt (dl pk2 (xi q)) (Rlt_le _ _ (dl_pos pk2 (xi q) (proj2 pk2_bounds)))) as Q.
  unfold pr'. set (d := sqrt (dl pk2 (xi q))) in *.
  transitivity ((f * w)^2 * d^2 * sin (xi q) ^ 2 * (2 * pA * pB * (r2 - r1))^2 / pden (cos (xi q)) ^ 4); [field; lra|].
  rewrite Hf, Q. unfold dl. pose proof (cos2_sin2 (xi q)) as C.
  replace (sin (xi q) ^ 2) with (1 - cos (xi q) ^ 2) by lra. field. lra.
Qed.
End PRadial.

(** ** the polar roots used for plunging orbits *)
Section PPolar.
Context (a E L Q : R) (Ha : a <> 0) (HE : E^2 < 1) (HL : L <> 0) (HQ : 0 <= Q).
Local Notation b := (a^2 * (1 - E^2)).
Lemma pb_pos : 0 < b. Proof. apply Rmult_lt_0_compat; [now apply pow2_gt_0 | lra]. Qed.
Local Notation S := (1 + (L^2 + Q) / b).
Local Notation D := (S^2 - 4 * Q / b).
Lemma pl_pos : 0 < L^2 / b. Proof. apply Rdiv_lt_0_compat; [now apply pow2_gt_0 | apply pb_pos]. Qed.
Lemma pq_pos : 0 <= Q / b. Proof. apply Rdiv_le_0_compat; [assumption | apply pb_pos]. Qed.
Lemma D_form : D = (1 - Q / b)^2 + 2 * (L^2 / b) * (1 + Q / b) + (L^2 / b)^2.
Proof. pose proof pb_pos. field. split; [lra|assumption]. Qed.
Lemma D_pos : 0 < D.
Proof.
  rewrite D_form. pose proof pl_pos. pose proof pq_pos. pose proof (pow2_ge_0 (1 - Q / b)).
  pose proof (pow2_ge_0 (L^2 / b)). assert (0 < L^2 / b * (1 + Q / b)) by (apply Rmult_lt_0_compat; lra). lra.
Qed.
Definition pzm : R := 1 / 2 * (S - sqrt D).
Definition pzp : R := 1 / 2 * (S + sqrt D).
Lemma pz_sum : pzm + pzp = S. Proof. unfold pzm, pzp. lra. Qed.
Lemma pz_prod : pzm * pzp = Q / b.
Proof.
  unfold pzm, pzp. pose proof (pow2_sqrt D (Rlt_le _ _ D_pos)) as W. set (w := sqrt D) in *.
  transitivity (1/4 * (S^2 - w^2)); [field; pose proof pb_pos; split; [lra|assumption]|]. rewrite W. pose proof pb_pos. field. split; [lra|assumption].
Qed.
Lemma pz_order : 0 <= pzm < 1 /\ 1 < pzp.
Proof.
  pose proof pl_pos. pose proof pq_pos. pose proof (sqrt_lt_R0 D D_pos) as W0.
  pose proof pz_sum as S1. pose proof pz_prod as P1.
  assert (SS : S = 1 + L^2 / b + Q / b) by (unfold Rdiv; ring). rewrite SS in S1.
  assert (O : pzm < pzp) by (unfold pzm, pzp; lra).
  (* (1 - zm)(1 - zp) = - L^2/b < 0 *)
  assert (N : (1 - pzm) * (pzp - 1) = L^2 / b) by (transitivity (pzm + pzp - 1 - pzm * pzp); [ring | rewrite P1; lra]).
  assert (A : pzm < 1 /\ 1 < pzp).
  { destruct (Rlt_dec pzm 1) as [K|K].
    - split; [assumption|]. apply Rnot_le_lt. intros K'. pose proof (Rmult_le_pos (1 - pzm) (1 - pzp) ltac:(lra) ltac:(lra)). lra.
    - exfalso. pose proof (Rmult_le_pos (pzm - 1) (pzp - 1) ltac:(lra) ltac:(lra)). lra. }
  destruct A as [A1 A2]. repeat split; try assumption.
  apply Rnot_lt_le. intros K. pose proof (Rmult_lt_0_compat (- pzm) pzp ltac:(lra) ltac:(lra)). lra.
Qed.
Lemma b_nz : b <> 0. Proof. apply Rgt_not_eq, pb_pos. Qed.
Lemma z1_run : plunge_z1 (Some a) (Some E) (Some L) (Some Q) = Some (sqrt pzm).
Proof.
  unfold plunge_z1. cnum. rewrite !cdiv_some by (apply b_nz || lra). rewrite (csqrt_some D) by (apply Rlt_le, D_pos).
  apply csqrt_some. apply pz_order.
Qed.
Lemma z2_run : plunge_z2 (Some a) (Some E) (Some L) (Some Q) = Some (sqrt (b * pzp)).
Proof.
  unfold plunge_z2. cnum. rewrite !cdiv_some by (apply b_nz || lra). rewrite (csqrt_some D) by (apply Rlt_le, D_pos).
  rewrite csqrt_some.
  - f_equal. f_equal. unfold pzp. field. split; [pose proof pb_pos; lra|assumption].
  - pose proof pz_order. pose proof pb_pos.
    replace (b / 2 * (S + sqrt D)) with (b * pzp) by (unfold pzp; field; split; [lra|assumption]).
    apply Rmult_le_pos; lra.
Qed.
Definition pbeta : R := b * pzp.
Lemma pbeta_pos : 0 < pbeta. Proof. pose proof pz_order. apply Rmult_lt_0_compat; [apply pb_pos | lra]. Qed.
Lemma pkt : 0 <= kt2 b pzm pbeta < 1.
Proof.
  pose proof pz_order as [[Z0 Z1] Z2]. pose proof pb_pos as B.
  assert (K : kt2 b pzm pbeta = pzm / pzp) by (unfold kt2, pbeta; field; repeat split; lra).
  rewrite K. split; [apply Rdiv_le_0_compat; lra|]. apply Rmult_lt_reg_r with pzp; [lra|].
  unfold Rdiv. rewrite Rmult_assoc, Rinv_l, Rmult_1_r; lra.
Qed.
Lemma k_run : plunge_k_theta (Some a) (Some E) (Some L) (Some Q)
  = Some (a * sqrt (1 - E^2) * sqrt pzm / sqrt pbeta).
Proof.
  unfold plunge_k_theta. rewrite z1_run, z2_run. cnum. rewrite csqrt_some by lra.
  rewrite cdiv_some; [reflexivity|]. apply Rgt_not_eq, sqrt_lt_R0, pbeta_pos.
Qed.
Lemma k_sq : (a * sqrt (1 - E^2) * sqrt pzm / sqrt pbeta)^2 = kt2 b pzm pbeta.
Proof.
  pose proof pbeta_pos as B. pose proof (sqrt_lt_R0 _ B) as B'. pose proof pz_order as [[Z0 Z1] Z2].
  transitivity (a^2 * sqrt (1 - E^2)^2 * sqrt pzm ^ 2 / sqrt pbeta ^ 2); [field; lra|].
  rewrite !pow2_sqrt by lra. unfold kt2. reflexivity.
Qed.
Lemma p_factor z : polar_polynomial a E L Q z = (pzm - z) * (pbeta - b * z).
Proof.
  pose proof pz_sum as S1. pose proof pz_prod as P1. pose proof pb_pos as B.
  transitivity (b * (pzm * pzp - (pzm + pzp) * z + z^2)); [|unfold pbeta; ring].
  rewrite S1, P1. unfold polar_polynomial. field. split; [lra | assumption].
Qed.
End PPolar.
