(** * The last stable orbit as a function of the periastron

    Not a model of any code: the algebra behind C17, C21 and C23.  With
    b = a x, k = a^2 (1 - x^2), q = p/(1+e), c = (1+e)/(1-e), an orbit whose
    periastron q is a double root of the radial potential has b = bc c k q; this
    critical b decreases with q, and an orbit with b > bc c k q is bound with
    r3 < r2. *)
From Coq Require Import Reals Lra Psatz.
From Coquelicot Require Import Coquelicot.
Open Scope R_scope.

Definition dd (c t : R) : R := c^2 + 2*c - t*(c^2 + 2*c + 3) - t^2.
Definition vg (c t : R) : R := c - 3*t*(c + 1) + t^2.
Definition om (c t : R) : R := 2*(c - t*(c + 2)).
Definition TT (c t : R) : R :=
  3*c^3*t^2 - 4*c^3*t + c^3 + c^2*t^3 + 2*c^2*t^2 - 5*c^2*t + 2*c^2
  + 9*c*t^3 - 8*c*t^2 - 9*c*t - 3*t^4 + 8*t^3 + 3*t^2.
Definition gg (c t : R) : R :=
  -3*c^4*t + c^4 - 6*c^3*t + 2*c^3 - 6*c^2*t^2 - 6*c^2*t + 2*c*t^3 - 6*c*t^2 + t^3 - 3*t^2.
Definition dom (c t : R) : Prop := 1 <= c /\ 0 <= t < 1 /\ 0 < vg c t.

Lemma dom_third c t : dom c t -> t < 1/3.
Proof.
  intros [Hc [Ht Hv]]. unfold vg in Hv. destruct (Rlt_dec t (1/3)); [assumption|exfalso].
  assert (t^2 - t <= 0) by nra. nra.
Qed.
Lemma dom_dd c t : dom c t -> 0 < dd c t.
Proof.
  intros H. pose proof (dom_third _ _ H). destruct H as [Hc [Ht Hv]].
  assert (E : dd c t = (c^2 + 2*c) * (1 - t) - 3*t - t^2) by (unfold dd; ring).
  assert (3 <= c^2 + 2*c) by nra.
  assert (3 * (1 - t) <= (c^2 + 2*c) * (1 - t)) by (apply Rmult_le_compat_r; lra). nra.
Qed.
Lemma dom_om c t : dom c t -> 0 < om c t.
Proof.
  intros H. pose proof (dom_third _ _ H). destruct H as [Hc [Ht Hv]].
  assert (E : om c t = 2 * (vg c t + t * (2*c + 1 - t))) by (unfold om, vg; ring).
  assert (0 <= t * (2*c + 1 - t)) by (apply Rmult_le_pos; lra). lra.
Qed.
Lemma dom_TT c t : dom c t -> 0 < TT c t.
Proof.
  intros H. pose proof (dom_third _ _ H). destruct H as [Hc [Ht Hv]].
  assert (E : TT c t = vg c t * ((1 - t^2) * (3*c))
     + (c - 1) * (c^2 * (1 - t) * (1 - 3*t) + t^2 * (8 * (c - 1) * (1 - t) + (1 - 3*t) * (5 - t))))
    by (unfold TT, vg; ring).
  rewrite E. apply Rplus_lt_le_0_compat.
  - apply Rmult_lt_0_compat; [assumption|]. apply Rmult_lt_0_compat; nra.
  - apply Rmult_le_pos; [lra|]. apply Rplus_le_le_0_compat.
    + apply Rmult_le_pos; [apply Rmult_le_pos; [apply pow2_ge_0|lra]|lra].
    + apply Rmult_le_pos; [apply pow2_ge_0|]. apply Rplus_le_le_0_compat; apply Rmult_le_pos; lra.
Qed.
Lemma dom_gg c t : dom c t -> 0 < gg c t.
Proof.
  intros H. pose proof (dom_third _ _ H). destruct H as [Hc [Ht Hv]].
  assert (E : gg c t = vg c t * ((1 + t) * (3*c^2))
     + (c - 1) * (c^2 * (1 - 3*t) * (c - 3*t) + t^2 * (3 - t) * (3*c + 1)))
    by (unfold gg, vg; ring).
  rewrite E. assert (0 < c^2) by (apply pow_lt; lra). apply Rplus_lt_le_0_compat.
  - apply Rmult_lt_0_compat; [assumption|]. apply Rmult_lt_0_compat; lra.
  - apply Rmult_le_pos; [lra|]. apply Rplus_le_le_0_compat.
    + apply Rmult_le_pos; [apply Rmult_le_pos; lra|lra].
    + apply Rmult_le_pos; [apply Rmult_le_pos; [apply pow2_ge_0|lra]|lra].
Qed.
Lemma dom_down c t t' : dom c t -> 0 <= t' <= t -> dom c t'.
Proof.
  intros [Hc [Ht Hv]] H. refine (conj Hc (conj _ _)); [lra|].
  assert (E : vg c t' = vg c t + (t - t') * (3*(c+1) - t - t')) by (unfold vg; ring).
  assert (0 <= (t - t') * (3*(c+1) - t - t')) by (apply Rmult_le_pos; lra). lra.
Qed.

(** ** critical b *)
Definition UU (c k q : R) : R :=
  let t := k / q^2 in 4*(c+1)^2*(c-t)^2*(1-t)*q / dd c t ^ 2.
Definition VV (c k q : R) : R :=
  let t := k / q^2 in (1+t)^2*(c^2+t)*q*((q-1)*dd c t + (1-t)*(c^2+t)) / dd c t ^ 2.
Definition bc (c k q : R) : R := sqrt (UU c k q) - sqrt (VV c k q).

Lemma UU_pos c k q : 0 < q -> dom c (k / q^2) -> 0 < UU c k q.
Proof.
  intros Hq H. pose proof (dom_third _ _ H). pose proof (dom_dd _ _ H).
  destruct H as [Hc [Ht Hv]]. unfold UU. cbv zeta. set (t := k / q^2) in *.
  apply Rdiv_lt_0_compat; [|apply pow_lt; assumption].
  repeat apply Rmult_lt_0_compat; try lra; apply pow_lt; lra.
Qed.
Lemma VV_pos c k q : 1 <= q -> dom c (k / q^2) -> 0 < VV c k q.
Proof.
  intros Hq H. pose proof (dom_third _ _ H). pose proof (dom_dd _ _ H).
  destruct H as [Hc [Ht Hv]]. unfold VV. cbv zeta. set (t := k / q^2) in *.
  assert (0 < c^2) by (apply pow_lt; lra).
  apply Rdiv_lt_0_compat; [|apply pow_lt; assumption].
  apply Rmult_lt_0_compat.
  - repeat apply Rmult_lt_0_compat; try lra.
  - assert (0 <= (q - 1) * dd c t) by (apply Rmult_le_pos; lra).
    assert (0 < (1 - t) * (c^2 + t)) by (apply Rmult_lt_0_compat; lra). lra.
Qed.

Definition dU (c t : R) : R := 4*(c-t)*(c+1)^2*TT c t / dd c t ^ 3.
Definition dV (c t q : R) : R :=
  (2*(1+t)*(c^2+t)*(c+1)*TT c t + (q-1)*(2*(1+t)*gg c t*dd c t)) / dd c t ^ 3.

Lemma UU_derive c k q : 0 < q -> dd c (k / q^2) <> 0 ->
  is_derive (UU c k) q (dU c (k / q^2)).
Proof.
  intros Hq Hd. unfold UU, dU. cbv zeta.
  assert (Hq2 : q^2 <> 0) by (apply pow_nonzero; lra).
  assert (Hd2 : dd c (k / q^2) ^ 2 <> 0) by (apply pow_nonzero; assumption).
  unfold dd in *. auto_derive.
  - assert (N : q * (q * 1) <> 0) by (intro K; apply Hq2; rewrite <- K; ring).
    repeat match goal with |- _ /\ _ => apply conj end; try exact N; try exact I.
    intro K. apply Hd2. rewrite <- K. unfold Rdiv. replace (q^2) with (q * (q * 1)) by ring. ring.
  - unfold TT. field. split; [lra|]. intro K. apply Hd.
    apply (Rmult_eq_reg_l (q^4)); [|apply pow_nonzero; lra]. rewrite Rmult_0_r, <- K. field. lra.
Qed.
Lemma VV_derive c k q : 0 < q -> dd c (k / q^2) <> 0 ->
  is_derive (VV c k) q (dV c (k / q^2) q).
Proof.
  intros Hq Hd. unfold VV, dV. cbv zeta.
  assert (Hq2 : q^2 <> 0) by (apply pow_nonzero; lra).
  assert (Hd2 : dd c (k / q^2) ^ 2 <> 0) by (apply pow_nonzero; assumption).
  unfold dd in *. auto_derive.
  - assert (N : q * (q * 1) <> 0) by (intro K; apply Hq2; rewrite <- K; ring).
    repeat match goal with |- _ /\ _ => apply conj end; try exact N; try exact I.
    intro K. apply Hd2. rewrite <- K. unfold Rdiv. replace (q^2) with (q * (q * 1)) by ring. ring.
  - unfold TT, gg. field. split; [lra|]. intro K. apply Hd.
    apply (Rmult_eq_reg_l (q^4)); [|apply pow_nonzero; lra]. rewrite Rmult_0_r, <- K. field. lra.
Qed.

(** ** bc decreases *)
Lemma slopes c k q : 1 < q -> dom c (k / q^2) ->
  let t := k / q^2 in
  0 < dV c t q /\ dU c t ^ 2 * VV c k q < dV c t q ^ 2 * UU c k q.
Proof.
  intros Hq H. cbv zeta. pose proof (dom_third _ _ H) as H3. pose proof (dom_dd _ _ H) as Hd.
  pose proof (dom_TT _ _ H) as HT. pose proof (dom_gg _ _ H) as Hg.
  destruct H as [Hc [Ht Hv]]. unfold UU, VV. cbv zeta. set (t := k / q^2) in *. clearbody t.
  assert (Hc2 : 0 < c^2) by (apply pow_lt; lra).
  split.
  - unfold dV. apply Rdiv_lt_0_compat; [|apply pow_lt; assumption]. apply Rplus_lt_0_compat.
    + repeat apply Rmult_lt_0_compat; lra.
    + repeat apply Rmult_lt_0_compat; lra.
  - apply Rminus_gt_0_lt.
    replace (dV c t q ^ 2 * (4 * (c + 1) ^ 2 * (c - t) ^ 2 * (1 - t) * q / dd c t ^ 2)
       - dU c t ^ 2 * ((1 + t) ^ 2 * (c ^ 2 + t) * q * ((q - 1) * dd c t + (1 - t) * (c ^ 2 + t)) / dd c t ^ 2))
      with (q * (q - 1) * (4*(c+1)^2*(c-t)^2) * (1+t)^2 *
         ((q - 1) * ((1 - t) * (2 * gg c t) ^ 2) + 4 * (c - 1) * TT c t * (c^2+t)*(c+1)*vg c t) / dd c t ^ 6).
    + apply Rdiv_lt_0_compat; [|apply pow_lt; assumption].
      assert (0 < (c - t)^2) by (apply pow_lt; lra). assert (0 < (c+1)^2) by (apply pow_lt; lra).
      assert (0 < (1+t)^2) by (apply pow_lt; lra). assert (0 < (2 * gg c t)^2) by (apply pow_lt; lra).
      repeat apply Rmult_lt_0_compat; try lra.
      apply Rplus_lt_le_0_compat; [repeat apply Rmult_lt_0_compat; lra|].
      repeat apply Rmult_le_pos; lra.
    + unfold dU, dV, dd, gg, TT, vg in *. field. apply Rgt_not_eq. exact Hd.
Qed.

Lemma bc_derive c k q : 1 < q -> dom c (k / q^2) ->
  exists l, is_derive (bc c k) q l /\ l < 0.
Proof.
  intros Hq H. destruct (slopes c k q Hq H) as [S1 S2].
  pose proof (UU_pos c k q ltac:(lra) H) as HU. pose proof (VV_pos c k q ltac:(lra) H) as HV.
  pose proof (dom_dd _ _ H) as Hd. set (t := k / q^2) in *.
  exists (dU c t / (2 * sqrt (UU c k q)) - dV c t q / (2 * sqrt (VV c k q))). split.
  - unfold bc. apply @is_derive_minus; apply is_derive_Reals.
    + apply is_derive_Reals. apply is_derive_sqrt; [apply UU_derive; [lra|fold t; lra]|exact HU].
    + apply is_derive_Reals. apply is_derive_sqrt; [apply VV_derive; [lra|fold t; lra]|exact HV].
  - assert (Hu : 0 < sqrt (UU c k q)) by (apply sqrt_lt_R0; exact HU).
    assert (Hw : 0 < sqrt (VV c k q)) by (apply sqrt_lt_R0; exact HV).
    assert (Hu2 : sqrt (UU c k q) ^ 2 = UU c k q) by (apply pow2_sqrt; lra).
    assert (Hw2 : sqrt (VV c k q) ^ 2 = VV c k q) by (apply pow2_sqrt; lra).
    rewrite <- Hu2, <- Hw2 in S2. set (u := sqrt (UU c k q)) in *. set (w := sqrt (VV c k q)) in *.
    assert (K : dU c t * w < dV c t q * u).
    { destruct (Rle_dec (dU c t) 0) as [Hn|Hn].
      - assert (dU c t * w <= 0) by nra. assert (0 < dV c t q * u) by (apply Rmult_lt_0_compat; lra). lra.
      - apply Rsqr_incrst_0.
        + unfold Rsqr. nra.
        + apply Rmult_le_pos; lra.
        + apply Rmult_le_pos; lra. }
    replace (dU c t / (2 * u) - dV c t q / (2 * w)) with (- ((dV c t q * u - dU c t * w) / (2 * u * w)))
      by (field; lra).
    assert (0 < (dV c t q * u - dU c t * w) / (2 * u * w)).
    { apply Rdiv_lt_0_compat; [lra|]. repeat apply Rmult_lt_0_compat; lra. }
    lra.
Qed.

Lemma t_down k q q' : 0 <= k -> 0 < q <= q' -> 0 <= k / q'^2 <= k / q^2.
Proof.
  intros Hk Hq. assert (0 < q^2) by (apply pow_lt; lra). assert (0 < q'^2) by (apply pow_lt; lra).
  split; [apply Rmult_le_pos; [lra|left; apply Rinv_0_lt_compat; assumption]|].
  apply Rmult_le_compat_l; [lra|]. apply Rinv_le_contravar; [assumption|]. apply pow_incr; lra.
Qed.

Lemma bc_decreases c k q q' : 0 <= k -> 1 < q < q' -> dom c (k / q^2) -> bc c k q' < bc c k q.
Proof.
  intros Hk Hq H.
  assert (D : forall s, q <= s <= q' -> exists l, is_derive (bc c k) s l /\ l < 0).
  { intros s Hs. apply bc_derive; [lra|]. apply dom_down with (1 := H). apply t_down; lra. }
  destruct (MVT_gen (bc c k) q q' (Derive (bc c k))) as [s [Hs Es]].
  - intros s Hs. rewrite Rmin_left, Rmax_right in Hs by lra.
    destruct (D s ltac:(lra)) as [l [Dl _]]. apply Derive_correct. exists l. exact Dl.
  - intros s Hs. rewrite Rmin_left, Rmax_right in Hs by lra.
    destruct (D s ltac:(lra)) as [l [Dl _]]. apply continuity_pt_filterlim.
    apply (ex_derive_continuous (bc c k) s). exists l. exact Dl.
  - rewrite Rmin_left, Rmax_right in Hs by lra.
    destruct (D s ltac:(lra)) as [l [Dl Ll]]. rewrite (is_derive_unique _ _ _ Dl) in Es. nra.
Qed.

(** ** the separatrix polynomial *)
Definition At (c t q : R) : R := dd c t - om c t / q.
Definition Yt (c t q : R) : R := q^2 * (c^2 + t) * (1 + t)^2.
Definition Mt (c t q B : R) : R :=
  - om c t * q * (1 + t) + 2*q*dd c t + 2*q*(c^2+t)*(1+t) - q^2*(c^2+t)*(1+t)^2 - B * dd c t.
Definition SS (c t q B : R) : R := Mt c t q B ^ 2 - 4 * B * At c t q * Yt c t q.

Lemma Mt_UV c k q B : 0 < q -> dd c (k / q^2) <> 0 ->
  Mt c (k / q^2) q B = dd c (k / q^2) * (UU c k q - B - VV c k q).
Proof.
  intros Hq Hd. unfold Mt, UU, VV, om. cbv zeta. set (t := k / q^2) in *. clearbody t.
  apply (Rmult_eq_reg_l (dd c t)); [|assumption].
  replace (dd c t * (dd c t * (4 * (c + 1) ^ 2 * (c - t) ^ 2 * (1 - t) * q / dd c t ^ 2 - B
     - (1 + t) ^ 2 * (c ^ 2 + t) * q * ((q - 1) * dd c t + (1 - t) * (c ^ 2 + t)) / dd c t ^ 2)))
   with (4 * (c + 1) ^ 2 * (c - t) ^ 2 * (1 - t) * q - B * dd c t ^ 2
     - (1 + t) ^ 2 * (c ^ 2 + t) * q * ((q - 1) * dd c t + (1 - t) * (c ^ 2 + t))) by (field; assumption).
  unfold dd. ring.
Qed.
Lemma AY_V c k q : 0 < q -> dd c (k / q^2) <> 0 ->
  At c (k / q^2) q * Yt c (k / q^2) q = dd c (k / q^2) ^ 2 * VV c k q.
Proof.
  intros Hq Hd. unfold At, Yt, VV, om. cbv zeta. set (t := k / q^2) in *. clearbody t.
  transitivity ((1 + t) ^ 2 * (c ^ 2 + t) * q * ((q - 1) * dd c t + (1 - t) * (c ^ 2 + t))); [|field; assumption].
  unfold dd. field. lra.
Qed.
Lemma SS_factor c k q b : 1 <= q -> dom c (k / q^2) ->
  SS c (k / q^2) q (b^2)
  = dd c (k / q^2) ^ 2 * ((sqrt (UU c k q) ^ 2 - (b + sqrt (VV c k q))^2)
                        * (sqrt (UU c k q) ^ 2 - (b - sqrt (VV c k q))^2)).
Proof.
  intros Hq H. pose proof (UU_pos c k q ltac:(lra) H) as HU. pose proof (VV_pos c k q Hq H) as HV.
  pose proof (dom_dd _ _ H) as Hd. unfold SS.
  rewrite Mt_UV by lra. replace (4 * b^2 * At c (k / q^2) q * Yt c (k / q^2) q)
    with (4 * b^2 * (At c (k / q^2) q * Yt c (k / q^2) q)) by ring. rewrite AY_V by lra.
  assert (Hu2 : sqrt (UU c k q) ^ 2 = UU c k q) by (apply pow2_sqrt; lra).
  assert (Hw2 : sqrt (VV c k q) ^ 2 = VV c k q) by (apply pow2_sqrt; lra).
  set (u := sqrt (UU c k q)) in *. set (w := sqrt (VV c k q)) in *.
  transitivity (dd c (k / q^2) ^ 2 * ((u^2 - b^2 - w^2)^2 - 4 * b^2 * w^2)); [rewrite Hu2, Hw2|]; ring.
Qed.
(** signs of the polynomial and the critical b *)
Lemma SS_nonpos c k q b : 1 <= q -> dom c (k / q^2) -> 0 <= b ->
  (SS c (k / q^2) q (b^2) <= 0 -> bc c k q <= b) /\ (SS c (k / q^2) q (b^2) < 0 -> bc c k q < b).
Proof.
  intros Hq H Hb. rewrite SS_factor by assumption.
  pose proof (dom_dd _ _ H) as Hd. unfold bc.
  pose proof (sqrt_pos (UU c k q)) as Hu. pose proof (sqrt_pos (VV c k q)) as Hw.
  set (u := sqrt (UU c k q)) in *. set (w := sqrt (VV c k q)) in *.
  assert (D2 : 0 < dd c (k / q^2) ^ 2) by (apply pow_lt; assumption).
  assert (M : (b - w)^2 <= (b + w)^2) by nra.
  split; intros HS; apply Rnot_lt_le || apply Rnot_le_lt; intros K.
  - assert ((b + w)^2 < u^2) by nra.
    assert (0 < (u ^ 2 - (b + w) ^ 2) * (u ^ 2 - (b - w) ^ 2)) by (apply Rmult_lt_0_compat; lra). nra.
  - assert ((b + w)^2 <= u^2) by (apply pow_incr; lra).
    assert (0 <= (u ^ 2 - (b + w) ^ 2) * (u ^ 2 - (b - w) ^ 2)) by (apply Rmult_le_pos; lra). nra.
Qed.
Lemma VV_far c k q : 13/5 <= q -> dom c (k / q^2) -> 1 < sqrt (VV c k q).
Proof.
  intros Hq H. pose proof (dom_third _ _ H) as H3. pose proof (dom_dd _ _ H) as Hd.
  destruct H as [Hc [Ht Hv]]. rewrite <- sqrt_1. apply sqrt_lt_1_alt. split; [lra|].
  unfold VV. cbv zeta. set (t := k / q^2) in *. clearbody t.
  set (Y := (c^2 + t) / dd c t).
  assert (HY : 1/3 <= Y).
  { unfold Y. apply (proj1 (Rle_div_r (1/3) (c^2 + t) (dd c t) Hd)). unfold dd in *. nra. }
  replace ((1+t)^2*(c^2+t)*q*((q-1)*dd c t + (1-t)*(c^2+t)) / dd c t ^ 2)
    with ((1+t)^2 * (Y * (q * ((q - 1) + (1 - t) * Y)))) by (unfold Y; field; lra).
  assert (0 <= (1 - t) * Y) by (apply Rmult_le_pos; lra).
  assert (K : 13/5 * (8/5) <= q * ((q - 1) + (1 - t) * Y)) by (apply Rmult_le_compat; lra).
  assert (K2 : 1/3 * (13/5 * (8/5)) <= Y * (q * ((q - 1) + (1 - t) * Y))) by (apply Rmult_le_compat; lra).
  assert (1 <= (1 + t)^2) by nra. nra.
Qed.
Lemma SS_zero_neg c k q b : 13/5 <= q -> dom c (k / q^2) -> -1 < b < 0 -> bc c k q < - b ->
  SS c (k / q^2) q (b^2) = 0 -> bc c k q = b.
Proof.
  intros Hq H Hb Hlt HS. pose proof (VV_far c k q Hq H) as Hw.
  rewrite SS_factor in HS by (assumption || lra). pose proof (dom_dd _ _ H) as Hd. unfold bc in *.
  pose proof (sqrt_pos (UU c k q)) as Hu.
  set (u := sqrt (UU c k q)) in *. set (w := sqrt (VV c k q)) in *.
  assert (D2 : 0 < dd c (k / q^2) ^ 2) by (apply pow_lt; assumption).
  assert (K : (u ^ 2 - (b + w) ^ 2) * (u ^ 2 - (b - w) ^ 2) = 0).
  { apply Rmult_integral in HS as [HS|HS]; [lra|exact HS]. }
  apply Rmult_integral in K as [K|K].
  - assert ((u - (b + w)) * (u + (b + w)) = 0) as Z by (rewrite <- K; ring).
    apply Rmult_integral in Z as [Z|Z]; lra.
  - assert ((u - (w - b)) * (u + (w - b)) = 0) as Z by (rewrite <- K; ring).
    apply Rmult_integral in Z as [Z|Z]; lra.
Qed.

(** a double root at q outside the horizon is the inner turning point *)
Lemma zero_dom c k q b : 1 <= c -> 0 <= k -> b <> 0 -> b^2 + k < 1 -> 1 < q ->
  0 < q^2 - 2*q + (b^2 + k) -> SS c (k / q^2) q (b^2) = 0 -> dom c (k / q^2).
Proof.
  intros Hc Hk Hb Ha Hq HD HS.
  assert (Hq2 : 1 < q^2) by nra.
  assert (Ht : 0 <= k / q^2 < 1).
  { split; [apply Rmult_le_pos; [lra|left; apply Rinv_0_lt_compat; lra]|].
    apply Rlt_div_l; nra. }
  assert (Ek : k = k / q^2 * q^2) by (field; lra). set (t := k / q^2) in *. clearbody t.
  refine (conj Hc (conj Ht _)).
  (* the outer horizon *)
  set (h := sqrt (1 - (b^2 + k))). assert (Hh2 : h^2 = 1 - (b^2 + k)) by (apply pow2_sqrt; lra).
  assert (Hh0 : 0 < h) by (apply sqrt_lt_R0; lra). clearbody h.
  assert (Hhq : 1 + h < q) by nra.
  assert (HdR : (1 + h)^2 - 2 * (1 + h) + (b^2 + k) = 0) by (replace ((1 + h)^2) with (1 + 2 * h + h^2) by ring; lra).
  (* energy times angular momentum on the double-root orbit *)
  set (m := Mt c t q (b^2) / (2 * b)).
  assert (Hm : 2 * b * m = Mt c t q (b^2)) by (unfold m; field; assumption).
  assert (HYp : 0 < Yt c t q).
  { unfold Yt. assert (0 < c^2) by (apply pow_lt; lra).
    repeat apply Rmult_lt_0_compat; try lra; apply pow_lt; lra. }
  assert (Hm2 : m^2 = At c t q * Yt c t q).
  { apply (Rmult_eq_reg_l (4 * b^2)).
    - replace (4 * b^2 * m^2) with ((2 * b * m)^2) by ring. rewrite Hm. unfold SS in HS. lra.
    - assert (0 < b^2) by (apply pow2_gt_0; assumption). lra. }
  (* the potential at the horizon is a square *)
  set (r := 1 + h) in *.
  assert (SQ : 0 <= At c t q * (r^2 + k)^2 - 2 * b * m * (r^2 + k) + b^2 * Yt c t q).
  { apply (Rmult_le_reg_l (Yt c t q)); [exact HYp|]. rewrite Rmult_0_r.
    replace (Yt c t q * (At c t q * (r^2 + k)^2 - 2 * b * m * (r^2 + k) + b^2 * Yt c t q))
      with ((At c t q * Yt c t q) * (r^2 + k)^2 - 2 * b * m * (r^2 + k) * Yt c t q + b^2 * Yt c t q ^ 2) by ring.
    rewrite <- Hm2.
    replace (m^2 * (r^2 + k)^2 - 2 * b * m * (r^2 + k) * Yt c t q + b^2 * Yt c t q ^ 2)
      with ((m * (r^2 + k) - b * Yt c t q)^2) by ring. apply pow2_ge_0. }
  rewrite Hm in SQ.
  assert (FAC : At c t q * (r^2 + k)^2 - Mt c t q (b^2) * (r^2 + k) + b^2 * Yt c t q
     = (c * q - r) * (r - q)^2 * (om c t * r - 2 * q * t * (2 * c + 1 - t)) / q).
  { assert (B2 : b^2 = 2 * r - r^2 - k) by lra. rewrite B2, Ek.
    unfold At, Mt, Yt, om, dd. field. apply Rgt_not_eq; lra. }
  rewrite FAC in SQ.
  assert (P : 0 <= om c t * r - 2 * q * t * (2 * c + 1 - t)).
  { apply Rnot_lt_le. intros K.
    assert (0 < (c * q - r) * (r - q)^2).
    { apply Rmult_lt_0_compat; [nra|]. apply pow2_gt_0. lra. }
    assert ((c * q - r) * (r - q)^2 * (om c t * r - 2 * q * t * (2 * c + 1 - t)) / q < 0).
    { apply Ropp_lt_cancel. rewrite Ropp_0, <- Ropp_div. apply Rdiv_lt_0_compat; [nra|lra]. }
    lra. }
  destruct (Req_EM_T t 0) as [Z|Z]; [rewrite Z; unfold vg; lra|].
  assert (T0 : 0 < t * (2 * c + 1 - t)) by (apply Rmult_lt_0_compat; lra).
  assert (OM : 0 < om c t) by nra.
  assert (om c t * r < om c t * q) by (apply Rmult_lt_compat_l; lra).
  assert (q * (2 * (t * (2 * c + 1 - t))) < q * om c t) by lra.
  assert (2 * (t * (2 * c + 1 - t)) < om c t) by (apply Rmult_lt_reg_l with q; lra).
  unfold om, vg in *. lra.
Qed.
