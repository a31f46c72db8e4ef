(** * Orbits beyond the last stable orbit

    Not a model of any code: the algebra behind C17, C21 and C23, continued.
    With y = L/x - a x E, Y = y^2 and t = k/q^2 the two turning points q and c q
    of the radial potential give E^2 and 2 b E y as affine functions of Y. *)
From Coq Require Import Reals Lra Psatz.
From Coquelicot Require Import Coquelicot.
From Verif Require Import P_Stability.
Open Scope R_scope.

Section Orbit.
Variables c k q b E y : R.
Let t := k / q^2.
Hypothesis Hdom : dom c t.
Hypothesis Hk : 0 <= k.
Hypothesis Hq : 1 < q.
Hypothesis Ha : b^2 + k < 1.
Hypothesis Hb : bc c k q < b.
Hypothesis HE : 0 < E.

Definition mm_ (c t q : R) : R := (c - t) / (q^2 * (c^2 + t) * (1 + t)).
Definition al_ (c q : R) : R := 1 - 2 / ((c + 1) * q).
Definition be_ (c t q : R) : R := 2 * mm_ c t q / ((c + 1) * q).
Definition P_ (c t q b : R) : R := 2 * q * (c - t) / (c + 1) - b^2.
Definition W_ (c t q : R) : R := -1 + (2 / (1 + t) + 2 * (c - t) / ((c^2 + t) * (c + 1))) / q.
Definition Yc_ (c t q : R) : R := Yt c t q / dd c t.

Let al := al_ c q. Let be := be_ c t q. Let P := P_ c t q b. Let W := W_ c t q.
Let Yc := Yc_ c t q.
Let Y := y^2.
Hypothesis E1 : E^2 = al + be * Y.
Hypothesis E2 : P + W * Y = 2 * b * (E * y).
Hypothesis Br1 : b <= 0 -> 0 <= y.
Hypothesis Br2 : 0 < b -> 0 <= b * al + 2 * b * (be * Y) - W * (E * y).

Lemma pos : 1 <= c /\ 0 <= t /\ t < 1/3 /\ 0 < dd c t /\ 0 < c^2 /\ 0 < al /\ 0 < mm_ c t q /\ 0 < be /\ 0 < Yc /\ 0 < P.
Proof.
  pose proof (dom_third _ _ Hdom) as H3. pose proof (dom_dd _ _ Hdom) as Hd. destruct Hdom as [Hc [Ht Hv]].
  assert (C2 : 0 < c^2) by (apply pow_lt; lra).
  assert (Q2 : 0 < q^2) by (apply pow_lt; lra).
  assert (K : 0 < (c + 1) * q) by (apply Rmult_lt_0_compat; lra).
  assert (M : 0 < mm_ c t q).
  { unfold mm_. apply Rdiv_lt_0_compat; [lra|]. repeat apply Rmult_lt_0_compat; lra. }
  refine (conj Hc (conj (proj1 Ht) (conj H3 (conj Hd (conj C2 (conj _ (conj M (conj _ (conj _ _))))))))).
  - unfold al, al_. assert (2 / ((c + 1) * q) < 1) by (apply (Rlt_div_l 2 1 ((c+1)*q)); [exact K|nra]). lra.
  - unfold be, be_. apply Rdiv_lt_0_compat; lra.
  - unfold Yc, Yc_, Yt. apply Rdiv_lt_0_compat; [|exact Hd]. repeat apply Rmult_lt_0_compat; try lra; apply pow_lt; lra.
  - unfold P, P_. assert (A1 : q * (1 - t) <= 2 * q * (c - t) / (c + 1)).
    { apply (Rle_div_r _ _ (c + 1)); [lra|].
      assert (0 <= q * ((c - 1) * (1 + t))) by (repeat apply Rmult_le_pos; lra). lra. }
    assert (A2 : q * (1 - t) = q - k / q) by (unfold t; field; lra).
    assert (A3 : k / q <= k) by (apply (Rle_div_l k k q); nra). lra.
Qed.

Lemma crit_eqs : P + W * Yc = UU c k q - b^2 - VV c k q /\ Yc * (al + be * Yc) = VV c k q.
Proof.
  destruct pos as (Hc & Ht & H3 & Hd & C2 & _).
  assert (q <> 0) by lra. assert (1 + t <> 0) by lra. assert (c + 1 <> 0) by lra. assert (c^2 + t <> 0) by lra.
  assert (dd c t <> 0) by lra. unfold P, P_, W, W_, Yc, Yc_, al, al_, be, be_, mm_, UU, VV, Yt. cbv zeta. fold t.
  assert (D : exists d, d = dd c t) by eauto. destruct D as [d D].
  split.
  - rewrite <- D in *.
    apply (Rmult_eq_reg_l (d^2)); [|apply pow_nonzero; assumption].
    transitivity (d^2 * (2*q*(c-t)/(c+1) - b^2) - d * q^2*(c^2+t)*(1+t)^2
      + d * (q * (2 * (c^2 + t) * (1+t) + 2 * (c-t) * (1+t)^2 / (c+1)))).
    { field. repeat split; assumption. }
    transitivity (4 * (c + 1) ^ 2 * (c - t) ^ 2 * (1 - t) * q - b^2 * d^2
       - (1 + t) ^ 2 * (c ^ 2 + t) * q * ((q - 1) * d + (1 - t) * (c ^ 2 + t))); [|field; assumption].
    rewrite D. unfold dd. field. assumption.
  - rewrite <- D in *.
    apply (Rmult_eq_reg_l (d^2)); [|apply pow_nonzero; assumption].
    transitivity (q^2*(c^2+t)*(1+t)^2 * (d - 2 * d / ((c + 1) * q) + 2 * (c - t) * (1 + t) / ((c + 1) * q))).
    { field. repeat split; assumption. }
    transitivity ((1 + t) ^ 2 * (c ^ 2 + t) * q * ((q - 1) * d + (1 - t) * (c ^ 2 + t))); [|field; assumption].
    rewrite D. unfold dd. field. split; assumption.
Qed.

Lemma crit_neg : P + W * Yc - 2 * b * sqrt (VV c k q) < 0.
Proof.
  destruct crit_eqs as [C1 C2]. rewrite C1.
  pose proof (UU_pos c k q ltac:(lra) Hdom) as HU. pose proof (VV_pos c k q ltac:(lra) Hdom) as HV.
  assert (Hu2 : sqrt (UU c k q) ^ 2 = UU c k q) by (apply pow2_sqrt; lra).
  assert (Hw2 : sqrt (VV c k q) ^ 2 = VV c k q) by (apply pow2_sqrt; lra).
  pose proof (sqrt_lt_R0 _ HU) as Hu. unfold bc in Hb.
  set (u := sqrt (UU c k q)) in *. set (w := sqrt (VV c k q)) in *. nra.
Qed.

Lemma below_critical : Y < Yc.
Proof.
  destruct pos as (Hc & Ht & H3 & Hd & C2 & Hal & Hm & Hbe & HYc & HP).
  pose proof crit_neg as CN. destruct crit_eqs as [_ C3].
  pose proof (VV_pos c k q ltac:(lra) Hdom) as HV.
  assert (Hw2 : sqrt (VV c k q) ^ 2 = VV c k q) by (apply pow2_sqrt; lra).
  pose proof (sqrt_lt_R0 _ HV) as Hw. set (w := sqrt (VV c k q)) in *.
  rewrite <- C3 in Hw2. clear C3. clearbody w.
  assert (HY : 0 <= Y) by (unfold Y; apply pow2_ge_0).
  apply Rnot_le_lt. intros K.
  destruct (Rle_dec b 0) as [Hb0|Hb0].
  - (* retrograde and polar *)
    specialize (Br1 Hb0). clear Br2.
    set (la := Yc / Y). assert (HY0 : 0 < Y) by lra.
    assert (Hla : 0 < la <= 1).
    { split; [apply Rdiv_lt_0_compat; lra|]. apply (Rle_div_l Yc 1 Y); lra. }
    assert (ELa : Yc = la * Y) by (unfold la; field; lra). clearbody la.
    assert (Hwe : la * (E * y) <= w).
    { apply Rsqr_incr_0_var; [|lra]. unfold Rsqr. replace (w * w) with (w^2) by ring. rewrite Hw2.
      replace (la * (E * y) * (la * (E * y))) with (la * la * Y * E^2) by (unfold Y; ring). rewrite E1, ELa.
      assert (0 <= la * Y * al * (1 - la)) by (repeat apply Rmult_le_pos; lra).
      replace (la * Y * (al + be * (la * Y)) - la * la * Y * (al + be * Y)) with (la * Y * al * (1 - la)) by ring.
      nra. }
    assert (G : (1 - la) * P <= P + W * Yc - 2 * b * w).
    { rewrite ELa. replace (W * (la * Y)) with (la * (W * Y)) by ring.
      replace (W * Y) with (2 * b * (E * y) - P) by lra.
      assert (0 <= - (2 * b) * (w - la * (E * y))) by (apply Rmult_le_pos; lra). lra. }
    assert (0 <= (1 - la) * P) by (apply Rmult_le_pos; lra). lra.
  - (* prograde *)
    assert (Hb1 : 0 < b) by lra. specialize (Br2 Hb1). clear Br1.
    assert (ID : y * (P * E - al * b * y) = Y * (b * al + 2 * b * (be * Y) - W * (E * y))).
    { replace P with (2 * b * (E * y) - W * Y) by lra.
      transitivity (2 * b * Y * E^2 - W * Y * E * y - al * b * Y); [unfold Y; ring|]. rewrite E1. ring. }
    assert (Hy : 0 < y).
    { apply Rnot_le_lt. intros Ky.
      assert (0 <= Y * (b * al + 2 * b * (be * Y) - W * (E * y))) by (apply Rmult_le_pos; assumption).
      assert (0 < P * E) by (apply Rmult_lt_0_compat; lra).
      assert (0 < al * b) by (apply Rmult_lt_0_compat; lra).
      destruct Ky as [Ky|Ky].
      - assert (0 < P * E - al * b * y) by nra. nra.
      - rewrite Ky in E2. assert (Y = 0) by (unfold Y; rewrite Ky; ring). rewrite H2 in E2. lra. }
    assert (HB : 0 <= y * (P * E - al * b * y)) by (rewrite ID; apply Rmult_le_pos; assumption).
    set (z := E * y) in *. assert (Hz : 0 < z) by (apply Rmult_lt_0_compat; lra).
    assert (Hz2 : z^2 = Y * (al + be * Y)) by (unfold z; rewrite <- E1; unfold Y; ring).
    assert (AG : w * z <= al * (Y + Yc) / 2 + be * Y * Yc).
    { apply Rsqr_incr_0_var.
      - unfold Rsqr. replace (w * z * (w * z)) with (w^2 * z^2) by ring. rewrite Hw2, Hz2.
        apply Rminus_le. replace (Yc * (al + be * Yc) * (Y * (al + be * Y))
          - (al * (Y + Yc) / 2 + be * Y * Yc) * (al * (Y + Yc) / 2 + be * Y * Yc)) with (- (al * (Y - Yc) / 2)^2) by field.
        pose proof (pow2_ge_0 (al * (Y - Yc) / 2)). lra.
      - assert (0 <= be * Y * Yc) by (apply Rmult_le_pos; [apply Rmult_le_pos|]; lra).
        assert (0 <= al * (Y + Yc)) by (apply Rmult_le_pos; lra). lra. }
    assert (G : z * (P + W * Yc) - 2 * b * (al * (Y + Yc) / 2 + be * Y * Yc) <= z * (P + W * Yc - 2 * b * w)) by nra.
    assert (G2 : Y * (z * (P + W * Yc) - 2 * b * (al * (Y + Yc) / 2 + be * Y * Yc)) = (Y - Yc) * (y * (P * E - al * b * y))).
    { transitivity (Y * z * P + z * Yc * (W * Y) - b * al * Y * (Y + Yc) - 2 * b * be * Y^2 * Yc); [field|].
      replace (W * Y) with (2 * b * z - P) by lra.
      transitivity (z * P * (Y - Yc) + 2 * b * Yc * z^2 - b * al * Y * (Y + Yc) - 2 * b * be * Y^2 * Yc); [ring|].
      rewrite Hz2. unfold z, Y. ring. }
    assert (0 <= (Y - Yc) * (y * (P * E - al * b * y))) by (apply Rmult_le_pos; lra).
    assert (z * (P + W * Yc - 2 * b * w) < 0) by nra.
    assert (0 < Y) by lra. nra.
Qed.

(** bound, with two more roots below q *)
Lemma bound_orbit : E^2 < 1 /\
  forall r3 r4, r3 + r4 = 2 / (1 - E^2) - c * q - q ->
    r3 * r4 * (c * q^2 * (1 - E^2)) = k * (2 * q + 2 * Y / (q * (1 + t)) - (1 - E^2) * q^2) ->
    r3 < q /\ r4 < q.
Proof.
  destruct pos as (Hc & Ht & H3 & Hd & C2 & Hal & Hm & Hbe & HYc & HP).
  pose proof below_critical as HY. pose proof (dom_om _ _ Hdom) as Hom.
  assert (HY0 : 0 <= Y) by (unfold Y; apply pow2_ge_0).
  assert (q <> 0) by lra. assert (1 + t <> 0) by lra. assert (c + 1 <> 0) by lra. assert (c^2 + t <> 0) by lra.
  assert (dd c t <> 0) by lra.
  assert (Ec : al + be * Yc = 1 - om c t / dd c t / q).
  { unfold al, al_, be, be_, mm_, Yc, Yc_, Yt.
    assert (D : exists d, d = dd c t) by eauto. destruct D as [d D]. rewrite <- D in *.
    apply (Rmult_eq_reg_l d); [|assumption].
    transitivity (d - 2 * d / ((c + 1) * q) + 2 * (c - t) * (1 + t) / ((c + 1) * q)).
    { field. repeat split; assumption. }
    transitivity (d - om c t / q); [|field; split; assumption]. rewrite D. unfold dd, om. field. split; assumption. }
  assert (Hw : 0 < om c t / dd c t / q) by (apply Rdiv_lt_0_compat; [apply Rdiv_lt_0_compat; assumption|lra]).
  assert (HE2 : E^2 <= 1 - om c t / dd c t / q).
  { rewrite <- Ec, E1. apply Rplus_le_compat_l. apply Rmult_le_compat_l; lra. }
  split; [lra|].
  intros r3 r4 Sm Pr. set (ep := 1 - E^2) in *. assert (Hep : om c t / dd c t / q <= ep) by (unfold ep; lra).
  assert (Hep0 : 0 < ep) by lra.
  assert (Eep : ep * ((c + 1) * q) = 2 - 2 * Y * mm_ c t q).
  { unfold ep. rewrite E1. unfold al, al_, be, be_. field. split; assumption. }
  (* sum *)
  assert (Sm' : ep * (r3 + r4) = 2 * Y * mm_ c t q).
  { rewrite Sm. replace (ep * (2 / ep - c * q - q)) with (2 - ep * ((c + 1) * q)) by (field; lra). rewrite Eep. ring. }
  assert (Hv : 0 < vg c t) by (destruct Hdom as [_ [_ V]]; exact V).
  assert (SumLt : ep * (r3 + r4) < ep * (2 * q)).
  { rewrite Sm'. apply Rlt_le_trans with (2 * (om c t / dd c t)).
    - apply Rlt_trans with (2 * Yc * mm_ c t q); [apply Rmult_lt_compat_r; lra|].
      apply Rminus_gt_0_lt.
      replace (2 * (om c t / dd c t) - 2 * Yc * mm_ c t q) with (2 * vg c t / dd c t).
      + apply Rdiv_lt_0_compat; lra.
      + unfold Yc, Yc_, Yt, mm_. apply (Rmult_eq_reg_l (dd c t)); [|assumption].
        transitivity (2 * vg c t); [field; assumption|].
        transitivity (2 * om c t - 2 * (c - t) * (1 + t)); [unfold vg, om; ring|]. field. repeat split; assumption.
    - replace (2 * (om c t / dd c t)) with (om c t / dd c t / q * (2 * q)) by (field; split; assumption).
      apply Rmult_le_compat_r; lra. }
  assert (SL : r3 + r4 < 2 * q) by (apply Rmult_lt_reg_l with ep; assumption).
  (* product *)
  assert (PR : 0 < ep * ((q - r3) * (q - r4))).
  { replace (ep * ((q - r3) * (q - r4))) with (ep * q^2 - q * (ep * (r3 + r4)) + (r3 * r4 * (c * q^2 * ep)) / (c * q^2))
      by (field; split; lra).
    rewrite Pr, Sm'.
    assert (Eep2 : ep * q^2 = q * (2 - 2 * Y * mm_ c t q) / (c + 1)) by (rewrite <- Eep; field; assumption).
    rewrite Eep2. replace k with (t * q^2) by (unfold t; field; assumption).
    replace (q * (2 - 2 * Y * mm_ c t q) / (c + 1) - q * (2 * Y * mm_ c t q)
       + t * q^2 * (2 * q + 2 * Y / (q * (1 + t)) - q * (2 - 2 * Y * mm_ c t q) / (c + 1)) / (c * q^2))
      with (2 * q * (1 + t) / (c + 1) * ((Yc - Y) / Yc)).
    { apply Rmult_lt_0_compat; apply Rdiv_lt_0_compat; try lra. repeat apply Rmult_lt_0_compat; lra. }
    replace ((Yc - Y) / Yc) with (1 - Y * (/ Yc)) by (field; lra).
    replace (/ Yc) with (dd c t / (q^2 * (c^2 + t) * (1 + t)^2)).
    2:{ unfold Yc, Yc_, Yt. field. repeat split; assumption. }
    unfold mm_, dd. field. repeat split; lra. }
  assert (PL : 0 < (q - r3) * (q - r4)) by (apply Rmult_lt_reg_l with ep; lra).
  split; nra.
Qed.
End Orbit.
