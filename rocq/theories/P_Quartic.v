(** * Lemmas: a real polynomial of degree four (or three) factors over the reals into
    linear factors and irreducible quadratics.  Used to discuss EVERY input of the
    root finders. *)
From Coq Require Import Reals Lra Lia.
From Coquelicot Require Import Coquelicot.
Open Scope R_scope.

Lemma continuity_pointwise (f : R -> R) : (forall x, continuous f x) -> continuity f.
Proof. intros H x. apply continuity_pt_filterlim. apply H. Qed.

Lemma ivt_le (f : R -> R) lo hi : continuity f -> lo <= hi -> f lo <= 0 -> 0 <= f hi ->
  exists x, lo <= x <= hi /\ f x = 0.
Proof.
  intros C H H1 H2. destruct (IVT_cor f lo hi C H) as [z [Hz Hz']]; [nra|]. now exists z.
Qed.

Lemma continuity_cubic b c d : continuity (fun x => x^3 + b * x^2 + c * x + d).
Proof. intros x. reg. Qed.

Lemma cubic_root b c d : exists s, s^3 + b * s^2 + c * s + d = 0.
Proof.
  set (f := fun x => x^3 + b * x^2 + c * x + d).
  set (K := 1 + Rabs b + Rabs c + Rabs d).
  pose proof (Rabs_pos b). pose proof (Rabs_pos c). pose proof (Rabs_pos d).
  pose proof (Rle_abs b). pose proof (Rle_abs c). pose proof (Rle_abs d).
  pose proof (Rle_abs (-b)). pose proof (Rle_abs (-c)). pose proof (Rle_abs (-d)). rewrite Rabs_Ropp in *.
  assert (HK : 1 <= K) by (unfold K; lra).
  assert (B : K^2 * (1 + Rabs b + Rabs c + Rabs d) = K^3) by (unfold K; ring).
  assert (K1 : K <= K^2) by nra. assert (K2 : 1 <= K^2) by nra.
  assert (P : 0 <= f K).
  { unfold f. assert (0 <= (b + Rabs b) * K^2) by (apply Rmult_le_pos; nra).
    assert (0 <= (c + Rabs c) * K) by (apply Rmult_le_pos; lra).
    assert (0 <= Rabs c * (K^2 - K)) by (apply Rmult_le_pos; lra).
    assert (0 <= Rabs d * (K^2 - 1)) by (apply Rmult_le_pos; lra).
    lra. }
  assert (M : f (-K) <= 0).
  { unfold f. assert (0 <= (Rabs b - b) * K^2) by (apply Rmult_le_pos; nra).
    assert (0 <= (c + Rabs c) * K) by (apply Rmult_le_pos; lra).
    assert (0 <= Rabs c * (K^2 - K)) by (apply Rmult_le_pos; lra).
    assert (0 <= Rabs d * (K^2 - 1)) by (apply Rmult_le_pos; lra).
    replace ((-K)^3) with (-K^3) by ring. replace ((-K)^2) with (K^2) by ring. lra. }
  destruct (ivt_le f (-K) K) as [s [_ Hs]]; auto; [apply continuity_cubic | lra|]. now exists s.
Qed.

(** resolvent cubic of the depressed quartic: a root that is positive unless the
    quartic is a real biquadratic *)
Lemma resolvent p q r : 
  (exists s, 0 < s /\ s^3 + 2 * p * s^2 + (p^2 - 4 * r) * s - q^2 = 0) \/ (q = 0 /\ 0 <= p^2 - 4 * r).
Proof.
  destruct (Req_dec q 0) as [Hq|Hq].
  - destruct (Rle_dec 0 (p^2 - 4 * r)) as [H|H]; [now right|left].
    assert (Hr : 0 < r) by nra.
    exists (- p + 2 * sqrt r). pose proof (sqrt_lt_R0 r Hr). assert (sqrt r ^ 2 = r) by (apply pow2_sqrt; lra).
    subst q. set (w := sqrt r) in *. rewrite <- H1 in *. split; [nra|]. ring.
  - left. set (f := fun s => s^3 + 2 * p * s^2 + (p^2 - 4 * r) * s + - q^2).
    assert (C : continuity f) by (unfold f; apply continuity_cubic).
    set (K := 1 + Rabs (2 * p) + Rabs (p^2 - 4*r) + q^2).
    assert (HK : 1 <= K).
    { pose proof (Rabs_pos (2 * p)). pose proof (Rabs_pos (p^2 - 4*r)). pose proof (pow2_ge_0 q). unfold K; lra. }
    assert (B : K^2 * (1 + Rabs (2 * p) + Rabs (p^2 - 4*r) + q^2) = K^3) by (unfold K; ring).
    assert (P : 0 <= f K).
    { unfold f. assert (K <= K^2) by nra. assert (1 <= K^2) by nra.
      assert (0 <= (2 * p + Rabs (2 * p)) * K^2).
      { apply Rmult_le_pos; [|nra]. pose proof (Rle_abs (- (2 * p))). rewrite Rabs_Ropp in *. lra. }
      assert (0 <= ((p^2-4*r) + Rabs (p^2-4*r)) * K).
      { apply Rmult_le_pos; [|lra]. pose proof (Rle_abs (- (p^2-4*r))). rewrite Rabs_Ropp in *. lra. }
      assert (0 <= Rabs (p^2-4*r) * (K^2 - K)) by (apply Rmult_le_pos; [apply Rabs_pos|lra]).
      assert (0 <= q^2 * (K^2 - 1)) by (apply Rmult_le_pos; [apply pow2_ge_0|lra]).
      lra. }
    assert (M : f 0 <= 0) by (unfold f; pose proof (pow2_ge_0 q); nra).
    destruct (ivt_le f 0 K C) as [s [[H1 H2] Hs]]; auto; [lra|].
    exists s. unfold f in Hs. split; [|lra].
    destruct H1 as [H1|H1]; [assumption|]. exfalso. subst s. apply Hq. assert (q^2 = 0) by nra. nra.
Qed.

Lemma depressed p q r : exists al be ga,
  p = be + ga - al^2 /\ q = al * (ga - be) /\ r = be * ga.
Proof.
  destruct (resolvent p q r) as [[s [Hs E]]|[-> H]].
  - pose proof (sqrt_lt_R0 s Hs) as Hw. assert (W : sqrt s ^ 2 = s) by (apply pow2_sqrt; lra).
    set (w := sqrt s) in *.
    exists w, ((p + w^2 - q / w) / 2), ((p + w^2 + q / w) / 2). rewrite <- W in E.
    split; [field; lra|]. split; [field; lra|].
    assert (4 * r * w^2 = (p + w^2)^2 * w^2 - q^2) by lra.
    apply (Rmult_eq_reg_l (4 * w^2)); [|assert (0 < w^2) by (apply pow_lt; lra); lra].
    transitivity ((p + w^2)^2 * w^2 - q^2); [lra|]. field. lra.
  - assert (W : sqrt (p^2 - 4*r) ^ 2 = p^2 - 4*r) by (apply pow2_sqrt; lra).
    exists 0, ((p + sqrt (p^2 - 4*r)) / 2), ((p - sqrt (p^2 - 4*r)) / 2).
    repeat split; [field | ring | lra].
Qed.

(** every monic real quartic is a product of two real quadratics *)
Lemma quartic_split b c d e : exists p1 q1 p2 q2,
  b = p1 + p2 /\ c = q1 + q2 + p1 * p2 /\ d = p1 * q2 + p2 * q1 /\ e = q1 * q2.
Proof.
  set (h := b / 4).
  destruct (depressed (c - 6 * h^2) (d - 2 * c * h + 8 * h^3) (e - d * h + c * h^2 - 3 * h^4))
    as (al & be & ga & H1 & H2 & H3).
  assert (Hb : b = 4 * h) by (unfold h; lra).
  exists (al + 2 * h), (be + al * h + h^2), (- al + 2 * h), (ga - al * h + h^2).
  repeat split; nra.
Qed.

Definition real_quadratic p q := exists s t, s <= t /\ p = - (s + t) /\ q = s * t.
Definition pair_quadratic p q := exists u v, 0 < v /\ p = - 2 * u /\ q = u^2 + v^2.
Lemma quadratic_cases p q : real_quadratic p q \/ pair_quadratic p q.
Proof.
  destruct (Rle_dec 0 (p^2 - 4 * q)) as [H|H].
  - left. assert (W : sqrt (p^2 - 4*q) ^ 2 = p^2 - 4*q) by (apply pow2_sqrt; lra).
    pose proof (sqrt_pos (p^2 - 4*q)).
    exists ((- p - sqrt (p^2 - 4*q)) / 2), ((- p + sqrt (p^2 - 4*q)) / 2). repeat split; lra.
  - right. assert (W : sqrt (4*q - p^2) ^ 2 = 4*q - p^2) by (apply pow2_sqrt; lra).
    assert (0 < sqrt (4*q - p^2)) by (apply sqrt_lt_R0; lra).
    exists (- p / 2), (sqrt (4*q - p^2) / 2). repeat split; lra.
Qed.

(** coefficients (lowest first) of a quartic, in the three possible shapes *)
Definition four_real c0 c1 c2 c3 c4 (r1 r2 r3 r4 : R) :=
  r4 <= r3 /\ r3 <= r2 /\ r2 <= r1 /\
  c0 = c4 * (r1 * r2 * r3 * r4) /\
  c1 = - c4 * (r1 * r2 * r3 + r1 * r2 * r4 + r1 * r3 * r4 + r2 * r3 * r4) /\
  c2 = c4 * (r1 * r2 + r1 * r3 + r1 * r4 + r2 * r3 + r2 * r4 + r3 * r4) /\
  c3 = - c4 * (r1 + r2 + r3 + r4).
Definition one_pair c0 c1 c2 c3 c4 (r1 r2 u v : R) :=
  r1 <= r2 /\ 0 < v /\
  c0 = c4 * (r1 * r2 * (u ^ 2 + v ^ 2)) /\
  c1 = - c4 * (2 * u * (r1 * r2) + (r1 + r2) * (u ^ 2 + v ^ 2)) /\
  c2 = c4 * (r1 * r2 + 2 * u * (r1 + r2) + (u ^ 2 + v ^ 2)) /\
  c3 = - c4 * (r1 + r2 + 2 * u).
Definition two_pairs c0 c1 c2 c3 c4 (u v s w : R) :=
  u <= s /\ 0 < v /\ 0 < w /\
  c0 = c4 * ((u ^ 2 + v ^ 2) * (s ^ 2 + w ^ 2)) /\
  c1 = - c4 * (2 * u * (s ^ 2 + w ^ 2) + 2 * s * (u ^ 2 + v ^ 2)) /\
  c2 = c4 * ((u ^ 2 + v ^ 2) + 4 * u * s + (s ^ 2 + w ^ 2)) /\
  c3 = - c4 * (2 * u + 2 * s).

Lemma sort4 (P : R -> R -> R -> R -> Prop) s t u v : s <= t -> u <= v ->
  (forall a b c d, P a b c d -> P b a c d) -> (forall a b c d, P a b c d -> P a c b d) ->
  (forall a b c d, P a b c d -> P a b d c) -> P t s v u ->
  exists r1 r2 r3 r4, r4 <= r3 /\ r3 <= r2 /\ r2 <= r1 /\ P r1 r2 r3 r4.
Proof.
  intros H1 H2 S1 S2 S3 H.
  destruct (Rle_dec u t), (Rle_dec v t), (Rle_dec u s), (Rle_dec v s); try lra.
  - exists t, s, v, u. repeat split; try lra; auto.
  - exists t, v, s, u. repeat split; try lra; auto.
  - exists t, v, u, s. repeat split; try lra; auto.
  - exists v, t, s, u. repeat split; try lra. auto 6.
  - exists v, t, u, s. repeat split; try lra. auto 6.
  - exists v, u, t, s. repeat split; try lra. auto 8.
Qed.

Lemma quartic_cases c0 c1 c2 c3 c4 : c4 <> 0 ->
  (exists r1 r2 r3 r4, four_real c0 c1 c2 c3 c4 r1 r2 r3 r4) \/
  (exists r1 r2 u v, one_pair c0 c1 c2 c3 c4 r1 r2 u v) \/
  (exists u v s w, two_pairs c0 c1 c2 c3 c4 u v s w).
Proof.
  intros H4.
  destruct (quartic_split (c3 / c4) (c2 / c4) (c1 / c4) (c0 / c4)) as (p1 & q1 & p2 & q2 & E3 & E2 & E1 & E0).
  assert (F3 : c3 = c4 * (p1 + p2)) by (rewrite <- E3; field; assumption).
  assert (F2 : c2 = c4 * (q1 + q2 + p1 * p2)) by (rewrite <- E2; field; assumption).
  assert (F1 : c1 = c4 * (p1 * q2 + p2 * q1)) by (rewrite <- E1; field; assumption).
  assert (F0 : c0 = c4 * (q1 * q2)) by (rewrite <- E0; field; assumption).
  clear E0 E1 E2 E3.
  destruct (quadratic_cases p1 q1) as [(s & t & H1 & -> & ->)|(u & v & Hv & -> & ->)];
  destruct (quadratic_cases p2 q2) as [(s' & t' & H1' & -> & ->)|(u' & v' & Hv' & -> & ->)].
  - left. destruct (sort4 (fun r1 r2 r3 r4 =>
      c0 = c4 * (r1 * r2 * r3 * r4) /\
      c1 = - c4 * (r1 * r2 * r3 + r1 * r2 * r4 + r1 * r3 * r4 + r2 * r3 * r4) /\
      c2 = c4 * (r1 * r2 + r1 * r3 + r1 * r4 + r2 * r3 + r2 * r4 + r3 * r4) /\
      c3 = - c4 * (r1 + r2 + r3 + r4)) s t s' t' H1 H1') as (r1 & r2 & r3 & r4 & K1 & K2 & K3 & K4).
    1-3: intros a b c d (A & B & C & D); rewrite A, B, C, D; repeat split; ring.
    + rewrite F0, F1, F2, F3. repeat split; ring.
    + exists r1, r2, r3, r4. unfold four_real. tauto.
  - right. left. exists s, t, u', v'. unfold one_pair. rewrite F0, F1, F2, F3. repeat split; try assumption; ring.
  - right. left. exists s', t', u, v. unfold one_pair. rewrite F0, F1, F2, F3. repeat split; try assumption; ring.
  - right. right. destruct (Rle_dec u u').
    + exists u, v, u', v'. unfold two_pairs. rewrite F0, F1, F2, F3. repeat split; try assumption; ring.
    + exists u', v', u, v. unfold two_pairs. rewrite F0, F1, F2, F3. repeat split; try assumption; try lra; ring.
Qed.

(** cubics *)
Definition three_real c0 c1 c2 c3 (r1 r2 r3 : R) :=
  r3 <= r2 /\ r2 <= r1 /\ c0 = - c3 * (r1 * r2 * r3) /\
  c1 = c3 * (r1 * r2 + r1 * r3 + r2 * r3) /\ c2 = - c3 * (r1 + r2 + r3).
Definition real_and_pair c0 c1 c2 c3 (r u v : R) :=
  0 < v /\ c0 = - c3 * (r * (u^2 + v^2)) /\ c1 = c3 * (u^2 + v^2 + 2 * u * r) /\ c2 = - c3 * (r + 2 * u).
Lemma cubic_cases c0 c1 c2 c3 : c3 <> 0 ->
  (exists r1 r2 r3, three_real c0 c1 c2 c3 r1 r2 r3) \/ (exists r u v, real_and_pair c0 c1 c2 c3 r u v).
Proof.
  intros H. destruct (cubic_root (c2 / c3) (c1 / c3) (c0 / c3)) as [s Hs].
  assert (K : c0 = - (c3 * s^3 + c2 * s^2 + c1 * s)).
  { replace c0 with (c3 * (c0 / c3)) by (field; assumption).
    replace (c0 / c3) with (- (s^3 + c2 / c3 * s^2 + c1 / c3 * s)) by lra. field. assumption. }
  set (p := c2 / c3 + s). set (q := c1 / c3 + s * p).
  assert (F2 : c2 = c3 * (p - s)) by (unfold p; field; assumption).
  assert (F1 : c1 = c3 * (q - s * p)) by (unfold q; field; assumption).
  clearbody p q.
  assert (F0 : c0 = - c3 * (s * q)) by (rewrite K, F1, F2; ring).
  destruct (quadratic_cases p q) as [(s' & t' & H1 & -> & ->)|(u & v & Hv & -> & ->)].
  - left. destruct (Rle_dec s s'); [|destruct (Rle_dec s t')].
    + exists t', s', s. unfold three_real. rewrite F0, F1, F2. repeat split; try lra; ring.
    + exists t', s, s'. unfold three_real. rewrite F0, F1, F2. repeat split; try lra; ring.
    + exists s, t', s'. unfold three_real. rewrite F0, F1, F2. repeat split; try lra; ring.
  - right. exists s, u, v. unfold real_and_pair. rewrite F0, F1, F2. repeat split; try assumption; ring.
Qed.

(** equality of quartics as functions is equality of coefficients *)
Lemma quartic_coeffs c0 c1 c2 c3 c4 d0 d1 d2 d3 d4 :
  (forall x, c0 + c1 * x + c2 * x^2 + c3 * x^3 + c4 * x^4 = d0 + d1 * x + d2 * x^2 + d3 * x^3 + d4 * x^4) ->
  c0 = d0 /\ c1 = d1 /\ c2 = d2 /\ c3 = d3 /\ c4 = d4.
Proof.
  intros H. pose proof (H 0). pose proof (H 1). pose proof (H (-1)). pose proof (H 2). pose proof (H (-2)). lra.
Qed.
