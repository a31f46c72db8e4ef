(** * The algebra behind energy and angular_momentum

    The radial potential at the polar turning point is
    V(r) = f E^2 - 2 g E L - h L^2 - d; V(r1) = V(r2) = 0 is solved for (E, L) by
    equations B.17-B.22 implemented in constants.py.  This file shows that the
    branch chosen by the code is the one on which both equations hold. *)
From Coq Require Import Reals Lra Psatz.
Open Scope R_scope.

Section Core.
Variables f1 g1 h1 d1 f2 g2 h2 d2 : R.
Let kappa := d1 * h2 - h1 * d2.
Let rho := f1 * h2 - h1 * f2.
Let sigma := g1 * h2 - h1 * g2.
Let epsilon := d1 * g2 - g1 * d2.
Let eta := f1 * g2 - g1 * f2.
Let mu := d1 * f2 - d2 * f1.
Let N := rho^2 + 4 * eta * sigma.
Let b := kappa * rho + 2 * epsilon * sigma.
Let D := sigma * (sigma * epsilon^2 + rho * epsilon * kappa - eta * kappa^2).
Let C := d1 * (f2 * h1^2 + 2 * g1 * g2 * h1 - h2 * g1^2) - d2 * h1 * (g1^2 + f1 * h1).

Lemma D_eq : D = sigma^2 * (epsilon^2 + kappa * mu).
Proof. unfold D, sigma, rho, epsilon, kappa, eta, mu. ring. Qed.

Lemma core (E s : R) :
  sigma < 0 -> 0 < d1 -> h1 <> 0 -> N <> 0 -> s = 1 \/ s = -1 -> 0 <= D -> 0 < E ->
  E^2 * N = b - s * 2 * sqrt D ->
  (s = 1 -> 0 < h1 -> 0 < C) -> (s = 1 -> h1 < 0 -> kappa < 0) ->
  (s = -1 -> 0 < h1 /\ 0 < kappa) ->
  let rad := - d1 * h1 + E^2 * (g1^2 + f1 * h1) in
  let L := (- E * g1 + s * sqrt rad) / h1 in
  0 <= rad /\ f1 * E^2 - 2 * g1 * E * L - h1 * L^2 = d1 /\
  f2 * E^2 - 2 * g2 * E * L - h2 * L^2 = d2 /\ 0 <= s * (g1 * E + h1 * L) /\
  E * s * sqrt D = - sigma * (epsilon * E + kappa * L).
Proof.
  intros Hs Hd Hh N0 Hsgn HD HE HN Hp1 Hp2 Hm rad L.
  assert (QD : sqrt D ^ 2 = D) by (apply pow2_sqrt; exact HD).
  assert (S2 : s^2 = 1) by (destruct Hsgn; subst; ring).
  (* the quadratic equation satisfied by E^2 *)
  assert (Q : N * (E^2)^2 - 2 * b * E^2 + kappa^2 = 0).
  { assert (K : b^2 - N * kappa^2 = 4 * D)
      by (unfold b, N, D, kappa, rho, sigma, epsilon, eta; ring).
    apply (Rmult_eq_reg_l N); [|exact N0].
    replace (N * (N * (E ^ 2) ^ 2 - 2 * b * E ^ 2 + kappa ^ 2))
      with ((E^2 * N - b)^2 - (b^2 - N * kappa^2)) by ring.
    rewrite K, HN.
    replace ((b - s * 2 * sqrt D - b) ^ 2) with (s^2 * (4 * sqrt D ^ 2)) by ring.
    rewrite QD, S2. ring. }
  (* the common solution *)
  set (Lt := (rho * E^2 - kappa) / (2 * sigma * E)).
  assert (I1 : rho * E^2 - 2 * sigma * E * Lt = kappa) by (unfold Lt; field; lra).
  assert (I2 : eta * E^2 + sigma * Lt^2 = epsilon).
  { assert (E2 : 0 < E^2) by (apply pow_lt; lra).
    apply (Rmult_eq_reg_l (4 * sigma * E^2)); [|apply Rlt_not_eq; nra].
    replace (4 * sigma * E ^ 2 * (eta * E ^ 2 + sigma * Lt ^ 2))
      with (4 * sigma * eta * (E^2)^2 + (2 * sigma * E * Lt)^2) by ring.
    replace (2 * sigma * E * Lt) with (rho * E^2 - kappa) by lra.
    apply Rminus_diag_uniq. rewrite <- Q. unfold N, b. ring. }
  set (V1 := f1 * E^2 - 2 * g1 * E * Lt - h1 * Lt^2 - d1).
  set (V2 := f2 * E^2 - 2 * g2 * E * Lt - h2 * Lt^2 - d2).
  assert (J1 : h2 * V1 - h1 * V2 = 0).
  { unfold V1, V2. apply Rminus_diag_eq in I1. rewrite <- I1. unfold rho, sigma, kappa. ring. }
  assert (J2 : g2 * V1 - g1 * V2 = 0).
  { unfold V1, V2. apply Rminus_diag_eq in I2. rewrite <- I2. unfold eta, sigma, epsilon. ring. }
  assert (Z1 : V1 = 0).
  { apply (Rmult_eq_reg_l sigma); [|lra]. rewrite Rmult_0_r.
    replace (sigma * V1) with (g1 * (h2 * V1 - h1 * V2) - h1 * (g2 * V1 - g1 * V2))
      by (unfold sigma; ring). rewrite J1, J2. ring. }
  assert (Z2 : V2 = 0).
  { apply (Rmult_eq_reg_l sigma); [|lra]. rewrite Rmult_0_r.
    replace (sigma * V2) with (g2 * (h2 * V1 - h1 * V2) - h2 * (g2 * V1 - g1 * V2))
      by (unfold sigma; ring). rewrite J1, J2. ring. }
  (* the radicand is a square *)
  set (B := g1 * E + h1 * Lt).
  assert (RB : rad = B^2).
  { unfold rad, B. apply Rminus_diag_uniq.
    replace (- d1 * h1 + E ^ 2 * (g1 ^ 2 + f1 * h1) - (g1 * E + h1 * Lt) ^ 2) with (h1 * V1)
      by (unfold V1; ring). rewrite Z1. ring. }
  (* j = sign of the branch *)
  set (j := epsilon * E + kappa * Lt).
  assert (Hj : E * s * sqrt D = - sigma * j).
  { assert (K : b - E^2 * N = 2 * s * sqrt D) by lra.
    apply (Rmult_eq_reg_l 2); [|lra].
    replace (2 * (E * s * sqrt D)) with (E * (b - E^2 * N)) by (rewrite K; ring).
    apply Rminus_diag_uniq.
    replace (E * (b - E ^ 2 * N) - 2 * (- sigma * j))
      with (E * b + 2 * sigma * epsilon * E - N * E^3 + kappa * (2 * sigma * Lt)) by (unfold j; ring).
    apply (Rmult_eq_reg_l E); [|lra]. rewrite Rmult_0_r.
    replace (E * (E * b + 2 * sigma * epsilon * E - N * E ^ 3 + kappa * (2 * sigma * Lt)))
      with (E^2 * b + 2 * sigma * epsilon * E^2 - N * (E^2)^2 + kappa * (2 * sigma * E * Lt)) by ring.
    replace (2 * sigma * E * Lt) with (rho * E^2 - kappa) by lra.
    replace (E ^ 2 * b + 2 * sigma * epsilon * E ^ 2 - N * (E ^ 2) ^ 2 + kappa * (rho * E ^ 2 - kappa))
      with (- (N * (E^2)^2 - 2 * b * E^2 + kappa^2)) by (unfold b; ring).
    rewrite Q. ring. }
  assert (Sj : 0 <= s * j).
  { assert (P : - sigma * (s * j) = E * sqrt D).
    { replace (- sigma * (s * j)) with (s * (- sigma * j)) by ring. rewrite <- Hj.
      replace (s * (E * s * sqrt D)) with (s^2 * (E * sqrt D)) by ring. rewrite S2. ring. }
    assert (0 <= E * sqrt D) by (apply Rmult_le_pos; [lra | apply sqrt_pos]).
    apply (Rmult_le_reg_l (- sigma)); lra. }
  (* kappa B = h1 j + d1 sigma E *)
  assert (KB : kappa * B = h1 * j + d1 * sigma * E).
  { unfold B, j, kappa, epsilon, sigma. ring. }
  (* B (h1 j - d1 sigma E) = E^2 C *)
  assert (BC : B * (h1 * j - d1 * sigma * E) = E^2 * C).
  { apply Rminus_diag_uniq.
    replace (B * (h1 * j - d1 * sigma * E) - E ^ 2 * C) with (h1^2 * (d2 * V1 - d1 * V2))
      by (unfold B, j, kappa, sigma, C, V1, V2, epsilon; ring).
    rewrite Z1, Z2. ring. }
  assert (SB : 0 <= s * B).
  { destruct Hsgn as [-> | ->].
    - rewrite Rmult_1_l in *.
      destruct (Rdichotomy _ _ Hh) as [Hneg|Hpos].
      + specialize (Hp2 eq_refl Hneg).
        assert (h1 * j + d1 * sigma * E <= 0) by (assert (0 < d1 * E) by nra; nra). nra.
      + specialize (Hp1 eq_refl Hpos).
        assert (0 < h1 * j - d1 * sigma * E) by (assert (0 < d1 * E) by nra; nra).
        assert (0 < E^2 * C) by (apply Rmult_lt_0_compat; [apply pow_lt; lra | lra]). nra.
    - destruct (Hm eq_refl) as [H1 H2]. assert (j <= 0) by lra.
      assert (h1 * j + d1 * sigma * E < 0) by (assert (0 < d1 * E) by nra; nra). nra. }
  assert (EL : L = Lt).
  { unfold L. rewrite RB.
    assert (SQ : s * sqrt (B^2) = B).
    { replace (B^2) with ((s * B) * (s * B)) by (replace (s * B * (s * B)) with (s^2 * B^2) by ring; rewrite S2; ring).
      rewrite sqrt_square by exact SB. replace (s * (s * B)) with (s^2 * B) by ring. rewrite S2. ring. }
    rewrite SQ. unfold B. field. exact Hh. }
  rewrite EL. fold B. unfold V1 in Z1. unfold V2 in Z2. repeat split; try lra.
  - rewrite RB. apply pow2_ge_0.
  - exact Hj.
Qed.
End Core.

(** ** The coefficients of equation B.14 (w = x^2 = sin^2 theta_min) *)
Definition cf (a w r : R) := r^4 + a^2 * (r * (r + 2) + (1 - w) * (r^2 - 2 * r + a^2)).
Definition cg (a r : R) := 2 * a * r.
Definition ch (a w r : R) := r * (r - 2) + (1 - w) / w * (r^2 - 2 * r + a^2).
Definition cd (a w r : R) := (r^2 + a^2 * (1 - w)) * (r^2 - 2 * r + a^2).
Definition cf' (a w r : R) := 4 * r^3 + 2 * a^2 * ((2 - w) * r + w).
Definition cg' (a : R) := 2 * a.
Definition ch' (w r : R) := 2 * (r - 1) / w.
Definition cd' (a w r : R) := 2 * (2 * r - 3) * r^2 + 2 * a^2 * ((2 - w) * r - (1 - w)).

Section Kerr.
Variables a w : R.
Hypothesis Ha : 0 < a < 1.
Hypothesis Hw : 0 < w <= 1.
Let k := a^2 * (1 - w).
Let v := a^2 * w.
Let Sg r := r^2 + k.
Let Dl r := r^2 - 2 * r + a^2.

Lemma k_bound : 0 <= k < 1 /\ 0 < v <= a^2 /\ 0 < a^2 < 1 /\ k + v = a^2.
Proof. assert (0 < a^2 < 1) by nra. unfold k, v. repeat split; nra. Qed.

Lemma h_eq r : ch a w r = (Sg r - 2 * r) / w.
Proof. unfold ch, Sg, k. field. lra. Qed.
Lemma f_eq r : cf a w r = Sg r ^ 2 + v * (Sg r + 2 * r).
Proof. unfold cf, Sg, k, v. ring. Qed.
Lemma d_eq r : cd a w r = Sg r * Dl r.
Proof. reflexivity. Qed.
Lemma Dl_eq r : Dl r = Sg r - 2 * r + v.
Proof. unfold Dl, Sg, k, v. ring. Qed.

(** the Gram determinant *)
Lemma G_eq r : cg a r ^ 2 + cf a w r * ch a w r = Dl r * Sg r ^ 2 / w.
Proof. unfold cg, cf, ch, Dl, Sg, k. field. lra. Qed.

Section Pair.
Variables r1 r2 : R.
Hypothesis Hr : 1 < r2 < r1.
Hypothesis HD2 : 0 < Dl r2.

Lemma Dl_mono : Dl r2 < Dl r1.
Proof. unfold Dl. nra. Qed.
Lemma Sg_pos r : 1 < r -> 1 < Sg r.
Proof. pose proof k_bound. unfold Sg. nra. Qed.
Lemma Sg_mono : Sg r2 < Sg r1.
Proof. unfold Sg. nra. Qed.
Lemma r12 : 0 < r1 * r2 - k.
Proof. pose proof k_bound. nra. Qed.
Lemma d_pos r : 1 < r -> 0 < Dl r -> 0 < cd a w r.
Proof. intros H1 H2. rewrite d_eq. pose proof (Sg_pos r H1). nra. Qed.

Let f1 := cf a w r1. Let g1 := cg a r1. Let h1 := ch a w r1. Let d1 := cd a w r1.
Let f2 := cf a w r2. Let g2 := cg a r2. Let h2 := ch a w r2. Let d2 := cd a w r2.

Lemma sigma_eq : g1 * h2 - h1 * g2 = - (2 * a * (r1 - r2) * (r1 * r2 - k)) / w.
Proof. unfold g1, h2, h1, g2, cg, ch, k. field. lra. Qed.
Lemma sigma_neg : g1 * h2 - h1 * g2 < 0.
Proof.
  rewrite sigma_eq. pose proof r12.
  assert (0 < 2 * a * (r1 - r2) * (r1 * r2 - k)) by (repeat apply Rmult_lt_0_compat; lra).
  apply Rdiv_lt_0_compat with (b := w) in H0; [|lra]. unfold Rdiv in *. lra.
Qed.
Lemma C_eq : d1 * (f2 * h1^2 + 2 * g1 * g2 * h1 - h2 * g1^2) - d2 * h1 * (g1^2 + f1 * h1)
  = Sg r1 * Dl r1 * (2 * (r1 - r2) * (r1 * r2 - k) * (Sg r2 * Dl r1 + v * (Sg r1 - Sg r2))) / w^2.
Proof.
  unfold d1, f2, h1, g1, g2, h2, d2, f1, cd, cf, cg, ch, Sg, Dl, k, v. field. lra.
Qed.
Lemma C_pos : 0 < d1 * (f2 * h1^2 + 2 * g1 * g2 * h1 - h2 * g1^2) - d2 * h1 * (g1^2 + f1 * h1).
Proof.
  rewrite C_eq. pose proof r12. pose proof Dl_mono. pose proof Sg_mono. pose proof k_bound.
  pose proof (Sg_pos r1 ltac:(lra)). pose proof (Sg_pos r2 ltac:(lra)).
  assert (0 < Sg r2 * Dl r1) by (apply Rmult_lt_0_compat; lra).
  assert (0 < v * (Sg r1 - Sg r2)) by (apply Rmult_lt_0_compat; lra).
  apply Rdiv_lt_0_compat; [|apply pow_lt; lra].
  repeat apply Rmult_lt_0_compat; lra.
Qed.
Lemma kappa_neg : h1 < 0 -> d1 * h2 - h1 * d2 < 0.
Proof.
  intros H. pose proof Dl_mono. pose proof Sg_mono.
  pose proof (Sg_pos r1 ltac:(lra)). pose proof (Sg_pos r2 ltac:(lra)).
  assert (h2 < h1).
  { unfold h1, h2. rewrite !h_eq. apply Rmult_lt_compat_r; [apply Rinv_0_lt_compat; lra|].
    unfold Sg. nra. }
  assert (0 < d2) by (apply d_pos; lra).
  assert (d2 < d1) by (unfold d1, d2; rewrite !d_eq; nra). nra.
Qed.
(** the discriminant *)
Lemma disc_eq :
  (d1 * g2 - g1 * d2)^2 + (d1 * h2 - h1 * d2) * (d1 * f2 - d2 * f1)
  = 2 * (Sg r1 * Sg r2 * Dl r1 * Dl r2 * (r1 + r2) * (r1 - r2)^2 * (r1 * r2 - k)) / w.
Proof. unfold d1, f2, h1, g1, g2, h2, d2, f1, cd, cf, cg, ch, Sg, Dl, k. field. lra. Qed.
Lemma disc_pos : 0 < (d1 * g2 - g1 * d2)^2 + (d1 * h2 - h1 * d2) * (d1 * f2 - d2 * f1).
Proof.
  rewrite disc_eq. pose proof r12. pose proof Dl_mono.
  pose proof (Sg_pos r1 ltac:(lra)). pose proof (Sg_pos r2 ltac:(lra)).
  apply Rdiv_lt_0_compat; [|lra].
  repeat apply Rmult_lt_0_compat; lra.
Qed.
Lemma epsilon_pos : 0 < d1 * g2 - g1 * d2.
Proof.
  pose proof Dl_mono. pose proof (Sg_pos r1 ltac:(lra)). pose proof (Sg_pos r2 ltac:(lra)). pose proof r12.
  assert (0 < r2 * Sg r1 - r1 * Sg r2).
  { replace (r2 * Sg r1 - r1 * Sg r2) with ((r1 - r2) * (r1 * r2 - k)) by (unfold Sg; ring). nra. }
  replace (d1 * g2 - g1 * d2) with (2 * a * ((r2 * Sg r1 - r1 * Sg r2) * Dl r1 + r1 * Sg r2 * (Dl r1 - Dl r2)))
    by (unfold d1, g2, g1, d2, cd, cg, Sg, Dl, k; ring).
  assert (0 < (r2 * Sg r1 - r1 * Sg r2) * Dl r1) by (apply Rmult_lt_0_compat; lra).
  assert (0 < r1 * Sg r2 * (Dl r1 - Dl r2)) by (repeat apply Rmult_lt_0_compat; lra).
  apply Rmult_lt_0_compat; lra.
Qed.
Lemma mu_pos : 0 < d1 * f2 - d2 * f1.
Proof.
  pose proof epsilon_pos as He. pose proof (Sg_pos r1 ltac:(lra)). pose proof (Sg_pos r2 ltac:(lra)).
  pose proof k_bound.
  replace (d1 * f2 - d2 * f1)
    with (Sg r1 * Sg r2 * (2 * (r1 - r2) * (r1 * r2 - a^2)) + (d1 * g2 - g1 * d2) * v / a)
    by (unfold d1, f2, g1, g2, d2, f1, cd, cf, cg, Sg, Dl, k, v; field; lra).
  assert (0 < (d1 * g2 - g1 * d2) * v / a) by (apply Rdiv_lt_0_compat; [apply Rmult_lt_0_compat; lra | lra]).
  assert (0 < r1 * r2 - a^2) by nra.
  assert (0 < Sg r1 * Sg r2 * (2 * (r1 - r2) * (r1 * r2 - a^2))) by (repeat apply Rmult_lt_0_compat; lra).
  lra.
Qed.
(** retrograde orbits stay far out *)
Lemma retro : 13/5 < r2 -> 5 < r1 -> 0 < h1 /\ 0 < d1 * h2 - h1 * d2.
Proof.
  intros H2 H1. pose proof k_bound as [Kk [Kv [Ka Kkv]]].
  split.
  { unfold h1. rewrite h_eq. apply Rdiv_lt_0_compat; [|lra]. unfold Sg. nra. }
  replace (d1 * h2 - h1 * d2)
    with ((r1 - r2) * ((r1 + r2) * Dl r1 * (Sg r2 - 2 * r2) - v * Sg r2 * (r1 + r2 - 2)) / w)
    by (unfold d1, h1, h2, d2, cd, ch, Sg, Dl, k, v; field; lra).
  apply Rdiv_lt_0_compat; [|lra]. apply Rmult_lt_0_compat; [lra|].
  assert (B1 : 15 < Dl r1) by (unfold Dl; nra).
  assert (B2 : 6 / 10 * r2 < Sg r2 - 2 * r2) by (unfold Sg; nra).
  assert (B3 : 0 < Sg r2 <= r2^2 + 1) by (unfold Sg; nra).
  assert (B4 : Sg r2 < 15 * (Sg r2 - 2 * r2)).
  { unfold Sg. nra. }
  assert (v * Sg r2 * (r1 + r2 - 2) < (r1 + r2) * Sg r2).
  { assert (v * Sg r2 <= Sg r2) by nra.
    assert (0 < v * Sg r2) by nra. nra. }
  assert ((r1 + r2) * Sg r2 < (r1 + r2) * (15 * (Sg r2 - 2 * r2))) by (apply Rmult_lt_compat_l; lra).
  assert ((r1 + r2) * (Sg r2 - 2 * r2) * 15 < (r1 + r2) * (Sg r2 - 2 * r2) * Dl r1)
    by (apply Rmult_lt_compat_l; [apply Rmult_lt_0_compat; lra | lra]).
  lra.
Qed.
End Pair.

(** circular orbits: the second equation is the derivative; the signs are those of the
    limit r2 -> r1 of the previous section after division by r2 - r1 *)
Section Circular.
Variable r : R.
Hypothesis Hr : 1 < r.
Hypothesis HD : 0 < Dl r.
Let f1 := cf a w r. Let g1 := cg a r. Let h1 := ch a w r. Let d1 := cd a w r.
Let f2 := - cf' a w r. Let g2 := - cg' a. Let h2 := - ch' w r. Let d2 := - cd' a w r.

Lemma rr : 0 < r^2 - k.
Proof. pose proof k_bound. nra. Qed.
Lemma c_sigma_neg : g1 * h2 - h1 * g2 < 0.
Proof.
  replace (g1 * h2 - h1 * g2) with (- (2 * a * (r^2 - k) / w))
    by (unfold g1, h2, h1, g2, cg, cg', ch, ch', k; field; lra).
  pose proof rr. assert (0 < 2 * a * (r^2 - k)) by (repeat apply Rmult_lt_0_compat; lra).
  apply Rdiv_lt_0_compat with (b := w) in H0; lra.
Qed.
Lemma c_C_pos : 0 < d1 * (f2 * h1^2 + 2 * g1 * g2 * h1 - h2 * g1^2) - d2 * h1 * (g1^2 + f1 * h1).
Proof.
  replace (d1 * (f2 * h1^2 + 2 * g1 * g2 * h1 - h2 * g1^2) - d2 * h1 * (g1^2 + f1 * h1))
    with (2 * (r^2 - k) * (Sg r * Dl r)^2 / w^2)
    by (unfold d1, f2, h1, g1, g2, h2, d2, f1, cd, cf, cg, ch, cd', cf', cg', ch', Sg, Dl, k, v; field; lra).
  pose proof rr. pose proof (Sg_pos r Hr).
  apply Rdiv_lt_0_compat; [|apply pow_lt; lra].
  apply Rmult_lt_0_compat; [lra|]. apply pow_lt. apply Rmult_lt_0_compat; lra.
Qed.
Lemma c_d'_pos : 0 < cd' a w r.
Proof.
  replace (cd' a w r) with (2 * r * Dl r + 2 * Sg r * (r - 1)) by (unfold cd', Dl, Sg, k; ring).
  pose proof (Sg_pos r Hr). assert (0 < r * Dl r) by (apply Rmult_lt_0_compat; lra).
  assert (0 < Sg r * (r - 1)) by (apply Rmult_lt_0_compat; lra). lra.
Qed.
Lemma c_kappa_neg : h1 < 0 -> d1 * h2 - h1 * d2 < 0.
Proof.
  intros H. pose proof c_d'_pos. assert (0 < d1) by (apply d_pos; assumption).
  assert (0 < ch' w r) by (unfold ch'; apply Rdiv_lt_0_compat; lra).
  unfold h2, d2. nra.
Qed.
Lemma c_disc_pos : 0 < (d1 * g2 - g1 * d2)^2 + (d1 * h2 - h1 * d2) * (d1 * f2 - d2 * f1).
Proof.
  replace ((d1 * g2 - g1 * d2)^2 + (d1 * h2 - h1 * d2) * (d1 * f2 - d2 * f1))
    with (4 * r * ((Sg r * Dl r)^2 * (r^2 - k)) / w)
    by (unfold d1, f2, h1, g1, g2, h2, d2, f1, cd, cf, cg, ch, cd', cf', cg', ch', Sg, Dl, k; field; lra).
  pose proof rr. pose proof (Sg_pos r Hr).
  apply Rdiv_lt_0_compat; [|lra]. apply Rmult_lt_0_compat; [lra|].
  apply Rmult_lt_0_compat; [|lra]. apply pow_lt. apply Rmult_lt_0_compat; lra.
Qed.
Lemma c_epsilon_pos : 0 < d1 * g2 - g1 * d2.
Proof.
  replace (d1 * g2 - g1 * d2) with (2 * a * ((r^2 - k) * Dl r + 2 * r * Sg r * (r - 1)))
    by (unfold d1, g2, g1, d2, cd, cg, cd', cg', Sg, Dl, k; ring).
  pose proof rr. pose proof (Sg_pos r Hr).
  assert (0 < (r^2 - k) * Dl r) by (apply Rmult_lt_0_compat; lra).
  assert (0 < 2 * r * Sg r * (r - 1)) by (repeat apply Rmult_lt_0_compat; lra).
  apply Rmult_lt_0_compat; lra.
Qed.
Lemma c_mu_pos : 0 < d1 * f2 - d2 * f1.
Proof.
  pose proof c_epsilon_pos as He. pose proof (Sg_pos r Hr). pose proof k_bound.
  replace (d1 * f2 - d2 * f1)
    with (Sg r * Sg r * (2 * (r^2 - a^2)) + (d1 * g2 - g1 * d2) * v / a)
    by (unfold d1, f2, g1, g2, d2, f1, cd, cf, cg, cd', cf', cg', Sg, Dl, k, v; field; lra).
  assert (0 < (d1 * g2 - g1 * d2) * v / a) by (apply Rdiv_lt_0_compat; [apply Rmult_lt_0_compat; lra | lra]).
  assert (0 < r^2 - a^2) by nra.
  assert (0 < Sg r * Sg r * (2 * (r^2 - a^2))) by (repeat apply Rmult_lt_0_compat; lra).
  lra.
Qed.
Lemma c_retro : 5 < r -> 0 < h1 /\ 0 < d1 * h2 - h1 * d2.
Proof.
  intros H1. pose proof k_bound as [Kk [Kv [Ka Kkv]]].
  split.
  { unfold h1. rewrite h_eq. apply Rdiv_lt_0_compat; [|lra]. unfold Sg. nra. }
  replace (d1 * h2 - h1 * d2)
    with ((2 * r * Dl r * (Sg r - 2 * r) - v * Sg r * (2 * r - 2)) / w)
    by (unfold d1, h1, h2, d2, cd, ch, cd', ch', Sg, Dl, k, v; field; lra).
  apply Rdiv_lt_0_compat; [|lra].
  assert (B1 : 15 < Dl r) by (unfold Dl; nra).
  assert (B3 : 0 < Sg r) by (unfold Sg; nra).
  assert (B4 : Sg r < 15 * (Sg r - 2 * r)) by (unfold Sg; nra).
  assert (v * Sg r * (2 * r - 2) < (2 * r) * Sg r).
  { assert (v * Sg r <= Sg r) by nra. assert (0 < v * Sg r) by nra. nra. }
  assert ((2 * r) * Sg r < (2 * r) * (15 * (Sg r - 2 * r))) by (apply Rmult_lt_compat_l; lra).
  assert ((2 * r) * (Sg r - 2 * r) * 15 < (2 * r) * (Sg r - 2 * r) * Dl r)
    by (apply Rmult_lt_compat_l; [apply Rmult_lt_0_compat; lra | lra]).
  lra.
Qed.
End Circular.
End Kerr.
