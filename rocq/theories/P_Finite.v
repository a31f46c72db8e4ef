(** * When the constants of motion are finite numbers (C50)

    The converse of P_Constants: an accepted orbit with its two turning points
    exists, and the closed formulas reach it unless one of their denominators
    vanishes. *)
From Coq Require Import Reals Lra ZArith String List Psatz.
From Coquelicot Require Import Coquelicot.
From Verif Require Import Num Outcome External Checked ExternalSpec Spec Model_Units Model_Constants
  P_Validation SepPoly Props_Separatrix P_Bounds P_Schmidt P_Constants Props_Constants P_Quartic
  P_Stability P_Stability2 P_Stability3 P_Stability4.
Open Scope R_scope.

(** ** an orbit with the requested turning points exists *)
Lemma orbit_exists c k q b : dom c (k / q^2) -> 0 <= k -> 1 < q -> b^2 + k < 1 -> bc c k q < b ->
  exists E y, 0 < E /\ 0 < y /\ E^2 = al_ c q + be_ c (k / q^2) q * y^2 /\
    P_ c (k / q^2) q b + W_ c (k / q^2) q * y^2 = 2 * b * (E * y).
Proof.
  intros Hdom Hk Hq Ha Hb.
  destruct (pos c k q b Hdom Hk Hq Ha) as (Hc & Ht & H3 & Hd & C2 & Hal & Hm & Hbe & HYc & HP).
  destruct (crit_eqs c k q b Hdom Hk Hq Ha) as [C1 C3].
  pose proof (UU_pos c k q ltac:(lra) Hdom) as HU. pose proof (VV_pos c k q ltac:(lra) Hdom) as HV.
  set (t := k / q^2) in *. set (al := al_ c q) in *. set (be := be_ c t q) in *.
  set (P := P_ c t q b) in *. set (W := W_ c t q) in *. set (Yc := Yc_ c t q) in *.
  pose (G := fun Y => P + W * Y - 2 * b * sqrt (Y * (al + be * Y))).
  assert (CG : continuity G).
  { apply continuity_pointwise. intros Y. unfold G.
    apply @continuous_minus.
    - apply (@ex_derive_continuous R_AbsRing R_NormedModule). auto_derive. exact I.
    - apply @continuous_mult; [apply continuous_const|].
      apply continuous_comp; [apply (@ex_derive_continuous R_AbsRing R_NormedModule); auto_derive; exact I|].
      apply continuous_sqrt. }
  assert (G0 : G 0 = P). { unfold G. rewrite Rmult_0_l, sqrt_0. ring. }
  assert (GY : G Yc < 0).
  { unfold G. rewrite C3, C1.
    assert (Hu2 : sqrt (UU c k q) ^ 2 = UU c k q) by (apply pow2_sqrt; lra).
    assert (Hw2 : sqrt (VV c k q) ^ 2 = VV c k q) by (apply pow2_sqrt; lra).
    pose proof (sqrt_lt_R0 _ HU) as Hu. pose proof (sqrt_pos (VV c k q)) as Hw. unfold bc in Hb.
    set (u := sqrt (UU c k q)) in *. set (w := sqrt (VV c k q)) in *. nra. }
  destruct (ivt_any G 0 Yc CG) as [Y0 [Z0 B0]]. { rewrite G0. nra. }
  rewrite Rmin_left, Rmax_right in B0 by lra.
  assert (Y0p : 0 < Y0). { destruct B0 as [[B|B] _]; [exact B|]. rewrite <- B in Z0. lra. }
  assert (E0 : 0 < al + be * Y0). { assert (0 < be * Y0) by (apply Rmult_lt_0_compat; lra). lra. }
  exists (sqrt (al + be * Y0)), (sqrt Y0).
  rewrite !pow2_sqrt by lra.
  refine (conj (sqrt_lt_R0 _ E0) (conj (sqrt_lt_R0 _ Y0p) (conj eq_refl _))).
  rewrite <- sqrt_mult by lra. rewrite (Rmult_comm (al + be * Y0)). unfold G in Z0. lra.
Qed.

(** on the retrograde side the denominator of the energy is positive *)
Lemma retro_denominator c k q b E y : dom c (k / q^2) -> 0 <= k -> 1 < q -> b^2 + k < 1 -> b <= 0 ->
  0 < E -> 0 < y -> E^2 = al_ c q + be_ c (k / q^2) q * y^2 ->
  P_ c (k / q^2) q b + W_ c (k / q^2) q * y^2 = 2 * b * (E * y) ->
  0 < W_ c (k / q^2) q ^ 2 - 4 * b^2 * be_ c (k / q^2) q.
Proof.
  intros Hdom Hk Hq Ha Hb HE Hy E1 E2.
  destruct (pos c k q b Hdom Hk Hq Ha) as (Hc & Ht & H3 & Hd & C2 & Hal & Hm & Hbe & HYc & HP).
  set (t := k / q^2) in *. set (al := al_ c q) in *. set (be := be_ c t q) in *.
  set (P := P_ c t q b) in *. set (W := W_ c t q) in *.
  assert (Y0 : 0 < y^2) by (apply pow_lt; lra).
  apply (pos_factor _ (y^2 * y^2)); [apply Rmult_lt_0_compat; lra|].
  assert (EY : 0 < E * y) by (apply Rmult_lt_0_compat; lra).
  assert (K : 0 <= - (2 * b * (E * y))) by nra.
  assert (WY : (W * y^2)^2 = (P - 2 * b * (E * y))^2).
  { replace (W * y^2) with (2 * b * (E * y) - P) by lra. ring. }
  assert (S : (2 * b * (E * y))^2 = 4 * b^2 * (al + be * y^2) * y^2) by (rewrite <- E1; ring).
  assert (0 <= 4 * b^2 * al * y^2).
  { pose proof (pow2_ge_0 b). assert (0 <= 4 * b^2) by lra. apply Rmult_le_pos; [apply Rmult_le_pos|]; lra. }
  replace (y^2 * y^2 * (W^2 - 4 * b^2 * be)) with ((W * y^2)^2 - ((4 * b^2 * (al + be * y^2) * y^2) - 4 * b^2 * al * y^2)) by ring.
  rewrite WY, <- S. nra.
Qed.

(** the turning points of that orbit *)
Lemma Rp_q c k q b E y : 1 <= c -> 0 <= k -> 0 < q ->
  E^2 = al_ c q + be_ c (k / q^2) q * y^2 ->
  P_ c (k / q^2) q b + W_ c (k / q^2) q * y^2 = 2 * b * (E * y) ->
  Rp k b E y q = 0.
Proof.
  intros Hc Hk Hq E1 E2. assert (C2 : 0 < c^2) by (apply pow_lt; lra).
  assert (Q2 : 0 < q^2) by (apply pow_lt; lra). assert (D1 : 0 < q^2 + k) by lra.
  assert (D2 : 0 < c^2 * q^2 + k) by (assert (0 < c^2 * q^2) by (apply Rmult_lt_0_compat; lra); lra).
  unfold Rp. rewrite E1. apply Rminus_diag_eq in E2.
  transitivity ((q^2 + k) * (P_ c (k / q^2) q b + W_ c (k / q^2) q * y^2 - 2 * b * (E * y))); [|rewrite E2; ring].
  unfold P_, W_, al_, be_, mm_. field. repeat split; lra.
Qed.
Lemma Rp_cq c k q b E y : 1 < c -> 0 <= k -> 0 < q ->
  E^2 = al_ c q + be_ c (k / q^2) q * y^2 -> Rp k b E y q = 0 -> Rp k b E y (c * q) = 0.
Proof.
  intros Hc Hk Hq E1 H2.
  assert (Q2 : 0 < q^2) by (apply pow_lt; lra). assert (C2 : 0 < c^2) by (apply pow_lt; lra).
  assert (CQ : 0 < (c*q)^2) by (apply pow_lt, Rmult_lt_0_compat; lra).
  assert (D1 : 0 < q^2 + k) by lra. assert (D2 : 0 < (c*q)^2 + k) by lra.
  assert (K : (E^2 - (al_ c q + be_ c (k / q^2) q * y^2)) * ((c - 1) * (c + 1) * q^2) =
     Rp k b E y (c * q) / ((c*q)^2 + k) - Rp k b E y q / (q^2 + k)).
  { unfold al_, be_, mm_, Rp. field.
    repeat split; try lra; apply Rgt_not_eq; try lra; replace (c^2 * q^2 + k) with ((c*q)^2 + k) by ring; lra. }
  rewrite H2 in K. apply Rminus_diag_eq in E1. rewrite E1 in K.
  assert (Z : Rp k b E y (c * q) / ((c*q)^2 + k) = 0) by lra.
  apply (Rmult_eq_reg_r (/ ((c*q)^2 + k))); [|apply Rinv_neq_0_compat; lra]. unfold Rdiv in Z. rewrite Z. ring.
Qed.
Lemma Rp'_q k q b E y : 0 <= k -> 0 < q ->
  E^2 = al_ 1 q + be_ 1 (k / q^2) q * y^2 -> Rp k b E y q = 0 -> Rp' k b E y q = 0.
Proof.
  intros Hk Hq E1 H2.
  assert (Q2 : 0 < q^2) by (apply pow_lt; lra). assert (D1 : 0 < q^2 + k) by lra.
  assert (K : (E^2 - (al_ 1 q + be_ 1 (k / q^2) q * y^2)) * (2 * q * (q^2 + k)^2) =
     Rp' k b E y q * (q^2 + k) - Rp k b E y q * (2 * q)).
  { unfold al_, be_, mm_, Rp, Rp'. field. repeat split; try lra. }
  rewrite H2 in K. apply Rminus_diag_eq in E1. rewrite E1 in K.
  apply (Rmult_eq_reg_r (q^2 + k)); lra.
Qed.
Lemma V_Rp a x E y r : x <> 0 ->
  V a (x^2) E (x * (y + a * x * E)) r = Rp (a^2 * (1 - x^2)) (a * x) E y r /\
  V' a (x^2) E (x * (y + a * x * E)) r = Rp' (a^2 * (1 - x^2)) (a * x) E y r.
Proof.
  intros H. unfold V, V', Rp, Rp', cf, cg, ch, cd, cf', cg', ch', cd'. split; field; assumption.
Qed.

(** ** the denominator of the energy *)
Lemma N_eq a x c q : x <> 0 -> 1 <= c -> 0 < q ->
  let k := a^2 * (1 - x^2) in 0 <= k ->
  let f1 := cf a (x^2) (c*q) in let g1 := cg a (c*q) in let h1 := ch a (x^2) (c*q) in
  let f2 := cf a (x^2) q in let g2 := cg a q in let h2 := ch a (x^2) q in
  (f1 * h2 - h1 * f2)^2 + 4 * (f1 * g2 - g1 * f2) * (g1 * h2 - h1 * g2) =
  (((c*q)^2 + k) * (q^2 + k) * ((c*q)^2 - q^2) / x^2)^2 *
    (W_ c (k / q^2) q ^ 2 - 4 * (a * x)^2 * be_ c (k / q^2) q).
Proof.
  intros Hx Hc Hq k Hk. cbv zeta. assert (C2 : 0 < c^2) by (apply pow_lt; lra).
  assert (Q2 : 0 < q^2) by (apply pow_lt; lra). assert (D1 : 0 < q^2 + k) by lra.
  assert (D2 : 0 < c^2 * q^2 + k) by (assert (0 < c^2 * q^2) by (apply Rmult_lt_0_compat; lra); lra).
  assert (S1 : W_ c (k / q^2) q * ((c^2*q^2 + k) * (q^2 + k) * (c + 1)) =
    - (c^2*q^2 + k) * (q^2 + k) * (c + 1) + 2 * q * (c^2*q^2 + k) * (c + 1) + 2 * q * (c * q^2 - k) * (q^2 + k) / q^2).
  { unfold W_. field. repeat split; lra. }
  assert (S2 : be_ c (k / q^2) q * ((c^2*q^2 + k) * (q^2 + k) * (c + 1)) = 2 * (c * q^2 - k) / q).
  { unfold be_, mm_. field. repeat split; lra. }
  set (F := (c^2*q^2 + k) * (q^2 + k) * (c + 1)) in *.
  set (W := W_ c (k / q^2) q) in *. set (be := be_ c (k / q^2) q) in *. clearbody W be.
  transitivity (((c - 1) * q^2 / x^2)^2 * ((W * F)^2 - 4 * (a * x)^2 * ((be * F) * F))).
  2:{ unfold F. field. assumption. }
  rewrite S1, S2. unfold F, k, cf, cg, ch. field. lra.
Qed.
Lemma N_eq_circ a x q : x <> 0 -> 0 < q ->
  let k := a^2 * (1 - x^2) in 0 <= k ->
  let f1 := cf a (x^2) q in let g1 := cg a q in let h1 := ch a (x^2) q in
  let f2 := cf' a (x^2) q in let g2 := cg' a in let h2 := ch' (x^2) q in
  (f1 * h2 - h1 * f2)^2 + 4 * (f1 * g2 - g1 * f2) * (g1 * h2 - h1 * g2) =
  ((q^2 + k)^2 * (2 * q) / x^2)^2 *
    (W_ 1 (k / q^2) q ^ 2 - 4 * (a * x)^2 * be_ 1 (k / q^2) q).
Proof.
  intros Hx Hq k Hk. cbv zeta.
  assert (Q2 : 0 < q^2) by (apply pow_lt; lra). assert (D1 : 0 < q^2 + k) by lra.
  unfold W_, be_, mm_, k, cf, cg, ch, cf', cg', ch' in *. field. repeat split; lra.
Qed.

(** ** choosing the branch *)
Section Choose.
Variables f1 g1 h1 d1 f2 g2 h2 d2 E0 L0 : R.
Let kappa := d1 * h2 - h1 * d2.
Let rho := f1 * h2 - h1 * f2.
Let sigma := g1 * h2 - h1 * g2.
Let epsilon := d1 * g2 - g1 * d2.
Let eta := f1 * g2 - g1 * f2.
Let N := rho^2 + 4 * eta * sigma.
Let b := kappa * rho + 2 * epsilon * sigma.
Let D := sigma * (sigma * epsilon^2 + rho * epsilon * kappa - eta * kappa^2).

Lemma choose s : 0 < E0 ->
  f1 * E0^2 - 2 * g1 * E0 * L0 - h1 * L0^2 = d1 -> f2 * E0^2 - 2 * g2 * E0 * L0 - h2 * L0^2 = d2 ->
  sigma < 0 -> 0 < epsilon -> 0 < D -> N <> 0 ->
  s = 1 \/ (s = -1 /\ 0 < N) ->
  0 < (b - s * 2 * sqrt D) / N.
Proof.
  intros HE V1 V2 Hs He HD HN Hc.
  set (z := E0^2). assert (Hz : 0 < z) by (apply pow_lt; assumption).
  assert (I1 : rho * z - 2 * sigma * (E0 * L0) = kappa).
  { unfold rho, sigma, kappa, z. rewrite <- V1, <- V2. ring. }
  assert (I2 : eta * z + sigma * L0^2 = epsilon).
  { unfold eta, sigma, epsilon, z. rewrite <- V1, <- V2. ring. }
  assert (Q : N * z^2 - 2 * b * z + kappa^2 = 0).
  { assert (S : (2 * sigma * (E0 * L0))^2 = 4 * sigma * z * (sigma * L0^2)) by (unfold z; ring).
    replace (2 * sigma * (E0 * L0)) with (rho * z - kappa) in S by lra.
    replace (sigma * L0^2) with (epsilon - eta * z) in S by lra. unfold N, b. lra. }
  assert (K : b^2 - N * kappa^2 = 4 * D) by (unfold b, N, D, kappa, rho, sigma, epsilon, eta; ring).
  assert (QD : sqrt D ^ 2 = D) by (apply pow2_sqrt; lra).
  pose proof (sqrt_lt_R0 _ HD) as Hq. set (w := sqrt D) in *.
  assert (SE : sigma * epsilon < 0) by nra.
  assert (NB : b <> 2 * w).
  { intros Z. assert (N * kappa^2 = 0) by (rewrite <- QD in K; rewrite Z in K; lra).
    apply Rmult_integral in H as [H|H]; [contradiction|].
    assert (kappa = 0). { destruct (Req_dec kappa 0); [assumption|]. assert (0 < kappa^2) by (apply pow2_gt_0; assumption). lra. }
    unfold b in Z. rewrite H0 in Z. nra. }
  assert (Kn : 0 <= kappa^2) by apply pow2_ge_0.
  destruct (Rtotal_order N 0) as [Hn|[Hn|Hn]]; [|contradiction|].
  - destruct Hc as [->|[_ Hc]]; [|lra].
    assert (b^2 <= (2 * w)^2) by nra.
    assert (b <= 2 * w) by (apply Rsqr_incr_0_var; [unfold Rsqr; lra|lra]).
    replace ((b - 1 * 2 * w) / N) with ((2 * w - b) / (- N)) by (field; lra). apply Rdiv_lt_0_compat; lra.
  - assert (0 < b). { assert (0 < N * z^2) by (apply Rmult_lt_0_compat; [lra|apply pow_lt; lra]). nra. }
    assert ((2 * w)^2 <= b^2) by (assert (0 <= N * kappa^2) by (apply Rmult_le_pos; lra); nra).
    assert (2 * w <= b) by (apply Rsqr_incr_0_var; [unfold Rsqr; lra|lra]).
    apply Rdiv_lt_0_compat; [|lra]. destruct Hc as [->|[-> _]]; lra.
Qed.
End Choose.

Section S.
Context {X : External R} (HX : root_spec X).

Lemma Rsgn_cases x : x <> 0 -> Rsgn x = 1 \/ Rsgn x = -1.
Proof.
  intros H. destruct (Rtotal_order x 0) as [K|[K|K]]; [right; now apply Rsgn_neg|contradiction|left; now apply Rsgn_pos].
Qed.

(** eccentric and circular orbits, off the pole, spinning hole *)
Lemma nonpolar_finite a p e x : 0 < a -> check_constants_params a p e x = Ret tt -> x <> 0 -> e < 1 ->
  let q := p / (1 + e) in let k := a^2 * (1 - x^2) in
  ch a (x^2) (p / (1 - e)) <> 0 ->
  W_ (cc e) (k / q^2) q ^ 2 - 4 * (a * x)^2 * be_ (cc e) (k / q^2) q <> 0 ->
  exists E L, energy (Some a) (Some p) (Some e) (Some x) = Ret (Some E) /\
    angular_momentum (Some a) (Some p) (Some e) (Some x) (Some (Some E)) = Ret (Some L).
Proof.
  intros Ha0 HC Hx0 He1. cbv zeta. intros Hh HW.
  assert (Ha : 0 <= a) by lra.
  destruct (accepted_bounds HX a p e x Ha HC) as [Ha1 [He [Hx [Hr [HD [Hp _]]]]]].
  destruct (accepted_stable HX a p e x Ha He1 HC) as [Hdom Hbc]. cbv zeta in Hdom, Hbc.
  assert (Hw : 0 < x^2 <= 1) by (split; [apply pow2_gt_0; assumption | nra]).
  assert (Ha2 : 0 < a^2 < 1) by nra.
  assert (Hk : 0 <= a^2 * (1 - x^2) < 1) by nra.
  assert (Hbk : (a * x)^2 + a^2 * (1 - x^2) < 1) by nra.
  pose proof (cc_ge e ltac:(lra)) as Hc.
  destruct (orbit_exists _ _ _ _ Hdom (proj1 Hk) Hr Hbk Hbc) as (E0 & y & HE0 & Hy & E1 & E2).
  pose proof (Rp_q _ _ _ _ _ _ Hc (proj1 Hk) (Rlt_trans _ _ _ Rlt_0_1 Hr) E1 E2) as Rq.
  set (q := p / (1 + e)) in *. set (k := a^2 * (1 - x^2)) in *.
  assert (Hc1 : p / (1 - e) = cc e * q) by (unfold cc, q; field; lra).
  assert (HWs : x < 0 -> 0 < W_ (cc e) (k / q^2) q ^ 2 - 4 * (a * x)^2 * be_ (cc e) (k / q^2) q).
  { intros K. apply (retro_denominator (cc e) k q (a * x) E0 y); try assumption; try lra. nra. }
  assert (Q2 : 0 < q^2) by (apply pow_lt; lra).
  assert (Sgn : Rsgn x = 1 \/ Rsgn x = -1) by now apply Rsgn_cases.
  assert (Sneg : Rsgn x = -1 -> x < 0).
  { intros Z. destruct (Rtotal_order x 0) as [K|[K|K]]; [assumption|contradiction|]. rewrite Rsgn_pos in Z by assumption. lra. }
  assert (H1e : 1 - e <> 0) by lra. assert (H2e : 1 + e <> 0) by lra.
  set (L0 := x * (y + a * x * E0)).
  rewrite energy_run by assumption. rewrite (Reqb_false e 1) by lra. rewrite (Reqb_false x 0) by assumption.
  destruct (Reqb_spec e 0) as [->|He0].
  - (* circular *)
    assert (C1 : cc 0 = 1) by (unfold cc; field). rewrite C1 in *.
    assert (Eq : q = p) by (unfold q; field). rewrite Eq in *. clear q Eq.
    replace (1 * p) with p in * by ring.
    rewrite coefficients_some, coefficients_derivative_some by assumption.
    pose proof (Rp'_q k p (a * x) E0 y (proj1 Hk) ltac:(lra) E1 Rq) as Rq'.
    destruct (V_Rp a x E0 y p Hx0) as [V1 V2]. fold k L0 in V1, V2. rewrite Rq in V1. rewrite Rq' in V2.
    pose proof (c_sigma_neg a (x^2) ltac:(lra) Hw p ltac:(lra)) as Hsig.
    pose proof (c_C_pos a (x^2) ltac:(lra) Hw p ltac:(lra) HD) as HCp.
    pose proof (c_kappa_neg a (x^2) ltac:(lra) Hw p ltac:(lra) HD) as HK.
    pose proof (c_disc_pos a (x^2) ltac:(lra) Hw p ltac:(lra) HD) as Hdisc.
    pose proof (c_epsilon_pos a (x^2) ltac:(lra) Hw p ltac:(lra) HD) as Heps.
    pose proof (c_retro a (x^2) ltac:(lra) Hw p ltac:(lra)) as HR.
    assert (Hd : 0 < cd a (x^2) p) by (apply d_pos; unfold Delta in *; lra).
    pose proof (N_eq_circ a x p Hx0 ltac:(lra) (proj1 Hk)) as NE. cbv zeta in NE. fold k in NE.
    assert (F : 0 < ((p^2 + k)^2 * (2 * p) / x^2)^2).
    { apply pow_lt, Rdiv_lt_0_compat; [|lra]. apply Rmult_lt_0_compat; [apply pow_lt; lra|lra]. }
    assert (HN : (cf a (x^2) p * ch' (x^2) p - ch a (x^2) p * cf' a (x^2) p)^2 + 4 * (cf a (x^2) p * cg' a - cg a p * cf' a (x^2) p)
      * (cg a p * ch' (x^2) p - ch a (x^2) p * cg' a) <> 0).
    { rewrite NE. apply Rmult_integral_contrapositive_currified; [lra|exact HW]. }
    assert (HNs : x < 0 -> 0 < (cf a (x^2) p * ch' (x^2) p - ch a (x^2) p * cf' a (x^2) p)^2 + 4 * (cf a (x^2) p * cg' a - cg a p * cf' a (x^2) p)
      * (cg a p * ch' (x^2) p - ch a (x^2) p * cg' a)).
    { intros K. rewrite NE. apply Rmult_lt_0_compat; [exact F|auto]. }
    clear NE F HW HWs. unfold V in V1. unfold V' in V2.
    set (f1 := cf a (x^2) p) in *. set (g1 := cg a p) in *. set (h1 := ch a (x^2) p) in *. set (d1 := cd a (x^2) p) in *.
    set (f2 := cf' a (x^2) p) in *. set (g2 := cg' a) in *. set (h2 := ch' (x^2) p) in *. set (d2 := cd' a (x^2) p) in *.
    set (DD := (g1 * h2 - h1 * g2) * ((g1 * h2 - h1 * g2) * (d1 * g2 - g1 * d2)^2
       + (f1 * h2 - h1 * f2) * (d1 * g2 - g1 * d2) * (d1 * h2 - h1 * d2)
       - (f1 * g2 - g1 * f2) * (d1 * h2 - h1 * d2)^2)).
    assert (DDe : DD = (g1 * - h2 - h1 * - g2) * ((g1 * - h2 - h1 * - g2) * (d1 * - g2 - g1 * - d2)^2
       + (f1 * - h2 - h1 * - f2) * (d1 * - g2 - g1 * - d2) * (d1 * - h2 - h1 * - d2)
       - (f1 * - g2 - g1 * - f2) * (d1 * - h2 - h1 * - d2)^2)) by (unfold DD; ring).
    assert (HDpos : 0 < DD).
    { rewrite DDe, D_eq. apply Rmult_lt_0_compat; [apply pow2_gt_0; lra | exact Hdisc]. }
    set (N := (f1 * h2 - h1 * f2)^2 + 4 * (f1 * g2 - g1 * f2) * (g1 * h2 - h1 * g2)) in *.
    set (bb := (d1 * h2 - h1 * d2) * (f1 * h2 - h1 * f2) + 2 * (d1 * g2 - g1 * d2) * (g1 * h2 - h1 * g2)).
    assert (M : 0 < (bb - Rsgn x * 2 * sqrt DD) / N).
    { pose proof (choose f1 g1 h1 d1 (- f2) (- g2) (- h2) (- d2) E0 L0 (Rsgn x) HE0 ltac:(lra) ltac:(lra) Hsig Heps) as CH.
      rewrite <- DDe in CH. specialize (CH HDpos).
      assert (NN : (f1 * - h2 - h1 * - f2)^2 + 4 * (f1 * - g2 - g1 * - f2) * (g1 * - h2 - h1 * - g2) = N) by (unfold N; ring).
      rewrite NN in CH. specialize (CH HN).
      replace ((d1 * - h2 - h1 * - d2) * (f1 * - h2 - h1 * - f2) + 2 * (d1 * - g2 - g1 * - d2) * (g1 * - h2 - h1 * - g2)) with bb in CH by (unfold bb; ring).
      apply CH. destruct Sgn as [Z|Z]; [left; exact Z|right; split; [exact Z|apply HNs, Sneg, Z]]. }
    set (m := (bb - Rsgn x * 2 * sqrt DD) / N) in *.
    assert (Em : m * N = bb - Rsgn x * 2 * sqrt DD) by (unfold m; field; exact HN).
    assert (HE : 0 < sqrt m) by (apply sqrt_lt_R0; exact M).
    assert (HE2 : sqrt m ^ 2 = m) by (apply pow2_sqrt; lra).
    destruct (core f1 g1 h1 d1 (- f2) (- g2) (- h2) (- d2) (sqrt m) (Rsgn x) Hsig Hd) as [Rad _]; try assumption.
    { replace (p / (1 - 0)) with p in Hh by field. exact Hh. }
    { match goal with |- ?t <> 0 => replace t with N by (unfold N; ring) end. exact HN. }
    { rewrite <- DDe. lra. }
    { rewrite <- DDe, HE2. transitivity (m * N); [unfold N; ring|]. rewrite Em. unfold bb. ring. }
    { auto. }
    { auto. }
    { intros K. apply HR. specialize (Hp ltac:(specialize (Sneg K); lra)). lra. }
    exists (sqrt m), ((- sqrt m * g1 + Rsgn x * sqrt (- d1 * h1 + sqrt m ^ 2 * (g1^2 + f1 * h1))) / h1). split.
    + f_equal. apply schmidt_energy_val; try assumption; lra.
    + rewrite angular_momentum_run by assumption. rewrite (Reqb_false x 0), (Reqb_false 0 1) by (assumption || lra).
      rewrite cdiv_some by assumption. replace (p / (1 - 0)) with p in * by field.
      rewrite coefficients_some by assumption. f_equal. apply schmidt_L_val; try assumption; reflexivity.
  - (* eccentric *)
    rewrite !cdiv_some by assumption. fold q. rewrite Hc1. rewrite !coefficients_some by assumption.
    assert (C1 : 1 < cc e) by (unfold cc; apply (Rlt_div_r 1 (1 + e) (1 - e)); lra).
    pose proof (Rp_cq (cc e) k q (a * x) E0 y C1 (proj1 Hk) ltac:(lra) E1 Rq) as Rc.
    destruct (V_Rp a x E0 y q Hx0) as [V2 _]. fold k L0 in V2. rewrite Rq in V2.
    destruct (V_Rp a x E0 y (cc e * q) Hx0) as [V1 _]. fold k L0 in V1. rewrite Rc in V1.
    rewrite Hc1 in Hh. assert (Hcq : 5 < cc e * q \/ 0 < x).
    { destruct (Rlt_dec 0 x); [now right|]. left. specialize (Hp ltac:(lra)). rewrite <- Hc1.
      assert (p <= p / (1 - e)); [|lra]. apply (Rle_div_r p p (1 - e)); [lra|nra]. }
    assert (Hq13 : 13/5 < q \/ 0 < x).
    { destruct (Rlt_dec 0 x); [now right|]. left. specialize (Hp ltac:(lra)). unfold q.
      apply (Rlt_div_r (13/5) p (1 + e)); lra. }
    pose proof (N_eq a x (cc e) q Hx0 ltac:(lra) ltac:(lra) (proj1 Hk)) as NE. cbv zeta in NE. fold k in NE.
    clear E1 E2 Rq Rc. set (r1 := cc e * q) in *.
    assert (Hr1 : 1 < q < r1) by (unfold r1; nra). clearbody r1.
    pose proof (sigma_neg a (x^2) ltac:(lra) Hw r1 q Hr1) as Hsig.
    pose proof (C_pos a (x^2) ltac:(lra) Hw r1 q Hr1 HD) as HCp.
    pose proof (kappa_neg a (x^2) ltac:(lra) Hw r1 q Hr1 HD) as HK.
    pose proof (disc_pos a (x^2) ltac:(lra) Hw r1 q Hr1 HD) as Hdisc.
    pose proof (epsilon_pos a (x^2) ltac:(lra) Hw r1 q Hr1 HD) as Heps.
    pose proof (retro a (x^2) ltac:(lra) Hw r1 q Hr1) as HR.
    pose proof (Dl_mono a r1 q Hr1) as HDm.
    assert (Hd : 0 < cd a (x^2) r1) by (apply d_pos; unfold Delta in *; lra).
    assert (F : 0 < ((r1^2 + k) * (q^2 + k) * (r1^2 - q^2) / x^2)^2).
    { assert (0 < r1^2) by (apply pow_lt; lra).
      apply pow_lt, Rdiv_lt_0_compat; [|lra]. apply Rmult_lt_0_compat; [apply Rmult_lt_0_compat; lra|].
      replace (r1^2 - q^2) with ((r1 - q) * (r1 + q)) by ring. apply Rmult_lt_0_compat; lra. }
    unfold V in V1, V2.
    set (f1 := cf a (x^2) r1) in *. set (g1 := cg a r1) in *. set (h1 := ch a (x^2) r1) in *. set (d1 := cd a (x^2) r1) in *.
    set (f2 := cf a (x^2) q) in *. set (g2 := cg a q) in *. set (h2 := ch a (x^2) q) in *. set (d2 := cd a (x^2) q) in *.
    set (N := (f1 * h2 - h1 * f2)^2 + 4 * (f1 * g2 - g1 * f2) * (g1 * h2 - h1 * g2)) in *.
    assert (HN : N <> 0). { rewrite NE. apply Rmult_integral_contrapositive_currified; [lra|exact HW]. }
    assert (HNs : x < 0 -> 0 < N). { intros K. rewrite NE. apply Rmult_lt_0_compat; [exact F|auto]. }
    clear NE F HW HWs.
    set (DD := (g1 * h2 - h1 * g2) * ((g1 * h2 - h1 * g2) * (d1 * g2 - g1 * d2)^2
       + (f1 * h2 - h1 * f2) * (d1 * g2 - g1 * d2) * (d1 * h2 - h1 * d2)
       - (f1 * g2 - g1 * f2) * (d1 * h2 - h1 * d2)^2)).
    assert (HDpos : 0 < DD).
    { unfold DD. rewrite D_eq. apply Rmult_lt_0_compat; [apply pow2_gt_0; lra | exact Hdisc]. }
    set (bb := (d1 * h2 - h1 * d2) * (f1 * h2 - h1 * f2) + 2 * (d1 * g2 - g1 * d2) * (g1 * h2 - h1 * g2)).
    assert (M : 0 < (bb - Rsgn x * 2 * sqrt DD) / N).
    { apply (choose f1 g1 h1 d1 f2 g2 h2 d2 E0 L0 (Rsgn x)); try assumption; try lra.
      destruct Sgn as [Z|Z]; [left; exact Z|right; split; [exact Z|apply HNs, Sneg, Z]]. }
    set (m := (bb - Rsgn x * 2 * sqrt DD) / N) in *.
    assert (Em : m * N = bb - Rsgn x * 2 * sqrt DD) by (unfold m; field; exact HN).
    assert (HE : 0 < sqrt m) by (apply sqrt_lt_R0; exact M).
    assert (HE2 : sqrt m ^ 2 = m) by (apply pow2_sqrt; lra).
    destruct (core f1 g1 h1 d1 f2 g2 h2 d2 (sqrt m) (Rsgn x) Hsig Hd) as [Rad _]; try assumption.
    { unfold DD in HDpos. lra. }
    { rewrite HE2. exact Em. }
    { auto. }
    { auto. }
    { intros K. specialize (Sneg K). apply HR; lra. }
    exists (sqrt m), ((- sqrt m * g1 + Rsgn x * sqrt (- d1 * h1 + sqrt m ^ 2 * (g1^2 + f1 * h1))) / h1). split.
    + f_equal. apply (schmidt_energy_val f1 g1 h1 d1 f2 g2 h2 d2 x m HN (Rlt_le _ _ HDpos) Em (Rlt_le _ _ M)).
    + rewrite angular_momentum_run by assumption. rewrite (Reqb_false x 0), (Reqb_false e 1) by (assumption || lra).
      rewrite cdiv_some by assumption. rewrite Hc1. rewrite coefficients_some by assumption.
      f_equal. apply schmidt_L_val; try assumption; reflexivity.
Qed.
End S.
