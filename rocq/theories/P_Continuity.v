(** * Unified formulas for the constants of motion, free of special cases, in u = 1/r1 and v = 1/r2 *)
From Coq Require Import Reals Lra Lia ZArith.
From Coquelicot Require Import Coquelicot.
From Verif Require Import Num Outcome External Checked ExternalSpec Spec.
From Verif Require Import Model_Constants P_Validation P_Bounds P_Schmidt P_Constants Props_Constants.
Open Scope R_scope.
(* the four coefficients, times u^4 (and times x^2 for h), at r = 1/u *)
Definition tf (A Z u : R) : R := 1 + A * (1 + Z) * u^2 + 2 * A * (1 - Z) * u^3 + A^2 * Z * u^4.
Definition th (A Z u : R) : R := u^2 - 2 * u^3 + Z * A * u^4.
Definition td (A Z u : R) : R := 1 - 2 * u + A * (1 + Z) * u^2 - 2 * A * Z * u^3 + A^2 * Z * u^4.
Definition tg (u : R) : R := 2 * u^3.
Section Poly.
Context (A Z u v : R).
Let S20 := u + v. Let S30 := u^2 + u * v + v^2. Let S40 := (u + v) * (u^2 + v^2).
Let S21 := u * v. Let S31 := u * v * (u + v). Let S41 := u * v * (u^2 + u * v + v^2).
Let S32 := u^2 * v^2. Let S42 := u^2 * v^2 * (u + v). Let S43 := u^3 * v^3.
Definition pkap : R := - S20 + 2 * S30 - Z * A * S40 + 2 * S21 - 4 * S31 + 2 * Z * A * S41
  + A * (1 + Z) * (2 * S32 - Z * A * S42) - 2 * A * Z * (S32 - Z * A * S43) + A^2 * Z * (S42 - 2 * S43).
Definition prho : R := - S20 + 2 * S30 - Z * A * S40 + A * (1 + Z) * (2 * S32 - Z * A * S42)
  + 2 * A * (1 - Z) * (S32 - Z * A * S43) + A^2 * Z * (S42 - 2 * S43).
Definition psig : R := 2 * (u^2 * v^2) * (1 - Z * A * (u * v)).
Definition peps : R := 2 * (- S30 + 2 * S31 - A * (1 + Z) * S32 + A^2 * Z * S43).
Definition peta : R := 2 * (- S30 - A * (1 + Z) * S32 + A^2 * Z * S43).
Lemma kap_eq : td A Z u * th A Z v - th A Z u * td A Z v = (u - v) * pkap.
Proof. unfold td, th, pkap, S20, S30, S40, S21, S31, S41, S32, S42, S43. ring. Qed.
Lemma rho_eq : tf A Z u * th A Z v - th A Z u * tf A Z v = (u - v) * prho.
Proof. unfold tf, th, prho, S20, S30, S40, S21, S31, S41, S32, S42, S43. ring. Qed.
Lemma sig_eq : tg u * th A Z v - th A Z u * tg v = (u - v) * psig.
Proof. unfold tg, th, psig. ring. Qed.
Lemma eps_eq : td A Z u * tg v - tg u * td A Z v = (u - v) * peps.
Proof. unfold tg, td, peps, S20, S30, S40, S21, S31, S41, S32, S42, S43. ring. Qed.
Lemma eta_eq : tf A Z u * tg v - tg u * tf A Z v = (u - v) * peta.
Proof. unfold tg, tf, peta, S20, S30, S40, S21, S31, S41, S32, S42, S43. ring. Qed.
End Poly.
(** numerator, radicand and denominator of E^2 *)
Definition eden (a x u v : R) : R := prho (a^2) (1 - x^2) u v ^2 + 4 * (a * x)^2 * peta (a^2) (1 - x^2) u v * psig (a^2) (1 - x^2) u v.
Definition erad (a x u v : R) : R :=
  let k := pkap (a^2) (1 - x^2) u v in let r := prho (a^2) (1 - x^2) u v in let s := psig (a^2) (1 - x^2) u v in
  let e := peps (a^2) (1 - x^2) u v in let n := peta (a^2) (1 - x^2) u v in
  s * ((a * x)^2 * s * e^2 + r * e * k - n * k^2).
Definition enum (a x u v : R) : R :=
  pkap (a^2) (1 - x^2) u v * prho (a^2) (1 - x^2) u v + 2 * (a * x)^2 * peps (a^2) (1 - x^2) u v * psig (a^2) (1 - x^2) u v
  - 2 * (a * x) * sqrt (erad a x u v).
(** L^2 / x^2 *)
Definition ysq (a x u v E : R) : R := (peps (a^2) (1 - x^2) u v - peta (a^2) (1 - x^2) u v * E^2) / psig (a^2) (1 - x^2) u v.

Lemma transform s x a k r sg ep et E : s <> 0 -> x <> 0 -> 0 <= a ->
  let kappa := s * k / x^2 in let rho := s * r / x^2 in let sigma := s * (a * sg) / x^2 in
  let epsilon := s * (a * ep) in let eta := s * (a * et) in
  let N := rho^2 + 4 * eta * sigma in
  let D := sigma * (sigma * epsilon^2 + rho * epsilon * kappa - eta * kappa^2) in
  N <> 0 -> 0 <= D -> E^2 * N = kappa * rho + 2 * epsilon * sigma - Rsgn x * 2 * sqrt D ->
  r^2 + 4 * (a * x)^2 * et * sg <> 0 /\
  E^2 * (r^2 + 4 * (a * x)^2 * et * sg)
  = k * r + 2 * (a * x)^2 * ep * sg - 2 * (a * x) * sqrt (sg * ((a * x)^2 * sg * ep^2 + r * ep * k - et * k^2)).
Proof.
  intros Hs Hx Ha kappa rho sigma epsilon eta N D HN HD HE.
  assert (X4 : 0 < x^4) by (replace (x^4) with ((x^2)^2) by ring; apply pow2_gt_0; now apply pow_nonzero).
  assert (S2 : 0 < s^2) by (apply pow2_gt_0; exact Hs).
  assert (NE : N = s^2 / x^4 * (r^2 + 4 * (a * x)^2 * et * sg)) by (unfold N, rho, eta, sigma; field; exact Hx).
  set (w := sg * ((a * x)^2 * sg * ep^2 + r * ep * k - et * k^2)) in *.
  assert (AX : 0 < Rabs x) by now apply Rabs_pos_lt.
  assert (AX2 : Rabs x ^2 = x^2) by apply pow2_abs.
  assert (DE : D = (s^2 * a / (Rabs x ^3))^2 * w).
  { replace ((s^2 * a / (Rabs x ^3))^2) with (s^4 * a^2 / (Rabs x ^2)^3) by (field; lra). rewrite AX2. unfold D, w, sigma, rho, kappa, epsilon, eta. field. exact Hx. }
  assert (SD : sqrt D = s^2 * a / (Rabs x ^3) * sqrt w).
  { assert (X3 : 0 < Rabs x ^3) by (apply pow_lt; exact AX).
    assert (P : 0 <= s^2 * a / (Rabs x ^3)). { apply Rmult_le_pos; [apply Rmult_le_pos; lra | left; apply Rinv_0_lt_compat; lra]. }
    rewrite DE. destruct (Rle_lt_dec 0 w) as [W|W].
    - rewrite sqrt_mult by (try apply pow2_ge_0; assumption). rewrite sqrt_pow2 by exact P. reflexivity.
    - assert (Z0 : (s^2 * a / (Rabs x ^3)) = 0). { assert (D0 : 0 <= (s^2 * a / (Rabs x ^3))^2 * w) by (rewrite <- DE; exact HD). destruct (Req_dec (s^2 * a / (Rabs x ^3)) 0) as [Z0|Z0]; [exact Z0|]. exfalso. apply pow2_gt_0 in Z0. pose proof (Rmult_lt_0_compat _ (- w) Z0 ltac:(lra)). lra. }
      rewrite Z0. replace (0^2 * w) with 0 by ring. rewrite sqrt_0. ring. }
  split.
  { intros Z. apply HN. rewrite NE, Z. ring. }
  assert (SG : Rsgn x * Rabs x = x) by apply Rsgn_mult_abs.
  assert (K : E^2 * N * (x^4 / s^2) = (kappa * rho + 2 * epsilon * sigma - Rsgn x * 2 * sqrt D) * (x^4 / s^2)) by (rewrite HE; reflexivity).
  rewrite SD, NE in K.
  replace (E^2 * (s^2 / x^4 * (r^2 + 4 * (a * x)^2 * et * sg)) * (x^4 / s^2)) with (E^2 * (r^2 + 4 * (a * x)^2 * et * sg)) in K by (field; auto).
  rewrite K. unfold kappa, rho, epsilon, sigma.
  replace (Rsgn x * 2 * (s^2 * a / Rabs x ^3 * sqrt w)) with ((Rsgn x * Rabs x) * 2 * (s^2 * a / (Rabs x ^2)^2 * sqrt w)) by (field; lra).
  rewrite SG, AX2. field. auto.
Qed.

Lemma row_R a x E L Q y u : u <> 0 -> L^2 = x^2 * y -> Q = (1 - x^2) * (a^2 * (1 - E^2) + y) ->
  u^4 * radial_potential a E L Q (1 / u) = tf (a^2) (1 - x^2) u * E^2 - 4 * a * u^3 * (E * L) - th (a^2) (1 - x^2) u * y - td (a^2) (1 - x^2) u.
Proof.
  intros Hu HL ->. transitivity (tf (a^2) (1 - x^2) u * E^2 - 4 * a * u^3 * (E * L) - th (a^2) (1 - x^2) u * y - td (a^2) (1 - x^2) u - (u^2 - 2 * u^3) * (L^2 - x^2 * y)).
  - unfold radial_potential, Delta, tf, th, td. field. exact Hu.
  - rewrite HL. ring.
Qed.
Lemma coef_u a x u : u <> 0 -> x <> 0 ->
  cf a (x^2) (1 / u) = tf (a^2) (1 - x^2) u / u^4 /\ cg a (1 / u) = a * tg u / u^4 /\
  ch a (x^2) (1 / u) = th (a^2) (1 - x^2) u / (x^2 * u^4) /\ cd a (x^2) (1 / u) = td (a^2) (1 - x^2) u / u^4.
Proof.
  intros Hu Hx. unfold cf, cg, ch, cd, tf, tg, th, td. repeat split; field; auto.
Qed.
Lemma derivative_u a x u : u <> 0 -> x <> 0 ->
  let r := 1 / u in let A := a^2 in let Z := 1 - x^2 in
  cd a (x^2) r * ch' (x^2) r - ch a (x^2) r * cd' a (x^2) r = / u^6 * pkap A Z u u / x^2 /\
  cf a (x^2) r * ch' (x^2) r - ch a (x^2) r * cf' a (x^2) r = / u^6 * prho A Z u u / x^2 /\
  cg a r * ch' (x^2) r - ch a (x^2) r * cg' a = / u^6 * (a * psig A Z u u) / x^2 /\
  cd a (x^2) r * cg' a - cg a r * cd' a (x^2) r = / u^6 * (a * peps A Z u u) /\
  cf a (x^2) r * cg' a - cg a r * cf' a (x^2) r = / u^6 * (a * peta A Z u u).
Proof.
  intros Hu Hx. cbv zeta. unfold cf, cg, ch, cd, cf', cg', ch', cd', pkap, prho, psig, peps, peta. repeat split; field; auto.
Qed.
Definition dR (a E L Q r : R) : R := 4 * E * r * (E * (r^2 + a^2) - a * L) - (2 * r - 2) * (r^2 + (L - a * E)^2 + Q) - Delta a r * (2 * r).
Lemma dR_is a E L Q r : is_derive (radial_potential a E L Q) r (dR a E L Q r).
Proof. unfold radial_potential, Delta. auto_derive; [exact I|]. unfold dR, Delta. ring. Qed.
(* the row of coefficients and its derivative in u *)
Definition row (a x E m y u : R) : R := tf (a^2) (1 - x^2) u * E^2 - 4 * a * u^3 * m - th (a^2) (1 - x^2) u * y - td (a^2) (1 - x^2) u.
Definition row' (a x E m y u : R) : R :=
  let A := a^2 in let Z := 1 - x^2 in
  (2 * A * (1 + Z) * u + 6 * A * (1 - Z) * u^2 + 4 * A^2 * Z * u^3) * E^2 - 12 * a * u^2 * m - (2 * u - 6 * u^2 + 4 * Z * A * u^3) * y
  - (- 2 + 2 * A * (1 + Z) * u - 6 * A * Z * u^2 + 4 * A^2 * Z * u^3).
Lemma row_R' a x E L Q y u : u <> 0 -> L^2 = x^2 * y -> Q = (1 - x^2) * (a^2 * (1 - E^2) + y) ->
  4 * u^3 * radial_potential a E L Q (1 / u) - u^2 * dR a E L Q (1 / u) = row' a x E (E * L) y u.
Proof.
  intros Hu HL ->. transitivity (row' a x E (E * L) y u - (2 * u - 6 * u^2) * (L^2 - x^2 * y)).
  - unfold row', radial_potential, dR, Delta. field. exact Hu.
  - rewrite HL. ring.
Qed.
(* eliminating m: E^2 eta + sig y = eps;  for m = 0 eliminating y: E^2 rho = kap *)
Lemma eliminate a x E m y u v : u <> v -> row a x E m y u = 0 -> row a x E m y v = 0 ->
  peta (a^2) (1 - x^2) u v * E^2 + psig (a^2) (1 - x^2) u v * y = peps (a^2) (1 - x^2) u v /\
  (m = 0 -> prho (a^2) (1 - x^2) u v * E^2 = pkap (a^2) (1 - x^2) u v).
Proof.
  intros N Ru Rv. assert (D : u - v <> 0) by lra. split.
  - apply (Rmult_eq_reg_l (u - v)); [|exact D].
    replace ((u - v) * (peta (a^2) (1 - x^2) u v * E^2 + psig (a^2) (1 - x^2) u v * y)) with (((u - v) * peta (a^2) (1 - x^2) u v) * E^2 + ((u - v) * psig (a^2) (1 - x^2) u v) * y) by ring.
    rewrite <- eta_eq, <- sig_eq, <- eps_eq.
    assert (K : tg v * row a x E m y u - tg u * row a x E m y v = 0) by (rewrite Ru, Rv; ring). unfold row, tg in *. lra.
  - intros ->. apply (Rmult_eq_reg_l (u - v)); [|exact D].
    rewrite <- Rmult_assoc, <- rho_eq, <- kap_eq.
    assert (K : th (a^2) (1 - x^2) v * row a x E 0 y u - th (a^2) (1 - x^2) u * row a x E 0 y v = 0) by (rewrite Ru, Rv; ring). unfold row in *. lra.
Qed.
Lemma eliminate' a x E m y u : row a x E m y u = 0 -> row' a x E m y u = 0 ->
  peta (a^2) (1 - x^2) u u * E^2 + psig (a^2) (1 - x^2) u u * y = peps (a^2) (1 - x^2) u u /\
  (m = 0 -> prho (a^2) (1 - x^2) u u * E^2 = pkap (a^2) (1 - x^2) u u).
Proof.
  intros Ru Ru'. split.
  - assert (K : 2 * u^3 * row' a x E m y u - 6 * u^2 * row a x E m y u = 0) by (rewrite Ru, Ru'; ring).
    apply Rminus_diag_uniq. rewrite <- K. unfold row, row', tf, th, td, peta, psig, peps. ring.
  - intros ->. assert (K : th (a^2) (1 - x^2) u * row' a x E 0 y u - (2 * u - 6 * u^2 + 4 * (1 - x^2) * a^2 * u^3) * row a x E 0 y u = 0) by (rewrite Ru, Ru'; ring).
    apply Rminus_diag_uniq. rewrite <- K. unfold row, row', tf, th, td, prho, pkap. ring.
Qed.
Section S.
Context {X : External R} (HR : root_spec X).
Lemma rows a p e x E L Q : 0 <= a -> e < 1 ->
  constants_of_motion (Some a) (Some p) (Some e) (Some x) = Ret (Some E, Some L, Some Q) ->
  let u := (1 - e) / p in let v := (1 + e) / p in
  exists y, L^2 = x^2 * y /\ Q = (1 - x^2) * (a^2 * (1 - E^2) + y) /\
  peta (a^2) (1 - x^2) u v * E^2 + psig (a^2) (1 - x^2) u v * y = peps (a^2) (1 - x^2) u v /\
  (x = 0 -> prho (a^2) (1 - x^2) u v * E^2 = pkap (a^2) (1 - x^2) u v).
Proof.
  intros Ha He1 HC u v. destruct (constants_inv _ _ _ _ _ _ _ Ha HC) as (HCK & _).
  destruct (accepted_bounds HR a p e x Ha HCK) as (Ha1 & He & Hx & Hr & HD & _ & _).
  destruct (constants_correct HR a p e x E L Q Ha HC) as (T1 & T2 & T3 & _ & T5 & _ & _ & T8 & _).
  assert (Pp : 0 < p). { replace p with (p / (1 + e) * (1 + e)) by (field; lra). apply Rmult_lt_0_compat; lra. }
  assert (Hu : 0 < u) by (apply Rdiv_lt_0_compat; lra). assert (Hv : 0 < v) by (apply Rdiv_lt_0_compat; lra).
  assert (Y : exists y, L^2 = x^2 * y /\ Q = (1 - x^2) * (a^2 * (1 - E^2) + y)).
  { destruct (Req_dec x 0) as [X0|X0].
    - exists (Q - a^2 * (1 - E^2)). rewrite (T8 X0), X0. split; ring.
    - exists (L^2 / x^2). split; [field; exact X0|]. unfold polar_polynomial in T5. assert (x^2 <> 0) by now apply pow_nonzero.
      apply (Rmult_eq_reg_r (x^2)); [|assumption]. replace ((1 - x^2) * (a^2 * (1 - E^2) + L^2 / x^2) * x^2) with ((1 - x^2) * (a^2 * (1 - E^2) * x^2 + L^2)) by (field; exact X0). lra. }
  destruct Y as (y & Y1 & Y2). exists y. refine (conj Y1 (conj Y2 _)).
  assert (Ru : row a x E (E * L) y u = 0).
  { unfold row. rewrite <- (row_R a x E L Q y u) by (auto; lra). replace (1 / u) with (p / (1 - e)) by (unfold u; field; lra). rewrite T1 by exact He1. ring. }
  assert (Rv : row a x E (E * L) y v = 0).
  { unfold row. rewrite <- (row_R a x E L Q y v) by (auto; lra). replace (1 / v) with (p / (1 + e)) by (unfold v; field; lra). rewrite T2. ring. }
  assert (M : x = 0 -> E * L = 0) by (intros Z; rewrite (T8 Z); ring).
  destruct (Req_dec e 0) as [E0|E0].
  - assert (UV : v = u) by (unfold u, v; rewrite E0; field; lra). rewrite UV.
    assert (D0 : dR a E L Q (1 / u) = 0).
    { replace (1 / u) with p by (unfold u; rewrite E0; field; lra). pose proof (is_derive_unique _ _ _ (T3 E0)) as K1. pose proof (is_derive_unique _ _ _ (dR_is a E L Q p)) as K2. rewrite <- K2. exact K1. }
    assert (R0 : radial_potential a E L Q (1 / u) = 0).
    { replace (1 / u) with (p / (1 - e)) by (unfold u; field; lra). now apply T1. }
    destruct (eliminate' a x E (E * L) y u Ru) as [K1 K2]; [|tauto].
    rewrite <- (row_R' a x E L Q y u) by (auto; lra). rewrite D0, R0. ring.
  - destruct (eliminate a x E (E * L) y u v) as [K1 K2]; [|exact Ru|exact Rv|tauto].
    assert (v - u = 2 * e / p) by (unfold u, v; field; lra). assert (0 < 2 * e / p) by (apply Rdiv_lt_0_compat; lra). lra.
Qed.
Lemma unified_E a p e x E L Q : 0 <= a ->
  constants_of_motion (Some a) (Some p) (Some e) (Some x) = Ret (Some E, Some L, Some Q) ->
  let u := (1 - e) / p in let v := (1 + e) / p in
  0 < p /\ 0 < E /\ eden a x u v <> 0 /\ E^2 * eden a x u v = enum a x u v.
Proof.
  intros Ha HC u v. destruct (constants_inv _ _ _ _ _ _ _ Ha HC) as (HCK & HE & HL & HQ).
  destruct (accepted_bounds HR a p e x Ha HCK) as (Ha1 & He & Hx & Hr & HD & HP & _).
  destruct (constants_correct HR a p e x E L Q Ha HC) as (T1 & T2 & T3 & T4 & T5 & _ & _ & T8 & EP).
  assert (Pp : 0 < p). { replace p with (p / (1 + e) * (1 + e)) by (field; lra). apply Rmult_lt_0_compat; lra. }
  split; [exact Pp|]. split; [exact EP|].
  assert (Hv : 0 < v) by (apply Rdiv_lt_0_compat; lra).
  assert (RV : p / (1 + e) = 1 / v) by (unfold v; field; lra).
  destruct (Req_dec e 1) as [E1|E1].
  { (* parabolic *)
    assert (U0 : u = 0) by (unfold u; rewrite E1; field; lra). rewrite (T4 E1), U0.
    assert (PR : prho (a^2) (1 - x^2) 0 v = - v * (1 - 2 * v + (1 - x^2) * a^2 * v^2)) by (unfold prho; ring).
    assert (PK : pkap (a^2) (1 - x^2) 0 v = - v * (1 - 2 * v + (1 - x^2) * a^2 * v^2)) by (unfold pkap; ring).
    assert (PS : psig (a^2) (1 - x^2) 0 v = 0) by (unfold psig; ring).
    unfold eden, enum, erad. cbv zeta. rewrite PR, PK, PS. split; [|rewrite !Rmult_0_l, sqrt_0; ring].
    rewrite Rmult_0_r, Rplus_0_r. apply pow_nonzero. apply Rmult_integral_contrapositive_currified; [lra|]. intros Z.
    destruct (Req_dec x 0) as [X0|X0].
    - rewrite X0 in Z. unfold Delta in HD. rewrite RV in HD. assert (v^2 * ((1 / v)^2 - 2 * (1 / v) + a^2) = 0) by (replace (v^2 * ((1 / v)^2 - 2 * (1 / v) + a^2)) with (1 - 2 * v + (1 - 0^2) * a^2 * v^2) by (field; lra); exact Z).
      assert (0 < v^2 * ((1 / v)^2 - 2 * (1 / v) + a^2)); [|lra]. apply Rmult_lt_0_compat; [apply pow_lt; exact Hv | lra].
    - rewrite angular_momentum_run in HL by assumption. apply Ret_inj in HL. rewrite (Reqb_false x 0 X0), (Reqb_true e 1 E1) in HL.
      rewrite cdiv_some in HL by lra. rewrite coefficients_some in HL by assumption. apply schmidt_L_inv in HL as (Hh & _). apply Hh.
      rewrite RV. destruct (coef_u a x v) as (_ & _ & -> & _); [lra | exact X0|]. unfold th.
      replace (v^2 - 2 * v^3 + (1 - x^2) * a^2 * v^4) with (v^2 * (1 - 2 * v + (1 - x^2) * a^2 * v^2)) by ring. rewrite Z. unfold Rdiv. ring. }
  assert (Hu : 0 < u) by (apply Rdiv_lt_0_compat; lra).
  destruct (Req_dec x 0) as [X0|X0].
  { (* polar *)
    destruct (rows a p e x E L Q Ha ltac:(lra) HC) as (y & _ & _ & _ & K). fold u v in K. specialize (K X0).
    subst x.
    replace (eden a 0 u v) with (prho (a^2) (1 - 0^2) u v ^2) by (unfold eden; ring).
    replace (enum a 0 u v) with (pkap (a^2) (1 - 0^2) u v * prho (a^2) (1 - 0^2) u v) by (unfold enum; rewrite Rmult_0_r; ring).
    split; [|rewrite <- K; ring]. apply pow_nonzero. intros Z.
    specialize (HP ltac:(lra)).
    assert (DEN : a^4 * (-1 + e^2)^2 * (-1 + e^2 - p) + (3 + e^2 - p) * p^4 - 2 * a^2 * p^2 * (-1 - e^4 + p + e^2 * (2 + p)) = prho (a^2) (1 - 0^2) u v * p^6 / 2).
    { unfold prho, u, v. field. lra. }
    rewrite Z in DEN. clear - DEN HP He Ha1.
    assert (He2 : 0 <= e^2 <= 1) by nra.
    assert (A4 : 0 <= a^4 * (-1 + e^2)^2) by (apply Rmult_le_pos; [apply pow_le; lra | apply pow2_ge_0]).
    assert (a^4 * (-1 + e^2)^2 * (-1 + e^2 - p) <= 0) by nra.
    assert (0 < p^4) by (apply pow_lt; lra). assert ((3 + e^2 - p) * p^4 < 0) by nra.
    assert (0 <= 2 * a^2 * p^2) by (repeat apply Rmult_le_pos; try lra; apply pow2_ge_0).
    assert (0 <= -1 - e^4 + p + e^2 * (2 + p)).
    { replace (-1 - e^4 + p + e^2 * (2 + p)) with (p - (1 - e^2)^2 + e^2 * p) by ring. nra. }
    assert (0 <= 2 * a^2 * p^2 * (-1 - e^4 + p + e^2 * (2 + p))) by (apply Rmult_le_pos; assumption). lra. }
  assert (KEY : forall s, s <> 0 -> forall f1 g1 h1 d1 f2 g2 h2 d2,
    schmidt_energy (Some f1, Some g1, Some h1, Some d1) (Some f2, Some g2, Some h2, Some d2) (Some x) = Some E ->
    d1 * h2 - h1 * d2 = s * pkap (a^2) (1 - x^2) u v / x^2 ->
    f1 * h2 - h1 * f2 = s * prho (a^2) (1 - x^2) u v / x^2 ->
    g1 * h2 - h1 * g2 = s * (a * psig (a^2) (1 - x^2) u v) / x^2 ->
    d1 * g2 - g1 * d2 = s * (a * peps (a^2) (1 - x^2) u v) ->
    f1 * g2 - g1 * f2 = s * (a * peta (a^2) (1 - x^2) u v) ->
    eden a x u v <> 0 /\ E^2 * eden a x u v = enum a x u v).
  { intros s Hs f1 g1 h1 d1 f2 g2 h2 d2 SE K1 K2 K3 K4 K5. apply schmidt_energy_inv in SE. cbv zeta in SE. rewrite K1, K2, K3, K4, K5 in SE.
    destruct SE as (N0 & D0 & _ & EE). exact (transform s x a _ _ _ _ _ E Hs X0 Ha N0 D0 EE). }
  rewrite energy_run in HE by assumption. apply Ret_inj in HE. rewrite (Reqb_false e 1 E1), (Reqb_false x 0 X0) in HE.
  destruct (Req_dec e 0) as [E0|E0].
  - rewrite (Reqb_true e 0 E0) in HE. rewrite coefficients_some, coefficients_derivative_some in HE by assumption.
    assert (UV : v = u) by (unfold u, v; rewrite E0; field; lra). rewrite UV in KEY |- *.
    assert (PU : p = 1 / u) by (unfold u; rewrite E0; field; lra). rewrite PU in HE.
    destruct (derivative_u a x u ltac:(lra) X0) as (K1 & K2 & K3 & K4 & K5).
    exact (KEY (/ u^6) (Rinv_neq_0_compat _ (pow_nonzero u 6 ltac:(lra))) _ _ _ _ _ _ _ _ HE K1 K2 K3 K4 K5).
  - rewrite (Reqb_false e 0 E0) in HE. rewrite !cdiv_some in HE by lra. rewrite !coefficients_some in HE by assumption.
    replace (p / (1 - e)) with (1 / u) in HE by (unfold u; field; lra). rewrite RV in HE.
    assert (UV : u - v <> 0). { assert (v - u = 2 * e / p) by (unfold u, v; field; lra). assert (0 < 2 * e / p) by (apply Rdiv_lt_0_compat; lra). lra. }
    destruct (coef_u a x u ltac:(lra) X0) as (F1 & G1 & H1 & D1). destruct (coef_u a x v ltac:(lra) X0) as (F2 & G2 & H2 & D2).
    rewrite F1, G1, H1, D1, F2, G2, H2, D2 in HE.
    refine (KEY ((u - v) / (u^4 * v^4)) _ _ _ _ _ _ _ _ _ HE _ _ _ _ _).
    + apply Rmult_integral_contrapositive_currified; [exact UV|]. apply Rinv_neq_0_compat, Rmult_integral_contrapositive_currified; apply pow_nonzero; lra.
    + replace ((u - v) / (u^4 * v^4) * pkap (a^2) (1 - x^2) u v / x^2) with ((u - v) * pkap (a^2) (1 - x^2) u v / (u^4 * v^4 * x^2)) by (field; repeat split; lra). rewrite <- kap_eq. field. repeat split; lra.
    + replace ((u - v) / (u^4 * v^4) * prho (a^2) (1 - x^2) u v / x^2) with ((u - v) * prho (a^2) (1 - x^2) u v / (u^4 * v^4 * x^2)) by (field; repeat split; lra). rewrite <- rho_eq. field. repeat split; lra.
    + replace ((u - v) / (u^4 * v^4) * (a * psig (a^2) (1 - x^2) u v) / x^2) with (a * ((u - v) * psig (a^2) (1 - x^2) u v) / (u^4 * v^4 * x^2)) by (field; repeat split; lra). rewrite <- sig_eq. field. repeat split; lra.
    + replace ((u - v) / (u^4 * v^4) * (a * peps (a^2) (1 - x^2) u v)) with (a * ((u - v) * peps (a^2) (1 - x^2) u v) / (u^4 * v^4)) by (field; repeat split; lra). rewrite <- eps_eq. field. repeat split; lra.
    + replace ((u - v) / (u^4 * v^4) * (a * peta (a^2) (1 - x^2) u v)) with (a * ((u - v) * peta (a^2) (1 - x^2) u v) / (u^4 * v^4)) by (field; repeat split; lra). rewrite <- eta_eq. field. repeat split; lra.
Qed.
End S.
