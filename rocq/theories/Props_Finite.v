(** * C50: exactly when the constants of motion are finite numbers *)
From Coq Require Import Reals Lra ZArith String List Psatz.
From Coquelicot Require Import Coquelicot.
From Verif Require Import Num Outcome External Checked ExternalSpec Spec Model_Units Model_Constants
  P_Validation SepPoly Props_Separatrix Props_Validation P_Bounds P_Schmidt P_Constants Props_Constants P_Quartic
  P_Stability P_Stability2 P_Stability3 P_Stability4 P_Finite.
Open Scope R_scope.

(** ** specification *)
(** r is on the static limit (g_tt = 0) at the latitude of the polar turning point *)
Definition on_static_limit (a x r : R) : Prop := r^2 + a^2 * (1 - x^2) = 2 * r.
(** no finite energy gives turning points r1 and r2 on one of the two senses of
    rotation; for r1 = r2 = r and x = 1 this is (r - 3)^2 r = 4 a^2, the radii of
    the two equatorial light rings *)
Definition light_ring (a x r1 r2 : R) : Prop :=
  let k := a^2 * (1 - x^2) in
  (1 - 2 * r2 / (r2^2 + k) - 2 * (r1 * r2 - k) / ((r1^2 + k) * (r1 + r2)))^2
  = 8 * (a * x)^2 * (r1 * r2 - k) / ((r1^2 + k) * (r2^2 + k) * (r1 + r2)).
(** the accepted orbits whose constants are not computed *)
Definition exceptional (a p e x : R) : Prop :=
  0 < a /\ 0 < x /\
  ((e < 1 /\ (on_static_limit a x (p / (1 - e)) \/ light_ring a x (p / (1 - e)) (p / (1 + e))))
   \/ (e = 1 /\ on_static_limit a x (p / 2))).

Example light_ring_equatorial a r : 0 < r -> (light_ring a 1 r r <-> (r - 3)^2 * r = 4 * a^2).
Proof.
  intros H. unfold light_ring. cbv zeta.
  replace (a^2 * (1 - 1^2)) with 0 by ring.
  replace (1 - 2 * r / (r ^ 2 + 0) - 2 * (r * r - 0) / ((r ^ 2 + 0) * (r + r))) with ((r - 3) / r) by (field; lra).
  replace (8 * (a * 1) ^ 2 * (r * r - 0) / ((r ^ 2 + 0) * (r ^ 2 + 0) * (r + r))) with (4 * a^2 / r^3) by (field; lra).
  replace (((r - 3) / r)^2) with ((r - 3)^2 * r / r^3) by (field; lra).
  split; intros K.
  - apply (Rmult_eq_reg_r (/ r^3)); [exact K|]. apply Rinv_neq_0_compat, pow_nonzero. lra.
  - now rewrite K.
Qed.

Lemma ring_W a x c q : 1 <= c -> 0 < q -> let k := a^2 * (1 - x^2) in 0 <= k ->
  (light_ring a x (c * q) q <-> W_ c (k / q^2) q ^ 2 - 4 * (a * x)^2 * be_ c (k / q^2) q = 0).
Proof.
  intros Hc Hq k Hk. unfold light_ring. cbv zeta. fold k.
  assert (C2 : 0 < c^2) by (apply pow_lt; lra).
  assert (Q2 : 0 < q^2) by (apply pow_lt; lra). assert (D1 : 0 < q^2 + k) by lra.
  assert (D2 : 0 < c^2 * q^2 + k) by (assert (0 < c^2 * q^2) by (apply Rmult_lt_0_compat; lra); lra).
  assert (D3 : 0 < (c * q)^2 + k) by (replace ((c*q)^2) with (c^2 * q^2) by ring; lra).
  assert (D4 : 0 < c * q + q) by (assert (0 < c * q) by (apply Rmult_lt_0_compat; lra); lra).
  replace (W_ c (k / q^2) q ^ 2) with
    ((1 - 2 * q / (q^2 + k) - 2 * (c * q * q - k) / (((c * q)^2 + k) * (c * q + q)))^2).
  2:{ unfold W_. field. repeat split; try lra. }
  replace (8 * (a * x) ^ 2 * (c * q * q - k) / (((c * q) ^ 2 + k) * (q ^ 2 + k) * (c * q + q)))
    with (4 * (a * x)^2 * be_ c (k / q^2) q).
  2:{ unfold be_, mm_. field. repeat split; try lra. }
  split; lra.
Qed.

Lemma static_h a x r : x <> 0 -> (on_static_limit a x r <-> ch a (x^2) r = 0).
Proof.
  intros H. unfold on_static_limit. replace (ch a (x^2) r) with ((r^2 + a^2 * (1 - x^2) - 2 * r) / x^2) by (unfold ch; field; exact H).
  assert (x^2 <> 0) by (apply pow_nonzero; assumption).
  split; intros K.
  - replace (r^2 + a^2 * (1 - x^2) - 2 * r) with 0 by lra. unfold Rdiv. ring.
  - apply Rminus_diag_uniq. apply (Rmult_eq_reg_r (/ x^2)); [|now apply Rinv_neq_0_compat]. rewrite Rmult_0_l. exact K.
Qed.

Section S.
Context {X : External R} (HX : root_spec X).

Lemma finish a p e x E L : 0 <= a -> check_constants_params a p e x = Ret tt -> x <> 0 ->
  energy (Some a) (Some p) (Some e) (Some x) = Ret (Some E) ->
  angular_momentum (Some a) (Some p) (Some e) (Some x) (Some (Some E)) = Ret (Some L) ->
  exists Q, constants_of_motion (Some a) (Some p) (Some e) (Some x) = Ret (Some E, Some L, Some Q).
Proof.
  intros Ha HC Hx0 HE HL. destruct (accepted_bounds HX a p e x Ha HC) as [_ [_ [Hx _]]].
  exists ((1 - x^2) * (a^2 * (1 - E^2) + L^2 / x^2)).
  unfold constants_of_motion. rewrite HE. cbn [bind]. rewrite HL. cbn [bind].
  rewrite carter_run by assumption. rewrite (Reqb_false x 0) by assumption.
  rewrite carter_value by assumption. reflexivity.
Qed.

Lemma polar_finite a p e : 0 <= a -> check_constants_params a p e 0 = Ret tt ->
  exists E L Q, constants_of_motion (Some a) (Some p) (Some e) (Some 0) = Ret (Some E, Some L, Some Q).
Proof.
  intros Ha HC. destruct (accepted_bounds HX a p e 0 Ha HC) as [Ha1 [He [_ [Hr [HD [Hp _]]]]]].
  specialize (Hp ltac:(lra)).
  set (den := a^4 * (-1 + e^2)^2 * (-1 + e^2 - p) + (3 + e^2 - p) * p^4
              - 2 * a^2 * p^2 * (-1 - e^4 + p + e^2 * (2 + p))).
  assert (He2 : 0 <= e^2 <= 1) by nra.
  assert (A4 : 0 <= a^4 * (-1 + e^2)^2) by (apply Rmult_le_pos; [apply pow_le; lra | apply pow2_ge_0]).
  assert (Hden : den < 0).
  { unfold den.
    assert (a^4 * (-1 + e^2)^2 * (-1 + e^2 - p) <= 0) by nra.
    assert (0 < p^4) by (apply pow_lt; lra). assert ((3 + e^2 - p) * p^4 < 0) by nra.
    assert (0 <= 2 * a^2 * p^2) by (repeat apply Rmult_le_pos; try lra; apply pow2_ge_0).
    assert (0 <= -1 - e^4 + p + e^2 * (2 + p)).
    { replace (-1 - e^4 + p + e^2 * (2 + p)) with (p - (1 - e^2)^2 + e^2 * p) by ring. nra. }
    nra. }
  assert (HQ : exists Q, polar_carter (Some a) (Some p) (Some e) = Some Q).
  { unfold polar_carter. cnum. rewrite cdiv_some by (apply Rlt_not_eq; exact Hden). eexists. reflexivity. }
  assert (HE : exists E, polar_energy (Some a) (Some p) (Some e) = Some E).
  { unfold polar_energy. cnum. rewrite cdiv_some by (apply Rlt_not_eq; exact Hden).
    rewrite csqrt_some; [eexists; reflexivity|].
    match goal with |- 0 <= - (?n / ?d) => change d with den; replace (- (n / den)) with (n / (- den)) by (field; lra) end.
    apply Rmult_le_pos; [|left; apply Rinv_0_lt_compat; lra].
    apply Rmult_le_pos; [lra|].
    assert (0 < -4 * e^2 + (-2 + p)^2) by nra.
    assert (0 < (-4 * e^2 + (-2 + p)^2) * p^2) by (apply Rmult_lt_0_compat; [lra | apply pow_lt; lra]).
    assert (0 <= 2 * a^2 * p * (-2 + p + e^2 * (2 + p))).
    { apply Rmult_le_pos; [apply Rmult_le_pos; [|lra]; apply Rmult_le_pos; [lra | apply pow2_ge_0] | nra]. }
    lra. }
  destruct HE as [E HE]. destruct HQ as [Q HQ].
  exists (if Reqb e 1 then 1 else E), 0, Q.
  assert (KE : energy (Some a) (Some p) (Some e) (Some 0) = Ret (Some (if Reqb e 1 then 1 else E))).
  { rewrite energy_run by assumption. rewrite (Reqb_true 0 0) by reflexivity. rewrite HE.
    destruct (Reqb e 1); reflexivity. }
  unfold constants_of_motion. rewrite KE. cbn [bind].
  rewrite angular_momentum_run by assumption. cbn [bind]. rewrite (Reqb_true 0 0) by reflexivity.
  rewrite carter_run by assumption. cbn [bind]. rewrite (Reqb_true 0 0) by reflexivity. rewrite HQ. reflexivity.
Qed.

Lemma parabolic_finite a p x : 0 <= a -> check_constants_params a p 1 x = Ret tt -> x <> 0 ->
  ch a (x^2) (p / 2) <> 0 ->
  exists E L Q, constants_of_motion (Some a) (Some p) (Some 1) (Some x) = Ret (Some E, Some L, Some Q).
Proof.
  intros Ha HC Hx0 Hh. destruct (accepted_bounds HX a p 1 x Ha HC) as [Ha1 [He [Hx [Hr [HD _]]]]].
  assert (Hw : 0 < x^2 <= 1) by (split; [apply pow2_gt_0; assumption | nra]).
  replace (1 + 1) with 2 in * by ring. set (r := p / 2) in *.
  exists 1.
  assert (Rad : - cd a (x^2) r * ch a (x^2) r + 1^2 * (cg a r ^ 2 + cf a (x^2) r * ch a (x^2) r)
     = (r^2 + a^2 * (1 - x^2)) * Delta a r * (2 * r) / x^2).
  { unfold cd, ch, cg, cf, Delta. field. lra. }
  destruct (finish a p 1 x 1 ((- 1 * cg a r + Rsgn x * sqrt (- cd a (x^2) r * ch a (x^2) r + 1^2 * (cg a r ^ 2 + cf a (x^2) r * ch a (x^2) r))) / ch a (x^2) r) Ha HC Hx0) as [Q HQ].
  - rewrite energy_run by assumption. rewrite (Reqb_true 1 1) by reflexivity. reflexivity.
  - rewrite angular_momentum_run by assumption. rewrite (Reqb_false x 0) by assumption. rewrite (Reqb_true 1 1) by reflexivity.
    rewrite cdiv_some by lra. replace (1 + 1) with 2 by ring. fold r. rewrite coefficients_some by assumption.
    f_equal. apply schmidt_L_val; [exact Hh|reflexivity|]. rewrite Rad.
    apply Rmult_le_pos; [|left; apply Rinv_0_lt_compat; lra].
    assert (0 <= a^2 * (1 - x^2)) by (apply Rmult_le_pos; [apply pow2_ge_0|lra]).
    assert (0 <= r^2) by apply pow2_ge_0.
    apply Rmult_le_pos; [apply Rmult_le_pos|]; lra.
  - eauto.
Qed.

(** C50: an accepted orbit has finite constants of motion exactly when it is not exceptional *)
Theorem C50_finite_exactly a p e x :
  let a' := Rabs a in let x' := x * spin_sign a in
  check_constants_params a' p e x' = Ret tt ->
  ((exists E L Q, constants_of_motion (Some a) (Some p) (Some e) (Some x) = Ret (Some E, Some L, Some Q))
   <-> ~ exceptional a' p e x').
Proof.
  cbv zeta. rewrite constants_std. generalize (Rabs_pos a). generalize (x * spin_sign a). generalize (Rabs a).
  clear a x. intros a x Ha HC.
  destruct (accepted_bounds HX a p e x Ha HC) as [Ha1 [He [Hx [Hr [HD [Hp Hs]]]]]].
  assert (Hk : 0 <= a^2 * (1 - x^2)) by (apply Rmult_le_pos; [apply pow2_ge_0|nra]).
  split.
  - (* defined results have non-zero denominators *)
    intros [E [L [Q H]]] [Ha0 [Hx0 EX]]. apply constants_inv in H as [_ [HE [HL _]]]; [|assumption].
    assert (Hxn : x <> 0) by lra.
    rewrite energy_run in HE by assumption. rewrite angular_momentum_run in HL by assumption.
    rewrite (Reqb_false x 0) in HE, HL by assumption.
    destruct EX as [[He1 EX]|[-> EX]].
    + rewrite (Reqb_false e 1) in HE, HL by lra. rewrite cdiv_some in HL by lra.
      rewrite coefficients_some in HL by assumption. apply Ret_inj in HL. apply schmidt_L_inv in HL as [Hh _].
      destruct EX as [EX|EX]; [apply static_h in EX; [contradiction|assumption]|].
      assert (Hc1 : p / (1 - e) = cc e * (p / (1 + e))) by (unfold cc; field; lra).
      rewrite Hc1 in EX. pose proof (cc_ge e ltac:(lra)) as Hc.
      apply ring_W in EX; [|exact Hc|lra|exact Hk].
      destruct (Reqb_spec e 0) as [->|He0].
      * rewrite coefficients_some, coefficients_derivative_some in HE by assumption. apply Ret_inj in HE.
        apply schmidt_energy_inv in HE as [HN _]. apply HN.
        assert (C1 : cc 0 = 1) by (unfold cc; field). rewrite C1 in EX.
        replace (p / (1 + 0)) with p in EX, Hr by field.
        pose proof (N_eq_circ a x p Hxn ltac:(lra) Hk) as NE. cbv zeta in NE. rewrite NE, EX. ring.
      * rewrite !cdiv_some in HE by lra. rewrite Hc1 in HE. rewrite !coefficients_some in HE by assumption. apply Ret_inj in HE.
        apply schmidt_energy_inv in HE as [HN _]. apply HN.
        pose proof (N_eq a x (cc e) (p / (1 + e)) Hxn Hc ltac:(lra) Hk) as NE. cbv zeta in NE. rewrite NE, EX. ring.
    + rewrite (Reqb_true 1 1) in HL by reflexivity. rewrite cdiv_some in HL by lra.
      rewrite coefficients_some in HL by assumption. apply Ret_inj in HL. apply schmidt_L_inv in HL as [Hh _].
      replace (1 + 1) with 2 in Hh by ring. apply static_h in EX; [contradiction|assumption].
  - intros NX. destruct (Req_EM_T x 0) as [->|Hx0]; [now apply polar_finite|].
    destruct Ha as [Ha0|Ha0].
    2:{ subst a. rewrite schwarzschild_constants by (assumption || (apply Hs; reflexivity)). eauto. }
    assert (Hfar : x < 0 -> forall r, 26/5 < 2 * r -> ch a (x^2) r <> 0).
    { intros Kx r K Z. apply static_h in Z; [|assumption]. unfold on_static_limit in Z. nra. }
    destruct (Req_EM_T e 1) as [->|He1].
    + apply parabolic_finite; try assumption; try lra.
      destruct (Rtotal_order x 0) as [K|[K|K]]; [|contradiction|].
      * apply Hfar; [assumption|]. specialize (Hp ltac:(lra)). lra.
      * intros Z. apply NX. refine (conj Ha0 (conj K (or_intror (conj eq_refl _)))). now apply static_h.
    + assert (Hc1 : p / (1 - e) = cc e * (p / (1 + e))) by (unfold cc; field; lra).
      pose proof (cc_ge e ltac:(lra)) as Hc.
      destruct (nonpolar_finite HX a p e x Ha0 HC Hx0 ltac:(lra)) as (E & L & HE & HL).
      * destruct (Rtotal_order x 0) as [K|[K|K]]; [|contradiction|].
        -- apply Hfar; [assumption|]. specialize (Hp ltac:(lra)).
           assert (p <= p / (1 - e)) by (apply (Rle_div_r p p (1 - e)); [lra|nra]). lra.
        -- intros Z. apply NX. refine (conj Ha0 (conj K (or_introl (conj _ (or_introl _))))); [lra|]. now apply static_h.
      * destruct (Rtotal_order x 0) as [K|[K|K]]; [|contradiction|].
        -- destruct (accepted_stable HX a p e x ltac:(lra) ltac:(lra) HC) as [Hdom Hbc]. cbv zeta in Hdom, Hbc.
           assert (Hbk : (a * x)^2 + a^2 * (1 - x^2) < 1) by nra.
           destruct (orbit_exists _ _ _ _ Hdom Hk Hr Hbk Hbc) as (E0 & y & HE0 & Hy & E1 & E2).
           apply Rgt_not_eq. apply (retro_denominator _ _ _ _ E0 y Hdom Hk Hr Hbk); try assumption. nra.
        -- intros Z. apply NX. refine (conj Ha0 (conj K (or_introl (conj _ (or_intror _))))); [lra|].
           rewrite Hc1. apply ring_W; try assumption; lra.
      * destruct (finish a p e x E L ltac:(lra) HC Hx0 HE HL) as [Q HQ]. eauto.
Qed.

(** in particular, always for a non-rotating hole, polar orbits and retrograde orbits *)
Corollary C50_finite_retrograde a p e x :
  check_constants_params (Rabs a) p e (x * spin_sign a) = Ret tt ->
  a = 0 \/ x * spin_sign a <= 0 ->
  exists E L Q, constants_of_motion (Some a) (Some p) (Some e) (Some x) = Ret (Some E, Some L, Some Q).
Proof.
  intros HC H. apply C50_finite_exactly; [exact HC|]. intros [K1 [K2 _]].
  destruct H as [->|H]; [rewrite Rabs_R0 in K1|]; lra.
Qed.

(** and for every orbit whose periastron is at least 4 *)
Corollary C50_finite_far a p e x :
  check_constants_params (Rabs a) p e (x * spin_sign a) = Ret tt -> 4 <= p / (1 + e) ->
  exists E L Q, constants_of_motion (Some a) (Some p) (Some e) (Some x) = Ret (Some E, Some L, Some Q).
Proof.
  intros HC H4. apply C50_finite_exactly; [exact HC|].
  destruct (accepted_bounds HX _ _ _ _ (Rabs_pos a) HC) as [Ha1 [He [Hx _]]].
  generalize dependent (x * spin_sign a). generalize dependent (Rabs a). clear a x. intros a Ha x HC Hx [Ha0 [Hx0 EX]].
  assert (Hk : 0 <= a^2 * (1 - x^2)) by (apply Rmult_le_pos; [apply pow2_ge_0|nra]).
  assert (Hb : (a * x)^2 < 1) by nra.
  assert (ST : forall r, 4 <= r -> ~ on_static_limit a x r) by (unfold on_static_limit; intros r K Z; nra).
  destruct EX as [[He1 [EX|EX]]|[-> EX]].
  - apply (ST (p / (1 - e))); [|exact EX].
    assert (p / (1 + e) <= p / (1 - e)); [|lra]. apply (proj1 (Rle_div_r _ _ (1 - e) ltac:(lra))).
    assert (p = p / (1 + e) * (1 + e)) by (field; lra). nra.
  - assert (Hc1 : p / (1 - e) = cc e * (p / (1 + e))) by (unfold cc; field; lra).
    pose proof (cc_ge e ltac:(lra)) as Hc. rewrite Hc1 in EX. set (q := p / (1 + e)) in *. clearbody q. clear Hc1.
    set (r := cc e * q) in *. assert (Hr : q <= r) by (unfold r; nra). clearbody r.
    unfold light_ring in EX. cbv zeta in EX. set (k := a^2 * (1 - x^2)) in *. clearbody k.
    assert (Q2 : 4 * q <= q^2) by nra. assert (R2 : q * r <= r^2) by nra. assert (RQ : 4 * q <= q * r) by nra.
    assert (B1 : 2 * q / (q^2 + k) <= 1/2) by (apply (Rle_div_l (2 * q) (1/2) (q^2 + k)); nra).
    assert (B2 : 2 * (r * q - k) / ((r^2 + k) * (r + q)) <= 1/4).
    { apply (Rle_div_l (2 * (r * q - k)) (1/4) ((r^2 + k) * (r + q))); [apply Rmult_lt_0_compat; nra|].
      assert ((r^2 + k) * (2 * q) <= (r^2 + k) * (r + q)) by (apply Rmult_le_compat_l; nra).
      assert (4 * (r * q) <= r^2 * q) by nra. assert (0 <= k * q) by (apply Rmult_le_pos; lra). lra. }
    assert (B3 : 8 * (a * x)^2 * (r * q - k) / ((r^2 + k) * (q^2 + k) * (r + q)) < 1/16).
    { apply (Rlt_div_l _ (1/16) ((r^2 + k) * (q^2 + k) * (r + q))); [repeat apply Rmult_lt_0_compat; nra|].
      apply Rle_lt_trans with (8 * (a * x)^2 * (r * q)).
      { apply Rmult_le_compat_l; [|lra]. pose proof (pow2_ge_0 (a * x)). lra. }
      apply Rlt_le_trans with (8 * (r * q)).
      { apply Rmult_lt_compat_r; [|lra]. apply Rmult_lt_0_compat; lra. }
      assert ((r^2 + k) * (q^2 + k) * (2 * q) <= (r^2 + k) * (q^2 + k) * (r + q)).
      { apply Rmult_le_compat_l; [apply Rmult_le_pos; nra|lra]. }
      assert (r^2 * q^2 <= (r^2 + k) * (q^2 + k)) by nra.
      assert (r^2 * q^2 * (2 * q) <= (r^2 + k) * (q^2 + k) * (2 * q)) by (apply Rmult_le_compat_r; lra).
      assert (16 <= q^2) by nra. assert (4 <= r) by lra.
      assert (64 <= r * q^2) by nra. assert (0 < r * q) by (apply Rmult_lt_0_compat; lra).
      assert (r * q * 64 <= r * q * (r * q^2)) by (apply Rmult_le_compat_l; lra).
      replace (r^2 * q^2 * (2 * q)) with (2 * (r * q * (r * q^2))) in H1 by ring. lra. }
    assert (1/4 <= 1 - 2 * q / (q^2 + k) - 2 * (r * q - k) / ((r^2 + k) * (r + q))) by lra.
    rewrite <- EX in B3. nra.
  - apply (ST (p / 2)); [|exact EX]. replace (1 + 1) with 2 in H4 by ring. exact H4.
Qed.
End S.
