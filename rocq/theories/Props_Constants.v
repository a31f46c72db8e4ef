(** * Properties C12-C16, C50: the constants of motion *)
From Coq Require Import Reals Lra ZArith String List Psatz.
From Coquelicot Require Import Coquelicot.
From Verif Require Import Num Outcome External Checked ExternalSpec Spec Model_Units Model_Constants
  P_Validation SepPoly Props_Separatrix Props_Validation P_Schmidt P_Bounds P_Constants.
Import ListNotations.
Open Scope R_scope.

Section C.
Context {X : External R} (HX : root_spec X).

Lemma Rsgn_cases x : x <> 0 -> (0 < x /\ Rsgn x = 1) \/ (x < 0 /\ Rsgn x = -1).
Proof.
  intros H. destruct (Rtotal_order x 0) as [K|[K|K]]; [right|contradiction|left].
  - split; [assumption|]. now apply Rsgn_neg.
  - split; [assumption|]. now apply Rsgn_pos.
Qed.

Lemma Ret_inj {A} (u v : A) : Ret u = Ret v -> u = v.
Proof. intros H. now inversion H. Qed.

(* the solution of equation B.17 for L *)
Lemma schmidt_L_solves f g h d s E L : s^2 = 1 -> h <> 0 ->
  0 <= - d * h + E^2 * (g^2 + f * h) ->
  L = (- E * g + s * sqrt (- d * h + E^2 * (g^2 + f * h))) / h ->
  f * E^2 - 2 * g * E * L - h * L^2 - d = 0.
Proof.
  intros Hs Hh Hr HL. set (rad := - d * h + E^2 * (g^2 + f * h)) in *.
  assert (H2 := pow2_sqrt _ Hr). set (q := sqrt rad) in *.
  assert (K : h * L + E * g = s * q) by (rewrite HL; field; assumption).
  assert (K2 : (h * L + E * g)^2 = rad) by (rewrite K; replace ((s*q)^2) with (s^2 * q^2) by ring; rewrite Hs, H2; ring).
  apply (Rmult_eq_reg_l h); [|assumption]. unfold rad in K2.
  transitivity (- ((h * L + E * g)^2 - (- d * h + E^2 * (g^2 + f * h)))); [ring|]. rewrite K2. ring.
Qed.

(** which of the two solutions of the turning-point equations is returned *)
Definition branch (a p e x E L : R) : Prop :=
  let f r := cf a (x^2) r in let g r := cg a r in let h r := ch a (x^2) r in let d r := cd a (x^2) r in
  let r1 := p / (1 - e) in let r2 := p / (1 + e) in
  (0 < a -> 0 < e < 1 ->
     0 < Rsgn x * ((d r1 * g r2 - g r1 * d r2) * E + (d r1 * h r2 - h r1 * d r2) * L)) /\
  (0 < a -> e = 0 ->
     Rsgn x * ((d p * cg' a - g p * cd' a (x^2) p) * E + (d p * ch' (x^2) p - h p * cd' a (x^2) p) * L) < 0).

Lemma nonpolar_branch a p e x E L Q : 0 <= a -> x <> 0 ->
  constants_of_motion (Some a) (Some p) (Some e) (Some x) = Ret (Some E, Some L, Some Q) ->
  correct_constants a p e x E L Q /\ branch a p e x E L.
Proof.
  intros Ha Hx0 H0. pose proof H0 as H. apply constants_inv in H as [HC [HE [HL HQ]]]; [|assumption].
  destruct (accepted_bounds HX a p e x Ha HC) as [Ha1 [He [Hx [Hr [HD [Hp Hsch]]]]]].
  destruct (Req_EM_T a 0) as [->|Ha0].
  { specialize (Hsch eq_refl).
    rewrite (schwarzschild_constants p e x Hsch He Hx) in H0.
    assert (Hq : 0 < p - 3 - e^2) by nra.
    set (q := sqrt (p - 3 - e^2)) in H0. assert (Hq0 : 0 < q) by (apply sqrt_lt_R0; lra).
    assert (Hq2 : q^2 = p - 3 - e^2) by (apply pow2_sqrt; lra).
    set (y := ((p - 2)^2 - 4 * e^2) / (p * (p - 3 - e^2))) in H0.
    assert (Hy : 0 < y).
    { unfold y. apply Rdiv_lt_0_compat; [nra | apply Rmult_lt_0_compat; lra]. }
    assert (Hy2 : sqrt y ^ 2 = y) by (apply pow2_sqrt; lra).
    assert (E = sqrt y /\ L = x * p / q /\ Q = (1 - x^2) * (p^2 / (p - 3 - e^2))) as [-> [-> ->]].
    { now inversion H0. }
    clear H0 HE HL HQ. split; [|split; intros K; lra].
    assert (RP : forall r, radial_potential 0 (sqrt y) (x * p / q) ((1 - x^2) * (p^2 / (p - 3 - e^2))) r
       = y * r^4 - r * (r - 2) * (r^2 + p^2 / (p - 3 - e^2))).
    { intros r. unfold radial_potential, Delta.
      transitivity (sqrt y ^ 2 * r^4 - r * (r - 2) * (r^2 + (x^2 * p^2 / q^2 + (1 - x^2) * (p^2 / (p - 3 - e^2))))).
      { field. split; lra. }
      rewrite Hy2, Hq2. field. lra. }
    unfold correct_constants. refine (conj _ (conj _ (conj _ (conj _ (conj _ (conj _ (conj _ (conj _ _)))))))).
    - intros. rewrite RP. unfold y. field. repeat split; lra.
    - rewrite RP. unfold y. field. repeat split; lra.
    - intros ->. apply (is_derive_ext (fun r => y * r^4 - r * (r - 2) * (r^2 + p^2 / (p - 3 - 0^2)))).
      { intros; symmetry; apply RP. }
      auto_derive; [repeat split; lra|]. unfold y. field. repeat split; lra.
    - intros ->. rewrite <- sqrt_1. f_equal. unfold y. field. lra.
    - unfold polar_polynomial.
      transitivity ((1 - x^2) * (p^2 / (p - 3 - e^2)) * x^2 - (1 - x^2) * (x^2 * p^2 / q^2)); [field; split; lra|].
      rewrite Hq2. field. lra.
    - intros. apply Rdiv_lt_0_compat; [apply Rmult_lt_0_compat|]; lra.
    - intros. apply (Ropp_lt_cancel), Rlt_le_trans with ((- x) * p / q).
      + rewrite Ropp_0. apply Rdiv_lt_0_compat; [apply Rmult_lt_0_compat|]; lra.
      + right. field. lra.
    - intros. contradiction.
    - apply sqrt_lt_R0. lra. }
  assert (Ha' : 0 < a < 1) by lra. clear Hsch H0.
  assert (Hw : 0 < x^2 <= 1) by (split; [apply pow2_gt_0; assumption | nra]).
  assert (Hs2 : Rsgn x ^ 2 = 1).
  { destruct (Rsgn_cases x Hx0) as [[_ ->]|[_ ->]]; ring. }
  assert (Hs : Rsgn x = 1 \/ Rsgn x = -1).
  { destruct (Rsgn_cases x Hx0) as [[_ ->]|[_ ->]]; auto. }
  rewrite energy_run in HE by assumption. rewrite angular_momentum_run in HL by assumption.
  rewrite carter_run in HQ by assumption. rewrite (Reqb_false x 0) in HE, HL, HQ by assumption.
  rewrite carter_value in HQ by assumption.
  assert (HQ' : Q = (1 - x^2) * (a^2 * (1 - E^2) + L^2 / x^2)) by (now inversion HQ). clear HQ. subst Q.
  assert (PZ : polar_polynomial a E L ((1 - x^2) * (a^2 * (1 - E^2) + L^2 / x^2)) (1 - x^2) = 0).
  { unfold polar_polynomial. field. assumption. }
  assert (SL : 0 < Rsgn x * L -> (0 < x -> 0 < L) /\ (x < 0 -> L < 0)).
  { destruct (Rsgn_cases x Hx0) as [[K1 ->]|[K1 ->]]; intros; split; intros; lra. }
  assert (H1e : 1 + e <> 0) by lra.
  assert (Hx2 : x^2 <> 0) by lra.
  unfold correct_constants.
  destruct (Reqb_spec e 1) as [->|He1].
  { assert (E = 1) as -> by (apply Ret_inj in HE; now injection HE as <-).
    rewrite cdiv_some in HL by assumption. rewrite coefficients_some in HL by assumption.
    set (r := p / (1 + 1)) in *.
    assert (HL' : schmidt_L (Some (cf a (x^2) r), Some (cg a r), Some (ch a (x^2) r), Some (cd a (x^2) r)) (Some x) (Some 1) = Some L)
      by (exact (Ret_inj _ _ HL)).
    apply schmidt_L_inv in HL' as [Hh [Hrad HL']].
    pose proof (schmidt_L_solves _ _ _ _ _ _ _ Hs2 Hh Hrad HL') as HV.
    assert (K : cf a (x^2) r - cd a (x^2) r = 2 * r^3 + 2 * a^2 * r) by (unfold cf, cd; ring).
    assert (K1 : 0 < cf a (x^2) r - cd a (x^2) r).
    { rewrite K. assert (0 < r^3) by (apply pow_lt; lra). assert (0 < a^2 * r) by (apply Rmult_lt_0_compat; [apply pow_lt|]; lra). lra. }
    assert (Hg : 0 < cg a r) by (clearbody r; unfold cg; repeat apply Rmult_lt_0_compat; lra).
    assert (HsL : 0 < Rsgn x * L).
    { set (rad := - cd a (x ^ 2) r * ch a (x ^ 2) r + 1 ^ 2 * (cg a r ^ 2 + cf a (x ^ 2) r * ch a (x ^ 2) r)) in *.
      assert (Hq2 := pow2_sqrt _ Hrad). assert (Hq0 := sqrt_pos rad). set (q := sqrt rad) in *.
      assert (K2 : q^2 - cg a r ^ 2 = ch a (x^2) r * (cf a (x^2) r - cd a (x^2) r)) by (rewrite Hq2; unfold rad; ring).
      destruct (Rsgn_cases x Hx0) as [[Kx Ks]|[Kx Ks]]; rewrite Ks in *.
      - rewrite HL'. destruct (Rtotal_order (ch a (x^2) r) 0) as [Kh|[Kh|Kh]]; [|contradiction|].
        + assert (q < cg a r).
          { apply Rsqr_incrst_0; try lra. unfold Rsqr.
            assert (0 < - ch a (x^2) r * (cf a (x^2) r - cd a (x^2) r)) by (apply Rmult_lt_0_compat; lra). lra. }
          replace (1 * ((-(1) * cg a r + 1 * q) / ch a (x ^ 2) r)) with ((cg a r - q) / (- ch a (x^2) r)) by (field; assumption).
          apply Rdiv_lt_0_compat; lra.
        + assert (cg a r < q).
          { apply Rsqr_incrst_0; try lra. unfold Rsqr.
            assert (0 < ch a (x^2) r * (cf a (x^2) r - cd a (x^2) r)) by (apply Rmult_lt_0_compat; lra). lra. }
          replace (1 * ((-(1) * cg a r + 1 * q) / ch a (x ^ 2) r)) with ((q - cg a r) / (ch a (x^2) r)) by (field; assumption).
          apply Rdiv_lt_0_compat; lra.
      - assert (13/5 < r) by (unfold r; specialize (Hp ltac:(lra)); lra).
        assert (Kh : 0 < ch a (x^2) r).
        { unfold ch. assert (0 < r * (r - 2)) by (apply Rmult_lt_0_compat; lra).
          unfold Delta in HD. assert (0 <= (1 - x^2) * (r^2 - 2 * r + a^2) / x^2).
          { apply Rmult_le_pos; [apply Rmult_le_pos; lra | apply Rlt_le, Rinv_0_lt_compat; lra]. } lra. }
        rewrite HL'. replace (-1 * ((-(1) * cg a r + -1 * q) / ch a (x ^ 2) r)) with ((q + cg a r) / (ch a (x^2) r)) by (field; assumption).
        apply Rdiv_lt_0_compat; lra. }
    destruct (SL HsL) as [SL1 SL2]. split; [|split; intros; lra].
    refine (conj _ (conj _ (conj _ (conj _ (conj PZ (conj SL1 (conj SL2 (conj _ _)))))))); try lra.
    - rewrite V_is_R by assumption. exact HV. }
  assert (H1e' : 1 - e <> 0) by lra.
  rewrite cdiv_some in HL by assumption. rewrite coefficients_some in HL by assumption.
  assert (HL' : schmidt_L (Some (cf a (x^2) (p / (1 - e))), Some (cg a (p / (1 - e))), Some (ch a (x^2) (p / (1 - e))),
      Some (cd a (x^2) (p / (1 - e)))) (Some x) (Some E) = Some L) by (exact (Ret_inj _ _ HL)).
  clear HL. apply schmidt_L_inv in HL' as [Hh [Hrad HL]].
  destruct (Reqb_spec e 0) as [->|He0].
  - rewrite coefficients_some, coefficients_derivative_some in HE by assumption.
    assert (HE' : schmidt_energy (Some (cf a (x^2) p), Some (cg a p), Some (ch a (x^2) p), Some (cd a (x^2) p))
       (Some (cf' a (x^2) p), Some (cg' a), Some (ch' (x^2) p), Some (cd' a (x^2) p)) (Some x) = Some E) by (exact (Ret_inj _ _ HE)).
    clear HE. apply schmidt_energy_inv in HE' as [HN [_ [HE1 HE2]]].
    replace (p / (1 - 0)) with p in * by field. replace (p / (1 + 0)) with p in * by field.
    destruct (solves_circular a (x^2) (Rsgn x) p E L Ha' Hw Hr HD Hs) as [EP [V1 [V2 [HS HB]]]]; try assumption.
    { destruct (Rsgn_cases x Hx0) as [[Kx Ks]|[Kx Ks]]; rewrite Ks in *; intros; [lra|].
      specialize (Hp ltac:(lra)). lra. }
    destruct (SL HS) as [SL1 SL2]. split; [|split; [intros; lra|intros _ _; exact HB]].
    assert (RV : radial_potential a E L ((1 - x^2) * (a^2 * (1 - E^2) + L^2 / x^2)) p = 0)
      by (rewrite V_is_R; assumption).
    refine (conj (fun _ => RV) (conj RV (conj _ (conj _ (conj PZ (conj SL1 (conj SL2 (conj _ EP)))))))); try lra.
    intros _. apply (is_derive_ext (V a (x^2) E L)); [intros; symmetry; now apply V_is_R|].
    rewrite <- V2. now apply V'_is_derivative.
  - rewrite !cdiv_some in HE by assumption. rewrite !coefficients_some in HE by assumption.
    apply Ret_inj in HE.
    apply schmidt_energy_inv in HE as [HN [_ [HE1 HE2]]].
    assert (Kr : p / (1 + e) < p / (1 - e)).
    { assert (0 < p). { replace p with (p / (1 + e) * (1 + e)) by (field; lra). apply Rmult_lt_0_compat; lra. }
      apply Rmult_lt_compat_l; [assumption|]. apply Rinv_lt_contravar; [apply Rmult_lt_0_compat|]; lra. }
    destruct (solves a (x^2) (Rsgn x) (p / (1 - e)) (p / (1 + e)) E L Ha' Hw ltac:(lra) HD Hs) as [EP [V1 [V2 [HS HB]]]]; try assumption.
    { destruct (Rsgn_cases x Hx0) as [[Kx Ks]|[Kx Ks]]; rewrite Ks in *; intros; [lra|].
      specialize (Hp ltac:(lra)). split; [apply (Rlt_div_r (13/5) p (1 + e)) | apply (Rlt_div_r 5 p (1 - e))]; lra. }
    destruct (SL HS) as [SL1 SL2]. split; [|split; [intros _ _; exact HB|intros; lra]].
    refine (conj _ (conj _ (conj _ (conj _ (conj PZ (conj SL1 (conj SL2 (conj _ EP)))))))); try lra.
    + intros. now rewrite V_is_R.
    + now rewrite V_is_R.
Qed.

Lemma nonpolar_correct a p e x E L Q : 0 <= a -> x <> 0 ->
  constants_of_motion (Some a) (Some p) (Some e) (Some x) = Ret (Some E, Some L, Some Q) ->
  correct_constants a p e x E L Q.
Proof. intros Ha Hx H. exact (proj1 (nonpolar_branch a p e x E L Q Ha Hx H)). Qed.

Lemma constants_correct a p e x E L Q : 0 <= a ->
  constants_of_motion (Some a) (Some p) (Some e) (Some x) = Ret (Some E, Some L, Some Q) ->
  correct_constants a p e x E L Q.
Proof.
  intros Ha H. destruct (Req_EM_T x 0) as [->|Hx].
  - now apply polar_correct.
  - now apply nonpolar_correct.
Qed.

Lemma constants_general a p e x E L Q :
  constants_of_motion (Some a) (Some p) (Some e) (Some x) = Ret (Some E, Some L, Some Q) ->
  correct_constants (Rabs a) p e (x * spin_sign a) E L Q.
Proof. rewrite constants_std. apply constants_correct. apply Rabs_pos. Qed.
Lemma constants_bounds a p e x E L Q :
  constants_of_motion (Some a) (Some p) (Some e) (Some x) = Ret (Some E, Some L, Some Q) ->
  0 <= Rabs a < 1 /\ 0 <= e <= 1 /\ -1 <= x * spin_sign a <= 1 /\ 1 < p / (1 + e) /\ 0 < Delta a (p / (1 + e)).
Proof.
  rewrite constants_std. intros H. apply constants_inv in H as [HC _]; [|apply Rabs_pos].
  destruct (accepted_bounds HX (Rabs a) p e _ (Rabs_pos a) HC) as [H1 [H2 [H3 [H4 [H5 _]]]]].
  unfold Delta in *. rewrite pow2_abs in H5. auto.
Qed.

(** ** C12: limiting cases *)
Theorem C12_marginally_bound : forall a p x E,
  energy (Some a) (Some p) (Some 1) (Some x) = Ret E -> E = Some 1.
Proof.
  intros a p x E H. unfold energy in H. rewrite std_some, check_constants_some in H.
  destruct (check_constants_params _ _ _ _) as [[]| |]; cbn [bind] in H; try discriminate.
  change (neqb (Some 1) (nZ 1)) with (Some (Reqb 1 1)) in H. rewrite Reqb_true in H by reflexivity.
  cbn [ifo] in H. apply Ret_inj in H. now rewrite <- H.
Qed.
Theorem C12_polar : forall a p e E L,
  angular_momentum (Some a) (Some p) (Some e) (Some 0) (Some E) = Ret L -> L = Some 0.
Proof.
  intros a p e E L H. unfold angular_momentum in H. rewrite std_some, check_constants_some in H.
  destruct (check_constants_params _ _ _ _) as [[]| |]; cbn [bind default] in H; try discriminate.
  change (neqb (Some (0 * spin_sign a)) (nZ 0)) with (Some (Reqb (0 * spin_sign a) 0)) in H.
  rewrite Reqb_true in H by ring. cbn [ifo] in H. apply Ret_inj in H. now rewrite <- H.
Qed.
Theorem C12_equatorial : forall a p e x E L Q, x = 1 \/ x = -1 ->
  constants_of_motion (Some a) (Some p) (Some e) (Some x) = Ret (Some E, Some L, Some Q) -> Q = 0.
Proof.
  intros a p e x E L Q Hx H. rewrite constants_std in H.
  apply constants_inv in H as [HC [_ [_ HQ]]]; [|apply Rabs_pos].
  assert (Hs : x * spin_sign a = 1 \/ x * spin_sign a = -1).
  { unfold spin_sign. destruct (Rlt_dec a 0), Hx; subst; lra. }
  set (y := x * spin_sign a) in *.
  rewrite carter_run in HQ by (assumption || apply Rabs_pos).
  rewrite (Reqb_false y 0) in HQ by lra. apply Ret_inj in HQ. rewrite carter_value in HQ by lra.
  injection HQ as <-. destruct Hs as [-> | ->]; field.
Qed.
Theorem C12_schwarzschild : forall p e x, 6 + 2 * e < p -> 0 <= e <= 1 -> -1 <= x <= 1 ->
  constants_of_motion (Some 0) (Some p) (Some e) (Some x)
  = Ret (Some (sqrt (((p - 2)^2 - 4 * e^2) / (p * (p - 3 - e^2)))),
         Some (x * p / sqrt (p - 3 - e^2)),
         Some ((1 - x^2) * (p^2 / (p - 3 - e^2)))).
Proof. exact schwarzschild_constants. Qed.

(** ** C13: p and e are the radial turning points.  Negative spins: the constants
    are those of the reflected orbit around a hole of spin |a| (C10). *)
Theorem C13_turning_points : forall a p e x E L Q,
  constants_of_motion (Some a) (Some p) (Some e) (Some x) = Ret (Some E, Some L, Some Q) ->
  let R := radial_potential (Rabs a) E L Q in
  (0 < E) /\
  (e < 1 -> R (p / (1 - e)) = 0 /\ R (p / (1 + e)) = 0) /\
  (e = 0 -> R p = 0 /\ is_derive R p 0) /\
  (e = 1 -> E = 1 /\ R (p / 2) = 0).
Proof.
  intros a p e x E L Q H.
  destruct (constants_general _ _ _ _ _ _ _ H) as (T1 & T2 & T3 & T4 & _ & _ & _ & _ & T9).
  cbv zeta. refine (conj T9 (conj _ (conj _ _))).
  - auto.
  - intros He. split; [|auto]. subst e. replace p with (p / (1 + 0)) at 1 by field. exact T2.
  - intros ->. split; [auto|]. replace (p / 2) with (p / (1 + 1)) by field. exact T2.
Qed.

(** ** C14: x is the polar turning point and the orientation *)
Theorem C14_polar_turning_point : forall a p e x E L Q,
  constants_of_motion (Some a) (Some p) (Some e) (Some x) = Ret (Some E, Some L, Some Q) ->
  polar_polynomial a E L Q (1 - x^2) = 0 /\
  (0 < x * spin_sign a -> 0 < L) /\ (x * spin_sign a < 0 -> L < 0) /\ (x = 0 -> L = 0).
Proof.
  intros a p e x E L Q H.
  destruct (constants_general _ _ _ _ _ _ _ H) as (_ & _ & _ & _ & T5 & T6 & T7 & T8 & _).
  assert (S2 : spin_sign a ^ 2 = 1) by (unfold spin_sign; destruct (Rlt_dec a 0); ring).
  unfold polar_polynomial in *. rewrite pow2_abs in T5.
  replace ((x * spin_sign a)^2) with (x^2 * spin_sign a ^ 2) in T5 by ring. rewrite S2, Rmult_1_r in T5.
  refine (conj T5 (conj T6 (conj T7 _))). intros ->. apply T8. ring.
Qed.
(* as an angle: theta_min with cos theta_min = sqrt(1 - x^2) is a zero of the polar potential *)
Theorem C14_theta_min : forall a p e x E L Q theta,
  constants_of_motion (Some a) (Some p) (Some e) (Some x) = Ret (Some E, Some L, Some Q) ->
  x <> 0 -> sin theta ^ 2 = x ^ 2 -> polar_potential a E L Q theta = 0.
Proof.
  intros a p e x E L Q theta H Hx Hth.
  destruct (C14_polar_turning_point _ _ _ _ _ _ _ H) as [T _].
  unfold polar_potential, polar_polynomial in *.
  assert (C2 : cos theta ^ 2 = 1 - x^2).
  { pose proof (sin2_cos2 theta) as K. unfold Rsqr in K. nra. }
  assert (x^2 <> 0) by (apply pow_nonzero; assumption).
  rewrite C2, Hth.
  apply (Rmult_eq_reg_l (x^2)); [|assumption]. rewrite Rmult_0_r, <- T. field. assumption.
Qed.

(** ** C15: the four radial roots *)
Lemma radial_expand a E L Q r : radial_potential a E L Q r
  = (E^2 - 1) * r^4 + 2 * r^3 + (a^2 * (E^2 - 1) - L^2 - Q) * r^2 + 2 * ((L - a * E)^2 + Q) * r - a^2 * Q.
Proof. unfold radial_potential, Delta. ring. Qed.
Lemma factorisation_quad a E L Q r1 r2 s m : r1 <> 0 -> r2 <> 0 -> 1 - E^2 <> 0 ->
  (r1 <> r2 -> radial_potential a E L Q r1 = 0 /\ radial_potential a E L Q r2 = 0) ->
  (r1 = r2 -> radial_potential a E L Q r1 = 0 /\ is_derive (radial_potential a E L Q) r1 0) ->
  s = 2 / (1 - E^2) - r1 - r2 -> m = a^2 * Q / (r1 * r2 * (1 - E^2)) ->
  forall r, radial_potential a E L Q r = (1 - E^2) * (r1 - r) * (r - r2) * (r^2 - s * r + m).
Proof.
  intros H1 H2 HE HN HD S P r.
  set (c2 := a^2 * (E^2 - 1) - L^2 - Q). set (c1 := 2 * ((L - a * E)^2 + Q)).
  assert (S' : (1 - E^2) * (r1 + r2 + s) = 2) by (rewrite S; field; assumption).
  assert (P' : (1 - E^2) * (r1 * r2 * m) = a^2 * Q) by (rewrite P; field; auto).
  assert (X0 : forall r, radial_potential a E L Q r
     = (E^2 - 1) * r^4 + (1 - E^2) * (r1 + r2 + s) * r^3 + c2 * r^2 + c1 * r - (1 - E^2) * (r1 * r2 * m))
    by (intros; rewrite S', P'; apply radial_expand).
  set (k2 := - (1 - E^2) * (r1 * r2 + (r1 + r2) * s + m)).
  set (k1 := (1 - E^2) * (r1 * r2 * s + (r1 + r2) * m)).
  assert (K : forall r, (1 - E^2) * (r1 - r) * (r - r2) * (r^2 - s * r + m)
     = (E^2 - 1) * r^4 + (1 - E^2) * (r1 + r2 + s) * r^3 + k2 * r^2 + k1 * r - (1 - E^2) * (r1 * r2 * m))
    by (intros; unfold k1, k2; ring).
  assert (c2 = k2 /\ c1 = k1) as [Ec2 Ec1].
  { destruct (Req_EM_T r1 r2) as [Heq|Hne].
    - subst r2. destruct (HD eq_refl) as [Z1 Z2].
      pose proof (X0 r1) as Y1. pose proof (K r1) as J1. rewrite Z1 in Y1.
      replace ((1 - E^2) * (r1 - r1) * (r1 - r1) * (r1^2 - s * r1 + m)) with 0 in J1 by ring.
      assert (D : is_derive (radial_potential a E L Q) r1
         (4 * (E^2 - 1) * r1^3 + 3 * ((1 - E^2) * (r1 + r1 + s)) * r1^2 + 2 * c2 * r1 + c1)).
      { apply (is_derive_ext (fun r => (E^2 - 1) * r^4 + (1 - E^2) * (r1 + r1 + s) * r^3 + c2 * r^2 + c1 * r - (1 - E^2) * (r1 * r1 * m))).
        { intros; symmetry; apply X0. }
        auto_derive; [exact I|ring]. }
      pose proof (is_derive_unique _ _ _ D) as U1. rewrite (is_derive_unique _ _ _ Z2) in U1.
      assert (J2 : 4 * (E^2 - 1) * r1^3 + 3 * ((1 - E^2) * (r1 + r1 + s)) * r1^2 + 2 * k2 * r1 + k1 = 0)
        by (unfold k1, k2; ring).
      assert (D1 : (c2 - k2) * r1^2 + (c1 - k1) * r1 = 0) by lra.
      assert (D2 : 2 * (c2 - k2) * r1 + (c1 - k1) = 0) by lra.
      assert (D3 : (c2 - k2) * r1^2 = 0).
      { replace ((c2 - k2) * r1^2) with (r1 * (2 * (c2 - k2) * r1 + (c1 - k1)) - ((c2 - k2) * r1^2 + (c1 - k1) * r1)) by ring.
        rewrite D1, D2. ring. }
      assert (c2 - k2 = 0). { apply Rmult_integral in D3 as [D3|D3]; [assumption|]. exfalso. revert D3. now apply pow_nonzero. }
      split; [lra|]. rewrite H in D2. lra.
    - destruct (HN Hne) as [Z1 Z2].
      pose proof (X0 r1) as Y1. pose proof (K r1) as J1. rewrite Z1 in Y1.
      pose proof (X0 r2) as Y2. pose proof (K r2) as J2. rewrite Z2 in Y2.
      replace ((1 - E^2) * (r1 - r1) * (r1 - r2) * (r1^2 - s * r1 + m)) with 0 in J1 by ring.
      replace ((1 - E^2) * (r1 - r2) * (r2 - r2) * (r2^2 - s * r2 + m)) with 0 in J2 by ring.
      assert (D1 : r1 * ((c2 - k2) * r1 + (c1 - k1)) = 0) by lra.
      assert (D2 : r2 * ((c2 - k2) * r2 + (c1 - k1)) = 0) by lra.
      apply Rmult_integral in D1 as [D1|D1]; [contradiction|].
      apply Rmult_integral in D2 as [D2|D2]; [contradiction|].
      assert (D3 : (c2 - k2) * (r1 - r2) = 0) by lra.
      apply Rmult_integral in D3 as [D3|D3]; [|exfalso; apply Hne; lra].
      rewrite D3 in D1. split; lra. }
  rewrite X0, K, Ec1, Ec2. reflexivity.
Qed.

Lemma factorisation a E L Q r1 r2 r3 r4 : r1 <> 0 -> r2 <> 0 -> 1 - E^2 <> 0 ->
  (r1 <> r2 -> radial_potential a E L Q r1 = 0 /\ radial_potential a E L Q r2 = 0) ->
  (r1 = r2 -> radial_potential a E L Q r1 = 0 /\ is_derive (radial_potential a E L Q) r1 0) ->
  r3 + r4 = 2 / (1 - E^2) - r1 - r2 -> r3 * r4 = a^2 * Q / (r1 * r2 * (1 - E^2)) ->
  forall r, radial_potential a E L Q r = (1 - E^2) * (r1 - r) * (r - r2) * (r - r3) * (r - r4).
Proof.
  intros H1 H2 HE HN HD S P r. rewrite (factorisation_quad a E L Q r1 r2 _ _ H1 H2 HE HN HD S P). ring.
Qed.

Lemma stable_radial_roots_inv a p e x E L Q rr c :
  stable_radial_roots (Some a) (Some p) (Some e) (Some x) c = Ret rr ->
  default c (constants_of_motion (Some a) (Some p) (Some e) (Some x)) = Ret (Some E, Some L, Some Q) ->
  forall r1 r2 r3 r4, rr = (Some r1, Some r2, Some r3, Some r4) ->
  1 - e <> 0 /\ 1 + e <> 0 /\ 1 - E^2 <> 0 /\ r1 = p / (1 - e) /\ r2 = p / (1 + e) /\ r1 <> 0 /\ r2 <> 0 /\ r3 <> 0 /\
  r3 + r4 = 2 / (1 - E^2) - r1 - r2 /\ r3 * r4 = a^2 * Q / (r1 * r2 * (1 - E^2)) /\ r4 <= r3.
Proof.
  intros H Hc r1 r2 r3 r4 ->. unfold stable_radial_roots in H. rewrite Hc in H. cbn [bind] in H.
  apply Ret_inj in H. cnum_in H.
  destruct (Req_EM_T (1 - e) 0) as [K1|K1].
  { exfalso. unfold cdiv at 1 in H. destruct (Req_EM_T (1 - e) 0); [discriminate | contradiction]. }
  rewrite (cdiv_some p (1 - e)) in H by assumption.
  destruct (Req_EM_T (1 + e) 0) as [K2|K2].
  { exfalso. unfold cdiv at 1 in H. destruct (Req_EM_T (1 + e) 0); [discriminate | contradiction]. }
  rewrite (cdiv_some p (1 + e)) in H by assumption.
  destruct (Req_EM_T (1 - E^2) 0) as [K3|K3].
  { exfalso. apply pair_equal_spec in H as [H _]. apply pair_equal_spec in H as [_ H]. 
    unfold cdiv at 2 in H. destruct (Req_EM_T (1 - E^2) 0); [discriminate | contradiction]. }
  rewrite (cdiv_some 2 (1 - E^2)) in H by assumption. cbv beta iota in H.
  set (q1 := p / (1 - e)) in *. set (q2 := p / (1 + e)) in *.
  destruct (Req_EM_T (q1 * q2 * (1 - E^2)) 0) as [K4|K4].
  { exfalso. apply pair_equal_spec in H as [_ H].
    unfold cdiv at 1 in H. unfold cdiv at 1 in H. destruct (Req_EM_T (q1 * q2 * (1 - E^2)) 0); [discriminate | contradiction]. }
  rewrite (cdiv_some (a^2 * Q) (q1 * q2 * (1 - E^2))) in H by assumption. cbv beta iota in H.
  set (AB := a^2 * Q / (q1 * q2 * (1 - E^2))) in *. set (ApB := 2 / (1 - E^2) - q1 - q2) in *.
  destruct (Rle_dec 0 (ApB^2 - 4 * AB)) as [K5|K5].
  2:{ exfalso. unfold csqrt in H. destruct (Rle_dec 0 (ApB^2 - 4 * AB)); [contradiction|]. discriminate. }
  rewrite (csqrt_some _ K5) in H. cbv beta iota in H.
  rewrite (cdiv_some (ApB + sqrt (ApB^2 - 4 * AB)) 2) in H by lra.
  apply pair_equal_spec in H as [H H4]. apply pair_equal_spec in H as [H H3]. apply pair_equal_spec in H as [H1 H2].
  apply cdiv_inv in H4 as [K6 H4].
  assert (H1' : q1 = r1) by congruence. assert (H2' : q2 = r2) by congruence.
  assert (H3' : (ApB + sqrt (ApB^2 - 4 * AB)) / 2 = r3) by congruence.
  rewrite <- H1', <- H2'. rewrite H3' in H4, K6.
  assert (Q2 := pow2_sqrt _ K5). assert (Q0 := sqrt_pos (ApB^2 - 4 * AB)). set (q := sqrt _) in *.
  assert (H4' : r4 = (ApB - q) / 2).
  { rewrite H4. apply (Rmult_eq_reg_l r3); [|assumption].
    replace (r3 * (AB / r3)) with AB by (field; assumption). rewrite <- H3'.
    transitivity ((ApB^2 - q^2) / 4); [rewrite Q2; field | field]. }
  refine (conj K1 (conj K2 (conj K3 (conj eq_refl (conj eq_refl (conj _ (conj _ (conj K6 (conj _ (conj _ _)))))))))).
  - intros K. apply K4. rewrite K. ring.
  - intros K. apply K4. rewrite K. ring.
  - change (r3 + r4 = ApB). rewrite H4', <- H3'. field.
  - change (r3 * r4 = AB). rewrite H4. field. assumption.
  - rewrite H4', <- H3'. lra.
Qed.

Theorem C15_radial_roots : forall a p e x E L Q r1 r2 r3 r4 c,
  constants_of_motion (Some a) (Some p) (Some e) (Some x) = Ret (Some E, Some L, Some Q) ->
  c = None \/ c = Some (Some E, Some L, Some Q) ->
  stable_radial_roots (Some a) (Some p) (Some e) (Some x) c = Ret (Some r1, Some r2, Some r3, Some r4) ->
  r1 = p / (1 - e) /\ r2 = p / (1 + e) /\ r4 <= r3 /\
  forall r, radial_potential (Rabs a) E L Q r = (1 - E^2) * (r1 - r) * (r - r2) * (r - r3) * (r - r4).
Proof.
  intros a p e x E L Q r1 r2 r3 r4 c H Hc HR.
  assert (HD : default c (constants_of_motion (Some a) (Some p) (Some e) (Some x)) = Ret (Some E, Some L, Some Q)).
  { destruct Hc as [-> | ->]; [exact H | reflexivity]. }
  destruct (stable_radial_roots_inv _ _ _ _ _ _ _ _ _ HR HD _ _ _ _ eq_refl)
    as (K1 & K2 & K3 & Q1 & Q2 & N1 & N2 & N3 & Sm & Pr & Le).
  refine (conj Q1 (conj Q2 (conj Le _))).
  destruct (constants_bounds _ _ _ _ _ _ _ H) as (_ & He & _).
  destruct (C13_turning_points _ _ _ _ _ _ _ H) as (_ & T1 & T2 & _).
  specialize (T1 ltac:(lra)).
  apply factorisation; try assumption.
  - intros _. rewrite Q1, Q2. exact T1.
  - intros Hrr. rewrite Q1, Q2 in Hrr.
    assert (e = 0).
    { assert (p * (1 + e) = p * (1 - e)).
      { transitivity (p / (1 - e) * ((1 - e) * (1 + e))); [field; lra|]. rewrite Hrr. field. lra. }
      assert (p <> 0) by (intros ->; apply N2; rewrite Q2; field; lra).
      apply Rmult_eq_reg_l in H0; lra. }
    subst e. replace r1 with p by (rewrite Q1; field). auto.
  - rewrite pow2_abs. exact Pr.
Qed.

(** ** C16: the polar roots *)
Theorem C16_polar_roots : forall a p e x E L Q c zm zp,
  constants_of_motion (Some a) (Some p) (Some e) (Some x) = Ret (Some E, Some L, Some Q) ->
  c = None \/ c = Some (Some E, Some L, Some Q) -> x <> 0 ->
  stable_polar_roots (Some a) (Some p) (Some e) (Some x) c = Ret (zm, zp) ->
  zm = Some (1 - x^2) /\
  (a = 0 -> zp = None /\
     forall z, polar_polynomial a E L Q z = (Q + L^2) * (1 - x^2 - z)) /\
  (a <> 0 -> E^2 <> 1 -> exists zp', zp = Some zp' /\
     forall z, polar_polynomial a E L Q z = a^2 * (1 - E^2) * (1 - x^2 - z) * (zp' - z)).
Proof.
  intros a p e x E L Q c zm zp H Hc Hx HR.
  destruct (C14_polar_turning_point _ _ _ _ _ _ _ H) as [T [TL1 [TL2 _]]].
  assert (Hx2 : x^2 <> 0) by (apply pow_nonzero; assumption).
  assert (L0 : L <> 0).
  { assert (x * spin_sign a <> 0) by (unfold spin_sign; destruct (Rlt_dec a 0); lra).
    intros ->. destruct (Rtotal_order (x * spin_sign a) 0) as [K|[K|K]]; [|contradiction|]; 
      [specialize (TL2 K) | specialize (TL1 K)]; lra. }
  unfold stable_polar_roots in HR.
  assert (HD : default c (constants_of_motion (Some a) (Some p) (Some e) (Some x)) = Ret (Some E, Some L, Some Q)).
  { destruct Hc as [-> | ->]; [exact H | reflexivity]. }
  rewrite HD in HR. cbn [bind] in HR.
  change (neqb (Some a) (nZ 0)) with (Some (Reqb a 0)) in HR.
  assert (QQ : Q * x^2 = (1 - x^2) * (a^2 * (1 - E^2) * x^2 + L^2)).
  { unfold polar_polynomial in T. lra. }
  destruct (Reqb_spec a 0) as [->|Ha0]; cbn [ifo] in HR.
  - apply Ret_inj in HR. apply pair_equal_spec in HR as [<- <-].
    refine (conj eq_refl (conj (fun _ => conj eq_refl _) _)); [|intros; contradiction].
    intros z. unfold polar_polynomial. apply (Rmult_eq_reg_l (x^2)); [|assumption].
    transitivity (Q * x^2 * (1 - z) - z * L^2 * x^2); [ring|]. rewrite QQ.
    transitivity ((Q * x^2 + L^2 * x^2) * (1 - x^2 - z)); [rewrite QQ; ring|ring].
  - apply Ret_inj in HR. apply pair_equal_spec in HR as [<- <-].
    refine (conj eq_refl (conj _ _)); [intros; contradiction|]. intros _ HE.
    exists (1 + L^2 / (a^2 * (1 - E^2) * x^2)).
    assert (L2 : L^2 <> 0) by (apply pow_nonzero; assumption).
    assert (a2 : a^2 <> 0) by (apply pow_nonzero; assumption).
    assert (E2 : 1 - E^2 <> 0) by lra.
    split.
    + cnum. rewrite cdiv_some by assumption. cbv beta iota.
      rewrite cdiv_some.
      * do 2 f_equal. field. repeat split; try assumption; nz.
      * apply Rmult_integral_contrapositive_currified; [|lra].
        apply Rmult_integral_contrapositive_currified; [|now apply Rinv_neq_0_compat].
        now apply Rmult_integral_contrapositive_currified.
    + intros z. unfold polar_polynomial. apply (Rmult_eq_reg_l (x^2)); [|assumption].
      transitivity (Q * x^2 * (1 - z) - z * (a^2 * (1 - E^2) * (1 - z) + L^2) * x^2); [ring|].
      rewrite QQ. field. repeat split; try assumption; try lra.
Qed.

(** ** C50: exceptional points where a constant is undefined *)
Lemma accepts_equatorial a p : 0 < a < 1 -> p < 6 ->
  (forall q, p <= q <= 6 -> S_equatorial q a 0 <> 0) ->
  check_constants_params a p 0 1 = Ret tt.
Proof.
  intros Ha Hp HS. destruct (check_constants_cases a p 0 1 ltac:(lra)) as [_ [_ H]].
  destruct (root_ok HX (fun p => S_polar p a 0) polar_lo 8 (cont_S_polar a 0)) as [pp [R1 [R2 R3]]].
  { assert (H1 := S_polar_lo a 0). assert (H2 := S_polar_8 a 0).
    assert (S_polar polar_lo a 0 <= 0) by (apply H1; lra).
    assert (0 <= S_polar 8 a 0) by (apply H2; lra). nra. }
  destruct (root_ok HX (fun p => S_equatorial p a 0) (1 + 0) (6 + 2 * 0) (cont_S_equatorial a 0)) as [pe [E1 [E2 E3]]].
  { assert (H1 := S_equatorial_lo a 0 ltac:(lra) ltac:(lra)). assert (H2 := S_equatorial_hi a 0 ltac:(lra) ltac:(lra)). nra. }
  rewrite Rmin_left, Rmax_right in E3 by lra.
  rewrite (H pe); [|lra|].
  - destruct (Rlt_dec pe p) as [|K]; [reflexivity|]. exfalso. apply (HS pe); [lra | exact E2].
  - rewrite separatrix_R, valid_params_true by (unfold in_range; lra).
    rewrite (Reqb_false a 1), (Reqb_false a 0) by lra. cbn [onot negb ifo].
    rewrite R1. cbn [bind]. rewrite (Reqb_false 1 0) by lra. cbn [ifo]. rewrite E1. cbn [bind].
    rewrite Reqb_true by reflexivity. reflexivity.
Qed.

Lemma accepts_equatorial_6 a p : 0 < a < 1 -> 6 < p -> check_constants_params a p 0 1 = Ret tt.
Proof.
  intros Ha Hp. destruct (check_constants_cases a p 0 1 ltac:(lra)) as [_ [_ H]].
  destruct (root_ok HX (fun p => S_polar p a 0) polar_lo 8 (cont_S_polar a 0)) as [pp [R1 [R2 R3]]].
  { assert (H1 := S_polar_lo a 0). assert (H2 := S_polar_8 a 0).
    assert (S_polar polar_lo a 0 <= 0) by (apply H1; lra).
    assert (0 <= S_polar 8 a 0) by (apply H2; lra). nra. }
  destruct (root_ok HX (fun p => S_equatorial p a 0) (1 + 0) (6 + 2 * 0) (cont_S_equatorial a 0)) as [pe [E1 [E2 E3]]].
  { assert (H1 := S_equatorial_lo a 0 ltac:(lra) ltac:(lra)). assert (H2 := S_equatorial_hi a 0 ltac:(lra) ltac:(lra)). nra. }
  rewrite Rmin_left, Rmax_right in E3 by lra.
  rewrite (H pe); [|lra|].
  - destruct (Rlt_dec pe p) as [|K]; [reflexivity|]. exfalso. lra.
  - rewrite separatrix_R, valid_params_true by (unfold in_range; lra).
    rewrite (Reqb_false a 1), (Reqb_false a 0) by lra. cbn [onot negb ifo].
    rewrite R1. cbn [bind]. rewrite (Reqb_false 1 0) by lra. cbn [ifo]. rewrite E1. cbn [bind].
    rewrite Reqb_true by reflexivity. reflexivity.
Qed.

(** an equatorial orbit with apastron r = 2 around a hole with a = 0.95 is accepted,
    but its angular momentum (and Carter constant) is undefined: division by zero *)
Theorem C50_refuted_angular_momentum :
  check_constants_params (Some (19/20)) (Some 2) (Some 0) (Some 1) = Ret tt /\
  exists E, constants_of_motion (Some (19/20)) (Some 2) (Some 0) (Some 1) = Ret (E, None, None).
Proof.
  assert (HC : check_constants_params (19/20) 2 0 1 = Ret tt).
  { apply accepts_equatorial; try lra. intros q Hq. apply Rlt_not_eq.
    assert (K : q * (6 - q)^2 <= 32).
    { assert (0 <= (q - 2)^2 * (8 - q)) by (apply Rmult_le_pos; [apply pow2_ge_0 | lra]).
      replace (q * (6 - q)^2) with (32 - (q - 2)^2 * (8 - q)) by ring. lra. }
    assert (K2 : q * (q * (6 - q)^2 - 2 * (19/20)^2 * (14 + 3 * q)) <= 2 * (-4)) by nra.
    unfold S_equatorial. rnum. nra. }
  split; [rewrite check_constants_some; exact HC|].
  unfold constants_of_motion. rewrite energy_run by (assumption || lra). cbn [bind].
  match goal with |- exists E, bind (angular_momentum _ _ _ _ (Some ?e)) _ = _ => exists e; set (E := e); clearbody E end.
  rewrite angular_momentum_run by (assumption || lra). cbn [bind].
  rewrite (Reqb_false 1 0), (Reqb_false 0 1) by lra.
  rewrite cdiv_some by lra. rewrite coefficients_some by lra.
  match goal with |- context [schmidt_L ?c (Some 1) E] => assert (HL : schmidt_L c (Some 1) E = None) end.
  { replace (ch (19/20) (1^2) (2 / (1 - 0))) with 0 by (unfold ch; field).
    unfold schmidt_L. cnum. 
    match goal with |- (match ?t with _ => _ end) = _ => idtac | |- cdiv ?t (Some 0) = None => destruct t; [|reflexivity] end.
    unfold cdiv. now destruct (Req_EM_T 0 0). }
  rewrite HL. rewrite carter_run by (assumption || lra). cbn [bind]. rewrite (Reqb_false 1 0) by lra.
  do 2 f_equal. destruct E as [E|]; cnum; rewrite csqrt_some by lra; reflexivity.
Qed.

(** the prograde circular orbit at the radius of the retrograde photon orbit is
    accepted, but its energy is 0/0 *)
Theorem C50_refuted_energy :
  check_constants_params (Some (12519/16000)) (Some (1521/400)) (Some 0) (Some 1) = Ret tt /\
  energy (Some (12519/16000)) (Some (1521/400)) (Some 0) (Some 1) = Ret None.
Proof.
  assert (HC : check_constants_params (12519/16000) (1521/400) 0 1 = Ret tt).
  { apply accepts_equatorial; try lra. intros q Hq. apply Rlt_not_eq.
    assert (K : q * (6 - q)^2 <= 20).
    { assert (0 <= q * (6 - q) <= 9) by nra.
      replace (q * (6 - q)^2) with (q * (6 - q) * (6 - q)) by ring. nra. }
    assert (K2 : q * (q * (6 - q)^2 - 2 * (12519/16000)^2 * (14 + 3 * q)) <= 3 * (-4)) by nra.
    unfold S_equatorial. rnum. nra. }
  split; [rewrite check_constants_some; exact HC|].
  rewrite energy_run by (assumption || lra).
  rewrite (Reqb_false 0 1), (Reqb_false 1 0), (Reqb_true 0 0) by lra.
  rewrite coefficients_some, coefficients_derivative_some by lra. f_equal.
  unfold schmidt_energy, cf, cg, ch, cd, cf', cg', ch', cd'. cnum.
  match goal with |- csqrt (cdiv _ (Some ?t)) = None => replace t with 0 by field end.
  match goal with |- csqrt (cdiv ?t (Some 0)) = None => destruct t; [|reflexivity] end.
  unfold cdiv. now destruct (Req_EM_T 0 0).
Qed.
End C.

(** ** the hypotheses are met, e.g. by the circular equatorial orbit of radius 16
    around a hole with a = 1/2 (E = 113/(16 sqrt 53), L = 1009/(32 sqrt 53)) *)
Example constants_example (X : External R) (HX : root_spec X) :
  let E := 113 / (16 * sqrt 53) in
  let L := 1009 / (32 * sqrt 53) in
  constants_of_motion (Some (1/2)) (Some 16) (Some 0) (Some 1) = Ret (Some E, Some L, Some 0).
Proof.
  assert (S0 : 0 < sqrt 53) by (apply sqrt_lt_R0; lra).
  assert (S2 : sqrt 53 ^ 2 = 53) by (apply pow2_sqrt; lra).
  set (s := sqrt 53) in *. cbv zeta.
  assert (HC : check_constants_params (1/2) 16 0 1 = Ret tt) by (apply (accepts_equatorial_6 HX); lra).
  unfold constants_of_motion. rewrite energy_run by (assumption || lra).
  rewrite (Reqb_false 0 1), (Reqb_false 1 0), (Reqb_true 0 0) by lra. cbn [bind].
  rewrite coefficients_some, coefficients_derivative_some by lra.
  match goal with |- context [schmidt_energy ?c ?d (Some 1)] =>
    assert (HE : schmidt_energy c d (Some 1) = Some (113 / (16 * s))) end.
  { rewrite (schmidt_energy_val _ _ _ _ _ _ _ _ 1 (12769/13568)).
    - f_equal. apply sqrt_lem_1; [lra | apply Rlt_le, Rdiv_lt_0_compat; lra |].
      transitivity (12769 / (256 * s^2)); [field; lra | rewrite S2; field].
    - unfold cf, cg, ch, cd, cf', cg', ch', cd'. apply Rgt_not_eq. field_simplify. lra.
    - unfold cf, cg, ch, cd, cf', cg', ch', cd'. field_simplify. lra.
    - match goal with |- context [sqrt ?t] => assert (HD : sqrt t = 1881145344) end.
      { apply sqrt_lem_1; [|lra|]; unfold cf, cg, ch, cd, cf', cg', ch', cd'; [field_simplify; lra | field]. }
      rewrite HD. rewrite Rsgn_pos by lra. unfold cf, cg, ch, cd, cf', cg', ch', cd'. field.
    - lra. }
  rewrite HE. rewrite angular_momentum_run by (assumption || lra).
  rewrite (Reqb_false 0 1), (Reqb_false 1 0) by lra. cbn [bind].
  rewrite cdiv_some by lra. replace (16 / (1 - 0)) with 16 by field.
  rewrite coefficients_some by lra.
  rewrite (schmidt_L_val _ _ _ _ 1 _ ((ch (1/2) (1^2) 16 * (1009 / (32 * s)) + 113 / (16 * s) * cg (1/2) 16)^2)).
  - rewrite sqrt_pow2.
    2:{ unfold ch, cg. apply Rplus_le_le_0_compat; repeat apply Rmult_le_pos; try lra;
        try (apply Rlt_le, Rinv_0_lt_compat; lra). }
    rewrite Rsgn_pos by lra.
    match goal with |- context [Some ((?u + 1 * (?v + ?w)) / ?t)] =>
      replace ((u + 1 * (v + w)) / t) with (1009 / (32 * s)) end.
    2:{ unfold ch, cg. field. lra. }
    rewrite carter_run by (assumption || lra). cbn [bind]. rewrite (Reqb_false 1 0) by lra.
    rewrite carter_value by lra. do 3 f_equal. field. lra.
  - unfold ch. lra.
  - unfold cf, cg, ch, cd.
    transitivity (51494976 / s^2); [field; lra|]. rewrite S2.
    replace ((113 / (16 * s))^2) with (12769 / (256 * s^2)) by (field; lra). rewrite S2. field.
  - apply pow2_ge_0.
Qed.
Example roots_example (X : External R) (HX : root_spec X) :
  stable_radial_roots (Some (1/2)) (Some 16) (Some 0) (Some 1) None
    = Ret (Some 16, Some 16, Some (1568/799), Some 0) /\
  exists zp, stable_polar_roots (Some (1/2)) (Some 16) (Some 0) (Some 1) None = Ret (Some 0, Some zp).
Proof.
  assert (S0 : 0 < sqrt 53) by (apply sqrt_lt_R0; lra).
  assert (S2 : sqrt 53 ^ 2 = 53) by (apply pow2_sqrt; lra).
  pose proof (constants_example X HX) as H. cbv zeta in H. set (s := sqrt 53) in *.
  assert (E2 : (113 / (16 * s))^2 = 12769/13568).
  { replace ((113 / (16 * s))^2) with (12769 / (256 * s^2)) by (field; lra). rewrite S2. field. }
  assert (L2 : (1009 / (32 * s))^2 = 1018081/54272).
  { replace ((1009 / (32 * s))^2) with (1018081 / (1024 * s^2)) by (field; lra). rewrite S2. field. }
  unfold stable_radial_roots, stable_polar_roots. cbn [default]. rewrite H. cbn [bind].
  change (neqb (Some (1/2)) (nZ 0)) with (Some (Reqb (1/2) 0)). rewrite Reqb_false by lra. cbn [ifo].
  cnum. rewrite E2, L2. split.
  - rewrite !cdiv_some by lra. rewrite csqrt_some by lra.
    match goal with |- context [sqrt ?t] => assert (HS : sqrt t = 1568/799) by (apply sqrt_lem_1; lra) end.
    rewrite HS. rewrite !cdiv_some by lra.
    do 2 f_equal; [f_equal; [f_equal|]|]; f_equal; field.
  - rewrite cdiv_some by lra. eexists. rewrite cdiv_some by lra. do 3 f_equal. ring.
Qed.
