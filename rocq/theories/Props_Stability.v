(** * Properties C23 and C15 (completed): accepted orbits are bound, with four ordered real roots *)
From Coq Require Import Reals Lra ZArith String List Psatz.
From Coquelicot Require Import Coquelicot.
From Verif Require Import Num Outcome External Checked ExternalSpec Spec Model_Units Model_Constants
  P_Validation SepPoly Props_Separatrix Props_Validation P_Bounds P_Schmidt P_Constants Props_Constants
  P_Stability P_Stability2 P_Stability3 P_Stability4.
Open Scope R_scope.

Lemma horizon_le a q : 0 <= a < 1 -> 1 < q -> 0 < Delta a q -> 1 + sqrt (1 - a^2) < q.
Proof.
  intros Ha Hq HD. unfold Delta in HD.
  assert (K : sqrt (1 - a^2) < q - 1); [|lra].
  rewrite <- (sqrt_pow2 (q - 1)) by lra. apply sqrt_lt_1_alt. nra.
Qed.

Lemma Delta_horizon a s r : s^2 = 1 - a^2 -> r = 1 + s \/ r = 1 - s -> Delta a r = 0.
Proof. intros Hs [-> | ->]; unfold Delta; nra. Qed.

(* monic quadratic: non-positive at two points, so it has real roots enclosing them *)
Lemma quad_roots s m u v : u <= v -> u^2 - s * u + m <= 0 -> v^2 - s * v + m <= 0 ->
  0 <= s^2 - 4 * m /\ (s - sqrt (s^2 - 4 * m)) / 2 <= u /\ v <= (s + sqrt (s^2 - 4 * m)) / 2.
Proof.
  intros Huv Hu Hv.
  assert (D : 0 <= s^2 - 4 * m).
  { assert (0 <= (2 * u - s)^2) by apply pow2_ge_0. lra. }
  split; [exact D|]. assert (Q2 := pow2_sqrt _ D). assert (Q0 := sqrt_pos (s^2 - 4 * m)).
  set (w := sqrt _) in *. clearbody w. split; nra.
Qed.

Section S.
Context {X : External R} (HX : root_spec X).

Lemma orbit_bound a p e x E L Q : 0 <= a -> e < 1 ->
  constants_of_motion (Some a) (Some p) (Some e) (Some x) = Ret (Some E, Some L, Some Q) ->
  0 < E < 1 /\ 0 <= Q /\ forall r3 r4,
    r3 + r4 = 2 / (1 - E^2) - p / (1 - e) - p / (1 + e) ->
    r3 * r4 = a^2 * Q / (p / (1 - e) * (p / (1 + e)) * (1 - E^2)) ->
    r3 < p / (1 + e) /\ r4 < p / (1 + e).
Proof.
  intros Ha He1 H0.
  destruct (orbit_equations HX a p e x E L Q Ha He1 H0) as (y & HR & HQ & _ & E1 & E2 & B1 & B2 & EP).
  pose proof (constants_correct HX a p e x E L Q Ha H0) as (_ & R2 & _).
  pose proof H0 as H. apply constants_inv in H as [HC _]; [|assumption].
  destruct (accepted_bounds HX a p e x Ha HC) as [Ha1 [He [Hx [Hr [HD [Hp _]]]]]].
  destruct (accepted_stable HX a p e x Ha He1 HC) as [Hdom Hb].
  assert (Hx2 : 0 <= x^2 <= 1) by nra. assert (Ha2 : 0 <= a^2 < 1) by nra.
  assert (Hk : 0 <= a^2 * (1 - x^2) < 1) by nra.
  assert (HA : (a * x)^2 + a^2 * (1 - x^2) < 1) by nra.
  destruct (bound_orbit (cc e) (a^2 * (1 - x^2)) (p / (1 + e)) (a * x) E y Hdom (proj1 Hk) Hr HA Hb EP E1 E2 B1 B2) as [HE HB].
  assert (EE : E < 1) by nra.
  assert (Q0 : 0 <= Q).
  { rewrite HQ. apply Rmult_le_pos; [lra|]. assert (0 <= (y + a * x * E)^2) by apply pow2_ge_0. nra. }
  refine (conj (conj EP EE) (conj Q0 _)).
  intros r3 r4 S P.
  assert (P1 : p / (1 - e) = cc e * (p / (1 + e))) by (unfold cc; field; lra).
  rewrite P1 in S, P. pose proof (cc_ge e ltac:(lra)) as Hc.
  assert (Z0 : - (a^2 * Q) = Rp (a^2 * (1 - x^2)) (a * x) E y 0).
  { rewrite <- HR. unfold radial_potential, Delta. ring. }
  rewrite HR in R2. set (q := p / (1 + e)) in *. clearbody q. set (k := a^2 * (1 - x^2)) in *. clearbody k.
  set (c := cc e) in *. clearbody c.
  assert (q <> 0) by lra. assert (c <> 0) by lra. assert (1 - E^2 <> 0) by lra.
  assert (0 < q^2) by (apply pow_lt; lra). assert (0 < q^2 + k) by lra.
  apply HB; [lra|].
  rewrite P. transitivity (a^2 * Q); [field; auto|]. replace (a^2 * Q) with (- Rp k (a * x) E y 0) by lra.
  assert (Y2 : (y^2 + 2 * (a * x) * E * y + (a * x)^2) =
     ((E^2 - 1) * (q^2 + k)^2 + 2 * q * (q^2 + k) + 2 * y^2 * q) / (q^2 + k)).
  { apply (Rmult_eq_reg_r (q^2 + k)); [|lra]. unfold Rp in R2.
    replace (((E ^ 2 - 1) * (q ^ 2 + k) ^ 2 + 2 * q * (q ^ 2 + k) + 2 * y ^ 2 * q) / (q ^ 2 + k) * (q ^ 2 + k))
      with ((E ^ 2 - 1) * (q ^ 2 + k) ^ 2 + 2 * q * (q ^ 2 + k) + 2 * y ^ 2 * q) by (field; lra).
    lra. }
  unfold Rp. rewrite Y2. field. split; lra.
Qed.

Lemma orbit_quad a p e x E L Q : 0 <= a -> e < 1 ->
  constants_of_motion (Some a) (Some p) (Some e) (Some x) = Ret (Some E, Some L, Some Q) ->
  let s := 2 / (1 - E^2) - p / (1 - e) - p / (1 + e) in
  let m := a^2 * Q / (p / (1 - e) * (p / (1 + e)) * (1 - E^2)) in
  forall r, radial_potential a E L Q r = (1 - E^2) * (p / (1 - e) - r) * (r - p / (1 + e)) * (r^2 - s * r + m).
Proof.
  intros Ha He1 H0. cbv zeta.
  pose proof (constants_correct HX a p e x E L Q Ha H0) as (R1 & R2 & R3 & _).
  specialize (R1 He1).
  pose proof H0 as H. apply constants_inv in H as [HC _]; [|assumption].
  destruct (accepted_bounds HX a p e x Ha HC) as [Ha1 [He [Hx [Hr _]]]].
  destruct (orbit_bound a p e x E L Q Ha He1 H0) as [HE _].
  assert (HP : 0 < p). { replace p with (p / (1 + e) * (1 + e)) by (field; lra). apply Rmult_lt_0_compat; lra. }
  assert (K1 : p / (1 - e) <> 0) by (apply Rgt_not_eq; apply Rdiv_lt_0_compat; lra).
  assert (K2 : p / (1 + e) <> 0) by lra.
  assert (K3 : 1 - E^2 <> 0) by nra.
  apply factorisation_quad; try assumption; try reflexivity.
  - intros _. split; assumption.
  - intros Hrr.
    assert (e = 0).
    { assert (p * (1 + e) = p * (1 - e)).
      { transitivity (p / (1 - e) * ((1 - e) * (1 + e))); [field; lra|]. rewrite Hrr. field. lra. }
      apply Rmult_eq_reg_l in H; lra. }
    subst e. split; [assumption|]. replace (p / (1 - 0)) with p by field. auto.
Qed.

(** the two inner roots are real, straddle both horizons and lie below the periastron *)
Lemma orbit_roots a p e x E L Q : 0 <= a -> e < 1 ->
  constants_of_motion (Some a) (Some p) (Some e) (Some x) = Ret (Some E, Some L, Some Q) ->
  let s := 2 / (1 - E^2) - p / (1 - e) - p / (1 + e) in
  let m := a^2 * Q / (p / (1 - e) * (p / (1 + e)) * (1 - E^2)) in
  let r3 := (s + sqrt (s^2 - 4 * m)) / 2 in let r4 := (s - sqrt (s^2 - 4 * m)) / 2 in
  0 <= s^2 - 4 * m /\ 0 <= r4 <= 1 - sqrt (1 - a^2) /\ 1 + sqrt (1 - a^2) <= r3 < p / (1 + e) /\ p / (1 + e) <= p / (1 - e) /\
  r3 + r4 = s /\ r3 * r4 = m.
Proof.
  intros Ha He1 H0. cbv zeta.
  pose proof (orbit_quad a p e x E L Q Ha He1 H0) as HF. cbv zeta in HF.
  destruct (orbit_bound a p e x E L Q Ha He1 H0) as [HE [HQ HB]].
  pose proof H0 as H. apply constants_inv in H as [HC _]; [|assumption].
  destruct (accepted_bounds HX a p e x Ha HC) as [Ha1 [He [Hx [Hr [HD _]]]]].
  pose proof (horizon_le a _ ltac:(lra) Hr HD) as Hh.
  assert (A2 : 0 <= a^2 < 1) by nra.
  assert (S0 : 0 < sqrt (1 - a^2)) by (apply sqrt_lt_R0; lra).
  assert (S1 : sqrt (1 - a^2) ^ 2 = 1 - a^2) by (apply pow2_sqrt; lra).
  assert (Hpp : p / (1 + e) <= p / (1 - e)).
  { assert (0 < p). { replace p with (p / (1 + e) * (1 + e)) by (field; lra). apply Rmult_lt_0_compat; lra. }
    apply Rmult_le_compat_l; [lra|]. apply Rinv_le_contravar; lra. }
  set (s := 2 / (1 - E^2) - p / (1 - e) - p / (1 + e)) in *.
  set (m := a^2 * Q / (p / (1 - e) * (p / (1 + e)) * (1 - E^2))) in *.
  assert (E2 : 0 < 1 - E^2) by nra.
  assert (Hm : 0 <= m).
  { apply Rmult_le_pos; [apply Rmult_le_pos; lra|]. left. apply Rinv_0_lt_compat.
    apply Rmult_lt_0_compat; [apply Rmult_lt_0_compat|]; lra. }
  assert (NP : forall r, r < p / (1 + e) -> Delta a r = 0 -> r^2 - s * r + m <= 0).
  { intros r Hlt Hz. specialize (HF r). unfold radial_potential in HF. rewrite Hz in HF.
    assert (K : 0 <= (1 - E^2) * (p / (1 - e) - r) * (r - p / (1 + e)) * (r^2 - s * r + m)).
    { rewrite <- HF. rewrite Rmult_0_l, Rminus_0_r. apply pow2_ge_0. }
    assert (0 < (1 - E^2) * (p / (1 - e) - r) * (p / (1 + e) - r)) by (apply Rmult_lt_0_compat; [apply Rmult_lt_0_compat|]; lra).
    nra. }
  destruct (quad_roots s m (1 - sqrt (1 - a^2)) (1 + sqrt (1 - a^2))) as [D [Q1 Q2]]; try lra.
  { apply NP; [lra|]. eapply Delta_horizon; eauto. }
  { apply NP; [lra|]. eapply Delta_horizon; eauto. }
  assert (W2 := pow2_sqrt _ D).
  set (w := sqrt (s^2 - 4 * m)) in *.
  assert (P1 : (s + w) / 2 + (s - w) / 2 = s) by field.
  assert (P2 : (s + w) / 2 * ((s - w) / 2) = m).
  { transitivity ((s^2 - w^2) / 4); [field|]. rewrite W2. field. }
  destruct (HB _ _ P1 P2) as [B1 B2].
  assert (0 <= (s - w) / 2).
  { apply Rnot_lt_le. intros K. assert ((s + w) / 2 * ((s - w) / 2) < 0); [|lra].
    assert (0 < (s + w) / 2 * - ((s - w) / 2)) by (apply Rmult_lt_0_compat; lra). lra. }
  repeat split; try assumption; try lra.
Qed.

Lemma constants_reduce a p e x E L Q :
  constants_of_motion (Some a) (Some p) (Some e) (Some x) = Ret (Some E, Some L, Some Q) ->
  constants_of_motion (Some (Rabs a)) (Some p) (Some e) (Some (x * spin_sign a)) = Ret (Some E, Some L, Some Q).
Proof. now rewrite constants_std. Qed.

(** ** C23: bound orbits *)
Theorem C23_bound_orbits : forall a p e x E L Q,
  constants_of_motion (Some a) (Some p) (Some e) (Some x) = Ret (Some E, Some L, Some Q) -> e < 1 ->
  0 < E < 1 /\ 0 <= Q /\
  (* motion is allowed between the turning points, and only there outside the inner barrier *)
  (forall r, p / (1 + e) < r < p / (1 - e) -> 0 < radial_potential (Rabs a) E L Q r) /\
  (forall r, p / (1 - e) < r -> radial_potential (Rabs a) E L Q r < 0) /\
  (exists r3, 1 + sqrt (1 - a^2) <= r3 < p / (1 + e) /\
     forall r, r3 < r < p / (1 + e) -> radial_potential (Rabs a) E L Q r < 0).
Proof.
  intros a p e x E L Q H0 He1. apply constants_reduce in H0.
  pose proof (orbit_quad _ _ _ _ _ _ _ (Rabs_pos a) He1 H0) as HF. cbv zeta in HF.
  destruct (orbit_bound _ _ _ _ _ _ _ (Rabs_pos a) He1 H0) as [HE [HQ HB]].
  pose proof (orbit_roots _ _ _ _ _ _ _ (Rabs_pos a) He1 H0) as HR. cbv zeta in HR.
  rewrite pow2_abs in HF, HB, HR.
  destruct HR as (D & R4 & R3 & Hpp & P1 & P2).
  set (s := 2 / (1 - E^2) - p / (1 - e) - p / (1 + e)) in *.
  set (m := a^2 * Q / (p / (1 - e) * (p / (1 + e)) * (1 - E^2))) in *.
  set (r3 := (s + sqrt (s^2 - 4 * m)) / 2) in *. set (r4 := (s - sqrt (s^2 - 4 * m)) / 2) in *.
  assert (Fq : forall r, r^2 - s * r + m = (r - r3) * (r - r4)) by (intros; rewrite <- P1, <- P2; ring).
  assert (E2 : 0 < 1 - E^2) by nra. pose proof (sqrt_pos (1 - a^2)).
  clearbody r3 r4. set (r1 := p / (1 - e)) in *. set (r2 := p / (1 + e)) in *. clearbody r1 r2.
  refine (conj HE (conj HQ (conj _ (conj _ _)))).
  - intros r Hr. rewrite HF, Fq. repeat apply Rmult_lt_0_compat; lra.
  - intros r Hr. rewrite HF, Fq.
    assert (0 < (1 - E^2) * (r - r1) * (r - r2) * ((r - r3) * (r - r4))) by (repeat apply Rmult_lt_0_compat; lra). lra.
  - exists r3. split; [lra|]. intros r Hr. rewrite HF, Fq.
    assert (0 < (1 - E^2) * (r1 - r) * (r2 - r) * ((r - r3) * (r - r4))) by (repeat apply Rmult_lt_0_compat; lra). lra.
Qed.

(** ** C15, completed: the root finder always succeeds and the roots are ordered around both horizons *)
Theorem C15_roots_defined : forall a p e x E L Q c,
  constants_of_motion (Some a) (Some p) (Some e) (Some x) = Ret (Some E, Some L, Some Q) -> e < 1 ->
  c = None \/ c = Some (Some E, Some L, Some Q) ->
  exists r1 r2 r3 r4,
    stable_radial_roots (Some a) (Some p) (Some e) (Some x) c = Ret (Some r1, Some r2, Some r3, Some r4) /\
    r1 = p / (1 - e) /\ r2 = p / (1 + e) /\
    0 <= r4 <= 1 - sqrt (1 - a^2) /\ 1 + sqrt (1 - a^2) <= r3 < r2 /\ r2 <= r1 /\
    forall r, radial_potential (Rabs a) E L Q r = (1 - E^2) * (r1 - r) * (r - r2) * (r - r3) * (r - r4).
Proof.
  intros a p e x E L Q c H0 He1 Hc.
  assert (HD : default c (constants_of_motion (Some a) (Some p) (Some e) (Some x)) = Ret (Some E, Some L, Some Q)).
  { destruct Hc as [-> | ->]; [exact H0 | reflexivity]. }
  destruct (constants_bounds HX _ _ _ _ _ _ _ H0) as (Ha & He & _ & Hq1 & _).
  apply constants_reduce in H0.
  pose proof (orbit_quad _ _ _ _ _ _ _ (Rabs_pos a) He1 H0) as HF. cbv zeta in HF.
  destruct (orbit_bound _ _ _ _ _ _ _ (Rabs_pos a) He1 H0) as [HE [HQ HB]].
  pose proof (orbit_roots _ _ _ _ _ _ _ (Rabs_pos a) He1 H0) as HR. cbv zeta in HR.
  rewrite pow2_abs in HF, HB, HR.
  destruct HR as (D & R4 & R3 & Hpp & P1 & P2).
  set (s := 2 / (1 - E^2) - p / (1 - e) - p / (1 + e)) in *.
  set (m := a^2 * Q / (p / (1 - e) * (p / (1 + e)) * (1 - E^2))) in *.
  assert (E2 : 1 - E^2 <> 0) by nra.
  assert (Hm : p / (1 - e) * (p / (1 + e)) * (1 - E^2) <> 0).
  { apply Rgt_not_eq. apply Rmult_lt_0_compat; [apply Rmult_lt_0_compat|]; nra. }
  set (w := sqrt (s^2 - 4 * m)) in *.
  pose proof (sqrt_pos (1 - a^2)) as S0.
  assert (R30 : (s + w) / 2 <> 0) by lra.
  assert (RD : stable_radial_roots (Some a) (Some p) (Some e) (Some x) c =
    Ret (Some (p / (1 - e)), Some (p / (1 + e)), Some ((s + w) / 2), Some ((s - w) / 2))).
  { unfold stable_radial_roots. rewrite HD. cbn [bind]. cnum.
    rewrite (cdiv_some p (1 - e)), (cdiv_some p (1 + e)), (cdiv_some 2 (1 - E^2)) by lra. cbv beta iota.
    rewrite (cdiv_some _ _ Hm). cbv beta iota. fold s m.
    rewrite (csqrt_some (s^2 - 4 * m) D). fold w. cbv beta iota.
    rewrite (cdiv_some (s + w) 2) by lra. cbv beta iota. rewrite (cdiv_some m ((s + w) / 2)) by assumption.
    do 2 f_equal. f_equal. rewrite <- P2. field. lra. }
  exists (p / (1 - e)), (p / (1 + e)), ((s + w) / 2), ((s - w) / 2).
  refine (conj RD (conj eq_refl (conj eq_refl (conj R4 (conj R3 (conj Hpp _)))))).
  intros r. rewrite HF. rewrite <- P1 at 1. rewrite <- P2. ring.
Qed.
End S.
