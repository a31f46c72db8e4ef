(** * Property C21: the separatrix is where the periastron becomes a double root *)
From Coq Require Import Reals Lra ZArith String List Psatz.
From Coquelicot Require Import Coquelicot.
From Verif Require Import Num Outcome External Checked ExternalSpec Spec Model_Units Model_Constants
  P_Validation SepPoly Props_Separatrix P_Bounds P_Schmidt P_Constants Props_Constants
  P_Stability P_Stability2 P_Stability3 P_Stability4 P_Stability5.
Open Scope R_scope.

(* comparing coefficients *)
Lemma double_root_eqs c k q eps Y M r4 B : q <> 0 ->
  (forall r, - eps * (r^2 + k)^2 + 2 * r * (r^2 + k) + 2 * Y * r - M * (r^2 + k)
             = eps * (c * q - r) * (r - q)^2 * (r - r4)) ->
  let t := k / q^2 in
  dd c t * eps * q = om c t /\ dd c t * Y = Yt c t q /\ Mt c t q B = dd c t * (M - Y - B).
Proof.
  intros Hq H. cbv zeta.
  pose proof (H 0) as H0. pose proof (H 1) as H1. pose proof (H (-1)) as H2.
  pose proof (H 2) as H3. pose proof (H (-2)) as H4.
  set (rho := eps * r4).
  assert (C3 : rho = 2 - eps * q * (c + 2)) by (unfold rho; lra).
  assert (C2 : M = eps * (q^2 + 2 * c * q^2 - 2 * k) + rho * q * (c + 2)) by (unfold rho; lra).
  assert (C1 : 2 * k + 2 * Y = eps * (c * q^3) + rho * (q^2 + 2 * c * q^2)) by (unfold rho; lra).
  assert (C0 : eps * k^2 + M * k = rho * c * q^3) by (unfold rho; lra).
  clearbody rho. clear H H0 H1 H2 H3 H4. subst M rho.
  assert (Ek : k = k / q^2 * q^2) by (field; assumption). set (t := k / q^2) in *. clearbody t. subst k.
  assert (D1 : dd c t * eps * q = om c t).
  { apply (Rmult_eq_reg_l (q^3)); [|apply pow_nonzero; assumption]. unfold dd, om. lra. }
  assert (EY : Y = (eps * (c * q^3) + (2 - eps * q * (c + 2)) * (q^2 + 2 * c * q^2)) / 2 - t * q^2) by lra.
  subst Y. clear C0 C1.
  assert (G : forall A Bb, A * dd c t + Bb * (dd c t * eps * q) = A * dd c t + Bb * om c t) by (intros; rewrite D1; ring).
  repeat split; [exact D1| |].
  - transitivity ((q^2 * (1 + 2*c) - t * q^2) * dd c t + (q^2 * c / 2 - q^2 * (c + 2) * (1 + 2*c) / 2) * (dd c t * eps * q)); [field|].
    rewrite G. unfold Yt, dd, om. field.
  - symmetry. 
    transitivity ((2 * q * (c + 2) - (q^2 * (1 + 2*c) - t * q^2) - B) * dd c t
       + (q * (1 + 2 * c - 2 * t) - q * (c + 2)^2 - (q^2 * c / 2 - q^2 * (c + 2) * (1 + 2*c) / 2)) * (dd c t * eps * q)); [field|].
    rewrite G. unfold Mt, dd, om. field.
Qed.

(** a double root at the periastron is a zero of the separatrix polynomial *)
Theorem C21_double_root_is_separatrix : forall a p e x E L Q r4,
  0 <= e < 1 -> 0 < p ->
  polar_polynomial a E L Q (1 - x^2) = 0 ->
  (forall r, radial_potential a E L Q r = (1 - E^2) * (p / (1 - e) - r) * (r - p / (1 + e))^2 * (r - r4)) ->
  S_full p a e x = 0.
Proof.
  intros a p e x E L Q r4 He Hp PP HF.
  assert (exists Y M, (M - Y - (a * x)^2)^2 = 4 * (a * x)^2 * (E^2 * Y) /\
    forall r, radial_potential a E L Q r = - (1 - E^2) * (r^2 + a^2 * (1 - x^2))^2
       + 2 * r * (r^2 + a^2 * (1 - x^2)) + 2 * Y * r - M * (r^2 + a^2 * (1 - x^2))) as (Y & M & HM & HR).
  { destruct (Req_EM_T x 0) as [->|Hx].
    - assert (L = 0).
      { unfold polar_polynomial in PP. assert (L^2 = 0) by lra.
        destruct (Req_EM_T L 0); [assumption|]. exfalso. revert H. now apply pow_nonzero. }
      subst L. exists (Q - a^2 * (1 - E^2)), (Q - a^2 * (1 - E^2)). split; [ring|].
      intros r. unfold radial_potential, Delta. ring.
    - set (y := L / x - a * x * E). exists (y^2), (y^2 + 2 * (a * x) * E * y + (a * x)^2). split; [ring|].
      assert (HQ : Q = (1 - x^2) * (a^2 * (1 - E^2) + (L / x)^2)).
      { apply (Rmult_eq_reg_r (x^2)); [|apply pow_nonzero; assumption].
        unfold polar_polynomial in PP. apply Rminus_diag_uniq. rewrite <- PP. field. assumption. }
      intros r. rewrite HQ. unfold y, radial_potential, Delta. field. assumption. }
  rewrite S_full_SS by lra.
  set (q := p / (1 + e)). assert (Hq : 0 < q) by (apply Rdiv_lt_0_compat; lra).
  assert (Eq1 : p / (1 - e) = cc e * q) by (unfold cc, q; field; lra).
  destruct (double_root_eqs (cc e) (a^2 * (1 - x^2)) q (1 - E^2) Y M r4 ((a * x)^2) ltac:(lra)) as (D1 & D2 & D3).
  { intros r. rewrite <- HR, HF, Eq1. reflexivity. }
  unfold SS, At. rewrite D3, <- D1, <- D2. set (d := dd (cc e) (a^2 * (1 - x^2) / q^2)).
  replace (d - d * (1 - E^2) * q / q) with (d * E^2) by (field; lra).
  transitivity ((p ^ 4 * (1 - e) ^ 2) ^ 2 * (d^2 * ((M - Y - (a*x)^2)^2 - 4 * (a*x)^2 * (E^2 * Y)))); [ring|].
  rewrite HM. ring.
Qed.

Section S.
Context {X : External R} (HX : root_spec X).

(** and the returned separatrix is one: the last stable orbit exists there, with its double root *)
Theorem C21_separatrix_is_last_stable : forall a e x s,
  0 <= a < 1 -> 0 <= e < 1 -> -1 <= x <= 1 -> separatrix a e x = Ret s ->
  exists E L Q r4, 0 < E < 1 /\ 0 <= Q /\
    (0 < x -> 0 < L) /\ (x < 0 -> L < 0) /\ (x = 0 -> L = 0) /\
    polar_polynomial a E L Q (1 - x^2) = 0 /\
    0 <= r4 < s / (1 + e) /\
    forall r, radial_potential a E L Q r = (1 - E^2) * (s / (1 - e) - r) * (r - s / (1 + e))^2 * (r - r4).
Proof.
  intros a e x s Ha He Hx Hs.
  destruct (separatrix_exact HX a e x s Ha He Hx Hs) as (Hq & D & C).
  pose proof (cc_ge e He) as Hc.
  assert (Eq1 : s / (1 - e) = cc e * (s / (1 + e))) by (unfold cc; field; lra). rewrite Eq1.
  assert (Hx2 : 0 <= x^2 <= 1) by nra. assert (Ha2 : 0 <= a^2 < 1) by nra.
  assert (Hk : 0 <= a^2 * (1 - x^2) < 1) by nra.
  assert (Hb2 : (a * x)^2 + a^2 * (1 - x^2) < 1) by nra.
  assert (Eb : a * x = a * x) by reflexivity.
  set (q := s / (1 + e)) in *. clearbody q. clear Eq1 Hs.
  set (c := cc e) in *. clearbody c.
  remember (a^2 * (1 - x^2)) as k eqn:Ek. remember (a * x) as b eqn:Eb'. clear Eb.
  pose proof (dom_dd _ _ D) as Hd. pose proof (dom_om _ _ D) as Hom. pose proof (dom_third _ _ D) as H3.
  pose proof D as [_ [Ht _]].
  pose proof (UU_pos c k q ltac:(lra) D) as HU. pose proof (VV_pos c k q ltac:(lra) D) as HV.
  pose proof (UU_gt1 c k q Hq D) as HU1.
  assert (U2 : sqrt (UU c k q) ^ 2 = UU c k q) by (apply pow2_sqrt; lra).
  assert (V2 : sqrt (VV c k q) ^ 2 = VV c k q) by (apply pow2_sqrt; lra).
  pose proof (sqrt_lt_R0 _ HV) as Hw.
  unfold bc in C.
  (* the critical constants *)
  set (t := k / q^2) in *.
  assert (Kt : k = t * q^2) by (unfold t; field; lra).
  set (Y := Yt c t q / dd c t). set (ee := 1 - om c t / dd c t / q).
  assert (HY : 0 < Y).
  { unfold Y, Yt. apply Rdiv_lt_0_compat; [|assumption].
    repeat apply Rmult_lt_0_compat; try (apply pow_lt); try lra. assert (0 < c^2) by (apply pow_lt; lra). lra. }
  assert (VY : Y * ee = VV c k q).
  { pose proof (AY_V c k q ltac:(lra) ltac:(fold t; lra)) as AY. fold t in AY.
    apply (Rmult_eq_reg_l (dd c t ^ 2)); [|apply pow_nonzero; lra]. rewrite <- AY.
    unfold Y, ee, At. field. lra. }
  assert (Hee : 0 < ee) by (apply (pos_factor ee Y); lra).
  assert (Hee1 : ee < 1) by (unfold ee; assert (0 < om c t / dd c t / q) by (apply Rdiv_lt_0_compat; [apply Rdiv_lt_0_compat|]; lra); lra).
  set (E := sqrt ee). set (y := sqrt Y).
  assert (E2 : E^2 = ee) by (apply pow2_sqrt; lra). assert (Y2 : y^2 = Y) by (apply pow2_sqrt; lra).
  assert (HE : 0 < E) by (apply sqrt_lt_R0; lra). assert (Hy : 0 < y) by (apply sqrt_lt_R0; lra).
  assert (HE1 : E < 1) by nra.
  assert (Ey : E * y = sqrt (VV c k q)).
  { rewrite <- VY. unfold E, y. rewrite Rmult_comm. symmetry. apply sqrt_mult_alt. lra. }
  assert (Crit : UU c k q - b^2 - VV c k q = 2 * b * (E * y)).
  { rewrite <- U2, <- V2, Ey. replace (sqrt (UU c k q)) with (b + sqrt (VV c k q)) by lra. ring. }
  assert (Hl : 0 < y + b * E).
  { destruct (Rle_dec 0 b) as [Kb|Kb]; [assert (0 <= b * E) by (apply Rmult_le_pos; lra); lra|].
    assert (- b < E * y) by lra.
    assert (E * y < y) by nra. assert (- b * E < - b) by nra. lra. }
  set (M := y^2 + 2 * b * E * y + b^2).
  assert (HM : Mt c t q (b^2) = dd c t * (M - Y - b^2)).
  { pose proof (Mt_UV c k q (b^2) ltac:(lra) ltac:(fold t; lra)) as MU. fold t in MU. rewrite MU.
    rewrite Crit. unfold M. rewrite Y2. ring. }
  assert (HM' : M = Mt c t q (b^2) / dd c t + Y + b^2) by (rewrite HM; field; lra).
  set (r4 := 2 * dd c t * q / om c t - (c + 2) * q).
  assert (HF : forall r, Rp k b E y r = (1 - E^2) * (c * q - r) * (r - q)^2 * (r - r4)).
  { intros r. unfold Rp. fold M. rewrite HM', E2, Y2.
    clearbody M E y. clear - Hq Hd Hom Kt Hc Ht. unfold ee, Y, r4. rewrite Kt. clearbody t. clear Kt.
    unfold Mt, Yt. 
    assert (Q : dd c t <> 0) by lra. assert (O : om c t <> 0) by lra. assert (Q1 : q <> 0) by lra.
    revert Q O. unfold dd, om. intros Q O. field. repeat split; try assumption; lra. }
  set (L := x * (y + b * E)). set (Q := (1 - x^2) * (a^2 * (1 - E^2) + (y + b * E)^2)).
  assert (HR : forall r, radial_potential a E L Q r = Rp k b E y r).
  { intros r. unfold radial_potential, Delta, Rp, L, Q. rewrite Ek, Eb'. ring. }
  assert (Q0 : 0 <= Q).
  { unfold Q. apply Rmult_le_pos; [lra|]. assert (0 <= (y + b * E)^2) by apply pow2_ge_0.
    assert (0 <= a^2 * (1 - E^2)) by (apply Rmult_le_pos; nra). lra. }
  exists E, L, Q, r4.
  refine (conj (conj HE HE1) (conj Q0 (conj _ (conj _ (conj _ (conj _ (conj _ _))))))).
  - intros K. unfold L. apply Rmult_lt_0_compat; lra.
  - intros K. unfold L. assert (0 < - x * (y + b * E)) by (apply Rmult_lt_0_compat; lra). lra.
  - intros ->. unfold L. ring.
  - unfold polar_polynomial, L, Q. ring.
  - split.
    + (* R(0) = - a^2 Q *)
      assert (R0 : - (a^2 * Q) = (1 - E^2) * (c * q - 0) * (0 - q)^2 * (0 - r4)).
      { rewrite <- HF, <- HR. unfold radial_potential, Delta. ring. }
      assert (K0 : (1 - E^2) * (c * q) * q^2 * r4 = a^2 * Q) by lra.
      assert (0 <= a^2 * Q) by (apply Rmult_le_pos; lra).
      assert (0 < (1 - E^2) * (c * q) * q^2).
      { apply Rmult_lt_0_compat; [apply Rmult_lt_0_compat; [nra|nra]|apply pow_lt; lra]. }
      apply Rnot_lt_le. intros K. nra.
    + unfold r4. apply Rminus_lt_0.
      replace (q - (2 * dd c t * q / om c t - (c + 2) * q)) with (q * (((c + 3) * om c t - 2 * dd c t) / om c t)) by (field; lra).
      apply Rmult_lt_0_compat; [lra|]. apply Rdiv_lt_0_compat; [|assumption].
      unfold om, dd. destruct D as [_ [_ Hv]]. unfold vg in Hv. fold t in Hv. nra.
  - intros r. rewrite HR. apply HF.
Qed.
End S.
