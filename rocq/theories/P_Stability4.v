(** * From the returned constants to the stability equations *)
From Coq Require Import Reals Lra ZArith String List Psatz.
From Coquelicot Require Import Coquelicot.
From Verif Require Import Num Outcome External Checked ExternalSpec Spec Model_Units Model_Constants
  P_Validation SepPoly Props_Separatrix P_Bounds P_Schmidt P_Constants Props_Constants
  P_Stability P_Stability2 P_Stability3.
Open Scope R_scope.

(** the radial potential in the variables of P_Stability2 *)
Definition Rp (k b E y r : R) : R :=
  (E^2 - 1) * (r^2 + k)^2 + 2 * r * (r^2 + k) + 2 * y^2 * r - (y^2 + 2 * b * E * y + b^2) * (r^2 + k).
Definition Rp' (k b E y r : R) : R :=
  (E^2 - 1) * (4 * r * (r^2 + k)) + 2 * (r^2 + k) + 4 * r^2 + 2 * y^2 - (y^2 + 2 * b * E * y + b^2) * (2 * r).

Lemma Rp_derive k b E y r : is_derive (Rp k b E y) r (Rp' k b E y r).
Proof. unfold Rp, Rp'. auto_derive; [exact I|ring]. Qed.

Lemma Rp_E1 c k q b E y : 1 < c -> 0 <= k -> 0 < q ->
  Rp k b E y (c * q) = 0 -> Rp k b E y q = 0 ->
  E^2 = al_ c q + be_ c (k / q^2) q * y^2.
Proof.
  intros Hc Hk Hq H1 H2.
  assert (Q2 : 0 < q^2) by (apply pow_lt; lra). assert (C2 : 0 < c^2) by (apply pow_lt; lra).
  assert (CQ : 0 < (c*q)^2) by (apply pow_lt, Rmult_lt_0_compat; lra).
  assert (D1 : 0 < q^2 + k) by lra. assert (D2 : 0 < (c*q)^2 + k) by lra.
  assert (K : (E^2 - (al_ c q + be_ c (k / q^2) q * y^2)) * ((c - 1) * (c + 1) * q^2) =
     Rp k b E y (c * q) / ((c*q)^2 + k) - Rp k b E y q / (q^2 + k)).
  { unfold al_, be_, mm_, Rp. field.
    repeat split; try lra; apply Rgt_not_eq; try lra; replace (c^2 * q^2 + k) with ((c*q)^2 + k) by ring; lra. }
  rewrite H1, H2 in K. unfold Rdiv in K. rewrite !Rmult_0_l, Rminus_0_r in K.
  apply Rmult_integral in K as [K|K]; [lra|].
  exfalso. assert (0 < (c - 1) * (c + 1) * q^2) by (repeat apply Rmult_lt_0_compat; lra). lra.
Qed.

Lemma Rp_E1_circ k q b E y : 0 <= k -> 0 < q ->
  Rp k b E y q = 0 -> Rp' k b E y q = 0 ->
  E^2 = al_ 1 q + be_ 1 (k / q^2) q * y^2.
Proof.
  intros Hk Hq H1 H2.
  assert (Q2 : 0 < q^2) by (apply pow_lt; lra). assert (D1 : 0 < q^2 + k) by lra.
  assert (K : (E^2 - (al_ 1 q + be_ 1 (k / q^2) q * y^2)) * (2 * q * (q^2 + k)^2) =
     Rp' k b E y q * (q^2 + k) - Rp k b E y q * (2 * q)).
  { unfold al_, be_, mm_, Rp, Rp'. field. repeat split; try lra. }
  rewrite H1, H2 in K. rewrite !Rmult_0_l, Rminus_0_r in K.
  apply Rmult_integral in K as [K|K]; [lra|].
  exfalso. assert (0 < 2 * q * (q^2 + k)^2) by (apply Rmult_lt_0_compat; [lra|apply pow_lt; lra]). lra.
Qed.

Lemma Rp_E2 c k q b E y : 1 <= c -> 0 <= k -> 0 < q ->
  Rp k b E y q = 0 -> E^2 = al_ c q + be_ c (k / q^2) q * y^2 ->
  P_ c (k / q^2) q b + W_ c (k / q^2) q * y^2 = 2 * b * (E * y).
Proof.
  intros Hc Hk Hq H1 H2. assert (C2 : 0 < c^2) by (apply pow_lt; lra).
  assert (Q2 : 0 < q^2) by (apply pow_lt; lra). assert (D1 : 0 < q^2 + k) by lra.
  assert (D2 : 0 < c^2 * q^2 + k) by (assert (0 < c^2 * q^2) by (apply Rmult_lt_0_compat; lra); lra).
  unfold Rp in H1. rewrite H2 in H1.
  apply (Rmult_eq_reg_l (q^2 + k)); [|lra]. apply Rminus_diag_uniq. rewrite <- H1.
  unfold P_, W_, al_, be_, mm_. field. repeat split; lra.
Qed.

(** the bracket that distinguishes the two branches *)
Lemma branch_bracket c k q b E y : 1 <= c -> 0 <= k -> 0 < q ->
  let t := k / q^2 in
  let al := al_ c q in let be := be_ c t q in let W := W_ c t q in
  E^2 = al + be * y^2 -> P_ c t q b + W * y^2 = 2 * b * (E * y) ->
  let D r := r^2 - 2 * r + (b^2 + k) in let S r := r^2 + k in
  D (c*q) * (y + b * E - 2 * y * (q / S q)) - D q * (y + b * E - 2 * y * (c * q / S (c*q))) =
  E * ((c*q)^2 - q^2) * (b * al + 2 * b * (be * y^2) - W * (E * y)).
Proof.
  intros Hc Hk Hq. cbv zeta. intros E1 E2.
  assert (C2 : 0 < c^2) by (apply pow_lt; lra).
  assert (Q2 : 0 < q^2) by (apply pow_lt; lra). assert (D1 : 0 < q^2 + k) by lra.
  assert (D2 : 0 < c^2 * q^2 + k) by (assert (0 < c^2 * q^2) by (apply Rmult_lt_0_compat; lra); lra).
  assert (B2 : b^2 = 2 * q * (c - k/q^2) / (c + 1) + W_ c (k/q^2) q * y^2 - 2 * (b * E) * y)
    by (unfold P_ in E2; lra).
  transitivity ((c*q)^2 * 0 + ((b * E) * ((c*q)^2 - q^2) * (al_ c q + 2 * (be_ c (k/q^2) q * y^2)) -
     ((c*q)^2 - q^2) * (W_ c (k/q^2) q * E^2 * y))); [|ring].
  rewrite E1. generalize dependent (b * E). intros z B2.
  rewrite B2. unfold W_, al_, be_, mm_. field.
  repeat split; lra.
Qed.

Lemma branch_bracket_circ k q b E y : 0 <= k -> 0 < q ->
  let t := k / q^2 in
  let al := al_ 1 q in let be := be_ 1 t q in let W := W_ 1 t q in
  E^2 = al + be * y^2 -> P_ 1 t q b + W * y^2 = 2 * b * (E * y) ->
  let D := q^2 - 2 * q + (b^2 + k) in let S := q^2 + k in
  (2 * q - 2) * (y + b * E - 2 * y * (q / S)) + D * (2 * y * ((k - q^2) / S^2)) =
  E * (2 * q) * (b * al + 2 * b * (be * y^2) - W * (E * y)).
Proof.
  intros Hk Hq. cbv zeta. intros E1 E2.
  assert (Q2 : 0 < q^2) by (apply pow_lt; lra). assert (D1 : 0 < q^2 + k) by lra.
  assert (B2 : b^2 = 2 * q * (1 - k/q^2) / (1 + 1) + W_ 1 (k/q^2) q * y^2 - 2 * (b * E) * y)
    by (unfold P_ in E2; lra).
  transitivity ((b * E) * (2*q) * (al_ 1 q + 2 * (be_ 1 (k/q^2) q * y^2)) -
     (2*q) * (W_ 1 (k/q^2) q * E^2 * y)); [|ring].
  rewrite E1. generalize dependent (b * E). intros z B2.
  rewrite B2. unfold W_, al_, be_, mm_. field. repeat split; try lra.
Qed.

Lemma polar_W c k q e : 0 <= e < 1 -> c = cc e -> 0 <= k < 1 -> 26/5 < q * (1 + e) -> W_ c (k / q^2) q < 0.
Proof.
  intros He -> Hk Hp.
  assert (Hq : 13/5 < q) by nra.
  assert (Q2 : 0 < q^2) by (apply pow_lt; lra).
  assert (T : 0 <= k / q^2) by (apply Rmult_le_pos; [lra|left; apply Rinv_0_lt_compat; lra]).
  pose proof (cc_ge e He) as Hc.
  assert (Ec : e = (cc e - 1) / (cc e + 1)).
  { unfold cc. field. lra. }
  set (c := cc e) in *. clearbody c. set (t := k / q^2) in *. clearbody t.
  assert (Hqc : 13/5 * (c + 1) < q * c).
  { rewrite Ec in Hp. replace (q * (1 + (c - 1) / (c + 1))) with (2 * (q * c) / (c + 1)) in Hp by (field; lra).
    apply (Rlt_div_r (26/5) (2 * (q*c)) (c + 1)) in Hp; lra. }
  assert (A1 : 2 / (1 + t) <= 2) by (apply (Rle_div_l 2 2 (1 + t)); lra).
  assert (A2 : 2 * (c - t) / ((c^2 + t) * (c + 1)) <= 2 / (c * (c + 1))).
  { apply (Rle_div_l (2 * (c - t)) (2 / (c * (c + 1))) ((c^2 + t) * (c + 1))); [nra|].
    replace (2 / (c * (c + 1)) * ((c^2 + t) * (c + 1))) with (2 * (c + t / c)) by (field; lra).
    assert (0 <= t / c) by (apply Rmult_le_pos; [lra|left; apply Rinv_0_lt_compat; lra]). lra. }
  assert (A3 : 2 + 2 / (c * (c + 1)) < q).
  { apply (Rmult_lt_reg_r (c * (c + 1))); [nra|].
    replace ((2 + 2 / (c * (c + 1))) * (c * (c + 1))) with (2 * (c * (c + 1)) + 2) by (field; lra).
    nra. }
  unfold W_. assert ((2 / (1 + t) + 2 * (c - t) / ((c ^ 2 + t) * (c + 1))) / q < 1); [|lra].
  apply (Rlt_div_l _ 1 q); lra.
Qed.

Section S.
Context {X : External R} (HX : root_spec X).

Lemma orbit_equations a p e x E L Q : 0 <= a -> e < 1 ->
  constants_of_motion (Some a) (Some p) (Some e) (Some x) = Ret (Some E, Some L, Some Q) ->
  let c := cc e in let q := p / (1 + e) in let k := a^2 * (1 - x^2) in let b := a * x in let t := k / q^2 in
  exists y,
    (forall r, radial_potential a E L Q r = Rp k b E y r) /\
    Q = (1 - x^2) * (a^2 * (1 - E^2) + (y + b * E)^2) /\
    L = x * (y + b * E) /\
    E^2 = al_ c q + be_ c t q * y^2 /\
    P_ c t q b + W_ c t q * y^2 = 2 * b * (E * y) /\
    (b <= 0 -> 0 <= y) /\
    (0 < b -> 0 <= b * al_ c q + 2 * b * (be_ c t q * y^2) - W_ c t q * (E * y)) /\ 0 < E.
Proof.
  intros Ha He1 H0. cbv zeta.
  pose proof (constants_correct HX a p e x E L Q Ha H0) as CC.
  destruct CC as (R1 & R2 & R3 & _ & PP & L1 & L2 & L3 & EP). specialize (R1 He1).
  pose proof H0 as H. apply constants_inv in H as [HC _]; [|assumption].
  destruct (accepted_bounds HX a p e x Ha HC) as [Ha1 [He [Hx [Hr [HD [Hp _]]]]]].
  assert (Hx2 : 0 <= x^2 <= 1) by nra. assert (Ha2 : 0 <= a^2 < 1) by nra.
  assert (Hk : 0 <= a^2 * (1 - x^2) < 1) by nra.
  pose proof (cc_ge e ltac:(lra)) as Hc.
  assert (Eq1 : p / (1 - e) = cc e * (p / (1 + e))) by (unfold cc; field; lra).
  rewrite Eq1 in R1.
  assert (COM : forall y, (forall r, radial_potential a E L Q r = Rp (a^2 * (1 - x^2)) (a * x) E y r) ->
     E^2 = al_ (cc e) (p / (1 + e)) + be_ (cc e) (a^2 * (1 - x^2) / (p / (1 + e))^2) (p / (1 + e)) * y^2 /\
     P_ (cc e) (a^2 * (1 - x^2) / (p / (1 + e))^2) (p / (1 + e)) (a * x) +
       W_ (cc e) (a^2 * (1 - x^2) / (p / (1 + e))^2) (p / (1 + e)) * y^2 = 2 * (a * x) * (E * y)).
  { intros y HR. rewrite HR in R1, R2.
    assert (E1 : E^2 = al_ (cc e) (p / (1 + e)) + be_ (cc e) (a^2 * (1 - x^2) / (p / (1 + e))^2) (p / (1 + e)) * y^2).
    { destruct (Req_EM_T e 0) as [->|He0].
      - assert (C1 : cc 0 = 1) by (unfold cc; field). rewrite C1. specialize (R3 eq_refl).
        replace (p / (1 + 0)) with p in * by field.
        apply Rp_E1_circ with (b := a * x); try lra.
        apply (is_derive_ext _ (Rp (a^2 * (1 - x^2)) (a * x) E y)) in R3; [|exact HR].
        rewrite <- (is_derive_unique _ _ _ (Rp_derive _ _ _ _ _)). now apply is_derive_unique.
      - assert (1 < cc e) by (unfold cc; apply (Rlt_div_r 1 (1 + e) (1 - e)); lra).
        apply Rp_E1 with (b := a * x); lra. }
    split; [exact E1|]. apply Rp_E2; lra. }
  destruct (Req_EM_T x 0) as [->|Hx0].
  - (* polar *)
    specialize (Hp ltac:(lra)). rewrite L3 in * by reflexivity.
    assert (QY : 0 < Q - a^2 * (1 - E^2)).
    { assert (RG : forall Y r, Y = Q - a^2 * (1 - E^2) -> radial_potential a E 0 Q r =
         (E^2 - 1) * (r^2 + a^2 * (1 - 0^2))^2 + 2 * r * (r^2 + a^2 * (1 - 0^2)) + 2 * Y * r - Y * (r^2 + a^2 * (1 - 0^2))).
      { intros Y r ->. unfold radial_potential, Delta. ring. }
      (* the equations are linear in Y *)
      destruct (Rle_dec (Q - a^2 * (1 - E^2)) 0) as [K|K]; [exfalso|lra].
      set (q := p / (1 + e)) in *.
      assert (Q2 : 0 < q^2) by (apply pow_lt; lra). set (k := a^2 * (1 - 0^2)) in *.
      assert (Hw : W_ (cc e) (k / q^2) q < 0).
      { apply polar_W with (e := e); try lra. unfold q. replace (p / (1 + e) * (1 + e)) with p by (field; lra). lra. }
      set (Y := Q - a^2 * (1 - E^2)) in *.
      assert (T : 0 <= k / q^2 < 1).
      { split; [apply Rmult_le_pos; [lra|left; apply Rinv_0_lt_compat; lra]|]. apply Rlt_div_l; nra. }
      assert (HP : 0 < P_ (cc e) (k / q^2) q 0).
      { unfold P_. assert (0 < 2 * q * (cc e - k / q^2) / (cc e + 1)); [|lra].
        apply Rdiv_lt_0_compat; [apply Rmult_lt_0_compat|]; lra. }
      assert (E2 : P_ (cc e) (k / q^2) q 0 + W_ (cc e) (k / q^2) q * Y = 0); [|nra].
      assert (C2 : 0 < cc e ^ 2) by (apply pow_lt; lra).
      assert (D1 : 0 < q^2 + k) by lra.
      assert (D2 : 0 < cc e^2 * q^2 + k) by (assert (0 < cc e^2 * q^2) by (apply Rmult_lt_0_compat; lra); lra).
      assert (E1 : E^2 = al_ (cc e) q + be_ (cc e) (k / q^2) q * Y).
      { destruct (Req_EM_T e 0) as [->|He0].
        - assert (C1 : cc 0 = 1) by (unfold cc; field). rewrite C1 in *. specialize (R3 eq_refl).
          assert (Eqp : q = p) by (unfold q; field). rewrite <- Eqp in R3.
          apply (is_derive_ext _ (fun r => (E^2 - 1) * (r^2 + k)^2 + 2 * r * (r^2 + k) + 2 * Y * r - Y * (r^2 + k))) in R3;
            [|intros; now apply RG].
          assert (R3' : (E^2 - 1) * (4 * q * (q^2 + k)) + 2 * (q^2 + k) + 4 * q^2 + 2 * Y - Y * (2 * q) = 0).
          { rewrite <- (is_derive_unique _ _ _ R3). symmetry. apply is_derive_unique. auto_derive; [exact I|ring]. }
          rewrite (RG Y) in R2 by reflexivity. fold k in R2.
          apply Rminus_diag_uniq. apply (Rmult_eq_reg_r (2 * q * (q^2 + k)^2)).
          2:{ apply Rgt_not_eq. apply Rmult_lt_0_compat; [lra|apply pow_lt; lra]. }
          rewrite Rmult_0_l.
          match type of R3' with ?u = 0 => match type of R2 with ?v = 0 =>
            transitivity (u * (q^2 + k) - v * (2 * q)); [|rewrite R3', R2; ring] end end.
          clear R3' R2. unfold al_, be_, mm_. field. repeat split; lra.
        - assert (C1 : 1 < cc e) by (unfold cc; apply (Rlt_div_r 1 (1 + e) (1 - e)); lra).
          rewrite (RG Y) in R1, R2 by reflexivity. fold k in R1, R2.
          clearbody Y k. clear Eq1. clearbody q. set (c := cc e) in *. clearbody c.
          apply Rminus_diag_uniq. apply (Rmult_eq_reg_r ((c - 1) * (c + 1) * q^2)).
          2:{ apply Rgt_not_eq. repeat apply Rmult_lt_0_compat; lra. }
          rewrite Rmult_0_l.
          match type of R1 with ?u = 0 => match type of R2 with ?v = 0 =>
            transitivity (u / ((c*q)^2 + k) - v / (q^2 + k)); [|rewrite R1, R2; unfold Rdiv; ring] end end.
          clear R1 R2. unfold al_, be_, mm_. field. repeat split; lra. }
      rewrite (RG Y) in R2 by reflexivity. fold k in R2.
      apply (Rmult_eq_reg_l (q^2 + k)); [|lra]. apply Rminus_diag_uniq. rewrite Rmult_0_r, Rminus_0_r.
      rewrite E1 in R2. refine (eq_trans _ R2). clear - C2 D1 D2 Q2 Hc Hr. clearbody Y k q. set (c := cc e) in *. clearbody c.
      unfold P_, W_, al_, be_, mm_. field. repeat split; lra. }
    exists (sqrt (Q - a^2 * (1 - E^2))).
    assert (Y2 : sqrt (Q - a^2 * (1 - E^2)) ^ 2 = Q - a^2 * (1 - E^2)) by (apply pow2_sqrt; lra).
    assert (HR : forall r, radial_potential a E 0 Q r = Rp (a^2 * (1 - 0^2)) (a * 0) E (sqrt (Q - a^2 * (1 - E^2))) r).
    { intros r. unfold Rp. rewrite Y2. unfold radial_potential, Delta. ring. }
    destruct (COM _ HR) as [F1 F2].
    refine (conj HR (conj _ (conj _ (conj F1 (conj F2 (conj _ (conj _ EP))))))).
    + transitivity (a^2 * (1 - E^2) + sqrt (Q - a^2 * (1 - E^2)) ^ 2); [rewrite Y2; ring|ring].
    + ring.
    + intros _. apply sqrt_pos.
    + intros K. lra.
  - exists (L / x - a * x * E).
    assert (HQ : Q = (1 - x^2) * (a^2 * (1 - E^2) + (L / x)^2)).
    { apply (Rmult_eq_reg_r (x^2)); [|apply pow_nonzero; assumption].
      unfold polar_polynomial in PP. apply Rminus_diag_uniq. rewrite <- PP. field. assumption. }
    assert (HR : forall r, radial_potential a E L Q r = Rp (a^2 * (1 - x^2)) (a * x) E (L / x - a * x * E) r).
    { intros r. rewrite HQ. unfold Rp, radial_potential, Delta. field. assumption. }
    destruct (COM _ HR) as [F1 F2].
    refine (conj HR (conj _ (conj _ (conj F1 (conj F2 (conj _ (conj _ EP))))))).
    + rewrite HQ. f_equal. f_equal. f_equal. ring.
    + field. assumption.
    + intros K. assert (0 < L / x).
      { destruct (Rtotal_order x 0) as [Kx|[Kx|Kx]]; [|contradiction|].
        - replace (L / x) with ((- L) / (- x)) by (field; assumption). specialize (L2 Kx). apply Rdiv_lt_0_compat; lra.
        - apply Rdiv_lt_0_compat; auto. }
      assert (0 <= - (a * x) * E) by (apply Rmult_le_pos; lra). lra.
    + intros K. assert (Ha0 : 0 < a) by (destruct Ha as [Ha|Ha]; [assumption|rewrite <- Ha in K; lra]).
      assert (Kx : 0 < x) by (apply (pos_factor x a); assumption).
      destruct (nonpolar_branch HX a p e x E L Q Ha Hx0 H0) as [_ [B1 B2]].
      rewrite Rsgn_pos in B1, B2 by assumption.
      set (q := p / (1 + e)) in *. set (k := a^2 * (1 - x^2)) in *.
      assert (Q2 : 0 < q^2) by (apply pow_lt; lra).
      assert (D1 : 0 < q^2 + k) by lra.
      destruct (Req_EM_T e 0) as [->|He0].
      * assert (C1 : cc 0 = 1) by (unfold cc; field). rewrite C1 in *.
        assert (Eqp : q = p) by (unfold q; field). clearbody q. subst q.
        specialize (B2 Ha0 eq_refl). cbv zeta in B2.
        pose proof (branch_bracket_circ k p (a * x) E (L / x - a * x * E) ltac:(lra) ltac:(lra)) as BB. cbv zeta in BB.
        specialize (BB F1 F2).
        set (J := a * x * al_ 1 p + 2 * (a * x) * (be_ 1 (k / p^2) p * (L / x - a * x * E)^2) -
           W_ 1 (k / p^2) p * (E * (L / x - a * x * E))) in *.
        clearbody J.
        assert (JJ : - ((p^2 + k)^2 / x) * (E * (2 * p) * J) = 1 *
          ((cd a (x^2) p * cg' a - cg a p * cd' a (x^2) p) * E + (cd a (x^2) p * ch' (x^2) p - ch a (x^2) p * cd' a (x^2) p) * L)).
        { rewrite <- BB. unfold cd, cd', cg, cg', ch, ch', k in *. field. repeat split; lra. }
        rewrite <- JJ in B2. left.
        apply (pos_factor J ((p^2 + k)^2 / x * (E * (2 * p)))); [|lra].
        apply Rmult_lt_0_compat; [apply Rdiv_lt_0_compat; [apply pow_lt; lra|assumption]|].
        apply Rmult_lt_0_compat; lra.
      * specialize (B1 Ha0 ltac:(lra)). cbv zeta in B1. rewrite Eq1 in B1. fold q in B1.
        assert (C1 : 1 < cc e) by (unfold cc; apply (Rlt_div_r 1 (1 + e) (1 - e)); lra).
        pose proof (branch_bracket (cc e) k q (a * x) E (L / x - a * x * E) ltac:(lra) ltac:(lra) ltac:(lra)) as BB. cbv zeta in BB.
        specialize (BB F1 F2). clear B2 R1 R2 R3 Eq1 COM HR. clearbody q. set (c := cc e) in *. clearbody c.
        set (J := a * x * al_ c q + 2 * (a * x) * (be_ c (k / q^2) q * (L / x - a * x * E)^2) -
           W_ c (k / q^2) q * (E * (L / x - a * x * E))) in *.
        clearbody J.
        assert (CQ : 0 < (c*q)^2) by (apply pow_lt, Rmult_lt_0_compat; lra).
        assert (D2 : 0 < (c*q)^2 + k) by lra.
        assert (JJ : (q^2 + k) * ((c*q)^2 + k) / x * (E * ((c*q)^2 - q^2) * J) = 1 *
          ((cd a (x^2) (c*q) * cg a q - cg a (c*q) * cd a (x^2) q) * E
            + (cd a (x^2) (c*q) * ch a (x^2) q - ch a (x^2) (c*q) * cd a (x^2) q) * L)).
        { rewrite <- BB. unfold cd, cg, ch, k in *. field. repeat split; lra. }
        rewrite <- JJ in B1. left.
        apply (pos_factor J ((q^2 + k) * ((c*q)^2 + k) / x * (E * ((c*q)^2 - q^2)))); [|lra].
        apply Rmult_lt_0_compat; [apply Rdiv_lt_0_compat; [apply Rmult_lt_0_compat; lra|assumption]|].
        apply Rmult_lt_0_compat; [lra|]. assert (q < c * q) by nra. nra.
Qed.
End S.
