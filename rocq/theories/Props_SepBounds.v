(** * C108: bounds on the separatrix that hold for every spin and inclination *)
From Coq Require Import Reals Lra Lia ZArith String List.
From Coquelicot Require Import Coquelicot.
From Verif Require Import Num Outcome External Checked ExternalSpec Spec Model_Constants.
From Verif Require Import P_Validation SepPoly Props_Separatrix P_Bounds P_Constants P_Stability P_Stability3 P_Stability5 P_Continuity Props_Continuity.
From Verif Require Import Props_Stability Props_SepContinuity P_SepIncl Props_SepIncl P_SepEcc Props_SepEcc.
Open Scope R_scope.

(** positivity of the root determines [yy] *)
Lemma yy_unique c q t y : dom c t -> 1 < q -> 0 <= y -> y^2 + 2 * eta c t * y = (q - 1) * ((1 + t) / (1 - t)) * eta c t -> yy c q t = y.
Proof.
  intros H Q Y E. pose proof (yy_pos c q t H Q) as P. pose proof (yy_eq c q t H Q) as E'. pose proof (eta_pos c t H) as E0. set (z := yy c q t) in *.
  assert (Z : (z - y) * (z + y + 2 * eta c t) = 0) by (rewrite <- E in E'; lra). apply Rmult_integral in Z as [Z|Z]; lra.
Qed.
Lemma dom0 c : 1 <= c -> dom c 0.
Proof. intros C. refine (conj C (conj _ _)); [lra|]. unfold vg. nra. Qed.
Lemma eta0 c : 1 <= c -> eta c 0 = c / (c + 2).
Proof. intros C. unfold eta, dd. field. split; nra. Qed.

(** the equatorial value at the retrograde extremal limit *)
Lemma bc_retrograde c z : 1 <= c -> 1 < z -> c * z^2 - 2 * c * z - (c + 2) = 0 -> bc c 0 (z^2) = -1.
Proof.
  intros C Z E. assert (Q : 1 < z^2) by nra. assert (T : 0 / (z^2)^2 = 0) by (unfold Rdiv; ring).
  rewrite bc_yy; [|exact Q|rewrite T; apply dom0; exact C]. rewrite T, sqrt_pow2 by lra.
  rewrite (yy_unique c (z^2) 0 (1 + 1 / z)).
  - rewrite Rminus_0_r, sqrt_1. field. lra.
  - apply dom0; exact C.
  - exact Q.
  - assert (0 < 1 / z) by (apply Rdiv_lt_0_compat; lra). lra.
  - rewrite eta0 by exact C. replace ((1 + 0) / (1 - 0)) with 1 by field.
    assert (C2 : 2 = c * z^2 - 2 * c * z - c) by lra.
    assert (G : (1 + 1 / z)^2 + 2 * (c / (c + 2)) * (1 + 1 / z) - (z^2 - 1) * 1 * (c / (c + 2)) = 0); [|lra].
    replace ((1 + 1 / z)^2 + 2 * (c / (c + 2)) * (1 + 1 / z) - (z^2 - 1) * 1 * (c / (c + 2)))
      with (- ((z + 1)^2 * (c * z^2 - 2 * c * z - (c + 2)) / (z^2 * (c + 2)))) by (field; lra).
    rewrite E. field. lra.
Qed.

Section S.
Context {X : External R} (HR : root_spec X).

Lemma retrograde_bound a e s : 0 <= a < 1 -> 0 <= e < 1 -> separatrix (Some a) (Some e) (Some (-1)) = Ret (Some s) ->
  s < 5 + e + 4 * sqrt (1 + e).
Proof.
  intros Ha He H. destruct (sep_facts HR a e (-1) s Ha He ltac:(lra) H) as (Q & D & B).
  replace (a^2 * (1 - (-1)^2)) with 0 in D, B by ring.
  assert (R1 : 1 <= sqrt (1 + e)). { rewrite <- sqrt_1 at 1. apply sqrt_le_1_alt. lra. }
  assert (R2 : sqrt (1 + e) * sqrt (1 + e) = 1 + e) by (apply sqrt_sqrt; lra). set (w := sqrt (1 + e)) in *.
  destruct (ecc_cc e He) as (_ & C).
  set (z := 1 + 2 / w). assert (W2 : 0 < 2 / w) by (apply Rdiv_lt_0_compat; lra).
  assert (ZE : cc e * z^2 - 2 * cc e * z - (cc e + 2) = 0).
  { unfold z, cc. assert (EE : e = w * w - 1) by lra. clearbody w. subst e. field. split; lra. }
  pose proof (bc_retrograde (cc e) z C ltac:(unfold z; lra) ZE) as BR.
  assert (SZ : (1 + e) * z^2 = 5 + e + 4 * w). { unfold z. rewrite <- R2. replace (5 + e) with (4 + w * w) by lra. field. lra. }
  rewrite <- SZ. assert (SQ : s = (1 + e) * (s / (1 + e))) by (field; lra). rewrite SQ. apply Rmult_lt_compat_l; [lra|].
  apply Rnot_le_lt. intros N. assert (Z1 : 1 < z^2) by (unfold z; nra).
  destruct N as [N|N].
  - assert (D0 : dom (cc e) (0 / (z^2)^2)) by (replace (0 / (z^2)^2) with 0 by (unfold Rdiv; ring); apply dom0; exact C).
    pose proof (bc_decreases (cc e) 0 (z^2) (s / (1 + e)) ltac:(lra) (conj Z1 N) D0). lra.
  - rewrite <- N in B. lra.
Qed.

Lemma polar_bound a e s : 0 < a < 1 -> 0 <= e < 1 -> separatrix (Some a) (Some e) (Some 0) = Ret (Some s) -> s < 6 + 2 * e.
Proof.
  intros Ha He H. destruct (sep_facts HR a e 0 s ltac:(lra) He ltac:(lra) H) as (Q & D & B).
  replace (a^2 * (1 - 0^2)) with (a^2) in D, B by ring. destruct (ecc_cc e He) as (_ & C). set (c := cc e) in *.
  set (q6 := 4 + 2 / c). assert (C0 : 0 < 2 / c) by (apply Rdiv_lt_0_compat; lra).
  assert (SQ : 6 + 2 * e = (1 + e) * q6). { unfold q6, c, cc. field. split; lra. }
  rewrite SQ. assert (SQ' : s = (1 + e) * (s / (1 + e))) by (field; lra). rewrite SQ'. apply Rmult_lt_compat_l; [lra|].
  apply Rnot_le_lt. intros N.
  assert (A2 : 0 < a^2 < 1) by nra. assert (Q6 : 16 < q6^2) by (unfold q6; nra).
  assert (Q61 : 1 < q6) by (unfold q6; lra).
  set (t := a^2 / q6^2). assert (T : 0 < t < 1 / 16).
  { unfold t. split; [apply Rdiv_lt_0_compat; lra|]. apply (Rmult_lt_reg_r (q6^2)); [lra|]. replace (a^2 / q6^2 * q6^2) with (a^2) by (field; unfold q6; lra). lra. }
  assert (D6 : dom c t). { refine (conj C (conj _ _)); [lra|]. unfold vg. nra. }
  assert (B6 : bc c (a^2) q6 < 0).
  { rewrite bc_yy; [|unfold q6; lra|exact D6]. fold t.
    assert (Y0 : yy c q6 0 = 1).
    { apply yy_unique; [apply dom0; exact C | unfold q6; lra | lra |]. rewrite eta0 by exact C. unfold q6. field. split; lra. }
    pose proof (yy_incr c q6 0 t ltac:(unfold q6; lra) ltac:(lra) D6) as YI. rewrite Y0 in YI.
    assert (0 < sqrt q6 * sqrt (1 - t)) by (apply Rmult_lt_0_compat; apply sqrt_lt_R0; [unfold q6; lra | lra]). nra. }
  destruct N as [N|N].
  - pose proof (bc_decreases c (a^2) q6 (s / (1 + e)) ltac:(lra) (conj Q61 N) D6). lra.
  - rewrite <- N in B. lra.
Qed.

(** ** C108: for every spin 0 <= a < 1 and every inclination *)
Theorem C108_separatrix_between_extremal_limits a e x s : 0 <= a < 1 -> 0 <= e < 1 -> -1 <= x <= 1 ->
  separatrix (Some a) (Some e) (Some x) = Ret (Some s) -> 1 + e < s < 5 + e + 4 * sqrt (1 + e).
Proof.
  intros Ha He Hx H. split.
  - destruct (sep_facts HR a e x s Ha He Hx H) as (Q & _ & _). assert (s = (1 + e) * (s / (1 + e))) by (field; lra). nra.
  - destruct (C19_separatrix_total HR a e (-1) ltac:(lra) ltac:(lra) ltac:(lra)) as (sr & HRr & _).
    pose proof (retrograde_bound a e sr Ha He HRr) as BR.
    destruct (Req_dec x (-1)) as [-> |NX]; [congruence|].
    destruct (Req_dec a 0) as [-> |NA].
    + rewrite (proj1 (C18_schwarzschild_separatrix e x 0 ltac:(lra) ltac:(lra))) in H. rewrite (proj1 (C18_schwarzschild_separatrix e (-1) 0 ltac:(lra) ltac:(lra))) in HRr. congruence.
    + pose proof (C106_separatrix_decreases_with_inclination HR a e (-1) x sr s ltac:(lra) He ltac:(lra) ltac:(lra) ltac:(lra) HRr H). lra.
Qed.

(** rotation helps every polar or prograde orbit, and harms the retrograde equatorial ones *)
Theorem C108_prograde_below_schwarzschild a e x s : 0 < a < 1 -> 0 <= e < 1 -> 0 <= x <= 1 ->
  separatrix (Some a) (Some e) (Some x) = Ret (Some s) -> s < 6 + 2 * e.
Proof.
  intros Ha He Hx H. destruct (Req_dec x 0) as [-> |NX]; [apply (polar_bound a); assumption|].
  destruct (C19_separatrix_total HR a e 0 ltac:(lra) ltac:(lra) ltac:(lra)) as (s0 & H0 & _).
  pose proof (polar_bound a e s0 Ha He H0).
  pose proof (C106_separatrix_decreases_with_inclination HR a e 0 x s0 s Ha He ltac:(lra) ltac:(lra) ltac:(lra) H0 H). lra.
Qed.

Theorem C108_always_stable a p e x : 0 <= a < 1 -> 0 <= e < 1 -> -1 <= x <= 1 -> 5 + e + 4 * sqrt (1 + e) <= p ->
  is_stable (Some a) (Some p) (Some e) (Some x) = Ret true.
Proof.
  intros Ha He Hx Hp. destruct (C22_is_stable_above_separatrix HR a e x Ha ltac:(lra) ltac:(lra)) as (s & Hs & K). rewrite K.
  pose proof (C108_separatrix_between_extremal_limits a e x s Ha He Hx Hs). destruct (Rlt_dec s p); [reflexivity | lra].
Qed.
Theorem C108_never_stable a p e x : 0 <= a < 1 -> 0 <= e < 1 -> -1 <= x <= 1 -> p <= 1 + e ->
  is_stable (Some a) (Some p) (Some e) (Some x) = Ret false.
Proof.
  intros Ha He Hx Hp. destruct (C22_is_stable_above_separatrix HR a e x Ha ltac:(lra) ltac:(lra)) as (s & Hs & K). rewrite K.
  pose proof (C108_separatrix_between_extremal_limits a e x s Ha He Hx Hs). destruct (Rlt_dec s p); [lra | reflexivity].
Qed.
Theorem C108_always_stable_prograde a p e x : 0 <= a < 1 -> 0 <= e < 1 -> 0 <= x <= 1 -> 6 + 2 * e < p ->
  is_stable (Some a) (Some p) (Some e) (Some x) = Ret true.
Proof.
  intros Ha He Hx Hp. destruct (C22_is_stable_above_separatrix HR a e x Ha ltac:(lra) ltac:(lra)) as (s & Hs & K). rewrite K.
  assert (s <= 6 + 2 * e).
  { destruct (Req_dec a 0) as [-> |NA].
    - rewrite (proj1 (C18_schwarzschild_separatrix e x 0 ltac:(lra) ltac:(lra))) in Hs. injection Hs as <-. lra.
    - pose proof (C108_prograde_below_schwarzschild a e x s ltac:(lra) He Hx Hs). lra. }
  destruct (Rlt_dec s p); [reflexivity | lra].
Qed.

(** p = 12 suffices for every spin, eccentricity and inclination *)
Corollary C108_twelve_is_enough a p e x : 0 <= a < 1 -> 0 <= e < 1 -> -1 <= x <= 1 -> 12 <= p ->
  is_stable (Some a) (Some p) (Some e) (Some x) = Ret true.
Proof.
  intros Ha He Hx Hp. apply C108_always_stable; try assumption.
  assert (sqrt (1 + e) <= 3 / 2). { rewrite <- (sqrt_pow2 (3/2)) by lra. apply sqrt_le_1_alt. lra. } lra.
Qed.

(** the upper bound is attained in the limit: below it some spin is refused *)
Theorem C108_upper_bound_sharp e p : 0 <= e < 1 -> 6 + 2 * e < p < 5 + e + 4 * sqrt (1 + e) ->
  exists a, 0 < a < 1 /\ is_stable (Some a) (Some p) (Some e) (Some (-1)) = Ret false.
Proof.
  intros He Hp. destruct (ecc_cc e He) as (_ & C). set (c := cc e) in *.
  assert (R1 : 1 <= sqrt (1 + e)). { rewrite <- sqrt_1 at 1. apply sqrt_le_1_alt. lra. }
  assert (R2 : sqrt (1 + e) * sqrt (1 + e) = 1 + e) by (apply sqrt_sqrt; lra). set (w := sqrt (1 + e)) in *.
  set (z := 1 + 2 / w). assert (W2 : 0 < 2 / w) by (apply Rdiv_lt_0_compat; lra).
  assert (ZE : c * z^2 - 2 * c * z - (c + 2) = 0).
  { unfold z, c, cc. assert (EE : e = w * w - 1) by lra. clearbody w. clear - EE R1 He. subst e. field. split; lra. }
  pose proof (bc_retrograde c z C ltac:(unfold z; lra) ZE) as BR.
  assert (SZ : (1 + e) * z^2 = 5 + e + 4 * w). { unfold z. rewrite <- R2. replace (5 + e) with (4 + w * w) by lra. field. lra. }
  set (q6 := 4 + 2 / c). assert (C0 : 0 < 2 / c) by (apply Rdiv_lt_0_compat; lra).
  assert (SQ : 6 + 2 * e = (1 + e) * q6). { unfold q6, c, cc. field. split; lra. }
  set (q := p / (1 + e)). assert (PQ : p = (1 + e) * q) by (unfold q; field; lra).
  assert (Q6 : q6 < q) by (apply (Rmult_lt_reg_l (1 + e)); lra). assert (QZ : q < z^2) by (apply (Rmult_lt_reg_l (1 + e)); lra).
  assert (Q61 : 1 < q6) by (unfold q6; lra).
  assert (D0 : forall u, dom c (0 / u^2)) by (intros u; replace (0 / u^2) with 0 by (unfold Rdiv; ring); apply dom0; exact C).
  assert (B6 : bc c 0 q6 = 0).
  { rewrite bc_yy by (try apply D0; lra). replace (0 / q6^2) with 0 by (unfold Rdiv; ring).
    rewrite (yy_unique c q6 0 1); [ring | apply dom0; exact C | lra | lra |]. rewrite eta0 by exact C. unfold q6. field. split; lra. }
  pose proof (bc_decreases c 0 q6 q ltac:(lra) (conj Q61 Q6) (D0 q6)) as L1. pose proof (bc_decreases c 0 q (z^2) ltac:(lra) (conj (Rlt_trans _ _ _ Q61 Q6) QZ) (D0 q)) as L2.
  set (a := - bc c 0 q). assert (A : 0 < a < 1) by (unfold a; lra). exists a. split; [exact A|].
  destruct (C22_is_stable_above_separatrix HR a e (-1) ltac:(lra) ltac:(lra) ltac:(lra)) as (s & Hs & K). rewrite K.
  destruct (Rlt_dec s p) as [L|L]; [exfalso | reflexivity].
  destruct (sep_facts HR a e (-1) s ltac:(lra) He ltac:(lra) Hs) as (Q & D & B). fold c in D, B. replace (a^2 * (1 - (-1)^2)) with 0 in D, B by ring.
  assert (SL : s / (1 + e) < q). { unfold q. apply Rmult_lt_compat_r; [apply Rinv_0_lt_compat; lra | exact L]. }
  pose proof (bc_decreases c 0 (s / (1 + e)) q ltac:(lra) (conj Q SL) D). unfold a in B. lra.
Qed.

(** so is the lower bound: above it some spin is accepted *)
Theorem C108_lower_bound_sharp e p : 0 <= e < 1 -> 1 + e < p ->
  exists a, 0 < a < 1 /\ is_stable (Some a) (Some p) (Some e) (Some 1) = Ret true.
Proof.
  intros He Hp. destruct (ecc_cc e He) as (_ & C). set (c := cc e) in *.
  set (q6 := 4 + 2 / c). assert (C0 : 0 < 2 / c) by (apply Rdiv_lt_0_compat; lra).
  set (q := p / (1 + e)). assert (PQ : p = (1 + e) * q) by (unfold q; field; lra).
  assert (Q1 : 1 < q) by (apply (Rmult_lt_reg_l (1 + e)); lra). assert (Q61 : 1 < q6) by (unfold q6; lra).
  set (m := Rmin q q6). assert (M : 1 < m /\ m <= q /\ m <= q6) by (unfold m; repeat split; [apply Rmin_glb_lt; lra | apply Rmin_l | apply Rmin_r]).
  set (r := (1 + m) / 2). assert (R : 1 < r /\ r < q /\ r < q6) by (unfold r; lra). destruct R as (R1 & Rq & R6).
  assert (D0 : forall u, dom c (0 / u^2)) by (intros u; replace (0 / u^2) with 0 by (unfold Rdiv; ring); apply dom0; exact C).
  assert (T0 : 0 / r^2 = 0) by (unfold Rdiv; ring). assert (DR : dom c 0) by (apply dom0; exact C).
  assert (B6 : bc c 0 q6 = 0).
  { rewrite bc_yy by (try apply D0; lra). replace (0 / q6^2) with 0 by (unfold Rdiv; ring).
    rewrite (yy_unique c q6 0 1); [ring | apply dom0; exact C | lra | lra |]. rewrite eta0 by exact C. unfold q6. field. split; lra. }
  pose proof (bc_decreases c 0 r q6 ltac:(lra) (conj R1 R6) (D0 r)) as L1. rewrite B6 in L1.
  assert (L2 : bc c 0 r < 1).
  { assert (BE := bc_yy c 0 r R1 (D0 r)). rewrite T0, Rminus_0_r, sqrt_1 in BE. rewrite BE in L1 |- *.
    pose proof (yy_pos c r 0 DR R1) as Y0. pose proof (yy_eq c r 0 DR R1) as YE. set (y := yy c r 0) in *.
    rewrite eta0 in YE by exact C. assert (S0 : 0 < sqrt r) by (apply sqrt_lt_R0; lra). assert (SS : sqrt r * sqrt r = r) by (apply sqrt_sqrt; lra).
    assert (Y1 : y < 1) by nra.
    assert (RE : r = 1 + (c + 2) / c * y^2 + 2 * y).
    { assert (r - 1 = (c + 2) / c * (y^2 + 2 * (c / (c + 2)) * y)); [rewrite YE; field; split; lra|]. replace ((c + 2) / c * (y^2 + 2 * (c / (c + 2)) * y)) with ((c + 2) / c * y^2 + 2 * y) in H by (field; split; lra). lra. }
    assert (LT : r * (1 - y)^2 < 1).
    { rewrite RE. assert (G : (1 + (c + 2) / c * y^2 + 2 * y) * (1 - y)^2 - 1 = y^2 / c * ((c + 2) * y^2 - 4 * y - 2 * (c - 1))) by (field; lra).
      assert (0 < y^2 / c) by (apply Rdiv_lt_0_compat; [apply pow_lt|]; lra). assert (Y2 : y^2 < y) by nra. assert (0 <= (c - 1) * (2 - y^2)) by (apply Rmult_le_pos; lra). assert ((c + 2) * y^2 - 4 * y - 2 * (c - 1) < 0) by nra. nra. }
    assert (0 < sqrt r * (1 - y)) by (apply Rmult_lt_0_compat; lra). assert ((sqrt r * (1 - y))^2 < 1) by (replace ((sqrt r * (1 - y))^2) with ((sqrt r * sqrt r) * (1 - y)^2) by ring; rewrite SS; exact LT).
    rewrite Rmult_1_r. nra. }
  set (a := bc c 0 r) in *. exists a. split; [lra|].
  destruct (C22_is_stable_above_separatrix HR a e 1 ltac:(lra) ltac:(lra) ltac:(lra)) as (s & Hs & K). rewrite K.
  destruct (Rlt_dec s p) as [L|L]; [reflexivity | exfalso].
  destruct (sep_facts HR a e 1 s ltac:(lra) He ltac:(lra) Hs) as (Q & D & B). fold c in D, B. replace (a^2 * (1 - 1^2)) with 0 in D, B by ring.
  assert (SL : r < s / (1 + e)). { apply Rlt_le_trans with q; [exact Rq|]. unfold q. apply Rmult_le_compat_r; [apply Rlt_le, Rinv_0_lt_compat; lra | lra]. }
  pose proof (bc_decreases c 0 r (s / (1 + e)) ltac:(lra) (conj R1 SL) (D0 r)) as BD. fold a in BD. lra.
Qed.

(** concrete cases: circular orbits at p = 9 are stable around every hole; at p = 8 some retrograde one is refused *)
Example C108_case : is_stable (Some (99/100)) (Some 9) (Some 0) (Some (-1)) = Ret true /\
  (exists a, 0 < a < 1 /\ is_stable (Some a) (Some 8) (Some 0) (Some (-1)) = Ret false) /\
  is_stable (Some (99/100)) (Some 7) (Some 0) (Some 0) = Ret true.
Proof.
  assert (S1 : sqrt (1 + 0) = 1) by (rewrite Rplus_0_r; apply sqrt_1). refine (conj _ (conj _ _)).
  - apply C108_always_stable; rewrite ?S1; lra.
  - apply C108_upper_bound_sharp; rewrite ?S1; lra.
  - apply C108_always_stable_prograde; lra.
Qed.
End S.
